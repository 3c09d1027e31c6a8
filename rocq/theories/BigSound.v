(** * Every returning run is a run of the natural semantics *)
From Coq Require Import String List Arith ZArith Bool Lia.
From Verif Require Import Types Compound Parser Outcome CompoundFacts Exec Mono Derive Typing Join Leaves Sound BigStep.
Import ListNotations.
Local Open Scope outcome_scope.

(** If [x] returns, [Q] holds of the value and the trace. *)
Definition post {A} (x : outcome A) (Q : A -> list event -> Prop) : Prop :=
  match x with Done a tr => Q a tr | _ => True end.

Lemma post_bind {A B} (x : outcome A) (f : A -> outcome B) Q :
  post x (fun a tr => post (f a) (fun b tr' => Q b (tr ++ tr'))) -> post (bind x f) Q.
Proof. destruct x; cbn; auto. destruct (f a); cbn; auto. Qed.

Lemma post_mono {A} (x : outcome A) (P Q : A -> list event -> Prop) :
  post x P -> (forall a tr, P a tr -> Q a tr) -> post x Q.
Proof. destruct x; cbn; auto. Qed.

Lemma post_ret {A} (a : A) (Q : A -> list event -> Prop) : Q a [] -> post (ret a) Q.
Proof. auto. Qed.

Section Elementary.
Context {T V : Type} (E : env T V).

(** When a single-step parser accepts. *)
Definition accepts (p : parser T) (i : span) : Prop :=
  match p with
  | PAnyOf arr => head_is E i (in_set E arr)
  | PNoneOf arr => head_is E i (fun c => ~ in_set E arr c)
  | PAllOf arr => prefix_is E i arr
  | PAnything => 0 < sp_len i
  | _ => False
  end.

Lemma fc_accepts p fc len i : elementary E p = Some (fc, len) -> valid E i ->
  exists x, fc i = ret x /\ (x = false <-> accepts p i) /\ (x = false -> len <= sp_len i).
Proof.
  intros Hp Hv. destruct (fc_spec E p fc len i Hp Hv) as (x & Hx & Hiff). exists x. split; auto.
  split; [|intros Hf; apply Hiff in Hf; tauto]. rewrite Hiff. clear Hx Hiff x.
  destruct p; try discriminate; injection Hp as <- <-; cbn [accepts]; unfold head_is, prefix_is, in_set; split.
  - intros [Hl Hm]. split; [lia|]. specialize (Hm Look). inversion Hm; subst. eauto.
  - intros (Hl & c & Hc & Ht). split; [lia|]. intros m. rewrite Nat.add_1_r. econstructor; eauto.
  - intros [Hl Hm]. split; [lia|]. specialize (Hm Look). inversion Hm; subst. exists c. split; auto.
    intros (t & Ht & He). rewrite H4 in He; auto. discriminate.
  - intros (Hl & c & Hc & Ht). split; [lia|]. intros m. rewrite Nat.add_1_r. econstructor; eauto.
    intros t Hin. destruct (eqv E t c) eqn:He; auto. exfalso. eauto.
  - intros [Hl Hm]. split; [lia|]. specialize (Hm Look). inversion Hm; subst. auto.
  - intros (Hl & Hm). split; auto. intros m. constructor. auto.
  - intros [Hl Hm]. lia.
  - intros Hl. split; [lia|]. intros m. rewrite Nat.add_1_r.
    destruct (read_valid E i Hv ltac:(lia)) as (c & Hc & _). econstructor; eauto.
Qed.

Lemma big_accept p fc len i m : elementary E p = Some (fc, len) -> accepts p i ->
  big E m p i (ok1 m i len) [].
Proof.
  intros Hp Ha. destruct p; try discriminate; injection Hp as <- <-; cbn [accepts] in Ha; now constructor.
Qed.

Lemma big_refuse p fc len i m : elementary E p = Some (fc, len) -> ~ accepts p i ->
  big E m p i (Res None i) [].
Proof.
  intros Hp Ha. destruct p; try discriminate; injection Hp as <- <-; cbn [accepts] in Ha; try (constructor; auto; fail).
  apply B_anything_no. lia.
Qed.

Lemma big_elementary p fc len i m r tr : elementary E p = Some (fc, len) -> big E m p i r tr ->
  tr = [] /\ (accepts p i /\ r = ok1 m i len \/ ~ accepts p i /\ r = Res None i).
Proof.
  intros Hp Hb. destruct p; try discriminate; injection Hp as <- <-; inversion Hb; subst; cbn [accepts];
    split; auto. right. split; auto. lia.
Qed.
End Elementary.

Section Sound.
Context {T V : Type} (E : env T V).
Notation big := (big E). Notation biter := (biter E). Notation btail := (btail E).
Notation bchain := (bchain E). Notation bfirst := (bfirst E). Notation valid := (valid E).

Definition bfun (m : mode) (q : parser T) (f : pfun) : Prop :=
  forall i, valid i -> post (f i) (fun r tr => big m q i r tr).

Lemma big_fail m q i rem tr : big m q i (Res None rem) tr -> rem = i.
Proof. intros H. now apply (proj1 (big_suffix E)) in H as [_ H]; apply H. Qed.

Lemma big_succ_valid m q i v rem tr : valid i -> big m q i (Res (Some v) rem) tr -> valid rem.
Proof. intros Hv H. apply (proj1 (big_suffix E)) in H as [H _]. cbn in H. eapply suffix_valid; eauto. Qed.

(** The builder's value is irrelevant to the run, or it is the vector so far. *)
Definition drops (m : mode) (q : parser T) : Prop := m = Look \/ result_for E q = Some TVoid.

Lemma drops_shaped m q v : drops m q -> shaped E m q v.
Proof. intros [->|H] Hm t Ht Hv; congruence. Qed.

Lemma rval_shaped m q w : shaped E m q (RVal w).
Proof. intros _ t _ _. eauto. Qed.

Lemma rep_big m q f : bfun m q f ->
  forall k i b s, valid i -> (drops m q /\ b = RVoid \/ exists ws0, b = RVal (VVec ws0)) ->
  post (rep_loop f k i b s) (fun '(i', b', s') tr => exists vs, biter m q i vs i' tr /\
    s' = (s || negb (match vs with [] => true | _ => false end)) /\
    (b = RVoid /\ b' = RVoid \/ exists ws0 ws, b = RVal (VVec ws0) /\ vs = map RVal ws /\ b' = RVal (VVec (ws0 ++ ws)))).
Proof.
  intros Hf. induction k as [|k IH]; intros i b s Hv Hb; cbn [rep_loop]; [exact I|].
  apply post_bind. eapply post_mono; [apply Hf; auto|]. intros [[v|] rem] tr H; cbn [r_ok r_rem].
  - pose proof (big_succ_valid _ _ _ _ _ _ Hv H) as Hv'. apply post_bind.
    destruct Hb as [[Hd ->]|[ws0 ->]]; [|destruct v as [|w]; [exact I|]]; cbn [b_insert_back post ret].
    + eapply post_mono; [apply IH; auto|]. intros [[i' b'] s'] tr' (vs & Hi & -> & Hbb).
      exists (v :: vs). split; [eapply BI_next; eauto; now apply drops_shaped|].
      split; [now rewrite orb_true_r|]. destruct Hbb as [Hbb|(? & ? & [=] & _)]; auto.
    + eapply post_mono; [apply IH; eauto|]. intros [[i' b'] s'] tr' (vs & Hi & -> & Hbb).
      exists (RVal w :: vs). split; [eapply BI_next; eauto; apply rval_shaped|].
      split; [now rewrite orb_true_r|]. destruct Hbb as [[[=] _]|(ws1 & ws & [= <-] & -> & ->)].
      right. exists ws0, (w :: ws). rewrite <- app_assoc. auto.
  - apply big_fail in H as Hr. subst rem. cbn. exists []. rewrite app_nil_r. split; [now constructor|].
    rewrite orb_false_r. split; auto. destruct Hb as [[Hd ->]|[ws0 ->]]; auto.
    right. exists ws0, []. rewrite app_nil_r. auto.
Qed.

Lemma exactly_big m q f : bfun m q f ->
  forall k j i b, valid i ->
  (drops m q /\ b = RVoid \/ exists ws0 ds, b = RVal (VArr (ws0 ++ ds)) /\ List.length ws0 = j /\ List.length ds = k) ->
  post (exactly_loop f k j i b) (fun o tr => match o with
    | None => bchain (repeat (m, q) k) i None tr
    | Some (i', b') => exists vs, bchain (repeat (m, q) k) i (Some (vs, i')) tr /\
        (b = RVoid /\ b' = RVoid \/ exists ws0 ds ws, b = RVal (VArr (ws0 ++ ds)) /\ List.length ws0 = j /\
           vs = map RVal ws /\ b' = RVal (VArr (ws0 ++ ws)))
    end).
Proof.
  intros Hf. induction k as [|k IH]; intros j i b Hv Hb; cbn [exactly_loop repeat].
  - cbn. exists []. split; [constructor|]. destruct Hb as [[_ ->]|(ws0 & ds & -> & Hl & Hd)]; auto.
    right. exists ws0, ds, []. destruct ds; [|discriminate]. auto.
  - apply post_bind. eapply post_mono; [apply Hf; auto|]. intros [[v|] rem] tr H; cbn [r_ok r_rem].
    + pose proof (big_succ_valid _ _ _ _ _ _ Hv H) as Hv'. apply post_bind.
      destruct Hb as [[Hd ->]|(ws0 & [|d ds] & -> & Hl & Hd)]; [|discriminate|].
      * cbn [b_array_assign post ret]. eapply post_mono; [apply IH; auto|].
        intros [[i' b']|] tr' Hc.
        -- destruct Hc as (vs & Hc & Hb). exists (v :: vs). split.
           ++ apply (BC_next E m q _ i v rem (Some (vs, i')) tr tr'); auto. now apply drops_shaped.
           ++ destruct Hb as [Hb|(? & ? & ? & [=] & _)]; auto.
        -- apply (BC_next E m q _ i v rem None tr tr'); auto. now apply drops_shaped.
      * destruct v as [|w]; [exact I|]. cbn [b_array_assign].
        destruct (Nat.ltb_spec j (List.length (ws0 ++ d :: ds))); [|exact I]. cbn [post ret].
        subst j. rewrite upd_app.
        replace (ws0 ++ w :: ds) with ((ws0 ++ [w]) ++ ds) by now rewrite <- app_assoc.
        injection Hd as Hd.
        eapply post_mono; [apply IH; auto; right; exists (ws0 ++ [w]), ds; rewrite app_length, Nat.add_1_r; auto|].
        intros [[i' b']|] tr' Hc.
        -- destruct Hc as (vs & Hc & Hb). exists (RVal w :: vs). split.
           ++ apply (BC_next E m q _ i (RVal w) rem (Some (vs, i')) tr tr'); auto. apply rval_shaped.
           ++ destruct Hb as [[[=] _]|(ws1 & ds1 & ws & [= He] & Hl & -> & ->)]. right.
              exists ws0, (d :: ds), (w :: ws). split; auto. split; auto. split; auto.
              assert (ws1 = ws0 ++ [w]) as ->.
              { rewrite <- app_assoc in He. cbn in He. clear -He Hl. revert ws1 He Hl.
                induction ws0 as [|a ws0 IH]; intros [|x ws1] He Hl; try discriminate.
                - destruct ws1; [|discriminate]. cbn in *. congruence.
                - cbn in *. injection He as -> He. f_equal. apply IH; auto. }
              now rewrite <- app_assoc.
        -- apply (BC_next E m q _ i (RVal w) rem None tr tr'); auto. apply rval_shaped.
    + apply big_fail in H as Hr. subst rem. cbn. rewrite app_nil_r. now constructor.
Qed.

(** Sequences *)
Lemma seq_big rec tys0 tys ps ws :
  Forall2 (fun p t => bfun (part_mode t) p (rec (part_mode t) p) /\ result_for E p = Some t) ps tys ->
  forall i, valid i -> List.length ws = List.length (nonvoid tys0) ->
  post (exec_and rec (unwrapped (nonvoid (tys0 ++ tys))) (combine ps (seq_from (List.length ws) tys))
            (i, tuple_of (ws ++ map default_val (nonvoid tys))))
    (fun '(okb, (i', b')) tr => if okb : bool
       then exists vs ws', bchain (parts tys ps) i (Some (vs, i')) tr /\ kept tys vs ws' /\ b' = tuple_of (ws ++ ws')
       else bchain (parts tys ps) i None tr).
Proof.
  intros HF. revert tys0 ws. induction HF as [|p t ps tys [Hf Ht] HF IH]; intros tys0 ws i Hv Hk;
    cbn [seq_from combine exec_and].
  - cbn. exists [], []. split; [constructor|]. split; [constructor|auto].
  - assert (Happ : forall (l : list ty), tys0 ++ t :: l = (tys0 ++ [t]) ++ l) by (intros; now rewrite <- app_assoc).
    change (parts (t :: tys) (p :: ps)) with ((part_mode t, p) :: parts tys ps).
    unfold part_mode in *. destruct (is_void t) eqn:Htv; cbn [combine exec_and nonvoid filter negb];
      rewrite ?Htv; cbn [negb combine exec_and].
    + apply is_void_spec in Htv. subst t. apply post_bind. cbn [execute]. apply post_bind.
      eapply post_mono; [apply Hf; auto|].
      intros [[v|] rem] tr H; cbn [has_value r_ok r_rem post ret].
      * pose proof (big_succ_valid _ _ _ _ _ _ Hv H) as Hv'.
        specialize (IH (tys0 ++ [TVoid]) ws rem Hv'). rewrite <- Happ in IH.
        eapply post_mono; [apply IH|].
        { unfold nonvoid. rewrite filter_app. cbn. now rewrite app_nil_r. }
        intros [[|] [i' b']] tr' Hc.
        -- destruct Hc as (vs & ws' & Hc & Hk' & ->). exists (v :: vs), ws'. rewrite !app_nil_r. split.
           ++ apply (BC_next E Look p _ i v rem (Some (vs, i')) tr tr'); auto. apply drops_shaped. now left.
           ++ split; auto. now constructor.
        -- rewrite !app_nil_r. apply (BC_next E Look p _ i v rem None tr tr'); auto. apply drops_shaped. now left.
      * apply big_fail in H as Hr. subst rem. rewrite !app_nil_r. now constructor.
    + apply is_void_false in Htv. apply post_bind. cbn [execute]. apply post_bind.
      eapply post_mono; [apply Hf; auto|].
      intros [[v|] rem] tr H; cbn [r_ok r_rem].
      * pose proof (big_succ_valid _ _ _ _ _ _ Hv H) as Hv'. apply post_bind.
        destruct v as [|w].
        { destruct (store _ _ _ _ _) eqn:Hx; cbn; auto. exfalso.
          revert Hx. unfold store. destruct (unwrapped _); cbn [b_assign b_get_assign].
          all: destruct (tuple_of _) as [|[]] eqn:Hto; cbn; try discriminate.
          all: destruct ws as [|x1 [|x2 ws]]; cbn in Hto; try discriminate;
           try (destruct (map default_val (filter (fun t : ty => negb (is_void t)) tys)); cbn in Hto; discriminate). }
        cbn [map].
        replace (unwrapped (nonvoid (tys0 ++ t :: tys)))
          with (unwrapped (map (fun _ => TVoid) (ws ++ default_val t :: map default_val (nonvoid tys)))) at 1.
        2: { rewrite <- (map_id (nonvoid (tys0 ++ t :: tys))). apply unwrapped_map.
             unfold nonvoid at 2. rewrite filter_app. cbn. apply is_void_false in Htv. rewrite Htv. cbn.
             rewrite !app_length. cbn. rewrite map_length. fold nonvoid. unfold nonvoid in Hk |- *. lia. }
        rewrite tuple_of_store. cbn [post ret].
        specialize (IH (tys0 ++ [t]) (ws ++ [w]) rem Hv'). rewrite <- Happ in IH.
        rewrite (app_length ws [w]) in IH. cbn [List.length] in IH.
        rewrite (Nat.add_1_r (List.length ws)) in IH. rewrite <- app_assoc in IH.
        eapply post_mono; [apply IH|].
        { unfold nonvoid in *. rewrite filter_app, app_length. cbn. apply is_void_false in Htv. rewrite Htv. cbn. lia. }
        intros [[|] [i' b']] tr' Hc.
        -- destruct Hc as (vs & ws' & Hc & Hk' & ->). exists (RVal w :: vs), (w :: ws'). cbn [app]. rewrite !app_nil_r. split.
           ++ apply (BC_next E Parse p _ i (RVal w) rem (Some (vs, i')) tr tr'); auto. apply rval_shaped.
           ++ rewrite <- app_assoc. split; auto. now constructor.
        -- rewrite !app_nil_r. apply (BC_next E Parse p _ i (RVal w) rem None tr tr'); auto. apply rval_shaped.
      * apply big_fail in H as Hr. subst rem. cbn. rewrite !app_nil_r. now constructor.
Qed.

Lemma seq_look_big rec unw b ps : Forall (fun p => bfun Look p (rec Look p)) ps -> forall i, valid i ->
  post (exec_and rec unw (map (fun p => (p, None)) ps) (i, b))
    (fun '(okb, (i', _)) tr => if okb : bool
       then exists vs, bchain (map (pair Look) ps) i (Some (vs, i')) tr
       else bchain (map (pair Look) ps) i None tr).
Proof.
  induction 1 as [|p ps Hf _ IH]; intros i Hv; cbn [map exec_and].
  - cbn. exists []. constructor.
  - apply post_bind. cbn [execute]. apply post_bind. eapply post_mono; [apply Hf; auto|].
    intros [[v|] rem] tr H; cbn [has_value r_ok r_rem post ret].
    + pose proof (big_succ_valid _ _ _ _ _ _ Hv H) as Hv'. eapply post_mono; [apply IH; auto|].
      assert (Hsh : shaped E Look p v) by (apply drops_shaped; now left).
      intros [[|] [i' b']] tr' Hc; rewrite !app_nil_r.
      * destruct Hc as (vs & Hc). exists (v :: vs). apply (BC_next E Look p _ i v rem (Some (vs, i')) tr tr'); auto.
      * apply (BC_next E Look p _ i v rem None tr tr'); auto.
    + apply big_fail in H as Hr. subst rem. rewrite !app_nil_r. now constructor.
Qed.

(** Choices *)
Lemma or_big rec unw b l : Forall (fun '(p, idx) => bfun (idx_mode idx) p (rec (idx_mode idx) p)) l ->
  (forall p k, In (p, Some k) l -> exists x, b = RVal x) ->
  forall i, valid i ->
  post (exec_or rec unw l (i, b)) (fun '(okb, (i', b')) tr =>
    let ml := map (fun '(p, idx) => (idx_mode idx, p)) l in
    if okb : bool
    then exists j v p idx, bfirst ml i (Some (j, v, i')) tr /\ nth_error l j = Some (p, idx) /\
         match idx with None => b' = b | Some k => exists w, v = RVal w /\ b' = RVal (if unw then w else VVar k w) end
    else bfirst ml i None tr).
Proof.
  intros HF Hb i Hv. induction HF as [|[p idx] l Hf HF IH]; cbn [exec_or map].
  - cbn. constructor.
  - assert (IH' := IH (fun p k H => Hb p k (or_intror H))). clear IH.
    apply post_bind. destruct idx as [k|]; cbn [execute idx_mode] in *.
    + apply post_bind. eapply post_mono; [apply Hf; auto|].
      intros [[v|] rem] tr H; cbn [r_ok r_rem].
      * destruct (Hb p k (or_introl eq_refl)) as [x ->]. apply post_bind.
        destruct (store _ _ _ _ _) as [b'' tr''| | | |] eqn:Hst; cbn; auto.
        assert (Hst' : tr'' = [] /\ exists w, v = RVal w /\ b'' = RVal (if unw then w else VVar k w)).
        { revert Hst. unfold store. destruct unw, v; cbn; try discriminate; try (intros [= <- <-]; eauto).
          all: destruct x; cbn; try discriminate. intros [= <- <-]; eauto. }
        destruct Hst' as [-> Hw]. exists 0, v, p, (Some k). rewrite !app_nil_r. split; [now constructor|]. auto.
      * apply big_fail in H as Hr. subst rem. cbn [post ret]. eapply post_mono; [apply IH'|].
        intros [[|] [i' b']] tr' Hc; rewrite !app_nil_r.
        -- destruct Hc as (j & v & p' & idx & Hc & Hn & Hm). exists (S j), v, p', idx. split; auto.
           apply (BF_next E Parse p _ i (Some (j, v, i')) tr tr'); auto.
        -- apply (BF_next E Parse p _ i None tr tr'); auto.
    + apply post_bind. eapply post_mono; [apply Hf; auto|].
      intros [[v|] rem] tr H; cbn [has_value r_ok r_rem post ret].
      * exists 0, v, p, None. rewrite !app_nil_r. split; [now constructor|]. auto.
      * apply big_fail in H as Hr. subst rem. eapply post_mono; [apply IH'|].
        intros [[|] [i' b']] tr' Hc; rewrite !app_nil_r.
        -- destruct Hc as (j & v & p' & idx & Hc & Hn & Hm). exists (S j), v, p', idx. split; auto.
           apply (BF_next E Look p _ i (Some (j, v, i')) tr tr'); auto.
        -- apply (BF_next E Look p _ i None tr tr'); auto.
Qed.

(** Delimit *)
Lemma delim_value_push_p tp td pvs dvs b v b1 tr :
  delim_value tp td pvs dvs b ->
  (if is_void tp then ret b else if is_void td then b_insert_back b v else b_insert_back_first b v) = Done b1 tr ->
  tr = [] /\ delim_value tp td (pvs ++ [v]) dvs b1 /\ (tp = TVoid \/ exists w, v = RVal w).
Proof.
  intros H. inversion H; subst; cbn.
  - intros [= <- <-]. split; auto. split; auto. constructor.
  - rewrite (proj2 (is_void_false tp) H0). destruct v; cbn; [discriminate|]. intros [= <- <-].
    split; auto. split; eauto. change [RVal v] with (map RVal [v]). rewrite <- map_app. now constructor.
  - intros [= <- <-]. split; auto. split; auto. constructor; auto.
  - rewrite (proj2 (is_void_false tp) H0), (proj2 (is_void_false td) H1). destruct v; cbn; [discriminate|].
    intros [= <- <-]. split; auto. split; eauto. change [RVal v] with (map RVal [v]). rewrite <- map_app. now constructor.
Qed.

Lemma delim_value_push_d tp td pvs dvs b v b1 tr :
  delim_value tp td pvs dvs b ->
  (if is_void td then ret b else if is_void tp then b_insert_back b v else b_insert_back_second b v) = Done b1 tr ->
  tr = [] /\ delim_value tp td pvs (dvs ++ [v]) b1 /\ (td = TVoid \/ exists w, v = RVal w).
Proof.
  intros H. inversion H; subst; cbn.
  - intros [= <- <-]. split; auto. split; auto. constructor.
  - intros [= <- <-]. split; auto. split; auto. constructor; auto.
  - rewrite (proj2 (is_void_false td) H0). destruct v; cbn; [discriminate|]. intros [= <- <-].
    split; auto. split; eauto. change [RVal v] with (map RVal [v]). rewrite <- map_app. now constructor.
  - rewrite (proj2 (is_void_false tp) H0), (proj2 (is_void_false td) H1). destruct v; cbn; [discriminate|].
    intros [= <- <-]. split; auto. split; eauto. change [RVal v] with (map RVal [v]). rewrite <- map_app. now constructor.
Qed.

Lemma shaped_ty m q t v : (m = Parse -> result_for E q = Some t) -> (t = TVoid \/ exists w, v = RVal w) ->
  shaped E m q v.
Proof.
  intros Ht H -> t' Ht' Hn. rewrite Ht in Ht' by auto. injection Ht' as <-. destruct H; [contradiction|auto].
Qed.

Lemma delim_big m q d tp td fp fd : bfun m q fp -> bfun m d fd ->
  (m = Parse -> result_for E q = Some tp) -> (m = Parse -> result_for E d = Some td) ->
  forall k v rem i b pvs dvs, valid rem -> delim_value tp td pvs dvs b ->
  post (delim_loop fp fd (is_void tp) (is_void td) k (Res (Some v) rem) i b)
    (fun '(i', b') tr => exists prs, shaped E m q v /\ btail m q d rem prs i' tr /\
       delim_value tp td (pvs ++ v :: map snd prs) (dvs ++ map fst prs) b').
Proof.
  intros Hp Hd Htp Htd. induction k as [|k IH]; intros v rem i b pvs dvs Hv Hb; cbn [delim_loop r_ok r_rem]; [exact I|].
  apply post_bind.
  destruct (if is_void tp then ret b else if is_void td then b_insert_back b v else b_insert_back_first b v)
    as [b1 tr0| | | |] eqn:Hb1; cbn [post]; auto.
  destruct (delim_value_push_p _ _ _ _ _ _ _ _ Hb Hb1) as (-> & Hv1 & Hsh).
  pose proof (shaped_ty m q tp v Htp Hsh) as Hshv.
  apply post_bind. eapply post_mono; [apply Hd; auto|]. intros [[w|] remd] tr1 H1; cbn [r_ok r_rem].
  - pose proof (big_succ_valid _ _ _ _ _ _ Hv H1) as Hvd. apply post_bind.
    eapply post_mono; [apply Hp; auto|]. intros [[v'|] remp] tr2 H2; cbn [has_value r_ok r_rem].
    + pose proof (big_succ_valid _ _ _ _ _ _ Hvd H2) as Hvp. apply post_bind.
      destruct (if is_void td then ret b1 else if is_void tp then b_insert_back b1 w else b_insert_back_second b1 w)
        as [b2 tr3| | | |] eqn:Hb2; cbn [post]; auto.
      destruct (delim_value_push_d _ _ _ _ _ _ _ _ Hv1 Hb2) as (-> & Hv2 & Hshw).
      pose proof (shaped_ty m d td w Htd Hshw) as Hshw'.
      eapply post_mono; [apply (IH v' remp rem b2 _ _ Hvp Hv2)|].
      intros [i' b'] tr4 (prs & Hs' & Ht & Hdv). cbn [app]. exists ((w, v') :: prs).
      split; auto. split; [eapply BT_next; eauto|]. cbn [map fst snd].
      rewrite <- !app_assoc in Hdv. exact Hdv.
    + apply big_fail in H2 as Hr. subst remp.
      assert (Hif : (if is_void td then ret b1 else ret b1) = ret b1) by now destruct (is_void td).
      rewrite Hif. apply post_bind. cbn [post ret]. destruct k; cbn [delim_loop r_ok post]; auto.
      cbn. exists []. split; auto. rewrite !app_nil_r. split; auto. eapply BT_back; eauto.
  - apply big_fail in H1 as Hr. subst remd. cbn. exists []. rewrite !app_nil_r. split; auto.
    split; auto. now constructor.
Qed.

(** Specialised joins *)
Lemma jr_big q fc len : elementary E q = Some (fc, len) -> forall k res i, valid i ->
  post (jr_loop fc len k res i) (fun '(res', i') tr => tr = [] /\ exists n, n * len <= sp_len i /\
    i' = adv i (n * len) /\ res' = Span (sp_blk res) (sp_off res) (sp_len res + n * len) /\
    forall m, biter m q i (map (in_mode m) (run_spans (sp_blk i) (sp_off i) len n)) i' []).
Proof.
  intros Hq. induction k as [|k IH]; intros res i Hv; cbn [jr_loop]; [exact I|].
  destruct (fc_accepts E q fc len i Hq Hv) as (x & -> & Hx & Hle). rewrite bind_ret. destruct x.
  - cbn. split; auto. exists 0. cbn. rewrite adv_0, Nat.add_0_r. split; [lia|]. split; auto. split; [now destruct res|].
    intros m. constructor. eapply big_refuse; eauto. rewrite <- Hx. discriminate.
  - specialize (Hle eq_refl). unfold advance. destruct (Nat.leb_spec len (sp_len i)); [|lia]. rewrite bind_ret.
    change (Span (sp_blk i) (sp_off i + len) (sp_len i - len)) with (adv i len).
    eapply post_mono; [apply IH; apply (suffix_valid E i); auto|].
    intros [res' i'] tr (-> & n & Hn & -> & -> & Hi). split; auto. cbn [adv sp_len sp_blk sp_off] in *.
    exists (S n). cbn [Nat.mul]. split; [lia|]. rewrite adv_adv. split; auto. split; [f_equal; lia|].
    intros m.
    replace (run_spans (sp_blk i) (sp_off i) len (S n))
      with (VSpan (Span (sp_blk i) (sp_off i) len) :: run_spans (sp_blk i) (sp_off i + len) len n).
    2: { unfold run_spans. cbn [seq map]. rewrite Nat.mul_0_l, Nat.add_0_r. f_equal.
         rewrite <- seq_shift, map_map. apply map_ext. intros a. do 2 f_equal. lia. }
    cbn [map]. apply (BI_next E m q i _ (adv i len) _ _ [] []).
    + eapply big_accept; eauto. now apply Hx.
    + intros -> t _ _. cbn. eauto.
    + rewrite <- adv_adv. apply Hi.
Qed.

Lemma run_spans_cons b lo len n :
  run_spans b lo len (S n) = VSpan (Span b lo len) :: run_spans b (lo + len) len n.
Proof.
  unfold run_spans. cbn [seq map]. rewrite Nat.mul_0_l, Nat.add_0_r. f_equal.
  rewrite <- seq_shift, map_map. apply map_ext. intros a. do 2 f_equal. lia.
Qed.

Lemma jx_big q fc len : elementary E q = Some (fc, len) -> forall k res i, valid i ->
  post (jx_loop fc len k res i) (fun o tr => tr = [] /\ match o with
    | None => forall m, bchain (repeat (m, q) k) i None []
    | Some (res', i') => k * len <= sp_len i /\ i' = adv i (k * len) /\
        res' = Span (sp_blk res) (sp_off res) (sp_len res + k * len) /\
        forall m, bchain (repeat (m, q) k) i
           (Some (map (in_mode m) (run_spans (sp_blk i) (sp_off i) len k), i')) []
    end).
Proof.
  intros Hq. induction k as [|k IH]; intros res i Hv; cbn [jx_loop repeat].
  - cbn. split; auto. rewrite adv_0, Nat.add_0_r. split; [lia|]. split; auto. split; [now destruct res|]. constructor.
  - destruct (fc_accepts E q fc len i Hq Hv) as (x & -> & Hx & Hle). rewrite bind_ret. destruct x.
    + cbn. split; auto. intros m. constructor. eapply big_refuse; eauto. rewrite <- Hx. discriminate.
    + specialize (Hle eq_refl). unfold advance. destruct (Nat.leb_spec len (sp_len i)); [|lia]. rewrite bind_ret.
      change (Span (sp_blk i) (sp_off i + len) (sp_len i - len)) with (adv i len).
      assert (Hok : forall m, big m q i (ok1 m i len) []) by (intros; eapply big_accept; eauto; now apply Hx).
      assert (Hsh : forall m, shaped E m q (in_mode m (VSpan (Span (sp_blk i) (sp_off i) len))))
        by (intros m -> t _ _; cbn; eauto).
      eapply post_mono; [apply IH; apply (suffix_valid E i); auto|].
      intros [[res' i']|] tr [-> Hc]; split; auto.
      * destruct Hc as (Hn & -> & -> & Hi). cbn [adv sp_len sp_blk sp_off] in *. cbn [Nat.mul].
        split; [lia|]. rewrite adv_adv. split; auto. split; [f_equal; lia|]. intros m.
        rewrite run_spans_cons. cbn [map].
        rewrite adv_adv in Hi.
        apply (BC_next E m q _ i _ (adv i len) (Some (_, _)) [] [] (Hok m) (Hsh m) (Hi m)).
      * intros m. apply (BC_next E m q _ i _ (adv i len) None [] [] (Hok m) (Hsh m) (Hc m)).
Qed.

Lemma join_special_big q k f m : join_special E q k = Some f -> bfun m (PJoin q) (f m).
Proof.
  intros Hq i Hv. destruct q; try discriminate; cbn [join_special] in Hq;
    (destruct (as_basic E q) as [[fc len]|] eqn:Hb; [|discriminate]);
    pose proof (as_basic_elementary E _ _ Hb) as He; pose proof (elementary_ty E _ _ He) as Hty.
  - (* maybe *)
    injection Hq as <-. destruct (fc_accepts E q fc len i He Hv) as (x & Hfc & Hx & Hle).
    destruct m; unfold jm_parse, jm_look; rewrite Hfc, bind_ret; destruct x.
    + cbn. eapply B_join_ok with (x := VOpt None); [cbn; rewrite Hty; reflexivity|reflexivity| |reflexivity].
      apply (B_maybe_none E q TSpan); auto. eapply big_refuse; eauto. rewrite <- Hx. discriminate.
    + specialize (Hle eq_refl). unfold first, advance. destruct (Nat.leb_spec len (sp_len i)); [|lia].
      rewrite !bind_ret. cbn.
      eapply B_join_ok with (x := VOpt (Some (VSpan (Span (sp_blk i) (sp_off i) len))));
        [cbn; rewrite Hty; reflexivity|reflexivity| |].
      * eapply (B_maybe_some E q TSpan); auto; [eapply big_accept with (m := Parse); eauto; now apply Hx|].
        right. split; [discriminate|]. eexists. split; reflexivity.
      * unfold join_executor. cbn [try_join]. unfold try_join_span. cbn [sp_len].
        destruct (Nat.eqb_spec len 0) as [->|]; cbn; [|reflexivity]. now rewrite Nat.add_0_r.
    + cbn. apply B_join_look, B_maybe_look_none. eapply big_refuse; eauto. rewrite <- Hx. discriminate.
    + specialize (Hle eq_refl). unfold advance. destruct (Nat.leb_spec len (sp_len i)); [|lia].
      rewrite !bind_ret. cbn. eapply B_join_look, B_maybe_look_some.
      eapply big_accept with (m := Look); eauto. now apply Hx.
  - (* exactly *)
    destruct (Nat.eqb_spec n 0) as [|Hn]; [discriminate|]. injection Hq as <-.
    destruct m; unfold jx_parse, jx_look; apply post_bind;
      (eapply post_mono; [apply (jx_big q fc len He); auto|]); intros [[res' i']|] tr [-> Hc]; cbn.
    + destruct Hc as (Hl & -> & -> & Hc). specialize (Hc Parse).
      eapply B_join_ok with (x := VArr (run_spans (sp_blk i) (sp_off i) len n));
        [cbn; rewrite Hty; reflexivity|reflexivity| |].
      * eapply B_exactly_ok; eauto. right. split; [discriminate|]. eexists. split; reflexivity.
      * etransitivity; [|apply (run_spans_join VArr (sp_blk i) (sp_off i) len n); auto]. apply join_executor_rem; reflexivity.
    + eapply B_join_no; [cbn; rewrite Hty; reflexivity|reflexivity|]. eapply B_exactly_no; eauto.
    + destruct Hc as (Hl & -> & -> & Hc). eapply B_join_look, B_exactly_look_ok; eauto.
    + eapply B_join_look, B_exactly_look_no; eauto.
  - (* one or more *)
    injection Hq as <-. destruct (fc_accepts E q fc len i He Hv) as (x & Hfc & Hx & Hle).
    assert (Hok : x = false -> forall m, big m q i (ok1 m i len) []) by (intros; eapply big_accept; eauto; now apply Hx).
    assert (Hno : x = true -> forall m, big m q i (Res None i) []).
    { intros -> m0. eapply big_refuse; eauto. rewrite <- Hx. discriminate. }
    assert (Hsh : forall m, shaped E m q (in_mode m (VSpan (Span (sp_blk i) (sp_off i) len))))
        by (intros m' -> t _ _; cbn; eauto).
    destruct m; unfold jo_parse, jo_look; rewrite Hfc, bind_ret; destruct x.
    + cbn. eapply B_join_no; [cbn; rewrite Hty; reflexivity|reflexivity|]. eapply B_oom_no; eauto.
    + specialize (Hle eq_refl). unfold first, advance. destruct (Nat.leb_spec len (sp_len i)); [|lia].
      rewrite !bind_ret. apply post_bind. change (Span (sp_blk i) (sp_off i + len) (sp_len i - len)) with (adv i len).
      eapply post_mono; [apply (jr_big q fc len He); apply (suffix_valid E i); auto|].
      intros [res' i'] tr (-> & n & Hl & -> & -> & Hi). cbn [sp_len sp_blk sp_off adv] in *. cbn.
      rewrite adv_adv in *.
      eapply B_join_ok with (x := VVec (run_spans (sp_blk i) (sp_off i) len (S n)));
        [cbn; rewrite Hty; reflexivity|reflexivity| |].
      * eapply B_oom_ok; [exact Hty|apply (BI_next E Parse q i _ (adv i len) _ _ [] []); [apply (Hok eq_refl Parse)|apply (Hsh Parse)|apply (Hi Parse)]|].
        right. split; [discriminate|]. rewrite run_spans_cons. eexists. split; [|reflexivity]. reflexivity.
      * etransitivity; [|apply (run_spans_join VVec (sp_blk i) (sp_off i) len (S n)); auto]. apply join_executor_rem; reflexivity.
    + cbn. eapply B_join_look, B_oom_look_no; eauto.
    + specialize (Hle eq_refl). unfold first, advance. destruct (Nat.leb_spec len (sp_len i)); [|lia].
      rewrite !bind_ret. apply post_bind. change (Span (sp_blk i) (sp_off i + len) (sp_len i - len)) with (adv i len).
      eapply post_mono; [apply (jr_big q fc len He); apply (suffix_valid E i); auto|].
      intros [res' i'] tr (-> & n & Hl & -> & -> & Hi). cbn.
      eapply B_join_look, B_oom_look_ok. apply (BI_next E Look q i _ (adv i len) _ _ [] []);
        [apply (Hok eq_refl Look)|apply (Hsh Look)|apply (Hi Look)].
  - (* zero or more *)
    injection Hq as <-.
    destruct m; unfold jz_parse, jz_look; apply post_bind;
      (eapply post_mono; [apply (jr_big q fc len He); auto|]); intros [res' i'] tr (-> & n & Hl & -> & -> & Hi); cbn.
    + eapply B_join_ok with (x := VVec (run_spans (sp_blk i) (sp_off i) len n));
        [cbn; rewrite Hty; reflexivity|reflexivity| |].
      * eapply B_zom; [exact Hty|apply (Hi Parse)|]. right. split; [discriminate|]. eexists. split; reflexivity.
      * etransitivity; [|apply (run_spans_join VVec (sp_blk i) (sp_off i) len n); auto]. apply join_executor_rem; reflexivity.
    + eapply B_join_look, B_zom_look, (Hi Look).
Qed.

Definition brec (rec : mode -> parser T -> pfun) : Prop := forall m q, bfun m q (rec m q).

Lemma basic_big p fc len m i : elementary E p = Some (fc, len) -> valid i ->
  post (match m with Parse => basic_parse fc len i | Look => basic_look fc len i end) (fun r tr => big m p i r tr).
Proof.
  intros He Hv. destruct (fc_accepts E p fc len i He Hv) as (x & Hfc & Hx & Hle).
  destruct m; unfold basic_parse, basic_look; rewrite Hfc, bind_ret; destruct x; cbn [post ret];
    try (eapply big_refuse; eauto; rewrite <- Hx; discriminate);
    specialize (Hle eq_refl); unfold first, advance;
    (destruct (Nat.leb_spec len (sp_len i)); [|lia]); rewrite !bind_ret; cbn.
  - apply (big_accept E p fc len i Parse); auto. now apply Hx.
  - apply (big_accept E p fc len i Look); auto. now apply Hx.
Qed.

Lemma combine_alts tys (ps : list (parser T)) :
  map (fun '(p, idx) => (idx_mode idx, p)) (combine ps (snd (filter_out_void_deduplicate tys))) = alts tys ps.
Proof.
  unfold alts. generalize (snd (filter_out_void_deduplicate tys)) as l.
  induction ps as [|p ps IH]; intros [|x l]; cbn; auto. now rewrite IH.
Qed.

Lemma look_alts (ps : list (parser T)) :
  map (fun '(p, idx) => (idx_mode idx, p)) (map (fun p => (p, None)) ps) = map (pair Look) ps.
Proof. rewrite map_map. reflexivity. Qed.

Lemma choice_builder tys (ps : list (parser T)) p k :
  result_fors E ps = Some tys -> In (p, Some k) (combine ps (snd (filter_out_void_deduplicate tys))) ->
  exists x, builder_init (compound_result TVar (fst (filter_out_void_deduplicate tys))) = RVal x
            /\ (unwrapped (fst (filter_out_void_deduplicate tys)) = false -> exists a c, x = VVar a c).
Proof.
  intros Hr Hin. apply In_nth_error in Hin as [j Hj]. apply nth_error_combine in Hj as [Hj1 Hj2].
  pose proof (filter_out_void_deduplicate_spec tys) as Hspec.
  destruct (result_fors_nth E _ _ _ _ Hr Hj1) as (t & Ht1 & Ht2).
  rewrite Hspec in *. cbn [fst snd] in *.
  assert (Htv : t <> TVoid) by (eapply dedup_from_some_nonvoid; eauto).
  assert (Hnv : forall t, In t (distinct_from [] tys) -> t <> TVoid).
  { intros t' Ht'. apply distinct_from_in in Ht'. tauto. }
  assert (Hin : In t (distinct_from [] tys)).
  { apply distinct_from_in. repeat split; auto. eapply nth_error_In; eauto. }
  destruct (distinct_from [] tys) as [|a [|a' l]]; [contradiction| |]; unfold builder_init; cbn [compound_result].
  - rewrite (proj2 (is_void_false a)); [|apply Hnv; now left]. eexists. split; [reflexivity|discriminate].
  - cbn. eexists. split; [reflexivity|]. intros _. eauto.
Qed.

Lemma step_big rec k m p i : brec rec -> valid i -> post (step E rec k m p i) (fun r tr => big m p i r tr).
Proof.
  intros Hrec Hv.
  destruct p; cbn [step].
  - apply (basic_big (PAnyOf arr)); auto.
  - apply (basic_big (PNoneOf arr)); auto.
  - apply (basic_big (PAllOf arr)); auto.
  - apply (basic_big PAnything); auto.
  - cbn. constructor.
  - (* choice *)
    destruct m; unfold choice_parse, choice_look; destruct (result_fors E (p :: ps)) as [tys|] eqn:Hr; try exact I.
    + destruct (unwrapped _ || emplace_ok _ _ _) eqn:Hg; [|exact I]. apply post_bind.
      eapply post_mono; [apply or_big; auto|].
      * apply Forall_forall. intros [p' idx] _. apply Hrec.
      * intros p' k' Hin. destruct (choice_builder tys (p :: ps) p' k' Hr Hin) as (x & Hx & _). eauto.
      * intros [[|] [i' b']] tr H; cbv zeta in H; rewrite combine_alts in H; cbn [post ret]; rewrite app_nil_r.
        -- destruct H as (j & v & p' & idx & Hf & Hn & Hm). apply nth_error_combine in Hn as [Hn1 Hn2].
           eapply B_choice_ok; eauto.
           destruct idx as [k'|].
           ++ destruct Hm as (w & -> & ->). now constructor.
           ++ subst b'. now constructor.
        -- eapply B_choice_no; eauto.
    + apply post_bind. eapply post_mono; [apply or_big; auto|].
      * apply Forall_forall. intros [p' idx] _. apply Hrec.
      * intros p' k' Hin. apply in_map_iff in Hin as (p'' & [=] & Hin).
      * intros [[|] [i' b']] tr H; cbv zeta in H; rewrite look_alts in H; cbn [post ret]; rewrite app_nil_r.
        -- destruct H as (j & v & p' & idx & Hf & Hn & Hm). eapply B_choice_look_ok; eauto.
        -- eapply B_choice_look_no; eauto.
  - (* sequence *)
    destruct m; unfold sequence_parse, sequence_look; destruct (result_fors E (p :: ps)) as [tys|] eqn:Hr; try exact I.
    + rewrite filter_out_void_spec. cbn [fst snd]. rewrite (builder_init_tup _ (nonvoid_forall tys)).
      apply post_bind. eapply post_mono; [apply (seq_big rec [] tys (p :: ps) []); auto|].
      * apply Forall2_nth. split; [eapply result_fors_length; eauto|]. intros j p' t Hj Ht. split; [apply Hrec|].
        destruct (result_fors_nth E _ _ _ _ Hr Hj) as (t' & Ht1 & Ht2). congruence.
      * intros [[|] [i' b']] tr H; cbn [post ret]; rewrite app_nil_r.
        -- destruct H as (vs & ws & Hc & Hk & ->). eapply B_seq_ok; eauto.
        -- eapply B_seq_no; eauto.
    + apply post_bind. eapply post_mono; [apply (seq_look_big rec _ RVoid (p :: ps)); auto|].
      * apply Forall_forall. intros. apply Hrec.
      * intros [[|] [i' b']] tr H; cbn [post ret]; rewrite app_nil_r.
        -- destruct H as (vs & Hc). eapply B_seq_look_ok; eauto.
        -- eapply B_seq_look_no; eauto.
  - (* maybe *)
    destruct m.
    + destruct (result_for E p) as [t|] eqn:Ht; [|exact I]. unfold maybe_parse. apply post_bind.
      eapply post_mono; [apply Hrec; auto|]. intros [[v|] rem] tr H; cbn [r_ok r_rem].
      * apply post_bind. destruct (is_void t) eqn:Hvt.
        -- cbn. rewrite app_nil_r. eapply B_maybe_some; eauto. left. split; auto. now apply is_void_spec.
        -- cbn. destruct v as [|w]; cbn; auto. rewrite app_nil_r. eapply B_maybe_some; eauto. right.
           apply is_void_false in Hvt. eauto.
      * apply big_fail in H as Hr. subst rem. cbn. rewrite app_nil_r.
        replace (builder_init (if is_void t then TVoid else TOpt t))
          with (if is_void t then RVoid else RVal (VOpt None)) by now destruct (is_void t).
        apply (B_maybe_none E p t); auto.
    + unfold maybe_look. apply post_bind. eapply post_mono; [apply Hrec; auto|].
      intros [[v|] rem] tr H; cbn; rewrite app_nil_r.
      * eapply B_maybe_look_some; eauto.
      * apply big_fail in H as Hr. subst rem. eapply B_maybe_look_none; eauto.
  - (* exactly *)
    destruct (Nat.eqb_spec n 0) as [|Hn]; [exact I|]. destruct m.
    + destruct (result_for E p) as [t|] eqn:Ht; [|exact I]. unfold exactly_parse. apply post_bind.
      eapply post_mono; [apply (exactly_big Parse p (rec Parse p) (Hrec _ _)); auto|].
      * unfold builder_init. destruct (is_void t) eqn:Hvt.
        -- left. apply is_void_spec in Hvt. subst t. split; [right; auto|reflexivity].
        -- right. exists [], (repeat (default_val t) n). cbn. rewrite repeat_length. auto.
      * intros [[i' b']|] tr H; cbn; rewrite app_nil_r.
        -- destruct H as (vs & Hc & Hb). eapply B_exactly_ok; eauto. unfold builder_init in Hb.
           destruct (is_void t) eqn:Hvt; cbn in Hb.
           ++ apply is_void_spec in Hvt. left. destruct Hb as [[_ Hb]|(? & ? & ? & [=] & _)]; auto.
           ++ apply is_void_false in Hvt. right. split; auto.
              destruct Hb as [[[=] _]|(ws0 & ds & ws & _ & Hl & -> & ->)]. destruct ws0; [|discriminate]. eauto.
        -- eapply B_exactly_no; eauto.
    + unfold exactly_look. apply post_bind.
      eapply post_mono; [apply (exactly_big Look p (rec Look p) (Hrec _ _)); auto; left; split; auto; now left|].
      intros [[i' b']|] tr H; cbn; rewrite app_nil_r.
      * destruct H as (vs & Hc & Hb). eapply B_exactly_look_ok; eauto.
      * eapply B_exactly_look_no; eauto.
  - (* one or more *)
    destruct m.
    + destruct (result_for E p) as [t|] eqn:Ht; [|exact I]. unfold one_or_more_parse. apply post_bind.
      eapply post_mono; [apply (rep_big Parse p (rec Parse p) (Hrec _ _)); auto|].
      * unfold builder_init. destruct (is_void t) eqn:Hvt.
        -- left. apply is_void_spec in Hvt. subst t. split; [right; auto|reflexivity].
        -- right. exists []. auto.
      * intros [[i' b'] s'] tr (vs & Hi & -> & Hb). destruct vs as [|v vs]; cbn; rewrite app_nil_r.
        -- inversion Hi; subst. eapply B_oom_no; eauto.
        -- eapply B_oom_ok; eauto. unfold builder_init in Hb. destruct (is_void t) eqn:Hvt; cbn in Hb.
           ++ apply is_void_spec in Hvt. left. destruct Hb as [[_ Hb]|(? & ? & [=] & _)]; auto.
           ++ apply is_void_false in Hvt. right. split; auto.
              destruct Hb as [[[=] _]|(ws0 & ws & [= <-] & Hvs & ->)]. eauto.
    + unfold one_or_more_look. apply post_bind.
      eapply post_mono; [apply (rep_big Look p (rec Look p) (Hrec _ _)); auto; left; split; auto; now left|].
      intros [[i' b'] s'] tr (vs & Hi & -> & Hb). destruct vs as [|v vs]; cbn; rewrite app_nil_r.
      * inversion Hi; subst. eapply B_oom_look_no; eauto.
      * eapply B_oom_look_ok; eauto.
  - (* zero or more *)
    destruct m.
    + destruct (result_for E p) as [t|] eqn:Ht; [|exact I]. unfold zero_or_more_parse. apply post_bind.
      eapply post_mono; [apply (rep_big Parse p (rec Parse p) (Hrec _ _)); auto|].
      * unfold builder_init. destruct (is_void t) eqn:Hvt.
        -- left. apply is_void_spec in Hvt. subst t. split; [right; auto|reflexivity].
        -- right. exists []. auto.
      * intros [[i' b'] s'] tr (vs & Hi & -> & Hb). cbn; rewrite app_nil_r.
        eapply B_zom; eauto. unfold builder_init in Hb. destruct (is_void t) eqn:Hvt; cbn in Hb.
        -- apply is_void_spec in Hvt. left. destruct Hb as [[_ Hb]|(? & ? & [=] & _)]; auto.
        -- apply is_void_false in Hvt. right. split; auto.
           destruct Hb as [[[=] _]|(ws0 & ws & [= <-] & Hvs & ->)]. eauto.
    + unfold zero_or_more_look. apply post_bind.
      eapply post_mono; [apply (rep_big Look p (rec Look p) (Hrec _ _)); auto; left; split; auto; now left|].
      intros [[i' b'] s'] tr (vs & Hi & -> & Hb). cbn; rewrite app_nil_r. eapply B_zom_look; eauto.
  - (* delimit *)
    destruct m.
    + destruct (result_for E p1) as [tp|] eqn:Hp; [|exact I].
      destruct (result_for E p2) as [td|] eqn:Hd; [|exact I]. unfold delimit_parse. apply post_bind.
      eapply post_mono; [apply Hrec; auto|]. intros [[v|] rem] tr H; cbn [has_value r_ok].
      * apply post_bind. eapply post_mono.
        { apply (delim_big Parse p1 p2 tp td (rec Parse p1) (rec Parse p2)) with (pvs := []) (dvs := []); auto.
          - eapply big_succ_valid; eauto.
          - apply delim_init. }
        intros [i' b'] tr' (prs & Hsh & Ht & Hdv). cbn. rewrite app_nil_r. eapply B_delim_ok; eauto.
      * apply big_fail in H as Hr. subst rem. cbn. rewrite app_nil_r. eapply B_delim_no; eauto.
    + unfold delimit_look. apply post_bind. eapply post_mono; [apply Hrec; auto|].
      intros [[v|] rem] tr H; cbn [has_value r_ok].
      * apply post_bind. change true with (is_void TVoid).
        eapply post_mono.
        { apply (delim_big Look p1 p2 TVoid TVoid (rec Look p1) (rec Look p2)) with (pvs := []) (dvs := []); auto;
            try discriminate.
          - eapply big_succ_valid; eauto.
          - constructor. }
        intros [i' b'] tr' (prs & Hsh & Ht & Hdv). cbn. rewrite app_nil_r. eapply B_delim_look_ok; eauto.
      * apply big_fail in H as Hr. subst rem. cbn. rewrite app_nil_r. eapply B_delim_look_no; eauto.
  - (* ignore *)
    eapply post_mono; [apply Hrec; auto|]. intros. now constructor.
  - (* complete *)
    unfold complete_run. apply post_bind. eapply post_mono; [apply Hrec; auto|].
    intros [[v|] rem] tr H; cbn [has_value r_ok r_rem negb orb].
    + destruct (Nat.eqb_spec (sp_len rem) 0); cbn; rewrite app_nil_r.
      * now apply B_complete_ok.
      * eapply B_complete_rest; eauto.
    + apply big_fail in H as Hr. subst rem. cbn. rewrite app_nil_r. eapply B_complete_no; eauto.
  - (* join *)
    destruct (join_special E p k) as [f|] eqn:Hs; [now apply (join_special_big p k f m Hs)|].
    unfold join_generic. destruct m.
    + destruct (result_for E p) as [t|] eqn:Ht; [|exact I]. destruct (joinable t) eqn:Hj; [|exact I].
      unfold join_parse. apply post_bind. eapply post_mono; [apply Hrec; auto|].
      intros [[[|x]|] rem] tr H; cbn [r_ok r_rem]; [exact I| |].
      * apply post_bind. destruct (join_executor x rem) as [[s|] tr'| | | |] eqn:Hx; cbn; auto;
          pose proof (join_executor_trace _ _ _ _ Hx); subst tr'; rewrite !app_nil_r.
        -- eapply B_join_ok; eauto.
        -- eapply B_join_gap; eauto.
      * apply big_fail in H as Hr. subst rem. cbn. rewrite app_nil_r. eapply B_join_no; eauto.
    + eapply post_mono; [apply Hrec; auto|]. intros. now constructor.
  - (* map *)
    destruct m.
    + cbv beta iota delta [step]. destruct (result_for E (PMap p f)) as [t|] eqn:Ht; [|exact I].
      unfold map_parse. apply post_bind. eapply post_mono; [apply Hrec; auto|].
      intros [[v|] rem] tr H; cbn [r_ok r_rem].
      * apply post_bind. unfold call. destruct (invoke E f (args_of v)) eqn:Hi; cbn; auto.
        eapply B_map_ok; eauto.
      * apply big_fail in H as Hr. subst rem. cbn. rewrite app_nil_r. eapply B_map_no; eauto.
    + eapply post_mono; [apply Hrec; auto|]. intros. now constructor.
  - (* filter *)
    destruct m.
    + destruct (result_for E (PFilter p f)) as [t|] eqn:Ht; [|exact I].
      unfold filter_parse. apply post_bind. eapply post_mono; [apply Hrec; auto|].
      intros [[v|] rem] tr H; cbn [r_ok r_rem].
      * apply post_bind. unfold call. destruct (invoke E f (args_of v)) as [[|c]| |] eqn:Hi; cbn; auto.
        destruct (as_bool E c) eqn:Hc; cbn.
        -- eapply B_filter_ok; eauto.
        -- eapply B_filter_reject; eauto.
      * apply big_fail in H as Hr. subst rem. cbn. rewrite app_nil_r. eapply B_filter_no; eauto.
    + eapply post_mono; [apply Hrec; auto|]. intros. now constructor.
  - (* named *)
    eapply post_mono; [apply Hrec; auto|]. intros. now constructor.
  - (* custom *)
    destruct m.
    + unfold custom_parse. apply post_bind. eapply post_mono; [apply Hrec; auto|]. intros [o rem] tr H.
      destruct (cust_conv E c) eqn:Hc; cbn [r_ok r_rem].
      * cbn. rewrite app_nil_r. apply B_custom_same; auto.
      * destruct o as [[|x]|]; cbn [post]; auto.
        -- apply post_bind. unfold call. destruct (invoke E (FConstruct t) [x]) eqn:Hi; cbn; auto.
           eapply B_custom_elem; eauto.
        -- apply big_fail in H as Hr. subst rem. cbn. rewrite app_nil_r. eapply B_custom_elem_no; eauto.
      * destruct o as [[|x]|]; cbn [post]; auto.
        -- apply post_bind. unfold call. destruct (invoke E (FConstruct t) [VOpt (Some x)]) eqn:Hi; cbn; auto.
           eapply B_custom_whole; eauto.
        -- apply big_fail in H as Hr. subst rem. apply post_bind. unfold call.
           destruct (invoke E (FConstruct t) [VOpt None]) eqn:Hi; cbn; auto. eapply B_custom_whole_no; eauto.
    + eapply post_mono; [apply Hrec; auto|]. intros. now constructor.
Qed.

Theorem run_big n : forall m p i r tr, valid i -> run E n m p i = Done r tr -> big m p i r tr.
Proof.
  enough (H : forall m p i, valid i -> post (run E n m p i) (fun r tr => big m p i r tr)).
  { intros m p i r tr Hv Hr. specialize (H m p i Hv). rewrite Hr in H. exact H. }
  induction n as [|n IH]; intros m p i Hv; cbn [run]; [exact I|].
  apply step_big; [exact IH|exact Hv].
Qed.
End Sound.
