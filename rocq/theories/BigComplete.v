(** * The natural semantics is exactly what the code does *)
From Coq Require Import String List Arith ZArith Bool Lia.
From Verif Require Import Types Compound Parser Outcome CompoundFacts Exec Mono Derive Typing Join Leaves Sound
  BigStep BigSound.
Import ListNotations.
Local Open Scope outcome_scope.

Lemma bind_done {A B} (x : outcome A) (f : A -> outcome B) a tr b tr' :
  x = Done a tr -> f a = Done b tr' -> bind x f = Done b (tr ++ tr').
Proof. intros -> H. cbn. now rewrite H. Qed.

Lemma bind_done0 {A B} (x : outcome A) (f : A -> outcome B) a tr b :
  x = Done a tr -> f a = ret b -> bind x f = Done b tr.
Proof. intros -> H. cbn. rewrite H. cbn. now rewrite app_nil_r. Qed.

Section Complete.
Context {T V : Type} (E : env T V).
Notation big := (big E). Notation biter := (biter E). Notation btail := (btail E).
Notation bchain := (bchain E). Notation bfirst := (bfirst E). Notation valid := (valid E).

(** ** What a derivation says about the loops, given enough fuel *)

Definition P_big (m : mode) (p : parser T) (i : span) (r : presult) (tr : list event) : Prop :=
  valid i -> exists N, forall n, N <= n -> run E n m p i = Done r tr.

Definition P_first (l : list (mode * parser T)) (i : span) (o : option (nat * rv * span)) (tr : list event) : Prop :=
  valid i -> exists N, forall n, N <= n ->
  forall pl unw b, map (fun '(p, idx) => (idx_mode idx, p)) pl = l ->
  match o with
  | None => exec_or (run E n) unw pl (i, b) = Done (false, (i, b)) tr
  | Some (j, v, rem) => forall p idx b', nth_error pl j = Some (p, idx) ->
      match idx with None => b' = b | Some k => store CChoice unw k b v = ret b' end ->
      exec_or (run E n) unw pl (i, b) = Done (true, (rem, b')) tr
  end.

Definition P_chain (l : list (mode * parser T)) (i : span) (o : option (list rv * span)) (tr : list event) : Prop :=
  valid i -> exists N, forall n, N <= n ->
  (* as a sequence *)
  (forall tys ps tys0 ws, l = parts tys ps -> Forall2 (fun p t => result_for E p = Some t) ps tys ->
     List.length ws = List.length (nonvoid tys0) ->
     let x := exec_and (run E n) (unwrapped (nonvoid (tys0 ++ tys))) (combine ps (seq_from (List.length ws) tys))
            (i, tuple_of (ws ++ map default_val (nonvoid tys))) in
     match o with
     | None => exists st, x = Done (false, st) tr
     | Some (vs, rem) => forall ws', kept tys vs ws' -> x = Done (true, (rem, tuple_of (ws ++ ws'))) tr
     end) /\
  (* as the lookahead of a sequence *)
  (forall ps unw b, l = map (pair Look) ps ->
     let x := exec_and (run E n) unw (map (fun p => (p, None)) ps) (i, b) in
     match o with
     | None => exists st, x = Done (false, st) tr
     | Some (vs, rem) => x = Done (true, (rem, b)) tr
     end) /\
  (* as exactly *)
  (forall m q k j b, l = repeat (m, q) k ->
     (b = RVoid -> exactly_loop (run E n m q) k j i b =
        Done (match o with None => None | Some (_, rem) => Some (rem, RVoid) end) tr) /\
     (forall t ws0 ds, m = Parse -> result_for E q = Some t -> t <> TVoid ->
        b = RVal (VArr (ws0 ++ ds)) -> List.length ws0 = j -> List.length ds = k ->
        match o with
        | None => exactly_loop (run E n m q) k j i b = Done None tr
        | Some (vs, rem) => forall ws, vs = map RVal ws ->
            exactly_loop (run E n m q) k j i b = Done (Some (rem, RVal (VArr (ws0 ++ ws)))) tr
        end)).

Definition P_iter (m : mode) (q : parser T) (i : span) (vs : list rv) (rem : span) (tr : list event) : Prop :=
  valid i -> exists N, forall n k, N <= n -> N <= k ->
  forall s, let s' := s || negb (match vs with [] => true | _ => false end) in
  rep_loop (run E n m q) k i RVoid s = Done (rem, RVoid, s') tr /\
  forall ws0 ws, vs = map RVal ws ->
    rep_loop (run E n m q) k i (RVal (VVec ws0)) s = Done (rem, RVal (VVec (ws0 ++ ws)), s') tr.

Definition P_tail (m : mode) (q d : parser T) (i : span) (prs : list (rv * rv)) (rem : span) (tr : list event) : Prop :=
  valid i -> exists N, forall n k, N <= n -> N <= k ->
  forall tp td v i0 b pvs dvs b',
  (m = Parse -> result_for E q = Some tp) -> (m = Parse -> result_for E d = Some td) ->
  (m = Look -> tp = TVoid /\ td = TVoid) ->
  delim_value tp td pvs dvs b ->
  delim_value tp td (pvs ++ v :: map snd prs) (dvs ++ map fst prs) b' ->
  (tp = TVoid \/ exists w, v = RVal w) ->
  delim_loop (run E n m q) (run E n m d) (is_void tp) (is_void td) k (Res (Some v) i) i0 b = Done (rem, b') tr.

(** delim values are functional *)
Lemma map_RVal_inj l l' : map RVal l = map RVal l' -> l = l'.
Proof. revert l'. induction l; intros [|]; cbn; intros H; try discriminate; auto. injection H as -> H. f_equal; auto. Qed.

Lemma delim_value_fun tp td pvs dvs b b' : delim_value tp td pvs dvs b -> delim_value tp td pvs dvs b' -> b' = b.
Proof.
  intros H H'. inversion H; subst; inversion H'; subst; auto; try congruence;
    repeat match goal with H : map RVal _ = map RVal _ |- _ => apply map_RVal_inj in H; subst end; auto.
Qed.

Lemma map_RVal_app l x ws : map RVal l = x ++ ws -> exists l1 l2, l = l1 ++ l2 /\ x = map RVal l1 /\ ws = map RVal l2.
Proof.
  revert x. induction l as [|a l IH]; intros [|y x]; cbn; intros H.
  - exists [], []. auto.
  - discriminate.
  - exists [], (a :: l). auto.
  - injection H as <- H. destruct (IH _ H) as (l1 & l2 & -> & -> & ->). exists (a :: l1), l2. auto.
Qed.

(** pushing the next values reaches the value of the longer lists *)
Lemma push_p tp td pvs dvs b v :
  delim_value tp td pvs dvs b -> (tp = TVoid \/ exists w, v = RVal w) ->
  exists b1, (if is_void tp then ret b else if is_void td then b_insert_back b v else b_insert_back_first b v) = ret b1
    /\ delim_value tp td (pvs ++ [v]) dvs b1.
Proof.
  intros H Hv.
  assert (HH : forall x, x = Done (A := rv) (match x with Done a _ => a | _ => RVoid end) [] ->
     (if is_void tp then ret b else if is_void td then b_insert_back b v else b_insert_back_first b v) = x ->
     exists b1, (if is_void tp then ret b else if is_void td then b_insert_back b v else b_insert_back_first b v) = ret b1
    /\ delim_value tp td (pvs ++ [v]) dvs b1).
  { intros x Hx Heq. rewrite Hx in Heq. rewrite Heq. eexists. split; [reflexivity|].
    eapply delim_value_push_p; eauto. }
  inversion H; subst.
  - eapply HH; [|reflexivity]. reflexivity.
  - destruct Hv as [->|[w ->]]; [contradiction|]. eapply HH; [|reflexivity].
    rewrite (proj2 (is_void_false tp) H0). reflexivity.
  - eapply HH; [|reflexivity]. reflexivity.
  - destruct Hv as [->|[w ->]]; [contradiction|]. eapply HH; [|reflexivity].
    rewrite (proj2 (is_void_false tp) H0), (proj2 (is_void_false td) H1). reflexivity.
Qed.

Lemma push_d tp td pvs dvs b v :
  delim_value tp td pvs dvs b -> (td = TVoid \/ exists w, v = RVal w) ->
  exists b1, (if is_void td then ret b else if is_void tp then b_insert_back b v else b_insert_back_second b v) = ret b1
    /\ delim_value tp td pvs (dvs ++ [v]) b1.
Proof.
  intros H Hv.
  assert (HH : forall x, x = Done (A := rv) (match x with Done a _ => a | _ => RVoid end) [] ->
     (if is_void td then ret b else if is_void tp then b_insert_back b v else b_insert_back_second b v) = x ->
     exists b1, (if is_void td then ret b else if is_void tp then b_insert_back b v else b_insert_back_second b v) = ret b1
    /\ delim_value tp td pvs (dvs ++ [v]) b1).
  { intros x Hx Heq. rewrite Hx in Heq. rewrite Heq. eexists. split; [reflexivity|].
    eapply delim_value_push_d; eauto. }
  inversion H; subst.
  - eapply HH; [|reflexivity]. reflexivity.
  - eapply HH; [|reflexivity]. reflexivity.
  - destruct Hv as [->|[w ->]]; [contradiction|]. eapply HH; [|reflexivity].
    rewrite (proj2 (is_void_false td) H0). reflexivity.
  - destruct Hv as [->|[w ->]]; [contradiction|]. eapply HH; [|reflexivity].
    rewrite (proj2 (is_void_false tp) H0), (proj2 (is_void_false td) H1). reflexivity.
Qed.

(** ** The loops *)
Lemma c_first_nil i : P_first [] i None [].
Proof.
  intros _. exists 0. intros n _ pl unw b Hl. destruct pl; [|discriminate]. reflexivity.
Qed.

Lemma c_first_here m p l i v rem tr : P_big m p i (Res (Some v) rem) tr ->
  P_first ((m, p) :: l) i (Some (0, v, rem)) tr.
Proof.
  intros IH Hv. destruct (IH Hv) as [N HN]. exists N. intros n Hn [|[p' idx] pl] unw b Hl; [discriminate|].
  injection Hl as <- <- Hl. intros p0 idx0 b' [= <- <-] Hst. cbn [exec_or].
  destruct idx as [k|]; cbn [idx_mode] in HN; eapply bind_done0.
  - cbn [execute]. eapply bind_done0; [apply HN; auto|]. cbn [r_ok r_rem]. rewrite Hst, bind_ret. reflexivity.
  - reflexivity.
  - cbn [execute]. subst b'. eapply bind_done0; [apply HN; auto|]. reflexivity.
  - reflexivity.
Qed.

Lemma c_first_next m p l i o tr tr' : P_big m p i (Res None i) tr -> P_first l i o tr' ->
  P_first ((m, p) :: l) i (bump o) (tr ++ tr').
Proof.
  intros IH1 IH2 Hv. destruct (IH1 Hv) as [N1 HN1]. destruct (IH2 Hv) as [N2 HN2]. exists (Nat.max N1 N2).
  intros n Hn [|[p' idx] pl] unw b Hl; [discriminate|]. injection Hl as <- <- Hl.
  specialize (HN2 n ltac:(lia) pl unw b Hl).
  assert (Hex : execute (run E n) CChoice unw p' idx (i, b) = Done (false, (i, b)) tr).
  { destruct idx as [k|]; cbn [idx_mode execute] in *; (eapply bind_done0; [apply HN1; lia|reflexivity]). }
  destruct o as [[[j v] rem]|]; cbn [bump].
  - intros p0 idx0 b' Hj Hst. cbn [exec_or]. eapply bind_done; [exact Hex|]. eapply HN2; eauto.
  - cbn [exec_or]. eapply bind_done; [exact Hex|]. exact HN2.
Qed.

Lemma c_chain_nil i : P_chain [] i (Some ([], i)) [].
Proof.
  intros _. exists 0. intros n _. split; [|split].
  - intros tys ps tys0 ws Hl HF Hk x ws' Hw. destruct tys, ps; try discriminate; [|inversion HF|inversion HF].
    inversion Hw; subst. reflexivity.
  - intros ps unw b Hl x. destruct ps; [|discriminate]. reflexivity.
  - intros m q [|k] j b Hl; [|discriminate]. split; [now intros ->|].
    intros t ws0 ds _ _ _ -> _ Hd ws Hw. destruct ds; [|discriminate]. destruct ws; [|discriminate]. reflexivity.
Qed.

Lemma c_chain_fail m p l i tr : P_big m p i (Res None i) tr -> P_chain ((m, p) :: l) i None tr.
Proof.
  intros IH Hv. destruct (IH Hv) as [N HN]. exists N. intros n Hn. split; [|split].
  - intros tys ps tys0 ws Hl HF Hk x. subst x. inversion HF as [|p' t' ps' tys' Ht HF' Hps Htys]; subst; [discriminate|].
    change (parts (t' :: tys') (p' :: ps')) with ((part_mode t', p') :: parts tys' ps') in Hl.
    injection Hl as -> -> Hl. unfold part_mode in HN. cbn [seq_from].
    destruct (is_void t') eqn:Htv; cbn [combine exec_and]; eexists.
    + eapply bind_done0; [cbn [execute]; eapply bind_done0; [apply HN; auto|reflexivity]|reflexivity].
    + eapply bind_done0; [cbn [execute]; eapply bind_done0; [apply HN; auto|reflexivity]|reflexivity].
  - intros [|p' ps] unw b Hl x; [discriminate|]. subst x. injection Hl as -> -> Hl. cbn [map exec_and]. eexists.
    eapply bind_done0; [cbn [execute]; eapply bind_done0; [apply HN; auto|reflexivity]|reflexivity].
  - intros m' q [|k] j b Hl; [discriminate|]. injection Hl as -> -> Hl. split.
    + intros ->. cbn [exactly_loop]. eapply bind_done0; [apply HN; auto|reflexivity].
    + intros. cbn [exactly_loop]. eapply bind_done0; [apply HN; auto|reflexivity].
Qed.

Lemma c_chain_next m p l i v mid o tr tr' :
  big m p i (Res (Some v) mid) tr -> P_big m p i (Res (Some v) mid) tr -> shaped E m p v -> P_chain l mid o tr' ->
  P_chain ((m, p) :: l) i (push v o) (tr ++ tr').
Proof.
  intros Hb IH1 Hsh IH2 Hv. pose proof (big_succ_valid E _ _ _ _ _ _ Hv Hb) as Hv'.
  destruct (IH1 Hv) as [N1 HN1]. destruct (IH2 Hv') as [N2 HN2]. exists (Nat.max N1 N2). intros n Hn.
  specialize (HN1 n ltac:(lia)). destruct (HN2 n ltac:(lia)) as (H1 & H2 & H3). clear HN2 IH1 IH2. split; [|split].
  - intros tys ps tys0 ws Hl HF Hk x. subst x. inversion HF as [|p' t' ps' tys' Ht HF' Hps Htys]; subst; [discriminate|].
    change (parts (t' :: tys') (p' :: ps')) with ((part_mode t', p') :: parts tys' ps') in Hl.
    injection Hl as -> -> Hl. clear H2 H3.
    assert (Happ : forall (l : list ty), tys0 ++ t' :: l = (tys0 ++ [t']) ++ l) by (intros; now rewrite <- app_assoc).
    unfold part_mode in *. cbn [seq_from]. destruct (is_void t') eqn:Htv; cbn [combine exec_and nonvoid filter negb];
      rewrite ?Htv; cbn [negb combine exec_and].
    + apply is_void_spec in Htv. subst t'.
      specialize (H1 tys' ps' (tys0 ++ [TVoid]) ws Hl HF').
      rewrite <- Happ in H1. cbv zeta in H1.
      assert (Hlen : List.length ws = List.length (nonvoid (tys0 ++ [TVoid]))).
      { unfold nonvoid. rewrite filter_app. cbn. now rewrite app_nil_r. }
      specialize (H1 Hlen). destruct o as [[vs rem]|]; cbn [push].
      * intros ws' Hw. inversion Hw as [|tys1 vs1 ws1 v1 Hk1|]; subst; [|congruence].
        eapply bind_done; [cbn [execute]; eapply bind_done0; [exact HN1|reflexivity]|]. apply H1; auto.
      * destruct H1 as [st H1]. exists st.
        eapply bind_done; [cbn [execute]; eapply bind_done0; [exact HN1|reflexivity]|]. exact H1.
    + apply is_void_false in Htv. destruct (Hsh eq_refl t' Ht Htv) as [w ->].
      specialize (H1 tys' ps' (tys0 ++ [t']) (ws ++ [w]) Hl HF').
      rewrite <- Happ in H1. cbv zeta in H1.
      assert (Hlen : List.length (ws ++ [w]) = List.length (nonvoid (tys0 ++ [t']))).
      { unfold nonvoid in *. rewrite filter_app, !app_length. cbn. apply is_void_false in Htv. rewrite Htv. cbn. lia. }
      specialize (H1 Hlen).
      rewrite (app_length ws [w]) in H1. cbn [List.length] in H1.
      rewrite (Nat.add_1_r (List.length ws)) in H1. rewrite <- app_assoc in H1. cbn [app] in H1.
      assert (Hex : forall k, k = List.length ws ->
        execute (run E n) CSequence (unwrapped (nonvoid (tys0 ++ t' :: tys'))) p' (Some k)
           (i, tuple_of (ws ++ map default_val (t' :: nonvoid tys')))
         = Done (true, (mid, tuple_of (ws ++ w :: map default_val (nonvoid tys')))) tr).
      { intros k ->. cbn [execute]. eapply bind_done0; [exact HN1|]. cbn [r_ok r_rem map].
        replace (unwrapped (nonvoid (tys0 ++ t' :: tys')))
          with (unwrapped (map (fun _ => TVoid) (ws ++ default_val t' :: map default_val (nonvoid tys')))).
        2: { rewrite <- (map_id (nonvoid (tys0 ++ t' :: tys'))). apply unwrapped_map.
             unfold nonvoid at 2. rewrite filter_app. cbn. apply is_void_false in Htv. rewrite Htv. cbn.
             rewrite !app_length. cbn. rewrite map_length. fold nonvoid. unfold nonvoid in Hk |- *. lia. }
        rewrite tuple_of_store, bind_ret. reflexivity. }
      destruct o as [[vs rem]|]; cbn [push].
      * intros ws' Hw. inversion Hw as [| |t1 tys1 vs1 ws1 w1 Hnv Hk1]; subst; [congruence|].
        eapply bind_done; [apply Hex; reflexivity|]. 
        specialize (H1 _ Hk1). rewrite <- app_assoc in H1. exact H1.
      * destruct H1 as [st H1]. exists st. eapply bind_done; [apply Hex; reflexivity|]. exact H1.
  - intros [|p' ps] unw b Hl x; [discriminate|]. subst x. injection Hl as -> -> Hl. cbn [map exec_and].
    specialize (H2 ps unw b Hl). cbv zeta in H2. destruct o as [[vs rem]|]; cbn [push].
    + eapply bind_done; [cbn [execute]; eapply bind_done0; [exact HN1|reflexivity]|]. exact H2.
    + destruct H2 as [st H2]. exists st.
      eapply bind_done; [cbn [execute]; eapply bind_done0; [exact HN1|reflexivity]|]. exact H2.
  - intros m' q [|k] j b Hl; [discriminate|]. injection Hl as <- <- Hl. cbn [exactly_loop]. split.
    + intros ->. destruct (H3 m p k (S j) RVoid Hl) as [H3' _]. specialize (H3' eq_refl).
      eapply bind_done; [exact HN1|]. cbn [r_ok r_rem b_array_assign]. rewrite bind_ret, H3'.
      destruct o as [[vs rem]|]; reflexivity.
    + intros t ws0 [|d ds] Hm Ht Htv -> Hj Hd; [discriminate|]. injection Hd as Hd.
      destruct (Hsh Hm t Ht Htv) as [w ->].
      destruct (H3 m p k (S j) (RVal (VArr ((ws0 ++ [w]) ++ ds))) Hl) as [_ H3'].
      specialize (H3' t (ws0 ++ [w]) ds Hm Ht Htv eq_refl).
      assert (Hln : List.length (ws0 ++ [w]) = S j) by (rewrite app_length; cbn; lia).
      specialize (H3' Hln Hd).
      assert (Hass : b_array_assign j (RVal (VArr (ws0 ++ d :: ds))) (RVal w) = ret (RVal (VArr ((ws0 ++ [w]) ++ ds)))).
      { cbn [b_array_assign]. rewrite app_length. cbn [List.length].
        destruct (Nat.ltb_spec j (List.length ws0 + S (List.length ds))); [|lia].
        subst j. rewrite upd_app, <- app_assoc. reflexivity. }
      destruct o as [[vs rem]|]; cbn [push].
      * intros [|w' ws] Hw; [discriminate|]. injection Hw as <- Hw.
        eapply bind_done; [exact HN1|]. cbn [r_ok r_rem]. rewrite Hass, bind_ret, (H3' ws Hw), <- app_assoc. reflexivity.
      * eapply bind_done; [exact HN1|]. cbn [r_ok r_rem]. rewrite Hass, bind_ret. exact H3'.
Qed.

Lemma c_iter_end m q i tr : P_big m q i (Res None i) tr -> P_iter m q i [] i tr.
Proof.
  intros IH Hv. destruct (IH Hv) as [N HN]. exists (S N). intros n [|k] Hn Hk s s'; [lia|]. subst s'.
  cbn [rep_loop negb]. rewrite orb_false_r. split.
  - eapply bind_done0; [apply HN; lia|reflexivity].
  - intros ws0 [|] Hw; [|discriminate]. rewrite app_nil_r. eapply bind_done0; [apply HN; lia|reflexivity].
Qed.

Lemma c_iter_next m q i v mid vs rem tr tr' :
  big m q i (Res (Some v) mid) tr -> P_big m q i (Res (Some v) mid) tr -> P_iter m q mid vs rem tr' ->
  P_iter m q i (v :: vs) rem (tr ++ tr').
Proof.
  intros Hb IH1 IH2 Hv. pose proof (big_succ_valid E _ _ _ _ _ _ Hv Hb) as Hv'.
  destruct (IH1 Hv) as [N1 HN1]. destruct (IH2 Hv') as [N2 HN2]. exists (S (Nat.max N1 N2)).
  intros n [|k] Hn Hk s s'; [lia|]. subst s'. cbn [rep_loop negb]. rewrite orb_true_r.
  destruct (HN2 n k ltac:(lia) ltac:(lia) true) as [H1 H2]. cbn [orb] in *. split.
  - eapply bind_done; [apply HN1; lia|]. cbn [r_ok r_rem b_insert_back]. now rewrite bind_ret.
  - intros ws0 [|w ws] Hw; [discriminate|]. injection Hw as -> Hw.
    eapply bind_done; [apply HN1; lia|]. cbn [r_ok r_rem b_insert_back]. rewrite bind_ret, (H2 (ws0 ++ [w]) ws Hw).
    now rewrite <- app_assoc.
Qed.

Lemma c_tail_end m q d i tr : P_big m d i (Res None i) tr -> P_tail m q d i [] i tr.
Proof.
  intros IH Hv. destruct (IH Hv) as [N HN]. exists (S N).
  intros n [|k] Hn Hk tp td v i0 b pvs dvs b' Htp Htd Hlk Hb Hb' Hw; [lia|]. cbn [map] in Hb'. rewrite app_nil_r in Hb'.
  cbn [delim_loop r_ok r_rem]. destruct (push_p _ _ _ _ _ v Hb Hw) as (b1 & Hb1 & Hd1). rewrite Hb1, bind_ret.
  rewrite (delim_value_fun _ _ _ _ _ _ Hd1 Hb'). eapply bind_done0; [apply HN; lia|reflexivity].
Qed.

Lemma c_tail_back m q d i w mid tr tr' :
  big m d i (Res (Some w) mid) tr -> P_big m d i (Res (Some w) mid) tr -> P_big m q mid (Res None mid) tr' ->
  P_tail m q d i [] i (tr ++ tr').
Proof.
  intros Hbd IH1 IH2 Hv. pose proof (big_succ_valid E _ _ _ _ _ _ Hv Hbd) as Hv'.
  destruct (IH1 Hv) as [N1 HN1]. destruct (IH2 Hv') as [N2 HN2]. exists (S (S (Nat.max N1 N2))).
  intros n [|[|k]] Hn Hk tp td v i0 b pvs dvs b' Htp Htd Hlk Hb Hb' Hw; [lia|lia|]. cbn [map] in Hb'. rewrite app_nil_r in Hb'.
  cbn [delim_loop r_ok r_rem]. destruct (push_p _ _ _ _ _ v Hb Hw) as (b1 & Hb1 & Hd1). rewrite Hb1, bind_ret.
  rewrite (delim_value_fun _ _ _ _ _ _ Hd1 Hb').
  eapply bind_done; [apply HN1; lia|]. cbn [r_ok r_rem]. eapply bind_done0; [apply HN2; lia|].
  cbn [has_value r_ok].
  assert (Hif : (if is_void td then ret b1 else ret b1) = ret b1) by now destruct (is_void td).
  rewrite Hif, bind_ret. reflexivity.
Qed.

Lemma c_tail_next m q d i w mid v mid' prs rem tr tr' tr'' :
  big m d i (Res (Some w) mid) tr -> P_big m d i (Res (Some w) mid) tr -> shaped E m d w ->
  big m q mid (Res (Some v) mid') tr' -> P_big m q mid (Res (Some v) mid') tr' -> shaped E m q v ->
  P_tail m q d mid' prs rem tr'' ->
  P_tail m q d i ((w, v) :: prs) rem (tr ++ tr' ++ tr'').
Proof.
  intros Hbd IH1 Hshd Hbq IH2 Hshq IH3 Hv.
  pose proof (big_succ_valid E _ _ _ _ _ _ Hv Hbd) as Hv'.
  pose proof (big_succ_valid E _ _ _ _ _ _ Hv' Hbq) as Hv''.
  destruct (IH1 Hv) as [N1 HN1]. destruct (IH2 Hv') as [N2 HN2]. destruct (IH3 Hv'') as [N3 HN3].
  exists (S (Nat.max N1 (Nat.max N2 N3))).
  intros n [|k] Hn Hk tp td v0 i0 b pvs dvs b' Htp Htd Hlk Hb Hb' Hw; [lia|].
  cbn [delim_loop r_ok r_rem]. destruct (push_p _ _ _ _ _ v0 Hb Hw) as (b1 & Hb1 & Hd1). rewrite Hb1, bind_ret.
  eapply bind_done; [apply HN1; lia|]. cbn [r_ok r_rem]. eapply bind_done; [apply HN2; lia|].
  cbn [has_value r_ok].
  assert (HF : forall m0 q0 t0 x, m0 = m -> (m = Parse -> result_for E q0 = Some t0) -> (m = Look -> t0 = TVoid) ->
     shaped E m0 q0 x -> t0 = TVoid \/ exists y, x = RVal y).
  { intros m0 q0 t0 x -> HP HL Hs. destruct m; [|left; auto]. destruct (is_void t0) eqn:Hi.
    - left. now apply is_void_spec.
    - right. apply is_void_false in Hi. eapply Hs; eauto. }
  assert (Hwd : td = TVoid \/ exists y, w = RVal y) by (eapply (HF m d); eauto; intros; now apply Hlk).
  assert (Hwq : tp = TVoid \/ exists y, v = RVal y) by (eapply (HF m q); eauto; intros; now apply Hlk).
  destruct (push_d _ _ _ _ _ w Hd1 Hwd) as (b2 & Hb2 & Hd2).
  rewrite Hb2, bind_ret.
  eapply (HN3 n k ltac:(lia) ltac:(lia) tp td v i b2 _ _ b' Htp Htd Hlk Hd2); auto.
  rewrite <- !app_assoc. exact Hb'.
Qed.

(** ** Specialised joins *)
Lemma iter_elem q fc len : elementary E q = Some (fc, len) ->
  forall m i vs rem tr, biter m q i vs rem tr -> valid i ->
  exists n, tr = [] /\ n * len <= sp_len i /\ rem = adv i (n * len) /\ List.length vs = n /\
    vs = map (in_mode m) (run_spans (sp_blk i) (sp_off i) len n) /\
    forall k res, n < k -> jr_loop fc len k res i =
      ret (Span (sp_blk res) (sp_off res) (sp_len res + n * len), rem).
Proof.
  intros Hq m i vs rem tr Hi. induction Hi as [m q i tr Hb|m q i v mid vs rem tr tr' Hb Hsh Hi IH]; intros Hv.
  - destruct (big_elementary E q fc len i m _ _ Hq Hb) as [-> [[_ [=]]|[Hna _]]].
    exists 0. cbn. rewrite adv_0. repeat split; auto; [lia|]. intros [|k] res Hk; [lia|]. cbn [jr_loop].
    destruct (fc_accepts E q fc len i Hq Hv) as (x & -> & Hx & _). rewrite bind_ret. destruct x.
    + rewrite Nat.add_0_r. now destruct res.
    + exfalso. apply Hna. now apply Hx.
  - specialize (IH Hq). destruct (big_elementary E q fc len i m _ _ Hq Hb) as [-> [[Ha [= -> ->]]|[_ [=]]]].
    destruct (fc_accepts E q fc len i Hq Hv) as (x & Hfc & Hx & Hle).
    apply Hx in Ha. subst x. specialize (Hle eq_refl).
    destruct IH as (n & -> & Hn & -> & Hl & Hvs & Hjr); [apply (suffix_valid E i); auto|].
    exists (S n). cbn [adv sp_len sp_blk sp_off] in *. cbn [Nat.mul]. repeat split; auto.
    + lia.
    + now rewrite adv_adv.
    + cbn. now rewrite Hl.
    + rewrite run_spans_cons. cbn [map]. f_equal; auto.
    + intros [|k] res Hk; [lia|]. cbn [jr_loop]. rewrite Hfc, bind_ret. unfold advance.
      destruct (Nat.leb_spec len (sp_len i)); [|lia]. rewrite bind_ret.
      change (Span (sp_blk i) (sp_off i + len) (sp_len i - len)) with (adv i len).
      rewrite Hjr by lia. cbn. now rewrite <- Nat.add_assoc.
Qed.

Lemma chain_elem q fc len : elementary E q = Some (fc, len) ->
  forall m l i o tr, bchain l i o tr -> forall n, l = repeat (m, q) n -> valid i ->
  tr = [] /\ match o with
  | None => forall res, jx_loop fc len n res i = ret None
  | Some (vs, rem) => n * len <= sp_len i /\ rem = adv i (n * len) /\
      vs = map (in_mode m) (run_spans (sp_blk i) (sp_off i) len n) /\
      forall res, jx_loop fc len n res i = ret (Some (Span (sp_blk res) (sp_off res) (sp_len res + n * len), rem))
  end.
Proof.
  intros Hq m l i o tr Hc. induction Hc as [i|m' p l i tr Hb|m' p l i v mid o tr tr' Hb Hsh Hc IH]; intros [|n] Hl Hv;
    try discriminate.
  - split; auto. cbn. rewrite adv_0. repeat split; auto; [lia|]. intros res. rewrite Nat.add_0_r. now destruct res.
  - injection Hl as -> -> Hl. destruct (big_elementary E q fc len i m _ _ Hq Hb) as [-> [[_ [=]]|[Hna _]]].
    split; auto. intros res. cbn [jx_loop].
    destruct (fc_accepts E q fc len i Hq Hv) as (x & -> & Hx & _). rewrite bind_ret. destruct x; auto.
    exfalso. apply Hna. now apply Hx.
  - injection Hl as -> -> Hl. destruct (big_elementary E q fc len i m _ _ Hq Hb) as [-> [[Ha [= -> ->]]|[_ [=]]]].
    destruct (fc_accepts E q fc len i Hq Hv) as (x & Hfc & Hx & Hle).
    apply Hx in Ha. subst x. specialize (Hle eq_refl).
    destruct (IH n Hl ltac:(apply (suffix_valid E i); auto)) as [-> Ho]. split; auto.
    assert (Hstep : forall res, jx_loop fc len (S n) res i =
        jx_loop fc len n (Span (sp_blk res) (sp_off res) (sp_len res + len)) (adv i len)).
    { intros res. cbn [jx_loop]. rewrite Hfc, bind_ret. unfold advance.
      destruct (Nat.leb_spec len (sp_len i)); [|lia]. now rewrite bind_ret. }
    destruct o as [[vs rem]|]; cbn [push].
    + destruct Ho as (Hn & -> & -> & Hjx). cbn [adv sp_len sp_blk sp_off] in Hn. cbn [Nat.mul]. repeat split.
      * lia.
      * now rewrite adv_adv.
      * rewrite run_spans_cons. reflexivity.
      * intros res. rewrite Hstep, Hjx. cbn. now rewrite <- Nat.add_assoc.
    + intros res. rewrite Hstep. apply Ho.
Qed.

(** A specialised join does what the plain one says it should. *)
Lemma special_fits q k0 f : join_special E q k0 = Some f ->
  forall m i r tr, valid i -> big m q i r tr ->
  match m, r with
  | Look, _ => exists N, forall k, N <= k -> forall g, join_special E q k = Some g -> g Look i = Done r tr
  | Parse, Res None _ => exists N, forall k, N <= k -> forall g, join_special E q k = Some g -> g Parse i = Done (Res None i) tr
  | Parse, Res (Some (RVal x)) rem => exists s, join_executor x rem = Done (Some s) [] /\
      exists N, forall k, N <= k -> forall g, join_special E q k = Some g -> g Parse i = Done (Res (Some (RVal (VSpan s))) rem) tr
  | Parse, Res (Some RVoid) _ => False
  end.
Proof.
  intros Hs m i r tr Hv Hb. destruct q; try discriminate; cbn [join_special] in *;
    (destruct (as_basic E q) as [[fc len]|] eqn:Hbq; [|discriminate]);
    pose proof (as_basic_elementary E _ _ Hbq) as He; pose proof (elementary_ty E _ _ He) as Hty;
    destruct (fc_accepts E q fc len i He Hv) as (x & Hfc & Hx & Hle).
  - (* maybe *)
    assert (Hrd : x = false -> first i len = ret (Span (sp_blk i) (sp_off i) len) /\ advance i len = ret (adv i len)).
    { intros H. specialize (Hle H). unfold first, advance. destruct (Nat.leb_spec len (sp_len i)); [|lia]. auto. }
    inversion Hb; subst; clear Hb.
    + destruct (big_elementary E q fc len i Parse _ _ He ltac:(eassumption)) as [-> [[Ha [= -> ->]]|[_ [=]]]].
      apply Hx in Ha. subst x. destruct (Hrd eq_refl) as [Hr1 Hr2].
      match goal with H : _ \/ _ |- _ => destruct H as [[-> _]|(_ & y & [= <-] & ->)]; [congruence|] end.
      exists (Span (sp_blk i) (sp_off i) len). split.
      * unfold join_executor. cbn [try_join]. unfold try_join_span. cbn [sp_len].
        destruct (Nat.eqb_spec len 0) as [->|]; cbn; [|reflexivity]. now rewrite Nat.add_0_r.
      * exists 0. intros k _ g [= <-]. unfold jm_parse. rewrite Hfc, bind_ret, Hr1, bind_ret, Hr2, bind_ret. reflexivity.
    + destruct (big_elementary E q fc len i Parse _ _ He ltac:(eassumption)) as [-> [[_ [=]]|[Hna _]]].
      assert (t = TSpan) by congruence. subst t. cbn [is_void].
      eexists. split; [reflexivity|]. exists 0. intros k _ g [= <-]. unfold jm_parse. rewrite Hfc, bind_ret.
      destruct x; [reflexivity|]. exfalso. apply Hna. now apply Hx.
    + destruct (big_elementary E q fc len i Look _ _ He ltac:(eassumption)) as [-> [[Ha [= -> ->]]|[_ [=]]]].
      apply Hx in Ha. subst x. destruct (Hrd eq_refl) as [Hr1 Hr2].
      exists 0. intros k _ g [= <-]. unfold jm_look. rewrite Hfc, bind_ret, Hr2, bind_ret. reflexivity.
    + destruct (big_elementary E q fc len i Look _ _ He ltac:(eassumption)) as [-> [[_ [=]]|[Hna _]]].
      exists 0. intros k _ g [= <-]. unfold jm_look. rewrite Hfc, bind_ret.
      destruct x; [reflexivity|]. exfalso. apply Hna. now apply Hx.
  - (* exactly *)
    destruct (Nat.eqb_spec n 0) as [|Hn0]; [discriminate|].
    inversion Hb; subst; clear Hb.
    + destruct (chain_elem q fc len He Parse _ _ _ _ ltac:(eassumption) n eq_refl Hv) as [-> (Hn & -> & -> & Hjx)].
      match goal with H : collect _ _ _ _ |- _ => destruct H as [[-> _]|(_ & ws & Hws & ->)]; [congruence|] end.
      rewrite run_spans_parse in Hws. apply map_RVal_inj in Hws. subst ws.
      exists (Span (sp_blk i) (sp_off i) (n * len)). split.
      * etransitivity; [|apply (run_spans_join VArr (sp_blk i) (sp_off i) len n); auto]. apply join_executor_rem; reflexivity.
      * exists 0. intros k _ g [= <-]. unfold jx_parse. rewrite Hjx, bind_ret. reflexivity.
    + destruct (chain_elem q fc len He Parse _ _ _ _ ltac:(eassumption) n eq_refl Hv) as [-> Hjx].
      exists 0. intros k _ g [= <-]. unfold jx_parse. rewrite Hjx, bind_ret. reflexivity.
    + destruct (chain_elem q fc len He Look _ _ _ _ ltac:(eassumption) n eq_refl Hv) as [-> (Hn & -> & -> & Hjx)].
      exists 0. intros k _ g [= <-]. unfold jx_look. rewrite Hjx, bind_ret. reflexivity.
    + destruct (chain_elem q fc len He Look _ _ _ _ ltac:(eassumption) n eq_refl Hv) as [-> Hjx].
      exists 0. intros k _ g [= <-]. unfold jx_look. rewrite Hjx, bind_ret. reflexivity.
  - (* one or more *)
    assert (Hrd : x = false -> first i len = ret (Span (sp_blk i) (sp_off i) len) /\ advance i len = ret (adv i len)).
    { intros H. specialize (Hle H). unfold first, advance. destruct (Nat.leb_spec len (sp_len i)); [|lia]. auto. }
    inversion Hb; subst; clear Hb.
    + match goal with H : BigStep.biter _ _ _ _ (_ :: _) _ _ |- _ => inversion H; subst; clear H end.
      destruct (big_elementary E q fc len i Parse _ _ He ltac:(eassumption)) as [-> [[Ha [= -> ->]]|[_ [=]]]].
      apply Hx in Ha. subst x. destruct (Hrd eq_refl) as [Hr1 Hr2]. specialize (Hle eq_refl).
      destruct (iter_elem q fc len He Parse _ _ _ _ ltac:(eassumption)) as (n & -> & Hn & -> & Hl & -> & Hjr); [apply (suffix_valid E i); auto|].
      match goal with H : collect _ _ _ _ |- _ => destruct H as [[-> _]|(_ & ws & Hws & ->)]; [congruence|] end.
      rewrite adv_adv in *. cbn [adv sp_blk sp_off sp_len] in Hws, Hn.
      assert (Hws2 : ws = run_spans (sp_blk i) (sp_off i) len (S n)).
      { apply map_RVal_inj. rewrite <- Hws, run_spans_cons. reflexivity. }
      subst ws. exists (Span (sp_blk i) (sp_off i) (len + n * len)). split.
      * etransitivity; [|apply (run_spans_join VVec (sp_blk i) (sp_off i) len (S n)); auto]. apply join_executor_rem; reflexivity.
      * exists (S n). intros k Hk g [= <-]. unfold jo_parse. rewrite Hfc, bind_ret, Hr1, bind_ret, Hr2, bind_ret.
        rewrite Hjr by lia. rewrite bind_ret. reflexivity.
    + destruct (big_elementary E q fc len i Parse _ _ He ltac:(eassumption)) as [-> [[_ [=]]|[Hna _]]].
      exists 0. intros k _ g [= <-]. unfold jo_parse. rewrite Hfc, bind_ret.
      destruct x; [reflexivity|]. exfalso. apply Hna. now apply Hx.
    + match goal with H : BigStep.biter _ _ _ _ (_ :: _) _ _ |- _ => inversion H; subst; clear H end.
      destruct (big_elementary E q fc len i Look _ _ He ltac:(eassumption)) as [-> [[Ha [= -> ->]]|[_ [=]]]].
      apply Hx in Ha. subst x. destruct (Hrd eq_refl) as [Hr1 Hr2].
      destruct (iter_elem q fc len He Look _ _ _ _ ltac:(eassumption)) as (n & -> & Hn & -> & Hl & -> & Hjr); [apply (suffix_valid E i); auto|].
      exists (S n). intros k Hk g [= <-]. unfold jo_look. rewrite Hfc, bind_ret, Hr2, bind_ret.
      rewrite Hjr by lia. rewrite bind_ret. reflexivity.
    + destruct (big_elementary E q fc len i Look _ _ He ltac:(eassumption)) as [-> [[_ [=]]|[Hna _]]].
      exists 0. intros k _ g [= <-]. unfold jo_look. rewrite Hfc, bind_ret.
      destruct x; [reflexivity|]. exfalso. apply Hna. now apply Hx.
  - (* zero or more *)
    inversion Hb; subst; clear Hb.
    + destruct (iter_elem q fc len He Parse _ _ _ _ ltac:(eassumption) Hv) as (n & -> & Hn & -> & Hl & -> & Hjr).
      match goal with H : collect _ _ _ _ |- _ => destruct H as [[-> _]|(_ & ws & Hws & ->)]; [congruence|] end.
      rewrite run_spans_parse in Hws. apply map_RVal_inj in Hws. subst ws.
      exists (Span (sp_blk i) (sp_off i) (n * len)). split.
      * etransitivity; [|apply (run_spans_join VVec (sp_blk i) (sp_off i) len n); auto]. apply join_executor_rem; reflexivity.
      * exists (S n). intros k Hk g [= <-]. unfold jz_parse. rewrite Hjr by lia. rewrite bind_ret. reflexivity.
    + destruct (iter_elem q fc len He Look _ _ _ _ ltac:(eassumption) Hv) as (n & -> & Hn & -> & Hl & -> & Hjr).
      exists (S n). intros k Hk g [= <-]. unfold jz_look. rewrite Hjr by lia. rewrite bind_ret. reflexivity.
Qed.

Lemma special_stable q k k' f : join_special E q k = Some f -> exists g, join_special E q k' = Some g.
Proof.
  destruct q; try discriminate; cbn [join_special]; (destruct (as_basic E q) as [[fc len]|]; [|discriminate]); eauto.
Qed.

Lemma ev_S m p i r tr : (exists N, forall n, N <= n -> step E (run E n) n m p i = Done r tr) ->
  exists N, forall n, N <= n -> run E n m p i = Done r tr.
Proof. intros [N HN]. exists (S N). intros [|n] Hn; [lia|]. apply HN. lia. Qed.

Lemma basic_done p fc len m i r tr : elementary E p = Some (fc, len) -> valid i -> big m p i r tr ->
  (match m with Parse => basic_parse fc len i | Look => basic_look fc len i end) = Done r tr.
Proof.
  intros He Hv Hb. destruct (big_elementary E p fc len i m r tr He Hb) as [-> Hr].
  destruct (fc_accepts E p fc len i He Hv) as (x & Hfc & Hx & Hle).
  destruct m; unfold basic_parse, basic_look; rewrite Hfc, bind_ret; destruct x;
    destruct Hr as [[Ha ->]|[Hna ->]]; auto; try (apply Hx in Ha; discriminate);
    try (exfalso; apply Hna; now apply Hx);
    specialize (Hle eq_refl); unfold first, advance; (destruct (Nat.leb_spec len (sp_len i)); [|lia]);
    rewrite ?bind_ret; reflexivity.
Qed.

(** A join of a given kind, whichever template is selected. *)
Lemma c_join m q i r0 tr r :
  valid i -> big m q i r0 tr -> P_big m q i r0 tr ->
  match m with
  | Look => r = r0
  | Parse => exists t, result_for E q = Some t /\ joinable t = true /\
      match r_ok r0 with
      | None => r = Res None i
      | Some RVoid => False
      | Some (RVal x) =>
          (exists s, join_executor x (r_rem r0) = Done (Some s) [] /\ r = Res (Some (RVal (VSpan s))) (r_rem r0))
          \/ join_executor x (r_rem r0) = Done None [] /\ r = Res None i
      end
  end ->
  exists N, forall n, N <= n -> run E n m (PJoin q) i = Done r tr.
Proof.
  intros Hv Hb IH Hr. apply ev_S. destruct (IH Hv) as [N HN]. cbn [step].
  destruct (join_special E q 0) as [f|] eqn:Hs.
  - pose proof (special_fits q 0 f Hs m i r0 tr Hv Hb) as Hf.
    assert (HG : forall k, exists g, join_special E q k = Some g) by (intros; eapply special_stable; eauto).
    destruct m.
    + destruct Hr as (t & Ht & Hj & Hr). destruct r0 as [[[|x]|] rem]; cbn [r_ok r_rem] in *; [contradiction| |].
      * destruct Hf as (s & Hx & M & HM). exists M. intros n Hn. destruct (HG n) as [g Hg]. rewrite Hg.
        destruct Hr as [(s' & Hx' & ->)|[Hx' _]]; [|congruence].
        replace s' with s by congruence. eapply HM; eauto.
      * subst r. destruct Hf as (M & HM). exists M. intros n Hn. destruct (HG n) as [g Hg]. rewrite Hg. eapply HM; eauto.
    + subst r. destruct Hf as (M & HM). exists M. intros n Hn. destruct (HG n) as [g Hg]. rewrite Hg. eapply HM; eauto.
  - assert (HG : forall k, join_special E q k = None).
    { intros k. destruct (join_special E q k) eqn:Hk; auto.
      destruct (special_stable _ _ 0 _ Hk) as [g Hg]. congruence. }
    exists N. intros n Hn. rewrite HG. unfold join_generic. destruct m.
    + destruct Hr as (t & Ht & Hj & Hr). rewrite Ht, Hj. unfold join_parse.
      eapply bind_done0; [apply HN; auto|]. destruct (r_ok r0) as [[|x]|]; [contradiction| |now subst].
      destruct Hr as [(s & Hx & ->)|[Hx ->]]; rewrite Hx; reflexivity.
    + subst r. apply HN; auto.
Qed.

Tactic Notation "get" constr(IH) constr(Hv) ident(N) ident(HN) := destruct (IH Hv) as [N HN].
Tactic Notation "one" constr(N) := apply ev_S; exists N; intros n Hn; cbn [step].

Lemma bfirst_lt l i o tr : bfirst l i o tr -> forall j v rem, o = Some (j, v, rem) -> j < List.length l.
Proof.
  intros H. induction H; intros j v' rem' Ho; try discriminate; cbn.
  - injection Ho as <- _ _. lia.
  - destruct o as [[[j0 v0] r0]|]; [|discriminate]. injection Ho as <- _ _.
    specialize (IHbfirst _ _ _ eq_refl). lia.
Qed.

Lemma big_done_all :
  (forall m p i r tr, big m p i r tr -> P_big m p i r tr) /\
  (forall l i o tr, bfirst l i o tr -> P_first l i o tr) /\
  (forall l i o tr, bchain l i o tr -> P_chain l i o tr) /\
  (forall m q i vs rem tr, biter m q i vs rem tr -> P_iter m q i vs rem tr) /\
  (forall m q d i prs rem tr, btail m q d i prs rem tr -> P_tail m q d i prs rem tr).
Proof.
  apply big_mut.
  - intros m arr i H Hv. one 0. eapply (basic_done (PAnyOf arr)); [reflexivity|exact Hv|now constructor].
  - intros m arr i H Hv. one 0. eapply (basic_done (PAnyOf arr)); [reflexivity|exact Hv|now constructor].
  - intros m arr i H Hv. one 0. eapply (basic_done (PNoneOf arr)); [reflexivity|exact Hv|now constructor].
  - intros m arr i H Hv. one 0. eapply (basic_done (PNoneOf arr)); [reflexivity|exact Hv|now constructor].
  - intros m arr i H Hv. one 0. eapply (basic_done (PAllOf arr)); [reflexivity|exact Hv|now constructor].
  - intros m arr i H Hv. one 0. eapply (basic_done (PAllOf arr)); [reflexivity|exact Hv|now constructor].
  - intros m i H Hv. one 0. eapply (basic_done PAnything); [reflexivity|exact Hv|now constructor].
  - intros m i H Hv. one 0. eapply (basic_done PAnything); [reflexivity|exact Hv|now constructor].
  - intros m i Hv. one 0. reflexivity.
  - (* choice *)
    intros q qs tys i j v w rem tr Hr Hwf Hf IH Hd Hv. get IH Hv N HN. one N. unfold choice_parse. rewrite Hr.
    unfold choice_wf in Hwf. rewrite Hwf.
    specialize (HN n Hn (combine (q :: qs) (snd (filter_out_void_deduplicate tys)))
                 (unwrapped (fst (filter_out_void_deduplicate tys)))
                 (builder_init (compound_result TVar (fst (filter_out_void_deduplicate tys))))
                 (combine_alts tys (q :: qs))). cbn beta iota in HN.
    assert (Hlen : List.length (snd (filter_out_void_deduplicate tys)) = List.length (q :: qs)).
    { rewrite filter_out_void_deduplicate_spec. cbn [snd]. rewrite dedup_from_length. symmetry. eapply result_fors_length; eauto. }
    assert (Hp : exists idx p, nth_error (snd (filter_out_void_deduplicate tys)) j = Some idx /\
                nth_error (combine (q :: qs) (snd (filter_out_void_deduplicate tys))) j = Some (p, idx)).
    { assert (He : exists idx, nth_error (snd (filter_out_void_deduplicate tys)) j = Some idx)
        by (inversion Hd; subst; eauto).
      destruct He as [idx He].
      assert (Hj : j < List.length (q :: qs)) by (rewrite <- Hlen; apply nth_error_Some; congruence).
      apply nth_error_Some in Hj. destruct (nth_error (q :: qs) j) as [p|] eqn:Hpj; [|contradiction].
      exists idx, p. split; auto. apply nth_error_combine. auto. }
    destruct Hp as (idx & p & Hi & Hc).
    eapply bind_done0; [apply (HN p idx w Hc)|reflexivity].
    inversion Hd; subst.
    + replace idx with (Some k) in * by congruence.
      destruct (choice_builder E tys (q :: qs) p k Hr (nth_error_In _ _ Hc)) as (x & Hx & Hxv).
      rewrite Hx. unfold store. destruct (unwrapped _); [reflexivity|].
      destruct (Hxv eq_refl) as (a & c & ->). reflexivity.
    + replace idx with (@None nat) by congruence. reflexivity.
  - intros q qs tys i tr Hr Hwf Hf IH Hv. get IH Hv N HN. one N. unfold choice_parse. rewrite Hr.
    unfold choice_wf in Hwf. rewrite Hwf.
    eapply bind_done0; [apply (HN n Hn); apply combine_alts|reflexivity].
  - intros q qs tys i j v rem tr Hr Hf IH Hv. get IH Hv N HN. one N. unfold choice_look. rewrite Hr.
    specialize (HN n Hn (map (fun p => (p, None)) (q :: qs))
                 (unwrapped (fst (filter_out_void_deduplicate tys))) RVoid (look_alts (q :: qs))). cbn beta iota in HN.
    assert (Hj : exists p, nth_error (q :: qs) j = Some p).
    { pose proof (bfirst_lt _ _ _ _ Hf _ _ _ eq_refl) as Hj. rewrite map_length in Hj.
      apply nth_error_Some in Hj. destruct (nth_error (q :: qs) j); [eauto|contradiction]. }
    destruct Hj as [p Hp].
    eapply bind_done0; [apply (HN p None RVoid)|reflexivity]; auto.
    rewrite nth_error_map, Hp. reflexivity.
  - intros q qs tys i tr Hr Hf IH Hv. get IH Hv N HN. one N. unfold choice_look. rewrite Hr.
    eapply bind_done0; [apply (HN n Hn); apply look_alts|reflexivity].
  - (* sequence *)
    intros q qs tys i vs ws rem tr Hr Hc IH Hk Hv. get IH Hv N HN. one N. unfold sequence_parse. rewrite Hr.
    rewrite filter_out_void_spec. cbn [fst snd]. rewrite (builder_init_tup _ (nonvoid_forall tys)).
    destruct (HN n Hn) as (H1 & _ & _).
    assert (HF : Forall2 (fun p t => result_for E p = Some t) (q :: qs) tys).
    { apply Forall2_nth. split; [eapply result_fors_length; eauto|]. intros j p' t Hj Ht.
      destruct (result_fors_nth E _ _ _ _ Hr Hj) as (t' & Ht1 & Ht2). congruence. }
    specialize (H1 tys (q :: qs) [] [] eq_refl HF eq_refl ws Hk). cbn [app] in H1.
    eapply bind_done0; [exact H1|reflexivity].
  - intros q qs tys i tr Hr Hc IH Hv. get IH Hv N HN. one N. unfold sequence_parse. rewrite Hr.
    rewrite filter_out_void_spec. cbn [fst snd]. rewrite (builder_init_tup _ (nonvoid_forall tys)).
    destruct (HN n Hn) as (H1 & _ & _).
    assert (HF : Forall2 (fun p t => result_for E p = Some t) (q :: qs) tys).
    { apply Forall2_nth. split; [eapply result_fors_length; eauto|]. intros j p' t Hj Ht.
      destruct (result_fors_nth E _ _ _ _ Hr Hj) as (t' & Ht1 & Ht2). congruence. }
    destruct (H1 tys (q :: qs) [] [] eq_refl HF eq_refl) as [[i' b'] H1']. cbn [app] in H1'.
    eapply bind_done0; [exact H1'|reflexivity].
  - intros q qs tys i vs rem tr Hr Hc IH Hv. get IH Hv N HN. one N. unfold sequence_look. rewrite Hr.
    destruct (HN n Hn) as (_ & H2 & _).
    eapply bind_done0; [apply (H2 (q :: qs) _ RVoid eq_refl)|reflexivity].
  - intros q qs tys i tr Hr Hc IH Hv. get IH Hv N HN. one N. unfold sequence_look. rewrite Hr.
    destruct (HN n Hn) as (_ & H2 & _).
    destruct (H2 (q :: qs) (unwrapped (fst (filter_out_void tys))) RVoid eq_refl) as [[i' b'] H2'].
    eapply bind_done0; [exact H2'|reflexivity].
  - (* maybe *)
    intros q t i v w rem tr Ht Hb IH Hw Hv. get IH Hv N HN. one N. rewrite Ht. unfold maybe_parse.
    eapply bind_done0; [apply HN; auto|]. cbn [r_ok r_rem].
    destruct Hw as [[-> ->]|(Htv & x & -> & ->)]; [reflexivity|].
    apply is_void_false in Htv. rewrite Htv. reflexivity.
  - intros q t i tr Ht Hb IH Hv. get IH Hv N HN. one N. rewrite Ht. unfold maybe_parse.
    eapply bind_done0; [apply HN; auto|]. cbn [r_ok r_rem]. now destruct (is_void t).
  - intros q i v rem tr Hb IH Hv. get IH Hv N HN. one N. unfold maybe_look.
    eapply bind_done0; [apply HN; auto|]. reflexivity.
  - intros q i tr Hb IH Hv. get IH Hv N HN. one N. unfold maybe_look.
    eapply bind_done0; [apply HN; auto|]. reflexivity.
  - (* exactly *)
    intros q t k i vs v rem tr Ht Hk Hc IH Hcol Hv. get IH Hv N HN. one N.
    destruct (Nat.eqb_spec k 0); [contradiction|]. rewrite Ht. unfold exactly_parse.
    destruct (HN n Hn) as (_ & _ & H3).
    destruct (H3 Parse q k 0 (builder_init (if is_void t then TVoid else TArr t k)) eq_refl) as [Ha Hb].
    destruct Hcol as [[-> ->]|(Htv & ws & -> & ->)].
    + eapply bind_done0; [apply Ha; reflexivity|reflexivity].
    + rewrite (proj2 (is_void_false t) Htv) in *.
      eapply bind_done0; [apply (Hb t [] (repeat (default_val t) k)); auto; apply repeat_length|reflexivity].
  - intros q t k i tr Ht Hk Hc IH Hv. get IH Hv N HN. one N.
    destruct (Nat.eqb_spec k 0); [contradiction|]. rewrite Ht. unfold exactly_parse.
    destruct (HN n Hn) as (_ & _ & H3).
    destruct (H3 Parse q k 0 (builder_init (if is_void t then TVoid else TArr t k)) eq_refl) as [Ha Hb].
    destruct (is_void t) eqn:Htv.
    + eapply bind_done0; [apply Ha; reflexivity|reflexivity].
    + apply is_void_false in Htv.
      eapply bind_done0; [apply (Hb t [] (repeat (default_val t) k)); auto; apply repeat_length|reflexivity].
  - intros q k i vs rem tr Hk Hc IH Hv. get IH Hv N HN. one N.
    destruct (Nat.eqb_spec k 0); [contradiction|]. unfold exactly_look.
    destruct (HN n Hn) as (_ & _ & H3). destruct (H3 Look q k 0 RVoid eq_refl) as [Ha _].
    eapply bind_done0; [apply Ha; reflexivity|reflexivity].
  - intros q k i tr Hk Hc IH Hv. get IH Hv N HN. one N.
    destruct (Nat.eqb_spec k 0); [contradiction|]. unfold exactly_look.
    destruct (HN n Hn) as (_ & _ & H3). destruct (H3 Look q k 0 RVoid eq_refl) as [Ha _].
    eapply bind_done0; [apply Ha; reflexivity|reflexivity].
  - (* one or more *)
    intros q t i v vs w rem tr Ht Hi IH Hcol Hv. get IH Hv N HN. one N. rewrite Ht. unfold one_or_more_parse.
    destruct (HN n n Hn Hn false) as [H1 H2].
    destruct Hcol as [[-> ->]|(Htv & ws & Hws & ->)].
    + eapply bind_done0; [exact H1|reflexivity].
    + rewrite (proj2 (is_void_false t) Htv).
      eapply bind_done0; [apply (H2 [] ws Hws)|reflexivity].
  - intros q t i tr Ht Hb IH Hv. get IH Hv N HN. apply ev_S. exists (S N). intros n Hn. cbn [step].
    rewrite Ht. unfold one_or_more_parse. destruct n as [|n]; [lia|]. cbn [rep_loop].
    eapply bind_done0; [eapply bind_done0; [apply HN; lia|reflexivity]|reflexivity].
  - intros q i v vs rem tr Hi IH Hv. get IH Hv N HN. one N. unfold one_or_more_look.
    destruct (HN n n Hn Hn false) as [H1 H2]. eapply bind_done0; [exact H1|reflexivity].
  - intros q i tr Hb IH Hv. get IH Hv N HN. apply ev_S. exists (S N). intros n Hn. cbn [step].
    unfold one_or_more_look. destruct n as [|n]; [lia|]. cbn [rep_loop].
    eapply bind_done0; [eapply bind_done0; [apply HN; lia|reflexivity]|reflexivity].
  - (* zero or more *)
    intros q t i vs w rem tr Ht Hi IH Hcol Hv. get IH Hv N HN. one N. rewrite Ht. unfold zero_or_more_parse.
    destruct (HN n n Hn Hn false) as [H1 H2].
    destruct Hcol as [[-> ->]|(Htv & ws & Hws & ->)].
    + eapply bind_done0; [exact H1|reflexivity].
    + rewrite (proj2 (is_void_false t) Htv).
      eapply bind_done0; [apply (H2 [] ws Hws)|reflexivity].
  - intros q i vs rem tr Hi IH Hv. get IH Hv N HN. one N. unfold zero_or_more_look.
    destruct (HN n n Hn Hn false) as [H1 H2]. eapply bind_done0; [exact H1|reflexivity].
  - (* delimit *)
    intros q d tp td i v0 mid prs w rem tr tr' Hp Hd Hb IH1 Hsh Ht IH2 Hdv Hv.
    pose proof (big_succ_valid E _ _ _ _ _ _ Hv Hb) as Hv'. get IH1 Hv N1 HN1. get IH2 Hv' N2 HN2.
    one (Nat.max N1 N2). rewrite Hp, Hd. unfold delimit_parse.
    eapply bind_done; [apply HN1; lia|]. cbn [has_value r_ok].
    apply bind_done0 with (a := (rem, w)); [|reflexivity].
    eapply (HN2 n n ltac:(lia) ltac:(lia) tp td v0 i _ [] []); eauto; try discriminate.
    + apply delim_init.
    + destruct (is_void tp) eqn:Hi; [left; now apply is_void_spec|right].
      apply is_void_false in Hi. eapply Hsh; eauto.
  - intros q d tp td i tr Hp Hd Hb IH Hv. get IH Hv N HN. one N. rewrite Hp, Hd. unfold delimit_parse.
    eapply bind_done0; [apply HN; auto|reflexivity].
  - intros q d i v0 mid prs rem tr tr' Hb IH1 Ht IH2 Hv.
    pose proof (big_succ_valid E _ _ _ _ _ _ Hv Hb) as Hv'. get IH1 Hv N1 HN1. get IH2 Hv' N2 HN2.
    one (Nat.max N1 N2). unfold delimit_look.
    eapply bind_done; [apply HN1; lia|]. cbn [has_value r_ok].
    apply bind_done0 with (a := (rem, RVoid)); [|reflexivity]. change true with (is_void TVoid).
    eapply (HN2 n n ltac:(lia) ltac:(lia) TVoid TVoid v0 i RVoid [] [] RVoid); auto; try discriminate; try constructor; auto.
  - intros q d i tr Hb IH Hv. get IH Hv N HN. one N. unfold delimit_look.
    eapply bind_done0; [apply HN; auto|reflexivity].
  - (* ignore *)
    intros m q i r tr Hb IH Hv. get IH Hv N HN. one N. apply HN; auto.
  - (* complete *)
    intros m q i v rem tr Hb IH Hl Hv. get IH Hv N HN. one N. unfold complete_run.
    eapply bind_done0; [apply HN; auto|]. cbn [has_value r_ok r_rem]. rewrite Hl. reflexivity.
  - intros m q i v rem tr Hb IH Hl Hv. get IH Hv N HN. one N. unfold complete_run.
    eapply bind_done0; [apply HN; auto|]. cbn [has_value r_ok r_rem].
    destruct (Nat.eqb_spec (sp_len rem) 0); [contradiction|reflexivity].
  - intros m q i tr Hb IH Hv. get IH Hv N HN. one N. unfold complete_run.
    eapply bind_done0; [apply HN; auto|reflexivity].
  - (* join *)
    intros q t i x s rem tr Ht Hj Hb IH Hx Hv. eapply c_join; eauto. cbn.
    exists t. split; auto. split; auto. left. eauto.
  - intros q t i x rem tr Ht Hj Hb IH Hx Hv. eapply c_join; eauto. cbn.
    exists t. split; auto.
  - intros q t i tr Ht Hj Hb IH Hv. eapply c_join; eauto. cbn. exists t. auto.
  - intros q i r tr Hb IH Hv. eapply c_join; eauto.
  - (* map *)
    intros q f t i v w rem tr Ht Hb IH Hi Hv. get IH Hv N HN. one N. rewrite Ht. unfold map_parse.
    eapply bind_done; [apply HN; auto|]. cbn [r_ok r_rem]. apply bind_done0 with (a := w); [|reflexivity].
    unfold call. now rewrite Hi.
  - intros q f t i tr Ht Hb IH Hv. get IH Hv N HN. one N. rewrite Ht. unfold map_parse.
    eapply bind_done0; [apply HN; auto|reflexivity].
  - intros q f i r tr Hb IH Hv. get IH Hv N HN. one N. apply HN; auto.
  - (* filter *)
    intros q f t i v c rem tr Ht Hb IH Hi Hc Hv. get IH Hv N HN. one N. rewrite Ht. unfold filter_parse.
    eapply bind_done; [apply HN; auto|]. cbn [r_ok r_rem]. eapply bind_done0; [unfold call; rewrite Hi; reflexivity|].
    cbn. now rewrite Hc.
  - intros q f t i v c rem tr Ht Hb IH Hi Hc Hv. get IH Hv N HN. one N. rewrite Ht. unfold filter_parse.
    eapply bind_done; [apply HN; auto|]. cbn [r_ok r_rem]. eapply bind_done0; [unfold call; rewrite Hi; reflexivity|].
    cbn. now rewrite Hc.
  - intros q f t i tr Ht Hb IH Hv. get IH Hv N HN. one N. rewrite Ht. unfold filter_parse.
    eapply bind_done0; [apply HN; auto|reflexivity].
  - intros q f i r tr Hb IH Hv. get IH Hv N HN. one N. apply HN; auto.
  - (* named *)
    intros m q s i r tr Hb IH Hv. get IH Hv N HN. one N. apply HN; auto.
  - (* custom *)
    intros c i r tr Hc Hb IH Hv. get IH Hv N HN. one N. rewrite Hc. unfold custom_parse.
    eapply bind_done0; [apply HN; auto|reflexivity].
  - intros c t i x w rem tr Hc Hb IH Hi Hv. get IH Hv N HN. one N. rewrite Hc. unfold custom_parse.
    eapply bind_done; [apply HN; auto|]. cbn [r_ok r_rem].
    eapply bind_done0; [unfold call; rewrite Hi; reflexivity|reflexivity].
  - intros c t i tr Hc Hb IH Hv. get IH Hv N HN. one N. rewrite Hc. unfold custom_parse.
    eapply bind_done0; [apply HN; auto|reflexivity].
  - intros c t i x w rem tr Hc Hb IH Hi Hv. get IH Hv N HN. one N. rewrite Hc. unfold custom_parse.
    eapply bind_done; [apply HN; auto|]. cbn [r_ok r_rem].
    eapply bind_done0; [unfold call; rewrite Hi; reflexivity|reflexivity].
  - intros c t i w tr Hc Hb IH Hi Hv. get IH Hv N HN. one N. rewrite Hc. unfold custom_parse.
    eapply bind_done; [apply HN; auto|]. cbn [r_ok r_rem].
    eapply bind_done0; [unfold call; rewrite Hi; reflexivity|reflexivity].
  - intros c i r tr Hb IH Hv. get IH Hv N HN. one N. apply HN; auto.
  - apply c_first_nil.
  - intros. now apply c_first_here.
  - intros. now apply c_first_next.
  - apply c_chain_nil.
  - intros. now apply c_chain_fail.
  - intros. eapply c_chain_next; eauto.
  - intros. now apply c_iter_end.
  - intros. eapply c_iter_next; eauto.
  - intros. now apply c_tail_end.
  - intros. eapply c_tail_back; eauto.
  - intros. eapply c_tail_next; eauto.
Qed.

(** A parse returns [r] after calling [tr] exactly when the natural semantics says so. *)
Theorem evals_big m p i r tr : valid i -> (evals E m p i (Done r tr) <-> big m p i r tr).
Proof.
  intros Hv. split.
  - intros [_ [n Hn]]. eapply run_big; eauto.
  - intros Hb. destruct (proj1 big_done_all _ _ _ _ _ Hb Hv) as [N HN]. apply (evals_done E N). apply HN. lia.
Qed.

Lemma big_det m p i r tr r' tr' : valid i -> big m p i r tr -> big m p i r' tr' -> r' = r /\ tr' = tr.
Proof.
  intros Hv H H'. apply evals_big in H, H'; auto.
  pose proof (evals_det _ _ _ _ _ _ H H') as He. injection He as -> ->. auto.
Qed.
End Complete.
