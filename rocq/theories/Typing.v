(** * Type soundness of derivations *)
From Coq Require Import List Arith ZArith Bool String Lia.
From Verif Require Import Types Compound Parser Outcome CompoundFacts Exec Derive.
Import ListNotations.

Section ParserInd.
Context {T : Type}.
Variable P : parser T -> Prop.
Hypothesis Hany : forall arr, P (PAnyOf arr).
Hypothesis Hnone : forall arr, P (PNoneOf arr).
Hypothesis Hall : forall arr, P (PAllOf arr).
Hypothesis Hanything : P PAnything.
Hypothesis Heps : P PEpsilon.
Hypothesis Hchoice : forall q qs, P q -> Forall P qs -> P (PChoice q qs).
Hypothesis Hseq : forall q qs, P q -> Forall P qs -> P (PSequence q qs).
Hypothesis Hmaybe : forall q, P q -> P (PMaybe q).
Hypothesis Hexactly : forall q n, P q -> P (PExactly q n).
Hypothesis Hoom : forall q, P q -> P (POneOrMore q).
Hypothesis Hzom : forall q, P q -> P (PZeroOrMore q).
Hypothesis Hdelim : forall q d, P q -> P d -> P (PDelimit q d).
Hypothesis Hign : forall q, P q -> P (PIgnore q).
Hypothesis Hcomp : forall q, P q -> P (PComplete q).
Hypothesis Hjoin : forall q, P q -> P (PJoin q).
Hypothesis Hmap : forall q f, P q -> P (PMap q f).
Hypothesis Hfilter : forall q f, P q -> P (PFilter q f).
Hypothesis Hnamed : forall q s, P q -> P (PNamed q s).
Hypothesis Hcustom : forall c, P (PCustom c).
Fixpoint parser_ind' (p : parser T) : P p :=
  let fl := fix go (l : list (parser T)) : Forall P l :=
    match l with [] => Forall_nil _ | x :: l' => Forall_cons x (parser_ind' x) (go l') end in
  match p with
  | PAnyOf a => Hany a | PNoneOf a => Hnone a | PAllOf a => Hall a
  | PAnything => Hanything | PEpsilon => Heps
  | PChoice q qs => Hchoice q qs (parser_ind' q) (fl qs)
  | PSequence q qs => Hseq q qs (parser_ind' q) (fl qs)
  | PMaybe q => Hmaybe q (parser_ind' q)
  | PExactly q n => Hexactly q n (parser_ind' q)
  | POneOrMore q => Hoom q (parser_ind' q)
  | PZeroOrMore q => Hzom q (parser_ind' q)
  | PDelimit q d => Hdelim q d (parser_ind' q) (parser_ind' d)
  | PIgnore q => Hign q (parser_ind' q)
  | PComplete q => Hcomp q (parser_ind' q)
  | PJoin q => Hjoin q (parser_ind' q)
  | PMap q f => Hmap q f (parser_ind' q)
  | PFilter q f => Hfilter q f (parser_ind' q)
  | PNamed q s => Hnamed q s (parser_ind' q)
  | PCustom c => Hcustom c
  end.
End ParserInd.

(** ** has_ty *)
Lemma has_ty_tup ts l : has_ty (TTup ts) (VTup l) <-> Forall2 has_ty ts l.
Proof.
  cbn. revert l. induction ts as [|t ts IH]; intros [|v l]; cbn; split; intros H;
    try (now inversion H); auto.
  - constructor; [tauto|]. now apply IH.
  - inversion H; subst. split; auto. now apply IH.
Qed.

Lemma has_ty_var ts k v : has_ty (TVar ts) (VVar k v) <-> exists t, nth_error ts k = Some t /\ has_ty t v.
Proof.
  cbn. revert k. induction ts as [|t ts IH]; intros [|k]; cbn; split; intros H;
    try contradiction; try (destruct H as (? & ? & ?); discriminate).
  - eauto.
  - destruct H as (? & [= ->] & ?); auto.
  - now apply IH.
  - now apply IH.
Qed.

Lemma has_ty_not_void t v : has_ty t v -> t <> TVoid.
Proof. intros H ->. contradiction. Qed.

Lemma default_has_ty t : ty_ok t = true -> has_ty t (default_val t).
Proof.
  induction t using ty_ind'; cbn [ty_ok]; intros Hok; try discriminate; try exact I.
  - constructor.
  - cbn. split; [apply repeat_length|]. apply Forall_forall. intros x Hx.
    apply repeat_spec in Hx. subst. auto.
  - change (default_val (TTup ts)) with (VTup (map default_val ts)).
    apply has_ty_tup. induction H as [|t ts Ht Hts IH]; cbn in *; constructor;
      apply andb_true_iff in Hok as [H1 H2]; auto.
  - destruct ts as [|t ts]; [discriminate|]. cbn in Hok. apply andb_true_iff in Hok as [H1 H2].
    change (default_val (TVar (t :: ts))) with (VVar 0 (default_val t)).
    apply has_ty_var. exists t. split; auto. inversion H; auto.
  - apply andb_true_iff in Hok as [H1 H2]. cbn. auto.
  - reflexivity.
Qed.

Lemma rv_has_ty_val t v : rv_has_ty t (RVal v) <-> has_ty t v.
Proof.
  cbn. split; [tauto|]. intros H; split; auto. eapply has_ty_not_void; eauto.
Qed.

Lemma rv_val_inv t v : rv_has_ty t (RVal v) -> has_ty t v.
Proof. apply rv_has_ty_val. Qed.

Section Typing.
Context {T V : Type} (E : env T V).

(** Functions, constructors and constants respect their declared types. *)
Record env_typed : Prop := {
  et_fn : forall n args tys t, fn_ret E n tys = Some t -> Forall2 has_ty tys args ->
    match fn_app E n args with FRet r => rv_has_ty t r | FThrow _ => True | FIll => False end;
  et_fn_ok : forall n tys t, fn_ret E n tys = Some t -> t = TVoid \/ ty_ok t = true;
  et_ct : forall t args tys, ct_ok E t tys = true -> Forall2 has_ty tys args ->
    match ct_app E t args with FRet r => rv_has_ty t r | FThrow _ => True | FIll => False end;
  et_ct_ok : forall t tys, ct_ok E t tys = true -> t = TVoid \/ ty_ok t = true;
  et_k : forall k, ty_ok (k_ty E k) = true /\ has_ty (k_ty E k) (k_val E k);
  et_bool : forall t, bool_ok E t = true -> t <> TVoid
}.

(** Every custom parser's get_parser() compiles and its declared type is reachable from the
    type of get_parser()'s result. *)
Record env_customs : Prop := {
  ec_compiles : forall m c, compiles E m (cust_body E c) = true;
  ec_ok : forall c, cust_ty E c = TVoid \/ ty_ok (cust_ty E c) = true;
  ec_conv : forall c,
    match cust_conv E c with
    | ConvSame => result_for E (cust_body E c) = Some (cust_ty E c)
    | ConvElem t => cust_ty E c = t /\ t <> TVoid /\
        exists tb, result_for E (cust_body E c) = Some tb /\ tb <> TVoid /\ ct_ok E t [tb] = true
    | ConvWhole t => cust_ty E c = t /\ t <> TVoid /\
        exists tb, result_for E (cust_body E c) = Some tb /\ tb <> TVoid /\
          ct_ok E t [TOpt tb] = true
    end
}.

Lemma result_fors_spec ps tys : result_fors E ps = Some tys <-> map (result_for E) ps = map Some tys.
Proof. unfold result_fors. apply all_some_spec. Qed.

Lemma result_fors_nth ps tys j p : result_fors E ps = Some tys -> nth_error ps j = Some p ->
  exists t, nth_error tys j = Some t /\ result_for E p = Some t.
Proof.
  rewrite result_fors_spec. intros H Hj.
  assert (H1 : nth_error (map (result_for E) ps) j = Some (result_for E p)) by now apply map_nth_error.
  rewrite H in H1. rewrite nth_error_map in H1. destruct (nth_error tys j) as [t|]; [|discriminate].
  exists t. cbn in H1. split; congruence.
Qed.

Lemma result_fors_length ps tys : result_fors E ps = Some tys -> List.length ps = List.length tys.
Proof.
  rewrite result_fors_spec. intros H. apply (f_equal (@List.length _)) in H.
  now rewrite !map_length in H.
Qed.

Lemma result_for_choice q qs : result_for E (PChoice q qs) =
  match result_fors E (q :: qs) with
  | Some tys => Some (compound_result TVar (fst (filter_out_void_deduplicate tys)))
  | None => None end.
Proof. reflexivity. Qed.

Lemma result_for_seq q qs : result_for E (PSequence q qs) =
  match result_fors E (q :: qs) with
  | Some tys => Some (compound_result TTup (fst (filter_out_void tys)))
  | None => None end.
Proof. reflexivity. Qed.

Hypothesis HT : env_typed.

Lemma tuple_typed t ts v : tuple_tys t = Some ts -> has_ty t v ->
  exists vs, tuple_vals v = Some vs /\ Forall2 has_ty ts vs.
Proof.
  destruct t; try discriminate; cbn [tuple_tys]; intros [= <-] Hv; destruct v; try contradiction.
  - cbn in Hv. destruct Hv as [<- Hv]. exists l. split; auto.
    clear -Hv. induction Hv; cbn; constructor; auto.
  - exists l. split; auto. now apply has_ty_tup.
  - cbn in Hv. exists [v1; v2]. split; auto. repeat constructor; tauto.
Qed.

Lemma invoke_typed f : forall args tys t, fn_ty E f tys = Some t -> Forall2 has_ty tys args ->
  match invoke E f args with FRet r => rv_has_ty t r | FThrow _ => True | FIll => False end.
Proof.
  induction f as [n|f IH|k|t0|t0]; intros args tys t Ht Ha; cbn in *.
  - eapply et_fn; eauto.
  - destruct tys as [|t1 [|]]; try discriminate.
    destruct (tuple_tys t1) as [ts|] eqn:Hts; [|discriminate].
    inversion Ha as [|? v ? l Hv Hl]; subst. inversion Hl; subst.
    destruct (tuple_typed _ _ _ Hts Hv) as (vs & -> & Hvs). exact (IH _ _ _ Ht Hvs).
  - injection Ht as <-. destruct (et_k HT k) as [_ H]. split; auto. eapply has_ty_not_void; eauto.
  - destruct (ct_ok E t0 tys) eqn:Hc; [|discriminate]. injection Ht as <-. eapply et_ct; eauto.
  - destruct (ty_ok t0) eqn:Hok; [|discriminate]. injection Ht as <-.
    apply default_has_ty in Hok. split; auto. eapply has_ty_not_void; eauto.
Qed.

Lemma fn_ty_ok f : forall tys t, fn_ty E f tys = Some t -> t = TVoid \/ ty_ok t = true.
Proof.
  induction f as [n|f IH|k|t0|t0]; intros tys t Ht; cbn in *.
  - eapply et_fn_ok; eauto.
  - destruct tys as [|t1 [|]]; try discriminate.
    destruct (tuple_tys t1); [|discriminate]. eauto.
  - injection Ht as <-. right. apply et_k; auto.
  - destruct (ct_ok E t0 tys) eqn:Hc; [|discriminate]. injection Ht as <-. eapply et_ct_ok; eauto.
  - destruct (ty_ok t0) eqn:Hok; [|discriminate]. injection Ht as <-. auto.
Qed.

Hypothesis HC : env_customs.

Lemma compound_ok (container : list ty -> ty) done :
  (forall ts, ts <> [] -> forallb ty_ok ts = true -> ty_ok (container ts) = true) ->
  (forall t, In t done -> t = TVoid \/ ty_ok t = true) -> (forall t, In t done -> t <> TVoid) ->
  compound_result container done = TVoid \/ ty_ok (compound_result container done) = true.
Proof.
  intros Hc Hin Hnv. destruct done as [|a [|a' l]]; cbn [compound_result]; auto.
  - apply Hin. now left.
  - right. apply Hc; [discriminate|]. apply forallb_forall. intros t Ht.
    destruct (Hin t Ht); auto. now apply Hnv in Ht.
Qed.

Lemma result_for_ok p : forall t, result_for E p = Some t -> t = TVoid \/ ty_ok t = true.
Proof.
  induction p using parser_ind'; intros t Ht; cbn [result_for] in Ht;
    try (injection Ht as <-; auto; fail).
  - destruct (all_some (result_for E p :: map (result_for E) qs)) as [tys|] eqn:Ha; [|discriminate].
    injection Ht as <-. apply all_some_spec in Ha.
    assert (Hin : forall t, In t tys -> t = TVoid \/ ty_ok t = true).
    { intros t Hin. assert (Hs : In (Some t) (map (result_for E) (p :: qs))).
      { change (In (Some t) (result_for E p :: map (result_for E) qs)). rewrite Ha. now apply in_map. }
      apply in_map_iff in Hs as (q & Hq & [<-|Hqs]); auto.
      rewrite Forall_forall in H. eapply H; eauto. }
    rewrite filter_out_void_deduplicate_spec. cbn [fst].
    apply compound_ok.
    + intros [|a ts]; [congruence|]. intros _ Hf. exact Hf.
    + intros t Hd. apply distinct_from_in in Hd as (Hd & _). auto.
    + intros t Hd. apply distinct_from_in in Hd. tauto.
  - destruct (all_some (result_for E p :: map (result_for E) qs)) as [tys|] eqn:Ha; [|discriminate].
    injection Ht as <-. apply all_some_spec in Ha.
    assert (Hin : forall t, In t tys -> t = TVoid \/ ty_ok t = true).
    { intros t Hin. assert (Hs : In (Some t) (map (result_for E) (p :: qs))).
      { change (In (Some t) (result_for E p :: map (result_for E) qs)). rewrite Ha. now apply in_map. }
      apply in_map_iff in Hs as (q & Hq & [<-|Hqs]); auto.
      rewrite Forall_forall in H. eapply H; eauto. }
    rewrite filter_out_void_spec. cbn [fst]. apply compound_ok.
    + intros ts _ Hf. exact Hf.
    + intros t Hd. apply filter_In in Hd as [Hd _]. auto.
    + intros t Hd. apply filter_In in Hd as [_ Hd]. apply negb_true_iff, is_void_false in Hd. auto.
  - destruct (result_for E p) as [a|]; [|discriminate]. injection Ht as <-.
    destruct (is_void a) eqn:Hv; auto. right. apply is_void_false in Hv. cbn.
    destruct (IHp a eq_refl); [contradiction|auto].
  - destruct (result_for E p) as [a|]; [|discriminate]. injection Ht as <-.
    destruct (is_void a) eqn:Hv; auto. right. apply is_void_false in Hv. cbn.
    destruct (IHp a eq_refl); [contradiction|auto].
  - destruct (result_for E p) as [a|]; [|discriminate]. injection Ht as <-.
    destruct (is_void a) eqn:Hv; auto. right. apply is_void_false in Hv. cbn.
    destruct (IHp a eq_refl); [contradiction|auto].
  - destruct (result_for E p) as [a|]; [|discriminate]. injection Ht as <-.
    destruct (is_void a) eqn:Hv; auto. right. apply is_void_false in Hv. cbn.
    destruct (IHp a eq_refl); [contradiction|auto].
  - destruct (result_for E p1) as [a|]; [|discriminate].
    destruct (result_for E p2) as [b|]; [|discriminate]. injection Ht as <-.
    destruct (is_void a) eqn:Hv; destruct (is_void b) eqn:Hw; auto; right;
      try apply is_void_false in Hv; try apply is_void_false in Hw; cbn.
    + destruct (IHp2 b eq_refl); [contradiction|auto].
    + destruct (IHp1 a eq_refl); [contradiction|auto].
    + destruct (IHp1 a eq_refl); [contradiction|]. destruct (IHp2 b eq_refl); [contradiction|].
      apply andb_true_iff; auto.
  - auto.
  - destruct (result_for E p) as [a|]; [|discriminate]. eapply fn_ty_ok; eauto.
  - destruct (result_for E p) as [a|]; [|discriminate].
    destruct (fn_ty E f (arg_tys a)) as [b|]; [|discriminate].
    destruct (bool_ok E b); [|discriminate]. injection Ht as <-. auto.
  - auto.
  - injection Ht as <-. apply ec_ok; auto.
Qed.

Definition mode_of_index (i : index) : mode := match i with None => Look | Some _ => Parse end.

Lemma compound_compiles_spec (rec : mode -> parser T -> bool) ps : forall seq j p i,
  compound_compiles rec ps seq = true -> nth_error ps j = Some p -> nth_error seq j = Some i ->
  rec (mode_of_index i) p = true.
Proof.
  induction ps as [|q ps IH]; intros [|i0 seq] [|j] p i; cbn; try discriminate.
  - intros H [= ->] [= ->]. apply andb_true_iff in H as [H _]. destruct i; auto.
  - intros H Hp Hi. apply andb_true_iff in H as [_ H]. eauto.
Qed.

Lemma compiles_choice q qs tys j p i : compiles E Parse (PChoice q qs) = true ->
  result_fors E (q :: qs) = Some tys ->
  nth_error (q :: qs) j = Some p -> nth_error (snd (filter_out_void_deduplicate tys)) j = Some i ->
  compiles E (mode_of_index i) p = true.
Proof.
  intros H Hr Hj Hi. cbn [compiles] in H. rewrite Hr in H. apply andb_true_iff in H as [_ H].
  destruct (snd (filter_out_void_deduplicate tys)) as [|i0 seq]; [destruct j; discriminate|].
  apply andb_true_iff in H as [H1 H2]. destruct j as [|j]; cbn in *.
  - injection Hj as ->. injection Hi as ->. destruct i; auto.
  - eapply compound_compiles_spec; eauto.
Qed.

Lemma compiles_choice_emplace q qs tys : compiles E Parse (PChoice q qs) = true ->
  result_fors E (q :: qs) = Some tys ->
  unwrapped (fst (filter_out_void_deduplicate tys))
  || emplace_ok (fst (filter_out_void_deduplicate tys)) tys (snd (filter_out_void_deduplicate tys))
  = true.
Proof. intros H Hr. cbn [compiles] in H. rewrite Hr in H. now apply andb_true_iff in H as [H _]. Qed.

Lemma compiles_seq q qs tys j p i : compiles E Parse (PSequence q qs) = true ->
  result_fors E (q :: qs) = Some tys ->
  nth_error (q :: qs) j = Some p -> nth_error (snd (filter_out_void tys)) j = Some i ->
  compiles E (mode_of_index i) p = true.
Proof.
  intros H Hr Hj Hi. cbn [compiles] in H. rewrite Hr in H.
  destruct (snd (filter_out_void tys)) as [|i0 seq]; [destruct j; discriminate|].
  apply andb_true_iff in H as [H1 H2]. destruct j as [|j]; cbn in *.
  - injection Hj as ->. injection Hi as ->. destruct i; auto.
  - eapply compound_compiles_spec; eauto.
Qed.

Lemma compiles_look_compound q qs p :
  compiles E Look (PChoice q qs) = true \/ compiles E Look (PSequence q qs) = true ->
  In p (q :: qs) -> compiles E Look p = true.
Proof.
  cbn [compiles]. intros [H|H] Hin; destruct (result_fors E (q :: qs)); try discriminate;
    apply andb_true_iff in H as [H1 H2]; destruct Hin as [<-|Hin]; auto;
    rewrite forallb_forall in H2; auto.
Qed.

Lemma seq_from_nth tys : forall n j t, nth_error tys j = Some t ->
  exists i, nth_error (seq_from n tys) j = Some i /\ mode_of_index i = part_mode t.
Proof.
  induction tys as [|a tys IH]; intros n [|j] t; cbn; try discriminate.
  - intros [= ->]. unfold part_mode. destruct (is_void t); cbn; eauto.
  - intros H. destruct (is_void a); cbn; apply IH; auto.
Qed.

Lemma compiles_part q qs tys j p t : compiles E Parse (PSequence q qs) = true ->
  result_fors E (q :: qs) = Some tys ->
  nth_error (q :: qs) j = Some p -> nth_error tys j = Some t ->
  compiles E (part_mode t) p = true.
Proof.
  intros Hc Hr Hj Ht. destruct (seq_from_nth tys 0 j t Ht) as (i & Hi & <-).
  eapply compiles_seq; eauto. rewrite filter_out_void_spec. exact Hi.
Qed.

Definition typed (p : parser T) (v : rv) : Prop :=
  exists t, result_for E p = Some t /\ rv_has_ty t v.

Lemma args_of_typed t v : rv_has_ty t v -> Forall2 has_ty (arg_tys t) (args_of v).
Proof.
  destruct v; cbn; unfold arg_tys.
  - intros ->. constructor.
  - intros [Ht Hv]. apply is_void_false in Ht. rewrite Ht. repeat constructor; auto.
Qed.

Lemma collect_typed t C vs v ct :
  (forall ws, Forall (has_ty t) ws -> List.length ws = List.length vs -> has_ty ct (C ws)) ->
  collect t C vs v -> Forall (rv_has_ty t) vs ->
  rv_has_ty (if is_void t then TVoid else ct) v.
Proof.
  intros HC0 [[-> ->]|(Ht & ws & -> & ->)] Hvs; [reflexivity|].
  apply is_void_false in Ht. rewrite Ht. apply rv_has_ty_val. apply HC0.
  - apply Forall_forall. intros w Hw. rewrite Forall_forall in Hvs.
    apply (proj1 (rv_has_ty_val t w)), Hvs, in_map, Hw.
  - now rewrite map_length.
Qed.

Lemma nth_error_combine {A B} (l : list A) (l' : list B) j a b :
  nth_error (combine l l') j = Some (a, b) <-> nth_error l j = Some a /\ nth_error l' j = Some b.
Proof.
  revert l' j. induction l as [|x l IH]; intros [|y l'] [|j]; cbn; split; try (intros []; discriminate);
    try discriminate.
  - intros [= -> ->]; auto.
  - intros [[= ->] [= ->]]; auto.
  - apply IH.
  - apply IH.
Qed.

Lemma Forall2_nth {A B} (R : A -> B -> Prop) l l' : Forall2 R l l' <->
  List.length l = List.length l' /\
  forall j a b, nth_error l j = Some a -> nth_error l' j = Some b -> R a b.
Proof.
  split.
  - induction 1 as [|a b l l' H H' [IH1 IH2]]; cbn; [split; auto; intros [|] ? ? ?; discriminate|].
    split; [lia|]. intros [|j] x y; cbn; [intros [= ->] [= ->]; auto|eauto].
  - revert l'. induction l as [|a l IH]; intros [|b l'] [H1 H2]; try discriminate; constructor.
    + apply (H2 0); auto.
    + apply IH. split; [cbn in H1; lia|]. intros j x y Hx Hy. apply (H2 (S j)); auto.
Qed.

Lemma repeat_nth {A} (x : A) n j y : nth_error (repeat x n) j = Some y -> y = x.
Proof. intros H. apply nth_error_In, repeat_spec in H. auto. Qed.

Lemma parts_nth tys (ps : list (parser T)) j m p :
  nth_error (parts tys ps) j = Some (m, p) <->
  exists t, nth_error tys j = Some t /\ m = part_mode t /\ nth_error ps j = Some p.
Proof.
  unfold parts. rewrite nth_error_combine, nth_error_map.
  destruct (nth_error tys j) as [t|]; cbn; split.
  - intros [[= <-] H]. eauto.
  - intros (t' & [= <-] & -> & H). auto.
  - intros [? ?]; discriminate.
  - intros (? & ? & ?); discriminate.
Qed.

(** In a chain, parsed links are typed. *)
Definition link_ty (mp : mode * parser T) (v : rv) : Prop :=
  compiles E (fst mp) (snd mp) = true ->
  match fst mp with Parse => typed (snd mp) v | Look => v = RVoid end.

Lemma kept_typed tys vs ws : kept tys vs ws ->
  (forall j t v, nth_error tys j = Some t -> t <> TVoid -> nth_error vs j = Some v -> rv_has_ty t v) ->
  Forall2 has_ty (nonvoid tys) ws.
Proof.
  induction 1 as [|tys vs ws v Hk IH|t tys vs ws w Ht Hk IH]; intros Hty; cbn.
  - constructor.
  - apply IH. intros j t v' Hj Hn Hv. exact (Hty (S j) t v' Hj Hn Hv).
  - apply is_void_false in Ht as Hv. rewrite Hv. cbn. constructor.
    + apply rv_val_inv. apply (Hty 0); auto.
    + apply IH. intros j t' v' Hj Hn Hv'. exact (Hty (S j) t' v' Hj Hn Hv').
Qed.

Lemma tuple_of_typed ts ws : Forall2 has_ty ts ws -> Forall (fun t => t <> TVoid) ts ->
  rv_has_ty (compound_result TTup ts) (tuple_of ws).
Proof.
  intros H Hv. destruct H as [|t w ts ws H1 [|t' w' ts' ws' H2 H3]]; cbn [compound_result tuple_of].
  - reflexivity.
  - now apply rv_has_ty_val.
  - apply rv_has_ty_val, has_ty_tup. repeat constructor; auto.
Qed.

Lemma chain_typed m q n vs t :
  Forall2 link_ty (repeat (m, q) n) vs -> compiles E m q = true -> m = Parse ->
  result_for E q = Some t -> Forall (rv_has_ty t) vs.
Proof.
  intros HF Hc -> Hr. apply Forall_forall. intros v Hv. apply In_nth_error in Hv as [j Hj].
  apply Forall2_nth in HF as [Hl HF].
  assert (Hlt : j < List.length vs) by (apply nth_error_Some; congruence).
  destruct (nth_error (repeat (Parse, q) n) j) as [[m' q']|] eqn:Hn.
  - pose proof (HF j _ _ Hn Hj) as HL. apply repeat_nth in Hn. injection Hn as -> ->.
    destruct (HL Hc) as (t' & Ht' & Hty). cbn in Ht'. congruence.
  - apply nth_error_None in Hn. lia.
Qed.

Lemma interleave_split {A B} (R : A -> B -> Prop) (a d : A) (b : B) prs :
  Forall2 R (interleave a (repeat (d, a) (List.length prs))) (interleave b prs) ->
  Forall (R a) (b :: map snd prs) /\ Forall (R d) (map fst prs).
Proof.
  revert b. induction prs as [|[x y] prs IH]; intros b; cbn [repeat interleave map fst snd List.length].
  - intros H. inversion H; subst. repeat constructor; auto.
  - intros H. inversion H as [|? ? ? ? H1 H2]; subst. inversion H2 as [|? ? ? ? H3 H4]; subst.
    apply IH in H4 as [H4 H5]. split; constructor; auto.
Qed.

Lemma delim_value_typed tp td pvs dvs v :
  delim_value tp td pvs dvs v -> Forall (rv_has_ty tp) pvs -> Forall (rv_has_ty td) dvs ->
  rv_has_ty (delimit_type tp td) v.
Proof.
  assert (HF : forall t ws, Forall (rv_has_ty t) (map RVal ws) -> Forall (has_ty t) ws).
  { intros t ws H. apply Forall_forall. intros w Hw. rewrite Forall_forall in H.
    apply (proj1 (rv_has_ty_val t w)), H, in_map, Hw. }
  unfold delimit_type. intros [] Hp Hd; cbn [is_void].
  - reflexivity.
  - apply is_void_false in H. rewrite H. apply rv_has_ty_val. cbn. auto.
  - apply is_void_false in H. rewrite H. apply rv_has_ty_val. cbn. auto.
  - apply is_void_false in H, H0. rewrite H, H0. apply rv_has_ty_val. cbn. auto.
Qed.

Lemma derives_typed_mut b :
  (forall m p lo hi v, derives E b m p lo hi v -> compiles E m p = true ->
     match m with Parse => typed p v | Look => v = RVoid end) /\
  (forall l lo hi vs, dchain E b l lo hi vs -> Forall2 link_ty l vs).
Proof.
  apply derives_mut;
    try (intros; match goal with |- Forall2 _ _ _ => constructor; auto end; fail);
    try (intros m; destruct m; intros; [eexists; split; [reflexivity|cbn; auto; split; [discriminate|exact I]]|reflexivity]; fail).
  - intros [] lo _; [|reflexivity]. exists TVoid. split; reflexivity.
  - (* choice *)
    intros q qs tys j p k lo hi w Hr Hj Hk Hd IH Hc.
    exists (compound_result TVar (fst (filter_out_void_deduplicate tys))).
    rewrite result_for_choice, Hr. split; auto.
    destruct (result_fors_nth _ _ _ _ Hr Hj) as (t & Ht & Hp).
    pose proof (compiles_choice _ _ _ _ _ _ Hc Hr Hj Hk) as Hcp. cbn in Hcp.
    destruct (IH Hcp) as (t' & Ht' & Hty). cbn [snd] in Ht'. assert (t' = t) by congruence. subst t'.
    pose proof (compiles_choice_emplace _ _ _ Hc Hr) as He.
    rewrite filter_out_void_deduplicate_spec in *. cbn [fst snd] in *.
    pose proof (dedup_from_some_nonvoid _ _ _ _ _ _ Hk Ht) as Hnv.
    assert (Hin : In t (distinct_from [] tys)).
    { apply distinct_from_in. split; [eapply nth_error_In; eauto|]. split; auto. }
    destruct (distinct_from [] tys) as [|a [|a' l]] eqn:Hdone; [contradiction| |]; cbn [unwrapped compound_result].
    + destruct Hin as [->|[]]. exact Hty.
    + cbn [unwrapped orb] in He. apply emplace_ok_spec with (j := j) (t := t) (k := k) in He; auto.
      apply rv_has_ty_val, has_ty_var. exists t. split; auto. now apply rv_val_inv.
  - (* lost *)
    intros q qs tys j p lo hi v Hr Hj Hk Hd IH Hc.
    exists (compound_result TVar (fst (filter_out_void_deduplicate tys))).
    rewrite result_for_choice, Hr. split; auto. unfold builder_init.
    destruct (result_for_ok (PChoice q qs) (compound_result TVar (fst (filter_out_void_deduplicate tys)))) as [H|H].
    + rewrite result_for_choice, Hr. reflexivity.
    + rewrite H. reflexivity.
    + destruct (is_void _) eqn:Hv; [apply is_void_spec in Hv; now rewrite Hv|].
      apply rv_has_ty_val. now apply default_has_ty.
  - reflexivity.
  - (* sequence *)
    intros q qs tys lo hi vs ws Hr Hd IH Hk Hc.
    exists (compound_result TTup (fst (filter_out_void tys))).
    rewrite result_for_seq, Hr. split; auto. rewrite filter_out_void_spec. cbn [fst].
    apply tuple_of_typed.
    + eapply kept_typed; eauto. intros j t v Ht Hnv Hv.
      apply Forall2_nth in IH as [Hl IH].
      assert (Hlt : j < List.length (q :: qs)).
      { rewrite (result_fors_length _ _ Hr). apply nth_error_Some. congruence. }
      destruct (nth_error (q :: qs) j) as [p|] eqn:Hp; [|apply nth_error_None in Hp; lia].
      assert (Hpt : nth_error (parts tys (q :: qs)) j = Some (part_mode t, p)).
      { apply parts_nth. eauto. }
      pose proof (IH j _ _ Hpt Hv) as HL.
      pose proof (compiles_part _ _ _ _ _ _ Hc Hr Hp Ht) as Hcp.
      unfold part_mode in *. apply is_void_false in Hnv as Hnv'. rewrite Hnv' in *.
      destruct (HL Hcp) as (t' & Ht' & Hty). cbn in Ht'.
      destruct (result_fors_nth _ _ _ _ Hr Hp) as (t'' & H1 & H2). congruence.
    + apply Forall_forall. intros t Ht. apply filter_In in Ht as [_ Ht].
      now apply negb_true_iff, is_void_false in Ht.
  - reflexivity.
  - (* maybe some *)
    intros q t lo hi v w Hr Hd IH Hw Hc. exists (if is_void t then TVoid else TOpt t).
    cbn [result_for]. rewrite Hr. split; auto.
    destruct Hw as [[-> ->]|(Ht & x & -> & ->)]; [reflexivity|].
    apply is_void_false in Ht as Ht'. rewrite Ht'. apply rv_has_ty_val. cbn.
    cbn in Hc. apply andb_true_iff in Hc as [Hc _].
    destruct (IH Hc) as (t' & H1 & H2). cbn in H1. assert (t' = t) by congruence. subst.
    now apply rv_val_inv.
  - (* maybe none *)
    intros q t lo Hr Hc. exists (if is_void t then TVoid else TOpt t).
    cbn [result_for]. rewrite Hr. split; auto. destruct (is_void t); [reflexivity|].
    now apply rv_has_ty_val.
  - reflexivity.
  - reflexivity.
  - (* exactly *)
    intros q t n lo hi vs v Hr Hn Hd IH Hcol Hc.
    exists (if is_void t then TVoid else TArr t n). cbn [result_for]. rewrite Hr. split; auto.
    cbn in Hc. rewrite Hr, andb_true_r in Hc. apply andb_true_iff in Hc as [_ Hc].
    eapply collect_typed; eauto.
    + intros ws Hw Hl. cbn. split; auto. apply dchain_length in Hd. rewrite repeat_length in Hd. lia.
    + eapply chain_typed; eauto.
  - reflexivity.
  - (* one or more *)
    intros q t n lo hi vs v Hr Hn Hd IH Hcol Hc.
    exists (if is_void t then TVoid else TVec t). cbn [result_for]. rewrite Hr. split; auto.
    cbn in Hc. rewrite Hr, andb_true_r in Hc.
    eapply collect_typed; [|eauto|eapply chain_typed; eauto]. intros; cbn; auto.
  - reflexivity.
  - (* zero or more *)
    intros q t n lo hi vs v Hr Hd IH Hcol Hc.
    exists (if is_void t then TVoid else TVec t). cbn [result_for]. rewrite Hr. split; auto.
    cbn in Hc. rewrite Hr, andb_true_r in Hc.
    eapply collect_typed; [|eauto|eapply chain_typed; eauto]. intros; cbn; auto.
  - reflexivity.
  - (* delimit *)
    intros q d tp td lo hi v0 prs v Hp Hd Hch IH Hv Hc.
    exists (delimit_type tp td). cbn [result_for]. rewrite Hp, Hd. split; auto.
    cbn in Hc. rewrite Hp, Hd, andb_true_r in Hc. apply andb_true_iff in Hc as [Hc1 Hc2].
    unfold delim_parts in IH. apply interleave_split in IH as [H1 H2].
    eapply delim_value_typed; eauto.
    + eapply Forall_impl; [|exact H1]. intros a Ha. destruct (Ha Hc1) as (t & H3 & H4). cbn in H3. congruence.
    + eapply Forall_impl; [|exact H2]. intros a Ha. destruct (Ha Hc2) as (t & H3 & H4). cbn in H3. congruence.
  - reflexivity.
  - intros m q lo hi v Hd IH Hc. destruct m; [|reflexivity]. exists TVoid. split; reflexivity.
  - (* complete *)
    intros m q lo hi v Hd IH Hc. cbn in Hc. apply andb_true_iff in Hc as [Hc _].
    specialize (IH Hc). destruct m; auto.
  - intros q t lo hi x s Hr Hd IH Hj Hc. exists TSpan. split; [reflexivity|]. now apply rv_has_ty_val.
  - reflexivity.
  - (* map *)
    intros q f lo hi v w Hd IH Hi Hc. cbn [compiles] in Hc. apply andb_true_iff in Hc as [Hc1 Hc2].
    destruct (IH Hc1) as (t & Ht & Hv). cbn in Ht.
    destruct (result_for E (PMap q f)) as [t'|] eqn:Hr; [|discriminate].
    exists t'. split; auto. cbn in Hr. rewrite Ht in Hr.
    pose proof (invoke_typed f _ _ _ Hr (args_of_typed _ _ Hv)) as HI. now rewrite Hi in HI.
  - reflexivity.
  - (* filter *)
    intros q f lo hi v c Hd IH Hi Hb Hc. cbn [compiles] in Hc. apply andb_true_iff in Hc as [Hc1 Hc2].
    destruct (IH Hc1) as (t & Ht & Hv). cbn in Ht. exists t. split; auto. cbn.
    cbn in Hc2. rewrite Ht in *. destruct (fn_ty E f (arg_tys t)) as [u|]; [|discriminate].
    destruct (bool_ok E u); [auto|discriminate].
  - reflexivity.
  - (* named *)
    intros m q s lo hi v Hd IH Hc. cbn in Hc. specialize (IH Hc). destruct m; auto.
  - (* custom *)
    intros c lo hi v Hconv Hd IH _. exists (cust_ty E c). split; [reflexivity|].
    destruct (IH (ec_compiles HC _ _)) as (t & Ht & Hv).
    pose proof (ec_conv HC c) as Hcv. rewrite Hconv in Hcv. cbn in Ht. congruence.
  - intros c t lo hi x w Hconv Hd IH Hi _. exists (cust_ty E c). split; [reflexivity|].
    destruct (IH (ec_compiles HC _ _)) as (t' & Ht & Hv). cbn in Ht.
    pose proof (ec_conv HC c) as Hcv. rewrite Hconv in Hcv.
    destruct Hcv as (-> & Htv & tb & Hb & Hbv & Hok).
    assert (t' = tb) by congruence. subst t'. cbn in Hi.
    pose proof (et_ct HT t [x] [tb] Hok) as HI. rewrite Hi in HI. apply HI.
    repeat constructor. now apply rv_val_inv.
  - intros c t lo hi x w Hconv Hd IH Hi _. exists (cust_ty E c). split; [reflexivity|].
    destruct (IH (ec_compiles HC _ _)) as (t' & Ht & Hv). cbn in Ht.
    pose proof (ec_conv HC c) as Hcv. rewrite Hconv in Hcv.
    destruct Hcv as (-> & Htv & tb & Hb & Hbv & Hok).
    assert (t' = tb) by congruence. subst t'. cbn in Hi.
    pose proof (et_ct HT t [VOpt (Some x)] [TOpt tb] Hok) as HI. rewrite Hi in HI. apply HI.
    repeat constructor. cbn. now apply rv_val_inv.
  - intros c t lo w Hconv Hi _. exists (cust_ty E c). split; [reflexivity|].
    pose proof (ec_conv HC c) as Hcv. rewrite Hconv in Hcv.
    destruct Hcv as (-> & Htv & tb & Hb & Hbv & Hok). cbn in Hi.
    pose proof (et_ct HT t [VOpt None] [TOpt tb] Hok) as HI. rewrite Hi in HI. apply HI.
    repeat constructor.
  - reflexivity.
Qed.

Lemma derives_typed b p lo hi v : compiles E Parse p = true -> derives E b Parse p lo hi v ->
  typed p v.
Proof. intros Hc Hd. exact (proj1 (derives_typed_mut b) _ _ _ _ _ Hd Hc). Qed.
End Typing.
