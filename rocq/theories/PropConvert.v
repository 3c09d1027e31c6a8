(** * Property C10 with conversions: the value of an alternative that gets the index of another type *)
From Coq Require Import String List Arith ZArith Bool Lia.
From Verif Require Import Types Compound Parser Outcome CompoundFacts ChoiceIndex Exec Mono Derive Typing Join Leaves Sound
  BigStep BigSound BigComplete Peg Elems Runs Samples PropBasic PropChoice PropNeeds ConvChoice.
Import ListNotations.
Local Open Scope outcome_scope.

Section C10.
Context {T V : Type} (E : env T V).

(** Programs that compile without conversions run as before. *)
Theorem C10_conversions_agree n m p i : run E n m p i <> Ill -> crun E n m p i = run E n m p i.
Proof. intros H. destruct (crun_agrees E n m p i); congruence. Qed.

(** ** Failures give back the input, with conversions too *)
Definition gives_back (i : span) (o : outcome presult) : Prop :=
  forall r tr, o = Done r tr -> r_ok r = None -> r_rem r = i.

Lemma gb_bind {A} i (x : outcome A) f : (forall a tr, x = Done a tr -> gives_back i (f a)) -> gives_back i (bind x f).
Proof.
  intros H r tr. destruct x as [a tr0| | | |]; cbn; try discriminate. specialize (H a tr0 eq_refl).
  destruct (f a) as [r' tr'| | | |]; cbn; try discriminate. intros [= <- _]. eapply H; eauto.
Qed.
Lemma gb_fail i : gives_back i (ret (failure i)).
Proof. intros r tr [= <- _]. reflexivity. Qed.
Lemma gb_success i v j : gives_back i (ret (success v j)).
Proof. intros r tr [= <- _]. discriminate. Qed.
Lemma gb_ill i : gives_back i Ill.
Proof. intros r tr. discriminate. Qed.
Hint Resolve gb_fail gb_success gb_ill : gb.

Ltac gb_step :=
  match goal with
  | |- gives_back _ (bind _ _) => apply gb_bind; intros
  | |- gives_back _ (match ?x with _ => _ end) => destruct x eqn:?
  | |- gives_back _ (if ?x then _ else _) => destruct x eqn:?
  | |- gives_back _ (let (_, _) := ?x in _) => destruct x eqn:?
  | |- gives_back _ (ret {| r_ok := Some _ |}) => intros ? ? [= <- _]; discriminate
  | |- gives_back _ Ill => apply gb_ill
  end.

Lemma gb_rep (f : pfun) k : (forall i, gives_back i (f i)) -> forall i b s i' b' ok tr, rep_loop f k i b s = Done (i', b', ok) tr -> ok = false -> i' = i.
Proof.
  intros Hf. assert (G : forall j i b i' b' ok tr, rep_loop f j i b true = Done (i', b', ok) tr -> ok = true).
  { induction j as [|k' IH]; intros i b i' b' ok tr H; cbn in H; [discriminate|].
    destruct (f i) as [r tr0| | | |]; cbn in H; try discriminate. destruct (r_ok r) as [v|]; [|now injection H as <- <- <- _].
    destruct (b_insert_back b v) as [c tr1| | | |]; cbn in H; try discriminate.
    destruct (rep_loop f k' (r_rem r) c true) as [[[x y] z] tr2| | | |] eqn:L; cbn in H; try discriminate.
    injection H as <- <- <- _. eauto. }
  destruct k as [|k]; intros i b s i' b' ok tr H Ho; cbn in H; [discriminate|].
  destruct (f i) as [r tr0| | | |] eqn:F; cbn in H; try discriminate. destruct (r_ok r) as [v|] eqn:Hr; [|injection H as <- <- <- _; exact (Hf i _ _ F Hr)].
  destruct (b_insert_back b v) as [c tr1| | | |]; cbn in H; try discriminate.
  destruct (rep_loop f k (r_rem r) c true) as [[[x y] z] tr2| | | |] eqn:L; cbn in H; try discriminate.
  injection H as <- <- <- _. apply G in L. congruence.
Qed.

Lemma gb_special p k f m i : join_special E p k = Some f -> gives_back i (f m i).
Proof.
  intros H. destruct p; cbn in H; try discriminate; destruct (as_basic E p) as [[fc len]|]; try discriminate;
    try (destruct (n =? 0); [discriminate|]); injection H as <-; destruct m;
    unfold jm_parse, jm_look, jx_parse, jx_look, jo_parse, jo_look, jz_parse, jz_look;
    repeat first [solve [auto with gb] | gb_step].
Qed.

Lemma gb_step_all (rec : mode -> parser T -> pfun) k m p i : (forall m p i, gives_back i (rec m p i)) -> gives_back i (cstep E rec k m p i).
Proof.
  intros H. unfold cstep.
  assert (Hid : forall m p res tr, rec m p i = Done res tr -> gives_back i (ret res)).
  { intros m' p' res tr Hr r tr' [= <- _] Hn. eapply H; eauto. }
  destruct p; destruct m; cbn [step]; try apply H; auto with gb;
    unfold epsilon_run, basic_parse, basic_look, cchoice_parse, choice_look, sequence_parse, sequence_look,
      maybe_parse, maybe_look, exactly_parse, exactly_look, one_or_more_parse, one_or_more_look,
      zero_or_more_parse, zero_or_more_look, delimit_parse, delimit_look, complete_run,
      map_parse, filter_parse, custom_parse, join_generic, join_parse; auto with gb;
    try solve [repeat first [solve [auto with gb] | solve [eauto] | gb_step]].
  - destruct (result_for E p) as [t|]; [|apply gb_ill]. apply gb_bind. intros [[i' b] [|]] tr L; [apply gb_success|].
    apply gb_rep in L; auto. subst. apply gb_fail.
  - apply gb_bind. intros [[i' b] [|]] tr L; [apply gb_success|]. apply gb_rep in L; auto. subst. apply gb_fail.
  - destruct (join_special E p k) eqn:Hj; [eapply gb_special; eauto|]. repeat first [solve [auto with gb] | gb_step].
  - destruct (join_special E p k) eqn:Hj; [eapply gb_special; eauto | apply H].
Qed.

Theorem C10_conversions_give_back n m p i : gives_back i (crun E n m p i).
Proof.
  revert m p i. induction n as [|n IH]; intros m p i; [intros r tr; discriminate|]. cbn [crun]. now apply gb_step_all.
Qed.

(** ** The value *)

Lemma cexecute_no rec done p t idx i b st tr : (forall m p i, gives_back i (rec m p i)) ->
  cexecute E rec done p t idx (i, b) = Done (false, st) tr ->
  st = (i, b) /\ exists m r tr', rec m p i = Done r tr' /\ r_ok r = None.
Proof.
  intros Hg. assert (Hx : execute rec CChoice (unwrapped done) p idx (i, b) = Done (false, st) tr ->
    st = (i, b) /\ exists m r tr', rec m p i = Done r tr' /\ r_ok r = None).
  { unfold execute. destruct idx as [k|].
    - destruct (rec Parse p i) as [r tr0| | | |] eqn:R; cbn; try discriminate. destruct (r_ok r) as [v|] eqn:Hr.
      + destruct (store CChoice (unwrapped done) k b v); cbn; discriminate.
      + intros [= <- _]. split; [reflexivity | eauto].
    - destruct (rec Look p i) as [r tr0| | | |] eqn:R; cbn; try discriminate. intros [= Hv <- _].
      assert (Hr : r_ok r = None) by (unfold has_value in Hv; destruct (r_ok r); [discriminate | reflexivity]).
      split; [|eauto]. f_equal. exact (Hg _ _ _ _ _ R Hr). }
  unfold cexecute. destruct idx as [k|]; [|exact Hx]. destruct (unwrapped done); [exact Hx|].
  destruct (rec Parse p i) as [r tr0| | | |] eqn:R; cbn; try discriminate. destruct (r_ok r) as [[|v]|] eqn:Hr.
  - destruct b; cbn; try discriminate. destruct v; discriminate.
  - destruct (nth_error done k) as [a|]; [|discriminate]. destruct (convert E a t v) as [w tr1| | | |]; cbn; try discriminate.
    destruct (b_emplace k b (RVal w)); cbn; discriminate.
  - intros [= <- _]. split; [reflexivity | eauto].
Qed.

Lemma cexec_or_inv rec done l : (forall m p i, gives_back i (rec m p i)) -> forall i b st tr,
  cexec_or E rec done l (i, b) = Done (true, st) tr ->
  exists l1 p t idx l2 tr', l = l1 ++ (p, (t, idx)) :: l2 /\
    (forall x, In x l1 -> exists m r tr', rec m (fst x) i = Done r tr' /\ r_ok r = None) /\
    cexecute E rec done p t idx (i, b) = Done (true, st) tr'.
Proof.
  intros Hg. induction l as [|[p [t idx]] l IH]; intros i b st tr; cbn [cexec_or]; [discriminate|].
  destruct (cexecute E rec done p t idx (i, b)) as [[[|] st'] tr0| | | |] eqn:X; cbn; try discriminate.
  - intros [= <- _]. exists [], p, t, idx, l, tr0. split; [reflexivity|]. split; [intros x []|exact X].
  - apply cexecute_no in X as (-> & Hno); auto.
    destruct (cexec_or E rec done l (i, b)) as [a tr1| | | |] eqn:L; cbn; try discriminate. intros [= -> _].
    destruct (IH _ _ _ _ L) as (l1 & p' & t' & idx' & l2 & tr' & -> & H1 & H2).
    exists ((p, (t, idx)) :: l1), p', t', idx', l2, tr'. split; [reflexivity|]. split; [|exact H2].
    intros x [<-|Hx]; [exact Hno | now apply H1].
Qed.

(** another type with a value occurs beside [t] *)
Definition several (tys : list ty) (t : ty) : Prop := exists t', In t' tys /\ t' <> TVoid /\ t' <> t.

(** [r] different types with a value occur before position [f] *)
Definition earlier_types (tys : list ty) (f r : nat) : Prop :=
  exists l, NoDup l /\ List.length l = r /\ forall t, In t l <-> In t (firstn f tys) /\ t <> TVoid.

(** Where the value of the [j]-th alternative goes: nowhere ([None]), or to the type [a] of the
    variant.  The first alternative of a type goes to its type.  A repeated type goes where
    alternative number [r] goes, [r] being the number of types before the first of its type:
    its own type if there are [r] alternatives before that one, and otherwise not in general. *)
Inductive lands (tys : list ty) : nat -> option ty -> Prop :=
| lands_void j : nth_error tys j = Some TVoid -> lands tys j None
| lands_first j t : t <> TVoid -> first_at tys t j -> lands tys j (Some t)
| lands_repeat j t f r o : nth_error tys j = Some t -> t <> TVoid -> first_at tys t f -> f < j ->
    earlier_types tys f r -> lands tys r o -> lands tys j o.

Lemma earlier_types_done tys f r : earlier_types tys f r <-> r = List.length (done_of (firstn f tys)).
Proof.
  split.
  - intros (l & Hn & <- & Hl). apply Nat.le_antisymm; apply NoDup_incl_length; auto using done_nodup; intros t Ht.
    + apply done_in. now apply Hl.
    + apply Hl. now apply done_in.
  - intros ->. exists (done_of (firstn f tys)). split; [apply done_nodup|]. split; [reflexivity|]. intros t. apply done_in.
Qed.

Lemma first_at_unique tys t f f' : first_at tys t f -> first_at tys t f' -> f = f'.
Proof. intros H H'. pose proof (first_at_le _ _ _ _ H (proj1 H')). pose proof (first_at_le _ _ _ _ H' (proj1 H)). lia. Qed.

Lemma lands_index tys j o : lands tys j o -> exists idx, nth_error (seq_of tys) j = Some idx /\
  match idx, o with
  | None, None => True
  | Some k, Some a => nth_error (done_of tys) k = Some a
  | _, _ => False
  end.
Proof.
  induction 1 as [j H|j t Ht Hf|j t f r o Hj Ht Hf Hlt Hr _ IH].
  - exists None. split; [|exact Logic.I]. exact (dedup_from_void _ [] [] j H).
  - eexists. split; [apply seq_first with (t := t); [apply Hf | exact Ht | apply Hf]|]. now apply first_at_rank.
  - apply earlier_types_done in Hr. pose proof (first_at_rank _ _ _ Hf Ht) as Hd. rewrite <- Hr in Hd.
    assert (Hl : j < List.length tys) by (apply nth_error_Some; congruence).
    destruct (seq_repeat tys j t r Hj Ht (first_at_in _ _ _ j Hf Hlt ltac:(lia)) Hd) as [_ He]. rewrite He. exact IH.
Qed.

(** Every alternative has exactly one such place. *)
Theorem C10_lands_total tys j : j < List.length tys -> exists o, lands tys j o.
Proof.
  induction j as [j IH] using lt_wf_ind. intros Hj. destruct (nth_error tys j) as [t|] eqn:Ht; [|apply nth_error_None in Ht; lia].
  destruct (ty_eqb t TVoid) eqn:Hv. { apply ty_eqb_spec in Hv. subst. exists None. now constructor. }
  apply ty_eqb_neq in Hv. destruct (first_at_exists tys j t Ht) as (f & Hle & Hf).
  destruct (Nat.eq_dec f j) as [->|Hne]; [exists (Some t); now constructor|].
  pose proof (done_le (firstn f tys)) as Hd. rewrite firstn_length in Hd.
  destruct (IH (List.length (done_of (firstn f tys)))) as [o Ho]; [lia|lia|].
  exists o. eapply lands_repeat; eauto; [lia|]. now apply earlier_types_done.
Qed.

Theorem C10_lands_unique tys j o o' : lands tys j o -> lands tys j o' -> o = o'.
Proof.
  intros H H'. apply lands_index in H as (i & Hi & H). apply lands_index in H' as (i' & Hi' & H').
  assert (i' = i) by congruence. subst i'. destruct i as [k|], o as [a|], o' as [a'|]; congruence || contradiction.
Qed.

(** The right place, exactly for the [proper] alternatives. *)
Theorem C10_lands_proper tys j t : nth_error tys j = Some t -> t <> TVoid -> (lands tys j (Some t) <-> proper tys j).
Proof.
  intros Ht Hv. destruct (first_at_exists tys j t Ht) as (f & _ & Hf). split.
  - intros H. apply lands_index in H as ([k|] & Hi & H); [|contradiction]. exists t, f. split; [exact Ht|]. split; [exact Hf|].
    eapply index_exact; eauto.
  - intros (t' & f' & Ht' & Hf' & Hor). assert (t' = t) by congruence. subst t'.
    destruct (index_some tys j t f' Ht Hv Hf' Hor) as (r & Hr & Hs).
    destruct (C10_lands_total tys j) as [o Ho]; [apply nth_error_Some; congruence|].
    pose proof (lands_index _ _ _ Ho) as (i & Hi & H). assert (i = Some r) by congruence. subst i.
    destruct o as [a|]; [|contradiction]. assert (a = t) by congruence. now subst.
Qed.

(** [a] can be constructed from [t] *)
Definition constructs (a t : ty) : Prop :=
  a = t \/ ct_ok E a [t] = true \/ a = TOpt t \/ exists ts, a = TVar ts /\ In t ts.

Lemma constructible_spec a t : constructible E a t = true <-> constructs a t.
Proof.
  unfold constructible, constructs. rewrite !orb_true_iff, ty_eqb_spec.
  assert (H : match a with TOpt t0 => ty_eqb t0 t | TVar ts => occurs ts t | _ => false end = true <->
    a = TOpt t \/ exists ts, a = TVar ts /\ In t ts).
  { destruct a; split; try discriminate; intros H; try (destruct H as [H|(? & H & _)]; discriminate).
    - apply ty_eqb_spec in H. subst. now left.
    - destruct H as [[= ->]|(? & H & _)]; [apply ty_eqb_refl|discriminate].
    - right. eexists. split; [reflexivity|]. now apply occurs_spec.
    - destruct H as [H|(? & [= <-] & H)]; [discriminate|]. now apply occurs_spec. }
  rewrite H. tauto.
Qed.

Lemma position_spec t ts : In t ts -> nth_error ts (position t ts) = Some t.
Proof.
  induction ts as [|a ts IH]; [intros []|]. intros H. cbn. destruct (ty_eqb a t) eqn:He.
  - apply ty_eqb_spec in He. now subst.
  - apply ty_eqb_neq in He. destruct H as [->|H]; [contradiction|]. now apply IH.
Qed.

(** A conversion ends with a value of the type, or the user's constructor throws. *)
Theorem C10_conversion_typed a t x : env_typed E -> a <> TVoid -> constructs a t -> has_ty t x ->
  (exists y tr, convert E a t x = Done y tr /\ has_ty a y) \/ (exists e, convert E a t x = Exn e).
Proof.
  intros HE Ha Hc Hx. unfold convert. destruct (ty_eqb a t) eqn:He.
  { apply ty_eqb_spec in He. subst. left. exists x, []. auto. }
  apply ty_eqb_neq in He. destruct (ct_ok E a [t]) eqn:Hk.
  { unfold call. cbn [invoke]. pose proof (et_ct E HE a [x] [t] Hk ltac:(repeat constructor; assumption)) as H.
    destruct (ct_app E a [x]) as [[|y]|e|]; cbn in H |- *; [contradiction| |right; eauto|contradiction].
    left. eexists _, _. split; [reflexivity|]. apply H. }
  destruct Hc as [Hc|[Hc|[->|(ts & -> & Hin)]]]; [contradiction|congruence| |]; left.
  - rewrite ty_eqb_refl. eexists _, _. split; [reflexivity|]. exact Hx.
  - rewrite (proj2 (occurs_spec ts t) Hin). eexists _, _. split; [reflexivity|]. apply has_ty_var. eauto using position_spec.
Qed.

(** The value of a choice between several types, with conversions: the value of the alternative
    that matched, converted to the type where it lands. *)
Theorem C10_converted_value n q qs tys res i w rem tr :
  result_fors E (q :: qs) = Some tys -> result_for E (PChoice q qs) = Some res ->
  crun E (S n) Parse (PChoice q qs) i = Done (Res (Some w) rem) tr ->
  exists j p t, nth_error (q :: qs) j = Some p /\ nth_error tys j = Some t /\
    (forall k p', k < j -> nth_error (q :: qs) k = Some p' -> exists m r tr', crun E n m p' i = Done r tr' /\ r_ok r = None) /\
    (t = TVoid -> w = default_of res /\ exists v tr', crun E n Look p i = Done (Res (Some v) rem) tr') /\
    (t <> TVoid -> several tys t -> proper tys j ->
       exists x tr', crun E n Parse p i = Done (Res (Some (RVal x)) rem) tr' /\ holds tys res t x w) /\
    (lands tys j None -> w = default_of res /\ exists v tr', crun E n Look p i = Done (Res (Some v) rem) tr') /\
    (forall a, t <> TVoid -> several tys t -> lands tys j (Some a) ->
       exists x tr' l k y tr'', crun E n Parse p i = Done (Res (Some (RVal x)) rem) tr' /\
         res = TVar l /\ NoDup l /\ nth_error l k = Some a /\ convert E a t x = Done y tr'' /\ w = RVal (VVar k y)).
Proof.
  intros Hr Hres. rewrite result_for_choice, Hr in Hres. injection Hres as <-.
  cbn [crun cstep]. unfold cchoice_parse. rewrite Hr, done_of_eq, seq_of_eq.
  destruct (unwrapped (done_of tys) || convertible_all E (done_of tys) tys (seq_of tys)) eqn:Hc; [|discriminate].
  set (b0 := builder_init (compound_result TVar (done_of tys))).
  destruct (cexec_or E (crun E n) (done_of tys) (combine (q :: qs) (combine tys (seq_of tys))) (i, b0)) as [[[|] [i' b]] tr0| | | |] eqn:X;
    try discriminate. intros [= -> -> _].
  apply cexec_or_inv in X as (l1 & p & t & idx & l2 & tr' & Hl & Hno & Hx); [|intros; apply C10_conversions_give_back].
  assert (Hn : nth_error (combine (q :: qs) (combine tys (seq_of tys))) (List.length l1) = Some (p, (t, idx))).
  { rewrite Hl, nth_error_app2, Nat.sub_diag by lia. reflexivity. }
  apply nth_error_combine in Hn as [Hp Hn]. apply nth_error_combine in Hn as [Ht Hi].
  exists (List.length l1), p, t. split; [exact Hp|]. split; [exact Ht|]. split.
  { intros k p' Hk Hp'. assert (Hlen : List.length (q :: qs) = List.length tys) by (eapply result_fors_length; eauto).
    destruct (nth_error tys k) as [t'|] eqn:Ht'.
    2:{ apply nth_error_None in Ht'. assert (k < List.length (q :: qs)) by (apply nth_error_Some; congruence). lia. }
    destruct (nth_error (seq_of tys) k) as [x'|] eqn:Hs'.
    2:{ apply nth_error_None in Hs'. rewrite seq_length in Hs'. assert (k < List.length tys) by (apply nth_error_Some; congruence). lia. }
    destruct (Hno (p', (t', x'))) as (m & r & trr & H1 & H2); [|eauto].
    apply nth_error_In with (n := k). rewrite <- (nth_error_app1 l1 ((p, (t, idx)) :: l2)) by auto. rewrite <- Hl.
    apply nth_error_combine. split; [exact Hp'|]. apply nth_error_combine. auto. }
  (* a part that is looked at *)
  assert (Hlook : idx = None -> w = default_of (compound_result TVar (done_of tys)) /\
    exists v tr', crun E n Look p i = Done (Res (Some v) rem) tr').
  { intros ->. cbn [cexecute execute] in Hx. destruct (crun E n Look p i) as [[[v|] rm] trr| | | |]; cbn in Hx; try discriminate.
    injection Hx as <- <- _. split; [reflexivity | eauto]. }
  assert (Hvoid : t = TVoid -> idx = None).
  { intros ->. unfold seq_of in Hi. rewrite (dedup_from_void _ [] [] (List.length l1) Ht) in Hi. now injection Hi. }
  (* several types: a variant *)
  assert (Hvar : t <> TVoid -> several tys t -> unwrapped (done_of tys) = false /\ compound_result TVar (done_of tys) = TVar (done_of tys)).
  { intros Hnv (t' & H1 & H2 & H3). destruct (done_shape tys t (nth_error_In _ _ Ht) Hnv) as [[H _]|(_ & H)]; [|exact H].
    destruct (H _ H1); contradiction. }
  assert (Hval : forall k, idx = Some k -> t <> TVoid -> several tys t ->
    exists x trp a y tr'', crun E n Parse p i = Done (Res (Some (RVal x)) rem) trp /\
      nth_error (done_of tys) k = Some a /\ convert E a t x = Done y tr'' /\ w = RVal (VVar k y)).
  { intros k -> Hnv Hs. destruct (Hvar Hnv Hs) as [Hu Hcr]. unfold cexecute in Hx. rewrite Hu in Hx.
    destruct (crun E n Parse p i) as [[[[|x]|] rm] trr| | | |]; cbn in Hx; try discriminate.
    - unfold b0 in Hx. rewrite Hcr in Hx. cbn in Hx. destruct (done_of tys); discriminate.
    - destruct (nth_error (done_of tys) k) as [a|] eqn:Ha; [|discriminate].
      destruct (convert E a t x) as [y try| | | |] eqn:Hy; cbn in Hx; try discriminate.
      unfold b0 in Hx. rewrite Hcr in Hx. cbn in Hx. destruct (done_of tys) as [|d0 ds]; [destruct k; discriminate|]. cbn in Hx.
      injection Hx as <- <- _. exists x, trr, a, y, try. auto. }
  split; [auto|]. destruct (first_at_exists tys _ t Ht) as (f & _ & Hf). split.
  - intros Hnv Hs (t' & f' & Ht' & Hf' & Hor). assert (t' = t) by congruence. subst t'.
    destruct (index_some tys _ t f' Ht Hnv Hf' Hor) as (k & Hk & Hsk).
    assert (idx = Some k) by congruence. subst idx.
    destruct (Hval k eq_refl Hnv Hs) as (x & trp & a & y & tr'' & H1 & H2 & H3 & ->).
    assert (a = t) by congruence. subst a. unfold convert in H3. rewrite ty_eqb_refl in H3. injection H3 as <- _.
    exists x, trp. split; [exact H1|]. right. split; [exact Hs|]. destruct (Hvar Hnv Hs) as [_ Hcr].
    exists (done_of tys), k. split; [exact Hcr|]. split; [apply done_nodup|]. split; [intros; apply done_in'|]. auto.
  - split.
    + intros HL. apply lands_index in HL as ([k|] & Hk & H); [contradiction|]. apply Hlook. congruence.
    + intros a Hnv Hs HL. apply lands_index in HL as ([k|] & Hk & H); [|contradiction].
      destruct (Hval k ltac:(congruence) Hnv Hs) as (x & trp & a' & y & tr'' & H1 & H2 & H3 & ->).
      assert (a' = a) by congruence. subst a'. destruct (Hvar Hnv Hs) as [_ Hcr].
      exists x, trp, (done_of tys), k, y, tr''. split; [exact H1|]. split; [exact Hcr|]. split; [apply done_nodup|]. auto.
Qed.

(** A choice between several types compiles only if every alternative can be converted to the
    type it lands in. *)
Theorem C10_conversions_compile n q qs tys t0 i :
  result_fors E (q :: qs) = Some tys -> In t0 tys -> t0 <> TVoid -> several tys t0 ->
  crun E (S n) Parse (PChoice q qs) i <> Ill ->
  forall j t a, nth_error tys j = Some t -> lands tys j (Some a) -> constructs a t.
Proof.
  intros Hr Hin0 Hv0 Hs Hc j t a Ht Hl. cbn [crun cstep] in Hc. unfold cchoice_parse in Hc. rewrite Hr, done_of_eq, seq_of_eq in Hc.
  assert (Hu : unwrapped (done_of tys) = false).
  { destruct (done_shape tys t0 Hin0 Hv0) as [[H _]|(_ & H & _)]; [|exact H].
    destruct Hs as (t' & H1 & H2 & H3). destruct (H _ H1); contradiction. }
  rewrite Hu in Hc. cbn [orb] in Hc. destruct (convertible_all E (done_of tys) tys (seq_of tys)) eqn:Hall; [|contradiction].
  clear - Ht Hl Hall. apply lands_index in Hl as ([k|] & Hi & Hk); [|contradiction]. apply constructible_spec.
  revert Hall Hi Ht. generalize (seq_of tys). generalize (done_of tys) Hk. clear Hk. intros done Hk. revert j.
  induction tys as [|t1 tys IH]; intros j [|i1 seq] Hall Hi Ht; try (destruct j; discriminate).
  cbn in Hall. apply andb_prop in Hall as [H1 H2]. destruct j as [|j]; cbn in Hi, Ht; [|eapply IH; eauto].
  injection Hi as ->. injection Ht as ->. now rewrite Hk in H1.
Qed.

(** Conversely, if they can, the choice compiles, provided its alternatives do. *)
Theorem C10_conversions_accepted n q qs tys i : env_typed E ->
  result_fors E (q :: qs) = Some tys ->
  (forall j t a, nth_error tys j = Some t -> lands tys j (Some a) -> constructs a t) ->
  (forall j p t m, nth_error (q :: qs) j = Some p -> nth_error tys j = Some t -> crun E n m p i <> Ill) ->
  (forall j p t r v tr, nth_error (q :: qs) j = Some p -> nth_error tys j = Some t ->
     crun E n Parse p i = Done r tr -> r_ok r = Some v -> rv_has_ty t v) ->
  crun E (S n) Parse (PChoice q qs) i <> Ill.
Proof.
  intros HE Hr Hcons Hni Hty. cbn [crun cstep]. unfold cchoice_parse. rewrite Hr, done_of_eq, seq_of_eq.
  assert (Hland : forall j t k, nth_error tys j = Some t -> nth_error (seq_of tys) j = Some (Some k) ->
    t <> TVoid /\ exists a, In a tys /\ a <> TVoid /\ nth_error (done_of tys) k = Some a /\ constructs a t).
  { intros j t k Ht Hk. assert (Hj : j < List.length tys) by (apply nth_error_Some; congruence).
    destruct (C10_lands_total tys j Hj) as [o Ho]. pose proof (lands_index _ _ _ Ho) as (i0 & Hi0 & Hm).
    assert (i0 = Some k) by congruence. subst i0. destruct o as [a|]; [|contradiction]. split.
    - intros ->. pose proof (dedup_from_void _ [] [] j Ht) as H. unfold seq_of in Hk. congruence.
    - pose proof (nth_error_In _ _ Hm) as Hin. apply done_in' in Hin as [Hin Ha]. exists a. repeat split; eauto. }
  assert (Hall : convertible_all E (done_of tys) tys (seq_of tys) = true).
  { clear - Hland. revert Hland. generalize (seq_of tys). generalize (done_of tys). intros done seq Hland.
    assert (H : forall j t k, nth_error tys j = Some t -> nth_error seq j = Some (Some k) ->
      exists a, nth_error done k = Some a /\ constructible E a t = true).
    { intros j t k H1 H2. destruct (Hland j t k H1 H2) as (_ & a & _ & _ & H3 & H4). exists a. split; [exact H3|]. now apply constructible_spec. }
    clear Hland. revert seq H. induction tys as [|t l IH]; intros [|i0 seq] H; try reflexivity. cbn.
    rewrite (IH seq), andb_true_r by (intros j; exact (H (S j))).
    destruct i0 as [k|]; [|reflexivity]. destruct (H 0 t k eq_refl eq_refl) as (a & -> & Ha). exact Ha. }
  rewrite Hall, orb_true_r. set (b0 := builder_init (compound_result TVar (done_of tys))).
  assert (H : forall L, (forall p t idx, In (p, (t, idx)) L -> exists j, nth_error (q :: qs) j = Some p /\ nth_error tys j = Some t /\ nth_error (seq_of tys) j = Some idx) ->
    cexec_or E (crun E n) (done_of tys) L (i, b0) <> Ill).
  { induction L as [|[p [t idx]] L IH]; intros HL; [discriminate|]. cbn [cexec_or].
    destruct (HL p t idx (or_introl eq_refl)) as (j & Hp & Ht & Hi).
    assert (X : cexecute E (crun E n) (done_of tys) p t idx (i, b0) <> Ill).
    { unfold cexecute, execute. destruct idx as [k|].
      2:{ pose proof (Hni j p t Look Hp Ht) as H. destruct (crun E n Look p i); cbn; congruence. }
      destruct (Hland j t k Ht Hi) as (Htv & a & Hain & Ha & Hk & Hc).
      pose proof (Hni j p t Parse Hp Ht) as H. pose proof (Hty j p t) as H'. specialize (fun r v tr => H' r v tr Hp Ht).
      destruct (crun E n Parse p i) as [r tr0| | | |] eqn:R; cbn; try (destruct (unwrapped (done_of tys)); congruence).
      destruct (r_ok r) as [v|] eqn:Hv; [|destruct (unwrapped (done_of tys)); discriminate].
      specialize (H' r v tr0 eq_refl Hv). destruct v as [|v]; [contradiction|]. destruct H' as [_ H'].
      destruct (done_shape tys a Hain Ha) as [[_ Hd]|(_ & Hu & Hcr)].
      - assert (Hu : unwrapped (done_of tys) = true) by now rewrite Hd. rewrite Hu. unfold b0. rewrite Hd. cbn [compound_result].
        unfold builder_init. apply is_void_false in Ha. rewrite Ha. discriminate.
      - rewrite Hu, Hk. unfold b0. rewrite Hcr. cbn [builder_init is_void].
        destruct (C10_conversion_typed a t v HE Ha Hc H') as [(y & try & -> & _)|(e & ->)]; [|discriminate]. cbn.
        destruct (done_of tys); discriminate. }
    destruct (cexecute E (crun E n) (done_of tys) p t idx (i, b0)) as [[[|] st] tr0| | | |] eqn:R; cbn; try congruence.
    apply cexecute_no in R as [-> _]; [|intros; apply C10_conversions_give_back].
    assert (Hrest := IH (fun p t idx H => HL p t idx (or_intror H))).
    destruct (cexec_or E (crun E n) (done_of tys) L (i, b0)); cbn; congruence. }
  specialize (H (combine (q :: qs) (combine tys (seq_of tys)))).
  destruct (cexec_or E (crun E n) (done_of tys) (combine (q :: qs) (combine tys (seq_of tys))) (i, b0)) as [[[|] [i' b]] tr0| | | |]; try discriminate.
  exfalso. apply H; [|reflexivity]. intros p t idx Hin. apply In_nth_error in Hin as [j Hj]. exists j.
  apply nth_error_combine in Hj as [Hp Hj]. apply nth_error_combine in Hj as [Ht Hi]. auto.
Qed.

End C10.

(** ** Two pairs of alternatives with the same type *)

(** [a % into<Word> | plus % into<Word> | b | open], where [Word] can be constructed from a span:
    no void alternative, and the program compiles.  The value of [open] is a span, the result has
    an alternative for spans, and yet it arrives as a [Word]. *)
Definition cv_thing : parser nat := PMap (PAnyOf (codes "+")) (FConstruct (TUser 2)).
Definition cv_text : parser nat := PAnyOf (codes "(").
Definition cv_choice : parser nat := PChoice sx_thing [cv_thing; sx_text; cv_text].

Example C10_case_conversion_types :
  result_fors sx [sx_thing; cv_thing; sx_text; cv_text] = Some [TUser 2; TUser 2; TSpan; TSpan] /\
  result_for sx cv_choice = Some (TVar [TUser 2; TSpan]) /\ run sx 5 Parse cv_choice (at1 0) = Ill.
Proof. repeat split; reflexivity. Qed.

(** Without any void alternative, a matched value of type [TSpan] is not held in the alternative
    for spans. *)
Theorem C10_conversion_refuted : exists (q p : parser nat) qs tys res i x rem tr w tr',
  result_fors sx (q :: qs) = Some tys /\ result_for sx (PChoice q qs) = Some res /\ ~ In TVoid tys /\
  nth_error (q :: qs) 3 = Some p /\ nth_error tys 3 = Some TSpan /\
  (forall k p', k < 3 -> nth_error (q :: qs) k = Some p' -> exists tr, crun sx 4 Parse p' i = Done (failure i) tr) /\
  crun sx 4 Parse p i = Done (Res (Some (RVal x)) rem) tr /\
  crun sx 5 Parse (PChoice q qs) i = Done (Res (Some w) rem) tr' /\
  ~ holds tys res TSpan x w /\ w <> default_of res.
Proof.
  exists sx_thing, cv_text, [cv_thing; sx_text; cv_text], [TUser 2; TUser 2; TSpan; TSpan], (TVar [TUser 2; TSpan]), (at1 0).
  eexists _, _, _, _, _. split; [reflexivity|]. split; [reflexivity|].
  split. { intros [H|[H|[H|[H|[]]]]]; discriminate. }
  split; [reflexivity|]. split; [reflexivity|]. split.
  { intros [|[|[|k]]] p' Hk Hp; try lia; injection Hp as <-; eexists; reflexivity. }
  split; [reflexivity|]. split; [reflexivity|]. split; [|discriminate].
  intros [(_ & H & _)|(_ & l & k & [= <-] & _ & _ & Hk & [= <- _])]; discriminate.
Qed.

(** The hypotheses of [C10_converted_value] hold of it, and of the third alternative, whose value
    arrives unconverted. *)
Example C10_case_converted_value :
  crun sx 5 Parse cv_choice (at1 0) =
    Done (Res (Some (RVal (VVar 0 (VUser 2 [VSpan (Span 1 0 1)])))) (Span 1 1 16)) [EInvoke (FConstruct (TUser 2)) [VSpan (Span 1 0 1)]] /\
  crun sx 5 Parse cv_choice (at1 4) = Done (Res (Some (RVal (VVar 1 (VSpan (Span 1 4 1))))) (Span 1 5 12)) [] /\
  several [TUser 2; TUser 2; TSpan; TSpan] TSpan /\
  proper [TUser 2; TUser 2; TSpan; TSpan] 2 /\ ~ proper [TUser 2; TUser 2; TSpan; TSpan] 3.
Proof.
  split; [reflexivity|]. split; [reflexivity|]. split. { exists (TUser 2). cbn. repeat split; auto; discriminate. }
  assert (F : first_at [TUser 2; TUser 2; TSpan; TSpan] TSpan 2).
  { split; [reflexivity|]. intros [H|[H|[]]]; discriminate. }
  split. { exists TSpan, 2. auto. }
  intros (t & f & [= <-] & Hf & Hor).
  assert (f = 2) as ->.
  { destruct Hf as [Hf Hm]. destruct f as [|[|[|f]]]; try discriminate; auto. exfalso. apply Hm. right. right. now left. }
  destruct Hor as [H|[H _]]; [discriminate|]. inversion H as [|? ? N _]. apply N. now left.
Qed.

(** Where the alternatives of [A A B B] go: the second [B] goes where the second [A] goes, since
    one type occurs before the first [B].  With a void alternative in front, the repeated [A] goes
    where the void one goes. *)
Example C10_case_lands : let tys := [TUser 2; TUser 2; TSpan; TSpan] in
  lands tys 0 (Some (TUser 2)) /\ lands tys 1 (Some (TUser 2)) /\ lands tys 2 (Some TSpan) /\ lands tys 3 (Some (TUser 2)) /\
  lands [TVoid; TSpan; TSpan; TUser 2] 2 None.
Proof.
  assert (L0 : lands [TUser 2; TUser 2; TSpan; TSpan] 0 (Some (TUser 2))).
  { apply lands_first; [discriminate|]. split; [reflexivity|intros []]. }
  assert (L1 : lands [TUser 2; TUser 2; TSpan; TSpan] 1 (Some (TUser 2))).
  { apply lands_repeat with (t := TUser 2) (f := 0) (r := 0); auto; [discriminate| |].
    - split; [reflexivity|intros []].
    - exists []. cbn. repeat split; try constructor; tauto. }
  assert (F : first_at [TUser 2; TUser 2; TSpan; TSpan] TSpan 2).
  { split; [reflexivity|]. intros [H|[H|[]]]; discriminate. }
  split; [exact L0|]. split; [exact L1|]. split; [apply lands_first; [discriminate|exact F]|]. split.
  - apply lands_repeat with (t := TSpan) (f := 2) (r := 1); auto; [discriminate|].
    exists [TUser 2]. split; [repeat constructor; intros []|]. split; [reflexivity|]. intros t. cbn. split.
    + intros [<-|[]]. split; [now left|discriminate].
    + intros [[H|[H|[]]] _]; now left.
  - apply lands_repeat with (t := TSpan) (f := 1) (r := 0); auto; [discriminate| | |].
    + split; [reflexivity|]. intros [H|[]]; discriminate.
    + exists []. split; [constructor|]. split; [reflexivity|]. intros t. cbn. intuition congruence.
    + now apply lands_void.
Qed.

(** A choice [A | A | B | B] that does not compile with conversions either: [B] is [Word], [A] a span,
    and a span cannot be constructed from a [Word]. *)
Example C10_case_conversions_compile :
  constructs sx (TUser 2) TSpan /\ ~ constructs sx TSpan (TUser 2) /\ constructs sx (TOpt TSpan) TSpan /\
  crun sx 5 Parse (PChoice sx_text [cv_text; sx_thing; cv_thing]) (at1 0) = Ill /\
  (exists y tr, convert sx (TVar [TSpan; TVec TSpan]) (TVec TSpan) (VVec []) = Done y tr /\ y = VVar 1 (VVec [])).
Proof.
  split; [right; left; reflexivity|]. split.
  { intros [H|[H|[H|(ts & H & _)]]]; discriminate. }
  split; [right; right; now left|]. split; [reflexivity|]. eexists _, _. split; reflexivity.
Qed.

(** Failure gives back the input; a program without conversions runs as before. *)
Example C10_case_conversions_agree :
  crun sx 5 Parse cv_choice (at1 8) = Done (failure (at1 8)) [] /\
  run sx 5 Parse (PChoice sx_thing [sx_text]) (at1 4) <> Ill /\
  crun sx 5 Parse (PChoice sx_thing [sx_text]) (at1 4) = Done (Res (Some (RVal (VVar 1 (VSpan (Span 1 4 1))))) (Span 1 5 12)) [].
Proof. split; [reflexivity|]. split; [discriminate | reflexivity]. Qed.

Print Assumptions C10_conversions_agree.
Print Assumptions C10_conversions_give_back.
Print Assumptions C10_lands_total.
Print Assumptions C10_lands_unique.
Print Assumptions C10_lands_proper.
Print Assumptions C10_conversion_typed.
Print Assumptions C10_converted_value.
Print Assumptions C10_conversions_compile.
Print Assumptions C10_conversions_accepted.
Print Assumptions C10_conversion_refuted.
