(** * Parsers that keep all the text they consume *)
From Coq Require Import String List Arith ZArith Bool Lia.
From Verif Require Import Types Compound Parser Outcome CompoundFacts Exec Derive Typing Join Leaves.
Import ListNotations.

Section Lossless.
Context {T V : Type} (E : env T V) (b : nat).
Hypothesis HC : env_customs E.

(** Specification: nothing reachable drops text.  ignore and map do; a custom parser does if
    it converts; a choice does if the value of one of its alternatives is lost
    (see C10_choice_value_refuted). *)
Definition keeps_text (p : parser T) : Prop :=
  match p with
  | PIgnore _ | PMap _ _ => False
  | PCustom c => cust_conv E c = ConvSame
  | PChoice q qs => forall tys j t, result_fors E (q :: qs) = Some tys -> nth_error tys j = Some t ->
      t <> TVoid -> nth_error (snd (filter_out_void_deduplicate tys)) j <> Some None
  | _ => True
  end.
Definition lossless (p : parser T) : Prop := forall q, reach E p q -> keeps_text q.

Lemma lossless_comp p q : lossless p -> In q (components E p) -> lossless q.
Proof. intros H Hin r Hr. apply H. econstructor; eauto. Qed.

Lemma tiles_app lo mid hi l1 l2 : tiles b lo mid l1 -> tiles b mid hi l2 -> tiles b lo hi (l1 ++ l2).
Proof. induction 1; intros; cbn; auto. constructor; auto. Qed.

Lemma tiles_span lo n : tiles b lo (lo + n) (nonempty [Span b lo n]).
Proof. cbn. destruct (Nat.eqb_spec n 0); subst; cbn; [rewrite Nat.add_0_r|]; repeat constructor. Qed.

Definition R (m : mode) (p : parser T) (lo hi : nat) (v : rv) : Prop :=
  (result_for E p = Some TVoid -> lo = hi) /\ (m = Parse -> tiles b lo hi (nonempty (rv_src v))).

Inductive rchain : list (mode * parser T) -> nat -> nat -> list rv -> Prop :=
| rc_nil lo : rchain [] lo lo []
| rc_cons m p l lo mid hi v vs : R m p lo mid v -> rchain l mid hi vs -> rchain ((m, p) :: l) lo hi (v :: vs).

(** A chain of void parsers consumes nothing. *)
Lemma rchain_void l lo hi vs : rchain l lo hi vs -> (forall mp, In mp l -> result_for E (snd mp) = Some TVoid) -> lo = hi.
Proof.
  induction 1 as [|m p l lo mid hi v vs Hr Hc IH]; intros Hv; auto.
  assert (lo = mid) by (apply (proj1 Hr); apply (Hv (m, p)); now left). subst. apply IH. intros. apply Hv. now right.
Qed.

Lemma rchain_vals q n : forall lo hi ws, rchain (repeat (Parse, q) n) lo hi (map RVal ws) ->
  tiles b lo hi (nonempty (flat_map src ws)).
Proof.
  induction n as [|n IH]; intros lo hi ws H; destruct ws as [|w ws]; inversion H; subst; cbn; [constructor|].
  rewrite nonempty_app. eapply tiles_app; [|eauto].
  match goal with H : R _ _ _ _ _ |- _ => exact (proj2 H eq_refl) end.
Qed.

Lemma rchain_kept tys vs ws : kept tys vs ws -> forall ps lo hi, 
  List.length ps = List.length tys -> (forall j p t, nth_error ps j = Some p -> nth_error tys j = Some t -> result_for E p = Some t) ->
  rchain (parts tys ps) lo hi vs -> tiles b lo hi (nonempty (flat_map src ws)).
Proof.
  induction 1 as [|tys vs ws v Hk IH|t tys vs ws w Ht Hk IH]; intros ps lo hi Hl Hty H;
    destruct ps as [|p ps]; try discriminate; unfold parts in H; cbn in H; inversion H; subst.
  - constructor.
  - assert (lo = mid). { match goal with H : R _ _ _ _ _ |- _ => apply (proj1 H) end. apply (Hty 0 p TVoid); reflexivity. }
    subst. eapply IH; eauto. intros j p' t' H1 H2. exact (Hty (S j) p' t' H1 H2).
  - cbn. rewrite nonempty_app.
    assert (Hm : part_mode t = Parse) by (unfold part_mode; apply is_void_false in Ht; now rewrite Ht).
    match goal with H : R _ _ _ _ _ |- _ => rename H into HR end.
    rewrite Hm in HR. eapply tiles_app; [exact (proj2 HR eq_refl)|].
    eapply IH; eauto. intros j p' t' H1 H2. exact (Hty (S j) p' t' H1 H2).
Qed.

Lemma rchain_snd q d prs : result_for E d = Some TVoid -> forall v0 lo hi ps,
  rchain (delim_parts Parse q d (List.length prs)) lo hi (interleave v0 prs) ->
  v0 :: map snd prs = map RVal ps -> tiles b lo hi (nonempty (flat_map src ps)).
Proof.
  intros Hd. induction prs as [|[x y] prs IH]; intros v0 lo hi ps H He; destruct ps as [|w ps];
    try discriminate; injection He as -> He; cbn in H; inversion H; subst; cbn; rewrite nonempty_app.
  - destruct ps; [|discriminate]. match goal with H : rchain [] _ _ _ |- _ => inversion H; subst end. cbn. rewrite app_nil_r.
    match goal with H : R _ _ _ _ _ |- _ => exact (proj2 H eq_refl) end.
  - match goal with H : rchain (_ :: _) _ _ _ |- _ => inversion H; subst; clear H end.
    match goal with H : R _ d ?a ?c _ |- _ => assert (a = c) by (exact (proj1 H Hd)); subst end.
    eapply tiles_app; [match goal with H : R _ q _ _ (RVal w) |- _ => exact (proj2 H eq_refl) end|].
    eapply IH; eauto.
Qed.

Lemma rchain_fst q d prs : result_for E q = Some TVoid -> forall v0 lo hi ds,
  rchain (delim_parts Parse q d (List.length prs)) lo hi (interleave v0 prs) ->
  map fst prs = map RVal ds -> tiles b lo hi (nonempty (flat_map src ds)).
Proof.
  intros Hq. induction prs as [|[x y] prs IH]; intros v0 lo hi ds H He; destruct ds as [|w ds];
    try discriminate; cbn in H; inversion H; subst; cbn.
  - match goal with H : rchain [] _ _ _ |- _ => inversion H; subst end.
    match goal with H : R _ q ?a ?c _ |- _ => assert (a = c) by (exact (proj1 H Hq)); subst end. constructor.
  - cbn in He. injection He as -> He.
    match goal with H : rchain (_ :: _) _ _ (RVal w :: _) |- _ => inversion H; subst end. rewrite nonempty_app.
    match goal with H : R _ q ?a ?c v0 |- _ => assert (a = c) by (exact (proj1 H Hq)); subst end.
    eapply tiles_app; [match goal with H : R _ d _ _ (RVal w) |- _ => exact (proj2 H eq_refl) end|].
    eapply IH; eauto.
Qed.

Lemma rchain_weave q d prs : forall v0 lo hi ps ds,
  rchain (delim_parts Parse q d (List.length prs)) lo hi (interleave v0 prs) ->
  v0 :: map snd prs = map RVal ps -> map fst prs = map RVal ds ->
  tiles b lo hi (nonempty (weave (map src ps) (map src ds))).
Proof.
  induction prs as [|[x y] prs IH]; intros v0 lo hi ps ds H Hp Hd; destruct ps as [|w ps];
    try discriminate; injection Hp as -> Hp; destruct ds as [|e ds]; try discriminate;
    cbn in H; inversion H; subst; cbn; rewrite nonempty_app.
  - destruct ps; [|discriminate]. match goal with H : rchain [] _ _ _ |- _ => inversion H; subst end. cbn. rewrite app_nil_r.
    match goal with H : R _ _ _ _ _ |- _ => exact (proj2 H eq_refl) end.
  - cbn in Hd. injection Hd as -> Hd.
    match goal with H : rchain (_ :: _) _ _ (RVal e :: _) |- _ => inversion H; subst end.
    rewrite nonempty_app.
    eapply tiles_app; [match goal with H : R _ q _ _ (RVal w) |- _ => exact (proj2 H eq_refl) end|].
    eapply tiles_app; [match goal with H : R _ d _ _ (RVal e) |- _ => exact (proj2 H eq_refl) end|].
    eapply IH; eauto.
Qed.

Lemma collect_R t C vs v q n lo hi : (forall ws, src (C ws) = flat_map src ws) ->
  result_for E q = Some t -> collect t C vs v -> rchain (repeat (Parse, q) n) lo hi vs ->
  tiles b lo hi (nonempty (rv_src v)).
Proof.
  intros HCs Ht [[-> ->]|(Hn & ws & -> & ->)] Hr.
  - assert (lo = hi) as ->; [|constructor]. eapply rchain_void; eauto. intros mp ->%repeat_spec. exact Ht.
  - cbn. rewrite HCs. eapply rchain_vals; eauto.
Qed.

Lemma compound_void (C : list ty -> ty) ts : (forall l, C l <> TVoid) -> Forall (fun t => t <> TVoid) ts ->
  compound_result C ts = TVoid -> ts = [].
Proof.
  intros HCv HF H. destruct ts as [|t [|t' ts]]; cbn in H; auto; [inversion HF; congruence|now apply HCv in H].
Qed.

Lemma choice_void q qs p : result_for E (PChoice q qs) = Some TVoid -> In p (q :: qs) -> result_for E p = Some TVoid.
Proof.
  rewrite result_for_choice. destruct (result_fors E (q :: qs)) as [tys|] eqn:Ht; [|discriminate].
  intros [= H] Hin. rewrite filter_out_void_deduplicate_spec in H. cbn [fst] in H.
  apply compound_void in H; [|discriminate|].
  - apply In_nth_error in Hin as [j Hj]. destruct (result_fors_nth E _ _ _ _ Ht Hj) as (t & Htj & Hr). rewrite Hr. f_equal.
    destruct (is_void t) eqn:Hv; [now apply is_void_spec|]. apply is_void_false in Hv.
    assert (Hd : In t (distinct_from [] tys)) by (apply distinct_from_in; repeat split; auto; eapply nth_error_In; eauto).
    rewrite H in Hd. destruct Hd.
  - apply Forall_forall. intros t Hd. now apply distinct_from_in in Hd.
Qed.

Lemma seq_void q qs p : result_for E (PSequence q qs) = Some TVoid -> In p (q :: qs) -> result_for E p = Some TVoid.
Proof.
  rewrite result_for_seq. destruct (result_fors E (q :: qs)) as [tys|] eqn:Ht; [|discriminate].
  intros [= H] Hin. rewrite filter_out_void_spec in H. cbn [fst] in H.
  apply compound_void in H; [|discriminate|].
  - apply In_nth_error in Hin as [j Hj]. destruct (result_fors_nth E _ _ _ _ Ht Hj) as (t & Htj & Hr). rewrite Hr. f_equal.
    destruct (is_void t) eqn:Hv; [now apply is_void_spec|].
    assert (Hd : In t (nonvoid tys)) by (apply filter_In; split; [eapply nth_error_In; eauto|now rewrite Hv]).
    rewrite H in Hd. destruct Hd.
  - apply Forall_forall. intros t Hd. apply filter_In in Hd as [_ Hd]. now apply negb_true_iff, is_void_false in Hd.
Qed.

Lemma wrapped_void {q : parser T} {X : ty -> ty} : (forall t, X t <> TVoid) ->
  match result_for E q with Some t => Some (if is_void t then TVoid else X t) | None => None end = Some TVoid ->
  result_for E q = Some TVoid.
Proof.
  intros HX. destruct (result_for E q) as [t|]; [|discriminate]. destruct (is_void t) eqn:Hv.
  - apply is_void_spec in Hv. congruence.
  - intros [= H]. now apply HX in H.
Qed.

Lemma delim_void q d : result_for E (PDelimit q d) = Some TVoid ->
  result_for E q = Some TVoid /\ result_for E d = Some TVoid.
Proof.
  cbn. destruct (result_for E q) as [tq|]; [|discriminate]. destruct (result_for E d) as [td|]; [|discriminate].
  destruct (is_void td) eqn:H1, (is_void tq) eqn:H2; try discriminate.
  apply is_void_spec in H1, H2. subst. auto.
Qed.

Lemma delim_parts_void q d m n : result_for E q = Some TVoid -> result_for E d = Some TVoid ->
  forall mp, In mp (delim_parts m q d n) -> result_for E (snd mp) = Some TVoid.
Proof. intros Hq Hd mp H. apply delim_parts_in in H as [<-|[<-|[]]]; auto. Qed.

Lemma derives_tiles_mut :
  (forall m p lo hi v, derives E b m p lo hi v -> lossless p -> R m p lo hi v) /\
  (forall l lo hi vs, dchain E b l lo hi vs -> (forall mp, In mp l -> lossless (snd mp)) -> rchain l lo hi vs).
Proof.
  assert (Hbase : forall m p lo n, result_for E p <> Some TVoid -> R m p lo (lo + n) (in_mode m (VSpan (Span b lo n)))).
  { intros m p lo n Hp. split; [contradiction|]. intros ->. cbn [in_mode rv_src src]. apply tiles_span. }
  assert (Hcomp1 : forall p q, lossless p -> components E p = [q] -> lossless q).
  { intros p q H He. eapply lossless_comp; eauto. rewrite He. now left. }
  apply derives_mut; intros;
    try (match goal with H : lossless (PIgnore _) |- _ => destruct (H _ (reach_refl _ _)) end);
    try (match goal with H : lossless (PMap _ _) |- _ => destruct (H _ (reach_refl _ _)) end).
  1, 2, 4: replace (S lo) with (lo + 1) by lia; apply Hbase; discriminate.
  - apply Hbase; discriminate.
  - split; auto. intros _. constructor.
  - (* choice *) match goal with H : lossless p -> _ |- _ => rename H into IH end.
    assert (HR : R Parse p lo hi (RVal w)) by (apply IH; eapply lossless_comp; eauto; cbn [components]; eapply nth_error_In; eauto).
    split.
    + intros Hv. apply (proj1 HR). eapply choice_void; eauto. eapply nth_error_In; eauto.
    + intros _. specialize (proj2 HR eq_refl). destruct (unwrapped _); auto.
  - match goal with H : lossless p -> _ |- _ => rename H into IH end.
    assert (HR : R Look p lo hi v) by (apply IH; eapply lossless_comp; eauto; cbn [components]; eapply nth_error_In; eauto).
    split.
    + intros Hv. apply (proj1 HR). eapply choice_void; eauto. eapply nth_error_In; eauto.
    + intros _. assert (Hk : keeps_text (PChoice q qs)) by (apply H0; constructor). cbn in Hk.
      destruct (result_fors_nth E _ _ _ _ e e0) as (t & Htj & Hr).
      assert (t = TVoid).
      { destruct (is_void t) eqn:Hv; [now apply is_void_spec|]. apply is_void_false in Hv.
        exfalso. exact (Hk tys j t e Htj Hv e1). }
      subst t. assert (lo = hi) by now apply (proj1 HR). subst hi.
      unfold builder_init. destruct (is_void _); cbn [rv_src]; [constructor|]. rewrite nonempty_default. constructor.
  - assert (HR : R Look p lo hi v) by (apply H; eapply lossless_comp; eauto).
    split; [|discriminate]. intros Hv. apply (proj1 HR). eapply choice_void; eauto.
  - (* sequence *)
    assert (HR : rchain (parts tys (q :: qs)) lo hi vs).
    { apply H. intros mp Hmp. eapply lossless_comp; eauto. cbn [components]. apply parts_in in Hmp. exact Hmp. }
    split.
    + intros Hv. eapply rchain_void; eauto. intros mp Hmp. apply parts_in in Hmp. eapply seq_void; eauto.
    + intros _. rewrite tuple_of_src. eapply rchain_kept; eauto; [now apply (result_fors_length E)|].
      intros j p t Hp Ht. destruct (result_fors_nth E _ _ _ _ e Hp) as (t' & Ht' & Hr). congruence.
  - assert (HR : rchain (map (pair Look) (q :: qs)) lo hi vs).
    { apply H. intros mp Hmp. eapply lossless_comp; eauto. cbn [components].
      apply in_map_iff in Hmp as (p & <- & Hp). exact Hp. }
    split; [|discriminate]. intros Hv. eapply rchain_void; eauto. intros mp Hmp.
    apply in_map_iff in Hmp as (p & <- & Hp). eapply seq_void; eauto.
  - (* maybe *)
    assert (HR : R Parse q lo hi v) by (apply H; eapply Hcomp1; eauto; reflexivity). split.
    + intros Hv. apply (proj1 HR). apply (wrapped_void (X := TOpt)) in Hv; [auto|discriminate].
    + intros _. destruct o as [[-> ->]|(_ & x & -> & ->)].
      * assert (lo = hi) by (apply (proj1 HR); auto). subst. constructor.
      * exact (proj2 HR eq_refl).
  - split; auto. intros _. destruct (is_void t); constructor.
  - assert (HR : R Look q lo hi v) by (apply H; eapply Hcomp1; eauto; reflexivity).
    split; [|discriminate]. intros Hv. apply (proj1 HR). apply (wrapped_void (X := TOpt)) in Hv; [auto|discriminate].
  - split; [auto|discriminate].
  - (* exactly *)
    assert (HR : rchain (repeat (Parse, q) n) lo hi vs).
    { apply H. intros mp ->%repeat_spec. eapply Hcomp1; eauto; reflexivity. }
    split; [|intros _; eapply (collect_R t VArr); eauto].
    intros Hv. apply (wrapped_void (X := fun t => TArr t n)) in Hv; [|discriminate].
    eapply rchain_void; eauto. now intros mp ->%repeat_spec.
  - assert (HR : rchain (repeat (Look, q) n) lo hi vs).
    { apply H. intros mp ->%repeat_spec. eapply Hcomp1; eauto; reflexivity. }
    split; [|discriminate].
    intros Hv. apply (wrapped_void (X := fun t => TArr t n)) in Hv; [|discriminate].
    eapply rchain_void; eauto. now intros mp ->%repeat_spec.
  - assert (HR : rchain (repeat (Parse, q) n) lo hi vs).
    { apply H. intros mp ->%repeat_spec. eapply Hcomp1; eauto; reflexivity. }
    split; [|intros _; eapply (collect_R t VVec); eauto].
    intros Hv. apply (wrapped_void (X := TVec)) in Hv; [|discriminate].
    eapply rchain_void; eauto. now intros mp ->%repeat_spec.
  - assert (HR : rchain (repeat (Look, q) n) lo hi vs).
    { apply H. intros mp ->%repeat_spec. eapply Hcomp1; eauto; reflexivity. }
    split; [|discriminate].
    intros Hv. apply (wrapped_void (X := TVec)) in Hv; [|discriminate].
    eapply rchain_void; eauto. now intros mp ->%repeat_spec.
  - assert (HR : rchain (repeat (Parse, q) n) lo hi vs).
    { apply H. intros mp ->%repeat_spec. eapply Hcomp1; eauto; reflexivity. }
    split; [|intros _; eapply (collect_R t VVec); eauto].
    intros Hv. apply (wrapped_void (X := TVec)) in Hv; [|discriminate].
    eapply rchain_void; eauto. now intros mp ->%repeat_spec.
  - assert (HR : rchain (repeat (Look, q) n) lo hi vs).
    { apply H. intros mp ->%repeat_spec. eapply Hcomp1; eauto; reflexivity. }
    split; [|discriminate].
    intros Hv. apply (wrapped_void (X := TVec)) in Hv; [|discriminate].
    eapply rchain_void; eauto. now intros mp ->%repeat_spec.
  - (* delimit *)
    assert (HR : rchain (delim_parts Parse q d (List.length prs)) lo hi (interleave v0 prs)).
    { apply H. intros mp Hmp%delim_parts_in. eapply lossless_comp; eauto. }
    split.
    + intros [Hq Hd']%delim_void. eapply rchain_void; eauto. eapply delim_parts_void; eauto.
    + intros _. inversion d1; subst; cbn [rv_src src].
      * assert (lo = hi) as ->; [|constructor]. eapply rchain_void; eauto. eapply delim_parts_void; eauto.
      * eapply rchain_snd; eauto.
      * eapply rchain_fst; eauto.
      * eapply rchain_weave; eauto.
  - assert (HR : rchain (delim_parts Look q d n) lo hi vs).
    { apply H. intros mp Hmp%delim_parts_in. eapply lossless_comp; eauto. }
    split; [|discriminate].
    intros [Hq Hd']%delim_void. eapply rchain_void; eauto. eapply delim_parts_void; eauto.
  - apply H. eapply Hcomp1; eauto; reflexivity.
  - (* join *)
    assert (HR : R Parse q lo hi (RVal x)) by (apply H; eapply Hcomp1; eauto; reflexivity).
    split; [discriminate|]. intros _. pose proof (proj2 HR eq_refl) as Ht. cbn [rv_src] in Ht.
    assert (Hjv : jval x) by (eapply join_some_jval; eauto).
    rewrite (jval_src x Hjv) in Ht.
    assert (Hblk : forall s, In s (leaves x) -> sp_len s <> 0 -> sp_blk s = b).
    { intros s0 Hin Hn. assert (Hin' : In s0 (nonempty (leaves x))) by now apply nonempty_in.
      revert Hin'. clear - Ht. induction Ht as [|lo n hi ls Ht IH]; [intros []|]. intros [<-|Hin']; auto. }
    apply (join_executor_some b) in e0; auto. cbn [sp_blk sp_off] in e0.
    destruct e0 as [[Hn ->]|(Hn & lo' & hi' & Ht' & ->)].
    + rewrite Hn in Ht. inversion Ht; subst. constructor.
    + assert (lo' = lo). { clear - Ht Ht' Hn. destruct Ht; [congruence|]. now inversion Ht'. }
      subst lo'. rewrite (tiles_fun _ _ _ _ Ht _ Ht'). pose proof (tiles_le _ _ _ _ Ht).
      cbn [rv_src src]. replace hi with (lo + (hi - lo)) at 1 by lia. apply tiles_span.
  - split; discriminate.
  - assert (HR : R Parse q lo hi v) by (apply H; eapply Hcomp1; eauto; reflexivity).
    split; [|exact (proj2 HR)]. intros Hv. apply (proj1 HR). cbn in Hv.
    destruct (result_for E q) as [t|]; [|discriminate]. destruct (fn_ty E f (arg_tys t)) as [tb|]; [|discriminate].
    destruct (bool_ok E tb); congruence.
  - assert (HR : R Look q lo hi v) by (apply H; eapply Hcomp1; eauto; reflexivity).
    split; [|discriminate]. intros Hv. apply (proj1 HR). cbn in Hv.
    destruct (result_for E q) as [t|]; [|discriminate]. destruct (fn_ty E f (arg_tys t)) as [tb|]; [|discriminate].
    destruct (bool_ok E tb); congruence.
  - apply H. eapply Hcomp1; eauto; reflexivity.
  - (* custom *)
    assert (HR : R Parse (cust_body E c) lo hi v) by (apply H; eapply Hcomp1; eauto; reflexivity).
    pose proof (ec_conv E HC c) as Hcv. rewrite e in Hcv.
    split; [|exact (proj2 HR)]. intros Hv. apply (proj1 HR). rewrite Hcv. exact Hv.
  - match goal with H : lossless (PCustom _) |- _ => specialize (H _ (reach_refl _ _)); cbn in H; congruence end.
  - match goal with H : lossless (PCustom _) |- _ => specialize (H _ (reach_refl _ _)); cbn in H; congruence end.
  - match goal with H : lossless (PCustom _) |- _ => specialize (H _ (reach_refl _ _)); cbn in H; congruence end.
  - assert (HR : R Look (cust_body E c) lo hi v) by (apply H; eapply Hcomp1; eauto; reflexivity).
    pose proof (ec_conv E HC c) as Hcv.
    match goal with H : lossless (PCustom _) |- _ => specialize (H _ (reach_refl _ _)); cbn in H; rewrite H in Hcv end.
    split; [|discriminate]. intros Hv. apply (proj1 HR). rewrite Hcv. exact Hv.
  - constructor.
  - econstructor; eauto.
    + apply H. exact (H1 _ (or_introl eq_refl)).
    + apply H0. intros mp Hmp. apply H1. now right.
Qed.

Lemma derives_tiles p lo hi v : lossless p -> derives E b Parse p lo hi v -> tiles b lo hi (nonempty (rv_src v)).
Proof. intros Hl Hd. exact (proj2 (proj1 derives_tiles_mut _ _ _ _ _ Hd Hl) eq_refl). Qed.

Lemma derives_void_empty m p lo hi v : lossless p -> result_for E p = Some TVoid -> derives E b m p lo hi v -> lo = hi.
Proof. intros Hl Ht Hd. exact (proj1 (proj1 derives_tiles_mut _ _ _ _ _ Hd Hl) Ht). Qed.
End Lossless.
