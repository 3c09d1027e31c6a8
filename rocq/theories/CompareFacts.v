(** * Facts about runs in which comparing elements is user code *)
From Coq Require Import String List Arith ZArith Bool Lia.
From Verif Require Import Types Compound Parser Outcome CompoundFacts Exec Mono Derive Typing Join Leaves Sound
  Reloc PropReloc Stateful StatefulFacts StatefulSafe Compares.
Import ListNotations.

Section Facts.
Context {T V W : Type} (E : env T V).
Variable sfn : nat -> list val -> W -> fnres * W.
Variable sct : ty -> list val -> W -> fnres * W.
Variable seq : T -> V -> W -> cmpres * W.
Notation xrun := (xrun E sfn sct seq).
Notation xstep := (xstep E sfn sct seq).
Notation cbasic := (cbasic E seq).
Notation cjoin_special := (cjoin_special E seq).
Notation scall := (scall E sfn sct).
Notation eff := (@eff W).

(** Which joins are special does not depend on the comparison. *)
Lemma cspecial_iff q k : cjoin_special q k = None <-> join_special E q k = None.
Proof.
  destruct q; cbn [Compares.cjoin_special join_special]; try tauto; destruct q; cbn; try tauto; try (split; discriminate);
    try (destruct (n =? 0); split; congruence).
Qed.
Lemma cspecial_join rec k m q i : cjoin_special q k = None -> sstep E sfn sct rec k m (PJoin q) i = sjoin_generic E rec m q i.
Proof. intros H. cbn [sstep]. apply cspecial_iff in H. now rewrite H. Qed.

(** ** More fuel *)
Notation leq := (@leq W).
Ltac mon := repeat first
  [ apply leq_refl | apply leq_oof | apply leq_bind; [|intros ?]
  | match goal with
    | |- StatefulFacts.leq (match ?x with _ => _ end) (match ?x with _ => _ end) => destruct x
    | |- StatefulFacts.leq (if ?x then _ else _) (if ?x then _ else _) => destruct x
    end
  | progress intros
  | solve [auto] ].
Lemma n_jr fc len : forall k k' res i, k <= k' -> leq (cjr_loop fc len k res i) (cjr_loop fc len k' res i).
Proof. induction k as [|k IH]; intros [|k'] res i Hk; cbn [cjr_loop]; mon; try lia. apply IH. lia. Qed.
Lemma n_step rec rec' k k' m p i : (forall m q i, leq (rec m q i) (rec' m q i)) -> k <= k' ->
  leq (xstep rec k m p i) (xstep rec' k' m p i).
Proof.
  intros Hrec Hk. assert (Hs := m_step E sfn sct rec rec' Hrec k k' m p i Hk).
  destruct p; cbn [xstep Compares.xstep] in *; try apply leq_refl; try exact Hs.
  destruct (cjoin_special p k) as [f|] eqn:Hf, (cjoin_special p k') as [g|] eqn:Hg.
  - destruct p; try discriminate; cbn [Compares.cjoin_special] in Hf, Hg; destruct (cbasic p) as [[fc len]|]; try discriminate;
      try (destruct (n =? 0); [discriminate|]); injection Hf as <-; injection Hg as <-; try apply leq_refl;
      destruct m; unfold cjo_parse, cjo_look, cjz_parse, cjz_look; mon; now apply n_jr.
  - exfalso. apply cspecial_iff in Hg. assert (H : cjoin_special p k = None); [|congruence]. apply cspecial_iff. revert Hg.
    destruct p; cbn; auto; destruct (as_basic E p) as [[? ?]|]; try discriminate; auto; destruct (n =? 0); auto; discriminate.
  - exfalso. apply cspecial_iff in Hf. assert (H : cjoin_special p k' = None); [|congruence]. apply cspecial_iff. revert Hf.
    destruct p; cbn; auto; destruct (as_basic E p) as [[? ?]|]; try discriminate; auto; destruct (n =? 0); auto; discriminate.
  - rewrite (cspecial_join rec k m p i Hf), (cspecial_join rec' k' m p i Hg) in Hs. exact Hs.
Qed.
Lemma n_run n : forall n' m p i, n <= n' -> leq (xrun n m p i) (xrun n' m p i).
Proof.
  induction n as [|n IH]; intros [|n'] m p i Hn; cbn [Compares.xrun]; try apply leq_oof; [lia|].
  apply n_step; [|lia]. intros. apply IH. lia.
Qed.
Lemma xevals_det m p i w o o' w1 w2 : xevals E sfn sct seq m p i w o w1 -> xevals E sfn sct seq m p i w o' w2 -> o = o' /\ w1 = w2.
Proof.
  intros [Ho [n Hn]] [Ho' [n' Hn']].
  assert (H1 := n_run n (max n n') m p i ltac:(lia) w). assert (H2 := n_run n' (max n n') m p i ltac:(lia) w).
  rewrite Hn in H1. rewrite Hn' in H2. cbn in *. specialize (H1 Ho). specialize (H2 Ho'). rewrite H1 in H2. now injection H2.
Qed.

(** ** Answers that do not depend on the world *)
Section Same.
Hypothesis Hf : forall n args w, fst (sfn n args w) = fn_app E n args.
Hypothesis Hc : forall t args w, fst (sct t args w) = ct_app E t args.
Hypothesis Hs : forall t c w, fst (seq t c w) = CRet (eqv E t c).

Definition same {A} (x : eff A) (o : outcome A) : Prop := forall w, fst (x w) = o.
Lemma same_lift {A} (o : outcome A) : same (lift o) o.
Proof. now intros w. Qed.
Lemma same_bind {A B} (x : eff A) (y : outcome A) (f : A -> eff B) (g : A -> outcome B) :
  same x y -> (forall a, same (f a) (g a)) -> same (sbind x f) (bind y g).
Proof. intros Hx Hg. exact (fst_bind x y f g Hx Hg). Qed.
Ltac sm := repeat first
  [ apply same_lift | apply same_bind; [|intros ?]
  | match goal with
    | |- same (match ?x with _ => _ end) (match ?x with _ => _ end) => destruct x
    | |- same (if ?x then _ else _) (if ?x then _ else _) => destruct x
    end
  | progress intros
  | solve [auto] ].
Lemma same_compare t c : same (compare seq t c) (ret (eqv E t c)).
Proof. intros w. unfold compare. specialize (Hs t c w). destruct (seq t c w) as [r w']. cbn in Hs. now subst r. Qed.
Lemma same_contains arr c : same (ccontains seq arr c) (ret (contains E arr c)).
Proof.
  induction arr as [|t arr IH]; cbn [ccontains contains existsb]; [apply same_lift|].
  intros w. unfold sbind. pose proof (same_compare t c w) as H. destruct (compare seq t c w) as [o w1]. cbn in H. subst o.
  cbn. destruct (eqv E t c); cbn; [reflexivity|]. specialize (IH w1). destruct (ccontains seq arr c w1) as [o w2]. cbn in IH. subst o. reflexivity.
Qed.
Lemma same_eq_loop arr b : forall o, same (ceq_loop E seq arr b o) (eq_loop E arr b o).
Proof.
  induction arr as [|t arr IH]; intros o; cbn [ceq_loop eq_loop]; [apply same_lift|]. apply same_bind; [apply same_lift|]. intros c.
  rewrite <- (bind_ret (eqv E t c) (fun e : bool => if e then eq_loop E arr b (S o) else ret false)).
  apply same_bind; [apply same_compare|]. intros [|]; [apply IH|apply same_lift].
Qed.
Lemma same_fc p fc len : cbasic p = Some (fc, len) -> exists fc', as_basic E p = Some (fc', len) /\ forall i, same (fc i) (fc' i).
Proof.
  destruct p; try discriminate; cbn; intros [= <- <-]; eexists; split; [reflexivity| |reflexivity| |reflexivity|]; intros i.
  - unfold cany_fc, any_of_fc. sm. rewrite <- (bind_ret (contains E arr a) (fun b => ret (negb b))).
    apply same_bind; [apply same_contains|]. intros b. apply same_lift.
  - unfold cnone_fc, none_of_fc. sm. apply same_contains.
  - unfold call_fc, all_of_fc, cspan_equal, span_equal. sm. apply same_eq_loop.
Qed.
Lemma same_call f args : same (scall f args) (call E f args).
Proof.
  intros w. unfold Stateful.scall, call. pose proof (same_invoke E sfn sct Hf Hc f args w) as H.
  destruct (sinvoke E sfn sct f args w) as [r w']. cbn in H. subst r. now destruct (invoke E f args).
Qed.
Lemma same_jx fc fc' len : (forall i, same (fc i) (fc' i)) -> forall k res i, same (cjx_loop fc len k res i) (jx_loop fc' len k res i).
Proof. intros H. induction k; intros; cbn [cjx_loop jx_loop]; sm. Qed.
Lemma same_jr fc fc' len : (forall i, same (fc i) (fc' i)) -> forall k res i, same (cjr_loop fc len k res i) (jr_loop fc' len k res i).
Proof. intros H. induction k; intros; cbn [cjr_loop jr_loop]; sm. Qed.
Lemma same_step rec prec k m p i : (forall m q i, same (rec m q i) (prec m q i)) -> same (xstep rec k m p i) (step E prec k m p i).
Proof.
  intros Hrec. assert (Hb : same (sstep E sfn sct rec k m p i) (step E prec k m p i)).
  { apply (b_step E sfn sct (@same) True); auto using same_call; [intros; apply same_lift|intros; now apply same_bind]. }
  assert (Hbp : forall fc fc' len, (forall i, same (fc i) (fc' i)) -> same (cbasic_parse fc len i) (basic_parse fc' len i)) by (intros; unfold cbasic_parse, basic_parse; sm).
  assert (Hbl : forall fc fc' len, (forall i, same (fc i) (fc' i)) -> same (cbasic_look fc len i) (basic_look fc' len i)) by (intros; unfold cbasic_look, basic_look; sm).
  destruct p; cbn [xstep Compares.xstep]; try exact Hb; cbn [step].
  - destruct (same_fc (PAnyOf arr) _ _ eq_refl) as (fc' & [= <-] & Hfc). destruct m; auto.
  - destruct (same_fc (PNoneOf arr) _ _ eq_refl) as (fc' & [= <-] & Hfc). destruct m; auto.
  - destruct (same_fc (PAllOf arr) _ _ eq_refl) as (fc' & [= <-] & Hfc). destruct m; auto.
  - destruct (cjoin_special p k) as [f|] eqn:Hj.
    + destruct p; try discriminate; cbn [Compares.cjoin_special] in Hj; destruct (cbasic p) as [[fc len]|] eqn:Hcb; try discriminate;
      destruct (same_fc _ _ _ Hcb) as (fc' & Hab & Hfc); cbn [join_special]; rewrite Hab;
      try (destruct (n =? 0); [discriminate|]); injection Hj as <-;
      destruct m; unfold cjx_parse, cjx_look, cjm_parse, cjm_look, cjo_parse, cjo_look, cjz_parse, cjz_look,
        jx_parse, jx_look, jm_parse, jm_look, jo_parse, jo_look, jz_parse, jz_look; sm; auto using same_jx, same_jr.
    + rewrite <- (cspecial_join rec k m p i Hj). exact Hb.
Qed.
Lemma same_xrun n : forall m p i w, fst (xrun n m p i w) = run E n m p i.
Proof.
  induction n as [|n IH]; intros m p i; cbn [Compares.xrun run]; [apply same_lift|]. apply same_step. auto.
Qed.
End Same.
End Facts.
