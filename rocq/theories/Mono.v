(** * Fuel monotonicity *)
From Coq Require Import List Arith ZArith Bool String Lia.
From Verif Require Import Types Compound Parser Outcome Exec.
Import ListNotations.
Local Open Scope outcome_scope.

(** [a] is [b] or has run out of fuel. *)
Definition le_out {A} (a b : outcome A) : Prop := a = OOF \/ a = b.

Lemma le_out_refl {A} (a : outcome A) : le_out a a.
Proof. now right. Qed.
#[global] Hint Resolve le_out_refl : core.

Lemma le_out_trans {A} (a b c : outcome A) : le_out a b -> le_out b c -> le_out a c.
Proof. intros [->| ->] H; [now left|exact H]. Qed.

Lemma le_out_OOF {A} (b : outcome A) : le_out OOF b.
Proof. now left. Qed.
#[global] Hint Resolve le_out_OOF : core.

Lemma bind_le {A B} (x y : outcome A) (f g : A -> outcome B) :
  le_out x y -> (forall a, le_out (f a) (g a)) -> le_out (bind x f) (bind y g).
Proof.
  intros [->| ->] H; [now left|].
  destruct y as [a tr| | | |]; cbn; auto.
  destruct (H a) as [->| ->]; auto.
Qed.

Definition le_fun {A} (f g : A -> outcome presult) : Prop := forall i, le_out (f i) (g i).

Section Mono.
Context {T V : Type} (E : env T V).

Ltac le_step :=
  match goal with
  | |- le_out ?a ?a => apply le_out_refl
  | |- le_out (bind _ _) (bind _ _) => apply bind_le
  | |- forall _, _ => intro
  | |- le_out (match ?x with _ => _ end) (match ?x with _ => _ end) => destruct x
  | |- le_out (if ?x then _ else _) (if ?x then _ else _) => destruct x
  | |- le_out (let (_, _) := ?x in _) (let (_, _) := ?x in _) => destruct x
  | |- le_out OOF _ => apply le_out_OOF
  end.

Section Funs.
Variables f g : pfun.
Hypothesis Hfg : le_fun f g.

Lemma exactly_loop_le k : forall j i b, le_out (exactly_loop f k j i b) (exactly_loop g k j i b).
Proof.
  induction k; intros; cbn; auto. apply bind_le; [apply Hfg|].
  intros r; destruct (r_ok r); auto. apply bind_le; auto.
Qed.

Lemma rep_loop_le k k' : k <= k' -> forall i b s,
  le_out (rep_loop f k i b s) (rep_loop g k' i b s).
Proof.
  revert k'. induction k; intros k' Hk i b s; cbn; auto.
  destruct k' as [|k']; [lia|]. cbn. apply bind_le; [apply Hfg|].
  intros r; destruct (r_ok r); auto. apply bind_le; auto. intros; apply IHk; lia.
Qed.

Lemma delim_loop_le f' g' pv dv k k' : le_fun f' g' -> k <= k' -> forall r i b,
  le_out (delim_loop f f' pv dv k r i b) (delim_loop g g' pv dv k' r i b).
Proof.
  intros Hd. revert k'. induction k; intros k' Hk r i b; cbn; auto.
  destruct k' as [|k']; [lia|]. cbn. destruct (r_ok r); auto.
  apply bind_le; auto. intros b1. apply bind_le; [apply Hd|]. intros d.
  destruct (r_ok d); auto. apply bind_le; [apply Hfg|]. intros r'.
  apply bind_le; auto. intros; apply IHk; lia.
Qed.
End Funs.

Lemma jr_loop_le fc len k k' : k <= k' -> forall r i,
  le_out (jr_loop fc len k r i) (jr_loop fc len k' r i).
Proof.
  revert k'. induction k; intros k' Hk r i; cbn; auto.
  destruct k' as [|k']; [lia|]. cbn. apply bind_le; auto. intros [|]; auto.
  apply bind_le; auto. intros; apply IHk; lia.
Qed.

Section Rec.
Variables r1 r2 : mode -> parser T -> pfun.
Hypothesis Hr : forall m p, le_fun (r1 m p) (r2 m p).

Lemma execute_le ct u p idx st : le_out (execute r1 ct u p idx st) (execute r2 ct u p idx st).
Proof. destruct st; cbn. destruct idx; (apply bind_le; [apply Hr|auto]). Qed.

Lemma exec_or_le u ps : forall st, le_out (exec_or r1 u ps st) (exec_or r2 u ps st).
Proof.
  induction ps as [|[p idx] ps IH]; intros; cbn; auto.
  apply bind_le; [apply execute_le|]. intros [[|] st']; auto.
Qed.

Lemma exec_and_le u ps : forall st, le_out (exec_and r1 u ps st) (exec_and r2 u ps st).
Proof.
  induction ps as [|[p idx] ps IH]; intros; cbn; auto.
  apply bind_le; [apply execute_le|]. intros [[|] st']; auto.
Qed.

Lemma step_le k k' m p i : k <= k' -> le_out (step E r1 k m p i) (step E r2 k' m p i).
Proof.
  intros Hk.
  assert (HH : forall m q, le_fun (r1 m q) (r2 m q)) by exact Hr.
  destruct p; destruct m; cbn [step];
    unfold choice_parse, choice_look, sequence_parse, sequence_look,
      maybe_parse, maybe_look, exactly_parse, exactly_look, one_or_more_parse, one_or_more_look,
      zero_or_more_parse, zero_or_more_look, delimit_parse, delimit_look, complete_run,
      map_parse, filter_parse, custom_parse, join_generic, join_parse;
    try apply Hr;
    try solve [repeat first [apply exec_or_le | apply exec_and_le
      | apply (Hr _ _ _)
      | apply exactly_loop_le; solve [auto]
      | apply rep_loop_le; solve [auto]
      | apply delim_loop_le; solve [auto]
      | le_step ]].
  - destruct (join_special E p k) as [f|] eqn:Hf.
    + destruct p; cbn in *; try discriminate;
        (destruct (as_basic E p) as [[fc len]|]; [|discriminate]);
        try (destruct (n =? 0); [discriminate|]);
        injection Hf as <-; auto;
        unfold jo_parse, jz_parse;
        repeat first [apply jr_loop_le; solve [auto] | le_step].
    + assert (join_special E p k' = None) as ->.
      { destruct p; cbn in *; try reflexivity;
        (destruct (as_basic E p) as [[fc len]|]; try discriminate; try reflexivity);
        try (destruct (n =? 0); try discriminate; reflexivity). }
      repeat first [apply (Hr _ _ _) | le_step].
  - destruct (join_special E p k) as [f|] eqn:Hf.
    + destruct p; cbn in *; try discriminate;
        (destruct (as_basic E p) as [[fc len]|]; [|discriminate]);
        try (destruct (n =? 0); [discriminate|]);
        injection Hf as <-; auto;
        unfold jo_look, jz_look;
        repeat first [apply jr_loop_le; solve [auto] | le_step].
    + assert (join_special E p k' = None) as ->.
      { destruct p; cbn in *; try reflexivity;
        (destruct (as_basic E p) as [[fc len]|]; try discriminate; try reflexivity);
        try (destruct (n =? 0); try discriminate; reflexivity). }
      apply Hr.
Qed.
End Rec.

Lemma run_le n : forall n', n <= n' -> forall m p i, le_out (run E n m p i) (run E n' m p i).
Proof.
  induction n; intros n' Hn m p i; [now left|].
  destruct n' as [|n']; [lia|]. cbn [run]. apply step_le; [|lia].
  intros m' p' i'. apply IHn; lia.
Qed.

(** Once an outcome is reached, more fuel gives the same outcome. *)
Lemma run_stable n n' m p i o :
  run E n m p i = o -> o <> OOF -> n <= n' -> run E n' m p i = o.
Proof.
  intros Hr Ho Hn. destruct (run_le n n' Hn m p i) as [H|H]; congruence.
Qed.

Lemma run_det n n' m p i o o' :
  run E n m p i = o -> run E n' m p i = o' -> o <> OOF -> o' <> OOF -> o = o'.
Proof.
  intros H H' Ho Ho'. destruct (Nat.le_ge_cases n n').
  - rewrite <- (run_stable n n' m p i o); auto.
  - rewrite <- (run_stable n' n m p i o') at 1; auto.
Qed.

Lemma evals_det m p i o o' : evals E m p i o -> evals E m p i o' -> o = o'.
Proof. intros [Ho [n Hn]] [Ho' [n' Hn']]. eapply run_det; eauto. Qed.

Lemma evals_ge m p i o : evals E m p i o -> exists N, forall n, N <= n -> run E n m p i = o.
Proof. intros [Ho [N HN]]. exists N. intros. eapply run_stable; eauto. Qed.

Lemma evals_intro n m p i o : run E n m p i = o -> o <> OOF -> evals E m p i o.
Proof. intros; split; eauto. Qed.

Lemma evals_done n m p i r tr : run E n m p i = Done r tr -> evals E m p i (Done r tr).
Proof. intros; split; eauto; discriminate. Qed.

Lemma evals_step_intro n m p i o : step E (run E n) n m p i = o -> o <> OOF -> evals E m p i o.
Proof. intros; split; auto. now exists (S n). Qed.

Lemma evals_inv m p i o : evals E m p i o -> exists n, step E (run E n) n m p i = o.
Proof. intros [Ho [[|n] Hn]]; [cbn in Hn; congruence|]. now exists n. Qed.

Lemma evals_inv_ge m p i o : evals E m p i o ->
  exists N, forall n, N <= n -> step E (run E n) n m p i = o.
Proof.
  intros H. destruct (evals_ge _ _ _ _ H) as [N HN].
  exists N. intros n Hn. apply (HN (S n)). lia.
Qed.

Lemma terminates_iff m p i : terminates E m p i <-> exists o, evals E m p i o.
Proof.
  split.
  - intros [n Hn]. exists (run E n m p i). split; eauto.
  - intros [o [Ho [n Hn]]]. exists n. congruence.
Qed.

Lemma diverges_iff m p i : diverges E m p i <-> ~ terminates E m p i.
Proof.
  split.
  - intros H [n Hn]. apply Hn, H.
  - intros H n. destruct (run E n m p i) eqn:Hr; auto; exfalso; apply H; exists n; congruence.
Qed.
End Mono.
