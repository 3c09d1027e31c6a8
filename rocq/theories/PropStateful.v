(** * Property C73: user functions with state *)
From Coq Require Import String List Arith ZArith Bool Lia.
From Verif Require Import Types Compound Parser Outcome CompoundFacts Exec Mono Derive Typing Join Leaves Sound Samples
  Throws Runs PropCore PropTerm Stateful StatefulFacts StatefulSafe StatefulTerm.
Import ListNotations.

(** ** Specification *)
Section Spec.
Context {W : Type}.
(** What calling a callable does: [called f args w r w'] when the call [f(args...)] begun in world [w] returns [r] and
    leaves [w']. *)
Variable called : func -> list val -> W -> rv -> W -> Prop.
(** The calls of a trace one after the other, each begun in the world the one before left. *)
Inductive one_after_other : list event -> W -> W -> Prop :=
| oao_nil w : one_after_other [] w w
| oao_cons f args tr w r w' w'' : called f args w r w' -> one_after_other tr w' w'' ->
    one_after_other (EInvoke f args :: tr) w w''.
Lemma oao_app tr tr' w w1 w2 : one_after_other tr w w1 -> one_after_other tr' w1 w2 -> one_after_other (tr ++ tr') w w2.
Proof. induction 1; intros; cbn; auto. econstructor; eauto. Qed.
End Spec.

Section C73.
Context {T V W : Type} (E : env T V).
Variable sfn : nat -> list val -> W -> fnres * W.
Variable sct : ty -> list val -> W -> fnres * W.
Notation sevals := (sevals E sfn sct).
Notation sterminates := (sterminates E sfn sct).

Inductive called : func -> list val -> W -> rv -> W -> Prop :=
| called_user n args w r w' : sfn n args w = (FRet r, w') -> called (FUser n) args w r w'
| called_apply g v vs w r w' : tuple_vals v = Some vs -> called g vs w r w' -> called (FApply g) [v] w r w'
| called_constant k args w : called (FConstant k) args w (RVal (k_val E k)) w
| called_construct t args w r w' : sct t args w = (FRet r, w') -> called (FConstruct t) args w r w'
| called_default t args w : called (FDefault t) args w (RVal (default_val t)) w.

Lemma sinvoke_called f : forall args w r w', sinvoke E sfn sct f args w = (FRet r, w') -> called f args w r w'.
Proof.
  induction f; intros args w r w'; cbn; try (constructor; auto; fail).
  - destruct args as [|v [|]]; try discriminate. destruct (tuple_vals v) eqn:Hv; [|discriminate]. intros H. econstructor; eauto.
  - intros [= <- <-]. constructor.
  - intros [= <- <-]. constructor.
Qed.

Inductive throws : func -> list val -> W -> nat -> W -> Prop :=
| throws_user n args w e w' : sfn n args w = (FThrow e, w') -> throws (FUser n) args w e w'
| throws_apply g v vs w e w' : tuple_vals v = Some vs -> throws g vs w e w' -> throws (FApply g) [v] w e w'
| throws_construct t args w e w' : sct t args w = (FThrow e, w') -> throws (FConstruct t) args w e w'.

Lemma sinvoke_throws f : forall args w e w', sinvoke E sfn sct f args w = (FThrow e, w') -> throws f args w e w'.
Proof.
  induction f; intros args w e w'; cbn; try (constructor; auto; fail); try discriminate.
  destruct args as [|v [|]]; try discriminate. destruct (tuple_vals v) eqn:Hv; [|discriminate]. intros H. econstructor; eauto.
Qed.

(** ** Lookahead neither reads nor changes the program's state; neither does what is ignored *)
Theorem C73_lookahead p i w o w' : sevals Look p i w o w' <-> evals E Look p i o /\ w' = w.
Proof.
  unfold Stateful.sevals, evals. split.
  - intros [Ho [n Hn]]. rewrite look_run in Hn. injection Hn as <- <-. repeat split; auto. eauto.
  - intros [[Ho [n Hn]] ->]. split; auto. exists n. now rewrite look_run, Hn.
Qed.
Theorem C73_ignored p i w o w' : sevals Parse (PIgnore p) i w o w' <-> evals E Parse (PIgnore p) i o /\ w' = w.
Proof.
  unfold Stateful.sevals, evals. split.
  - intros [Ho [[|n] Hn]]; [injection Hn as <- <-; congruence|]. cbn [srun sstep] in Hn. rewrite look_run in Hn.
    injection Hn as <- <-. repeat split; auto. exists (S n). reflexivity.
  - intros [[Ho [[|n] Hn]] ->]; [cbn in Hn; congruence|]. split; auto. exists (S n). cbn [srun sstep].
    cbn [run step] in Hn. now rewrite look_run, Hn.
Qed.

(** ** Functions that only change state: everything proved about [Exec.v] holds *)
Theorem C73_answers_without_reading :
  (forall n args w, fst (sfn n args w) = fn_app E n args) ->
  (forall t args w, fst (sct t args w) = ct_app E t args) ->
  forall m p i w o, (exists w', sevals m p i w o w') <-> evals E m p i o.
Proof.
  intros Hf Hc m p i w o. unfold Stateful.sevals, evals. split.
  - intros [w' [Ho [n Hn]]]. split; auto. exists n. rewrite <- (same_run E sfn sct Hf Hc n m p i w), Hn. reflexivity.
  - intros [Ho [n Hn]]. pose proof (same_run E sfn sct Hf Hc n m p i w) as H.
    destruct (srun E sfn sct n m p i w) as [o' w'] eqn:He. cbn in H. exists w'. split; auto. exists n. rewrite He. congruence.
Qed.

(** ** The state after a parse is that after the calls in the trace, in order, each returning *)
Theorem C73_state m p i w r tr w' : sevals m p i w (Done r tr) w' -> one_after_other called tr w w'.
Proof.
  intros [_ [n Hn]]. revert w r tr w' Hn.
  apply (u_run E sfn sct (fun A x => forall w r tr w', x w = (Done r tr, w') -> one_after_other called tr w w') True); auto.
  - intros A o Hq w0 a tr0 w1 [= -> ->]. cbn in Hq. subst tr0. constructor.
  - intros A B x f Hx Hf w0 b tr0 w1. unfold sbind. destruct (x w0) as [o w2] eqn:He. destruct o as [a tr1| | | |]; try discriminate.
    destruct (f a w2) as [o w3] eqn:Hf2. destruct o as [b' tr2| | | |]; try discriminate. intros [= <- <- <-].
    eapply oao_app; eauto.
  - intros _ f args w0 a tr0 w1. unfold scall. destruct (sinvoke E sfn sct f args w0) as [[r0|e|] w2] eqn:He; try discriminate.
    intros [= <- <- <-]. econstructor; [|constructor]. apply sinvoke_called. eauto.
Qed.
(** After an exception it is that after some calls that returned and the one that threw. *)
Theorem C73_exception m p i w e w' : sevals m p i w (Exn e) w' ->
  exists tr w1 f args, one_after_other called tr w w1 /\ throws f args w1 e w'.
Proof.
  intros [_ [n Hn]]. revert w Hn.
  cut (forall w, match srun E sfn sct n m p i w with
                 | (Done _ tr, w') => one_after_other called tr w w'
                 | (Exn e, w') => exists tr w1 f args, one_after_other called tr w w1 /\ throws f args w1 e w'
                 | _ => True
                 end).
  { intros H w Hn. specialize (H w). now rewrite Hn in H. }
  apply (u_run E sfn sct (fun A x => forall w, match x w with
                 | (Done _ tr, w') => one_after_other called tr w w'
                 | (Exn e, w') => exists tr w1 f args, one_after_other called tr w w1 /\ throws f args w1 e w'
                 | _ => True
                 end) True); auto.
  - intros A o Hq w. cbn. destruct o; auto; cbn in Hq; [subst; constructor|contradiction].
  - intros A B x f Hx Hf w. unfold sbind. specialize (Hx w). destruct (x w) as [[a tr1| |e1| |] w1]; auto.
    specialize (Hf a w1). destruct (f a w1) as [[b tr2| |e2| |] w2]; auto; [eapply oao_app; eauto|].
    destruct Hf as (tr & w3 & g & args & Ht & Hg). exists (tr1 ++ tr), w3, g, args. split; auto. eapply oao_app; eauto.
  - intros _ f args w. unfold scall. destruct (sinvoke E sfn sct f args w) as [[r0|e1|] w2] eqn:He; auto.
    + econstructor; [|constructor]. apply sinvoke_called. eauto.
    + exists [], w, f, args. split; [constructor|]. now apply sinvoke_throws.
Qed.
Corollary C73_no_calls m p i w r w' : sevals m p i w (Done r []) w' -> w' = w.
Proof. intros H. apply C73_state in H. now inversion H. Qed.

(** ** One outcome and one final state per input and initial state *)
Theorem C73_deterministic m p i w o1 w1 o2 w2 : sevals m p i w o1 w1 -> sevals m p i w o2 w2 -> o1 = o2 /\ w1 = w2.
Proof. apply sevals_det. Qed.

(** ** In every state: no undefined behaviour, a refusal gives the input back, a success leaves a rest of it, and the value
    has the declared type and its spans lie in what was consumed *)
Theorem C73_safe m p i w o w' : senv_typed E sfn sct -> env_customs E ->
  compiles E m p = true -> (m = Parse -> sjoin_local E sfn sct p) -> valid E i ->
  sevals m p i w o w' ->
  match o with
  | Done r _ =>
      match r_ok r with
      | None => r_rem r = i
      | Some v => suffix i (r_rem r) /\
          match m with
          | Look => v = RVoid
          | Parse => (exists t, result_for E p = Some t /\ rv_has_ty t v) /\
              (slocal_parser E sfn sct p -> forall s, In s (rv_leaves v) -> sp_len s <> 0 ->
                 sp_blk s = sp_blk i /\ sp_off i <= sp_off s /\ sp_off s + sp_len s <= sp_off (r_rem r))
          end
      end
  | Exn _ => True
  | UB | Ill | OOF => False
  end.
Proof.
  intros HT HC Hc Hj Hv [Ho [n Hn]].
  pose proof (srun_sok E sfn sct HT HC n m p i (conj Hc Hj) Hv w) as H. rewrite Hn in H. cbn [fst] in H.
  destruct o as [r tr| |e| |]; cbn in H; auto.
Qed.

(** ** Grammars whose repetitions consume and that have no left recursion end in every state, whatever the functions answer *)
Theorem C73_ends p cs : bodies_consume E p -> no_left_recursion E p cs ->
  forall m i, valid E i -> forall w, exists o w', sevals m p i w o w'.
Proof.
  intros Hb [Hf Ha] m i Hv w.
  destruct (ssettles_all E sfn sct p Hb (acyclic_acc E p cs Hf Ha) (sp_len i) p (reach_refl E p) i (le_n _) Hv m w)
    as (o & w' & N & Ho & H).
  exists o, w'. split; auto. exists N. now apply (H N N).
Qed.
End C73.

(** ** A program with state: a counter of calls.  Callable 0 answers whether it was called an even number of times,
    callable 5 counts and returns its argument, callable 3 throws after counting, the constructor counts. *)
Definition cn_fn (n : nat) (args : list val) (w : nat) : fnres * nat :=
  match n, args with
  | 0, [VSpan _] => (FRet (RVal (sx_bool (Nat.even w))), S w)
  | 5, [VSpan s] => (FRet (RVal (VSpan s)), S w)
  | 3, [VSpan _] => (FThrow 42, S w)
  | _, _ => (sx_fn_app n args, w)
  end.
Definition cn_ct (t : ty) (args : list val) (w : nat) : fnres * nat := (FRet (RVal (VUser 2 args)), S w).
Ltac sruns n := split; [discriminate|exists n; vm_compute; reflexivity].

Lemma cn_typed : senv_typed sx cn_fn cn_ct.
Proof.
  destruct sx_typed as [H1 H2 H3 H4 H5 H6]. constructor; auto.
  - intros n args tys t w Hr HF. specialize (H1 n args tys t Hr HF). cbn in Hr, H1. unfold sx_fn_ret in Hr. unfold cn_fn.
    repeat match type of Hr with context [match ?x with _ => _ end] => destruct x; try discriminate end;
      injection Hr as <-;
      repeat match goal with H : Forall2 _ (_ :: _) _ |- _ => inversion H; subst; clear H
                           | H : Forall2 _ [] _ |- _ => inversion H; subst; clear H end;
      repeat match goal with v : val |- _ => destruct v; try contradiction end; cbn; auto; split; auto; discriminate.
  - intros t args tys w Hc HF. exact (H3 t args tys Hc HF).
Qed.

Definition ev (p : parser nat) : parser nat := PFilter p (FUser 0).
Definition cnt (p : parser nat) : parser nat := PMap p (FUser 5).
Definition an_a : parser nat := PAnyOf (codes "a").

(** Three a's, each tried by the filter: the answers alternate. *)
Example cn_filters : sevals sx cn_fn cn_ct Parse (PZeroOrMore (PChoice (ev an_a) [PJoin (PExactly an_a 1)])) (Span 3 0 4) 0
  (Done (Res (Some (RVal (VVec [VSpan (Span 3 0 1); VSpan (Span 3 1 1); VSpan (Span 3 2 1); VSpan (Span 3 3 1)]))) (Span 3 4 0))
     [EInvoke (FUser 0) [VSpan (Span 3 0 1)]; EInvoke (FUser 0) [VSpan (Span 3 1 1)];
      EInvoke (FUser 0) [VSpan (Span 3 2 1)]; EInvoke (FUser 0) [VSpan (Span 3 3 1)]]) 4.
Proof. sruns 12. Qed.
Example cn_safe_hyps : compiles sx Parse (PZeroOrMore (PChoice (ev an_a) [PJoin (PExactly an_a 1)])) = true /\
  sjoin_local sx cn_fn cn_ct (PZeroOrMore (PChoice (ev an_a) [PJoin (PExactly an_a 1)])) /\
  slocal_parser sx cn_fn cn_ct (PZeroOrMore (PChoice (ev an_a) [PJoin (PExactly an_a 1)])).
Proof.
  split; [reflexivity|].
  assert (H : slocal_parser sx cn_fn cn_ct (PZeroOrMore (PChoice (ev an_a) [PJoin (PExactly an_a 1)]))).
  { intros q Hq. repeat (inversion Hq as [|? ? ? Hin Hr]; subst; [exact Logic.I|]; clear Hq; rename Hr into Hq; cbn in Hin;
      repeat destruct Hin as [<- |Hin]; try contradiction). }
  split; auto. intros q Hq r Hr. apply H. clear H. eapply reach_trans; [exact Hq|]. eapply reach_step; [now left|exact Hr].
Qed.

(** What runs in the example ends in every state. *)
Example cn_ends_hyps : bodies_consume sx (PZeroOrMore (PChoice (ev an_a) [PJoin (PExactly an_a 1)])) /\
  no_left_recursion sx (PZeroOrMore (PChoice (ev an_a) [PJoin (PExactly an_a 1)])) [].
Proof.
  split.
  - intros q Hq. inversion Hq as [|? ? ? Hin Hr]; subst.
    + intros Hc. inversion Hc as [| |? ? r Hin Hr| | | | | | | | | | | | | |]; subst.
      cbn in Hin. destruct Hin as [<- |[<- |[]]]; repeat match goal with H : can_be_empty _ _ |- _ => inversion H; subst; clear H end.
    + clear Hq. rename Hr into Hq. cbn in Hin. repeat destruct Hin as [<- |Hin]; try contradiction.
      repeat (inversion Hq as [|? ? ? Hin Hr]; subst; [exact Logic.I|]; clear Hq; rename Hr into Hq; cbn in Hin;
        repeat destruct Hin as [<- |Hin]; try contradiction).
  - split; intros c Hq; exfalso; repeat (inversion Hq as [|? ? ? Hin Hr]; subst; clear Hq; rename Hr into Hq; cbn in Hin;
      repeat destruct Hin as [<- |Hin]; try contradiction).
Qed.

(** ** No rollback: a refused parse, an alternative or round that is given up, and an exception leave their changes *)
Theorem C73_no_rollback_refuted : exists p i w r tr w',
  sevals sx cn_fn cn_ct Parse p i w (Done r tr) w' /\ r = failure i /\ w' <> w.
Proof.
  exists (PSequence (cnt an_a) [PAllOf (codes "b")]), (Span 3 0 4), 0, (failure (Span 3 0 4)), [EInvoke (FUser 5) [VSpan (Span 3 0 1)]], 1.
  split; [sruns 5|split; [reflexivity|discriminate]].
Qed.
(** The first alternative counts and is given up; the second matches, and the count is that of both. *)
Example cn_alternative : sevals sx cn_fn cn_ct Parse
  (PChoice (PSequence (cnt an_a) [cnt an_a; PIgnore (PAllOf (codes "b"))]) [PSequence (cnt an_a) [cnt an_a; cnt an_a]]) (Span 3 0 4) 0
  (Done (Res (Some (RVal (VVar 1 (VTup [VSpan (Span 3 0 1); VSpan (Span 3 1 1); VSpan (Span 3 2 1)])))) (Span 3 3 1)) (map (fun k => EInvoke (FUser 5) [VSpan (Span 3 k 1)]) [0; 1; 0; 1; 2])) 5.
Proof. sruns 12. Qed.
Example cn_throw : sevals sx cn_fn cn_ct Parse (PSequence (cnt an_a) [PMap an_a (FUser 3)]) (Span 3 0 4) 0 (Exn 42) 2.
Proof. sruns 5. Qed.
(** In lookahead the same parser counts nothing. *)
Example cn_look : sevals sx cn_fn cn_ct Look (PSequence (cnt an_a) [PMap an_a (FUser 3)]) (Span 3 0 4) 0
  (Done (Res (Some RVoid) (Span 3 2 2)) []) 0.
Proof. sruns 5. Qed.
(** [complete] and the trailing element of a delimit give up what was counted. *)
Example cn_complete : sevals sx cn_fn cn_ct Parse (PComplete (PDelimit (cnt an_a) (PAllOf (codes "a")))) (Span 3 0 4) 0
  (Done (failure (Span 3 0 4)) [EInvoke (FUser 5) [VSpan (Span 3 0 1)]; EInvoke (FUser 5) [VSpan (Span 3 2 1)]]) 2.
Proof. sruns 12. Qed.

(** ** The same call can answer differently the next time *)
Theorem C73_repeat_refuted : exists p i w r1 tr1 w1 r2 tr2 w2,
  sevals sx cn_fn cn_ct Parse p i w (Done r1 tr1) w1 /\ sevals sx cn_fn cn_ct Parse p i w1 (Done r2 tr2) w2 /\
  has_value r1 = true /\ has_value r2 = false.
Proof.
  exists (ev an_a), (Span 3 0 4), 0. do 6 eexists. split; [sruns 3|]. split; [sruns 3|]. split; reflexivity.
Qed.

(** ** A function that only counts: the answers are those of [Exec.v] *)
Definition log_fn (n : nat) (args : list val) (w : list (nat * list val)) : fnres * list (nat * list val) :=
  (sx_fn_app n args, w ++ [(n, args)]).
Definition log_ct (t : ty) (args : list val) (w : list (nat * list val)) : fnres * list (nat * list val) :=
  (FRet (RVal (VUser 2 args)), w).
Example log_pure : (forall n args w, fst (log_fn n args w) = fn_app sx n args) /\
  (forall t args w, fst (log_ct t args w) = ct_app sx t args).
Proof. split; reflexivity. Qed.
Example log_run : exists r tr, sevals sx log_fn log_ct Parse (PSequence (ev an_a) [cnt an_a]) (Span 3 0 4) [] (Done r tr)
  [(0, [VSpan (Span 3 0 1)])] /\ has_value r = false.
Proof. do 2 eexists. split; [sruns 5|reflexivity]. Qed.

Print Assumptions C73_lookahead.
Print Assumptions C73_ignored.
Print Assumptions C73_answers_without_reading.
Print Assumptions C73_state.
Print Assumptions C73_exception.
Print Assumptions C73_no_calls.
Print Assumptions C73_deterministic.
Print Assumptions C73_safe.
Print Assumptions C73_ends.
Print Assumptions C73_no_rollback_refuted.
Print Assumptions C73_repeat_refuted.
