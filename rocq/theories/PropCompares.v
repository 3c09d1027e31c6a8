(** * Property C81: comparing elements is user code *)
From Coq Require Import String List Arith ZArith Bool Lia.
From Verif Require Import Types Compound Parser Outcome CompoundFacts Exec Mono Derive Typing Join Leaves Sound Samples
  Throws Runs PropCore Reloc PropReloc PropTerm Stateful StatefulFacts StatefulSafe StatefulTerm PropStateful
  Compares CompareFacts CompareSafe CompareTerm CompareReads CompareJoins CompareModes.
Import ListNotations.

(** ** Specification *)
Section Spec.
Context {T V W : Type} (E : env T V).
(** An element of the literal of some part of [p]: an element of one of the arrays given to any_of, none_of and all_of. *)
Definition literal_of (p : parser T) (t : T) : Prop :=
  exists arr, In t arr /\ (reach E p (PAnyOf arr) \/ reach E p (PNoneOf arr) \/ reach E p (PAllOf arr)).
(** An element of the input. *)
Definition element_of (i : span) (c : V) : Prop :=
  exists k, sp_off i <= k < sp_off i + sp_len i /\ nth_error (mem E (sp_blk i)) k = Some c.

Variable seq : T -> V -> W -> cmpres * W.
Variable called : func -> list val -> W -> rv -> W -> Prop.
Variable L : T -> Prop.
Variable I_ : V -> Prop.
(** From one world to another by comparisons of an [L] with an [I_] that return, and the calls of a trace that return,
    one after the other. *)
Inductive goes : list event -> W -> W -> Prop :=
| goes_nil w : goes [] w w
| goes_compare t c b tr w w' w'' : L t -> I_ c -> seq t c w = (CRet b, w') -> goes tr w' w'' -> goes tr w w''
| goes_call f args r tr w w' w'' : called f args w r w' -> goes tr w' w'' -> goes (EInvoke f args :: tr) w w''.
Lemma goes_app tr tr' w w1 w2 : goes tr w w1 -> goes tr' w1 w2 -> goes (tr ++ tr') w w2.
Proof. induction 1; intros; cbn [app]; auto; [eapply goes_compare|eapply goes_call]; eauto. Qed.

(** All of [l] were compared with [c], in order, and none was equal. *)
Inductive none_equal (c : V) : list T -> W -> W -> Prop :=
| ne_nil w : none_equal c [] w w
| ne_cons t l w w' w'' : seq t c w = (CRet false, w') -> none_equal c l w' w'' -> none_equal c (t :: l) w w''.
(** The two lists were compared element by element, in order, and all were equal. *)
Inductive all_equal : list T -> list V -> W -> W -> Prop :=
| ae_nil w : all_equal [] [] w w
| ae_cons t l c cs w w' w'' : seq t c w = (CRet true, w') -> all_equal l cs w' w'' -> all_equal (t :: l) (c :: cs) w w''.
(** What was matched, [n] elements. *)
Definition matched (m : mode) (i : span) (n : nat) : outcome presult :=
  Done (Res (Some (match m with Parse => RVal (VSpan (Span (sp_blk i) (sp_off i) n)) | Look => RVoid end))
            (Span (sp_blk i) (sp_off i + n) (sp_len i - n))) [].
Definition refused (i : span) : outcome presult := Done (Res None i) [].
Definition elements (i : span) (n : nat) : list V := firstn n (skipn (sp_off i) (mem E (sp_blk i))).
End Spec.

Section C81.
Context {T V W : Type} (E : env T V).
Variable sfn : nat -> list val -> W -> fnres * W.
Variable sct : ty -> list val -> W -> fnres * W.
Variable seq : T -> V -> W -> cmpres * W.
Notation xevals := (xevals E sfn sct seq).

(** ** An [==] that only changes state: everything proved about [Exec.v] holds *)
Theorem C81_answers_without_reading :
  (forall n args w, fst (sfn n args w) = fn_app E n args) ->
  (forall t args w, fst (sct t args w) = ct_app E t args) ->
  (forall t c w, fst (seq t c w) = CRet (eqv E t c)) ->
  forall m p i w o, (exists w', xevals m p i w o w') <-> evals E m p i o.
Proof.
  intros Hf Hc Hs m p i w o. unfold Compares.xevals, evals. split.
  - intros [w' [Ho [n Hn]]]. split; auto. exists n. rewrite <- (same_xrun E sfn sct seq Hf Hc Hs n m p i w), Hn. reflexivity.
  - intros [Ho [n Hn]]. pose proof (same_xrun E sfn sct seq Hf Hc Hs n m p i w) as H.
    destruct (xrun E sfn sct seq n m p i w) as [o' w'] eqn:He. cbn in H. exists w'. split; auto. exists n. rewrite He. congruence.
Qed.

(** ** One outcome and one final state per input and initial state *)
Theorem C81_deterministic m p i w o1 w1 o2 w2 : xevals m p i w o1 w1 -> xevals m p i w o2 w2 -> o1 = o2 /\ w1 = w2.
Proof. apply xevals_det. Qed.

(** ** Whatever [==] answers, and whenever it throws: no undefined behaviour, a refusal gives the input back, a success
    leaves a rest of it, and the value has the declared type and its spans lie in what was consumed *)
Theorem C81_safe m p i w o w' : senv_typed E sfn sct -> env_customs E ->
  compiles E m p = true -> (m = Parse -> sjoin_local E sfn sct p) -> valid E i ->
  xevals m p i w o w' ->
  match o with
  | Done r _ =>
      match r_ok r with
      | None => r_rem r = i
      | Some v => suffix i (r_rem r) /\
          match m with
          | Look => v = RVoid
          | Parse => (exists t, result_for E p = Some t /\ rv_has_ty t v) /\
              (slocal_parser E sfn sct p -> forall s, In s (rv_leaves v) -> sp_len s <> 0 ->
                 sp_blk s = sp_blk i /\ sp_off i <= sp_off s /\ sp_off s + sp_len s <= sp_off (r_rem r))
          end
      end
  | Exn _ => True
  | UB | Ill | OOF => False
  end.
Proof.
  intros HT HC Hc Hj Hv [Ho [n Hn]].
  pose proof (xrun_sok E sfn sct seq HT HC n m p i (conj Hc Hj) Hv w) as H. rewrite Hn in H. cbn [fst] in H.
  destruct o as [r tr| |e| |]; cbn in H; auto.
Qed.

(** ** Grammars whose repetitions consume and that have no left recursion end, whatever [==] and the functions answer *)
Theorem C81_ends p cs : bodies_consume E p -> no_left_recursion E p cs ->
  forall m i, valid E i -> forall w, exists o w', xevals m p i w o w'.
Proof.
  intros Hb [Hf Ha] m i Hv w.
  destruct (xsettles_all E sfn sct seq p Hb (acyclic_acc E p cs Hf Ha) (sp_len i) p (reach_refl E p) i (le_n _) Hv m w)
    as (o & w' & N & Ho & H).
  exists o, w'. split; auto. exists N. now apply (H N N).
Qed.

(** ** What is compared *)
Section Compared.
Variable p : parser T.
Variable i : span.
Notation goes := (goes seq (called E sfn sct) (literal_of E p) (element_of E i)).
Lemma reads_within j k c : suffix i j -> k < sp_len j -> read E (sp_blk j) (sp_off j + k) = ret c -> element_of E i c.
Proof.
  intros (d & Hd & ->) Hk. cbn in *. unfold read. destruct (nth_error (mem E (sp_blk i)) (sp_off i + d + k)) as [c'|] eqn:Hn; [|discriminate].
  intros [= <-]. exists (sp_off i + d + k). split; [lia|exact Hn].
Qed.
(** How a computation goes. *)
Definition way (C : Prop) {A} (x : @eff W A) : Prop := forall w, match x w with
  | (Done _ tr, w') => goes tr w w' /\ (tr = [] \/ C)
  | (Exn e, w') => exists tr w1, goes tr w w1 /\ (tr = [] \/ C) /\
      ((exists t c, literal_of E p t /\ element_of E i c /\ seq t c w1 = (CThrow e, w')) \/
       (C /\ exists f args, throws sfn sct f args w1 e w'))
  | _ => True
  end.
Lemma way_lift (C : Prop) A (o : outcome A) : quiet o -> way C (lift o).
Proof. intros Hq w. cbn. destruct o; auto; cbn in Hq; [subst; split; [constructor|auto]|contradiction]. Qed.
Lemma way_bind (C : Prop) A B (x : @eff W A) (f : A -> @eff W B) : way C x -> (forall a, (exists w tr w', x w = (Done a tr, w')) -> way C (f a)) -> way C (sbind x f).
Proof.
  intros Hx Hf w. unfold sbind. specialize (Hx w). destruct (x w) as [[a tr1| |e1| |] w1] eqn:He; auto.
  specialize (Hf a (ex_intro _ w (ex_intro _ tr1 (ex_intro _ w1 He))) w1). destruct (f a w1) as [[b tr2| |e2| |] w2]; auto.
  - destruct Hx as [H1 H2], Hf as [H3 H4]. split; [eapply goes_app; eauto|]. destruct H2 as [-> |]; auto.
  - destruct Hx as [H1 H2], Hf as (tr & w3 & Ht & HC & Hg). exists (tr1 ++ tr), w3. split; [eapply goes_app; eauto|].
    split; auto. destruct H2 as [-> |]; auto.
Qed.
Lemma way_compare (C : Prop) t c : literal_of E p t -> element_of E i c -> way C (compare seq t c).
Proof.
  intros Ht Hc w. unfold compare. destruct (seq t c w) as [[b|e] w'] eqn:He.
  - split; auto. eapply goes_compare; eauto. constructor.
  - exists [], w. split; [constructor|]. split; auto. left. eauto.
Qed.
Lemma way_call (C : Prop) f args : C -> way C (scall E sfn sct f args).
Proof.
  intros HC w. unfold scall. destruct (sinvoke E sfn sct f args w) as [[r0|e1|] w2] eqn:He; auto.
  - split; auto. econstructor; [|constructor]. apply sinvoke_called. eauto.
  - exists [], w. split; [constructor|]. split; auto. right. split; auto. exists f, args. eapply sinvoke_throws. eauto.
Qed.
Lemma way_contains (C : Prop) arr c : (forall t, In t arr -> literal_of E p t) -> element_of E i c -> way C (ccontains seq arr c).
Proof.
  intros Ha Hc. induction arr as [|t arr IH]; cbn [ccontains]; [now apply way_lift|].
  apply way_bind; [apply way_compare; auto; apply Ha; now left|]. intros [|] _; [now apply way_lift|]. apply IH. intros; apply Ha; now right.
Qed.
Lemma way_eq_loop (C : Prop) arr j : suffix i j -> (forall t, In t arr -> literal_of E p t) -> forall k, k + List.length arr <= sp_len j ->
  way C (ceq_loop E seq arr (sp_blk j) (sp_off j + k)).
Proof.
  intros Hj. induction arr as [|t arr IH]; intros Ha k Hk; cbn [ceq_loop]; [now apply way_lift|]. cbn in Hk.
  apply way_bind; [apply way_lift; unfold read; destruct (nth_error _ _); cbn; auto|]. intros c (w & tr & w' & Hc). injection Hc as Hc _.
  assert (He : element_of E i c).
  { apply (reads_within j k); auto; [lia|]. unfold read in *. destruct (nth_error _ _); [|discriminate]. now injection Hc as -> _. }
  apply way_bind; [apply way_compare; auto; apply Ha; now left|]. intros [|] _; [|now apply way_lift].
  rewrite <- Nat.add_succ_r. apply IH; [intros; apply Ha; now right|lia].
Qed.
Lemma way_run (C : Prop) n m q j : reach E p q -> (m = Parse -> C) -> suffix i j -> way C (xrun E sfn sct seq n m q j).
Proof.
  intros Hq HC Hj.
  apply (p_run E (mem E) sfn sct seq seq (fun A x _ (Q : A -> Prop) => way C x /\ forall w a tr w', x w = (Done a tr, w') -> Q a) C
    (reach E p) i) with (n := n) (m := m) (p := q) (i := j); auto.
  - intros a b Ha Hb. eapply reach_trans; [exact Ha|]. eapply reach_step; [exact Hb|apply reach_refl].
  - intros A o Q Ho HQ. split; [now apply way_lift|]. intros w a tr w' [= -> ->]. exact HQ.
  - intros A B x _ f _ P Q [H1 H2] Hf. split.
    + apply way_bind; auto. intros a (w & tr & w' & Ha). apply Hf. eauto.
    + intros w b tr w'. unfold sbind. destruct (x w) as [[a tr1| | | |] w1] eqn:He; try discriminate.
      destruct (f a w1) as [[b' tr2| | | |] w2] eqn:Hfe; try discriminate. intros [= <- <- <-]. eapply (proj2 (Hf a (H2 _ _ _ _ He))); eauto.
  - intros Hc f args. split; auto. now apply way_call.
  - intros r fc len fc' len' s Hr Hs Hb _. split; auto. unfold inside in Hs.
    assert (Hfr : forall c w tr w', lift (W := W) (front E s) w = (Done c tr, w') -> element_of E i c).
    { intros c w tr w' Hc. injection Hc as Hc _. unfold front in Hc. destruct (Nat.eqb_spec (sp_len s) 0); [discriminate|].
      apply (reads_within s 0); auto; [lia|]. rewrite Nat.add_0_r. unfold read in *. destruct (nth_error _ _); [|discriminate]. now injection Hc as -> _. }
    assert (Hq1 : quiet (front E s)) by (unfold front, read; destruct (sp_len s =? 0); [exact Logic.I|]; destruct (nth_error (mem E (sp_blk s)) (sp_off s)); cbn; auto).
    destruct r; try discriminate; cbn in Hb; injection Hb as <- <-.
    + unfold cany_fc. destruct (sp_len s =? 0); [now apply way_lift|]. apply way_bind; [now apply way_lift|]. intros c (w & tr & w' & Hc).
      apply way_bind; [apply way_contains; eauto; intros t Ht; exists arr; auto|]. intros b _. now apply way_lift.
    + unfold cnone_fc. destruct (sp_len s =? 0); [now apply way_lift|]. apply way_bind; [now apply way_lift|]. intros c (w & tr & w' & Hc).
      apply way_contains; eauto. intros t Ht; exists arr; auto.
    + unfold call_fc. destruct (Nat.ltb_spec (sp_len s) (List.length arr)); [now apply way_lift|].
      apply way_bind; [apply way_lift; unfold first; destruct (_ <=? _); cbn; auto|]. intros f (w & tr & w' & Hf).
      unfold lift, first in Hf. destruct (_ <=? _); [|discriminate]. injection Hf as <- _ _.
      apply way_bind; [|intros b _; now apply way_lift]. unfold cspan_equal. cbn. rewrite Nat.eqb_refl.
      rewrite <- (Nat.add_0_r (sp_off s)). apply way_eq_loop; auto. intros t Ht; exists arr; auto.
Qed.
End Compared.

(** The state of the program changes by comparisons of elements of the literals with elements of the input, and by the
    calls in the trace. *)
Theorem C81_state m p i w r tr w' : xevals m p i w (Done r tr) w' ->
  goes seq (called E sfn sct) (literal_of E p) (element_of E i) tr w w'.
Proof.
  intros [_ [n Hn]]. pose proof (way_run p i True n m p i (reach_refl E p) (fun _ => Logic.I) (suffix_refl i) w) as H.
  rewrite Hn in H. apply H.
Qed.

(** An exception is that of a comparison or of a call, and the state is left as it was thrown. *)
Theorem C81_exception m p i w e w' : xevals m p i w (Exn e) w' ->
  exists tr w1, goes seq (called E sfn sct) (literal_of E p) (element_of E i) tr w w1 /\
    ((exists t c, literal_of E p t /\ element_of E i c /\ seq t c w1 = (CThrow e, w')) \/
     (exists f args, throws sfn sct f args w1 e w')).
Proof.
  intros [_ [n Hn]]. pose proof (way_run p i True n m p i (reach_refl E p) (fun _ => Logic.I) (suffix_refl i) w) as H.
  rewrite Hn in H. destruct H as (tr & w1 & H1 & _ & H2). exists tr, w1. split; auto. destruct H2 as [H2|[_ H2]]; auto.
Qed.

(** lookahead calls nothing: comparisons only. *)
Theorem C81_lookahead p i w o w' : xevals Look p i w o w' ->
  match o with
  | Done _ tr => tr = [] /\ goes seq (fun _ _ _ _ _ => False) (literal_of E p) (element_of E i) [] w w'
  | Exn e => exists w1 t c, goes seq (fun _ _ _ _ _ => False) (literal_of E p) (element_of E i) [] w w1 /\
      literal_of E p t /\ element_of E i c /\ seq t c w1 = (CThrow e, w')
  | _ => True
  end.
Proof.
  intros [_ [n Hn]]. pose proof (way_run p i False n Look p i (reach_refl E p) ltac:(discriminate) (suffix_refl i) w) as H.
  rewrite Hn in H.
  assert (Hg : forall tr v v', goes seq (called E sfn sct) (literal_of E p) (element_of E i) tr v v' -> tr = [] ->
    goes seq (fun _ _ _ _ _ => False) (literal_of E p) (element_of E i) [] v v').
  { induction 1 as [|? ? ? ? ? ? ? ? ? ? ? IH|]; intros Ht; [constructor| |discriminate]. eapply goes_compare; eauto. }
  destruct o as [r tr| |e| |]; auto.
  - destruct H as [H [Ht|[]]]. split; eauto.
  - destruct H as (tr & w1 & H & [Ht|[]] & [(t & c & H1 & H2 & H3)|[[] _]]). exists w1, t, c. split; eauto.
Qed.

(** ** In what order the elementary parsers compare *)
Lemma contains_none arr c w w' : none_equal seq c arr w w' -> forall rest, ccontains seq (arr ++ rest) c w = ccontains seq rest c w'.
Proof.
  induction 1 as [|t l w w' w'' Hs Hn IH]; intros rest; [reflexivity|]. cbn [app ccontains]. unfold sbind, compare at 1. rewrite Hs, <- IH.
  destruct (ccontains seq (l ++ rest) c w') as [[]]; reflexivity.
Qed.
Lemma contains_cases c : forall arr w,
  (exists w', none_equal seq c arr w w' /\ ccontains seq arr c w = (Done false [], w')) \/
  (exists l1 t l2 w1 w', arr = l1 ++ t :: l2 /\ none_equal seq c l1 w w1 /\
     ((seq t c w1 = (CRet true, w') /\ ccontains seq arr c w = (Done true [], w')) \/
      (exists e, seq t c w1 = (CThrow e, w') /\ ccontains seq arr c w = (Exn e, w')))).
Proof.
  induction arr as [|t arr IH]; intros w; cbn [ccontains].
  - left. exists w. split; [constructor|reflexivity].
  - unfold sbind, compare. destruct (seq t c w) as [[[|]|e] w1] eqn:Hs.
    + right. exists [], t, arr, w, w1. repeat split; auto. constructor.
    + destruct (IH w1) as [(w' & H1 & H2)|(l1 & u & l2 & w2 & w' & -> & H2 & H3)].
      * left. exists w'. rewrite H2. split; auto. econstructor; eauto.
      * right. exists (t :: l1), u, l2, w2, w'. split; auto. split; [econstructor; eauto|].
        destruct H3 as [[H3 H4]|(e & H3 & H4)]; [left|right; exists e]; rewrite H4; auto.
    + right. exists [], t, arr, w, w1. repeat split; auto; [constructor|]. right. exists e. auto.
Qed.

Lemma leaf_evals m q i w o w' : (forall n, xrun E sfn sct seq (S n) m q i w = xrun E sfn sct seq 1 m q i w) ->
  fst (xrun E sfn sct seq 1 m q i w) <> OOF -> xevals m q i w o w' <-> xrun E sfn sct seq 1 m q i w = (o, w').
Proof.
  intros H Hne. split.
  - intros [Ho [[|n] Hn]]; [cbn in Hn; now injection Hn as <- _|]. now rewrite <- (H n).
  - intros Hr. split; [rewrite Hr in Hne; exact Hne|]. exists 1. exact Hr.
Qed.
Lemma front_is i c : sp_len i <> 0 -> nth_error (mem E (sp_blk i)) (sp_off i) = Some c -> front E i = ret c.
Proof. intros H1 H2. unfold front. apply Nat.eqb_neq in H1. rewrite H1. unfold read. now rewrite H2. Qed.

(** any_of: the elements of the literal one after the other with the first element of the input, up to the first that
    is equal. *)
Theorem C81_any_of m arr i c w o w' : sp_len i <> 0 -> nth_error (mem E (sp_blk i)) (sp_off i) = Some c ->
  xevals m (PAnyOf arr) i w o w' <->
  (none_equal seq c arr w w' /\ o = refused i) \/
  (exists l1 t l2 w1, arr = l1 ++ t :: l2 /\ none_equal seq c l1 w w1 /\
     ((seq t c w1 = (CRet true, w') /\ o = matched m i 1) \/ (exists e, seq t c w1 = (CThrow e, w') /\ o = Exn e))).
Proof.
  intros Hl Hc.
  assert (Hx : forall n, xrun E sfn sct seq (S n) m (PAnyOf arr) i w = match ccontains seq arr c w with
    | (Done true tr, w') => (Done (match matched m i 1 with Done r _ => r | _ => failure i end) tr, w')
    | (Done false tr, w') => (Done (failure i) tr, w')
    | (UB, w') => (UB, w') | (Exn e, w') => (Exn e, w') | (OOF, w') => (OOF, w') | (Ill, w') => (Ill, w') end).
  { intros n. destruct m; cbn [xrun xstep]; unfold cbasic_parse, cbasic_look, cany_fc;
    rewrite (proj2 (Nat.eqb_neq _ _) Hl), (front_is i c Hl Hc); unfold sbind, sret, lift, ret;
    destruct (ccontains seq arr c w) as [[[|] tr| | | |] w1]; cbn [negb app]; rewrite ?app_nil_r; auto;
    unfold first, advance; rewrite (proj2 (Nat.leb_le 1 (sp_len i))) by lia; cbn [app ret success matched]; rewrite ?app_nil_r; auto. }
  assert (Hf : fst (xrun E sfn sct seq 1 m (PAnyOf arr) i w) <> OOF).
  { rewrite (Hx 0). destruct (contains_cases c arr w) as [(w1 & _ & ->)|(l1 & t & l2 & w1 & w2 & _ & _ & [[_ ->]|(e & _ & ->)])]; discriminate. }
  rewrite leaf_evals; [|intros n; now rewrite (Hx n), (Hx 0)|exact Hf]. rewrite (Hx 0). split.
  - destruct (contains_cases c arr w) as [(w1 & H1 & ->)|(l1 & t & l2 & w1 & w2 & H1 & H2 & [[H3 ->]|(e & H3 & ->)])]; intros [= <- <-].
    + left. auto.
    + right. exists l1, t, l2, w1. split; auto.
    + right. exists l1, t, l2, w1. split; auto. split; auto. right. eauto.
  - intros [[H ->]|(l1 & t & l2 & w1 & -> & H & [[H1 ->]|(e & H1 & ->)])].
    + rewrite <- (app_nil_r arr), (contains_none _ _ _ _ H). reflexivity.
    + rewrite (contains_none _ _ _ _ H). cbn [ccontains]. unfold sbind, compare. rewrite H1. reflexivity.
    + rewrite (contains_none _ _ _ _ H). cbn [ccontains]. unfold sbind, compare. rewrite H1. reflexivity.
Qed.
(** none_of: the same comparisons, the opposite answer. *)
Theorem C81_none_of m arr i c w o w' : sp_len i <> 0 -> nth_error (mem E (sp_blk i)) (sp_off i) = Some c ->
  xevals m (PNoneOf arr) i w o w' <->
  (none_equal seq c arr w w' /\ o = matched m i 1) \/
  (exists l1 t l2 w1, arr = l1 ++ t :: l2 /\ none_equal seq c l1 w w1 /\
     ((seq t c w1 = (CRet true, w') /\ o = refused i) \/ (exists e, seq t c w1 = (CThrow e, w') /\ o = Exn e))).
Proof.
  intros Hl Hc.
  assert (Hx : forall n, xrun E sfn sct seq (S n) m (PNoneOf arr) i w = match ccontains seq arr c w with
    | (Done false tr, w') => (Done (match matched m i 1 with Done r _ => r | _ => failure i end) tr, w')
    | (Done true tr, w') => (Done (failure i) tr, w')
    | (UB, w') => (UB, w') | (Exn e, w') => (Exn e, w') | (OOF, w') => (OOF, w') | (Ill, w') => (Ill, w') end).
  { intros n. destruct m; cbn [xrun xstep]; unfold cbasic_parse, cbasic_look, cnone_fc;
    rewrite (proj2 (Nat.eqb_neq _ _) Hl), (front_is i c Hl Hc); unfold sbind, sret, lift, ret;
    destruct (ccontains seq arr c w) as [[[|] tr| | | |] w1]; cbn [negb app]; rewrite ?app_nil_r; auto;
    unfold first, advance; rewrite (proj2 (Nat.leb_le 1 (sp_len i))) by lia; cbn [app ret success matched]; rewrite ?app_nil_r; auto. }
  assert (Hf : fst (xrun E sfn sct seq 1 m (PNoneOf arr) i w) <> OOF).
  { rewrite (Hx 0). destruct (contains_cases c arr w) as [(w1 & _ & ->)|(l1 & t & l2 & w1 & w2 & _ & _ & [[_ ->]|(e & _ & ->)])]; discriminate. }
  rewrite leaf_evals; [|intros n; now rewrite (Hx n), (Hx 0)|exact Hf]. rewrite (Hx 0). split.
  - destruct (contains_cases c arr w) as [(w1 & H1 & ->)|(l1 & t & l2 & w1 & w2 & H1 & H2 & [[H3 ->]|(e & H3 & ->)])]; intros [= <- <-].
    + left. auto.
    + right. exists l1, t, l2, w1. split; auto.
    + right. exists l1, t, l2, w1. split; auto. split; auto. right. eauto.
  - intros [[H ->]|(l1 & t & l2 & w1 & -> & H & [[H1 ->]|(e & H1 & ->)])].
    + rewrite <- (app_nil_r arr), (contains_none _ _ _ _ H). reflexivity.
    + rewrite (contains_none _ _ _ _ H). cbn [ccontains]. unfold sbind, compare. rewrite H1. reflexivity.
    + rewrite (contains_none _ _ _ _ H). cbn [ccontains]. unfold sbind, compare. rewrite H1. reflexivity.
Qed.

Lemma eq_loop_cases b : forall arr cs o w, List.length cs = List.length arr ->
  (forall j c, nth_error cs j = Some c -> nth_error (mem E b) (o + j) = Some c) ->
  (exists w', all_equal seq arr cs w w' /\ ceq_loop E seq arr b o w = (Done true [], w')) \/
  (exists l1 t l2 c1 c c2 w1 w', arr = l1 ++ t :: l2 /\ cs = c1 ++ c :: c2 /\ all_equal seq l1 c1 w w1 /\
     ((seq t c w1 = (CRet false, w') /\ ceq_loop E seq arr b o w = (Done false [], w')) \/
      (exists e, seq t c w1 = (CThrow e, w') /\ ceq_loop E seq arr b o w = (Exn e, w')))).
Proof.
  induction arr as [|t arr IH]; intros [|c cs] o w Hl Hr; cbn in Hl; try discriminate; cbn [ceq_loop].
  - left. exists w. split; [constructor|reflexivity].
  - pose proof (Hr 0 c eq_refl) as H0. rewrite Nat.add_0_r in H0. unfold read. rewrite H0. unfold sbind, compare, lift, ret.
    destruct (seq t c w) as [[[|]|e] w1] eqn:Hs.
    + destruct (IH cs (S o) w1) as [(w' & H1 & H2)|(l1 & u & l2 & c1 & d & c2 & w2 & w' & -> & -> & H2 & H3)]; [lia| | |].
      * intros j d Hd. rewrite <- (Hr (S j) d Hd). f_equal. lia.
      * left. exists w'. rewrite H2. split; auto. econstructor; eauto.
      * right. exists (t :: l1), u, l2, (c :: c1), d, c2, w2, w'. split; auto. split; auto. split; [econstructor; eauto|].
        destruct H3 as [[H3 H4]|(e & H3 & H4)]; [left|right; exists e]; rewrite H4; auto.
    + right. exists [], t, arr, [], c, cs, w, w1. repeat split; auto. constructor.
    + right. exists [], t, arr, [], c, cs, w, w1. repeat split; auto; [constructor|]. right. exists e. auto.
Qed.
Lemma eq_loop_all b : forall l cs w w', all_equal seq l cs w w' -> forall rest o,
  (forall j c, nth_error cs j = Some c -> nth_error (mem E b) (o + j) = Some c) ->
  ceq_loop E seq (l ++ rest) b o w = ceq_loop E seq rest b (o + List.length l) w'.
Proof.
  induction 1 as [w|t l c cs w w' w'' Hs Ha IH]; intros rest o Hr; [now rewrite Nat.add_0_r|].
  pose proof (Hr 0 c eq_refl) as H0. rewrite Nat.add_0_r in H0. cbn [app ceq_loop List.length]. unfold read at 1. rewrite H0.
  unfold sbind, compare, lift, ret. rewrite Hs, IH.
  - rewrite Nat.add_succ_r. cbn [Nat.add]. destruct (ceq_loop E seq rest b _ w'') as [[]]; reflexivity.
  - intros j d Hd. rewrite <- (Hr (S j) d Hd). f_equal. lia.
Qed.
Lemma all_equal_length l cs w w' : all_equal seq l cs w w' -> List.length cs = List.length l.
Proof. induction 1; cbn; auto. Qed.
Lemma nth_window (l : list V) n : forall o j c, nth_error (firstn n (skipn o l)) j = Some c -> nth_error l (o + j) = Some c.
Proof.
  revert n. induction l as [|x l IH]; intros n [|o] j c.
  - destruct n, j; discriminate.
  - destruct n, j; discriminate.
  - destruct n as [|n], j as [|j]; cbn; try discriminate; auto. intros H. apply (IH n 0 j c H).
  - cbn. apply IH.
Qed.

(** all_of: element by element, up to the first that differs. *)
Theorem C81_all_of m arr i w o w' : List.length arr <= sp_len i -> valid E i ->
  xevals m (PAllOf arr) i w o w' <->
  (all_equal seq arr (elements E i (List.length arr)) w w' /\ o = matched m i (List.length arr)) \/
  (exists l1 t l2 c1 c c2 w1, arr = l1 ++ t :: l2 /\ elements E i (List.length arr) = c1 ++ c :: c2 /\ all_equal seq l1 c1 w w1 /\
     ((seq t c w1 = (CRet false, w') /\ o = refused i) \/ (exists e, seq t c w1 = (CThrow e, w') /\ o = Exn e))).
Proof.
  intros Hl Hv. set (cs := elements E i (List.length arr)).
  assert (Hcs : List.length cs = List.length arr).
  { unfold cs, elements. rewrite firstn_length, skipn_length. unfold valid in Hv. lia. }
  assert (Hr : forall j c, nth_error cs j = Some c -> nth_error (mem E (sp_blk i)) (sp_off i + j) = Some c).
  { intros j c Hj. eapply nth_window, Hj. }
  assert (Hx : forall n, xrun E sfn sct seq (S n) m (PAllOf arr) i w = match ceq_loop E seq arr (sp_blk i) (sp_off i) w with
    | (Done true tr, w') => (Done (match matched m i (List.length arr) with Done r _ => r | _ => failure i end) tr, w')
    | (Done false tr, w') => (Done (failure i) tr, w')
    | (UB, w') => (UB, w') | (Exn e, w') => (Exn e, w') | (OOF, w') => (OOF, w') | (Ill, w') => (Ill, w') end).
  { intros n. destruct m; cbn [xrun xstep]; unfold cbasic_parse, cbasic_look, call_fc;
    rewrite (proj2 (Nat.ltb_ge _ _) Hl); unfold sbind, sret, lift, first, advance, cspan_equal;
    rewrite (proj2 (Nat.leb_le _ _) Hl); cbn [ret sp_blk sp_off sp_len]; rewrite Nat.eqb_refl;
    destruct (ceq_loop E seq arr (sp_blk i) (sp_off i) w) as [[[|] tr| | | |] w1]; cbn [negb app ret success matched]; rewrite ?app_nil_r; auto. }
  assert (Hf : fst (xrun E sfn sct seq 1 m (PAllOf arr) i w) <> OOF).
  { rewrite (Hx 0). destruct (eq_loop_cases (sp_blk i) arr cs (sp_off i) w Hcs Hr)
      as [(w1 & _ & ->)|(l1 & t & l2 & c1 & c & c2 & w1 & w2 & _ & _ & _ & [[_ ->]|(e & _ & ->)])]; discriminate. }
  rewrite leaf_evals; [|intros n; now rewrite (Hx n), (Hx 0)|exact Hf]. rewrite (Hx 0). split.
  - destruct (eq_loop_cases (sp_blk i) arr cs (sp_off i) w Hcs Hr)
      as [(w1 & H1 & ->)|(l1 & t & l2 & c1 & c & c2 & w1 & w2 & H1 & H2 & H4 & [[H3 ->]|(e & H3 & ->)])]; intros [= <- <-].
    + left. auto.
    + right. exists l1, t, l2, c1, c, c2, w1. split; auto.
    + right. exists l1, t, l2, c1, c, c2, w1. split; auto. split; auto. split; auto. right. eauto.
  - clearbody cs. clear Hx Hf. intros [[H ->]|(l1 & t & l2 & c1 & c & c2 & w1 & -> & -> & H & H1)].
    + rewrite <- (app_nil_r arr) at 1. rewrite (eq_loop_all (sp_blk i) _ _ _ _ H [] (sp_off i) Hr). reflexivity.
    + rewrite (eq_loop_all (sp_blk i) _ _ _ _ H (t :: l2) (sp_off i)).
      2:{ intros j d Hd. apply Hr. rewrite nth_error_app1; auto. apply nth_error_Some. congruence. }
      pose proof (Hr (List.length c1) c) as H0. rewrite nth_error_app2, Nat.sub_diag in H0 by lia. specialize (H0 eq_refl).
      cbn [ceq_loop]. unfold read. rewrite <- (all_equal_length _ _ _ _ H), H0. unfold sbind, compare, lift, ret.
      destruct H1 as [[-> ->]|(e & -> & ->)]; reflexivity.
Qed.

(** Nothing is compared when the input is too short. *)
Theorem C81_too_short m p i w o w' :
  (exists arr, (p = PAnyOf arr \/ p = PNoneOf arr) /\ sp_len i = 0) \/ (exists arr, p = PAllOf arr /\ sp_len i < List.length arr) ->
  xevals m p i w o w' <-> o = refused i /\ w' = w.
Proof.
  intros H.
  assert (Hx : forall n, xrun E sfn sct seq (S n) m p i w = (refused i, w)).
  { intros n. destruct H as [(arr & [-> | ->] & H)|(arr & -> & H)]; destruct m; cbn [xrun xstep];
    unfold cbasic_parse, cbasic_look, cany_fc, cnone_fc, call_fc; first [rewrite H|rewrite (proj2 (Nat.ltb_lt _ _) H)]; reflexivity. }
  rewrite leaf_evals; [|intros n; now rewrite (Hx n), (Hx 0)|rewrite (Hx 0); discriminate]. rewrite (Hx 0). split; [now intros [= <- <-]|now intros [-> ->]].
Qed.

(** ** The special joins compare exactly what their component compares, in the same order, and give the span from where the
    component began to where it ended ([joins], CompareJoins.v) *)
Theorem C81_special_join q fc len p : cbasic E seq q = Some (fc, len) ->
  (exists c, p = PExactly q (S c)) \/ p = PMaybe q \/ p = POneOrMore q \/ p = PZeroOrMore q ->
  forall m i w o w', xevals m (PJoin p) i w o w' <-> exists o', xevals m p i w o' w' /\ o = joins m i o'.
Proof.
  intros Hq Hp m i w o w'.
  assert (Hx : forall n, exists k, n <= k /\ xrun E sfn sct seq (S (S n)) m (PJoin p) i w = after_join m i (xrun E sfn sct seq k m p i w)).
  { intros n. destruct Hp as [[c ->]|[-> |[-> | ->]]].
    - exists (S (S n)). split; [lia|]. eapply exactly_joins_; eauto.
    - exists (S (S n)). split; [lia|]. eapply maybe_joins; eauto.
    - exists (S (S (S n))). split; [lia|]. eapply one_joins; eauto.
    - exists (S (S n)). split; [lia|]. eapply zero_joins; eauto. }
  split.
  - intros [Ho [n Hn]]. destruct (Hx n) as (k & Hk & H).
    pose proof (n_run E sfn sct seq n (S (S n)) m (PJoin p) i ltac:(lia) w) as Hm. rewrite Hn in Hm. specialize (Hm Ho). rewrite Hm in H.
    destruct (xrun E sfn sct seq k m p i w) as [o' w1] eqn:He. injection H as -> ->. exists o'. split; auto. split; [|eauto].
    intros ->. now apply Ho.
  - intros (o' & [Ho [n Hn]] & ->). destruct (Hx n) as (k & Hk & H).
    pose proof (n_run E sfn sct seq n k m p i Hk w) as Hm. rewrite Hn in Hm. specialize (Hm Ho). rewrite Hm in H. split; [|eauto].
    destruct o' as [[[]] | | | |]; cbn; congruence.
Qed.

(** ** parse and lookahead make the same comparisons
    ([same_ways], CompareModes.v: no filter, no join but the special ones, no custom parser whose result is made from the
    optional itself; functions and constructors neither throw nor change the state) *)
Definition same_verdict (o o' : outcome presult) : Prop :=
  match o, o' with
  | Done r _, Done r' tr => r_ok r' = option_map (fun _ => RVoid) (r_ok r) /\ r_rem r' = r_rem r /\ tr = []
  | Exn e, Exn e' => e' = e
  | _, _ => False
  end.
Theorem C81_same_comparisons p i w : senv_typed E sfn sct -> env_customs E ->
  (forall n args w, match sfn n args w with (FThrow _, _) => False | (_, w') => w' = w end) ->
  (forall t args w, match sct t args w with (FThrow _, _) => False | (_, w') => w' = w end) ->
  (forall q, reach E p q -> same_ways E seq q) ->
  compiles E Parse p = true -> compiles E Look p = true -> sjoin_local E sfn sct p -> valid E i ->
  forall o' w', xevals Look p i w o' w' <-> exists o, xevals Parse p i w o w' /\ same_verdict o o'.
Proof.
  intros HT HC Hf Hc Hw Hp Hl Hj Hv.
  assert (H1 : forall o w', xevals Parse p i w o w' -> exists o', xevals Look p i w o' w' /\ same_verdict o o').
  { intros o w' [Ho [n Hn]]. pose proof (t_run E sfn sct seq Hf Hc p Hw n p (reach_refl E p) Parse i w) as H. rewrite Hn in H.
    pose proof (C81_safe Parse p i w o w' HT HC Hp (fun _ => Hj) Hv (conj Ho (ex_intro _ n Hn))) as Hs.
    destruct o as [r tr| |e| |]; try contradiction.
    - destruct H as (r' & tr' & Hr & Ha). exists (Done r' tr'). assert (Hx : xevals Look p i w (Done r' tr') w') by (split; [discriminate|eauto]).
      split; auto. destruct Ha as (A1 & A2 & _). cbn.
      pose proof (C81_safe Look p i w _ w' HT HC Hl ltac:(discriminate) Hv Hx) as Hv'. cbn in Hv'. unfold has_value in A1.
      split; [destruct (r_ok r), (r_ok r'); try discriminate; auto; cbn; f_equal; apply Hv'|]. split; [auto|]. apply (C81_lookahead p i w _ w' Hx).
    - exists (Exn e). split; [|reflexivity]. split; [discriminate|eauto]. }
  intros o' w'. split.
  - intros HL. destruct HL as [Ho [n Hn]]. pose proof (t_run E sfn sct seq Hf Hc p Hw n p (reach_refl E p) Parse i w) as H.
    destruct (xrun E sfn sct seq n Parse p i w) as [o w1] eqn:Hx.
    assert (Hne : o <> OOF) by (intros ->; rewrite Hn in H; congruence).
    destruct (H1 o w1 (conj Hne (ex_intro _ n Hx))) as (o2 & H2 & H3).
    destruct (xevals_det E sfn sct seq Look p i w o2 o' w1 w' H2 (conj Ho (ex_intro _ n Hn))) as [-> ->].
    exists o. split; auto. split; [auto|eauto].
  - intros (o & Ho & Hs). destruct (H1 o w' Ho) as (o2 & H2 & H3).
    replace o' with o2; auto.
    destruct o as [r tr| |e| |], o' as [r' tr'| |e'| |], o2 as [r2 tr2| |e2| |]; cbn in Hs, H3; try contradiction; try congruence.
    destruct r' as [a1 b1], r2 as [a2 b2], Hs as (S1 & S2 & ->), H3 as (S3 & S4 & ->). cbn in *. congruence.
Qed.
End C81.

(** ** Only what is in the input is read, and [==] only asked about elements of the literals and elements of the input:
    with another content of the memory outside the input, and another [==] for other elements, all goes the same *)
Section Same.
Context {T V W : Type} (E : env T V) (mm : nat -> list V).
Variable sfn : nat -> list val -> W -> fnres * W.
Variable sct : ty -> list val -> W -> fnres * W.
Variables seq seq' : T -> V -> W -> cmpres * W.
Variable p : parser T.
Variable i : span.
Hypothesis Hm : same_input E mm i.
Hypothesis Hs : forall t c w, literal_of E p t -> element_of E i c -> seq' t c w = seq t c w.
Notation E' := (with_mem E mm).

Lemma sbind_same {A B} (x y : @eff W A) (f g : A -> @eff W B) w : x w = y w ->
  (forall a tr w', x w = (Done a tr, w') -> f a w' = g a w') -> sbind x f w = sbind y g w.
Proof. intros H1 H2. unfold sbind. rewrite <- H1. destruct (x w) as [[a tr| | | |] w1]; auto. now rewrite (H2 a tr w1). Qed.
Lemma same_read j k : suffix i j -> k < sp_len j -> read E' (sp_blk j) (sp_off j + k) = read E (sp_blk j) (sp_off j + k).
Proof. intros (d & Hd & ->) Hk. cbn in *. unfold read. cbn. rewrite Hm by lia. reflexivity. Qed.
Lemma same_contains arr c : (forall t, In t arr -> literal_of E p t) -> element_of E i c -> forall w, ccontains seq arr c w = ccontains seq' arr c w.
Proof.
  intros Ha Hc. induction arr as [|t arr IH]; intros w; cbn [ccontains]; auto. apply sbind_same.
  - unfold compare. rewrite Hs; auto. apply Ha. now left.
  - intros [|] tr w' _; auto. apply IH. intros; apply Ha; now right.
Qed.
Lemma same_eq_loop arr j : suffix i j -> (forall t, In t arr -> literal_of E p t) -> forall k, k + List.length arr <= sp_len j ->
  forall w, ceq_loop E seq arr (sp_blk j) (sp_off j + k) w = ceq_loop E' seq' arr (sp_blk j) (sp_off j + k) w.
Proof.
  intros Hj. induction arr as [|t arr IH]; intros Ha k Hk w; cbn [ceq_loop]; auto. cbn in Hk.
  apply sbind_same; [rewrite same_read by (auto; lia); reflexivity|]. intros c tr w' Hc. injection Hc as Hc _.
  assert (He : element_of E i c).
  { apply (reads_within E i j k); auto; [lia|]. unfold read in *. destruct (nth_error _ _); [|discriminate]. now injection Hc as -> _. }
  apply sbind_same; [unfold compare; rewrite Hs; auto; apply Ha; now left|]. intros [|] tr' w'' _; auto.
  rewrite <- Nat.add_succ_r. apply IH; [intros; apply Ha; now right|lia].
Qed.
Lemma same_both n m q j : reach E p q -> suffix i j -> forall w, xrun E sfn sct seq n m q j w = xrun E' sfn sct seq' n m q j w.
Proof.
  intros Hq Hj.
  apply (p_run E mm sfn sct seq seq' (fun A x y (Q : A -> Prop) => (forall w, x w = y w) /\ forall w a tr w', x w = (Done a tr, w') -> Q a) True
    (reach E p) i) with (n := n) (m := m) (p := q) (i := j); auto.
  - intros a b Ha Hb. eapply reach_trans; [exact Ha|]. eapply reach_step; [exact Hb|apply reach_refl].
  - intros A o Q Ho HQ. split; [auto|]. intros w a tr w' [= -> ->]. exact HQ.
  - intros A B x y f g P Q [H1 H2] Hf. split.
    + intros w. apply sbind_same; auto. intros a tr w' Ha. apply Hf. eauto.
    + intros w b tr w'. unfold sbind. destruct (x w) as [[a tr1| | | |] w1] eqn:He; try discriminate.
      destruct (f a w1) as [[b' tr2| | | |] w2] eqn:Hfe; try discriminate. intros [= <- <- <-]. eapply (proj2 (Hf a (H2 _ _ _ _ He))); eauto.
  - intros r fc len fc' len' s Hr Hi Hb Hb'. split; auto. unfold inside in Hi. intros w.
    assert (Hfr : sp_len s <> 0 -> front E s = front E' s).
    { intros H. unfold front. destruct (sp_len s =? 0); auto. pose proof (same_read s 0 Hi) as H0. rewrite Nat.add_0_r in H0. symmetry. apply H0. lia. }
    assert (Hel : forall c w tr w', lift (W := W) (front E s) w = (Done c tr, w') -> element_of E i c).
    { intros c w0 tr w' Hc. injection Hc as Hc _. unfold front in Hc. destruct (Nat.eqb_spec (sp_len s) 0); [discriminate|].
      apply (reads_within E i s 0); auto; [lia|]. rewrite Nat.add_0_r. unfold read in *. destruct (nth_error _ _); [|discriminate]. now injection Hc as -> _. }
    destruct r; try discriminate; cbn in Hb, Hb'; injection Hb as <- <-; injection Hb' as <- <-.
    + unfold cany_fc. destruct (Nat.eqb_spec (sp_len s) 0); auto. apply sbind_same; [now rewrite Hfr|]. intros c tr w' Hc.
      apply sbind_same; auto. apply same_contains; eauto. intros t Ht; exists arr; auto.
    + unfold cnone_fc. destruct (Nat.eqb_spec (sp_len s) 0); auto. apply sbind_same; [now rewrite Hfr|]. intros c tr w' Hc.
      apply same_contains; eauto. intros t Ht; exists arr; auto.
    + unfold call_fc. destruct (Nat.ltb_spec (sp_len s) (List.length arr)); auto. apply sbind_same; auto. intros f tr w' Hf.
      unfold lift, first in Hf. destruct (_ <=? _); [|discriminate]. injection Hf as <- _ _.
      apply sbind_same; auto. unfold cspan_equal. cbn. rewrite Nat.eqb_refl.
      rewrite <- (Nat.add_0_r (sp_off s)). apply same_eq_loop; auto. intros t Ht; exists arr; auto.
Qed.
Theorem C81_only_these m w o w' : xevals E sfn sct seq m p i w o w' <-> xevals E' sfn sct seq' m p i w o w'.
Proof.
  unfold xevals. split; intros [Ho [n Hn]]; (split; [exact Ho|]); exists n.
  - now rewrite <- same_both by (try apply reach_refl; apply suffix_refl).
  - now rewrite same_both by (try apply reach_refl; apply suffix_refl).
Qed.
End Same.

(** ** Examples *)
Ltac xruns n := split; [discriminate|exists n; vm_compute; reflexivity].
(** Counts the comparisons. *)
Definition cnt_eq (t c : nat) (w : nat) : cmpres * nat := (CRet (t =? c), S w).
(** Answers only every second time. *)
Definition alt_eq (t c : nat) (w : nat) : cmpres * nat := (CRet ((t =? c) && Nat.odd w), S w).
(** Throws at the third comparison. *)
Definition thr_eq (t c : nat) (w : nat) : cmpres * nat := if w =? 2 then (CThrow 7, 99) else (CRet (t =? c), S w).

Example cnt_eq_pure : (forall n args w, fst ((fun n args (w : nat) => (fn_app sx n args, w)) n args w) = fn_app sx n args) /\
  (forall t c w, fst (cnt_eq t c w) = CRet (eqv sx t c)).
Proof. split; reflexivity. Qed.
Definition word (s : string) : parser nat := PAllOf (codes s).
(** Two comparisons for the word, two until the a is found, one for the x. *)
Example cnt_run : xevals sx cn_fn cn_ct cnt_eq Parse (PSequence (word "((") [PAnyOf (codes "ba"); PNoneOf (codes "x")]) (Span 1 0 6) 0
  (Done (Res (Some (RVal (VTup [VSpan (Span 1 0 2); VSpan (Span 1 2 1); VSpan (Span 1 3 1)]))) (Span 1 4 2)) []) 5.
Proof. xruns 3. Qed.
Example thr_run : xevals sx cn_fn cn_ct thr_eq Parse (PSequence (word "((") [PAnyOf (codes "ba"); PNoneOf (codes "x")]) (Span 1 0 6) 0 (Exn 7) 99.
Proof. xruns 3. Qed.
Example thr_look : xevals sx cn_fn cn_ct thr_eq Look (PJoin (POneOrMore (PAnyOf (codes "(")))) (Span 1 0 6) 0 (Exn 7) 99.
Proof. xruns 8. Qed.
(** Two comparisons, the second answered with no, in the special join and in its component. *)
Example alt_join : cbasic sx alt_eq an_a = Some (cany_fc sx alt_eq (codes "a"), 1) /\
  xevals sx cn_fn cn_ct alt_eq Parse (POneOrMore an_a) (Span 3 0 4) 1 (Done (Res (Some (RVal (VVec [VSpan (Span 3 0 1)]))) (Span 3 1 3)) []) 3 /\
  xevals sx cn_fn cn_ct alt_eq Parse (PJoin (POneOrMore an_a)) (Span 3 0 4) 1 (Done (Res (Some (RVal (VSpan (Span 3 0 1)))) (Span 3 1 3)) []) 3.
Proof. split; [reflexivity|]. split; xruns 5. Qed.
(** Each a is refused by the first alternative and taken by the second. *)
Example alt_run : xevals sx cn_fn cn_ct alt_eq Parse (PZeroOrMore (PChoice (ev an_a) [PJoin (PExactly an_a 1)])) (Span 3 0 4) 0
  (Done (Res (Some (RVal (VVec (map (fun k => VSpan (Span 3 k 1)) [0; 1; 2; 3])))) (Span 3 4 0)) []) 8.
Proof. xruns 12. Qed.
(** [C81_safe] and [C81_ends] speak about these runs: [cn_typed], [cn_safe_hyps], [cn_ends_hyps] of PropStateful.v. *)
Example alt_safe : senv_typed sx cn_fn cn_ct /\ env_customs sx /\ valid sx (Span 3 0 4) /\
  compiles sx Parse (PZeroOrMore (PChoice (ev an_a) [PJoin (PExactly an_a 1)])) = true.
Proof. split; [exact cn_typed|]. split; [exact sx_customs|]. split; [unfold valid; cbn; lia|reflexivity]. Qed.
(** What the words of [cnt_run] are compared with. *)
Example cnt_literals : literal_of sx (PSequence (word "((") [PAnyOf (codes "ba"); PNoneOf (codes "x")]) 120 /\ element_of sx (Span 1 0 6) 98.
Proof.
  split; [|exists 4; split; [cbn; lia|reflexivity]]. exists (codes "x"). split; [now left|]. right; left.
  eapply reach_step; [right; right; left; reflexivity|apply reach_refl].
Qed.
Example cnt_orders : none_equal cnt_eq 97 [98] 2 3 /\ all_equal cnt_eq (codes "((") (elements sx (Span 1 0 6) 2) 0 2.
Proof. split; [econstructor; [reflexivity|constructor]|]. repeat (econstructor; [reflexivity|]). constructor. Qed.
(** Another text behind the input and another answer about letters that do not occur. *)
Definition mm1 (b : nat) : list nat := match b with 1 => codes "((a)b)zzzz" | _ => [] end.
Definition oth_eq (t c : nat) (w : nat) : cmpres * nat := if c =? 122 then (CThrow 1, 0) else cnt_eq t c w.
Example mm1_same : same_input sx mm1 (Span 1 0 6) /\
  (forall t c w, literal_of sx (word "((") t -> element_of sx (Span 1 0 6) c -> oth_eq t c w = cnt_eq t c w).
Proof.
  split.
  - intros k Hk. cbn in Hk. do 6 (destruct k as [|k]; [reflexivity|]). lia.
  - intros t c w _ (k & Hk & Hn). cbn in Hk. unfold oth_eq. destruct (Nat.eqb_spec c 122) as [-> |]; auto.
    do 6 (destruct k as [|k]; [discriminate|]). lia.
Qed.

(** Functions that neither throw nor change the state: [C81_same_comparisons] *)
Definition q_fn (n : nat) (args : list val) (w : nat) : fnres * nat :=
  (match n, args with 3, [VSpan _] => FRet (RVal (sx_bool true)) | _, _ => sx_fn_app n args end, w).
Definition q_ct (t : ty) (args : list val) (w : nat) : fnres * nat := (FRet (RVal (VUser 2 args)), w).
Lemma q_typed : senv_typed sx q_fn q_ct.
Proof.
  destruct cn_typed as [H1 H2 H3 H4 H5 H6]. constructor; auto.
  - intros n args tys t w Hr HF. specialize (H1 n args tys t w Hr HF). unfold cn_fn in H1. unfold q_fn. cbn in Hr. unfold sx_fn_ret in Hr.
    repeat match type of Hr with context [match ?x with _ => _ end] => destruct x; try discriminate end;
      injection Hr as <-;
      repeat match goal with H : Forall2 _ (_ :: _) _ |- _ => inversion H; subst; clear H
                           | H : Forall2 _ [] _ |- _ => inversion H; subst; clear H end;
      repeat match goal with H : has_ty TSpan ?v |- _ => destruct v; try contradiction; clear H end; cbn in *; auto.
Qed.
Definition mixed : parser nat := PSequence (PMap (PJoin (POneOrMore (PAnyOf (codes "(")))) (FUser 5)) [PDelimit (PAnyOf (codes "ba")) (PNoneOf (codes "x")); PIgnore PAnything].
Example q_hyps : (forall n args w, match q_fn n args w with (FThrow _, _) => False | (_, w') => w' = w end) /\
  (forall q, reach sx mixed q -> same_ways sx thr_eq q) /\ compiles sx Parse mixed = true /\ compiles sx Look mixed = true /\
  sjoin_local sx q_fn q_ct mixed.
Proof.
  split; [|split; [|split; [reflexivity|split; [reflexivity|]]]].
  - intros n args w. unfold q_fn, sx_fn_app. do 7 (destruct n as [|n]; [destruct args as [|[] [|[] [|]]]; reflexivity|]). destruct n; reflexivity.
  - intros q Hq. repeat (inversion Hq as [|? ? ? Hin Hr]; subst; [cbn; first [exact Logic.I|discriminate]|]; clear Hq; rename Hr into Hq; cbn in Hin;
      repeat destruct Hin as [<- |Hin]; try contradiction).
  - intros q Hq. assert (q = POneOrMore (PAnyOf (codes "("))) as ->.
    { repeat (inversion Hq as [|? ? ? Hin Hr]; subst; try reflexivity; clear Hq; rename Hr into Hq; cbn in Hin;
        repeat destruct Hin as [<- |Hin]; try contradiction). }
    clear Hq. intros q Hq. repeat (inversion Hq as [|? ? ? Hin Hr]; subst; [exact Logic.I|]; clear Hq; rename Hr into Hq; cbn in Hin;
      repeat destruct Hin as [<- |Hin]; try contradiction).
Qed.
(** From state 3 on [thr_eq] does not throw: eight comparisons in both; from state 0 both end with the same exception. *)
Example q_parse : xevals sx q_fn q_ct thr_eq Parse mixed (Span 1 0 6) 3
  (Done (Res (Some (RVal (VTup [VSpan (Span 1 0 2); VPair (VVec [VSpan (Span 1 2 1); VSpan (Span 1 4 1)]) (VVec [VSpan (Span 1 3 1)])]))) (Span 1 6 0))
     [EInvoke (FUser 5) [VSpan (Span 1 0 2)]]) 11.
Proof. xruns 6. Qed.
Example q_look : xevals sx q_fn q_ct thr_eq Look mixed (Span 1 0 6) 3 (Done (Res (Some RVoid) (Span 1 6 0)) []) 11.
Proof. xruns 6. Qed.
Example q_throw : xevals sx q_fn q_ct thr_eq Parse mixed (Span 1 0 6) 0 (Exn 7) 99 /\ xevals sx q_fn q_ct thr_eq Look mixed (Span 1 0 6) 0 (Exn 7) 99.
Proof. split; xruns 6. Qed.
(** ** Not so: that lookahead leaves the state as it was and cannot throw *)
Theorem C81_lookahead_pure_refuted :
  (exists p i w r w', xevals sx cn_fn cn_ct cnt_eq Look p i w (Done r []) w' /\ w' <> w) /\
  (exists p i w e w', xevals sx cn_fn cn_ct thr_eq Look p i w (Exn e) w').
Proof.
  split.
  - exists an_a, (Span 3 0 4), 0, (Res (Some RVoid) (Span 3 1 3)), 1. split; [xruns 1|discriminate].
  - exists (PJoin (POneOrMore (PAnyOf (codes "(")))), (Span 1 0 6), 0, 7, 99. xruns 8.
Qed.
(** ** Not so: that parse accepts what lookahead accepted just before *)
Theorem C81_lookahead_then_parse_refuted : exists p i w r1 w1 r2 w2,
  xevals sx cn_fn cn_ct alt_eq Look p i w (Done r1 []) w1 /\ xevals sx cn_fn cn_ct alt_eq Parse p i w1 (Done r2 []) w2 /\
  has_value r1 = true /\ has_value r2 = false.
Proof. exists an_a, (Span 3 0 4), 1. do 4 eexists. split; [xruns 1|]. split; [xruns 1|]. split; reflexivity. Qed.
(** ** Not so: that a refused parse leaves the state, and that an alternative repeated is as if written once *)
Theorem C81_no_rollback_refuted : exists p i w w' w'' r,
  xevals sx cn_fn cn_ct alt_eq Parse p i w (Done (failure i) []) w' /\ w' <> w /\
  xevals sx cn_fn cn_ct alt_eq Parse (PChoice p [p]) i w (Done r []) w'' /\ has_value r = true.
Proof. exists an_a, (Span 3 0 4), 0. do 3 eexists. split; [xruns 1|]. split; [discriminate|]. split; [xruns 2|]. reflexivity. Qed.

Print Assumptions C81_answers_without_reading.
Print Assumptions C81_deterministic.
Print Assumptions C81_safe.
Print Assumptions C81_ends.
Print Assumptions C81_state.
Print Assumptions C81_exception.
Print Assumptions C81_lookahead.
Print Assumptions C81_any_of.
Print Assumptions C81_none_of.
Print Assumptions C81_all_of.
Print Assumptions C81_too_short.
Print Assumptions C81_special_join.
Print Assumptions C81_same_comparisons.
Print Assumptions C81_only_these.
Print Assumptions C81_lookahead_pure_refuted.
Print Assumptions C81_lookahead_then_parse_refuted.
Print Assumptions C81_no_rollback_refuted.
