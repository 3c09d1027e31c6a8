(** * Property C82: where exceptions and undefined behaviour come from, exactly *)
From Coq Require Import String List Arith ZArith Bool Lia.
From Verif Require Import Types Compound Parser Outcome CompoundFacts Exec Mono Derive Typing Join Leaves Sound
  BigStep BigSound BigComplete Runs Elems Samples PropCore PropCombos Extend Raises.
Import ListNotations.

(** The specification: parsing [i] with [p] comes to user code that throws [e] - the function
    of a map or a filter called on what the component gave, a constructor called on the
    result of the body of a custom parser - or the same happens in a component that the run
    asks for ([asks], Extend.v: the alternatives after those that failed, the parts after
    those that succeeded, further rounds of the repetitions, and so on). *)
Inductive raises {T V} (E : env T V) : parser T -> span -> nat -> Prop :=
| raises_map q f i v rem tr e :
    gives E Parse q i v rem tr -> applied E f (arguments v) (FThrow e) -> raises E (PMap q f) i e
| raises_filter q f i v rem tr e :
    gives E Parse q i v rem tr -> applied E f (arguments v) (FThrow e) -> raises E (PFilter q f) i e
| raises_elem c t i x rem tr e :
    cust_conv E c = ConvElem t -> gives E Parse (cust_body E c) i (RVal x) rem tr -> ct_app E t [x] = FThrow e ->
    raises E (PCustom c) i e
| raises_whole c t i x rem tr e :
    cust_conv E c = ConvWhole t -> gives E Parse (cust_body E c) i (RVal x) rem tr -> ct_app E t [VOpt (Some x)] = FThrow e ->
    raises E (PCustom c) i e
| raises_whole_failed c t i tr e :
    cust_conv E c = ConvWhole t -> refuses E Parse (cust_body E c) i tr -> ct_app E t [VOpt None] = FThrow e ->
    raises E (PCustom c) i e
| raises_inside p i q j e : asks E Parse p i Parse q j -> raises E q j e -> raises E p i e.

(** ... comes to a join whose component gave non-empty spans side by side in one array and
    then one in another array ([scattered], Raises.v). *)
Inductive overruns {T V} (E : env T V) : parser T -> span -> Prop :=
| overruns_join q i x rem tr : gives E Parse q i (RVal x) rem tr -> scattered (leaves x) -> overruns E (PJoin q) i
| overruns_inside p i q j : asks E Parse p i Parse q j -> overruns E q j -> overruns E p i.

Section C82.
Context {T V : Type} (E : env T V).

Lemma raises_halts p i e : raises E p i e <-> halts E p i (Threw e).
Proof.
  split.
  - induction 1.
    + eapply halt_map; eauto. apply applied_invoke in H0; [exact H0|discriminate].
    + eapply halt_filter; eauto. apply applied_invoke in H0; [exact H0|discriminate].
    + eapply halt_elem; eauto.
    + eapply halt_whole; eauto.
    + eapply halt_whole_no; eauto.
    + eapply halt_inside; eauto.
  - remember (Threw e) as h eqn:Hh. intros H. revert e Hh. induction H; intros e' Hh; try discriminate; try (injection Hh as ->).
    + eapply raises_map; eauto. apply applied_invoke; [discriminate|assumption].
    + eapply raises_filter; eauto. apply applied_invoke; [discriminate|assumption].
    + eapply raises_elem; eauto.
    + eapply raises_whole; eauto.
    + eapply raises_whole_failed; eauto.
    + eapply raises_inside; eauto.
Qed.
Lemma overruns_halts p i : overruns E p i <-> halts E p i Undefined.
Proof.
  split.
  - induction 1; [eapply halt_join; eauto|eapply halt_inside; eauto].
  - remember Undefined as h eqn:Hh. intros H. induction H; try discriminate; [eapply overruns_join; eauto|eapply overruns_inside; eauto].
Qed.

(** A program lets an exception out of parse exactly if it comes to user code that throws it. *)
Theorem C82_exception p i e : program E -> compiles E Parse p = true -> valid E i ->
  (evals E Parse p i (Exn e) <-> raises E p i e).
Proof. intros [Ht Hc] Hp Hv. rewrite raises_halts. exact (halts_evals E p i (Threw e) Ht Hc Hv Hp). Qed.

(** Parsing is undefined exactly if it comes to a join of spans of different arrays. *)
Theorem C82_undefined p i : program E -> compiles E Parse p = true -> valid E i ->
  (evals E Parse p i UB <-> overruns E p i).
Proof. intros [Ht Hc] Hp Hv. rewrite overruns_halts. exact (halts_evals E p i Undefined Ht Hc Hv Hp). Qed.

(** Every run of a program succeeds, fails, or - parse only - ends in one of these two ways,
    and these exclude one another. *)
Theorem C82_outcomes m p i o : program E -> compiles E m p = true -> valid E i -> evals E m p i o ->
  (exists v rem tr, o = Done (Res (Some v) rem) tr) \/
  (exists tr, o = Done (Res None i) tr) \/
  (exists e, m = Parse /\ o = Exn e /\ raises E p i e) \/
  (m = Parse /\ o = UB /\ overruns E p i).
Proof.
  intros HP Hp Hv He. destruct o as [[[v|] rem] tr| |e| |].
  - left. eauto.
  - right. left. exists tr. assert (H : rem = i) by exact (evals_sound E m p i _ tr Hv He). now subst.
  - right. right. right. destruct m.
    + split; auto. split; auto. now apply C82_undefined.
    + exfalso. destruct He as [_ [n Hn]]. exact (look_not E Undefined n p i Hv Hn).
  - right. right. left. exists e. destruct m.
    + split; auto. split; auto. now apply C82_exception.
    + exfalso. destruct He as [_ [n Hn]]. exact (look_not E (Threw e) n p i Hv Hn).
  - now destruct He as [He _].
  - exfalso. destruct HP as [Ht Hc]. destruct He as [_ [n Hn]]. exact (run_compiled E n m p i Hv Hp Ht Hc Hn).
Qed.

(** At most one exception, not both, and no result beside them. *)
Theorem C82_one_way p i : program E -> compiles E Parse p = true -> valid E i ->
  (forall e e', raises E p i e -> raises E p i e' -> e = e') /\
  (forall e, raises E p i e -> ~ overruns E p i) /\
  (forall r tr, evals E Parse p i (Done r tr) -> ~ overruns E p i /\ forall e, ~ raises E p i e) /\
  (diverges E Parse p i -> ~ overruns E p i /\ forall e, ~ raises E p i e).
Proof.
  intros HP Hp Hv. pose proof (C82_exception p i) as HX. pose proof (C82_undefined p i HP Hp Hv) as HU.
  split; [|split; [|split]].
  - intros e e' H H'. apply HX in H; auto. apply HX in H'; auto. pose proof (evals_det E _ _ _ _ _ H H'). congruence.
  - intros e H H'. apply HX in H; auto. apply HU in H'; auto. pose proof (evals_det E _ _ _ _ _ H H'). congruence.
  - intros r tr H. split; [intros H'; apply HU in H'|intros e H'; apply HX in H'; auto]; pose proof (evals_det E _ _ _ _ _ H H'); congruence.
  - intros H. split; [intros [_ [n Hn]]%HU|intros e H'; apply HX in H' as [_ [n Hn]]; auto]; rewrite (H n) in Hn; congruence.
Qed.
End C82.

(** Case: the text [((a)b)+...]: a repetition parses the list and then meets a filter that
    throws, in the second alternative of the second round; in front of it a filter with the
    same function in an alternative that is not reached. *)
Example C82_case : let q := PChoice (PSequence (PAllOf (codes ",")) [PFilter sx_letter (FUser 3)])
    [PMap (PCustom 0) (FConstruct (TUser 2)); PFilter (PAllOf (codes "+")) (FUser 3)] in
  program sx /\ compiles sx Parse (PZeroOrMore q) = true /\ valid sx in1 /\
  evals sx Parse (PZeroOrMore q) in1 (Exn 42) /\
  asks sx Parse (PZeroOrMore q) in1 Parse q (at1 6) /\
  asks sx Parse q (at1 6) Parse (PFilter (PAllOf (codes "+")) (FUser 3)) (at1 6) /\
  raises sx (PFilter (PAllOf (codes "+")) (FUser 3)) (at1 6) 42 /\
  (* nothing of this happens while the text is only looked at *)
  exists v rem, evals sx Look (PZeroOrMore q) in1 (Done (Res (Some v) rem) []).
Proof.
  cbv zeta. split; [exact (conj sx_typed sx_customs)|]. split; [reflexivity|]. split; [apply in1_valid|].
  split; [runs 20|]. split.
  { apply (ask_zero_or_more sx Parse _ 1). cbn [repeat]. eapply after_next; [runs 20|]. apply after_none. }
  split.
  { eapply ask_choice with (pre := [(Parse, _); (Parse, _)]) (post := []); [reflexivity|reflexivity|].
    repeat constructor; eexists; runs 20. }
  split.
  { eapply raises_filter; [runs 20|]. constructor. }
  eexists _, _. runs 20.
Qed.

(** Case: a join of a part of the input and a span of other storage (C58). *)
Example C82_case_undefined : let p := PJoin (PSequence (PAllOf (codes "(")) [PMap (PAllOf (codes "(")) (FUser 6)]) in
  program sx /\ compiles sx Parse p = true /\ evals sx Parse p in1 UB /\ overruns sx p in1.
Proof.
  cbv zeta. split; [exact (conj sx_typed sx_customs)|]. split; [reflexivity|]. split; [runs 20|].
  apply C82_undefined; [exact (conj sx_typed sx_customs)|reflexivity|apply in1_valid|runs 20].
Qed.

Print Assumptions C82_exception.
Print Assumptions C82_undefined.
Print Assumptions C82_outcomes.
Print Assumptions C82_one_way.
Print Assumptions C82_case.
Print Assumptions C82_case_undefined.
