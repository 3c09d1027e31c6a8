(** * Properties C24, C25, C26, C44: the operators *)
From Coq Require Import String List Arith ZArith Bool Lia.
From Verif Require Import Types Compound Parser Outcome CompoundFacts ChoiceIndex Exec Mono Derive Typing Join Leaves Sound
  BigStep BigSound BigComplete Peg Elems Runs Samples PropCore PropBasic PropChoice Lossless PropAgree StaticArray Operators PropSets Verdict.
Import ListNotations.

(** ** C24 *)
Section Repeat.
Context {T V : Type} (E : env T V).
Hypothesis HP : program E.

Lemma maybe_inner m q : compiles E m (PMaybe q) = true -> compiles E m q = true.
Proof. cbn [compiles]. intros H. now apply andb_true_iff in H as [H _]. Qed.
Lemma oom_inner m q : compiles E m (POneOrMore q) = true -> compiles E m q = true.
Proof. cbn [compiles]. intros H. now apply andb_true_iff in H as [H _]. Qed.
Lemma zom_inner m q : compiles E m (PZeroOrMore q) = true -> compiles E m q = true.
Proof. cbn [compiles]. intros H. now apply andb_true_iff in H as [H _]. Qed.
Lemma rep_same m q : compiles E m (PMaybe q) = compiles E m (PZeroOrMore q) /\ compiles E m (POneOrMore q) = compiles E m (PZeroOrMore q).
Proof. split; reflexivity. Qed.

(** A repetition of something that always succeeds never returns. *)
Lemma loops_no_stop m q i rem : valid E i -> loops E m q i rem -> (forall j, valid E j -> ~ says E m q j None) -> False.
Proof. intros Hv H Hn. apply (Hn rem); [eapply loops_valid; eauto|eapply loops_stop; eauto]. Qed.

Lemma maybe_no_fail m q i : valid E i -> compiles E m (PMaybe q) = true -> ~ says E m (PMaybe q) i None.
Proof. intros Hv Hc H. apply says_maybe in H as (o' & _ & H); auto. discriminate. Qed.
Lemma zom_no_fail m q i : valid E i -> compiles E m (PZeroOrMore q) = true -> ~ says E m (PZeroOrMore q) i None.
Proof. intros Hv Hc H. apply says_zero_or_more in H as (o' & H & _); auto. discriminate. Qed.

(** The unsimplified forms +~p, +*p, *~p, **p never return. *)
Theorem C24_nested_repetition_never_returns m q r i o : valid E i ->
  q = PMaybe r \/ q = PZeroOrMore r ->
  (compiles E m (POneOrMore q) = true -> ~ says E m (POneOrMore q) i o) /\
  (compiles E m (PZeroOrMore q) = true -> ~ says E m (PZeroOrMore q) i o).
Proof.
  intros Hv Hq.
  assert (Hn : compiles E m q = true -> forall j, valid E j -> ~ says E m q j None).
  { intros Hc j Hj. destruct Hq as [-> | ->]; [now apply maybe_no_fail|now apply zom_no_fail]. }
  split; intros Hc H.
  - apply says_one_or_more in H as [[H _]|(mid & rem & Hs & Hl & _)]; auto.
    + apply (Hn (oom_inner _ _ Hc) i Hv H).
    + assert (valid E mid) by eauto using says_valid. eapply (loops_no_stop m q mid); eauto using oom_inner.
  - apply says_zero_or_more in H as (rem & _ & Hl); auto. eapply (loops_no_stop m q i); eauto using zom_inner.
Qed.

(** +(+r) and *(+r) run like one repetition: after [+r] there is no further [r]. *)
Lemma loops_oom m r i rem : valid E i -> compiles E m (POneOrMore r) = true ->
  loops E m (POneOrMore r) i rem <-> loops E m r i rem.
Proof.
  intros Hv Hc.
  assert (Hstop : forall j, valid E j -> says E m r j None <-> says E m (POneOrMore r) j None).
  { intros j Hj. rewrite (says_one_or_more E HP m r j None Hj Hc). split; [auto|].
    intros [[H _]|(? & ? & _ & _ & ?)]; [auto|discriminate]. }
  split.
  - intros H. inversion H as [j Hj|j mid rem' Hj Hl]; subst.
    + apply loops_end. now apply Hstop.
    + assert (Hm : valid E mid) by eauto using says_valid.
      apply says_one_or_more in Hj as [[_ ?]|(mid' & rem'' & Hs & Hl' & [= <-])]; [discriminate| |auto|auto|auto].
      assert (Hstopped : says E m (POneOrMore r) mid None) by (apply Hstop; [auto|eapply loops_stop; eauto]).
      inversion Hl as [k Hk|k mid2 rem2 Hk Hl2]; subst.
      * eapply loops_next; eauto.
      * pose proof (says_det E _ _ _ _ _ Hstopped Hk). discriminate.
  - intros H. inversion H as [j Hj|j mid rem' Hj Hl]; subst.
    + apply loops_end. now apply Hstop.
    + apply (loops_next E m _ i rem rem).
      * apply says_one_or_more; auto. right. exists mid, rem. auto.
      * apply loops_end. apply Hstop; [eapply loops_valid; eauto|]. eapply loops_stop; eauto.
Qed.

Theorem C24_maybe m q i o : valid E i -> compiles E m (PMaybe q) = true ->
  says E m (PMaybe q) i o <-> says E m (maybe_operator q) i o.
Proof.
  intros Hv Hc. destruct q; try reflexivity; cbn [maybe_operator]; pose proof (maybe_inner _ _ Hc) as Hc'.
  - rewrite says_maybe by auto. split.
    + intros ([rem|] & H & ->); auto. apply maybe_no_fail in H; [contradiction|auto|auto].
    + intros H. exists o. split; auto. destruct o; auto. apply maybe_no_fail in H; [contradiction|auto|auto].
  - rewrite says_maybe by auto. assert (Hz : compiles E m (PZeroOrMore q) = true) by exact Hc'.
    rewrite says_zero_or_more by auto. setoid_rewrite says_one_or_more; auto. split.
    + intros (o' & [[H ->]|(mid & rem & H & Hl & ->)] & ->); eexists; (split; [reflexivity|]); [now constructor|eapply loops_next; eauto].
    + intros (rem & -> & Hl). inversion Hl as [j Hj|j mid rem' Hj Hl']; subst; [exists None|exists (Some rem)]; split; auto.
      right. eauto.
  - rewrite says_maybe by auto. split.
    + intros ([rem|] & H & ->); auto. apply zom_no_fail in H; [contradiction|auto|auto].
    + intros H. exists o. split; auto. destruct o; auto. apply zom_no_fail in H; [contradiction|auto|auto].
Qed.

Theorem C24_one_or_more m q i o : valid E i -> compiles E m (POneOrMore q) = true ->
  (says E m (POneOrMore q) i o -> says E m (one_or_more_operator q) i o) /\
  ((forall r, q <> PMaybe r) -> (forall r, q <> PZeroOrMore r) ->
   says E m (one_or_more_operator q) i o -> says E m (POneOrMore q) i o).
Proof.
  intros Hv Hc. destruct q; try (split; auto; fail); cbn [one_or_more_operator]; pose proof (oom_inner _ _ Hc) as Hc'.
  - split; [|intros H; now destruct (H q)]. intros H. edestruct (C24_nested_repetition_never_returns m (PMaybe q)) as [Hn _]; eauto.
    destruct (Hn Hc H).
  - rewrite (says_one_or_more E HP m (POneOrMore q)) by auto. split.
    + intros [[H ->]|(mid & rem & H & Hl & ->)]; auto.
      assert (Hm : valid E mid) by eauto using says_valid. apply (loops_oom m q mid rem Hm Hc') in Hl.
      pose proof H as H'. apply says_one_or_more in H' as [[_ ?]|(mid' & rem' & Hs & Hl' & [= <-])]; auto; [discriminate|].
      assert (rem = mid); [|subst; auto]. apply loops_stop in Hl'. eapply (loops_det E m q mid); [exact Hl|now constructor].
    + intros _ _ H. destruct o as [rem|]; [right|left; auto]. exists rem, rem. split; auto. split; auto.
      assert (Hm : valid E rem) by eauto using says_valid. apply loops_oom; auto.
      apply says_one_or_more in H as [[_ ?]|(mid' & rem' & Hs & Hl' & [= <-])]; auto; [discriminate|].
      apply loops_end. eapply loops_stop; eauto.
  - split; [|intros _ H; now destruct (H q)]. intros H. edestruct (C24_nested_repetition_never_returns m (PZeroOrMore q)) as [Hn _]; eauto.
    destruct (Hn Hc H).
Qed.

Theorem C24_zero_or_more m q i o : valid E i -> compiles E m (PZeroOrMore q) = true ->
  (says E m (PZeroOrMore q) i o -> says E m (zero_or_more_operator q) i o) /\
  ((forall r, q <> PMaybe r) -> (forall r, q <> PZeroOrMore r) ->
   says E m (zero_or_more_operator q) i o -> says E m (PZeroOrMore q) i o).
Proof.
  intros Hv Hc. destruct q; try (split; auto; fail); cbn [zero_or_more_operator]; pose proof (zom_inner _ _ Hc) as Hc'.
  - split; [|intros H; now destruct (H q)]. intros H. edestruct (C24_nested_repetition_never_returns m (PMaybe q)) as [_ Hn]; eauto.
    destruct (Hn Hc H).
  - assert (Hz : compiles E m (PZeroOrMore q) = true) by exact Hc'.
    rewrite (says_zero_or_more E HP m (POneOrMore q)), (says_zero_or_more E HP m q) by auto.
    setoid_rewrite (fun rem => loops_oom m q i rem Hv Hc'). auto.
  - split; [|intros _ H; now destruct (H q)]. intros H. edestruct (C24_nested_repetition_never_returns m (PZeroOrMore q)) as [_ Hn]; eauto.
    destruct (Hn Hc H).
Qed.
End Repeat.

(** +(+a), *(+a), ~(+a) on "aaaa" *)
Example C24_case : let a := PAnyOf (codes "a") in let i := Span 3 0 4 in
  says sx Parse (POneOrMore (POneOrMore a)) i (Some (Span 3 4 0)) /\
  says sx Parse (one_or_more_operator (POneOrMore a)) i (Some (Span 3 4 0)) /\
  says sx Parse (PMaybe (POneOrMore a)) i (Some (Span 3 4 0)) /\
  says sx Look (PZeroOrMore (POneOrMore a)) (Span 3 4 0) (Some (Span 3 4 0)).
Proof. repeat split; eexists _, _; (split; [runs 20|reflexivity]). Qed.

(** *** The same language

    +~p, +*p, *~p and **p never return when they are not rewritten, so nothing above speaks
    about what they are rewritten to.  Read as grammars (Derive.v), all the operators give a
    parser for the language of the unsimplified one. *)
Definition language {T V} (E : env T V) (b : nat) (p : parser T) (lo hi : nat) : Prop := exists v, derives E b Look p lo hi v.

Section Language.
Context {T V : Type} (E : env T V) (b : nat).

Definition reps (n : nat) (r : parser T) (lo hi : nat) : Prop := exists vs, dchain E b (repeat (Look, r) n) lo hi vs.

Lemma language_maybe r lo hi : language E b (PMaybe r) lo hi <-> lo = hi \/ language E b r lo hi.
Proof.
  split.
  - intros [v H]. inversion H; subst; unfold language; eauto.
  - intros [<-|[v H]]; eexists; [apply D_maybe_look_none|eapply D_maybe_look_some; eauto].
Qed.
Lemma language_oom r lo hi : language E b (POneOrMore r) lo hi <-> exists n, n <> 0 /\ reps n r lo hi.
Proof.
  split.
  - intros [v H]. inversion H; subst. unfold reps. eauto.
  - intros (n & Hn & vs & H). eexists. eapply D_oom_look; eauto.
Qed.
Lemma language_zom r lo hi : language E b (PZeroOrMore r) lo hi <-> exists n, reps n r lo hi.
Proof.
  split.
  - intros [v H]. inversion H; subst. unfold reps. eauto.
  - intros (n & vs & H). eexists. eapply D_zom_look; eauto.
Qed.

Lemma reps_0 r lo hi : reps 0 r lo hi <-> lo = hi.
Proof. split; [intros [vs H]; now inversion H|intros <-; exists []; constructor]. Qed.
Lemma reps_S n r lo hi : reps (S n) r lo hi <-> exists mid, language E b r lo mid /\ reps n r mid hi.
Proof.
  split.
  - intros [vs H]. inversion H; subst. unfold language, reps. eauto.
  - intros (mid & [v Hv] & vs & H). exists (v :: vs). cbn. econstructor; eauto.
Qed.
Lemma reps_app n k r lo mid hi : reps n r lo mid -> reps k r mid hi -> reps (n + k) r lo hi.
Proof.
  intros [vs H] [ws H']. exists (vs ++ ws). rewrite repeat_app. eapply dchain_app; eauto.
Qed.

Lemma reps_nested q r least : (forall lo hi, language E b q lo hi -> exists k, least <= k /\ reps k r lo hi) ->
  forall n lo hi, reps n q lo hi -> exists k, n * least <= k /\ reps k r lo hi.
Proof.
  intros Hq. induction n as [|n IH]; intros lo hi H.
  - exists 0. split; [lia|]. now apply reps_0 in H as ->; apply reps_0.
  - apply reps_S in H as (mid & H1 & H2). destruct (Hq _ _ H1) as (k1 & L1 & R1). destruct (IH _ _ H2) as (k2 & L2 & R2).
    exists (k1 + k2). split; [lia|]. eapply reps_app; eauto.
Qed.

Lemma language_reps_maybe r lo hi : language E b (PMaybe r) lo hi -> exists k, 0 <= k /\ reps k r lo hi.
Proof.
  rewrite language_maybe. intros [<-|H]; [exists 0; split; auto; now apply reps_0|].
  exists 1. split; [lia|]. apply reps_S. exists hi. split; auto. now apply reps_0.
Qed.
Lemma language_reps_oom r lo hi : language E b (POneOrMore r) lo hi -> exists k, 1 <= k /\ reps k r lo hi.
Proof. rewrite language_oom. intros (n & Hn & H). exists n. split; [lia|auto]. Qed.
Lemma language_reps_zom r lo hi : language E b (PZeroOrMore r) lo hi -> exists k, 0 <= k /\ reps k r lo hi.
Proof. rewrite language_zom. intros (n & H). exists n. split; [lia|auto]. Qed.

Lemma reps_1 q lo hi : language E b q lo hi -> reps 1 q lo hi.
Proof. intros H. apply reps_S. exists hi. split; auto. now apply reps_0. Qed.
Lemma reps_wrap q r lo hi n : (forall lo hi, language E b r lo hi -> language E b q lo hi) -> reps n r lo hi -> reps n q lo hi.
Proof.
  intros Hq. revert lo. induction n as [|n IH]; intros lo H.
  - apply reps_0 in H. now apply reps_0.
  - apply reps_S in H as (mid & H1 & H2). apply reps_S. eauto.
Qed.

Theorem C24_maybe_language q lo hi : language E b (PMaybe q) lo hi <-> language E b (maybe_operator q) lo hi.
Proof.
  destruct q; try reflexivity; cbn [maybe_operator]; rewrite language_maybe.
  - split; [|auto]. intros [<-|H]; auto. apply language_maybe. auto.
  - rewrite language_oom, language_zom. split.
    + intros [<-|(n & _ & H)]; eauto. exists 0. now apply reps_0.
    + intros ([|n] & H); [left; now apply reps_0 in H|right; exists (S n); split; [discriminate|auto]].
  - split; [|auto]. intros [<-|H]; auto. apply language_zom. exists 0. now apply reps_0.
Qed.

Theorem C24_one_or_more_language q lo hi : language E b (POneOrMore q) lo hi <-> language E b (one_or_more_operator q) lo hi.
Proof.
  destruct q; try reflexivity; cbn [one_or_more_operator].
  - rewrite language_oom, language_zom. split.
    + intros (n & _ & H). apply (reps_nested (PMaybe q) q 0) in H as (k & _ & H); eauto. apply language_reps_maybe.
    + intros ([|n] & H).
      * apply reps_0 in H as <-. exists 1. split; [discriminate|]. apply reps_1, language_maybe. auto.
      * exists (S n). split; [discriminate|]. revert H. apply reps_wrap. intros. apply language_maybe. auto.
  - split; [|intros H; apply language_oom; exists 1; split; [discriminate|now apply reps_1]].
    rewrite !language_oom. intros (n & Hn & H). apply (reps_nested (POneOrMore q) q 1) in H as (k & L & H); eauto using language_reps_oom.
    exists k. split; [lia|auto].
  - split; [|intros H; apply language_oom; exists 1; split; [discriminate|now apply reps_1]].
    rewrite language_oom, language_zom. intros (n & Hn & H). apply (reps_nested (PZeroOrMore q) q 0) in H as (k & L & H); eauto using language_reps_zom.
Qed.

Theorem C24_zero_or_more_language q lo hi : language E b (PZeroOrMore q) lo hi <-> language E b (zero_or_more_operator q) lo hi.
Proof.
  destruct q; try reflexivity; cbn [zero_or_more_operator].
  - rewrite !language_zom. split.
    + intros (n & H). apply (reps_nested (PMaybe q) q 0) in H as (k & _ & H); eauto. apply language_reps_maybe.
    + intros (n & H). exists n. revert H. apply reps_wrap. intros. apply language_maybe. auto.
  - rewrite !language_zom. split.
    + intros (n & H). apply (reps_nested (POneOrMore q) q 1) in H as (k & L & H); eauto using language_reps_oom.
    + intros (n & H). exists n. revert H. apply reps_wrap. intros. apply language_oom. exists 1. split; [discriminate|now apply reps_1].
  - rewrite !language_zom. split.
    + intros (n & H). apply (reps_nested (PZeroOrMore q) q 0) in H as (k & _ & H); eauto using language_reps_zom.
    + intros (n & H). exists n. revert H. apply reps_wrap. intros. apply language_zom. exists 1. now apply reps_1.
Qed.
End Language.

(** +(~a) and its rewriting on "aaaa" *)
Example C24_language_case : let a := PAnyOf (codes "a") in
  language sx 3 (POneOrMore (PMaybe a)) 0 4 /\ language sx 3 (one_or_more_operator (PMaybe a)) 0 4 /\ ~ language sx 3 (POneOrMore a) 0 0.
Proof.
  intros a.
  assert (Ha : forall o, o < 4 -> language sx 3 a o (S o)).
  { intros o Ho. exists RVoid. apply (D_any sx 3 Look _ o 97); [|exists 97; split; [now left|reflexivity]].
    do 4 (destruct o as [|o]; [reflexivity|]). lia. }
  assert (H : language sx 3 (PZeroOrMore a) 0 4).
  { apply language_zom. exists 4. do 4 (apply reps_S; eexists; split; [apply Ha; lia|]). now apply reps_0. }
  split; [|split].
  - apply C24_one_or_more_language. exact H.
  - exact H.
  - rewrite language_oom. intros ([|n] & Hn & Hr); [congruence|]. apply reps_S in Hr as (mid & [v Hv] & vs & Hr).
    inversion Hv; subst. apply derives_le in Hr. lia.
Qed.

(** ** C25 *)
Section Choice.
Context {T V : Type} (O : order T) (E : env T V).
Hypothesis HP : program E.
Hypothesis HO : lawful O.
Hypothesis HE : exact E.

(** The alternatives of a choice; anything else is its own only alternative. *)
Definition alternatives (p : parser T) : list (parser T) := match p with PChoice q qs => q :: qs | _ => [p] end.

(** The requires-clause of the single-element parsers. *)
Definition sorted_set (p : parser T) : Prop :=
  match p with PAnyOf arr | PNoneOf arr => increasing O arr | _ => True end.

(** [p] instantiates, in the way it is used. *)
Definition usable (m : mode) (p : parser T) : Prop :=
  compiles E (natural E m p) p = true /\ sorted_set p /\ (m = Parse -> indexed E p).

Lemma choice_operator_cases p q :
  (single O p /\ single O q) \/ ~ (sorted_set p /\ sorted_set q) \/
  (p = q /\ choice_operator O p q = p) \/
  (exists x xs, choice_operator O p q = PChoice x xs /\ x :: xs = alternatives p ++ alternatives q).
Proof.
  destruct p; destruct q; cbn [choice_operator alternatives sorted_set];
    try (match goal with |- (single O ?a /\ single O ?b) \/ ~ (?x /\ ?y) \/ _ =>
      lazymatch a with PAnyOf ?l => idtac | PNoneOf ?l => idtac end;
      lazymatch b with PAnyOf ?l => idtac | PNoneOf ?l => idtac end end;
      rewrite <- !(sorted_spec O HO);
      destruct (is_sorted_and_uniqued O arr) eqn:Ha; [|right; left; intros [? _]; congruence];
      destruct (is_sorted_and_uniqued O arr0) eqn:Hb; [|right; left; intros [_ ?]; congruence];
      left; split; constructor; now apply (sorted_spec O HO)).
  all: right; right.
  all: try (right; eexists _, _; split; [reflexivity|reflexivity]).
  all: match goal with |- context [if parser_eqb ?o ?a ?b then _ else _] =>
         destruct (parser_eqb o a b) eqn:He;
         [apply (parser_eqb_spec o HO) in He; left; split; [exact He|reflexivity]
         |right; eexists _, _; split; [reflexivity|reflexivity]] end.
Qed.

Lemma says_alternatives m p i o : valid E i -> usable m p ->
  says E (natural E m p) p i o <-> tries E (naturals E m (alternatives p)) i o.
Proof.
  intros Hv (Hc & _ & Hi). destruct p; cbn [alternatives naturals map]; try (symmetry; apply tries_one).
  now apply says_choice.
Qed.

Lemma natural_single m p : is_single p -> natural E m p = m.
Proof. intros H. destruct m; [|reflexivity]. unfold natural. now rewrite (result_single E p H). Qed.

Lemma sorted_operator p q : sorted_set p -> sorted_set q -> sorted_set (choice_operator O p q).
Proof.
  intros Hp Hq.
  assert (Hc : (single O p /\ single O q) \/ ~ (single O p /\ single O q)).
  { destruct p; try (right; intros [H _]; now inversion H); destruct q; try (right; intros [_ H]; now inversion H);
      left; split; now constructor. }
  destruct Hc as [[Sp Sq]|Hn].
  - destruct (C27_merging_is_union_of_accepted_sets O E p q HO HE Sp Sq) as [Hs _]. now destruct Hs.
  - destruct (choice_operator_cases p q) as [?|[?|[[_ ->]|(x & xs & -> & _)]]]; [tauto|tauto|auto|exact I].
Qed.

(** [p, else q]. *)
Definition or_else (P Q : option span -> Prop) (o : option span) : Prop :=
  (exists rem, o = Some rem /\ P (Some rem)) \/ (P None /\ Q o).

Lemma or_is_ordered_choice m p q i o : valid E i -> usable m p -> usable m q -> usable m (choice_operator O p q) ->
  says E (natural E m (choice_operator O p q)) (choice_operator O p q) i o <->
  or_else (says E (natural E m p) p i) (says E (natural E m q) q i) o.
Proof.
  intros Hv Hp Hq Hs.
  destruct (choice_operator_cases p q) as [[Sp Sq]|[Hn|[[-> He]|(x & xs & He & Hx)]]].
  - destruct (C27_merging_is_union_of_accepted_sets O E p q HO HE Sp Sq) as (Ss & _ & Hr).
    rewrite !natural_single by eauto using single_is.
    assert (Hc : compiles E m (PChoice p [q]) = true /\ indexed E (PChoice p [q])).
    { destruct Sp, Sq; (split; [destruct m; reflexivity|]); intros tys [= <-] [|[|[|j]]] t; try discriminate; intros [= <-] _;
        exists TSpan, 0; (split; [reflexivity|split; [split; [reflexivity|intros []]|auto]]); right; split; try constructor; intros []. }
    destruct Hc as [Hc Hi].
    assert (Hsays : says E m (choice_operator O p q) i o <-> says E m (PChoice p [q]) i o).
    { unfold says. setoid_rewrite (fun o => Hr m i o Hv). reflexivity. }
    rewrite Hsays. assert (Hnat : natural E m (PChoice p [q]) = m) by (destruct m; destruct Sp, Sq; reflexivity).
    rewrite <- Hnat at 1. rewrite says_choice; auto; [|now rewrite Hnat].
    change (naturals E m [p; q]) with (naturals E m [p] ++ naturals E m [q]).
    rewrite tries_app. unfold or_else. cbn [naturals map]. setoid_rewrite tries_one.
    rewrite !natural_single by eauto using single_is. reflexivity.
  - destruct Hn. split; [apply Hp|apply Hq].
  - rewrite He. unfold or_else. split.
    + intros H. destruct o; [left; eauto|right; auto].
    + intros [(rem & -> & H)|[_ H]]; auto.
  - rewrite He in *. rewrite says_alternatives by auto. cbn [alternatives]. rewrite Hx.
    unfold naturals. rewrite map_app, tries_app. unfold or_else.
    rewrite <- !(says_alternatives m p) by auto. setoid_rewrite <- (says_alternatives m p i); auto.
    rewrite <- (says_alternatives m q) by auto. reflexivity.
Qed.

(** Lookahead: for every [p] and [q]. *)
Theorem C25_or_is_ordered_choice p q i o : valid E i ->
  compiles E Look p = true -> compiles E Look q = true -> compiles E Look (choice_operator O p q) = true ->
  sorted_set p -> sorted_set q ->
  says E Look (choice_operator O p q) i o <-> or_else (says E Look p i) (says E Look q i) o.
Proof.
  intros Hv Hp Hq Hs Sp Sq. apply (or_is_ordered_choice Look p q i o Hv); (split; [assumption|split; [|discriminate]]); auto.
  now apply sorted_operator.
Qed.

(** Full statement for parse: the same with [Parse] for [Look].  It is false
    (C25_or_parse_refuted).  Missing from this theorem: choices with an alternative that is
    not [indexed] (its type repeats an earlier one after a void or repeated type, see C10);
    and operands without a value are only recognised ([natural]). *)
Theorem C25_or_parse_partial p q i o : valid E i -> usable Parse p -> usable Parse q -> usable Parse (choice_operator O p q) ->
  says E (natural E Parse (choice_operator O p q)) (choice_operator O p q) i o <->
  or_else (says E (natural E Parse p) p i) (says E (natural E Parse q) q i) o.
Proof. apply (or_is_ordered_choice Parse). Qed.

Theorem C25_or_associative m p q r i o : valid E i ->
  let pq := choice_operator O p q in let qr := choice_operator O q r in
  let l := choice_operator O pq r in let ri := choice_operator O p qr in
  (forall x, In x [p; q; r; pq; qr; l; ri] -> usable m x) ->
  says E (natural E m l) l i o <-> says E (natural E m ri) ri i o.
Proof.
  intros Hv pq qr l ri Hu. unfold l, ri.
  assert (Hl : usable m l) by (apply Hu; cbn; tauto). assert (Hr : usable m ri) by (apply Hu; cbn; tauto).
  rewrite (or_is_ordered_choice m pq r) by (auto; apply Hu; cbn; tauto).
  rewrite (or_is_ordered_choice m p qr) by (auto; apply Hu; cbn; tauto).
  unfold or_else. unfold pq, qr.
  setoid_rewrite (fun o => or_is_ordered_choice m p q i o Hv (Hu p ltac:(cbn; tauto)) (Hu q ltac:(cbn; tauto)) (Hu pq ltac:(cbn; tauto))).
  setoid_rewrite (fun o => or_is_ordered_choice m q r i o Hv (Hu q ltac:(cbn; tauto)) (Hu r ltac:(cbn; tauto)) (Hu qr ltac:(cbn; tauto))).
  unfold or_else. split.
  - intros [(rem & -> & [(rem' & [= <-] & H)|[H1 H2]])|[[(rem & ? & _)|[H1 H2]] H3]]; [left; eauto|right|discriminate|right].
    + split; auto. left. eauto.
    + split; auto.
  - intros [(rem & -> & H)|[H1 [(rem & -> & H2)|[H2 H3]]]]; [left; exists rem; split; auto; left; eauto|left; eauto|].
    right. split; auto.
Qed.

Theorem C25_or_idempotent p : sorted_set p -> choice_operator O p p = p.
Proof.
  intros Hs. destruct p; cbn [choice_operator]; rewrite ?(proj2 (arr_eqb_spec O HO _ _) eq_refl), ?(parser_eqb_refl O HO); reflexivity.
Qed.
End Choice.

(** Flattening can hide a filter: z | (a | b filtered) has alternatives of types void, span,
    span; the third is only looked at, so its filter no longer runs. *)
Theorem C25_or_parse_refuted : exists (p q : parser nat) i rem,
  let s := choice_operator nat_order p q in
  program sx /\ valid sx i /\ lawful nat_order /\ exact sx /\
  compiles sx Look p = true /\ compiles sx Parse q = true /\ compiles sx Parse s = true /\
  sorted_set nat_order p /\ sorted_set nat_order q /\
  says sx Parse p i None /\ says sx Look p i None /\ says sx Parse q i None /\ says sx Parse s i (Some rem).
Proof.
  exists (PIgnore (PAllOf (codes "z"))),
    (PChoice (PAllOf (codes "b")) [PFilter (PAllOf (codes "(")) (FUser 0)]), in1, (at1 1).
  cbn zeta. split; [apply sx_program|]. split; [apply in1_valid|]. split; [apply nat_lawful|]. split; [apply sx_exact|].
  do 3 (split; [reflexivity|]). do 2 (split; [exact I|]).
  repeat split; eexists _, _; (split; [runs 20|reflexivity]).
Qed.

(** (a | b) | !c on "((a)b)…", one alternative is merged, one is not *)
Example C25_case :
  let p := PChoice (PAllOf (codes "x")) [PAnyOf (codes "ab")] in let q := PNoneOf (codes "c") in
  let s := choice_operator nat_order p q in
  usable nat_order sx Parse p /\ usable nat_order sx Parse q /\ usable nat_order sx Parse s /\
  says sx Parse s in1 (Some (at1 1)).
Proof.
  assert (Hi : forall n t, nth_error [TSpan; TSpan; TSpan] n = Some t -> proper [TSpan; TSpan; TSpan] n).
  { intros [|[|[|[|n]]]] t; try discriminate; intros _; exists TSpan, 0;
      (split; [reflexivity|split; [split; [reflexivity|intros []]|right; split; [constructor|intros []]]]). }
  assert (Hi2 : forall n t, nth_error [TSpan; TSpan] n = Some t -> proper [TSpan; TSpan] n).
  { intros [|[|[|n]]] t; try discriminate; intros _; exists TSpan, 0;
      (split; [reflexivity|split; [split; [reflexivity|intros []]|right; split; [constructor|intros []]]]). }
  cbn zeta. split; [|split; [|split]].
  - split; [reflexivity|]. split; [exact I|]. intros _ tys [= <-] j t H _. eapply Hi2; eauto.
  - split; [reflexivity|]. split; [|intros _; exact I]. change (increasing nat_order (codes "c")). apply (sorted_spec nat_order nat_lawful). reflexivity.
  - split; [reflexivity|]. split; [exact I|]. intros _ tys [= <-] j t H _. eapply Hi; eauto.
  - eexists _, _. split; [runs 20|reflexivity].
Qed.

(** ** C26 *)
Section Sequence.
Context {T V : Type} (E : env T V).
Hypothesis HP : program E.

(** [p] then [q]. *)
Definition and_then (P : option span -> Prop) (Q : span -> option span -> Prop) (o : option span) : Prop :=
  (exists mid, P (Some mid) /\ Q mid o) \/ (P None /\ o = None).

Definition members (p : parser T) : list (parser T) := match p with PSequence q qs => q :: qs | _ => [p] end.

Lemma sequence_operator_cases p q :
  (exists a b, p = PAllOf a /\ q = PAllOf b /\ sequence_operator p q = PAllOf (a ++ b)) \/
  (exists x xs, sequence_operator p q = PSequence x xs /\ x :: xs = members p ++ members q).
Proof. destruct p; destruct q; cbn [sequence_operator members]; try (right; eexists _, _; split; reflexivity). left. eauto. Qed.

Definition starts (arr : list T) (l : list V) : Prop :=
  exists pre rest, l = pre ++ rest /\ Forall2 (fun t c => eqv E t c = true) arr pre.

Lemma starts_app a b l : starts (a ++ b) l <-> starts a l /\ starts b (skipn (List.length a) l).
Proof.
  split.
  - intros (pre & rest & -> & HF). apply Forall2_app_inv_l in HF as (pa & pb & Ha & Hb & ->).
    pose proof (Forall2_len _ _ _ Ha) as Hl. rewrite <- app_assoc. split; [exists pa, (pb ++ rest); auto|].
    exists pb, rest. split; auto. rewrite Hl, skipn_app, skipn_all, Nat.sub_diag. reflexivity.
  - intros [(pa & ra & -> & Ha) (pb & rb & He & Hb)]. pose proof (Forall2_len _ _ _ Ha) as Hl.
    rewrite Hl, skipn_app, skipn_all, Nat.sub_diag in He. cbn in He. subst ra.
    exists (pa ++ pb), rb. rewrite <- app_assoc. split; auto. now apply Forall2_app.
Qed.

Lemma says_all m arr i o : valid E i ->
  says E m (PAllOf arr) i o <->
  (starts arr (elems E i) /\ o = Some (adv i (List.length arr))) \/ (~ starts arr (elems E i) /\ o = None).
Proof.
  intros Hv. destruct (C08_all_of E m arr i Hv) as [[Hs H]|[Hs H]].
  - assert (Hy : says E m (PAllOf arr) i (Some (adv i (List.length arr)))) by (eexists _, _; split; [exact H|reflexivity]).
    split; [intros Hx; left; split; auto; eapply says_det; eauto|]. intros [[_ ->]|[Hn _]]; auto. now destruct Hn.
  - assert (Hy : says E m (PAllOf arr) i None) by (eexists _, _; split; [exact H|reflexivity]).
    split; [intros Hx; right; split; auto; eapply says_det; eauto|]. intros [[Hn _]|[_ ->]]; auto. now destruct Hs.
Qed.

Lemma natural_all m arr : natural E m (PAllOf arr) = m.
Proof. now destruct m. Qed.

Lemma says_literals m a b i o : valid E i ->
  says E m (PAllOf (a ++ b)) i o <-> and_then (says E m (PAllOf a) i) (fun mid => says E m (PAllOf b) mid) o.
Proof.
  intros Hv. rewrite says_all, starts_app by auto. unfold and_then.
  assert (Hmid : forall o, starts a (elems E i) -> says E m (PAllOf b) (adv i (List.length a)) o <->
     (starts b (skipn (List.length a) (elems E i)) /\ o = Some (adv i (List.length (a ++ b)))) \/
     (~ starts b (skipn (List.length a) (elems E i)) /\ o = None)).
  { intros o' Ha. rewrite says_all, elems_adv_skipn.
    - rewrite app_length. unfold adv. cbn [sp_blk sp_off sp_len].
      replace (sp_off i + List.length a + List.length b) with (sp_off i + (List.length a + List.length b)) by lia.
      replace (sp_len i - List.length a - List.length b) with (sp_len i - (List.length a + List.length b)) by lia. reflexivity.
    - destruct Ha as (pre & rest & He & HF). apply Forall2_len in HF. pose proof (elems_length E i Hv) as Hl.
      rewrite He, app_length in Hl. unfold valid in *. cbn. lia. }
  assert (Hdec : starts a (elems E i) \/ ~ starts a (elems E i)) by (unfold starts; apply starts_dec).
  split.
  - intros [[[Ha Hb] ->]|[Hn ->]].
    + left. exists (adv i (List.length a)). split; [apply says_all; auto|]. apply Hmid; auto.
    + destruct Hdec as [Ha|Ha]; [left|right; split; auto; apply says_all; auto].
      exists (adv i (List.length a)). split; [apply says_all; auto|]. apply Hmid; auto. right. split; auto.
  - intros [(mid & Ha & Hb)|[Ha ->]].
    + apply says_all in Ha as [[Ha [= ->]]|[_ ?]]; auto; [|discriminate]. apply Hmid in Hb as [[Hb ->]|[Hb ->]]; auto. right. split; [tauto|auto].
    + apply says_all in Ha as [[Ha ?]|[Ha _]]; auto; [discriminate|]. right. split; [tauto|auto].
Qed.

Lemma says_members m p i o : valid E i -> compiles E (natural E m p) p = true ->
  says E (natural E m p) p i o <-> chains E (naturals E m (members p)) i o.
Proof. intros Hv Hc. destruct p; cbn [members naturals map]; try (symmetry; apply chains_one). now apply says_seq. Qed.

(** [natural E m p] is [m] unless [p] has no value (then it is always only looked at, C12). *)
Theorem C26_then_is_sequence m p q i o : valid E i ->
  compiles E (natural E m p) p = true -> compiles E (natural E m q) q = true ->
  compiles E (natural E m (sequence_operator p q)) (sequence_operator p q) = true ->
  says E (natural E m (sequence_operator p q)) (sequence_operator p q) i o <->
  and_then (says E (natural E m p) p i) (fun mid => says E (natural E m q) q mid) o.
Proof.
  intros Hv Hp Hq Hs. destruct (sequence_operator_cases p q) as [(a & b & -> & -> & He)|(x & xs & He & Hx)]; rewrite He in *.
  - rewrite !natural_all. now apply says_literals.
  - rewrite says_members by auto. cbn [members]. rewrite Hx. unfold naturals. rewrite map_app, chains_app.
    unfold and_then. split.
    + intros [(mid & H1 & H2)|[H1 ->]]; [left|right].
      * apply says_members in H1; auto. assert (valid E mid) by (eapply says_valid; eauto).
        exists mid. split; auto. apply says_members; auto.
      * split; auto. apply says_members; auto.
    + intros [(mid & H1 & H2)|[H1 ->]]; [left|right].
      * assert (valid E mid) by (eapply says_valid; eauto).
        exists mid. split; [apply says_members; auto|]. apply says_members; auto.
      * split; auto. apply says_members; auto.
Qed.

(** Flattening and literal merging change nothing. *)
Theorem C26_flattening m p q i o : valid E i ->
  compiles E (natural E m p) p = true -> compiles E (natural E m q) q = true ->
  compiles E (natural E m (sequence_operator p q)) (sequence_operator p q) = true ->
  compiles E (natural E m (PSequence p [q])) (PSequence p [q]) = true ->
  says E (natural E m (sequence_operator p q)) (sequence_operator p q) i o <->
  says E (natural E m (PSequence p [q])) (PSequence p [q]) i o.
Proof.
  intros Hv Hp Hq Hs Hc. rewrite C26_then_is_sequence by auto. rewrite says_seq by auto.
  change (naturals E m [p; q]) with (naturals E m [p] ++ naturals E m [q]). rewrite chains_app.
  cbn [naturals map]. unfold and_then. setoid_rewrite chains_one. reflexivity.
Qed.

Theorem C26_then_associative m p q r i o : valid E i ->
  let pq := sequence_operator p q in let qr := sequence_operator q r in
  let l := sequence_operator pq r in let ri := sequence_operator p qr in
  (forall x, In x [p; q; r; pq; qr; l; ri] -> compiles E (natural E m x) x = true) ->
  says E (natural E m l) l i o <-> says E (natural E m ri) ri i o.
Proof.
  intros Hv pq qr l ri Hu.
  assert (Hc : forall x, In x [p; q; r; pq; qr; l; ri] -> compiles E (natural E m x) x = true) by exact Hu.
  unfold l, ri.
  rewrite (C26_then_is_sequence m pq r) by (auto; apply Hc; cbn; tauto).
  rewrite (C26_then_is_sequence m p qr) by (auto; apply Hc; cbn; tauto).
  assert (Hpq : forall o, says E (natural E m pq) pq i o <->
      and_then (says E (natural E m p) p i) (fun mid => says E (natural E m q) q mid) o).
  { intros o'. apply C26_then_is_sequence; auto; apply Hc; cbn; tauto. }
  assert (Hqr : forall mid o, valid E mid -> says E (natural E m qr) qr mid o <->
      and_then (says E (natural E m q) q mid) (fun mid => says E (natural E m r) r mid) o).
  { intros mid o' Hm. apply C26_then_is_sequence; auto; apply Hc; cbn; tauto. }
  unfold and_then. split.
  - intros [(mid & H1 & H2)|[H1 ->]].
    + apply Hpq in H1 as [(mid' & H1 & H1')|[_ ?]]; [|discriminate]. assert (valid E mid') by (eapply says_valid; eauto).
      left. exists mid'. split; auto. apply Hqr; auto. left. eauto.
    + apply Hpq in H1 as [(mid' & H1 & H1')|[H1 _]]; [left|right; auto]. assert (valid E mid') by (eapply says_valid; eauto).
      exists mid'. split; auto. apply Hqr; auto. right. auto.
  - intros [(mid & H1 & H2)|[H1 ->]].
    + assert (valid E mid) by (eapply says_valid; eauto). apply Hqr in H2 as [(mid' & H2 & H3)|[H2 ->]]; auto; [left|right].
      * exists mid'. split; auto. apply Hpq. left. eauto.
      * split; auto. apply Hpq. left. eauto.
    + right. split; auto. apply Hpq. right. auto.
Qed.

(** Under join the flattened and the nested sequence give the same span, in particular the
    merged literal and the pair of literals. *)
Theorem C26_under_join p q i r : valid E i -> lossless E p -> lossless E q ->
  compiles E (natural E Parse p) p = true -> compiles E (natural E Parse q) q = true ->
  compiles E Parse (PJoin (sequence_operator p q)) = true -> compiles E Parse (PJoin (PSequence p [q])) = true ->
  (exists tr, evals E Parse (PJoin (sequence_operator p q)) i (Done r tr)) <->
  (exists tr, evals E Parse (PJoin (PSequence p [q])) i (Done r tr)).
Proof.
  intros Hv Lp Lq Cp Cq Cs Cn.
  assert (Hnat : forall z, compiles E Parse (PJoin z) = true -> natural E Parse z = Parse /\ compiles E Parse z = true).
  { intros z Hz. cbn in Hz. apply andb_true_iff in Hz as [Hz Hj]. split; auto. cbn [natural].
    destruct (result_for E z) as [[]|]; auto; discriminate. }
  destruct (Hnat _ Cs) as [Ns Cs']. destruct (Hnat _ Cn) as [Nn Cn'].
  assert (Hjoin : forall z, compiles E Parse (PJoin z) = true -> lossless E z ->
    (exists tr, evals E Parse (PJoin z) i (Done r tr)) <->
    exists o, says E Parse z i o /\
      r = match o with Some rem => Res (Some (RVal (VSpan (Span (sp_blk i) (sp_off i) (sp_off rem - sp_off i))))) rem
                     | None => Res None i end).
  { intros z Hz Hl. setoid_rewrite (fun tr => C21_lossless_join E z i r tr HP Hv Hz Hl). split.
    - intros (tr & [[H ->]|(v & rem & H & ->)]).
      + exists None. split; auto. apply says_none; eauto.
      + exists (Some rem). split; auto. apply says_some; eauto.
    - intros ([rem|] & H & ->).
      + apply says_some in H as (v & tr & H). exists tr. right. eauto.
      + apply says_none in H as (tr & H); auto. exists tr. left. auto. }
  assert (Ln : lossless E (PSequence p [q])).
  { intros z Hz. inversion Hz as [|? c ? Hc Hr]; subst; [exact I|]. cbn [components] in Hc. destruct Hc as [<-|[<-|[]]]; auto. }
  assert (Hmem : forall z, lossless E z -> forall x, In x (members z) -> lossless E x).
  { intros z Hz x Hx. destruct z; cbn in Hx; try (destruct Hx as [<-|[]]; exact Hz). eapply lossless_comp; eauto. }
  assert (Ls : lossless E (sequence_operator p q)).
  { destruct (sequence_operator_cases p q) as [(a & b & -> & -> & ->)|(x & xs & -> & Hx)].
    - intros z Hz. inversion Hz as [|? c ? Hc Hr]; subst; [exact I|destruct Hc].
    - intros z Hz. inversion Hz as [|? c ? Hc Hr]; subst; [exact I|]. cbn [components] in Hc. rewrite Hx in Hc.
      apply in_app_iff in Hc as [Hc|Hc]; [apply (Hmem p Lp c Hc)|apply (Hmem q Lq c Hc)]; auto. }
  rewrite (Hjoin _ Cs Ls), (Hjoin _ Cn Ln).
  assert (Heq : forall o, says E Parse (sequence_operator p q) i o <-> says E Parse (PSequence p [q]) i o).
  { intros o. rewrite <- Ns at 1. rewrite C26_flattening; auto; [now rewrite Nn|now rewrite Ns|now rewrite Nn]. }
  setoid_rewrite Heq. reflexivity.
Qed.
End Sequence.

(** Literals are merged, sequences flattened.  On values [>>] is not associative: one grouping
    has two parts, the other three. *)
Example C26_case :
  let a := PAllOf (codes "(") in let b := PAllOf (codes "(a") in let d := PMaybe (PAllOf (codes ")")) in
  sequence_operator a b = PAllOf (codes "((a") /\
  sequence_operator (sequence_operator a b) d = PSequence (PAllOf (codes "((a")) [d] /\
  sequence_operator a (sequence_operator b d) = PSequence a [b; d] /\
  says sx Parse (PSequence (PAllOf (codes "((a")) [d]) in1 (Some (at1 4)) /\
  says sx Parse (PSequence a [b; d]) in1 (Some (at1 4)) /\
  evals sx Parse (PJoin (PSequence a [b; d])) in1 (Done (Res (Some (RVal (VSpan (Span 1 0 4)))) (at1 4)) []) /\
  evals sx Parse (PJoin (PSequence (PAllOf (codes "((a")) [d])) in1 (Done (Res (Some (RVal (VSpan (Span 1 0 4)))) (at1 4)) []).
Proof.
  cbn zeta. do 3 (split; [reflexivity|]). do 2 (split; [eexists _, _; split; [runs 20|reflexivity]|]). split; runs 20.
Qed.

(** ** C44: [p | eps] for every [p], as operator| builds it *)
Section Eps.
Context {T V : Type} (O : order T) (E : env T V).
Hypothesis HO : lawful O.

Lemma bfirst_eps l i o tr :
  bfirst E (l ++ [(Look, PEpsilon)]) i o tr <->
  (exists j v rem, o = Some (j, v, rem) /\ j < List.length l /\ bfirst E l i o tr) \/
  (bfirst E l i None tr /\ o = Some (List.length l, RVoid, i)).
Proof.
  revert o tr. induction l as [|[m p] l IH]; intros o tr; cbn [app List.length].
  - split.
    + intros H. right. inversion H as [|m' p' l' i' v rem tr' Hb|m' p' l' i' o' tr' tr'' Hb Hf]; subst.
      * inversion Hb; subst. split; [constructor|reflexivity].
      * inversion Hb.
    + intros [(j & v & rem & _ & Hj & _)|[H ->]]; [lia|]. inversion H; subst. constructor. constructor.
  - split.
    + intros H. inversion H as [|m' p' l' i' v rem tr' Hb|m' p' l' i' o' tr' tr'' Hb Hf]; subst.
      * left. exists 0, v, rem. split; auto. split; [lia|]. now constructor.
      * apply IH in Hf as [(j & v & rem & -> & Hj & Hf)|[Hf ->]]; [left|right].
        -- exists (S j), v, rem. split; auto. split; [lia|]. apply BF_next with (o := Some (j, v, rem)); auto.
        -- split; auto. apply BF_next with (o := None); auto.
    + intros [(j & v & rem & -> & Hj & H)|[H ->]].
      * inversion H as [|m' p' l' i' v' rem' tr' Hb|m' p' l' i' o' tr' tr'' Hb Hf]; subst; [now constructor|].
        apply BF_next; auto. apply IH. destruct o' as [[[j' v'] rem']|]; [|discriminate].
        match goal with He : bump _ = _ |- _ => injection He as <- <- <- end.
        left. exists j', v', rem'. split; auto. split; [lia|auto].
      * inversion H as [|m' p' l' i' v' rem' tr' Hb|m' p' l' i' o' tr' tr'' Hb Hf]; subst.
        destruct o' as [[[j' v'] rem']|]; [discriminate|].
        apply BF_next with (o := Some (List.length l, RVoid, i)); auto. apply IH. right. auto.
Qed.

Lemma big_choice_parse q qs i r tr : big E Parse (PChoice q qs) i r tr <-> exists tys, result_fors E (q :: qs) = Some tys /\ choice_wf tys /\
  ((exists j v w rem, bfirst E (alts tys (q :: qs)) i (Some (j, v, rem)) tr /\ delivered tys j v w /\ r = Res (Some w) rem) \/
   (bfirst E (alts tys (q :: qs)) i None tr /\ r = Res None i)).
Proof.
  split.
  - intros H. inversion H; subst; eexists; (split; [eassumption|]); (split; [eassumption|]); [left|right]; eauto 8.
  - intros (tys & Hf & Hw & [(j & v & w & rem & Hb & Hd & ->)|[Hb ->]]); [eapply B_choice_ok|eapply B_choice_no]; eauto.
Qed.

Lemma big_choice_look q qs i r tr : big E Look (PChoice q qs) i r tr <-> exists tys, result_fors E (q :: qs) = Some tys /\
  ((exists j v rem, bfirst E (map (pair Look) (q :: qs)) i (Some (j, v, rem)) tr /\ r = Res (Some RVoid) rem) \/
   (bfirst E (map (pair Look) (q :: qs)) i None tr /\ r = Res None i)).
Proof.
  split.
  - intros H. inversion H; subst; eexists; (split; [eassumption|]); [left|right]; eauto 8.
  - intros (tys & Hf & [(j & v & rem & Hb & ->)|[Hb ->]]); [eapply B_choice_look_ok|eapply B_choice_look_no]; eauto.
Qed.

Lemma bfirst_lt l i j v rem tr : bfirst E l i (Some (j, v, rem)) tr -> j < List.length l.
Proof.
  intros Hb. remember (Some (j, v, rem)) as o eqn:Ho. revert j Ho.
  induction Hb as [|m p l i v' rem' tr H|m p l i o tr1 tr2 H1 H2 IH]; intros j Ho; [discriminate|injection Ho as <-; cbn; lia|].
  destruct o as [[[j' v'] rem']|]; [|discriminate]. injection Ho as <- -> ->. cbn. specialize (IH j' eq_refl). lia.
Qed.

Lemma fors_eps ps tys : result_fors E ps = Some tys -> result_fors E (ps ++ [PEpsilon]) = Some (tys ++ [TVoid]).
Proof.
  unfold result_fors. revert tys. induction ps as [|p ps IH]; intros tys; cbn; [now intros [= <-]|].
  destruct (result_for E p); [|discriminate]. destruct (all_some (map (result_for E) ps)) as [l|]; [|discriminate].
  intros [= <-]. now rewrite (IH l eq_refl).
Qed.

Lemma done_eps tys : done_of (tys ++ [TVoid]) = done_of tys.
Proof. rewrite done_snoc. cbn. apply app_nil_r. Qed.
Lemma seq_eps tys : seq_of (tys ++ [TVoid]) = seq_of tys ++ [None].
Proof. rewrite seq_snoc. reflexivity. Qed.
Lemma emplace_eps done tys : forall seq, List.length seq = List.length tys ->
  emplace_ok done (tys ++ [TVoid]) (seq ++ [None]) = emplace_ok done tys seq.
Proof.
  induction tys as [|t tys IH]; intros [|x seq] Hl; cbn in Hl; try discriminate; auto.
  injection Hl as Hl. specialize (IH seq Hl). cbn. now rewrite IH.
Qed.

Lemma alts_eps (ps : list (parser T)) tys : List.length tys = List.length ps ->
  alts (tys ++ [TVoid]) (ps ++ [PEpsilon]) = alts tys ps ++ [(Look, PEpsilon)].
Proof.
  intros Hl. unfold alts. rewrite !seq_of_eq, seq_eps, map_app.
  assert (Hs : List.length (map idx_mode (seq_of tys)) = List.length ps) by (rewrite map_length, seq_length; auto).
  revert Hs. generalize (map idx_mode (seq_of tys)) as ms. clear Hl. induction ps as [|p ps IH]; intros [|m ms]; cbn; try discriminate; auto.
  intros Hl. f_equal. apply IH. lia.
Qed.

Lemma choice_or_eps q qs t i r tr : valid E i -> compiles E Parse (PChoice q qs) = true -> result_for E (PChoice q qs) = Some t ->
  result_for E (PChoice q (qs ++ [PEpsilon])) = Some t /\ compiles E Parse (PChoice q (qs ++ [PEpsilon])) = true /\
  (evals E Parse (PChoice q (qs ++ [PEpsilon])) i (Done r tr) <->
   (exists v rem, gives E Parse (PChoice q qs) i v rem tr /\ r = Res (Some v) rem) \/
   (refuses E Parse (PChoice q qs) i tr /\ r = Res (Some (default_of t)) i)).
Proof.
  intros Hv Hc Ht. destruct (parse_fors E q qs (or_introl Hc)) as [tys Hr].
  pose proof (fors_eps _ _ Hr) as Hr'. pose proof (result_fors_length E _ _ Hr) as Hl. symmetry in Hl.
  assert (Hres : t = compound_result TVar (done_of tys)) by (rewrite result_for_choice, Hr, done_of_eq in Ht; congruence).
  assert (Hwf : choice_wf (tys ++ [TVoid]) <-> choice_wf tys).
  { unfold choice_wf. rewrite !done_of_eq, !seq_of_eq, done_eps, seq_eps, emplace_eps by apply seq_length. reflexivity. }
  assert (Ha : alts (tys ++ [TVoid]) (q :: qs ++ [PEpsilon]) = alts tys (q :: qs) ++ [(Look, PEpsilon)]) by (now apply (alts_eps (q :: qs))).
  assert (Hal : List.length (alts tys (q :: qs)) = List.length tys).
  { unfold alts. rewrite combine_length, map_length, seq_of_eq, seq_length. lia. }
  assert (Hdel : forall j v w, j < List.length tys -> delivered (tys ++ [TVoid]) j v w <-> delivered tys j v w).
  { intros j v w Hj.
    assert (Hn : nth_error (snd (filter_out_void_deduplicate (tys ++ [TVoid]))) j = nth_error (snd (filter_out_void_deduplicate tys)) j).
    { rewrite !seq_of_eq, seq_eps. apply nth_error_app1. now rewrite seq_length. }
    assert (Hd : fst (filter_out_void_deduplicate (tys ++ [TVoid])) = fst (filter_out_void_deduplicate tys)).
    { now rewrite !done_of_eq, done_eps. }
    split; intros H; inversion H as [j' k y Hk|j' v' Hk]; subst.
    - rewrite Hn in Hk. rewrite Hd. now constructor.
    - rewrite Hn in Hk. rewrite Hd. now constructor.
    - rewrite <- Hd. constructor. now rewrite Hn.
    - rewrite <- Hd. constructor. now rewrite Hn. }
  assert (Hdl : forall v w, delivered (tys ++ [TVoid]) (List.length tys) v w <-> w = default_of t).
  { intros v w.
    assert (Hn : nth_error (snd (filter_out_void_deduplicate (tys ++ [TVoid]))) (List.length tys) = Some None).
    { rewrite !seq_of_eq, seq_eps, nth_error_app2, seq_length, Nat.sub_diag; [reflexivity|now rewrite seq_length]. }
    assert (Hd : builder_init (compound_result TVar (fst (filter_out_void_deduplicate (tys ++ [TVoid])))) = default_of t).
    { rewrite done_of_eq, done_eps, <- Hres. destruct t; reflexivity. }
    split.
    - intros H. inversion H as [j' k y Hk|j' v' Hk]; subst; congruence.
    - intros ->. rewrite <- Hd. now apply del_lost. }
  split; [|split].
  - rewrite result_for_choice. change (q :: qs ++ [PEpsilon]) with ((q :: qs) ++ [PEpsilon]). rewrite Hr', done_of_eq, done_eps. now rewrite Hres.
  - cbn [compiles] in *. change (all_some (map (result_for E) (q :: qs))) with (result_fors E (q :: qs)) in *.
    change (q :: qs ++ [PEpsilon]) with ((q :: qs) ++ [PEpsilon]).
    rewrite Hr in Hc. rewrite Hr'.
    pose proof (done_of_eq tys) as D1. pose proof (done_of_eq (tys ++ [TVoid])) as D2.
    pose proof (seq_of_eq tys) as S1. pose proof (seq_of_eq (tys ++ [TVoid])) as S2.
    destruct (filter_out_void_deduplicate tys) as [d s]. destruct (filter_out_void_deduplicate (tys ++ [TVoid])) as [d' s'].
    cbn [fst snd] in *. subst d d' s s'. rewrite done_eps, seq_eps.
    apply andb_true_iff in Hc as [Hc1 Hc2]. rewrite emplace_eps by apply seq_length. rewrite Hc1. cbn [andb].
    destruct (seq_of tys) as [|x s] eqn:Hs; [pose proof (seq_length tys) as Hs'; rewrite Hs, Hl in Hs'; discriminate|].
    cbn [app]. apply andb_true_iff in Hc2 as [Hc2 Hc3]. rewrite Hc2. cbn [andb].
    assert (Hsl : List.length s = List.length qs) by (pose proof (seq_length tys) as Hs'; rewrite Hs, Hl in Hs'; cbn in Hs'; lia).
    clear - Hc3 Hsl. revert s Hc3 Hsl. induction qs as [|p qs IH]; intros [|y s] H Hl; cbn in Hl; try discriminate; auto.
    cbn in *. apply andb_true_iff in H as [-> H]. cbn. auto.
  - assert (Hw0 : choice_wf tys).
    { unfold choice_wf. cbn [compiles] in Hc. rewrite Hr in Hc. now apply andb_true_iff in Hc as [Hc _]. }
    setoid_rewrite gives_big; auto. rewrite refuses_big by auto. rewrite evals_big by auto. setoid_rewrite big_choice_parse. split.
    + intros (tys' & Hf & Hw & [(j & v & w & rem & Hb & Hd & ->)|[Hb ->]]).
      * assert (tys' = tys ++ [TVoid]) as -> by (cbn [app] in Hr'; congruence). rewrite Ha in Hb.
        apply bfirst_eps in Hb as [(j' & v' & rem' & [= <- <- <-] & Hj & Hb)|[Hb [= -> -> ->]]]; rewrite Hal in *.
        -- left. exists w, rem. split; auto. exists tys. split; auto. split; auto. left. exists j, v, w, rem. apply Hdel in Hd; auto.
        -- right. apply Hdl in Hd as ->. split; auto. exists tys. auto.
      * assert (tys' = tys ++ [TVoid]) as -> by (cbn [app] in Hr'; congruence). rewrite Ha in Hb.
        apply bfirst_eps in Hb as [(j' & v' & rem' & ? & _)|[_ ?]]; discriminate.
    + intros H. exists (tys ++ [TVoid]). split; [exact Hr'|]. split; [now apply Hwf|]. rewrite Ha. left.
      destruct H as [(v0 & rem0 & (tys' & Hf & _ & [(j & v & w & rem & Hb & Hd & [= -> ->])|[_ ?]]) & ->)|[(tys' & Hf & _ & [(j & v & w & rem & _ & _ & ?)|[Hb _]]) ->]];
        try discriminate; assert (tys' = tys) as -> by congruence.
      * assert (Hj : j < List.length tys).
        { rewrite <- Hal. inversion Hd as [j' k y Hk|j' v' Hk]; subst; rewrite Hal; rewrite <- (seq_length tys), <- seq_of_eq; apply nth_error_Some; congruence. }
        exists j, v, w, rem. split; [apply bfirst_eps; left; exists j, v, rem; rewrite Hal; auto|]. split; auto. now apply Hdel.
      * exists (List.length tys), RVoid, (default_of t), i. split; [apply bfirst_eps; right; rewrite Hal; auto|]. split; auto. now apply Hdl.
Qed.

(** A choice of void alternatives only is run by parse as by lookahead. *)
Lemma void_choice_look q qs i r tr : valid E i -> result_for E (PChoice q qs) = Some TVoid ->
  evals E Parse (PChoice q qs) i (Done r tr) <-> evals E Look (PChoice q qs) i (Done r tr).
Proof.
  intros Hv Ht. pose proof Ht as Ht'. rewrite result_for_choice in Ht'. destruct (result_fors E (q :: qs)) as [tys|] eqn:Hr; [|discriminate].
  pose proof (void_choice E q qs tys Hr Ht) as HF.
  assert (Hd : done_of tys = []).
  { destruct (done_of tys) as [|t l] eqn:Hd; auto. assert (Hin : In t (done_of tys)) by (rewrite Hd; now left).
    apply done_in in Hin as [Hin Hn]. rewrite Forall_forall in HF. now apply HF in Hin. }
  assert (Hs : forall j x, nth_error (seq_of tys) j = Some x -> x = None).
  { intros j x Hx. destruct (nth_error tys j) as [t|] eqn:Hj.
    - rewrite (seq_nth _ _ _ Hj) in Hx. assert (t = TVoid) as -> by (rewrite Forall_forall in HF; apply HF; eapply nth_error_In; eauto).
      cbn in Hx. congruence.
    - apply nth_error_None in Hj. assert (j < List.length (seq_of tys)) by (apply nth_error_Some; congruence). rewrite seq_length in *. lia. }
  assert (Ha : alts tys (q :: qs) = map (pair Look) (q :: qs)).
  { pose proof (result_fors_length E _ _ Hr) as Hl. symmetry in Hl. unfold alts. rewrite seq_of_eq. pose proof (seq_length tys) as Hsl. rewrite Hl in Hsl.
    revert Hs Hsl. generalize (seq_of tys) as s. generalize (q :: qs) as ps. clear. induction ps as [|p ps IH]; intros [|x s] Hs Hl; cbn in *; try discriminate; auto.
    rewrite (Hs 0 x eq_refl). cbn. f_equal. apply IH; [|lia]. intros j y Hy. apply (Hs (S j) y Hy). }
  assert (Hw : choice_wf tys) by (unfold choice_wf; rewrite done_of_eq, Hd; reflexivity).
  rewrite !evals_big, big_choice_parse, big_choice_look by auto. split; intros (tys' & Hf & H); assert (tys' = tys) as -> by congruence;
    exists tys; (split; [exact Hr|]); rewrite Ha in *.
  - destruct H as [_ [(j & v & w & rem & Hb & Hdel & ->)|[Hb ->]]]; [left|right; auto]. exists j, v, rem. split; auto.
    assert (w = RVoid) as ->; auto.
    inversion Hdel as [j' k y Hk|j' v' Hk]; subst; [rewrite seq_of_eq in Hk; apply Hs in Hk; discriminate|]. now rewrite done_of_eq, Hd.
  - split; [exact Hw|]. destruct H as [(j & v & rem & Hb & ->)|[Hb ->]]; [left|right; auto]. exists j, v, RVoid, rem. split; auto. split; auto.
    pose proof (del_lost tys j v) as Hl. rewrite done_of_eq, seq_of_eq, Hd in Hl. apply Hl.
    pose proof (bfirst_lt _ _ _ _ _ _ Hb) as Hj. rewrite map_length, (result_fors_length E _ _ Hr), <- (seq_length tys) in Hj.
    apply nth_error_Some in Hj. destruct (nth_error (seq_of tys) j) as [x|] eqn:Hx; [|congruence]. now rewrite (Hs _ _ Hx).
Qed.

Lemma void_choice_compiles q qs : compiles E Look (PChoice q qs) = true -> result_for E (PChoice q qs) = Some TVoid ->
  compiles E Parse (PChoice q qs) = true.
Proof.
  intros Hc Ht. destruct (look_fors' E q qs (or_introl Hc)) as [tys Hr]. pose proof (void_choice E q qs tys Hr Ht) as HF.
  cbn [compiles] in *. rewrite Hr in *. rewrite done_of_eq, seq_of_eq.
  assert (Hd : done_of tys = []).
  { destruct (done_of tys) as [|t l] eqn:Hd; auto. assert (Hin : In t (done_of tys)) by (rewrite Hd; now left).
    apply done_in in Hin as [Hin Hn]. rewrite Forall_forall in HF. now apply HF in Hin. }
  rewrite Hd. cbn [unwrapped orb andb]. apply andb_true_iff in Hc as [Hq Hqs].
  assert (Hs : seq_of tys = repeat None (List.length tys)).
  { clear - HF. induction tys as [|t tys IH] using rev_ind; auto. apply Forall_app in HF as [HF Ht]. inversion Ht; subst.
    rewrite seq_eps, IH, app_length by auto. cbn. now rewrite repeat_app. }
  rewrite Hs. destruct (List.length tys) as [|n]; cbn [repeat]; auto. rewrite Hq. cbn [andb].
  clear - Hqs. revert n. induction qs as [|p qs IH]; intros [|n]; cbn in *; auto. apply andb_true_iff in Hqs as [-> Hqs]. cbn. auto.
Qed.

Theorem C44_or_epsilon p t i r tr : program E -> valid E i ->
  compiles E (natural E Parse p) p = true -> result_for E p = Some t ->
  compiles E Parse (or_epsilon O p) = true /\ result_for E (or_epsilon O p) = Some t /\
  (evals E Parse (or_epsilon O p) i (Done r tr) <->
   (exists v rem, gives E (natural E Parse p) p i v rem tr /\ r = Res (Some (if is_void t then RVoid else v)) rem) \/
   (refuses E (natural E Parse p) p i tr /\ r = Res (Some (default_of t)) i)).
Proof.
  intros HP Hv Hc Ht.
  assert (Hn : natural E Parse p = if is_void t then Look else Parse) by (cbn [natural]; rewrite Ht; reflexivity).
  rewrite Hn in *.
  assert (Hplain : or_epsilon O p = PChoice p [PEpsilon] ->
    compiles E Parse (or_epsilon O p) = true /\ result_for E (or_epsilon O p) = Some t /\
    (evals E Parse (or_epsilon O p) i (Done r tr) <->
     (exists v rem, gives E (if is_void t then Look else Parse) p i v rem tr /\ r = Res (Some (if is_void t then RVoid else v)) rem) \/
     (refuses E (if is_void t then Look else Parse) p i tr /\ r = Res (Some (default_of t)) i))).
  { intros ->. assert (Hc' : compiles E Parse (PChoice p [PEpsilon]) = true).
    { cbn [compiles]. unfold result_fors. cbn [map all_some result_for]. rewrite Ht. rewrite done_of_eq, seq_of_eq. destruct t; cbn in *; now rewrite Hc. }
    split; [exact Hc'|]. split; [|now apply C44_or_eps].
    rewrite result_for_choice. unfold result_fors. cbn [map all_some result_for]. rewrite Ht, done_of_eq. destruct t; reflexivity. }
  destruct p; try (apply Hplain; reflexivity).
  - (* eps *) cbn in Ht. injection Ht as <-. clear Hplain. cbn [or_epsilon choice_operator parser_eqb is_void].
    split; [reflexivity|]. split; [reflexivity|]. setoid_rewrite gives_big; auto. rewrite refuses_big, evals_big by auto. split.
    + intros H. inversion H; subst. left. exists RVoid, i. split; [constructor|reflexivity].
    + intros [(v & rem & H & ->)|[H _]]; inversion H; subst. constructor.
  - (* choice *) clear Hplain. cbn [or_epsilon choice_operator].
    destruct (is_void t) eqn:Hvt.
    + apply is_void_spec in Hvt. subst t. pose proof (void_choice_compiles p ps Hc Ht) as Hc'.
      destruct (choice_or_eps p ps TVoid i r tr Hv Hc' Ht) as (H1 & H2 & H3). split; [exact H2|]. split; [exact H1|]. rewrite H3.
      unfold gives, refuses. setoid_rewrite (fun r tr => void_choice_look p ps i r tr Hv Ht).
      split; intros [(v & rem & H & ->)|H]; auto; left; exists v, rem; (split; [exact H|]);
        apply evals_big in H; auto; apply big_choice_look in H as (? & _ & [(? & ? & ? & _ & [= -> ->])|[_ ?]]); auto; discriminate.
    + destruct (choice_or_eps p ps t i r tr Hv Hc Ht) as (H1 & H2 & H3). auto.
Qed.
End Eps.

(** a choice as left operand is extended, not nested *)
Example C44_general_case :
  let p := PChoice (PAllOf (codes "x")) [POneOrMore (PAllOf (codes "y"))] in
  or_epsilon nat_order p = PChoice (PAllOf (codes "x")) [POneOrMore (PAllOf (codes "y")); PEpsilon] /\
  compiles sx (natural sx Parse p) p = true /\
  result_for sx p = Some (TVar [TSpan; TVec TSpan]) /\
  evals sx Parse (or_epsilon nat_order p) in1 (Done (Res (Some (RVal (VVar 0 (VSpan null_span)))) in1) []).
Proof. cbn zeta. do 3 (split; [reflexivity|]). runs 20. Qed.

Print Assumptions C24_nested_repetition_never_returns.
Print Assumptions C24_maybe.
Print Assumptions C24_one_or_more.
Print Assumptions C24_zero_or_more.
Print Assumptions C24_maybe_language.
Print Assumptions C24_one_or_more_language.
Print Assumptions C24_zero_or_more_language.
Print Assumptions C25_or_is_ordered_choice.
Print Assumptions C25_or_parse_partial.
Print Assumptions C25_or_parse_refuted.
Print Assumptions C25_or_associative.
Print Assumptions C25_or_idempotent.
Print Assumptions C26_then_is_sequence.
Print Assumptions C26_flattening.
Print Assumptions C26_then_associative.
Print Assumptions C26_under_join.
Print Assumptions C44_or_epsilon.
