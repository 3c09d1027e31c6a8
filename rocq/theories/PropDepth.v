(** * Property C53: depth of the calls and rounds of the loops *)
From Coq Require Import String List Arith ZArith Bool Lia Relations.
From Verif Require Import Types Compound Parser Outcome CompoundFacts Exec Mono Derive Typing Join Leaves Sound
  BigStep BigSound BigComplete Peg Throws Elems Samples Runs PropCore Lossless Agree Term PropTerm Depth ExJson PropJson ExAlgebraic PropAlgebraic.
Import ListNotations.

Section C53.
Context {T V : Type} (E : env T V).
Implicit Types (p q r d : parser T).

(** A chain of calls from [q] before anything is consumed is shorter than [h]. *)
Fixpoint within (h : nat) q : Prop :=
  match h with 0 => False | S h' => forall r, calls_first E q r -> within h' r end.

Lemma within_le h : forall h' q, within h q -> h <= h' -> within h' q.
Proof.
  induction h as [|h IH]; intros h' q H Hle; [destruct H|]. destruct h' as [|h']; [lia|]. cbn. intros r Hr. apply (IH h'); [apply H; auto|lia].
Qed.

(** Number of class templates in the type of a parser *)
Fixpoint psize p : nat :=
  S (match p with
     | PChoice q qs | PSequence q qs => psize q + list_sum (map psize qs)
     | PMaybe q | PExactly q _ | POneOrMore q | PZeroOrMore q | PIgnore q | PComplete q
     | PJoin q | PMap q _ | PFilter q _ | PNamed q _ => psize q
     | PDelimit q d => psize q + psize d
     | _ => 0
     end).

Lemma in_size q qs : In q qs -> psize q <= list_sum (map psize qs).
Proof.
  induction qs as [|a qs IH]; intros H; [destruct H|]. change (psize q <= psize a + list_sum (map psize qs)).
  destruct H as [->|H]; [lia|]. specialize (IH H). lia.
Qed.

Lemma component_size p q : (forall c, p <> PCustom c) -> In q (components E p) -> psize q < psize p.
Proof.
  intros Hc. destruct p; cbn [components psize]; intros H; cbn in H;
    repeat match goal with H : _ \/ _ |- _ => destruct H | H : False |- _ => destruct H end; subst; try lia;
    try (apply in_size in H; lia).
  now destruct (Hc c).
Qed.

(** The types of all parsers that [p] calls are at most so large. *)
Definition biggest p (cs : list nat) : nat := psize p + list_sum (map (fun c => psize (cust_body E c)) cs).

Lemma reach_size p cs q : (forall c, reach E p (PCustom c) -> In c cs) -> reach E p q -> psize q <= biggest p cs.
Proof.
  intros Hf Hq.
  assert (Hb : forall c, In c cs -> psize (cust_body E c) <= list_sum (map (fun c => psize (cust_body E c)) cs)).
  { intros c. clear Hf. induction cs as [|a cs' IH]; [intros []|]. intros H.
    change (psize (cust_body E c) <= psize (cust_body E a) + list_sum (map (fun c => psize (cust_body E c)) cs')).
    destruct H as [->|H]; [lia|specialize (IH H); lia]. }
  assert (H : forall a, reach E p a -> psize a <= biggest p cs -> reach E a q -> psize q <= biggest p cs).
  { clear Hq. intros a Ha Hs Hr. induction Hr as [a|a b c Hi Hr IH]; auto. apply IH.
    - eapply reach_trans; eauto. eapply reach_step; [eauto|apply reach_refl].
    - destruct a; try (apply component_size in Hi; [lia|discriminate]).
      cbn in Hi. destruct Hi as [<-|[]]. specialize (Hb _ (Hf _ Ha)). unfold biggest. lia. }
  apply (H p); auto using reach_refl. unfold biggest. lia.
Qed.

Lemma acyclic_within p cs : no_left_recursion E p cs ->
  forall q, reach E p q -> within (S (S (List.length cs)) * S (biggest p cs)) q.
Proof.
  intros [Hfin Hac]. set (M := biggest p cs).
  assert (H : forall k vs q, List.length cs - List.length vs <= k -> NoDup vs -> incl vs cs -> reach E p q ->
    (forall v, In v vs -> clos_trans _ (calls_first E) (PCustom v) q) -> within (k * S M + psize q) q).
  { induction k as [k IHk] using lt_wf_ind. intros vs q Hk Hnd Hincl Hreach Hvs.
    remember (psize q) as n eqn:Hn. revert q Hn Hreach Hvs. induction n as [n IHn] using lt_wf_ind. intros q Hn Hreach Hvs.
    assert (Hpos : n = S (Nat.pred n)) by (destruct q; cbn in Hn; lia). rewrite Hpos, Nat.add_succ_r. cbn [within].
    intros r Hr. pose proof (left_component E _ _ _ Hr) as Hi.
    assert (Hreach' : reach E p r) by (eapply reach_trans; eauto; eapply reach_step; [eauto|apply reach_refl]).
    assert (Hvs' : forall v, In v vs -> clos_trans _ (calls_first E) (PCustom v) r) by (intros; eapply t_trans; [eauto|now apply t_step]).
    assert (HC : (exists c, q = PCustom c) \/ forall c, q <> PCustom c) by (destruct q; eauto; right; discriminate).
    destruct HC as [[c ->]|HC].
    - assert (Hnv : ~ In c vs) by (intros Hc; exact (Hac c Hreach (Hvs c Hc))).
      assert (Hlen : List.length (c :: vs) <= List.length cs).
      { apply NoDup_incl_length; [now constructor|]. intros x [<-|Hx]; auto. }
      cbn in Hlen. destruct k as [|k]; [lia|].
      apply (within_le (k * S M + psize r)).
      + apply (IHk k) with (vs := c :: vs); auto; [cbn; lia|now constructor|intros x [<-|Hx]; auto|].
        intros v [<-|Hv]; auto. now apply t_step.
      + pose proof (reach_size p cs r Hfin Hreach') as Hs. fold M in Hs. lia.
    - apply component_size in Hi; auto. apply (within_le (k * S M + psize r)); [|lia]. apply (IHn (psize r)); auto. lia. }
  intros q Hq. apply (within_le (List.length cs * S M + psize q)).
  - apply (H (List.length cs) [] q); auto; [lia|constructor|intros x []|intros v []].
  - pose proof (reach_size p cs q Hfin Hq) as Hs. fold M in Hs. lia.
Qed.

Lemma calm_le N N' W m q i : calm N E W m q i -> N <= N' -> calm N' E W m q i.
Proof. intros H Hle K. destruct (H K) as (o & Ho & Hr). exists o. split; auto. intros n k Hn Hk. apply (Hr n k); lia. Qed.

Lemma calm_all p R W : bodies_consume E p -> (forall q, reach E p q -> within R q) ->
  forall len, S (S len) <= W ->
  forall h q, reach E p q -> within h q -> forall i, sp_len i <= len -> valid E i -> forall m, calm (len * S R + h) E W m q i.
Proof.
  intros Hb HR. induction len as [len IHl] using lt_wf_ind. intros HW. induction h as [|h IHh]; intros q Hq Hw i Hi Hv m; [destruct Hw|].
  set (N := len * S R + h).
  assert (Hs : settles N (S (S (sp_len i))) (fun n k => step E (drun E W n) k m q i)).
  { apply (step_settles N E W (can_be_empty E) (can_be_empty_sound E)); auto.
    - intros r ->. apply Hb. eapply reach_trans; eauto. eapply reach_step; [now left|apply reach_refl].
    - intros m' r j Hin Hj Hlt.
      assert (Hreach : reach E p r) by (eapply reach_trans; eauto; eapply reach_step; [eauto|apply reach_refl]).
      assert (Hvj : valid E j) by eauto using suffix_valid. apply suffix_len in Hj.
      destruct (Nat.eq_dec (sp_len j) (sp_len i)) as [He|Hn].
      + destruct Hlt as [?|HL]; [lia|]. apply IHh; auto. lia.
      + destruct len as [|len]; [lia|].
        apply (calm_le (len * S R + R)); [|unfold N; lia]. apply (IHl len); auto; lia. }
  destruct Hs as (o & Ho & Hr). intros K. exists o. split; auto. intros n _ Hn _. destruct n as [|n]; [lia|]. cbn [drun].
  apply Hr; unfold N in *; lia.
Qed.

(** The calls nest to a depth of at most the length of the input times a number that depends
    on the parser alone; no loop runs more than two rounds more than the input has elements.
    The hypotheses are those of C33_terminates. *)
Theorem C53_depth_is_linear p cs : bodies_consume E p -> no_left_recursion E p cs ->
  exists K, forall m i, valid E i -> drun E (sp_len i + 2) (K * (sp_len i + 1)) m p i <> OOF.
Proof.
  intros Hb Hn. set (R := S (S (List.length cs)) * S (biggest p cs)). exists (S R). intros m i Hv.
  destruct (calm_all p R (sp_len i + 2) Hb (acyclic_within p cs Hn) (sp_len i) ltac:(lia) R p (reach_refl E p) (acyclic_within p cs Hn p (reach_refl E p)) i (le_n _) Hv m 0)
    as (o & Ho & Hr).
  rewrite (Hr _ 0); auto. nia.
Qed.

(** How deep: [k] custom parsers, [s] the sizes of [p] and their get_parser()s together. *)
Theorem C53_bound p cs k s : bodies_consume E p -> no_left_recursion E p cs ->
  List.length cs = k -> biggest p cs = s ->
  forall m i, valid E i -> drun E (sp_len i + 2) ((sp_len i + 1) * (k + 2) * (s + 2)) m p i <> OOF.
Proof.
  intros Hb Hn Hk Hs m i Hv. pose proof (acyclic_within p cs Hn) as HW. set (R := S (S (List.length cs)) * S (biggest p cs)) in *.
  destruct (calm_all p R (sp_len i + 2) Hb HW (sp_len i) ltac:(lia) R p (reach_refl E p) (HW p (reach_refl E p)) i (le_n _) Hv m 0) as (o & Ho & Hr).
  rewrite (Hr _ 0); auto. unfold R. rewrite Hk, Hs. nia.
Qed.

(** It is the program that is run so: what comes out is its outcome; and any outcome of the
    program comes out of it. *)
Theorem C53_same_program p m i o : evals E m p i o <-> o <> OOF /\ exists rounds depth, drun E rounds depth m p i = o.
Proof.
  split.
  - intros [Ho [n Hn]]. split; auto. exists n, n. destruct (run_drun E n n m p i (le_n _)) as [H|H]; congruence.
  - intros [Ho (W & d & H)]. split; auto. exists (W + d). destruct (drun_run E W d m p i) as [H'|H']; congruence.
Qed.
End C53.


(** The JSON example: the constants are those of its grammar. *)
Section C53_json.
Context (memory : nat -> list nat) (cons : ty -> list val -> fnres).
Notation J := (json_env memory cons).

Theorem C53_json p m i : json_entry p -> valid J i -> drun J (sp_len i + 2) (775 * (sp_len i + 1)) m p i <> OOF.
Proof.
  intros Hp Hv. destruct (json_checks memory cons p Hp) as (Hg & _).
  destruct (C33_check J _ _ _ _ Hg) as [Hb Hn].
  assert (Hs : biggest J p [0; 1; 2] <= 153).
  { destruct Hp as [<-|[<-|[<-|[<-|[<-|[]]]]]]; vm_compute; repeat constructor. }
  pose proof (C53_bound J p _ 3 _ Hb Hn eq_refl eq_refl m i Hv) as H.
  match type of H with drun _ _ ?k _ _ _ <> _ => destruct (drun_le J (sp_len i + 2) _ k (775 * (sp_len i + 1)) m p i (le_n _) ltac:(nia)) as [H'|H']; congruence end.
Qed.
End C53_json.

(** The algebraic example. *)
Section C53_algebraic.
Context (memory : nat -> list nat).
Notation A := (alg_env memory).

Theorem C53_algebraic p m i : alg_entry p -> valid A i -> drun A (sp_len i + 2) (752 * (sp_len i + 1)) m p i <> OOF.
Proof.
  intros Hp Hv. destruct (alg_checks memory p Hp) as (Hg & _).
  destruct (C33_check A _ _ _ _ Hg) as [Hb Hn].
  assert (Hs : biggest A p [0; 1; 2; 3; 4; 5] <= 92).
  { destruct Hp as [<-|[<-|[<-|[<-|[<-|[<-|[]]]]]]]; vm_compute; repeat constructor. }
  pose proof (C53_bound A p _ 6 _ Hb Hn eq_refl eq_refl m i Hv) as H.
  match type of H with drun _ _ ?k _ _ _ <> _ => destruct (drun_le A (sp_len i + 2) _ k (752 * (sp_len i + 1)) m p i (le_n _) ltac:(nia)) as [H'|H']; congruence end.
Qed.
End C53_algebraic.

(** Nested parentheses. *)
Example C53_case : let p := PSequence (PCustom 0) [PMaybe (PAllOf (codes "+")); PZeroOrMore (PAnyOf (codes "0123456789,"))] in
  bodies_consume sx p /\ no_left_recursion sx p [0; 1] /\ valid sx in1 /\ drun sx (sp_len in1 + 2) (biggest sx p [0; 1] * (sp_len in1 + 1)) Parse p in1 <> OOF
  /\ drun sx 100 2 Parse p in1 = OOF.
Proof.
  cbn zeta. set (p := PSequence _ _).
  destruct (C33_check sx (fun _ => false) (fun _ => 0) [0; 1] p eq_refl) as [H1 H2].
  repeat split; auto using in1_valid; try apply H2; vm_compute; try discriminate; reflexivity.
Qed.

Print Assumptions C53_depth_is_linear.
Print Assumptions C53_bound.
Print Assumptions C53_same_program.
Print Assumptions C53_json.
Print Assumptions C53_algebraic.
