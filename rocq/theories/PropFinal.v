(** * Property C84: parsers whose successes are final *)
From Coq Require Import String List Arith ZArith Bool Lia.
From Verif Require Import Types Compound Parser Outcome CompoundFacts Exec Mono Derive Typing Join Leaves Sound
  BigStep BigSound BigComplete Runs Elems Samples PropCore Reloc PropReloc Extend Raises PropExtend Peg Throws Term Lang LL1 Lossless Agree
  PropTerm PropLang ExJson ExAlgebraic PropJson Final.
Import ListNotations.

(** The input begins with elements of the classes [A] and then one of the classes [B]
    ([None]: nothing is said). *)
Definition begins_as {T V} (E : env T V) (k : option (list (bool * list T) * list (bool * list T))) (i : span) : Prop :=
  match k with
  | None => True
  | Some (A, B) => exists w c r, elems E i = w ++ c :: r /\ Forall (fun x => fits_some E A x = true) w /\ fits_some E B c = true
  end.

Lemma begins_holds {T V} (E : env T V) k i : valid E i -> begins_as E k i -> holds E k i.
Proof.
  intros Hv. destruct k as [[A B]|]; [|auto]. intros (w & c & r & He & HA & HB).
  assert (Hl := elems_length E i Hv). rewrite He, app_length in Hl. cbn [List.length] in Hl. exists (List.length w). split; [lia|]. split.
  - intros l Hlt. destruct (nth_error w l) as [x|] eqn:Hx; [|apply nth_error_None in Hx; lia].
    exists x. split; [|rewrite Forall_forall in HA; apply HA; eapply nth_error_In; exact Hx].
    rewrite <- (elems_nth E i l) by lia. rewrite He, nth_error_app1 by lia. exact Hx.
  - exists c. split; auto. rewrite <- (elems_nth E i) by lia. rewrite He, nth_error_app2 by lia. now rewrite Nat.sub_diag.
Qed.

(** [m], [p] on [i] returned [v] and left [rem]: so it does, with the same calls of user code,
    on every input that starts with the elements of [i], whatever else is in memory. *)
Definition settled {T V} (E : env T V) (m : mode) (p : parser T) (i : span) (v : rv) (rem : span) (tr : list event) : Prop :=
  forall mm more, same_input E mm i -> valid (with_mem E mm) (grow more i) ->
    gives (with_mem E mm) m p (grow more i) v (grow more rem) tr.

(** The test [final] (with a table [tab] for the custom parsers) is right: no successful run of
    the parser that leaves an input that begins as [k] says looks at the end of its input, and
    its answer is settled. *)
Theorem C84_final {T V} (E : env T V) teq sep n tab m p k i v rem tr :
  (forall t t', teq t t' = true -> t = t') -> (forall t t' c, sep t t' = true -> eqv E t c = true -> eqv E t' c = false) ->
  (forall c, final_custom E teq sep n tab c = true) -> final E teq sep n tab p k = true ->
  valid E i -> gives E m p i v rem tr -> begins_as E k rem ->
  ~ sees_end E m p i /\ settled E m p i v rem tr.
Proof.
  intros Ht Hs Htab Hf Hv Hg Hk. assert (Hb := Hg). apply gives_big in Hb; auto.
  assert (Hvr := big_succ_valid E _ _ _ _ _ _ Hv Hb).
  assert (Hn : ~ sees_end E m p i).
  { exact (proj1 (final_ok E teq sep Ht Hs n tab Htab) _ _ _ _ _ Hb Hv k v Hf eq_refl (begins_holds E k rem Hvr Hk)). }
  split; auto. intros mm more Hi Hvm. destruct (C79_final E mm m p i _ tr more Hv Hg Hi Hvm) as [H|H]; [contradiction|exact H].
Qed.

(** Case: the lists of the sample grammar, whatever follows; [tab]: a word is followed by
    a parenthesis.  A list that fills its input. *)
Definition C84_tab (c : nat) : option (@ctx nat) :=
  match c with 0 => Some None | 1 => Some (begins_ [(false, codes "()abcdefghijklmnopqrstuvwxyz")]) | _ => None end.
Example C84_case :
  (forall c, final_custom sx Nat.eqb apart_nat 9 C84_tab c = true) /\ final sx Nat.eqb apart_nat 9 C84_tab (PCustom 0) None = true /\
  (exists v tr, gives sx Parse (PCustom 0) (Span 1 0 6) v (Span 1 6 0) tr) /\ begins_as sx None (Span 1 6 0).
Proof.
  split; [intros [|[|c]]; vm_compute; reflexivity|]. split; [vm_compute; reflexivity|]. split; [|exact Logic.I]. do 2 eexists. runs 20.
Qed.

(** ** The JSON example (examples/json/json.cpp:12-102) *)
Section Json.
Context (memory : nat -> list nat) (cons : ty -> list val -> fnres).
Notation J := (json_env memory cons).

(** What follows a value inside an object or an array. *)
Definition json_follow (c : nat) : option (@ctx nat) :=
  match c with 0 => Some (begins_ [(false, codes ",]}")]) | 1 | 2 => Some None | _ => None end.
Lemma json_final c : final_custom J Nat.eqb apart_nat 8 json_follow c = true.
Proof. destruct c as [|[|[|c]]]; [vm_compute; reflexivity..|reflexivity]. Qed.

(** A string, an object or an array that was read is settled, whatever follows, in every program
    with this grammar (whatever the constructors do that it calls). *)
Theorem C84_json m p i v rem tr : p = str \/ p = json_object \/ p = json_array -> valid J i -> gives J m p i v rem tr ->
  settled J m p i v rem tr.
Proof.
  intros Hp Hv Hg.
  apply (C84_final J Nat.eqb apart_nat 8 json_follow m p None i v rem tr teq_nat sep_nat json_final); auto; [|exact Logic.I].
  destruct Hp as [-> |[-> | ->]]; vm_compute; reflexivity.
Qed.

(** A value is settled once a comma or a closing bracket follows it; a number, once an element
    follows that is neither a digit nor one of [.eE]. *)
Theorem C84_json_value m i v rem tr c r : valid J i -> gives J m json_value i v rem tr ->
  elems J rem = c :: r -> In c (codes ",]}") -> settled J m json_value i v rem tr.
Proof.
  intros Hv Hg He Hc.
  apply (C84_final J Nat.eqb apart_nat 8 json_follow m json_value (begins_ [(false, codes ",]}")]) i v rem tr teq_nat sep_nat json_final); auto.
  exists [], c, r. split; [exact He|]. split; [constructor|].
  cbn in Hc. destruct Hc as [<- |[<- |[<- |[]]]]; reflexivity.
Qed.
Theorem C84_json_number m i v rem tr c r : valid J i -> gives J m number i v rem tr ->
  elems J rem = c :: r -> ~ In c (codes "0123456789.eE") -> settled J m number i v rem tr.
Proof.
  intros Hv Hg He Hc.
  apply (C84_final J Nat.eqb apart_nat 8 json_follow m number (begins_ [(true, codes "0123456789.eE")]) i v rem tr teq_nat sep_nat json_final); auto.
  exists [], c, r. split; [exact He|]. split; [constructor|].
  unfold fits_some. cbn [existsb]. rewrite orb_false_r. apply not_in_set_fits. intros (t & Ht & Hq). apply Hc.
  cbn in Hq. apply Nat.eqb_eq in Hq. now subst.
Qed.
End Json.

(** Cases, with the texts of C39: an array that fills its input; a value that is followed by a
    comma. *)
Example C84_case_json : let J := json_env json_text json_cons in
  (exists v tr, gives J Parse json_array (Span 2 1 21) v (Span 2 22 0) tr /\ tr <> []) /\
  (exists v tr r, gives J Parse json_value (Span 2 2 20) v (Span 2 5 17) tr /\ elems J (Span 2 5 17) = 44 :: r) /\
  (exists v tr r, gives J Parse number (Span 1 0 9) v (Span 1 8 1) tr /\ elems J (Span 1 8 1) = 120 :: r).
Proof.
  split; [|split].
  - do 2 eexists. split; [runs 60|discriminate].
  - do 3 eexists. split; [runs 60|vm_compute; reflexivity].
  - do 3 eexists. split; [runs 60|vm_compute; reflexivity].
Qed.

(** ** Numbers of the algebraic example (examples/algebraic/parser.h:32-49): the condition on
    what follows is the same.  The expressions are beyond the test: after [-] an expression may be
    followed, as far as it knows, by the operators of the one around it. *)
Definition algebraic_follow (c : nat) : option (@ctx nat) :=
  match c with 0 => Some (begins_ [(true, codes "0123456789.eE")]) | _ => None end.
Theorem C84_algebraic_number memory m i v rem tr c r : let A := alg_env memory in valid A i -> gives A m alg_number i v rem tr ->
  elems A rem = c :: r -> ~ In c (codes "0123456789.eE") -> settled A m alg_number i v rem tr.
Proof.
  intros A Hv Hg He Hc.
  apply (C84_final A Nat.eqb apart_nat 8 algebraic_follow m alg_number (begins_ [(true, codes "0123456789.eE")]) i v rem tr teq_nat); auto.
  - exact sep_nat.
  - intros [|k]; [vm_compute|]; reflexivity.
  - exists [], c, r. split; [exact He|]. split; [constructor|].
    unfold fits_some. cbn [existsb]. rewrite orb_false_r. apply not_in_set_fits. intros (t & Ht & Hq). apply Hc.
    cbn in Hq. apply Nat.eqb_eq in Hq. now subst.
Qed.
Example C84_case_algebraic : let A := alg_env (fun _ => codes "12.5e-3+1") in
  exists v tr, gives A Parse alg_number (Span 0 0 9) v (Span 0 7 2) tr /\ elems A (Span 0 7 2) = codes "+1".
Proof. do 2 eexists. split; [runs 60|vm_compute; reflexivity]. Qed.

(** The conditions on what follows matter: a number, and so a value, that fills its input
    is not settled. *)
Theorem C84_number_open : let J := json_env json_text json_cons in
  exists i v rem tr, valid J i /\ gives J Parse number i v rem tr /\ ~ settled J Parse number i v rem tr.
Proof.
  cbv zeta. set (J := json_env json_text json_cons). exists (Span 1 0 2).
  eexists _, (Span 1 2 0), _. split; [unfold valid; cbn; lia|]. split; [runs 60|]. intros H.
  assert (H1 : valid (with_mem J (mem J)) (grow 1 (Span 1 0 2))) by (unfold valid; cbn; lia).
  specialize (H (mem J) 1 (fun k Hk => eq_refl) H1).
  assert (H2 : exists v tr, evals (with_mem J (mem J)) Parse number (Span 1 0 3) (Done (Res (Some v) (Span 1 3 0)) tr)) by (do 2 eexists; runs 60).
  destruct H2 as (v & tr & H2). pose proof (evals_det _ _ _ _ _ _ H H2). discriminate.
Qed.

(** So do the others: [complete], a repetition at the end, and an alternative that comes first
    and was cut off are refused by the test. *)
Example C84_refused :
  final sx Nat.eqb apart_nat 9 C84_tab (PComplete (PCustom 0)) None = false /\
  final sx Nat.eqb apart_nat 9 C84_tab C79_as None = false /\
  final sx Nat.eqb apart_nat 9 C84_tab C79_alt None = false.
Proof. repeat split; vm_compute; reflexivity. Qed.

Print Assumptions C84_final.
Print Assumptions C84_json.
Print Assumptions C84_json_value.
Print Assumptions C84_json_number.
Print Assumptions C84_algebraic_number.
Print Assumptions C84_number_open.
