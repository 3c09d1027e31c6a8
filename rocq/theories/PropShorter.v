(** * Property C85: parsers that need only what they consume; input that arrives in pieces *)
From Coq Require Import String List Arith ZArith Bool Lia.
From Verif Require Import Types Compound Parser Outcome CompoundFacts Exec Mono Derive Typing Join Leaves Sound
  BigStep BigSound BigComplete Runs Elems Samples PropCore Reloc PropReloc Extend Raises PropExtend Peg Throws Term Lang LL1 Lossless Agree
  PropTerm PropLang ExJson PropJson Final PropFinal Shorter.
Import ListNotations.

(** The first [n] elements of an input. *)
Definition front (n : nat) (i : span) : span := Span (sp_blk i) (sp_off i) n.

(** The input can be shortened at its end as long as the parser's success leaves an input that
    begins as [k] says. *)
Theorem C85_shorter {T V} (E : env T V) teq sep n tab m p k i v rem tr y :
  (forall t t', teq t t' = true -> t = t') -> (forall t t' c, sep t t' = true -> eqv E t c = true -> eqv E t' c = false) ->
  (forall c, final_custom E teq sep n tab c = true) -> final E teq sep n tab p k = true ->
  valid E i -> gives E m p i v rem tr -> y <= sp_len rem -> begins_as E k (front y rem) ->
  gives E m p (front (sp_len i - sp_len rem + y) i) v (front y rem) tr.
Proof.
  intros Ht Hs Htab Hf Hv Hg Hy Hk. apply gives_big in Hg; auto. pose proof (big_succ_valid E _ _ _ _ _ _ Hv Hg) as Hr.
  assert (HL : sp_len rem <= sp_len i) by (destruct (proj1 (proj1 (big_suffix E) _ _ _ _ _ Hg)) as (c & _ & Hc); cbn in Hc; rewrite Hc; cbn; lia).
  assert (Hvr : valid E (front y rem)) by (unfold valid, front in *; cbn; lia).
  assert (Hc : cut (sp_len rem - y) rem = front y rem) by (unfold cut, front; f_equal; lia).
  assert (Hc' : cut (sp_len rem - y) i = front (sp_len i - sp_len rem + y) i) by (unfold cut, front; f_equal; lia).
  assert (Hb := proj1 (final_cut E teq sep Ht Hs (sp_len rem - y) n tab Htab) _ _ _ _ _ Hg Hv k v Hf eq_refl). cbn [r_rem] in Hb.
  rewrite Hc, Hc' in Hb. unfold cut_result in Hb. cbn [r_ok r_rem] in Hb. rewrite Hc in Hb. apply gives_big.
  - unfold valid, front in *. cbn. lia.
  - apply Hb; [lia|]. now apply begins_holds.
Qed.

(** Parsers that pass the test whatever follows: a success depends only on the elements that it
    consumes.  It is the same on every input, in every memory, that starts with them, and makes
    the same calls of user code there. *)
Theorem C85_consumed {T V} (E : env T V) teq sep n tab m p i v rem tr :
  (forall t t', teq t t' = true -> t = t') -> (forall t t' c, sep t t' = true -> eqv E t c = true -> eqv E t' c = false) ->
  (forall c, final_custom E teq sep n tab c = true) -> final E teq sep n tab p None = true ->
  valid E i -> gives E m p i v rem tr ->
  forall mm more, same_input E mm (front (sp_len i - sp_len rem) i) -> valid (with_mem E mm) (front (sp_len i - sp_len rem + more) i) ->
    gives (with_mem E mm) m p (front (sp_len i - sp_len rem + more) i) v (front more rem) tr.
Proof.
  intros Ht Hs Htab Hf Hv Hg mm more Hi Hvm.
  assert (H0 := C85_shorter E teq sep n tab m p None i v rem tr 0 Ht Hs Htab Hf Hv Hg (Nat.le_0_l _) Logic.I). rewrite Nat.add_0_r in H0.
  assert (Hv0 : valid E (front (sp_len i - sp_len rem) i)) by (unfold valid, front in *; cbn; lia).
  destruct (C84_final E teq sep n tab m p None _ v _ tr Ht Hs Htab Hf Hv0 H0 Logic.I) as [_ H1]. exact (H1 mm more Hi Hvm).
Qed.

(** Input that arrives in pieces: such a parser succeeds on the elements that are there exactly
    if it succeeds on the whole input and what it consumes is there, with the same value. *)
Theorem C85_pieces {T V} (E : env T V) teq sep n tab m p i v tr c j :
  (forall t t', teq t t' = true -> t = t') -> (forall t t' c, sep t t' = true -> eqv E t c = true -> eqv E t' c = false) ->
  (forall c, final_custom E teq sep n tab c = true) -> final E teq sep n tab p None = true ->
  valid E i -> c <= j <= sp_len i ->
  gives E m p (front j i) v (adv (front j i) c) tr <-> gives E m p i v (adv i c) tr.
Proof.
  intros Ht Hs Htab Hf Hv Hj. split; intros Hg.
  - assert (Hvj : valid E (front j i)) by (unfold valid, front in *; cbn; lia).
    destruct (C84_final E teq sep n tab m p None _ v _ tr Ht Hs Htab Hf Hvj Hg Logic.I) as [_ H1].
    assert (HE : with_mem E (mem E) = E) by (destruct E; reflexivity).
    specialize (H1 (mem E) (sp_len i - j) (fun _ _ => eq_refl)). rewrite HE in H1.
    replace (grow (sp_len i - j) (front j i)) with i in H1 by (unfold grow, front; destruct i; cbn in *; f_equal; lia).
    replace (grow (sp_len i - j) (adv (front j i) c)) with (adv i c) in H1 by (unfold grow, front, adv; cbn in *; f_equal; lia). auto.
  - assert (H1 := C85_shorter E teq sep n tab m p None i v _ tr (j - c) Ht Hs Htab Hf Hv Hg). cbn [adv sp_len] in H1.
    replace (sp_len i - (sp_len i - c) + (j - c)) with j in H1 by lia.
    replace (front (j - c) (adv i c)) with (adv (front j i) c) in H1 by (unfold front, adv; cbn; f_equal; lia). apply H1; [lia|exact Logic.I].
Qed.

(** So a parser that has succeeded on the whole input succeeds on no part that ends earlier than
    what it consumed: the first success is the answer, none comes too early. *)
Theorem C85_not_early {T V} (E : env T V) teq sep n tab m p i v tr c j w rem' tr' :
  (forall t t', teq t t' = true -> t = t') -> (forall t t' c, sep t t' = true -> eqv E t c = true -> eqv E t' c = false) ->
  (forall c, final_custom E teq sep n tab c = true) -> final E teq sep n tab p None = true ->
  valid E i -> gives E m p i v (adv i c) tr -> c <= sp_len i -> j < c -> ~ gives E m p (front j i) w rem' tr'.
Proof.
  intros Ht Hs Htab Hf Hv Hg Hc Hj Hg'. assert (Hvj : valid E (front j i)) by (unfold valid, front in *; cbn; lia).
  assert (Hb := Hg'). apply gives_big in Hb; auto. destruct (proj1 (proj1 (big_suffix E) _ _ _ _ _ Hb)) as (d & Hd & Hr). cbn in Hd, Hr.
  rewrite Hr in Hg'. apply (proj1 (C85_pieces E teq sep n tab m p i w tr' d j Ht Hs Htab Hf Hv ltac:(lia))) in Hg'.
  pose proof (evals_det E _ _ _ _ _ Hg Hg') as He. injection He as _ _ He _. lia.
Qed.

(** Case: the lists of the sample grammar (C84_case) on "((a)b)+12": read from the whole text and
    from its first six or seven elements, not from the first five. *)
Example C85_case :
  (forall c, final_custom sx Nat.eqb apart_nat 9 C84_tab c = true) /\ final sx Nat.eqb apart_nat 9 C84_tab (PCustom 0) None = true /\
  valid sx (Span 1 0 9) /\
  (exists v tr, gives sx Parse (PCustom 0) (Span 1 0 9) v (Span 1 6 3) tr /\ gives sx Parse (PCustom 0) (front 6 (Span 1 0 9)) v (Span 1 6 0) tr /\
     gives sx Parse (PCustom 0) (front 7 (Span 1 0 9)) v (Span 1 6 1) tr) /\
  (exists tr, refuses sx Parse (PCustom 0) (front 5 (Span 1 0 9)) tr).
Proof.
  split; [intros [|[|c]]; vm_compute; reflexivity|]. split; [vm_compute; reflexivity|]. split; [unfold valid; cbn; lia|].
  split; [do 2 eexists; split; [runs 20|split; runs 20]|eexists; runs 20].
Qed.

(** ** The JSON example: strings, objects and arrays (examples/json/json.cpp:12-102) *)
Section Json.
Context (memory : nat -> list nat) (cons : ty -> list val -> fnres).
Notation J := (json_env memory cons).
Theorem C85_json_pieces m p i v tr c j : p = str \/ p = json_object \/ p = json_array -> valid J i -> c <= j <= sp_len i ->
  gives J m p (front j i) v (adv (front j i) c) tr <-> gives J m p i v (adv i c) tr.
Proof.
  intros Hp. apply (C85_pieces J Nat.eqb apart_nat 8 json_follow m p i v tr c j teq_nat sep_nat (json_final memory cons)).
  destruct Hp as [-> |[-> | ->]]; vm_compute; reflexivity.
Qed.
Theorem C85_json_not_early m p i v tr c j w rem' tr' : p = str \/ p = json_object \/ p = json_array -> valid J i ->
  gives J m p i v (adv i c) tr -> c <= sp_len i -> j < c -> ~ gives J m p (front j i) w rem' tr'.
Proof.
  intros Hp. apply (C85_not_early J Nat.eqb apart_nat 8 json_follow m p i v tr c j w rem' tr' teq_nat sep_nat (json_final memory cons)).
  destruct Hp as [-> |[-> | ->]]; vm_compute; reflexivity.
Qed.
(** If the constructors do not throw, each part of the input has one of two answers: the one of
    the whole input, or none, and then what the whole input's answer consumes (if it has one) is
    not there yet. *)
Theorem C85_json_stream m p i j : json_cons_typed cons -> (forall t args e, cons t args <> FThrow e) ->
  p = str \/ p = json_object \/ p = json_array -> valid J i -> j <= sp_len i ->
  (exists v c tr, c <= j /\ gives J m p (front j i) v (adv (front j i) c) tr /\ gives J m p i v (adv i c) tr) \/
  ((exists tr, refuses J m p (front j i) tr) /\ forall v rem tr, gives J m p i v rem tr -> j < sp_len i - sp_len rem).
Proof.
  intros Hc Hx Hp Hv Hj. assert (Hvj : valid J (front j i)) by (unfold valid, front in *; cbn [sp_blk sp_off sp_len]; lia).
  assert (HE : json_entry p) by (unfold json_entry; cbn [In]; destruct Hp as [-> |[-> | ->]]; tauto).
  destruct (C39_json_terminates memory cons Hc p m (front j i) HE Hvj) as (o & Ho & Hs).
  assert (HD : exists r tr, o = Done r tr) by (destruct o; try easy; [eauto|destruct Hs as (_ & t & args & Ht); now destruct (Hx t args e)]).
  destruct HD as (r & tr & ->). assert (Hb := Ho). apply evals_big in Hb; auto. destruct r as [[v|] rem].
  - left. destruct (proj1 (proj1 (big_suffix J) _ _ _ _ _ Hb)) as (d & Hd & Hr). cbn in Hd, Hr. subst rem. exists v, d, tr. split; [exact Hd|]. split; [exact Ho|].
    apply (C85_json_pieces m p i v tr d j Hp Hv ltac:(lia)). exact Ho.
  - right. assert (Hr : rem = front j i) by exact (proj2 (proj1 (big_suffix J) _ _ _ _ _ Hb) eq_refl). subst rem. split; [now exists tr|].
    intros v rem tr' Hg. assert (Hb' := Hg). apply gives_big in Hb'; auto. destruct (proj1 (proj1 (big_suffix J) _ _ _ _ _ Hb')) as (d & Hd & Hr). cbn in Hr. subst rem.
    cbn [adv sp_len]. destruct (le_lt_dec d j) as [Hdj|]; [|lia]. exfalso.
    apply (proj2 (C85_json_pieces m p i v tr' d j Hp Hv ltac:(lia))) in Hg. pose proof (evals_det J _ _ _ _ _ Ho Hg). discriminate.
Qed.
(** A value inside an object or an array needs the element after it and no more (case:
    C84_case_json). *)
Theorem C85_json_value m i v rem tr c r : valid J i -> gives J m json_value i v rem tr ->
  elems J rem = c :: r -> In c (codes ",]}") ->
  gives J m json_value (front (sp_len i - sp_len rem + 1) i) v (front 1 rem) tr.
Proof.
  intros Hv Hg He Hc. assert (Hr : valid J rem) by (eapply gives_valid; eauto).
  assert (Hl := elems_length J rem Hr). rewrite He in Hl. cbn [List.length] in Hl.
  apply (C85_shorter J Nat.eqb apart_nat 8 json_follow m json_value (begins_ [(false, codes ",]}")]) i v rem tr 1 teq_nat sep_nat (json_final memory cons)); auto; [lia|].
  exists [], c, []. split; [|split; [constructor|cbn in Hc; destruct Hc as [<- |[<- |[<- |[]]]]; reflexivity]].
  cbn [app]. unfold elems in *. cbn [front sp_blk sp_off sp_len]. destruct (skipn (sp_off rem) (mem J (sp_blk rem))) as [|c' l].
  - now rewrite firstn_nil in He.
  - destruct (sp_len rem); [discriminate|]. cbn [firstn] in *. now injection He as -> _.
Qed.
End Json.

(** Case, with a text of C39: an array that fills its input (C84_case_json) is not read before its
    last bracket is there. *)
Example C85_case_json : let J := json_env json_text json_cons in
  (exists v tr, gives J Parse json_array (Span 2 1 21) v (adv (Span 2 1 21) 21) tr) /\ valid J (Span 2 1 21) /\
  (exists tr, refuses J Parse json_array (front 20 (Span 2 1 21)) tr) /\
  json_cons_typed json_cons /\ (forall t args e, json_cons t args <> FThrow e).
Proof.
  cbv zeta. split; [do 2 eexists; runs 60|]. split; [unfold valid; vm_compute; lia|]. split; [eexists; runs 60|].
  split; [exact (proj1 C39_case)|]. intros t args e; destruct t; discriminate.
Qed.

(** Without the test it is not so: this parser reads one [a] of [aab], and reads it in another
    way if the text ends there. *)
Definition C85_peeks : parser nat := PChoice (PSequence (PMaybe (PAllOf (codes "aa"))) [PAllOf (codes "a")]) [PAllOf (codes "a")].
Theorem C85_test_matters :
  exists v v', v <> v' /\ gives sx Parse C85_peeks (Span 1 14 3) v (Span 1 15 2) [] /\
    gives sx Parse C85_peeks (front 1 (Span 1 14 3)) v' (Span 1 15 0) [] /\ final sx Nat.eqb apart_nat 9 C84_tab C85_peeks None = false.
Proof. eexists _, _. split; [|split; [runs 20|split; [runs 20|vm_compute; reflexivity]]]. discriminate. Qed.

Print Assumptions C85_shorter.
Print Assumptions C85_consumed.
Print Assumptions C85_pieces.
Print Assumptions C85_not_early.
Print Assumptions C85_json_pieces.
Print Assumptions C85_json_not_early.
Print Assumptions C85_json_stream.
Print Assumptions C85_json_value.
Print Assumptions C85_test_matters.
