(** * Whole grammars: parse, too, recognises as a PEG does

    C05 and C38 together, for grammars in which nothing rejects after success ([steady]). *)
From Coq Require Import String List Arith ZArith Bool Lia.
From Verif Require Import Types Compound Parser Outcome CompoundFacts Exec Mono Derive Typing Join Leaves Sound
  BigStep BigSound BigComplete Peg Elems Runs PropCore PropPeg Lossless Agree Check PropAgree.
Import ListNotations.

Section Grammar.
Context {T V : Type} (E : env T V).

(** The rest of [i] after [c] elements. *)
Definition after (i : span) (c : nat) : span := Span (sp_blk i) (sp_off i + c) (sp_len i - c).

Lemma peg_parse p i o : program E -> valid E i -> compiles E Parse p = true -> compiles E Look p = true -> steady E p ->
  peg E p (elems E i) o ->
  (exists e, evals E Parse p i (Exn e)) \/
  match o with
  | Some c => exists v tr, evals E Parse p i (Done (Res (Some v) (after i c)) tr)
  | None => exists tr, evals E Parse p i (Done (Res None i) tr)
  end.
Proof.
  intros HP Hv Hp Hl Hs Ho.
  assert (He : evals E Look p i (Done (peg_result i o) [])).
  { apply C38_lookahead_is_peg; auto; [|eauto]. intros c. apply (ec_compiles E (proj2 HP)). }
  assert (Hr : exists ok rem, peg_result i o = Res ok rem) by (destruct (peg_result i o); eauto).
  destruct Hr as (ok & rem & Hr). rewrite Hr in He.
  destruct (C05_lookahead_implies_parse_partial E p i ok rem [] HP Hv Hp (steady_parsed E p Hs) (steady_join_local E p Hs) He) as [H|[[-> [tr H]]|[Hn (v & tr & H)]]]; auto.
  - right. destruct o as [c|]; cbn in Hr; [discriminate|]. injection Hr as <-. eauto.
  - right. destruct o as [c|]; cbn in Hr; [|congruence]. injection Hr as <- <-. exists v, tr. exact H.
Qed.

Lemma parse_peg p i ok rem tr : program E -> valid E i -> compiles E Parse p = true -> compiles E Look p = true -> steady E p ->
  evals E Parse p i (Done (Res ok rem) tr) ->
  exists o, peg E p (elems E i) o /\
    match o with Some c => ok <> None /\ rem = after i c | None => ok = None /\ rem = i end.
Proof.
  intros HP Hv Hp Hl Hs He.
  assert (HL : evals E Look p i (Done (Res (match ok with Some _ => Some RVoid | None => None end) rem) [])).
  { destruct ok as [v|].
    - now apply (C05_parse_implies_lookahead_partial E p i v rem tr HP Hv Hp (steady_parsed E p Hs)).
    - now apply (C05_parse_implies_lookahead_partial E p i RVoid rem tr HP Hv Hp (steady_parsed E p Hs)). }
  apply C38_lookahead_is_peg in HL as (_ & o & Ho & Hr); auto; [|intros c; apply (ec_compiles E (proj2 HP))].
  exists o. split; auto. destruct o as [c|], ok; cbn in Hr; try discriminate; injection Hr as ->; auto.
  split; [discriminate|reflexivity].
Qed.
End Grammar.
