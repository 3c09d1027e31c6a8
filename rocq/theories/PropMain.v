(** * Property C78: what the programs of the examples do *)
From Coq Require Import String List Arith ZArith QArith Bool Lia.
From Verif Require Import Types Compound Parser Outcome CompoundFacts Exec Mono Derive Typing Join Leaves Sound
  BigStep BigSound BigComplete Peg Elems Runs Samples PropCore PropBasic PropPeg Lossless Agree Check PropAgree Grammar CharPeg Names PropNames Term PropTerm
  StaticArray Operators PropSets Modifiers ExJson Shape ExAlgebraic PropAlgebraic ExprGrammar PropExpr PropPrint PropJson JsonGrammar PropJsonDoc ExMain.
Import ListNotations.
Local Open Scope nat_scope.

(** The program ends with [e], whatever the fuel from some amount on. *)
Definition finally {D} (f : nat -> ending D) (e : ending D) : Prop := e <> NoFuel /\ exists N, forall n, N <= n -> f n = e.

Lemma finally_det {D} (f : nat -> ending D) e e' : finally f e -> finally f e' -> e = e'.
Proof. intros (_ & N & H) (_ & N' & H'). rewrite <- (H (N + N')), <- (H' (N + N')); auto; lia. Qed.

Lemma finally_then {D} (f g : nat -> ending D) a b : finally f a -> finally g b -> finally (fun n => and_then (f n) (g n)) (and_then a b).
Proof.
  intros (Ha & N & H) (Hb & N' & H'). split.
  - destruct a, b; cbn; congruence.
  - exists (N + N'). intros n Hn. now rewrite H, H' by lia.
Qed.
Lemma finally_const {D} (e : ending D) : e <> NoFuel -> finally (fun _ => e) e.
Proof. split; auto. now exists 0. Qed.

Lemma and_then_ends {D} (a b : ending D) out :
  and_then a b = Ends out <-> exists l l', a = Ends l /\ b = Ends l' /\ out = l ++ l'.
Proof.
  split.
  - destruct a, b; cbn; try discriminate. intros [= <-]. eauto.
  - intros (l & l' & -> & -> & ->). reflexivity.
Qed.
Lemma and_then_undefined {D} (a b : ending D) : and_then a b = Undefined <-> a = Undefined \/ (exists l, a = Ends l) /\ b = Undefined.
Proof.
  split.
  - destruct a, b; cbn; try discriminate; eauto.
  - intros [-> |[[l ->] ->]]; reflexivity.
Qed.

Section Algebraic.
Context (memory : nat -> list nat) (F : doubles).
Notation A := (alg_env memory).

(** ** What the texts say *)

(** The text is an expression, and its value is [d]. *)
Definition denotes (t : list nat) (d : dbl F) : Prop := exists a, spells_input a t /\ value F a = Some d.
(** The text is an expression without a value: a number in it cannot be read. *)
Definition valueless (t : list nat) : Prop := exists a, spells_input a t /\ value F a = None.

(** The output of the first part of the program. *)
Definition opens (t : list nat) (out : list (emitted (dbl F))) : Prop :=
  (exists a d, spells_input a t /\ nesting a <= 204 /\ value F a = Some d /\
     out = [Chars (outline_text (outline a)); Chars [10]; Number d; Chars [10]]) \/
  (~ bnf_input t /\ out = [Chars (codes "Parse failure." ++ [10])]).
(** Brackets and negations nest too deep to be printed. *)
Definition too_deep (t : list nat) : Prop := exists a, spells_input a t /\ 204 < nesting a.

Lemma literal_valid k : valid A (literal_at memory k).
Proof. unfold valid. cbn. lia. Qed.
Lemma literal_elems k : elems A (literal_at memory k) = memory k.
Proof. unfold elems. cbn. apply firstn_all. Qed.

Lemma parse_case k :
  (exists a v, spells_input a (memory k) /\
    (forall found empty, exists N, forall n, N <= n -> with_parsed memory F n k found empty = found v) /\
    evaluated memory F v = match value F a with Some d => Ends [Number d] | None => Dies end /\
    printed_by memory F v = if nesting a <=? 204 then Ends [Chars (outline_text (outline a))] else Undefined) \/
  (~ bnf_input (memory k) /\ forall found empty, exists N, forall n, N <= n -> with_parsed memory F n k found empty = empty).
Proof.
  pose proof (literal_valid k) as Hv.
  destruct (C40_parser_terminates memory alg_input Parse (literal_at memory k)) as ([[v|] rem] & tr & H); auto.
  { unfold alg_entry. cbn. auto 8. }
  - left. destruct (C56_prints_outline _ _ _ _ _ Hv H) as (x & a & -> & Ha & O1 & O2).
    destruct (C48_value_of_text memory F _ a Hv Ha) as (x' & rem' & tr' & H' & Hd).
    pose proof (evals_det _ _ _ _ _ _ H H') as E. injection E as <- _ _.
    destruct (C40_evaluate_is_safe memory F _ _ _ _ Hv H) as (x'' & [= <-] & Hs).
    exists a, x. rewrite <- (literal_elems k) at 1. split; [exact Ha|]. split; [|split].
    + intros found empty. destruct (evals_ge _ _ _ _ _ H) as [N HN]. exists N. intros n Hn. unfold with_parsed. now rewrite HN.
    + unfold evaluated. destruct (evaluate memory F KExpr x) as [d| | | | | |]; try easy.
      * now rewrite (proj1 (Hd d) eq_refl).
      * destruct (value F a) as [d|]; auto. specialize (proj2 (Hd d) eq_refl). discriminate.
      * destruct (value F a) as [d|]; auto. specialize (proj2 (Hd d) eq_refl). discriminate.
    + unfold printed_by. destruct (Nat.leb_spec (nesting a) 204) as [Hn|Hn].
      * destruct (O1 Hn) as (ps & -> & ->). reflexivity.
      * now rewrite (O2 Hn).
  - right. split.
    + rewrite <- (literal_elems k). intros Hb. apply C49_accepts_documented_grammar in Hb as (v & rem' & tr' & H'); auto.
      pose proof (evals_det _ _ _ _ _ _ H H'). discriminate.
    + intros found empty. destruct (evals_ge _ _ _ _ _ H) as [N HN]. exists N. intros n Hn. unfold with_parsed. now rewrite HN.
Qed.

Lemma one_reading a b t : spells_input a t -> spells_input b t -> a = b.
Proof. apply C48_unambiguous. Qed.
Lemma spelled_bnf a t : spells_input a t -> bnf_input t.
Proof. intros H. apply bnf_meaning. eauto. Qed.

Lemma opening_case : exists e, finally (first_part memory F) e /\
  (forall out, e = Ends out <-> opens (memory 0) out) /\ (e = Undefined <-> too_deep (memory 0)).
Proof.
  destruct (parse_case 0) as [(a & v & Ha & Hw & He & Hp)|[Hn Hw]].
  - unfold first_part. match goal with |- context [with_parsed _ _ _ 0 ?f ?e] => destruct (Hw f e) as [N HN] end.
    eexists. split; [split; [|exists N; exact HN]|].
    { rewrite Hp, He. destruct (nesting a <=? 204), (value F a); cbn; discriminate. }
    rewrite Hp, He. split.
    + intros out. split.
      * intros H. left. destruct (Nat.leb_spec (nesting a) 204) as [Hl|Hl]; [|discriminate].
        destruct (value F a) as [d|] eqn:Ed; [|discriminate]. injection H as <-. exists a, d. auto.
      * intros [(b & d & Hb & Hl & Ed & ->)|[Hb _]]; [|now destruct (Hb (spelled_bnf _ _ Ha))].
        rewrite <- (one_reading a b _ Ha Hb) in *. apply Nat.leb_le in Hl. now rewrite Hl, Ed.
    + split.
      * destruct (Nat.leb_spec (nesting a) 204) as [Hl|Hl]; [destruct (value F a); discriminate|]. intros _. now exists a.
      * intros (b & Hb & Hl). rewrite <- (one_reading a b _ Ha Hb) in *. destruct (Nat.leb_spec (nesting a) 204); [lia|reflexivity].
  - unfold first_part. match goal with |- context [with_parsed _ _ _ 0 ?f ?e] => destruct (Hw f e) as [N HN] end.
    eexists. split; [split; [|exists N; exact HN]|]; [discriminate|]. split.
    + intros out. split; [intros [= <-]; now right|]. intros [(a & d & Ha & _)|[_ ->]]; [now destruct (Hn (spelled_bnf _ _ Ha))|reflexivity].
    + split; [discriminate|]. intros (a & Ha & _). now destruct (Hn (spelled_bnf _ _ Ha)).
Qed.

Lemma value_case k : exists e, finally (fun n => line_of F (value_at memory F n k)) e /\
  (forall out, e = Ends out <-> exists d, denotes (memory k) d /\ out = [Chars [10]; Number d]) /\
  (e = Undefined <-> ~ bnf_input (memory k)) /\ (e = Dies <-> valueless (memory k)).
Proof.
  destruct (parse_case k) as [(a & v & Ha & Hw & He & Hp)|[Hn Hw]].
  - destruct (Hw (evaluated memory F) Undefined) as [N HN]. exists (line_of F (evaluated memory F v)). rewrite He. split; [split|].
    + destruct (value F a); discriminate.
    + exists N. intros n Hn. unfold value_at. now rewrite HN, He.
    + split; [|split].
      * intros out. split.
        -- destruct (value F a) as [d|] eqn:Ed; [|discriminate]. intros [= <-]. exists d. split; auto. now exists a.
        -- intros (d & (b & Hb & Ed) & ->). rewrite <- (one_reading a b _ Ha Hb) in *. now rewrite Ed.
      * split; [destruct (value F a); discriminate|]. intros Hb. now destruct (Hb (spelled_bnf _ _ Ha)).
      * split.
        -- destruct (value F a) as [d|] eqn:Ed; [discriminate|]. now exists a.
        -- intros (b & Hb & Ed). rewrite <- (one_reading a b _ Ha Hb) in *. now rewrite Ed.
  - destruct (Hw (evaluated memory F) Undefined) as [N HN]. exists Undefined. split; [split; [discriminate|]|].
    + exists N. intros n Hl. unfold value_at. now rewrite HN.
    + split; [|split].
      * intros out. split; [discriminate|]. intros (d & (a & Ha & _) & _). now destruct (Hn (spelled_bnf _ _ Ha)).
      * tauto.
      * split; [discriminate|]. intros (a & Ha & _). now destruct (Hn (spelled_bnf _ _ Ha)).
Qed.

(** The whole program, part by part. *)
Lemma parts : exists e0 e1 e2 e3,
  finally (algebraic_main memory F) (and_then e0 (and_then e1 (and_then e2 e3))) /\
  ((forall out, e0 = Ends out <-> opens (memory 0) out) /\ (e0 = Undefined <-> too_deep (memory 0))) /\
  (forall k e, In (k, e) [(1, e1); (2, e2); (3, e3)] ->
    (forall out, e = Ends out <-> exists d, denotes (memory k) d /\ out = [Chars [10]; Number d]) /\ (e = Undefined <-> ~ bnf_input (memory k))).
Proof.
  destruct opening_case as (e0 & F0 & S0). destruct (value_case 1) as (e1 & F1 & S1 & U1 & _).
  destruct (value_case 2) as (e2 & F2 & S2 & U2 & _). destruct (value_case 3) as (e3 & F3 & S3 & U3 & _).
  exists e0, e1, e2, e3. split; [|split; [exact S0|]].
  - unfold algebraic_main. exact (finally_then _ _ _ _ F0 (finally_then _ _ _ _ F1 (finally_then _ _ _ _ F2 F3))).
  - intros k e [[= <- <-]|[[= <- <-]|[[= <- <-]|[]]]]; auto.
Qed.

(** ** C78, algebraic.cpp *)

(** Whatever the four literals are, the program comes to an end of one kind. *)
Theorem C78_algebraic_ends : exists e, finally (algebraic_main memory F) e.
Proof. destruct parts as (e0 & e1 & e2 & e3 & H & _). eauto. Qed.

(** It returns exactly when the last three literals are expressions with values, and the
    first is one that can be printed, or no expression; this is what it writes. *)
Theorem C78_algebraic_returns out : finally (algebraic_main memory F) (Ends out) <->
  exists first d1 d2 d3, opens (memory 0) first /\ denotes (memory 1) d1 /\ denotes (memory 2) d2 /\ denotes (memory 3) d3 /\
    out = first ++ [Chars [10]; Number d1; Chars [10]; Number d2; Chars [10]; Number d3].
Proof.
  destruct parts as (e0 & e1 & e2 & e3 & H & [S0 _] & S).
  destruct (S 1 e1) as [S1 _]; [cbn; auto|]. destruct (S 2 e2) as [S2 _]; [cbn; auto|]. destruct (S 3 e3) as [S3 _]; [cbn; auto|].
  split.
  - intros H'. pose proof (finally_det _ _ _ H H') as E. apply and_then_ends in E as (l0 & l & E0 & E & ->).
    apply and_then_ends in E as (l1 & l' & E1 & E & ->). apply and_then_ends in E as (l2 & l3 & E2 & E3 & ->).
    apply S0 in E0. apply S1 in E1 as (d1 & D1 & ->). apply S2 in E2 as (d2 & D2 & ->). apply S3 in E3 as (d3 & D3 & ->).
    exists l0, d1, d2, d3. repeat (split; [assumption|]). reflexivity.
  - intros (l0 & d1 & d2 & d3 & E0 & D1 & D2 & D3 & ->).
    rewrite (proj2 (S0 _) E0), (proj2 (S1 _) (ex_intro _ d1 (conj D1 eq_refl))), (proj2 (S2 _) (ex_intro _ d2 (conj D2 eq_refl))),
      (proj2 (S3 _) (ex_intro _ d3 (conj D3 eq_refl))) in H. exact H.
Qed.

(** It is undefined exactly when the first literal nests too deep for the printer, or one of
    the others is no expression ([*] of an empty result) and what comes before goes well. *)
Theorem C78_algebraic_undefined : finally (algebraic_main memory F) Undefined <->
  too_deep (memory 0) \/
  (exists first, opens (memory 0) first) /\
  exists k, 1 <= k <= 3 /\ ~ bnf_input (memory k) /\ forall j, 1 <= j < k -> exists d, denotes (memory j) d.
Proof.
  destruct parts as (e0 & e1 & e2 & e3 & H & [S0 U0] & S).
  destruct (S 1 e1) as [S1 U1]; [cbn; auto|]. destruct (S 2 e2) as [S2 U2]; [cbn; auto|]. destruct (S 3 e3) as [S3 U3]; [cbn; auto|].
  assert (D : forall k e, (forall out, e = Ends out <-> exists d, denotes (memory k) d /\ out = [Chars [10]; Number d]) ->
    (exists l, e = Ends l) <-> exists d, denotes (memory k) d).
  { intros k e Hs. split; [intros [l ->]|intros [d Hd]].
    - destruct (proj1 (Hs l) eq_refl) as (d & Hd & _). eauto.
    - eexists. apply Hs. eauto. }
  assert (E : and_then e0 (and_then e1 (and_then e2 e3)) = Undefined <->
    too_deep (memory 0) \/ (exists l, opens (memory 0) l) /\
      (~ bnf_input (memory 1) \/ (exists d, denotes (memory 1) d) /\ (~ bnf_input (memory 2) \/ (exists d, denotes (memory 2) d) /\ ~ bnf_input (memory 3)))).
  { rewrite !and_then_undefined, U0, U1, U2, U3, (D 1 e1 S1), (D 2 e2 S2).
    assert (O : (exists l, e0 = Ends l) <-> exists l, opens (memory 0) l) by (split; intros [l Hl]; exists l; now apply S0).
    rewrite O. tauto. }
  assert (G : finally (algebraic_main memory F) Undefined <-> and_then e0 (and_then e1 (and_then e2 e3)) = Undefined).
  { split; [intros H'; exact (finally_det _ _ _ H H')|]. intros X. now rewrite X in H. }
  rewrite G, E. clear. split; (intros [Hd|[Ho Hk]]; [now left|right; split; [exact Ho|]]).
  - destruct Hk as [H|[D1 [H|[D2 H]]]].
    + exists 1. split; [lia|]. split; auto. intros j Hj. lia.
    + exists 2. split; [lia|]. split; auto. intros j Hj. now assert (j = 1) as -> by lia.
    + exists 3. split; [lia|]. split; auto. intros j Hj. assert (j = 1 \/ j = 2) as [-> | ->] by lia; auto.
  - destruct Hk as (k & Hk & Hn & Hj). assert (k = 1 \/ k = 2 \/ k = 3) as [-> |[-> | ->]] by lia; auto.
    + right. split; [apply Hj; lia|]. left. exact Hn.
    + right. split; [apply Hj; lia|]. right. split; [apply Hj; lia|exact Hn].
Qed.
End Algebraic.

(** The fuel only matters when there is too little. *)
Lemma with_parsed_stable memory F n n' k found empty : n <= n' -> with_parsed memory F n k found empty <> NoFuel ->
  with_parsed memory F n' k found empty = with_parsed memory F n k found empty.
Proof.
  intros Hn H. unfold with_parsed in *. pose proof (run_le (alg_env memory) n n' Hn Parse alg_input (literal_at memory k)) as [E|E].
  - now rewrite E in H.
  - now rewrite <- E.
Qed.
Lemma and_then_stable {D} (a a' b b' : ending D) : (a <> NoFuel -> a' = a) -> (b <> NoFuel -> b' = b) ->
  and_then a b <> NoFuel -> and_then a' b' = and_then a b.
Proof.
  intros Ha Hb H. destruct a; try (rewrite Ha by discriminate; reflexivity); [|now destruct H].
  rewrite Ha by discriminate. destruct b; try (rewrite Hb by discriminate; reflexivity). now destruct H.
Qed.
Lemma main_finally memory F n e : algebraic_main memory F n = e -> e <> NoFuel -> finally (algebraic_main memory F) e.
Proof.
  intros <- H. split; auto. exists n. intros n' Hn.
  assert (S : forall k, line_of F (value_at memory F n k) <> NoFuel -> line_of F (value_at memory F n' k) = line_of F (value_at memory F n k)).
  { intros k. apply and_then_stable; [reflexivity|]. intros Hk. now apply with_parsed_stable. }
  unfold algebraic_main in *. apply and_then_stable; [intros Hk; now apply with_parsed_stable| |exact H].
  apply and_then_stable; [apply S|]. apply and_then_stable; apply S.
Qed.

(** The program as it is written: with any doubles whose std::from_chars reads a digit, the
    outline of the first expression, its value 4^(2+4*6)+1*3, and the values ((1+2)+3)+4,
    ((1+2)-3)+4 and 3^(3^3). *)
Theorem C78_algebraic_as_written F (dig : nat -> dbl F) : (forall c, 48 <= c <= 57 -> d_from F [c] = Some (dig (c - 48))) ->
  finally (algebraic_main algebraic_texts F) (Ends [
    Chars (lines_of [
      (0, "Expr :"); (0, "{");
        (1, "Term :"); (1, "{");
          (2, "Factor :"); (2, "{");
            (3, "Powterm :"); (3, "{"); (4, "Number : 4"); (3, "},");
            (3, "Powterm :"); (3, "{");
              (4, "Bracketed Expr :"); (4, "{");
                (5, "Expr :"); (5, "{");
                  (6, "Term :"); (6, "{");
                    (7, "Factor :"); (7, "{");
                      (8, "Powterm :"); (8, "{"); (9, "Number : 2"); (8, "}");
                    (7, "}");
                  (6, "},");
                  (6, "<plus>");
                  (6, "Term :"); (6, "{");
                    (7, "Factor :"); (7, "{");
                      (8, "Powterm :"); (8, "{"); (9, "Number : 4"); (8, "}");
                    (7, "},");
                    (7, "<multiplied by>");
                    (7, "Factor :"); (7, "{");
                      (8, "Powterm :"); (8, "{"); (9, "Number : 6"); (8, "}");
                    (7, "}");
                  (6, "}");
                (5, "}");
              (4, "}");
            (3, "}");
          (2, "}");
        (1, "},");
        (1, "<plus>");
        (1, "Term :"); (1, "{");
          (2, "Factor :"); (2, "{");
            (3, "Powterm :"); (3, "{"); (4, "Number : 1"); (3, "}");
          (2, "},");
          (2, "<multiplied by>");
          (2, "Factor :"); (2, "{");
            (3, "Powterm :"); (3, "{"); (4, "Number : 3"); (3, "}");
          (2, "}");
        (1, "}");
      (0, "}")])%string;
    Chars [10];
    Number (d_add F (d_pow F (dig 4) (d_add F (dig 2) (d_mul F (dig 4) (dig 6)))) (d_mul F (dig 1) (dig 3)));
    Chars [10];
    Chars [10]; Number (d_add F (d_add F (d_add F (dig 1) (dig 2)) (dig 3)) (dig 4));
    Chars [10]; Number (d_add F (d_sub F (d_add F (dig 1) (dig 2)) (dig 3)) (dig 4));
    Chars [10]; Number (d_pow F (dig 3) (d_pow F (dig 3) (dig 3)))]).
Proof.
  intros Hd. apply (main_finally _ _ 100); [|discriminate].
  assert (E : forall b o c, view algebraic_texts (Span b o 1) = [c] -> 48 <= c <= 57 ->
    evaluate_number algebraic_texts F (Span b o 1) None None = EVal (dig (c - 48))).
  { intros b o c Hv Hc. unfold evaluate_number. rewrite Hv. cbn [app]. now rewrite Hd. }
  unfold algebraic_main, first_part, value_at, line_of, with_parsed.
  repeat match goal with |- context [run ?E ?n ?m ?p ?i] => let r := eval vm_compute in (run E n m p i) in replace (run E n m p i) with r by (vm_compute; reflexivity) end.
  cbv beta iota. unfold evaluated, printed_by.
  match goal with |- context [print ?m ?k ?v 0] => let r := eval vm_compute in (print m k v 0) in replace (print m k v 0) with r by (vm_compute; reflexivity) end.
  cbv beta iota. cbn [evaluate map as_view].
  repeat match goal with |- context [evaluate_number ?m F (Span ?b ?o 1) None None] =>
    let c := eval vm_compute in (hd 0 (view m (Span b o 1))) in rewrite (E b o c) by (try (vm_compute; reflexivity); lia) end.
  reflexivity.
Qed.

(** ** C78, json.cpp *)
Definition json_message : list (emitted Empty_set) := [Chars (codes "Json parse error!!!" ++ [10])].

(** Whatever the two literals are: the program writes nothing if the second starts with an
    object, the message if it does not, and dies only of what a constructor threw.  The first
    literal makes no difference to what is written. *)
Theorem C78_json memory cons : json_cons_typed cons -> exists e, finally (json_main memory cons) e /\
  match e with
  | Ends out => (out = [] /\ exists k, json_language false 1 (firstn k (memory 1))) \/
                (out = json_message /\ forall k, ~ json_language false 1 (firstn k (memory 1)))
  | Dies => exists t args x, cons t args = FThrow x
  | Undefined | NoFuel => False
  end.
Proof.
  intros Hc. set (J := json_env memory cons). assert (Hv : forall k, valid J (literal_at memory k)) by (intros k; unfold valid; cbn; lia).
  assert (Hel : elems J (literal_at memory 1) = memory 1) by (unfold elems; cbn; apply firstn_all).
  assert (L : forall p k o, evals J Parse p (literal_at memory k) o -> exists N, forall n, N <= n -> run J n Parse p (literal_at memory k) = o) by (intros; now apply evals_ge).
  destruct (C39_json_terminates memory cons Hc str Parse (literal_at memory 0)) as (o & Ho & Hs); [cbn; auto|apply Hv|].
  destruct (L _ _ _ Ho) as [N HN]. destruct o as [r tr| |x| |]; try easy.
  2:{ exists Dies. split; [|destruct Hs as (_ & t & args & Ht); eauto]. split; [discriminate|]. exists N. intros n Hn. unfold json_main. fold J. now rewrite HN. }
  assert (K : forall o2 e2, evals J Parse json_object (literal_at memory 1) o2 -> e2 <> NoFuel ->
    match o2 with Done (Res (Some _) _) _ => Ends [] | Done (Res None _) _ => Ends json_message | Exn _ => Dies | _ => Undefined end = e2 -> finally (json_main memory cons) e2).
  { intros o2 e2 H2 Hne He. destruct (L _ _ _ H2) as [M HM]. split; auto. exists (N + M). intros n Hn. unfold json_main. fold J.
    rewrite HN, HM by lia. destruct r as [[v|] rem]; cbn [and_then]; subst e2; destruct o2 as [[[?|] ?] ?| |?| |]; try reflexivity; now destruct (proj1 H2). }
  destruct (C50_parse_is_longest memory cons Hc 1 (literal_at memory 1)) as [(x & t & args & He & Hx)|[(n & v & tr' & He & Hn & Hl & _)|(tr' & He & Hno)]]; [lia|apply Hv| | |].
  - exists Dies. split; [apply (K _ _ He); [discriminate|reflexivity]|eauto].
  - exists (Ends []). split; [apply (K _ _ He); [discriminate|reflexivity]|]. left. split; auto. exists n. now rewrite <- Hel.
  - exists (Ends json_message). split; [apply (K _ _ He); [discriminate|reflexivity]|]. right. split; auto. intros k Hk. apply (Hno k). fold J. now rewrite Hel.
Qed.

(** The program as it is written writes nothing: its document is an object. *)
Theorem C78_json_as_written cons : json_cons_typed cons -> (forall t args x, cons t args <> FThrow x) -> finally (json_main json_texts cons) (Ends []).
Proof.
  intros Hc Hx. destruct (C78_json json_texts cons Hc) as (e & He & Hs). destruct e as [out| | |]; try easy; [|destruct Hs as (t & args & x & H); now destruct (Hx t args x)].
  destruct Hs as [[-> _]|[_ Hno]]; auto. exfalso.
  assert (R : exists v rem tr, evals (json_env json_texts json_cons) Parse json_object (literal_at json_texts 1) (Done (Res (Some v) rem) tr)).
  { eexists. eexists. eexists. runs 200. }
  destruct R as (v & rem & tr & R). apply C51_delivers_the_object in R as (n & ms & vs & _ & _ & _ & Hd & _); [|unfold valid; cbn; lia].
  apply (Hno n). exists ms. unfold elems in Hd. cbn [sp_off sp_blk sp_len literal_at mem json_env skipn] in Hd. now rewrite firstn_all in Hd.
Qed.

(** ** Cases *)

(** Doubles that read a digit; what the program writes with them (numbers only). *)
Definition numbers_written {D} (e : ending D) : list D :=
  match e with Ends out => flat_map (fun x => match x with Number d => [d] | Chars _ => [] end) out | _ => [] end.
Example C78_algebraic_case : (forall c, 48 <= c <= 57 -> d_from integers [c] = Some (Z.of_nat (c - 48))) /\
  numbers_written (algebraic_main algebraic_texts integers 100) = [4503599627370499; 10; 4; 7625597484987]%Z.
Proof.
  split; [|vm_compute; reflexivity]. intros c Hc.
  assert (In c [48; 49; 50; 51; 52; 53; 54; 55; 56; 57]) as H by (cbn; lia).
  repeat (destruct H as [<-|H]; [vm_compute; reflexivity|]). destruct H.
Qed.
(** A first literal that is no expression is reported, a second one is dereferenced all the same. *)
Definition broken_texts (j k : nat) : list nat := if k =? j then codes "1 +" else algebraic_texts k.
Example C78_undefined_case :
  match algebraic_main (broken_texts 0) integers 100 with Ends (Chars l :: _) => l | _ => [] end = codes "Parse failure." ++ [10] /\
  finally (algebraic_main (broken_texts 2) integers) Undefined.
Proof. split; [vm_compute; reflexivity|]. apply (main_finally _ _ 100); [vm_compute; reflexivity|discriminate]. Qed.

(** The constructors of PropJson.v do not throw.  The literal that string.parse is given
    (json.cpp:129) has no closing quotation mark and is refused. *)
Example C78_json_case : json_cons_typed json_cons /\ (forall t args x, json_cons t args <> FThrow x) /\
  (exists tr, evals (json_env json_texts json_cons) Parse str (literal_at json_texts 0) (Done (Res None (literal_at json_texts 0)) tr)) /\
  json_main (fun k => if k =? 1 then codes "[]" else []) json_cons 50 = Ends json_message.
Proof.
  split; [exact json_cons_ok|]. split; [intros [] args x; discriminate|]. split; [eexists; runs 60|vm_compute; reflexivity].
Qed.

(** src/main.cpp: the first literal is refused, the second gives its first two characters. *)
Example C78_tool_case :
  (exists tr, evals (json_env tool_texts json_cons) Parse tool_parser (literal_at tool_texts 0) (Done (Res None (Span 0 0 4)) tr)) /\
  (exists tr, evals (json_env tool_texts json_cons) Parse tool_parser (literal_at tool_texts 1)
    (Done (Res (Some (RVal (VArr [VSpan (Span 1 0 1); VSpan (Span 1 1 1)]))) (Span 1 2 2)) tr)).
Proof. split; eexists; runs 20. Qed.

Print Assumptions C78_algebraic_ends.
Print Assumptions C78_algebraic_returns.
Print Assumptions C78_algebraic_undefined.
Print Assumptions C78_algebraic_as_written.
Print Assumptions C78_json.
Print Assumptions C78_json_as_written.
