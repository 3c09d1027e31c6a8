(** * Property C55: how many calls a parse makes *)
From Coq Require Import String List Arith ZArith Bool Lia.
From Verif Require Import Types Compound Parser Outcome CompoundFacts Exec Mono Derive Typing Join Leaves Sound
  BigStep BigSound BigComplete Peg Throws Elems Samples Runs PropCore PropPeg Lossless Agree Check PropAgree Grammar CharPeg Names PropNames Term PropTerm
  StaticArray Operators PropSets Modifiers ExJson PropJson JsonGrammar JsonPeg PropJsonDoc Shape ExAlgebraic PropAlgebraic ExprGrammar PropExpr Depth PropDepth PropStack Cost CostRules CostJson CostAlgebraic CostExpr.
Import ListNotations.

Section C55.
Context {T V : Type} (E : env T V).
Implicit Types (p q : parser T).

(** [p], called on [i], returns after [k] calls of parse, lookahead and user functions (its
    own call among them). *)
Definition calls (m : mode) p (i : span) (k : nat) : Prop := exists n r tr, crun E n m p i = Done r tr /\ List.length tr = k.

Lemma calls_unique m p i k k' : calls m p i k -> calls m p i k' -> k = k'.
Proof.
  intros (n & r & tr & H & <-) (n' & r' & tr' & H' & <-).
  destruct (crun_le E n (n + n') ltac:(lia) m p i) as [H1|H1]; [congruence|]. destruct (crun_le E n' (n + n') ltac:(lia) m p i) as [H2|H2]; congruence.
Qed.

Theorem C55_counted m p i : (exists r tr, evals E m p i (Done r tr)) <-> exists! k, calls m p i k.
Proof.
  split.
  - intros (r & tr & _ & n & H). apply run_crun in H as [tr' H]. exists (List.length tr'). split; [now exists n, r, tr'|].
    intros k' Hk. eapply calls_unique; eauto. now exists n, r, tr'.
  - intros (k & (n & r & tr & H & _) & _). apply crun_run in H as [tr' H]. exists r, tr'. eapply evals_done; eauto.
Qed.

Lemma sp_calls p i (Q : option span -> nat -> Prop) m k : (forall n, sp E n p i Q) -> calls m p i k -> exists o, Q o k.
Proof. intros H (n & r & tr & Hr & <-). specialize (H n n m (le_n _)). rewrite Hr in H. cbn in H. eauto. Qed.

(** Parsers that do not come back to themselves: a polynomial, of the degree of the nesting *)
Lemma uniform {A} (P : A -> nat -> Prop) l : (forall a k k', P a k -> k <= k' -> P a k') -> (forall a, In a l -> exists k, P a k) -> exists k, forall a, In a l -> P a k.
Proof.
  intros Hm. induction l as [|a l IH]; intros H; [exists 0; intros a []|].
  destruct (H a (or_introl eq_refl)) as [k Hk]. destruct IH as [k' Hk']; [intros; apply H; now right|].
  exists (k + k'). intros b [<-|Hb]; [eapply Hm; eauto; lia|eapply Hm; [apply Hk'; auto|lia]].
Qed.

Theorem C55_polynomial_partial h : forall p, tall E h p -> bodies_consume E p ->
  exists K, forall m i k, valid E i -> calls m p i k -> k <= K * (sp_len i + 2) ^ h.
Proof.
  induction h as [|h IH]; intros p Ht Hb; [destruct Ht|]. cbn [tall] in Ht.
  destruct (uniform (fun q K => forall m i k, valid E i -> calls m q i k -> k <= K * (sp_len i + 2) ^ h) (components E p)) as [K HK].
  - intros q K K' H Hle m i k Hv Hk. specialize (H m i k Hv Hk). nia.
  - intros q Hq. apply IH; auto. intros q' Hr. apply Hb. eapply reach_step; eauto.
  - exists (width p * K + 3). intros m i k Hv (n & r & tr & H & <-). destruct n as [|n]; [discriminate|]. cbn [crun] in H.
    assert (Hc : costs (step E (crun E n) n m p i) (width p * (sp_len i + 2) * (K * (sp_len i + 2) ^ h) + 2)).
    { apply step_costs; auto; [apply Hb, reach_refl|]. intros m' q Hq j Hj. destruct (crun E n m' q j) as [r' tr'| | | |] eqn:Hr; cbn; auto.
      assert (H1 : List.length tr' <= K * (sp_len j + 2) ^ h) by (apply (HK q Hq m' j); [eapply suffix_valid; eauto|now exists n, r', tr']).
      assert (H2 : (sp_len j + 2) ^ h <= (sp_len i + 2) ^ h) by (apply Nat.pow_le_mono_l; apply suffix_len in Hj; lia). nia. }
    destruct (step E (crun E n) n m p i) as [r' tr'| | | |]; cbn in H; try discriminate. injection H as <- <-. cbn in Hc |- *.
    assert (1 <= (sp_len i + 2) ^ S h) by (apply Nat.neq_0_lt_0, Nat.pow_nonzero; lia). cbn [Nat.pow] in *. nia.
Qed.

Theorem C55_polynomial_by_type p : customs p = [] -> bodies_consume E p ->
  exists K, forall m i k, valid E i -> calls m p i k -> k <= K * (sp_len i + 2) ^ height p.
Proof. intros Hc Hb. apply C55_polynomial_partial; auto. now apply height_tall. Qed.
End C55.

(** ** The JSON example: linear *)
Section C55_json.
Context (memory : nat -> list nat) (cons : ty -> list val -> fnres).
Hypothesis Hcons : json_cons_typed cons.
Notation J := (json_env memory cons).

Theorem C55_json_linear p m i k : json_entry p -> valid J i -> calls J m p i k -> k <= 400 * sp_len i + 132.
Proof.
  intros Hp Hv Hk. assert (Hval := fun n j Hj => sp_value memory cons Hcons n j Hj). destruct Hp as [<-|[<-|[<-|[<-|[<-|[]]]]]].
  - destruct (sp_calls J _ _ _ _ _ (fun n => sp_number memory cons Hcons n i Hv) Hk) as [[j|] [_ H]]; lia.
  - destruct (sp_calls J _ _ _ _ _ (fun n => sp_str memory cons n i Hv) Hk) as [[j|] [_ H]]; lia.
  - pose proof (space_le memory cons i Hv). destruct (sp_calls J _ _ _ _ _ (fun n => Hval n i Hv) Hk) as [[j|] H1]; cbn [item_cost] in H1; lia.
  - destruct (sp_calls J _ _ _ _ _ (fun n => sp_custom_bracket memory cons n 1 123 125 pair_parser i eq_refl ltac:(discriminate) (or_intror eq_refl) Hv
      (fun j Hj => sp_pair memory cons n j Hj (Hval n))) Hk) as [[j|] [_ H]]; lia.
  - destruct (sp_calls J _ _ _ _ _ (fun n => sp_custom_bracket memory cons n 2 91 93 json_value i eq_refl ltac:(discriminate) (or_introl eq_refl) Hv (Hval n)) Hk) as [[j|] [_ H]]; lia.
Qed.
End C55_json.

(** ** In general not even a polynomial

    S = '(' S ')' 'a' | '(' S ')' 'b' | 'x', on '(' ... '(' x ')' 'b' ... ')' 'b': the
    second alternative reads again what the first has read. *)
Definition is (c : nat) : parser nat := PIgnore (PAllOf [c]).
Definition twice_body : parser nat := PChoice (PSequence (is 40) [PCustom 0; is 41; is 97]) [PSequence (is 40) [PCustom 0; is 41; is 98]; is 120].
Fixpoint twice_text (n : nat) : list nat := match n with 0 => [120] | S n' => 40 :: twice_text n' ++ [41; 98] end.
Definition twice : env nat nat := {|
  eqv := Nat.eqb; mem := twice_text; fn_ret := fun _ _ => None; fn_app := fun _ _ => FIll;
  ct_ok := fun _ _ => false; ct_app := fun _ _ => FIll; k_ty := k_ty sx; k_val := k_val sx; bool_ok := bool_ok sx; as_bool := as_bool sx;
  cust_body := fun _ => twice_body; cust_ty := fun _ => TVoid; cust_conv := fun _ => ConvSame |}.

Lemma twice_typed : env_typed twice.
Proof. destruct sx_typed. constructor; cbn; auto; discriminate. Qed.
Lemma twice_program : program twice.
Proof. split; [apply twice_typed|]. constructor; [intros [|] c; reflexivity|intros c; cbn; auto|intros c; cbn; auto]. Qed.
Lemma twice_terminates : bodies_consume twice (PCustom 0) /\ no_left_recursion twice (PCustom 0) [0].
Proof. apply (C33_check twice (fun _ => false) (fun _ => 0)). vm_compute. reflexivity. Qed.

Lemma twice_length n : List.length (twice_text n) = 3 * n + 1.
Proof. induction n; cbn [twice_text List.length]; auto. rewrite app_length. cbn [List.length]. lia. Qed.

Lemma sp_here n c x l i : valid twice i -> elems twice i = x :: l ->
  sp twice n (is c) i (fun o k => o = if c =? x then Some (adv i 1) else None).
Proof. intros Hv He. apply sp_ignore, sp_char; auto. rewrite He. cbn [eqv twice]. now destruct (c =? x). Qed.

Lemma adv_here i x l : valid twice i -> elems twice i = x :: l -> valid twice (adv i 1) /\ elems twice (adv i 1) = l.
Proof.
  intros Hv He. pose proof (elems_length twice i Hv) as Hl. rewrite He in Hl. cbn in Hl. rewrite elems_adv_skipn, He.
  split; auto. eapply suffix_valid; [|exact Hv]. apply adv_suffix. lia.
Qed.

Lemma sp_twice d : forall n i rest, valid twice i -> elems twice i = twice_text d ++ rest ->
  sp twice n (PCustom 0) i (fun o k => o = Some (adv i (3 * d + 1)) /\ 2 ^ d <= k).
Proof.
  induction d as [|d IH]; intros n i rest Hv He; apply sp_custom; try discriminate; cbn [cust_body twice]; unfold twice_body; apply sp_choice; auto; cbn [alts].
  - cbn [twice_text app] in He.
    apply sp_seq; auto. cbn [chain]. eapply sp_impl; [eapply sp_here; eauto|]. intros o k ->. cbn.
    apply sp_seq; auto. cbn [chain]. eapply sp_impl; [eapply sp_here; eauto|]. intros o k2 ->. cbn.
    eapply sp_impl; [eapply sp_here; eauto|]. intros o k3 ->. cbn. repeat split; lia.
  - cbn [twice_text app] in He. rewrite <- app_assoc in He. cbn [app] in He.
    destruct (adv_here _ _ _ Hv He) as [Hv1 He1].
    assert (Hv2 : valid twice (adv (adv i 1) (3 * d + 1)) /\ elems twice (adv (adv i 1) (3 * d + 1)) = 41 :: 98 :: rest).
    { pose proof (elems_length twice _ Hv1) as Hl. rewrite He1, app_length, twice_length in Hl. split; [eapply suffix_valid; [|exact Hv1]; apply adv_suffix; lia|].
      rewrite elems_adv_skipn, He1, <- (twice_length d). now rewrite skipn_app, skipn_all, Nat.sub_diag. }
    destruct Hv2 as [Hv2 He2]. destruct (adv_here _ _ _ Hv2 He2) as [Hv3 He3].
    (* the first alternative, up to 'a' *)
    apply sp_seq; auto. cbn [chain]. eapply sp_impl; [eapply sp_here; eauto|]. intros o k1 ->. cbn [Nat.eqb].
    eapply sp_impl; [eapply IH; eauto|]. intros o k2 [-> Hk2].
    eapply sp_impl; [eapply sp_here; eauto|]. intros o k3 ->. cbn [Nat.eqb].
    eapply sp_impl; [eapply sp_here; eauto|]. intros o k4 ->. cbn [Nat.eqb].
    (* the second *)
    apply sp_seq; auto. cbn [chain]. eapply sp_impl; [eapply sp_here; eauto|]. intros o k5 ->. cbn [Nat.eqb].
    eapply sp_impl; [eapply IH; eauto|]. intros o k6 [-> Hk6].
    eapply sp_impl; [eapply sp_here; eauto|]. intros o k7 ->. cbn [Nat.eqb].
    eapply sp_impl; [eapply sp_here; eauto|]. intros o k8 ->. cbn [Nat.eqb].
    assert (Ha : adv (adv (adv (adv i 1) (3 * d + 1)) 1) 1 = adv i (3 * S d + 1)) by (rewrite !adv_adv; f_equal; lia).
    rewrite Ha. rewrite Nat.pow_succ_r'. split; (split; [reflexivity|lia]).
Qed.

(** Exponentials outgrow polynomials. *)
Lemma outgrows K h : exists n, K * (3 * n + 3) ^ h < 2 ^ n.
Proof.
  set (s := K + 3 * h). exists (2 ^ (2 * s)).
  assert (H1 : 3 * 2 ^ (2 * s) + 3 <= 2 ^ (2 * s + 3)) by (rewrite Nat.pow_add_r; change (2 ^ 3) with 8; assert (2 ^ (2 * s) <> 0) by (apply Nat.pow_nonzero; lia); lia).
  assert (H2 : (3 * 2 ^ (2 * s) + 3) ^ h <= 2 ^ ((2 * s + 3) * h)) by (rewrite (Nat.pow_mul_r 2 (2 * s + 3) h); now apply Nat.pow_le_mono_l).
  assert (H3 : forall k, k < 2 ^ k) by (intros k; apply Nat.pow_gt_lin_r; lia).
  assert (H4 : K + (2 * s + 3) * h < 2 ^ (2 * s)).
  { apply (Nat.lt_le_trans _ (S s * S s)).
    - assert (s = K + 3 * h) by reflexivity. nia.
    - replace (2 * s) with (s + s) by lia. rewrite Nat.pow_add_r. pose proof (H3 s). apply Nat.mul_le_mono; lia. }
  apply (Nat.lt_le_trans _ (2 ^ (K + (2 * s + 3) * h))); [|apply Nat.pow_le_mono_r; lia].
  rewrite Nat.pow_add_r. pose proof (H3 K). pose proof (Nat.pow_nonzero 2 ((2 * s + 3) * h)). nia.
Qed.

(** Every call of it returns, and yet no polynomial bounds the number of calls. *)
Theorem C55_polynomial_refuted : exists (E : env nat nat) (p : parser nat),
  program E /\ bodies_consume E p /\ no_left_recursion E p [0] /\
  (forall n, exists i k, valid E i /\ sp_len i = 3 * n + 1 /\ calls E Parse p i k /\ 2 ^ n <= k) /\
  ~ exists K h, forall m i k, valid E i -> calls E m p i k -> k <= K * (sp_len i + 2) ^ h.
Proof.
  exists twice, (PCustom 0). split; [apply twice_program|]. destruct twice_terminates as [Hb Hn]. split; [exact Hb|]. split; [exact Hn|].
  assert (Hx : forall n, exists i k, valid twice i /\ sp_len i = 3 * n + 1 /\ calls twice Parse (PCustom 0) i k /\ 2 ^ n <= k).
  { intros n. set (i := Span n 0 (3 * n + 1)). assert (Hv : valid twice i) by (unfold valid, i; cbn; rewrite twice_length; cbn; lia).
    assert (He : elems twice i = twice_text n ++ []).
    { rewrite app_nil_r. unfold elems, i. cbn [sp_blk sp_off sp_len skipn mem twice]. rewrite <- (twice_length n). apply firstn_all. }
    destruct (C33_terminates twice _ _ Hb Hn Parse i Hv) as [N HN].
    destruct (run_safe twice N Parse (PCustom 0) i Hv) as [Hub Hill]; auto using twice_typed, (proj2 twice_program).
    - apply steady_join_local. apply steady_b_ok with [0]. vm_compute. reflexivity.
    - assert (Hev : evals twice Parse (PCustom 0) i (run twice N Parse (PCustom 0) i)) by (split; eauto).
      destruct (run twice N Parse (PCustom 0) i) as [r tr| |e| |] eqn:Hr; try contradiction; try congruence.
      + apply run_crun in Hr as [tr' Hr]. assert (Hc : calls twice Parse (PCustom 0) i (List.length tr')) by now exists N, r, tr'.
        exists i, (List.length tr'). repeat split; auto. destruct (sp_calls twice _ _ _ _ _ (fun m => sp_twice n m i [] Hv He) Hc) as [o [_ H]]. exact H.
      + exfalso. destruct (C47_exceptions_are_users twice _ _ _ _ Hev) as (_ & q & f & args & Hq & Hf & _).
        clear -Hf. revert args Hf. induction f; intros args Hf; cbn in Hf; try discriminate; eauto.
        destruct args as [|v [|]]; try discriminate. destruct (tuple_vals v); [eauto|discriminate]. }
  split; [exact Hx|]. intros (K & h & HK). destruct (outgrows K h) as [n Hn']. destruct (Hx n) as (i & k & Hv & Hl & Hc & Hk).
  specialize (HK Parse i k Hv Hc). rewrite Hl in HK. replace (3 * n + 1 + 2) with (3 * n + 3) in HK by lia. lia.
Qed.

(** ** The algebraic example

    -1+(-1+(-1+( ...: no expression, and finding that out takes a number of calls exponential
    in the length, because each operand that cannot be finished is tried twice. *)
Theorem C55_algebraic_exponential memory i m n k : valid (alg_env memory) i -> elems (alg_env memory) i = unfinished n ->
  calls (alg_env memory) m alg_input i k -> 2 ^ n <= k.
Proof. intros Hv He Hk. destruct (sp_calls _ _ _ _ _ _ (fun N => input_cost memory n N i (conj Hv He)) Hk) as [o H]. exact H. Qed.

Theorem C55_algebraic_polynomial_refuted : ~ exists K h, forall memory m i k,
  valid (alg_env memory) i -> calls (alg_env memory) m alg_input i k -> k <= K * (sp_len i + 2) ^ h.
Proof.
  intros (K & h & HK). destruct (outgrows (K * 2 ^ h) h) as [n Hn].
  set (memory := fun _ : nat => unfinished n). set (i := Span 0 0 (4 * n)).
  assert (Hv : valid (alg_env memory) i) by (unfold valid, i, memory; cbn [sp_off sp_len sp_blk mem alg_env]; rewrite unfinished_length; cbn; lia).
  assert (He : elems (alg_env memory) i = unfinished n).
  { unfold elems, i. cbn [sp_blk sp_off sp_len skipn mem alg_env]. unfold memory. rewrite <- (unfinished_length n). apply firstn_all. }
  destruct (C40_parser_terminates memory alg_input Parse i) as (r & tr & Hr); [cbn; tauto|exact Hv|].
  assert (Hx : exists r tr, evals (alg_env memory) Parse alg_input i (Done r tr)) by eauto.
  apply C55_counted in Hx as (k & Hk & _). pose proof (C55_algebraic_exponential memory i Parse n k Hv He Hk) as H1.
  specialize (HK memory Parse i k Hv Hk). cbn [sp_len i] in HK.
  assert (H2 : (4 * n + 2) ^ h <= 2 ^ h * (3 * n + 3) ^ h) by (rewrite <- Nat.pow_mul_l; apply Nat.pow_le_mono_l; lia).
  assert (H3 : K * (4 * n + 2) ^ h <= K * (2 ^ h * (3 * n + 3) ^ h)) by (now apply Nat.mul_le_mono_l).
  rewrite Nat.mul_assoc in H3. lia.
Qed.

(** A text that is an expression of the documented grammar (one that is accepted, C49) takes
    at most quadratically many calls ... *)
Theorem C55_algebraic_expressions_quadratic memory m i k : valid (alg_env memory) i -> bnf_input (elems (alg_env memory) i) ->
  calls (alg_env memory) m alg_input i k -> k <= 20 * (sp_len i + 1) * (sp_len i + 10).
Proof.
  intros Hv Hb Hk. apply bnf_meaning in Hb as [a Ha].
  destruct (sp_calls _ _ _ _ _ _ (fun n => input_cheap memory (sp_len i) a i n Hv (le_n _) Ha) Hk) as [o H]. exact H.
Qed.

(** ... and some do: for every [d] there is one of [2 d + 1] elements that takes [d] times [d]
    calls or more. *)
Theorem C55_algebraic_quadratic_reached d : exists memory i, valid (alg_env memory) i /\ sp_len i = 2 * d + 1 /\
  bnf_input (elems (alg_env memory) i) /\ forall m, (exists k, calls (alg_env memory) m alg_input i k) /\
    forall k, calls (alg_env memory) m alg_input i k -> d * d <= k.
Proof.
  set (memory := fun _ : nat => negations d ++ repeat 32 d). set (i := Span 0 0 (2 * d + 1)).
  assert (HL : List.length (negations d ++ repeat 32 d) = 2 * d + 1) by (rewrite app_length, negations_length, repeat_length; lia).
  assert (Hv : valid (alg_env memory) i) by (unfold valid, i, memory; cbn [sp_off sp_len sp_blk mem alg_env]; lia).
  assert (He : elems (alg_env memory) i = negations d ++ repeat 32 d).
  { unfold elems, i. cbn [sp_blk sp_off sp_len skipn mem alg_env]. unfold memory. rewrite <- HL. apply firstn_all. }
  exists memory, i. split; auto. split; [reflexivity|]. split.
  - rewrite He. destruct (negations_spelled d) as [o Hs]. apply up_expr in Hs. apply bnf_meaning. exists (negated_one d).
    apply (sp_whole o _ [] (negations d) (repeat 32 d)); auto; [constructor|]. apply Forall_forall. intros c Hc. apply repeat_spec in Hc. now left.
  - intros m. split.
    + destruct (C40_parser_terminates memory alg_input m i) as (r & tr & Hr); [cbn; tauto|exact Hv|].
      assert (Hx : exists r tr, evals (alg_env memory) m alg_input i (Done r tr)) by eauto. apply C55_counted in Hx as (k & Hk & _). eauto.
    + intros k Hk. destruct (sp_calls _ _ _ _ _ _ (fun n => input_reached memory d d n i (conj Hv He)) Hk) as [o H]. exact H.
Qed.

(** ** Cases *)

(** Nested repetitions: cubic allowed, and the calls there are *)
Example C55_case : let p := PZeroOrMore (PSequence (PMaybe (PAllOf (codes "("))) [POneOrMore (PAnyOf (codes "abc")); PAnyOf (codes ")+")]) in
  customs p = [] /\ bodies_consume sx p /\ height p = 4 /\ valid sx (at1 1) /\ sp_len (at1 1) = 16 /\ calls sx Parse p (at1 1) 20.
Proof.
  cbn zeta. split; [reflexivity|]. split; [apply (C33_check sx (fun _ => false) (fun _ => 0) []); vm_compute; reflexivity|]. split; [reflexivity|].
  split; [vm_compute; lia|]. split; [reflexivity|]. eexists 40, _, _. split; vm_compute; reflexivity.
Qed.

(** A document, and how many calls it takes: more than 100, allowed 400 * 12 + 132 *)
Example C55_case_json : let J := json_env (fun _ => codes "[1,{""a"":[]}]") json_cons in
  json_cons_typed json_cons /\ json_entry json_value /\ valid J (Span 0 0 12) /\ exists k, calls J Parse json_value (Span 0 0 12) k /\ 100 < k <= 400 * 12 + 132.
Proof.
  cbn zeta. split; [apply json_cons_ok|]. split; [cbn; tauto|]. split; [vm_compute; lia|]. eexists. split; [eexists 60, _, _; split; vm_compute; reflexivity|vm_compute; lia].
Qed.

(** 16 characters of the text above: 2 ^ 4 and more calls; an expression of as many: fewer *)
Example C55_case_algebraic :
  let A := alg_env (fun b => match b with 0 => codes "-1+(-1+(-1+(-1+(" | _ => codes "-1+(-1+(-1+(1)))" end) in
  valid A (Span 0 0 16) /\ elems A (Span 0 0 16) = unfinished 4 /\
  (exists k, calls A Parse alg_input (Span 0 0 16) k /\ 900 < k) /\
  (exists k, calls A Parse alg_input (Span 1 0 16) k /\ k < 600) /\ bnf_input (elems A (Span 1 0 16)).
Proof.
  cbn zeta. split; [vm_compute; lia|]. split; [reflexivity|].
  split; [|split]; [| |apply C49_accepts_documented_grammar; [vm_compute; lia|]; eexists _, _, _; eapply (evals_done _ 200); vm_compute; reflexivity];
    (eexists; split; [eexists 200, _, _; split; vm_compute; reflexivity|vm_compute; lia]).
Qed.

Print Assumptions C55_counted.
Print Assumptions C55_polynomial_partial.
Print Assumptions C55_polynomial_by_type.
Print Assumptions C55_json_linear.
Print Assumptions C55_polynomial_refuted.
Print Assumptions C55_algebraic_exponential.
Print Assumptions C55_algebraic_polynomial_refuted.
Print Assumptions C55_algebraic_expressions_quadratic.
Print Assumptions C55_algebraic_quadratic_reached.
