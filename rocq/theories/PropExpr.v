(** * C48, C49: what the algebraic example accepts and computes *)
From Coq Require Import String List Arith ZArith QArith Bool Lia.
From Verif Require Import Types Compound Parser Outcome CompoundFacts Exec Mono Derive Typing Join Leaves Sound
  BigStep BigSound BigComplete Peg Elems Runs Samples PropCore PropBasic PropPeg Lossless Agree Check PropAgree Grammar CharPeg Names PropNames Term PropTerm
  StaticArray Operators PropSets Modifiers ExJson Shape ExAlgebraic PropAlgebraic ExprGrammar.
Import ListNotations.
Local Open Scope nat_scope.

(** ** Literals are read in one way *)
Definition not_digit (r : list nat) : Prop := match r with c :: _ => ~ is_dg c | [] => True end.
Definition clean_end (r : list nat) : Prop := match r with c :: _ => ~ is_dg c /\ c <> 46 /\ c <> 69 /\ c <> 101 | [] => True end.

Lemma digits_split a : forall b r s, Forall is_dg a -> Forall is_dg b -> not_digit r -> not_digit s -> a ++ r = b ++ s -> a = b /\ r = s.
Proof.
  induction a as [|x a IH]; intros [|y b] r s Ha Hb Hr Hs H; cbn in H; auto.
  - subst r. inversion Hb; subst. now destruct Hr.
  - subst s. inversion Ha; subst. now destruct Hs.
  - injection H as -> H. inversion Ha; inversion Hb; subst. destruct (IH b r s) as [-> ->]; auto.
Qed.

Lemma exponent_not_digit es r : match es with Some (e, _, xs) => (e = 69 \/ e = 101) /\ digit_string xs | None => True end -> clean_end r ->
  not_digit (exponent_text es ++ r).
Proof.
  destruct es as [[[e neg] xs]|]; cbn.
  - intros [[-> | ->] _] _; unfold is_dg; lia.
  - destruct r; cbn; tauto.
Qed.
Lemma fraction_not_digit fs es r : literal [48] fs es -> clean_end r -> not_digit (fraction_text fs ++ exponent_text es ++ r).
Proof.
  intros (_ & _ & He) Hr. destruct fs; cbn [fraction_text app]; [cbn; unfold is_dg; lia|]. now apply exponent_not_digit.
Qed.

Lemma literal_inj ds fs es ds' fs' es' : literal ds fs es -> literal ds' fs' es' -> literal_text ds fs es = literal_text ds' fs' es' ->
  ds = ds' /\ fs = fs' /\ es = es'.
Proof.
  intros H H' Ht. unfold literal_text in Ht. pose proof (fraction_not_digit fs es []) as N. pose proof (fraction_not_digit fs' es' []) as N'.
  rewrite !app_nil_r in N, N'. destruct H as ((_ & D) & Hf & He), H' as ((_ & D') & Hf' & He').
  assert (D48 : digit_string [48]) by (split; [discriminate|repeat constructor; unfold is_dg; lia]).
  apply digits_split in Ht as [-> Ht]; auto; try (apply N; [repeat split; auto; apply D48|exact I]); try (apply N'; [repeat split; auto; apply D48|exact I]).
  split; auto.
  pose proof (exponent_not_digit es [] He I) as M. pose proof (exponent_not_digit es' [] He' I) as M'. rewrite !app_nil_r in M, M'.
  assert (X : fs = fs' /\ exponent_text es = exponent_text es').
  { destruct fs as [f|], fs' as [f'|]; cbn [fraction_text app] in Ht.
    - injection Ht as Ht. apply digits_split in Ht as [-> Ht]; auto; [apply Hf|apply Hf'].
    - destruct es' as [[[e n] x]|]; [|discriminate]. injection Ht as <- _. destruct He' as [[|] _]; discriminate.
    - destruct es as [[[e n] x]|]; [|discriminate]. injection Ht as -> _. destruct He as [[|] _]; discriminate.
    - auto. }
  destruct X as [-> X]. split; auto.
  destruct es as [[[e n] x]|], es' as [[[e' n'] x']|]; cbn in X; try discriminate; auto.
  injection X as -> X. destruct He as [_ [X1 X2]], He' as [_ [X1' X2']].
  assert (forall y, Forall is_dg y -> y <> [] -> 45 :: x <> y /\ 45 :: x' <> y) as Hne.
  { intros y Hy _. split; intros <-; inversion Hy as [|? ? Hd _]; unfold is_dg in Hd; lia. }
  destruct n, n'; cbn in X; try (destruct (Hne x'); auto; congruence); try (destruct (Hne x); auto; congruence); congruence.
Qed.

(** ** The literal parser takes a whole literal *)
Section Parser.
Context (memory : nat -> list nat).
Notation A := (alg_env memory).

Lemma eqv_nat c d : eqv A c d = (c =? d). Proof. reflexivity. Qed.

Lemma run_zero r : not_digit r -> run_of_digits r = 0.
Proof. destruct r as [|c r]; cbn; auto. intros H. destruct (dgb c) eqn:Hc; auto. apply dgb_spec in Hc. contradiction. Qed.

Lemma peg_digit_string ds r : digit_string ds -> not_digit r -> peg A (POneOrMore dgt) (ds ++ r) (Some (List.length ds)).
Proof.
  intros [Hn HF] Hr. pose proof (peg_digits1 A eqv_nat (ds ++ r)) as H. rewrite run_app, run_zero, Nat.add_0_r in H by auto.
  destruct ds; [congruence|]. exact H.
Qed.
Lemma peg_no_digit r : not_digit r -> peg A (POneOrMore dgt) r None.
Proof. intros Hr. pose proof (peg_digits1 A eqv_nat r) as H. now rewrite run_zero in H. Qed.

Lemma peg_number_body ds fs es r : literal ds fs es -> clean_end r ->
  peg A number_body (literal_text ds fs es ++ r) (Some (List.length (literal_text ds fs es))).
Proof.
  intros H Hr. assert (D48 : digit_string [48]) by (split; [discriminate|repeat constructor; unfold is_dg; lia]).
  destruct H as (Hd & Hf & He). unfold literal_text. rewrite !app_length, <- !app_assoc.
  assert (N : not_digit (exponent_text es ++ r)) by now apply exponent_not_digit.
  assert (N1 : not_digit (fraction_text fs ++ exponent_text es ++ r)) by (apply fraction_not_digit; auto; repeat split; auto; apply D48).
  apply G_map, G_seq.
  apply and_more; [apply G_join; now apply peg_digit_string|]. rewrite skipn_exact by auto.
  apply and_more.
  { destruct fs as [f|]; cbn [fraction_text app List.length].
    - apply G_maybe_some, G_join, G_seq. change (S (List.length f)) with (1 + (List.length f)).
      apply and_more; [|apply and_last; cbn [skipn]; now apply peg_digit_string].
      apply G_ignore. exact (peg_char A eqv_nat 46 (46 :: f ++ exponent_text es ++ r)).
    - apply G_maybe_none, G_join, G_seq, G_and_fail, G_ignore. pose proof (peg_char A eqv_nat 46 (exponent_text es ++ r)) as H.
      destruct (exponent_text es ++ r) as [|c l] eqn:Hl; auto. destruct (Nat.eqb_spec 46 c); auto. subst c. exfalso.
      destruct es as [[[e n] x]|]; cbn in Hl; [injection Hl as -> _; destruct He as [[|] _]; discriminate|]. subst r. now destruct Hr as (_ & H1 & _). }
  rewrite skipn_exact by auto. apply and_last.
  destruct es as [[[e neg] x]|]; cbn [exponent_text app List.length].
  - rewrite app_length. apply G_maybe_some, G_join, G_seq. destruct He as [He Hx].
    assert (Hnx : not_digit r) by (destruct r; cbn; auto; apply Hr).
    change (S (List.length (if neg then [45] else []) + List.length x)) with (1 + (List.length (if neg then [45] else []) + List.length x)).
    apply and_more.
    { apply G_ignore. pose proof (peg_any A eqv_nat (sorted (codes "Ee")) (e :: ((if neg then [45] else []) ++ x) ++ r)) as H.
      destruct He as [-> | ->]; exact H. }
    cbn [skipn]. apply and_more.
    { pose proof (peg_char A eqv_nat 45) as H. destruct neg; cbn [app List.length].
      - apply G_maybe_some. exact (H (45 :: x ++ r)).
      - apply G_maybe_none. specialize (H (x ++ r)). destruct Hx as [Hn HF]. destruct x as [|c x]; [congruence|]. cbn [app] in *.
        destruct (Nat.eqb_spec 45 c); auto. subst c. inversion HF as [|? ? Hc _]; unfold is_dg in Hc; lia. }
    rewrite <- app_assoc, skipn_exact by auto. apply and_last. now apply peg_digit_string.
  - apply G_maybe_none, G_join, G_seq, G_and_fail, G_ignore.
    pose proof (peg_any A eqv_nat (sorted (codes "Ee")) r) as H. destruct r as [|c r]; auto.
    destruct (existsb (fun t => t =? c) (sorted (codes "Ee"))) eqn:Hc; auto. exfalso.
    apply existsb_exists in Hc as (t & Ht & Hc). apply Nat.eqb_eq in Hc. subst t. destruct Hr as (_ & _ & Hr1 & Hr2).
    vm_compute in Ht. destruct Ht as [<-|[<-|[]]]; congruence.
Qed.

(** ** Positions in the input *)
Definition at_ (i : span) (l : list nat) : Prop := valid A i /\ elems A i = l.

Lemma at_len i l : at_ i l -> sp_len i = List.length l.
Proof. intros [Hv He]. now rewrite <- He, elems_length. Qed.
Lemma at_adv i l r : at_ i (l ++ r) -> at_ (adv i (List.length l)) r.
Proof.
  intros H. pose proof (at_len _ _ H) as Hl. rewrite app_length in Hl. destruct H as [Hv He]. split.
  - apply adv_valid; auto. lia.
  - rewrite elems_adv_skipn, He. now apply skipn_exact.
Qed.
Lemma at_next i c r : at_ i (c :: r) -> at_ (adv i 1) r.
Proof. apply (at_adv i [c] r). Qed.

Definition custs : list nat := [0; 1; 2; 3; 4; 5].
Definition fine (p : parser nat) : bool := steady_b A custs p && compiles A Parse p && compiles A Look p.

Lemma no_throw p i e : ~ evals A Parse p i (Exn e).
Proof.
  intros He. destruct (C47_exceptions_are_users A Parse p i e He) as (_ & q & f & args & Hq & Hf & _).
  clear -Hf. revert args Hf. induction f; intros args Hf; cbn in Hf; try discriminate.
  + destruct args as [|v [|]]; try discriminate. destruct (tuple_vals v); [eauto|discriminate].
  + destruct t; discriminate.
Qed.

(** A parser that takes [n] elements by its grammar does so when it parses. *)
Lemma lift_some p i l n : fine p = true -> at_ i l -> peg A p l (Some n) -> exists v tr, big A Parse p i (Res (Some v) (adv i n)) tr.
Proof.
  intros Hf [Hv <-] Hp. apply andb_true_iff in Hf as [Hf Hl]. apply andb_true_iff in Hf as [Hs Hc].
  destruct (peg_parse A p i _ (alg_program memory) Hv Hc Hl (steady_b_ok A _ _ Hs) Hp) as [[e He]|(v & tr & H)]; [now destruct (no_throw _ _ _ He)|].
  exists v, tr. now apply evals_big.
Qed.
Lemma lift_none p i l : fine p = true -> at_ i l -> peg A p l None -> exists tr, big A Parse p i (Res None i) tr.
Proof.
  intros Hf [Hv <-] Hp. apply andb_true_iff in Hf as [Hf Hl]. apply andb_true_iff in Hf as [Hs Hc].
  destruct (peg_parse A p i _ (alg_program memory) Hv Hc Hl (steady_b_ok A _ _ Hs) Hp) as [[e He]|(tr & H)]; [now destruct (no_throw _ _ _ He)|].
  exists tr. now apply evals_big.
Qed.
Lemma lift_look p i l n : compiles A Look p = true -> at_ i l -> peg A p l (Some n) -> big A Look p i (Res (Some RVoid) (adv i n)) [].
Proof.
  intros Hl [Hv <-] Hp. apply evals_big; auto. apply C38_lookahead_is_peg; auto.
  - intros c. apply (ec_compiles _ (alg_customs memory)).
  - split; auto. exists (Some n). auto.
Qed.

(** ** Blanks, single characters and delimiters *)
Definition solid_head (r : list nat) : Prop := match r with c :: _ => ~ is_blank c | [] => True end.

Lemma peg_set cs c r : In c (sorted cs) -> peg A (anyl cs) (c :: r) (Some 1).
Proof. intros H. apply G_any_ok. exists c. split; auto. apply Nat.eqb_refl. Qed.
Lemma peg_set_no cs r : match r with c :: _ => ~ In c (sorted cs) | [] => True end -> peg A (anyl cs) r None.
Proof.
  destruct r as [|c r]; intros H; [constructor|]. apply G_any_no. intros t Ht. cbn. destruct (Nat.eqb_spec t c); auto. now subst.
Qed.

Lemma peg_ws w r : blank w -> solid_head r -> peg A ws (w ++ r) (Some (List.length w)).
Proof.
  intros Hw Hr. apply G_ignore, G_zom. induction Hw as [|c w Hc Hw IH]; cbn [app List.length].
  - apply G_star_end. apply peg_set_no. destruct r; auto. intros H. apply Hr. now apply blank_spec.
  - change (S (List.length w)) with (1 + List.length w). apply G_star_next; auto. apply peg_set. now apply blank_spec.
Qed.

Lemma peg_ign c r : peg A (ign [c]) (c :: r) (Some 1).
Proof. apply G_ignore. pose proof (peg_char A eqv_nat c (c :: r)) as H. cbn in H. now rewrite Nat.eqb_refl in H. Qed.
Lemma peg_ign_no c r : match r with d :: _ => d <> c | [] => True end -> peg A (ign [c]) r None.
Proof.
  intros H. apply G_ignore. pose proof (peg_char A eqv_nat c r) as Hp. destruct r as [|d r]; auto.
  destruct (Nat.eqb_spec c d); auto. congruence.
Qed.

Lemma ws_big i w r : at_ i (w ++ r) -> blank w -> solid_head r -> big A Look ws i (Res (Some RVoid) (adv i (List.length w))) [].
Proof. intros H Hw Hr. eapply lift_look; [reflexivity|exact H|]. now apply peg_ws. Qed.
Lemma ign_big i c r : at_ i (c :: r) -> big A Look (ign [c]) i (Res (Some RVoid) (adv i 1)) [].
Proof. intros H. eapply lift_look; [reflexivity|exact H|]. apply peg_ign. Qed.

Lemma delimiter_big cs i w c r : at_ i (w ++ c :: r) -> blank w -> ~ is_blank c -> In c (sorted cs) ->
  exists s, view memory s = [c] /\ exists tr, big A Parse (delimiter cs) i (Res (Some (RVal (VUser 0 [VSpan s]))) (adv i (List.length w + 1))) tr.
Proof.
  intros H Hw Hc Hin. pose proof (at_adv _ _ _ H) as Ha. rewrite <- adv_adv'. set (j := adv i (List.length w)) in *.
  exists (Span (sp_blk j) (sp_off j) 1).
  destruct Ha as [Hv He]. assert (Hn : nth_error (memory (sp_blk j)) (sp_off j) = Some c).
  { pose proof (elems_nth A j 0) as Hn. rewrite <- (elems_length A j Hv), He, Nat.add_0_r in Hn. symmetry. apply Hn. cbn. lia. }
  split.
  - pose proof (region_one memory (sp_blk j) (sp_off j) c Hn) as Hr. unfold region_text in Hr. now replace (S (sp_off j) - sp_off j) with 1 in Hr by lia.
  - eexists. eapply (B_seq_ok A ws [PMap (anyl cs) (FConstruct a_view)] [TVoid; a_view] i [RVoid; RVal (VUser 0 [VSpan (Span (sp_blk j) (sp_off j) 1)])] [VUser 0 [VSpan (Span (sp_blk j) (sp_off j) 1)]]);
      [reflexivity| |repeat constructor; discriminate].
    cbn [parts map part_mode is_void combine a_view].
    refine (BC_next A Look ws _ i RVoid j (Some ([RVal _], adv j 1)) [] _ _ _ _); [eapply ws_big; eauto|apply look_shaped|].
    refine (BC_next A Parse _ _ j _ (adv j 1) (Some ([], adv j 1)) _ _ _ (rval_shaped A _ _ _) (BC_nil A _)).
    refine (B_map_ok A (anyl cs) (FConstruct a_view) a_view j (RVal (VSpan (Span (sp_blk j) (sp_off j) 1))) _ _ [] eq_refl _ eq_refl).
    apply (B_any_ok A Parse (sorted cs) j). split; [rewrite <- (elems_length A j Hv), He; cbn; lia|].
    exists c. split; auto. exists c. split; auto. apply Nat.eqb_refl.
Qed.

Lemma peg_delimiter_no cs w r : blank w -> solid_head r -> match r with c :: _ => ~ In c (sorted cs) | [] => True end ->
  peg A (delimiter cs) (w ++ r) None.
Proof.
  intros Hw Hs Hr. apply G_seq. eapply and_stop; [now apply peg_ws|]. rewrite skipn_exact by auto.
  apply G_and_fail, G_map. now apply peg_set_no.
Qed.

Lemma peg_delimiter cs w c r : blank w -> ~ is_blank c -> In c (sorted cs) -> peg A (delimiter cs) (w ++ c :: r) (Some (List.length w + 1)).
Proof.
  intros Hw Hs Hc. apply G_seq. apply and_more; [now apply peg_ws|]. rewrite skipn_exact by auto.
  apply and_last, G_map. now apply peg_set.
Qed.

(** ** Operands *)
Lemma operand_big c i w t r v tr : alg_ty c <> TVoid -> at_ i (w ++ t ++ r) -> blank w -> solid_head (t ++ r) ->
  big A Parse (PCustom c) (adv i (List.length w)) (Res (Some (RVal v)) (adv (adv i (List.length w)) (List.length t))) tr ->
  exists tr', big A Parse (seqp ws (PCustom c)) i (Res (Some (RVal v)) (adv i (List.length (w ++ t)))) tr'.
Proof.
  intros Ht Ha Hw Hs Hb. rewrite app_length, <- adv_adv'. eexists.
  eapply (B_seq_ok A ws [PCustom c] [TVoid; alg_ty c] i [RVoid; RVal v] [v]); [reflexivity| |repeat constructor; auto].
  cbn [parts map part_mode is_void combine]. unfold part_mode. apply is_void_false in Ht. rewrite Ht.
  refine (BC_next A Look ws _ i RVoid _ (Some ([RVal _], _)) [] _ _ _ _); [eapply ws_big; eauto|apply look_shaped|].
  refine (BC_next A Parse _ _ _ _ _ (Some ([], _)) _ _ Hb (rval_shaped A _ _ _) (BC_nil A _)).
Qed.

(** ** What may come after an expression: the end, a bracket, an operator of a level above *)
Definition code (k : kind) : nat := match k with KPowterm => 1 | KFactor => 2 | KTerm => 3 | KExpr => 4 | _ => 0 end.
Definition op_codes (k : kind) : list nat := match k with KExpr => codes "+-" | KTerm => codes "*/" | _ => codes "^" end.
Definition above (k : kind) : list nat :=
  match k with KPowterm => [94; 42; 47; 43; 45] | KFactor => [42; 47; 43; 45] | KTerm => [43; 45] | _ => [] end.
Definition follow (o : bool) (k : kind) (rest : list nat) : Prop := exists w r, rest = w ++ r /\ blank w /\
  match r with [] => True | c :: _ => c = 41 \/ o = false /\ In c (above k) end.
Definition lead (k : kind) (w : list nat) : Prop := blank w /\ (k = KPowterm -> w = []).

Lemma sorted_ops k c : chained k -> In c (sorted (op_codes k)) <-> In c (ops k).
Proof. intros [->|[->| ->]]; vm_compute; tauto. Qed.

Lemma follow_head o k rest c r : follow o k rest -> rest = c :: r -> is_blank c \/ c = 41 \/ In c (above k).
Proof.
  intros (w & l & -> & Hw & Hl) H. destruct w as [|b w]; cbn in H.
  - subst l. tauto.
  - injection H as -> _. inversion Hw; auto.
Qed.
Lemma follow_clean o k rest : follow o k rest -> clean_end rest.
Proof.
  intros H. destruct rest as [|c r]; [exact I|]. pose proof (follow_head _ _ _ _ _ H eq_refl) as Hc.
  assert (X : c = 32 \/ c = 9 \/ c = 10 \/ c = 13 \/ c = 41 \/ In c [94; 42; 47; 43; 45]).
  { unfold is_blank in Hc. destruct k; cbn in *; lia. }
  cbn in X. cbn. unfold is_dg. lia.
Qed.
Lemma follow_up o k rest : chained k -> follow o k rest -> follow o (operand k) rest.
Proof.
  intros Hk (w & r & -> & Hw & Hr). exists w, r. split; auto. split; auto. destruct r; auto.
  destruct Hr as [|[Ho Hr]]; auto. right. split; auto. destruct Hk as [->|[->| ->]]; cbn in *; tauto.
Qed.
Lemma follow_negated o k k' rest : follow true k rest -> follow o k' rest.
Proof.
  intros (w & r & -> & Hw & Hr). exists w, r. split; auto. split; auto. destruct r; auto. destruct Hr as [|[Ho Hr]]; auto. discriminate.
Qed.
Lemma follow_op k w c r : chained k -> blank w -> In c (ops k) -> follow false (operand k) (w ++ c :: r).
Proof. intros Hk Hw Hc. exists w, (c :: r). split; auto. split; auto. right. split; auto. destruct Hk as [->|[->| ->]]; cbn in *; tauto. Qed.
Lemma follow_bracket o k w r : blank w -> follow o k (w ++ 41 :: r).
Proof. intros Hw. exists w, (41 :: r). auto. Qed.
Lemma follow_end o k w : blank w -> follow o k w.
Proof. intros Hw. exists w, []. now rewrite app_nil_r. Qed.

Lemma ops_solid k c : In c (ops k) -> ~ is_blank c.
Proof. intros H Hb. apply ops_all in H. cbn in H. unfold is_blank in Hb. lia. Qed.

Lemma follow_delimiter o k rest : chained k -> follow o k rest -> peg A (delimiter (op_codes k)) rest None.
Proof.
  intros Hk (w & r & -> & Hw & Hr). destruct r as [|c r]; (apply peg_delimiter_no; [auto| |]); try exact I.
  - cbn. destruct Hr as [->|[_ Hr]]; unfold is_blank; [lia|]. destruct Hk as [->|[->| ->]]; cbn in Hr; lia.
  - rewrite sorted_ops by auto. destruct Hr as [->|[_ Hr]]; destruct Hk as [->|[->| ->]]; cbn in *; lia.
Qed.

Lemma spells_head o k a t : spells o k a t -> exists c t', t = c :: t' /\ (is_dg c \/ c = 40 \/ c = 45).
Proof.
  induction 1 as [ds fs es [Hl _]| | | | |]; eauto.
  - unfold literal_text. destruct Hl as [Hn HF]. destruct ds as [|c ds]; [congruence|]. inversion HF; subst. cbn. eauto.
  - eexists _, _. split; [reflexivity|auto].
  - eexists _, _. split; [reflexivity|auto].
  - destruct IHspells1 as (c & t' & -> & Hc). cbn. eauto.
  - destruct IHspells as (c & t' & -> & Hc). cbn. eauto.
Qed.
Lemma spells_solid o k a t r : spells o k a t -> solid_head (t ++ r).
Proof.
  intros H. destruct (spells_head _ _ _ _ H) as (c & t' & -> & Hc). cbn. unfold is_blank, is_dg in *. lia.
Qed.

(** ** Everything the grammar has is parsed, as the tree that the text spells *)
Lemma number_big i ds fs es rest : literal ds fs es -> at_ i (literal_text ds fs es ++ rest) -> clean_end rest ->
  exists v tr, big A Parse alg_number i (Res (Some (RVal v)) (adv i (List.length (literal_text ds fs es)))) tr /\ number_object memory ds fs es v.
Proof.
  intros Hl Ha Hr. destruct (lift_some alg_number i _ (List.length (literal_text ds fs es)) eq_refl Ha) as (v & tr & Hb).
  { apply G_custom. now apply peg_number_body. }
  pose proof Hb as Hd. apply evals_big in Hd; [|apply Ha]. apply evals_sound in Hd as [Hs Hd]; [|apply Ha]. cbn [r_rem] in *.
  inversion Hd; subst; try discriminate.
  match goal with H : derives _ _ Parse (cust_body _ _) _ _ _ |- _ => destruct (number_derives _ _ _ _ _ H) as (ds' & fs' & es' & x & -> & Hl' & Ht & Ho) end.
  exists x, tr. split; auto.
  assert (Heq : region_text memory (sp_blk i) (sp_off i) (sp_off (adv i (List.length (literal_text ds fs es)))) = literal_text ds fs es).
  { pose proof (at_len _ _ Ha) as Hlen. destruct Ha as [Hv He]. rewrite app_length in Hlen.
    rewrite (elems_adv A i (List.length (literal_text ds fs es))) in He by lia.
    apply (f_equal (firstn (List.length (literal_text ds fs es)))) in He. rewrite !firstn_exact in He; auto.
    - cbn [adv sp_off]. unfold region_text, view, elems in *. cbn in *. now replace (sp_off i + List.length (literal_text ds fs es) - sp_off i) with (List.length (literal_text ds fs es)) by lia.
    - rewrite elems_length; auto. unfold valid in *. cbn [sp_blk sp_off sp_len] in *. lia. }
  rewrite Heq in Ht. destruct (literal_inj _ _ _ _ _ _ Hl Hl' Ht) as (-> & -> & ->). auto.
Qed.

Lemma no_lead k w : lead k w -> k = KPowterm -> w = []. Proof. intros [_ H] ->. auto. Qed.

Definition bracketed_alt : parser nat := with_modifier bracketed (MInto a_bracketed).
Definition negated_alt : parser nat := with_modifier negated (MInto a_negated).
Definition powterm_choice : parser nat := PChoice bracketed_alt [negated_alt; alg_number].
Lemma powterm_big i j v rem tr : j < 3 ->
  bfirst A [(Parse, bracketed_alt); (Parse, negated_alt); (Parse, alg_number)] i (Some (j, RVal v, rem)) tr ->
  exists tr', big A Parse (PCustom 1) i (Res (Some (RVal (VUser 4 [VVar j v]))) rem) tr'.
Proof.
  intros Hj Hb. eexists. apply B_custom_same; [reflexivity|].
  change (cust_body A 1) with (PMap powterm_choice (FConstruct a_powterm)).
  refine (B_map_ok A powterm_choice (FConstruct a_powterm) a_powterm i (RVal (VVar j v)) _ _ _ eq_refl _ eq_refl).
  refine (B_choice_ok A bracketed_alt [negated_alt; alg_number] [a_bracketed; a_negated; a_number] i j (RVal v) _ _ _ eq_refl eq_refl Hb _).
  destruct j as [|[|[|]]]; [| | |lia].
  - exact (del_val [a_bracketed; a_negated; a_number] 0 0 v eq_refl).
  - exact (del_val [a_bracketed; a_negated; a_number] 1 1 v eq_refl).
  - exact (del_val [a_bracketed; a_negated; a_number] 2 2 v eq_refl).
Qed.

(** The three chains. *)
Lemma factor_parts i v rem tr : big A Parse (PCustom 2) i (Res (Some (RVal v)) rem) tr ->
  exists v0 mid prs vs tr1 tr2, big A Parse (seqp ws (PCustom 1)) i (Res (Some (RVal v0)) mid) tr1 /\
    btail A Parse (seqp ws (PCustom 1)) (PIgnore (delimiter (op_codes KFactor))) mid prs rem tr2 /\
    map snd prs = map RVal vs /\ v = VVec (v0 :: vs).
Proof.
  intros H. inversion H; subst; try discriminate.
  match goal with H : big _ _ (cust_body _ _) _ _ _ |- _ => inversion H; subst end.
  match goal with H : result_for _ (PSequence _ _) = Some _ |- _ => vm_compute in H; injection H as <- end.
  match goal with H : result_for _ (PIgnore _) = Some _ |- _ => vm_compute in H; injection H as <- end.
  match goal with H : delim_value _ _ ?l _ _ |- _ => remember l as l0 eqn:Hl0; inversion H; subst; try congruence end.
  destruct ps as [|v1 ps]; [discriminate|]. cbn in *. match goal with H : _ = _ :: map snd _ |- _ => injection H as <- ? end. eauto 12.
Qed.
Lemma factor_whole i v0 mid prs vs rem tr1 tr2 : big A Parse (seqp ws (PCustom 1)) i (Res (Some (RVal v0)) mid) tr1 ->
  btail A Parse (seqp ws (PCustom 1)) (PIgnore (delimiter (op_codes KFactor))) mid prs rem tr2 ->
  map snd prs = map RVal vs -> big A Parse (PCustom 2) i (Res (Some (RVal (VVec (v0 :: vs)))) rem) (tr1 ++ tr2).
Proof.
  intros H1 H2 Hv. apply B_custom_same; [reflexivity|].
  refine (B_delim_ok A (seqp ws (PCustom 1)) (PIgnore (delimiter (op_codes KFactor))) a_powterm TVoid i (RVal v0) _ prs _ _ _ _ eq_refl eq_refl H1 (rval_shaped A _ _ _) H2 _).
  rewrite Hv. exact (dv_p a_powterm (v0 :: vs) _ ltac:(discriminate)).
Qed.
Lemma left_whole k i v0 mid prs vs ds rem tr1 tr2 : k = KTerm \/ k = KExpr ->
  big A Parse (seqp ws (PCustom (code (operand k)))) i (Res (Some (RVal v0)) mid) tr1 ->
  btail A Parse (seqp ws (PCustom (code (operand k)))) (delimiter (op_codes k)) mid prs rem tr2 ->
  map snd prs = map RVal vs -> map fst prs = map RVal ds ->
  big A Parse (PCustom (code k)) i (Res (Some (RVal (VPair (VVec (v0 :: vs)) (VVec ds)))) rem) (tr1 ++ tr2).
Proof.
  intros Hk H1 H2 Hv Hd. apply B_custom_same; [destruct Hk as [->| ->]; reflexivity|].
  destruct Hk as [->| ->].
  - refine (B_delim_ok A (seqp ws (PCustom 2)) (delimiter (op_codes KTerm)) a_factor a_view i (RVal v0) _ prs _ _ _ _ eq_refl eq_refl H1 (rval_shaped A _ _ _) H2 _).
    rewrite Hv, Hd. exact (dv_both a_factor a_view (v0 :: vs) ds ltac:(discriminate) ltac:(discriminate)).
  - refine (B_delim_ok A (seqp ws (PCustom 3)) (delimiter (op_codes KExpr)) a_term a_view i (RVal v0) _ prs _ _ _ _ eq_refl eq_refl H1 (rval_shaped A _ _ _) H2 _).
    rewrite Hv, Hd. exact (dv_both a_term a_view (v0 :: vs) ds ltac:(discriminate) ltac:(discriminate)).
Qed.

(** The bracketed and the negated expression. *)
Lemma bracketed_big i w t w' rest v tr : at_ i (40 :: w ++ t ++ w' ++ 41 :: rest) -> blank w -> blank w' -> solid_head (t ++ w' ++ 41 :: rest) ->
  big A Parse (PCustom 4) (adv i (S (List.length w))) (Res (Some (RVal v)) (adv i (S (List.length (w ++ t))))) tr ->
  exists tr', big A Parse bracketed_alt i (Res (Some (RVal (VUser 2 [v]))) (adv i (List.length (40 :: w ++ t ++ w' ++ [41])))) tr'.
Proof.
  intros Ha Hw Hw' Hs Hb.
  pose proof (at_next _ _ _ Ha) as A1. pose proof (at_adv _ _ _ A1) as A2. rewrite adv_adv' in A2.
  pose proof (at_adv _ _ _ A2) as A3. rewrite adv_adv' in A3. pose proof (at_adv _ _ _ A3) as A4. rewrite adv_adv' in A4.
  pose proof (ign_big _ _ _ Ha) as B1. pose proof (ws_big _ _ _ A1 Hw Hs) as B2. rewrite adv_adv' in B2.
  pose proof (ws_big _ _ _ A3 Hw' ltac:(cbn; unfold is_blank; lia)) as B4. rewrite adv_adv' in B4.
  pose proof (ign_big _ _ _ A4) as B5. rewrite adv_adv' in B5.
  replace (S (List.length (w ++ t))) with (1 + List.length w + List.length t) in Hb by (rewrite app_length; lia).
  change (S (List.length w)) with (1 + List.length w) in Hb.
  replace (List.length (40 :: w ++ t ++ w' ++ [41])) with (1 + List.length w + List.length t + List.length w' + 1) by (cbn; rewrite !app_length; cbn; lia).
  eexists. refine (B_map_ok A bracketed (FConstruct a_bracketed) a_bracketed i (RVal v) _ _ _ eq_refl _ eq_refl).
  refine (B_seq_ok A (ign (codes "(")) [ws; alg_expr; ws; ign (codes ")")] [TVoid; TVoid; a_expr; TVoid; TVoid] i [RVoid; RVoid; RVal v; RVoid; RVoid] [v] _ _ eq_refl _ _);
    [|repeat constructor; discriminate].
  cbn [parts map part_mode is_void combine a_expr].
  refine (BC_next A Look _ _ _ _ _ (Some ([_; _; _; _], _)) _ _ B1 (look_shaped A _ _) _).
  refine (BC_next A Look _ _ _ _ _ (Some ([_; _; _], _)) _ _ B2 (look_shaped A _ _) _).
  refine (BC_next A Parse _ _ _ _ _ (Some ([_; _], _)) _ _ Hb (rval_shaped A _ _ _) _).
  refine (BC_next A Look _ _ _ _ _ (Some ([_], _)) _ _ B4 (look_shaped A _ _) _).
  refine (BC_next A Look _ _ _ _ _ (Some ([], _)) _ _ B5 (look_shaped A _ _) (BC_nil A _)).
Qed.
Lemma negated_big i w t rest v tr : at_ i (45 :: w ++ t ++ rest) -> blank w -> solid_head (t ++ rest) ->
  big A Parse (PCustom 4) (adv i (S (List.length w))) (Res (Some (RVal v)) (adv i (S (List.length (w ++ t))))) tr ->
  exists tr', big A Parse negated_alt i (Res (Some (RVal (VUser 3 [v]))) (adv i (List.length (45 :: w ++ t)))) tr'.
Proof.
  intros Ha Hw Hs Hb.
  pose proof (at_next _ _ _ Ha) as A1.
  pose proof (ign_big _ _ _ Ha) as B1. pose proof (ws_big _ _ _ A1 Hw Hs) as B2. rewrite adv_adv' in B2.
  change (S (List.length w)) with (1 + List.length w) in Hb.
  eexists. refine (B_map_ok A negated (FConstruct a_negated) a_negated i (RVal v) _ _ _ eq_refl _ eq_refl).
  refine (B_seq_ok A (ign (codes "-")) [ws; alg_expr] [TVoid; TVoid; a_expr] i [RVoid; RVoid; RVal v] [v] _ _ eq_refl _ _);
    [|repeat constructor; discriminate].
  cbn [parts map part_mode is_void combine a_expr].
  refine (BC_next A Look _ _ _ _ _ (Some ([_; _], _)) _ _ B1 (look_shaped A _ _) _).
  refine (BC_next A Look _ _ _ _ _ (Some ([_], _)) _ _ B2 (look_shaped A _ _) _).
  refine (BC_next A Parse _ _ _ _ _ (Some ([], _)) _ _ Hb (rval_shaped A _ _ _) (BC_nil A _)).
Qed.

Lemma complete :
  (forall o k a t, spells o k a t -> forall i w rest, lead k w -> at_ i (w ++ t ++ rest) -> follow o k rest ->
     exists v tr, big A Parse (PCustom (code k)) i (Res (Some (RVal v)) (adv i (List.length (w ++ t)))) tr /\ reads memory k v a) /\
  (forall p o k a r u, tail p o k a r u -> k = KTerm \/ k = KExpr -> forall i rest, at_ i (u ++ rest) -> follow o k rest ->
     exists prs tr vs ds, btail A Parse (seqp ws (PCustom (code (operand k)))) (delimiter (op_codes k)) i prs (adv i (List.length u)) tr
       /\ map snd prs = map RVal vs /\ map fst prs = map RVal ds /\ reads_more memory k a vs ds r).
Proof.
  apply spells_mut.
  - intros ds fs es Hl i w rest Hw Ha Hf. rewrite (no_lead _ _ Hw eq_refl) in *. cbn [app] in *.
    destruct (number_big i ds fs es rest Hl Ha (follow_clean _ _ _ Hf)) as (v & tr & Hb & Ho).
    destruct (spells_head _ _ _ _ (sp_number ds fs es Hl)) as (c & l & Hc & Hd).
    assert (Hh : literal ds fs es -> is_dg c).
    { intros ((Hn & HF) & _). unfold literal_text in Hc. destruct ds as [|x ds]; [congruence|]. injection Hc as -> _. now inversion HF. }
    specialize (Hh Hl). unfold is_dg in Hh.
    destruct (lift_none bracketed_alt i _ eq_refl Ha) as [tr1 H1].
    { apply G_map, G_seq, G_and_fail, (peg_ign_no 40). rewrite Hc. cbn. lia. }
    destruct (lift_none negated_alt i _ eq_refl Ha) as [tr2 H2].
    { apply G_map, G_seq, G_and_fail, (peg_ign_no 45). rewrite Hc. cbn. lia. }
    destruct (powterm_big i 2 v (adv i (List.length (literal_text ds fs es))) (tr1 ++ tr2 ++ tr)) as [tr' Hp]; [lia| |].
    { refine (BF_next A Parse _ _ i (Some (1, _, _)) _ _ H1 _). refine (BF_next A Parse _ _ i (Some (0, _, _)) _ _ H2 _). apply BF_here. exact Hb. }
    eexists _, _. split; [exact Hp|now apply rd_number].
  - intros o a w t w' Hw Hs IH Hw' i lw rest Hlead Ha Hf. rewrite (no_lead _ _ Hlead eq_refl) in *. clear Hlead.
    cbn [app] in Ha. repeat rewrite <- app_assoc in Ha. cbn [app] in Ha. rewrite app_nil_l.
    pose proof (at_next _ _ _ Ha) as A1. pose proof (at_adv _ _ _ A1) as A2. rewrite adv_adv' in A2.
    destruct (IH _ [] (w' ++ 41 :: rest) (conj (Forall_nil _) (fun _ => eq_refl)) A2 (follow_bracket _ _ _ _ Hw')) as (v & tr & Hb & Hr).
    rewrite adv_adv' in Hb. destruct (bracketed_big i w t w' rest v tr) as [tr' Hb']; auto.
    { eapply spells_solid; eauto. }
    { cbn [app] in Hb. rewrite app_length. exact Hb. }
    destruct (powterm_big i 0 (VUser 2 [v]) (adv i (List.length (40 :: w ++ t ++ w' ++ [41]))) tr') as [tr2 Hp]; [lia|now apply BF_here|].
    eexists _, _. split; [exact Hp|now apply rd_bracketed].
  - intros o a w t Hw Hs IH i lw rest Hlead Ha Hf. rewrite (no_lead _ _ Hlead eq_refl) in *. clear Hlead.
    cbn [app] in Ha. repeat rewrite <- app_assoc in Ha. rewrite app_nil_l.
    pose proof (at_next _ _ _ Ha) as A1. pose proof (at_adv _ _ _ A1) as A2. rewrite adv_adv' in A2.
    destruct (IH _ [] rest (conj (Forall_nil _) (fun _ => eq_refl)) A2 (follow_negated _ _ _ _ Hf)) as (v & tr & Hb & Hr).
    rewrite adv_adv' in Hb. destruct (negated_big i w t rest v tr) as [tr' Hb']; auto.
    { eapply spells_solid; eauto. }
    { cbn [app] in Hb. rewrite app_length. exact Hb. }
    destruct (lift_none bracketed_alt i _ eq_refl Ha) as [tr1 H1].
    { apply G_map, G_seq, G_and_fail, (peg_ign_no 40). discriminate. }
    destruct (powterm_big i 1 (VUser 3 [v]) (adv i (List.length (45 :: w ++ t))) (tr1 ++ tr')) as [tr2 Hp]; [lia| |].
    { refine (BF_next A Parse _ _ i (Some (0, _, _)) _ _ H1 _). now apply BF_here. }
    eexists _, _. split; [exact Hp|now apply rd_negated].
  - intros o a t Hs IH i w rest [Hw _] Ha Hf.
    pose proof (at_adv _ _ _ Ha) as Ha1.
    destruct (IH (adv i (List.length w)) [] rest) as (v & tr & Hb & Hr); auto.
    { split; auto. constructor. }
    { now apply (follow_up o KFactor); [left|]. }
    destruct (operand_big 1 i w t rest v tr) as [tr' Hb']; auto; [discriminate|eapply spells_solid; eauto|].
    pose proof Ha as Ha2. rewrite app_assoc in Ha2. apply at_adv in Ha2.
    destruct (lift_none (PIgnore (delimiter (op_codes KFactor))) _ rest eq_refl Ha2) as [tr2 H2].
    { apply G_ignore. apply (follow_delimiter o KFactor); auto. now left. }
    eexists _, _. split; [|apply rd_one; eauto].
    apply (factor_whole i v _ [] [] _ tr' tr2 Hb'); auto. apply BT_end. exact H2.
  - intros o a b t w w' u Ha0 IHa Hw Hw' Hb0 IHb i lw rest [Hlw _] Ha Hf.
    assert (Hk : chained KFactor) by now left.
    repeat rewrite <- app_assoc in Ha. cbn [app] in Ha. repeat rewrite <- app_assoc in Ha.
    pose proof (at_adv _ _ _ Ha) as A1.
    destruct (IHa _ [] _ (conj (Forall_nil _) (fun _ => eq_refl)) A1) as (v & tr & Hb & Hr).
    { apply (follow_op KFactor); auto. now left. }
    destruct (operand_big 1 i lw t _ v tr ltac:(discriminate) Ha Hlw) as [tr1 B1]; auto.
    { eapply spells_solid; eauto. }
    pose proof Ha as A2. rewrite app_assoc in A2. apply at_adv in A2. set (j := adv i (List.length (lw ++ t))) in *.
    assert (B2 : big A Parse (PIgnore (delimiter (op_codes KFactor))) j (Res (Some RVoid) (adv j (List.length w + 1))) []).
    { apply B_ignore. eapply lift_look; [reflexivity|exact A2|]. apply peg_delimiter; auto; [unfold is_blank; lia|]. vm_compute. auto. }
    assert (A3 : at_ (adv j (List.length w + 1)) (w' ++ u ++ rest)).
    { replace (List.length w + 1) with (List.length (w ++ [94])) by now rewrite app_length. apply at_adv. rewrite <- app_assoc. exact A2. }
    assert (Hlead : lead KFactor w') by (split; [auto|discriminate]).
    destruct (IHb _ w' rest Hlead A3 Hf) as (v2 & tr2 & Hb2 & Hr2).
    destruct (factor_parts _ _ _ _ Hb2) as (v1 & mid & prs & vs & tr3 & tr4 & B3 & B4 & Hvs & ->).
    exists (VVec (v :: v1 :: vs)). eexists. split; [|now apply rd_power].
    replace (adv i (List.length (lw ++ t ++ w ++ 94 :: w' ++ u))) with (adv (adv j (List.length w + 1)) (List.length (w' ++ u))).
    2: { unfold j. rewrite !adv_adv'. f_equal. repeat (rewrite app_length; cbn [List.length]). lia. }
    eapply (factor_whole i v j ((RVoid, RVal v1) :: prs) (v1 :: vs)); [exact B1| |cbn; now rewrite Hvs].
    eapply BT_next; [exact B2| |exact B3|apply rval_shaped|exact B4].
    intros _ ty Hty Hn. vm_compute in Hty. congruence.
  - intros k p o a r t u Hk Hs IHs Ht IHt i w rest [Hw _] Ha Hf.
    assert (Hch : chained k) by (destruct Hk as [->| ->]; unfold chained; auto).
    repeat rewrite <- app_assoc in Ha.
    pose proof (at_adv _ _ _ Ha) as A1.
    assert (Hf1 : follow p (operand k) (u ++ rest)).
    { inversion Ht; subst; [now apply follow_up|]. repeat rewrite <- app_assoc. cbn [app]. now apply follow_op. }
    assert (Hlead : lead (operand k) []) by (split; auto; constructor).
    destruct (IHs _ [] _ Hlead A1 Hf1) as (v & tr & Hb & Hr).
    destruct (operand_big (code (operand k)) i w t _ v tr ltac:(destruct Hk as [->| ->]; discriminate) Ha Hw) as [tr1 B1]; auto.
    { eapply spells_solid; eauto. }
    pose proof Ha as A2. rewrite app_assoc in A2. apply at_adv in A2.
    destruct (IHt Hk _ rest A2 Hf) as (prs & tr2 & vs & ds & B2 & Hvs & Hds & Hm).
    exists (VPair (VVec (v :: vs)) (VVec ds)). eexists. split; [|eapply rd_left; eauto].
    rewrite app_assoc, app_length, <- adv_adv'. eapply left_whole; eauto.
  - intros p k a Hk i rest Ha Hf. cbn [app] in Ha. rewrite adv_0.
    assert (Hch : chained k) by (destruct Hk as [->| ->]; unfold chained; auto).
    assert (Hfine : fine (delimiter (op_codes k)) = true) by (destruct Hk as [->| ->]; reflexivity).
    destruct (lift_none (delimiter (op_codes k)) i rest Hfine Ha (follow_delimiter _ _ _ Hch Hf)) as [tr H].
    exists [], tr, [], []. repeat split; auto; [|constructor]. apply BT_end. exact H.
  - intros p o k a b r w c w' t u Hw Hc Hw' Hs IHs Ht IHt Hk i rest Ha Hf.
    assert (Hch : chained k) by (destruct Hk as [->| ->]; unfold chained; auto).
    repeat rewrite <- app_assoc in Ha. cbn [app] in Ha. repeat rewrite <- app_assoc in Ha.
    destruct (delimiter_big (op_codes k) i w c _ Ha Hw) as (sp & Hsp & tr0 & B0); [eapply ops_solid; eauto|now apply sorted_ops|].
    assert (A1 : at_ (adv i (List.length w + 1)) (w' ++ t ++ u ++ rest)).
    { replace (List.length w + 1) with (List.length (w ++ [c])) by now rewrite app_length. apply at_adv. rewrite <- app_assoc. exact Ha. }
    set (j := adv i (List.length w + 1)) in *.
    assert (Hf1 : follow p (operand k) (u ++ rest)).
    { inversion Ht; subst; [now apply follow_up|]. repeat rewrite <- app_assoc. cbn [app]. now apply follow_op. }
    assert (Hlead : lead (operand k) []) by (split; auto; constructor).
    destruct (IHs _ [] _ Hlead (at_adv _ _ _ A1) Hf1) as (v & tr & Hb & Hr).
    destruct (operand_big (code (operand k)) j w' t _ v tr ltac:(destruct Hk as [->| ->]; discriminate) A1 Hw') as [tr1 B1]; auto.
    { eapply spells_solid; eauto. }
    pose proof A1 as A2. rewrite app_assoc in A2. apply at_adv in A2.
    destruct (IHt Hk _ rest A2 Hf) as (prs & tr2 & vs & ds & B2 & Hvs & Hds & Hm).
    exists ((RVal (VUser 0 [VSpan sp]), RVal v) :: prs). eexists. exists (v :: vs), (VUser 0 [VSpan sp] :: ds).
    split; [|split; [cbn; now rewrite Hvs|split; [cbn; now rewrite Hds|eapply rm_cons; eauto]]].
    replace (adv i (List.length (w ++ c :: w' ++ t ++ u))) with (adv (adv j (List.length (w' ++ t))) (List.length u)).
    2: { unfold j. rewrite !adv_adv'. f_equal. repeat (rewrite app_length; cbn [List.length]). lia. }
    eapply BT_next; [exact B0|apply rval_shaped|exact B1|apply rval_shaped|exact B2].
Qed.

(** ** input, parser.h:114-119 *)
Lemma input_big i o a w t w' : spells o KExpr a t -> blank w -> blank w' -> at_ i (w ++ t ++ w') ->
  exists v tr, big A Parse alg_input i (Res (Some (RVal v)) (adv i (sp_len i))) tr /\ reads memory KExpr v a.
Proof.
  intros Hs Hw Hw' Ha. pose proof (at_len _ _ Ha) as Hlen.
  assert (Hsol : solid_head (t ++ w')) by (eapply spells_solid; eauto).
  pose proof (at_adv _ _ _ Ha) as A1.
  assert (Hlead : lead KExpr []) by (split; [constructor|discriminate]).
  destruct (proj1 complete _ _ _ _ Hs _ [] w' Hlead A1 (follow_end _ _ _ Hw')) as (v & tr & Hb & Hr).
  cbn [app] in Hb. rewrite adv_adv' in Hb. pose proof (at_adv _ _ _ A1) as A2. rewrite adv_adv' in A2. rewrite <- (app_nil_r w') in A2.
  pose proof (ws_big _ _ _ Ha Hw Hsol) as B1. pose proof (ws_big _ _ _ A2 Hw' I) as B3. rewrite adv_adv' in B3.
  exists v. eexists. split; [|exact Hr]. apply B_custom_same; [reflexivity|].
  apply B_complete_ok; [|cbn; lia]. rewrite Hlen.
  replace (List.length (w ++ t ++ w')) with (List.length w + List.length t + List.length w') by (rewrite !app_length; lia).
  refine (B_seq_ok A ws [alg_expr; ws] [TVoid; a_expr; TVoid] i [RVoid; RVal v; RVoid] [v] _ _ eq_refl _ _);
    [|repeat constructor; discriminate].
  cbn [parts map part_mode is_void combine a_expr].
  refine (BC_next A Look _ _ _ _ _ (Some ([_; _], _)) _ _ B1 (look_shaped A _ _) _).
  refine (BC_next A Parse _ _ _ _ _ (Some ([_], _)) _ _ Hb (rval_shaped A _ _ _) _).
  refine (BC_next A Look _ _ _ _ _ (Some ([], _)) _ _ B3 (look_shaped A _ _) (BC_nil A _)).
Qed.

Lemma input_bnf i v rem tr : valid A i -> evals A Parse alg_input i (Done (Res (Some v) rem) tr) -> bnf_input (elems A i).
Proof.
  intros Hv H. assert (Hrem : sp_len rem = 0).
  { apply evals_big in H; auto. inversion H; subst; try discriminate.
    match goal with H : big _ _ (cust_body _ _) _ _ _ |- _ => inversion H; subst end. auto. }
  apply evals_sound in H as [Hs H]; auto. cbn [r_rem] in *. destruct Hs as (c & Hc & ->). cbn [adv sp_len] in Hrem.
  assert (c = sp_len i) by lia. subst c. cbn [sp_off adv] in H.
  inversion H; subst; try discriminate. match goal with H : derives _ _ _ (cust_body _ _) _ _ _ |- _ => inversion H; subst; clear H end.
  match goal with H : derives _ _ _ (PSequence _ _) _ _ _ |- _ => inversion H; subst; clear H end.
  match goal with H : result_fors _ _ = Some _ |- _ => vm_compute in H; injection H as <- end.
  match goal with H : dchain _ _ _ _ _ _ |- _ => cbn [parts map part_mode is_void combine] in H; rename H into C1 end.
  inversion C1 as [|? ? ? ? ? ? ? ? D1 C2]; subst. inversion C2 as [|? ? ? ? ? ? ? ? D2 C3]; subst. inversion C3 as [|? ? ? ? ? ? ? ? D3 C4]; subst.
  inversion C4; subst. apply ws_derives in D1 as [L1 B1]. apply ws_derives in D3 as [L3 B3].
  pose proof (proj1 (derives_le A _) _ _ _ _ _ D2) as L2. apply (derives_bnf memory _ (S (10 * (mid0 - mid) + 4)) 4 KExpr) in D2; [|reflexivity|lia].
  replace (elems A i) with (region_text memory (sp_blk i) (sp_off i) (sp_off i + sp_len i)).
  2: { unfold region_text, view, elems. cbn. now replace (sp_off i + sp_len i - sp_off i) with (sp_len i) by lia. }
  rewrite (region_app memory _ _ mid), (region_app memory _ mid mid0) by lia. now constructor.
Qed.

(** What an object says is determined. *)
Lemma number_object_inj ds fs es ds' fs' es' v : literal ds fs es -> literal ds' fs' es' -> number_object memory ds fs es v -> number_object memory ds' fs' es' v ->
  ds = ds' /\ fs = fs' /\ option_map (fun x => (snd (fst x), snd x)) es = option_map (fun x => (snd (fst x), snd x)) es'.
Proof.
  intros (_ & _ & Hl) (_ & _ & Hl') (i & d & e & -> & Hi & Hd & He) (i' & d' & e' & Hv & Hi' & Hd' & He').
  injection Hv as <- Hd1 He1.
  assert (Hmap : forall x y : option span, option_map VSpan x = option_map VSpan y -> x = y) by (intros [] []; cbn; congruence).
  apply Hmap in Hd1, He1. subst d' e'. split; [congruence|]. split; [congruence|].
  rewrite He in He'. destruct es as [[[c n] x]|], es' as [[[c' n'] x']|]; cbn in *; try discriminate; auto.
  injection He' as He'. destruct Hl as [_ [X1 X2]], Hl' as [_ [X1' X2']].
  assert (forall y z, Forall is_dg y -> 45 :: z <> y) as Hne by (intros y z Hy <-; inversion Hy as [|? ? Hdg _]; unfold is_dg in Hdg; lia).
  destruct n, n'; cbn in He'; try congruence; [now destruct (Hne x' x)|symmetry in He'; now destruct (Hne x x')].
Qed.

Lemma reads_det :
  (forall k v a, reads memory k v a -> forall b, reads memory k v b -> a = b) /\
  (forall k a vs ds r, reads_more memory k a vs ds r -> forall r', reads_more memory k a vs ds r' -> r = r').
Proof.
  apply reads_mut.
  - intros ds fs es v Hl Ho b Hb. inversion Hb; subst.
    match goal with H : number_object _ ?d ?f ?e _ |- _ =>
        match goal with Hl' : literal d f e |- _ => destruct (number_object_inj _ _ _ _ _ _ _ Hl Hl' Ho H) as (-> & -> & ->); reflexivity end end.
  - intros v a _ IH b Hb. inversion Hb; subst. f_equal. auto.
  - intros v a _ IH b Hb. inversion Hb; subst. f_equal. auto.
  - intros v a _ IH b Hb. inversion Hb; subst; auto. match goal with H : reads _ KFactor (VVec []) _ |- _ => inversion H end.
  - intros v a vs b _ IHa Hn IHb c Hc. inversion Hc; subst.
    + inversion Hn.
    + f_equal; auto.
  - intros k v a vs ds r Hk _ IHa _ IHm b Hb. inversion Hb; subst.
    match goal with H : reads _ (operand k) v ?x |- _ => assert (x = a) by (symmetry; auto); subst x end. auto.
  - intros k a r' H. now inversion H.
  - intros k a v b s c vs ds r Hk _ IHb Hs Hc _ IHm r' H. inversion H; subst.
    match goal with H : reads _ (operand k) v ?x |- _ => assert (x = b) by (symmetry; auto); subst x end.
    match goal with H : view memory s = [?x] |- _ => assert (x = c) by congruence; subst x end. auto.
Qed.

(** ** C49: the parser accepts the documented grammar *)
Theorem C49_accepts_documented_grammar i : valid A i ->
  ((exists v rem tr, evals A Parse alg_input i (Done (Res (Some v) rem) tr)) <-> bnf_input (elems A i)).
Proof.
  intros Hv. split.
  - intros (v & rem & tr & H). eapply input_bnf; eauto.
  - intros H. apply bnf_meaning in H as [a Ha]. inversion Ha as [o a' w t w' Hw Hs Hw' Ea Heq]; subst.
    destruct (input_big i o a w t w' Hs Hw Hw' (conj Hv (eq_sym Heq))) as (v & tr & Hb & _).
    eexists _, _, tr. apply evals_big; eauto.
Qed.

Theorem C49_lookahead_accepts_documented_grammar i : valid A i ->
  ((exists v rem tr, evals A Look alg_input i (Done (Res (Some v) rem) tr)) <-> bnf_input (elems A i)).
Proof.
  intros Hv. rewrite <- C49_accepts_documented_grammar by auto.
  assert (Hst : steady A alg_input) by (apply (steady_b_ok A custs); reflexivity).
  split; intros (v & rem & tr & H).
  - destruct (C05_lookahead_implies_parse_partial A alg_input i _ rem tr (alg_program memory) Hv eq_refl (steady_parsed A _ Hst) (steady_join_local A _ Hst) H) as [[e He]|[[? _]|(_ & v' & tr' & H')]];
      [now destruct (no_throw _ _ _ He)|discriminate|eauto].
  - exists RVoid, rem, []. now apply (C05_parse_implies_lookahead_partial A alg_input i v rem tr (alg_program memory) Hv eq_refl (steady_parsed A _ Hst)).
Qed.

(** Otherwise it refuses, without exception or undefined behaviour. *)
Theorem C49_refuses_the_rest i : valid A i -> ~ bnf_input (elems A i) -> exists tr, evals A Parse alg_input i (Done (Res None i) tr).
Proof.
  intros Hv Hn. destruct (C40_parser_terminates memory alg_input Parse i) as ([[v|] rem] & tr & H); auto.
  { unfold alg_entry. cbn. auto 8. }
  - destruct Hn. apply C49_accepts_documented_grammar; eauto.
  - exists tr. assert (Hb := H). apply evals_big in Hb; auto. apply big_fail in Hb. now subst rem.
Qed.

(** ** C48: evaluate computes the value of the text *)
Theorem C48_value_of_text F i a : valid A i -> spells_input a (elems A i) ->
  exists v rem tr, evals A Parse alg_input i (Done (Res (Some (RVal v)) rem) tr) /\
    forall d, evaluate memory F KExpr v = EVal d <-> value F a = Some d.
Proof.
  intros Hv Ha. inversion Ha as [o a' w t w' Hw Hs Hw' Ea Heq]; subst.
  destruct (input_big i o a w t w' Hs Hw Hw' (conj Hv (eq_sym Heq))) as (v & tr & Hb & Hr).
  eexists v, _, tr. split; [apply evals_big; eauto|].
  intros d. pose proof (proj1 (reads_value memory F) _ _ _ Hr) as He. unfold agrees in He. destruct (value F a) as [x|].
  - rewrite He. split; congruence.
  - split; [intros H; now destruct (He d)|discriminate].
Qed.

(** Whatever was parsed has a meaning, and evaluate computes it. *)
Theorem C48_value_of_parsed F i v rem tr : valid A i -> evals A Parse alg_input i (Done (Res (Some v) rem) tr) ->
  exists x a, v = RVal x /\ spells_input a (elems A i) /\ forall d, evaluate memory F KExpr x = EVal d <-> value F a = Some d.
Proof.
  intros Hv H. pose proof (input_bnf _ _ _ _ Hv H) as Hb. apply bnf_meaning in Hb as [a Ha].
  destruct (C48_value_of_text F i a Hv Ha) as (x & rem' & tr' & H' & Hd). exists x, a. split; auto.
  apply evals_big in H, H'; auto. destruct (big_det A _ _ _ _ _ _ _ Hv H H') as [[= -> ->] _]. auto.
Qed.
End Parser.

(** A text has one meaning. *)
Theorem C48_unambiguous a b t : spells_input a t -> spells_input b t -> a = b.
Proof.
  intros Ha Hb. set (memory := fun _ : nat => t). set (i := Span 0 0 (List.length t)).
  assert (Hat : at_ memory i t).
  { split; [unfold valid, i, memory; cbn; lia|]. unfold elems, i, memory. cbn. apply firstn_all. }
  inversion Ha as [o a' w u w' Hw Hs Hw' Ea Heq]; subst a' . inversion Hb as [p b' x y x' Hx Hy Hx' Eb Heq']; subst b'.
  assert (Hat2 : at_ memory i (x ++ y ++ x')) by now rewrite Heq'. assert (Hat1 : at_ memory i (w ++ u ++ w')) by now rewrite Heq.
  destruct (input_big memory i o a w u w' Hs Hw Hw' Hat1) as (v & tr & B & R).
  destruct (input_big memory i p b x y x' Hy Hx Hx' Hat2) as (v' & tr' & B' & R').
  destruct (big_det _ _ _ _ _ _ _ _ (proj1 Hat) B B') as [[= ->] _].
  eapply (proj1 (reads_det memory)); eauto.
Qed.

(** ** Cases

    -1+2 is -(1+2); 2^3^2 is 2^(3^2); 8-2-1 is (8-2)-1; 1+2*3 is 1+(2*3). *)
Definition number1 (c : nat) : ast := ANum [c] None None.
Lemma single c : is_dg c -> literal [c] None None.
Proof. intros H. split; [split; [discriminate|constructor; [exact H|constructor]]|split; exact I]. Qed.
Lemma one_digit c : is_dg c -> spells false KPowterm (number1 c) [c].
Proof. intros H. now apply (sp_number [c] None None), single. Qed.
Lemma up_factor o a t : spells o KPowterm a t -> spells o KTerm a t.
Proof. intros H. rewrite <- (app_nil_r t). eapply sp_left; [auto|apply sp_power_one, H|constructor]. Qed.

Example C48_negation_case : spells_input (ANeg (ABin 43 (number1 49) (number1 50))) (codes "-1 + 2").
Proof.
  apply (sp_whole true _ [] (codes "-1 + 2") []); try constructor. apply spells_up.
  apply (sp_negated false _ []); [constructor|].
  apply (sp_left KExpr false false (number1 49) _ [49]); auto.
  - apply up_factor, one_digit. unfold is_dg; lia.
  - apply (tl_cons false false KExpr _ (number1 50) _ [32] 43 [32] [50] []); cbn; auto; try (repeat constructor); unfold is_blank; auto.
    apply up_factor, one_digit. unfold is_dg; lia.
Qed.
Example C48_power_case : spells_input (ABin 94 (number1 50) (ABin 94 (number1 51) (number1 50))) (codes "2^3^2").
Proof.
  apply (sp_whole false _ [] (codes "2^3^2") []); try constructor.
  rewrite <- (app_nil_r (codes _)). eapply sp_left; [auto| |constructor].
  rewrite <- (app_nil_r (codes _)). eapply sp_left; [auto| |constructor].
  apply (sp_power false _ _ [50] [] [] (codes "3^2")); [apply one_digit; unfold is_dg; lia|constructor|constructor|].
  apply (sp_power false _ _ [51] [] [] (codes "2")); [apply one_digit; unfold is_dg; lia|constructor|constructor|].
  apply sp_power_one, one_digit. unfold is_dg; lia.
Qed.
Example C48_left_case : spells_input (ABin 45 (ABin 45 (number1 56) (number1 50)) (ABin 42 (number1 49) (number1 51))) (codes "8-2-1*3").
Proof.
  apply (sp_whole false _ [] (codes "8-2-1*3") []); try constructor.
  apply (sp_left KExpr false false (number1 56) _ [56]); auto; [apply up_factor, one_digit; unfold is_dg; lia|].
  apply (tl_cons false false KExpr _ (number1 50) _ [] 45 [] [50] (codes "-1*3")); cbn; auto; try constructor.
  - apply up_factor, one_digit; unfold is_dg; lia.
  - apply (tl_cons false false KExpr _ (ABin 42 (number1 49) (number1 51)) _ [] 45 [] (codes "1*3") []); cbn; auto; try constructor.
    apply (sp_left KTerm false false (number1 49) _ [49]); auto; [apply sp_power_one, one_digit; unfold is_dg; lia|].
    apply (tl_cons false false KTerm _ (number1 51) _ [] 42 [] [51] []); cbn; auto; try constructor.
    apply one_digit; unfold is_dg; lia.
Qed.

(** With numbers for doubles (only the operations matter here), run on the text. *)
Definition integers : doubles := {|
  dbl := Z; d_add := Z.add; d_sub := Z.sub; d_mul := Z.mul; d_div := Z.div; d_neg := Z.opp; d_pow := Z.pow;
  d_from := fun l => if forallb dgb l then Some (decimal l) else None; d_int := fun z => z |}.
Definition computes (s : string) : option (eres Z) :=
  let t := codes s in
  match run (alg_env (fun _ => t)) 60 Parse alg_input (Span 0 0 (List.length t)) with
  | Done (Res (Some (RVal v)) _) _ => Some (evaluate (fun _ => t) integers KExpr v)
  | _ => None
  end.
Example C48_case :
  value integers (ANeg (ABin 43 (number1 49) (number1 50))) = Some (-3)%Z /\ computes "-1 + 2" = Some (EVal (-3)%Z) /\
  value integers (ABin 94 (number1 50) (ABin 94 (number1 51) (number1 50))) = Some 512%Z /\ computes "2^3^2" = Some (EVal 512%Z) /\
  value integers (ABin 45 (ABin 45 (number1 56) (number1 50)) (ABin 42 (number1 49) (number1 51))) = Some 3%Z /\ computes "8-2-1*3" = Some (EVal 3%Z).
Proof. vm_compute. repeat split. Qed.
(** Not in the language: nothing between the brackets, an operator too many. *)
Example C49_case : bnf_input (codes " (1 )* -2") /\ computes " (1 )* -2" = Some (EVal (-2)%Z) /\ computes "()" = None /\ computes "1+*2" = None.
Proof.
  split; [|vm_compute; repeat split].
  assert (N : forall c, is_dg c -> bnf KFactor [c]).
  { intros c H. apply (bnf_chain KFactor [] [c] []); [now left|constructor| |constructor].
    now apply (bnf_number [c] None None), single. }
  assert (up : forall k t, chained k -> bnf (operand k) t -> bnf k t).
  { intros k t Hk H. rewrite <- (app_nil_r t). apply (bnf_chain k []); auto; constructor. }
  assert (Hc : chained KFactor /\ chained KTerm /\ chained KExpr) by (unfold chained; auto). destruct Hc as (H2 & H3 & H4).
  apply (bnf_whole [32] (codes "(1 )* -2") []); try (repeat constructor; unfold is_blank; auto; fail).
  apply up; auto. apply (bnf_chain KTerm [] (codes "(1 )") (codes "* -2")); auto; [constructor| |].
  - apply up; auto. apply (bnf_bracketed [] [49] [32]); try (repeat constructor; unfold is_blank; auto; fail).
    apply up; auto. apply up; auto. apply N. unfold is_dg; lia.
  - apply (bnf_cons KTerm [] 42 [32] (codes "-2") []); cbn; auto; try (repeat constructor; unfold is_blank; auto; fail).
    apply (up KFactor); auto. apply (bnf_negated [] [50]); [constructor|]. apply up; auto. apply up; auto. apply N. unfold is_dg; lia.
Qed.

Print Assumptions C48_value_of_text.
Print Assumptions C48_value_of_parsed.
Print Assumptions C48_unambiguous.
Print Assumptions C49_accepts_documented_grammar.
Print Assumptions C49_lookahead_accepts_documented_grammar.
Print Assumptions C49_refuses_the_rest.
