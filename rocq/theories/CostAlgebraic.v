(** * Property C55, the algebraic example: a text on which it makes exponentially many calls

    The text is -1+(-1+(-1+( ... : what follows a + is read once by the expression that
    the minus sign negates, and, as it cannot be read to its end, a second time by the
    expression around. *)
From Coq Require Import String List Arith ZArith Bool Lia.
From Verif Require Import Types Compound Parser Outcome CompoundFacts Exec Mono Derive Typing Join Leaves Sound
  BigStep BigSound BigComplete Peg Throws Elems Samples Runs PropCore PropPeg Lossless Agree Check PropAgree Grammar CharPeg Names PropNames Term PropTerm
  StaticArray Operators PropSets Modifiers ExJson Shape ExAlgebraic PropAlgebraic ExprGrammar PropExpr Cost CostRules.
Import ListNotations.

Fixpoint unfinished (n : nat) : list nat := match n with 0 => [] | S n' => codes "-1+(" ++ unfinished n' end.
Lemma unfinished_length n : List.length (unfinished n) = 4 * n.
Proof. induction n; cbn [unfinished List.length]; auto. rewrite app_length. cbn. lia. Qed.

Section CostAlgebraic.
Context (memory : nat -> list nat).
Notation A := (alg_env memory).

(** ** What is read *)
Lemma peg_operand c r o : solid_head r -> peg A (PCustom c) r o -> peg A (seqp ws (PCustom c)) r o.
Proof.
  intros Hr H. apply G_seq. pose proof (peg_ws memory [] r ltac:(constructor) Hr) as Hw. cbn [app List.length] in Hw.
  destruct o as [n|]; [apply (and_more A _ _ _ 0 n Hw); now apply and_last|eapply and_stop; [exact Hw|]; now apply G_and_fail].
Qed.
Lemma peg_no_delimiter cs r : solid_head r -> match r with c :: _ => ~ In c (sorted cs) | [] => True end -> peg A (delimiter cs) r None.
Proof. intros H1 H2. now apply (peg_delimiter_no memory cs []); [constructor| |]. Qed.

Lemma peg_chain c d r n : cust_body A c = PDelimit (seqp ws (PCustom (Nat.pred c))) d -> solid_head r -> peg A (PCustom (Nat.pred c)) r (Some n) ->
  peg A d (skipn n r) None -> peg A (PCustom c) r (Some n).
Proof.
  intros Hb Hr Hp Hd. apply G_custom. rewrite Hb. replace n with (n + 0) by lia. eapply G_delim_some; [now apply peg_operand|]. now apply G_tail_end.
Qed.
Lemma peg_chain_no c d r : cust_body A c = PDelimit (seqp ws (PCustom (Nat.pred c))) d -> solid_head r -> peg A (PCustom (Nat.pred c)) r None -> peg A (PCustom c) r None.
Proof. intros Hb Hr Hp. apply G_custom. rewrite Hb. apply G_delim_none. now apply peg_operand. Qed.

Ltac notin := let H := fresh in intros H; vm_compute in H; intuition discriminate.
Ltac solid := unfold solid_head, is_blank; try lia; auto.

Lemma peg_up r n : solid_head r -> solid_head (skipn n r) -> match skipn n r with c :: _ => c = 43 | [] => False end -> peg A (PCustom 1) r (Some n) -> peg A (PCustom 3) r (Some n).
Proof.
  intros Hr Hs Hd H. assert (Hno : forall cs, ~ In 43 (sorted cs) -> match skipn n r with c :: _ => ~ In c (sorted cs) | [] => True end) by (intros; destruct (skipn n r); subst; auto).
  refine (peg_chain 3 (delimiter (codes "*/")) r n eq_refl Hr (peg_chain 2 (PIgnore (delimiter (codes "^"))) r n eq_refl Hr H _) _);
    [apply G_ignore|]; (apply peg_no_delimiter; [exact Hs|apply Hno; notin]).
Qed.
Lemma peg_up_no r : solid_head r -> peg A (PCustom 1) r None -> peg A (PCustom 3) r None.
Proof. intros Hr H. exact (peg_chain_no 3 _ r eq_refl Hr (peg_chain_no 2 _ r eq_refl Hr H)). Qed.

Lemma peg_one r : peg A (PCustom 3) (49 :: 43 :: r) (Some 1).
Proof.
  apply peg_up; cbn [skipn]; solid. apply G_custom, G_map, G_choice.
  apply G_or_next; [apply G_map, G_seq, G_and_fail; apply (peg_ign_no memory 40); lia|]. apply G_or_next; [apply G_map, G_seq, G_and_fail; apply (peg_ign_no memory 45); lia|].
  apply G_or_here, G_custom. apply (peg_number_body memory [49] None None (43 :: r)); [|cbn; unfold is_dg; lia].
  split; [split; [discriminate|repeat constructor; unfold is_dg; lia]|auto].
Qed.

Definition reads n : option nat := match n with 0 => None | S _ => Some 2 end.

Lemma peg_powterm_no r : match r with c :: _ => c <> 40 /\ c <> 45 /\ ~ is_dg c | [] => True end -> peg A (PCustom 1) r None.
Proof.
  intros H. apply G_custom, G_map, G_choice.
  apply G_or_next; [apply G_map, G_seq, G_and_fail; apply (peg_ign_no memory 40); destruct r; auto; apply H|].
  apply G_or_next; [apply G_map, G_seq, G_and_fail; apply (peg_ign_no memory 45); destruct r; auto; apply H|].
  apply G_or_next; [|constructor]. apply G_custom, G_map, G_seq, G_and_fail, G_join, peg_no_digit. destruct r; cbn; auto. apply H.
Qed.

Lemma peg_bracket n : peg A (PCustom 4) (unfinished n) (reads n) -> peg A (PCustom 3) (40 :: unfinished n) None.
Proof.
  intros H. apply peg_up_no; solid. apply G_custom, G_map, G_choice.
  apply G_or_next; [|apply G_or_next; [apply G_map, G_seq, G_and_fail; apply (peg_ign_no memory 45); lia|]; apply G_or_next; [|constructor];
    apply G_custom, G_map, G_seq, G_and_fail, G_join, peg_no_digit; cbn; unfold is_dg; lia].
  apply G_map, G_seq. eapply and_stop; [apply peg_ign|]. cbn [skipn].
  eapply and_stop; [apply (peg_ws memory [] (unfinished n)); [constructor|destruct n; cbn; unfold is_blank; auto; lia]|]. cbn [skipn List.length].
  destruct n as [|n]; cbn [reads] in H; [now apply G_and_fail|]. eapply and_stop; [exact H|]. change (skipn 2 (unfinished (S n))) with (43 :: 40 :: unfinished n).
  eapply and_stop; [apply (peg_ws memory []); [constructor|solid]|]. cbn [skipn List.length]. apply G_and_fail. apply (peg_ign_no memory 41). lia.
Qed.

Lemma peg_rest n : peg A (PCustom 3) (40 :: unfinished n) None -> peg A (PCustom 4) (49 :: 43 :: 40 :: unfinished n) (Some 1).
Proof.
  intros H. apply G_custom. change (Some 1) with (Some (1 + 0)). eapply G_delim_some; [apply peg_operand; [solid|apply peg_one]|]. cbn [skipn].
  eapply G_tail_back; [apply (peg_delimiter memory (codes "+-") [] 43); [constructor|solid|vm_compute; auto]|]. cbn [skipn List.length Nat.add].
  apply peg_operand; [solid|exact H].
Qed.

Lemma peg_negative n : peg A (PCustom 3) (40 :: unfinished n) None -> peg A (PCustom 3) (45 :: 49 :: 43 :: 40 :: unfinished n) (Some 2).
Proof.
  intros IH. apply peg_up; cbn [skipn]; solid. apply G_custom, G_map, G_choice.
  apply G_or_next; [apply G_map, G_seq, G_and_fail; apply (peg_ign_no memory 40); lia|]. apply G_or_here, G_map, G_seq.
  change (Some 2) with (Some (1 + (0 + 1))). apply and_more; [apply peg_ign|]. cbn [skipn]. apply and_more; [apply (peg_ws memory []); [constructor|solid]|]. cbn [skipn].
  apply and_last. now apply peg_rest.
Qed.

Lemma peg_unfinished n : peg A (PCustom 4) (unfinished n) (reads n).
Proof.
  induction n as [|n IH].
  - eapply (peg_chain_no 4); [reflexivity|exact I|]. apply peg_up_no; cbn; auto. now apply peg_powterm_no.
  - apply peg_bracket in IH. change (unfinished (S n)) with (45 :: 49 :: 43 :: 40 :: unfinished n). cbn [reads].
    assert (H := peg_negative n IH).
    apply G_custom. change (Some 2) with (Some (2 + 0)). eapply G_delim_some; [apply peg_operand; [solid|exact H]|]. cbn [skipn].
    eapply G_tail_back; [apply (peg_delimiter memory (codes "+-") [] 43); [constructor|solid|vm_compute; auto]|]. cbn [skipn List.length Nat.add].
    apply peg_operand; [solid|exact IH].
Qed.

(** ** What it costs *)
Definition at_least n p i b : Prop := sp A n p i (fun _ k => b <= k).

Lemma known n p i l o : fine memory p = true -> at_ memory i l -> peg A p l o -> sp A n p i (fun o' _ => o' = option_map (adv i) o).
Proof.
  intros Hf [Hv He] Hp. unfold fine in Hf. apply andb_true_iff in Hf as [Hf H3]. apply andb_true_iff in Hf as [H1 H2].
  eapply sp_impl; [apply sp_peg; auto; [apply alg_program|eapply steady_b_ok; exact H1]|].
  intros o' k (c & Hc & ->). rewrite He in Hc. assert (c = o) by (eapply (proj1 (peg_det A)); eauto). now subst.
Qed.

Lemma known_cost n p i l o b : fine memory p = true -> at_ memory i l -> peg A p l o -> at_least n p i b ->
  sp A n p i (fun o' k => o' = option_map (adv i) o /\ b <= k).
Proof. intros Hf Ha Hp Hc. exact (sp_and A _ _ _ _ _ (known n p i l o Hf Ha Hp) Hc). Qed.

Lemma sp_once n p i : at_least n p i 1.
Proof. apply sp_step. intros n' k m _ _. destruct (step A (crun A n') k m p i); cbn; auto. lia. Qed.

Lemma known_ws n i l : at_ memory i l -> solid_head l -> sp A n ws i (fun o _ => o = Some i).
Proof.
  intros Ha Hl. eapply sp_impl; [apply (known n ws i l (Some 0)); [reflexivity|exact Ha|apply (peg_ws memory [] l); [constructor|exact Hl]]|].
  cbn. intros o _ ->. now rewrite adv_0.
Qed.

Lemma operand_cost n c i l b : at_ memory i l -> solid_head l -> at_least n (PCustom c) i b -> at_least n (seqp ws (PCustom c)) i b.
Proof.
  intros Ha Hl H. apply (sp_seq A n ws [PCustom c]); [apply Ha|]. cbn [chain].
  eapply sp_impl; [eapply known_ws; eauto|]. intros o k ->. eapply sp_impl; [exact H|]. intros [j|] k' Hk; cbn beta in *; lia.
Qed.

Lemma chain_cost n c d i l b : cust_body A c = PDelimit (seqp ws (PCustom (Nat.pred c))) d -> at_ memory i l -> solid_head l ->
  at_least n (PCustom (Nat.pred c)) i b -> at_least n (PCustom c) i b.
Proof.
  intros Hb Ha Hl H. apply sp_custom; [discriminate|]. rewrite Hb.
  apply (sp_delimit A _ _ _ i (fun _ k => b <= k)); [apply Ha| |].
  - eapply sp_impl; [eapply operand_cost; [exact Ha|exact Hl|eapply sp_le; [exact H|lia]]|]. cbn beta. intros [j|] k Hk; lia.
  - intros j k Hj Hk. eapply sp_impl; [apply sp_suffix; auto|]. intros [j'|] k' Hs; [|lia].
    eapply sp_impl; [apply sp_suffix; eapply suffix_valid; eauto|]. intros [j2|] k2 _; lia.
Qed.

Lemma up_cost n i l b : at_ memory i l -> solid_head l -> at_least n (PCustom 1) i b -> at_least n (PCustom 3) i b.
Proof. intros Ha Hl H. exact (chain_cost n 3 _ i l b eq_refl Ha Hl (chain_cost n 2 _ i l b eq_refl Ha Hl H)). Qed.

Lemma sp_true n p i (Q : option span -> nat -> Prop) : (forall o k, Q o k) -> sp A n p i Q.
Proof. intros H n' m _. destruct (crun A n' m p i); cbn; auto. Qed.
Lemma chain_true n ps : forall i (Q : option span -> nat -> Prop), (forall o k, Q o k) -> chain A n ps i Q.
Proof. induction ps as [|p ps IH]; intros i Q H; cbn [chain]; auto. apply sp_true. intros [j|] k; auto. Qed.
Lemma alts_true n ps : forall i (Q : option span -> nat -> Prop), (forall o k, Q o k) -> alts A n ps i Q.
Proof. induction ps as [|p ps IH]; intros i Q H; cbn [alts]; auto. apply sp_true. intros [j|] k; auto. Qed.

Lemma least_map n q f i b : at_least n q i b -> at_least n (PMap q f) i b.
Proof. intros H. apply sp_map. eapply sp_impl; [exact H|]. cbn beta. intros [j|] k Hk; lia. Qed.
Lemma least_first n q qs i b : valid A i -> at_least n q i b -> at_least n (PChoice q qs) i b.
Proof.
  intros Hv H. apply sp_choice; auto. cbn [alts]. eapply sp_impl; [exact H|]. cbn beta. intros [j|] k Hk; [lia|]. apply alts_true. intros; lia.
Qed.
Lemma least_second n q q2 qs i l b : fine memory q = true -> at_ memory i l -> peg A q l None -> at_least n q2 i b -> at_least n (PChoice q (q2 :: qs)) i b.
Proof.
  intros Hf Ha Hp H. apply sp_choice; [apply Ha|]. cbn [alts]. eapply sp_impl; [apply (known n q i l None Hf Ha Hp)|]. cbn. intros o k ->.
  eapply sp_impl; [exact H|]. cbn beta. intros [j|] k' Hk; [lia|]. apply alts_true. intros; lia.
Qed.

(** After a single character, perhaps not of the first call *)
Lemma least_inside n c ps i l b : at_ memory i (c :: l) -> solid_head l -> at_least n (PCustom 4) (adv i 1) b ->
  at_least n (PSequence (ign [c]) (ws :: PCustom 4 :: ps)) i b.
Proof.
  intros Ha Hl H. apply sp_seq; [apply Ha|]. cbn [chain].
  eapply sp_impl; [eapply (known _ (ign [c]) i _ (Some 1)); [reflexivity|exact Ha|apply peg_ign]|]. cbn [option_map]. intros o k ->.
  eapply sp_impl; [eapply known_ws; [exact (at_next memory _ _ _ Ha)|exact Hl]|]. intros o k2 ->.
  eapply sp_impl; [exact H|]. cbn beta. intros [j|] k3 Hk; [|lia]. apply chain_true. intros; lia.
Qed.

Lemma solid_unfinished d : solid_head (unfinished d).
Proof. destruct d; cbn; unfold is_blank; auto; lia. Qed.

(** The operand that is not finished *)
Lemma bracket_cost n i d b : at_ memory i (40 :: unfinished d) -> at_least n (PCustom 4) (adv i 1) b -> at_least n (PCustom 3) i b.
Proof.
  intros Ha H. eapply up_cost; [exact Ha|solid|]. apply sp_custom; [discriminate|].
  eapply sp_impl; [apply (least_map (Nat.pred n)), least_first; [apply Ha|]; apply least_map; apply (least_inside (Nat.pred n) 40 _ i (unfinished d) b Ha); [apply solid_unfinished|eapply sp_le; [exact H|lia]]|].
  cbn beta. intros [j|] k Hk; lia.
Qed.

(** 1+( ... : the operand is tried *)
Lemma rest_cost n i d b : at_ memory i (49 :: 43 :: 40 :: unfinished d) -> at_least n (PCustom 3) (adv i 2) b -> at_least n (PCustom 4) i b.
Proof.
  intros Ha H. assert (Ha2 : at_ memory (adv i 2) (40 :: unfinished d)) by exact (at_adv memory i [49; 43] _ Ha).
  assert (Ha1 : at_ memory (adv i 1) (43 :: 40 :: unfinished d)) by exact (at_adv memory i [49] _ Ha).
  apply sp_custom; [discriminate|]. apply (sp_delimit A _ _ _ i (fun j _ => j = adv i 1)); [apply Ha| |].
  - eapply sp_impl; [eapply (known _ (seqp ws (PCustom 3)) i _ (Some 1)); [reflexivity|exact Ha|apply peg_operand; [solid|apply peg_one]]|].
    cbn. intros o k ->. reflexivity.
  - intros j k _ ->. eapply sp_impl; [eapply (known _ (delimiter (codes "+-")) (adv i 1) _ (Some 1)); [reflexivity|exact Ha1|]|].
    { apply (peg_delimiter memory (codes "+-") [] 43); [constructor|solid|vm_compute; auto]. }
    cbn. intros o k' ->. rewrite adv_adv. cbn [Nat.add].
    eapply sp_impl; [eapply (known_cost _ (seqp ws (PCustom 3)) (adv i 2) _ None b); [reflexivity|exact Ha2| |]|].
    + apply peg_operand; [solid|]. apply peg_bracket, peg_unfinished.
    + eapply operand_cost; [exact Ha2|solid|]. eapply sp_le; [exact H|lia].
    + cbn. intros o k2 [-> Hk]. lia.
Qed.

(** -1+( ... : it is tried twice *)
Lemma unfinished_cost d : forall n i, at_ memory i (unfinished d) -> at_least n (PCustom 4) i (2 ^ d).
Proof.
  induction d as [|d IH]; intros n i Ha; [apply sp_once|]. change (unfinished (S d)) with (45 :: 49 :: 43 :: 40 :: unfinished d) in Ha.
  assert (Ha1 : at_ memory (adv i 1) (49 :: 43 :: 40 :: unfinished d)) by exact (at_adv memory i [45] _ Ha).
  assert (Ha2 : at_ memory (adv i 2) (43 :: 40 :: unfinished d)) by exact (at_adv memory i [45; 49] _ Ha).
  assert (Ha3 : at_ memory (adv i 3) (40 :: unfinished d)) by exact (at_adv memory i [45; 49; 43] _ Ha).
  assert (Ha4 : at_ memory (adv i 4) (unfinished d)) by exact (at_adv memory i [45; 49; 43; 40] _ Ha).
  assert (Hop : forall n, at_least n (PCustom 3) (adv i 3) (2 ^ d)).
  { intros n'. apply (bracket_cost n' _ d); [exact Ha3|]. rewrite adv_adv. now apply IH. }
  apply sp_custom; [discriminate|].
  apply (sp_delimit A _ _ _ i (fun j k => j = adv i 2 /\ 2 ^ d <= k)); [apply Ha| |].
  - eapply sp_impl; [eapply (known_cost _ (seqp ws (PCustom 3)) i _ (Some 2) (2 ^ d)); [reflexivity|exact Ha| |]|].
    + apply peg_operand; [solid|]. apply peg_negative, peg_bracket, peg_unfinished.
    + eapply operand_cost; [exact Ha|solid|]. eapply up_cost; [exact Ha|solid|]. apply sp_custom; [discriminate|].
      eapply sp_impl; [apply (least_map (Nat.pred (Nat.pred n))); eapply least_second; [|exact Ha| |]|].
      * reflexivity.
      * apply G_map, G_seq, G_and_fail. apply (peg_ign_no memory 40). lia.
      * apply least_map. apply (least_inside _ 45 [] i _ (2 ^ d) Ha); [solid|]. eapply (rest_cost _ _ d); [exact Ha1|]. rewrite adv_adv. apply Hop.
      * cbn beta. intros [j|] k Hk; lia.
    + cbn. intros o k [-> Hk]. split; auto.
  - intros j k _ [-> Hk]. eapply sp_impl; [eapply (known _ (delimiter (codes "+-")) (adv i 2) _ (Some 1)); [reflexivity|exact Ha2|]|].
    { apply (peg_delimiter memory (codes "+-") [] 43); [constructor|solid|vm_compute; auto]. }
    cbn [option_map]. intros o k' ->. rewrite adv_adv. change (2 + 1) with 3.
    eapply sp_impl; [eapply (known_cost _ (seqp ws (PCustom 3)) (adv i 3) _ None (2 ^ d)); [reflexivity|exact Ha3| |]|].
    + apply peg_operand; [solid|]. apply peg_bracket, peg_unfinished.
    + eapply operand_cost; [exact Ha3|solid|apply Hop].
    + cbn [option_map]. intros o k2 [-> Hk2]. rewrite Nat.pow_succ_r'. lia.
Qed.

Lemma input_cost d n i : at_ memory i (unfinished d) -> at_least n alg_input i (2 ^ d).
Proof.
  intros Ha. apply sp_custom; [discriminate|]. apply sp_complete. apply sp_seq; [apply Ha|]. cbn [chain].
  eapply sp_impl; [eapply known_ws; [exact Ha|apply solid_unfinished]|]. intros o k ->.
  eapply sp_impl; [apply (unfinished_cost d); exact Ha|]. cbn beta. intros [j|] k2 Hk; [|lia].
  apply sp_true. intros [j2|] k3; lia.
Qed.
End CostAlgebraic.
