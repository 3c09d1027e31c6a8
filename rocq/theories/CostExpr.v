(** * Property C55, the algebraic example: texts that are expressions

    On them the number of calls is at most quadratic in the length: no operand is read twice,
    only blanks are, once per level that could go on after them. *)
From Coq Require Import String List Arith ZArith Bool Lia.
From Verif Require Import Types Compound Parser Outcome CompoundFacts Exec Mono Derive Typing Join Leaves Sound
  BigStep BigSound BigComplete Peg Throws Elems Samples Runs PropCore PropPeg Lossless Agree Check PropAgree Grammar CharPeg Names PropNames Term PropTerm
  StaticArray Operators PropSets Modifiers ExJson Shape ExAlgebraic PropAlgebraic ExprGrammar PropExpr Cost CostRules CostAlgebraic.
Import ListNotations.

Section CostExpr.
Context (memory : nat -> list nat) (N : nat).
Notation A := (alg_env memory).
(** More than what reading blanks costs, in a text of at most [N] elements. *)
Let W := N + 10.

(** *** Parsers that make at most [b] calls on a text of at most [N] elements *)
Definition most (n : nat) (p : parser nat) (b : nat) : Prop := forall i, valid A i -> sp_len i <= N -> sp A n p i (fun _ k => k <= b).
Definition most_all (n : nat) (ps : list (parser nat)) (b : nat) : Prop := forall i, valid A i -> sp_len i <= N -> chain A n ps i (fun _ k => k <= b).

Lemma most_le n p a b : most n p a -> a <= b -> most n p b.
Proof. intros H Hab i Hv Hl. eapply sp_impl; [apply H; auto|]. cbn beta. lia. Qed.
Lemma most_elementary n q fc len : elementary A q = Some (fc, len) -> most n q 1.
Proof. intros Hq i Hv Hl. eapply sp_elementary; eauto. Qed.
Lemma most_nil n : most_all n [] 0.
Proof. intros i Hv Hl. cbn. lia. Qed.
Lemma most_cons n p ps a b : most n p a -> most_all n ps b -> most_all n (p :: ps) (a + b).
Proof.
  intros Hp Hps i Hv Hl. cbn [chain]. eapply sp_impl; [exact (sp_and A _ _ _ _ _ (Hp i Hv Hl) (sp_suffix A n p i Hv))|].
  intros [j|] k [Hk Hj]; [|lia]. eapply chain_impl; [apply Hps; [eapply suffix_valid; eauto|apply suffix_len in Hj; lia]|]. cbn beta. lia.
Qed.
Lemma most_seq n q qs b : most_all n (q :: qs) b -> most n (PSequence q qs) (S b).
Proof. intros H i Hv Hl. apply sp_seq; auto. eapply chain_impl; [apply H; auto|]. cbn beta. lia. Qed.
Lemma most_map n q f b : most n q b -> most n (PMap q f) (S (S b)).
Proof. intros H i Hv Hl. apply sp_map; auto. eapply sp_impl; [apply H; auto|]. intros [j|] k Hk; lia. Qed.
Lemma most_ignore n q b : most n q b -> most n (PIgnore q) (S b).
Proof. intros H i Hv Hl. apply sp_ignore; auto. eapply sp_impl; [apply H; auto|]. cbn beta. lia. Qed.
Lemma most_maybe n q b : most n q b -> most n (PMaybe q) (S b).
Proof. intros H i Hv Hl. apply sp_maybe; auto. eapply sp_impl; [apply H; auto|]. intros [j|] k Hk; lia. Qed.
Lemma most_join n q b : (forall k, join_special A q k = None) -> most n q b -> most n (PJoin q) (S b).
Proof. intros Hj H i Hv Hl. apply sp_join; auto. eapply sp_impl; [apply H; auto|]. intros [j|] k Hk; lia. Qed.
Lemma most_special n q : (forall k, join_special A q k <> None) -> most n (PJoin q) 1.
Proof.
  intros Hj i Hv Hl. apply sp_step. intros n' k m Hn Hk. cbn [step]. specialize (Hj k). destruct (join_special A q k) as [f|] eqn:Hf; [|congruence].
  apply (c_special A q k f m i) in Hf. destruct (f m i); cbn in *; auto. lia.
Qed.
Lemma most_custom n c b : (forall t, cust_conv A c <> ConvWhole t) -> most (pred n) (cust_body A c) b -> most n (PCustom c) (S (S b)).
Proof. intros Hc H i Hv Hl. apply sp_custom; auto. eapply sp_impl; [apply H; auto|]. intros [j|] k Hk; lia. Qed.

Lemma any_consumes n arr i : valid A i -> sp A n (PAnyOf arr) i (fun o k => k <= 1 /\ match o with Some j => suffix i j /\ sp_len j < sp_len i | None => True end).
Proof.
  intros Hv. apply sp_any; auto. destruct (elems A i) as [|c l] eqn:He; auto. assert (Hl := elems_length A i Hv). rewrite He in Hl. cbn in Hl.
  destruct (contains _ _ _); split; auto. split; [exists 1; split; [lia|reflexivity]|cbn; lia].
Qed.
Lemma most_repeat n arr : most n (POneOrMore (PAnyOf arr)) (N + 2).
Proof.
  intros i Hv Hl. apply (sp_one_or_more A n _ i (fun j k => suffix i j /\ k + sp_len j <= 1 + sp_len i)); auto.
  - eapply sp_impl; [apply any_consumes; auto|]. intros [j|] k [Hk Hj]; [|lia]. split; [apply Hj|]. lia.
  - intros j k Hj [Hs Hk]. eapply sp_impl; [apply any_consumes; auto|]. intros [j'|] k' [Hk' Hx]; [|lia].
    destruct Hx as [Hx Hlt]. split; [eapply suffix_trans; eauto|lia].
Qed.
Lemma most_ws n : most n ws (N + 3).
Proof.
  apply (most_le n ws (S (N + 2))); [|lia]. apply most_ignore. intros i Hv Hl.
  apply (sp_zero_or_more A n _ i (fun j k => suffix i j /\ k + sp_len j <= 1 + sp_len i)); auto.
  intros j k Hj [Hs Hk]. eapply sp_impl; [apply any_consumes; auto|]. intros [j'|] k' [Hk' Hx]; [|lia].
  destruct Hx as [Hx Hlt]. split; [eapply suffix_trans; eauto|lia].
Qed.

Ltac most := repeat first [ apply most_nil | apply most_ws | eapply most_elementary; reflexivity | apply most_special; discriminate | apply most_join; [reflexivity|]
  | apply most_seq | apply most_map | apply most_ignore | apply most_maybe | apply most_repeat | eapply most_cons ].

Lemma most_number n : most n alg_number (3 * W).
Proof.
  eapply most_le; [apply most_custom; [discriminate|]|].
  - change (cust_body A 0) with (PMap (PSequence (PJoin (POneOrMore dgt)) [PMaybe (PJoin (PSequence (ign (codes ".")) [POneOrMore dgt]));
      PMaybe (PJoin (PSequence (PIgnore (anyl (codes "Ee"))) [PMaybe (all (codes "-")); POneOrMore dgt]))]) (FApply (FConstruct a_number))). most.
  - unfold W. lia.
Qed.
Lemma most_delimiter n cs : most n (delimiter cs) (N + 7).
Proof. change (delimiter cs) with (PSequence ws [PMap (anyl cs) (FConstruct a_view)]). eapply most_le; [most|]. lia. Qed.

(** What is known to be read, and how much it costs at most *)
Definition does n p i (o : option nat) b : Prop := sp A n p i (fun o' k => o' = option_map (adv i) o /\ k <= b).
Lemma does_most n p i l o b : fine memory p = true -> at_ memory i l -> sp_len i <= N -> peg A p l o -> most n p b -> does n p i o b.
Proof. intros Hf Ha Hl Hp Hc. exact (sp_and A _ _ _ _ _ (known memory n p i l o Hf Ha Hp) (Hc i (proj1 Ha) Hl)). Qed.

Lemma does_ws n i w r : at_ memory i (w ++ r) -> sp_len i <= N -> blank w -> solid_head r -> does n ws i (Some (List.length w)) W.
Proof. intros Ha Hl Hw Hr. eapply does_most; [reflexivity|exact Ha|exact Hl|now apply peg_ws|]. eapply most_le; [apply most_ws|unfold W; lia]. Qed.
Lemma does_ign n c i r : at_ memory i (c :: r) -> sp_len i <= N -> does n (ign [c]) i (Some 1) 2.
Proof. intros Ha Hl. eapply does_most; [reflexivity|exact Ha|exact Hl|apply peg_ign|]. most. Qed.
Lemma does_ign_no n c i r : at_ memory i r -> sp_len i <= N -> match r with d :: _ => d <> c | [] => True end -> does n (ign [c]) i None 2.
Proof. intros Ha Hl Hd. eapply does_most; [reflexivity|exact Ha|exact Hl|now apply peg_ign_no|]. most. Qed.

(** ** Expressions

    [slack k]: what the levels around an expression of this kind may still cost. *)
Let B := 20 * W.
Definition slack (k : kind) : nat := match k with KPowterm => 12 * W | KFactor => 9 * W | KTerm => 6 * W | _ => 3 * W end.
Definition cheap (o : bool) (k : kind) (t : list nat) : Prop := forall n i rest, at_ memory i (t ++ rest) -> sp_len i <= N -> follow o k rest ->
  sp A n (PCustom (code k)) i (fun o' c => o' = Some (adv i (List.length t)) /\ c + slack k <= List.length t * B).
Definition solid (t : list nat) : Prop := forall r, solid_head (t ++ r).

(** The rest of a chain of operands *)
Inductive more (k : kind) : bool -> bool -> list nat -> Prop :=
| m_nil p : more k p p []
| m_cons p o w c w' t u : blank w -> In c (ops k) -> blank w' -> solid t -> cheap p (operand k) t -> more k p o u ->
    more k false o (w ++ c :: w' ++ t ++ u).

Lemma len_adv i c : sp_len i <= N -> sp_len (adv i c) <= N.
Proof. cbn. lia. Qed.

Lemma operand_cheap n p k i w t r : chained k -> cheap p (operand k) t -> solid t -> at_ memory i (w ++ t ++ r) -> sp_len i <= N -> blank w ->
  follow p (operand k) r -> sp A n (seqp ws (PCustom (code (operand k)))) i
    (fun o' c => o' = Some (adv i (List.length (w ++ t))) /\ c + slack (operand k) <= 1 + W + List.length t * B).
Proof.
  intros Hk Hc Hs Ha Hl Hw Hf. apply (sp_seq A n ws [PCustom (code (operand k))]); [apply Ha|]. cbn [chain].
  eapply sp_impl; [apply (does_ws n i w (t ++ r)); auto|]. cbn [option_map]. intros o k1 [-> Hk1].
  eapply sp_impl; [apply (Hc n _ r); auto; [exact (at_adv memory _ _ _ Ha)|now apply len_adv]|].
  intros o k2 [-> Hk2]. cbn beta. rewrite adv_adv', app_length. split; auto. lia.
Qed.

Definition delim (k : kind) : parser nat := match k with KFactor => PIgnore (delimiter (codes "^")) | _ => delimiter (op_codes k) end.
Lemma chain_body k : chained k -> cust_body A (code k) = PDelimit (seqp ws (PCustom (code (operand k)))) (delim k).
Proof. intros [->|[->| ->]]; reflexivity. Qed.
Lemma most_delim n k : chained k -> most n (delim k) W.
Proof.
  intros [->|[->| ->]]; (eapply most_le; [first [apply most_ignore, most_delimiter|apply most_delimiter]|unfold W; lia]).
Qed.
Lemma fine_delim k : chained k -> fine memory (delim k) = true.
Proof. intros [->|[->| ->]]; reflexivity. Qed.
Lemma peg_delim k w c r : chained k -> blank w -> In c (ops k) -> peg A (delim k) (w ++ c :: r) (Some (List.length w + 1)).
Proof.
  intros Hk Hw Hc. assert (H : peg A (delimiter (op_codes k)) (w ++ c :: r) (Some (List.length w + 1))).
  { apply peg_delimiter; auto; [eapply ops_solid; eauto|now apply sorted_ops]. }
  destruct Hk as [->|[->| ->]]; cbn [delim]; auto. now apply G_ignore.
Qed.
Lemma peg_delim_no o k rest : chained k -> follow o k rest -> peg A (delim k) rest None.
Proof.
  intros Hk Hf. pose proof (follow_delimiter memory o k rest Hk Hf) as H. destruct Hk as [->|[->| ->]]; cbn [delim]; auto. now apply G_ignore.
Qed.

Lemma more_follow k p o u rest : chained k -> more k p o u -> follow o k rest -> follow p (operand k) (u ++ rest).
Proof.
  intros Hk Hm Hf. inversion Hm; subst; [now apply follow_up|]. repeat rewrite <- app_assoc. cbn [app]. now apply follow_op.
Qed.

Lemma chain_cheap p o k t u : chained k -> cheap p (operand k) t -> solid t -> more k p o u -> cheap o k (t ++ u).
Proof.
  intros Hk Hc Hs Hm n i rest Ha Hl Hf. rewrite <- app_assoc in Ha.
  apply sp_custom; [destruct Hk as [->|[->| ->]]; discriminate|]. rewrite (chain_body k Hk).
  assert (Hsl : slack (operand k) = slack k + 3 * W) by (destruct Hk as [->|[->| ->]]; cbn [slack operand]; lia).
  assert (HW : 10 <= W) by (unfold W; lia).
  apply (sp_delimit A _ _ _ i (fun j c => exists p' u', at_ memory j (u' ++ rest) /\ sp_len j <= N /\ more k p' o u' /\
    adv j (List.length u') = adv i (List.length (t ++ u)) /\ c + slack (operand k) + List.length u' * B <= 2 + W + List.length (t ++ u) * B)).
  - apply Ha.
  - eapply sp_impl; [apply (operand_cheap _ p k i [] t (u ++ rest)); auto; [constructor|now apply more_follow with o]|].
    cbn beta. intros o' c [-> Hc']. exists p, u. cbn [app]. split; [exact (at_adv memory _ _ _ Ha)|]. split; [now apply len_adv|]. split; auto.
    rewrite adv_adv', app_length. split; auto. nia.
  - intros j c Hj (p' & u' & Haj & Hlj & Hmj & Hadv & Hcj). destruct Hmj as [p'|p' o w d w' t' u' Hw Hd Hw' Hs' Hc' Hm'].
    + eapply sp_impl; [eapply (does_most _ (delim k)); [now apply fine_delim|exact Haj|exact Hlj|now apply (peg_delim_no p')|now apply most_delim]|].
      cbn [option_map app List.length Nat.mul] in *. intros o' c' [-> Hc']. rewrite adv_0 in Hadv. subst j. split; split; auto; lia.
    + repeat rewrite <- app_assoc in Haj. cbn [app] in Haj. repeat rewrite <- app_assoc in Haj.
      eapply sp_impl; [eapply (does_most _ (delim k)); [now apply fine_delim|exact Haj|exact Hlj|now apply peg_delim|now apply most_delim]|].
      cbn [option_map]. intros o' c' [-> Hc2].
      assert (A1 : at_ memory (adv j (List.length w + 1)) (w' ++ t' ++ u' ++ rest)).
      { replace (List.length w + 1) with (List.length (w ++ [d])) by now rewrite app_length. apply at_adv. rewrite <- app_assoc. exact Haj. }
      eapply sp_impl; [apply (operand_cheap _ p' k _ w' t' (u' ++ rest)); auto; [now apply len_adv|now apply more_follow with o]|].
      cbn beta. intros o' c3 [-> Hc3]. exists p', u'.
      split; [rewrite app_assoc in A1; exact (at_adv memory _ _ _ A1)|]. split; [apply len_adv; now apply len_adv|]. split; auto.
      assert (HL : List.length (w ++ d :: w' ++ t' ++ u') = List.length w + 1 + List.length w' + List.length t' + List.length u').
      { repeat (rewrite app_length; cbn [List.length]). lia. }
      split; [rewrite <- Hadv, !adv_adv'; f_equal; rewrite HL, app_length; lia|]. rewrite HL in Hcj. unfold B in *. nia.
Qed.

Definition cheaply (o : bool) (k : kind) (t : list nat) : Prop := match k with
  | KPowterm => cheap o KPowterm t
  | _ => exists p t0 u, t = t0 ++ u /\ solid t0 /\ cheap p (operand k) t0 /\ more k p o u
  end.
Lemma cheaply_cheap o k t : chained k \/ k = KPowterm -> cheaply o k t -> cheap o k t.
Proof.
  intros [Hk| ->]; auto. intros H. assert (exists p t0 u, t = t0 ++ u /\ solid t0 /\ cheap p (operand k) t0 /\ more k p o u) as (p & t0 & u & -> & Hs & Hc & Hm).
  { destruct Hk as [->|[->| ->]]; exact H. }
  now apply chain_cheap with p.
Qed.

Lemma spells_kind o k a t : spells o k a t -> chained k \/ k = KPowterm.
Proof. intros H. inversion H; subst; unfold chained; tauto. Qed.
Lemma spells_solid' o k a t : spells o k a t -> solid t.
Proof. intros H r. eapply spells_solid; eauto. Qed.

(** The alternatives of powterm *)
Lemma alt_no n c (x : nat) ps f i r : at_ memory i r -> sp_len i <= N -> match r with d :: _ => d <> c | [] => True end ->
  sp A n (PMap (PSequence (ign [c]) ps) f) i (fun o k => o = None /\ k <= 4).
Proof.
  intros Ha Hl Hd. apply sp_map. apply sp_seq; [apply Ha|]. cbn [chain].
  eapply sp_impl; [eapply does_ign_no; eauto|]. cbn [option_map]. intros o k [-> Hk]. split; auto. lia.
Qed.

Theorem all_cheap :
  (forall o k a t, spells o k a t -> cheaply o k t) /\
  (forall p o k a r u, tail p o k a r u -> k = KTerm \/ k = KExpr -> more k p o u).
Proof.
  assert (HW : 10 <= W) by (unfold W; lia).
  apply spells_mut.
  - intros ds fs es Hl n i rest Ha HN Hf. destruct (spells_head _ _ _ _ (sp_number ds fs es Hl)) as (c & l & Hc & Hd).
    assert (Hh : is_dg c). { destruct Hl as ((Hn & HF) & _). unfold literal_text in Hc. destruct ds as [|x ds]; [congruence|]. injection Hc as -> _. now inversion HF. }
    unfold is_dg in Hh. apply sp_custom; [discriminate|]. apply sp_map. apply sp_choice; [apply Ha|]. cbn [alts].
    eapply sp_impl; [eapply (alt_no _ 40 0); [exact Ha|exact HN|rewrite Hc; cbn; lia]|]. intros o k1 [-> Hk1].
    eapply sp_impl; [eapply (alt_no _ 45 0); [exact Ha|exact HN|rewrite Hc; cbn; lia]|]. intros o k2 [-> Hk2].
    eapply sp_impl; [eapply does_most; [|exact Ha|exact HN| |apply most_number]|].
    + reflexivity.
    + apply G_custom. apply peg_number_body; auto. now apply follow_clean in Hf.
    + cbn [option_map]. intros o k3 [-> Hk3].
      assert (1 <= List.length (literal_text ds fs es)) by (rewrite Hc; cbn; lia). cbn [slack]. unfold B. repeat split; auto; nia.
  - intros o a w t w' Hw Hs IH Hw' n i rest Ha HN Hf. cbn [app] in Ha. repeat rewrite <- app_assoc in Ha. cbn [app] in Ha.
    pose proof (at_next _ _ _ _ Ha) as A1. pose proof (at_adv _ _ _ _ A1) as A2. rewrite adv_adv' in A2.
    pose proof (at_adv _ _ _ _ A2) as A3. rewrite adv_adv' in A3. pose proof (at_adv _ _ _ _ A3) as A4. rewrite adv_adv' in A4.
    apply (cheaply_cheap o KExpr) in IH; [|unfold chained; tauto].
    apply sp_custom; [discriminate|]. apply sp_map. apply sp_choice; [apply Ha|]. cbn [alts].
    apply sp_map. apply sp_seq; [apply Ha|]. cbn [chain].
    eapply sp_impl; [eapply does_ign; eauto|]. cbn [option_map]. intros o1 k1 [-> Hk1].
    eapply sp_impl; [eapply does_ws; [exact A1|now apply len_adv|exact Hw|eapply spells_solid; eauto]|]. cbn [option_map]. intros o2 k2 [-> Hk2]. rewrite adv_adv'.
    eapply sp_impl; [eapply IH; [exact A2|now apply len_adv|now apply follow_bracket]|]. intros o3 k3 [-> Hk3]. rewrite adv_adv'.
    eapply sp_impl; [eapply does_ws; [exact A3|now apply len_adv|exact Hw'|cbn; unfold is_blank; lia]|]. cbn [option_map]. intros o4 k4 [-> Hk4]. rewrite adv_adv'.
    eapply sp_impl; [eapply does_ign; [exact A4|now apply len_adv]|]. cbn [option_map]. intros o5 k5 [-> Hk5]. rewrite adv_adv'.
    assert (HL : List.length (40 :: w ++ t ++ w' ++ [41]) = 1 + List.length w + List.length t + List.length w' + 1).
    { cbn [List.length]. rewrite !app_length. cbn [List.length]. lia. }
    rewrite HL. cbn [slack] in *. unfold B in *. repeat split; auto; nia.
  - intros o a w t Hw Hs IH n i rest Ha HN Hf. cbn [app] in Ha. repeat rewrite <- app_assoc in Ha. cbn [app] in Ha.
    pose proof (at_next _ _ _ _ Ha) as A1. pose proof (at_adv _ _ _ _ A1) as A2. rewrite adv_adv' in A2.
    apply (cheaply_cheap o KExpr) in IH; [|unfold chained; tauto].
    apply sp_custom; [discriminate|]. apply sp_map. apply sp_choice; [apply Ha|]. cbn [alts].
    eapply sp_impl; [eapply (alt_no _ 40 0); [exact Ha|exact HN|cbn; lia]|]. intros o0 k0 [-> Hk0].
    apply sp_map. apply sp_seq; [apply Ha|]. cbn [chain].
    eapply sp_impl; [eapply does_ign; eauto|]. cbn [option_map]. intros o1 k1 [-> Hk1].
    eapply sp_impl; [eapply does_ws; [exact A1|now apply len_adv|exact Hw|eapply spells_solid; eauto]|]. cbn [option_map]. intros o2 k2 [-> Hk2]. rewrite adv_adv'.
    eapply sp_impl; [eapply IH; [exact A2|now apply len_adv|eapply follow_negated; eauto]|]. intros o3 k3 [-> Hk3]. rewrite adv_adv'.
    assert (HL : List.length (45 :: w ++ t) = 1 + List.length w + List.length t) by (cbn [List.length]; rewrite !app_length; lia).
    rewrite HL. cbn [slack] in *. unfold B in *. repeat split; auto; nia.
  - intros o a t Hs IH. exists o, t, []. rewrite app_nil_r. split; auto. split; [eapply spells_solid'; eauto|]. split; [exact IH|constructor].
  - intros o a b t w w' u Hs IH Hw Hw' Hs' (p & t0 & u0 & -> & Hso & Hc & Hm). exists false, t, (w ++ 94 :: w' ++ t0 ++ u0).
    split; auto. split; [eapply spells_solid'; eauto|]. split; [exact IH|]. eapply m_cons; eauto. cbn. auto.
  - intros k p o a r t u Hk Hs IH Ht IHt. specialize (IHt Hk). apply cheaply_cheap in IH; [|eapply spells_kind; eauto].
    assert (X : exists p t0 u0, t ++ u = t0 ++ u0 /\ solid t0 /\ cheap p (operand k) t0 /\ more k p o u0).
    { exists p, t, u. split; auto. split; [eapply spells_solid'; eauto|auto]. }
    destruct Hk as [->| ->]; exact X.
  - intros. constructor.
  - intros p o k a b r w c w' t u Hw Hc Hw' Hs IH Ht IHt Hk. apply cheaply_cheap in IH; [|eapply spells_kind; eauto].
    eapply m_cons; eauto. eapply spells_solid'; eauto.
Qed.

Theorem input_cheap a i n : valid A i -> sp_len i <= N -> spells_input a (elems A i) ->
  sp A n alg_input i (fun _ k => k <= 20 * (N + 1) * (N + 10)).
Proof.
  intros Hv HN H. inversion H as [o a' w t w' Hw Hs Hw' Ea Heq]; subst a'.
  assert (Ha : at_ memory i (w ++ t ++ w')) by (split; auto).
  pose proof (at_adv _ _ _ _ Ha) as A1. pose proof (at_adv _ _ _ _ A1) as A2. rewrite adv_adv' in A2. pose proof (at_len _ _ _ Ha) as HL. rewrite !app_length in HL.
  pose proof (cheaply_cheap o KExpr t ltac:(unfold chained; tauto) (proj1 all_cheap _ _ _ _ Hs)) as Hc.
  apply sp_custom; [discriminate|]. apply sp_complete. apply sp_seq; [exact Hv|]. cbn [chain].
  eapply sp_impl; [eapply does_ws; [exact Ha|auto|exact Hw|eapply spells_solid; eauto]|]. cbn [option_map]. intros o1 k1 [-> Hk1].
  eapply sp_impl; [eapply Hc; [exact A1|now apply len_adv|now apply follow_end]|]. intros o2 k2 [-> Hk2]. rewrite adv_adv'.
  rewrite <- (app_nil_r w') in A2.
  eapply sp_impl; [eapply does_ws; [exact A2|now apply len_adv|exact Hw'|exact Logic.I]|]. cbn [option_map]. intros o3 k3 [-> Hk3].
  cbn [slack] in Hk2. assert (k1 + (k2 + (k3 + 0)) + 5 <= 20 * (N + 1) * (N + 10)) by (unfold B, W in *; nia).
  repeat split; lia.
Qed.
End CostExpr.

(** ** Expressions that take that many: negations of 1, followed by blanks

    Every negation looks for an operator after the blanks. *)
Section Reached.
Context (memory : nat -> list nat).
Notation A := (alg_env memory).

Definition negations (d : nat) : list nat := repeat 45 d ++ [49].
Fixpoint negated_one (d : nat) : ast := match d with 0 => number1 49 | S d' => ANeg (negated_one d') end.
Lemma negations_length d : List.length (negations d) = d + 1.
Proof. unfold negations. rewrite app_length, repeat_length. reflexivity. Qed.

Lemma up_expr o a t : spells o KPowterm a t -> spells o KExpr a t.
Proof.
  intros H. apply sp_power_one in H. rewrite <- (app_nil_r t). eapply sp_left; [now right| |constructor].
  rewrite <- (app_nil_r t). eapply sp_left; [now left|exact H|constructor].
Qed.
Lemma negations_spelled d : exists o, spells o KPowterm (negated_one d) (negations d).
Proof.
  induction d as [|d [o IH]]; [exists false; apply one_digit; unfold is_dg; lia|].
  exists true. change (negations (S d)) with (45 :: [] ++ negations d). eapply sp_negated; [constructor|]. apply up_expr, IH.
Qed.

Lemma ws_reads n i l : at_ memory i (repeat 32 l) -> at_least memory n ws i l.
Proof.
  intros Ha. apply sp_ignore. pose proof (at_len _ _ _ Ha) as HL. rewrite repeat_length in HL.
  apply (sp_zero_or_more A n _ i (fun j k => exists c, c <= l /\ j = adv i c /\ k = S c)); [apply Ha|exists 0; rewrite adv_0; repeat split; lia|].
  intros j k Hj (c & Hc & -> & ->). apply sp_any; auto.
  assert (He : elems A (adv i c) = repeat 32 (l - c)).
  { rewrite elems_adv_skipn, (proj2 Ha). replace l with (c + (l - c)) at 1 by lia. rewrite repeat_app. rewrite <- (repeat_length 32 c) at 1. apply skipn_exact. reflexivity. }
  rewrite He. destruct (l - c) as [|x] eqn:Hx; cbn [repeat]; [lia|]. exists (c + 1). rewrite adv_adv. repeat split; lia.
Qed.

Lemma reached l d : forall n i, at_ memory i (negations d ++ repeat 32 l) -> at_least memory n (PCustom 4) i (d * l).
Proof.
  induction d as [|d IH]; intros n i Ha; [eapply sp_impl; [apply (sp_once memory)|]; cbn; lia|].
  change (negations (S d)) with (45 :: negations d) in *. cbn [app] in Ha.
  assert (Hsol : solid_head (45 :: negations d ++ repeat 32 l)) by (cbn; unfold is_blank; lia).
  refine (chain_cost memory n 4 _ i _ _ eq_refl Ha Hsol (chain_cost memory n 3 _ i _ _ eq_refl Ha Hsol _)).
  apply sp_custom; [discriminate|].
  assert (Hbl : blank (repeat 32 l)) by (apply Forall_forall; intros c Hc; apply repeat_spec in Hc; left; exact Hc).
  destruct (negations_spelled (S d)) as [o Hs]. pose proof (proj1 (all_cheap memory (sp_len i)) _ _ _ _ Hs) as Hc.
  apply (sp_delimit A _ _ _ i (fun j k => j = adv i (List.length (negations (S d))) /\ d * l <= k)); [apply Ha| |].
  - eapply sp_impl; [eapply sp_and; [eapply (operand_cheap memory (sp_len i) _ o KFactor i [] (negations (S d)) (repeat 32 l))|]|].
    + now left.
    + exact Hc.
    + eapply spells_solid'; eauto.
    + exact Ha.
    + lia.
    + constructor.
    + now apply follow_end.
    + apply (operand_cost memory _ 1 i _ (d * l) Ha Hsol). apply sp_custom; [discriminate|].
      eapply sp_impl; [apply (least_map memory (Nat.pred (Nat.pred n))); eapply least_second; [|exact Ha| |]|].
      * reflexivity.
      * apply G_map, G_seq, G_and_fail. apply (peg_ign_no memory 40). lia.
      * apply least_map. apply (least_inside memory _ 45 [] i _ (d * l) Ha); [|apply IH; exact (at_next _ _ _ _ Ha)].
        destruct (negations_spelled d) as [o' Hs']. eapply spells_solid; eauto.
      * cbn beta. intros [j|] k Hk; lia.
    + cbn beta. intros o' k [[-> _] Hk]. split; auto.
  - intros j k _ [-> Hk]. pose proof (at_adv _ i (negations (S d)) (repeat 32 l) Ha) as Ha'.
    eapply sp_impl; [eapply (known_cost memory _ (delim KFactor) _ _ None l); [reflexivity|exact Ha'|apply (peg_delim_no memory o); [now left|now apply follow_end]|]|].
    + apply sp_ignore. apply sp_seq; [apply Ha'|]. cbn [chain]. eapply sp_impl; [apply (ws_reads _ _ l); exact Ha'|]. cbn beta. intros [j|] k2 Hk2; [|lia].
      apply sp_true. intros [j2|] k3; lia.
    + cbn [option_map]. intros o' k' [-> Hk']. lia.
Qed.

Lemma input_reached l d n i : at_ memory i (negations d ++ repeat 32 l) -> at_least memory n alg_input i (d * l).
Proof.
  intros Ha. apply sp_custom; [discriminate|]. apply sp_complete. apply sp_seq; [apply Ha|]. cbn [chain].
  eapply sp_impl; [eapply known_ws; [exact Ha|]|].
  { destruct (negations_spelled d) as [o Hs]. eapply spells_solid; eauto. }
  intros o k ->. eapply sp_impl; [apply (reached l d); exact Ha|]. cbn beta. intros [j|] k2 Hk; [|lia].
  apply sp_true. intros [j2|] k3; lia.
Qed.
End Reached.
