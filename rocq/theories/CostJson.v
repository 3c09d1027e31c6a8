(** * Property C55, the JSON example: how many calls each part makes *)
From Coq Require Import String List Arith ZArith Bool Lia.
From Verif Require Import Types Compound Parser Outcome CompoundFacts Exec Mono Derive Typing Join Leaves Sound
  BigStep BigSound BigComplete Peg Throws Elems Samples Runs PropCore PropPeg Lossless Agree Check PropAgree Grammar CharPeg Names PropNames Term PropTerm
  StaticArray Operators PropSets Modifiers ExJson PropJson JsonGrammar JsonPeg Cost CostRules.
Import ListNotations.

Section CostJson.
Context (memory : nat -> list nat) (cons : ty -> list val -> fnres).
Hypothesis Hcons : json_cons_typed cons.
Notation J := (json_env memory cons).

Lemma sfx i j : suffix i j -> valid J i -> valid J j /\ sp_len j <= sp_len i.
Proof. intros H Hv. split; [eapply suffix_valid; eauto|now apply suffix_len]. Qed.

Lemma elems_head i c l : valid J i -> elems J i = c :: l -> 1 <= sp_len i /\ elems J (adv i 1) = l.
Proof. intros Hv He. assert (H := elems_length J i Hv). rewrite He in H. cbn in H. split; [lia|]. rewrite elems_adv_skipn, He. reflexivity. Qed.

Lemma white_len_le l : white_len l <= List.length l.
Proof. induction l as [|c l IH]; cbn [white_len List.length]; [lia|]. destruct (existsb _ _); lia. Qed.

Definition space (i : span) : nat := white_len (elems J i).
Lemma space_le i : valid J i -> space i <= sp_len i.
Proof. intros Hv. rewrite <- (elems_length J i Hv). apply white_len_le. Qed.

Lemma sp_white n i : valid J i -> sp J n whitespace i (fun o k => o = Some (adv i (space i)) /\ k = space i + 3).
Proof.
  intros Hv. apply sp_ignore.
  apply (sp_zero_or_more J n _ i (fun j k => exists c, c <= sp_len i /\ j = adv i c /\ k = 1 + c /\ space i = c + space j)); auto.
  - exists 0. rewrite adv_0. repeat split; lia.
  - intros j k Hj (c & Hc & -> & -> & Hs). apply sp_any; auto. unfold space in Hs at 2.
    destruct (elems J (adv i c)) as [|x l] eqn:He; cbn [white_len] in Hs.
    + rewrite Nat.add_0_r in Hs. rewrite Hs. split; auto. lia.
    + unfold contains. cbn [eqv json_env]. destruct (existsb _ _).
      * destruct (elems_head _ _ _ Hj He) as [Hl He']. cbn in Hl. exists (c + 1). rewrite adv_adv. split; [lia|]. split; auto. split; [lia|].
        unfold space at 2. rewrite <- adv_adv, He'. lia.
      * rewrite Nat.add_0_r in Hs. rewrite Hs. split; auto. lia.
Qed.

(** After the white space there is none. *)
Lemma head_after i : valid J i -> head_not white (elems J (adv i (space i))).
Proof.
  intros Hv. rewrite elems_adv_skipn. unfold space. generalize (elems J i). induction l as [|c l IH]; [exact I|]. cbn [white_len].
  destruct (existsb _ _) eqn:Hc; [exact IH|]. cbn [skipn head_not]. intros Hw. apply whiteb in Hw. congruence.
Qed.

Lemma sp_is n c i : valid J i -> sp J n (PIgnore (PAllOf [c])) i (fun o k => k = 2 /\
  match o with Some j => j = adv i 1 /\ 1 <= sp_len i /\ head_is (eq c) (elems J i) | None => head_not (eq c) (elems J i) end).
Proof.
  intros Hv. apply sp_ignore, sp_char; auto. destruct (elems J i) as [|x l] eqn:He; cbn [head_is head_not]; auto.
  cbn [eqv json_env]. destruct (elems_head _ _ _ Hv He). destruct (Nat.eqb_spec c x); subst; auto.
Qed.

(** *** Parsers that make at most so many calls, whatever the input *)
Definition few (n : nat) (p : parser nat) (b : nat) : Prop := forall i, valid J i -> sp J n p i (fun _ k => k <= b).
Definition few_all (n : nat) (ps : list (parser nat)) (b : nat) : Prop := forall i, valid J i -> chain J n ps i (fun _ k => k <= b).
Definition few_any (n : nat) (ps : list (parser nat)) (b : nat) : Prop := forall i, valid J i -> alts J n ps i (fun _ k => k <= b).

Lemma few_elementary n q fc len : elementary J q = Some (fc, len) -> few n q 1.
Proof. intros Hq i Hv. eapply sp_elementary; eauto. Qed.
Lemma few_all_nil n b : few_all n [] b.
Proof. intros i Hv. cbn. lia. Qed.
Lemma few_all_cons n p ps a b : few n p a -> few_all n ps b -> few_all n (p :: ps) (a + b).
Proof.
  intros Hp Hps i Hv. cbn [chain]. eapply sp_impl; [exact (sp_and J _ _ _ _ _ (Hp i Hv) (sp_suffix J n p i Hv))|].
  intros [j|] k [Hk Hj]; [|lia]. eapply chain_impl; [apply Hps; eapply suffix_valid; eauto|]. cbn beta. lia.
Qed.
Lemma few_any_nil n b : few_any n [] b.
Proof. intros i Hv. cbn. lia. Qed.
Lemma few_any_cons n p ps a b : few n p a -> few_any n ps b -> few_any n (p :: ps) (a + b).
Proof.
  intros Hp Hps i Hv. cbn [alts]. eapply sp_impl; [exact (Hp i Hv)|].
  intros [j|] k Hk; [lia|]. eapply alts_impl; [apply Hps; auto|]. cbn beta. lia.
Qed.
Lemma few_seq n q qs b : few_all n (q :: qs) b -> few n (PSequence q qs) (S b).
Proof. intros H i Hv. apply sp_seq; auto. eapply chain_impl; [apply H; auto|]. cbn beta. lia. Qed.
Lemma few_choice n q qs b : few_any n (q :: qs) b -> few n (PChoice q qs) (S b).
Proof. intros H i Hv. apply sp_choice; auto. eapply alts_impl; [apply H; auto|]. cbn beta. lia. Qed.
Lemma few_join n q b : (forall k, join_special J q k = None) -> few n q b -> few n (PJoin q) (S b).
Proof. intros Hj H i Hv. apply sp_join; auto. eapply sp_impl; [apply H; auto|]. intros [j|] k Hk; lia. Qed.
Lemma few_map n q f b : few n q b -> few n (PMap q f) (S (S b)).
Proof. intros H i Hv. apply sp_map; auto. eapply sp_impl; [apply H; auto|]. intros [j|] k Hk; lia. Qed.
Lemma few_ignore n q b : few n q b -> few n (PIgnore q) (S b).
Proof. intros H i Hv. apply sp_ignore; auto. eapply sp_impl; [apply H; auto|]. cbn beta. lia. Qed.
Lemma few_exactly n q c b : few n q b -> few n (PExactly q c) (S (c * b)).
Proof. intros H i Hv. apply sp_exactly; auto. intros j Hj. apply H. eapply suffix_valid; eauto. Qed.
Lemma few_epsilon n : few n PEpsilon 1.
Proof. intros i Hv. apply sp_epsilon. lia. Qed.
Ltac few := repeat first [ apply (few_all_nil _ 0) | apply (few_any_nil _ 0) | apply few_epsilon | eapply few_elementary; reflexivity | apply few_join; [reflexivity|]
  | apply few_seq | apply few_choice | apply few_map | apply few_ignore | apply few_exactly | eapply few_all_cons | eapply few_any_cons ].
Lemma few_le n p a b : few n p a -> a <= b -> few n p b.
Proof. intros H Hab i Hv. eapply sp_impl; [apply H; auto|]. cbn beta. lia. Qed.

(** *** Strings *)
Lemma not_empty p : customs p = [] -> nullable (fun _ => false) p = false -> ~ can_be_empty J p.
Proof. intros Hc Hn H. apply (nullable_complete J (fun _ => false) (fun _ => 0) [] eq_refl) in H; [congruence|]. rewrite Hc. apply incl_refl. Qed.

Lemma sp_unit n i : valid J i -> sp J n valid_char i (fun o k => k <= 15 /\ match o with Some j => suffix i j /\ sp_len j < sp_len i | None => True end).
Proof.
  intros Hv. assert (H : few n valid_char 15) by (eapply few_le; [rewrite valid_char_shape; few|cbn; lia]).
  eapply sp_impl; [exact (sp_and J _ _ _ _ _ (sp_and J _ _ _ _ _ (H i Hv) (sp_suffix J n _ i Hv)) (sp_consumes J n valid_char i Hv (not_empty valid_char eq_refl eq_refl)))|].
  intros [j|] k [[H1 H2] H3]; auto.
Qed.

Lemma sp_body n i : valid J i -> sp J n string_body i (fun o k =>
  match o with Some j => suffix i j /\ k <= 19 + 15 * (sp_len i - sp_len j) | None => k <= 19 + 15 * sp_len i end).
Proof.
  intros Hv. apply sp_map, sp_join; [reflexivity|].
  apply (sp_zero_or_more J n _ i (fun j k => suffix i j /\ k <= 1 + 15 * (sp_len i - sp_len j))); auto; [split; auto; lia|].
  intros j k Hj [Hs Hk]. eapply sp_impl; [apply sp_unit; auto|]. intros [j'|] k' [Hk' Hx].
  - destruct Hx as [Hx Hl]. split; [eapply suffix_trans; eauto|]. apply suffix_len in Hs. lia.
  - repeat split; auto; lia.
Qed.

Lemma sp_str n i : valid J i -> sp J n str i (fun o k => (head_not (eq 34) (elems J i) -> o = None /\ k <= 3) /\
  match o with Some j => sp_len j + 2 <= sp_len i /\ suffix i j /\ k <= 24 + 15 * (sp_len i - sp_len j) | None => k <= 24 + 15 * sp_len i end).
Proof.
  intros Hv. rewrite str_shape. apply sp_seq; auto. cbn [chain].
  eapply sp_impl; [apply sp_is; auto|]. intros [j|] k [-> Hj]; [|split; [split; auto|]; lia]. destruct Hj as (-> & Hl & Hh).
  assert (Hn : head_not (eq 34) (elems J i) -> False) by (destruct (elems J i); cbn in *; auto).
  destruct (sfx i (adv i 1)) as [Hv1 _]; auto. assert (Hl1 : sp_len (adv i 1) = sp_len i - 1) by reflexivity.
  eapply sp_impl; [apply sp_body; auto|]. intros [j|] k Hj; [|split; [tauto|lia]]. destruct Hj as [Hj Hk].
  destruct (sfx _ _ Hj Hv1) as [Hvj Hlj].
  eapply sp_impl; [apply sp_is; auto|]. intros [j2|] k2 [-> Hj2]; [|split; [tauto|lia]]. destruct Hj2 as (-> & Hl2 & _).
  assert (Hl3 : sp_len (adv j 1) = sp_len j - 1) by reflexivity.
  split; [tauto|]. split; [lia|]. split; [eapply suffix_trans; [|apply adv_suffix; auto]; eapply suffix_trans; [|exact Hj]; apply adv_suffix; auto|lia].
Qed.

(** *** Numbers *)
Definition digits0 : parser nat := PZeroOrMore digit.
Definition digits1 : parser nat := POneOrMore digit.
Definition natural : parser nat := PChoice (PAllOf [48]) [PJoin (PSequence (PAnyOf [49; 50; 51; 52; 53; 54; 55; 56; 57]) [digits0])].
Lemma integer_shape : integer = PJoin (PSequence (PChoice (PAllOf [45]) [PEpsilon]) [natural]). Proof. reflexivity. Qed.
Lemma fraction_shape : fraction = PJoin (PSequence (PIgnore (PAllOf [46])) [digits1]). Proof. reflexivity. Qed.
Lemma exponent_shape : exponent = PJoin (PSequence (PIgnore (PAnyOf [69; 101])) [PChoice (PAnyOf [43; 45]) [PEpsilon]; digits1]). Proof. reflexivity. Qed.
Lemma number_shape : number = PMap (PSequence integer [PMaybe fraction; PMaybe exponent]) (FApply (FConstruct t_number)). Proof. reflexivity. Qed.

(** At most [f] calls before failing, [b] and one for each element read otherwise *)
Definition linear (f b : nat) (i : span) (o : option span) (k : nat) : Prop :=
  match o with Some j => suffix i j /\ k <= b + (sp_len i - sp_len j) | None => k <= f end.

Lemma sp_digit n i : valid J i -> sp J n digit i (fun o k => k = 1 /\ match o with Some j => j = adv i 1 /\ 1 <= sp_len i | None => True end).
Proof.
  intros Hv. apply sp_any; auto. destruct (elems J i) as [|c l] eqn:He; auto. destruct (elems_head _ _ _ Hv He). destruct (contains _ _ _); auto.
Qed.

Lemma sp_digits0 n i : valid J i -> sp J n digits0 i (linear 0 2 i).
Proof.
  intros Hv. apply (sp_zero_or_more J n _ i (fun j k => suffix i j /\ k = 1 + (sp_len i - sp_len j))); auto; [split; auto; lia|].
  intros j k Hj [Hs ->]. eapply sp_impl; [apply sp_digit; auto|]. pose proof (suffix_len _ _ Hs). intros [j'|] k' [-> Hx].
  - destruct Hx as [-> Hl]. split; [eapply suffix_trans; [eauto|apply adv_suffix; auto]|]. cbn. lia.
  - split; auto. lia.
Qed.

Lemma sp_digits1 n i : valid J i -> sp J n digits1 i (linear 2 2 i).
Proof.
  intros Hv. apply (sp_one_or_more J n _ i (fun j k => suffix i j /\ k = 1 + (sp_len i - sp_len j))); auto.
  - eapply sp_impl; [apply sp_digit; auto|]. intros [j'|] k' [-> Hx]; cbn; auto. destruct Hx as [-> Hl]. split; [apply adv_suffix; auto|]. cbn. lia.
  - intros j k Hj [Hs ->]. eapply sp_impl; [apply sp_digit; auto|]. pose proof (suffix_len _ _ Hs). intros [j'|] k' [-> Hx].
    + destruct Hx as [-> Hl]. split; [eapply suffix_trans; [eauto|apply adv_suffix; auto]|]. cbn. lia.
    + split; auto. lia.
Qed.

Definition number_start (c : nat) : Prop := c = 45 \/ is_dg c.

Lemma sp_natural n i : valid J i -> sp J n natural i (fun o k => (head_not number_start (elems J i) -> o = None /\ k <= 5) /\ linear (7 + sp_len i) 7 i o k).
Proof.
  intros Hv. apply sp_choice; auto. cbn [alts]. apply sp_char; auto.
  assert (H2 : sp J n (PJoin (PSequence (PAnyOf [49; 50; 51; 52; 53; 54; 55; 56; 57]) [digits0])) i
    (fun o k => (head_not number_start (elems J i) -> o = None /\ k <= 3) /\ linear (5 + sp_len i) 5 i o k)).
  { apply sp_join; [reflexivity|]. apply sp_seq; auto. cbn [chain]. apply sp_any; auto.
    destruct (elems J i) as [|c l] eqn:He; [cbn; split; auto; lia|]. destruct (elems_head _ _ _ Hv He) as [Hl _].
    destruct (contains _ _ _) eqn:Hc; [|cbn; split; auto; lia].
    assert (Hd : head_not number_start (c :: l) -> False).
    { cbn. intros Hx. apply Hx. right. apply existsb_exists in Hc as (t & Ht & Hc). cbn [eqv json_env] in Hc. apply Nat.eqb_eq in Hc. subst t.
      unfold is_dg. cbn in Ht. lia. }
    destruct (sfx i (adv i 1)) as [Hv1 _]; auto. assert (Hl1 : sp_len (adv i 1) = sp_len i - 1) by reflexivity.
    eapply sp_impl; [apply sp_digits0; auto|]. intros [j|] k Hj; cbn [linear] in *; [|split; [tauto|lia]].
    destruct Hj as [Hs Hk]. pose proof (suffix_len _ _ Hs). split; (split; [tauto|]); [|lia].
    split; [eapply suffix_trans; [|exact Hs]; apply adv_suffix; auto|lia]. }
  assert (H3 : sp J n (PJoin (PSequence (PAnyOf [49; 50; 51; 52; 53; 54; 55; 56; 57]) [digits0])) i
    (fun o k => match o with Some j => (head_not number_start (elems J i) -> Some j = None /\ S (1 + k) <= 5) /\ linear (7 + sp_len i) 7 i (Some j) (S (1 + k))
       | None => (head_not number_start (elems J i) -> @None span = None /\ S (1 + (k + 0)) <= 5) /\ linear (7 + sp_len i) 7 i None (S (1 + (k + 0))) end)).
  { eapply sp_impl; [exact H2|]. intros [j|] k [Ha Hb]; cbn [linear] in *; (split; [intros Hx; destruct (Ha Hx); split; auto; lia|]); [split; [tauto|lia]|lia]. }
  destruct (elems J i) as [|c l] eqn:He; [exact H3|]. destruct (elems_head _ _ _ Hv He) as [Hl _].
  cbn [eqv json_env]. destruct (Nat.eqb_spec 48 c) as [<-|Hc]; [|exact H3]. split.
  - cbn. unfold number_start, is_dg. intros Hx. exfalso. apply Hx. lia.
  - cbn [linear]. split; [apply adv_suffix; auto|lia].
Qed.

Lemma sp_sign n p i : few n p 1 -> valid J i -> sp J n (PChoice p [PEpsilon]) i (fun o k => k <= 3 /\ match o with Some j => suffix i j | None => True end).
Proof.
  intros Hp Hv. eapply sp_impl; [refine (sp_and J _ _ _ _ _ _ (sp_suffix J n _ i Hv))|].
  - assert (H : few n (PChoice p [PEpsilon]) 3) by (eapply few_le; [apply few_choice; eapply few_any_cons; [exact Hp|]; eapply few_any_cons; [apply few_epsilon|apply (few_any_nil n 0)]|lia]).
    apply H; auto.
  - intros [j|] k [H1 H2]; auto.
Qed.

Lemma sp_integer n i : valid J i -> sp J n integer i (fun o k => (head_not number_start (elems J i) -> k <= 10) /\ linear (12 + sp_len i) 12 i o k).
Proof.
  intros Hv. rewrite integer_shape. apply sp_join; [reflexivity|]. apply sp_seq; auto. cbn [chain].
  assert (Hs : sp J n (PChoice (PAllOf [45]) [PEpsilon]) i (fun o k => k <= 3 /\ match o with Some j => suffix i j /\ (head_not number_start (elems J i) -> j = i) | None => True end)).
  { apply sp_choice; auto. cbn [alts]. apply sp_char; auto.
    assert (He' : sp J n PEpsilon i (fun o k => match o with Some j => S (1 + k) <= 3 /\ (suffix i j /\ (head_not number_start (elems J i) -> j = i)) | None => S (1 + (k + 0)) <= 3 /\ True end))
      by (apply sp_epsilon; auto).
    destruct (elems J i) as [|c l] eqn:He; [exact He'|]. destruct (elems_head _ _ _ Hv He) as [Hl _]. cbn [eqv json_env].
    destruct (Nat.eqb_spec 45 c) as [<-|Hc]; [|exact He']. split; [lia|]. split; [apply adv_suffix; auto|]. cbn. intros Hx. exfalso. apply Hx. now left. }
  eapply sp_impl; [exact Hs|]. intros [j|] k [Hk Hj]; [|cbn [linear]; split; intros; lia]. destruct Hj as [Hj Hh].
  destruct (sfx _ _ Hj Hv) as [Hvj Hlj].
  eapply sp_impl; [apply sp_natural; auto|]. intros [j'|] k' [Ha Hb]; cbn [linear] in *.
  - destruct Hb as [Hb Hk']. pose proof (suffix_len _ _ Hb).
    assert (Hx : head_not number_start (elems J i) -> False) by (intros Hx; rewrite (Hh Hx) in Ha; destruct (Ha Hx); discriminate).
    split; (split; [tauto|]); [|lia]. split; [eapply suffix_trans; eauto|lia].
  - split; [|lia]. intros Hx. rewrite (Hh Hx) in Ha. destruct (Ha Hx). lia.
Qed.

Lemma sp_point n i c : valid J i -> sp J n (PIgnore (PAnyOf c)) i (fun o k => k = 2 /\ match o with Some j => suffix i j | None => True end).
Proof.
  intros Hv. apply sp_ignore, sp_any; auto. destruct (elems J i) as [|x l] eqn:He; auto. destruct (elems_head _ _ _ Hv He). destruct (contains _ _ _); auto.
Qed.

Lemma sp_fraction n i : valid J i -> sp J n fraction i (linear 10 10 i).
Proof.
  intros Hv. rewrite fraction_shape.
  apply sp_join_peg; try reflexivity; auto; try (apply (json_program memory cons Hcons)); try (apply (steady_b_ok J [0; 1; 2]); vm_compute; reflexivity).
  apply sp_seq; auto. cbn [chain]. eapply sp_impl; [apply sp_is; auto|]. intros [j|] k [-> Hj]; [|cbn; lia]. destruct Hj as (-> & Hl & _).
  destruct (sfx i (adv i 1)) as [Hv1 Hl1]; [now apply adv_suffix|auto|].
  eapply sp_impl; [apply sp_digits1; auto|]. intros [j|] k Hj; cbn [linear] in *; [|lia]. destruct Hj as [Hs Hk]. pose proof (suffix_len _ _ Hs).
  split; [eapply suffix_trans; [|exact Hs]; now apply adv_suffix|lia].
Qed.

Lemma sp_exponent n i : valid J i -> sp J n exponent i (linear 10 10 i).
Proof.
  intros Hv. rewrite exponent_shape.
  apply sp_join_peg; try reflexivity; auto; try (apply (json_program memory cons Hcons)); try (apply (steady_b_ok J [0; 1; 2]); vm_compute; reflexivity).
  apply sp_seq; auto. cbn [chain]. eapply sp_impl; [apply sp_point; auto|]. intros [j|] k [-> Hj]; [|cbn; lia].
  destruct (sfx _ _ Hj Hv) as [Hv1 Hl1].
  eapply sp_impl; [apply sp_sign; [eapply few_elementary; reflexivity|exact Hv1]|]. intros [j2|] k2 [Hk2 Hj2]; [|cbn; lia].
  destruct (sfx _ _ Hj2 Hv1) as [Hv2 Hl2].
  eapply sp_impl; [apply sp_digits1; auto|]. intros [j3|] k3 Hj3; cbn [linear] in *; [|lia]. destruct Hj3 as [Hs Hk]. pose proof (suffix_len _ _ Hs).
  split; [eapply suffix_trans; [exact Hj|]; eapply suffix_trans; eauto|lia].
Qed.

Lemma sp_maybe_linear n p i : valid J i -> sp J n p i (linear 10 10 i) -> sp J n (PMaybe p) i (fun o k => match o with Some j => linear 0 11 i o k | None => False end).
Proof. intros Hv H. apply sp_maybe; auto. eapply sp_impl; [exact H|]. intros [j|] k; cbn [linear]; [intros [H1 H2]; split; auto; lia|]. intros Hk. split; auto. lia. Qed.

Lemma sp_number n i : valid J i -> sp J n number i (fun o k => (head_not number_start (elems J i) -> o = None /\ k <= 12) /\
  match o with Some j => suffix i j /\ sp_len j < sp_len i /\ k <= 40 + (sp_len i - sp_len j) | None => k <= 40 + sp_len i end).
Proof.
  intros Hv.
  assert (H : sp J n number i (fun o k => (o = None -> head_not number_start (elems J i) -> k <= 12) /\ linear (40 + sp_len i) 40 i o k)).
  { rewrite number_shape. apply sp_map, sp_seq; auto. cbn [chain].
    eapply sp_impl; [apply sp_integer; auto|]. intros [j|] k [Ha Hb]; cbn [linear] in *; [|split; [intros _ Hx; specialize (Ha Hx); lia|lia]].
    destruct Hb as [Hj Hk]. destruct (sfx _ _ Hj Hv) as [Hv1 Hl1].
    eapply sp_impl; [apply sp_maybe_linear; auto; apply sp_fraction; auto|]. intros [j2|] k2 Hj2; cbn [linear] in *; [|contradiction].
    destruct Hj2 as [Hj2 Hk2]. destruct (sfx _ _ Hj2 Hv1) as [Hv2 Hl2].
    eapply sp_impl; [apply sp_maybe_linear; auto; apply sp_exponent; auto|]. intros [j3|] k3 Hj3; cbn [linear] in *; [|contradiction].
    destruct Hj3 as [Hj3 Hk3]. pose proof (suffix_len _ _ Hj3).
    split; (split; [discriminate|]); (split; [eapply suffix_trans; [exact Hj|]; eapply suffix_trans; eauto|lia]). }
  pose proof (sp_and J _ _ _ _ _ (sp_and J _ _ _ _ _ H (sp_consumes J n number i Hv (not_empty number eq_refl eq_refl)))
    (sp_peg J n number i (json_program memory cons Hcons) Hv eq_refl eq_refl ltac:(apply (steady_b_ok J [0; 1; 2]); vm_compute; reflexivity))) as H'.
  eapply sp_impl; [exact H'|]. intros [j|] k [[[Ha Hb] Hc] (c & Hp & Ho)]; cbn [linear] in *; [|split; auto].
  split; [|destruct Hb; repeat split; auto]. intros Hx. exfalso. apply peg_num_no with (memory := memory) (cons := cons) in Hx.
  assert (c = None) by (eapply (proj1 (peg_det J)); eauto). subst. discriminate.
Qed.

(** *** Values, pairs, arrays and objects

    A successful call costs at most 400 for each element read. A failed one costs at most 400
    for each element there is after the white space, 1 for each of the white space, and 100.
    Where the white space is followed by a closing bracket it costs little: an empty array
    is not read twice. *)
Definition item_cost (i : span) (o : option span) (k : nat) : Prop :=
  match o with
  | Some j => suffix i j /\ sp_len j < sp_len i /\ k <= 400 * (sp_len i - sp_len j)
  | None => k <= 400 * (sp_len i - space i) + space i + 100 /\
            (head_is (fun c => c = 93 \/ c = 125) (elems J (adv i (space i))) -> k <= space i + 100)
  end.

Lemma sp_bracket n opening closing item i : closing = 93 \/ closing = 125 -> valid J i -> (forall j, valid J j -> sp J n item j (item_cost j)) ->
  sp J n (PSequence (PIgnore (PAllOf [opening])) [PChoice (PDelimit item (PIgnore (PAllOf [44]))) [whitespace]; PIgnore (PAllOf [closing])]) i
    (fun o k => (head_not (eq opening) (elems J i) -> o = None /\ k <= 3) /\
      match o with
      | Some j => suffix i j /\ sp_len j + 2 <= sp_len i /\ k <= 400 * (sp_len i - sp_len j - 2) + 130
      | None => k <= 3 \/ 1 <= sp_len i /\ k <= 400 * (sp_len i - 1) + 130
      end).
Proof.
  intros Hc Hv Hitem. apply sp_seq; auto. cbn [chain].
  eapply sp_impl; [apply sp_is; auto|]. intros [i1|] k1 [-> Hi1]; [|split; [split; auto|]; lia]. destruct Hi1 as (-> & Hl & Hh).
  assert (Hn : head_not (eq opening) (elems J i) -> False) by (destruct (elems J i); cbn in *; auto).
  assert (Hs1 : suffix i (adv i 1)) by now apply adv_suffix.
  destruct (sfx _ _ Hs1 Hv) as [Hv1 _]. assert (Hl1 : sp_len (adv i 1) = sp_len i - 1) by reflexivity.
  remember (adv i 1) as i1 eqn:Hi1. clear Hi1.
  apply sp_choice; auto. cbn [alts].
  apply (sp_delimit J n _ _ i1 (fun j k => suffix i1 j /\ k <= 400 * (sp_len i1 - sp_len j) + 1)); auto.
  - (* the first item *)
    eapply sp_impl; [apply Hitem; auto|]. intros [j|] k Hk; cbn [item_cost] in Hk.
    + destruct Hk as (Hs & Hlj & Hk). split; auto. lia.
    + destruct Hk as [Hk Hclose]. pose proof (space_le i1 Hv1).
      eapply sp_impl; [apply sp_white; auto|]. intros o k2 [-> ->].
      assert (Hs2 : suffix i1 (adv i1 (space i1))) by (apply adv_suffix; auto).
      destruct (sfx _ _ Hs2 Hv1) as [Hv2 _]. assert (Hl2 : sp_len (adv i1 (space i1)) = sp_len i1 - space i1) by reflexivity.
      eapply sp_impl; [apply sp_is; auto|]. intros [i3|] k3 [-> Hi3]; [|split; [tauto|right; split; lia]].
      destruct Hi3 as (-> & Hl3 & Hh3).
      assert (Hk' : k <= space i1 + 100) by (apply Hclose; destruct (elems J (adv i1 (space i1))); cbn in *; auto; subst; tauto).
      assert (Hl4 : sp_len (adv (adv i1 (space i1)) 1) = sp_len (adv i1 (space i1)) - 1) by reflexivity.
      split; [tauto|]. split; [eapply suffix_trans; [exact Hs1|]; eapply suffix_trans; [exact Hs2|]; now apply adv_suffix|]. split; lia.
  - (* a separator and the next item *)
    intros j k Hj [Hs Hk]. pose proof (suffix_len _ _ Hs). eapply sp_impl; [apply sp_is; auto|]. intros [j1|] k1 [-> Hj1].
    + destruct Hj1 as (-> & Hlj & Hhj). assert (Hsj : suffix j (adv j 1)) by now apply adv_suffix.
      destruct (sfx _ _ Hsj Hj) as [Hvj _]. assert (Hlj1 : sp_len (adv j 1) = sp_len j - 1) by reflexivity.
      eapply sp_impl; [apply Hitem; auto|]. intros [j2|] k2 Hk2; cbn [item_cost] in Hk2.
      * destruct Hk2 as (Hs2 & Hl2 & Hk2). split; [eapply suffix_trans; [exact Hs|]; eapply suffix_trans; eauto|]. lia.
      * destruct Hk2 as [Hk2 _]. pose proof (space_le _ Hvj).
        eapply sp_impl; [apply sp_is; auto|]. intros [i3|] k3 [-> Hi3]; [|split; [tauto|right; split; lia]].
        exfalso. destruct Hi3 as (_ & _ & Hi3). destruct (elems J j); cbn in *; auto. lia.
    + eapply sp_impl; [apply sp_is; auto|]. intros [i3|] k3 [-> Hi3]; [|split; [tauto|right; split; lia]].
      destruct Hi3 as (-> & Hl3 & Hh3). assert (Hl4 : sp_len (adv j 1) = sp_len j - 1) by reflexivity.
      split; [tauto|]. split; [eapply suffix_trans; [exact Hs1|]; eapply suffix_trans; [exact Hs|]; now apply adv_suffix|]. split; lia.
Qed.

Lemma sp_custom_bracket n c opening closing item i : cust_body J c = PSequence (PIgnore (PAllOf [opening])) [PChoice (PDelimit item (PIgnore (PAllOf [44]))) [whitespace]; PIgnore (PAllOf [closing])] ->
  (forall t, cust_conv J c <> ConvWhole t) -> closing = 93 \/ closing = 125 -> valid J i -> (forall j, valid J j -> sp J n item j (item_cost j)) ->
  sp J n (PCustom c) i (fun o k => (head_not (eq opening) (elems J i) -> o = None /\ k <= 5) /\
      match o with
      | Some j => suffix i j /\ sp_len j + 2 <= sp_len i /\ k <= 400 * (sp_len i - sp_len j - 2) + 132
      | None => k <= 5 \/ 1 <= sp_len i /\ k <= 400 * (sp_len i - 1) + 132
      end).
Proof.
  intros Hb Hcv Hc Hv Hitem. apply sp_custom; auto. rewrite Hb. eapply sp_impl; [apply sp_bracket; auto; intros j Hj; eapply sp_le; [apply Hitem; auto|lia]|].
  intros [j|] k [Ha Hk].
  - destruct Hk as (H1 & H2 & H3). split; (split; [intros Hx; destruct (Ha Hx); discriminate|]); repeat split; auto; lia.
  - split; [intros Hx; destruct (Ha Hx); split; auto; lia|lia].
Qed.

Lemma sp_pair n i : valid J i -> (forall j, valid J j -> sp J n json_value j (item_cost j)) -> sp J n pair_parser i (item_cost i).
Proof.
  intros Hv Hval. rewrite pair_shape. apply sp_map, sp_seq; auto. cbn [chain]. pose proof (space_le i Hv).
  eapply sp_impl; [apply sp_white; auto|]. intros o k [-> ->].
  assert (Hs1 : suffix i (adv i (space i))) by (apply adv_suffix; auto).
  destruct (sfx _ _ Hs1 Hv) as [Hv1 _]. assert (Hl1 : sp_len (adv i (space i)) = sp_len i - space i) by reflexivity.
  eapply sp_impl; [apply sp_is; auto|]. intros [j|] k [-> Hj]; cbn [item_cost]; [|lia]. destruct Hj as (-> & Hl2 & Hh).
  assert (Hn : head_is (fun c => c = 93 \/ c = 125) (elems J (adv i (space i))) -> False) by (destruct (elems J (adv i (space i))); cbn in *; auto; lia).
  assert (Hs2 : suffix (adv i (space i)) (adv (adv i (space i)) 1)) by now apply adv_suffix.
  destruct (sfx _ _ Hs2 Hv1) as [Hv2 _]. assert (Hl3 : sp_len (adv (adv i (space i)) 1) = sp_len (adv i (space i)) - 1) by reflexivity.
  assert (Hsi : suffix i (adv (adv i (space i)) 1)) by eauto using suffix_trans. remember (adv (adv i (space i)) 1) as i2 eqn:Hi2. clear Hi2 Hs2.
  eapply sp_impl; [apply sp_body; auto|]. intros [i3|] k Hk; [|cbn [item_cost]; split; [lia|tauto]]. destruct Hk as [Hs3 Hk].
  destruct (sfx _ _ Hs3 Hv2) as [Hv3 Hl4].
  eapply sp_impl; [apply sp_is; auto|]. intros [i4|] k4 [-> Hi4]; cbn [item_cost]; [|split; [lia|tauto]]. destruct Hi4 as (-> & Hl5 & _).
  assert (Hs4 : suffix i3 (adv i3 1)) by now apply adv_suffix. destruct (sfx _ _ Hs4 Hv3) as [Hv4 _].
  assert (Hl6 : sp_len (adv i3 1) = sp_len i3 - 1) by reflexivity. remember (adv i3 1) as i4 eqn:Hi4. clear Hi4.
  pose proof (space_le i4 Hv4).
  eapply sp_impl; [apply sp_white; auto|]. intros o k5 [-> ->].
  assert (Hs5 : suffix i4 (adv i4 (space i4))) by (apply adv_suffix; auto).
  destruct (sfx _ _ Hs5 Hv4) as [Hv5 _]. assert (Hl7 : sp_len (adv i4 (space i4)) = sp_len i4 - space i4) by reflexivity.
  eapply sp_impl; [apply sp_is; auto|]. intros [i6|] k6 [-> Hi6]; cbn [item_cost]; [|split; [lia|tauto]]. destruct Hi6 as (-> & Hl8 & _).
  assert (Hs6 : suffix (adv i4 (space i4)) (adv (adv i4 (space i4)) 1)) by now apply adv_suffix. destruct (sfx _ _ Hs6 Hv5) as [Hv6 _].
  assert (Hl9 : sp_len (adv (adv i4 (space i4)) 1) = sp_len (adv i4 (space i4)) - 1) by reflexivity.
  assert (Hs : suffix i (adv (adv i4 (space i4)) 1)) by (eapply suffix_trans; [exact Hsi|]; eapply suffix_trans; [exact Hs3|]; eapply suffix_trans; [exact Hs4|]; eapply suffix_trans; eauto).
  remember (adv (adv i4 (space i4)) 1) as i6 eqn:Hi6. clear Hi6. pose proof (space_le i6 Hv6).
  eapply sp_impl; [apply Hval; auto|]. intros [i7|] k7 Hk7; cbn [item_cost] in *.
  - destruct Hk7 as (Hs7 & Hl & Hk7). assert (suffix i i7) by eauto using suffix_trans. repeat split; auto; lia.
  - split; [|tauto]. lia.
Qed.

Lemma sp_word n a arr f i : valid J i -> compiles J Parse (PMap (PAllOf (a :: arr)) f) = true -> compiles J Look (PMap (PAllOf (a :: arr)) f) = true ->
  steady J (PMap (PAllOf (a :: arr)) f) ->
  sp J n (PMap (PAllOf (a :: arr)) f) i (fun o k => (head_not (eq a) (elems J i) -> o = None) /\ k <= 3 /\
    match o with Some j => suffix i j /\ sp_len j < sp_len i | None => True end).
Proof.
  intros Hv Hp Hl Hs. pose proof (sp_peg J n _ i (json_program memory cons Hcons) Hv Hp Hl Hs) as H1.
  assert (H2 : sp J n (PMap (PAllOf (a :: arr)) f) i (fun o k => k <= 3 /\ match o with Some j => suffix i j /\ sp_len j < sp_len i | None => True end)).
  { apply sp_map. eapply sp_elementary; [reflexivity|auto|split; auto; lia|]. intros Hx. cbn [List.length] in Hx.
    assert (suffix i (adv i (S (List.length arr)))) by (apply adv_suffix; auto). cbn [List.length]. repeat split; auto; cbn; lia. }
  eapply sp_impl; [exact (sp_and J _ _ _ _ _ H1 H2)|]. intros o k [(c & Hc & ->) Hk]. split; auto.
  intros Hh. assert (Hno : peg J (PMap (PAllOf (a :: arr)) f) (elems J i) None).
  { apply G_map, G_all_no. destruct (elems J i) as [|x l]; [intros ([|? ?] & l2 & He & HF); [inversion HF|discriminate]|]. intros Hst. now apply starts_head in Hst. }
  assert (c = None) by (eapply (proj1 (peg_det J)); eauto). now subst.
Qed.

(** The alternatives of a value, started where there is no white space *)
Lemma sp_values n i : valid J i -> (forall j, valid J j -> sp J n json_value j (item_cost j)) ->
  sp J n value_choice i (fun o k =>
    match o with
    | Some j => suffix i j /\ sp_len j < sp_len i /\ k + 200 <= 400 * (sp_len i - sp_len j)
    | None => k <= 400 * sp_len i + 70 /\ (head_is (fun c => c = 93 \/ c = 125) (elems J i) -> k <= 70)
    end).
Proof.
  intros Hv Hval. apply sp_choice; auto. unfold values. cbn [tl alts].
  set (c := hd 0 (elems J i)).
  assert (Hh : forall P : nat -> Prop, ~ P c -> head_not P (elems J i)) by (intros P HP; subst c; destruct (elems J i); cbn in *; auto).
  assert (Hc : head_is (fun c => c = 93 \/ c = 125) (elems J i) -> c = 93 \/ c = 125) by (subst c; destruct (elems J i); cbn; tauto).
  assert (He : forall a, c = a \/ head_not (eq a) (elems J i)) by (intros a; destruct (Nat.eq_dec c a); [now left|right; apply Hh; congruence]).
  assert (Hd : number_start c \/ head_not number_start (elems J i)).
  { assert (H : number_start c \/ ~ number_start c) by (unfold number_start, is_dg; lia). destruct H; auto. }
  unfold number_start, is_dg in Hd.
  eapply sp_impl; [apply sp_str; auto|]. intros [j|] k1 [Ha1 H1].
  { destruct H1 as (Hl & Hs & Hk). repeat split; auto; lia. }
  assert (H1' : c = 34 \/ k1 <= 3) by (destruct (He 34) as [|Hx]; [auto|right; apply (Ha1 Hx)]). clear Ha1.
  eapply sp_impl; [apply sp_number; auto|]. intros [j|] k2 [Ha2 H2].
  { destruct H2 as (Hs & Hl & Hk). assert (k1 <= 3) by (destruct Hd as [Hd|Hd]; [lia|destruct (Ha2 Hd); discriminate]). repeat split; auto; lia. }
  assert (H2' : c = 45 \/ (48 <= c <= 57) \/ k2 <= 12) by (destruct Hd as [Hd|Hd]; [lia|right; right; apply (Ha2 Hd)]). clear Ha2 Hd.
  eapply sp_impl; [apply (sp_custom_bracket n 1 123 125 pair_parser); auto; [discriminate|intros j Hj; now apply sp_pair]|]. intros [j|] k3 [Ha3 H3].
  { destruct H3 as (Hs & Hl & Hk). assert (c = 123) by (destruct (He 123) as [|Hx]; [auto|destruct (Ha3 Hx); discriminate]). repeat split; auto; lia. }
  assert (H3' : c = 123 \/ k3 <= 5) by (destruct (He 123) as [|Hx]; [auto|right; apply (Ha3 Hx)]). clear Ha3.
  eapply sp_impl; [apply (sp_custom_bracket n 2 91 93 json_value); auto; discriminate|]. intros [j|] k4 [Ha4 H4].
  { destruct H4 as (Hs & Hl & Hk). assert (c = 91) by (destruct (He 91) as [|Hx]; [auto|destruct (Ha4 Hx); discriminate]). repeat split; auto; lia. }
  assert (H4' : c = 91 \/ k4 <= 5) by (destruct (He 91) as [|Hx]; [auto|right; apply (Ha4 Hx)]). clear Ha4.
  eapply sp_impl; [apply sp_word; auto; apply (steady_b_ok J [0; 1; 2]); vm_compute; reflexivity|]. intros [j|] k5 (Ha5 & Hk5 & H5).
  { destruct H5 as (Hs & Hl). assert (c = 116) by (destruct (He 116) as [|Hx]; [auto|now specialize (Ha5 Hx)]). repeat split; auto; lia. }
  eapply sp_impl; [apply sp_word; auto; apply (steady_b_ok J [0; 1; 2]); vm_compute; reflexivity|]. intros [j|] k6 (Ha6 & Hk6 & H6).
  { destruct H6 as (Hs & Hl). assert (c = 102) by (destruct (He 102) as [|Hx]; [auto|now specialize (Ha6 Hx)]). repeat split; auto; lia. }
  eapply sp_impl; [apply sp_word; auto; apply (steady_b_ok J [0; 1; 2]); vm_compute; reflexivity|]. intros [j|] k7 (Ha7 & Hk7 & H7).
  { destruct H7 as (Hs & Hl). assert (c = 110) by (destruct (He 110) as [|Hx]; [auto|now specialize (Ha7 Hx)]). repeat split; auto; lia. }
  split; [|intros Hx; apply Hc in Hx]; lia.
Qed.

Lemma sp_value n : forall i, valid J i -> sp J n json_value i (item_cost i).
Proof.
  induction n as [|n IH]; intros i Hv; [intros n' m Hn'; assert (n' = 0) as -> by lia; exact I|].
  apply sp_custom; [discriminate|]. cbn [Nat.pred]. change (cust_body J 0) with value_body. rewrite value_shape. apply sp_seq; auto. cbn [chain].
  pose proof (space_le i Hv). eapply sp_impl; [apply sp_white; auto|]. intros o k [-> ->].
  assert (Hs1 : suffix i (adv i (space i))) by (apply adv_suffix; auto).
  destruct (sfx _ _ Hs1 Hv) as [Hv1 _]. assert (Hl1 : sp_len (adv i (space i)) = sp_len i - space i) by reflexivity.
  eapply sp_impl; [apply sp_values; auto|]. intros [j|] k Hk; cbn [item_cost].
  - destruct Hk as (Hs & Hl & Hk). destruct (sfx _ _ Hs Hv1) as [Hv2 _]. pose proof (space_le j Hv2).
    eapply sp_impl; [apply sp_white; auto|]. intros o k2 [-> ->].
    assert (suffix i (adv j (space j))) by (eapply suffix_trans; [exact Hs1|]; eapply suffix_trans; [exact Hs|]; apply adv_suffix; auto).
    assert (Hl2 : sp_len (adv j (space j)) = sp_len j - space j) by reflexivity.
    cbn [item_cost]. repeat split; auto; lia.
  - destruct Hk as [H1 H2]. split; [lia|]. intros Hx. specialize (H2 Hx). lia.
Qed.

End CostJson.
