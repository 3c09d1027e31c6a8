(** * Runs of such parsers on the part of the input that they need

    The reverse of Extend.v for parsers that pass the test of Final.v: the run on the input
    without its last [x] elements, if these are not consumed.  None of this is code of the library. *)
From Coq Require Import String List Arith ZArith Bool Lia.
From Verif Require Import Types Compound Parser Outcome CompoundFacts Exec Mono Derive Typing Join Leaves Sound
  BigStep BigSound BigComplete Runs Extend Peg Throws Term Lang LL1 Elems Lossless Agree PropTerm Final.
Import ListNotations.

Section Shorter.
Context {T V : Type} (E : env T V).
Variable teq sep : T -> T -> bool.
Hypothesis teq_ok : forall t t', teq t t' = true -> t = t'.
Hypothesis sep_ok : forall t t' c, sep t t' = true -> eqv E t c = true -> eqv E t' c = false.
Notation firsts n := (firsts_ (cust_firsts E n)).
Notation quiet n K := (quiet_ teq sep K (cust_quiet E teq sep n K)).
Variable x : nat.

(** The input without its last [x] elements. *)
Definition cut (i : span) : span := Span (sp_blk i) (sp_off i) (sp_len i - x).
Definition cut_result (r : presult) : presult := Res (r_ok r) (cut (r_rem r)).
Definition cut_first (o : option (nat * rv * span)) := option_map (fun y => (fst y, cut (snd y))) o.
Definition cut_chain (o : option (list rv * span)) := option_map (fun y => (fst y, cut (snd y))) o.

Lemma cut_adv i n : cut (adv i n) = adv (cut i) n.
Proof. unfold cut, adv. cbn. f_equal. lia. Qed.
Lemma cut_valid i : valid E i -> valid E (cut i).
Proof. unfold valid, cut. cbn. lia. Qed.
Lemma cut_head i P : sp_len (cut i) <> 0 -> head_is E i P -> head_is E (cut i) P.
Proof. unfold head_is, cut. cbn. intros H [_ H']. split; auto. lia. Qed.
Lemma cut_no_head i P : ~ head_is E i P -> ~ head_is E (cut i) P.
Proof. unfold head_is, cut. cbn. intros Hn [H H']. apply Hn. split; auto. lia. Qed.
Lemma cut_prefix i arr : List.length arr <= sp_len (cut i) -> prefix_is E i arr -> prefix_is E (cut i) arr.
Proof. intros H [_ H']. split; auto. Qed.
Lemma cut_no_prefix i arr : ~ prefix_is E i arr -> ~ prefix_is E (cut i) arr.
Proof. intros Hn [H H']. cbn in H, H'. apply Hn. split; auto. lia. Qed.
Lemma join_executor_cut y rem : join_executor y (cut rem) = join_executor y rem.
Proof. reflexivity. Qed.
Lemma cut_bump o : cut_first (bump o) = bump (cut_first o).
Proof. destruct o as [[[? ?] ?]|]; reflexivity. Qed.
Lemma cut_push v o : cut_chain (push v o) = push v (cut_chain o).
Proof. destruct o as [[? ?]|]; reflexivity. Qed.

(** ** Parsers that look at one element *)
Lemma quick_cut :
  (forall m p i r tr, big E m p i r tr -> quick p = true -> sp_len (cut i) <> 0 -> big E m p (cut i) (cut_result r) tr) /\
  (forall l i o tr, bfirst E l i o tr -> forallb quick (map snd l) = true -> sp_len (cut i) <> 0 -> bfirst E l (cut i) (cut_first o) tr) /\
  (forall l i o tr, bchain E l i o tr -> True) /\
  (forall m q i vs rem tr, biter E m q i vs rem tr -> True) /\
  (forall m q d i prs rem tr, btail E m q d i prs rem tr -> True).
Proof.
  apply big_mut; intros; auto; cbn [quick] in *; try discriminate; unfold cut_result in *;
    cbn [r_ok r_rem ok1 cut_first cut_chain option_map fst snd] in *.
  - rewrite cut_adv. apply (B_any_ok E m arr (cut i)). now apply cut_head.
  - apply B_any_no. now apply cut_no_head.
  - rewrite cut_adv. apply (B_none_ok E m arr (cut i)). now apply cut_head.
  - apply B_none_no. now apply cut_no_head.
  - rewrite cut_adv. apply (B_all_ok E m arr (cut i)). apply Nat.leb_le in H. apply cut_prefix; auto. lia.
  - apply B_all_no. now apply cut_no_prefix.
  - rewrite cut_adv. apply (B_anything_ok E m (cut i)). cbn in *. lia.
  - apply B_anything_no. cbn. lia.
  - apply B_eps.
  - eapply B_choice_ok; eauto; apply H; auto; now rewrite (alts_snd E) by assumption.
  - eapply B_choice_no; eauto; apply H; auto; now rewrite (alts_snd E) by assumption.
  - eapply B_choice_look_ok; eauto; apply H; auto; now rewrite look_snd.
  - eapply B_choice_look_no; eauto; apply H; auto; now rewrite look_snd.
  - eapply B_maybe_some; eauto.
  - eapply B_maybe_none; eauto.
  - eapply B_maybe_look_some; eauto.
  - eapply B_maybe_look_none; eauto.
  - now apply B_ignore, H.
  - eapply B_join_ok; [eauto|eauto|eauto|]. now rewrite join_executor_cut.
  - eapply B_join_gap; [eauto|eauto|eauto|]. now rewrite join_executor_cut.
  - eapply B_join_no; eauto.
  - now apply B_join_look, H.
  - eapply B_map_ok; eauto.
  - eapply B_map_no; eauto.
  - now apply B_map_look, H.
  - eapply B_filter_ok; eauto.
  - eapply B_filter_reject; eauto.
  - eapply B_filter_no; eauto.
  - now apply B_filter_look, H.
  - now apply B_named, H.
  - constructor.
  - apply andb_true_iff in H0 as [H0 _]. now apply BF_here, H.
  - apply andb_true_iff in H1 as [H1 H1']. rewrite cut_bump. apply BF_next; [now apply H|now apply H0].
Qed.

(** ** Parsers that get nowhere *)
Theorem quiet_cut :
  (forall m p i r tr, big E m p i r tr -> valid E i -> forall N K b, quiet N K p = Some b -> holds E (Some K) (cut i) ->
    big E m p (cut i) (cut_result r) tr) /\
  (forall l i o tr, bfirst E l i o tr -> valid E i -> forall N K, quiet_first E teq sep N K (map snd l) -> holds E (Some K) (cut i) ->
    bfirst E l (cut i) (cut_first o) tr) /\
  (forall l i o tr, bchain E l i o tr -> valid E i -> forall N K b, quiet_chain E teq sep N K (map snd l) = Some b ->
    holds E (Some K) (cut i) -> bchain E l (cut i) (cut_chain o) tr) /\
  (forall m q i vs rem tr, biter E m q i vs rem tr -> valid E i -> forall N K b, quiet N K q = Some b -> holds E (Some K) (cut i) ->
    biter E m q (cut i) vs (cut rem) tr) /\
  (forall m q d i prs rem tr, btail E m q d i prs rem tr -> valid E i -> forall N K b b', quiet N K q = Some b -> quiet N K d = Some b' ->
    holds E (Some K) (cut i) -> btail E m q d (cut i) prs (cut rem) tr).
Proof.
  destruct (quiet_ok E teq sep teq_ok sep_ok 0 (fun _ => None)) as [Q1 _].
  assert (Q2 : forall m p i v rem tr, big E m p (cut i) (Res (Some v) (cut rem)) tr -> valid E i -> forall N K b, quiet N K p = Some b ->
    holds E (Some K) (cut i) -> b = false /\ holds E (Some K) (cut rem)).
  { intros m p i v rem tr Hb Hv N K b Hq Hh. exact (proj2 (Q1 _ _ _ _ _ Hb (cut_valid i Hv) _ _ _ Hq Hh) v eq_refl). }
  apply big_mut; intros; unfold cut_result in *; cbn [quiet_] in *; cbn [r_ok r_rem ok1 cut_first cut_chain option_map fst snd] in *;
    repeat match goal with Hv : valid E ?i, IH : valid E ?i -> _ |- _ => specialize (IH Hv) end.
  (* leaves *)
  - rewrite cut_adv. apply (B_any_ok E m arr (cut i)). apply cut_head; auto. eapply holds_len; eauto.
  - apply B_any_no. now apply cut_no_head.
  - rewrite cut_adv. apply (B_none_ok E m arr (cut i)). apply cut_head; auto. eapply holds_len; eauto.
  - apply B_none_no. now apply cut_no_head.
  - rewrite cut_adv. apply (B_all_ok E m arr (cut i)). apply cut_prefix; auto.
    destruct (le_lt_dec (List.length arr) (sp_len (cut i))) as [|Hlt]; auto. exfalso.
    apply (proj1 (quiet_all E teq sep teq_ok sep_ok 0 (fun _ => None) K (cut i) arr b H1 H0)). split; auto. apply matches_firstn. apply p.
  - apply B_all_no. now apply cut_no_prefix.
  - rewrite cut_adv. apply (B_anything_ok E m (cut i)). apply (holds_len E) in H1. cbn in *. lia.
  - apply B_anything_no. cbn. lia.
  - apply B_eps.
  (* choice *)
  - apply quiet_choice in H1 as [HF _]. eapply B_choice_ok; eauto. apply (H N K); auto. now rewrite (alts_snd E) by assumption.
  - apply quiet_choice in H1 as [HF _]. eapply B_choice_no; eauto. apply (H N K); auto. now rewrite (alts_snd E) by assumption.
  - apply quiet_choice in H1 as [HF _]. eapply B_choice_look_ok; eauto. apply (H N K); auto. now rewrite look_snd.
  - apply quiet_choice in H1 as [HF _]. eapply B_choice_look_no; eauto. apply (H N K); auto. now rewrite look_snd.
  (* sequence *)
  - specialize (H N K b0). rewrite (parts_snd' E) in H by assumption. eapply B_seq_ok; eauto.
  - specialize (H N K b0). rewrite (parts_snd' E) in H by assumption. eapply B_seq_no; eauto.
  - specialize (H N K b0). rewrite look_snd in H. eapply B_seq_look_ok; eauto.
  - specialize (H N K b0). rewrite look_snd in H. eapply B_seq_look_no; eauto.
  (* maybe *)
  - destruct (quiet N K q) as [b2|] eqn:Hq; [|discriminate]. eapply B_maybe_some; eauto.
  - destruct (quiet N K q) as [b2|] eqn:Hq; [|discriminate]. eapply B_maybe_none; eauto.
  - destruct (quiet N K q) as [b2|] eqn:Hq; [|discriminate]. eapply B_maybe_look_some; eauto.
  - destruct (quiet N K q) as [b2|] eqn:Hq; [|discriminate]. eapply B_maybe_look_none; eauto.
  (* exactly *)
  - destruct n as [|j]; [discriminate|]. specialize (H N K b0). rewrite repeat_snd, quiet_repeat in H. eapply B_exactly_ok; eauto.
  - destruct n as [|j]; [discriminate|]. specialize (H N K b0). rewrite repeat_snd, quiet_repeat in H. eapply B_exactly_no; eauto.
  - destruct n as [|j]; [discriminate|]. specialize (H N K b0). rewrite repeat_snd, quiet_repeat in H. eapply B_exactly_look_ok; eauto.
  - destruct n as [|j]; [discriminate|]. specialize (H N K b0). rewrite repeat_snd, quiet_repeat in H. eapply B_exactly_look_no; eauto.
  (* repetitions *)
  - eapply B_oom_ok; eauto.
  - eapply B_oom_no; eauto.
  - eapply B_oom_look_ok; eauto.
  - eapply B_oom_look_no; eauto.
  - destruct (quiet N K q) as [b2|] eqn:Hq; [|discriminate]. eapply B_zom; eauto.
  - destruct (quiet N K q) as [b2|] eqn:Hq; [|discriminate]. eapply B_zom_look; eauto.
  (* delimit *)
  - destruct (quiet N K q) as [b2|] eqn:Hq; [|discriminate]. pose proof (H _ _ _ Hq H3) as Hb. destruct (Q2 _ _ _ _ _ _ Hb H1 _ _ _ Hq H3) as [-> Hk].
    destruct (quiet N K d) as [b3|] eqn:Hd; [|discriminate]. assert (HM : valid E mid) by (eapply big_succ_valid; eauto).
    eapply B_delim_ok; eauto.
  - destruct (quiet N K q) as [b2|] eqn:Hq; [|discriminate]. eapply B_delim_no; eauto.
  - destruct (quiet N K q) as [b2|] eqn:Hq; [|discriminate]. pose proof (H _ _ _ Hq H3) as Hb. destruct (Q2 _ _ _ _ _ _ Hb H1 _ _ _ Hq H3) as [-> Hk].
    destruct (quiet N K d) as [b3|] eqn:Hd; [|discriminate]. assert (HM : valid E mid) by (eapply big_succ_valid; eauto).
    eapply B_delim_look_ok; eauto.
  - destruct (quiet N K q) as [b2|] eqn:Hq; [|discriminate]. eapply B_delim_look_no; eauto.
  (* ignore, complete *)
  - eapply B_ignore; eauto.
  - destruct (quiet N K q) as [[]|] eqn:Hq; try discriminate. destruct (Q2 _ _ _ _ _ _ (H _ _ _ Hq H2) H0 _ _ _ Hq H2). discriminate.
  - destruct (quiet N K q) as [[]|] eqn:Hq; try discriminate. destruct (Q2 _ _ _ _ _ _ (H _ _ _ Hq H2) H0 _ _ _ Hq H2). discriminate.
  - destruct (quiet N K q) as [[]|] eqn:Hq; try discriminate. eapply B_complete_no; eauto.
  (* join, map, filter, named *)
  - eapply B_join_ok; [eauto|eauto|eauto|]. now rewrite join_executor_cut.
  - eapply B_join_gap; [eauto|eauto|eauto|]. now rewrite join_executor_cut.
  - eapply B_join_no; eauto.
  - eapply B_join_look; eauto.
  - eapply B_map_ok; eauto.
  - eapply B_map_no; eauto.
  - eapply B_map_look; eauto.
  - eapply B_filter_ok; eauto.
  - eapply B_filter_reject; eauto.
  - eapply B_filter_no; eauto.
  - eapply B_filter_look; eauto.
  - eapply B_named; eauto.
  (* custom *)
  - destruct N as [|N]; [discriminate|]. cbn [cust_quiet] in H1. destruct (quiet N K (cust_body E c)) as [bq|] eqn:Hq; [|discriminate]. eapply B_custom_same; eauto.
  - destruct N as [|N]; [discriminate|]. cbn [cust_quiet] in H1. destruct (quiet N K (cust_body E c)) as [bq|] eqn:Hq; [|discriminate]. eapply B_custom_elem; eauto.
  - destruct N as [|N]; [discriminate|]. cbn [cust_quiet] in H1. destruct (quiet N K (cust_body E c)) as [bq|] eqn:Hq; [|discriminate]. eapply B_custom_elem_no; eauto.
  - destruct N as [|N]; [discriminate|]. cbn [cust_quiet] in H1. destruct (quiet N K (cust_body E c)) as [bq|] eqn:Hq; [|discriminate]. eapply B_custom_whole; eauto.
  - destruct N as [|N]; [discriminate|]. cbn [cust_quiet] in H1. destruct (quiet N K (cust_body E c)) as [bq|] eqn:Hq; [|discriminate]. eapply B_custom_whole_no; eauto.
  - destruct N as [|N]; [discriminate|]. cbn [cust_quiet] in H1. destruct (quiet N K (cust_body E c)) as [bq|] eqn:Hq; [|discriminate]. eapply B_custom_look; eauto.
  (* lists *)
  - constructor.
  - destruct (quiet N K p) as [bp|] eqn:Hp; [|exfalso; eapply H1; [now left|exact Hp]]. eapply BF_here; eauto.
  - destruct (quiet N K p) as [bp|] eqn:Hp; [|exfalso; eapply H2; [now left|exact Hp]]. change (option_map (fun y => (fst y, cut (snd y))) (bump o)) with (cut_first (bump o)).
    rewrite cut_bump. apply BF_next; eauto. apply (H0 N K); auto. intros q Hi. apply H2. now right.
  - constructor.
  - unfold quiet_chain in H1. cbn [map snd fold_right] in H1. destruct (quiet N K p) as [bp|] eqn:Hp; [|discriminate]. eapply BC_fail; eauto.
  - unfold quiet_chain in H2. cbn [map snd fold_right] in H2. destruct (quiet N K p) as [bp|] eqn:Hp; [|discriminate].
    pose proof (H _ _ _ Hp H3) as Hb. destruct (Q2 _ _ _ _ _ _ Hb H1 _ _ _ Hp H3) as [-> Hk]. assert (HM : valid E mid) by (eapply big_succ_valid; eauto).
    change (option_map (fun y => (fst y, cut (snd y))) (push v o)) with (cut_chain (push v o)). rewrite cut_push. eapply BC_next; eauto.
  - eapply BI_end; eauto.
  - pose proof (H _ _ _ H2 H3) as Hb. destruct (Q2 _ _ _ _ _ _ Hb H1 _ _ _ H2 H3) as [-> Hk]. assert (HM : valid E mid) by (eapply big_succ_valid; eauto).
    eapply BI_next; eauto.
  - eapply BT_end; eauto.
  - pose proof (H _ _ _ H3 H4) as Hb. destruct (Q2 _ _ _ _ _ _ Hb H1 _ _ _ H3 H4) as [-> Hk]. assert (HM : valid E mid) by (eapply big_succ_valid; eauto).
    eapply BT_back; eauto.
  - pose proof (H _ _ _ H4 H5) as Hb. destruct (Q2 _ _ _ _ _ _ Hb H2 _ _ _ H4 H5) as [-> Hk]. assert (HM : valid E mid) by (eapply big_succ_valid; eauto).
    pose proof (H0 HM _ _ _ H3 Hk) as Hb'. destruct (Q2 _ _ _ _ _ _ Hb' HM _ _ _ H3 Hk) as [-> Hk']. assert (HM' : valid E mid') by (eapply big_succ_valid; eauto).
    eapply BT_next; eauto.
Qed.

(** ** Parsers whose successes are final *)
Variable n : nat.
Variable tab : nat -> option (@ctx T).
Notation harmless := (harmless E teq sep n).
Notation final := (final E teq sep n tab).
Notation final_alts := (final_alts E teq sep n tab).
Notation final_parts := (final_parts E teq sep n tab).

Lemma harmless_cut e k m i r tr : harmless e k = true -> holds E k (cut i) -> valid E i -> big E m e i r tr ->
  big E m e (cut i) (cut_result r) tr.
Proof.
  intros Hh Hk Hv Hb. destruct k as [K|]; [|discriminate]. cbn [Final.harmless] in Hh. destruct (quick e) eqn:Hq.
  - apply (proj1 quick_cut); auto. eapply holds_len; eauto.
  - destruct (quiet n K e) as [b|] eqn:He; [|discriminate]. eapply (proj1 quiet_cut); eauto.
Qed.

Lemma suffix_shorter i j : suffix i j -> sp_len j <= sp_len i.
Proof. intros (c & _ & ->). cbn. lia. Qed.

Theorem final_cut : (forall c, final_custom E teq sep n tab c = true) ->
  (forall m p i r tr, big E m p i r tr -> valid E i -> forall k v, final p k = true -> r_ok r = Some v -> x <= sp_len (r_rem r) ->
    holds E k (cut (r_rem r)) -> big E m p (cut i) (cut_result r) tr) /\
  (forall l i o tr, bfirst E l i o tr -> valid E i -> forall k j v rem, final_alts k (map snd l) = true -> o = Some (j, v, rem) ->
    x <= sp_len rem -> holds E k (cut rem) -> bfirst E l (cut i) (cut_first o) tr) /\
  (forall l i o tr, bchain E l i o tr -> valid E i -> forall k vs rem, final_parts k (map snd l) = true -> o = Some (vs, rem) ->
    x <= sp_len rem -> holds E k (cut rem) -> bchain E l (cut i) (cut_chain o) tr) /\
  (forall m q i vs rem tr, biter E m q i vs rem tr -> valid E i -> forall k, final q (either (firsts n q None) k) = true ->
    harmless q k = true -> x <= sp_len rem -> holds E k (cut rem) -> biter E m q (cut i) vs (cut rem) tr) /\
  (forall m q d i prs rem tr, btail E m q d i prs rem tr -> valid E i -> forall K : list (bool * list T) * list (bool * list T), quiet n K d = Some true ->
    final q (either (firsts n d None) (Some K)) = true -> final d (firsts n q None) = true -> x <= sp_len rem ->
    holds E (Some K) (cut rem) -> btail E m q d (cut i) prs (cut rem) tr).
Proof.
  intros Htab. destruct (firsts_ok E) as (F1 & F2 & F3 & F4 & F5). destruct (big_suffix E) as (S1 & S2 & S3 & S4 & S5).
  destruct quiet_cut as [QC _]. destruct (quiet_ok E teq sep teq_ok sep_ok 0 (fun _ => None)) as [Q1 _].
  apply big_mut; intros;
    try (rewrite final_choice in * ); try (rewrite final_sequence in * ); unfold cut_result in *;
    cbn [r_ok r_rem ok1 cut_first cut_chain option_map fst snd] in *; try discriminate;
    repeat match goal with Hv : valid E ?i, IH : valid E ?i -> _ |- _ => specialize (IH Hv) end.
  - rewrite cut_adv. apply (B_any_ok E m arr (cut i)). apply cut_head; auto. destruct h. cbn in *. lia.
  - rewrite cut_adv. apply (B_none_ok E m arr (cut i)). apply cut_head; auto. destruct h. cbn in *. lia.
  - rewrite cut_adv. apply (B_all_ok E m arr (cut i)). apply cut_prefix; auto. destruct p. cbn in *. lia.
  - rewrite cut_adv. apply (B_anything_ok E m (cut i)). cbn in *. lia.
  - apply B_eps.
  - eapply B_choice_ok; eauto. specialize (H k). rewrite (alts_snd E) in H by assumption. eapply H; eauto.
  - eapply B_choice_look_ok; eauto. specialize (H k). rewrite look_snd in H. eapply H; eauto.
  - eapply B_seq_ok; eauto. specialize (H k0). rewrite (parts_snd' E) in H by assumption. eapply H; eauto.
  - eapply B_seq_look_ok; eauto. specialize (H k). rewrite look_snd in H. eapply H; eauto.
  (* maybe *)
  - apply andb_true_iff in H1 as [H1 _]. eapply B_maybe_some; eauto.
  - apply andb_true_iff in H1 as [_ H1]. eapply B_maybe_none; eauto. exact (harmless_cut _ _ _ _ _ _ H1 H4 H0 b).
  - apply andb_true_iff in H1 as [H1 _]. eapply B_maybe_look_some; eauto.
  - apply andb_true_iff in H1 as [_ H1]. eapply B_maybe_look_none; eauto. exact (harmless_cut _ _ _ _ _ _ H1 H4 H0 b).
  (* exactly *)
  - apply final_repeat in H1. specialize (H k). rewrite repeat_snd in H. eapply B_exactly_ok; eauto.
  - apply final_repeat in H1. specialize (H k). rewrite repeat_snd in H. eapply B_exactly_look_ok; eauto.
  (* repetitions *)
  - apply andb_true_iff in H1 as [H1 H1']. eapply B_oom_ok; eauto.
  - apply andb_true_iff in H1 as [H1 H1']. eapply B_oom_look_ok; eauto.
  - apply andb_true_iff in H1 as [H1 H1']. eapply B_zom; eauto.
  - apply andb_true_iff in H1 as [H1 H1']. eapply B_zom_look; eauto.
  (* delimit *)
  - cbn [Final.final] in H2. destruct k as [K|]; [|discriminate]. apply andb_true_iff in H2 as [H2 Hd]. apply andb_true_iff in H2 as [H2 Hp].
    destruct (quiet n K d) as [[]|] eqn:Hq; try discriminate. assert (HM : valid E mid) by (eapply big_succ_valid; eauto).
    specialize (H0 HM K Hq Hp Hd H4 H5). eapply B_delim_ok; eauto. eapply H; eauto.
    + apply S5, suffix_shorter in b0. lia.
    + exact (F5 _ _ _ _ _ _ _ H0 (cut_valid _ HM) n _ H5).
  - cbn [Final.final] in H2. destruct k as [K|]; [|discriminate]. apply andb_true_iff in H2 as [H2 Hd]. apply andb_true_iff in H2 as [H2 Hp].
    destruct (quiet n K d) as [[]|] eqn:Hq; try discriminate. assert (HM : valid E mid) by (eapply big_succ_valid; eauto).
    specialize (H0 HM K Hq Hp Hd H4 H5). eapply B_delim_look_ok; eauto. eapply H; eauto.
    + apply S5, suffix_shorter in b0. lia.
    + exact (F5 _ _ _ _ _ _ _ H0 (cut_valid _ HM) n _ H5).
  (* ignore, join, map, filter, named *)
  - eapply B_ignore; eauto.
  - eapply B_join_ok; [eauto|eauto|eauto|]. now rewrite join_executor_cut.
  - eapply B_join_look; eauto.
  - eapply B_map_ok; eauto.
  - eapply B_map_look; eauto.
  - eapply B_filter_ok; eauto.
  - eapply B_filter_look; eauto.
  - eapply B_named; eauto.
  (* custom *)
  - specialize (Htab c). unfold final_custom in Htab. cbn [Final.final] in H1. destruct (tab c) as [kc|]; [|discriminate].
    apply andb_true_iff in Htab as [Ht _]. eapply B_custom_same; eauto. eapply H; eauto. eapply holds_within; eauto.
  - specialize (Htab c). unfold final_custom in Htab. cbn [Final.final] in H1. destruct (tab c) as [kc|]; [|discriminate].
    apply andb_true_iff in Htab as [Ht _]. eapply B_custom_elem; eauto. eapply H; eauto. eapply holds_within; eauto.
  - specialize (Htab c). unfold final_custom in Htab. cbn [Final.final] in H1. destruct (tab c) as [kc|]; [|discriminate].
    apply andb_true_iff in Htab as [Ht _]. eapply B_custom_whole; eauto. eapply H; eauto. eapply holds_within; eauto.
  - specialize (Htab c). unfold final_custom in Htab. cbn [Final.final] in H1. destruct (tab c) as [kc|]; [|discriminate].
    apply andb_true_iff in Htab as [_ Ht]. unfold whole in Ht. rewrite e in Ht. cbn [negb orb] in Ht.
    eapply B_custom_whole_no; eauto. refine (harmless_cut _ _ _ _ _ _ Ht _ H0 b). eapply holds_within; eauto.
  - specialize (Htab c). unfold final_custom in Htab. cbn [Final.final] in H1. destruct (tab c) as [kc|]; [|discriminate].
    apply andb_true_iff in Htab as [Ht _]. eapply B_custom_look; eauto. eapply H; eauto. eapply holds_within; eauto.
  (* lists *)
  - injection H2 as <- <- <-. cbn [map snd Final.final_alts] in H1. apply andb_true_iff in H1 as [H1 _]. apply andb_true_iff in H1 as [H1 _].
    eapply BF_here; eauto.
  - destruct o as [[[j0 w0] rem1]|]; [|discriminate]. injection H3 as <- <- <-. cbn [map snd Final.final_alts] in H2.
    apply andb_true_iff in H2 as [H2 H2c]. apply andb_true_iff in H2 as [_ H2b].
    specialize (H0 _ _ _ _ H2c eq_refl H4 H5). apply (BF_next E m p l (cut i) (Some (j0, w0, cut rem1))); auto.
    destruct (F2 _ _ _ _ H0 (cut_valid _ H1) _ _ _ eq_refl n k H5) as (r & Hi & Hr). rewrite forallb_forall in H2b.
    exact (harmless_cut _ _ _ _ _ _ (H2b _ Hi) Hr H1 b).
  - constructor.
  - destruct o as [[vs0 rem1]|]; [|discriminate]. injection H3 as <- <-. cbn [map snd Final.final_parts] in H2. apply andb_true_iff in H2 as [H2 H2b].
    assert (HM : valid E mid) by (eapply big_succ_valid; eauto). specialize (H0 HM _ _ _ H2b eq_refl H4 H5).
    apply (BC_next E m p l (cut i) v (cut mid) (Some (vs0, cut rem1))); auto. eapply H; eauto.
    + apply S3 with (vs := vs0) (rem := rem1) in b0; auto. apply suffix_shorter in b0. lia.
    + exact (F3 _ _ _ _ H0 (cut_valid _ HM) _ _ eq_refl n _ H5).
  - eapply BI_end; eauto. exact (harmless_cut _ _ _ _ _ _ H2 H4 H0 b).
  - assert (HM : valid E mid) by (eapply big_succ_valid; eauto). specialize (H0 HM _ H2 H3 H4 H5).
    eapply BI_next; eauto. eapply H; eauto.
    + apply S4, suffix_shorter in b0. lia.
    + exact (proj1 (F4 _ _ _ _ _ _ H0 (cut_valid _ HM) n _) H5).
  - eapply BT_end; eauto. exact (QC _ _ _ _ _ b H0 _ _ _ H1 H5).
  - pose proof (QC _ _ _ _ _ b H1 _ _ _ H2 H6) as Hb. destruct (proj2 (Q1 _ _ _ _ _ Hb (cut_valid _ H1) _ _ _ H2 H6) _ eq_refl). discriminate.
  - assert (HM : valid E mid) by (eapply big_succ_valid; eauto). assert (HM' : valid E mid') by (eapply big_succ_valid; eauto).
    specialize (H1 HM' _ H3 H4 H5 H6 H7). assert (HL : x <= sp_len mid') by (apply S5, suffix_shorter in b1; lia).
    assert (HK : holds E (either (firsts n d None) (Some K)) (cut mid')) by exact (F5 _ _ _ _ _ _ _ H1 (cut_valid _ HM') n _ H7).
    specialize (H0 HM _ _ H4 eq_refl HL HK). eapply BT_next; eauto. eapply (H _ _ H5 eq_refl).
    + apply S1 in b0 as [b0 _]. apply suffix_shorter in b0. cbn in b0. lia.
    + exact (F1 _ _ _ _ _ H0 (cut_valid _ HM) _ eq_refl n None Logic.I).
Qed.
End Shorter.
