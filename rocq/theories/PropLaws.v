(** * Property C71: laws for rewriting grammars *)
From Coq Require Import String List Arith ZArith Bool Lia.
From Verif Require Import Types Compound Parser Outcome CompoundFacts ChoiceIndex Exec Mono Derive Typing Join Leaves Sound
  BigStep BigSound BigComplete Peg Elems Runs Samples PropCore PropBasic PropChoice Verdict PropExchange.
Import ListNotations.

Section Laws.
Context {T V : Type} (E : env T V).
Notation L := (says E Look).
Notation "p ≈ p'" := (looks_alike E p p') (at level 70).

(** [P::result_for<V>] names a type. *)
Definition has_type (p : parser T) : Prop := exists t, result_for E p = Some t.

Lemma has_types l : Forall has_type l -> exists tys, result_fors E l = Some tys.
Proof.
  induction 1 as [|p l [t Ht] _ [tys IH]]; [now exists []|]. exists (t :: tys). apply result_fors_spec. cbn.
  apply result_fors_spec in IH. now rewrite Ht, IH.
Qed.

(** ** The combinators in lookahead, in these words *)

Lemma big_says q i r tr : valid E i -> big E Look q i r tr -> L q i (verdict r).
Proof. intros Hv H. exists r, tr. split; [now apply evals_big|reflexivity]. Qed.

Definition firsts (l : list (parser T)) := tries E (map (pair Look) l).
Definition chain (l : list (parser T)) := chains E (map (pair Look) l).

Lemma first_big l i : valid E i -> forall o, firsts l i o <->
  exists x, bfirst E (map (pair Look) l) i x [] /\ o = match x with Some (_, _, rem) => Some rem | None => None end.
Proof.
  intros Hv. unfold firsts. induction l as [|p l IH]; intros o; cbn [map].
  - split.
    + inversion 1; subst. exists None. split; [constructor|reflexivity].
    + intros (x & H & ->). inversion H; subst. constructor.
  - split.
    + inversion 1 as [|m p' l' i' rem Hs|m p' l' i' o' Hs Ht]; subst.
      * apply says_look in Hs; auto. exists (Some (0, RVoid, rem)). split; [now apply BF_here|reflexivity].
      * apply says_look in Hs; auto. apply IH in Ht as (x & Hx & ->). exists (bump x).
        split; [exact (BF_next E Look p _ i x [] [] Hs Hx)|]. now destruct x as [[[? ?] ?]|].
    + intros (x & H & ->). inversion H as [|m p' l' i' v rem tr Hb|m p' l' i' o' tr tr' Hb Hr]; subst.
      * destruct (proj1 (big_look_plain E) _ _ _ _ _ Hb eq_refl) as [_ Hr]. specialize (Hr v eq_refl). subst v.
        apply tries_here. apply says_look; auto.
      * destruct tr; [|discriminate]. cbn in *. subst tr'. apply tries_next; [now apply says_look|]. apply IH. exists o'. split; [exact Hr|].
        now destruct o' as [[[? ?] ?]|].
Qed.

Lemma L_choice q qs i o : valid E i -> Forall has_type (q :: qs) -> (L (PChoice q qs) i o <-> firsts (q :: qs) i o).
Proof.
  intros Hv Ht. apply has_types in Ht as [tys Ht]. rewrite says_look, first_big by auto. split.
  - destruct o as [rem|]; intros H; inversion H; subst; eexists; (split; [eassumption|reflexivity]).
  - intros ([[[j v] rem]|] & H & ->); cbn; [eapply B_choice_look_ok | eapply B_choice_look_no]; eauto.
Qed.

Lemma chain_big l : forall i o, valid E i -> (chain l i o <->
  exists x, bchain E (map (pair Look) l) i x [] /\ o = match x with Some (_, rem) => Some rem | None => None end).
Proof.
  unfold chain. induction l as [|p l IH]; intros i o Hv; cbn [map].
  - split.
    + inversion 1; subst. eexists. split; [constructor|reflexivity].
    + intros (x & H & ->). inversion H; subst. constructor.
  - split.
    + inversion 1 as [|m p' l' i' Hs|m p' l' i' mid o' Hs Ht]; subst.
      * apply says_look in Hs; auto. exists None. split; [now apply BC_fail|reflexivity].
      * pose proof (says_valid _ _ _ _ _ Hv Hs) as Hm. apply says_look in Hs; auto. apply IH in Ht as (x & Hx & ->); auto. exists (push RVoid x).
        split; [exact (BC_next E Look p _ i RVoid mid x [] [] Hs (look_shaped E p _) Hx)|]. now destruct x as [[? ?]|].
    + intros (x & H & ->). inversion H as [|m p' l' i' tr Hb|m p' l' i' v mid o' tr tr' Hb Hsh Hr]; subst.
      * apply chains_stop. now apply says_look.
      * destruct tr; [|discriminate]. cbn in *. subst tr'.
        destruct (proj1 (big_look_plain E) _ _ _ _ _ Hb eq_refl) as [_ Hv']. specialize (Hv' v eq_refl). subst v.
        apply chains_next with (mid := mid); [now apply says_look|]. apply IH; [eapply big_succ_valid; eauto|]. exists o'. split; [exact Hr|].
        now destruct o' as [[? ?]|].
Qed.

Lemma L_seq q qs i o : valid E i -> Forall has_type (q :: qs) -> (L (PSequence q qs) i o <-> chain (q :: qs) i o).
Proof.
  intros Hv Ht. apply has_types in Ht as [tys Ht]. rewrite says_look, chain_big by auto. split.
  - destruct o as [rem|]; intros H; inversion H; subst; eexists; (split; [eassumption|reflexivity]).
  - intros ([[vs rem]|] & H & ->); cbn; [eapply B_seq_look_ok | eapply B_seq_look_no]; eauto.
Qed.

Lemma iter_big q i rem : valid E i -> (loops E Look q i rem <-> exists vs, biter E Look q i vs rem []).
Proof.
  intros Hv. split.
  - intros H. induction H as [i Hs|i mid rem Hs _ IH].
    + exists []. constructor. now apply says_look in Hs.
    + destruct IH as [vs IH]; [eauto using says_valid|]. apply says_look in Hs; auto. exists (RVoid :: vs).
      exact (BI_next E Look q i RVoid mid vs rem [] [] Hs (look_shaped E q _) IH).
  - intros [vs H]. revert Hv. remember Look as m eqn:Hm. remember (@nil event) as tr eqn:Htr.
    induction H as [m q i tr H|m q i v mid vs rem tr tr' H Hs _ IH]; intros Hv; subst.
    + constructor. now apply says_look.
    + destruct tr; [|discriminate]. destruct tr'; [|discriminate]. apply loops_next with (mid := mid).
      * now apply (big_says _ _ _ _ Hv H).
      * apply IH; auto. eapply big_succ_valid; eauto.
Qed.

Lemma L_star q i o : valid E i -> (L (PZeroOrMore q) i o <-> exists rem, o = Some rem /\ loops E Look q i rem).
Proof.
  intros Hv. rewrite says_look by auto. split.
  - destruct o as [rem|]; intros H; inversion H; subst. exists rem. split; [reflexivity|]. apply iter_big; eauto.
  - intros (rem & -> & H). apply iter_big in H as [vs H]; auto. cbn. now apply B_zom_look with (vs := vs).
Qed.

Lemma L_plus q i o : valid E i -> (L (POneOrMore q) i o <->
  (L q i None /\ o = None) \/ (exists mid rem, L q i (Some mid) /\ loops E Look q mid rem /\ o = Some rem)).
Proof.
  intros Hv. rewrite says_look by auto. split.
  - destruct o as [rem|]; intros H; inversion H as []; subst.
    + right. match goal with H : biter _ _ _ _ _ _ _ |- _ => inversion H; subst end.
      destruct tr; [|discriminate]. destruct tr'; [|discriminate].
      match goal with B : big _ _ _ i (Res (Some ?v) ?mid) _ |- _ => exists mid, rem; split; [exact (big_says _ _ _ _ Hv B)|] end. split; [|reflexivity]. apply iter_big; eauto. eapply big_succ_valid; eauto.
    + left. split; [|reflexivity]. now apply says_look.
  - intros [[H ->]|(mid & rem & H & Hl & ->)].
    + apply says_look in H; auto. cbn. now apply B_oom_look_no.
    + pose proof (says_valid _ _ _ _ _ Hv H) as Hm. apply says_look in H; auto. apply iter_big in Hl as [vs Hl]; auto. cbn.
      eapply B_oom_look_ok. exact (BI_next E Look q i RVoid mid vs rem [] [] H (look_shaped E q _) Hl).
Qed.

Lemma L_maybe q i o : valid E i -> (L (PMaybe q) i o <-> exists o', L q i o' /\ o = Some (match o' with Some rem => rem | None => i end)).
Proof.
  intros Hv. rewrite says_look by auto. split.
  - destruct o as [rem|]; intros H; inversion H; subst.
    + exists (Some rem). split; [|reflexivity]. match goal with B : big _ _ q _ _ _ |- _ => exact (big_says _ _ _ _ Hv B) end.
    + exists None. split; [now apply says_look|reflexivity].
  - intros (o' & H & ->). apply says_look in H; auto. destruct o' as [rem|]; cbn in *; [eapply B_maybe_look_some | eapply B_maybe_look_none]; eauto.
Qed.

Lemma L_exactly q n i o : valid E i -> n <> 0 -> (L (PExactly q n) i o <-> chain (repeat q n) i o).
Proof.
  intros Hv Hn. assert (Hr : map (pair Look) (repeat q n) = repeat (Look, q) n) by (clear; induction n; cbn; congruence).
  rewrite says_look, chain_big, Hr by auto. split.
  - destruct o as [rem|]; intros H; inversion H; subst; eexists; (split; [eassumption|reflexivity]).
  - intros ([[vs rem]|] & H & ->); cbn; [eapply B_exactly_look_ok | eapply B_exactly_look_no]; eauto.
Qed.

Lemma L_complete q i o : valid E i -> (L (PComplete q) i o <->
  exists o', L q i o' /\ o = match o' with Some rem => if sp_len rem =? 0 then Some rem else None | None => None end).
Proof.
  intros Hv. rewrite says_look by auto. split.
  - destruct o as [rem|]; intros H; inversion H; subst.
    + exists (Some rem). split; [now apply says_look|]. match goal with H : sp_len rem = 0 |- _ => now rewrite H end.
    + match goal with B : big _ _ _ _ (Res (Some ?v) ?mid) _ |- _ => exists (Some mid); split; [exact (big_says _ _ _ _ Hv B)|] end.
      match goal with H : sp_len ?r <> 0 |- _ => now rewrite (proj2 (Nat.eqb_neq _ _) H) end.
    + exists None. split; [now apply says_look|reflexivity].
  - intros (o' & H & ->). apply says_look in H; auto. destruct o' as [rem|]; cbn in *; [|eapply B_complete_no; eauto].
    destruct (Nat.eqb_spec (sp_len rem) 0); cbn; [eapply B_complete_ok | eapply B_complete_rest]; eauto.
Qed.

Lemma L_eps i o : valid E i -> (L PEpsilon i o <-> o = Some i).
Proof.
  intros Hv. rewrite says_look by auto. split.
  - destruct o as [rem|]; intros H; inversion H; subst. reflexivity.
  - intros ->. constructor.
Qed.

Lemma firsts_cons p l i o : firsts (p :: l) i o <-> (exists rem, L p i (Some rem) /\ o = Some rem) \/ (L p i None /\ firsts l i o).
Proof.
  unfold firsts. cbn. split.
  - inversion 1; subst; eauto.
  - intros [(rem & H & ->)|[H H']]; [now apply tries_here | now apply tries_next].
Qed.
Lemma firsts_nil i o : firsts [] i o <-> o = None.
Proof. unfold firsts. split; [now inversion 1|]. intros ->. constructor. Qed.
Lemma chain_cons p l i o : chain (p :: l) i o <-> (L p i None /\ o = None) \/ (exists mid, L p i (Some mid) /\ chain l mid o).
Proof.
  unfold chain. cbn. split.
  - inversion 1; subst; eauto.
  - intros [[H ->]|(mid & H & H')]; [now apply chains_stop | eapply chains_next; eauto].
Qed.
Lemma chain_nil i o : chain [] i o <-> o = Some i.
Proof. unfold chain. split; [now inversion 1|]. intros ->. constructor. Qed.

(** result types of compounds *)
Lemma ht_choice q qs : Forall has_type (q :: qs) -> has_type (PChoice q qs).
Proof. intros H. apply has_types in H as [tys H]. unfold has_type. rewrite result_for_choice, H. eauto. Qed.
Lemma ht_seq q qs : Forall has_type (q :: qs) -> has_type (PSequence q qs).
Proof. intros H. apply has_types in H as [tys H]. unfold has_type. rewrite result_for_seq, H. eauto. Qed.
Lemma ht_star q : has_type q -> has_type (PZeroOrMore q).
Proof. intros [t H]. unfold has_type. cbn. rewrite H. eauto. Qed.
Lemma ht_exactly q n : has_type q -> has_type (PExactly q n).
Proof. intros [t H]. unfold has_type. cbn. rewrite H. eauto. Qed.
Lemma ht_complete q : has_type q -> has_type (PComplete q).
Proof. intros H. exact H. Qed.
Lemma ht_eps : has_type PEpsilon.
Proof. now exists TVoid. Qed.

Ltac ht := repeat (constructor; auto using ht_choice, ht_seq, ht_star, ht_exactly, ht_complete, ht_eps).
Lemma ht2 a b : has_type a -> has_type b -> Forall has_type [a; b].
Proof. auto. Qed.

Lemma L_seq2 a b i o : valid E i -> has_type a -> has_type b ->
  (L (PSequence a [b]) i o <-> (L a i None /\ o = None) \/ exists mid, L a i (Some mid) /\ L b mid o).
Proof.
  intros Hv Ha Hb. rewrite L_seq by auto. rewrite chain_cons. split; intros [H|(mid & H & H')]; auto; right; exists mid; split; auto.
  - apply chain_cons in H' as [[H1 ->]|(r & H1 & H2)]; auto. apply chain_nil in H2. now subst.
  - apply chain_cons. destruct o as [rem|]; [right|left; auto]. exists rem. split; auto. now apply chain_nil.
Qed.

Lemma L_choice2 a b i o : valid E i -> has_type a -> has_type b ->
  (L (PChoice a [b]) i o <-> (exists rem, L a i (Some rem) /\ o = Some rem) \/ (L a i None /\ L b i o)).
Proof.
  intros Hv Ha Hb. rewrite L_choice by auto. rewrite firsts_cons. split; intros [H|[H H']]; auto; right; split; auto.
  - apply firsts_cons in H' as [(rem & H1 & ->)|[H1 H2]]; auto. apply firsts_nil in H2. now subst.
  - apply firsts_cons. destruct o as [rem|]; [left; eauto|right]. split; auto. now apply firsts_nil.
Qed.

(** *** Choice *)

(** A common beginning can be factored out. *)
Theorem C71_left_factor a b c : has_type a -> has_type b -> has_type c ->
  PChoice (PSequence a [b]) [PSequence a [c]] ≈ PSequence a [PChoice b [c]].
Proof.
  intros Ha Hb Hc i o Hv. rewrite L_choice2, (L_seq2 a (PChoice b [c])) by auto using ht_seq, ht_choice, ht2.
  split.
  - intros [(rem & H & ->)|[H H']].
    + apply L_seq2 in H as [[_ H]|(mid & H1 & H2)]; auto; [discriminate|]. right. exists mid. split; auto.
      apply L_choice2; eauto using says_valid.
    + apply L_seq2 in H as [[H1 _]|(mid & H1 & H2)]; auto; apply L_seq2 in H' as [[H3 ->]|(mid' & H3 & H4)]; auto.
      * pose proof (says_det _ _ _ _ _ _ H1 H3). discriminate.
      * pose proof (says_det _ _ _ _ _ _ H1 H3) as [= <-]. right. exists mid. split; auto. apply L_choice2; eauto using says_valid.
  - intros [[H ->]|(mid & H & H')].
    + right. split; apply L_seq2; auto.
    + pose proof (says_valid _ _ _ _ _ Hv H) as Hm. apply L_choice2 in H' as [(rem & H1 & ->)|[H1 H2]]; auto.
      * left. exists rem. split; auto. apply L_seq2; eauto.
      * right. split; apply L_seq2; eauto.
Qed.

(** A common end cannot in general, but what is recognised before is recognised after. *)
Theorem C71_right_factor_one_way a b c i rem : has_type a -> has_type b -> has_type c -> valid E i ->
  L (PSequence (PChoice a [b]) [c]) i (Some rem) -> L (PChoice (PSequence a [c]) [PSequence b [c]]) i (Some rem).
Proof.
  intros Ha Hb Hc Hv H. apply L_seq2 in H as [[_ H]|(mid & H & H')]; auto using ht_choice, ht2; [discriminate|].
  apply L_choice2; auto using ht_seq, ht2. apply L_choice2 in H as [(r & H1 & [= ->])|[H1 H2]]; auto.
  - left. exists rem. split; auto. apply L_seq2; eauto.
  - right. split; apply L_seq2; eauto.
Qed.

(** An alternative that refuses wherever an earlier one refuses is never used. *)
Theorem C71_dead_alternative l1 p l2 : Forall has_type (l1 ++ p :: l2) -> l1 <> [] ->
  (forall i, valid E i -> (forall q, In q l1 -> L q i None) -> L p i None) ->
  parts_of PChoice (l1 ++ p :: l2) ≈ parts_of PChoice (l1 ++ l2).
Proof.
  intros Ht Hl Hd i o Hv. assert (Ht' : Forall has_type (l1 ++ l2)).
  { apply Forall_app in Ht as [H1 H2]. inversion H2; subst. now apply Forall_app. }
  destruct l1 as [|a l1]; [contradiction|]. cbn [app parts_of] in *. rewrite !L_choice by auto.
  change (a :: l1 ++ p :: l2) with ((a :: l1) ++ p :: l2). change (a :: l1 ++ l2) with ((a :: l1) ++ l2).
  specialize (Hd i Hv). revert Hd. generalize (a :: l1). clear. intros l. induction l as [|q l IH]; intros Hd; cbn [app].
  - rewrite firsts_cons. specialize (Hd ltac:(intros ? [])). split; [|auto].
    intros [(rem & H & ->)|[_ H]]; auto. pose proof (says_det _ _ _ _ _ _ Hd H). discriminate.
  - rewrite !firsts_cons. split; (intros [H|[H H']]; [now left|right; split; auto]); apply IH; auto;
      intros Hq; apply Hd; intros q' [<-|Hin]; auto.
Qed.

(** In particular a repeated one, *)
Corollary C71_repeated_alternative a b : has_type a -> has_type b -> PChoice a [b; a] ≈ PChoice a [b].
Proof.
  intros Ha Hb. apply (C71_dead_alternative [a; b] a []); [cbn; auto|discriminate|]. intros i _ H. apply H. now left.
Qed.

(** one after an alternative that never refuses, *)
Corollary C71_after_certain a b : has_type a -> has_type b -> (forall i, valid E i -> ~ L a i None) ->
  PChoice a [b] ≈ a.
Proof.
  intros Ha Hb Hn i o Hv. rewrite L_choice2 by auto. split.
  - intros [(rem & H & ->)|[H _]]; auto. now apply Hn in H.
  - intros H. destruct o as [rem|]; [left; eauto|]. now apply Hn in H.
Qed.

(** and a literal after a shorter one that it begins with. *)
Lemma matches_app blk xs ys lo :
  matches_at E blk (xs ++ ys) lo <-> matches_at E blk xs lo /\ matches_at E blk ys (lo + List.length xs).
Proof.
  revert lo. induction xs as [|x xs IH]; intros lo; cbn [app matches_at List.length].
  - rewrite Nat.add_0_r. tauto.
  - rewrite IH. replace (S lo + List.length xs) with (lo + S (List.length xs)) by lia. tauto.
Qed.
Lemma prefix_app i xs ys : prefix_is E i (xs ++ ys) <-> prefix_is E i xs /\ prefix_is E (adv i (List.length xs)) ys.
Proof.
  unfold prefix_is. cbn [adv sp_blk sp_off sp_len]. rewrite matches_app, app_length. split.
  - intros (H1 & H2 & H3). repeat split; auto; lia.
  - intros ((H1 & H2) & H3 & H4). repeat split; auto; lia.
Qed.
Lemma L_all xs i o : valid E i ->
  (L (PAllOf xs) i o <-> (prefix_is E i xs /\ o = Some (adv i (List.length xs))) \/ (~ prefix_is E i xs /\ o = None)).
Proof.
  intros Hv. rewrite says_look by auto. split.
  - destruct o as [rem|]; intros H; inversion H; subst; auto.
  - intros [[H ->]|[H ->]]; cbn; [exact (B_all_ok E Look xs i H) | now constructor].
Qed.
Lemma ht_all xs : has_type (PAllOf xs).
Proof. now exists TSpan. Qed.
Lemma prefix_dec i xs : valid E i -> prefix_is E i xs \/ ~ prefix_is E i xs.
Proof.
  intros Hv. destruct (C08_all_of E Look xs i Hv) as [[H _]|[H _]]; [left|right; intros H'; apply H]; now apply matches_at_starts.
Qed.

Corollary C71_shadowed_literal xs ys : PChoice (PAllOf xs) [PAllOf (xs ++ ys)] ≈ PAllOf xs.
Proof.
  intros i o Hv. rewrite L_choice2 by auto using ht_all. rewrite !L_all by auto. split.
  - intros [(rem & H & ->)|[H H']].
    + now apply L_all in H.
    + destruct H as [[_ H]|[H _]]; [discriminate|]. right. split; auto. destruct H' as [[H' _]|[_ H']]; auto.
      now apply prefix_app in H' as [H' _].
  - intros [[H ->]|[H ->]].
    + left. eexists. split; [apply L_all; auto|reflexivity].
    + right. split; auto. right. split; auto. intros H'. now apply prefix_app in H' as [H' _].
Qed.

(** A literal is its beginning and then its rest. *)
Theorem C71_literal_split xs ys : PAllOf (xs ++ ys) ≈ PSequence (PAllOf xs) [PAllOf ys].
Proof.
  intros i o Hv. rewrite L_seq2 by auto using ht_all. rewrite !L_all by auto. rewrite prefix_app, app_length. split.
  - intros [[[H H'] ->]|[H ->]].
    + right. exists (adv i (List.length xs)). split; [apply L_all; auto|]. apply L_all; [apply adv_valid; [auto|apply H]|]. left. split; auto. f_equal.
      unfold adv. cbn. f_equal; lia.
    + destruct (prefix_dec i xs Hv) as [Hx|Hx]; [right|left; auto]. exists (adv i (List.length xs)). split; [apply L_all; auto|].
      apply L_all; [apply adv_valid; [auto|apply Hx]|]. right. split; auto.
  - intros [[[[_ H]|[H _]] ->]|(mid & H & H')]; try discriminate.
    + right. split; auto. tauto.
    + apply L_all in H as [[H [= ->]]|[_ H]]; auto; [|discriminate]. apply L_all in H' as [[H' ->]|[H' ->]]; [| |apply adv_valid; [auto|apply H]].
      * left. split; auto. f_equal. unfold adv. cbn. f_equal; lia.
      * right. tauto.
Qed.

(** A set of elements is the choice of its parts. *)
Lemma L_any xs i o : valid E i ->
  (L (PAnyOf xs) i o <-> (head_is E i (in_set E xs) /\ o = Some (adv i 1)) \/ (~ head_is E i (in_set E xs) /\ o = None)).
Proof.
  intros Hv. rewrite says_look by auto. split.
  - destruct o as [rem|]; intros H; inversion H; subst; auto.
  - intros [[H ->]|[H ->]]; cbn; [exact (B_any_ok E Look xs i H) | now constructor].
Qed.
Lemma ht_any xs : has_type (PAnyOf xs).
Proof. now exists TSpan. Qed.
Lemma head_app i xs ys : head_is E i (in_set E (xs ++ ys)) <-> head_is E i (in_set E xs) \/ head_is E i (in_set E ys).
Proof.
  unfold head_is, in_set. setoid_rewrite in_app_iff. split.
  - intros (Hl & c & Hc & t & [Hi|Hi] & He); [left|right]; split; eauto.
  - intros [(Hl & c & Hc & t & Hi & He)|(Hl & c & Hc & t & Hi & He)]; split; auto; exists c; split; auto; exists t; auto.
Qed.
Theorem C71_set_split xs ys : PAnyOf (xs ++ ys) ≈ PChoice (PAnyOf xs) [PAnyOf ys].
Proof.
  intros i o Hv. rewrite L_choice2 by auto using ht_any. rewrite !L_any by auto. rewrite head_app.
  assert (Hd : head_is E i (in_set E xs) \/ ~ head_is E i (in_set E xs)).
  { destruct (C07_any_of E Look xs i Hv) as [[_ H]|[_ H]]; apply evals_big, (big_says _ _ _ _ Hv), L_any in H; auto;
      destruct H as [[H _]|[H _]]; auto. }
  split.
  - intros [[H ->]|[H ->]]; [|right; split; [right|right]; tauto].
    destruct Hd as [Hd|Hd]; [left; eexists; split; [apply L_any; auto|reflexivity]|]. right. tauto.
  - intros [(rem & H & ->)|[H H']].
    + apply L_any in H as [[H H']|[_ H]]; auto. discriminate.
    + destruct H as [[_ H]|[H _]]; [discriminate|]. destruct H' as [[H' ->]|[H' ->]]; [left|right]; tauto.
Qed.

(** Neighbouring alternatives of which one always refuses may change places. *)
Theorem C71_swap l1 p q l2 : Forall has_type (l1 ++ p :: q :: l2) ->
  (forall i, valid E i -> exists o o', L p i o /\ L q i o' /\ (o = None \/ o' = None)) ->
  parts_of PChoice (l1 ++ p :: q :: l2) ≈ parts_of PChoice (l1 ++ q :: p :: l2).
Proof.
  intros Ht Hd i o Hv. assert (Ht' : Forall has_type (l1 ++ q :: p :: l2)).
  { apply Forall_app in Ht as [H1 H2]. inversion H2 as [|? ? ? H3]; subst. inversion H3; subst. apply Forall_app. auto. }
  assert (H : firsts (l1 ++ p :: q :: l2) i o <-> firsts (l1 ++ q :: p :: l2) i o).
  { clear Ht Ht'. induction l1 as [|a l1 IH]; cbn [app].
    - destruct (Hd i Hv) as (o1 & o2 & H1 & H2 & Hn). rewrite !firsts_cons. destruct Hn as [-> | ->]; split.
      + intros [(rem & H & ->)|[_ H]]; [pose proof (says_det _ _ _ _ _ _ H1 H); discriminate|].
        destruct H as [(rem & H & ->)|[H H']]; [left; eauto|right; eauto].
      + intros [(rem & H & ->)|[H H']]; [right; split; auto; left; eauto|]. right. split; auto. right. split; auto.
        destruct H' as [(rem & H' & ->)|[_ H']]; auto. pose proof (says_det _ _ _ _ _ _ H1 H'). discriminate.
      + intros [(rem & H & ->)|[H H']]; [right; split; auto; left; eauto|]. right. split; auto. right. split; auto.
        destruct H' as [(rem & H' & ->)|[_ H']]; auto. pose proof (says_det _ _ _ _ _ _ H2 H'). discriminate.
      + intros [(rem & H & ->)|[_ H]]; [pose proof (says_det _ _ _ _ _ _ H2 H); discriminate|].
        destruct H as [(rem & H & ->)|[H H']]; [left; eauto|right; eauto].
    - now rewrite !firsts_cons, IH. }
  destruct l1 as [|a l1]; cbn [app parts_of] in *; now rewrite !L_choice by auto.
Qed.

(** *** Sequence *)

Theorem C71_unit_left p : has_type p -> PSequence PEpsilon [p] ≈ p.
Proof.
  intros Ht i o Hv. rewrite L_seq2 by auto using ht_eps. split.
  - intros [[H _]|(mid & H & H')]; apply L_eps in H; auto; [discriminate|]. injection H as <-. exact H'.
  - intros H. right. exists i. split; auto. now apply L_eps.
Qed.
Theorem C71_unit_right p : has_type p -> PSequence p [PEpsilon] ≈ p.
Proof.
  intros Ht i o Hv. rewrite L_seq2 by auto using ht_eps. split.
  - intros [[H ->]|(mid & H & H')]; auto. apply L_eps in H'; [now subst|]. eauto using says_valid.
  - intros H. destruct o as [rem|]; [right|left; auto]. exists rem. split; auto. apply L_eps; eauto using says_valid.
Qed.

(** *** Repetition *)

Theorem C71_star_unrolled p : has_type p -> PZeroOrMore p ≈ PMaybe (PSequence p [PZeroOrMore p]).
Proof.
  intros Ht i o Hv. rewrite L_star, L_maybe by auto. split.
  - intros (rem & -> & H). inversion H as [j Hs|j mid r Hs Hl]; subst.
    + exists None. split; auto. apply L_seq2; auto using ht_star.
    + exists (Some rem). split; auto. apply L_seq2; auto using ht_star. right. exists mid. split; auto. apply L_star; eauto using says_valid.
  - intros (o' & H & ->). apply L_seq2 in H as [[H ->]|(mid & H & H')]; auto using ht_star.
    + exists i. split; auto. now constructor.
    + apply L_star in H' as (rem & -> & H'); eauto using says_valid. exists rem. split; auto. econstructor; eauto.
Qed.

Theorem C71_plus_unrolled p : has_type p -> POneOrMore p ≈ PSequence p [PZeroOrMore p].
Proof.
  intros Ht i o Hv. rewrite L_plus, L_seq2 by auto using ht_star. split.
  - intros [[H ->]|(mid & rem & H & Hl & ->)]; auto. right. exists mid. split; auto. apply L_star; eauto using says_valid.
  - intros [[H ->]|(mid & H & H')]; auto. right. apply L_star in H' as (rem & -> & H'); eauto using says_valid.
Qed.

Theorem C71_maybe_choice p : has_type p -> PMaybe p ≈ PChoice p [PEpsilon].
Proof.
  intros Ht i o Hv. rewrite L_maybe, L_choice2 by auto using ht_eps. split.
  - intros ([rem|] & H & ->); [left; eauto|]. right. split; auto. now apply L_eps.
  - intros [(rem & H & ->)|[H H']]; [exists (Some rem); auto|]. apply L_eps in H'; auto. subst. exists None. auto.
Qed.

Theorem C71_exactly_one p : PExactly p 1 ≈ p.
Proof.
  intros i o Hv. rewrite L_exactly by auto. cbn [repeat]. rewrite chain_cons. split.
  - intros [[H ->]|(mid & H & H')]; auto. apply chain_nil in H'. now subst.
  - intros H. destruct o as [rem|]; [right|left; auto]. exists rem. split; auto. now apply chain_nil.
Qed.

Theorem C71_exactly_sum p n k : has_type p -> n <> 0 -> k <> 0 -> PExactly p (n + k) ≈ PSequence (PExactly p n) [PExactly p k].
Proof.
  intros Ht Hn Hk i o Hv. rewrite L_exactly, L_seq2 by (auto using ht_exactly; lia).
  assert (Ha : forall n i, valid E i -> (chain (repeat p (n + k)) i o <->
    (chain (repeat p n) i None /\ o = None) \/ exists mid, chain (repeat p n) i (Some mid) /\ L (PExactly p k) mid o)).
  { clear - Hk. intros n. induction n as [|n IH]; intros i Hv; cbn [repeat Nat.add].
    - split.
      + intros H. right. exists i. split; [now apply chain_nil|]. now apply L_exactly.
      + intros [[H _]|(mid & H & H')]; apply chain_nil in H; [discriminate|]. injection H as <-. now apply L_exactly in H'.
    - rewrite !chain_cons. split.
      + intros [[H ->]|(mid & H & H')]; [left; auto|]. apply IH in H' as [[H1 ->]|(mid' & H1 & H2)]; eauto using says_valid.
        * left. split; auto. right. eauto.
        * right. exists mid'. split; auto. apply chain_cons. right. eauto.
      + intros [[[[H _]|(mid & H & H')] ->]|(mid' & H & H')].
        * now left.
        * right. exists mid. split; auto. apply IH; eauto using says_valid.
        * apply chain_cons in H as [[_ H]|(mid & H1 & H2)]; [discriminate|]. right. exists mid. split; auto. apply IH; eauto using says_valid. }
  rewrite Ha by auto. now setoid_rewrite (fun o => L_exactly p n i o Hv Hn).
Qed.

(** A delimited list is the first element, then any number of delimiter and element. *)
Lemma tail_big q d i rem : valid E i -> has_type q -> has_type d ->
  (loops E Look (PSequence d [q]) i rem <-> exists prs, btail E Look q d i prs rem []).
Proof.
  intros Hv Hq Hd. split.
  - intros H. induction H as [i Hs|i mid rem Hs _ IH].
    + apply L_seq2 in Hs as [[H _]|(mid & H & H')]; auto.
      * exists []. apply BT_end. now apply says_look in H.
      * pose proof (says_valid _ _ _ _ _ Hv H) as Hm. apply says_look in H; auto. apply says_look in H'; auto. exists [].
        exact (BT_back E Look q d i RVoid mid [] [] H H').
    + destruct IH as [prs IH]; [eauto using says_valid|]. apply L_seq2 in Hs as [[_ Hs]|(m1 & H & H')]; auto; [discriminate|].
      pose proof (says_valid _ _ _ _ _ Hv H) as Hm. apply says_look in H; auto. apply says_look in H'; auto. exists ((RVoid, RVoid) :: prs).
      exact (BT_next E Look q d i RVoid m1 RVoid mid prs rem [] [] [] H (look_shaped E d _) H' (look_shaped E q _) IH).
  - intros [prs H]. revert Hv Hq Hd. remember Look as m eqn:Hm. remember (@nil event) as tr eqn:Htr.
    induction H as [m q d i tr H|m q d i w mid tr tr' H H'|m q d i w mid v mid' prs rem tr tr' tr'' H Hs H' Hs' _ IH];
      intros Hv Hq Hd; subst; try (destruct tr; [|discriminate]; cbn in Htr); try (destruct tr'; [|discriminate]; cbn in Htr); subst.
    + constructor. apply L_seq2; auto. left. split; auto. now apply says_look.
    + constructor. apply L_seq2; auto. right. exists mid. split; [exact (big_says _ _ _ _ Hv H)|].
      apply says_look; [eapply big_succ_valid; eauto|exact H'].
    + assert (Hm : valid E mid) by (eapply big_succ_valid; eauto). assert (valid E mid') by (eapply big_succ_valid; eauto).
      apply loops_next with (mid := mid'); [|now apply IH]. apply L_seq2; auto. right. exists mid.
      split; [exact (big_says _ _ _ _ Hv H) | exact (big_says _ _ _ _ Hm H')].
Qed.

Theorem C71_delimit_unrolled q d : has_type q -> has_type d -> PDelimit q d ≈ PSequence q [PZeroOrMore (PSequence d [q])].
Proof.
  intros Hq Hd i o Hv. rewrite L_seq2 by auto using ht_star, ht_seq. rewrite says_look by auto. split.
  - destruct o as [rem|]; intros H; inversion H; subst.
    + destruct tr; [|discriminate]. destruct tr'; [|discriminate]. right. exists mid.
      match goal with B : big _ _ q _ _ _ |- _ => split; [exact (big_says _ _ _ _ Hv B)|] end.
      assert (valid E mid) by (eapply big_succ_valid; eauto). apply L_star; auto. exists rem. split; auto. apply tail_big; eauto.
    + left. split; auto. now apply says_look.
  - intros [[H ->]|(mid & H & H')].
    + apply says_look in H; auto. now apply B_delim_look_no.
    + pose proof (says_valid _ _ _ _ _ Hv H) as Hm. apply L_star in H' as (rem & -> & H'); auto. apply tail_big in H' as [prs H']; auto.
      apply says_look in H; auto. exact (B_delim_look_ok E q d i RVoid mid prs rem [] [] H H').
Qed.

(** *** complete *)

Theorem C71_complete_last a b : has_type a -> has_type b -> PComplete (PSequence a [b]) ≈ PSequence a [PComplete b].
Proof.
  intros Ha Hb i o Hv. rewrite L_complete, L_seq2 by auto using ht_complete. split.
  - intros (o' & H & ->). apply L_seq2 in H as [[H ->]|(mid & H & H')]; auto. right. exists mid. split; auto.
    apply L_complete; eauto using says_valid.
  - intros [[H ->]|(mid & H & H')].
    + exists None. split; auto. apply L_seq2; auto.
    + apply L_complete in H' as (o' & H' & ->); eauto using says_valid. exists o'. split; auto. apply L_seq2; eauto.
Qed.

Theorem C71_complete_choice_one_way a b i rem : has_type a -> has_type b -> valid E i ->
  L (PComplete (PChoice a [b])) i (Some rem) -> L (PChoice (PComplete a) [PComplete b]) i (Some rem).
Proof.
  intros Ha Hb Hv H. apply L_complete in H as (o' & H & He); auto. apply L_choice2; auto using ht_complete.
  apply L_choice2 in H as [(r & H & ->)|[H H']]; auto.
  - left. exists rem. split; auto. apply L_complete; eauto.
  - right. split; apply L_complete; eauto.
Qed.

(** *** ignore: what looks alike is alike when ignored, in parsing too *)
Theorem C71_ignored p p' : p ≈ p' <-> alike E (PIgnore p) (PIgnore p').
Proof.
  split.
  - intros H. apply looks_alike_subl in H as [H1 H2]. apply alike_sub. split; (split; [reflexivity|]); intros m i r tr Hv B;
      inversion B; subst; constructor; auto.
  - intros [_ H] i o Hv. specialize (fun r tr => H Look i r tr Hv).
    assert (Hi : forall q r tr, evals E Look (PIgnore q) i (Done r tr) <-> evals E Look q i (Done r tr)).
    { intros q r tr. rewrite !evals_big by auto. split; [now inversion 1|now constructor]. }
    unfold says. setoid_rewrite <- Hi. setoid_rewrite H. reflexivity.
Qed.

(** ** Laws that hold for values and calls too *)

Theorem C71_named p s : alike E (PNamed p s) p.
Proof.
  apply alike_sub. split; (split; [reflexivity|]); intros m i r tr Hv B; [now inversion B | now constructor].
Qed.

Theorem C71_complete_twice p : alike E (PComplete (PComplete p)) (PComplete p).
Proof.
  apply alike_sub. split; (split; [reflexivity|]); intros m i r tr Hv B.
  - inversion B as []; subst; auto.
    + match goal with H : big _ _ (PComplete p) _ _ _ |- _ => inversion H; subst; congruence end.
  - destruct r as [[v|] rem].
    + inversion B; subst. now apply B_complete_ok.
    + assert (rem = i) as -> by (inversion B; reflexivity). now apply B_complete_no.
Qed.

Theorem C71_ignore_twice p : alike E (PIgnore (PIgnore p)) (PIgnore p).
Proof.
  apply alike_sub. split; (split; [reflexivity|]); intros m i r tr Hv B.
  - inversion B as []; subst. match goal with H : big _ _ (PIgnore p) _ _ _ |- _ => inversion H; subst end. now constructor.
  - inversion B; subst. now repeat constructor.
Qed.

(** A complete repetition keeps its value: [complete] and [ignore] commute. *)
Theorem C71_ignore_complete p : alike E (PIgnore (PComplete p)) (PComplete (PIgnore p)).
Proof.
  apply alike_sub. split; (split; [reflexivity|]); intros m i r tr Hv B.
  - inversion B as []; subst. match goal with H : big _ _ (PComplete p) _ _ _ |- _ => inversion H; subst end.
    + apply B_complete_ok; auto. now constructor.
    + eapply B_complete_rest; [apply B_ignore; eassumption|auto].
    + apply B_complete_no. now constructor.
  - constructor. inversion B; subst; match goal with H : big _ _ (PIgnore p) _ _ _ |- _ => inversion H; subst end.
    + now apply B_complete_ok.
    + eapply B_complete_rest; eauto.
    + now apply B_complete_no.
Qed.

(** To ignore a sequence is to ignore its parts. *)
Lemma ignored_chain l : forall i x tr, bchain E (map (pair Look) l) i x tr <-> bchain E (map (pair Look) (map PIgnore l)) i x tr.
Proof.
  induction l as [|p l IH]; intros i x tr; cbn [map]; [reflexivity|]. split; intros H; inversion H; subst.
  - apply BC_fail. now constructor.
  - eapply BC_next with (mid := mid); [constructor; eassumption | apply look_shaped | now apply IH].
  - apply BC_fail. match goal with H : big _ _ (PIgnore p) _ _ _ |- _ => now inversion H end.
  - eapply BC_next with (mid := mid); [|apply look_shaped | now apply IH].
    match goal with H : big _ _ (PIgnore p) _ _ _ |- _ => now inversion H end.
Qed.
Lemma voids (l : list (parser T)) : result_fors E (map PIgnore l) = Some (map (fun _ => TVoid) l).
Proof. apply result_fors_spec. induction l; cbn; [constructor|]. congruence. Qed.
Lemma void_parts (l : list (parser T)) : parts (map (fun _ => TVoid) l) (map PIgnore l) = map (pair Look) (map PIgnore l).
Proof. unfold parts. induction l; cbn; [reflexivity|]. now rewrite IHl. Qed.
Lemma chain_voids (l : list (mode * parser T)) i vs rem tr : bchain E l i (Some (vs, rem)) tr -> List.length vs = List.length l.
Proof.
  revert i vs rem tr. induction l as [|x l IH]; intros i vs rem tr H; inversion H; subst; [reflexivity|].
  destruct o as [[vs' rem']|]; [|discriminate]. cbn in *. match goal with H : Some _ = Some _ |- _ => injection H as <- <- end. cbn. f_equal. eauto.
Qed.
Lemma kept_voids (l : list (parser T)) : forall vs ws, List.length vs = List.length l -> (kept (map (fun _ => TVoid) l) vs ws <-> ws = []).
Proof.
  induction l as [|p l IH]; intros vs ws Hl; destruct vs as [|v vs]; try discriminate; cbn [map].
  - split; [now inversion 1|]. intros ->. constructor.
  - injection Hl as Hl. split.
    + inversion 1; subst; [|congruence]. now apply (IH vs).
    + intros ->. constructor. now apply IH.
Qed.

Theorem C71_ignore_sequence q qs : Forall has_type (q :: qs) ->
  alike E (PIgnore (PSequence q qs)) (PSequence (PIgnore q) (map PIgnore qs)).
Proof.
  intros Ht. apply has_types in Ht as [tys Ht]. pose proof (voids (q :: qs)) as Hvs. cbn [map] in Hvs.
  pose proof (void_parts (q :: qs)) as Hp. cbn [map] in Hp. pose proof (ignored_chain (q :: qs)) as Hc. cbn [map] in Hc.
  assert (Hr : result_for E (PIgnore (PSequence q qs)) = result_for E (PSequence (PIgnore q) (map PIgnore qs))).
  { rewrite result_for_seq, Hvs, filter_out_void_spec. cbn [fst].
    assert (Hn : nonvoid (TVoid :: map (fun _ : parser T => TVoid) qs) = []) by (clear; now induction qs). now rewrite Hn. }
  assert (Hk : forall i vs rem tr, bchain E ((Look, q) :: map (pair Look) qs) i (Some (vs, rem)) tr ->
    forall ws, kept (TVoid :: map (fun _ : parser T => TVoid) qs) vs ws <-> ws = []).
  { intros i vs rem tr B ws. apply chain_voids in B. apply (kept_voids (q :: qs)). cbn in *. now rewrite map_length in B. }
  apply alike_sub. split; (split; [congruence|]); intros m i r tr Hv B.
  - inversion B as []; subst. match goal with H : big _ _ (PSequence _ _) _ _ _ |- _ => inversion H; subst end;
      match goal with H : bchain _ _ _ _ _ |- _ => rename H into C end; cbn [map] in C; pose proof (proj1 (Hc _ _ _) C) as C'; destruct m;
      try (eapply B_seq_look_ok; now eauto); try (eapply B_seq_look_no; now eauto); rewrite <- Hp in C'.
    + refine (B_seq_ok E _ _ _ i vs [] rem tr Hvs C' _). now apply (Hk _ _ _ _ C).
    + exact (B_seq_no E _ _ _ i tr Hvs C').
  - constructor. inversion B; subst; match goal with H : bchain _ _ _ _ _ |- _ => rename H into C end; cbn [map] in C;
      try (match goal with H : result_fors _ (PIgnore _ :: _) = Some ?t |- _ => assert (Some t = Some (TVoid :: map (fun _ : parser T => TVoid) qs)) as [= ->] by congruence end);
      rewrite ?Hp in C; apply Hc in C.
    + match goal with H : kept _ _ _ |- _ => apply (Hk _ _ _ _ C) in H; subst end. eapply B_seq_look_ok; eauto.
    + eapply B_seq_look_no; eauto.
    + eapply B_seq_look_ok; eauto.
    + eapply B_seq_look_no; eauto.
Qed.
End Laws.

(** ** Concrete cases and the laws that do not hold *)

Ltac says_run n := eexists; eexists; split; [split; [discriminate|exists n; vm_compute; reflexivity]|reflexivity].

Definition one : parser nat := PAllOf (codes "1").
Definition onetwo : parser nat := PAllOf (codes "12").
Definition comma : parser nat := PAllOf (codes ",").
Definition at7 : span := Span 1 7 10.

(** [("1" | "12") >> ","] refuses ["12,"]; [("1" >> ",") | ("12" >> ",")] reads it. *)
Theorem C71_right_factor_refuted :
  has_type sx one /\ has_type sx onetwo /\ has_type sx comma /\ valid sx at7 /\
  says sx Look (PSequence (PChoice one [onetwo]) [comma]) at7 None /\
  says sx Look (PChoice (PSequence one [comma]) [PSequence onetwo [comma]]) at7 (Some (Span 1 10 7)).
Proof.
  split; [now exists TSpan|]. split; [now exists TSpan|]. split; [now exists TSpan|]. split; [vm_compute; lia|].
  split; says_run 30.
Qed.

(** [complete("1" | "12")] refuses ["12"]; [complete("1") | complete("12")] reads it. *)
Theorem C71_complete_choice_refuted :
  has_type sx one /\ has_type sx onetwo /\ valid sx (Span 1 7 2) /\
  says sx Look (PComplete (PChoice one [onetwo])) (Span 1 7 2) None /\
  says sx Look (PChoice (PComplete one) [PComplete onetwo]) (Span 1 7 2) (Some (Span 1 9 0)).
Proof.
  split; [now exists TSpan|]. split; [now exists TSpan|]. split; [vm_compute; lia|]. split; says_run 30.
Qed.

(** Alternatives that can both succeed may not change places. *)
Theorem C71_swap_refuted :
  says sx Look (PChoice one [onetwo]) at7 (Some (Span 1 8 9)) /\ says sx Look (PChoice onetwo [one]) at7 (Some (Span 1 9 8)).
Proof. split; says_run 30. Qed.

(** What looks alike need not parse alike: ["12"] has a span for its value, ["1" >> "2"] a tuple, and a
    call on the value can tell. *)
Theorem C70_lookahead_refuted :
  looks_alike sx onetwo (PSequence one [PAllOf (codes "2")]) /\
  exists v v', v <> v' /\ evals sx Parse onetwo at7 (Done (Res (Some v) (Span 1 9 8)) []) /\
    evals sx Parse (PSequence one [PAllOf (codes "2")]) at7 (Done (Res (Some v') (Span 1 9 8)) []).
Proof.
  split; [exact (C71_literal_split sx (codes "1") (codes "2"))|].
  exists (RVal (VSpan (Span 1 7 2))), (RVal (VTup [VSpan (Span 1 7 1); VSpan (Span 1 8 1)])).
  split; [discriminate|]. split; split; try discriminate; exists 30; vm_compute; reflexivity.
Qed.

(** In a lookahead context it makes no difference. *)
Definition c71_ctx : ctx nat := XDelimited (XChoice [PAllOf (codes "x")] XHole [POneOrMore (PAnyOf (codes "0123456789"))]) comma.
Example C70_exchange_lookahead_example :
  looks_alike sx (plug c71_ctx onetwo) (plug c71_ctx (PSequence one [PAllOf (codes "2")])) /\
  says sx Look (plug c71_ctx onetwo) at7 (Some (Span 1 13 4)).
Proof.
  split; [|says_run 60]. apply C70_exchange_lookahead; [exact (C71_literal_split sx (codes "1") (codes "2"))|reflexivity..].
Qed.

(** Each law on the sample text. *)
Example C71_examples :
  let d := PAnyOf (codes "0123456789") in
  has_type sx d /\
  says sx Look (PChoice (PSequence d [one]) [PSequence d [d]]) at7 (Some (Span 1 9 8)) /\
  says sx Look (PSequence d [PChoice one [d]]) at7 (Some (Span 1 9 8)) /\
  says sx Look (PSequence PEpsilon [d]) at7 (Some (Span 1 8 9)) /\
  says sx Look (PChoice one [d; one]) at7 (Some (Span 1 8 9)) /\
  says sx Look (PZeroOrMore d) at7 (Some (Span 1 9 8)) /\
  says sx Look (PMaybe (PSequence d [PZeroOrMore d])) at7 (Some (Span 1 9 8)) /\
  says sx Look (PSequence d [PZeroOrMore d]) at7 (Some (Span 1 9 8)) /\
  says sx Look (PExactly d 3) at7 None /\ says sx Look (PSequence (PExactly d 2) [PExactly d 1]) at7 None /\
  says sx Look (PComplete (PSequence one [d])) (Span 1 7 2) (Some (Span 1 9 0)) /\
  says sx Look (PSequence one [PComplete d]) (Span 1 7 2) (Some (Span 1 9 0)) /\
  says sx Look (PDelimit (POneOrMore d) comma) at7 (Some (Span 1 13 4)) /\
  says sx Look (PSequence (POneOrMore d) [PZeroOrMore (PSequence comma [POneOrMore d])]) at7 (Some (Span 1 13 4)).
Proof.
  split; [now exists TSpan|]. repeat split; says_run 60.
Qed.

(** Disjoint alternatives: the hypothesis of [C71_swap] on all inputs. *)
Example C71_swap_example : looks_alike sx (PChoice one [comma; PEpsilon]) (PChoice comma [one; PEpsilon]).
Proof.
  apply (C71_swap sx [] one comma [PEpsilon]); [repeat constructor; eexists; reflexivity|].
  intros i Hv. assert (Hx : forall s, exists o, says sx Look (PAllOf (codes s)) i o /\ (o <> None -> prefix_is sx i (codes s))).
  { intros s. destruct (prefix_dec sx i (codes s) Hv) as [H|H].
    - eexists. split; [apply L_all; [exact Hv|left; split; [exact H|reflexivity]]|auto].
    - exists None. split; [apply L_all; auto|congruence]. }
  destruct (Hx "1"%string) as (o & H1 & H2), (Hx ","%string) as (o' & H3 & H4). exists o, o'. split; auto. split; auto.
  destruct o as [r|]; auto. destruct o' as [r'|]; auto. exfalso.
  specialize (H2 ltac:(discriminate)) as [_ [(c & Hc & He) _]]. specialize (H4 ltac:(discriminate)) as [_ [(c' & Hc' & He') _]].
  assert (c' = c) by congruence. subst c'. apply Nat.eqb_eq in He, He'. vm_compute in He, He'. congruence.
Qed.

Print Assumptions C71_left_factor.
Print Assumptions C71_right_factor_one_way.
Print Assumptions C71_dead_alternative.
Print Assumptions C71_repeated_alternative.
Print Assumptions C71_after_certain.
Print Assumptions C71_shadowed_literal.
Print Assumptions C71_literal_split.
Print Assumptions C71_set_split.
Print Assumptions C71_swap.
Print Assumptions C71_unit_left.
Print Assumptions C71_unit_right.
Print Assumptions C71_star_unrolled.
Print Assumptions C71_plus_unrolled.
Print Assumptions C71_maybe_choice.
Print Assumptions C71_exactly_one.
Print Assumptions C71_exactly_sum.
Print Assumptions C71_delimit_unrolled.
Print Assumptions C71_complete_last.
Print Assumptions C71_complete_choice_one_way.
Print Assumptions C71_ignored.
Print Assumptions C71_named.
Print Assumptions C71_complete_twice.
Print Assumptions C71_ignore_twice.
Print Assumptions C71_ignore_complete.
Print Assumptions C71_ignore_sequence.
Print Assumptions C71_right_factor_refuted.
Print Assumptions C71_complete_choice_refuted.
Print Assumptions C71_swap_refuted.
Print Assumptions C70_lookahead_refuted.
Print Assumptions C70_exchange_lookahead_example.
Print Assumptions C71_examples.
Print Assumptions C71_swap_example.
