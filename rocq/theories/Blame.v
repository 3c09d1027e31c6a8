(** * Who made parse and lookahead disagree *)
From Coq Require Import String List Arith ZArith Bool Lia.
From Verif Require Import Types Compound Parser Outcome CompoundFacts ChoiceIndex Exec Mono Derive Typing Join Leaves Sound
  BigStep BigSound BigComplete Peg Elems Runs Agree PropExchange.
Import ListNotations.

Section Blame.
Context {T V : Type} (E : env T V).

(** The parsers that may overrule the verdict of the one parser they are made of. *)
Inductive judges : parser T -> parser T -> Prop :=
| judge_filter q f : judges (PFilter q f) q
| judge_join q : judges (PJoin q) q
| judge_custom c t : cust_conv E c = ConvWhole t -> judges (PCustom c) (cust_body E c).

(** [q] overrules its component on [j], calling [tq]. *)
Definition overrules (q : parser T) (j : span) (tq : list event) : Prop :=
  exists q0, judges q q0 /\
    ((exists v rem tr0, big E Parse q0 j (Res (Some v) rem) tr0) /\ big E Parse q j (Res None j) tq \/
     (exists tr0, big E Parse q0 j (Res None j) tr0) /\ (exists v, big E Parse q j (Res (Some v) j) tq)).

Definition part_of (tq tr : list event) : Prop := exists a b, tr = a ++ tq ++ b.

Definition clash (p : parser T) (i : span) (tr : list event) : Prop :=
  exists q j tq, parsed E p q /\ suffix i j /\ part_of tq tr /\ overrules q j tq.

Lemma part_refl tr : part_of tr tr.
Proof. exists [], []. now rewrite app_nil_r. Qed.
Lemma part_left a b tr : part_of tr a -> part_of tr (a ++ b).
Proof. intros (x & y & ->). exists x, (y ++ b). now rewrite <- !app_assoc. Qed.
Lemma part_right a b tr : part_of tr b -> part_of tr (a ++ b).
Proof. intros (x & y & ->). exists (a ++ x), y. now rewrite <- !app_assoc. Qed.

Lemma clash_left p i a b : clash p i a -> clash p i (a ++ b).
Proof. intros (q & j & tq & H1 & H2 & H3 & H4). exists q, j, tq. split; auto. split; auto. split; auto. now apply part_left. Qed.
Lemma clash_right p i j a b : suffix i j -> clash p j b -> clash p i (a ++ b).
Proof.
  intros Hs (q & k & tq & H1 & H2 & H3 & H4). exists q, k, tq. split; auto. split; [eapply suffix_trans; eauto|]. split; auto. now apply part_right.
Qed.
Lemma clash_up p q i tr : In q (parsed_parts E p) -> clash q i tr -> clash p i tr.
Proof. intros Hq (q' & j & tq & H1 & H). exists q', j, tq. split; [econstructor; eauto|auto]. Qed.
Lemma clash_here p i tr : overrules p i tr -> clash p i tr.
Proof. intros H. exists p, i, tr. split; [constructor|]. split; [apply suffix_refl|]. split; auto. apply part_refl. Qed.

Definition looks (l : list (mode * parser T)) : list (mode * parser T) := map (pair Look) (map snd l).

Definition clash_in (l : list (mode * parser T)) (i : span) (tr : list event) : Prop :=
  exists p, In (Parse, p) l /\ clash p i tr.

Lemma clash_in_up l p i tr : (forall q, In (Parse, q) l -> In q (parsed_parts E p)) -> clash_in l i tr -> clash p i tr.
Proof. intros H (q & Hq & Hc). eapply clash_up; eauto. Qed.

(** ** The parsed parts *)
Lemma indexed_parsed (ps : list (parser T)) : forall (seq : list index) r, In (Parse, r) (combine (map idx_mode seq) ps) -> In r (indexed ps seq).
Proof.
  unfold indexed. induction ps as [|p ps IH]; intros [|x seq] r H; cbn in *; try contradiction.
  destruct H as [H|H].
  - injection H as Hx ->. destruct x; [|discriminate]. cbn. auto.
  - apply IH in H. destruct x; cbn; auto.
Qed.

Lemma alts_parsed q qs tys r : result_fors E (q :: qs) = Some tys -> In (Parse, r) (alts tys (q :: qs)) -> In r (parsed_parts E (PChoice q qs)).
Proof. intros Ht H. cbn [parsed_parts]. rewrite Ht. now apply indexed_parsed. Qed.

Lemma seq_modes tys : forall k, map idx_mode (seq_from k tys) = map part_mode tys.
Proof. induction tys as [|t tys IH]; intros k; cbn; auto. unfold part_mode at 1. destruct (is_void t); cbn; now rewrite IH. Qed.

Lemma seq_parsed q qs tys r : result_fors E (q :: qs) = Some tys -> In (Parse, r) (parts tys (q :: qs)) -> In r (parsed_parts E (PSequence q qs)).
Proof.
  intros Ht H. cbn [parsed_parts]. rewrite Ht. apply indexed_parsed. rewrite filter_out_void_spec. cbn [snd]. now rewrite seq_modes.
Qed.

Lemma looks_combine {A} (f : A -> mode) xs (ps : list (parser T)) : List.length xs = List.length ps -> looks (combine (map f xs) ps) = map (pair Look) ps.
Proof. unfold looks. revert xs. induction ps as [|p ps IH]; intros [|x xs] H; cbn in *; try discriminate; auto. f_equal. apply IH. lia. Qed.

Lemma looks_repeat m q n : looks (repeat (m, q) n) = repeat (Look, q) n.
Proof. unfold looks. induction n; cbn; congruence. Qed.

(** ** The induction *)
Lemma look_strip p i r tr : big E Look p i r tr -> big E Look p i (strip r) [].
Proof.
  intros H. destruct (proj1 (big_look_plain E) _ _ _ _ _ H eq_refl) as [-> Hr]. destruct r as [[v|] rem]; cbn in *; auto.
  now rewrite (Hr v eq_refl) in H.
Qed.

Lemma blame_all :
  (forall m p i r tr, big E m p i r tr -> (m = Parse /\ clash p i tr) \/ exists tr', big E Look p i (strip r) tr') /\
  (forall l i o tr, bfirst E l i o tr -> clash_in l i tr \/ exists tr',
     bfirst E (looks l) i (match o with Some (j, _, rem) => Some (j, RVoid, rem) | None => None end) tr') /\
  (forall l i o tr, bchain E l i o tr -> clash_in l i tr \/ exists tr',
     bchain E (looks l) i (match o with Some (vs, rem) => Some (map (fun _ => RVoid) vs, rem) | None => None end) tr') /\
  (forall m q i vs rem tr, biter E m q i vs rem tr -> (m = Parse /\ clash q i tr) \/ exists tr',
     biter E Look q i (map (fun _ => RVoid) vs) rem tr') /\
  (forall m q d i prs rem tr, btail E m q d i prs rem tr -> (m = Parse /\ (clash q i tr \/ clash d i tr)) \/ exists tr',
     btail E Look q d i (map (fun _ => (RVoid, RVoid)) prs) rem tr').
Proof.
  assert (HL : forall p i r tr, big E Look p i r tr -> exists tr', big E Look p i (strip r) tr').
  { intros p i r tr H. exists []. eapply look_strip; eauto. }
  apply big_mut; intros.
  all: try (right; eapply HL; econstructor; eauto; fail).
  all: try (right; eexists; constructor; auto; fail).
  all: unfold strip in *; cbn [r_ok r_rem ok1] in *.
  all: try (match goal with H : (Parse = Parse /\ _) \/ _ |- _ => destruct H as [[_ Hcl]|[tr1 Hl]] end;
            [left; split; [reflexivity|]; try apply clash_left; apply clash_up with (2 := Hcl); cbn; auto; fail
            |right; eexists; econstructor; eauto; fail]).
  - destruct H as [Hc|[tr' H]].
    + left. split; auto. eapply clash_in_up; [|exact Hc]. intros r. now apply alts_parsed.
    + right. exists tr'. unfold alts in H. rewrite looks_combine in H by (rewrite len_dedup; symmetry; eapply result_fors_length; eauto). econstructor; eauto.
  - destruct H as [Hc|[tr' H]].
    + left. split; auto. eapply clash_in_up; [|exact Hc]. intros r. now apply alts_parsed.
    + right. exists tr'. unfold alts in H. rewrite looks_combine in H by (rewrite len_dedup; symmetry; eapply result_fors_length; eauto). econstructor; eauto.
  - destruct H as [Hc|[tr' H]].
    + left. split; auto. eapply clash_in_up; [|exact Hc]. intros r. now apply seq_parsed.
    + right. exists tr'. unfold parts in H. rewrite looks_combine in H by (symmetry; eapply result_fors_length; eauto). econstructor; eauto.
  - destruct H as [Hc|[tr' H]].
    + left. split; auto. eapply clash_in_up; [|exact Hc]. intros r. now apply seq_parsed.
    + right. exists tr'. unfold parts in H. rewrite looks_combine in H by (symmetry; eapply result_fors_length; eauto). econstructor; eauto.
  - destruct H as [Hc|[tr' H]].
    + left. split; auto. eapply clash_in_up; [|exact Hc]. intros r Hr. apply repeat_spec in Hr. injection Hr as ->. cbn; auto.
    + right. exists tr'. rewrite looks_repeat in H. econstructor; eauto.
  - destruct H as [Hc|[tr' H]].
    + left. split; auto. eapply clash_in_up; [|exact Hc]. intros r Hr. apply repeat_spec in Hr. injection Hr as ->. cbn; auto.
    + right. exists tr'. rewrite looks_repeat in H. econstructor; eauto.
  - destruct H as [[_ Hc]|[t1 H]].
    { left. split; auto. apply clash_left. apply clash_up with (2 := Hc). cbn; auto. }
    destruct (proj1 (big_suffix E) _ _ _ _ _ b) as [Hs _]. cbn in Hs. destruct H0 as [[_ [Hc|Hc]]|[t2 H0]].
    + left. split; auto. eapply clash_right; [exact Hs|]. apply clash_up with (2 := Hc). cbn; auto.
    + left. split; auto. eapply clash_right; [exact Hs|]. apply clash_up with (2 := Hc). cbn; auto.
    + right. eexists. econstructor; eauto.
  - destruct H as [[-> Hc]|[t1 H]]; [left; split; auto; apply clash_up with (2 := Hc); cbn; auto|].
    right. exists t1. now apply B_complete_ok.
  - destruct H as [[-> Hc]|[t1 H]]; [left; split; auto; apply clash_up with (2 := Hc); cbn; auto|].
    right. exists t1. eapply B_complete_rest; eauto.
  - destruct H as [[-> Hc]|[t1 H]]; [left; split; auto; apply clash_up with (2 := Hc); cbn; auto|].
    right. exists t1. now apply B_complete_no.
  - left. split; auto. apply clash_here. exists q. split; [constructor|]. left. split; [eauto|]. eapply B_join_gap; eauto.
  - left. split; auto. apply clash_here. exists q. split; [constructor|]. left. split; [eauto|]. eapply B_filter_reject; eauto.
  - destruct H as [[-> Hc]|[t1 H]]; [left; split; auto; apply clash_up with (2 := Hc); cbn; auto|].
    right. exists t1. now constructor.
  - left. split; auto. apply clash_here. eexists. split; [econstructor; eauto|]. right. split; [eauto|]. eexists. eapply B_custom_whole_no; eauto.
  - destruct H as [[-> Hc]|[t1 H]]; [left; exists p; split; [left; reflexivity|exact Hc]|].
    right. exists t1. now constructor.
  - destruct H as [[-> Hc]|[t1 H]]; [left; exists p; split; [left; reflexivity|now apply clash_left]|].
    destruct H0 as [(r & Hr & Hc)|[t2 H0]].
    + left. exists r. split; [now right|]. eapply clash_right; [apply suffix_refl|exact Hc].
    + right. exists (t1 ++ t2). replace (match bump o with Some (j, _, rem) => Some (j, RVoid, rem) | None => None end)
        with (bump (match o with Some (j, _, rem) => Some (j, RVoid, rem) | None => None end)) by (destruct o as [[[? ?] ?]|]; reflexivity).
      now apply BF_next.
  - destruct H as [[-> Hc]|[t1 H]]; [left; exists p; split; [left; reflexivity|exact Hc]|].
    right. exists t1. now constructor.
  - destruct H as [[-> Hc]|[t1 H]]; [left; exists p; split; [left; reflexivity|now apply clash_left]|].
    destruct (proj1 (big_suffix E) _ _ _ _ _ b) as [Hs _]. cbn in Hs. destruct H0 as [(r & Hr & Hc)|[t2 H0]].
    + left. exists r. split; [now right|]. eapply clash_right; eauto.
    + right. exists (t1 ++ t2). replace (match push v o with Some (vs, rem) => Some (map (fun _ => RVoid) vs, rem) | None => None end)
        with (push RVoid (match o with Some (vs, rem) => Some (map (fun _ => RVoid) vs, rem) | None => None end)) by (destruct o as [[? ?]|]; reflexivity).
      eapply BC_next; eauto. apply look_shaped.
  - destruct H as [[-> Hc]|[t1 H]]; [now left|]. right. exists t1. now constructor.
  - destruct H as [[-> Hc]|[t1 H]]; [left; split; auto; now apply clash_left|].
    destruct (proj1 (big_suffix E) _ _ _ _ _ b) as [Hs _]. cbn in Hs. destruct H0 as [[-> Hc]|[t2 H0]].
    + left. split; auto. eapply clash_right; eauto.
    + right. eexists. eapply BI_next; eauto. apply look_shaped.
  - destruct H as [[-> Hc]|[t1 H]]; [left; auto|]. right. exists t1. now constructor.
  - destruct H as [[-> Hc]|[t1 H]]; [left; split; auto; right; now apply clash_left|].
    destruct (proj1 (big_suffix E) _ _ _ _ _ b) as [Hs _]. cbn in Hs. destruct H0 as [[-> Hc]|[t2 H0]].
    + left. split; auto. left. eapply clash_right; eauto.
    + right. eexists. eapply BT_back; eauto.
  - destruct H as [[-> Hc]|[t1 H]]; [left; split; auto; right; now apply clash_left|].
    destruct (proj1 (big_suffix E) _ _ _ _ _ b) as [Hs _]. cbn in Hs.
    destruct (proj1 (big_suffix E) _ _ _ _ _ b0) as [Hs' _]. cbn in Hs'. destruct H0 as [[-> Hc]|[t2 H0]].
    { left. split; auto. left. eapply clash_right; [exact Hs|]. now apply clash_left. }
    destruct H1 as [[-> [Hc|Hc]]|[t3 H1]].
    + left. split; auto. left. eapply clash_right; [exact Hs|]. eapply clash_right; eauto.
    + left. split; auto. right. eapply clash_right; [exact Hs|]. eapply clash_right; eauto.
    + right. eexists. eapply BT_next; eauto; apply look_shaped.
Qed.

Lemma blame p i r tr : big E Parse p i r tr -> clash p i tr \/ big E Look p i (strip r) [].
Proof.
  intros H. destruct (proj1 blame_all _ _ _ _ _ H) as [[_ Hc]|[tr' H']]; auto. right. apply look_strip in H'.
  destruct r as [[v|] rem]; exact H'.
Qed.
End Blame.
