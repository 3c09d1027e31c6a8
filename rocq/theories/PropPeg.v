(** * Property C38: lookahead is PEG recognition *)
From Coq Require Import String List Arith ZArith Bool Lia.
From Verif Require Import Types Compound Parser Outcome CompoundFacts Exec Mono Derive Typing Join Leaves Sound
  BigStep BigSound BigComplete Peg Elems Runs Samples PropBasic.
Import ListNotations.

Section Recognise.
Context {T V : Type} (E : env T V).

(** Specification: what a lookahead reports for a PEG answer. *)
Definition peg_result (i : span) (o : option nat) : presult :=
  match o with Some c => Res (Some RVoid) (adv i c) | None => Res None i end.

Lemma adv_0 i : adv i 0 = i.
Proof. destruct i; unfold adv; cbn. f_equal; lia. Qed.
Lemma adv_adv' i a b : adv (adv i a) b = adv i (a + b).
Proof. unfold adv; cbn. f_equal; lia. Qed.

Definition opt_rem (i : span) (o : option nat) : option span :=
  match o with Some c => Some (adv i c) | None => None end.

(** *** Every lookahead is a PEG answer *)
Definition sound_at (p : parser T) (i : span) (r : presult) : Prop :=
  exists o, peg E p (elems E i) o /\ r = peg_result i o.

Lemma Forall2_eqv_head t arr c l : Forall2 (fun t c => eqv E t c = true) (t :: arr) (c :: l) -> eqv E t c = true.
Proof. now inversion 1. Qed.

Lemma peg_skip p i c o : peg E p (elems E (adv i c)) o <-> peg E p (skipn c (elems E i)) o.
Proof. now rewrite elems_adv_skipn. Qed.

Lemma nil_len i : valid E i -> elems E i = [] <-> sp_len i = 0.
Proof. intros Hv. rewrite <- (elems_length E i Hv). destruct (elems E i); cbn; split; auto; discriminate. Qed.

Lemma peg_result_ok p i v rem : sound_at p i (Res (Some v) rem) ->
  exists c, peg E p (elems E i) (Some c) /\ v = RVoid /\ rem = adv i c.
Proof. intros ([c|] & Hp & He); [|discriminate]. injection He as -> ->. eauto. Qed.
Lemma peg_result_no p i : sound_at p i (Res None i) -> peg E p (elems E i) None.
Proof. intros ([c|] & Hp & He); [discriminate|auto]. Qed.
Lemma sound_ok p i c : peg E p (elems E i) (Some c) -> sound_at p i (Res (Some RVoid) (adv i c)).
Proof. exists (Some c); auto. Qed.
Lemma sound_no p i : peg E p (elems E i) None -> sound_at p i (Res None i).
Proof. exists None; auto. Qed.

Lemma map_look_cons m (p : parser T) l ps :
  (m, p) :: l = map (pair Look) ps -> exists ps', ps = p :: ps' /\ m = Look /\ l = map (pair Look) ps'.
Proof. destruct ps as [|q ps]; [discriminate|]. cbn. intros [= -> -> ->]. eauto. Qed.

Lemma peg_valid_c p i c : peg E p (elems E i) (Some c) -> valid E i -> c <= sp_len i.
Proof. intros Hp Hv. destruct (peg_le E) as [H _]. specialize (H _ _ _ Hp c eq_refl). now rewrite elems_length in H. Qed.

Lemma repeat_look (q : parser T) n : repeat (Look, q) n = map (pair Look) (repeat q n).
Proof. induction n; cbn; congruence. Qed.

Lemma big_peg :
  (forall m p i r tr, big E m p i r tr -> m = Look -> valid E i -> tr = [] /\ sound_at p i r) /\
  (forall l i o tr, bfirst E l i o tr -> forall ps, l = map (pair Look) ps -> valid E i ->
     tr = [] /\ exists c, peg_or E ps (elems E i) c /\
       match o with Some (_, _, rem) => Some rem | None => None end = opt_rem i c) /\
  (forall l i o tr, bchain E l i o tr -> forall ps, l = map (pair Look) ps -> valid E i ->
     tr = [] /\ exists c, peg_and E ps (elems E i) c /\
       match o with Some (_, rem) => Some rem | None => None end = opt_rem i c) /\
  (forall m q i vs rem tr, biter E m q i vs rem tr -> m = Look -> valid E i ->
     tr = [] /\ match vs with
       | [] => peg E q (elems E i) None /\ rem = i
       | _ :: _ => exists c d, peg E q (elems E i) (Some c) /\
           peg_star E q (skipn c (elems E i)) d /\ rem = adv i (c + d)
       end) /\
  (forall m q d i prs rem tr, btail E m q d i prs rem tr -> m = Look -> valid E i ->
     tr = [] /\ exists c, peg_tail E q d (elems E i) c /\ rem = adv i c).
Proof.
  apply big_mut; intros; subst; try discriminate;
    repeat match goal with
    | H : ?x = ?x -> _ |- _ => specialize (H eq_refl)
    | H : valid E ?i -> _, Hv : valid E ?i |- _ => specialize (H Hv)
    | H : forall ps, ?l = map (pair Look) ps -> _ |- _ =>
        first [specialize (H _ eq_refl) | rewrite repeat_look in H; specialize (H _ eq_refl)]
    | H : _ /\ sound_at _ _ (Res (Some _) _) |- _ =>
        let c := fresh "c" in let Hc := fresh "Hp" in
        destruct H as [-> (c & Hc & -> & ->)%peg_result_ok]
    | H : _ /\ sound_at _ _ (Res None _) |- _ =>
        let Hc := fresh "Hp" in destruct H as [-> Hc%peg_result_no]
    end; try (split; [reflexivity|]).
  - apply sound_ok. apply head_is_elems in h as (c & rest & -> & Hc); auto. now constructor.
  - apply sound_no. destruct (elems E i) as [|c rest] eqn:He; [constructor|]. constructor. intros t Ht.
    destruct (eqv E t c) eqn:Hc; auto. destruct n. apply head_is_elems; auto. exists c, rest. split; auto. exists t; auto.
  - apply sound_ok. apply head_is_elems in h as (c & rest & -> & Hc); auto. constructor. intros t Ht.
    destruct (eqv E t c) eqn:He; auto. destruct Hc. exists t; auto.
  - apply sound_no. destruct (elems E i) as [|c rest] eqn:He; [constructor|]. constructor.
    destruct (in_set_dec E arr c) as [Hc|Hc]; auto. destruct n. apply head_is_elems; eauto.
  - apply sound_ok. constructor. now apply matches_at_starts.
  - apply sound_no. constructor. intros Hs. apply n. now apply matches_at_starts in Hs.
  - apply sound_ok. destruct (elems E i) eqn:He; [|constructor]. apply nil_len in He; auto. lia.
  - apply sound_no. apply nil_len in e; auto. rewrite e. constructor.
  - rewrite <- (adv_0 i) at 2. apply sound_ok. constructor.
  - (* choice *) destruct H as [-> ([c|] & Hp & He)]; [|discriminate]. injection He as ->. split; auto.
    apply sound_ok. now constructor.
  - destruct H as [-> ([c|] & Hp & He)]; [discriminate|]. split; auto. apply sound_no. now constructor.
  - destruct H as [-> ([c|] & Hp & He)]; [|discriminate]. injection He as ->. split; auto.
    apply sound_ok. now constructor.
  - destruct H as [-> ([c|] & Hp & He)]; [discriminate|]. split; auto. apply sound_no. now constructor.
  - apply sound_ok. now constructor.
  - rewrite <- (adv_0 i) at 2. apply sound_ok. now constructor.
  - destruct H as [-> ([c|] & Hp & He)]; [|discriminate]. injection He as ->. split; auto.
    apply sound_ok. now constructor.
  - destruct H as [-> ([c|] & Hp & He)]; [discriminate|]. split; auto. apply sound_no. now constructor.
  - destruct H as [-> (c & d & Hq & Hs & ->)]. split; auto. apply sound_ok. now constructor.
  - apply sound_no. now constructor.
  - destruct H as [-> H]. split; auto. destruct vs.
    + destruct H as [Hq ->]. rewrite <- (adv_0 i) at 2. apply sound_ok. constructor. now constructor.
    + destruct H as (c & d & Hq & Hs & ->). apply sound_ok. constructor. now constructor.
  - assert (Hv : valid E (adv i c)) by (apply adv_valid; eauto using peg_valid_c).
    specialize (H0 Hv) as [-> (e & He & ->)]. split; auto. rewrite adv_adv'. apply sound_ok.
    rewrite elems_adv_skipn in He. now constructor.
  - apply sound_no. now constructor.
  - destruct H as [-> (o & Hp & ->)]. split; auto. exists o. split; auto. now constructor.
  - assert (Hle : c <= sp_len i) by eauto using peg_valid_c.
    apply sound_ok. cbn [adv sp_len] in e.
    assert (c = List.length (elems E i)) by (rewrite elems_length by auto; lia). subst c. now constructor.
  - assert (Hle : c <= sp_len i) by eauto using peg_valid_c.
    apply sound_no. apply (G_complete_rest E q _ c); auto. rewrite elems_length by auto. cbn [adv sp_len] in n. lia.
  - apply sound_no. now constructor.
  - destruct H as [-> (o & Hp & ->)]. split; auto. exists o. split; auto. now constructor.
  - destruct H as [-> (o & Hp & ->)]. split; auto. exists o. split; auto. now constructor.
  - destruct H as [-> (o & Hp & ->)]. split; auto. exists o. split; auto. now constructor.
  - destruct H as [-> (o & Hp & ->)]. split; auto. exists o. split; auto. now constructor.
  - destruct H as [-> (o & Hp & ->)]. split; auto. exists o. split; auto. now constructor.
  - (* bfirst *) destruct ps; [|discriminate]. exists None. split; auto. constructor.
  - match goal with H : _ = map _ _ |- _ => apply map_look_cons in H as (ps' & -> & -> & ->) end.
    destruct (H eq_refl H1) as [-> (c & Hp & -> & ->)%peg_result_ok]. split; auto. exists (Some c). split; auto. now constructor.
  - match goal with H : _ = map _ _ |- _ => apply map_look_cons in H as (ps' & -> & -> & ->) end.
    destruct (H eq_refl H2) as [-> Hp%peg_result_no]. destruct (H0 _ eq_refl H2) as [-> (c & Hc & He)]. split; auto.
    exists c. split; [now constructor|]. destruct o as [[[? ?] ?]|]; auto.
  - destruct ps; [|discriminate]. exists (Some 0). split; [constructor|]. cbn. now rewrite adv_0.
  - match goal with H : _ = map _ _ |- _ => apply map_look_cons in H as (ps' & -> & -> & ->) end.
    destruct (H eq_refl H1) as [-> Hp%peg_result_no]. split; auto. exists None. split; auto. now constructor.
  - match goal with H : _ = map _ _ |- _ => apply map_look_cons in H as (ps' & -> & -> & ->) end.
    destruct (H eq_refl H2) as [-> (c & Hp & -> & ->)%peg_result_ok].
    assert (Hv : valid E (adv i c)) by (apply adv_valid; eauto using peg_valid_c).
    destruct (H0 _ eq_refl Hv) as [-> (d & Hd & He)]. split; auto. rewrite elems_adv_skipn in Hd.
    exists (match d with Some d => Some (c + d) | None => None end). split; [now constructor|].
    destruct o as [[? ?]|], d; cbn in *; try discriminate; auto. injection He as ->. now rewrite adv_adv'.
  - split; auto.
  - assert (Hv : valid E (adv i c)) by (apply adv_valid; eauto using peg_valid_c).
    specialize (H0 Hv) as [-> H0]. split; auto. destruct vs.
    + destruct H0 as [Hq ->]. rewrite elems_adv_skipn in Hq. exists c, 0. rewrite Nat.add_0_r. split; auto. split; auto. now constructor.
    + destruct H0 as (c' & d & Hq & Hs & ->). rewrite elems_adv_skipn in *. exists c, (c' + d).
      rewrite adv_adv'. split; auto. split; auto. now constructor.
  - exists 0. rewrite adv_0. split; auto. now constructor.
  - assert (Hv : valid E (adv i c)) by (apply adv_valid; eauto using peg_valid_c).
    specialize (H0 Hv) as [-> H0%peg_result_no]. split; auto. exists 0. rewrite adv_0. split; auto.
    rewrite elems_adv_skipn in H0. now apply (G_tail_back E q d _ c).
  - assert (Hv : valid E (adv i c)) by (apply adv_valid; eauto using peg_valid_c).
    specialize (H0 Hv) as [-> (c' & Hc' & -> & ->)%peg_result_ok].
    assert (Hv' : valid E (adv (adv i c) c')) by (apply adv_valid; eauto using peg_valid_c).
    specialize (H1 Hv') as [-> (e & He & ->)]. split; auto. rewrite !elems_adv_skipn in *.
    exists (c + (c' + e)). rewrite !adv_adv', Nat.add_assoc. split; auto. rewrite <- Nat.add_assoc. now constructor.
Qed.

(** *** Every PEG answer is a lookahead *)
Hypothesis Hcust : forall c, compiles E Look (cust_body E c) = true.

Definition look_ok (ps : list (parser T)) : Prop := Forall (fun q => compiles E Look q = true) ps.

Lemma look_fors q qs : compiles E Look (PChoice q qs) = true \/ compiles E Look (PSequence q qs) = true ->
  exists tys, result_fors E (q :: qs) = Some tys /\ look_ok (q :: qs).
Proof.
  intros H. cbn [compiles] in H. destruct (result_fors E (q :: qs)) as [tys|]; [|now destruct H].
  exists tys. split; auto. assert (Hc : compiles E Look q && forallb (compiles E Look) qs = true) by now destruct H.
  apply andb_true_iff in Hc as [H1 H2]. constructor; auto. apply Forall_forall. now apply forallb_forall.
Qed.

Lemma look_shaped p v : shaped E Look p v.
Proof. intros ?. discriminate. Qed.

Lemma peg_big :
  (forall p l o, peg E p l o -> forall i, valid E i -> l = elems E i -> compiles E Look p = true ->
     big E Look p i (peg_result i o) []) /\
  (forall ps l o, peg_or E ps l o -> forall i, valid E i -> l = elems E i -> look_ok ps ->
     match o with
     | Some c => exists j v, bfirst E (map (pair Look) ps) i (Some (j, v, adv i c)) []
     | None => bfirst E (map (pair Look) ps) i None []
     end) /\
  (forall ps l o, peg_and E ps l o -> forall i, valid E i -> l = elems E i -> look_ok ps ->
     match o with
     | Some c => exists vs, bchain E (map (pair Look) ps) i (Some (vs, adv i c)) []
     | None => bchain E (map (pair Look) ps) i None []
     end) /\
  (forall q l c, peg_star E q l c -> forall i, valid E i -> l = elems E i -> compiles E Look q = true ->
     exists vs, biter E Look q i vs (adv i c) []) /\
  (forall q d l c, peg_tail E q d l c -> forall i, valid E i -> l = elems E i ->
     compiles E Look q = true -> compiles E Look d = true ->
     exists prs, btail E Look q d i prs (adv i c) []).
Proof.
  assert (Hdiff : forall i c rest arr, elems E i = c :: rest -> valid E i ->
    (forall t, In t arr -> eqv E t c = false) -> ~ head_is E i (in_set E arr)).
  { intros i c rest arr He Hv Hn (c' & rest' & He' & t & Ht & Hc)%head_is_elems; auto.
    rewrite He in He'. injection He' as <- <-. rewrite Hn in Hc; [discriminate|auto]. }
  assert (Hnil : forall i P, elems E i = [] -> valid E i -> ~ head_is E i P).
  { intros i P He Hv (c & rest & He' & _)%head_is_elems; auto. congruence. }
  apply peg_mut; intros; subst; cbn [peg_result] in *;
    repeat match goal with
    | H : compiles E Look (PMaybe _) = true |- _ => cbn [compiles] in H; rewrite andb_true_r in H
    | H : compiles E Look (POneOrMore _) = true |- _ => cbn [compiles] in H; rewrite andb_true_r in H
    | H : compiles E Look (PZeroOrMore _) = true |- _ => cbn [compiles] in H; rewrite andb_true_r in H
    | H : compiles E Look (PDelimit _ _) = true |- _ =>
        cbn [compiles] in H; rewrite andb_true_r in H; apply andb_true_iff in H as [? ?]
    | H : compiles E Look (PComplete _) = true |- _ => cbn [compiles] in H; rewrite andb_true_r in H
    | H : forall i, valid E i -> elems E ?j = elems E i -> _, Hv : valid E ?j |- _ => specialize (H j Hv eq_refl)
    | H : compiles E Look ?q = true -> _, Hq : compiles E Look ?q = true |- _ => specialize (H Hq)
    end.
  - apply (B_any_ok E Look). apply head_is_elems; auto. exists c, l. split; auto.
  - constructor. eapply Hdiff; eauto.
  - constructor. apply Hnil; auto.
  - apply (B_none_ok E Look). apply head_is_elems; auto. exists c, l. split; auto. intros (t & Ht & Hc).
    rewrite e in Hc; auto. discriminate.
  - constructor. intros (c' & rest' & He' & Hc)%head_is_elems; auto. rewrite <- H0 in He'. injection He' as <- <-. auto.
  - constructor. apply Hnil; auto.
  - apply (B_all_ok E Look). now apply matches_at_starts.
  - constructor. intros Hs. apply n. now apply matches_at_starts in Hs.
  - apply (B_anything_ok E Look). destruct (Nat.eq_dec (sp_len i) 0) as [Hz|]; [|lia].
    apply nil_len in Hz; auto. congruence.
  - constructor. now apply nil_len.
  - rewrite adv_0. constructor.
  - destruct (look_fors q qs) as (tys & Ht & Hok); auto. specialize (H Hok). destruct o as [c|].
    + destruct H as (j & v & Hb). eapply B_choice_look_ok; eauto.
    + eapply B_choice_look_no; eauto.
  - destruct (look_fors q qs) as (tys & Ht & Hok); auto. specialize (H Hok). destruct o as [c|].
    + destruct H as (vs & Hb). eapply B_seq_look_ok; eauto.
    + eapply B_seq_look_no; eauto.
  - eapply B_maybe_look_some; eauto.
  - rewrite adv_0. now apply B_maybe_look_none.
  - cbn [compiles] in H2. rewrite andb_true_r in H2. apply andb_true_iff in H2 as [Hn Hq].
    apply negb_true_iff, Nat.eqb_neq in Hn.
    assert (Hok : look_ok (repeat q n)) by (apply Forall_forall; intros x ->%repeat_spec; auto).
    specialize (H Hok). rewrite <- repeat_look in H. destruct o as [c|].
    + destruct H as (vs & Hb). eapply B_exactly_look_ok; eauto.
    + now apply B_exactly_look_no.
  - assert (Hv : valid E (adv i c)) by (apply adv_valid; eauto using peg_valid_c).
    destruct (H0 (adv i c) Hv) as (vs & Hb); [now rewrite elems_adv_skipn|auto|]. rewrite adv_adv' in Hb.
    apply (B_oom_look_ok E q i RVoid vs). change (@nil event) with (@nil event ++ []).
    eapply BI_next; eauto using look_shaped.
  - now apply B_oom_look_no.
  - destruct H as (vs & Hb). eapply B_zom_look; eauto.
  - assert (Hv : valid E (adv i c)) by (apply adv_valid; eauto using peg_valid_c).
    destruct (H0 (adv i c) Hv) as (prs & Hb); [now rewrite elems_adv_skipn|auto|auto|]. rewrite adv_adv' in Hb.
    change (@nil event) with (@nil event ++ []). eapply B_delim_look_ok; eauto.
  - now apply B_delim_look_no.
  - apply B_ignore. now apply H.
  - eapply B_complete_ok; eauto. cbn. rewrite elems_length by auto. lia.
  - eapply B_complete_rest; eauto. cbn. rewrite elems_length in l0 by auto. lia.
  - now apply B_complete_no.
  - apply B_join_look. now apply H.
  - apply B_map_look. now apply H.
  - apply B_filter_look. now apply H.
  - apply B_named. now apply H.
  - apply B_custom_look. apply H. apply Hcust.
  - constructor.
  - match goal with H : look_ok (_ :: _) |- _ => inversion H; subst end. exists 0, RVoid. constructor. auto.
  - match goal with H : look_ok (_ :: _) |- _ => inversion H; subst end. specialize (H0 ltac:(auto)). specialize (H ltac:(auto)).
    cbn [map]. destruct o as [c|].
    + destruct H0 as (j & v & Hb). exists (S j), v.
      change (Some (S j, v, adv i c)) with (bump (Some (j, v, adv i c))). change (@nil event) with (@nil event ++ []).
      now apply BF_next.
    + change (@None (nat * rv * span)) with (bump None). change (@nil event) with (@nil event ++ []). now apply BF_next.
  - exists []. rewrite adv_0. constructor.
  - match goal with H : look_ok (_ :: _) |- _ => inversion H; subst end. constructor. auto.
  - match goal with H : look_ok (_ :: _) |- _ => inversion H; subst end. specialize (H ltac:(auto)).
    assert (Hv : valid E (adv i c)) by (apply adv_valid; eauto using peg_valid_c).
    specialize (H0 (adv i c) Hv). rewrite elems_adv_skipn in H0. specialize (H0 eq_refl ltac:(auto)).
    cbn [map]. destruct o as [d|].
    + destruct H0 as (vs & Hb). rewrite adv_adv' in Hb. exists (RVoid :: vs).
      change (Some (RVoid :: vs, adv i (c + d))) with (push RVoid (Some (vs, adv i (c + d)))).
      change (@nil event) with (@nil event ++ []). eapply BC_next; eauto using look_shaped.
    + change (@None (list rv * span)) with (push RVoid None). change (@nil event) with (@nil event ++ []).
      eapply BC_next; eauto using look_shaped.
  - exists []. rewrite adv_0. now constructor.
  - assert (Hv : valid E (adv i c)) by (apply adv_valid; eauto using peg_valid_c).
    destruct (H0 (adv i c) Hv) as (vs & Hb); [now rewrite elems_adv_skipn|auto|]. rewrite adv_adv' in Hb.
    exists (RVoid :: vs). change (@nil event) with (@nil event ++ []). eapply BI_next; eauto using look_shaped.
  - exists []. rewrite adv_0. now constructor.
  - assert (Hv : valid E (adv i a)) by (apply adv_valid; eauto using peg_valid_c).
    specialize (H0 (adv i a) Hv). rewrite elems_adv_skipn in H0. specialize (H0 eq_refl ltac:(auto)).
    exists []. rewrite adv_0. change (@nil event) with (@nil event ++ []). eapply BT_back; eauto.
  - assert (Hv : valid E (adv i a)) by (apply adv_valid; eauto using peg_valid_c).
    specialize (H0 (adv i a) Hv). rewrite elems_adv_skipn in H0. specialize (H0 eq_refl ltac:(auto)).
    assert (Hb' : peg E q (elems E (adv i a)) (Some b)) by now rewrite elems_adv_skipn.
    assert (Hv' : valid E (adv (adv i a) b)) by (apply adv_valid; eauto using peg_valid_c).
    specialize (H1 (adv (adv i a) b) Hv'). rewrite !elems_adv_skipn in H1. specialize (H1 eq_refl ltac:(auto) ltac:(auto)).
    destruct H1 as (prs & Hb). rewrite !adv_adv', <- Nat.add_assoc in Hb. exists ((RVoid, RVoid) :: prs).
    change (@nil event) with (@nil event ++ [] ++ []). eapply BT_next; eauto using look_shaped.
    now rewrite adv_adv'.
Qed.
End Recognise.

(** ** C38 *)

(** A lookahead that returns reports what the grammar says, silently; and whenever the grammar
    has an answer, the lookahead returns it.  The grammar side knows only the list of elements. *)
Theorem C38_lookahead_is_peg {T V} (E : env T V) p i r tr :
  (forall c, compiles E Look (cust_body E c) = true) -> compiles E Look p = true -> valid E i ->
  (evals E Look p i (Done r tr) <->
   tr = [] /\ exists o, peg E p (elems E i) o /\ r = peg_result i o).
Proof.
  intros Hc Hp Hv. rewrite evals_big by auto. split.
  - intros Hb. destruct (big_peg E) as [H _]. exact (H _ _ _ _ _ Hb eq_refl Hv).
  - intros (-> & o & Ho & ->). destruct (peg_big E Hc) as [H _]. exact (H _ _ _ Ho i Hv eq_refl Hp).
Qed.

(** The only other way a lookahead can end is not at all. *)
Theorem C38_lookahead_otherwise_diverges {T V} (E : env T V) p i :
  program E -> compiles E Look p = true -> valid E i ->
  (forall o, ~ peg E p (elems E i) o) -> diverges E Look p i.
Proof.
  intros HP Hc Hv Hno n. destruct HP as [HT HC].
  destruct (look_safe E n p i Hv Hc HT HC) as [Hub Hill]. pose proof (look_quiet E n p i) as Hq.
  destruct (run E n Look p i) as [r tr| |e| |] eqn:Hr; try contradiction; auto.
  exfalso. assert (He : evals E Look p i (Done r tr)) by (split; [discriminate|eauto]).
  apply C38_lookahead_is_peg in He; auto; [|apply (ec_compiles E HC)].
  destruct He as (_ & o & Ho & _). exact (Hno o Ho).
Qed.

(** Case: a recursive custom parser over nested parentheses consumes the whole bracketed part. *)
Example C38_case : peg sx (PCustom 0) (codes "((a)b)+12") (Some 6).
Proof.
  set (i := Span 1 0 9).
  assert (He : evals sx Look (PCustom 0) i (Done (Res (Some RVoid) (adv i 6)) [])) by runs 60.
  apply C38_lookahead_is_peg in He; [|apply sx_program|reflexivity|cbv; lia].
  destruct He as (_ & o & Ho & Hr). destruct o as [c|]; [|discriminate].
  unfold peg_result in Hr. injection Hr as Hc _. 
  destruct c as [|[|[|[|[|[|[|c]]]]]]]; try discriminate. exact Ho.
Qed.

(** Case: nothing to say about [*(~"z")], whose lookahead loops; the theorem's hypothesis holds. *)
Example C38_case_diverges : diverges sx Look (PZeroOrMore (PMaybe (PAllOf [122]))) (at1 0).
Proof.
  apply C38_lookahead_otherwise_diverges; [apply sx_program|reflexivity|cbv; lia|].
  assert (Hs : forall q l c, peg_star sx q l c -> q = PMaybe (PAllOf [122]) -> l = elems sx (at1 0) -> False).
  { induction 1 as [q l H|q l c d H Hs IH]; intros -> ->; [inversion H|].
    assert (c = 0) as ->; [|apply IH; auto].
    inversion H; subst; auto. match goal with H : peg _ (PAllOf _) _ _ |- _ => inversion H; subst end.
    match goal with H : starts _ _ _ |- _ => destruct H as (l1 & l2 & He & HF) end.
    inversion HF; subst. cbn in He. injection He as <- _. discriminate. }
  intros o Ho. inversion Ho; subst. eauto.
Qed.

Print Assumptions C38_lookahead_is_peg.
Print Assumptions C38_lookahead_otherwise_diverges.
