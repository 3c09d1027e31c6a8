(** * Parsers as context-free grammars

    [lang E p w]: the text [w] belongs to the parser [p] read as a context-free grammar: [|] is union, [>>] is
    concatenation, [*] [+] [~] are any number, at least one, at most one, without order and without greed.  Against it
    stands what lookahead does, ordered and greedy ([peg], Peg.v). *)
From Coq Require Import String List Arith ZArith Bool Lia.
From Verif Require Import Types Compound Parser Outcome CompoundFacts Exec Mono Derive Typing Join Leaves Sound Peg Throws Term.
Import ListNotations.

Section Lang.
Context {T V : Type} (E : env T V).
Implicit Types (p q d : parser T) (w r l : list V).

Inductive lang : parser T -> list V -> Prop :=
| L_any arr c : (exists t, In t arr /\ eqv E t c = true) -> lang (PAnyOf arr) [c]
| L_none arr c : (forall t, In t arr -> eqv E t c = false) -> lang (PNoneOf arr) [c]
| L_all arr w : Forall2 (fun t c => eqv E t c = true) arr w -> lang (PAllOf arr) w
| L_anything c : lang PAnything [c]
| L_eps : lang PEpsilon []
| L_choice q qs w : lang_or (q :: qs) w -> lang (PChoice q qs) w
| L_seq q qs w : lang_and (q :: qs) w -> lang (PSequence q qs) w
| L_maybe_no q : lang (PMaybe q) []
| L_maybe q w : lang q w -> lang (PMaybe q) w
| L_exactly q n w : lang_and (repeat q n) w -> lang (PExactly q n) w
| L_oom q w w' : lang q w -> lang_star q w' -> lang (POneOrMore q) (w ++ w')
| L_zom q w : lang_star q w -> lang (PZeroOrMore q) w
| L_delimit q d w w' : lang q w -> lang_tail q d w' -> lang (PDelimit q d) (w ++ w')
| L_ignore q w : lang q w -> lang (PIgnore q) w
| L_complete q w : lang q w -> lang (PComplete q) w
| L_join q w : lang q w -> lang (PJoin q) w
| L_map q f w : lang q w -> lang (PMap q f) w
| L_filter q f w : lang q w -> lang (PFilter q f) w
| L_named q s w : lang q w -> lang (PNamed q s) w
| L_custom c w : lang (cust_body E c) w -> lang (PCustom c) w
with lang_or : list (parser T) -> list V -> Prop :=
| L_or_here q qs w : lang q w -> lang_or (q :: qs) w
| L_or_next q qs w : lang_or qs w -> lang_or (q :: qs) w
with lang_and : list (parser T) -> list V -> Prop :=
| L_and_nil : lang_and [] []
| L_and_next q qs w w' : lang q w -> lang_and qs w' -> lang_and (q :: qs) (w ++ w')
with lang_star : parser T -> list V -> Prop :=
| L_star_nil q : lang_star q []
| L_star_next q w w' : lang q w -> lang_star q w' -> lang_star q (w ++ w')
(* any number of: a delimiter, an element *)
with lang_tail : parser T -> parser T -> list V -> Prop :=
| L_tail_nil q d : lang_tail q d []
| L_tail_next q d w1 w2 w' : lang d w1 -> lang q w2 -> lang_tail q d w' -> lang_tail q d (w1 ++ (w2 ++ w')).

Scheme lang_ind2 := Induction for lang Sort Prop
  with lang_or_ind2 := Induction for lang_or Sort Prop
  with lang_and_ind2 := Induction for lang_and Sort Prop
  with lang_star_ind2 := Induction for lang_star Sort Prop
  with lang_tail_ind2 := Induction for lang_tail Sort Prop.
Combined Scheme lang_mut from lang_ind2, lang_or_ind2, lang_and_ind2, lang_star_ind2, lang_tail_ind2.

(** ** What lookahead accepts is in the grammar *)
Lemma firstn_add (a b : nat) l : firstn (a + b) l = firstn a l ++ firstn b (skipn a l).
Proof. revert l. induction a; intros [|x l]; cbn; auto; [now rewrite firstn_nil|]. now rewrite IHa. Qed.

Lemma peg_lang :
  (forall p l o, peg E p l o -> forall c, o = Some c -> lang p (firstn c l)) /\
  (forall ps l o, peg_or E ps l o -> forall c, o = Some c -> lang_or ps (firstn c l)) /\
  (forall ps l o, peg_and E ps l o -> forall c, o = Some c -> lang_and ps (firstn c l)) /\
  (forall p l c, peg_star E p l c -> lang_star p (firstn c l)) /\
  (forall p d l c, peg_tail E p d l c -> lang_tail p d (firstn c l)).
Proof.
  apply peg_mut; intros;
    repeat match goal with
    | H : Some _ = Some _ |- _ => injection H as H; subst
    | H : None = Some _ |- _ => discriminate
    | H : forall c, Some ?x = Some c -> _ |- _ => specialize (H x eq_refl)
    end; cbn [firstn]; rewrite ?firstn_add; try (constructor; eauto; fail).
  - destruct s as (l1 & l2 & -> & HF). constructor. rewrite (Forall2_len _ _ _ HF), firstn_app, Nat.sub_diag, firstn_all. cbn. now rewrite app_nil_r.
  - destruct o as [d|]; [|discriminate]. injection H1 as <-. rewrite firstn_add. constructor; auto.
Qed.
Lemma peg_lang_p p l c : peg E p l (Some c) -> lang p (firstn c l).
Proof. intros H. exact (proj1 peg_lang _ _ _ H c eq_refl). Qed.

(** ** Grammars in which order and greed make no difference

    [F]: the texts that may follow.  [begins q s]: some word of [q] begins [s].  The condition on a choice is that an
    alternative does not begin what a later one, followed by what may follow, can be; on a repetition, that its body does
    not begin what may follow.  [G]: what may follow the custom parsers. *)
Definition then_ (L F : list V -> Prop) (s : list V) : Prop := exists w r, s = w ++ r /\ L w /\ F r.
Definition begins (L : list V -> Prop) (s : list V) : Prop := exists w r, s = w ++ r /\ L w.
Definition apart (L F : list V -> Prop) : Prop := forall s, F s -> ~ begins L s.
Definition within (F G : list V -> Prop) : Prop := forall s, F s -> G s.

Inductive clear (G : nat -> list V -> Prop) : parser T -> (list V -> Prop) -> Prop :=
| U_any arr F : clear G (PAnyOf arr) F
| U_none arr F : clear G (PNoneOf arr) F
| U_all arr F : clear G (PAllOf arr) F
| U_anything F : clear G PAnything F
| U_eps F : clear G PEpsilon F
| U_choice q qs F : clear_or G (q :: qs) F -> clear G (PChoice q qs) F
| U_seq q qs F : clear_and G (q :: qs) F -> clear G (PSequence q qs) F
| U_maybe q F : clear G q F -> apart (lang q) F -> clear G (PMaybe q) F
| U_exactly q n F : clear_and G (repeat q n) F -> clear G (PExactly q n) F
| U_oom q F : clear G q (then_ (lang_star q) F) -> apart (lang q) F -> clear G (POneOrMore q) F
| U_zom q F : clear G q (then_ (lang_star q) F) -> apart (lang q) F -> clear G (PZeroOrMore q) F
| U_delimit q d F : clear G q (then_ (lang_tail q d) F) -> clear G d (then_ (lang q) (then_ (lang_tail q d) F)) ->
    apart (fun w => exists w1 w2, w = w1 ++ w2 /\ lang d w1 /\ lang q w2) F -> clear G (PDelimit q d) F
| U_ignore q F : clear G q F -> clear G (PIgnore q) F
| U_complete q F : clear G q F -> (forall s, F s -> s = []) -> clear G (PComplete q) F
| U_join q F : clear G q F -> clear G (PJoin q) F
| U_map q f F : clear G q F -> clear G (PMap q f) F
| U_filter q f F : clear G q F -> clear G (PFilter q f) F
| U_named q s F : clear G q F -> clear G (PNamed q s) F
| U_custom c F : within F (G c) -> clear G (PCustom c) F
with clear_or (G : nat -> list V -> Prop) : list (parser T) -> (list V -> Prop) -> Prop :=
| U_or_nil F : clear_or G [] F
| U_or_cons q qs F : clear G q F -> apart (lang q) (then_ (lang_or qs) F) -> clear_or G qs F -> clear_or G (q :: qs) F
with clear_and (G : nat -> list V -> Prop) : list (parser T) -> (list V -> Prop) -> Prop :=
| U_and_nil F : clear_and G [] F
| U_and_cons q qs F : clear G q (then_ (lang_and qs) F) -> clear_and G qs F -> clear_and G (q :: qs) F.

(** Every part has an answer for every text: it does not run forever. *)
Definition answers (p : parser T) : Prop := forall q l, reach E p q -> exists o, peg E q l o.

Lemma answers_part p q : In q (components E p) -> answers p -> answers q.
Proof. intros Hi H r l Hr. apply H. eapply reach_step; eauto. Qed.

Lemma refused q l : (exists o, peg E q l o) -> ~ begins (lang q) l -> peg E q l None.
Proof.
  intros ([c|] & Ho) Hn; auto. exfalso. apply Hn. exists (firstn c l), (skipn c l).
  split; [symmetry; apply firstn_skipn|]. now apply peg_lang_p.
Qed.

Ltac part := match goal with H : answers _ |- answers ?q => refine (answers_part _ q _ H); cbn; auto end.

Definition skip_app w r : skipn (List.length w) (w ++ r) = r.
Proof. now rewrite skipn_app, skipn_all, Nat.sub_diag. Qed.

Lemma clear_peg (G : nat -> list V -> Prop) : (forall c, clear G (cust_body E c) (G c)) ->
  (forall p w, lang p w -> forall F r, clear G p F -> answers p -> F r -> peg E p (w ++ r) (Some (List.length w))) /\
  (forall ps w, lang_or ps w -> forall F r, clear_or G ps F -> Forall answers ps -> F r -> peg_or E ps (w ++ r) (Some (List.length w))) /\
  (forall ps w, lang_and ps w -> forall F r, clear_and G ps F -> Forall answers ps -> F r -> peg_and E ps (w ++ r) (Some (List.length w))) /\
  (forall p w, lang_star p w -> forall F r, clear G p (then_ (lang_star p) F) -> apart (lang p) F -> answers p -> F r ->
     peg_star E p (w ++ r) (List.length w)) /\
  (forall p d w, lang_tail p d w -> forall F r, clear G p (then_ (lang_tail p d) F) -> clear G d (then_ (lang p) (then_ (lang_tail p d) F)) ->
     apart (fun w => exists w1 w2, w = w1 ++ w2 /\ lang d w1 /\ lang p w2) F -> answers p -> answers d -> F r ->
     peg_tail E p d (w ++ r) (List.length w)).
Proof.
  intros HG. apply lang_mut; intros; cbn [List.length app]; rewrite ?app_length;
    try match goal with H : clear _ _ _ |- peg _ _ _ _ => inversion H; subst; clear H end.
  - now constructor.
  - now constructor.
  - rewrite <- (Forall2_len _ _ _ f). constructor. exists w, r. auto.
  - constructor.
  - constructor.
  - constructor. eapply H; eauto. apply Forall_forall. intros x Hx. now apply (answers_part (PChoice q qs)).
  - constructor. eapply H; eauto. apply Forall_forall. intros x Hx. now apply (answers_part (PSequence q qs)).
  - apply G_maybe_none. apply refused; [|eauto]. apply H0. eapply reach_step; [now left|constructor].
  - constructor. eapply H; eauto. part.
  - constructor. eapply H; eauto. apply Forall_forall. intros x Hx. apply repeat_spec in Hx as ->. part.
  - rewrite <- app_assoc. apply G_oom_some.
    + eapply H; eauto; [part|]. exists w', r. auto.
    + rewrite skip_app. eapply H0; eauto. part.
  - constructor. eapply H; eauto. part.
  - rewrite <- app_assoc. apply G_delim_some.
    + eapply H; eauto; [part|]. exists w', r. auto.
    + rewrite skip_app. eapply H0; eauto; part.
  - constructor. eapply H; eauto. part.
  - assert (r = []) as -> by eauto. replace (List.length w) with (List.length (w ++ [])) by (now rewrite app_nil_r). constructor.
    rewrite app_nil_r at 2. eapply H; eauto. part.
  - constructor. eapply H; eauto. part.
  - constructor. eapply H; eauto. part.
  - constructor. eapply H; eauto. part.
  - constructor. eapply H; eauto. part.
  - constructor. eapply H; eauto. part.
  - match goal with H : clear_or _ _ _ |- _ => inversion H; subst; clear H end. inversion H1; subst. constructor. eauto.
  - match goal with H : clear_or _ _ _ |- _ => inversion H; subst; clear H end. inversion H1; subst.
    apply G_or_next; [|eauto]. apply refused; [apply H4; constructor|]. apply H6. exists w, r. auto.
  - constructor.
  - match goal with H : clear_and _ _ _ |- _ => inversion H; subst; clear H end. inversion H2; subst. rewrite <- app_assoc.
    apply (G_and_next E q qs _ (List.length w) (Some (List.length w'))).
    + eapply H; eauto. exists w', r. auto.
    + rewrite skip_app. eauto.
  - constructor. apply refused; auto. apply H1. constructor.
  - rewrite <- app_assoc. apply G_star_next.
    + eapply H; eauto. exists w', r. auto.
    + rewrite skip_app. eauto.
  - destruct (H3 d r) as [[a|] Ha]; [constructor| |now constructor].
    destruct (H2 q (skipn a r)) as [[b|] Hb]; [constructor| |eapply G_tail_back; eauto].
    exfalso. apply (H1 r H4). exists (firstn (a + b) r), (skipn (a + b) r). split; [symmetry; apply firstn_skipn|].
    exists (firstn a r), (firstn b (skipn a r)). split; [apply firstn_add|]. split; now apply peg_lang_p.
  - rewrite <- !app_assoc. apply G_tail_next.
    + eapply H; eauto. exists w2, (w' ++ r). split; [reflexivity|]. split; auto. exists w', r. auto.
    + rewrite skip_app. eapply H0; eauto. exists w', r. auto.
    + rewrite !skip_app. eauto.
Qed.

Theorem clear_peg_p G p F w r : (forall c, clear G (cust_body E c) (G c)) -> clear G p F -> answers p -> F r -> lang p w ->
  peg E p (w ++ r) (Some (List.length w)).
Proof. intros HG Hp Ha Hr Hw. exact (proj1 (clear_peg G HG) p w Hw F r Hp Ha Hr). Qed.

(** ** When every part has an answer

    [emp] as in Term.v: a sound notion of succeeding without consuming. *)
Section Total.
Variable emp : parser T -> Prop.
Variable p0 : parser T.
Hypothesis emp_sound : forall q l, reach E p0 q -> peg E q l (Some 0) -> emp q.
Hypothesis bodies : forall q, reach E p0 q -> repeats_well emp q.
Hypothesis founded : forall q, reach E p0 q -> Acc (fun b a => left E emp a b) q.

Lemma starts_dec arr : forall l, starts E arr l \/ ~ starts E arr l.
Proof.
  induction arr as [|t arr IH]; intros l.
  - left. exists [], l. auto.
  - destruct l as [|c l].
    + right. intros (l1 & l2 & He & HF). inversion HF; subst. discriminate.
    + destruct (eqv E t c) eqn:Ht.
      * destruct (IH l) as [(l1 & l2 & -> & HF)|Hn].
        -- left. exists (c :: l1), l2. split; auto.
        -- right. intros (l1 & l2 & He & HF). inversion HF; subst. injection He as -> ->. apply Hn. eexists _, _. split; eauto.
      * right. intros (l1 & l2 & He & HF). inversion HF; subst. injection He as -> ->. congruence.
Qed.
Lemma any_dec (arr : list T) c : (exists t, In t arr /\ eqv E t c = true) \/ (forall t, In t arr -> eqv E t c = false).
Proof.
  destruct (existsb (fun t => eqv E t c) arr) eqn:Ha.
  - left. apply existsb_exists in Ha. exact Ha.
  - right. intros t Ht. destruct (eqv E t c) eqn:He; auto. assert (existsb (fun t => eqv E t c) arr = true) by (apply existsb_exists; eauto). congruence.
Qed.

Section Layer.
Variable q0 : parser T.
Variable l0 : list V.
Hypothesis Hq0 : reach E p0 q0.
Hypothesis IHl : forall l q, List.length l < List.length l0 -> reach E p0 q -> exists o, peg E q l o.
Hypothesis IHa : forall q, left E emp q0 q -> exists o, peg E q l0 o.

(** [l0] itself or shorter *)
Definition near l := l = l0 \/ List.length l < List.length l0.
Lemma near_skip l c : near l -> near (skipn c l).
Proof.
  intros [-> |H]; [|right; rewrite skipn_length; lia]. unfold near. destruct (Nat.eq_dec c 0) as [-> |Hc]; [left; reflexivity|].
  destruct (Nat.eq_dec (List.length l0) 0) as [Hz|Hz]; [left|right; rewrite skipn_length; lia].
  apply length_zero_iff_nil in Hz. rewrite Hz. apply skipn_nil.
Qed.
Lemma near_eat l c : near l -> c <> 0 -> c <= List.length l -> List.length (skipn c l) < List.length l0.
Proof. intros [-> |H] Hc Hl; rewrite skipn_length; lia. Qed.

Lemma part_reach q : In q (components E q0) -> reach E p0 q.
Proof. intros H. eapply reach_trans; [exact Hq0|]. eapply reach_step; [exact H|constructor]. Qed.
Lemma ask q l : In q (components E q0) -> near l -> (l = l0 -> left E emp q0 q) -> exists o, peg E q l o.
Proof. intros Hi [-> |H] Hl; auto. apply IHl; auto. now apply part_reach. Qed.

Lemma or_total qs : (forall q, In q qs -> exists o, peg E q l0 o) -> exists o, peg_or E qs l0 o.
Proof.
  induction qs as [|q qs IH]; intros H; [eexists; constructor|].
  destruct (H q (or_introl eq_refl)) as [[c|] Hc]; [eexists; eapply G_or_here; eassumption|].
  destruct IH as [o Ho]; [intros; apply H; now right|]. exists o. now apply G_or_next.
Qed.
Lemma and_total (post : list (parser T)) : forall (pre : list (parser T)) (l : list V), near l -> (l = l0 -> Forall emp pre) -> (forall r : parser T, In r post -> In r (components E q0)) ->
  (forall (pre' : list (parser T)) (r : parser T) (post' : list (parser T)), post = pre' ++ r :: post' -> Forall emp (pre ++ pre') -> left E emp q0 r) ->
  exists o, peg_and E post l o.
Proof.
  induction post as [|r post IH]; intros pre l Hn Hp Hc Hl; [eexists; constructor|].
  assert (Ha : l = l0 -> left E emp q0 r).
  { intros ->. apply (Hl [] r post eq_refl). rewrite app_nil_r. auto. }
  destruct (ask r l (Hc r (or_introl eq_refl)) Hn Ha) as [[c|] Ho]; [|eexists; econstructor; eassumption].
  destruct (IH (pre ++ [r]) (skipn c l)) as [o Hr].
  - now apply near_skip.
  - intros Hs. assert (c <= List.length l) by (apply (proj1 (peg_le E) _ _ _ Ho c eq_refl)).
    destruct (Nat.eq_dec c 0) as [-> |Hc0].
    + cbn in Hs. subst l. apply Forall_app. split; auto. constructor; [|constructor].
      eapply emp_sound; eauto. apply part_reach. apply Hc. now left.
    + pose proof (near_eat _ _ Hn Hc0 H). rewrite Hs in H0. lia.
  - intros x Hx. apply Hc. now right.
  - intros pre' x post' -> HF. apply (Hl (r :: pre') x post' eq_refl). now rewrite <- app_assoc in HF.
  - eexists. eapply G_and_next; eauto.
Qed.
Lemma same_total q n : (forall l, near l -> exists o, peg E q l o) -> forall l, near l -> exists o, peg_and E (repeat q n) l o.
Proof.
  intros H. induction n as [|n IH]; intros l Hn; [eexists; constructor|]. cbn.
  destruct (H l Hn) as [[c|] Ho]; [|eexists; econstructor; eassumption].
  destruct (IH (skipn c l)) as [o Hr]; [now apply near_skip|]. eexists. eapply G_and_next; eauto.
Qed.
Lemma star_total q : In q (components E q0) -> ~ emp q -> (forall l, near l -> exists o, peg E q l o) ->
  forall n l, List.length l <= n -> near l -> exists c, peg_star E q l c.
Proof.
  intros Hi He H. induction n as [n IH] using lt_wf_ind. intros l Hl Hn.
  destruct (H l Hn) as [[c|] Ho]; [|eexists; econstructor; eassumption].
  assert (c <= List.length l) by (apply (proj1 (peg_le E) _ _ _ Ho c eq_refl)).
  assert (c <> 0) by (intros ->; apply He; eapply emp_sound; eauto; now apply part_reach).
  destruct (IH (List.length (skipn c l))) with (l := skipn c l) as [e Hr]; auto; [rewrite skipn_length; lia|now apply near_skip|].
  eexists. eapply G_star_next; eauto.
Qed.
Lemma tail_total q d : In q (components E q0) -> In d (components E q0) -> ~ (emp q /\ emp d) ->
  (forall l, near l -> exists o, peg E q l o) -> (emp q -> left E emp q0 d) ->
  forall n l, List.length l <= n -> near l -> (l = l0 -> emp q) -> exists c, peg_tail E q d l c.
Proof.
  intros Hi Hd He H Hleft. induction n as [n IH] using lt_wf_ind. intros l Hl Hn Hq.
  destruct (ask d l Hd Hn (fun e => Hleft (Hq e))) as [[a|] Ho]; [|eexists; econstructor; eassumption].
  assert (Ha : a <= List.length l) by (apply (proj1 (peg_le E) _ _ _ Ho a eq_refl)).
  destruct (H (skipn a l)) as [[b|] Hb]; [now apply near_skip| |eexists; eapply G_tail_back; eauto].
  assert (Hbl : b <= List.length (skipn a l)) by (apply (proj1 (peg_le E) _ _ _ Hb b eq_refl)). rewrite skipn_length in Hbl.
  assert (a + b <> 0).
  { intros Hz. assert (a = 0) as -> by lia. assert (b = 0) as -> by lia. apply He. split; eapply emp_sound; eauto using part_reach. }
  destruct (IH (List.length (skipn b (skipn a l)))) with (l := skipn b (skipn a l)) as [e Hr]; auto.
  - rewrite !skipn_length. lia.
  - now repeat apply near_skip.
  - intros Hs. apply (f_equal (@List.length V)) in Hs. rewrite !skipn_length in Hs. destruct Hn as [-> |Hn]; lia.
  - eexists. eapply G_tail_next; eauto.
Qed.

End Layer.

Lemma layer_total q0 l0 : reach E p0 q0 -> (forall l q, List.length l < List.length l0 -> reach E p0 q -> exists o, peg E q l o) ->
  (forall q, left E emp q0 q -> exists o, peg E q l0 o) -> exists o, peg E q0 l0 o.
Proof.
  intros Hq0 IHl IHa.
  assert (Hnear : near l0 l0) by now left.
  assert (Hone : forall q, In q (components E q0) -> left E emp q0 q -> forall l, near l0 l -> exists o, peg E q l o)
    by (intros; apply (ask q0 l0 Hq0 IHl IHa); auto).
  pose proof (and_total q0 l0 Hq0 IHl IHa) as AT. pose proof (star_total q0 l0 Hq0) as ST.
  pose proof (tail_total q0 l0 Hq0 IHl IHa) as TT. pose proof (part_reach q0 Hq0) as PR.
  pose proof (bodies q0 Hq0) as Hb.
  destruct q0 as [arr|arr|arr| | |q qs|q qs|q|q n|q|q|q d|q|q|q|q f|q f|q s|c]; cbn [components In] in *; cbn [repeats_well] in Hb.
  - destruct l0 as [|c l]; [eexists; constructor|]. destruct (any_dec arr c); eexists; econstructor; eassumption.
  - destruct l0 as [|c l]; [eexists; constructor|]. destruct (any_dec arr c); eexists; econstructor; eassumption.
  - destruct (starts_dec arr l0); eexists; econstructor; eassumption.
  - destruct l0; eexists; constructor.
  - eexists; constructor.
  - destruct (or_total l0 (q :: qs)) as [o Ho]; [|exists o; now constructor]. intros r Hr. apply IHa. now constructor.
  - destruct (AT (q :: qs) [] l0) as [o Ho]; auto; [|exists o; now constructor].
    intros pre r post He HF. eapply left_seq; eauto.
  - destruct (IHa q) as [[c|] Ho]; [constructor| |]; eexists; [eapply G_maybe_some; eassumption|eapply G_maybe_none; eassumption].
  - destruct (same_total l0 q n) with (l := l0) as [o Ho]; auto; [apply Hone; auto; constructor|]. exists o. now constructor.
  - destruct (IHa q) as [[c|] Ho]; [constructor| |eexists; eapply G_oom_none; eassumption].
    destruct (ST q) with (n := List.length l0) (l := skipn c l0) as [e He]; auto.
    + apply Hone; auto. constructor.
    + rewrite skipn_length. lia.
    + now apply near_skip.
    + eexists. eapply G_oom_some; eauto.
  - destruct (ST q) with (n := List.length l0) (l := l0) as [e He]; auto.
    + apply Hone; auto. constructor.
    + eexists. eapply G_zom; eauto.
  - destruct (IHa q) as [[c|] Ho]; [constructor| |eexists; eapply G_delim_none; eassumption].
    assert (Hc : c <= List.length l0) by (apply (proj1 (peg_le E) _ _ _ Ho c eq_refl)).
    destruct (TT q d) with (n := List.length l0) (l := skipn c l0) as [e He]; auto.
    + apply Hone; auto. constructor.
    + intros. now constructor.
    + rewrite skipn_length. lia.
    + now apply near_skip.
    + intros Hs. apply (f_equal (@List.length V)) in Hs. rewrite skipn_length in Hs.
      assert (c = 0 \/ List.length l0 = 0) as [-> |Hz] by lia.
      * eapply emp_sound; [apply PR; auto|exact Ho].
      * assert (c = 0) as -> by lia. eapply emp_sound; [apply PR; auto|exact Ho].
    + eexists. eapply G_delim_some; eauto.
  - destruct (IHa q) as [o Ho]; [constructor|]. eexists. constructor; eauto.
  - destruct (IHa q) as [[c|] Ho]; [constructor| |eexists; eapply G_complete_no; eassumption].
    assert (Hc : c <= List.length l0) by (apply (proj1 (peg_le E) _ _ _ Ho c eq_refl)).
    destruct (Nat.eq_dec c (List.length l0)) as [-> |Hn]; [eexists; eapply G_complete_ok; eassumption|]. eexists. eapply G_complete_rest; eauto. lia.
  - destruct (IHa q) as [o Ho]; [constructor|]. eexists. constructor; eauto.
  - destruct (IHa q) as [o Ho]; [constructor|]. eexists. constructor; eauto.
  - destruct (IHa q) as [o Ho]; [constructor|]. eexists. constructor; eauto.
  - destruct (IHa q) as [o Ho]; [constructor|]. eexists. constructor; eauto.
  - destruct (IHa (cust_body E c)) as [o Ho]; [constructor|]. eexists. constructor; eauto.
Qed.


Theorem all_answer : answers p0.
Proof.
  intros q l. remember (List.length l) as n eqn:Hn. revert q l Hn.
  induction n as [n IHn] using lt_wf_ind. intros q l Hn Hq. revert l Hn. pose proof (founded q Hq) as Ha.
  induction Ha as [q _ IHa]. intros l Hn. apply layer_total; auto.
  - intros l' q' Hl' Hq'. apply (IHn (List.length l')); auto. lia.
  - intros q' Hl. apply IHa; auto. eapply reach_trans; [exact Hq|]. eapply reach_step; [|constructor].
    destruct Hl; cbn [components]; try (left; reflexivity); auto; [rewrite H; apply in_elt|right; now left].
Qed.
End Total.
End Lang.
