(** * Properties C07, C08, C11, C12, C13, C14, C15 *)
From Coq Require Import String List Arith ZArith Bool Lia.
From Verif Require Import Types Compound Parser Outcome CompoundFacts Exec Mono Derive Typing Join Leaves Sound
  BigStep BigSound BigComplete Peg Elems Runs Samples.
Import ListNotations.

Section Heads.
Context {T V : Type} (E : env T V).

Lemma elems_cons i : valid E i -> 0 < sp_len i ->
  exists c rest, elems E i = c :: rest /\ nth_error (mem E (sp_blk i)) (sp_off i) = Some c.
Proof.
  intros Hv Hl. pose proof (elems_length E i Hv) as Hn. destruct (elems E i) as [|c rest] eqn:He; [cbn in Hn; lia|].
  exists c, rest. split; auto. rewrite <- (Nat.add_0_r (sp_off i)), <- elems_nth by auto. now rewrite He.
Qed.

Lemma head_is_elems i P : valid E i -> head_is E i P <-> exists c rest, elems E i = c :: rest /\ P c.
Proof.
  intros Hv. split.
  - intros (Hl & c & Hc & HP). destruct (elems_cons i Hv Hl) as (c' & rest & He & Hc').
    exists c', rest. split; auto. congruence.
  - intros (c & rest & He & HP). pose proof (elems_length E i Hv) as Hn. rewrite He in Hn. cbn in Hn.
    split; [lia|]. destruct (elems_cons i Hv ltac:(lia)) as (c' & rest' & He' & Hc'). exists c'. split; congruence.
Qed.

Lemma adv_valid i c : valid E i -> c <= sp_len i -> valid E (adv i c).
Proof. unfold valid. cbn. lia. Qed.

Lemma matches_at_starts arr : forall i, valid E i ->
  (List.length arr <= sp_len i /\ matches_at E (sp_blk i) arr (sp_off i)) <-> starts E arr (elems E i).
Proof.
  induction arr as [|t arr IH]; intros i Hv; cbn [matches_at List.length].
  - split; [|split; auto; lia]. intros _. exists [], (elems E i). split; auto.
  - split.
    + intros (Hl & (c & Hc & He) & Hm).
      assert (Hs : starts E arr (elems E (adv i 1))).
      { apply IH; [apply adv_valid; auto; lia|]. cbn [adv sp_blk sp_off sp_len].
        replace (sp_off i + 1) with (S (sp_off i)) by lia. split; auto. lia. }
      destruct Hs as (l1 & l2 & Hs & HF). destruct (elems_cons i Hv ltac:(lia)) as (c' & rest & He' & Hc').
      assert (c' = c) by congruence. subst c'.
      rewrite elems_adv_skipn, He' in Hs. cbn in Hs. exists (c :: l1), l2. rewrite He', Hs. split; auto.
    + intros (l1 & l2 & Hs & HF). inversion HF as [|? c ? l1' Hc HF']; subst.
      pose proof (elems_length E i Hv) as Hn. rewrite Hs in Hn. cbn in Hn.
      destruct (elems_cons i Hv ltac:(lia)) as (c' & rest & He' & Hc').
      rewrite Hs in He'. injection He' as <- <-.
      destruct (IH (adv i 1)) as [_ H]; [apply adv_valid; auto; lia|].
      destruct H as [H1 H2]; [exists l1', l2; rewrite elems_adv_skipn, Hs; auto|].
      cbn [adv sp_blk sp_off sp_len] in *. replace (sp_off i + 1) with (S (sp_off i)) in H2 by lia.
      split; [lia|]. split; eauto.
Qed.

Lemma in_set_dec arr c : in_set E arr c \/ ~ in_set E arr c.
Proof.
  unfold in_set. destruct (existsb (fun t => eqv E t c) arr) eqn:H.
  - left. apply existsb_exists in H as (t & H1 & H2). eauto.
  - right. intros (t & H1 & H2). assert (existsb (fun t => eqv E t c) arr = true) by (apply existsb_exists; eauto). congruence.
Qed.

Lemma starts_dec arr l : starts E arr l \/ ~ starts E arr l.
Proof.
  revert l. induction arr as [|t arr IH]; intros l.
  - left. exists [], l. auto.
  - destruct l as [|c l]; [right; intros (l1 & l2 & H & HF); inversion HF; subst; discriminate|].
    destruct (eqv E t c) eqn:He.
    + destruct (IH l) as [(l1 & l2 & -> & HF)|Hn]; [left; exists (c :: l1), l2; auto|].
      right. intros (l1 & l2 & H & HF). inversion HF; subst. injection H as <- ->. apply Hn. exists l', l2. auto.
    + right. intros (l1 & l2 & H & HF). inversion HF; subst. injection H as <- ->. congruence.
Qed.
End Heads.

(** ** C07: single-element parsers *)

(** One element matched: its own address, one element consumed; [m] says whether the value
    is asked for. *)
Definition took_one (m : mode) (i : span) : presult :=
  Res (Some (match m with Parse => RVal (VSpan (Span (sp_blk i) (sp_off i) 1)) | Look => RVoid end))
      (Span (sp_blk i) (sp_off i + 1) (sp_len i - 1)).

Theorem C07_any_of {T V} (E : env T V) m arr i : valid E i ->
  ((exists c rest, elems E i = c :: rest /\ exists t, In t arr /\ eqv E t c = true) /\
   evals E m (PAnyOf arr) i (Done (took_one m i) [])) \/
  ((forall c rest, elems E i = c :: rest -> forall t, In t arr -> eqv E t c = false) /\
   evals E m (PAnyOf arr) i (Done (Res None i) [])).
Proof.
  intros Hv. assert (Hd : head_is E i (in_set E arr) \/ ~ head_is E i (in_set E arr)).
  { rewrite head_is_elems by auto. destruct (elems E i) as [|c rest].
    - right. intros (? & ? & ? & ?). discriminate.
    - destruct (in_set_dec E arr c); [left; eauto|right]. intros (? & ? & [= <- <-] & ?). contradiction. }
  destruct Hd as [H|H]; [left|right]; rewrite evals_big by auto.
  - split; [now apply head_is_elems in H|]. exact (B_any_ok E m arr i H).
  - split; [|now constructor]. intros c rest He t Ht. destruct (eqv E t c) eqn:Hq; auto. exfalso. apply H.
    apply head_is_elems; auto. exists c, rest. split; auto. exists t. auto.
Qed.

Theorem C07_none_of {T V} (E : env T V) m arr i : valid E i ->
  ((exists c rest, elems E i = c :: rest /\ forall t, In t arr -> eqv E t c = false) /\
   evals E m (PNoneOf arr) i (Done (took_one m i) [])) \/
  ((forall c rest, elems E i = c :: rest -> exists t, In t arr /\ eqv E t c = true) /\
   evals E m (PNoneOf arr) i (Done (Res None i) [])).
Proof.
  intros Hv. assert (Hd : head_is E i (fun c => ~ in_set E arr c) \/ (forall c rest, elems E i = c :: rest -> in_set E arr c)).
  { rewrite head_is_elems by auto. destruct (elems E i) as [|c rest]; [right; discriminate|].
    destruct (in_set_dec E arr c); [right|left; eauto]. now intros ? ? [= <- <-]. }
  destruct Hd as [H|H]; [left|right]; rewrite evals_big by auto.
  - split; [|exact (B_none_ok E m arr i H)]. apply head_is_elems in H as (c & rest & He & Hc); auto.
    exists c, rest. split; auto. intros t Ht. destruct (eqv E t c) eqn:Hq; auto. exfalso. apply Hc. exists t. auto.
  - split; [exact H|]. constructor. rewrite head_is_elems by auto. intros (c & rest & He & Hc). now apply Hc, (H c rest).
Qed.

Theorem C07_anything {T V} (E : env T V) m i : valid E i ->
  (elems E i <> [] /\ evals E m PAnything i (Done (took_one m i) [])) \/
  (elems E i = [] /\ evals E m PAnything i (Done (Res None i) [])).
Proof.
  intros Hv. pose proof (elems_length E i Hv) as Hl. destruct (elems E i) as [|c rest]; [right|left]; rewrite evals_big by auto.
  - split; auto. now constructor.
  - split; [discriminate|]. apply (B_anything_ok E m i). rewrite <- Hl. cbn. lia.
Qed.

(** Both outcomes of each occur, and the comparison is the environment's [eqv]. *)
Example C07_case :
  evals sx Parse (PAnyOf (codes "()")) in1 (Done (took_one Parse in1) []) /\
  evals sx Look (PNoneOf (codes "()")) in1 (Done (Res None in1) []) /\
  evals sx Look PAnything (Span 1 17 0) (Done (Res None (Span 1 17 0)) []).
Proof. repeat split; try discriminate; exists 2; reflexivity. Qed.

(** ** C08: literals *)
Theorem C08_all_of {T V} (E : env T V) m arr i : valid E i ->
  ((exists pre rest, elems E i = pre ++ rest /\ Forall2 (fun t c => eqv E t c = true) arr pre) /\
   evals E m (PAllOf arr) i
     (Done (Res (Some (match m with
                       | Parse => RVal (VSpan (Span (sp_blk i) (sp_off i) (List.length arr)))
                       | Look => RVoid end))
                (Span (sp_blk i) (sp_off i + List.length arr) (sp_len i - List.length arr))) [])) \/
  (~ (exists pre rest, elems E i = pre ++ rest /\ Forall2 (fun t c => eqv E t c = true) arr pre) /\
   evals E m (PAllOf arr) i (Done (Res None i) [])).
Proof.
  intros Hv. destruct (starts_dec E arr (elems E i)) as [H|H]; [left|right]; (split; [exact H|]); rewrite evals_big by auto.
  - apply (B_all_ok E m arr i). now apply matches_at_starts.
  - apply (B_all_no E m arr i). intros Hp. apply H. now apply matches_at_starts.
Qed.

(** The empty literal always succeeds with an empty span at the input's position. *)
Corollary C08_empty_literal {T V} (E : env T V) m i : valid E i ->
  evals E m (PAllOf []) i
    (Done (Res (Some (match m with Parse => RVal (VSpan (Span (sp_blk i) (sp_off i) 0)) | Look => RVoid end)) i) []).
Proof.
  intros Hv. destruct (C08_all_of E m [] i Hv) as [[_ H]|[H _]].
  - cbn [List.length] in H. rewrite Nat.add_0_r, Nat.sub_0_r in H. destruct i. exact H.
  - exfalso. apply H. exists [], (elems E i). auto.
Qed.

Example C08_case : evals sx Parse (PAllOf (codes "((a")) in1 (Done (Res (Some (RVal (VSpan (Span 1 0 3)))) (at1 3)) []).
Proof. runs 3. Qed.

Section Parts.
Context {T V : Type} (E : env T V).

(** ** C11: sequence *)

Theorem C11_sequence_parse q qs tys i r tr :
  program E -> valid E i -> compiles E Parse (PSequence q qs) = true -> result_fors E (q :: qs) = Some tys ->
  evals E Parse (PSequence q qs) i (Done r tr) <->
  (* all parts one after the other; void parts are only recognised; the non-void values are
     kept in order *)
  (exists vs ws rem, each E (combine (map (fun t => if is_void t then Look else Parse) tys) (q :: qs)) i vs rem tr /\
     kept tys vs ws /\ r = Res (Some (tuple_of ws)) rem) \/
  (* or one fails, and everything is given back *)
  (breaks E (combine (map (fun t => if is_void t then Look else Parse) tys) (q :: qs)) i tr /\ r = Res None i).
Proof.
  intros HP Hv Hc Hr. rewrite evals_big by auto. change (map (fun t => if is_void t then Look else Parse) tys) with (map part_mode tys).
  change (combine (map part_mode tys) (q :: qs)) with (parts tys (q :: qs)).
  pose proof (compiles_parts E _ _ _ Hc Hr) as Hcp. split.
  - intros H. inversion H; subst; match goal with H' : result_fors E _ = Some _ |- _ => rewrite Hr in H'; injection H' as <- end.
    + left. exists vs, ws, rem. split; [|auto].
      match goal with H' : bchain _ _ _ _ _ |- _ => exact (bchain_each E _ _ _ _ H' Hv) end.
    + right. split; [|reflexivity].
      match goal with H' : bchain _ _ _ _ _ |- _ => exact (bchain_each E _ _ _ _ H' Hv) end.
  - intros [(vs & ws & rem & He & Hk & ->)|[Hb ->]].
    + eapply B_seq_ok; eauto. eapply each_bchain; eauto.
    + eapply B_seq_no; eauto. apply breaks_bchain; auto.
Qed.

Theorem C11_sequence_look q qs i r tr :
  program E -> valid E i -> compiles E Look (PSequence q qs) = true ->
  evals E Look (PSequence q qs) i (Done r tr) <->
  (exists vs rem, each E (map (pair Look) (q :: qs)) i vs rem tr /\ r = Res (Some RVoid) rem) \/
  (breaks E (map (pair Look) (q :: qs)) i tr /\ r = Res None i).
Proof.
  intros HP Hv Hc. rewrite evals_big by auto.
  pose proof (compiles_looks E _ _ (or_intror Hc)) as Hcp.
  assert (exists tys, result_fors E (q :: qs) = Some tys) as [tys Hr].
  { cbn [compiles] in Hc. destruct (result_fors E (q :: qs)); eauto. discriminate. }
  split.
  - intros H. inversion H; subst; [left; exists vs, rem; split; auto|right; split; auto];
      match goal with H' : bchain _ _ _ _ _ |- _ => exact (bchain_each E _ _ _ _ H' Hv) end.
  - intros [(vs & rem & He & ->)|[Hb ->]].
    + eapply B_seq_look_ok; eauto. eapply each_bchain; eauto.
    + eapply B_seq_look_no; eauto. apply breaks_bchain; auto.
Qed.

(** No slot of the result is left default-initialised: there is exactly one kept value per
    part of non-void type, and it is that part's value. *)
Theorem C11_every_slot_is_filled tys vs ws : kept tys vs ws ->
  List.length ws = List.length (filter (fun t => negb (is_void t)) tys) /\
  forall j t, nth_error tys j = Some t -> t <> TVoid ->
    exists w, nth_error vs j = Some (RVal w) /\
      nth_error ws (List.length (filter (fun t => negb (is_void t)) (firstn j tys))) = Some w.
Proof.
  induction 1 as [|tys vs ws v H [IH1 IH2]|t tys vs ws w Ht H [IH1 IH2]].
  - split; auto. intros [|j]; discriminate.
  - cbn. split; auto. intros [|j] t; cbn; [intros [= <-]; congruence|]. apply IH2.
  - apply is_void_false in Ht as Hf. cbn. rewrite Hf. cbn. split; [lia|].
    intros [|j] t'; cbn; [intros [= <-] _; eauto|]. rewrite Hf. cbn. apply IH2.
Qed.

(** ** C13: maybe *)
Theorem C13_maybe_parse q t i r tr :
  program E -> valid E i -> compiles E Parse q = true -> result_for E q = Some t ->
  evals E Parse (PMaybe q) i (Done r tr) <->
  (exists v rem, gives E Parse q i v rem tr /\
     r = Res (Some (match v with RVal x => RVal (VOpt (Some x)) | RVoid => RVoid end)) rem) \/
  (refuses E Parse q i tr /\ r = Res (Some (if is_void t then RVoid else RVal (VOpt None))) i).
Proof.
  intros HP Hv Hc Ht. rewrite evals_big by auto. split.
  - intros H. inversion H; subst; match goal with H' : result_for E _ = Some _ |- _ => rewrite Ht in H'; injection H' as <- end.
    + match goal with H' : big _ _ _ _ _ _ |- _ => apply gives_big in H'; [rename H' into Hg|auto] end.
      left. exists v, rem. split; auto. f_equal. f_equal.
      match goal with H' : _ \/ _ |- _ => destruct H' as [[-> ->]|(Hn & x & -> & ->)]; [|reflexivity] end.
      destruct HP as [HT HC]. apply evals_sound in Hg as [_ Hg]; auto.
      destruct (derives_typed E HT HC _ _ _ _ _ Hc Hg) as (t' & Ht' & Hx). rewrite Ht in Ht'. injection Ht' as <-.
      destruct v; auto. now destruct Hx.
    + right. split; auto. apply refuses_big; auto.
  - intros [(v & rem & Hg & ->)|[Hb ->]].
    + pose proof (shaped_typed E _ _ _ _ _ _ HP Hv Hc Hg) as Hs. eapply B_maybe_some; eauto; [apply gives_big; eauto|].
      destruct HP as [HT HC]. apply evals_sound in Hg as [_ Hg]; auto.
      destruct (derives_typed E HT HC _ _ _ _ _ Hc Hg) as (t' & Ht' & Hx). rewrite Ht in Ht'. injection Ht' as <-.
      destruct v as [|x]; cbn in Hx.
      * left. destruct t; try contradiction; auto.
      * right. split; [intros ->; now destruct Hx|eauto].
    + eapply B_maybe_none; eauto. apply refuses_big; auto.
Qed.

Theorem C13_maybe_look q i r tr : valid E i ->
  evals E Look (PMaybe q) i (Done r tr) <->
  (exists v rem, gives E Look q i v rem tr /\ r = Res (Some RVoid) rem) \/
  (refuses E Look q i tr /\ r = Res (Some RVoid) i).
Proof.
  intros Hv. rewrite evals_big by auto. split.
  - intros H. inversion H; subst; [left|right]; [exists v, rem|]; split; auto; [apply gives_big|apply refuses_big]; auto.
  - intros [(v & rem & Hg & ->)|[Hb ->]].
    + eapply B_maybe_look_some. apply gives_big; eauto.
    + eapply B_maybe_look_none. apply refuses_big; auto.
Qed.

Corollary C13_maybe_never_fails m q i rem tr : valid E i -> ~ evals E m (PMaybe q) i (Done (Res None rem) tr).
Proof. intros Hv H. apply evals_big in H; auto. inversion H. Qed.

(** ** C14: repetition *)

(** [n] applications one after the other, and then a failing one. *)
Definition as_often_as_possible m q i vs rem tr : Prop :=
  exists tr1 tr2, each E (repeat (m, q) (List.length vs)) i vs rem tr1 /\ refuses E m q rem tr2 /\ tr = tr1 ++ tr2.

(** The collected value: the vector of the values, in order; nothing if the body has none. *)
Definition collected (C : list val -> val) (t : ty) (vs : list rv) (w : rv) : Prop :=
  if is_void t then w = RVoid else exists ws, vs = map RVal ws /\ w = RVal (C ws).

Lemma collected_collect C t vs w : collected C t vs w <-> collect t C vs w.
Proof.
  unfold collected, collect. destruct (is_void t) eqn:Hv.
  - apply is_void_spec in Hv. subst. intuition congruence.
  - apply is_void_false in Hv. intuition.
Qed.

Theorem C14_zero_or_more_parse q t i r tr :
  program E -> valid E i -> compiles E Parse q = true -> result_for E q = Some t ->
  evals E Parse (PZeroOrMore q) i (Done r tr) <->
  exists vs w rem, as_often_as_possible Parse q i vs rem tr /\ collected VVec t vs w /\ r = Res (Some w) rem.
Proof.
  intros HP Hv Hc Ht. rewrite evals_big by auto. split.
  - intros H. inversion H; subst. match goal with H' : result_for E _ = Some _ |- _ => rewrite Ht in H'; injection H' as <- end.
    exists vs, w, rem. split; [|split; [now apply collected_collect|auto]].
    match goal with H' : biter _ _ _ _ _ _ _ |- _ => exact (biter_each E _ _ _ _ _ _ H' Hv) end.
  - intros (vs & w & rem & (tr1 & tr2 & He & Hf & ->) & Hk & ->). apply collected_collect in Hk.
    eapply B_zom; eauto. eapply each_biter; eauto.
Qed.

Theorem C14_zero_or_more_look q i r tr :
  program E -> valid E i -> compiles E Look q = true ->
  evals E Look (PZeroOrMore q) i (Done r tr) <->
  exists vs rem, as_often_as_possible Look q i vs rem tr /\ r = Res (Some RVoid) rem.
Proof.
  intros HP Hv Hc. rewrite evals_big by auto. split.
  - intros H. inversion H; subst. exists vs, rem. split; auto.
    match goal with H' : biter _ _ _ _ _ _ _ |- _ => exact (biter_each E _ _ _ _ _ _ H' Hv) end.
  - intros (vs & rem & (tr1 & tr2 & He & Hf & ->) & ->). eapply B_zom_look. eapply each_biter; eauto.
Qed.

Theorem C14_one_or_more_parse q t i r tr :
  program E -> valid E i -> compiles E Parse q = true -> result_for E q = Some t ->
  evals E Parse (POneOrMore q) i (Done r tr) <->
  (exists vs w rem, vs <> [] /\ as_often_as_possible Parse q i vs rem tr /\ collected VVec t vs w /\ r = Res (Some w) rem) \/
  (refuses E Parse q i tr /\ r = Res None i).
Proof.
  intros HP Hv Hc Ht. rewrite evals_big by auto. split.
  - intros H. inversion H; subst; match goal with H' : result_for E _ = Some _ |- _ => rewrite Ht in H'; injection H' as <- end.
    + left. exists (v :: vs), w, rem. split; [discriminate|]. split; [|split; [now apply collected_collect|auto]].
      match goal with H' : biter _ _ _ _ _ _ _ |- _ => exact (biter_each E _ _ _ _ _ _ H' Hv) end.
    + right. split; auto. apply refuses_big; auto.
  - intros [(vs & w & rem & Hne & (tr1 & tr2 & He & Hf & ->) & Hk & ->)|[Hf ->]].
    + apply collected_collect in Hk. destruct vs as [|v vs]; [contradiction|]. eapply B_oom_ok; eauto. eapply each_biter; eauto.
    + eapply B_oom_no; eauto. apply refuses_big; auto.
Qed.

Theorem C14_one_or_more_look q i r tr :
  program E -> valid E i -> compiles E Look q = true ->
  evals E Look (POneOrMore q) i (Done r tr) <->
  (exists vs rem, vs <> [] /\ as_often_as_possible Look q i vs rem tr /\ r = Res (Some RVoid) rem) \/
  (refuses E Look q i tr /\ r = Res None i).
Proof.
  intros HP Hv Hc. rewrite evals_big by auto. split.
  - intros H. inversion H; subst.
    + left. exists (v :: vs), rem. split; [discriminate|]. split; auto.
      match goal with H' : biter _ _ _ _ _ _ _ |- _ => exact (biter_each E _ _ _ _ _ _ H' Hv) end.
    + right. split; auto. apply refuses_big; auto.
  - intros [(vs & rem & Hne & (tr1 & tr2 & He & Hf & ->) & ->)|[Hf ->]].
    + destruct vs as [|v vs]; [contradiction|]. eapply B_oom_look_ok; eauto. eapply each_biter; eauto.
    + eapply B_oom_look_no; eauto. apply refuses_big; auto.
Qed.

Corollary C14_star_never_fails m q i rem tr : valid E i -> ~ evals E m (PZeroOrMore q) i (Done (Res None rem) tr).
Proof. intros Hv H. apply evals_big in H; auto. inversion H. Qed.

(** ** C15: exactly *)
Theorem C15_exactly_parse q t n i r tr :
  program E -> valid E i -> compiles E Parse q = true -> result_for E q = Some t -> n <> 0 ->
  evals E Parse (PExactly q n) i (Done r tr) <->
  (exists vs w rem, each E (repeat (Parse, q) n) i vs rem tr /\ collected VArr t vs w /\ r = Res (Some w) rem) \/
  (breaks E (repeat (Parse, q) n) i tr /\ r = Res None i).
Proof.
  intros HP Hv Hc Ht Hn. rewrite evals_big by auto. pose proof (compiles_repeat E _ _ n Hc) as Hcr. split.
  - intros H. inversion H; subst; match goal with H' : result_for E _ = Some _ |- _ => rewrite Ht in H'; injection H' as <- end.
    + left. exists vs, v, rem. split; [|split; [now apply collected_collect|auto]].
      match goal with H' : bchain _ _ _ _ _ |- _ => exact (bchain_each E _ _ _ _ H' Hv) end.
    + right. split; auto. match goal with H' : bchain _ _ _ _ _ |- _ => exact (bchain_each E _ _ _ _ H' Hv) end.
  - intros [(vs & w & rem & He & Hk & ->)|[Hf ->]].
    + apply collected_collect in Hk. eapply B_exactly_ok; eauto. eapply each_bchain; eauto.
    + eapply B_exactly_no; eauto. apply breaks_bchain; auto.
Qed.

Theorem C15_exactly_look q n i r tr :
  program E -> valid E i -> compiles E Look q = true -> n <> 0 ->
  evals E Look (PExactly q n) i (Done r tr) <->
  (exists vs rem, each E (repeat (Look, q) n) i vs rem tr /\ r = Res (Some RVoid) rem) \/
  (breaks E (repeat (Look, q) n) i tr /\ r = Res None i).
Proof.
  intros HP Hv Hc Hn. rewrite evals_big by auto. pose proof (compiles_repeat E _ _ n Hc) as Hcr. split.
  - intros H. inversion H; subst.
    + left. exists vs, rem. split; auto.
      match goal with H' : bchain _ _ _ _ _ |- _ => exact (bchain_each E _ _ _ _ H' Hv) end.
    + right. split; auto. match goal with H' : bchain _ _ _ _ _ |- _ => exact (bchain_each E _ _ _ _ H' Hv) end.
  - intros [(vs & rem & He & ->)|[Hf ->]].
    + eapply B_exactly_look_ok; eauto. eapply each_bchain; eauto.
    + eapply B_exactly_look_no; eauto. apply breaks_bchain; auto.
Qed.

(** The array has exactly N values. *)
Corollary C15_array_length q t n i ws rem tr :
  program E -> valid E i -> compiles E Parse q = true -> result_for E q = Some t -> n <> 0 -> t <> TVoid ->
  evals E Parse (PExactly q n) i (Done (Res (Some (RVal (VArr ws))) rem) tr) -> List.length ws = n.
Proof.
  intros HP Hv Hc Ht Hn Hnv H. apply (C15_exactly_parse q t) in H as [(vs & w & rem' & He & Hk & [= <- <-])|[_ ?]]; auto; [|discriminate].
  unfold collected in Hk. apply is_void_false in Hnv. rewrite Hnv in Hk. destruct Hk as (ws' & -> & [= <-]).
  apply each_length in He. rewrite map_length, repeat_length in He. auto.
Qed.

(** ** C12: a filter rejects wherever it is used -- for parts that have a value *)
(* Missing for the full statement: filters over void parsers, see C12_refuted. *)
Theorem C12_filter_in_sequence_partial q qs tys i v rem tr j p f t :
  program E -> valid E i -> compiles E Parse (PSequence q qs) = true -> result_fors E (q :: qs) = Some tys ->
  evals E Parse (PSequence q qs) i (Done (Res (Some v) rem) tr) ->
  nth_error (q :: qs) j = Some (PFilter p f) -> nth_error tys j = Some t -> t <> TVoid ->
  (* the filtered part was parsed where the parts before it stopped, and there its predicate held *)
  exists vs mid tr1 x mid' tr' c,
    each E (firstn j (combine (map (fun t => if is_void t then Look else Parse) tys) (q :: qs))) i vs mid tr1 /\
    valid E mid /\ gives E Parse p mid (RVal x) mid' tr' /\
    invoke E f [x] = FRet (RVal c) /\ as_bool E c = true.
Proof.
  intros HP Hv Hc Hr H Hj Ht Hnv. eapply C11_sequence_parse in H; eauto.
  destruct H as [(vs & ws & rem' & He & Hk & _)|[_ ?]]; [|discriminate].
  assert (Hin : forall l i0 vs0 r0 tr0, each E l i0 vs0 r0 tr0 -> valid E i0 -> forall k mp, nth_error l k = Some mp ->
     exists vs1 mid tr1 x mid' tr', each E (firstn k l) i0 vs1 mid tr1 /\ valid E mid /\ gives E (fst mp) (snd mp) mid x mid' tr').
  { induction 1; intros Hv0 [|k] mp Hn; try discriminate; cbn [nth_error firstn] in *.
    - injection Hn as <-. do 6 eexists. split; [constructor|]. split; eauto.
    - assert (Hv1 : valid E mid) by (eapply gives_valid; eauto).
      destruct (IHeach Hv1 k mp Hn) as (vs1 & mid1 & tr1 & x & mid' & tr2 & H1 & H2 & H3).
      do 6 eexists. split; [econstructor; eauto|]. split; eauto. }
  assert (Hp : nth_error (parts tys (q :: qs)) j = Some (Parse, PFilter p f)).
  { apply parts_nth. exists t. split; auto. split; auto. unfold part_mode.
    apply is_void_false in Hnv. now rewrite Hnv. }
  destruct (Hin _ _ _ _ _ He Hv _ _ Hp) as (vs1 & mid & tr1 & x & mid' & tr' & Hbe & Hvm & Hg). cbn [fst snd] in Hg.
  apply gives_big in Hg; auto. inversion Hg; subst.
  match goal with H' : big _ _ p _ _ _ |- _ => apply gives_big in H'; auto; rename H' into Hgp end.
  destruct (result_fors_nth E _ _ _ _ Hr Hj) as (t' & Ht' & Hrf). assert (t' = t) by congruence. subst.
  assert (Hcp : compiles E Parse (PFilter p f) = true).
  { pose proof (compiles_part E _ _ _ _ _ _ Hc Hr Hj Ht) as Hcp. unfold part_mode in Hcp.
    apply is_void_false in Hnv. now rewrite Hnv in Hcp. }
  assert (Hcp' : gives E Parse (PFilter p f) mid x mid' (tr0 ++ [EInvoke f (args_of x)])) by (apply gives_big; auto).
  destruct (shaped_typed E _ _ _ _ _ _ HP Hvm Hcp Hcp' eq_refl t) as (w & ->); auto.
  exists vs1, mid, tr1, w, mid', tr0, c. auto.
Qed.
End Parts.

(** A filter over a void parser is only looked at inside a sequence, so its predicate does not
    run: parsed on its own it rejects, in the sequence it is passed over
    (compound_trait gives it index -1, helpers.h:115-133, and helpers.h:156-162 calls
    lookahead; filter.h lookahead ignores the predicate). *)
Theorem C12_filter_in_sequence_refuted :
  exists (p q : parser nat) v rem,
    program sx /\ compiles sx Parse (PSequence p [q]) = true /\ valid sx in1 /\
    evals sx Parse p in1 (Done (Res None in1) [EInvoke (FUser 4) []]) /\
    evals sx Parse (PSequence p [q]) in1 (Done (Res (Some v) rem) []).
Proof.
  exists (PFilter (PIgnore (PAllOf (codes "("))) (FUser 4)), (PAllOf (codes "(")).
  do 2 eexists. split; [split; [apply sx_typed|apply sx_customs]|]. split; [reflexivity|]. split; [apply in1_valid|].
  split; runs 5.
Qed.

(** ** Cases *)
Lemma sx_program : program sx. Proof. split; [apply sx_typed|apply sx_customs]. Qed.

Definition letters2 : parser nat := PFilter (PJoin (POneOrMore (PAnyOf (codes "ab")))) (FUser 0).

(** a sequence with a void part, a filtered part and a maybe, on ["aab"] *)
Example C11_case : compiles sx Parse (PSequence (PIgnore (PAllOf (codes ";"))) [letters2; PMaybe (PAllOf (codes "!"))]) = true /\
  evals sx Parse (PSequence (PIgnore (PAllOf (codes ";"))) [letters2; PMaybe (PAllOf (codes "!"))]) (at1 13)
    (Done (Res (Some (RVal (VTup [VSpan (Span 1 14 3); VOpt None]))) (at1 17)) [EInvoke (FUser 0) [VSpan (Span 1 14 3)]]).
Proof. split; [reflexivity|runs 8]. Qed.

Example C14_case : evals sx Parse (PZeroOrMore (PAnyOf (codes "ab"))) (at1 14)
  (Done (Res (Some (RVal (VVec [VSpan (Span 1 14 1); VSpan (Span 1 15 1); VSpan (Span 1 16 1)]))) (at1 17)) []).
Proof. runs 8. Qed.

Example C15_case :
  evals sx Parse (PExactly (PAnyOf (codes "ab")) 2) (at1 14)
    (Done (Res (Some (RVal (VArr [VSpan (Span 1 14 1); VSpan (Span 1 15 1)]))) (at1 16)) []) /\
  evals sx Parse (PExactly (PAnyOf (codes "ab")) 4) (at1 14) (Done (Res None (at1 14)) []).
Proof. split; runs 8. Qed.

Print Assumptions C07_any_of.
Print Assumptions C07_none_of.
Print Assumptions C07_anything.
Print Assumptions C08_all_of.
Print Assumptions C08_empty_literal.
Print Assumptions C11_sequence_parse.
Print Assumptions C11_sequence_look.
Print Assumptions C11_every_slot_is_filled.
Print Assumptions C12_filter_in_sequence_partial.
Print Assumptions C12_filter_in_sequence_refuted.
Print Assumptions C13_maybe_parse.
Print Assumptions C13_maybe_look.
Print Assumptions C13_maybe_never_fails.
Print Assumptions C14_zero_or_more_parse.
Print Assumptions C14_zero_or_more_look.
Print Assumptions C14_one_or_more_parse.
Print Assumptions C14_one_or_more_look.
Print Assumptions C14_star_never_fails.
Print Assumptions C15_exactly_parse.
Print Assumptions C15_exactly_look.
Print Assumptions C15_array_length.
