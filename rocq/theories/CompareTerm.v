(** * With user comparisons: runs end in every world *)
From Coq Require Import String List Arith ZArith Bool Lia Relations.
From Verif Require Import Types Compound Parser Outcome CompoundFacts Exec Mono Derive Typing Join Leaves Sound
  BigStep BigSound BigComplete Peg Throws Runs PropCore Term PropTerm Stateful StatefulFacts StatefulSafe StatefulTerm
  Compares CompareFacts.
Import ListNotations.

Section Term.
Context {T V W : Type} (E : env T V).
Variable sfn : nat -> list val -> W -> fnres * W.
Variable sct : ty -> list val -> W -> fnres * W.
Variable seq : T -> V -> W -> cmpres * W.
Notation xrun := (xrun E sfn sct seq).
Notation xstep := (xstep E sfn sct seq).
Notation cbasic := (cbasic E seq).
Notation cjoin_special := (cjoin_special E seq).
Notation eff := (@eff W).
Notation valid := (valid E).
Notation ce := (can_be_empty E).
Notation okp := (okp E).
Notation fokp := (fokp E).

(** ** What is left over *)
Lemma advance_ends {A} i c (f : span -> eff A) Q : (c <= sp_len i -> ends (f (adv i c)) Q) -> ends (sbind (lift (advance i c)) f) Q.
Proof.
  intros H. unfold advance. destruct (Nat.leb_spec c (sp_len i)) as [Hc|].
  - intros w a tr w'. unfold sbind, lift. cbn. specialize (H Hc). unfold adv in H.
    destruct (f _ w) as [[b tr'| | | |] w2] eqn:He; try discriminate. intros [= <- <- <-]. eapply H; eauto.
  - intros w a tr w'. discriminate.
Qed.
Lemma adv_okp p i c v : c <= sp_len i -> (c = 0 -> ce p) -> okp p i (success v (adv i c)).
Proof. intros Hc H0. split; cbn; [exists c; auto|]. intros Hl. apply H0. lia. Qed.
Lemma adv_okp0 p i v : ce p -> okp p i (success v i).
Proof. intros H. split; cbn; auto using suffix_refl. Qed.

Lemma cbasic_empty p fc len : cbasic p = Some (fc, len) -> len = 0 -> ce p.
Proof.
  destruct p; try discriminate; cbn; intros [= <- <-]; try discriminate. destruct arr; [constructor|discriminate].
Qed.
Lemma cbasic_okp p fc len m i : cbasic p = Some (fc, len) ->
  ends (match m with Parse => cbasic_parse fc len i | Look => cbasic_look fc len i end) (okp p i).
Proof.
  intros Hb. destruct m; [unfold cbasic_parse|unfold cbasic_look]; (eapply ends_bind; [apply ends_any|]); intros [|] _;
    try (apply ends_ret; reflexivity).
  - eapply ends_bind; [apply ends_any|]. intros v _. apply advance_ends. intros Hl. apply ends_ret. apply adv_okp; auto.
    eapply cbasic_empty; eauto.
  - apply advance_ends. intros Hl. apply ends_ret. apply adv_okp; auto. eapply cbasic_empty; eauto.
Qed.
Lemma jx_okp (fc : span -> eff bool) len : forall k res i, ends (cjx_loop fc len k res i)
  (fun r : option (span * span) => match r with None => True | Some (_, i') => suffix i i' /\ (k <> 0 -> sp_len i' = sp_len i -> len = 0) end).
Proof.
  induction k as [|k IH]; intros res i; cbn [cjx_loop]; [apply ends_ret; split; [apply suffix_refl|congruence]|].
  eapply ends_bind; [apply ends_any|]. intros [|] _; [now apply ends_ret|].
  apply advance_ends. intros Hl. eapply ends_mono; [apply IH|]. intros [[r i']|]; auto. intros [Hs _].
  assert (Hsl := suffix_len _ _ Hs). cbn in Hsl. split.
  - eapply suffix_trans; [|exact Hs]. exists len. auto.
  - intros _ He. lia.
Qed.
Lemma jr_okp (fc : span -> eff bool) len : forall k res i, ends (cjr_loop fc len k res i) (fun '(_, i') => suffix i i').
Proof.
  induction k as [|k IH]; intros res i; cbn [cjr_loop]; [apply ends_oof|].
  eapply ends_bind; [apply ends_any|]. intros [|] _; [apply ends_ret, suffix_refl|].
  apply advance_ends. intros Hl. eapply ends_mono; [apply IH|]. intros [r i'] Hs. eapply suffix_trans; [|exact Hs]. exists len. auto.
Qed.
Lemma cspecial_okp q k f m i : cjoin_special q k = Some f -> ends (f m i) (okp (PJoin q) i).
Proof.
  intros Hf. destruct q; try discriminate; cbn [Compares.cjoin_special] in Hf; destruct (cbasic q) as [[fc len]|] eqn:Hb; try discriminate.
  - injection Hf as <-. assert (Hce : ce (PJoin (PMaybe q))) by (constructor; constructor).
    destruct m; unfold cjm_parse, cjm_look; (eapply ends_bind; [apply ends_any|]); intros [|] _; try (apply ends_ret; now apply adv_okp0).
    + eapply ends_bind; [apply ends_any|]. intros v _. apply advance_ends. intros Hl. apply ends_ret, adv_okp; auto.
    + apply advance_ends. intros Hl. apply ends_ret, adv_okp; auto.
  - destruct (Nat.eqb_spec n 0); [discriminate|]. injection Hf as <-.
    destruct m; unfold cjx_parse, cjx_look; (eapply ends_bind; [apply jx_okp|]); intros [[r i']|] H; apply ends_ret; try reflexivity;
      destruct H as [Hs He]; split; auto; intros Hl; constructor; constructor; auto; eapply cbasic_empty; eauto.
  - injection Hf as <-. assert (Hok : forall v i', len <= sp_len i -> suffix (adv i len) i' -> okp (PJoin (POneOrMore q)) i (success v i')).
    { intros v i' Hl Hs. assert (L := suffix_len _ _ Hs). cbn in L. split; cbn.
      - eapply suffix_trans; [|exact Hs]. exists len. auto.
      - intros He. constructor. constructor. eapply cbasic_empty; eauto. lia. }
    destruct m; unfold cjo_parse, cjo_look; (eapply ends_bind; [apply ends_any|]); intros [|] _; try (apply ends_ret; reflexivity).
    + eapply ends_bind; [apply ends_any|]. intros v _. apply advance_ends. intros Hl. eapply ends_bind; [apply jr_okp|].
      intros [r i'] Hs. apply ends_ret. auto.
    + apply advance_ends. intros Hl. eapply ends_bind; [apply jr_okp|]. intros [r i'] Hs. apply ends_ret. auto.
  - injection Hf as <-. destruct m; unfold cjz_parse, cjz_look; (eapply ends_bind; [apply jr_okp|]); intros [r i'] Hs; apply ends_ret;
      split; auto; intros _; constructor; constructor.
Qed.

Section Look.
Variable rec : mode -> parser T -> @sfun W.
Hypothesis Hrec : forall m p, fokp p (rec m p).
Lemma look_step_okp k p i : valid i -> ends (xstep rec k Look p i) (okp p i).
Proof.
  intros Hv. pose proof (fun q => Hrec Look q i Hv) as Hq.
  destruct p as [arr|arr|arr| | |q qs|q qs|q|q n0|q|q|q d|q|q|q|q f|q f|q s|c]; cbn [xstep Compares.xstep sstep].
  - now apply (cbasic_okp (PAnyOf arr) _ _ Look).
  - now apply (cbasic_okp (PNoneOf arr) _ _ Look).
  - now apply (cbasic_okp (PAllOf arr) _ _ Look).
  - eapply (lift_okp E 1 Look); auto; reflexivity.
  - eapply (lift_okp E 1 Look); auto; reflexivity.
  - unfold schoice_look. destruct (result_fors E (q :: qs)) as [tys|] eqn:Ht; [|apply ends_ill].
    eapply ends_bind; [apply (or_okp E rec Hrec); auto|].
    intros [[|] [i' b]] H; apply ends_ret; [|reflexivity]. destruct H as [H1 H2]. split; auto. intros Hl.
    destruct (H2 Hl) as (r & Hr & Hc). rewrite map_map, map_id in Hr. econstructor; eauto.
  - unfold ssequence_look. destruct (result_fors E (q :: qs)) as [tys|] eqn:Ht; [|apply ends_ill].
    eapply ends_bind; [apply (and_okp E rec Hrec); auto|].
    intros [[|] [i' b]] H; apply ends_ret; [|reflexivity]. destruct H as [H1 H2]. split; auto. intros Hl.
    rewrite map_map, map_id in H2. constructor. apply all_ce_forall. auto.
  - unfold smaybe_look. eapply ends_bind; [apply Hq|]. intros [[v|] rem] Hr; cbn [has_value r_ok r_rem]; apply ends_ret.
    + destruct Hr. split; auto. constructor.
    + apply adv_okp0. constructor.
  - destruct (n0 =? 0) eqn:H0; [apply ends_ill|]. apply Nat.eqb_neq in H0.
    unfold sexactly_look. eapply ends_bind; [apply (exactly_okp E q); auto|].
    intros [[i' b]|] H; apply ends_ret; [|reflexivity]. destruct H. split; auto. constructor; auto.
  - unfold sone_or_more_look. eapply ends_bind; [apply (rep_okp E q); auto|].
    intros [[i' b] [|]] (H1 & H2 & H3); apply ends_ret.
    + split; auto. intros Hl. constructor. auto.
    + destruct (H2 eq_refl) as [_ ->]. reflexivity.
  - unfold szero_or_more_look. eapply ends_bind; [apply (rep_okp E q); auto|].
    intros [[i' b] s] (H1 & H2 & H3); apply ends_ret. split; auto. constructor.
  - unfold sdelimit_look. eapply ends_bind; [apply Hq|]. intros [[v|] rem] Hr; cbn [has_value r_ok]; [|now apply ends_ret].
    destruct Hr as [Hs He]. cbn in Hs, He.
    eapply ends_bind; [apply (delim_okp E q d); auto; cbn; eauto using suffix_valid|].
    intros [i' b] H. cbn in H. apply ends_ret. split; [cbn; eauto using suffix_trans|]. cbn. intros Hl. constructor. apply He.
    assert (L1 := suffix_len _ _ Hs). assert (L2 := suffix_len _ _ H). lia.
  - eapply ends_mono; [apply Hq|]. intros r. unfold StatefulTerm.okp. destruct (r_ok r); auto. intros []. split; auto. now constructor; auto.
  - unfold scomplete_run. eapply ends_bind; [apply Hq|]. intros res Hr. destruct (_ || _); apply ends_ret; [reflexivity|].
    revert Hr. unfold StatefulTerm.okp. destruct (r_ok res); auto. intros []. split; auto. now constructor; auto.
  - destruct (cjoin_special q k) as [f|] eqn:Hj; [now apply (cspecial_okp q k)|]. cbn [sjoin_generic].
    eapply ends_mono; [apply Hq|]. intros r. unfold StatefulTerm.okp. destruct (r_ok r); auto. intros []. split; auto. now constructor; auto.
  - eapply ends_mono; [apply Hq|]. intros r. unfold StatefulTerm.okp. destruct (r_ok r); auto. intros []. split; auto. now constructor; auto.
  - eapply ends_mono; [apply Hq|]. intros r. unfold StatefulTerm.okp. destruct (r_ok r); auto. intros []. split; auto. now constructor; auto.
  - eapply ends_mono; [apply Hq|]. intros r. unfold StatefulTerm.okp. destruct (r_ok r); auto. intros []. split; auto. now constructor; auto.
  - eapply ends_mono; [apply Hq|]. intros r. unfold StatefulTerm.okp. destruct (r_ok r); auto. intros []. split; auto.
    intros. now constructor; auto.
Qed.
End Look.

Lemma xrun_okp n : forall m p i, valid i -> ends (xrun n m p i) (okp p i).
Proof.
  induction n as [|n IH]; intros m p i Hv; cbn [Compares.xrun]; [apply ends_oof|].
  assert (Hr : forall m p, fokp p (xrun n m p)) by (intros m' q j Hj; auto).
  destruct m; [|now apply look_step_okp]. assert (Hs := step_okp E sfn sct (xrun n) n Hr p i Hv).
  destruct p; cbn [Compares.xstep]; try exact Hs.
  - now apply (cbasic_okp (PAnyOf arr) _ _ Parse).
  - now apply (cbasic_okp (PNoneOf arr) _ _ Parse).
  - now apply (cbasic_okp (PAllOf arr) _ _ Parse).
  - destruct (cjoin_special p n) as [f|] eqn:Hj; [now apply (cspecial_okp p n)|].
    rewrite (cspecial_join E sfn sct seq (xrun n) n Parse p i Hj) in Hs. exact Hs.
Qed.

(** ** Fuel *)
Hint Resolve sfin_ret : core.
Ltac sft := repeat first
  [ apply sfin_bind; [|intros ?]
  | match goal with
    | |- sfin (match ?x with _ => _ end) => destruct x
    | |- sfin (if ?x then _ else _) => destruct x
    end
  | progress intros
  | solve [auto]
  | (apply sfin_lift; solve [auto using fin_first, fin_advance, fin_ret|discriminate]) ].
Lemma compare_fin t c : sfin (compare seq t c).
Proof. intros w. unfold compare. destruct (seq t c w) as [[b|e] w']; discriminate. Qed.
Hint Resolve compare_fin : core.
Lemma contains_fin arr c : sfin (ccontains seq arr c).
Proof. induction arr; cbn [ccontains]; sft. Qed.
Lemma read_fin b o : sfin (W := W) (lift (read E b o)).
Proof. apply sfin_lift. unfold read. destruct (nth_error (mem E b) o); discriminate. Qed.
Hint Resolve contains_fin read_fin : core.
Lemma front_fin i : sfin (W := W) (lift (front E i)).
Proof. unfold front. destruct (sp_len i =? 0); [apply sfin_lift; discriminate|auto]. Qed.
Lemma eq_loop_fin arr b : forall o, sfin (ceq_loop E seq arr b o).
Proof. induction arr; intros; cbn [ceq_loop]; sft. Qed.
Hint Resolve eq_loop_fin front_fin : core.
Lemma fc_fin p fc len i : cbasic p = Some (fc, len) -> sfin (fc i).
Proof.
  destruct p; try discriminate; cbn; intros [= <- <-]; unfold cany_fc, cnone_fc, call_fc, cspan_equal; sft.
Qed.
Lemma cbasic_fin p fc len i m : cbasic p = Some (fc, len) ->
  sfin (match m with Parse => cbasic_parse fc len i | Look => cbasic_look fc len i end).
Proof. intros Hb. pose proof (fun i => fc_fin p fc len i Hb). destruct m; unfold cbasic_parse, cbasic_look; sft. Qed.

Lemma cjr_settles (fc : span -> eff bool) len : (forall i, sfin (fc i)) -> len <> 0 -> forall l i, sp_len i <= l ->
  forall res, ssettles (fun _ k => cjr_loop fc len k res i).
Proof.
  intros Hf Hl. induction l as [l IH] using lt_wf_ind. intros i Hi res.
  pose (body := fun k' => sbind (fc i) (fun b : bool => if b then sret (res, i) else
     sbind (lift (advance i len)) (fun i' => cjr_loop fc len k' (Span (sp_blk res) (sp_off res) (sp_len res + len)) i'))).
  apply (ss_ext (fun (_ : nat) k => match k with O => lift OOF | S k' => body k' end)); [intros n [|k]; reflexivity|].
  apply (ss_pre (fun _ k => body k)). unfold body. clear body.
  apply ss_bind; [apply ss_fin; auto|]. intros [|] _; [apply ss_fin; auto|].
  apply ss_bind; [apply ss_fin; sft|]. intros i' (n & k & w & tr & w' & Ha). unfold lift, advance in Ha.
  destruct (Nat.leb_spec len (sp_len i)); [|discriminate]. injection Ha as <- _ _.
  apply (IH (sp_len i - len)); cbn; lia.
Qed.

Lemma xstep_settles R m p i : (forall n m p i, valid i -> ends (R n m p i) (okp p i)) ->
  valid i -> repeats_well ce p -> (forall r, p = PJoin r -> repeats_well ce r) ->
  (forall m q j, In q (components E p) -> suffix i j -> sp_len j < sp_len i \/ left E ce p q -> scalm R m q j) ->
  ssettles (fun n k => xstep (R n) k m p i).
Proof.
  intros HR Hv Hrw Hrj Hc. assert (Hs := sstep_settles E sfn sct R HR m p i Hv Hrw Hrj Hc).
  destruct p as [arr|arr|arr| | |q qs|q qs|q|q n0|q|q|q d|q|q|q|q f|q f|q s|c]; cbn [Compares.xstep]; try exact Hs.
  - apply ss_fin. now apply (cbasic_fin (PAnyOf arr)).
  - apply ss_fin. now apply (cbasic_fin (PNoneOf arr)).
  - apply ss_fin. now apply (cbasic_fin (PAllOf arr)).
  - specialize (Hrj q eq_refl).
    assert (Hnone : (forall k, cjoin_special q k = None) -> ssettles (fun n k =>
      match cjoin_special q k with Some f => f m i | None => sjoin_generic E (R n) m q i end)).
    { intros Hn. apply (ss_ext (fun n k => sstep E sfn sct (R n) k m (PJoin q) i)); [|exact Hs].
      intros n k. rewrite Hn. now apply cspecial_join with (seq := seq). }
    destruct q as [| | | | | | |q'|q' n0|q'|q'| | | | | | | |]; try (apply Hnone; reflexivity);
      (destruct (cbasic q') as [[fc len]|] eqn:Hb; [|apply Hnone; intros k; cbn; now rewrite Hb]); clear Hnone;
      cbn [Compares.cjoin_special]; rewrite Hb; assert (Hf := fun i => fc_fin q' fc len i Hb).
    + apply ss_fin. destruct m; unfold cjm_parse, cjm_look; sft.
    + destruct (Nat.eqb_spec n0 0) as [-> |].
      { refine (ss_ext _ _ _ Hs). intros n k. now apply cspecial_join with (seq := seq); cbn; rewrite Hb. }
      assert (Hx : forall k res j, sfin (cjx_loop fc len k res j)) by (induction k; intros; cbn [cjx_loop]; sft).
      apply ss_fin. destruct m; unfold cjx_parse, cjx_look; sft.
    + assert (Hr : forall res j, ssettles (fun _ k => cjr_loop fc len k res j)).
      { intros res j. eapply cjr_settles; eauto. intros H0. apply Hrj. eapply cbasic_empty; eauto. }
      destruct m; unfold cjo_parse, cjo_look; (apply ss_bind; [apply ss_fin; auto|]); intros [|] _; try (apply ss_fin; solve [auto]).
      * apply ss_bind; [apply ss_fin; sft|]. intros v _. apply ss_bind; [apply ss_fin; sft|]. intros i1 _.
        apply ss_bind; [apply Hr|]. intros [? ?] _. apply ss_fin; auto.
      * apply ss_bind; [apply ss_fin; sft|]. intros i1 _.
        apply ss_bind; [apply Hr|]. intros [? ?] _. apply ss_fin; auto.
    + assert (Hr : forall res j, ssettles (fun _ k => cjr_loop fc len k res j)).
      { intros res j. eapply cjr_settles; eauto. intros H0. apply Hrj. eapply cbasic_empty; eauto. }
      destruct m; unfold cjz_parse, cjz_look; (apply ss_bind; [apply Hr|]); intros [? ?] _; apply ss_fin; auto.
Qed.

Lemma xterm_settles m q i : (forall w, exists n, fst (xrun n m q i w) <> OOF) -> scalm xrun m q i.
Proof.
  intros H w. destruct (H w) as [N HN]. destruct (xrun N m q i w) as [o w'] eqn:He. exists o, w', N. split; auto.
  intros n k Hn _. rewrite <- He. apply (n_run E sfn sct seq N n m q i Hn w). now rewrite He.
Qed.
Lemma xsettles_all p : (forall q, reach E p q -> repeats_well ce q) ->
  (forall q, reach E p q -> Acc (fun b a => left E ce a b) q) ->
  forall len q, reach E p q -> forall i, sp_len i <= len -> valid i -> forall m, scalm xrun m q i.
Proof.
  intros Hr Ha. induction len as [len IHl] using lt_wf_ind. intros q Hq.
  specialize (Ha q Hq). induction Ha as [q _ IHa]. intros i Hi Hv m.
  apply xterm_settles. intros w0.
  assert (H : ssettles (fun n k => xstep (xrun n) k m q i)).
  { apply xstep_settles; auto.
    - exact xrun_okp.
    - intros r ->. apply Hr. eapply reach_trans; eauto. eapply reach_step; [now left|apply reach_refl].
    - intros m' r j Hin Hj Hlt.
      assert (Hreach : reach E p r) by (eapply reach_trans; eauto; eapply reach_step; [eauto|apply reach_refl]).
      assert (Hvj : valid j) by eauto using suffix_valid.
      destruct (Nat.eq_dec (sp_len j) (sp_len i)) as [He|Hn].
      + destruct Hlt as [?|HL]; [lia|]. apply IHa; auto. lia.
      + apply suffix_len in Hj. apply (IHl (sp_len j)); auto. lia. }
  destruct (H w0) as (o & w' & N & Ho & Hf). exists (S N). cbn [Compares.xrun]. rewrite Hf; auto.
Qed.
End Term.
