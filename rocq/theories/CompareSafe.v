(** * With user comparisons: safety in every world *)
From Coq Require Import String List Arith ZArith Bool Lia.
From Verif Require Import Types Compound Parser Outcome CompoundFacts Exec Mono Derive Typing Join Leaves Sound
  Reloc PropReloc Stateful StatefulFacts StatefulSafe Compares CompareFacts.
Import ListNotations.

Section Safe.
Context {T V W : Type} (E : env T V).
Variable sfn : nat -> list val -> W -> fnres * W.
Variable sct : ty -> list val -> W -> fnres * W.
Variable seq : T -> V -> W -> cmpres * W.
Notation xrun := (xrun E sfn sct seq).
Notation xstep := (xstep E sfn sct seq).
Notation cbasic := (cbasic E seq).
Notation cjoin_special := (cjoin_special E seq).
Notation eff := (@eff W).
Notation valid := (valid E).
Notation okr := (okr E sfn sct).
Notation sok := (sok E sfn sct).
Notation rec_sok := (rec_sok E sfn sct).
Hypothesis HT : senv_typed E sfn sct.
Hypothesis HC : env_customs E.

(** ** Elementary parsers *)
Lemma compare_swp t c : swp (compare seq t c) (fun _ => True).
Proof. intros w. unfold compare. now destruct (seq t c w) as [[b|e] w']. Qed.
Lemma contains_swp arr c : swp (ccontains seq arr c) (fun _ => True).
Proof.
  induction arr as [|t arr IH]; cbn [ccontains]; [now apply swp_ret|]. apply swp_bind. eapply swp_mono; [apply compare_swp|].
  intros [|] _; [now apply swp_ret|exact IH].
Qed.
Lemma read_swp {A} b o (f : V -> eff A) Q : o < List.length (mem E b) -> (forall c, swp (f c) Q) -> swp (sbind (lift (read E b o)) f) Q.
Proof.
  intros Hl H. apply swp_bind, swp_lift. unfold read. destruct (nth_error (mem E b) o) eqn:Hn; [apply H|].
  apply nth_error_None in Hn. lia.
Qed.
Lemma eq_loop_swp arr b : forall o, o + List.length arr <= List.length (mem E b) -> swp (ceq_loop E seq arr b o) (fun _ => True).
Proof.
  induction arr as [|t arr IH]; intros o Ho; cbn [ceq_loop]; [now apply swp_ret|]. cbn in Ho. apply read_swp; [lia|]. intros c.
  apply swp_bind. eapply swp_mono; [apply compare_swp|]. intros [|] _; [apply IH; lia|now apply swp_ret].
Qed.
Lemma fc_swp p fc len i : cbasic p = Some (fc, len) -> valid i -> swp (fc i) (fun b => b = false -> len <= sp_len i).
Proof.
  unfold Sound.valid. intros Hb Hv. destruct p; try discriminate; cbn in Hb; injection Hb as <- <-.
  - unfold cany_fc. destruct (Nat.eqb_spec (sp_len i) 0); [now apply swp_ret|]. unfold front; destruct (Nat.eqb_spec (sp_len i) 0); [lia|]. apply read_swp; [lia|]. intros c.
    apply swp_bind. eapply swp_mono; [apply contains_swp|]. intros b _. apply swp_ret. lia.
  - unfold cnone_fc. destruct (Nat.eqb_spec (sp_len i) 0); [now apply swp_ret|]. unfold front; destruct (Nat.eqb_spec (sp_len i) 0); [lia|]. apply read_swp; [lia|]. intros c.
    eapply swp_mono; [apply contains_swp|]. intros b _. lia.
  - unfold call_fc. destruct (Nat.ltb_spec (sp_len i) (List.length arr)); [now apply swp_ret|].
    apply swp_bind, swp_lift. unfold first. destruct (Nat.leb_spec (List.length arr) (sp_len i)); [|lia].
    cbn. apply swp_bind. eapply swp_mono with (P := fun _ => True); [|intros b _; now apply swp_ret].
    unfold cspan_equal. cbn. rewrite Nat.eqb_refl. apply eq_loop_swp. lia.
Qed.

(** What an elementary parser or a special join makes of the first [c] elements *)
Definition taken (m : mode) (i : span) (c : nat) : presult :=
  success (match m with Parse => RVal (VSpan (Span (sp_blk i) (sp_off i) c)) | Look => RVoid end)
          (Span (sp_blk i) (sp_off i + c) (sp_len i - c)).
Lemma taken_okr m p i c : result_for E p = Some TSpan -> c <= sp_len i -> okr m p i (taken m i c).
Proof.
  intros Ht Hc. unfold taken, StatefulSafe.okr. cbn [r_ok r_rem success]. split; [exists c; auto|]. destruct m; auto. split.
  - exists TSpan. split; auto. now apply rv_has_ty_val.
  - intros _ s [<-|[]] _. cbn. repeat split; lia.
Qed.
Lemma advance_wp i c (Q : span -> Prop) : c <= sp_len i -> Q (Span (sp_blk i) (sp_off i + c) (sp_len i - c)) -> wp False (advance i c) Q.
Proof. intros Hc HQ. unfold advance. destruct (Nat.leb_spec c (sp_len i)); [exact HQ|lia]. Qed.
Lemma first_wp i c (Q : span -> Prop) : c <= sp_len i -> Q (Span (sp_blk i) (sp_off i) c) -> wp False (first i c) Q.
Proof. intros Hc HQ. unfold first. destruct (Nat.leb_spec c (sp_len i)); [exact HQ|lia]. Qed.

Lemma cbasic_ty p fc len : cbasic p = Some (fc, len) -> result_for E p = Some TSpan.
Proof. now destruct p. Qed.
Lemma cbasic_sok p fc len m i : cbasic p = Some (fc, len) -> valid i ->
  swp (match m with Parse => cbasic_parse fc len i | Look => cbasic_look fc len i end) (okr m p i).
Proof.
  intros Hb Hv. pose proof (cbasic_ty _ _ _ Hb) as Ht.
  destruct m; [unfold cbasic_parse|unfold cbasic_look]; apply swp_bind; (eapply swp_mono; [eapply fc_swp; eauto|]); intros [|] H;
    try (apply swp_ret; reflexivity); specialize (H eq_refl).
  - apply swp_bind, swp_lift, first_wp; auto. apply swp_bind, swp_lift, advance_wp; auto. apply swp_ret. now apply (taken_okr Parse).
  - apply swp_bind, swp_lift, advance_wp; auto. apply swp_ret. now apply (taken_okr Look).
Qed.

(** ** Special joins *)
Definition at_ (i : span) (c : nat) : span := Span (sp_blk i) (sp_off i + c) (sp_len i - c).
Lemma at_0 i : at_ i 0 = i.
Proof. destruct i. unfold at_. cbn. f_equal; lia. Qed.
Lemma at_valid i c : valid i -> c <= sp_len i -> valid (at_ i c).
Proof. unfold Sound.valid. cbn. lia. Qed.
Lemma at_at i c d : at_ (at_ i c) d = at_ i (c + d).
Proof. unfold at_. cbn. f_equal; lia. Qed.

Lemma jx_swp p fc len i : cbasic p = Some (fc, len) -> valid i -> forall k c, c <= sp_len i ->
  swp (cjx_loop fc len k (Span (sp_blk i) (sp_off i) c) (at_ i c))
    (fun r => match r with None => True | Some (res, i') => exists c', c' <= sp_len i /\ res = Span (sp_blk i) (sp_off i) c' /\ i' = at_ i c' end).
Proof.
  intros Hb Hv. induction k as [|k IH]; intros c Hc; cbn [cjx_loop]; [apply swp_ret; eauto|].
  apply swp_bind. eapply swp_mono; [apply (fc_swp p fc len (at_ i c) Hb); now apply at_valid|]. intros [|] H; [now apply swp_ret|].
  specialize (H eq_refl). cbn in H. apply swp_bind, swp_lift, advance_wp; [exact H|]. fold (at_ (at_ i c) len). rewrite at_at. cbn [sp_blk sp_off sp_len].
  apply IH. lia.
Qed.
Lemma jr_swp p fc len i : cbasic p = Some (fc, len) -> valid i -> forall k c, c <= sp_len i ->
  swp (cjr_loop fc len k (Span (sp_blk i) (sp_off i) c) (at_ i c))
    (fun '(res, i') => exists c', c' <= sp_len i /\ res = Span (sp_blk i) (sp_off i) c' /\ i' = at_ i c').
Proof.
  intros Hb Hv. induction k as [|k IH]; intros c Hc; cbn [cjr_loop]; [now apply swp_lift|].
  apply swp_bind. eapply swp_mono; [apply (fc_swp p fc len (at_ i c) Hb); now apply at_valid|]. intros [|] H; [apply swp_ret; eauto|].
  specialize (H eq_refl). cbn in H. apply swp_bind, swp_lift, advance_wp; [exact H|]. fold (at_ (at_ i c) len). rewrite at_at. cbn [sp_blk sp_off sp_len].
  apply IH. lia.
Qed.
Lemma cspecial_sok q k f m i : cjoin_special q k = Some f -> valid i -> swp (f m i) (okr m (PJoin q) i).
Proof.
  assert (Ht : result_for E (PJoin q) = Some TSpan) by reflexivity.
  intros Hf Hv. destruct q; try discriminate; cbn [Compares.cjoin_special] in Hf; destruct (cbasic q) as [[fc len]|] eqn:Hb; try discriminate.
  - injection Hf as <-. destruct m; unfold cjm_parse, cjm_look; apply swp_bind; (eapply swp_mono; [eapply fc_swp; eauto|]); intros [|] H.
    + apply swp_ret. pose proof (taken_okr Parse (PJoin (PMaybe q)) i 0 Ht ltac:(lia)) as H0. unfold taken in H0. fold (at_ i 0) in H0. rewrite at_0 in H0. exact H0.
    + specialize (H eq_refl). apply swp_bind, swp_lift, first_wp; auto. apply swp_bind, swp_lift, advance_wp; auto.
      apply swp_ret. now apply (taken_okr Parse).
    + apply swp_ret. split; [apply suffix_refl|reflexivity].
    + specialize (H eq_refl). apply swp_bind, swp_lift, advance_wp; auto. apply swp_ret. now apply (taken_okr Look).
  - destruct (n =? 0); [discriminate|]. injection Hf as <-. pose proof (jx_swp q fc len i Hb Hv n 0 ltac:(lia)) as H. rewrite at_0 in H.
    destruct m; unfold cjx_parse, cjx_look; apply swp_bind; (eapply swp_mono; [exact H|]); intros [[res i']|] Hr; apply swp_ret; try reflexivity;
      destruct Hr as (c & Hc & -> & ->); [now apply (taken_okr Parse)|now apply (taken_okr Look)].
  - injection Hf as <-. destruct m; unfold cjo_parse, cjo_look; apply swp_bind; (eapply swp_mono; [eapply fc_swp; eauto|]); intros [|] H;
      try (apply swp_ret; reflexivity); specialize (H eq_refl).
    + apply swp_bind, swp_lift, first_wp; auto. apply swp_bind, swp_lift, advance_wp; auto. fold (at_ i len).
      apply swp_bind. eapply swp_mono; [apply (jr_swp q fc len i Hb Hv k len H)|]. intros [res i'] (c & Hc & -> & ->). apply swp_ret.
      now apply (taken_okr Parse).
    + apply swp_bind, swp_lift, advance_wp; auto. fold (at_ i len).
      apply swp_bind. eapply swp_mono; [apply (jr_swp q fc len i Hb Hv k len H)|]. intros [res i'] (c & Hc & -> & ->). apply swp_ret.
      now apply (taken_okr Look).
  - injection Hf as <-. pose proof (jr_swp q fc len i Hb Hv k 0 ltac:(lia)) as H. rewrite at_0 in H.
    destruct m; unfold cjz_parse, cjz_look; apply swp_bind; (eapply swp_mono; [exact H|]); intros [res i'] (c & Hc & -> & ->); apply swp_ret;
      [now apply (taken_okr Parse)|now apply (taken_okr Look)].
Qed.

(** ** Lookahead *)
Definition lookr (i : span) (r : presult) : Prop :=
  match r_ok r with None => r_rem r = i | Some v => suffix i (r_rem r) /\ v = RVoid end.
Section Look.
Variable f : @sfun W.
Hypothesis Hf : forall i, valid i -> swp (f i) (lookr i).
Variable i0 : span.
Hypothesis Hv0 : valid i0.
Lemma look_rep : forall k i s, suffix i0 i -> (s = false -> i = i0) ->
  swp (srep_loop f k i RVoid s) (fun '(i', _, s') => suffix i0 i' /\ (s' = false -> i' = i0)).
Proof.
  induction k as [|k IH]; intros i s Hs Hi; cbn [srep_loop]; [now apply swp_lift|].
  apply swp_bind. eapply swp_mono; [apply Hf; eapply suffix_valid; eauto|]. intros [[v|] rem] Hr; cbn [r_ok r_rem].
  - destruct Hr as [Hs' _]. apply swp_bind, swp_lift. cbn. apply IH; eauto. discriminate.
  - cbn in Hr. subst rem. apply swp_ret. auto.
Qed.
Lemma look_exactly : forall k j i, suffix i0 i ->
  swp (sexactly_loop f k j i RVoid) (fun o => match o with None => True | Some (i', _) => suffix i0 i' end).
Proof.
  induction k as [|k IH]; intros j i Hs; cbn [sexactly_loop]; [now apply swp_ret|].
  apply swp_bind. eapply swp_mono; [apply Hf; eapply suffix_valid; eauto|]. intros [[v|] rem] Hr; cbn [r_ok r_rem]; [|now apply swp_ret].
  destruct Hr as [Hs' _]. apply swp_bind, swp_lift. cbn. apply IH. eauto.
Qed.
Variable g : @sfun W.
Hypothesis Hg : forall i, valid i -> swp (g i) (lookr i).
Lemma look_delim : forall k res i b, suffix i0 i -> (r_ok res <> None -> suffix i0 (r_rem res)) ->
  swp (sdelim_loop f g true true k res i b) (fun '(i', _) => suffix i0 i').
Proof.
  induction k as [|k IH]; intros [ro rem] i b Hs Hr; cbn [sdelim_loop]; [now apply swp_lift|].
  cbn [r_ok r_rem] in *. destruct ro as [v|]; [|now apply swp_ret]. specialize (Hr ltac:(discriminate)).
  apply swp_bind, swp_lift. cbn. apply swp_bind. eapply swp_mono; [apply Hg; eapply suffix_valid; eauto|].
  intros [[w|] rd] Hd; cbn [r_ok r_rem]; [|now apply swp_ret]. destruct Hd as [Hd _]. cbn in Hd. assert (Hs2 : suffix i0 rd) by eauto.
  apply swp_bind. eapply swp_mono; [apply Hf; apply (suffix_valid E i0 rd); auto|]. intros [ro rp] Hp.
  apply swp_bind, swp_lift. cbn. apply IH; auto. intros Hn. cbn [r_ok r_rem] in *. destruct ro; [|congruence]. destruct Hp as [Hp _]. cbn in Hp. eauto.
Qed.
End Look.

Section LookStep.
Variable rec : mode -> parser T -> @sfun W.
Hypothesis Hrec : forall q i, compiles E Look q = true -> valid i -> swp (rec Look q i) (lookr i).
Lemma look_or u : forall l, (forall q idx, In (q, idx) l -> idx = None /\ compiles E Look q = true) -> forall i, valid i ->
  swp (sexec_or rec u l (i, RVoid)) (fun '(ok, (i', _)) => ok = true -> suffix i i').
Proof.
  induction l as [|[q idx] l IH]; intros Hl i Hv; cbn [sexec_or]; [apply swp_ret; discriminate|].
  destruct (Hl q idx (or_introl eq_refl)) as [-> Hc]. cbn [sexecute].
  apply swp_bind, swp_bind. eapply swp_mono; [apply Hrec; auto|]. intros [[v|] rem] Hr; cbn [has_value r_ok r_rem]; apply swp_ret.
  - apply swp_ret. intros _. apply Hr.
  - cbn in Hr. subst rem. apply IH; auto. intros; apply Hl; now right.
Qed.
Lemma look_and u i0 : valid i0 -> forall l, (forall q idx, In (q, idx) l -> idx = None /\ compiles E Look q = true) -> forall i, suffix i0 i ->
  swp (sexec_and rec u l (i, RVoid)) (fun '(ok, (i', _)) => ok = true -> suffix i0 i').
Proof.
  intros Hv0. induction l as [|[q idx] l IH]; intros Hl i Hs; cbn [sexec_and]; [now apply swp_ret|].
  destruct (Hl q idx (or_introl eq_refl)) as [-> Hc]. cbn [sexecute].
  apply swp_bind, swp_bind. eapply swp_mono; [apply Hrec; auto; eapply suffix_valid; eauto|].
  intros [[v|] rem] Hr; cbn [has_value r_ok r_rem]; apply swp_ret.
  - destruct Hr as [Hr _]. cbn in Hr. apply IH; eauto. intros; apply Hl; now right.
  - apply swp_ret. discriminate.
Qed.
Ltac splitc H := repeat (apply andb_true_iff in H; let H' := fresh in destruct H as [H H']).

Lemma looked_all l : forallb (compiles E Look) l = true -> forall q idx, In (q, idx) (map (fun p => (p, None)) l) -> idx = @None nat /\ compiles E Look q = true.
Proof.
  intros H q idx Hin. apply in_map_iff in Hin as (q' & [= <- <-] & Hin). split; auto. rewrite forallb_forall in H. auto.
Qed.
Lemma look_step k p i : compiles E Look p = true -> valid i -> swp (xstep rec k Look p i) (lookr i).
Proof.
  intros Hc Hv. destruct p; cbn [xstep Compares.xstep sstep].
  - apply (cbasic_sok (PAnyOf arr) _ _ Look); auto.
  - apply (cbasic_sok (PNoneOf arr) _ _ Look); auto.
  - apply (cbasic_sok (PAllOf arr) _ _ Look); auto.
  - apply swp_lift. unfold basic_look, anything_fc. destruct (Nat.eqb_spec (sp_len i) 0); cbn; [reflexivity|].
    unfold advance. destruct (Nat.leb_spec 1 (sp_len i)); [|lia]. cbn. split; auto. exists 1. auto.
  - apply swp_lift. cbn. split; auto.
  - cbn [compiles] in Hc. unfold schoice_look. destruct (result_fors E (p :: ps)) as [tys|]; [|discriminate].
    apply swp_bind. eapply swp_mono; [apply look_or; auto; now apply looked_all|].
    intros [[|] [i' b]] H; apply swp_ret; [split; auto|reflexivity].
  - cbn [compiles] in Hc. unfold ssequence_look. destruct (result_fors E (p :: ps)) as [tys|]; [|discriminate].
    apply swp_bind. eapply swp_mono; [apply (look_and _ i); auto; now apply looked_all|].
    intros [[|] [i' b]] H; apply swp_ret; [split; auto|reflexivity].
  - cbn [compiles] in Hc. splitc Hc. unfold smaybe_look. apply swp_bind. eapply swp_mono; [apply Hrec; auto|].
    intros [[v|] rem] Hr; cbn [has_value r_ok r_rem]; apply swp_ret; split; auto. apply Hr.
  - cbn [compiles] in Hc. splitc Hc. destruct (n =? 0); [discriminate|]. unfold sexactly_look. apply swp_bind.
    eapply swp_mono; [apply (look_exactly _ (fun i => Hrec p i ltac:(assumption)) i Hv); auto|].
    intros [[i' b]|] H1; apply swp_ret; [split; auto|reflexivity].
  - cbn [compiles] in Hc. splitc Hc. unfold sone_or_more_look. apply swp_bind.
    eapply swp_mono; [apply (look_rep _ (fun i => Hrec p i ltac:(assumption)) i Hv); auto|].
    intros [[i' b] [|]] [H1 H2]; apply swp_ret; [split; auto|]. rewrite (H2 eq_refl). reflexivity.
  - cbn [compiles] in Hc. splitc Hc. unfold szero_or_more_look. apply swp_bind.
    eapply swp_mono; [apply (look_rep _ (fun i => Hrec p i ltac:(assumption)) i Hv); auto|].
    intros [[i' b] s] [H1 H2]; apply swp_ret. split; auto.
  - cbn [compiles] in Hc. splitc Hc. unfold sdelimit_look. apply swp_bind. eapply swp_mono; [apply (Hrec p1); auto|].
    intros [[v|] rem] Hr; cbn [has_value r_ok]; [|apply swp_ret; reflexivity]. destruct Hr as [Hr _]. cbn in Hr.
    apply swp_bind. eapply swp_mono; [apply (look_delim _ (fun i => Hrec p1 i ltac:(assumption)) i Hv _ (fun i => Hrec p2 i ltac:(assumption))); auto|].
    intros [i' b] H1. apply swp_ret. split; auto.
  - apply Hrec; auto.
  - cbn [compiles] in Hc. splitc Hc. unfold scomplete_run. apply swp_bind. eapply swp_mono; [apply Hrec; auto|].
    intros [[v|] rem] Hr; cbn [has_value r_ok r_rem negb orb]; [|apply swp_ret; reflexivity].
    destruct (negb (sp_len rem =? 0)); apply swp_ret; [reflexivity|exact Hr].
  - destruct (cjoin_special p k) as [f|] eqn:Hj; [apply (cspecial_sok p k f Look i Hj Hv)|]. apply Hrec; auto.
  - apply Hrec; auto.
  - apply Hrec; auto.
  - apply Hrec; auto.
  - apply Hrec; auto. apply (ec_compiles E HC).
Qed.
End LookStep.

Theorem xrun_sok n : forall m p i, sok m p -> valid i -> swp (xrun n m p i) (okr m p i).
Proof.
  induction n as [|n IH]; intros m p i Hok Hv; cbn [Compares.xrun]; [now apply swp_lift|]. destruct m.
  - assert (Hs := sstep_sok E sfn sct HT HC (xrun n) n p i IH Hok Hv).
    destruct p; cbn [Compares.xstep]; try exact Hs.
    + apply (cbasic_sok (PAnyOf arr) _ _ Parse); auto.
    + apply (cbasic_sok (PNoneOf arr) _ _ Parse); auto.
    + apply (cbasic_sok (PAllOf arr) _ _ Parse); auto.
    + destruct (cjoin_special p n) as [f|] eqn:Hj; [apply (cspecial_sok p n f Parse i Hj Hv)|].
      rewrite (cspecial_join E sfn sct seq (xrun n) n Parse p i Hj) in Hs. exact Hs.
  - change (swp (xstep (xrun n) n Look p i) (lookr i)). apply look_step; auto; [|apply Hok]. intros q j Hq Hj.
    apply (IH Look q j); auto. split; auto. discriminate.
Qed.
End Safe.
