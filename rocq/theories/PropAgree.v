(** * Properties C05 and C21 *)
From Coq Require Import String List Arith ZArith Bool Lia.
From Verif Require Import Types Compound Parser Outcome CompoundFacts Exec Mono Derive Typing Join Leaves Sound
  BigStep BigSound BigComplete Peg Elems Runs Samples PropCore PropBasic PropCombos Lossless Agree Check.
Import ListNotations.

(** ** C05: lookahead answers "can we parse this?" *)

(** Full statement: for every parser, lookahead has a value iff parse has one, with the same
    remaining input.  It is false (C05_lookahead_answers_refuted).  What is missing from the
    two theorems below: parsers that parse (not merely look at) a filter, a join over a parser
    that drops text between parts it keeps, or a custom parser converting the whole optional. *)
Theorem C05_parse_implies_lookahead_partial {T V} (E : env T V) p i v rem tr :
  program E -> valid E i -> compiles E Parse p = true -> steadily_parsed E p ->
  (evals E Parse p i (Done (Res (Some v) rem) tr) -> evals E Look p i (Done (Res (Some RVoid) rem) [])) /\
  (evals E Parse p i (Done (Res None rem) tr) -> evals E Look p i (Done (Res None rem) [])).
Proof.
  intros [HT HC] Hv Hc Hst. split; intros [_ [n Hn]];
    pose proof (run_agree E HT HC n p i Hv Hst Hc) as H; rewrite Hn in H; destruct H as (b & Hb & ->);
    (split; [discriminate|exists n; exact Hb]).
Qed.

(** Conversely, when the lookahead returns, the parse gives the same answer unless user code throws. *)
Theorem C05_lookahead_implies_parse_partial {T V} (E : env T V) p i ok rem tr :
  program E -> valid E i -> compiles E Parse p = true -> steadily_parsed E p ->
  (forall q, reach E p (PJoin q) -> local_parser E q) ->
  evals E Look p i (Done (Res ok rem) tr) ->
  (exists e, evals E Parse p i (Exn e)) \/
  (ok = None /\ exists tr', evals E Parse p i (Done (Res None rem) tr')) \/
  (ok <> None /\ exists v tr', evals E Parse p i (Done (Res (Some v) rem) tr')).
Proof.
  intros [HT HC] Hv Hc Hst Hj [_ [n Hn]].
  pose proof (run_agree E HT HC n p i Hv Hst Hc) as H. rewrite Hn in H.
  destruct (run_safe E n Parse p i Hv Hc Hj HT HC) as [Hub Hill].
  destruct (run E n Parse p i) as [[o rem'] tr'| |e| |] eqn:Hr; try congruence; try discriminate.
  - destruct H as (b & [= <- _] & He). unfold plain, strip in He. cbn in He. injection He as -> ->.
    right. destruct o as [v|].
    + right. split; [discriminate|]. exists v, tr'. split; [discriminate|eauto].
    + left. split; auto. exists tr'. split; [discriminate|eauto].
  - left. exists e. split; [discriminate|eauto].
Qed.

Lemma sx_steady_choice : steady sx (PSequence (PCustom 0) [PChoice (PAllOf (codes "+")) [PEpsilon]; PJoin (POneOrMore digits)]).
Proof.
  apply (steady_b_ok sx [0; 1]). reflexivity.
Qed.

(** Case: recursive custom parsers with conversions, a choice with an empty alternative, a join. *)
Example C05_case :
  steady sx (PSequence (PCustom 0) [PChoice (PAllOf (codes "+")) [PEpsilon]; PJoin (POneOrMore digits)]) /\
  steady sx (PJoin (PSequence (PIgnore (PAllOf (codes "."))) [POneOrMore digits])) /\
  evals sx Look (PSequence (PCustom 0) [PChoice (PAllOf (codes "+")) [PEpsilon]; PJoin (POneOrMore digits)]) in1
    (Done (Res (Some RVoid) (at1 9)) []) /\
  exists v tr, evals sx Parse (PSequence (PCustom 0) [PChoice (PAllOf (codes "+")) [PEpsilon]; PJoin (POneOrMore digits)]) in1
    (Done (Res (Some v) (at1 9)) tr).
Proof.
  split; [apply sx_steady_choice|]. split; [apply (steady_b_ok sx []); reflexivity|]. split; [runs 20|]. eexists _, _. runs 20. Qed.

(** ... and a filter that is only looked at *)
Example C05_case_ignored_filter : let p := PSequence (PIgnore (PFilter (PAllOf (codes "(")) (FUser 0))) [PAllOf (codes "(")] in
  steadily_parsed sx p /\ ~ steady sx p /\ compiles sx Parse p = true /\
  evals sx Look p in1 (Done (Res (Some RVoid) (at1 2)) []) /\
  evals sx Parse p in1 (Done (Res (Some (RVal (VSpan (Span 1 1 1)))) (at1 2)) []).
Proof.
  cbn zeta. split; [|split; [|split; [reflexivity|split; runs 6]]].
  - intros q H. inversion H as [|? q' ? Hin Hq]; subst; [exact Logic.I|]. cbn in Hin. destruct Hin as [<-|[]].
    inversion Hq as [|? ? ? Hf]; subst; [exact Logic.I|destruct Hf].
  - intros H. apply (H (PFilter (PAllOf (codes "(")) (FUser 0))). eapply reach_step; [left; reflexivity|].
    eapply reach_step; [left; reflexivity|]. constructor.
Qed.

(** ** C16 for element types without a value

    delimit parses the elements, the unfolding only looks at them (C16_delimit_void_refuted).  Where
    nothing parsed can reject after success the two still agree. *)
Theorem C16_delimit_void_partial {T V} (E : env T V) p d i :
  program E -> valid E i -> compiles E Parse (PDelimit p (PIgnore d)) = true ->
  result_for E p = Some TVoid -> steadily_parsed E p -> (forall q, reach E p (PJoin q) \/ reach E d (PJoin q) -> local_parser E q) ->
  let u := PSequence p [PZeroOrMore (PSequence (PIgnore d) [p])] in
  (forall v rem tr, gives E Parse (PDelimit p (PIgnore d)) i v rem tr -> gives E Parse u i RVoid rem []) /\
  (forall tr, refuses E Parse (PDelimit p (PIgnore d)) i tr -> refuses E Parse u i []) /\
  (forall v rem tr, gives E Parse u i v rem tr ->
     (exists e, evals E Parse (PDelimit p (PIgnore d)) i (Exn e)) \/ exists tr', gives E Parse (PDelimit p (PIgnore d)) i RVoid rem tr') /\
  (forall tr, refuses E Parse u i tr ->
     (exists e, evals E Parse (PDelimit p (PIgnore d)) i (Exn e)) \/ exists tr', refuses E Parse (PDelimit p (PIgnore d)) i tr').
Proof.
  intros HP Hv Hc Ht Hst Hj u.
  assert (Hsd : steadily_parsed E (PDelimit p (PIgnore d))).
  { intros q H. inversion H as [|? q' ? Hin Hq]; subst; [exact Logic.I|]. cbn in Hin. destruct Hin as [<-|[<-|[]]]; auto.
    inversion Hq as [|? ? ? Hf]; subst; [exact Logic.I|destruct Hf]. }
  assert (Hjd : forall q, reach E (PDelimit p (PIgnore d)) (PJoin q) -> local_parser E q).
  { intros q H. inversion H as [|? q' ? Hin Hq]; subst. cbn in Hin. destruct Hin as [<-|[<-|[]]]; auto.
    inversion Hq as [|? q' ? Hi Hq']; subst. destruct Hi as [<-|[]]. auto. }
  assert (Hu : forall r tr, evals E Parse u i (Done r tr) <-> evals E Look u i (Done r tr)).
  { assert (Hr : result_fors E [p; PZeroOrMore (PSequence (PIgnore d) [p])] = Some [TVoid; TVoid]).
    { unfold result_fors. cbn [map all_some]. rewrite Ht. cbn. rewrite Ht. reflexivity. }
    intros r tr. unfold u. rewrite !evals_big by auto. split; intros H.
    - inversion H; subst; match goal with H1 : result_fors E _ = Some _ |- _ => rewrite Hr in H1; injection H1 as <- end.
      + match goal with H1 : kept _ _ _ |- _ => apply kept_voids in H1; [subst|repeat constructor] end.
        eapply B_seq_look_ok; eauto.
      + eapply B_seq_look_no; eauto.
    - inversion H; subst.
      + match goal with H1 : bchain _ _ _ _ _ |- _ => rename H1 into Hb end.
        assert (Hk : kept [TVoid; TVoid] vs []).
        { clear - Hb. cbn [map] in Hb. remember (Some (vs, rem)) as x eqn:Hx. inversion Hb as [| |m q l j v mid o tr1 tr2 _ _ Hb1]; subst; [discriminate|].
          destruct o as [[vs' rem']|]; [|discriminate]. injection Hx as <- <-.
          remember (Some (vs', rem')) as x eqn:Hx. inversion Hb1 as [| |m q l j v' mid' o tr3 tr4 _ _ Hb2]; subst; [discriminate|].
          destruct o as [[vs1 rem1]|]; [|discriminate]. injection H3 as <- <-. inversion Hb2; subst. repeat constructor. }
        exact (B_seq_ok E _ _ _ i vs [] rem tr Hr Hb Hk).
      + exact (B_seq_no E _ _ _ i tr Hr ltac:(eassumption)). }
  assert (HL := C16_delimit_look E p d TVoid i). fold u in HL.
  split; [|split; [|split]].
  - intros v rem tr H. apply Hu, HL; auto. now apply (C05_parse_implies_lookahead_partial E _ i v rem tr HP Hv Hc Hsd).
  - intros tr H. apply Hu, HL; auto. now apply (C05_parse_implies_lookahead_partial E _ i RVoid i tr HP Hv Hc Hsd).
  - intros v rem tr H. apply Hu, HL in H; auto.
    destruct (C05_lookahead_implies_parse_partial E _ i _ _ _ HP Hv Hc Hsd Hjd H) as [He|[[? _]|(_ & w & tr' & H')]]; [auto|discriminate|].
    right. exists tr'. enough (w = RVoid) by (subst w; exact H').
    destruct (C34_value_has_the_advertised_type E _ i w rem tr' Hv Hc (proj1 HP) (proj2 HP) H') as (t & Ht' & Hw).
    cbn in Ht'. rewrite Ht in Ht'. injection Ht' as <-. destruct w; [reflexivity|destruct Hw as [Hw _]; congruence].
  - intros tr H. apply Hu, HL in H; auto.
    destruct (C05_lookahead_implies_parse_partial E _ i _ _ _ HP Hv Hc Hsd Hjd H) as [He|[(_ & tr' & H')|[? _]]]; [auto| |congruence].
    right. exists tr'. exact H'.
Qed.

(** The full statement is false in both directions: a filter and a join over a gap reject what
    lookahead accepts; a custom parser whose result_type is constructible from the optional
    accepts what lookahead rejects; and inside a choice a rejecting filter makes the two take
    different alternatives. *)
Theorem C05_lookahead_answers_refuted :
  program sx /\ valid sx in1 /\ valid sx (at1 7) /\
  (exists p tr, compiles sx Parse p = true /\ refuses sx Parse p in1 tr /\
     gives sx Look p in1 RVoid (at1 1) []) /\
  (exists p, compiles sx Parse p = true /\ refuses sx Parse (PJoin p) (at1 7) [] /\
     gives sx Look (PJoin p) (at1 7) RVoid (at1 13) []) /\
  (exists p v tr, compiles sx Parse p = true /\ gives sx Parse p in1 v in1 tr /\
     refuses sx Look p in1 []) /\
  (exists p v tr, compiles sx Parse p = true /\ gives sx Parse p in1 v (at1 2) tr /\
     gives sx Look p in1 RVoid (at1 1) []).
Proof.
  split; [apply sx_program|]. split; [apply in1_valid|]. split; [apply at1_valid; lia|].
  split; [|split; [|split]].
  - exists (PFilter (PAllOf (codes "(")) (FUser 0)). eexists. split; [reflexivity|]. split; runs 5.
  - exists (PSequence digits [PIgnore (PAllOf (codes ",")); digits]). split; [reflexivity|]. split; runs 20.
  - exists (PCustom 2). do 2 eexists. split; [reflexivity|]. split; runs 5.
  - exists (PChoice (PFilter (PAllOf (codes "(")) (FUser 0)) [PAllOf (codes "((")]). do 2 eexists.
    split; [reflexivity|]. split; runs 5.
Qed.

(** ** C21: join of a lossless parser *)

(** join(p) succeeds exactly when p does, runs the same user code, and returns exactly the
    consumed input. *)
Theorem C21_lossless_join {T V} (E : env T V) p i r tr :
  program E -> valid E i -> compiles E Parse (PJoin p) = true -> lossless E p ->
  evals E Parse (PJoin p) i (Done r tr) <->
  (refuses E Parse p i tr /\ r = Res None i) \/
  (exists v rem, gives E Parse p i v rem tr /\
     r = Res (Some (RVal (VSpan (Span (sp_blk i) (sp_off i) (sp_off rem - sp_off i))))) rem).
Proof.
  intros [HT HC] Hv Hc Hl. pose proof Hc as Hc'. cbn in Hc'. apply andb_true_iff in Hc' as [Hcp Hj].
  destruct (result_for E p) as [t|] eqn:Ht; [|discriminate].
  assert (Hex : forall x rem tr, big E Parse p i (Res (Some (RVal x)) rem) tr ->
    join_executor x rem = Done (Some (Span (sp_blk i) (sp_off i) (sp_off rem - sp_off i))) []).
  { intros x rem tr' Hb. eapply lossless_joins; eauto. apply (evals_sound E _ _ _ _ tr' Hv). now apply evals_big. }
  rewrite evals_big by auto. split.
  - intros H. inversion H; subst; try discriminate.
    + right. match goal with Hb : big _ _ _ _ _ _ |- _ => pose proof (Hex _ _ _ Hb) as He; apply evals_big in Hb; auto end.
      eexists _, _. split; [eassumption|]. congruence.
    + match goal with Hb : big _ _ _ _ _ _ |- _ => pose proof (Hex _ _ _ Hb) as He end. congruence.
    + left. split; auto. now apply evals_big.
  - intros [[Hr ->]|(v & rem & Hg & ->)].
    + eapply B_join_no; eauto. now apply evals_big.
    + assert (exists x, v = RVal x) as [x ->].
      { apply (shaped_typed E Parse p i v rem tr (conj HT HC) Hv Hcp Hg eq_refl t Ht). intros ->. discriminate. }
      apply evals_big in Hg; auto. eapply B_join_ok; eauto.
Qed.

Lemma tiles_split b l1 : forall lo hi l2, tiles b lo hi (l1 ++ l2) -> exists mid, tiles b lo mid l1 /\ tiles b mid hi l2.
Proof.
  induction l1 as [|s l1 IH]; intros lo hi l2 H; cbn in H; [exists lo; split; [constructor|exact H]|].
  inversion H; subst. destruct (IH _ _ _ H3) as (mid & H1 & H2). exists mid. split; auto. now constructor.
Qed.

Lemma tiles_start b lo hi lo' hi' l : tiles b lo hi l -> tiles b lo' hi' l -> l <> [] -> lo = lo'.
Proof. intros H H' Hl. inversion H; subst; [contradiction|]. now inversion H'; subst. Qed.

Lemma compiles_join_inv {T V} (E : env T V) q : compiles E Parse (PJoin q) = true ->
  compiles E Parse q = true /\ match result_for E q with Some t => joinable t | None => false end = true.
Proof. intros H. cbn in H. now apply andb_true_iff in H. Qed.

(** join over text dropped between two non-empty matches never succeeds. *)
Theorem C21_join_over_a_gap {T V} (E : env T V) x y z i vx m1 trx vy m2 try vz rem trz :
  program E -> valid E i -> compiles E Parse (PJoin (PSequence x [PIgnore y; z])) = true ->
  lossless E x -> lossless E z ->
  gives E Parse x i vx m1 trx -> gives E Look y m1 vy m2 try -> gives E Parse z m2 vz rem trz ->
  sp_off i < sp_off m1 < sp_off m2 -> sp_off m2 < sp_off rem ->
  refuses E Parse (PJoin (PSequence x [PIgnore y; z])) i (trx ++ trz).
Proof.
  intros [HT HC] Hv Hc Hlx Hlz Hx Hy Hz [Ho1 Ho2] Ho3.
  pose proof (conj HT HC : program E) as HP.
  assert (Hv1 : valid E m1) by eauto using gives_valid.
  assert (Hv2 : valid E m2) by eauto using gives_valid.
  assert (try = []) as ->.
  { destruct Hy as [_ [n Hn]]. pose proof (look_quiet E n y m1) as Hq. rewrite Hn in Hq. exact Hq. }
  pose proof (evals_sound E _ _ _ _ _ Hv Hx) as [Hsx Hdx]. pose proof (evals_sound E _ _ _ _ _ Hv2 Hz) as [Hsz Hdz].
  pose proof (evals_sound E _ _ _ _ _ Hv1 Hy) as [Hsy _].
  cbn [r_rem] in *. apply suffix_blk in Hsx, Hsy, Hsz.
  destruct (compiles_join_inv E _ Hc) as [Hcs Hj].
  destruct (result_for E (PSequence x [PIgnore y; z])) as [t|] eqn:Ht; [|discriminate].
  destruct (result_fors E [x; PIgnore y; z]) as [tys|] eqn:Htys;
    [|rewrite result_for_seq, Htys in Ht; discriminate].
  pose proof Htys as Htys'. unfold result_fors in Htys'. cbn in Htys'.
  destruct (result_for E x) as [tx|] eqn:Htx; [|discriminate].
  destruct (result_for E z) as [tz|] eqn:Htz; [|discriminate]. injection Htys' as <-.
  assert (Hnx : tx <> TVoid) by (intros ->; pose proof (derives_void_empty E _ HC _ _ _ _ _ Hlx Htx Hdx); lia).
  assert (Hnz : tz <> TVoid) by (intros ->; pose proof (derives_void_empty E _ HC _ _ _ _ _ Hlz Htz Hdz); lia).
  pose proof (compiles_parts E _ _ _ Hcs Htys) as Hall.
  assert (Hpm : forall t0, t0 <> TVoid -> part_mode t0 = Parse).
  { intros t0 H0. apply is_void_false in H0. unfold part_mode. now rewrite H0. }
  unfold parts in Hall. cbn in Hall. rewrite (Hpm tx Hnx), (Hpm tz Hnz) in Hall.
  assert (Hcx : compiles E Parse x = true) by (apply (Hall (Parse, x)); cbn; auto).
  assert (Hcz : compiles E Parse z = true) by (apply (Hall (Parse, z)); cbn; auto).
  destruct (shaped_typed E Parse x i vx m1 trx HP Hv Hcx Hx eq_refl tx Htx Hnx) as [wx ->].
  destruct (shaped_typed E Parse z m2 vz rem trz HP Hv2 Hcz Hz eq_refl tz Htz Hnz) as [wz ->].
  assert (Hseq : big E Parse (PSequence x [PIgnore y; z]) i (Res (Some (RVal (VTup [wx; wz]))) rem) (trx ++ trz)).
  { apply (big_seq_parse E x [PIgnore y; z] _ i _ _ Htys). left. exists [RVal wx; RVoid; RVal wz], [wx; wz], rem.
    split; [|split; [|reflexivity]].
    - unfold parts. cbn [map combine]. rewrite (Hpm tx Hnx), (Hpm tz Hnz).
      eapply each_bchain; eauto.
      replace (trx ++ trz) with (trx ++ ([] ++ (trz ++ []))) by (cbn; now rewrite app_nil_r).
      econstructor; [eauto|]. econstructor; [|econstructor; [eauto|constructor]].
      pose proof (evals_sound E _ _ _ _ _ Hv1 Hy) as [_ Hdy]. apply derives_look_void in Hdy; auto. subst vy.
      apply C18_ignore. exact Hy.
    - constructor; auto. constructor. constructor; auto. constructor. }
  apply refuses_big; auto. eapply B_join_gap; eauto.
  assert (Hjv : jval (VTup [wx; wz])).
  { apply evals_big in Hseq; auto. pose proof (evals_sound E _ _ _ _ _ Hv Hseq) as [_ Hd].
    destruct (derives_typed E HT HC _ _ _ _ _ Hcs Hd) as (t' & Ht' & Hw). assert (t' = t) by congruence. subst t'.
    eapply joinable_jval; eauto. now apply rv_val_inv. }
  pose proof (derives_tiles E _ HC x _ _ _ Hlx Hdx) as Htlx. pose proof (derives_tiles E _ HC z _ _ _ Hlz Hdz) as Htlz.
  cbn [rv_src] in Htlx, Htlz.
  assert (Hjx : jval wx /\ jval wz).
  { inversion Hjv; subst. match goal with H : Forall _ _ |- _ => inversion H; subst end.
    match goal with H : Forall _ [_] |- _ => inversion H; subst end. auto. }
  rewrite (jval_src _ (proj1 Hjx)) in Htlx. rewrite (jval_src _ (proj2 Hjx)) in Htlz.
  assert (Hlv : leaves (VTup [wx; wz]) = leaves wx ++ leaves wz) by (cbn; now rewrite app_nil_r).
  assert (Hblk : forall s, In s (leaves (VTup [wx; wz])) -> sp_len s <> 0 -> sp_blk s = sp_blk i).
  { intros s Hin Hn. rewrite Hlv in Hin. apply in_app_iff in Hin as [Hin|Hin].
    - destruct (derives_region E _ _ _ _ _ _ (lossless_local E x Hlx) Hdx) as [_ HF].
      rewrite Forall_forall in HF. apply (HF s). now apply nonempty_in.
    - destruct (derives_region E _ _ _ _ _ _ (lossless_local E z Hlz) Hdz) as [_ HF].
      rewrite Forall_forall in HF. transitivity (sp_blk m2); [|congruence]. apply (HF s). now apply nonempty_in. }
  assert (Hbm : sp_blk m2 = sp_blk i) by congruence. rewrite Hbm in Htlz.
  assert (Hnnx : nonempty (leaves wx) <> []) by (intros He; rewrite He in Htlx; inversion Htlx; lia).
  assert (Hnnz : nonempty (leaves wz) <> []) by (intros He; rewrite He in Htlz; inversion Htlz; lia).
  destruct (join_executor_spec (sp_blk i) _ rem Hjv Hblk) as [[H1 _]|[(lo & hi & _ & H2 & _)|(_ & _ & H3)]]; auto.
  - exfalso. rewrite Hlv, nonempty_app in H1. apply app_eq_nil in H1 as [H1 _]. contradiction.
  - exfalso. rewrite Hlv, nonempty_app in H2. apply tiles_split in H2 as (mid & H2 & H4).
    pose proof (tiles_start _ _ _ _ _ _ H2 Htlx Hnnx) as ->. pose proof (tiles_fun _ _ _ _ H2 _ Htlx) as <-.
    pose proof (tiles_start _ _ _ _ _ _ H4 Htlz Hnnz) as Heq. lia.
Qed.

Lemma reach_closed {T V} (E : env T V) L p q :
  (forall x y, In x L -> In y (components E x) -> In y L) -> In p L -> reach E p q -> In q L.
Proof. intros HL Hp H. induction H; eauto. Qed.

Lemma sx_lossless_digits : lossless sx digits.
Proof.
  intros q Hq. inversion Hq; subst; cbn; auto. destruct H as [<-|[]]. inversion H0; subst; cbn; auto. contradiction.
Qed.

(** an optional word (a custom parser), then numbers separated by "," or ";" *)
Definition C21_seps : parser nat := PChoice (PAllOf (codes ",")) [PAllOf (codes ";;"); PAllOf (codes ";")].
Definition C21_rest : parser nat := PZeroOrMore (PSequence C21_seps [digits]).
Definition C21_parser : parser nat := PSequence (PMaybe (PCustom 1)) [digits; C21_rest].

Lemma C21_parser_lossless : lossless sx C21_parser.
Proof.
  intros q Hq. apply (reach_closed sx [C21_parser; PMaybe (PCustom 1); PCustom 1; PJoin (POneOrMore sx_letter); POneOrMore sx_letter; sx_letter;
    C21_rest; PSequence C21_seps [digits]; digits; PAnyOf (codes "0123456789"); C21_seps;
    PAllOf (codes ","); PAllOf (codes ";;"); PAllOf (codes ";")]) in Hq.
  3: now left.
  2: { intros x y HI Hq'.
    cbn in HI. repeat (destruct HI as [<-|HI]; [cbn in Hq'; repeat (destruct Hq' as [<-|Hq']; [cbn; tauto|]); contradiction|]). contradiction. }
  rename Hq into Hin.
  cbn in Hin. repeat (destruct Hin as [<-|Hin]; [cbn; auto|]); [|contradiction].
  intros tys j t [= <-] Hj Ht. destruct j as [|[|[|j]]]; cbn; try discriminate. destruct j; discriminate.
Qed.

(** Cases: a join over a custom parser, repetitions and a choice; a join over a gap. *)
Example C21_case : lossless sx C21_parser /\ compiles sx Parse (PJoin C21_parser) = true /\
  evals sx Parse (PJoin C21_parser) (at1 7)
    (Done (Res (Some (RVal (VSpan (Span 1 7 6)))) (at1 13)) []).
Proof. split; [apply C21_parser_lossless|]. split; [reflexivity|]. runs 20. Qed.

Example C21_gap_case : exists v1 v2 v3,
  compiles sx Parse (PJoin (PSequence digits [PIgnore (PAllOf (codes ",")); digits])) = true /\ lossless sx digits /\
  gives sx Parse digits (at1 7) v1 (at1 9) [] /\ gives sx Look (PAllOf (codes ",")) (at1 9) v2 (at1 10) [] /\
  gives sx Parse digits (at1 10) v3 (at1 13) [].
Proof. do 3 eexists. split; [reflexivity|]. split; [apply sx_lossless_digits|]. split; [runs 10|]. split; runs 10. Qed.

(** elements without a value, a trailing delimiter *)
Example C16_case_void : let p := PIgnore (PAnyOf (codes "(a)")) in let d := PAnyOf (codes "(a)") in
  steadily_parsed sx p /\ compiles sx Parse (PDelimit p (PIgnore d)) = true /\
  gives sx Parse (PDelimit p (PIgnore d)) in1 RVoid (at1 3) [] /\
  gives sx Parse (PSequence p [PZeroOrMore (PSequence (PIgnore d) [p])]) in1 RVoid (at1 3) [].
Proof.
  cbn zeta. split; [|split; [reflexivity|split; runs 12]].
  intros q H. inversion H as [|? ? ? Hf]; subst; [exact Logic.I|destruct Hf].
Qed.

Print Assumptions C05_parse_implies_lookahead_partial.
Print Assumptions C05_lookahead_implies_parse_partial.
Print Assumptions C05_lookahead_answers_refuted.
Print Assumptions C16_delimit_void_partial.
Print Assumptions C21_lossless_join.
Print Assumptions C21_join_over_a_gap.
