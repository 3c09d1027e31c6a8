(** * With user comparisons: the special joins compare what their components compare *)
From Coq Require Import String List Arith ZArith Bool Lia.
From Verif Require Import Types Compound Parser Outcome CompoundFacts Exec Stateful StatefulFacts StatefulSafe Compares.
Import ListNotations.

Section Joins.
Context {T V W : Type} (E : env T V).
Variable sfn : nat -> list val -> W -> fnres * W.
Variable sct : ty -> list val -> W -> fnres * W.
Variable seq : T -> V -> W -> cmpres * W.
Notation eff := (@eff W).

(** What [join] makes of an outcome of its component, begun at [i]. *)
Definition joins (m : mode) (i : span) (o : outcome presult) : outcome presult :=
  match o with
  | Done (Res None _) tr => Done (Res None i) tr
  | Done (Res (Some _) rem) tr =>
      Done (Res (Some match m with Parse => RVal (VSpan (Span (sp_blk i) (sp_off i) (sp_off rem - sp_off i))) | Look => RVoid end) rem) tr
  | UB => UB | Exn e => Exn e | OOF => OOF | Ill => Ill
  end.

Section Loops.
Variable fc : span -> eff bool.
Variable len : nat.
Variable f : @sfun W.
Variable value : span -> rv.
(** [f] is the elementary parser. *)
Hypothesis Hf : forall i w, f i w = sbind (fc i) (fun b => if b : bool then sret (failure i)
  else sbind (lift (advance i len)) (fun r => sret (success (value i) r))) w.

Section Rep.
Variable G : rv -> Prop.
Hypothesis HG : forall b i, G b -> exists b', b_insert_back b (value i) = ret b' /\ G b'.
Lemma rep_joins : forall k i res b s w, G b ->
  match srep_loop f k i b s w with
  | (Done (i', b', s') tr, w') => sp_off i <= sp_off i' /\ G b' /\ (s = true -> s' = true) /\
      cjr_loop fc len k res i w = (Done (Span (sp_blk res) (sp_off res) (sp_len res + (sp_off i' - sp_off i)), i') tr, w')
  | (UB, w') => cjr_loop fc len k res i w = (UB, w')
  | (Exn e, w') => cjr_loop fc len k res i w = (Exn e, w')
  | (OOF, w') => cjr_loop fc len k res i w = (OOF, w')
  | (Ill, w') => cjr_loop fc len k res i w = (Ill, w')
  end.
Proof.
  induction k as [|k IH]; intros i res b s w Hb; cbn [srep_loop cjr_loop]; [reflexivity|].
  unfold sbind at 1. rewrite Hf. unfold sbind at 1 2 4 6 8 10. destruct (fc i w) as [[[|] tr| |e| |] w1] eqn:Hfc; auto; try (unfold sbind; rewrite Hfc; reflexivity).
  - cbn. rewrite Nat.sub_diag, Nat.add_0_r, !app_nil_r. destruct res. auto.
  - unfold advance. destruct (Nat.leb_spec len (sp_len i)); [|reflexivity]. cbn.
    destruct (HG b i Hb) as (b' & -> & Hb'). unfold sbind, lift, ret, sret.
    specialize (IH (Span (sp_blk i) (sp_off i + len) (sp_len i - len)) (Span (sp_blk res) (sp_off res) (sp_len res + len)) b' true w1 Hb').
    destruct (srep_loop f k _ b' true w1) as [[[[i' b2] s2] tr2| |e2| |] w2]; try (rewrite ?Hfc, IH; reflexivity).
    destruct IH as (H1 & H2 & H3 & IH). rewrite ?Hfc, IH. cbn in *. split; [lia|]. split; auto. split; auto. rewrite ?app_nil_r, <- ?app_assoc. do 2 f_equal. f_equal. f_equal. lia.
Qed.
End Rep.

Section Exactly.
Variable N : nat.
Variable G : rv -> Prop.
Hypothesis HG : forall b i j, j < N -> G b -> exists b', b_array_assign j b (value i) = ret b' /\ G b'.
Lemma exactly_joins : forall k j i res b w, G b -> j + k <= N ->
  match sexactly_loop f k j i b w with
  | (Done (Some (i', b')) tr, w') => sp_off i <= sp_off i' /\
      cjx_loop fc len k res i w = (Done (Some (Span (sp_blk res) (sp_off res) (sp_len res + (sp_off i' - sp_off i)), i')) tr, w')
  | (Done None tr, w') => cjx_loop fc len k res i w = (Done None tr, w')
  | (UB, w') => cjx_loop fc len k res i w = (UB, w')
  | (Exn e, w') => cjx_loop fc len k res i w = (Exn e, w')
  | (OOF, w') => cjx_loop fc len k res i w = (OOF, w')
  | (Ill, w') => cjx_loop fc len k res i w = (Ill, w')
  end.
Proof.
  induction k as [|k IH]; intros j i res b w Hb Hk; cbn [sexactly_loop cjx_loop].
  - cbn. split; auto. rewrite Nat.sub_diag, Nat.add_0_r. destruct res. auto.
  - unfold sbind at 1. rewrite Hf. unfold sbind at 1 2 4 6 8 10 12. destruct (fc i w) as [[[|] tr| |e| |] w1] eqn:Hfc; auto; try (unfold sbind; rewrite Hfc; reflexivity); [cbn; now rewrite !app_nil_r|].
    unfold advance. destruct (Nat.leb_spec len (sp_len i)); [|reflexivity]. cbn.
    destruct (HG b i j ltac:(lia) Hb) as (b' & -> & Hb'). unfold sbind, lift, ret, sret.
    specialize (IH (S j) (Span (sp_blk i) (sp_off i + len) (sp_len i - len)) (Span (sp_blk res) (sp_off res) (sp_len res + len)) b' w1 Hb' ltac:(lia)).
    destruct (sexactly_loop f k (S j) _ b' w1) as [[[[i' b2]|] tr2| |e2| |] w2]; try (rewrite ?Hfc, IH; reflexivity).
    + destruct IH as (H1 & IH). rewrite ?Hfc, IH. cbn in *. split; [lia|]. rewrite ?app_nil_r, <- ?app_assoc. do 3 f_equal. f_equal. f_equal. lia.
    + rewrite ?Hfc, IH. cbn. now rewrite ?app_nil_r.
Qed.
End Exactly.
End Loops.

(** Values that are put into the vector and the array one by one. *)
Definition vec_ok (m : mode) (b : rv) : Prop := match m with Parse => exists l, b = RVal (VVec l) | Look => b = RVoid end.
Definition arr_ok (m : mode) (n : nat) (b : rv) : Prop := match m with Parse => exists l, b = RVal (VArr l) /\ List.length l = n | Look => b = RVoid end.
Definition piece (m : mode) (len : nat) (i : span) : rv := match m with Parse => RVal (VSpan (Span (sp_blk i) (sp_off i) len)) | Look => RVoid end.
Lemma basic_piece m fc len (i : span) w :
  (match m with Parse => cbasic_parse (W := W) fc len i | Look => cbasic_look fc len i end) w =
  sbind (fc i) (fun b => if b : bool then sret (failure i)
  else sbind (lift (advance i len)) (fun r => sret (success (piece m len i) r))) w.
Proof.
  destruct m; [unfold cbasic_parse|unfold cbasic_look]; unfold sbind; destruct (fc i w) as [[[|] tr| | | |] w1]; auto.
  unfold first, advance. destruct (len <=? sp_len i); reflexivity.
Qed.
Lemma vec_put m b len i : vec_ok m b -> exists b', b_insert_back b (piece m len i) = ret b' /\ vec_ok m b'.
Proof. destruct m; cbn; [intros [l ->]|intros ->]; eexists; split; cbn; eauto. Qed.
Lemma arr_put m n b len i j : j < n -> arr_ok m n b -> exists b', b_array_assign j b (piece m len i) = ret b' /\ arr_ok m n b'.
Proof.
  destruct m; cbn; intros Hj; [intros (l & -> & Hl)|intros ->]; [|eexists; split; cbn; eauto].
  unfold b_array_assign. rewrite Hl, (proj2 (Nat.ltb_lt _ _) Hj). eexists. split; [reflexivity|]. eexists. split; [reflexivity|]. now rewrite upd_length.
Qed.

Lemma elementary q fc len : cbasic E seq q = Some (fc, len) -> result_for E q = Some TSpan /\
  forall n m i, xrun E sfn sct seq (S n) m q i = match m with Parse => cbasic_parse fc len i | Look => cbasic_look fc len i end.
Proof. destruct q; cbn; try discriminate; intros [= <- <-]; split; auto; intros n []; reflexivity. Qed.

Section Four.
Variables (q : parser T) (fc : span -> eff bool) (len : nat).
Hypothesis Hq : cbasic E seq q = Some (fc, len).
Notation xrun := (xrun E sfn sct seq).
Definition after_join (m : mode) (i : span) (x : outcome presult * W) : outcome presult * W := (joins m i (fst x), snd x).

Lemma piece_run n m i w : xrun (S n) m q i w = sbind (fc i) (fun b => if b : bool then sret (failure i)
  else sbind (lift (advance i len)) (fun r => sret (success (piece m len i) r))) w.
Proof. rewrite (proj2 (elementary q fc len Hq)). apply basic_piece. Qed.

Lemma zero_joins n m i w : xrun (S (S n)) m (PJoin (PZeroOrMore q)) i w = after_join m i (xrun (S (S n)) m (PZeroOrMore q) i w).
Proof.
  pose proof (rep_joins fc len (xrun (S n) m q) (piece m len) (piece_run n m) (vec_ok m) (fun b i => vec_put m b len i)) as H.
  remember (S n) as k. cbn [Compares.xrun xstep cjoin_special]. rewrite Hq. cbn [sstep]. rewrite (proj1 (elementary q fc len Hq)).
  destruct m; unfold cjz_parse, cjz_look, szero_or_more_parse, szero_or_more_look, sbind; cbn [is_void ty_eqb].
  - specialize (H k i (Span (sp_blk i) (sp_off i) 0) (builder_init (TVec TSpan)) false w ltac:(eexists; reflexivity)).
    destruct (srep_loop (xrun k Parse q) k i (builder_init (TVec TSpan)) false w) as [[[[i' b] s'] tr| | | |] w1]; try (rewrite H; reflexivity).
    destruct H as (_ & _ & _ & ->). reflexivity.
  - specialize (H k i (Span (sp_blk i) (sp_off i) 0) RVoid false w eq_refl).
    destruct (srep_loop (xrun k Look q) k i RVoid false w) as [[[[i' b] s'] tr| | | |] w1]; try (rewrite H; reflexivity).
    destruct H as (_ & _ & _ & ->). reflexivity.
Qed.

Lemma one_joins n m i w : xrun (S (S n)) m (PJoin (POneOrMore q)) i w = after_join m i (xrun (S (S (S n))) m (POneOrMore q) i w).
Proof.
  pose proof (rep_joins fc len (xrun (S (S n)) m q) (piece m len) (piece_run (S n) m) (vec_ok m) (fun b i => vec_put m b len i)) as H.
  assert (Hb : vec_ok m (match m with Parse => builder_init (TVec TSpan) | Look => RVoid end)) by (destruct m; [eexists|]; reflexivity).
  assert (Hx : xrun (S (S (S n))) m (POneOrMore q) i w =
    sbind (srep_loop (xrun (S (S n)) m q) (S (S n)) i (match m with Parse => builder_init (TVec TSpan) | Look => RVoid end) false)
      (fun '(i', b, ok) => if ok : bool then sret (success b i') else sret (failure i')) w).
  { remember (S (S n)) as k. cbn [Compares.xrun xstep sstep]. rewrite (proj1 (elementary q fc len Hq)). destruct m; [reflexivity|].
    unfold sone_or_more_look, sbind. destruct (srep_loop (xrun k Look q) k i RVoid false w) as [[[[i' b] s'] tr| | | |] w1] eqn:He; auto.
    specialize (H k i i RVoid false w eq_refl). rewrite He in H. destruct H as (_ & Hb' & _). cbn in Hb'. now subst b. }
  rewrite Hx. clear Hx. change (srep_loop (xrun (S (S n)) m q) (S (S n)) i ?b false) with
    (sbind (xrun (S (S n)) m q i) (fun res => match r_ok res with
      | None => sret (r_rem res, b, false)
      | Some v => sbind (lift (b_insert_back b v)) (fun b' => srep_loop (xrun (S (S n)) m q) (S n) (r_rem res) b' true) end)).
  set (b0 := match m with Parse => builder_init (TVec TSpan) | Look => RVoid end) in *.
  destruct (vec_put m b0 len i Hb) as (b1 & Hb1 & Hb1').
  unfold sbind at 1 2. rewrite (piece_run (S n)).
  assert (Hj : xrun (S (S n)) m (PJoin (POneOrMore q)) i w = sbind (fc i) (fun b => if b : bool then sret (failure i) else
    sbind (lift (advance i len)) (fun i1 => sbind (cjr_loop fc len (S n) (Span (sp_blk i) (sp_off i) len) i1)
      (fun '(res, i') => sret (success (match m with Parse => RVal (VSpan res) | Look => RVoid end) i')))) w).
  { remember (S n) as k. cbn [Compares.xrun xstep cjoin_special]. rewrite Hq. destruct m; [unfold cjo_parse|reflexivity].
    unfold sbind. destruct (fc i w) as [[[|] tr| | | |] w1]; auto. unfold first, advance. destruct (len <=? sp_len i); auto. cbn.
    destruct (cjr_loop fc len k _ _ w1) as [[[]| | | |]]; reflexivity. }
  rewrite Hj. clear Hj. specialize (H (S n)).
  set (L := srep_loop (xrun (S (S n)) m q) (S n)) in *. set (J := cjr_loop fc len (S n)) in *. clearbody L J.
  unfold sbind. destruct (fc i w) as [[[|] tr| | | |] w1]; auto.
  - unfold after_join. cbn. rewrite ?app_nil_r. reflexivity.
  - unfold advance. destruct (Nat.leb_spec len (sp_len i)); [|reflexivity]. cbn. rewrite Hb1. cbn.
    specialize (H (Span (sp_blk i) (sp_off i + len) (sp_len i - len)) (Span (sp_blk i) (sp_off i) len) b1 true w1 Hb1').
    destruct (L (Span (sp_blk i) (sp_off i + len) (sp_len i - len)) b1 true w1) as [[[[i' b] s'] tr2| | | |] w2];
      try (rewrite H; reflexivity).
    destruct H as (H1 & _ & H3 & ->). cbn in H1. rewrite H3 by auto. unfold after_join. cbn. rewrite ?app_nil_r.
    replace (len + (sp_off i' - (sp_off i + len))) with (sp_off i' - sp_off i) by lia. reflexivity.
Qed.

Lemma maybe_joins n m i w : xrun (S (S n)) m (PJoin (PMaybe q)) i w = after_join m i (xrun (S (S n)) m (PMaybe q) i w).
Proof.
  pose proof (piece_run n m i w) as H. remember (S n) as k. cbn [Compares.xrun xstep cjoin_special]. rewrite Hq. cbn [sstep].
  rewrite (proj1 (elementary q fc len Hq)).
  destruct m; unfold cjm_parse, cjm_look, smaybe_parse, smaybe_look; unfold sbind at 1; unfold sbind in H;
    [unfold sbind at 3|unfold sbind at 2]; rewrite H; destruct (fc i w) as [[[|] tr| | | |] w1]; auto;
    unfold after_join, first, advance; cbn; rewrite ?Nat.sub_diag, ?app_nil_r; auto;
    destruct (Nat.leb_spec len (sp_len i)); cbn; rewrite ?app_nil_r; auto.
  replace (sp_off i + len - sp_off i) with len by lia. reflexivity.
Qed.

Lemma exactly_joins_ n m c i w : xrun (S (S n)) m (PJoin (PExactly q (S c))) i w = after_join m i (xrun (S (S n)) m (PExactly q (S c)) i w).
Proof.
  pose proof (exactly_joins fc len (xrun (S n) m q) (piece m len) (piece_run n m) (S c) (arr_ok m (S c)) (fun b i j Hj => arr_put m (S c) b len i j Hj)) as H.
  remember (S n) as k. cbn [Compares.xrun xstep cjoin_special]. rewrite Hq. cbn [sstep Nat.eqb]. rewrite (proj1 (elementary q fc len Hq)).
  destruct m; unfold cjx_parse, cjx_look, sexactly_parse, sexactly_look, sbind; cbn [is_void ty_eqb].
  - specialize (H (S c) 0 i (Span (sp_blk i) (sp_off i) 0) (builder_init (TArr TSpan (S c))) w).
    specialize (H ltac:(eexists; split; [reflexivity|apply repeat_length]) (le_n _)).
    destruct (sexactly_loop (xrun k Parse q) (S c) 0 i (builder_init (TArr TSpan (S c))) w) as [[[[i' b]|] tr| | | |] w1]; try (rewrite H; reflexivity).
    destruct H as (_ & ->). reflexivity.
  - specialize (H (S c) 0 i (Span (sp_blk i) (sp_off i) 0) RVoid w eq_refl (le_n _)).
    destruct (sexactly_loop (xrun k Look q) (S c) 0 i RVoid w) as [[[[i' b]|] tr| | | |] w1]; try (rewrite H; reflexivity).
    destruct H as (_ & ->). reflexivity.
Qed.
End Four.
End Joins.
