(** * C83: custom parsers without [result_type], and recursion *)
From Coq Require Import String List Arith ZArith Bool Lia Relations Wellfounded.
From Verif Require Import Types Compound Parser Outcome CompoundFacts Exec Mono Derive Typing Check Recur Samples ExJson ExAlgebraic.
Import ListNotations.

Section Spec.
Context {T V : Type} (E : env T V) (rt : nat -> option ty).

(** ** The specification *)

(** The type of a custom parser is known if it is declared, or if it follows from types that
    are known. *)
Inductive knows : nat -> ty -> Prop :=
| knows_declared c t : rt c = Some t -> knows c t
| knows_deduced c t known : rt c = None -> (forall d u, known d = Some u -> knows d u) ->
    attempt E known c = Some t -> knows c t.

(** The custom parsers whose types the result type of [p] is made of: those written in [p]
    outside [ignore] and [join]. *)
Fixpoint asks_type (p : parser T) : list nat :=
  match p with
  | PChoice p ps | PSequence p ps => asks_type p ++ flat_map asks_type ps
  | PMaybe p | PExactly p _ | POneOrMore p | PZeroOrMore p | PComplete p
  | PMap p _ | PFilter p _ | PNamed p _ => asks_type p
  | PDelimit p d => asks_type p ++ asks_type d
  | PCustom c => [c]
  | PAnyOf _ | PNoneOf _ | PAllOf _ | PAnything | PEpsilon | PIgnore _ | PJoin _ => []
  end.

(** The custom parsers whose types instantiating [p]'s [parse] or [lookahead] needs.  The
    parts of a choice or sequence with index -1 are only looked at. *)
Definition asks_parts (rec : mode -> parser T -> list nat) :=
  fix go (ps : list (parser T)) (is : list index) {struct ps} : list nat :=
  match ps, is with
  | p :: ps', i :: is' => rec (match i with None => Look | Some _ => Parse end) p ++ go ps' is'
  | _, _ => []
  end.
Definition indices (f : list ty -> list ty * list index) (ps : list (parser T)) : list index :=
  match result_fors E ps with Some tys => snd (f tys) | None => [] end.
Definition at_head (f : mode -> list nat) (is : list index) : list nat :=
  match is with [] => [] | i :: _ => f (match i with None => Look | Some _ => Parse end) end.

Fixpoint asks (m : mode) (p : parser T) {struct p} : list nat :=
  match p with
  | PAnyOf _ | PNoneOf _ | PAllOf _ | PAnything | PEpsilon => []
  | PChoice q qs => asks_type (PChoice q qs) ++
      match m with
      | Look => asks Look q ++ flat_map (asks Look) qs
      | Parse => at_head (fun m => asks m q) (indices filter_out_void_deduplicate (q :: qs)) ++
                 asks_parts asks qs (tl (indices filter_out_void_deduplicate (q :: qs)))
      end
  | PSequence q qs => asks_type (PSequence q qs) ++
      match m with
      | Look => asks Look q ++ flat_map (asks Look) qs
      | Parse => at_head (fun m => asks m q) (indices filter_out_void (q :: qs)) ++
                 asks_parts asks qs (tl (indices filter_out_void (q :: qs)))
      end
  | PMaybe q | PExactly q _ | POneOrMore q | PZeroOrMore q | PComplete q | PJoin q | PMap q _ | PFilter q _ =>
      asks m q ++ match m with Look => [] | Parse => asks_type q end
  | PDelimit q d => (asks m q ++ asks m d) ++ match m with Look => [] | Parse => asks_type q ++ asks_type d end
  | PIgnore q => asks Look q
  | PNamed q _ => asks m q
  | PCustom c => match m with Look => [] | Parse => [c] end
  end.

(** What has to be known before the type of [c]. *)
Definition before (d c : nat) : Prop :=
  rt c = None /\ In d (asks_type (cust_body E c) ++ asks Parse (cust_body E c) ++ asks Look (cust_body E c)).

(** The types given in the environment are those the program gives. *)
Definition consistent : Prop := env_customs E /\
  forall c, match rt c with Some t => cust_ty E c = t | None => result_for E (cust_body E c) = Some (cust_ty E c) end.

(** ** Types of all custom parsers *)
Definition total (c : nat) : option ty := Some (cust_ty E c).

Lemma rf_total p : rf E total p = result_for E p.
Proof. reflexivity. Qed.

Lemma cp_total p : forall m, cp E total m p = compiles E m p.
Proof.
  assert (Hc : forall ps, Forall (fun p => forall m, cp E total m p = compiles E m p) ps ->
    forall seq, compound_compiles (cp E total) ps seq = compound_compiles (compiles E) ps seq).
  { induction 1 as [|p0 ps Hp HF IH]; intros [|i seq]; cbn; auto. rewrite IH. destruct i; now rewrite Hp. }
  assert (Hf : forall ps m, Forall (fun p => forall m, cp E total m p = compiles E m p) ps ->
    forallb (cp E total m) ps = forallb (compiles E m) ps).
  { induction 1 as [|p0 ps Hp HF IH]; cbn; auto. now rewrite IH, Hp. }
  induction p using parser_ind'; intros m; cbn [cp compiles]; auto.
  - change (all_some (map (rf E total) (p :: qs))) with (result_fors E (p :: qs)).
    destruct (result_fors E (p :: qs)); auto. destruct m; [|now rewrite IHp, Hf].
    f_equal. destruct (snd _) as [|i seq]; auto. rewrite Hc; auto. destruct i; now rewrite IHp.
  - change (all_some (map (rf E total) (p :: qs))) with (result_fors E (p :: qs)).
    destruct (result_fors E (p :: qs)); auto. destruct m; [|now rewrite IHp, Hf].
    destruct (snd _) as [|i seq]; auto. rewrite Hc; auto. destruct i; now rewrite IHp.
  - now rewrite IHp.
  - now rewrite IHp.
  - now rewrite IHp.
  - now rewrite IHp.
  - rewrite IHp1, IHp2. f_equal. destruct m; auto. unfold has_rf. rewrite !rf_total.
    destruct (result_for E p1), (result_for E p2); auto.
  - now rewrite IHp.
  - destruct m; now rewrite IHp.
  - destruct m; now rewrite IHp.
  - destruct m; now rewrite IHp.
  - destruct m; auto.
Qed.

(** ** What is asked is what has to be known *)
Section Asked.
Variable known : nat -> option ty.
Hypothesis HB : below known total.
Notation ok l := (Forall (fun d => known d <> None) l).

Lemma below_on p : @on T known total p.
Proof. intros d t _. apply HB. Qed.

Lemma rf_asks p t : result_for E p = Some t -> (rf E known p = Some t <-> ok (asks_type p)).
Proof.
  revert t. assert (Hn : forall p t, result_for E p = Some t -> rf E known p <> None -> rf E known p = Some t).
  { intros p0 t Ht Hk. destruct (rf E known p0) as [u|] eqn:Hu; [|congruence].
    rewrite <- Ht. symmetry. rewrite <- rf_total. apply (rf_on E known total); auto using below_on. }
  assert (Hl : forall ps, Forall (fun p => forall t, result_for E p = Some t -> (rf E known p = Some t <-> ok (asks_type p))) ps ->
    forall tys, result_fors E ps = Some tys ->
    (all_some (map (rf E known) ps) = Some tys <-> ok (flat_map asks_type ps))).
  { intros ps HF tys Ht. unfold result_fors in Ht. rewrite all_some_spec in Ht. rewrite all_some_spec.
    revert tys Ht. induction HF as [|q ps Hq HF IH]; intros [|t tys] Ht; try discriminate; cbn; [split; auto|].
    cbn in Ht. injection Ht as H1 H2. rewrite Forall_app, <- (IH tys H2), <- (Hq t H1). split; [intros [= -> ->]; auto|intros [-> ->]; auto]. }
  induction p using parser_ind'; intros t Ht; cbn [rf asks_type result_for] in *;
    try (split; [constructor|intros _; exact Ht]; fail).
  - change (result_for E p :: map (result_for E) qs) with (map (result_for E) (p :: qs)) in Ht.
    change (rf E known p :: map (rf E known) qs) with (map (rf E known) (p :: qs)).
    destruct (all_some (map (result_for E) (p :: qs))) as [tys|] eqn:Ha; [|discriminate].
    change (asks_type p ++ flat_map asks_type qs) with (flat_map asks_type (p :: qs)).
    rewrite <- (Hl (p :: qs) (Forall_cons _ IHp H) tys Ha). split.
    + intros Hk. destruct (all_some (map (rf E known) (p :: qs))) as [tys'|] eqn:Hk'; [|discriminate].
      f_equal. pose proof (rfs_on E known total (p :: qs) tys' (all_rf E known total _) (fun q _ => below_on q) Hk') as H'.
      change (map (rf E total) (p :: qs)) with (map (result_for E) (p :: qs)) in H'. congruence.
    + intros ->. exact Ht.
  - change (result_for E p :: map (result_for E) qs) with (map (result_for E) (p :: qs)) in Ht.
    change (rf E known p :: map (rf E known) qs) with (map (rf E known) (p :: qs)).
    destruct (all_some (map (result_for E) (p :: qs))) as [tys|] eqn:Ha; [|discriminate].
    change (asks_type p ++ flat_map asks_type qs) with (flat_map asks_type (p :: qs)).
    rewrite <- (Hl (p :: qs) (Forall_cons _ IHp H) tys Ha). split.
    + intros Hk. destruct (all_some (map (rf E known) (p :: qs))) as [tys'|] eqn:Hk'; [|discriminate].
      f_equal. pose proof (rfs_on E known total (p :: qs) tys' (all_rf E known total _) (fun q _ => below_on q) Hk') as H'.
      change (map (rf E total) (p :: qs)) with (map (result_for E) (p :: qs)) in H'. congruence.
    + intros ->. exact Ht.
  - destruct (result_for E p) as [u|] eqn:Hu; [|discriminate]. rewrite <- (IHp u eq_refl). split; [|intros ->; exact Ht].
    intros Hk. apply Hn; auto. intros Hx. rewrite Hx in Hk. discriminate.
  - destruct (result_for E p) as [u|] eqn:Hu; [|discriminate]. rewrite <- (IHp u eq_refl). split; [|intros ->; exact Ht].
    intros Hk. apply Hn; auto. intros Hx. rewrite Hx in Hk. discriminate.
  - destruct (result_for E p) as [u|] eqn:Hu; [|discriminate]. rewrite <- (IHp u eq_refl). split; [|intros ->; exact Ht].
    intros Hk. apply Hn; auto. intros Hx. rewrite Hx in Hk. discriminate.
  - destruct (result_for E p) as [u|] eqn:Hu; [|discriminate]. rewrite <- (IHp u eq_refl). split; [|intros ->; exact Ht].
    intros Hk. apply Hn; auto. intros Hx. rewrite Hx in Hk. discriminate.
  - destruct (result_for E p1) as [u1|] eqn:H1; [|discriminate]. destruct (result_for E p2) as [u2|] eqn:H2; [|discriminate].
    rewrite Forall_app, <- (IHp1 u1 eq_refl), <- (IHp2 u2 eq_refl). split; [|intros [-> ->]; exact Ht].
    intros Hk. split; apply Hn; auto; intros Hx; rewrite Hx in Hk; try discriminate. destruct (rf E known p1); discriminate.
  - now apply IHp.
  - destruct (result_for E p) as [u|] eqn:Hu; [|discriminate]. rewrite <- (IHp u eq_refl). split; [|intros ->; exact Ht].
    intros Hk. apply Hn; auto. intros Hx. rewrite Hx in Hk. discriminate.
  - destruct (result_for E p) as [u|] eqn:Hu; [|discriminate]. rewrite <- (IHp u eq_refl). split; [|intros ->; exact Ht].
    intros Hk. apply Hn; auto. intros Hx. rewrite Hx in Hk. discriminate.
  - now apply IHp.
  - injection Ht as <-. split.
    + intros Hk. constructor; auto. congruence.
    + intros Hk. inversion Hk as [|? ? Hx _]; subst. destruct (known c) as [u|] eqn:Hu; [|congruence]. now apply HB in Hu.
Qed.

Lemma has_rf_asks p : result_for E p <> None -> (has_rf E known p = true <-> ok (asks_type p)).
Proof.
  intros H. destruct (result_for E p) as [t|] eqn:Ht; [|congruence]. rewrite <- (rf_asks p t Ht).
  unfold has_rf. destruct (rf E known p) as [u|] eqn:Hu; [|split; discriminate]. split; auto. intros _.
  rewrite <- Ht. symmetry. rewrite <- rf_total. apply (rf_on E known total); auto using below_on.
Qed.

Lemma rfs_asks ps tys : result_fors E ps = Some tys ->
  (all_some (map (rf E known) ps) = Some tys <-> ok (flat_map asks_type ps)).
Proof.
  intros Ht. unfold result_fors in Ht. rewrite all_some_spec in Ht. rewrite all_some_spec.
  revert tys Ht. induction ps as [|q ps IH]; intros [|t tys] Ht; try discriminate; cbn; [split; auto|].
  cbn in Ht. injection Ht as H1 H2. rewrite Forall_app, <- (IH tys H2), <- (rf_asks q t H1).
  split; [intros [= -> ->]; auto|intros [-> ->]; auto].
Qed.
Lemma rfs_some ps tys : result_fors E ps = Some tys -> all_some (map (rf E known) ps) <> None ->
  all_some (map (rf E known) ps) = Some tys.
Proof.
  intros Ht Hk. destruct (all_some (map (rf E known) ps)) as [tys'|] eqn:Hk'; [|congruence].
  pose proof (rfs_on E known total ps tys' (all_rf E known total _) (fun q _ => below_on q) Hk') as H'.
  change (map (rf E total) ps) with (map (result_for E) ps) in H'. unfold result_fors in Ht. congruence.
Qed.

Lemma parts_asks ps : Forall (fun p => forall m, compiles E m p = true -> (cp E known m p = true <-> ok (asks m p))) ps ->
  forall seq, compound_compiles (compiles E) ps seq = true ->
  (compound_compiles (cp E known) ps seq = true <-> ok (asks_parts asks ps seq)).
Proof.
  induction 1 as [|p ps Hp HF IH]; intros [|i seq] H; cbn in *; try (split; auto; fail).
  apply andb_true_iff in H as [H1 H2]. rewrite andb_true_iff, Forall_app, (IH seq H2).
  destruct i; now rewrite Hp.
Qed.
Lemma look_asks ps : Forall (fun p => forall m, compiles E m p = true -> (cp E known m p = true <-> ok (asks m p))) ps ->
  forallb (compiles E Look) ps = true -> (forallb (cp E known Look) ps = true <-> ok (flat_map (asks Look) ps)).
Proof.
  induction 1 as [|p ps Hp HF IH]; intros H; cbn in *; [split; auto|].
  apply andb_true_iff in H as [H1 H2]. rewrite andb_true_iff, Forall_app, (IH H2). now rewrite Hp.
Qed.

Lemma cp_asks p : forall m, compiles E m p = true -> (cp E known m p = true <-> ok (asks m p)).
Proof.
  assert (HN : forall q, match result_for E q with Some _ => true | None => false end = true -> result_for E q <> None).
  { intros q. destruct (result_for E q); congruence. }
  induction p using parser_ind'; intros m Hm; cbn [cp asks compiles] in *; try (split; auto; fail).
  - destruct (result_fors E (p :: qs)) as [tys|] eqn:Ht; [|discriminate].
    change (asks_type (PChoice p qs)) with (flat_map asks_type (p :: qs)).
    rewrite Forall_app, <- (rfs_asks _ _ Ht). unfold indices. rewrite Ht.
    destruct (all_some (map (rf E known) (p :: qs))) as [tys'|] eqn:Hk;
      [|split; [discriminate|intros [Hx _]; discriminate]].
    assert (tys' = tys) by (assert (Hs : all_some (map (rf E known) (p :: qs)) = Some tys) by (apply rfs_some; congruence); congruence).
    subst tys'. destruct m.
    + apply andb_true_iff in Hm as [Hm1 Hm2]. rewrite Hm1. rewrite andb_true_l.
      destruct (snd (filter_out_void_deduplicate tys)) as [|i seq]; [cbn; split; [intros _; split; auto|auto]|].
      * rewrite app_nil_r || idtac. destruct qs; constructor.
      * apply andb_true_iff in Hm2 as [Hm2 Hm3]. cbn [at_head tl]. rewrite andb_true_iff, Forall_app, (parts_asks qs H seq Hm3).
        destruct i; rewrite (IHp _ Hm2); tauto.
    + apply andb_true_iff in Hm as [Hm1 Hm2]. rewrite andb_true_iff, Forall_app, (look_asks qs H Hm2), (IHp _ Hm1). tauto.
  - destruct (result_fors E (p :: qs)) as [tys|] eqn:Ht; [|discriminate].
    change (asks_type (PSequence p qs)) with (flat_map asks_type (p :: qs)).
    rewrite Forall_app, <- (rfs_asks _ _ Ht). unfold indices. rewrite Ht.
    destruct (all_some (map (rf E known) (p :: qs))) as [tys'|] eqn:Hk;
      [|split; [discriminate|intros [Hx _]; discriminate]].
    assert (tys' = tys) by (assert (Hs : all_some (map (rf E known) (p :: qs)) = Some tys) by (apply rfs_some; congruence); congruence).
    subst tys'. destruct m.
    + destruct (snd (filter_out_void tys)) as [|i seq]; [cbn; split; [intros _; split; auto|auto]|].
      * destruct qs; constructor.
      * apply andb_true_iff in Hm as [Hm2 Hm3]. cbn [at_head tl]. rewrite andb_true_iff, Forall_app, (parts_asks qs H seq Hm3).
        destruct i; rewrite (IHp _ Hm2); tauto.
    + apply andb_true_iff in Hm as [Hm1 Hm2]. rewrite andb_true_iff, Forall_app, (look_asks qs H Hm2), (IHp _ Hm1). tauto.
  - apply andb_true_iff in Hm as [H1 H2]. rewrite andb_true_iff, Forall_app, (IHp _ H1).
    destruct m; [now rewrite (has_rf_asks p (HN p H2))|]. split; intros [? _]; split; auto.
  - apply andb_true_iff in Hm as [H1 H2]. apply andb_true_iff in H1 as [H0 H1]. rewrite H0, andb_true_l, andb_true_iff, Forall_app, (IHp _ H1).
    destruct m; [now rewrite (has_rf_asks p (HN p H2))|]. split; intros [? _]; split; auto.
  - apply andb_true_iff in Hm as [H1 H2]. rewrite andb_true_iff, Forall_app, (IHp _ H1).
    destruct m; [now rewrite (has_rf_asks p (HN p H2))|]. split; intros [? _]; split; auto.
  - apply andb_true_iff in Hm as [H1 H2]. rewrite andb_true_iff, Forall_app, (IHp _ H1).
    destruct m; [now rewrite (has_rf_asks p (HN p H2))|]. split; intros [? _]; split; auto.
  - apply andb_true_iff in Hm as [H1 H2]. apply andb_true_iff in H1 as [H0 H1].
    rewrite !andb_true_iff, !Forall_app, (IHp1 _ H0), (IHp2 _ H1). destruct m.
    + rewrite andb_true_iff, Forall_app. rewrite !has_rf_asks; [tauto| |]; destruct (result_for E p1), (result_for E p2); congruence.
    + split; intros [? _]; split; auto.
  - now apply IHp.
  - apply andb_true_iff in Hm as [H1 H2]. rewrite andb_true_iff, Forall_app, (IHp _ H1).
    destruct m; [now rewrite (has_rf_asks p (HN p H2))|]. split; intros [? _]; split; auto.
  - destruct m; [|rewrite app_nil_r; auto]. apply andb_true_iff in Hm as [H1 H2].
    rewrite andb_true_iff, Forall_app, (IHp _ H1). destruct (result_for E p) as [t|] eqn:Ht; [|discriminate].
    rewrite <- (rf_asks p t Ht). split; intros [Ha Hb]; split; auto; [|now rewrite Hb].
    destruct (rf E known p) as [u|] eqn:Hu; [|discriminate].
    rewrite <- Ht. symmetry. rewrite <- rf_total. apply (rf_on E known total); auto using below_on.
  - destruct m; [|rewrite app_nil_r; auto]. apply andb_true_iff in Hm as [H1 H2].
    rewrite andb_true_iff, Forall_app, (IHp _ H1). now rewrite (has_rf_asks (PMap p f) (HN _ H2)).
  - destruct m; [|rewrite app_nil_r; auto]. apply andb_true_iff in Hm as [H1 H2].
    rewrite andb_true_iff, Forall_app, (IHp _ H1). now rewrite (has_rf_asks (PFilter p f) (HN _ H2)).
  - now apply IHp.
  - destruct m; [|split; auto]. destruct (known c) eqn:Hk; split; auto; try discriminate.
    + intros _. constructor; auto. congruence.
    + intros Hx. inversion Hx; congruence.
Qed.
End Asked.

(** ** C83 *)

Theorem C83_resolve c t : (exists n, resolve E rt n [] c = Some t) <-> knows c t.
Proof.
  split.
  - intros [n Hn]. apply resolve_level in Hn. revert c t Hn.
    induction n as [|n IH]; intros c t H; cbn in H; destruct (rt c) as [u|] eqn:Hr; try discriminate;
      try (injection H as <-; now constructor).
    eapply knows_deduced; eauto.
  - intros Hk. assert (Hl : exists n, level E rt n c = Some t).
    { induction Hk as [c t Hr|c t known Hr Hkn IH Ha].
      - exists 0. cbn. now rewrite Hr.
      - assert (HN : forall l, exists N, forall d u, In d l -> known d = Some u -> level E rt N d = Some u).
        { induction l as [|x l [N HN]]; [exists 0; intros ? ? []|]. destruct (known x) as [u|] eqn:Hx.
          - destruct (IH x u Hx) as [M HM]. exists (M + N). intros d v [<- |Hd] Hv.
            + rewrite Hx in Hv. injection Hv as <-. eapply level_le; [|exact HM]. lia.
            + eapply level_le; [|apply HN; eauto]. lia.
          - exists N. intros d v [<- |Hd] Hv; [congruence|auto]. }
        destruct (HN (occ (cust_body E c))) as [N HN']. exists (S N). cbn. rewrite Hr.
        eapply attempt_on; [|exact Ha]. intros d u Hd Hu. auto. }
    destruct Hl as [n Hl]. exists n. apply level_resolve; auto. intros x [].
Qed.

(** The type found does not depend on how far the compiler had gone. *)
Theorem C83_one_type c t u : knows c t -> knows c u -> t = u.
Proof.
  intros H1 H2. apply C83_resolve in H1 as [n1 H1]. apply C83_resolve in H2 as [n2 H2].
  apply resolve_level in H1, H2. apply (level_le E rt n1 (n1 + n2)) in H1; [|lia]. apply (level_le E rt n2 (n1 + n2)) in H2; [|lia].
  congruence.
Qed.

(** With finitely many custom parsers, the compiler ends: the depth to which instantiations
    are nested is at most their number. *)
Lemma attempt_ext k k' c : (forall d, In d (occ (cust_body E c)) -> k d = k' d) -> attempt E k c = attempt E k' c.
Proof.
  intros H. destruct (attempt E k c) as [t|] eqn:Hk.
  - symmetry. eapply attempt_on; [|exact Hk]. intros d u Hd Hu. now rewrite <- H.
  - destruct (attempt E k' c) as [t|] eqn:Hk'; auto. rewrite <- Hk. symmetry.
    rewrite <- Hk'. symmetry. rewrite Hk'. eapply attempt_on; [|exact Hk']. intros d u Hd Hu. now rewrite H.
Qed.

Definition free (cs stack : list nat) : list nat := filter (fun x => negb (existsb (Nat.eqb x) stack)) cs.

Lemma free_le cs c stack : List.length (free cs (c :: stack)) <= List.length (free cs stack).
Proof.
  unfold free. induction cs as [|x cs IH]; auto. cbn [filter existsb] in *.
  destruct (Nat.eqb x c), (existsb (Nat.eqb x) stack); cbn [orb negb List.length]; lia.
Qed.
Lemma free_lt cs c stack : In c cs -> existsb (Nat.eqb c) stack = false ->
  List.length (free cs (c :: stack)) < List.length (free cs stack).
Proof.
  intros Hc Hs. induction cs as [|x cs IH]; [destruct Hc|]. pose proof (free_le cs c stack) as HL.
  unfold free in *. cbn [filter existsb] in *. destruct (Nat.eqb x c) eqn:Hx; cbn [orb negb].
  - apply Nat.eqb_eq in Hx. subst x. rewrite Hs. cbn [negb List.length]. lia.
  - destruct Hc as [-> |Hc]; [now rewrite Nat.eqb_refl in Hx|]. specialize (IH Hc).
    destruct (existsb (Nat.eqb x) stack); cbn [negb List.length]; lia.
Qed.

Lemma resolve_stable cs : (forall c, In c cs -> incl (occ (cust_body E c)) cs) ->
  forall n n' stack c, In c cs -> List.length (free cs stack) <= n -> List.length (free cs stack) <= n' ->
  resolve E rt n stack c = resolve E rt n' stack c.
Proof.
  intros Hcl. induction n as [|n IH]; intros n' stack c Hc Hn Hn'.
  - destruct n' as [|n']; auto. cbn. destruct (rt c); auto. destruct (existsb (Nat.eqb c) stack) eqn:Hs; auto.
    pose proof (free_lt cs c stack Hc Hs). lia.
  - cbn. destruct n' as [|n']; cbn; destruct (rt c); auto; destruct (existsb (Nat.eqb c) stack) eqn:Hs; auto;
      pose proof (free_lt cs c stack Hc Hs) as HL; [lia|].
    apply attempt_ext. intros d Hd. apply IH; [now apply (Hcl c)|lia|lia].
Qed.

Theorem C83_depth cs c t : (forall d, In d cs -> incl (occ (cust_body E d)) cs) -> In c cs ->
  (knows c t <-> resolve E rt (List.length cs) [] c = Some t).
Proof.
  intros Hcl Hc. rewrite <- C83_resolve. split; [|eauto]. intros [n Hn].
  assert (HL : List.length (free cs []) <= List.length cs) by (unfold free; clear; induction cs; cbn in *; lia).
  apply resolve_level in Hn. apply (level_le E rt n (n + List.length cs)) in Hn; [|lia].
  apply level_resolve with (stack := []) in Hn; [|intros x []]. rewrite <- Hn.
  apply (resolve_stable cs Hcl); auto; lia.
Qed.

(** A custom parser whose type is needed, through any number of others, to find itself has
    none. *)
Definition needs (c d : nat) : Prop := rt c = None /\ forall known, attempt E known c <> None -> known d <> None.

Theorem C83_cycle c : clos_trans nat needs c c -> forall t, ~ knows c t.
Proof.
  assert (Hs : forall c d, clos_trans nat needs c d -> forall n t, level E rt n c = Some t ->
    exists n' u, n' < n /\ level E rt n' d = Some u).
  { induction 1 as [x y [Hr Hn]|x y z H1 IH1 H2 IH2]; intros n t Ht.
    - destruct n as [|n]; cbn in Ht; rewrite Hr in Ht; [discriminate|].
      destruct (level E rt n y) as [u|] eqn:Hy; [eauto|]. exfalso. eapply (Hn (level E rt n)); congruence.
    - destruct (IH1 n t Ht) as (n1 & u1 & L1 & Hu). destruct (IH2 n1 u1 Hu) as (n2 & u2 & L2 & Hu2).
      exists n2, u2. split; auto. lia. }
  intros Hc t Hk. apply C83_resolve in Hk as [n Hk]. apply resolve_level in Hk. revert t Hk.
  induction n as [n IH] using lt_wf_ind. intros t Hk. destruct (Hs c c Hc n t Hk) as (n' & u & HL & Hu). eauto.
Qed.

(** Written recursion: a custom parser in the body of [c] outside [ignore] and [join] *)
Lemma rf_none known p d : In d (asks_type p) -> known d = None -> rf E known p = None.
Proof.
  intros Hd Hk. revert Hd. assert (Hl : forall ps, Forall (fun p => In d (asks_type p) -> rf E known p = None) ps ->
    In d (flat_map asks_type ps) -> all_some (map (rf E known) ps) = None).
  { induction 1 as [|q ps Hq HF IH]; cbn; [intros []|]. intros Hd. apply in_app_iff in Hd as [Hd|Hd].
    - now rewrite (Hq Hd).
    - rewrite (IH Hd). now destruct (rf E known q). }
  induction p using parser_ind'; intros Hd; cbn [asks_type rf] in *; try contradiction; try (now rewrite (IHp Hd)); auto.
  - change (rf E known p :: map (rf E known) qs) with (map (rf E known) (p :: qs)). now rewrite (Hl (p :: qs) (Forall_cons _ IHp H) Hd).
  - change (rf E known p :: map (rf E known) qs) with (map (rf E known) (p :: qs)). now rewrite (Hl (p :: qs) (Forall_cons _ IHp H) Hd).
  - apply in_app_iff in Hd as [Hd|Hd]; [now rewrite (IHp1 Hd)|rewrite (IHp2 Hd); now destruct (rf E known p1)].
  - destruct Hd as [-> |[]]. exact Hk.
Qed.

Theorem C83_written c d : rt c = None -> In d (asks_type (cust_body E c)) -> needs c d.
Proof.
  intros Hr Hd. split; auto. intros known Ha Hk. apply Ha. unfold attempt. now rewrite (rf_none known _ d Hd Hk).
Qed.

(** Exactly when a program whose types fit resolves: nothing has to be known before itself. *)
Theorem C83_exact c t : consistent -> (knows c t <-> Acc before c /\ t = cust_ty E c).
Proof.
  intros [HC HT]. assert (Hty : forall c t, knows c t -> t = cust_ty E c).
  { induction 1 as [c0 t0 Hr|c0 t0 known Hr Hk IH Ha].
    - specialize (HT c0). rewrite Hr in HT. auto.
    - specialize (HT c0). rewrite Hr in HT.
      assert (HB : below known total) by (intros d u Hd; unfold total; now rewrite (IH d u Hd)).
      apply (attempt_mono E known total) in Ha; auto. unfold attempt in Ha. rewrite rf_total, HT in Ha.
      destruct (cp E total Parse (cust_body E c0) && cp E total Look (cust_body E c0)); congruence. }
  split.
  - intros Hk. split; auto. induction Hk as [c t Hr|c t known Hr Hk IH Ha].
    + constructor. intros d [Hd _]. congruence.
    + constructor. intros d [_ Hd].
      assert (HB : below known total) by (intros x u Hx; unfold total; now rewrite <- (Hty x u (Hk x u Hx))).
      specialize (HT c). rewrite Hr in HT.
      assert (HK : known d <> None).
      { pose proof (ec_compiles _ HC) as Hcc. unfold attempt in Ha.
        destruct (rf E known (cust_body E c)) as [u|] eqn:Hu; [|discriminate].
        assert (u = cust_ty E c).
        { assert (rf E total (cust_body E c) = Some u) by (apply (rf_on E known total); auto using below_on).
          rewrite rf_total in *. congruence. }
        subst u. apply (rf_asks known HB _ _ HT) in Hu.
        destruct (cp E known Parse (cust_body E c)) eqn:H1; [|discriminate].
        destruct (cp E known Look (cust_body E c)) eqn:H2; [|discriminate].
        apply (cp_asks known HB _ _ (Hcc Parse c)) in H1. apply (cp_asks known HB _ _ (Hcc Look c)) in H2.
        rewrite !in_app_iff in Hd. rewrite Forall_forall in Hu, H1, H2. destruct Hd as [Hd|[Hd|Hd]]; auto. }
      destruct (known d) as [u|] eqn:Hu; [|congruence]. eauto.
  - intros [HA ->]. induction HA as [c HA IH]. specialize (HT c). destruct (rt c) as [t|] eqn:Hr; [rewrite HT; now constructor|].
    set (l := asks_type (cust_body E c) ++ asks Parse (cust_body E c) ++ asks Look (cust_body E c)) in *.
    set (known := fun d => if existsb (Nat.eqb d) l then Some (cust_ty E d) else None).
    assert (HB : below known total).
    { intros d u. unfold known, total. destruct (existsb (Nat.eqb d) l); congruence. }
    assert (HK : Forall (fun d => known d <> None) l).
    { apply Forall_forall. intros d Hd. unfold known. replace (existsb (Nat.eqb d) l) with true; [congruence|].
      symmetry. apply existsb_exists. exists d. split; auto. apply Nat.eqb_refl. }
    apply (knows_deduced c _ known); auto.
    + intros d u. unfold known. destruct (existsb (Nat.eqb d) l) eqn:Hd; [|discriminate]. intros [= <-].
      apply existsb_exists in Hd as (x & Hx & Hd). apply Nat.eqb_eq in Hd. subst x. apply IH. split; auto.
    + pose proof (ec_compiles _ HC) as Hcc. unfold l in HK. rewrite !Forall_app in HK. destruct HK as (K1 & K2 & K3).
      unfold attempt. apply (rf_asks known HB _ _ HT) in K1. rewrite K1.
      apply (cp_asks known HB _ _ (Hcc Parse c)) in K2. apply (cp_asks known HB _ _ (Hcc Look c)) in K3. now rewrite K2, K3.
Qed.

(** A program in which every type is found: the bodies of those without [result_type] compile
    and have that type, as [env_customs] demands. *)
Theorem C83_sound : (forall c, knows c (cust_ty E c)) -> forall c, rt c = None ->
  result_for E (cust_body E c) = Some (cust_ty E c) /\ forall m, compiles E m (cust_body E c) = true.
Proof.
  intros Hall c Hr. specialize (Hall c) as Hc.
  inversion Hc as [? ? Hd|? ? known _ Hk Ha]; subst; [congruence|].
  assert (HB : below known total) by (intros d u Hd; unfold total; f_equal; eapply C83_one_type; eauto).
  apply (attempt_mono E known total) in Ha; auto. unfold attempt in Ha. rewrite rf_total in Ha.
  destruct (result_for E (cust_body E c)) as [u|]; [|discriminate]. rewrite !cp_total in Ha.
  destruct (compiles E Parse (cust_body E c)) eqn:H1; [|discriminate]. destruct (compiles E Look (cust_body E c)) eqn:H2; [|discriminate].
  cbn in Ha. split; [congruence|]. intros []; auto.
Qed.
End Spec.

(** ** Examples *)

(** custom 0: nested brackets [( ... )], the inner ones ignored;
    custom 1: letters separated by custom 0 or 2, whose values are ignored but whose types the
    choice asks for;
    custom 2: nested lists of letters, recursion through a sequence, declared or not;
    custom 3 and 4: two that need each other;
    custom 5: void parts only, itself among them *)
Definition rc_open : parser nat := PIgnore (PAllOf (codes "(")).
Definition rc_close : parser nat := PIgnore (PAllOf (codes ")")).
Definition rc_body (c : nat) : parser nat :=
  match c with
  | 0 => PSequence rc_open [PIgnore (PMaybe (PCustom 0)); rc_close]
  | 1 => PDelimit sx_letter (PIgnore (PChoice (PCustom 0) [PCustom 2]))
  | 2 => PSequence rc_open [PZeroOrMore (PChoice (PCustom 2) [PJoin (POneOrMore sx_letter)]); rc_close]
  | 3 => PMaybe (PCustom 4)
  | 4 => PSequence sx_letter [PIgnore (PCustom 1); PCustom 3]
  | 5 => PSequence rc_open [PMaybe (PCustom 5); rc_close]
  | _ => PEpsilon
  end.
Definition rc_cty (c : nat) : ty :=
  match c with
  | 1 => TVec TSpan | 2 => TUser 2 | 3 => TOpt (TUser 2) | 4 => TUser 2
  | _ => TVoid end.
Definition rc_conv (c : nat) : conv :=
  match c with 2 | 4 => ConvElem (TUser 2) | _ => ConvSame end.
Definition rc : env nat nat := {|
  eqv := Nat.eqb; mem := mem sx; fn_ret := fn_ret sx; fn_app := fn_app sx; ct_ok := ct_ok sx; ct_app := ct_app sx;
  k_ty := k_ty sx; k_val := k_val sx; bool_ok := bool_ok sx; as_bool := as_bool sx;
  cust_body := rc_body; cust_ty := rc_cty; cust_conv := rc_conv |}.

(** [result_type] in 2 only, in 2 and 4, and nowhere *)
Definition rt2 (c : nat) : option ty := match c with 2 => Some (TUser 2) | _ => None end.
Definition rt24 (c : nat) : option ty := match c with 2 | 4 => Some (TUser 2) | _ => None end.
Definition rt0 (c : nat) : option ty := None.

Example rc_closed : forall d, In d [0; 1; 2; 3; 4; 5] -> incl (occ (cust_body rc d)) [0; 1; 2; 3; 4; 5].
Proof.
  intros d Hd. repeat (destruct Hd as [<- |Hd]; [intros x Hx; cbn in Hx; repeat (destruct Hx as [<- |Hx]; [cbn; tauto|]); destruct Hx|]).
  destruct Hd.
Qed.

Example rc_resolved :
  map (resolve rc rt24 6 []) [0; 1; 2; 3; 4; 5] =
    [Some TVoid; Some (TVec TSpan); Some (TUser 2); Some (TOpt (TUser 2)); Some (TUser 2); None] /\
  map (resolve rc rt2 6 []) [0; 1; 2; 3; 4; 5] =
    [Some TVoid; Some (TVec TSpan); Some (TUser 2); None; None; None] /\
  map (resolve rc rt0 6 []) [0; 1; 2; 3; 4; 5] = [Some TVoid; None; None; None; None; None].
Proof. vm_compute. auto. Qed.

Example rc_knows : knows rc rt24 0 TVoid /\ knows rc rt24 3 (TOpt (TUser 2)).
Proof. split; apply C83_resolve; exists 6; reflexivity. Qed.

Lemma rc_customs : env_customs rc.
Proof.
  constructor.
  - intros m c. destruct m, c as [|[|[|[|[|[|c]]]]]]; reflexivity.
  - intros c. destruct c as [|[|[|[|[|[|c]]]]]]; cbn; auto.
  - intros c. destruct c as [|[|[|[|[|[|c]]]]]]; cbn; auto; (split; [auto|split; [discriminate|]]); eexists; (split; [reflexivity|]); split; auto; discriminate.
Qed.
Example rc_consistent : consistent rc rt24.
Proof. split; [apply rc_customs|]. intros [|[|[|[|[|[|c]]]]]]; reflexivity. Qed.

(** Every type of the sample environment is found, with [result_type] in 0 and 2 only. *)
Definition rt_sx (c : nat) : option ty := match c with 0 | 2 => Some (TUser 2) | _ => None end.
Example sx_found : forall c, knows sx rt_sx c (cust_ty sx c).
Proof. intros c. apply C83_resolve. exists 1. destruct c as [|[|[|c]]]; reflexivity. Qed.

Example rc_mutual : clos_trans nat (needs rc rt2) 3 3.
Proof.
  apply t_trans with 4; apply t_step; apply C83_written; cbn; auto.
Qed.

(** The types of the environment may fit although the compiler refuses the program: the
    condition on programs used elsewhere does not imply that the types are found. *)
Theorem C83_not_found : exists (E : env nat nat) rt c, consistent E rt /\ (forall d, rt d <> None -> d <> c) /\
  result_for E (cust_body E c) = Some (cust_ty E c) /\ forall t, ~ knows E rt c t.
Proof.
  exists rc, rt24, 5. split; [apply rc_consistent|]. split; [intros [|[|[|[|[|[|d]]]]]] Hd; cbn in Hd; congruence|].
  split; [reflexivity|]. apply C83_cycle. apply t_step. apply C83_written; cbn; auto.
Qed.

(** The examples of the repository: one [result_type], that of [JsonValue] (json.cpp:52-80)
    or of [powterm] (parser.h:51-81), is enough for the types of all their custom parsers;
    the others could be left out.  Without any, only [number] has a type. *)
Definition only (c : nat) (t : ty) (d : nat) : option ty := if d =? c then Some t else None.

Theorem C83_examples memory cons :
  (forall c, knows (json_env memory cons) (only 0 (json_ty 0)) c (json_ty c)) /\
  (forall c t, c <= 2 -> ~ knows (json_env memory cons) (fun _ => None) c t) /\
  (forall c, knows (alg_env memory) (only 1 (alg_ty 1)) c (alg_ty c)) /\
  knows (alg_env memory) (fun _ => None) 0 (alg_ty 0) /\
  (forall c t, 1 <= c <= 5 -> ~ knows (alg_env memory) (fun _ => None) c t).
Proof.
  split; [|split; [|split; [|split]]].
  - intros c. apply C83_resolve. exists 3. destruct c as [|[|[|c]]]; reflexivity.
  - intros c t Hc. rewrite (C83_depth _ _ [0; 1; 2]).
    + destruct c as [|[|[|c]]]; [..|lia]; vm_compute; discriminate.
    + intros d Hd. repeat (destruct Hd as [<- |Hd]; [intros x Hx; vm_compute in Hx; cbn; tauto|]). destruct Hd.
    + cbn. lia.
  - intros c. apply C83_resolve. exists 6. destruct c as [|[|[|[|[|[|c]]]]]]; reflexivity.
  - apply C83_resolve. exists 1. reflexivity.
  - intros c t Hc. rewrite (C83_depth _ _ [0; 1; 2; 3; 4; 5]).
    + destruct c as [|[|[|[|[|[|c]]]]]]; try lia; vm_compute; discriminate.
    + intros d Hd. repeat (destruct Hd as [<- |Hd]; [intros x Hx; vm_compute in Hx; cbn; tauto|]). destruct Hd.
    + cbn. lia.
Qed.

Print Assumptions C83_resolve.
Print Assumptions C83_one_type.
Print Assumptions C83_depth.
Print Assumptions C83_cycle.
Print Assumptions C83_written.
Print Assumptions C83_exact.
Print Assumptions C83_sound.
Print Assumptions C83_not_found.
Print Assumptions C83_examples.
