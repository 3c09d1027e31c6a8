(** * Result types of custom parsers that declare none

    The result type of a custom parser without a member [result_type] is that of its
    [get_parser()], and asking for it checks that [get_parser()] is a parser for the element
    type, which instantiates its [parse] and [lookahead] (their return types are deduced from
    their bodies).  If that asks for the type that is being found, the class
    [custom_parser_result_type] is not complete and the program does not compile. *)
From Coq Require Import String List Arith ZArith Bool Lia.
From Verif Require Import Types Compound Parser Outcome CompoundFacts Exec Mono Derive Typing Check.
Import ListNotations.

Section Recur.
Context {T V : Type} (E : env T V).

(** ** What [result_for], [parse] and [lookahead] ask of custom parsers

    As [result_for] and [compiles] of Parser.v, while the types of only some custom parsers
    are known. *)
Section Known.
Variable known : nat -> option ty.

(** The [result_for] aliases (places as at [result_for] in Parser.v); custom.h:35-37 asks for
    the type. *)
Fixpoint rf (p : parser T) : option ty :=
  match p with
  | PAnyOf _ | PNoneOf _ | PAllOf _ | PAnything => Some TSpan
  | PEpsilon => Some TVoid
  | PChoice p ps =>
      match all_some (rf p :: map rf ps) with
      | Some tys => Some (compound_result TVar (fst (filter_out_void_deduplicate tys)))
      | None => None
      end
  | PSequence p ps =>
      match all_some (rf p :: map rf ps) with
      | Some tys => Some (compound_result TTup (fst (filter_out_void tys)))
      | None => None
      end
  | PMaybe p =>
      match rf p with
      | Some t => Some (if is_void t then TVoid else TOpt t)
      | None => None
      end
  | PExactly p n =>
      match rf p with
      | Some t => Some (if is_void t then TVoid else TArr t n)
      | None => None
      end
  | POneOrMore p | PZeroOrMore p =>
      match rf p with
      | Some t => Some (if is_void t then TVoid else TVec t)
      | None => None
      end
  | PDelimit p d =>
      match rf p, rf d with
      | Some tp, Some td =>
          Some (if is_void td
                then (if is_void tp then TVoid else TVec tp)
                else (if is_void tp then TVec td else TPair (TVec tp) (TVec td)))
      | _, _ => None
      end
  | PIgnore _ => Some TVoid
  | PComplete p => rf p
  | PJoin _ => Some TSpan
  | PMap p f =>
      match rf p with
      | Some t => fn_ty E f (arg_tys t)
      | None => None
      end
  | PFilter p f =>
      match rf p with
      | Some t => match fn_ty E f (arg_tys t) with
                  | Some b => if bool_ok E b then Some t else None
                  | None => None
                  end
      | None => None
      end
  | PNamed p _ => rf p
  | PCustom c => known c
  end.

Definition has_rf (p : parser T) : bool := match rf p with Some _ => true | None => false end.

(** The bodies of [parse] and [lookahead] (places as at [compiles] in Parser.v).  A call of a
    custom parser's [parse] asks for its result type, which is in the declaration
    (custom.h:42); its [lookahead] is declared to return [result<void, V>] (custom.h:50).
    Neither body is needed here.  The [lookahead] of a choice or a sequence asks for the
    result types of the parts ([_trait<V>::unwrapped], choice.h:58, sequence.h:59). *)
Fixpoint cp (m : mode) (p : parser T) {struct p} : bool :=
  match p with
  | PAnyOf _ | PNoneOf _ | PAllOf _ | PAnything | PEpsilon => true
  | PChoice p ps =>
      match all_some (map rf (p :: ps)) with
      | None => false
      | Some tys =>
          match m with
          | Look => cp Look p && forallb (cp Look) ps
          | Parse =>
              let done := fst (filter_out_void_deduplicate tys) in
              let seq := snd (filter_out_void_deduplicate tys) in
              (unwrapped done || emplace_ok done tys seq)
              && match seq with
                 | [] => true
                 | i :: seq' =>
                     (match i with None => cp Look p | Some _ => cp Parse p end)
                     && compound_compiles cp ps seq'
                 end
          end
      end
  | PSequence p ps =>
      match all_some (map rf (p :: ps)) with
      | None => false
      | Some tys =>
          match m with
          | Look => cp Look p && forallb (cp Look) ps
          | Parse =>
              match snd (filter_out_void tys) with
              | [] => true
              | i :: seq' =>
                  (match i with None => cp Look p | Some _ => cp Parse p end)
                  && compound_compiles cp ps seq'
              end
          end
      end
  | PMaybe p | POneOrMore p | PZeroOrMore p =>
      cp m p && match m with Look => true | Parse => has_rf p end
  | PExactly p n =>
      negb (n =? 0) && cp m p && match m with Look => true | Parse => has_rf p end
  | PDelimit p d =>
      cp m p && cp m d && match m with Look => true | Parse => has_rf p && has_rf d end
  | PIgnore p => cp Look p
  | PComplete p => cp m p && match m with Look => true | Parse => has_rf p end
  | PJoin p =>
      match m with
      | Look => cp Look p
      | Parse => cp Parse p && match rf p with Some t => joinable t | None => false end
      end
  | PMap p f =>
      match m with Look => cp Look p | Parse => cp Parse p && has_rf (PMap p f) end
  | PFilter p f =>
      match m with Look => cp Look p | Parse => cp Parse p && has_rf (PFilter p f) end
  | PNamed p _ => cp m p
  | PCustom c => match m with Look => true | Parse => match known c with Some _ => true | None => false end end
  end.

(** custom.h:14-19 [custom_parser_result_type] without [result_type]: parser.h:76-87
    [parser_for] of [get_parser()], then its [result_for]. *)
Definition attempt (c : nat) : option ty :=
  match rf (cust_body E c) with
  | Some t => if cp Parse (cust_body E c) && cp Look (cust_body E c) then Some t else None
  | None => None
  end.
End Known.

(** [rt c]: the member [result_type] of the custom parser [c], if it has one. *)
Variable rt : nat -> option ty.

(** custom.h:14-26: instantiating [custom_parser_result_type<P, V>].  [stack] are the
    instantiations that have begun and not ended; those classes are incomplete.  [n] is the
    depth up to which the compiler goes. *)
Fixpoint resolve (n : nat) (stack : list nat) (c : nat) : option ty :=
  match rt c with
  | Some t => Some t
  | None =>
      if existsb (Nat.eqb c) stack then None
      else match n with
           | O => None
           | S n' => attempt (resolve n' (c :: stack)) c
           end
  end.

(** ** Without stack and depth *)
Fixpoint level (n : nat) (c : nat) : option ty :=
  match rt c with
  | Some t => Some t
  | None => match n with O => None | S n' => attempt (level n') c end
  end.

Definition below (k k' : nat -> option ty) : Prop := forall d t, k d = Some t -> k' d = Some t.

Fixpoint occ (p : parser T) : list nat :=
  match p with
  | PChoice p ps | PSequence p ps => occ p ++ flat_map occ ps
  | PMaybe p | PExactly p _ | POneOrMore p | PZeroOrMore p | PIgnore p | PComplete p | PJoin p
  | PMap p _ | PFilter p _ | PNamed p _ => occ p
  | PDelimit p d => occ p ++ occ d
  | PCustom c => [c]
  | _ => []
  end.

Section Mono.
Variables k k' : nat -> option ty.
Definition on (p : parser T) : Prop := forall d t, In d (occ p) -> k d = Some t -> k' d = Some t.

Lemma rfs_on ps tys : Forall (fun p => on p -> forall t, rf k p = Some t -> rf k' p = Some t) ps ->
  (forall p, In p ps -> on p) -> all_some (map (rf k) ps) = Some tys -> all_some (map (rf k') ps) = Some tys.
Proof.
  intros HF Ho H. apply all_some_spec in H. apply all_some_spec. revert tys H.
  induction HF as [|p ps Hp HF IH]; intros [|t tys] H; try discriminate; auto. cbn in *. injection H as H H'.
  f_equal; [apply Hp; auto|apply IH; auto].
Qed.
Lemma on_parts (p : parser T) ps q : (forall d t, In d (occ p ++ flat_map occ ps) -> k d = Some t -> k' d = Some t) -> In q (p :: ps) -> on q.
Proof. intros H [<- |Hq] d t Hd; apply H; apply in_app_iff; [now left|right]. apply in_flat_map. eauto. Qed.

Lemma rf_on p : on p -> forall t, rf k p = Some t -> rf k' p = Some t.
Proof.
  induction p using parser_ind'; intros Ho u Hu; cbn [rf] in *; auto;
    try (destruct (rf k p) as [t0|] eqn:Hp; [|discriminate]; rewrite (IHp Ho _ eq_refl); exact Hu).
  - change (rf k p :: map (rf k) qs) with (map (rf k) (p :: qs)) in Hu. change (rf k' p :: map (rf k') qs) with (map (rf k') (p :: qs)).
    destruct (all_some (map (rf k) (p :: qs))) as [tys|] eqn:Ha; [|discriminate].
    rewrite (rfs_on (p :: qs) tys); auto. intros q Hq. eapply on_parts; eauto.
  - change (rf k p :: map (rf k) qs) with (map (rf k) (p :: qs)) in Hu. change (rf k' p :: map (rf k') qs) with (map (rf k') (p :: qs)).
    destruct (all_some (map (rf k) (p :: qs))) as [tys|] eqn:Ha; [|discriminate].
    rewrite (rfs_on (p :: qs) tys); auto. intros q Hq. eapply on_parts; eauto.
  - destruct (rf k p1) as [t1|] eqn:H1; [|discriminate]. destruct (rf k p2) as [t2|] eqn:H2; [|discriminate].
    rewrite (IHp1 (fun d t Hd => Ho d t (in_or_app _ _ _ (or_introl Hd))) _ eq_refl).
    rewrite (IHp2 (fun d t Hd => Ho d t (in_or_app _ _ _ (or_intror Hd))) _ eq_refl). exact Hu.
  - apply Ho; cbn; auto.
Qed.

Lemma has_rf_on p : on p -> has_rf k p = true -> has_rf k' p = true.
Proof. intros Ho. unfold has_rf. destruct (rf k p) as [t|] eqn:H; [|discriminate]. now rewrite (rf_on p Ho t H). Qed.

Lemma compound_on ps : Forall (fun p => on p -> forall m, cp k m p = true -> cp k' m p = true) ps ->
  (forall p, In p ps -> on p) -> forall seq, compound_compiles (cp k) ps seq = true -> compound_compiles (cp k') ps seq = true.
Proof.
  induction 1 as [|p ps Hp HF IH]; intros Ho [|i seq] H; cbn in *; auto. apply andb_true_iff in H as [H1 H2].
  rewrite IH; auto. rewrite andb_true_r. destruct i; apply Hp; auto.
Qed.
Lemma forallb_on ps m : Forall (fun p => on p -> forall m, cp k m p = true -> cp k' m p = true) ps ->
  (forall p, In p ps -> on p) -> forallb (cp k m) ps = true -> forallb (cp k' m) ps = true.
Proof.
  induction 1 as [|p ps Hp HF IH]; intros Ho H; cbn in *; auto. apply andb_true_iff in H as [H1 H2].
  rewrite IH; auto. rewrite Hp; auto.
Qed.

Lemma all_rf ps : Forall (fun p => on p -> forall t, rf k p = Some t -> rf k' p = Some t) ps.
Proof. apply Forall_forall. intros q _. apply rf_on. Qed.

Ltac ands := repeat match goal with H : _ && _ = true |- _ => apply andb_true_iff in H; destruct H end.

Lemma cp_on p : on p -> forall m, cp k m p = true -> cp k' m p = true.
Proof.
  induction p using parser_ind'; intros Ho m Hm; cbn [cp] in *; auto.
  - destruct (all_some (map (rf k) (p :: qs))) as [tys|] eqn:Ha; [|discriminate].
    rewrite (rfs_on (p :: qs) tys); auto using all_rf; [|intros q Hq; eapply on_parts; eauto].
    rename IHp into Hp, H into HF.
    destruct m.
    + ands. apply andb_true_iff. split; auto. destruct (snd (filter_out_void_deduplicate tys)) as [|i seq]; auto.
      ands. rewrite (compound_on qs HF); auto; [|intros q Hq; eapply on_parts; eauto; now right]. rewrite andb_true_r.
      destruct i; apply Hp; auto; eapply on_parts; eauto; now left.
    + ands. rewrite (forallb_on qs Look HF); auto; [|intros q Hq; eapply on_parts; eauto; now right]. rewrite andb_true_r.
      apply Hp; auto; eapply on_parts; eauto; now left.
  - destruct (all_some (map (rf k) (p :: qs))) as [tys|] eqn:Ha; [|discriminate].
    rewrite (rfs_on (p :: qs) tys); auto using all_rf; [|intros q Hq; eapply on_parts; eauto].
    rename IHp into Hp, H into HF.
    destruct m.
    + destruct (snd (filter_out_void tys)) as [|i seq]; auto.
      ands. rewrite (compound_on qs HF); auto; [|intros q Hq; eapply on_parts; eauto; now right]. rewrite andb_true_r.
      destruct i; apply Hp; auto; eapply on_parts; eauto; now left.
    + ands. rewrite (forallb_on qs Look HF); auto; [|intros q Hq; eapply on_parts; eauto; now right]. rewrite andb_true_r.
      apply Hp; auto; eapply on_parts; eauto; now left.
  - ands. rewrite IHp; auto. destruct m; auto. now apply has_rf_on.
  - ands. apply andb_true_iff. split; [apply andb_true_iff; split; auto|]. destruct m; auto. now apply has_rf_on.
  - ands. rewrite IHp; auto. destruct m; auto. now apply has_rf_on.
  - ands. rewrite IHp; auto. destruct m; auto. now apply has_rf_on.
  - assert (O1 : on p1) by (intros d t Hd; apply Ho, in_or_app; auto). assert (O2 : on p2) by (intros d t Hd; apply Ho, in_or_app; auto).
    ands. rewrite IHp1, IHp2; auto. destruct m; auto. ands. cbn. rewrite !has_rf_on; auto.
  - ands. rewrite IHp; auto. destruct m; auto. now apply has_rf_on.
  - destruct m; auto. ands. rewrite IHp; auto. destruct (rf k p) as [t|] eqn:Ht; [|discriminate]. now rewrite (rf_on p Ho t Ht).
  - destruct m; auto. ands. rewrite IHp; auto. cbn. eapply (has_rf_on (PMap p f)); eauto.
  - destruct m; auto. ands. rewrite IHp; auto. cbn. eapply (has_rf_on (PFilter p f)); eauto.
  - destruct m; auto. destruct (k c) as [t|] eqn:Hk; [|discriminate]. now rewrite (Ho c t (or_introl eq_refl) Hk).
Qed.

Lemma attempt_on c t : on (cust_body E c) -> attempt k c = Some t -> attempt k' c = Some t.
Proof.
  unfold attempt. intros Ho H. destruct (rf k (cust_body E c)) as [u|] eqn:Hu; [|discriminate].
  rewrite (rf_on _ Ho _ Hu). destruct (cp k Parse (cust_body E c)) eqn:H1; [|discriminate].
  destruct (cp k Look (cust_body E c)) eqn:H2; [|discriminate]. rewrite !cp_on; auto.
Qed.
End Mono.

Lemma attempt_mono k k' c t : below k k' -> attempt k c = Some t -> attempt k' c = Some t.
Proof. intros H. apply attempt_on. intros d u _. apply H. Qed.

Lemma level_S n c t : level n c = Some t -> level (S n) c = Some t.
Proof.
  revert c t. induction n as [|n IH]; intros c t H; cbn in *; destruct (rt c); auto; try discriminate.
  eapply attempt_mono; [|exact H]. exact IH.
Qed.
Lemma level_le n n' c t : n <= n' -> level n c = Some t -> level n' c = Some t.
Proof. induction 1; auto. intros. apply level_S. auto. Qed.

Lemma resolve_level n : forall stack c t, resolve n stack c = Some t -> level n c = Some t.
Proof.
  induction n as [|n IH]; intros stack c t H; cbn in *; destruct (rt c); auto;
    destruct (existsb (Nat.eqb c) stack); try discriminate.
  eapply attempt_mono; [|exact H]. intros d u. apply IH.
Qed.
Lemma resolve_S n : forall stack c t, resolve n stack c = Some t -> resolve (S n) stack c = Some t.
Proof.
  induction n as [|n IH]; intros stack c t H; cbn in *; destruct (rt c); auto;
    destruct (existsb (Nat.eqb c) stack); try discriminate.
  eapply attempt_mono; [|exact H]. intros d u. apply IH.
Qed.

(** Classes that are begun are never needed: the test for them refuses nothing that could
    have ended. *)
Lemma level_resolve n : forall stack c t, level n c = Some t -> (forall x, In x stack -> level n x = None) ->
  resolve n stack c = Some t.
Proof.
  induction n as [|n IH]; intros stack c t H Hs.
  - cbn in *. destruct (rt c); auto. discriminate.
  - destruct (level n c) as [u|] eqn:Hc.
    + pose proof (level_S n c u Hc) as H'. rewrite H in H'. injection H' as <-.
      apply resolve_S. apply IH; auto. intros x Hx. specialize (Hs x Hx). destruct (level n x) eqn:Hl; auto.
      apply level_S in Hl. congruence.
    + cbn [resolve level] in *. destruct (rt c) as [u|] eqn:Hr; auto.
      assert (Hn : existsb (Nat.eqb c) stack = false).
      { destruct (existsb (Nat.eqb c) stack) eqn:He; auto. apply existsb_exists in He as (x & Hx & He).
        apply Nat.eqb_eq in He. subst x. specialize (Hs c Hx). cbn [level] in Hs. rewrite Hr in Hs. congruence. }
      rewrite Hn. eapply attempt_mono; [|exact H]. intros d u Hd. apply IH; auto.
      intros x [<- |Hx]; auto. specialize (Hs x Hx). destruct (level n x) eqn:Hl; auto. apply level_S in Hl. cbn [level] in Hl. congruence.
Qed.
End Recur.
