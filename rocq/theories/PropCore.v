(** * Properties C01, C02, C03 (safety), C04, C06, C20, C34, C43 *)
From Coq Require Import String List Arith ZArith Bool Lia.
From Verif Require Import Types Compound Parser Outcome CompoundFacts Exec Mono Derive Typing Join Leaves Sound
  BigStep BigSound BigComplete Peg Elems Samples.
Import ListNotations.

(** ** C01 *)
Theorem C01_failure_gives_back_the_input {T V} (E : env T V) m p i rem tr :
  valid E i -> evals E m p i (Done (Res None rem) tr) -> rem = i.
Proof. intros Hv H. exact (evals_sound E m p i _ tr Hv H). Qed.

(** a sequence that fails after its first two parts consumed, inside a delimit *)
Example C01_case : evals sx Parse
  (PSequence (PAllOf (codes "((")) [PCustom 1; PAllOf (codes "!")]) in1 (Done (Res None in1) []).
Proof. runs 20. Qed.

(** ** C02 *)
Theorem C02_rest_is_a_tail {T V} (E : env T V) m p i v rem tr :
  valid E i -> evals E m p i (Done (Res (Some v) rem) tr) ->
  sp_blk rem = sp_blk i /\ sp_off i <= sp_off rem /\
  sp_off rem + sp_len rem = sp_off i + sp_len i /\
  elems E i = elems E (Span (sp_blk i) (sp_off i) (sp_off rem - sp_off i)) ++ elems E rem.
Proof.
  intros Hv H. destruct (evals_sound E m p i _ tr Hv H) as [(c & Hc & Hr) _]. cbn in Hr. subst rem.
  cbn [r_rem adv sp_blk sp_off sp_len].
  split; [reflexivity|split; [lia|split; [lia|]]].
  replace (sp_off i + c - sp_off i) with c by lia. now apply elems_adv.
Qed.

(** Nothing is skipped or read twice between sub-parsers: the consumed range is derived by
    the grammar rule of each sub-parser on adjacent sub-ranges ([derives], Derive.v). *)
Theorem C02_consumed_range_is_derived {T V} (E : env T V) m p i v rem tr :
  valid E i -> evals E m p i (Done (Res (Some v) rem) tr) ->
  derives E (sp_blk i) m p (sp_off i) (sp_off rem) v.
Proof. intros Hv H. exact (proj2 (evals_sound E m p i _ tr Hv H)). Qed.

Example C02_case : evals sx Parse (PSequence (PCustom 0) [PAllOf (codes "+"); PDelimit digits (PIgnore (PAllOf (codes ",")))])
  in1 (Done (Res (Some (RVal (VTup [VUser 2 [VVec [VVar 0 (VUser 2 [VVec [VVar 1 (VSpan (Span 1 2 1))]]);
                                                  VVar 1 (VSpan (Span 1 4 1))]];
       VSpan (Span 1 6 1);
       VVec [VVec [VSpan (Span 1 7 1); VSpan (Span 1 8 1)];
             VVec [VSpan (Span 1 10 1); VSpan (Span 1 11 1); VSpan (Span 1 12 1)]]]))) (at1 13))
        [EInvoke (FConstruct (TUser 2)) [VVec [VVar 1 (VSpan (Span 1 2 1))]];
         EInvoke (FConstruct (TUser 2))
           [VVec [VVar 0 (VUser 2 [VVec [VVar 1 (VSpan (Span 1 2 1))]]); VVar 1 (VSpan (Span 1 4 1))]]]).
Proof. runs 20. Qed.

(** ** C03, first half: no undefined behaviour.  (Second half: Reloc.v.) *)
Theorem C03_no_undefined_behaviour {T V} (E : env T V) m p i :
  valid E i -> compiles E m p = true ->
  (* the functions below a join hand back only (parts of) spans they were given *)
  (forall q, reach E p (PJoin q) -> local_parser E q) ->
  env_typed E -> env_customs E ->
  ~ evals E m p i UB.
Proof.
  intros Hv Hc Hj HT HC [_ [n Hn]]. now apply (run_safe E n m p i Hv Hc Hj HT HC) in Hn.
Qed.

(** Without that condition it is false: join over a function that returns a span of other
    storage subtracts unrelated pointers (join.h:55-57). *)
Theorem C03_foreign_span_refuted : exists (E : env nat nat) p i,
  valid E i /\ compiles E Parse p = true /\ env_typed E /\ env_customs E /\ evals E Parse p i UB.
Proof.
  exists sx, (PJoin (PSequence (PAllOf (codes "(")) [PMap (PAllOf (codes "(")) (FUser 6)])), in1.
  split; [apply in1_valid|]. split; [reflexivity|]. split; [apply sx_typed|]. split; [apply sx_customs|].
  runs 20.
Qed.

(** the hypotheses hold of a parser with joins, a map and recursive custom parsers *)
Definition C03_parser : parser nat :=
  PSequence (PCustom 0) [PJoin (PSequence (PMap (PAllOf (codes "+")) (FUser 5)) [PZeroOrMore PAnything])].

Lemma sx_id_local : local_fn sx (FUser 5).
Proof.
  intros args r H s Hs Hn. cbn in H. destruct args as [|[] [|]]; try discriminate.
  injection H as <-. cbn in Hs. destruct Hs as [<-|[]]. exists s0. cbn. repeat split; auto.
Qed.

Ltac reached H := repeat (inversion H; subst; clear H;
  [|match goal with H' : In _ (components _ _) |- _ => cbn in H'; repeat (destruct H' as [<-|H']; [|]); try contradiction end]).

Lemma reach_0 q : reach sx (PCustom 0) q -> match q with PMap _ _ | PFilter _ _ => False | PJoin r => r = POneOrMore sx_letter | _ => True end.
Proof.
  intros H. remember (PCustom 0) as p eqn:Hp.
  assert (HI : In p [PCustom 0; sx_body 0; PIgnore (PAllOf (codes "(")); PAllOf (codes "(");
     PZeroOrMore (PChoice (PCustom 0) [PCustom 1]); PChoice (PCustom 0) [PCustom 1]; PCustom 1; PJoin (POneOrMore sx_letter);
     POneOrMore sx_letter; sx_letter; PIgnore (PAllOf (codes ")")); PAllOf (codes ")")]) by (subst; cbn; tauto).
  clear Hp. induction H as [p|p q r Hq Hr IH].
  - cbn in HI. repeat (destruct HI as [<-|HI]; [cbn; auto|]). contradiction.
  - apply IH. clear IH Hr r.
    cbn in HI. repeat (destruct HI as [<-|HI]; [cbn in Hq; repeat (destruct Hq as [<-|Hq]; [cbn; tauto|]); contradiction|]). contradiction.
Qed.

Example C03_case : valid sx in1 /\ compiles sx Parse C03_parser = true /\
  (forall q, reach sx C03_parser (PJoin q) -> local_parser sx q) /\ env_typed sx /\ env_customs sx.
Proof.
  split; [apply in1_valid|]. split; [reflexivity|]. split; [|split; [apply sx_typed|apply sx_customs]].
  intros q Hq. inversion Hq; subst. cbn in H. destruct H as [<-|[<-|[]]].
  - apply reach_0 in H0. subst q. intros r Hr. inversion Hr; subst; auto. cbn in H. destruct H as [<-|[]].
    inversion H0; subst; cbn; auto; contradiction.
  - inversion H0; subst.
    + intros r Hr. inversion Hr; subst; [exact I|]. cbn in H. destruct H as [<-|[<-|[]]].
      * inversion H1; subst; [apply sx_id_local|]. cbn in H. destruct H as [<-|[]]. inversion H2; subst; [exact I|contradiction].
      * inversion H1; subst; [exact I|]. cbn in H. destruct H as [<-|[]]. inversion H2; subst; [exact I|contradiction].
    + cbn in H. destruct H as [<-|[]]. inversion H1; subst. cbn in H. destruct H as [<-|[<-|[]]].
      * inversion H2; subst. cbn in H. destruct H as [<-|[]]. inversion H3; subst; contradiction.
      * inversion H2; subst. cbn in H. destruct H as [<-|[]]. inversion H3; subst; contradiction.
Qed.

(** ** C04 *)
Theorem C04_spans_lie_in_the_consumed_input {T V} (E : env T V) m p i v rem tr s :
  valid E i -> local_parser E p -> evals E m p i (Done (Res (Some v) rem) tr) ->
  In s (rv_leaves v) -> sp_len s <> 0 ->
  sp_blk s = sp_blk i /\ sp_off i <= sp_off s /\ sp_off s + sp_len s <= sp_off rem.
Proof.
  intros Hv Hl H Hs Hn. apply C02_consumed_range_is_derived in H; auto.
  destruct (derives_region E _ _ _ _ _ _ Hl H) as [_ HF]. rewrite Forall_forall in HF.
  apply HF. apply nonempty_in. auto.
Qed.

(** In the order in which they are parsed (a delimit_keep pair read alternately) the
    non-empty spans increase and do not overlap. *)
Theorem C04_spans_are_ordered {T V} (E : env T V) m p i v rem tr :
  valid E i -> pure_parser E p -> evals E m p i (Done (Res (Some v) rem) tr) ->
  ordered (sp_blk i) (sp_off i) (sp_off rem) (nonempty (rv_src v)).
Proof. intros Hv Hp H. apply C02_consumed_range_is_derived in H; auto. eapply derives_ordered; eauto. Qed.

Example C04_case : pure_parser sx (PDelimit digits (PAllOf (codes ","))) /\
  evals sx Parse (PDelimit digits (PAllOf (codes ","))) (at1 7)
    (Done (Res (Some (RVal (VPair (VVec [VVec [VSpan (Span 1 7 1); VSpan (Span 1 8 1)];
             VVec [VSpan (Span 1 10 1); VSpan (Span 1 11 1); VSpan (Span 1 12 1)]])
             (VVec [VSpan (Span 1 9 1)])))) (at1 13)) []).
Proof.
  split; [|runs 20].
  intros q Hq. inversion Hq; subst; cbn; auto. destruct H as [<-|[<-|[]]].
  - inversion H0; subst; cbn; auto. destruct H as [<-|[]]. inversion H1; subst; cbn; auto. contradiction.
  - inversion H0; subst; cbn; auto. contradiction.
Qed.

(** ** C06 *)
Theorem C06_lookahead_runs_no_user_code {T V} (E : env T V) p i o :
  evals E Look p i o -> (forall r tr, o = Done r tr -> tr = []) /\ (forall e, o <> Exn e).
Proof.
  intros [_ [n <-]]. pose proof (look_quiet E n p i) as H. destruct (run E n Look p i); cbn in H; split;
    try discriminate; try contradiction; intros; congruence.
Qed.

Theorem C06_ignore_runs_no_user_code {T V} (E : env T V) m p i o :
  evals E m (PIgnore p) i o -> (forall r tr, o = Done r tr -> tr = []) /\ (forall e, o <> Exn e).
Proof.
  intros H. apply (C06_lookahead_runs_no_user_code E p i). apply evals_inv in H as H'. destruct H' as [n Hn].
  cbn in Hn. split; [apply H|eauto].
Qed.

(** the function would be called (and throw) if the parser were parsed *)
Example C06_case :
  evals sx Look (PFilter (PAllOf (codes "((")) (FUser 3)) in1 (Done (Res (Some RVoid) (at1 2)) []) /\
  evals sx Parse (PIgnore (PFilter (PAllOf (codes "((")) (FUser 3))) in1 (Done (Res (Some RVoid) (at1 2)) []) /\
  evals sx Parse (PFilter (PAllOf (codes "((")) (FUser 3)) in1 (Exn 42).
Proof. split; [runs 20|split; runs 20]. Qed.

(** ** C20 *)
(** The non-empty spans of [ls] form one contiguous run, covered by [s]; if there is none,
    [s] is the empty span at [at_]. *)
Definition covers (ls : list span) (b at_ : nat) (s : span) : Prop :=
  (nonempty ls = [] /\ s = Span b at_ 0) \/
  (nonempty ls <> [] /\ exists lo hi, tiles b lo hi (nonempty ls) /\ s = Span b lo (hi - lo)).

Lemma join_inner {T V} (E : env T V) q i x rem tr :
  valid E i -> compiles E Parse (PJoin q) = true -> local_parser E q -> env_typed E -> env_customs E ->
  big E Parse q i (Res (Some (RVal x)) rem) tr ->
  jval x /\ (forall s, In s (leaves x) -> sp_len s <> 0 -> sp_blk s = sp_blk i) /\ sp_blk rem = sp_blk i.
Proof.
  intros Hv Hc Hl HT HC Hb. cbn in Hc. apply andb_true_iff in Hc as [Hc Hj].
  apply evals_big in Hb; auto. destruct (evals_sound E _ _ _ _ _ Hv Hb) as [Hs Hd]. cbn in Hs, Hd.
  destruct (derives_typed E HT HC _ _ _ _ _ Hc Hd) as (t & Ht & Hx). rewrite Ht in Hj.
  split; [|split].
  - eapply joinable_jval; eauto. now apply rv_val_inv.
  - intros s Hin Hn. eapply (C04_spans_lie_in_the_consumed_input E Parse q i (RVal x)); eauto.
  - now apply suffix_blk.
Qed.

Theorem C20_join_success {T V} (E : env T V) q i v rem tr :
  valid E i -> compiles E Parse (PJoin q) = true -> local_parser E q -> env_typed E -> env_customs E ->
  evals E Parse (PJoin q) i (Done (Res (Some v) rem) tr) <->
  exists x s, evals E Parse q i (Done (Res (Some (RVal x)) rem) tr) /\
    covers (leaves x) (sp_blk i) (sp_off rem) s /\ v = RVal (VSpan s).
Proof.
  intros Hv Hc Hl HT HC. rewrite evals_big by auto. split.
  - intros H. inversion H; subst.
    match goal with Hq : big _ Parse q _ _ _, Hx : join_executor _ _ = _ |- _ => rename Hq into Hq'; rename Hx into Hx' end.
    destruct (join_inner E q i x rem tr Hv Hc Hl HT HC Hq') as (Hjv & Hb & Hr).
    exists x, s. split; [now apply evals_big|]. split; auto.
    apply (join_executor_some (sp_blk i)) in Hx'; auto. rewrite Hr in Hx'. exact Hx'.
  - intros (x & s & Hq & Hcov & ->). apply evals_big in Hq; auto.
    destruct (join_inner E q i x rem tr Hv Hc Hl HT HC Hq) as (Hjv & Hb & Hr).
    cbn in Hc. apply andb_true_iff in Hc as [Hc Hj]. destruct (result_for E q) as [t|] eqn:Ht; [|discriminate].
    eapply B_join_ok; eauto. apply (join_executor_some (sp_blk i)); auto. rewrite Hr. exact Hcov.
Qed.

(** Otherwise, if the inner parser returns at all, join fails. *)
Theorem C20_join_failure {T V} (E : env T V) q i rem tr :
  valid E i -> compiles E Parse (PJoin q) = true -> local_parser E q -> env_typed E -> env_customs E ->
  evals E Parse (PJoin q) i (Done (Res None rem) tr) <->
  rem = i /\
  (evals E Parse q i (Done (Res None i) tr) \/
   exists x rem', evals E Parse q i (Done (Res (Some (RVal x)) rem') tr) /\
     forall s, ~ covers (leaves x) (sp_blk i) (sp_off rem') s).
Proof.
  intros Hv Hc Hl HT HC. rewrite evals_big by auto. split.
  - intros H. assert (rem = i) by (apply (C01_failure_gives_back_the_input E Parse (PJoin q) i rem tr); auto; now apply evals_big).
    subst rem. split; auto. inversion H; subst.
    + right. exists x, rem.
      match goal with Hq : big _ _ _ _ _ _ |- _ => pose proof Hq as Hq';
        destruct (join_inner E q i x rem tr Hv Hc Hl HT HC Hq) as (Hjv & Hb & Hr) end.
      split; [now apply evals_big|]. intros s Hcov. rewrite <- Hr in Hcov.
      match goal with Hx : join_executor _ _ = Done None _ |- _ => 
        rewrite (proj2 (join_executor_some (sp_blk i) x rem s Hjv Hb)) in Hx; [discriminate|] end.
      rewrite Hr in Hcov |- *. exact Hcov.
    + left. now apply evals_big.
  - intros [-> HH]. pose proof Hc as Hc'. cbn in Hc'. apply andb_true_iff in Hc' as [_ Hj].
    destruct (result_for E q) as [t|] eqn:Ht; [|discriminate]. destruct HH as [Hq|(x & rem' & Hq & Hn)].
    + apply evals_big in Hq; auto. eapply B_join_no; eauto.
    + apply evals_big in Hq; auto. destruct (join_inner E q i x rem' tr Hv Hc Hl HT HC Hq) as (Hjv & Hb & Hr).
      eapply B_join_gap; eauto.
      destruct (join_executor_spec (sp_blk i) x rem' Hjv Hb) as [[H1 H2]|[(lo & hi & H1 & H2 & H3)|(H1 & H2 & H3)]].
      * exfalso. eapply Hn. left. split; eauto.
      * exfalso. eapply Hn. right. split; eauto.
      * exact H3.
Qed.

(** The elements of the joined span are the elements of the parts, concatenated. *)
Theorem C20_joined_elements {T V} (E : env T V) ls b at_ s :
  covers ls b at_ s -> elems E s = concat (map (elems E) ls).
Proof.
  intros [[Hn ->]|(_ & lo & hi & Ht & ->)]; rewrite <- (nonempty_elems E).
  - now rewrite Hn.
  - now apply tiles_elems.
Qed.

Example C20_case :
  evals sx Parse (PJoin (PSequence digits [PMaybe (PAllOf (codes "!")); PAllOf (codes ","); digits])) (at1 7)
    (Done (Res (Some (RVal (VSpan (Span 1 7 6)))) (at1 13)) []) /\
  evals sx Parse (PJoin (PSequence digits [PIgnore (PAllOf (codes ",")); digits])) (at1 7)
    (Done (Res None (at1 7)) []).
Proof. split; runs 20. Qed.

(** ** C34 *)
Theorem C34_value_has_the_advertised_type {T V} (E : env T V) p i v rem tr :
  valid E i -> compiles E Parse p = true -> env_typed E -> env_customs E ->
  evals E Parse p i (Done (Res (Some v) rem) tr) ->
  exists t, result_for E p = Some t /\ rv_has_ty t v.
Proof.
  intros Hv Hc HT HC H. apply C02_consumed_range_is_derived in H; auto. eapply derives_typed; eauto.
Qed.

Theorem C34_lookahead_carries_no_value {T V} (E : env T V) p i v rem tr :
  valid E i -> evals E Look p i (Done (Res (Some v) rem) tr) -> v = RVoid.
Proof.
  intros Hv H. apply C02_consumed_range_is_derived in H; auto. eapply derives_look_void; eauto.
Qed.

Theorem C34_compiled_code_meets_no_type_error {T V} (E : env T V) m p i :
  valid E i -> compiles E m p = true -> (forall q, reach E p (PJoin q) -> local_parser E q) ->
  env_typed E -> env_customs E -> ~ evals E m p i Ill.
Proof.
  intros Hv Hc Hj HT HC [_ [n Hn]]. now apply (run_safe E n m p i Hv Hc Hj HT HC) in Hn.
Qed.

Example C34_case : result_for sx (PSequence (PCustom 0) [PAllOf (codes "+"); PDelimit digits (PIgnore (PAllOf (codes ",")))])
  = Some (TTup [TUser 2; TSpan; TVec (TVec TSpan)]).
Proof. reflexivity. Qed.

(** ** C43 *)
Theorem C43_one_outcome {T V} (E : env T V) m p i o o' : evals E m p i o -> evals E m p i o' -> o = o'.
Proof. exact (evals_det E m p i o o'). Qed.

Theorem C43_longer_runs_agree {T V} (E : env T V) n n' m p i o :
  run E n m p i = o -> o <> OOF -> n <= n' -> run E n' m p i = o.
Proof. intros H Ho Hn. eapply run_stable; eauto. Qed.

Theorem C43_returns_or_diverges {T V} (E : env T V) m p i :
  (diverges E m p i <-> ~ terminates E m p i) /\ (terminates E m p i <-> exists o, evals E m p i o).
Proof. split; [apply diverges_iff|apply terminates_iff]. Qed.

Example C43_case : run sx 3 Parse (PCustom 0) in1 = OOF /\
  exists r tr, run sx 20 Parse (PCustom 0) in1 = Done r tr.
Proof. split; [reflexivity|]. eexists _, _. vm_compute. reflexivity. Qed.

Print Assumptions C01_failure_gives_back_the_input.
Print Assumptions C02_rest_is_a_tail.
Print Assumptions C02_consumed_range_is_derived.
Print Assumptions C03_no_undefined_behaviour.
Print Assumptions C03_foreign_span_refuted.
Print Assumptions C04_spans_lie_in_the_consumed_input.
Print Assumptions C04_spans_are_ordered.
Print Assumptions C06_lookahead_runs_no_user_code.
Print Assumptions C06_ignore_runs_no_user_code.
Print Assumptions C20_join_success.
Print Assumptions C20_join_failure.
Print Assumptions C20_joined_elements.
Print Assumptions C34_value_has_the_advertised_type.
Print Assumptions C34_lookahead_carries_no_value.
Print Assumptions C34_compiled_code_meets_no_type_error.
Print Assumptions C43_one_outcome.
Print Assumptions C43_longer_runs_agree.
Print Assumptions C43_returns_or_diverges.
