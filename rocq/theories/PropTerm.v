(** * Property C33: termination *)
From Coq Require Import String List Arith ZArith Bool Lia Relations.
From Verif Require Import Types Compound Parser Outcome CompoundFacts Exec Mono Derive Typing Join Leaves Sound
  BigStep BigSound BigComplete Peg Throws Elems Samples Runs PropCore Lossless Agree Term.
Import ListNotations.
Local Open Scope outcome_scope.

Section C33.
Context {T V : Type} (E : env T V).
Implicit Types (p q r d : parser T).

(** A parser that can succeed without consuming, read off its structure.  (A custom parser
    whose result_type is built from the optional succeeds when its body fails.) *)
Inductive can_be_empty : parser T -> Prop :=
| ce_all : can_be_empty (PAllOf [])
| ce_eps : can_be_empty PEpsilon
| ce_choice q qs r : In r (q :: qs) -> can_be_empty r -> can_be_empty (PChoice q qs)
| ce_seq q qs : all_can_be_empty (q :: qs) -> can_be_empty (PSequence q qs)
| ce_maybe q : can_be_empty (PMaybe q)
| ce_exactly q n : can_be_empty q -> can_be_empty (PExactly q n)
| ce_oom q : can_be_empty q -> can_be_empty (POneOrMore q)
| ce_zom q : can_be_empty (PZeroOrMore q)
| ce_delimit q d : can_be_empty q -> can_be_empty (PDelimit q d)
| ce_ignore q : can_be_empty q -> can_be_empty (PIgnore q)
| ce_complete q : can_be_empty q -> can_be_empty (PComplete q)
| ce_join q : can_be_empty q -> can_be_empty (PJoin q)
| ce_map q f : can_be_empty q -> can_be_empty (PMap q f)
| ce_filter q f : can_be_empty q -> can_be_empty (PFilter q f)
| ce_named q s : can_be_empty q -> can_be_empty (PNamed q s)
| ce_custom c : can_be_empty (cust_body E c) -> can_be_empty (PCustom c)
| ce_whole c t : cust_conv E c = ConvWhole t -> can_be_empty (PCustom c)
with all_can_be_empty : list (parser T) -> Prop :=
| ace_nil : all_can_be_empty []
| ace_cons q qs : can_be_empty q -> all_can_be_empty qs -> all_can_be_empty (q :: qs).

Lemma all_ce_forall qs : all_can_be_empty qs <-> Forall can_be_empty qs.
Proof. split; induction 1; constructor; auto. Qed.

Lemma parts_snd tys : forall ps : list (parser T), List.length ps = List.length tys -> map snd (parts tys ps) = ps.
Proof.
  unfold parts. induction tys as [|t tys IH]; intros [|p ps] H; cbn in *; try discriminate; auto. now rewrite IH by lia.
Qed.

Lemma derives_empty b :
  (forall m p lo hi v, derives E b m p lo hi v -> lo = hi -> can_be_empty p) /\
  (forall l lo hi vs, dchain E b l lo hi vs -> lo = hi -> Forall can_be_empty (map snd l)).
Proof.
  apply derives_mut; intros; try (exfalso; lia); try (subst; constructor; auto; fail);
    try (subst; eapply ce_choice; eauto using nth_error_In; fail).
  - assert (List.length arr = 0) by lia. destruct arr; [constructor|discriminate].
  - subst. constructor. apply all_ce_forall. rewrite parts_snd in H by (now apply result_fors_length in e). auto.
  - subst. constructor. apply all_ce_forall. rewrite map_map in H. cbn in H. rewrite map_id in H. auto.
  - subst. destruct n; [contradiction|]. constructor. specialize (H eq_refl). cbn in H. now inversion H.
  - subst. destruct n; [contradiction|]. constructor. specialize (H eq_refl). cbn in H. now inversion H.
  - subst. destruct n; [contradiction|]. constructor. specialize (H eq_refl). cbn in H. now inversion H.
  - subst. destruct n; [contradiction|]. constructor. specialize (H eq_refl). cbn in H. now inversion H.
  - subst. constructor. specialize (H eq_refl). destruct (List.length prs); cbn in H; now inversion H.
  - subst. constructor. specialize (H eq_refl). destruct n; cbn in H; now inversion H.
  - subst. eapply ce_whole; eauto.
  - assert (lo = mid) by (pose proof (proj1 (derives_le E b) _ _ _ _ _ d); pose proof (proj2 (derives_le E b) _ _ _ _ d0); lia).
    cbn. constructor; [auto|apply H0; lia].
Qed.

Lemma can_be_empty_sound m q i v rem tr : valid E i -> gives E m q i v rem tr -> sp_len rem = sp_len i -> can_be_empty q.
Proof.
  intros Hv Hg Hl. apply evals_sound in Hg as [Hs Hd]; auto. cbn in *.
  apply suffix_same in Hs; auto. subst rem. eapply (proj1 (derives_empty _)); eauto.
Qed.

(** ** The general form: for any sound notion [emp] of succeeding without consuming *)
Section For.
Variable emp : parser T -> Prop.
Hypothesis emp_sound : forall m q i v rem tr, valid E i -> gives E m q i v rem tr -> sp_len rem = sp_len i -> emp q.

Lemma settles_all p : (forall q, reach E p q -> repeats_well emp q) ->
  (forall q, reach E p q -> Acc (fun b a => left E emp a b) q) ->
  forall len q, reach E p q -> forall i, sp_len i <= len -> valid E i -> forall m, calm E m q i.
Proof.
  intros Hr Ha. induction len as [len IHl] using lt_wf_ind. intros q Hq.
  specialize (Ha q Hq). induction Ha as [q _ IHa]. intros i Hi Hv m.
  apply terminates_settles, settles_terminates. apply (step_settles E emp emp_sound); auto.
  - intros r ->. apply Hr. eapply reach_trans; eauto. eapply reach_step; [now left|apply reach_refl].
  - intros m' r j Hin Hj Hlt.
    assert (Hreach : reach E p r) by (eapply reach_trans; eauto; eapply reach_step; [eauto|apply reach_refl]).
    assert (Hvj : valid E j) by eauto using suffix_valid.
    destruct (Nat.eq_dec (sp_len j) (sp_len i)) as [He|Hn].
    + destruct Hlt as [?|HL]; [lia|]. apply IHa; auto. lia.
    + apply suffix_len in Hj. apply (IHl (sp_len j)); auto. lia.
Qed.
End For.

(** ** "Reaches itself without consuming" *)
Definition calls_first := left E can_be_empty.

Lemma left_component (emp : parser T -> Prop) p q : left E emp p q -> In q (components E p).
Proof.
  destruct 1; cbn [components]; try (left; reflexivity); auto.
  - rewrite H. apply in_elt.
  - right. now left.
Qed.

Lemma acyclic_acc p (cs : list nat) :
  (forall c, reach E p (PCustom c) -> In c cs) ->
  (forall c, reach E p (PCustom c) -> ~ clos_trans _ calls_first (PCustom c) (PCustom c)) ->
  forall q, reach E p q -> Acc (fun b a => calls_first a b) q.
Proof.
  intros Hfin Hac.
  assert (H : forall k vs q, List.length cs - List.length vs <= k -> NoDup vs -> incl vs cs -> reach E p q ->
    (forall v, In v vs -> clos_trans _ calls_first (PCustom v) q) -> Acc (fun b a => calls_first a b) q).
  { induction k as [k IHk] using lt_wf_ind. intros vs q Hk Hnd Hincl. revert Hk.
    induction q using parser_ind'; intros Hk Hreach Hvs;
      try (constructor; intros r Hr; assert (Hi := left_component _ _ _ Hr);
           assert (Hreach' : reach E p r) by (eapply reach_trans; eauto; eapply reach_step; [eauto|apply reach_refl]);
           assert (Hvs' : forall v, In v vs -> clos_trans _ calls_first (PCustom v) r)
             by (intros; eapply t_trans; [eauto|now apply t_step]);
           cbn in Hi;
           repeat match goal with
                  | H : _ \/ _ |- _ => destruct H
                  | H : False |- _ => contradiction
                  | H : Forall _ ?l, H' : In r ?l |- _ => rewrite Forall_forall in H; apply (H r H'); auto
                  end; subst; auto; fail).
    assert (Hn : ~ In c vs) by (intros Hc; exact (Hac c Hreach (Hvs c Hc))).
    assert (Hlen : List.length (c :: vs) <= List.length cs).
    { apply NoDup_incl_length; [now constructor|]. intros x [<-|Hx]; auto. }
    cbn in Hlen.
    constructor. intros r Hr. inversion Hr; subst.
    apply (IHk (List.length cs - List.length (c :: vs))) with (vs := c :: vs); cbn; try lia.
    - now constructor.
    - intros x [<-|Hx]; auto.
    - eapply reach_trans; eauto. eapply reach_step; [left; reflexivity|apply reach_refl].
    - intros v [<-|Hv]; [now apply t_step|]. eapply t_trans; [eauto|now apply t_step]. }
  intros q Hq. apply (H (List.length cs) [] q); auto; [lia|constructor|intros x []|intros v []].
Qed.

(** No repetition body succeeds without consuming. *)
Definition bodies_consume p : Prop := forall q, reach E p q -> repeats_well can_be_empty q.

(** The customs used are finitely many ([cs]), and none reaches itself without consuming. *)
Definition no_left_recursion p (cs : list nat) : Prop :=
  (forall c, reach E p (PCustom c) -> In c cs) /\
  (forall c, reach E p (PCustom c) -> ~ clos_trans _ calls_first (PCustom c) (PCustom c)).

Theorem C33_terminates p cs : bodies_consume p -> no_left_recursion p cs ->
  forall m i, valid E i -> terminates E m p i.
Proof.
  intros Hb [Hf Ha] m i Hv.
  destruct (settles_all can_be_empty can_be_empty_sound p Hb (acyclic_acc p cs Hf Ha) (sp_len i) p (reach_refl E p) i (le_n _) Hv m)
    as (o & N & Ho & H).
  exists N. now rewrite (H N N).
Qed.

(** The same when "can succeed without consuming" is read as a statement about all runs
    instead of the structure, so that a body that happens to be protected by a filter is
    admitted too. *)
Definition succeeds_empty q : Prop :=
  exists m i v tr, valid E i /\ gives E m q i v i tr.

Theorem C33_terminates_by_behaviour p :
  (forall q, reach E p q -> repeats_well succeeds_empty q) ->
  (forall q, reach E p q -> Acc (fun b a => left E succeeds_empty a b) q) ->
  forall m i, valid E i -> terminates E m p i.
Proof.
  intros Hb Ha m i Hv.
  assert (Hs : forall m q i v rem tr, valid E i -> gives E m q i v rem tr -> sp_len rem = sp_len i -> succeeds_empty q).
  { intros m' q i' v rem tr Hv' Hg Hl. exists m', i', v, tr. split; auto.
    pose proof Hg as [Hs _]%evals_sound; auto. cbn in Hs. apply suffix_same in Hs; auto. now subst rem. }
  destruct (settles_all succeeds_empty Hs p Hb Ha (sp_len i) p (reach_refl E p) i (le_n _) Hv m) as (o & N & Ho & H).
  exists N. now rewrite (H N N).
Qed.

(** ** The other direction: a round that consumes nothing goes on for ever *)
Section Loops.
Hypothesis HP : program E.

(** The builder of the loop and what is put into it. *)
Definition holds_vec (m : mode) q (b : rv) : Prop :=
  b = RVoid \/ m = Parse /\ (exists t, result_for E q = Some t /\ t <> TVoid) /\ exists l, b = RVal (VVec l).

Lemma insert_vec m q b v : holds_vec m q b -> shaped E m q v -> exists b', b_insert_back b v = ret b' /\ holds_vec m q b'.
Proof.
  intros [->|(-> & (t & Ht & Hn) & l & ->)] Hs; [exists RVoid; split; [reflexivity|now left]|].
  destruct (Hs eq_refl t Ht Hn) as [w ->]. eexists. split; [reflexivity|]. right. eauto 6.
Qed.

Lemma run_or n m q i v rem tr : gives E m q i v rem tr -> run E n m q i = OOF \/ run E n m q i = Done (Res (Some v) rem) tr.
Proof.
  intros Hg. destruct (run E n m q i) eqn:Hr; auto; right; rewrite <- Hr;
    (apply (evals_det E m q i); [split; [rewrite Hr; discriminate|eauto]|exact Hg]).
Qed.

Lemma rep_spins m q : compiles E m q = true -> forall i vs mid tr j, each E (repeat (m, q) j) i vs mid tr -> valid E i ->
  forall v tr', gives E m q mid v mid tr' ->
  forall n k b s, holds_vec m q b -> rep_loop (run E n m q) k i b s = OOF.
Proof.
  intros Hc i vs mid tr j He Hv v tr' Hg n k. revert i vs tr j He Hv.
  induction k as [|k IH]; intros i vs tr j He Hv b s Hb; cbn [rep_loop]; auto.
  destruct j as [|j]; cbn in He; inversion He as [|? ? ? ? v0 mid0 vs0 ? tr0 tr'0 Hg0 He0]; subst.
  - destruct (run_or n _ _ _ _ _ _ Hg) as [-> | ->]; cbn; auto.
    destruct (insert_vec m q b v Hb (shaped_typed E _ _ _ _ _ _ HP Hv Hc Hg)) as (b' & -> & Hb'). cbn.
    now rewrite (IH mid [] [] 0).
  - destruct (run_or n _ _ _ _ _ _ Hg0) as [-> | ->]; cbn; auto.
    destruct (insert_vec m q b v0 Hb (shaped_typed E _ _ _ _ _ _ HP Hv Hc Hg0)) as (b' & -> & Hb'). cbn.
    rewrite (IH mid0 vs0 tr'0 j); auto. eapply gives_valid; eauto.
Qed.

Lemma init_vec q t : result_for E q = Some t -> holds_vec Parse q (builder_init (if is_void t then TVoid else TVec t)).
Proof. intros Ht. destruct t; cbn; try (right; split; auto; split; [eexists; split; [exact Ht|discriminate]|eauto]); now left. Qed.

(** [*q] and [+q] where, after some rounds, [q] succeeds and leaves the input as it is. *)
Theorem C33_empty_round_never_returns m q i j vs mid tr v tr' : valid E i ->
  each E (repeat (m, q) j) i vs mid tr -> gives E m q mid v mid tr' ->
  (compiles E m (PZeroOrMore q) = true -> diverges E m (PZeroOrMore q) i) /\
  (compiles E m (POneOrMore q) = true -> diverges E m (POneOrMore q) i).
Proof.
  intros Hv He Hg. split; intros Hc [|n]; auto; cbn [run step]; cbn [compiles] in Hc; destruct m; apply andb_prop in Hc as [Hc Hc'].
  - destruct (result_for E q) as [t|] eqn:Ht; [|discriminate].
    unfold zero_or_more_parse. erewrite rep_spins; eauto. now apply init_vec.
  - unfold zero_or_more_look. erewrite rep_spins; eauto. now left.
  - destruct (result_for E q) as [t|] eqn:Ht; [|discriminate].
    unfold one_or_more_parse. erewrite rep_spins; eauto. now apply init_vec.
  - unfold one_or_more_look. erewrite rep_spins; eauto. now left.
Qed.

(** A round of delimit: the delimiter, then the element. *)
Inductive rounds (m : mode) q d : span -> span -> Prop :=
| rounds_none i : rounds m q d i i
| rounds_more i w i' v i'' j tr tr' : gives E m d i w i' tr -> gives E m q i' v i'' tr' -> rounds m q d i'' j -> rounds m q d i j.

Definition nonvoid_of (m : mode) q : Prop := m = Parse /\ exists t, result_for E q = Some t /\ t <> TVoid.
Definition holds_del (m : mode) q d (pv dv : bool) (b : rv) : Prop :=
  pv = true /\ dv = true \/
  pv = false /\ dv = true /\ nonvoid_of m q /\ (exists l, b = RVal (VVec l)) \/
  pv = true /\ dv = false /\ nonvoid_of m d /\ (exists l, b = RVal (VVec l)) \/
  pv = false /\ dv = false /\ nonvoid_of m q /\ nonvoid_of m d /\ (exists l l', b = RVal (VPair (VVec l) (VVec l'))).

Lemma del_elem m q d pv dv b v : holds_del m q d pv dv b -> shaped E m q v ->
  exists b', (if pv then ret b else if dv then b_insert_back b v else b_insert_back_first b v) = ret b' /\ holds_del m q d pv dv b'.
Proof.
  intros H Hs. pose proof H as H'. destruct H as [(-> & ->)|[(-> & -> & (-> & t & Ht & Hn) & l & ->)|[(-> & -> & Hd & l & ->)|(-> & -> & (-> & t & Ht & Hn) & Hd & l & l' & ->)]]]; eauto.
  - destruct (Hs eq_refl t Ht Hn) as [w ->]. eexists. split; [reflexivity|]. right. left. unfold nonvoid_of. eauto 9.
  - destruct (Hs eq_refl t Ht Hn) as [w ->]. eexists. split; [reflexivity|]. right. right. right. unfold nonvoid_of. eauto 12.
Qed.

Lemma del_delim m q d pv dv b w res : holds_del m q d pv dv b -> shaped E m d w -> has_value res = true ->
  exists b', (if dv then ret b else if has_value res
                          then (if pv then b_insert_back b w else b_insert_back_second b w)
                          else ret b) = ret b' /\ holds_del m q d pv dv b'.
Proof.
  intros H Hs ->. pose proof H as H'. destruct H as [(-> & ->)|[(-> & -> & Hd & l & ->)|[(-> & -> & (-> & t & Ht & Hn) & l & ->)|(-> & -> & Hd & (-> & t & Ht & Hn) & l & l' & ->)]]]; eauto.
  - destruct (Hs eq_refl t Ht Hn) as [x ->]. eexists. split; [reflexivity|]. right. right. left. unfold nonvoid_of. eauto 9.
  - destruct (Hs eq_refl t Ht Hn) as [x ->]. eexists. split; [reflexivity|]. right. right. right. unfold nonvoid_of. eauto 12.
Qed.

Lemma delim_spins m q d pv dv : compiles E m q = true -> compiles E m d = true ->
  forall x mid, rounds m q d x mid -> valid E x ->
  forall w tr v tr', gives E m d mid w mid tr -> gives E m q mid v mid tr' ->
  forall n k i b v0, holds_del m q d pv dv b -> shaped E m q v0 ->
  delim_loop (run E n m q) (run E n m d) pv dv k (Res (Some v0) x) i b = OOF.
Proof.
  intros Hcq Hcd x mid Hr Hv w tr v tr' Hd Hq n k.
  revert x Hr Hv. induction k as [|k IH]; intros x Hr Hv i b v0 Hb Hs; auto.
  assert (Hstep : exists w' x' v' x'' trd trq, gives E m d x w' x' trd /\ gives E m q x' v' x'' trq /\ rounds m q d x'' mid).
  { inversion Hr; subst; [exists w, mid, v, mid, tr, tr'|]; eauto 12. }
  destruct Hstep as (w' & x' & v' & x'' & trd & trq & Hd' & Hq' & Hr').
  assert (Hv' : valid E x') by eauto using gives_valid. assert (Hv'' : valid E x'') by eauto using gives_valid.
  cbn [delim_loop r_ok r_rem].
  destruct (del_elem m q d pv dv b v0 Hb Hs) as (b1 & -> & Hb1). cbn [bind ret].
  destruct (run_or n _ _ _ _ _ _ Hd') as [-> | ->]; cbn [bind]; auto. cbn [r_ok r_rem].
  destruct (run_or n _ _ _ _ _ _ Hq') as [-> | ->]; cbn [bind]; auto.
  destruct (del_delim m q d pv dv b1 w' (Res (Some v') x'') Hb1 (shaped_typed E _ _ _ _ _ _ HP Hv Hcd Hd') eq_refl) as (b2 & -> & Hb2).
  cbn [bind ret]. rewrite (IH x''); auto. exact (shaped_typed E _ _ _ _ _ _ HP Hv' Hcq Hq').
Qed.

(** [delimit]: an element was found and, after some rounds, delimiter and element both
    succeed and leave the input as it is. *)
Theorem C33_empty_delimit_round_never_returns m q d i v0 tr0 x mid w tr v tr' : valid E i ->
  compiles E m (PDelimit q d) = true ->
  gives E m q i v0 x tr0 -> rounds m q d x mid -> gives E m d mid w mid tr -> gives E m q mid v mid tr' ->
  diverges E m (PDelimit q d) i.
Proof.
  intros Hv Hc Hq0 Hr Hd Hq. intros [|n]; auto. cbn [run step].
  assert (Hx : valid E x) by eauto using gives_valid.
  destruct m.
  - cbn [compiles] in Hc. destruct (result_for E q) as [tp|] eqn:Hp; [|destruct (compiles E Parse q), (compiles E Parse d); discriminate].
    destruct (result_for E d) as [td|] eqn:Ht; [|destruct (compiles E Parse q), (compiles E Parse d); discriminate].
    apply andb_prop in Hc as [[Hcq Hcd]%andb_prop _].
    unfold delimit_parse. destruct (run_or n _ _ _ _ _ _ Hq0) as [-> | ->]; auto. cbn [bind has_value r_ok].
    erewrite (delim_spins Parse q d); eauto using shaped_typed.
    unfold holds_del, nonvoid_of, delimit_type.
    assert (Hvd : forall t : ty, is_void t = true /\ t = TVoid \/ is_void t = false /\ t <> TVoid).
    { intros t. destruct t; cbn; auto; right; split; auto; discriminate. }
    destruct (Hvd tp) as [(Hp1 & Hp2)|(Hp1 & Hp2)], (Hvd td) as [(Ht1 & Ht2)|(Ht1 & Ht2)]; rewrite Hp1, Ht1; cbn.
    + auto.
    + right. right. left. repeat split; eauto.
    + right. left. repeat split; eauto.
    + right. right. right. repeat split; eauto.
  - cbn [compiles] in Hc. apply andb_prop in Hc as [[Hcq Hcd]%andb_prop _].
    unfold delimit_look. destruct (run_or n _ _ _ _ _ _ Hq0) as [-> | ->]; auto. cbn [bind has_value r_ok].
    erewrite (delim_spins Look q d); eauto using shaped_typed. left. auto.
Qed.
End Loops.

(** ** Left recursion *)

(** The first thing [p] does, on any input, is to run custom parser [c]. *)
Inductive begins_with (c : nat) : parser T -> Prop :=
| bw_here : begins_with c (PCustom c)
| bw_choice q qs : begins_with c q -> begins_with c (PChoice q qs)
| bw_seq q qs : begins_with c q -> begins_with c (PSequence q qs)
| bw_maybe q : begins_with c q -> begins_with c (PMaybe q)
| bw_exactly q n : begins_with c q -> begins_with c (PExactly q n)
| bw_oom q : begins_with c q -> begins_with c (POneOrMore q)
| bw_zom q : begins_with c q -> begins_with c (PZeroOrMore q)
| bw_delimit q d : begins_with c q -> begins_with c (PDelimit q d)
| bw_ignore q : begins_with c q -> begins_with c (PIgnore q)
| bw_complete q : begins_with c q -> begins_with c (PComplete q)
| bw_join q : begins_with c q -> begins_with c (PJoin q)
| bw_map q f : begins_with c q -> begins_with c (PMap q f)
| bw_filter q f : begins_with c q -> begins_with c (PFilter q f)
| bw_named q s : begins_with c q -> begins_with c (PNamed q s)
| bw_custom c' : begins_with c (cust_body E c') -> begins_with c (PCustom c').

Definition stuck {A} (x : outcome A) : Prop := x = OOF \/ x = Ill.
Lemma stuck_bind {A B} (x : outcome A) (f : A -> outcome B) : stuck x -> stuck (bind x f).
Proof. intros [-> | ->]; [now left|now right]. Qed.

Lemma begins_not_basic c q : begins_with c q -> as_basic E q = None.
Proof. destruct 1; reflexivity. Qed.

Lemma begins_stuck c p n : begins_with c p -> (forall k m i, k < n -> stuck (run E k m (PCustom c) i)) ->
  forall k m i, k < n -> stuck (run E k m p i).
Proof.
  intros Hp Hc. induction Hp; auto; intros [|k] m i Hk; try (now left); cbn [run step];
    assert (HI : forall m i, stuck (run E k m _ i)) by (intros; apply IHHp; lia); clear IHHp.
  - destruct m; unfold choice_parse, choice_look; (destruct (result_fors E (q :: qs)) as [tys|] eqn:Ht; [|now right]).
    + destruct (_ || _); [|now right]. apply stuck_bind.
      assert (Hl : List.length (snd (filter_out_void_deduplicate tys)) = List.length (q :: qs))
        by (rewrite len_dedup; symmetry; eapply result_fors_length; eauto).
      destruct (snd (filter_out_void_deduplicate tys)) as [|idx l]; [discriminate|]. cbn [combine exec_or].
      apply stuck_bind. destruct idx; apply stuck_bind, HI.
    + apply stuck_bind. cbn [map exec_or]. apply stuck_bind. unfold execute. apply stuck_bind, HI.
  - destruct m; unfold sequence_parse, sequence_look; (destruct (result_fors E (q :: qs)) as [tys|] eqn:Ht; [|now right]).
    + apply stuck_bind.
      assert (Hl : List.length (snd (filter_out_void tys)) = List.length (q :: qs))
        by (rewrite len_filter; symmetry; eapply result_fors_length; eauto).
      destruct (snd (filter_out_void tys)) as [|idx l]; [discriminate|]. cbn [combine exec_and].
      apply stuck_bind. destruct idx; apply stuck_bind, HI.
    + apply stuck_bind. cbn [map exec_and]. apply stuck_bind. unfold execute. apply stuck_bind, HI.
  - destruct m; [destruct (result_for E q); [|now right]|]; apply stuck_bind, HI.
  - destruct n0 as [|n0]; [now right|]. cbn [Nat.eqb].
    destruct m; [destruct (result_for E q); [|now right]|]; apply stuck_bind; cbn [exactly_loop]; apply stuck_bind, HI.
  - destruct m; [destruct (result_for E q); [|now right]|]; apply stuck_bind; (destruct k; [now left|]); cbn [rep_loop]; apply stuck_bind, HI.
  - destruct m; [destruct (result_for E q); [|now right]|]; apply stuck_bind; (destruct k; [now left|]); cbn [rep_loop]; apply stuck_bind, HI.
  - destruct m; [destruct (result_for E q); [|now right]; destruct (result_for E d); [|now right]|]; apply stuck_bind, HI.
  - apply HI.
  - apply stuck_bind, HI.
  - assert (join_special E q k = None) as ->.
    { destruct Hp; cbn [join_special]; auto; now rewrite (begins_not_basic c) by auto. }
    unfold join_generic. destruct m; [|apply HI]. destruct (result_for E q) as [t|]; [|now right].
    destruct (joinable t); [|now right]. apply stuck_bind, HI.
  - destruct m; [|apply HI]. destruct (result_for E (PMap q f)); [|now right]. apply stuck_bind, HI.
  - destruct m; [|apply HI]. destruct (result_for E (PFilter q f)); [|now right]. apply stuck_bind, HI.
  - apply HI.
  - destruct m; [apply stuck_bind|]; apply HI.
Qed.

(** Its get_parser() begins with itself: it never returns. *)
Theorem C33_left_recursion_never_returns c m i : begins_with c (cust_body E c) ->
  valid E i -> compiles E m (PCustom c) = true -> (forall q, reach E (PCustom c) (PJoin q) -> local_parser E q) ->
  program E -> diverges E m (PCustom c) i.
Proof.
  intros Hb Hv Hc Hj [HT HC] n.
  assert (H : forall n k m i, k < n -> stuck (run E k m (PCustom c) i)).
  { clear - Hb. induction n as [|n IH]; intros k m i Hk; [lia|].
    destruct k as [|k]; [now left|]. cbn [run step].
    destruct m; [apply stuck_bind|]; eapply (begins_stuck c _ n); eauto; lia. }
  destruct (H (S n) n m i (le_n _)) as [|Hi]; auto.
  exfalso. eapply (C34_compiled_code_meets_no_type_error E m (PCustom c) i); eauto. split; [discriminate|eauto].
Qed.

(** ** A check that can be computed *)
Section Check.
(** Which custom parsers can be empty, and a ranking that decreases along calls made before
    anything is consumed. *)
Variables (nul : nat -> bool) (rank : nat -> nat).

Fixpoint nullable p : bool :=
  match p with
  | PAnyOf _ | PNoneOf _ | PAnything => false
  | PAllOf arr => match arr with [] => true | _ => false end
  | PEpsilon | PMaybe _ | PZeroOrMore _ => true
  | PChoice q qs => nullable q || existsb nullable qs
  | PSequence q qs => nullable q && forallb nullable qs
  | PExactly q _ | POneOrMore q | PDelimit q _ | PIgnore q | PComplete q | PJoin q | PMap q _ | PFilter q _ | PNamed q _ => nullable q
  | PCustom c => nul c
  end.

Fixpoint firsts p : list nat :=
  match p with
  | PAnyOf _ | PNoneOf _ | PAnything | PAllOf _ | PEpsilon => []
  | PChoice q qs => firsts q ++ flat_map firsts qs
  | PSequence q qs => firsts q ++ if nullable q then
      (fix go qs := match qs with [] => [] | r :: qs' => firsts r ++ if nullable r then go qs' else [] end) qs else []
  | PDelimit q d => firsts q ++ if nullable q then firsts d else []
  | PMaybe q | PZeroOrMore q | PExactly q _ | POneOrMore q | PIgnore q | PComplete q | PJoin q | PMap q _ | PFilter q _ | PNamed q _ => firsts q
  | PCustom c => [c]
  end.

Fixpoint customs p : list nat :=
  match p with
  | PAnyOf _ | PNoneOf _ | PAnything | PAllOf _ | PEpsilon => []
  | PChoice q qs | PSequence q qs => customs q ++ flat_map customs qs
  | PDelimit q d => customs q ++ customs d
  | PMaybe q | PZeroOrMore q | PExactly q _ | POneOrMore q | PIgnore q | PComplete q | PJoin q | PMap q _ | PFilter q _ | PNamed q _ => customs q
  | PCustom c => [c]
  end.

Fixpoint reps p : bool :=
  match p with
  | PAnyOf _ | PNoneOf _ | PAnything | PAllOf _ | PEpsilon | PCustom _ => true
  | PChoice q qs | PSequence q qs => reps q && forallb reps qs
  | PDelimit q d => reps q && reps d && negb (nullable q && nullable d)
  | PZeroOrMore q | POneOrMore q => reps q && negb (nullable q)
  | PMaybe q | PExactly q _ | PIgnore q | PComplete q | PJoin q | PMap q _ | PFilter q _ | PNamed q _ => reps q
  end.

Definition subset (l l' : list nat) : bool := forallb (fun c => existsb (Nat.eqb c) l') l.
Definition custom_ok (cs : list nat) (c : nat) : bool :=
  subset (customs (cust_body E c)) cs && reps (cust_body E c) &&
  implb (nullable (cust_body E c) || match cust_conv E c with ConvWhole _ => true | _ => false end) (nul c) &&
  forallb (fun e => rank e <? rank c) (firsts (cust_body E c)).
Definition grammar_ok (cs : list nat) p : bool :=
  subset (customs p) cs && reps p && forallb (custom_ok cs) cs.

Lemma subset_spec l l' : subset l l' = true <-> incl l l'.
Proof.
  unfold subset. rewrite forallb_forall. split; intros H x Hx; specialize (H x Hx).
  - apply existsb_exists in H as (y & Hy & He). apply Nat.eqb_eq in He. now subst.
  - apply existsb_exists. exists x. split; auto. apply Nat.eqb_refl.
Qed.

Section Sound.
Variable cs : list nat.
Hypothesis Hcs : forallb (custom_ok cs) cs = true.

Lemma ok_custom c : In c cs -> incl (customs (cust_body E c)) cs /\ reps (cust_body E c) = true /\
  (nullable (cust_body E c) = true -> nul c = true) /\ ((exists t, cust_conv E c = ConvWhole t) -> nul c = true) /\
  (forall e, In e (firsts (cust_body E c)) -> rank e < rank c).
Proof.
  intros Hc. rewrite forallb_forall in Hcs. specialize (Hcs c Hc). unfold custom_ok in Hcs.
  apply andb_prop in Hcs as [[[H1 H2]%andb_prop H3]%andb_prop H4]. rewrite subset_spec in H1. rewrite forallb_forall in H4.
  repeat split; auto.
  - intros Hn. rewrite Hn in H3. exact H3.
  - intros [t Ht]. rewrite Ht, orb_true_r in H3. exact H3.
  - intros d Hd. specialize (H4 d Hd). now apply Nat.ltb_lt.
Qed.

Scheme ce_mut := Induction for can_be_empty Sort Prop with ace_mut := Induction for all_can_be_empty Sort Prop.

Lemma nullable_complete q : can_be_empty q -> incl (customs q) cs -> nullable q = true.
Proof.
  intros H. induction H using ce_mut with (P0 := fun qs _ => incl (flat_map customs qs) cs -> forallb nullable qs = true);
    cbn [nullable customs flat_map forallb]; auto; intros Hi.
  - destruct i as [->|Hr]; [rewrite IHcan_be_empty; auto; intros x Hx; apply Hi, in_app_iff; auto|].
    apply orb_true_intro. right. apply existsb_exists. exists r. split; auto. apply IHcan_be_empty.
    intros x Hx. apply Hi, in_app_iff. right. apply in_flat_map. eauto.
  - apply IHcan_be_empty. intros x Hx. apply Hi, in_app_iff. auto.
  - assert (Hc : In c cs) by (apply Hi; now left). destruct (ok_custom c Hc) as (H1 & _ & H3 & _). auto.
  - assert (Hc : In c cs) by (apply Hi; now left). destruct (ok_custom c Hc) as (_ & _ & _ & H4 & _). eauto.
  - rewrite IHcan_be_empty, IHcan_be_empty0; auto; intros x Hx; apply Hi, in_app_iff; auto.
Qed.

Lemma customs_component p q : In q (components E p) -> incl (customs p) cs -> incl (customs q) cs.
Proof.
  intros Hq Hp. destruct p; cbn [components customs] in *; try contradiction;
    repeat match goal with H : In _ (_ :: _) |- _ => destruct H as [<-|] | H : In _ [] |- _ => contradiction end;
    auto; intros x Hx; try (apply Hp, in_app_iff; auto; right; apply in_flat_map; eauto; fail); try (apply Hp, in_app_iff; auto; fail).
  destruct (ok_custom c) as (H1 & _); [apply Hp; now left|auto].
Qed.

Lemma reps_component p q : In q (components E p) -> incl (customs p) cs -> reps p = true -> reps q = true.
Proof.
  intros Hq Hp Hr. destruct p; cbn [components reps] in *; try contradiction;
    repeat match goal with
      | H : andb _ _ = true |- _ => apply andb_prop in H as [? ?]
      | H : In _ (_ :: _) |- _ => destruct H as [<-|] | H : In _ [] |- _ => contradiction end; auto;
    try (rewrite forallb_forall in *; auto; fail).
  apply ok_custom. apply Hp. now left.
Qed.

Lemma reach_ok p q : reach E p q -> incl (customs p) cs -> reps p = true -> incl (customs q) cs /\ reps q = true.
Proof.
  induction 1 as [p|p q r Hq _ IH]; auto. intros. apply IH; [eapply customs_component|eapply reps_component]; eauto.
Qed.

Lemma reps_well q : incl (customs q) cs -> reps q = true -> repeats_well can_be_empty q.
Proof.
  intros Hi Hr. destruct q; cbn in *; auto; apply andb_prop in Hr as [_ Hr]; apply negb_true_iff in Hr.
  - intros H. apply nullable_complete in H; auto. congruence.
  - intros H. apply nullable_complete in H; auto. congruence.
  - intros [H1 H2]. apply nullable_complete in H1, H2; try (intros x Hx; apply Hi, in_app_iff; auto). rewrite H1, H2 in Hr. discriminate.
Qed.

Lemma firsts_step q r : calls_first q r -> incl (customs q) cs ->
  incl (firsts r) (firsts q) \/ exists c, q = PCustom c /\ r = cust_body E c.
Proof.
  intros H Hi. destruct H; cbn [firsts]; try (left; apply incl_refl; fail).
  - left. destruct H as [->|H]; intros x Hx; apply in_app_iff; auto. right. apply in_flat_map. eauto.
  - left. cbn [customs] in Hi. change (customs q ++ flat_map customs qs) with (flat_map customs (q :: qs)) in Hi. 
    set (go := fix go qs := match qs with [] => [] | r :: qs' => firsts r ++ if nullable r then go qs' else [] end).
    change (incl (firsts r) (go (q :: qs))). rewrite H in *. clear H.
    induction pre as [|a pre IH]; cbn [app go] in *; [intros x Hx; apply in_app_iff; auto|].
    inversion H0; subst. rewrite (nullable_complete a) by (auto; intros x Hx; apply Hi; cbn; apply in_app_iff; auto).
    apply incl_appr. apply IH; auto. intros x Hx. apply Hi. cbn. apply in_app_iff. auto.
  - left. apply incl_appl, incl_refl.
  - left. cbn [customs] in Hi. rewrite (nullable_complete q) by (auto; intros x Hx; apply Hi, in_app_iff; auto). apply incl_appr, incl_refl.
  - right. eauto.
Qed.

Lemma ranked c q : clos_trans _ calls_first (PCustom c) q -> In c cs ->
  incl (customs q) cs /\ forall e, In e (firsts q) -> rank e < rank c.
Proof.
  intros H Hc. apply clos_trans_t1n_iff, clos_t1n_trans in H. apply clos_trans_tn1_iff in H.
  induction H as [q H|q r H _ IH].
  - inversion H; subst. destruct (ok_custom c Hc) as (? & _ & _ & _ & ?). auto.
  - destruct IH as (IH1 & IH2). split; [eapply customs_component; eauto using left_component|].
    intros d Hd. destruct (firsts_step q r H IH1) as [Hf|(c' & -> & ->)]; auto.
    assert (Hc' : In c' cs) by (apply IH1; now left). destruct (ok_custom c' Hc') as (_ & _ & _ & _ & H5).
    specialize (H5 d Hd). specialize (IH2 c' (or_introl eq_refl)). lia.
Qed.
End Sound.

Theorem C33_check cs p : grammar_ok cs p = true -> bodies_consume p /\ no_left_recursion p cs.
Proof.
  intros H. unfold grammar_ok in H. apply andb_prop in H as [[H1 H2]%andb_prop Hcs]. rewrite subset_spec in H1.
  assert (Hr : forall q, reach E p q -> incl (customs q) cs /\ reps q = true) by (intros; eapply reach_ok; eauto).
  assert (Hin : forall c, reach E p (PCustom c) -> In c cs) by (intros c Hc; apply Hr in Hc as [Hc _]; apply Hc; now left).
  split; [|split]; auto.
  - intros q Hq. destruct (Hr q Hq). eapply reps_well; eauto.
  - intros c Hc Ht. destruct (ranked cs Hcs c (PCustom c) Ht (Hin c Hc)) as [_ H]. specialize (H c (or_introl eq_refl)). lia.
Qed.
End Check.
End C33.

(** Nested parentheses (custom parser 0 calls itself, after a parenthesis). *)
Example C33_case : let p := PSequence (PCustom 0) [PMaybe (PAllOf (codes "+")); PZeroOrMore (PAnyOf (codes "0123456789,"))] in
  bodies_consume sx p /\ no_left_recursion sx p [0; 1] /\ ~ no_left_recursion sx p [1] /\ terminates sx Parse p in1.
Proof.
  cbn zeta. set (p := PSequence _ _).
  destruct (C33_check sx (fun _ => false) (fun _ => 0) [0; 1] p eq_refl) as [H1 H2].
  split; [exact H1|]. split; [exact H2|]. split; [|apply (C33_terminates sx p [0; 1]); auto using in1_valid].
  intros [H _]. specialize (H 0). cbn in H. destruct H as [H|[]]; [|discriminate]. eapply reach_step; [left; reflexivity|apply reach_refl].
Qed.

(** [*~a] on "aaaa" finds four a's and then nothing, for ever; so does [delimit] with optional
    element and delimiter. *)
Example C33_loop_case : let q := PMaybe (PAllOf (codes "a")) in let i := Span 3 0 4 in
  diverges sx Parse (PZeroOrMore q) i /\ diverges sx Look (POneOrMore q) i /\ diverges sx Parse (PDelimit q q) i.
Proof.
  cbn zeta. set (q := PMaybe _).
  assert (Hs : forall m k, k < 4 -> exists v tr, gives sx m q (Span 3 k (4 - k)) v (Span 3 (S k) (3 - k)) tr).
  { intros m k Hk. destruct m, k as [|[|[|[|]]]]; try lia; eexists _, _; apply (evals_done sx 3); reflexivity. }
  assert (He : forall m, exists v, gives sx m q (Span 3 4 0) v (Span 3 4 0) []).
  { intros []; eexists; apply (evals_done sx 3); reflexivity. }
  assert (Hall : forall m, exists vs tr, each sx (repeat (m, q) 4) (Span 3 0 4) vs (Span 3 4 0) tr).
  { intros m. destruct (Hs m 0 ltac:(lia)) as (v0 & t0 & H0), (Hs m 1 ltac:(lia)) as (v1 & t1 & H1),
      (Hs m 2 ltac:(lia)) as (v2 & t2 & H2), (Hs m 3 ltac:(lia)) as (v3 & t3 & H3).
    eexists _, _. cbn [repeat]. repeat (econstructor; [eassumption|]). constructor. }
  assert (Hv : valid sx (Span 3 0 4)) by (unfold valid; cbn; lia).
  split; [|split].
  - destruct (Hall Parse) as (vs & tr & Ha), (He Parse) as (v & Hg).
    exact (proj1 (C33_empty_round_never_returns sx (conj sx_typed sx_customs) Parse q _ 4 vs _ tr v [] Hv Ha Hg) eq_refl).
  - destruct (Hall Look) as (vs & tr & Ha), (He Look) as (v & Hg).
    exact (proj2 (C33_empty_round_never_returns sx (conj sx_typed sx_customs) Look q _ 4 vs _ tr v [] Hv Ha Hg) eq_refl).
  - destruct (Hs Parse 0 ltac:(lia)) as (v0 & t0 & H0), (Hs Parse 1 ltac:(lia)) as (v1 & t1 & H1),
      (Hs Parse 2 ltac:(lia)) as (v2 & t2 & H2), (Hs Parse 3 ltac:(lia)) as (v3 & t3 & H3), (He Parse) as (v & Hg).
    eapply (C33_empty_delimit_round_never_returns sx (conj sx_typed sx_customs) Parse q q _ v0 t0 _ (Span 3 4 0) v [] v []); eauto.
    eapply rounds_more; [exact H1|exact H2|]. eapply rounds_more; [exact H3|exact Hg|constructor].
Qed.

(** sum = sum '+' 'a' | 'a' *)
Definition lx : env nat nat := {|
  eqv := eqv sx; mem := mem sx; fn_ret := fn_ret sx; fn_app := fn_app sx; ct_ok := ct_ok sx; ct_app := ct_app sx;
  k_ty := k_ty sx; k_val := k_val sx; bool_ok := bool_ok sx; as_bool := as_bool sx;
  cust_body := fun _ => PChoice (PSequence (PCustom 0) [PAllOf (codes "+"); PAllOf (codes "a")]) [PAllOf (codes "a")];
  cust_ty := fun _ => TUser 2;
  cust_conv := fun _ => ConvElem (TUser 2)
|}.

Example C33_left_recursion_case : forall m, diverges lx m (PCustom 0) (Span 3 0 4).
Proof.
  intros m. apply C33_left_recursion_never_returns.
  - constructor. constructor. constructor.
  - unfold valid. cbn. lia.
  - destruct m; reflexivity.
  - assert (H : forall p q, reach lx p q -> (p = PCustom 0 \/ p = cust_body lx 0 \/
      p = PSequence (PCustom 0) [PAllOf (codes "+"); PAllOf (codes "a")] \/ exists a, p = PAllOf a) -> forall r, q <> PJoin r).
    { induction 1 as [p|p q r Hi Hr IH]; intros Hp r'.
      - destruct Hp as [->|[->|[->|(a & ->)]]]; discriminate.
      - apply IH. destruct Hp as [->|[->|[->|(a & ->)]]]; cbn in Hi; intuition (subst; eauto). }
    intros q Hq. now destruct (H _ _ Hq (or_introl eq_refl) q).
  - split.
    + destruct sx_typed. now constructor.
    + constructor; [intros []; reflexivity|auto|]. intros c. cbn. split; [auto|split; [discriminate|]].
      eexists; split; [reflexivity|]. split; auto; discriminate.
Qed.

Print Assumptions C33_terminates.
Print Assumptions C33_terminates_by_behaviour.
Print Assumptions C33_empty_round_never_returns.
Print Assumptions C33_empty_delimit_round_never_returns.
Print Assumptions C33_check.
Print Assumptions C33_left_recursion_never_returns.
