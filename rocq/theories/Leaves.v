(** * Where the spans inside a result point *)
From Coq Require Import String List Arith ZArith Bool Lia.
From Verif Require Import Types Compound Parser Outcome CompoundFacts Exec Derive Join.
Import ListNotations.

(** ** Reachable components *)
Definition components {T V} (E : env T V) (p : parser T) : list (parser T) :=
  match p with
  | PAnyOf _ | PNoneOf _ | PAllOf _ | PAnything | PEpsilon => []
  | PChoice q qs | PSequence q qs => q :: qs
  | PMaybe q | PExactly q _ | POneOrMore q | PZeroOrMore q | PIgnore q | PComplete q
  | PJoin q | PMap q _ | PFilter q _ | PNamed q _ => [q]
  | PDelimit q d => [q; d]
  | PCustom c => [cust_body E c]
  end.

(** [q] is [p], a component of [p], or reachable through get_parser(). *)
Inductive reach {T V} (E : env T V) : parser T -> parser T -> Prop :=
| reach_refl p : reach E p p
| reach_step p q r : In q (components E p) -> reach E q r -> reach E p r.

(** ** Spans of a value in the order in which they were parsed

    Like [leaves], except that the two vectors of a delimit_keep result are read
    alternately. *)
Fixpoint weave (a b : list (list span)) : list span :=
  match a with
  | [] => concat b
  | x :: a' => x ++ match b with [] => concat a' | y :: b' => y ++ weave a' b' end
  end.

Fixpoint src (v : val) : list span :=
  match v with
  | VSpan s => [s]
  | VVec l => flat_map src l
  | VArr l => flat_map src l
  | VOpt None => []
  | VOpt (Some v) => src v
  | VTup l => flat_map src l
  | VVar _ v => src v
  | VPair (VVec ps) (VVec ds) => weave (map src ps) (map src ds)
  | VPair a b => src a ++ src b
  | VUser _ l => flat_map src l
  | VZ _ => []
  end.

Definition rv_src (r : rv) : list span := match r with RVoid => [] | RVal v => src v end.

Lemma weave_in a : forall b s, In s (weave a b) <-> In s (concat a) \/ In s (concat b).
Proof.
  induction a as [|x a IH]; intros b s; cbn; [tauto|]. rewrite !in_app_iff.
  destruct b as [|y b]; cbn.
  - tauto.
  - rewrite !in_app_iff, IH. tauto.
Qed.

Lemma flat_map_in_ext {A B} (f g : A -> list B) l b :
  Forall (fun a => In b (f a) <-> In b (g a)) l -> (In b (flat_map f l) <-> In b (flat_map g l)).
Proof.
  induction 1 as [|a l Ha _ IH]; cbn; [tauto|]. rewrite !in_app_iff. tauto.
Qed.

Lemma src_in v s : In s (src v) <-> In s (leaves v).
Proof.
  induction v using val_ind'; cbn [src leaves]; try tauto; try (apply flat_map_in_ext; assumption).
  assert (Hgen : In s (src v1) \/ In s (src v2) <-> In s (leaves v1 ++ leaves v2)).
  { rewrite in_app_iff. tauto. }
  destruct v1; try (rewrite in_app_iff; exact Hgen).
  destruct v2; try (rewrite in_app_iff; exact Hgen).
  rewrite weave_in, <- !flat_map_concat_map. exact Hgen.
Qed.

Lemma rv_src_in r s : In s (rv_src r) <-> In s (rv_leaves r).
Proof. destruct r; cbn; [tauto|apply src_in]. Qed.

Lemma jval_src v : jval v -> src v = leaves v.
Proof.
  induction v using val_ind'; intros Hj; inversion Hj; subst; cbn [src leaves]; auto;
    match goal with HF : Forall _ ?l, HF' : Forall jval ?l |- _ =>
      clear -HF HF'; induction HF; cbn; inversion HF'; subst; f_equal; auto end.
Qed.

(** Default-constructed values contain only empty spans. *)
Lemma default_empty t : forall s, In s (leaves (default_val t)) -> sp_len s = 0.
Proof.
  induction t using ty_ind'; cbn [default_val leaves]; intros s Hs; try contradiction.
  - destruct Hs as [<-|[]]. reflexivity.
  - apply in_flat_map in Hs as (v & Hv & Hs). apply repeat_spec in Hv. subst. auto.
  - apply in_flat_map in Hs as (v & Hv & Hs). apply in_map_iff in Hv as (t & <- & Ht).
    rewrite Forall_forall in H. eapply H; eauto.
  - destruct ts as [|t ts]; [contradiction|]. cbn in Hs. inversion H; auto.
  - apply in_app_iff in Hs as [Hs|Hs]; auto.
Qed.

Lemma nonempty_default t : nonempty (src (default_val t)) = [].
Proof.
  unfold nonempty. destruct (filter _ _) as [|s l] eqn:Hf; auto.
  assert (Hin : In s (s :: l)) by now left. rewrite <- Hf in Hin.
  apply filter_In in Hin as [Hin Hs]. apply src_in, default_empty in Hin.
  rewrite Hin in Hs. discriminate.
Qed.

Lemma nonempty_app l l' : nonempty (l ++ l') = nonempty l ++ nonempty l'.
Proof. apply filter_app. Qed.

Lemma nonempty_in ls s : In s (nonempty ls) <-> In s ls /\ sp_len s <> 0.
Proof.
  unfold nonempty. rewrite filter_In, negb_true_iff, Nat.eqb_neq. tauto.
Qed.

Lemma try_join_false v : forall j0 j1 tr1, try_join v j0 = Done (false, j1) tr1 -> j1 = None.
Proof.
  induction v using val_ind'; intros j0 j1 tr1; cbn [try_join]; fold try_join_many;
            try discriminate.
          - unfold try_join_span. destruct (sp_len s =? 0); [discriminate|]. destruct j0; [|discriminate].
            destruct (negb _); [discriminate|]. destruct (Z.eqb _ _); [discriminate|]. now intros [= <- _].
          - revert j0 j1 tr1. induction H as [|v l H _ IH]; intros j0 j1 tr1; cbn [try_join_many]; [discriminate|].
            destruct (try_join v j0) as [[[|] j2] tr2| | | |] eqn:Hv; cbn; try discriminate.
            + destruct (try_join_many l j2) as [[[|] j3] tr3| | | |] eqn:Hl; cbn; try discriminate.
              intros [= <- _]. eauto.
            + intros [= <- _]. eauto.
          - revert j0 j1 tr1. induction H as [|v l H _ IH]; intros j0 j1 tr1; cbn [try_join_many]; [discriminate|].
            destruct (try_join v j0) as [[[|] j2] tr2| | | |] eqn:Hv; cbn; try discriminate.
            + destruct (try_join_many l j2) as [[[|] j3] tr3| | | |] eqn:Hl; cbn; try discriminate.
              intros [= <- _]. eauto.
            + intros [= <- _]. eauto.
          - eauto.
          - revert j0 j1 tr1. induction H as [|v l H _ IH]; intros j0 j1 tr1; cbn [try_join_many]; [discriminate|].
            destruct (try_join v j0) as [[[|] j2] tr2| | | |] eqn:Hv; cbn; try discriminate.
            + destruct (try_join_many l j2) as [[[|] j3] tr3| | | |] eqn:Hl; cbn; try discriminate.
              intros [= <- _]. eauto.
            + intros [= <- _]. eauto.
Qed.

(** Only joinable values are joined. *)
Lemma join_some_jval x s rem : join_executor x rem = Done (Some s) [] -> jval x.
Proof.
  unfold join_executor. destruct (try_join x None) as [[[|] j] tr| | | |] eqn:Htj; try discriminate.
  - intros _. eapply try_join_not_jval; eauto.
  - apply try_join_false in Htj. subst. discriminate.
Qed.

(** ** A generic invariant of the spans of derived values *)
Section Good.
Context {T V : Type} (E : env T V) (b : nat).
(** [good lo hi ls]: the non-empty spans [ls] found in a value matched at [lo..hi). *)
Variable good : nat -> nat -> list span -> Prop.
Hypothesis good_nil : forall lo hi, lo <= hi -> good lo hi [].
Hypothesis good_app : forall lo mid hi l1 l2,
  good lo mid l1 -> good mid hi l2 -> good lo hi (l1 ++ l2).
Hypothesis good_span : forall lo n, n <> 0 -> good lo (lo + n) [Span b lo n].
Hypothesis good_blk : forall lo hi ls s, good lo hi ls -> In s ls -> sp_blk s = b.
Hypothesis good_tiles : forall lo hi ls s e, good lo hi ls -> ls <> [] -> tiles b s e ls ->
  good lo hi (nonempty [Span b s (e - s)]).

Definition G (lo hi : nat) (v : rv) : Prop := good lo hi (nonempty (rv_src v)).

Definition fn_good (f : func) : Prop := forall args r lo hi,
  good lo hi (nonempty (flat_map src args)) -> invoke E f args = FRet r ->
  G lo hi r.

Definition node_ok (p : parser T) : Prop :=
  match p with
  | PMap _ f => fn_good f
  | PCustom c => match cust_conv E c with
                 | ConvSame => True
                 | ConvElem t | ConvWhole t => fn_good (FConstruct t)
                 end
  | _ => True
  end.

Definition all_ok (p : parser T) : Prop := forall q, reach E p q -> node_ok q.

Lemma all_ok_comp p q : all_ok p -> In q (components E p) -> all_ok q.
Proof. intros H Hin r Hr. apply H. econstructor; eauto. Qed.

Inductive gchain : nat -> nat -> list rv -> Prop :=
| gc_nil lo : gchain lo lo []
| gc_cons lo mid hi v vs : lo <= mid -> G lo mid v -> gchain mid hi vs -> gchain lo hi (v :: vs).

Lemma gchain_le lo hi vs : gchain lo hi vs -> lo <= hi.
Proof. induction 1; lia. Qed.

Lemma G_void lo hi : lo <= hi -> G lo hi RVoid.
Proof. intros. unfold G. now apply good_nil. Qed.

Lemma gchain_vals lo hi ws : gchain lo hi (map RVal ws) -> good lo hi (nonempty (flat_map src ws)).
Proof.
  revert lo. induction ws as [|w ws IH]; intros lo H; inversion H; subst; cbn.
  - now apply good_nil.
  - rewrite nonempty_app. eapply good_app; eauto.
Qed.

Lemma gchain_kept tys vs ws : kept tys vs ws -> forall lo hi, gchain lo hi vs ->
  good lo hi (nonempty (flat_map src ws)).
Proof.
  induction 1 as [|tys vs ws v Hk IH|t tys vs ws w Ht Hk IH]; intros lo hi H; inversion H; subst.
  - now apply good_nil.
  - change (nonempty (flat_map src ws)) with ([] ++ nonempty (flat_map src ws)).
    eapply good_app; eauto.
  - cbn. rewrite nonempty_app. eapply good_app; eauto.
Qed.

Lemma tuple_of_src ws : rv_src (tuple_of ws) = flat_map src ws.
Proof. destruct ws as [|w [|w' ws]]; cbn; auto. now rewrite app_nil_r. Qed.

Lemma gchain_snd prs : forall v0 lo hi ps, gchain lo hi (interleave v0 prs) ->
  v0 :: map snd prs = map RVal ps -> good lo hi (nonempty (flat_map src ps)).
Proof.
  induction prs as [|[d p] prs IH]; intros v0 lo hi ps H He; destruct ps as [|w ps];
    try discriminate; injection He as -> He; cbn [interleave] in H; inversion H; subst; cbn.
  - destruct ps; [|discriminate]. cbn. rewrite app_nil_r.
    match goal with HG : gchain _ _ [] |- _ => inversion HG; subst end. assumption.
  - match goal with HG : gchain _ _ (d :: _) |- _ => inversion HG; subst end.
    rewrite nonempty_app. eapply good_app; [eassumption|].
    change (nonempty (flat_map src ps)) with ([] ++ nonempty (flat_map src ps)).
    eapply good_app; [apply good_nil; eassumption|]. eapply IH; eauto.
Qed.

Lemma gchain_fst prs : forall v0 lo hi ds, gchain lo hi (interleave v0 prs) ->
  map fst prs = map RVal ds -> good lo hi (nonempty (flat_map src ds)).
Proof.
  induction prs as [|[d p] prs IH]; intros v0 lo hi ds H He; destruct ds as [|w ds];
    try discriminate; cbn [interleave] in H; inversion H; subst; cbn.
  - match goal with HG : gchain _ _ [] |- _ => inversion HG; subst end. now apply good_nil.
  - injection He as He1 He2. cbn in He1. subst d.
    match goal with HG : gchain _ _ (RVal w :: _) |- _ => inversion HG; subst end.
    rewrite nonempty_app. change (nonempty (src w)) with ([] ++ nonempty (src w)).
    eapply good_app; [eapply good_app; [apply good_nil; eassumption|eassumption]|]. eapply IH; eauto.
Qed.

Lemma gchain_weave prs : forall v0 lo hi ps ds, gchain lo hi (interleave v0 prs) ->
  v0 :: map snd prs = map RVal ps -> map fst prs = map RVal ds ->
  good lo hi (nonempty (weave (map src ps) (map src ds))).
Proof.
  induction prs as [|[d p] prs IH]; intros v0 lo hi ps ds H Hp Hd; destruct ps as [|w ps];
    try discriminate; injection Hp as -> Hp; destruct ds as [|e ds]; try discriminate;
    cbn [interleave] in H; inversion H; subst; cbn.
  - destruct ps; [|discriminate]. cbn. rewrite app_nil_r.
    match goal with HG : gchain _ _ [] |- _ => inversion HG; subst end. assumption.
  - injection Hd as Hd1 Hd2. cbn in Hd1. subst d.
    match goal with HG : gchain _ _ (RVal e :: _) |- _ => inversion HG; subst end.
    rewrite !nonempty_app. eapply good_app; [eassumption|]. eapply good_app; [eassumption|].
    eapply IH; eauto.
Qed.

Lemma collect_good t C vs v lo hi : (forall ws, src (C ws) = flat_map src ws) ->
  collect t C vs v -> gchain lo hi vs -> G lo hi v.
Proof.
  intros HC [[_ ->]|(_ & ws & -> & ->)] Hg.
  - apply G_void. eapply gchain_le; eauto.
  - unfold G. cbn. rewrite HC. now apply gchain_vals.
Qed.

Lemma delim_good tp td v0 prs v lo hi :
  delim_value tp td (v0 :: map snd prs) (map fst prs) v -> gchain lo hi (interleave v0 prs) ->
  G lo hi v.
Proof.
  intros Hv Hg. inversion Hv; subst; unfold G; cbn [rv_src src].
  - apply good_nil. eapply gchain_le; eauto.
  - eapply gchain_snd; eauto.
  - eapply gchain_fst; eauto.
  - eapply gchain_weave; eauto.
Qed.

Lemma args_src v : nonempty (rv_src v) = nonempty (flat_map src (args_of v)).
Proof. destruct v; cbn; auto. now rewrite app_nil_r. Qed.

Lemma in_mode_good m lo n : G lo (lo + n) (in_mode m (VSpan (Span b lo n))).
Proof.
  destruct m; cbn; [|apply G_void; lia]. unfold G. cbn.
  destruct (Nat.eqb_spec n 0) as [->|Hn]; cbn; [apply good_nil; lia|]. now apply good_span.
Qed.

Lemma parts_in tys (ps : list (parser T)) mp : In mp (parts tys ps) -> In (snd mp) ps.
Proof. destruct mp. unfold parts. intros H. apply in_combine_r in H. exact H. Qed.

Lemma delim_parts_in m (q d : parser T) n mp : In mp (delim_parts m q d n) -> In (snd mp) [q; d].
Proof.
  unfold delim_parts. revert mp. induction n as [|n IH]; intros mp; cbn.
  - intros [<-|[]]; cbn; auto.
  - intros [<-|[<-|H]]; cbn; auto. apply IH in H. exact H.
Qed.

Lemma derives_good_mut :
  (forall m p lo hi v, derives E b m p lo hi v -> all_ok p -> G lo hi v) /\
  (forall l lo hi vs, dchain E b l lo hi vs -> (forall mp, In mp l -> all_ok (snd mp)) ->
     gchain lo hi vs).
Proof.
  apply derives_mut; intros;
    repeat match goal with
    | H : derives E b _ _ ?lo ?hi _ |- _ =>
        lazymatch goal with
        | _ : lo <= hi |- _ => fail
        | _ => pose proof (proj1 (derives_le E b) _ _ _ _ _ H)
        end
    | H : dchain E b _ ?lo ?hi _ |- _ =>
        lazymatch goal with
        | _ : lo <= hi |- _ => fail
        | _ => pose proof (proj2 (derives_le E b) _ _ _ _ H)
        end
    end;
    try (replace (S lo) with (lo + 1) by lia); try (apply in_mode_good); try (apply G_void; lia; fail).
  - (* choice *)
    match goal with H : all_ok p -> _ |- _ => rename H into IH end.
    assert (HG : G lo hi (RVal w)).
    { apply IH. eapply all_ok_comp; eauto. cbn [components]. eapply nth_error_In; eauto. }
    destruct (unwrapped _); exact HG.
  - (* lost *)
    unfold builder_init. destruct (is_void _); [now apply G_void|].
    unfold G. cbn. rewrite nonempty_default. now apply good_nil.
  - (* sequence *)
    unfold G. rewrite tuple_of_src. eapply gchain_kept; eauto. apply H.
    intros mp Hmp. eapply all_ok_comp; eauto. cbn [components]. apply parts_in in Hmp. exact Hmp.
  - (* maybe some *)
    assert (HG : G lo hi v) by (apply H; eapply all_ok_comp; eauto; now left).
    destruct o as [[_ ->]|(_ & x & -> & ->)]; [now apply G_void|exact HG].
  - destruct (is_void t); apply G_void || (unfold G; cbn; apply good_nil); lia.
  - eapply collect_good; [|eauto|]; [reflexivity|]. apply H. intros mp Hmp. apply repeat_spec in Hmp. subst.
    eapply all_ok_comp; eauto. now left.
  - eapply collect_good; [|eauto|]; [reflexivity|]. apply H. intros mp Hmp. apply repeat_spec in Hmp. subst.
    eapply all_ok_comp; eauto. now left.
  - eapply collect_good; [|eauto|]; [reflexivity|]. apply H. intros mp Hmp. apply repeat_spec in Hmp. subst.
    eapply all_ok_comp; eauto. now left.
  - eapply delim_good; eauto. apply H. intros mp Hmp. apply delim_parts_in in Hmp.
    eapply all_ok_comp; eauto.
  - apply H. eapply all_ok_comp; eauto. now left.
  - (* join *)
    assert (HG : G lo hi (RVal x)) by (apply H; eapply all_ok_comp; eauto; now left).
    unfold G in HG. cbn in HG.
    assert (Hjv : jval x) by (eapply join_some_jval; eauto).
    rewrite (jval_src x Hjv) in HG.
    apply (join_executor_some b) in e0; auto.
    + unfold G. cbn [rv_src src]. destruct e0 as [[Hn ->]|(Hn & s0 & e0 & Ht & ->)].
      * cbn. now apply good_nil.
      * eapply good_tiles; eauto.
    + intros s' Hin Hlen. eapply good_blk; eauto. apply nonempty_in. auto.
  - (* map *)
    assert (Hok : node_ok (PMap q f)) by (apply H0; constructor).
    eapply Hok; eauto. rewrite <- args_src. apply H. eapply all_ok_comp; eauto. now left.
  - apply H. eapply all_ok_comp; eauto. now left.
  - apply H. eapply all_ok_comp; eauto. now left.
  - apply H. eapply all_ok_comp; eauto. now left.
  - assert (Hok : node_ok (PCustom c)) by (apply H0; constructor). cbn in Hok. rewrite e in Hok.
    eapply Hok; eauto. cbn. rewrite app_nil_r. apply H. eapply all_ok_comp; eauto. now left.
  - assert (Hok : node_ok (PCustom c)) by (apply H0; constructor). cbn in Hok. rewrite e in Hok.
    eapply Hok; eauto. cbn. rewrite app_nil_r. apply H. eapply all_ok_comp; eauto. now left.
  - assert (Hok : node_ok (PCustom c)) by (apply H; constructor). cbn in Hok. rewrite e in Hok.
    eapply Hok; eauto. cbn. now apply good_nil.
  - constructor.
  - econstructor; eauto.
    + apply H. exact (H1 _ (or_introl eq_refl)).
    + apply H0. intros mp Hmp. apply H1. now right.
Qed.
End Good.

(** ** Instance 1: every non-empty span lies inside the matched region *)
Definition region (b lo hi : nat) (ls : list span) : Prop :=
  lo <= hi /\ Forall (fun s => sp_blk s = b /\ lo <= sp_off s /\ sp_off s + sp_len s <= hi) ls.

(** The function only returns (sub-spans of) spans found in its arguments. *)
Definition local_fn {T V} (E : env T V) (f : func) : Prop := forall args r,
  invoke E f args = FRet r ->
  forall s, In s (rv_leaves r) -> sp_len s <> 0 ->
  exists s', In s' (flat_map leaves args) /\ sp_blk s = sp_blk s' /\
    sp_off s' <= sp_off s /\ sp_off s + sp_len s <= sp_off s' + sp_len s'.

(** The functions a parser can call: map and the conversions of custom parsers (filter
    predicates return no spans into the result). *)
Definition local_parser {T V} (E : env T V) (p : parser T) : Prop := forall q, reach E p q ->
  match q with
  | PMap _ f => local_fn E f
  | PCustom c => match cust_conv E c with
                 | ConvSame => True
                 | ConvElem t | ConvWhole t => local_fn E (FConstruct t)
                 end
  | _ => True
  end.

Lemma tiles_bounds b s e ls : tiles b s e ls -> ls <> [] ->
  (exists x, In x ls /\ sp_off x = s) /\ (exists x, In x ls /\ sp_off x + sp_len x = e).
Proof.
  induction 1 as [|lo n hi ls H IH]; intros Hn; [congruence|]. split.
  - exists (Span b lo n). split; [now left|reflexivity].
  - destruct ls as [|x ls].
    + inversion H; subst. exists (Span b lo n). split; [now left|reflexivity].
    + destruct IH as (_ & y & Hy & He); [discriminate|]. exists y. split; [now right|auto].
Qed.

Lemma in_flat_map_src args s : In s (flat_map leaves args) -> In s (flat_map src args).
Proof.
  intros H. apply in_flat_map in H as (v & Hv & Hs). apply in_flat_map. exists v. split; auto.
  now apply src_in.
Qed.

Lemma local_fn_good {T V} (E : env T V) b f : local_fn E f -> fn_good E (region b) f.
Proof.
  intros Hl args r lo hi [Hle Hg] Hi. split; auto. apply Forall_forall. intros s Hs.
  apply nonempty_in in Hs as [Hs Hn]. apply rv_src_in in Hs.
  destruct (Hl _ _ Hi s Hs Hn) as (s' & Hs' & Hb & H1 & H2).
  rewrite Forall_forall in Hg. destruct (Hg s') as (Hb' & H3 & H4).
  { apply nonempty_in. split; [now apply in_flat_map_src|lia]. }
  repeat split; try congruence; lia.
Qed.

Lemma derives_region {T V} (E : env T V) b m p lo hi v :
  local_parser E p -> derives E b m p lo hi v -> region b lo hi (nonempty (rv_leaves v)).
Proof.
  intros Hl Hd.
  assert (HG : G (region b) lo hi v).
  { eapply (proj1 (derives_good_mut E b (region b) _ _ _ _ _)); [exact Hd|].
    intros q Hq. specialize (Hl q Hq). destruct q; cbn; auto using local_fn_good.
    destruct (cust_conv E c); auto using local_fn_good. }
  destruct HG as [Hle HG]. split; auto. apply Forall_forall. intros s Hs.
  rewrite Forall_forall in HG. apply HG. apply nonempty_in in Hs as [Hs Hn].
  apply nonempty_in. split; auto. now apply rv_src_in.
  Unshelve.
  - intros; split; auto.
  - intros l m0 h l1 l2 [H1 H2] [H3 H4]. split; [lia|]. apply Forall_app. split.
    + eapply Forall_impl; [|exact H2]. cbn. intuition; lia.
    + eapply Forall_impl; [|exact H4]. cbn. intuition; lia.
  - intros l n Hn. split; [lia|]. repeat constructor; cbn; lia.
  - intros l h ls s [_ H] Hin. rewrite Forall_forall in H. now apply H.
  - intros l h ls s e [Hle H] Hn Ht. split; auto. cbn.
    destruct (tiles_bounds _ _ _ _ Ht Hn) as ((x & Hx & Hxs) & (y & Hy & Hye)).
    rewrite Forall_forall in H. destruct (H x Hx) as (_ & Hx1 & _). destruct (H y Hy) as (_ & _ & Hy1).
    pose proof (tiles_le _ _ _ _ Ht).
    destruct (e - s =? 0); cbn; repeat constructor; cbn; lia.
Qed.

(** ** Instance 2: without user functions, the spans come in increasing order *)
Inductive ordered (b : nat) : nat -> nat -> list span -> Prop :=
| ord_nil lo hi : lo <= hi -> ordered b lo hi []
| ord_cons lo off n hi ls : lo <= off -> ordered b (off + n) hi ls ->
    ordered b lo hi (Span b off n :: ls).

Lemma ordered_le b lo hi ls : ordered b lo hi ls -> lo <= hi.
Proof. induction 1; lia. Qed.

Lemma ordered_weaken b lo hi ls lo' : ordered b lo hi ls -> lo' <= lo -> ordered b lo' hi ls.
Proof. destruct 1; intros; constructor; auto; lia. Qed.

Lemma ordered_region b lo hi ls : ordered b lo hi ls -> region b lo hi ls.
Proof.
  induction 1; [split; auto|]. pose proof (ordered_le _ _ _ _ H0). destruct IHordered as [H2 H3].
  split; [lia|]. constructor; [cbn; lia|]. eapply Forall_impl; [|exact H3]. cbn. intuition lia.
Qed.

Lemma ordered_app b lo mid hi l1 l2 :
  ordered b lo mid l1 -> ordered b mid hi l2 -> ordered b lo hi (l1 ++ l2).
Proof.
  induction 1; cbn; intros.
  - eapply ordered_weaken; eauto.
  - constructor; auto.
Qed.

(** No map function and no converting custom parser is reachable. *)
Definition pure_parser {T V} (E : env T V) (p : parser T) : Prop := forall q, reach E p q ->
  match q with
  | PMap _ _ => False
  | PCustom c => cust_conv E c = ConvSame
  | _ => True
  end.

Lemma derives_ordered {T V} (E : env T V) b m p lo hi v :
  pure_parser E p -> derives E b m p lo hi v -> ordered b lo hi (nonempty (rv_src v)).
Proof.
  intros Hl Hd.
  eapply (proj1 (derives_good_mut E b (ordered b) _ _ _ _ _)); [exact Hd|].
  intros q Hq. specialize (Hl q Hq). destruct q; cbn; auto; try contradiction.
  now rewrite Hl.
  Unshelve.
  - now constructor.
  - intros; eapply ordered_app; eauto.
  - intros l n Hn. constructor; auto. now constructor.
  - intros l h ls s H Hin. apply ordered_region in H as [_ H]. rewrite Forall_forall in H. now apply H.
  - intros l h ls s e H Hn Ht. apply ordered_region in H as [Hle H].
    destruct (tiles_bounds _ _ _ _ Ht Hn) as ((x & Hx & Hxs) & (y & Hy & Hye)).
    rewrite Forall_forall in H. destruct (H x Hx) as (_ & Hx1 & _). destruct (H y Hy) as (_ & _ & Hy1).
    pose proof (tiles_le _ _ _ _ Ht). cbn.
    destruct (e - s =? 0); cbn; repeat constructor; lia.
Qed.
