(** * Property C80: join over class types that convert to a span *)
From Coq Require Import String List Arith ZArith Bool Lia.
From Verif Require Import Types Compound Parser Outcome CompoundFacts Exec Mono Derive Typing Join Leaves Sound
  Builds PropBuilds Samples JoinConv.
Import ListNotations.
Local Open Scope outcome_scope.

Section C80.
Variable converts : nat -> bool.
Variable conv : nat -> list val -> form.
Variable home : list nat -> nat.
Notation joinable_c := (joinable_c converts).
Notation seen := (seen converts conv home).
Notation executor := (join_executor_c converts conv home).
Notation join_parse := (join_parse_c converts conv home).

(** Specification: the spans, views and owners in a value, in order, with their places. *)
Fixpoint forms (place : list nat) (v : val) {struct v} : list (list nat * form) :=
  let many := fix go (k : nat) (l : list val) {struct l} := match l with [] => [] | x :: l' => forms (k :: place) x ++ go (S k) l' end in
  match v with
  | VSpan s => [(place, Views s)]
  | VVec l => many 0 l
  | VArr l => many 0 l
  | VOpt None => []
  | VOpt (Some x) => forms (0 :: place) x
  | VTup l => many 0 l
  | VUser n l => [(place, conv n l)]
  | _ => []
  end.
Definition forms_many (place : list nat) := fix go (k : nat) (l : list val) {struct l} :=
  match l with [] => [] | x :: l' => forms (k :: place) x ++ go (S k) l' end.

(** The same as spans. *)
Definition spans (v : val) : list span := map (fun a => converted home (fst a) (snd a)) (forms [] v).

(** The storage of the owners exists only as long as the value. *)
Definition own_storage : Prop := forall a b, home a = home b -> a = b.
Definition elsewhere (v : val) : Prop :=
  forall pl s, In (pl, Views s) (forms [] v) -> sp_len s <> 0 -> forall pl', home pl' <> sp_blk s.
Definition gone (s : span) : Prop := exists pl, sp_blk s = home pl.

(** ** Places *)
Lemma forms_under v : forall place pl f, In (pl, f) (forms place v) -> exists q, pl = q ++ place.
Proof.
  assert (HM : forall l, Forall (fun v => forall place pl f, In (pl, f) (forms place v) -> exists q, pl = q ++ place) l ->
    forall place k pl f, In (pl, f) (forms_many place k l) -> exists q j, pl = q ++ j :: place /\ k <= j).
  { clear v. induction 1 as [|v l H _ IH]; intros place k pl f; cbn; [contradiction|]. intros [Hi|Hi]%in_app_or.
    - apply H in Hi as [q ->]. exists q, k. split; auto.
    - apply IH in Hi as (q & j & -> & Hj). exists q, j. split; auto. lia. }
  induction v using val_ind'; intros place pl f; cbn [forms]; fold (forms_many place); try contradiction.
  - intros [[= <- _]|[]]. now exists [].
  - intros Hi. apply HM in Hi as (q & j & -> & _); auto. exists (q ++ [j]). now rewrite <- app_assoc.
  - intros Hi. apply HM in Hi as (q & j & -> & _); auto. exists (q ++ [j]). now rewrite <- app_assoc.
  - intros Hi. apply IHv in Hi as [q ->]. exists (q ++ [0]). now rewrite <- app_assoc.
  - intros Hi. apply HM in Hi as (q & j & -> & _); auto. exists (q ++ [j]). now rewrite <- app_assoc.
  - intros [[= <- _]|[]]. now exists [].
Qed.

Lemma forms_many_under l : forall place k pl f, In (pl, f) (forms_many place k l) -> exists q j, pl = q ++ j :: place /\ k <= j.
Proof.
  induction l as [|v l IH]; intros place k pl f; cbn; [contradiction|]. intros [Hi|Hi]%in_app_or.
  - apply forms_under in Hi as [q ->]. exists q, k. split; auto.
  - apply IH in Hi as (q & j & -> & Hj). exists q, j. split; auto. lia.
Qed.

Lemma app_tail_inj {A} (q q' : list A) x y l : q ++ x :: l = q' ++ y :: l -> x = y.
Proof.
  intros H. replace (q ++ x :: l) with ((q ++ [x]) ++ l) in H by now rewrite <- app_assoc.
  replace (q' ++ y :: l) with ((q' ++ [y]) ++ l) in H by now rewrite <- app_assoc.
  apply app_inv_tail in H. now apply app_inj_tail in H as [_ ->].
Qed.

Lemma forms_places v : forall place, NoDup (map fst (forms place v)).
Proof.
  assert (HM : forall l, Forall (fun v => forall place, NoDup (map fst (forms place v))) l ->
    forall place k, NoDup (map fst (forms_many place k l))).
  { clear v. induction 1 as [|v l H _ IH]; intros place k; cbn; [constructor|]. rewrite map_app.
    assert (Hd : forall x, In x (map fst (forms (k :: place) v)) -> ~ In x (map fst (forms_many place (S k) l))).
    { intros x ([pl f] & <- & Hi)%in_map_iff ([pl' f'] & He & Hi')%in_map_iff. cbn in He. subst pl'.
      apply forms_under in Hi as [q ->]. apply forms_many_under in Hi' as (q' & j & He & Hj). apply app_tail_inj in He. lia. }
    revert Hd. generalize (IH place (S k)). generalize (map fst (forms_many place (S k) l)).
    induction (H (k :: place)); intros l' Hl' Hd; cbn; auto. constructor.
    - rewrite in_app_iff. intros [?|?]; auto. apply (Hd x); cbn; auto.
    - apply IHn; auto. intros y Hy. apply Hd. now right. }
  induction v using val_ind'; intros place; cbn [forms]; fold (forms_many place); try constructor; auto.
  all: constructor.
Qed.

(** ** Typed values *)
Lemma seen_leaves v : forall place t, joinable_c t = true -> has_ty t v ->
  jval (seen place v) /\ leaves (seen place v) = map (fun a => converted home (fst a) (snd a)) (forms place v).
Proof.
  assert (HM : forall l, Forall (fun v => forall place t, joinable_c t = true -> has_ty t v ->
      jval (seen place v) /\ leaves (seen place v) = map (fun a => converted home (fst a) (snd a)) (forms place v)) l ->
    forall place k ts, Forall2 (fun t v => joinable_c t = true /\ has_ty t v) ts l ->
    Forall jval (seen_many converts conv home place k l) /\
    flat_map leaves (seen_many converts conv home place k l) = map (fun a => converted home (fst a) (snd a)) (forms_many place k l)).
  { clear v. induction 1 as [|v l H _ IH]; intros place k ts H2; inversion H2 as [|t v' ts' l' [Hj Hv] Hr]; subst; [split; constructor|].
    destruct (H (k :: place) _ Hj Hv) as [H3 H4]. destruct (IH place (S k) _ Hr) as [H5 H6]. split; [now constructor|].
    cbn. now rewrite H4, H6, map_app. }
  assert (HA : forall t l, joinable_c t = true -> Forall (has_ty t) l -> Forall2 (fun t v => joinable_c t = true /\ has_ty t v) (repeat t (List.length l)) l).
  { intros t l Hj. induction 1; cbn; constructor; auto. }
  assert (HT : forall ts l, forallb joinable_c ts = true -> Forall2 has_ty ts l -> Forall2 (fun t v => joinable_c t = true /\ has_ty t v) ts l).
  { intros ts l Hj. induction 1; cbn in *; constructor; apply andb_true_iff in Hj as [? ?]; auto. }
  induction v using val_ind'; intros place t Hj Hv; destruct t; cbn [has_ty] in Hv; try contradiction; cbn [joinable_c] in Hj; try discriminate;
    cbn [JoinConv.seen forms]; fold (seen_many converts conv home place); fold (forms_many place).
  - split; [constructor|reflexivity].
  - destruct (HM _ H place 0 _ (HA _ _ Hj Hv)) as [H1 H2]. split; [now constructor|exact H2].
  - destruct Hv as [_ Hv]. destruct (HM _ H place 0 _ (HA _ _ Hj Hv)) as [H1 H2]. split; [now constructor|exact H2].
  - split; [constructor|reflexivity].
  - destruct (IHv (0 :: place) _ Hj Hv) as [H1 H2]. split; [now constructor|exact H2].
  - assert (Hj' : forallb joinable_c ts = true) by (destruct ts; [discriminate|exact Hj]).
    apply (has_ty_tup ts l) in Hv. destruct (HM _ H place 0 _ (HT _ _ Hj' Hv)) as [H1 H2]. split; [now constructor|exact H2].
  - subst. rewrite Hj. split; [constructor|reflexivity].
Qed.

(** ** What join does with the spans *)
Lemma run_list far ls : forall bl lo k, k <> 0 ->
  (exists hi, tiles bl (lo + k) hi (nonempty ls) /\
     join_list_on GccRun far ls (Some (Span bl lo k)) = Done (true, Some (Span bl lo (hi - lo))) []) \/
  (exists pre s post hi, nonempty ls = pre ++ s :: post /\ tiles bl (lo + k) hi pre /\
     (sp_blk s = bl /\ sp_off s <> hi /\ join_list_on GccRun far ls (Some (Span bl lo k)) = Done (false, None) [] \/
      sp_blk s <> bl /\ join_list_on GccRun far ls (Some (Span bl lo k)) = UB)).
Proof.
  induction ls as [|[bs os n] ls IH]; intros bl lo k Hk.
  - left. exists (lo + k). split; [constructor|]. cbn. now replace (lo + k - lo) with k by lia.
  - cbn [nonempty filter sp_len]. fold (nonempty ls). cbn [join_list_on]. unfold try_join_span_on. cbn [sp_len sp_blk sp_off].
    destruct (Nat.eqb_spec n 0) as [->|Hn]; cbn [negb].
    + rewrite bind_ret. apply IH; auto.
    + unfold adjacent. cbn [sp_blk sp_off sp_len]. destruct (Nat.eqb_spec bs bl) as [->|Hb].
      * rewrite bind_ret. rewrite ltb_len_adj. destruct (Nat.eqb_spec os (lo + k)) as [->|He].
        -- rewrite bind_ret. destruct (IH bl lo (k + n)) as [(hi & H1 & H2)|(pre & s & post & hi & H1 & H2 & H3)]; [lia|left|right].
           ++ exists hi. split; [|exact H2]. constructor. now rewrite <- Nat.add_assoc.
           ++ exists (Span bl (lo + k) n :: pre), s, post, hi. rewrite H1. split; [reflexivity|]. split; [|exact H3].
              constructor. now rewrite <- Nat.add_assoc.
        -- rewrite bind_ret. right. exists [], (Span bl os n), (nonempty ls), (lo + k). split; [reflexivity|]. split; [constructor|].
           left. cbn. auto.
      * right. exists [], (Span bs os n), (nonempty ls), (lo + k). split; [reflexivity|]. split; [constructor|]. right. auto.
Qed.

Section Value.
Variables (v : val) (t : ty) (rem : span).
Hypotheses (Hj : joinable_c t = true) (Hv : has_ty t v).

Lemma executor_spans b far : executor b far v rem =
  ('(ok, j) <- join_list_on b far (spans v) None ;;
   match ok, j with true, None => ret (Some (Span (sp_blk rem) (sp_off rem) 0)) | _, _ => ret j end).
Proof.
  rewrite join_executor_seen. unfold join_executor_on. destruct (seen_leaves v [] t Hj Hv) as [H1 H2].
  rewrite try_join_on_spec by auto. now rewrite H2.
Qed.

(** At run time (GCC, Clang): nothing but empty spans: an empty span where the input goes on; spans that lie
    side by side: their union; otherwise the first one that does not continue those before it makes join fail if it lies in
    the same storage, and its behaviour undefined if not. *)
Theorem C80_run_time far : let ls := nonempty (spans v) in
  (ls = [] /\ executor GccRun far v rem = Done (Some (Span (sp_blk rem) (sp_off rem) 0)) []) \/
  (exists bl lo hi, ls <> [] /\ tiles bl lo hi ls /\ executor GccRun far v rem = Done (Some (Span bl lo (hi - lo))) []) \/
  (exists pre s post bl lo hi, ls = pre ++ s :: post /\ pre <> [] /\ tiles bl lo hi pre /\
     (sp_blk s = bl /\ sp_off s <> hi /\ executor GccRun far v rem = Done None [] \/
      sp_blk s <> bl /\ executor GccRun far v rem = UB)).
Proof.
  cbv zeta. rewrite executor_spans. induction (spans v) as [|[bs os n] ls IH]; [left; auto|].
  cbn [nonempty filter sp_len]. fold (nonempty ls). cbn [join_list_on].
  unfold try_join_span_on. cbn [sp_len]. destruct (Nat.eqb_spec n 0) as [->|Hn]; cbn [negb].
  - rewrite bind_ret. exact IH.
  - rewrite bind_ret. right. fold (join_list_on GccRun far).
    destruct (run_list far ls bs os n Hn) as [(hi & H1 & H2)|(pre & s & post & hi & H1 & H2 & [(H3 & H4 & H5)|(H3 & H5)])].
    + left. exists bs, os, hi. rewrite H2. split; [discriminate|]. split; [now constructor|reflexivity].
    + right. exists (Span bs os n :: pre), s, post, bs, os, hi. rewrite H1, H5. split; [reflexivity|]. split; [discriminate|].
      split; [now constructor|]. left. auto.
    + right. exists (Span bs os n :: pre), s, post, bs, os, hi. rewrite H1, H5. split; [reflexivity|]. split; [discriminate|].
      split; [now constructor|]. right. auto.
Qed.

(** In a constant expression, and with MSVC if pointers to different storage are never equal. *)
Lemma msvc_list ls : forall j, join_list_on MsvcRun (fun _ _ => false) ls j = join_list_on GccConstant (fun _ _ => false) ls j.
Proof.
  induction ls as [|[bs os n] ls IH]; intros j; [reflexivity|]. cbn [join_list_on]. unfold try_join_span_on, adjacent. cbn [sp_len sp_blk sp_off].
  destruct (n =? 0); [rewrite !bind_ret; apply IH|]. destruct j as [[bj oj nj]|]; [|rewrite !bind_ret; apply IH]. cbn [sp_len sp_blk sp_off].
  rewrite !bind_ret, ltb_len_adj, (Nat.eqb_sym (oj + nj)). destruct (bs =? bj); cbn [andb]; [|reflexivity].
  destruct (os =? oj + nj); rewrite !bind_ret; [apply IH|reflexivity].
Qed.

Theorem C80_constant b far : b = GccConstant \/ b = MsvcRun /\ far = (fun _ _ => false) ->
  let ls := nonempty (spans v) in
  (ls = [] /\ executor b far v rem = Done (Some (Span (sp_blk rem) (sp_off rem) 0)) []) \/
  (exists bl lo hi, ls <> [] /\ tiles bl lo hi ls /\ executor b far v rem = Done (Some (Span bl lo (hi - lo))) []) \/
  (ls <> [] /\ (forall bl lo hi, ~ tiles bl lo hi ls) /\ executor b far v rem = Done None []).
Proof.
  intros Hb. cbv zeta. destruct (seen_leaves v [] t Hj Hv) as [H1 H2]. fold (spans v) in H2.
  assert (He : executor b far v rem = join_executor_on GccConstant far (seen [] v) rem).
  { destruct Hb as [->|[-> ->]]; [apply join_executor_seen|]. rewrite executor_spans. unfold join_executor_on.
    rewrite try_join_on_spec by auto. rewrite H2. fold (join_list_on MsvcRun (fun _ _ => false)). now rewrite msvc_list. }
  rewrite He, <- H2. now apply C58_constant_join.
Qed.

(** ** Owners *)
Lemma spans_one bl lo hi pl n : own_storage -> elsewhere v -> tiles bl lo hi (nonempty (spans v)) ->
  In (pl, Owns n) (forms [] v) -> n <> 0 -> nonempty (spans v) = [Span (home pl) 0 n] /\ bl = home pl /\ lo = 0 /\ hi = n.
Proof.
  intros Ho He Ht Hi Hn.
  assert (Hall : forall s, In s (nonempty (spans v)) -> sp_blk s = bl).
  { clear -Ht. induction Ht; intros s Hs; [destruct Hs|]. destruct Hs as [<-|Hs]; auto. }
  assert (Hin : In (Span (home pl) 0 n) (nonempty (spans v))).
  { apply filter_In. split; [|cbn; destruct n; [congruence|reflexivity]]. apply in_map_iff. exists (pl, Owns n). auto. }
  pose proof (Hall _ Hin) as Hbl. cbn in Hbl. subst bl.
  assert (Hone : nonempty (spans v) = [Span (home pl) 0 n]).
  { pose proof (forms_places v []) as Hnd. unfold spans, nonempty in *. unfold elsewhere in He. revert Hnd Hi He Hall. clear -Ho Hn.
    induction (forms [] v) as [|[pl' f] l IH]; intros Hnd Hi He Hall; [destruct Hi|]. cbn in Hnd. inversion Hnd as [|? ? Hx Hnd']; subst.
    cbn [map filter] in *. destruct Hi as [[= -> ->]|Hi].
    - cbn [fst snd converted sp_len] in *. destruct (Nat.eqb_spec n 0); [congruence|]. cbn [negb] in *. f_equal.
      assert (Hnone : forall s, ~ In s (filter (fun s => negb (sp_len s =? 0)) (map (fun a => converted home (fst a) (snd a)) l))).
      { intros s Hs. pose proof (Hall s (or_intror Hs)) as Hb. apply filter_In in Hs as [([pl2 f2] & <- & Hs)%in_map_iff Hl]. cbn in Hb.
        destruct f2 as [s|k]; cbn in *.
        - apply (He pl2 s (or_intror Hs)) with (pl' := pl); auto. destruct (sp_len s); [discriminate|lia].
        - apply Ho in Hb. subst. apply Hx. apply (in_map fst) in Hs. exact Hs. }
      destruct (filter _ _) as [|s l']; auto. destruct (Hnone s). now left.
    - assert (Hrec : filter (fun s => negb (sp_len s =? 0)) (map (fun a => converted home (fst a) (snd a)) l) = [Span (home pl) 0 n]).
      { apply IH; auto; [|intros s Hs; apply Hall; destruct (negb _); [now right|exact Hs]]. intros p0 s0 H0. apply (He p0 s0). now right. }
      rewrite Hrec in Hall |- *. destruct (negb (sp_len (converted home (fst (pl', f)) (snd (pl', f))) =? 0)) eqn:Hz; [|reflexivity].
      exfalso. pose proof (Hall _ (or_introl eq_refl)) as Hb. cbn in Hb, Hz. destruct f as [s|k]; cbn in *.
      + refine (He pl' s (or_introl eq_refl) _ pl _); auto. destruct (sp_len s); [discriminate|lia].
      + apply Ho in Hb. subst. apply Hx. apply (in_map fst) in Hi. exact Hi. }
  split; [exact Hone|]. rewrite Hone in Ht. inversion Ht as [|? ? ? ? Ht']; subst. inversion Ht'; subst. auto.
Qed.

(** A value in which some owner is not empty is never joined to a span that can be used: join is undefined, or
    fails, or the span is that owner's own text, gone when parse returns. *)
Theorem C80_owner b far pl n : b = GccRun \/ b = GccConstant \/ b = MsvcRun /\ far = (fun _ _ => false) ->
  own_storage -> elsewhere v -> In (pl, Owns n) (forms [] v) -> n <> 0 ->
  (b = GccRun /\ executor b far v rem = UB) \/ executor b far v rem = Done None [] \/
  (nonempty (spans v) = [Span (home pl) 0 n] /\ executor b far v rem = Done (Some (Span (home pl) 0 n)) []).
Proof.
  intros Hb Ho He Hi Hn.
  assert (Hne : nonempty (spans v) <> []).
  { intros H. assert (Hx : In (Span (home pl) 0 n) (nonempty (spans v))); [|now rewrite H in Hx].
    apply filter_In. split; [|cbn; destruct n; [congruence|reflexivity]]. apply in_map_iff. exists (pl, Owns n). auto. }
  destruct Hb as [->|Hb].
  - destruct (C80_run_time far) as [[H _]|[(bl & lo & hi & _ & Ht & ->)|(pre & s & post & bl & lo & hi & _ & _ & _ & [(_ & _ & ->)|(_ & ->)])]]; auto; [contradiction|].
    right. right. destruct (spans_one bl lo hi pl n Ho He Ht Hi Hn) as (H & -> & -> & ->). rewrite Nat.sub_0_r. auto.
  - destruct (C80_constant b far Hb) as [[H _]|[(bl & lo & hi & _ & Ht & ->)|(_ & _ & ->)]]; auto; [contradiction|].
    right. right. destruct (spans_one bl lo hi pl n Ho He Ht Hi Hn) as (H & -> & -> & ->). rewrite Nat.sub_0_r. auto.
Qed.

(** Without owners (or with empty ones only), a span that is delivered is still there: it is made of the views. *)
Theorem C80_views b far s : b = GccRun \/ b = GccConstant \/ b = MsvcRun /\ far = (fun _ _ => false) ->
  (forall pl n, In (pl, Owns n) (forms [] v) -> n = 0) -> elsewhere v -> ~ gone rem ->
  executor b far v rem = Done (Some s) [] -> ~ gone s.
Proof.
  intros Hb Hno He Hr Hs [pl Hg].
  assert (Hx : forall bl lo hi, tiles bl lo hi (nonempty (spans v)) -> nonempty (spans v) <> [] -> bl <> home pl).
  { intros bl lo hi Ht Hne Hbl. destruct (nonempty (spans v)) as [|s0 ls] eqn:Hls; [contradiction|]. inversion Ht; subst.
    assert (Hin : In (Span (home pl) lo n) (nonempty (spans v))) by (rewrite Hls; now left).
    apply filter_In in Hin as [([pl2 [s2|k]] & H2' & Hin)%in_map_iff Hl]; cbn in H2', Hl.
    - subst s2. apply (He _ _ Hin) with (pl' := pl); [|reflexivity]. cbn. destruct n; [discriminate|lia].
    - injection H2' as _ _ ->. apply Hno in Hin. subst. discriminate. }
  destruct Hb as [->|Hb].
  - destruct (C80_run_time far) as [[_ H]|[(bl & lo & hi & Hne & Ht & H)|(pre & s' & post & bl & lo & hi & _ & _ & _ & [(_ & _ & H)|(_ & H)])]];
      rewrite H in Hs; try discriminate; injection Hs as <-; cbn in Hg.
    + apply Hr. now exists pl.
    + now apply (Hx bl lo hi).
  - destruct (C80_constant b far Hb) as [[_ H]|[(bl & lo & hi & Hne & Ht & H)|(_ & _ & H)]];
      rewrite H in Hs; try discriminate; injection Hs as <-; cbn in Hg.
    + apply Hr. now exists pl.
    + now apply (Hx bl lo hi).
Qed.
End Value.

(** ** The whole parse function, over any component *)
Theorem C80_parse (f : pfun) i x t rem tr b far pl n : f i = Done (Res (Some (RVal x)) rem) tr -> joinable_c t = true -> has_ty t x ->
  b = GccRun \/ b = GccConstant \/ b = MsvcRun /\ far = (fun _ _ => false) ->
  own_storage -> elsewhere x -> In (pl, Owns n) (forms [] x) -> n <> 0 ->
  join_parse b far f i = UB \/ join_parse b far f i = Done (Res None i) tr \/
  exists s, join_parse b far f i = Done (Res (Some (RVal (VSpan s))) rem) tr /\ gone s.
Proof.
  intros Hf Hj Hx Hb Ho He Hi Hn. unfold join_parse_c. rewrite Hf. cbn [bind r_ok r_rem].
  destruct (C80_owner x t rem Hj Hx b far pl n Hb Ho He Hi Hn) as [[_ ->]|[-> |[_ ->]]]; cbn; rewrite ?app_nil_r; auto.
  right. right. eexists. split; [reflexivity|]. now exists pl.
Qed.

(** ** Types *)
(** What [joinable] accepts is accepted, with the same outcome as without conversions. *)
Theorem C80_conservative t v b far rem : joinable t = true -> has_ty t v ->
  joinable_c t = true /\ executor b far v rem = join_executor_on b far v rem.
Proof.
  intros Hj Hv. assert (Ht : joinable_c t = true).
  { clear v Hv. induction t using ty_ind'; cbn in *; auto; try discriminate. destruct ts as [|t0 ts]; [discriminate|].
    revert Hj. induction H; cbn; auto. intros [H1 H2]%andb_true_iff. rewrite H by auto. now apply IHForall. }
  split; [exact Ht|]. rewrite join_executor_seen. f_equal. clear rem far b Ht. pose proof (joinable_jval _ _ Hj Hv) as Hjv. clear t Hj Hv.
  generalize (@nil nat). induction v using val_ind'; intros place; inversion Hjv; subst; cbn [JoinConv.seen]; fold (seen_many converts conv home place); auto; f_equal.
  3: f_equal; auto.
  all: clear Hjv; generalize 0; induction H as [|x l Hx Hl IH]; intros k; cbn; auto; match goal with H' : Forall jval (_ :: _) |- _ => inversion H'; subst end; f_equal; auto.
Qed.

End C80.

(** ** Cases *)
(** Class 1 is a string of the text it was made of, class 0 a view of its first span, class 5 a single character. *)
Definition cx_converts (n : nat) : bool := n <? 2.
Definition cx_conv (n : nat) (l : list val) : form :=
  match n, l with
  | 0, VSpan s :: _ => Views s
  | _, _ => Owns (list_sum (map sp_len (flat_map leaves l)))
  end.
(** Blocks 0 to 99 are the program's. *)
Fixpoint cx_code (pl : list nat) : nat := match pl with [] => 0 | k :: pl' => 2 ^ k * (2 * cx_code pl' + 1) end.
Definition cx_home (pl : list nat) : nat := 100 + cx_code pl.
Lemma cx_code_inj pl : forall pl', cx_code pl = cx_code pl' -> pl = pl'.
Proof.
  assert (Hp : forall k c, 2 ^ k * (2 * c + 1) <> 0) by (intros k c; pose proof (Nat.pow_nonzero 2 k); nia).
  assert (Hu : forall k k' c c', 2 ^ k * (2 * c + 1) = 2 ^ k' * (2 * c' + 1) -> k = k' /\ c = c').
  { induction k as [|k IH]; intros [|k'] c c'; cbn [Nat.pow]; intros H; [lia|lia|lia|]. destruct (IH k' c c') as [-> ->]; [lia|auto]. }
  induction pl as [|k pl IH]; intros [|k' pl']; cbn [cx_code]; intros H; auto.
  - now destruct (Hp k' (cx_code pl')).
  - now destruct (Hp k (cx_code pl)).
  - apply Hu in H as [-> H]. f_equal. auto.
Qed.
Lemma cx_own : own_storage cx_home.
Proof. intros a b H. unfold cx_home in H. apply cx_code_inj. lia. Qed.

(** Joining the string made of two elements of the input: the parse succeeds, and its result points to nothing. *)
Example C80_case : forall b, b = GccRun \/ b = GccConstant \/ b = MsvcRun -> exists n tr,
  let q := PMap (PSequence (PAllOf (codes "(")) [PAllOf (codes "(")]) (FApply (FUser 2)) in
  join_parse_c cx_converts cx_conv cx_home b (fun _ _ => false) (run sx n Parse q) in1 =
    Done (Res (Some (RVal (VSpan (Span (cx_home []) 0 2)))) (at1 2)) tr /\
  gone cx_home (Span (cx_home []) 0 2) /\
  elsewhere cx_conv cx_home (VUser 1 [VSpan (Span 1 0 1); VSpan (Span 1 1 1)]) /\
  joinable_c cx_converts (TUser 1) = true.
Proof.
  intros b Hb. exists 10. eexists. cbv zeta. split; [|split; [now exists []|split; [|reflexivity]]].
  - destruct Hb as [-> |[-> | ->]]; vm_compute; reflexivity.
  - intros pl s [H|[]]. discriminate.
Qed.

(** Two strings: undefined at run time with GCC and Clang, a failure in a constant expression. *)
Definition cx_two : val := VVec [VUser 1 [VSpan (Span 1 0 1)]; VUser 1 [VSpan (Span 1 1 1)]].
Example C80_two : let ty := TVec (TUser 1) in
  joinable_c cx_converts ty = true /\ has_ty ty cx_two /\ elsewhere cx_conv cx_home cx_two /\
  In ([1], Owns 1) (forms cx_conv [] cx_two) /\
  join_executor_c cx_converts cx_conv cx_home GccRun (fun _ _ => false) cx_two (at1 2) = UB /\
  join_executor_c cx_converts cx_conv cx_home GccConstant (fun _ _ => false) cx_two (at1 2) = Done None [].
Proof.
  cbv zeta. split; [reflexivity|]. split; [repeat constructor|]. split; [|split; [|split; vm_compute; reflexivity]].
  - intros pl s [H|[H|[]]]; discriminate.
  - right. now left.
Qed.

(** Views of the input next to each other and an empty string between them: joined. *)
Definition cx_views : val := VTup [VUser 0 [VSpan (Span 1 0 1)]; VOpt (Some (VUser 1 [])); VSpan (Span 1 1 2)].
Example C80_views_case : let ty := TTup [TUser 0; TOpt (TUser 1); TSpan] in
  joinable_c cx_converts ty = true /\ has_ty ty cx_views /\ elsewhere cx_conv cx_home cx_views /\
  (forall pl n, In (pl, Owns n) (forms cx_conv [] cx_views) -> n = 0) /\
  forall b, b = GccRun \/ b = GccConstant \/ b = MsvcRun ->
    join_executor_c cx_converts cx_conv cx_home b (fun _ _ => false) cx_views (at1 3) = Done (Some (Span 1 0 3)) [].
Proof.
  cbv zeta. split; [reflexivity|]. split; [repeat constructor|]. split; [|split].
  - intros pl s [H|[H|[H|[]]]]; try discriminate; injection H as _ <-; intros _ pl'; cbn; unfold cx_home; lia.
  - intros pl n [H|[H|[H|[]]]]; try discriminate. now injection H as _ <-.
  - intros b [-> |[-> | ->]]; vm_compute; reflexivity.
Qed.

(** A vector of characters is taken apart, so that join over it does not compile although it converts to a span. *)
Example C80_characters : joinable_c cx_converts (TVec (TUser 5)) = false /\ joinable_c cx_converts (TUser 1) = true /\
  join_executor_c cx_converts cx_conv cx_home GccRun (fun _ _ => false) (VVec [VUser 5 [VZ 97]]) (at1 2) = Ill.
Proof. auto. Qed.

Print Assumptions C80_run_time.
Print Assumptions C80_constant.
Print Assumptions C80_owner.
Print Assumptions C80_views.
Print Assumptions C80_parse.
Print Assumptions C80_conservative.
Print Assumptions C80_case.
