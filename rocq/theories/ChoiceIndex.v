(** * Which index a choice computes for each alternative (filter.h:66-130) *)
From Coq Require Import String List Arith ZArith Bool Lia.
From Verif Require Import Types Compound CompoundFacts.
Import ListNotations.

(** [t] occurs in [tys] for the first time at position [f]. *)
Definition first_at (tys : list ty) (t : ty) (f : nat) : Prop :=
  nth_error tys f = Some t /\ ~ In t (firstn f tys).

(** Before position [f] there is neither a void type nor a repetition. *)
Definition clean_prefix (tys : list ty) (f : nat) : Prop :=
  NoDup (firstn f tys) /\ ~ In TVoid (firstn f tys).

Definition done_of (tys : list ty) : list ty := distinct_from [] tys.
Definition seq_of (tys : list ty) : list index := dedup_from [] [] tys.

Lemma distinct_from_snoc ts : forall done t, distinct_from done (ts ++ [t]) =
  distinct_from done ts ++ (if is_void t || occurs (done ++ distinct_from done ts) t then [] else [t]).
Proof.
  induction ts as [|a ts IH]; intros done t; cbn.
  - rewrite app_nil_r. now destruct (is_void t || occurs done t).
  - destruct (is_void a || occurs done a) eqn:Ha; rewrite IH; auto. cbn. now rewrite <- app_assoc.
Qed.

Lemma done_snoc ts t : done_of (ts ++ [t]) = done_of ts ++ (if is_void t || occurs (done_of ts) t then [] else [t]).
Proof. exact (distinct_from_snoc ts [] t). Qed.

Lemma dedup_from_snoc ts : forall done is t, dedup_from done is (ts ++ [t]) =
  dedup_from done is ts ++
  [next_index (done ++ distinct_from done ts) (is ++ dedup_from done is ts)
     (List.length (done ++ distinct_from done ts)) t].
Proof.
  induction ts as [|a ts IH]; intros done is t.
  - cbn. now rewrite !app_nil_r.
  - cbn [app dedup_from distinct_from]. rewrite IH. cbv zeta. f_equal. f_equal.
    destruct (is_void a || occurs done a); rewrite <- ?app_assoc; reflexivity.
Qed.

Lemma seq_snoc ts t : seq_of (ts ++ [t]) =
  seq_of ts ++ [next_index (done_of ts) (seq_of ts) (List.length (done_of ts)) t].
Proof. exact (dedup_from_snoc ts [] [] t). Qed.

Lemma seq_length ts : List.length (seq_of ts) = List.length ts.
Proof. apply dedup_from_length. Qed.

Lemma done_in ts t : In t (done_of ts) <-> In t ts /\ t <> TVoid.
Proof. unfold done_of. rewrite distinct_from_in. cbn. tauto. Qed.

Lemma done_nodup ts : NoDup (done_of ts).
Proof. apply distinct_from_nodup. Qed.

Lemma done_le ts : List.length (done_of ts) <= List.length ts.
Proof.
  induction ts as [|t ts IH] using rev_ind; auto. rewrite done_snoc, !app_length. cbn.
  destruct (is_void t || occurs (done_of ts) t); cbn; lia.
Qed.

(** Earlier entries do not change when the list grows. *)
Lemma done_app ts ts' : exists l, done_of (ts ++ ts') = done_of ts ++ l.
Proof.
  induction ts' as [|t ts' IH] using rev_ind; [exists []; now rewrite !app_nil_r|].
  destruct IH as [l IH]. rewrite app_assoc, done_snoc, IH, <- app_assoc. eauto.
Qed.

Lemma seq_app ts ts' : exists l, seq_of (ts ++ ts') = seq_of ts ++ l.
Proof.
  induction ts' as [|t ts' IH] using rev_ind; [exists []; now rewrite !app_nil_r|].
  destruct IH as [l IH]. rewrite app_assoc, seq_snoc, IH, <- app_assoc. eauto.
Qed.

Lemma firstn_S {A} (l : list A) : forall j x, nth_error l j = Some x -> firstn (S j) l = firstn j l ++ [x].
Proof. induction l; intros [|j] x; cbn; try discriminate; [intros [= ->]; auto|]. intros H. f_equal. now apply IHl. Qed.

Lemma seq_nth tys j t : nth_error tys j = Some t ->
  nth_error (seq_of tys) j = Some (next_index (done_of (firstn j tys)) (seq_of (firstn j tys)) (List.length (done_of (firstn j tys))) t).
Proof.
  intros H. rewrite <- (firstn_skipn (S j) tys) at 1. destruct (seq_app (firstn (S j) tys) (skipn (S j) tys)) as [l ->].
  rewrite (firstn_S _ _ _ H), seq_snoc, <- app_assoc.
  assert (Hl : List.length (seq_of (firstn j tys)) = j).
  { rewrite seq_length, firstn_length. assert (j < List.length tys) by (apply nth_error_Some; congruence). lia. }
  rewrite nth_error_app2 by lia. rewrite Hl, Nat.sub_diag. reflexivity.
Qed.

(** The lockstep walk returns the entry of the index sequence at the type's rank. *)
Lemma index_lookup_rank done : forall is t d, nth_error done d = Some t -> NoDup done ->
  List.length done <= List.length is -> nth_error is d = Some (index_lookup done is t).
Proof.
  induction done as [|h done IH]; intros [|i is] t [|d] Hd Hn Hl; cbn in *; try discriminate; try lia.
  - injection Hd as ->. now rewrite ty_eqb_refl.
  - inversion Hn as [|? ? Hh Hn']; subst. assert (Hne : t <> h) by (intros ->; apply Hh; eapply nth_error_In; eauto).
    apply ty_eqb_neq in Hne. rewrite Hne. destruct done as [|h' done]; [destruct d; discriminate|].
    apply IH; auto. lia.
Qed.

Lemma nth_error_firstn_lt {A} (l : list A) n k : k < n -> nth_error (firstn n l) k = nth_error l k.
Proof. revert n k. induction l; intros [|n] [|k] H; cbn; auto; try lia. apply IHl. lia. Qed.

Lemma seq_firstn tys n j : j < n -> j < List.length tys -> nth_error (seq_of (firstn n tys)) j = nth_error (seq_of tys) j.
Proof.
  intros Hj Ht. rewrite <- (firstn_skipn n tys) at 2. destruct (seq_app (firstn n tys) (skipn n tys)) as [l ->].
  rewrite nth_error_app1; auto. rewrite seq_length, firstn_length. lia.
Qed.

(** First occurrences get the next rank; repetitions copy the entry at that rank. *)
Lemma seq_first tys j t : nth_error tys j = Some t -> t <> TVoid -> ~ In t (firstn j tys) ->
  nth_error (seq_of tys) j = Some (Some (List.length (done_of (firstn j tys)))).
Proof.
  intros H Ht Hf. rewrite (seq_nth _ _ _ H). unfold next_index. apply is_void_false in Ht as Hv. rewrite Hv. cbn.
  destruct (occurs (done_of (firstn j tys)) t) eqn:Ho; auto. apply occurs_spec, done_in in Ho. tauto.
Qed.

Lemma done_firstn tys n d t : nth_error (done_of (firstn n tys)) d = Some t -> nth_error (done_of tys) d = Some t.
Proof.
  intros H. rewrite <- (firstn_skipn n tys). destruct (done_app (firstn n tys) (skipn n tys)) as [l ->].
  rewrite nth_error_app1; auto. apply nth_error_Some. congruence.
Qed.

Lemma seq_repeat tys j t d : nth_error tys j = Some t -> t <> TVoid -> In t (firstn j tys) ->
  nth_error (done_of tys) d = Some t -> d < j /\ nth_error (seq_of tys) j = nth_error (seq_of tys) d.
Proof.
  intros H Ht Hr Hd. assert (Hj : j < List.length tys) by (apply nth_error_Some; congruence).
  assert (Hin : In t (done_of (firstn j tys))) by (apply done_in; auto).
  apply In_nth_error in Hin as [d' Hd'].
  assert (d' = d).
  { pose proof (done_firstn _ _ _ _ Hd') as Hd''. eapply NoDup_nth_error; [apply (done_nodup tys)| |congruence].
    apply nth_error_Some. congruence. }
  subst d'. pose proof (done_le (firstn j tys)) as Hle. rewrite firstn_length in Hle.
  assert (Hlt : d < List.length (done_of (firstn j tys))) by (apply nth_error_Some; congruence).
  split; [lia|]. rewrite (seq_nth _ _ _ H). unfold next_index. apply is_void_false in Ht as Hv. rewrite Hv. cbn.
  assert (Ho : occurs (done_of (firstn j tys)) t = true) by (apply occurs_spec, done_in; auto). rewrite Ho.
  rewrite <- (seq_firstn tys j d) by lia. symmetry. apply index_lookup_rank; auto using done_nodup.
  rewrite seq_length. apply done_le.
Qed.

Lemma done_full ts : List.length (done_of ts) = List.length ts -> NoDup ts /\ ~ In TVoid ts /\ done_of ts = ts.
Proof.
  induction ts as [|t ts IH] using rev_ind; intros H.
  - repeat split; auto. constructor.
  - rewrite done_snoc, !app_length in H. pose proof (done_le ts). cbn in H.
    destruct (is_void t || occurs (done_of ts) t) eqn:Hb; cbn in H; [lia|].
    apply orb_false_iff in Hb as [Hv Ho]. apply is_void_false in Hv.
    destruct IH as (H1 & H2 & H3); [lia|].
    assert (Hn : ~ In t ts) by (intros Hin; assert (occurs (done_of ts) t = true) by (apply occurs_spec, done_in; auto); congruence).
    rewrite done_snoc. apply is_void_false in Hv as Hv'. rewrite Hv', Ho. cbn. rewrite H3. split; [|split; auto].
    + rewrite <- (rev_involutive (ts ++ [t])). apply NoDup_rev.
      rewrite rev_app_distr. cbn. constructor; [now rewrite <- in_rev|now apply NoDup_rev].
    + rewrite in_app_iff. cbn. tauto.
Qed.

Lemma done_clean ts : NoDup ts -> ~ In TVoid ts -> done_of ts = ts.
Proof.
  intros Hn Hv.
  enough (forall done, (forall t, In t ts -> ~ In t done) -> distinct_from done ts = ts) by (apply (H []); auto).
  revert Hv. induction Hn as [|t ts Ht Hn IH]; intros Hv done Hd; cbn; auto.
  assert (is_void t = false) by (apply is_void_false; intros ->; apply Hv; now left). rewrite H. cbn.
  assert (Ho : occurs done t = false).
  { destruct (occurs done t) eqn:Ho; auto. apply occurs_spec in Ho. exfalso. apply (Hd t); auto. now left. }
  rewrite Ho. f_equal. apply IH; [intros Hx; apply Hv; now right|].
  intros x Hx Hin. apply in_app_iff in Hin as [Hin|[<-|[]]]; [|contradiction]. apply (Hd x); auto. now right.
Qed.

Lemma seq_bound tys : forall d k, nth_error (seq_of tys) d = Some (Some k) ->
  k <= d /\ (k = d -> exists t, nth_error tys d = Some t /\ clean_prefix tys d /\ first_at tys t d /\ nth_error (done_of tys) d = Some t).
Proof.
  intros d. induction d as [d IH] using lt_wf_ind. intros k H.
  assert (Hd : d < List.length tys) by (rewrite <- seq_length; apply nth_error_Some; congruence).
  destruct (nth_error tys d) as [t|] eqn:Ht; [|apply nth_error_None in Ht; lia].
  assert (Htv : t <> TVoid).
  { intros ->. rewrite (seq_nth _ _ _ Ht) in H. discriminate. }
  destruct (in_dec (fun a b => match ty_eqb a b as x return ty_eqb a b = x -> {a = b} + {a <> b} with
     | true => fun h => left (proj1 (ty_eqb_spec a b) h)
     | false => fun h => right (proj1 (ty_eqb_neq a b) h) end eq_refl) t (firstn d tys)) as [Hin|Hin].
  - assert (Hr : In t (done_of tys)) by (apply done_in; split; auto; eapply nth_error_In; eauto).
    apply In_nth_error in Hr as [d' Hd']. destruct (seq_repeat _ _ _ _ Ht Htv Hin Hd') as [Hlt Heq].
    rewrite Heq in H. destruct (IH d' Hlt k H) as [Hle _]. split; [lia|]. intros ->. lia.
  - rewrite (seq_first _ _ _ Ht Htv Hin) in H. injection H as <-.
    pose proof (done_le (firstn d tys)) as Hle. rewrite firstn_length in Hle. split; [lia|].
    intros Hk. exists t. split; auto. destruct (done_full (firstn d tys)) as (H1 & H2 & H3).
    { rewrite firstn_length. lia. }
    split; [split; auto|]. split; [split; auto|].
    apply (done_firstn tys (S d)). rewrite (firstn_S _ _ _ Ht), done_snoc.
    assert (Hb : is_void t || occurs (done_of (firstn d tys)) t = false).
    { apply orb_false_iff. split; [now apply is_void_false|]. destruct (occurs (done_of (firstn d tys)) t) eqn:Ho; auto.
      apply occurs_spec, done_in in Ho. tauto. }
    rewrite Hb, nth_error_app2 by lia. rewrite Hk, Nat.sub_diag. reflexivity.
Qed.

Lemma first_at_rank tys t f : first_at tys t f -> t <> TVoid ->
  nth_error (done_of tys) (List.length (done_of (firstn f tys))) = Some t.
Proof.
  intros [Ht Hf] Htv. apply (done_firstn tys (S f)). rewrite (firstn_S _ _ _ Ht), done_snoc.
  assert (Hb : is_void t || occurs (done_of (firstn f tys)) t = false).
  { apply orb_false_iff. split; [now apply is_void_false|]. destruct (occurs (done_of (firstn f tys)) t) eqn:Ho; auto.
    apply occurs_spec, done_in in Ho. tauto. }
  rewrite Hb, nth_error_app2, Nat.sub_diag by lia. reflexivity.
Qed.

Lemma first_at_exists tys j t : nth_error tys j = Some t -> exists f, f <= j /\ first_at tys t f.
Proof.
  revert tys t. induction j as [j IH] using lt_wf_ind. intros tys t H.
  destruct (in_dec (fun a b => match ty_eqb a b as x return ty_eqb a b = x -> {a = b} + {a <> b} with
     | true => fun h => left (proj1 (ty_eqb_spec a b) h)
     | false => fun h => right (proj1 (ty_eqb_neq a b) h) end eq_refl) t (firstn j tys)) as [Hin|Hin].
  - apply In_nth_error in Hin as [j' Hj']. assert (Hlt : j' < List.length (firstn j tys)) by (apply nth_error_Some; congruence).
    rewrite firstn_length in Hlt. rewrite nth_error_firstn_lt in Hj' by lia.
    destruct (IH j' ltac:(lia) _ _ Hj') as (f & Hf & H1). exists f. split; auto. lia.
  - exists j. split; auto. split; auto.
Qed.

Lemma first_at_le tys t f j : first_at tys t f -> nth_error tys j = Some t -> f <= j.
Proof.
  intros [H1 H2] Hj. destruct (Nat.lt_ge_cases j f) as [Hlt|]; auto. exfalso. apply H2.
  rewrite <- (nth_error_firstn_lt tys f j Hlt) in Hj. eapply nth_error_In; eauto.
Qed.

Lemma first_at_in tys t f j : first_at tys t f -> f < j -> j <= List.length tys -> In t (firstn j tys).
Proof.
  intros [H1 H2] Hf Hj. rewrite <- (nth_error_firstn_lt tys j f Hf) in H1. eapply nth_error_In; eauto.
Qed.

(** The index computed for the [j]-th alternative is the rank of its type among the distinct
    types exactly if the type is new there, or its first occurrence has neither a void nor a
    repeated type before it. *)
Theorem index_exact tys j t f r : nth_error tys j = Some t -> t <> TVoid -> first_at tys t f ->
  nth_error (done_of tys) r = Some t ->
  (nth_error (seq_of tys) j = Some (Some r) <-> j = f \/ clean_prefix tys f).
Proof.
  intros Hj Htv Hf Hr. pose proof (first_at_rank _ _ _ Hf Htv) as Hrank.
  assert (Hrk : r = List.length (done_of (firstn f tys))).
  { eapply NoDup_nth_error; [apply (done_nodup tys)| |congruence]. apply nth_error_Some. congruence. }
  pose proof (first_at_le _ _ _ _ Hf Hj) as Hle.
  assert (Hlj : j < List.length tys) by (apply nth_error_Some; congruence).
  destruct (Nat.eq_dec j f) as [->|Hne].
  - split; auto. intros _. destruct Hf as [_ Hf]. rewrite (seq_first _ _ _ Hj Htv Hf). now rewrite Hrk.
  - pose proof (first_at_in _ _ _ j Hf ltac:(lia) ltac:(lia)) as Hin.
    destruct (seq_repeat _ _ _ _ Hj Htv Hin Hr) as [Hlt Heq]. rewrite Heq. split.
    + intros H. right. destruct (seq_bound _ _ _ H) as [_ HH]. destruct (HH eq_refl) as (t' & Ht' & Hc & Hf' & Hd').
      assert (t' = t) by congruence. subst t'. assert (r = f).
      { pose proof (first_at_le _ _ _ _ Hf Ht'). pose proof (first_at_le _ _ _ _ Hf' (proj1 Hf)). lia. }
      rewrite <- H0. exact Hc.
    + intros [?|[Hn Hv]]; [contradiction|].
      assert (Hrf : List.length (done_of (firstn f tys)) = f) by (rewrite (done_clean _ Hn Hv), firstn_length; lia).
      destruct Hf as [Hf1 Hf2]. pose proof (seq_first _ _ _ Hf1 Htv Hf2) as Hs. rewrite Hrf in Hs. rewrite Hrk, Hrf. exact Hs.
Qed.

(** In particular an alternative of non-void type is parsed (and not merely looked at). *)
Corollary index_some tys j t f : nth_error tys j = Some t -> t <> TVoid -> first_at tys t f ->
  j = f \/ clean_prefix tys f -> exists r, nth_error (done_of tys) r = Some t /\ nth_error (seq_of tys) j = Some (Some r).
Proof.
  intros Hj Ht Hf Hc. pose proof (first_at_rank _ _ _ Hf Ht) as Hr. eexists. split; [exact Hr|].
  eapply index_exact; eauto.
Qed.
