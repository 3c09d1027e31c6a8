(** * Facts about types and the compile-time index computation *)
From Coq Require Import List Arith ZArith Bool Lia.
From Verif Require Import Types Compound.
Import ListNotations.

Section TyInd.
Variable P : ty -> Prop.
Hypothesis Hvoid : P TVoid.
Hypothesis Hspan : P TSpan.
Hypothesis Hvec : forall t, P t -> P (TVec t).
Hypothesis Harr : forall t n, P t -> P (TArr t n).
Hypothesis Hopt : forall t, P t -> P (TOpt t).
Hypothesis Htup : forall ts, Forall P ts -> P (TTup ts).
Hypothesis Hvar : forall ts, Forall P ts -> P (TVar ts).
Hypothesis Hpair : forall a b, P a -> P b -> P (TPair a b).
Hypothesis Huser : forall n, P (TUser n).
Fixpoint ty_ind' (t : ty) : P t :=
  let fl := fix go (l : list ty) : Forall P l :=
    match l with [] => Forall_nil _ | x :: l' => Forall_cons x (ty_ind' x) (go l') end in
  match t with
  | TVoid => Hvoid | TSpan => Hspan
  | TVec t => Hvec t (ty_ind' t)
  | TArr t n => Harr t n (ty_ind' t)
  | TOpt t => Hopt t (ty_ind' t)
  | TTup ts => Htup ts (fl ts)
  | TVar ts => Hvar ts (fl ts)
  | TPair a b => Hpair a b (ty_ind' a) (ty_ind' b)
  | TUser n => Huser n
  end.
End TyInd.

Section ValInd.
Variable P : val -> Prop.
Hypothesis Hspan : forall s, P (VSpan s).
Hypothesis Hvec : forall l, Forall P l -> P (VVec l).
Hypothesis Harr : forall l, Forall P l -> P (VArr l).
Hypothesis Hnone : P (VOpt None).
Hypothesis Hsome : forall v, P v -> P (VOpt (Some v)).
Hypothesis Htup : forall l, Forall P l -> P (VTup l).
Hypothesis Hvar : forall i v, P v -> P (VVar i v).
Hypothesis Hpair : forall a b, P a -> P b -> P (VPair a b).
Hypothesis Huser : forall n l, Forall P l -> P (VUser n l).
Hypothesis HZ : forall z, P (VZ z).
Fixpoint val_ind' (v : val) : P v :=
  let fl := fix go (l : list val) : Forall P l :=
    match l with [] => Forall_nil _ | x :: l' => Forall_cons x (val_ind' x) (go l') end in
  match v with
  | VSpan s => Hspan s
  | VVec l => Hvec l (fl l)
  | VArr l => Harr l (fl l)
  | VOpt None => Hnone
  | VOpt (Some v) => Hsome v (val_ind' v)
  | VTup l => Htup l (fl l)
  | VVar i v => Hvar i v (val_ind' v)
  | VPair a b => Hpair a b (val_ind' a) (val_ind' b)
  | VUser n l => Huser n l (fl l)
  | VZ z => HZ z
  end.
End ValInd.

Definition tys_eqb : list ty -> list ty -> bool :=
  fix go (xs ys : list ty) {struct xs} : bool :=
    match xs, ys with
    | [], [] => true
    | x :: xs', y :: ys' => ty_eqb x y && go xs' ys'
    | _, _ => false
    end.

Lemma tys_eqb_spec xs : Forall (fun a => forall b, ty_eqb a b = true <-> a = b) xs ->
  forall ys, tys_eqb xs ys = true <-> xs = ys.
Proof.
  induction 1 as [|x xs Hx _ IH]; intros [|y ys]; cbn; split; intros H; try discriminate; auto.
  - apply andb_true_iff in H as [H1 H2]. apply Hx in H1. apply IH in H2. congruence.
  - injection H as -> ->. apply andb_true_iff; split; [now apply Hx|now apply IH].
Qed.

Lemma ty_eqb_spec a : forall b, ty_eqb a b = true <-> a = b.
Proof.
  induction a using ty_ind'; intros [];
    try solve [cbn; split; intros; (discriminate || reflexivity || auto)]; cbn; fold tys_eqb.
  - rewrite IHa. split; intros; congruence.
  - rewrite andb_true_iff, IHa, Nat.eqb_eq. split; [intros []|intros [=]]; subst; auto.
  - rewrite IHa. split; intros; congruence.
  - rewrite (tys_eqb_spec _ H). split; intros; congruence.
  - rewrite (tys_eqb_spec _ H). split; intros; congruence.
  - rewrite andb_true_iff, IHa1, IHa2. split; [intros []|intros [=]]; subst; auto.
  - rewrite Nat.eqb_eq. split; intros; congruence.
Qed.

Lemma ty_eqb_refl a : ty_eqb a a = true.
Proof. now apply ty_eqb_spec. Qed.

Lemma ty_eqb_neq a b : ty_eqb a b = false <-> a <> b.
Proof.
  destruct (ty_eqb a b) eqn:H; split; intros; try discriminate; auto.
  - apply ty_eqb_spec in H. contradiction.
  - intros ->. rewrite ty_eqb_refl in H. discriminate.
Qed.

Lemma is_void_spec t : is_void t = true <-> t = TVoid.
Proof. destruct t; cbn; split; intros; congruence. Qed.

Lemma is_void_false t : is_void t = false <-> t <> TVoid.
Proof. destruct t; cbn; split; intros; congruence. Qed.

Lemma occurs_spec done t : occurs done t = true <-> In t done.
Proof.
  unfold occurs. rewrite existsb_exists. split.
  - intros (x & Hx & He). apply ty_eqb_spec in He. now subst.
  - intros H. exists t. split; auto. apply ty_eqb_refl.
Qed.

Lemma all_some_spec {A} (l : list (option A)) r : all_some l = Some r <-> l = map Some r.
Proof.
  revert r. induction l as [|[a|] l IH]; intros r; cbn.
  - split; [intros [= <-]|]; auto. destruct r; auto; discriminate.
  - destruct (all_some l) as [r'|].
    + split.
      * intros [= <-]. cbn. f_equal. now apply IH.
      * destruct r; [discriminate|]. cbn. intros [= -> H]. apply IH in H. congruence.
    + split; [discriminate|]. destruct r; [discriminate|]. cbn. intros [= -> H].
      apply IH in H. discriminate.
  - split; [discriminate|]. destruct r; discriminate.
Qed.

(** ** filter_out_void *)

Fixpoint seq_from (next : nat) (ts : list ty) : list index :=
  match ts with
  | [] => []
  | t :: ts' => if is_void t then None :: seq_from next ts' else Some next :: seq_from (S next) ts'
  end.

Definition nonvoid (ts : list ty) : list ty := filter (fun t => negb (is_void t)) ts.

Lemma filter_with_index_spec ts : forall done is next,
  filter_with_index done is next ts = (done ++ nonvoid ts, is ++ seq_from next ts).
Proof.
  induction ts as [|t ts IH]; intros; cbn.
  - now rewrite !app_nil_r.
  - destruct (is_void t); cbn; rewrite IH, <- ?app_assoc; reflexivity.
Qed.

Lemma filter_out_void_spec ts : filter_out_void ts = (nonvoid ts, seq_from 0 ts).
Proof. unfold filter_out_void. now rewrite filter_with_index_spec. Qed.

Lemma seq_from_length ts : forall n, length (seq_from n ts) = length ts.
Proof. induction ts as [|t ts IH]; intros; cbn; auto. destruct (is_void t); cbn; auto. Qed.

(** ** filter_out_void_deduplicate *)

(** The distinct non-void types in order of first occurrence, after those in [done]. *)
Fixpoint distinct_from (done : list ty) (ts : list ty) : list ty :=
  match ts with
  | [] => []
  | t :: ts' =>
      if is_void t || occurs done t then distinct_from done ts'
      else t :: distinct_from (done ++ [t]) ts'
  end.

(** The indices emitted for [ts], the state being [done], [is] and [next = length done]. *)
Fixpoint dedup_from (done : list ty) (is : list index) (ts : list ty) : list index :=
  match ts with
  | [] => []
  | t :: ts' =>
      let i := next_index done is (length done) t in
      i :: dedup_from (if is_void t || occurs done t then done else done ++ [t]) (is ++ [i]) ts'
  end.

Lemma dedup_spec ts : forall done is,
  filter_deduplicate_with_index done is (length done) ts
  = (done ++ distinct_from done ts, is ++ dedup_from done is ts).
Proof.
  induction ts as [|t ts IH]; intros; cbn.
  - now rewrite !app_nil_r.
  - destruct (is_void t) eqn:Hv; cbn.
    + rewrite IH, <- app_assoc. reflexivity.
    + destruct (occurs done t) eqn:Ho; cbn.
      * rewrite IH, <- app_assoc. reflexivity.
      * replace (S (length done)) with (length (done ++ [t])) by (rewrite app_length; cbn; lia).
        rewrite IH, <- !app_assoc. reflexivity.
Qed.

Lemma filter_out_void_deduplicate_spec ts :
  filter_out_void_deduplicate ts = (distinct_from [] ts, dedup_from [] [] ts).
Proof. exact (dedup_spec ts [] []). Qed.

Lemma dedup_from_length ts : forall done is, length (dedup_from done is ts) = length ts.
Proof. induction ts; intros; cbn; auto. Qed.

Lemma distinct_from_in ts : forall done t,
  In t (distinct_from done ts) <-> In t ts /\ t <> TVoid /\ ~ In t done.
Proof.
  induction ts as [|a ts IH]; intros done t; cbn; [tauto|].
  destruct (is_void a) eqn:Hv; cbn.
  - rewrite IH. apply is_void_spec in Hv. subst. split.
    + tauto.
    + intros ([<-|H] & H1 & H2); tauto.
  - apply is_void_false in Hv. destruct (occurs done a) eqn:Ho.
    + apply occurs_spec in Ho. rewrite IH. split; [tauto|].
      intros ([<-|H] & H1 & H2); tauto.
    + assert (~ In a done) by (intros H; apply occurs_spec in H; congruence).
      cbn. rewrite IH, in_app_iff. cbn. split.
      * intros [<-|H1]; [auto|]. intuition.
      * intros ([<-|H1] & H2 & H3); [auto|].
        destruct (ty_eqb a t) eqn:He; [apply ty_eqb_spec in He; auto|].
        apply ty_eqb_neq in He. right. intuition.
Qed.

Lemma distinct_from_nodup ts : forall done, NoDup (distinct_from done ts).
Proof.
  induction ts as [|a ts IH]; intros done; cbn; [constructor|].
  destruct (is_void a || occurs done a); auto.
  constructor; auto. rewrite distinct_from_in, in_app_iff. cbn. tauto.
Qed.

Lemma dedup_from_void ts : forall done is j,
  nth_error ts j = Some TVoid -> nth_error (dedup_from done is ts) j = Some None.
Proof.
  induction ts as [|a ts IH]; intros done is [|j]; cbn; try discriminate; auto.
  intros [= ->]. reflexivity.
Qed.

Lemma dedup_from_some_nonvoid ts done is j k t :
  nth_error (dedup_from done is ts) j = Some (Some k) -> nth_error ts j = Some t -> t <> TVoid.
Proof.
  intros H Ht ->. apply (dedup_from_void _ done is) in Ht. congruence.
Qed.

Lemma emplace_ok_spec done tys seq : emplace_ok done tys seq = true <->
  forall j t k, nth_error tys j = Some t -> nth_error seq j = Some (Some k) ->
    nth_error done k = Some t.
Proof.
  revert seq. induction tys as [|a tys IH]; intros [|i seq]; cbn.
  - split; auto. intros _ [|] ? ? ?; discriminate.
  - split; auto. intros _ [|] ? ? ?; discriminate.
  - split; auto. intros _ [|] ? ? ? ?; discriminate.
  - rewrite andb_true_iff, IH. split.
    + intros [H1 H2] [|j] t k; cbn.
      * intros [= ->] [= ->]. destruct (nth_error done k); [|discriminate].
        apply ty_eqb_spec in H1. congruence.
      * apply H2.
    + intros H. split.
      * destruct i as [k|]; auto. rewrite (H 0 a k eq_refl eq_refl). apply ty_eqb_refl.
      * intros j t k Hj Hk. exact (H (S j) t k Hj Hk).
Qed.
