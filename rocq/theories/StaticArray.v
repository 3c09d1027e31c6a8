(** * static_array and the compile-time set operations *)
From Coq Require Import List Arith Bool Permutation Lia.
Import ListNotations.

(** The comparisons of the element type that the code uses: [<] ([std::ranges::sort],
    set_operations.h:60, :62), [<=] (static_array.h:100), [==] ([std::ranges::unique],
    template argument identity). *)
Record order (T : Type) : Type := Order {
  ltb : T -> T -> bool;
  leb : T -> T -> bool;
  eqb : T -> T -> bool
}.
Arguments ltb {T}. Arguments leb {T}. Arguments eqb {T}.

(** They are those of one strict total order. *)
Record lawful {T} (O : order T) : Prop := {
  lt_irrefl : forall a, ltb O a a = false;
  lt_trans : forall a b c, ltb O a b = true -> ltb O b c = true -> ltb O a c = true;
  lt_total : forall a b, ltb O a b = false -> ltb O b a = false -> a = b;
  le_lt : forall a b, leb O a b = negb (ltb O b a);
  eq_spec : forall a b, eqb O a b = true <-> a = b
}.

Section Ops.
Context {T : Type} (O : order T).

(** static_array.h:91-103 [is_sorted_and_uniqued]; the loop over i is the recursion *)
Fixpoint is_sorted_and_uniqued (l : list T) : bool :=
  match l with
  | a :: ((b :: _) as l') => if leb O b a then false else is_sorted_and_uniqued l'
  | _ => true
  end.

(** [std::ranges::unique], static_array.h:121: drops each element equal to the last kept one *)
Fixpoint unique_from (a : T) (l : list T) : list T :=
  match l with
  | [] => [a]
  | b :: l' => if eqb O a b then unique_from a l' else a :: unique_from b l'
  end.
Definition unique (l : list T) : list T := match l with [] => [] | a :: l' => unique_from a l' end.

(** What [std::ranges::sort] guarantees (its algorithm is not modelled). *)
Definition sorts (sort : list T -> list T) : Prop := forall l,
  Permutation l (sort l) /\ forall l1 a l2 b l3, sort l = l1 ++ a :: l2 ++ b :: l3 -> ltb O b a = false.

(** static_array.h:105-131 [sort_and_unique] *)
Definition sort_and_unique (sort : list T -> list T) (str : list T) : list T :=
  if is_sorted_and_uniqued str then str else unique (sort str).

(** set_operations.h:32-38 *)
Inductive set_operation_type : Type := set_union | set_intersection | set_difference_left | set_difference_right.

(** set_operations.h:57, :63 and the like: the conditions passed to [do_if] *)
Definition keep_left (op : set_operation_type) : bool :=
  match op with set_union | set_difference_left => true | _ => false end.
Definition keep_right (op : set_operation_type) : bool :=
  match op with set_union | set_difference_right => true | _ => false end.
Definition keep_both (op : set_operation_type) : bool :=
  match op with set_union | set_intersection => true | _ => false end.

(** set_operations.h:48-52 [do_if] *)
Definition do_if (a : T) (cond : bool) (rest : list T) : list T := if cond then a :: rest else rest.

(** set_operations.h:40-75 [set_operation::operator()]: the while loop over the two
    iterators; the output sequence is the result (the first pass of
    [sets_merged_with] :81-86 only counts it) *)
Fixpoint set_operation (op : set_operation_type) (lhs rhs : list T) {struct lhs} : list T :=
  let fix inner (rhs : list T) {struct rhs} : list T :=
    match lhs, rhs with
    | [], [] => []
    | [], b :: rhs' => do_if b (keep_right op) (inner rhs')
    | a :: lhs', [] => do_if a (keep_left op) (set_operation op lhs' [])
    | a :: lhs', b :: rhs' =>
        if ltb O a b then do_if a (keep_left op) (set_operation op lhs' rhs)
        else if ltb O b a then do_if b (keep_right op) (inner rhs')
        else do_if a (keep_both op) (set_operation op lhs' rhs')
    end
  in inner rhs.

(** ** Specification: strictly increasing lists as sets *)
Definition increasing (l : list T) : Prop :=
  forall l1 a l2 b l3, l = l1 ++ a :: l2 ++ b :: l3 -> ltb O a b = true.

Hypothesis HO : lawful O.

(** [a] is below everything in [l]. *)
Definition below (a : T) (l : list T) : Prop := forall b, In b l -> ltb O a b = true.

Lemma increasing_cons a l : increasing (a :: l) <-> below a l /\ increasing l.
Proof.
  split.
  - intros H. split.
    + intros b Hb. apply in_split in Hb as (l2 & l3 & ->). apply (H [] a l2 b l3). reflexivity.
    + intros l1 x l2 y l3 ->. apply (H (a :: l1) x l2 y l3). reflexivity.
  - intros [Hb Hi] l1 x l2 y l3 He. destruct l1 as [|z l1]; cbn in He; injection He as -> ->.
    + apply Hb. apply in_or_app. right. now left.
    + eapply Hi. reflexivity.
Qed.

Lemma increasing_nil : increasing [].
Proof. intros [|] ? ? ? ? H; discriminate. Qed.

Lemma below_trans a b l : ltb O a b = true -> below b l -> below a l.
Proof. intros H Hb c Hc. eapply lt_trans; eauto. Qed.

Lemma sorted_spec l : is_sorted_and_uniqued l = true <-> increasing l.
Proof.
  induction l as [|a l IH]; [split; auto using increasing_nil|].
  rewrite increasing_cons. destruct l as [|b l].
  - cbn. split; [|auto]. intros _. split; [intros ? []|apply increasing_nil].
  - cbn [is_sorted_and_uniqued]. rewrite le_lt by auto. destruct (ltb O a b) eqn:Hab; cbn [negb].
    + rewrite IH. split; [|tauto]. intros Hi. split; auto. apply increasing_cons in Hi as [Hb _].
      intros c [<-|Hc]; auto. eapply lt_trans; eauto.
    + split; [discriminate|]. intros [Hb _]. rewrite (Hb b) in Hab by now left. discriminate.
Qed.

(** *** sort and unique *)

(** Non-decreasing *)
Definition nondecreasing (l : list T) : Prop := forall l1 a l2 b l3, l = l1 ++ a :: l2 ++ b :: l3 -> ltb O b a = false.

Lemma nondecreasing_cons a l : nondecreasing (a :: l) <-> (forall b, In b l -> ltb O b a = false) /\ nondecreasing l.
Proof.
  split.
  - intros H. split.
    + intros b Hb. apply in_split in Hb as (l2 & l3 & ->). apply (H [] a l2 b l3). reflexivity.
    + intros l1 x l2 y l3 ->. apply (H (a :: l1) x l2 y l3). reflexivity.
  - intros [Hb Hi] l1 x l2 y l3 He. destruct l1 as [|z l1]; cbn in He; injection He as -> ->.
    + apply Hb. apply in_or_app. right. now left.
    + eapply Hi. reflexivity.
Qed.

Lemma unique_from_in a l : forall b, In b (unique_from a l) <-> In b (a :: l).
Proof.
  revert a. induction l as [|c l IH]; intros a b; cbn [unique_from]; [tauto|].
  destruct (eqb O a c) eqn:Hac.
  - apply (eq_spec O HO) in Hac. subst c. rewrite IH. cbn. tauto.
  - cbn [In]. rewrite IH. cbn. tauto.
Qed.

Lemma unique_from_increasing a l : nondecreasing (a :: l) -> increasing (unique_from a l).
Proof.
  revert a. induction l as [|c l IH]; intros a H; cbn [unique_from].
  - apply increasing_cons. split; [intros ? []|apply increasing_nil].
  - apply nondecreasing_cons in H as [Ha H]. destruct (eqb O a c) eqn:Hac.
    + apply (eq_spec O HO) in Hac. subst c. now apply IH.
    + apply increasing_cons. split; [|now apply IH].
      assert (Hlt : ltb O a c = true).
      { destruct (ltb O a c) eqn:E; auto. rewrite (lt_total O HO a c E) in Hac by (apply Ha; now left).
        rewrite (proj2 (eq_spec O HO c c) eq_refl) in Hac. discriminate. }
      intros b Hb. apply unique_from_in in Hb as [<-|Hb]; auto.
      apply nondecreasing_cons in H as [Hc _]. specialize (Hc b Hb).
      destruct (ltb O c b) eqn:E; [eapply lt_trans; eauto|].
      now rewrite <- (lt_total O HO c b E Hc).
Qed.

(** Strictly increasing lists with the same elements are equal. *)
Lemma increasing_ext l : forall l', increasing l -> increasing l' -> (forall a, In a l <-> In a l') -> l = l'.
Proof.
  assert (Hhead : forall a l b l', below a l -> below b l' -> In a (b :: l') -> In b (a :: l) -> a = b).
  { intros a l0 b l' Ha Hb [Hin|Hin] Hin'; [now symmetry|]. destruct Hin' as [Hin'|Hin']; [exact Hin'|].
    pose proof (lt_trans O HO a b a (Ha _ Hin') (Hb _ Hin)) as H. rewrite (lt_irrefl O HO) in H. discriminate. }
  induction l as [|a l IH]; intros [|b l'] Hl Hl' H; auto.
  - destruct (proj2 (H b)). now left.
  - destruct (proj1 (H a)). now left.
  - apply increasing_cons in Hl as [Ha Hl]. apply increasing_cons in Hl' as [Hb Hl'].
    assert (a = b) as -> by (apply (Hhead a l b l'); auto; [apply H; now left|apply <- H; now left]).
    f_equal. apply IH; auto. intros c. split; intros Hc.
    + destruct (proj1 (H c)) as [<-|Hc']; [now right| |auto].
      specialize (Ha _ Hc). rewrite (lt_irrefl O HO) in Ha. discriminate.
    + destruct (proj2 (H c)) as [<-|Hc']; [now right| |auto].
      specialize (Hb _ Hc). rewrite (lt_irrefl O HO) in Hb. discriminate.
Qed.

(** *** set operations *)
Lemma set_operation_nil op rhs : set_operation op [] rhs = if keep_right op then rhs else [].
Proof.
  induction rhs as [|b rhs IH]; cbn in *; [now destruct (keep_right op)|]. rewrite IH. unfold do_if. now destruct (keep_right op).
Qed.

Lemma set_operation_cons_nil op a lhs : set_operation op (a :: lhs) [] = do_if a (keep_left op) (set_operation op lhs []).
Proof. reflexivity. Qed.

Lemma set_operation_cons op a lhs b rhs : set_operation op (a :: lhs) (b :: rhs) =
  if ltb O a b then do_if a (keep_left op) (set_operation op lhs (b :: rhs))
  else if ltb O b a then do_if b (keep_right op) (set_operation op (a :: lhs) rhs)
  else do_if a (keep_both op) (set_operation op lhs rhs).
Proof. reflexivity. Qed.

(** Membership in the result of the operation. *)
Definition in_result (op : set_operation_type) (L R : Prop) : Prop :=
  match op with
  | set_union => L \/ R
  | set_intersection => L /\ R
  | set_difference_left => L /\ ~ R
  | set_difference_right => R /\ ~ L
  end.

Lemma do_if_in a c l x : In x (do_if a c l) <-> (c = true /\ x = a) \/ In x l.
Proof. unfold do_if. destruct c; cbn; split; intros; intuition congruence. Qed.

Lemma do_if_increasing a c l : below a l -> increasing l -> increasing (do_if a c l).
Proof. intros. unfold do_if. destruct c; auto. now apply increasing_cons. Qed.

Lemma below_not_in a l : below a l -> ~ In a l.
Proof. intros H Hin. specialize (H a Hin). rewrite (lt_irrefl O HO) in H. discriminate. Qed.

Lemma set_operation_spec op lhs : forall rhs, increasing lhs -> increasing rhs ->
  increasing (set_operation op lhs rhs) /\
  forall x, In x (set_operation op lhs rhs) <-> in_result op (In x lhs) (In x rhs).
Proof.
  induction lhs as [|a lhs IHl].
  - intros rhs _ Hr. rewrite set_operation_nil. split; [destruct (keep_right op); auto using increasing_nil|].
    intros x. destruct op; cbn; tauto.
  - induction rhs as [|b rhs IHr]; intros Hl Hr; pose proof Hl as Hl0; apply increasing_cons in Hl as [Ha Hl].
    + rewrite set_operation_cons_nil. destruct (IHl [] Hl Hr) as [Hi Hin]. split.
      * apply do_if_increasing; auto. intros x Hx. apply Hin in Hx. apply Ha. destruct op; cbn in Hx; tauto.
      * intros x. rewrite do_if_in, Hin. destruct op; cbn; split; intros H; intuition (subst; auto; try discriminate).
    + pose proof Hr as Hr0. apply increasing_cons in Hr as [Hb Hr]. rewrite set_operation_cons.
      destruct (ltb O a b) eqn:Hab; [|destruct (ltb O b a) eqn:Hba].
      * destruct (IHl _ Hl Hr0) as [Hi Hin]. pose proof (below_trans _ _ _ Hab Hb) as Hab'.
        assert (Har : ~ In a (b :: rhs)).
        { apply below_not_in. intros x [<-|Hx]; auto. }
        split.
        -- apply do_if_increasing; auto. intros x Hx. apply Hin in Hx.
           destruct op; cbn [in_result In] in Hx; intuition (subst; auto).
        -- intros x. rewrite do_if_in, Hin.
           destruct op; cbn [in_result keep_left]; (split; [intros [[? ->]|?]|]; [| |intros H]); try discriminate; cbn [In] in *;
             intuition (subst; auto; try tauto).
      * destruct (IHr Hl0 Hr) as [Hi Hin]. pose proof (below_trans _ _ _ Hba Ha) as Hba'.
        assert (Hbl : ~ In b (a :: lhs)).
        { apply below_not_in. intros x [<-|Hx]; auto. }
        split.
        -- apply do_if_increasing; auto. intros x Hx. apply Hin in Hx.
           destruct op; cbn [in_result In] in Hx; intuition (subst; auto).
        -- intros x. rewrite do_if_in, Hin.
           destruct op; cbn [in_result keep_right]; (split; [intros [[? ->]|?]|]; [| |intros H]); try discriminate; cbn [In] in *;
             intuition (subst; auto; try tauto).
      * assert (a = b) as <- by (apply (lt_total O HO); auto). destruct (IHl _ Hl Hr) as [Hi Hin].
        pose proof (below_not_in _ _ Ha) as Ha'. pose proof (below_not_in _ _ Hb) as Hb'.
        split.
        -- apply do_if_increasing; auto. intros x Hx. apply Hin in Hx.
           destruct op; cbn [in_result] in Hx; intuition auto.
        -- intros x. rewrite do_if_in, Hin.
           destruct op; cbn [in_result keep_both]; (split; [intros [[? ->]|?]|]; [| |intros H]); try discriminate; cbn [In] in *;
             intuition (subst; auto; try tauto).
Qed.

Lemma sort_and_unique_spec sort l : sorts sort ->
  increasing (sort_and_unique sort l) /\ forall a, In a (sort_and_unique sort l) <-> In a l.
Proof.
  intros Hs. unfold sort_and_unique. destruct (is_sorted_and_uniqued l) eqn:Hl.
  - apply sorted_spec in Hl. split; auto. tauto.
  - destruct (Hs l) as [Hp Hn]. fold (nondecreasing (sort l)) in Hn. unfold unique.
    assert (Hin : forall a, In a l <-> In a (sort l)).
    { intros a. split; intros H; [eapply Permutation_in; eauto|eapply Permutation_in; [apply Permutation_sym|]; eauto]. }
    destruct (sort l) as [|a l'].
    + split; [apply increasing_nil|]. intros b. symmetry. apply Hin.
    + split; [now apply unique_from_increasing|]. intros b. rewrite unique_from_in. symmetry. apply Hin.
Qed.
End Ops.

(** [sorts] is satisfiable: insertion sort. *)
Section Insertion.
Context {T : Type} (O : order T) (HO : lawful O).
Fixpoint insert (a : T) (l : list T) : list T :=
  match l with [] => [a] | b :: l' => if ltb O b a then b :: insert a l' else a :: l end.
Fixpoint isort (l : list T) : list T := match l with [] => [] | a :: l' => insert a (isort l') end.

Lemma insert_perm a l : Permutation (a :: l) (insert a l).
Proof.
  induction l as [|b l IH]; cbn; auto. destruct (ltb O b a); auto.
  eapply perm_trans; [apply perm_swap|]. now constructor.
Qed.

Lemma isort_sorts : sorts O isort.
Proof.
  intros l. induction l as [|a l [Hp Hn]]; cbn [isort].
  - split; auto. intros [|] ? ? ? ? H; discriminate.
  - split; [eapply perm_trans; [apply perm_skip, Hp|apply insert_perm]|].
    change (nondecreasing O (isort l)) in Hn. change (nondecreasing O (insert a (isort l))).
    clear Hp. induction (isort l) as [|b l' IH]; cbn [insert].
    + apply nondecreasing_cons. split; [intros ? []|intros [|] ? ? ? ? H; discriminate].
    + apply nondecreasing_cons in Hn as [Hb Hn]. destruct (ltb O b a) eqn:Hba.
      * apply nondecreasing_cons. split; [|auto]. intros c Hc.
        eapply Permutation_in in Hc; [|apply Permutation_sym, insert_perm]. destruct Hc as [<-|Hc]; auto.
        destruct (ltb O a b) eqn:E; auto. pose proof (lt_trans O HO _ _ _ E Hba) as H. rewrite (lt_irrefl O HO) in H. discriminate.
      * apply nondecreasing_cons. split; [|apply nondecreasing_cons; auto].
        intros c [<-|Hc]; auto. destruct (ltb O c a) eqn:E; auto.
        destruct (ltb O a b) eqn:E2.
        -- pose proof (lt_trans O HO _ _ _ E E2) as H. rewrite (Hb c Hc) in H. discriminate.
        -- rewrite (lt_total O HO a b E2 Hba) in E. rewrite (Hb c Hc) in E. discriminate.
Qed.
End Insertion.
