(** * join against a list-of-spans specification *)
From Coq Require Import List Arith ZArith Bool String Lia.
From Verif Require Import Types Compound Parser Outcome CompoundFacts Exec.
Import ListNotations.
Local Open Scope outcome_scope.

Definition nonempty (ls : list span) : list span := filter (fun s => negb (sp_len s =? 0)) ls.

(** [tiles b lo hi ls]: the spans of [ls], in order, exactly cover [lo..hi) of block [b]. *)
Inductive tiles (b : nat) : nat -> nat -> list span -> Prop :=
| tiles_nil lo : tiles b lo lo []
| tiles_cons lo n hi ls : tiles b (lo + n) hi ls -> tiles b lo hi (Span b lo n :: ls).

(** A value [try_join] has an overload for. *)
Inductive jval : val -> Prop :=
| jval_span s : jval (VSpan s)
| jval_vec l : Forall jval l -> jval (VVec l)
| jval_arr l : Forall jval l -> jval (VArr l)
| jval_none : jval (VOpt None)
| jval_some v : jval v -> jval (VOpt (Some v))
| jval_tup l : Forall jval l -> jval (VTup l).

(** [try_join] over a flat list of spans. *)
Fixpoint join_list (ls : list span) (j : option span) : outcome (bool * option span) :=
  match ls with
  | [] => ret (true, j)
  | s :: ls' => '(b, j') <- try_join_span s j ;;
                if b : bool then join_list ls' j' else ret (false, j')
  end.

Lemma bind_ret {A B} (a : A) (f : A -> outcome B) : bind (ret a) f = f a.
Proof. cbn. destruct (f a); reflexivity. Qed.

Lemma bind_assoc {A B C} (x : outcome A) (f : A -> outcome B) (g : B -> outcome C) :
  bind (bind x f) g = bind x (fun a => bind (f a) g).
Proof.
  destruct x as [a tr| | | |]; cbn; auto. destruct (f a) as [b tr'| | | |]; cbn; auto.
  destruct (g b); auto. now rewrite app_assoc.
Qed.

Lemma bind_ext {A B} (x : outcome A) (f g : A -> outcome B) :
  (forall a, f a = g a) -> bind x f = bind x g.
Proof. intros H. destruct x; cbn; auto. now rewrite H. Qed.

Lemma join_list_app l1 : forall l2 j, join_list (l1 ++ l2) j =
  ('(b, j') <- join_list l1 j ;; if b : bool then join_list l2 j' else ret (false, j')).
Proof.
  induction l1 as [|s l1 IH]; intros; cbn [join_list app].
  - now rewrite bind_ret.
  - rewrite bind_assoc. apply bind_ext. intros [[|] j']; [apply IH|]. now rewrite bind_ret.
Qed.

Definition try_join_many : list val -> option span -> outcome (bool * option span) :=
  fix go (l : list val) (joined : option span) {struct l} :=
    match l with
    | [] => ret (true, joined)
    | x :: l' => '(b, j) <- try_join x joined ;;
                 if b : bool then go l' j else ret (false, j)
    end.

Lemma try_join_spec v : jval v -> forall j, try_join v j = join_list (leaves v) j.
Proof.
  assert (HM : forall l, Forall (fun v => jval v -> forall j, try_join v j = join_list (leaves v) j) l ->
     Forall jval l -> forall j, try_join_many l j = join_list (flat_map leaves l) j).
  { clear v; induction 1 as [|v l H _ IH]; intros Hj j; cbn [try_join_many flat_map]; [reflexivity|].
    inversion Hj; subst. rewrite join_list_app, H; auto. apply bind_ext. intros [[|] j']; auto. }
  induction v using val_ind'; intros Hj j; inversion Hj; subst;
    cbn [try_join leaves]; fold try_join_many; auto.
  cbn. destruct (try_join_span s j) as [[[|] ?] tr| | | |]; cbn; now rewrite ?app_nil_r.
Qed.

(** Only joinable shapes are accepted. *)
Lemma try_join_not_jval v : forall j b j' tr, try_join v j = Done (b, j') tr -> b = true -> jval v.
Proof.
  assert (HM : forall l, Forall (fun v => forall j b j' tr, try_join v j = Done (b, j') tr -> b = true -> jval v) l ->
     forall j b j' tr, try_join_many l j = Done (b, j') tr -> b = true -> Forall jval l).
  { clear v; induction 1 as [|v l H _ IH]; intros j b j' tr; cbn [try_join_many]; [constructor|].
    destruct (try_join v j) as [[b1 j1] tr1| | | |] eqn:Hv; cbn; try discriminate.
    destruct b1; cbn; [|intros [= <- _ _]; discriminate].
    destruct (try_join_many l j1) as [[b2 j2] tr2| | | |] eqn:Hl; cbn; try discriminate.
    intros [= <- _ _] Hb. constructor; eauto. }
  induction v using val_ind'; cbn [try_join]; fold try_join_many; intros j b j' tr Hd Hb;
    try discriminate; constructor; eauto.
Qed.

(** ** Flat lists in one block *)

Lemma ltb_len_adj lo n off : (Z.of_nat n =? Z.of_nat off - Z.of_nat lo)%Z = (off =? lo + n).
Proof. destruct (Nat.eqb_spec off (lo + n)); [apply Z.eqb_eq|apply Z.eqb_neq]; lia. Qed.

Lemma join_list_some b ls : (forall s, In s ls -> sp_len s <> 0 -> sp_blk s = b) ->
  forall lo n,
  (exists hi, tiles b (lo + n) hi (nonempty ls) /\
     join_list ls (Some (Span b lo n)) = Done (true, Some (Span b lo (hi - lo))) []) \/
  ((forall hi, ~ tiles b (lo + n) hi (nonempty ls)) /\
     join_list ls (Some (Span b lo n)) = Done (false, None) []).
Proof.
  induction ls as [|[b' off len] ls IH]; intros Hb lo n; cbn [join_list nonempty filter sp_len].
  - left. exists (lo + n). split; [constructor|]. replace (lo + n - lo) with n by lia. reflexivity.
  - unfold try_join_span. cbn [sp_len sp_blk sp_off].
    destruct (len =? 0) eqn:Hlen; cbn [negb].
    + rewrite bind_ret. apply IH. intros s Hs. apply Hb. now right.
    + apply Nat.eqb_neq in Hlen. assert (b' = b) by (apply (Hb (Span b' off len)); cbn; auto). subst b'.
      rewrite Nat.eqb_refl. cbn [negb]. rewrite ltb_len_adj.
      destruct (Nat.eqb_spec off (lo + n)) as [->|Hne].
      * rewrite bind_ret. destruct (IH (fun s Hs => Hb s (or_intror Hs)) lo (n + len)) as [(hi & H1 & H2)|[H1 H2]].
        -- left. exists hi. split; [|exact H2]. constructor. now rewrite <- Nat.add_assoc.
        -- right. split; [|exact H2]. intros hi H. inversion H; subst. apply (H1 hi).
           now rewrite Nat.add_assoc.
      * rewrite bind_ret. right. split; [|reflexivity]. intros hi H. inversion H; subst. congruence.
Qed.

Lemma tiles_fun b lo hi ls : tiles b lo hi ls -> forall hi', tiles b lo hi' ls -> hi' = hi.
Proof. induction 1; intros hi' H'; inversion H'; subst; auto. Qed.

Lemma tiles_le b lo hi ls : tiles b lo hi ls -> lo <= hi.
Proof. induction 1; lia. Qed.

(** All three cases of [joined] after the traversal. *)
Lemma join_list_none b ls : (forall s, In s ls -> sp_len s <> 0 -> sp_blk s = b) ->
  (nonempty ls = [] /\ join_list ls None = Done (true, None) []) \/
  (exists lo hi, nonempty ls <> [] /\ tiles b lo hi (nonempty ls) /\
     join_list ls None = Done (true, Some (Span b lo (hi - lo))) []) \/
  (nonempty ls <> [] /\ (forall lo hi, ~ tiles b lo hi (nonempty ls)) /\
     join_list ls None = Done (false, None) []).
Proof.
  induction ls as [|[b' off len] ls IH]; intros Hb; cbn [join_list nonempty filter sp_len].
  - left. auto.
  - unfold try_join_span. cbn [sp_len sp_blk sp_off].
    destruct (len =? 0) eqn:Hlen; cbn [negb].
    + rewrite bind_ret. apply IH. intros s Hs. apply Hb. now right.
    + apply Nat.eqb_neq in Hlen. assert (b' = b) by (apply (Hb (Span b' off len)); cbn; auto). subst b'.
      rewrite bind_ret. right.
      destruct (join_list_some b ls (fun s Hs => Hb s (or_intror Hs)) off len) as [(hi & H1 & H2)|[H1 H2]].
      * left. exists off, hi. split; [discriminate|]. split; [now constructor|exact H2].
      * right. split; [discriminate|]. split; [|exact H2]. intros lo hi H. inversion H; subst.
        now apply (H1 hi).
Qed.

(** The executor, on joinable values whose non-empty leaves lie in one block. *)
Lemma join_executor_spec b x rem : jval x ->
  (forall s, In s (leaves x) -> sp_len s <> 0 -> sp_blk s = b) ->
  (nonempty (leaves x) = [] /\
     join_executor x rem = Done (Some (Span (sp_blk rem) (sp_off rem) 0)) []) \/
  (exists lo hi, nonempty (leaves x) <> [] /\ tiles b lo hi (nonempty (leaves x)) /\
     join_executor x rem = Done (Some (Span b lo (hi - lo))) []) \/
  (nonempty (leaves x) <> [] /\ (forall lo hi, ~ tiles b lo hi (nonempty (leaves x))) /\
     join_executor x rem = Done None []).
Proof.
  intros Hj Hb. unfold join_executor. rewrite (try_join_spec x Hj).
  destruct (join_list_none b _ Hb) as [[H1 ->]|[(lo & hi & H1 & H2 & ->)|(H1 & H2 & ->)]]; cbn.
  - left. auto.
  - right. left. exists lo, hi. auto.
  - right. right. auto.
Qed.

Lemma joinable_jval t v : joinable t = true -> has_ty t v -> jval v.
Proof.
  revert v. induction t using ty_ind'; intros v Hj Hv; cbn in Hj; try discriminate;
    destruct v; cbn [has_ty] in Hv; try contradiction.
  - constructor.
  - constructor. eapply Forall_impl; [|exact Hv]. auto.
  - constructor. destruct Hv as [_ Hv]. eapply Forall_impl; [|exact Hv]. auto.
  - destruct o; constructor; auto.
  - constructor. assert (Hj' : forallb joinable ts = true) by (destruct ts; [discriminate|exact Hj]).
    clear Hj. rename Hj' into Hj. revert l Hv. induction H as [|t ts Ht Hts IH]; intros [|v l] Hv; try contradiction; constructor.
    + cbn in Hj. apply andb_true_iff in Hj as [Hj _]. apply Ht; tauto.
    + cbn in Hj. apply andb_true_iff in Hj as [_ Hj]. apply IH; tauto.
Qed.

(** Exact success condition. *)
Lemma join_executor_some b x rem s : jval x ->
  (forall s, In s (leaves x) -> sp_len s <> 0 -> sp_blk s = b) ->
  join_executor x rem = Done (Some s) [] <->
  (nonempty (leaves x) = [] /\ s = Span (sp_blk rem) (sp_off rem) 0) \/
  (nonempty (leaves x) <> [] /\ exists lo hi,
     tiles b lo hi (nonempty (leaves x)) /\ s = Span b lo (hi - lo)).
Proof.
  intros Hj Hb. destruct (join_executor_spec b x rem Hj Hb) as [[H1 H]|[(lo & hi & H1 & H2 & H)|(H1 & H2 & H)]];
    rewrite H; split.
  - intros [= <-]. auto.
  - intros [[_ ->]|[Hn _]]; [reflexivity|contradiction].
  - intros [= <-]. right. eauto.
  - intros [[Hn _]|(_ & lo' & hi' & Ht & ->)]; [contradiction|].
    assert (lo' = lo).
    { revert H1 H2 Ht. generalize (nonempty (leaves x)). intros ls H1 H2 Ht.
      destruct H2; [congruence|]. inversion Ht; auto. }
    subst. rewrite (tiles_fun _ _ _ _ H2 _ Ht). reflexivity.
  - discriminate.
  - intros [[Hn _]|(_ & lo' & hi' & Ht & ->)]; [contradiction|]. now apply H2 in Ht.
Qed.
