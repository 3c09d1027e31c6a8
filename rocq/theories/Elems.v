(** * The elements a span denotes *)
From Coq Require Import String List Arith ZArith Bool Lia.
From Verif Require Import Types Compound Parser Outcome Exec CompoundFacts Derive Typing Join Leaves Sound.
Import ListNotations.

Section Elems.
Context {T V : Type} (E : env T V).

(** Specification: the elements of a span. *)
Definition elems (s : span) : list V := firstn (sp_len s) (skipn (sp_off s) (mem E (sp_blk s))).

Lemma skipn_skipn' {A} (l : list A) : forall a b, skipn a (skipn b l) = skipn (b + a) l.
Proof.
  intros a b. revert l. induction b; intros l; cbn; auto. destruct l; cbn; auto. now rewrite skipn_nil.
Qed.

Lemma elems_length s : valid E s -> List.length (elems s) = sp_len s.
Proof. unfold valid, elems. intros. rewrite firstn_length, skipn_length. lia. Qed.

Lemma elems_split b o n k : elems (Span b o (n + k)) = elems (Span b o n) ++ elems (Span b (o + n) k).
Proof.
  unfold elems. cbn. rewrite <- (skipn_skipn' _ n o). generalize (skipn o (mem E b)) as l.
  induction n; intros l; cbn; auto. destruct l; cbn; [now rewrite firstn_nil|]. f_equal. apply IHn.
Qed.

Lemma elems_adv i c : c <= sp_len i -> elems i = elems (Span (sp_blk i) (sp_off i) c) ++ elems (adv i c).
Proof.
  intros H. unfold adv. rewrite <- elems_split. f_equal. destruct i; cbn in *. f_equal. lia.
Qed.

Lemma elems_adv_skipn i c : elems (adv i c) = skipn c (elems i).
Proof.
  unfold elems, adv. cbn. rewrite skipn_firstn_comm, skipn_skipn'. reflexivity.
Qed.

Lemma elems_nth i k : k < sp_len i -> nth_error (elems i) k = nth_error (mem E (sp_blk i)) (sp_off i + k).
Proof.
  unfold elems. intros Hk. generalize (mem E (sp_blk i)) as l. generalize (sp_off i) as o. revert k Hk.
  generalize (sp_len i) as n.
  assert (Hs : forall (l : list V) o k, nth_error (skipn o l) k = nth_error l (o + k)).
  { intros l o. revert l. induction o; intros l k; cbn; auto. destruct l; cbn; auto. now destruct k. }
  intros n k Hk o l. rewrite <- Hs. generalize (skipn o l) as l'. clear - Hk. revert k Hk.
  induction n; intros k Hk l'; [lia|]. destruct l'; cbn; auto. destruct k; cbn; auto. apply IHn. lia.
Qed.

Lemma elems_empty b o : elems (Span b o 0) = [].
Proof. reflexivity. Qed.

(** The elements of contiguous spans are those of the span that covers them. *)
Lemma tiles_elems b lo hi ls : tiles b lo hi ls -> elems (Span b lo (hi - lo)) = concat (map elems ls).
Proof.
  induction 1 as [lo|lo n hi ls H IH]; cbn [map concat].
  - now rewrite Nat.sub_diag.
  - rewrite <- IH. pose proof (tiles_le _ _ _ _ H). rewrite <- elems_split. f_equal. f_equal. lia.
Qed.

Lemma nonempty_elems ls : concat (map elems (nonempty ls)) = concat (map elems ls).
Proof.
  induction ls as [|s ls IH]; cbn; auto. destruct (Nat.eqb_spec (sp_len s) 0) as [H|H]; cbn.
  - fold (nonempty ls). rewrite IH. unfold elems at 2. now rewrite H.
  - fold (nonempty ls). now rewrite IH.
Qed.
End Elems.
