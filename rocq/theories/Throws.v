(** * Exceptions come only from user functions *)
From Coq Require Import String List Arith ZArith Bool Lia.
From Verif Require Import Types Compound Parser Outcome CompoundFacts Exec Mono Derive Typing Join Leaves Sound Peg.
Import ListNotations.
Local Open Scope outcome_scope.

(** What [x] throws satisfies [P]. *)
Definition exn {A} (P : nat -> Prop) (x : outcome A) : Prop :=
  match x with Exn e => P e | _ => True end.

Lemma exn_bind {A B} P (x : outcome A) (f : A -> outcome B) :
  exn P x -> (forall a, exn P (f a)) -> exn P (bind x f).
Proof. intros Hx Hf. destruct x; cbn in *; auto. specialize (Hf a). destruct (f a); auto. Qed.

Lemma exn_ret {A} P (a : A) : exn P (ret a).
Proof. exact I. Qed.

Lemma exn_quiet {A} P (x : outcome A) : quiet x -> exn P x.
Proof. destruct x; cbn; auto. contradiction. Qed.

(** [f] is called by parser [p] itself: the function of a map or filter, the constructor
    that converts a custom parser's result. *)
Definition own_fn {T V} (E : env T V) (p : parser T) (f : func) : Prop :=
  match p with
  | PMap _ g | PFilter _ g => f = g
  | PCustom c => match cust_conv E c with
                 | ConvSame => False
                 | ConvElem t | ConvWhole t => f = FConstruct t
                 end
  | _ => False
  end.

Lemma reach_trans {T V} (E : env T V) p q r : reach E p q -> reach E q r -> reach E p r.
Proof. induction 1; auto. intros Hr. eapply reach_step; eauto. Qed.

Section Throws.
Context {T V : Type} (E : env T V).

(** [e] is thrown by a function called by a parser reachable from [p]. *)
Definition thrown_below (p : parser T) (e : nat) : Prop :=
  exists q f args, reach E p q /\ own_fn E q f /\ invoke E f args = FThrow e.

Section P.
Variable P : nat -> Prop.
Let exf (f : pfun) := forall i, exn P (f i).

Ltac et := repeat first
  [ apply exn_bind; [|intros ?]
  | match goal with
    | |- exn _ (match ?x with _ => _ end) => destruct x
    | |- exn _ (if ?x then _ else _) => destruct x
    end
  | progress intros
  | solve [auto]
  | exact I ].

Lemma exn_store ct u k b v : exn P (store ct u k b v).
Proof. unfold store, b_assign, b_emplace, b_get_assign. et. Qed.

Lemma exn_insert b v : exn P (b_insert_back b v).
Proof. unfold b_insert_back. et. Qed.
Lemma exn_insert1 b v : exn P (b_insert_back_first b v).
Proof. unfold b_insert_back_first. et. Qed.
Lemma exn_insert2 b v : exn P (b_insert_back_second b v).
Proof. unfold b_insert_back_second. et. Qed.
Lemma exn_array n b v : exn P (b_array_assign n b v).
Proof. unfold b_array_assign. et. Qed.
Lemma exn_opt b v : exn P (b_emplace_opt b v).
Proof. unfold b_emplace_opt. et. Qed.
Hint Resolve exn_store exn_insert exn_insert1 exn_insert2 exn_array exn_opt exn_ret : core.

Lemma exn_exactly f k : exf f -> forall j i b, exn P (exactly_loop f k j i b).
Proof. intros Hf. induction k; intros; cbn [exactly_loop]; et; apply Hf. Qed.

Lemma exn_rep f k : exf f -> forall i b s, exn P (rep_loop f k i b s).
Proof. intros Hf. induction k; intros; cbn [rep_loop]; et; apply Hf. Qed.

Lemma exn_delim fp fd pv dv k : exf fp -> exf fd -> forall r i b, exn P (delim_loop fp fd pv dv k r i b).
Proof. intros Hp Hd. induction k; intros; cbn [delim_loop]; et. Qed.

Lemma exn_or rec u ps : (forall m p idx, In (p, idx) ps -> exf (rec m p)) -> forall st : span * rv, exn P (exec_or (T := T) rec u ps st).
Proof.
  induction ps as [|[p idx] ps IH]; intros Hr st; cbn [exec_or]; et.
  - unfold execute. destruct st, idx; et; try apply (Hr _ p _ (or_introl eq_refl)).
  - apply IH. intros; eapply Hr; right; eauto.
Qed.

Lemma exn_and rec u ps : (forall m p idx, In (p, idx) ps -> exf (rec m p)) -> forall st : span * rv, exn P (exec_and (T := T) rec u ps st).
Proof.
  induction ps as [|[p idx] ps IH]; intros Hr st; cbn [exec_and]; et.
  - unfold execute. destruct st, idx; et; try apply (Hr _ p _ (or_introl eq_refl)).
  - apply IH. intros; eapply Hr; right; eauto.
Qed.

Lemma exn_basic p fc len i : elementary E p = Some (fc, len) -> exn P (basic_parse fc len i).
Proof.
  intros H. unfold basic_parse. apply exn_bind; [apply exn_quiet; eapply quiet_fc; eauto|].
  intros [|]; et; unfold first, advance; et.
Qed.

Lemma exn_join v rem : exn P (join_executor v rem).
Proof.
  unfold join_executor. apply exn_bind; [|et].
  generalize (@None span). induction v using val_ind'; intros j; cbn [try_join]; try exact I; auto.
  - unfold try_join_span. et.
  - revert j. induction H; intros j; [exact I|]. et; auto.
  - revert j. induction H; intros j; [exact I|]. et; auto.
  - revert j. induction H; intros j; [exact I|]. et; auto.
Qed.

Lemma exn_call f args : (forall e, invoke E f args = FThrow e -> P e) -> exn P (call E f args).
Proof. intros H. unfold call. destruct (invoke E f args); cbn; auto. Qed.

Lemma step_exn rec k p i : (forall m q, In q (components E p) -> exf (rec m q)) ->
  (forall f args e, own_fn E p f -> invoke E f args = FThrow e -> P e) ->
  exn P (step E rec k Parse p i).
Proof.
  intros Hr Hf. destruct p; cbn [step]; cbn [components In] in Hr.
  - now apply (exn_basic (PAnyOf arr)).
  - now apply (exn_basic (PNoneOf arr)).
  - now apply (exn_basic (PAllOf arr)).
  - now apply (exn_basic PAnything).
  - exact I.
  - unfold choice_parse. destruct (result_fors E (p :: ps)); [|exact I]. cbn zeta. destruct (_ || _); [|exact I].
    apply exn_bind; [|et]. apply exn_or. intros m q idx Hin. apply in_combine_l in Hin. now apply Hr.
  - unfold sequence_parse. destruct (result_fors E (p :: ps)); [|exact I]. cbn zeta.
    apply exn_bind; [|et]. apply exn_and. intros m q idx Hin. apply in_combine_l in Hin. now apply Hr.
  - destruct (result_for E p); [|exact I]. unfold maybe_parse. et. now apply Hr; left.
  - destruct (n =? 0); [exact I|]. destruct (result_for E p); [|exact I]. unfold exactly_parse. et.
    apply exn_exactly. now apply Hr; left.
  - destruct (result_for E p); [|exact I]. unfold one_or_more_parse. et. apply exn_rep. now apply Hr; left.
  - destruct (result_for E p); [|exact I]. unfold zero_or_more_parse. et. apply exn_rep. now apply Hr; left.
  - destruct (result_for E p1), (result_for E p2); try exact I. unfold delimit_parse. et.
    + now apply Hr; left.
    + apply exn_delim; apply Hr; auto.
  - apply Hr; auto.
  - unfold complete_run. et. apply Hr; auto.
  - destruct (join_special E p k) as [f|] eqn:Hs.
    + apply exn_quiet. eapply quiet_join_special; eauto.
    + unfold join_generic. destruct (result_for E p); [|exact I]. destruct (joinable t); [|exact I].
      unfold join_parse. pose proof (fun v r => exn_join v r) as HJ. apply exn_bind; [apply Hr; auto|].
      intros [[[|v]|] rem]; cbn [r_ok r_rem]; try exact I. apply exn_bind; [apply HJ|et].
  - destruct (result_for E (PMap p f)); [|exact I]. unfold map_parse. apply exn_bind; [apply Hr; auto|].
    intros [[v|] rem]; cbn [r_ok r_rem]; try exact I. apply exn_bind; [|et]. apply exn_call. intros e. now apply Hf.
  - destruct (result_for E (PFilter p f)); [|exact I]. unfold filter_parse. apply exn_bind; [apply Hr; auto|].
    intros [[v|] rem]; cbn [r_ok r_rem]; try exact I. apply exn_bind; [|et]. apply exn_call. intros e. now apply Hf.
  - apply Hr; auto.
  - unfold custom_parse. cbn [own_fn] in Hf. apply exn_bind; [apply Hr; auto|].
    intros [[[|v]|] rem]; destruct (cust_conv E c); cbn [r_ok r_rem]; try exact I;
      (apply exn_bind; [|et]); apply exn_call; intros; eapply Hf; eauto.
Qed.
End P.

Theorem run_exn n : forall m p i, exn (thrown_below p) (run E n m p i).
Proof.
  induction n as [|n IH]; intros m p i; [exact I|].
  destruct m; [|apply exn_quiet, look_quiet].
  cbn [run]. apply step_exn.
  - intros m' q Hin i'. specialize (IH m' q i'). destruct (run E n m' q i'); cbn in *; auto.
    destruct IH as (r & f & args & Hr & Hf & He). exists r, f, args. split; auto. eapply reach_step; eauto.
  - intros f args e Hf He. exists p, f, args. split; [constructor|auto].
Qed.
End Throws.
