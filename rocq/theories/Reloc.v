(** * The same parser run in two memories

    A relation between the runs in two environments that differ only in the contents of the
    memory and in how user code treats the spans it is given.  Used for "reads nothing but
    the input" (C03) and "depends only on the elements" (C37). *)
From Coq Require Import String List Arith ZArith Bool Lia.
From Verif Require Import Types Compound Parser Outcome CompoundFacts Exec Join.
Import ListNotations.
Local Open Scope outcome_scope.

(** ** Lifting a relation on spans *)
Section Lift.
Variable srel : span -> span -> Prop.

(** Values of the same shape with related spans. *)
Inductive vrel : val -> val -> Prop :=
| vrel_span s s' : srel s s' -> vrel (VSpan s) (VSpan s')
| vrel_vec l l' : Forall2 vrel l l' -> vrel (VVec l) (VVec l')
| vrel_arr l l' : Forall2 vrel l l' -> vrel (VArr l) (VArr l')
| vrel_none : vrel (VOpt None) (VOpt None)
| vrel_some v v' : vrel v v' -> vrel (VOpt (Some v)) (VOpt (Some v'))
| vrel_tup l l' : Forall2 vrel l l' -> vrel (VTup l) (VTup l')
| vrel_var k v v' : vrel v v' -> vrel (VVar k v) (VVar k v')
| vrel_pair a a' b b' : vrel a a' -> vrel b b' -> vrel (VPair a b) (VPair a' b')
| vrel_user k l l' : Forall2 vrel l l' -> vrel (VUser k l) (VUser k l')
| vrel_z z : vrel (VZ z) (VZ z).

Inductive rvrel : rv -> rv -> Prop :=
| rvrel_void : rvrel RVoid RVoid
| rvrel_val v v' : vrel v v' -> rvrel (RVal v) (RVal v').

Inductive erel : event -> event -> Prop :=
| erel_invoke f args args' : Forall2 vrel args args' -> erel (EInvoke f args) (EInvoke f args').

Inductive frel : fnres -> fnres -> Prop :=
| frel_ret r r' : rvrel r r' -> frel (FRet r) (FRet r')
| frel_throw e : frel (FThrow e) (FThrow e)
| frel_ill : frel FIll FIll.

Inductive oprel {A} (R : A -> A -> Prop) : option A -> option A -> Prop :=
| oprel_none : oprel R None None
| oprel_some a a' : R a a' -> oprel R (Some a) (Some a').

(** Same kind of outcome, related calls of user code in the same order, related results. *)
Inductive orel {A} (R : A -> A -> Prop) : outcome A -> outcome A -> Prop :=
| orel_done a a' tr tr' : R a a' -> Forall2 erel tr tr' -> orel R (Done a tr) (Done a' tr')
| orel_ub : orel R UB UB
| orel_exn e : orel R (Exn e) (Exn e)
| orel_oof : orel R OOF OOF
| orel_ill : orel R Ill Ill.

Definition presrel (irel : span -> span -> Prop) (r r' : presult) : Prop :=
  oprel rvrel (r_ok r) (r_ok r') /\ irel (r_rem r) (r_rem r').
End Lift.
#[global] Hint Constructors rvrel erel frel oprel orel : reloc.

(** Two environments alike in everything that is fixed at compile time, and whose user code
    maps related arguments to related results. *)
Record alike {T V} (srel : span -> span -> Prop) (E E' : env T V) : Prop := {
  al_eqv : forall t c, eqv E t c = eqv E' t c;
  al_ret : forall n ts, fn_ret E n ts = fn_ret E' n ts;
  al_ctok : forall t ts, ct_ok E t ts = ct_ok E' t ts;
  al_kty : forall k, k_ty E k = k_ty E' k;
  al_bok : forall t, bool_ok E t = bool_ok E' t;
  al_body : forall c, cust_body E c = cust_body E' c;
  al_cty : forall c, cust_ty E c = cust_ty E' c;
  al_conv : forall c, cust_conv E c = cust_conv E' c;
  al_app : forall n args args', Forall2 (vrel srel) args args' -> frel srel (fn_app E n args) (fn_app E' n args');
  al_ct : forall t args args', Forall2 (vrel srel) args args' -> frel srel (ct_app E t args) (ct_app E' t args');
  al_kval : forall k, vrel srel (k_val E k) (k_val E' k);
  al_bool : forall v v', vrel srel v v' -> as_bool E v = as_bool E' v';
}.

(** What is needed of the relation on spans. [irel] relates the spans a parser is given. *)
Record placing {T V} (srel irel : span -> span -> Prop) (E E' : env T V) : Prop := {
  pl_null : srel null_span null_span;
  pl_in : forall s s', irel s s' -> srel s s';
  pl_len : forall s s', srel s s' -> sp_len s = sp_len s';
  pl_cut : forall s s' o n, irel s s' -> o + n <= sp_len s ->
    irel (Span (sp_blk s) (sp_off s + o) n) (Span (sp_blk s') (sp_off s' + o) n);
  pl_read : forall s s' o, irel s s' -> o < sp_len s ->
    nth_error (mem E (sp_blk s)) (sp_off s + o) = nth_error (mem E' (sp_blk s')) (sp_off s' + o);
  pl_blk : forall s s' j j', srel s s' -> srel j j' -> sp_len s <> 0 -> sp_len j <> 0 ->
    (sp_blk s = sp_blk j <-> sp_blk s' = sp_blk j');
  pl_adj : forall s s' j j', srel s s' -> srel j j' -> sp_len s <> 0 -> sp_len j <> 0 -> sp_blk s = sp_blk j ->
    (sp_off s = sp_off j + sp_len j <-> sp_off s' = sp_off j' + sp_len j');
  pl_glue : forall s s' j j', srel s s' -> srel j j' -> sp_len s <> 0 -> sp_len j <> 0 -> sp_blk s = sp_blk j ->
    sp_off s = sp_off j + sp_len j ->
    srel (Span (sp_blk j) (sp_off j) (sp_len j + sp_len s)) (Span (sp_blk j') (sp_off j') (sp_len j' + sp_len s'));
}.

Section Reloc.
Context {T V : Type} (E E' : env T V) (srel irel : span -> span -> Prop).
Hypothesis HA : alike srel E E'.
Hypothesis HP : placing srel irel E E'.

Notation vrel := (vrel srel).
Notation rvrel := (rvrel srel).
Notation erel := (erel srel).
Notation orel := (@orel srel _).
Notation presrel := (presrel srel irel).

(** ** Types do not depend on the environment's run-time part *)
Lemma fn_ty_same f : forall ts, fn_ty E f ts = fn_ty E' f ts.
Proof.
  induction f; intros ts; cbn; rewrite ?(al_ret _ _ _ HA), ?(al_kty _ _ _ HA), ?(al_ctok _ _ _ HA); auto.
  destruct ts as [|t [|]]; auto. destruct (tuple_tys t); auto.
Qed.

Lemma result_for_same : forall p, result_for E p = result_for E' p.
Proof.
  fix IH 1. intros p.
  assert (IHs : forall ps, map (result_for E) ps = map (result_for E') ps).
  { fix IHs 1. intros [|q qs]; [reflexivity|]. cbn. now rewrite IH, IHs. }
  destruct p; cbn; auto; try (rewrite IH; reflexivity).
  - specialize (IHs ps). rewrite IH. cbn in *. now rewrite IHs.
  - specialize (IHs ps). rewrite IH. cbn in *. now rewrite IHs.
  - now rewrite IH, (IH p2).
  - rewrite IH. destruct (result_for E' p); auto. apply fn_ty_same.
  - rewrite IH. destruct (result_for E' p); auto. rewrite fn_ty_same. destruct (fn_ty E' f _); auto.
    now rewrite (al_bok _ _ _ HA).
  - now rewrite (al_cty _ _ _ HA).
Qed.

Lemma result_fors_same ps : result_fors E ps = result_fors E' ps.
Proof. unfold result_fors. f_equal. apply map_ext. apply result_for_same. Qed.

(** ** Combining outcomes *)
Lemma orel_ret {A} (R : A -> A -> Prop) a a' : R a a' -> orel R (ret a) (ret a').
Proof. constructor; auto. Qed.

Lemma orel_bind {A B} (R : A -> A -> Prop) (S : B -> B -> Prop) x x' f f' :
  orel R x x' -> (forall a a', R a a' -> orel S (f a) (f' a')) -> orel S (bind x f) (bind x' f').
Proof.
  intros Hx Hf. destruct Hx as [a a' tr tr' Ha Ht| | | |]; cbn; try constructor.
  destruct (Hf a a' Ha); constructor; auto. now apply Forall2_app.
Qed.

Lemma default_rel t : vrel (default_val t) (default_val t).
Proof.
  revert t. fix IH 1. intros t. destruct t; cbn; try (repeat constructor; fail).
  - constructor. apply HP.
  - constructor. induction n; cbn; constructor; auto.
  - constructor. induction ts; cbn; constructor; auto.
  - destruct ts; cbn; constructor; auto. constructor. constructor.
  - constructor; auto.
Qed.

Lemma builder_rel t : rvrel (builder_init t) (builder_init t).
Proof. unfold builder_init. destruct (is_void t); constructor. apply default_rel. Qed.

Lemma upd_rel l l' n v v' : Forall2 vrel l l' -> vrel v v' -> Forall2 vrel (upd l n v) (upd l' n v').
Proof. intros Hl Hv. revert n. induction Hl; intros [|n]; cbn; constructor; auto. Qed.

Lemma f2_len {A B} (R : A -> B -> Prop) l l' : Forall2 R l l' -> List.length l = List.length l'.
Proof. induction 1; cbn; auto. Qed.

Ltac invb := repeat match goal with
  | H : Reloc.rvrel _ _ _ |- _ => inversion H; subst; clear H
  | H : Reloc.vrel _ (VVec _) _ |- _ => inversion H; subst; clear H
  end.

Lemma snoc_rel l l' v v' : Forall2 vrel l l' -> vrel v v' -> Forall2 vrel (l ++ [v]) (l' ++ [v']).
Proof. intros. apply Forall2_app; auto. Qed.
Hint Resolve snoc_rel upd_rel : reloc.

Ltac builder := intros Hb Hv; destruct Hb as [|b b' Hb]; cbn; [repeat constructor|];
  destruct Hv as [|v v' Hv]; destruct Hb; cbn; try (constructor; fail);
  repeat match goal with H : Forall2 _ ?l _ |- context [List.length ?l] => rewrite (f2_len _ _ _ H) end;
  try match goal with |- context [if ?c then _ else _] => destruct c end; try (constructor; fail); try (apply orel_ret; constructor; constructor; auto with reloc).

Lemma b_assign_rel b b' v v' : rvrel b b' -> rvrel v v' -> orel rvrel (b_assign b v) (b_assign b' v').
Proof. intros [|] [|]; repeat constructor; auto. Qed.
Lemma b_array_rel n b b' v v' : rvrel b b' -> rvrel v v' -> orel rvrel (b_array_assign n b v) (b_array_assign n b' v').
Proof. builder. Qed.
Lemma b_get_rel n b b' v v' : rvrel b b' -> rvrel v v' -> orel rvrel (b_get_assign n b v) (b_get_assign n b' v').
Proof. builder. Qed.
Lemma b_opt_rel b b' v v' : rvrel b b' -> rvrel v v' -> orel rvrel (b_emplace_opt b v) (b_emplace_opt b' v').
Proof. builder. Qed.
Lemma b_var_rel n b b' v v' : rvrel b b' -> rvrel v v' -> orel rvrel (b_emplace n b v) (b_emplace n b' v').
Proof. builder. Qed.
Lemma b_back_rel b b' v v' : rvrel b b' -> rvrel v v' -> orel rvrel (b_insert_back b v) (b_insert_back b' v').
Proof. builder. Qed.
Lemma b_first_rel b b' v v' : rvrel b b' -> rvrel v v' -> orel rvrel (b_insert_back_first b v) (b_insert_back_first b' v').
Proof.
  intros Hb Hv; destruct Hb as [|b b' Hb]; cbn; [repeat constructor|]; destruct Hb; cbn; try constructor.
  destruct Hb1; destruct Hv; cbn; repeat constructor; auto with reloc.
Qed.
Lemma b_second_rel b b' v v' : rvrel b b' -> rvrel v v' -> orel rvrel (b_insert_back_second b v) (b_insert_back_second b' v').
Proof.
  intros Hb Hv; destruct Hb as [|b b' Hb]; cbn; [repeat constructor|]; destruct Hb; cbn; try constructor.
  destruct Hb2; destruct Hv; cbn; repeat constructor; auto with reloc.
Qed.
Lemma store_rel ct unw k b b' v v' : rvrel b b' -> rvrel v v' -> orel rvrel (store ct unw k b v) (store ct unw k b' v').
Proof.
  intros. unfold store. destruct unw; [now apply b_assign_rel|].
  destruct ct; [now apply b_var_rel|now apply b_get_rel].
Qed.

(** ** Spans *)
Lemma irel_len s s' : irel s s' -> sp_len s = sp_len s'.
Proof. intros H. apply HP. now apply HP. Qed.

Lemma first_rel s s' n : irel s s' -> orel irel (first s n) (first s' n).
Proof.
  intros H. unfold first. rewrite <- (irel_len _ _ H). destruct (Nat.leb_spec n (sp_len s)); constructor; auto.
  pose proof (pl_cut _ _ _ _ HP s s' 0 n H ltac:(lia)) as Hc. now rewrite !Nat.add_0_r in Hc.
Qed.

Lemma advance_rel s s' n : irel s s' -> orel irel (advance s n) (advance s' n).
Proof.
  intros H. unfold advance. rewrite <- (irel_len _ _ H). destruct (Nat.leb_spec n (sp_len s)); constructor; auto.
  apply (pl_cut _ _ _ _ HP); auto. lia.
Qed.

Lemma front_rel s s' : irel s s' -> orel eq (front E s) (front E' s').
Proof.
  intros H. unfold front. rewrite <- (irel_len _ _ H). destruct (Nat.eqb_spec (sp_len s) 0); [constructor|].
  unfold read. pose proof (pl_read _ _ _ _ HP s s' 0 H ltac:(lia)) as Hr. rewrite !Nat.add_0_r in Hr. rewrite Hr. clear Hr.
  destruct (nth_error _ _); repeat constructor.
Qed.

Lemma contains_same arr c : contains E arr c = contains E' arr c.
Proof. unfold contains. induction arr; cbn; auto. now rewrite (al_eqv _ _ _ HA), IHarr. Qed.

Lemma eq_loop_rel arr : forall s s' o, irel s s' -> o + List.length arr <= sp_len s ->
  orel eq (eq_loop E arr (sp_blk s) (sp_off s + o)) (eq_loop E' arr (sp_blk s') (sp_off s' + o)).
Proof.
  induction arr as [|t arr IH]; intros s s' o H Ho; cbn [eq_loop]; [repeat constructor|].
  cbn in Ho. eapply orel_bind with (R := eq).
  - unfold read. rewrite (pl_read _ _ _ _ HP s s' o H) by lia. destruct (nth_error _ _); repeat constructor.
  - intros c ? <-. rewrite (al_eqv _ _ _ HA). destruct (eqv E' t c); [|repeat constructor].
    rewrite <- !Nat.add_succ_r. apply IH; auto. lia.
Qed.

Lemma span_equal_rel arr s s' : irel s s' -> orel eq (span_equal E arr s) (span_equal E' arr s').
Proof.
  intros H. unfold span_equal. rewrite <- (irel_len _ _ H). destruct (Nat.eqb_spec (List.length arr) (sp_len s)); [|repeat constructor].
  pose proof (eq_loop_rel arr s s' 0 H ltac:(lia)) as Hl. now rewrite !Nat.add_0_r in Hl.
Qed.

(** ** Basic parsers *)
Definition fcrel (fc fc' : span -> outcome bool) : Prop := forall s s', irel s s' -> orel eq (fc s) (fc' s').

Lemma any_of_rel arr : fcrel (any_of_fc E arr) (any_of_fc E' arr).
Proof.
  intros s s' H. unfold any_of_fc. rewrite <- (irel_len _ _ H). destruct (_ =? 0); [repeat constructor|].
  eapply orel_bind; [now apply front_rel|]. intros c ? <-. rewrite contains_same. repeat constructor.
Qed.
Lemma none_of_rel arr : fcrel (none_of_fc E arr) (none_of_fc E' arr).
Proof.
  intros s s' H. unfold none_of_fc. rewrite <- (irel_len _ _ H). destruct (_ =? 0); [repeat constructor|].
  eapply orel_bind; [now apply front_rel|]. intros c ? <-. rewrite contains_same. repeat constructor.
Qed.
Lemma all_of_rel arr : fcrel (all_of_fc E arr) (all_of_fc E' arr).
Proof.
  intros s s' H. unfold all_of_fc. rewrite <- (irel_len _ _ H). destruct (_ <? _); [repeat constructor|].
  eapply orel_bind; [now apply first_rel|]. intros f f' Hf. eapply orel_bind; [now apply span_equal_rel|].
  intros b ? <-. repeat constructor.
Qed.
Lemma anything_rel : fcrel anything_fc anything_fc.
Proof. intros s s' H. unfold anything_fc. rewrite <- (irel_len _ _ H). repeat constructor. Qed.

Lemma fail_rel i i' : irel i i' -> orel presrel (ret (failure i)) (ret (failure i')).
Proof. intros. apply orel_ret. split; cbn; auto with reloc. Qed.
Lemma succ_rel v v' i i' : rvrel v v' -> irel i i' -> orel presrel (ret (success v i)) (ret (success v' i')).
Proof. intros. apply orel_ret. split; cbn; auto with reloc. Qed.
Hint Resolve fail_rel succ_rel : reloc.
Lemma in_srel s s' : irel s s' -> srel s s'.
Proof. apply HP. Qed.
Hint Resolve in_srel : reloc.

Lemma span_val s s' : srel s s' -> rvrel (RVal (VSpan s)) (RVal (VSpan s')).
Proof. repeat constructor; auto. Qed.
Hint Resolve span_val : reloc.

Lemma basic_parse_rel fc fc' len i i' : fcrel fc fc' -> irel i i' ->
  orel presrel (basic_parse fc len i) (basic_parse fc' len i').
Proof.
  intros Hf Hi. unfold basic_parse. eapply orel_bind; [now apply Hf|]. intros [|] ? <-; auto with reloc.
  eapply orel_bind; [now apply first_rel|]. intros v v' Hv. eapply orel_bind; [now apply advance_rel|].
  intros r r' Hr. auto with reloc.
Qed.
Lemma basic_look_rel fc fc' len i i' : fcrel fc fc' -> irel i i' ->
  orel presrel (basic_look fc len i) (basic_look fc' len i').
Proof.
  intros Hf Hi. unfold basic_look. eapply orel_bind; [now apply Hf|]. intros [|] ? <-; auto with reloc.
  eapply orel_bind; [now apply advance_rel|]. intros r r' Hr. auto with reloc.
Qed.

(** ** User code *)
Lemma tuple_vals_rel v v' : vrel v v' -> oprel (Forall2 vrel) (tuple_vals v) (tuple_vals v').
Proof. intros []; cbn; auto with reloc. Qed.

Lemma invoke_rel f : forall args args', Forall2 vrel args args' -> frel srel (invoke E f args) (invoke E' f args').
Proof.
  induction f; intros args args' H; cbn.
  - now apply HA.
  - destruct H as [|v v' l l' Hv Hl]; [constructor|]. destruct Hl; [|constructor].
    destruct (tuple_vals_rel _ _ Hv); [constructor|auto].
  - constructor. constructor. apply HA.
  - now apply HA.
  - constructor. constructor. apply default_rel.
Qed.

Lemma call_rel f args args' : Forall2 vrel args args' -> orel rvrel (call E f args) (call E' f args').
Proof.
  intros H. unfold call. destruct (invoke_rel f _ _ H); constructor; auto. constructor; auto. now constructor.
Qed.

Lemma args_rel v v' : rvrel v v' -> Forall2 vrel (args_of v) (args_of v').
Proof. intros []; cbn; auto. Qed.

(** ** Compound parsers *)
Definition frelf (f f' : pfun) : Prop := forall i i', irel i i' -> orel presrel (f i) (f' i').

Definition staterel (x x' : bool * (span * rv)) : Prop :=
  fst x = fst x' /\ irel (fst (snd x)) (fst (snd x')) /\ rvrel (snd (snd x)) (snd (snd x')).

Section Rec.
Variables rec rec' : mode -> parser T -> pfun.
Hypothesis Hrec : forall m p, frelf (rec m p) (rec' m p).

Lemma execute_rel ct unw p idx i i' b b' : irel i i' -> rvrel b b' ->
  orel staterel (execute rec ct unw p idx (i, b)) (execute rec' ct unw p idx (i', b')).
Proof.
  intros Hi Hb. unfold execute. destruct idx as [k|].
  - eapply orel_bind; [now apply Hrec|]. intros [o rem] [o' rem'] [Ho Hr]. cbn in *. destruct Ho as [|v v' Hv].
    + apply orel_ret. split; auto.
    + eapply orel_bind; [eapply store_rel; eauto|]. intros b1 b1' Hb1. apply orel_ret. split; auto.
  - eapply orel_bind; [now apply Hrec|]. intros [o rem] [o' rem'] [Ho Hr]. cbn in *.
    apply orel_ret. split; [destruct Ho; reflexivity|auto].
Qed.

Lemma exec_or_rel unw ps : forall i i' b b', irel i i' -> rvrel b b' ->
  orel staterel (exec_or rec unw ps (i, b)) (exec_or rec' unw ps (i', b')).
Proof.
  induction ps as [|[p idx] ps IH]; intros i i' b b' Hi Hb; cbn [exec_or].
  - apply orel_ret. split; auto.
  - eapply orel_bind; [now apply execute_rel|]. intros [ok [j c]] [ok' [j' c']] (Hok & Hj & Hc). cbn in *. subst ok'.
    destruct ok; [|auto]. apply orel_ret. split; auto.
Qed.

Lemma exec_and_rel unw ps : forall i i' b b', irel i i' -> rvrel b b' ->
  orel staterel (exec_and rec unw ps (i, b)) (exec_and rec' unw ps (i', b')).
Proof.
  induction ps as [|[p idx] ps IH]; intros i i' b b' Hi Hb; cbn [exec_and].
  - apply orel_ret. split; auto.
  - eapply orel_bind; [now apply execute_rel|]. intros [ok [j c]] [ok' [j' c']] (Hok & Hj & Hc). cbn in *. subst ok'.
    destruct ok; [auto|]. apply orel_ret. split; auto.
Qed.

Lemma choice_parse_rel ps : frelf (choice_parse E rec ps) (choice_parse E' rec' ps).
Proof.
  intros i i' Hi. unfold choice_parse. rewrite <- result_fors_same. destruct (result_fors E ps) as [tys|]; [|constructor].
  destruct (_ || _); [|constructor]. eapply orel_bind; [apply exec_or_rel; auto; apply builder_rel|].
  intros [ok [j c]] [ok' [j' c']] (Hok & Hj & Hc). cbn in *. subst ok'. destruct ok; auto with reloc.
Qed.
Lemma choice_look_rel ps : frelf (choice_look E rec ps) (choice_look E' rec' ps).
Proof.
  intros i i' Hi. unfold choice_look. rewrite <- result_fors_same. destruct (result_fors E ps) as [tys|]; [|constructor].
  eapply orel_bind; [apply exec_or_rel; auto; constructor|].
  intros [ok [j c]] [ok' [j' c']] (Hok & Hj & Hc). cbn in *. subst ok'. destruct ok; auto with reloc.
Qed.
Lemma sequence_parse_rel ps : frelf (sequence_parse E rec ps) (sequence_parse E' rec' ps).
Proof.
  intros i i' Hi. unfold sequence_parse. rewrite <- result_fors_same. destruct (result_fors E ps) as [tys|]; [|constructor].
  eapply orel_bind; [apply exec_and_rel; auto; apply builder_rel|].
  intros [ok [j c]] [ok' [j' c']] (Hok & Hj & Hc). cbn in *. subst ok'. destruct ok; auto with reloc.
Qed.
Lemma sequence_look_rel ps : frelf (sequence_look E rec ps) (sequence_look E' rec' ps).
Proof.
  intros i i' Hi. unfold sequence_look. rewrite <- result_fors_same. destruct (result_fors E ps) as [tys|]; [|constructor].
  eapply orel_bind; [apply exec_and_rel; auto; constructor|].
  intros [ok [j c]] [ok' [j' c']] (Hok & Hj & Hc). cbn in *. subst ok'. destruct ok; auto with reloc.
Qed.
End Rec.

(** ** Adaptors and repetitions *)
Lemma has_value_rel r r' : presrel r r' -> has_value r = has_value r'.
Proof. intros [Ho _]. unfold has_value. destruct Ho; reflexivity. Qed.

Lemma maybe_parse_rel t f f' : frelf f f' -> frelf (maybe_parse t f) (maybe_parse t f').
Proof.
  intros Hf i i' Hi. unfold maybe_parse. eapply orel_bind; [now apply Hf|]. intros [o rem] [o' rem'] [Ho Hr]. cbn in *.
  destruct Ho as [|v v' Hv].
  - apply succ_rel; auto. apply builder_rel.
  - eapply orel_bind; [eapply b_opt_rel; eauto; apply builder_rel|]. intros; auto with reloc.
Qed.
Lemma maybe_look_rel f f' : frelf f f' -> frelf (maybe_look f) (maybe_look f').
Proof.
  intros Hf i i' Hi. unfold maybe_look. eapply orel_bind; [now apply Hf|]. intros r r' Hr.
  rewrite (has_value_rel _ _ Hr). destruct Hr. destruct (has_value r'); auto with reloc.
Qed.

Lemma exactly_loop_rel f f' k : frelf f f' -> forall j i i' b b', irel i i' -> rvrel b b' ->
  orel (oprel (fun x x' => irel (fst x) (fst x') /\ rvrel (snd x) (snd x'))) (exactly_loop f k j i b) (exactly_loop f' k j i' b').
Proof.
  intros Hf. induction k as [|k IH]; intros j i i' b b' Hi Hb; cbn [exactly_loop].
  - apply orel_ret. constructor. auto.
  - eapply orel_bind; [now apply Hf|]. intros [o rem] [o' rem'] [Ho Hr]. cbn in *.
    destruct Ho as [|v v' Hv]; [repeat constructor|].
    eapply orel_bind; [eapply b_array_rel; eauto|]. intros; auto.
Qed.
Lemma exactly_parse_rel t f f' n : frelf f f' -> frelf (exactly_parse t f n) (exactly_parse t f' n).
Proof.
  intros Hf i i' Hi. unfold exactly_parse. eapply orel_bind; [apply exactly_loop_rel; auto; apply builder_rel|].
  intros x x' [|[j b] [j' b'] [Hj Hb]]; auto with reloc.
Qed.
Lemma exactly_look_rel f f' n : frelf f f' -> frelf (exactly_look f n) (exactly_look f' n).
Proof.
  intros Hf i i' Hi. unfold exactly_look. eapply orel_bind; [apply exactly_loop_rel; auto; constructor|].
  intros x x' [|[j b] [j' b'] [Hj Hb]]; auto with reloc.
Qed.

Lemma rep_loop_rel f f' k : frelf f f' -> forall i i' b b' s, irel i i' -> rvrel b b' ->
  orel (fun x x' => irel (fst (fst x)) (fst (fst x')) /\ rvrel (snd (fst x)) (snd (fst x')) /\ snd x = snd x')
    (rep_loop f k i b s) (rep_loop f' k i' b' s).
Proof.
  intros Hf. induction k as [|k IH]; intros i i' b b' s Hi Hb; cbn [rep_loop]; [constructor|].
  eapply orel_bind; [now apply Hf|]. intros [o rem] [o' rem'] [Ho Hr]. cbn in *.
  destruct Ho as [|v v' Hv]; [apply orel_ret; auto|].
  eapply orel_bind; [eapply b_back_rel; eauto|]. intros; auto.
Qed.

Ltac rep_case := eapply orel_bind; [apply rep_loop_rel; auto; first [apply builder_rel|constructor]|];
  intros [[j b] s] [[j' b'] s'] (Hj & Hb & Hs); cbn in *; subst s'; try destruct s; auto with reloc.

Lemma one_or_more_parse_rel t f f' k : frelf f f' -> frelf (one_or_more_parse t f k) (one_or_more_parse t f' k).
Proof. intros Hf i i' Hi. unfold one_or_more_parse. rep_case. Qed.
Lemma one_or_more_look_rel f f' k : frelf f f' -> frelf (one_or_more_look f k) (one_or_more_look f' k).
Proof. intros Hf i i' Hi. unfold one_or_more_look. rep_case. Qed.
Lemma zero_or_more_parse_rel t f f' k : frelf f f' -> frelf (zero_or_more_parse t f k) (zero_or_more_parse t f' k).
Proof. intros Hf i i' Hi. unfold zero_or_more_parse. rep_case. Qed.
Lemma zero_or_more_look_rel f f' k : frelf f f' -> frelf (zero_or_more_look f k) (zero_or_more_look f' k).
Proof. intros Hf i i' Hi. unfold zero_or_more_look. rep_case. Qed.

Lemma delim_loop_rel fp fp' fd fd' pv dv k : frelf fp fp' -> frelf fd fd' -> forall r r' i i' b b',
  presrel r r' -> irel i i' -> rvrel b b' ->
  orel (fun x x' => irel (fst x) (fst x') /\ rvrel (snd x) (snd x'))
    (delim_loop fp fd pv dv k r i b) (delim_loop fp' fd' pv dv k r' i' b').
Proof.
  intros Hp Hd. induction k as [|k IH]; intros [o rem] [o' rem'] i i' b b' [Ho Hr] Hi Hb; cbn [delim_loop]; [constructor|].
  cbn in *. destruct Ho as [|v v' Hv]; [apply orel_ret; auto|].
  eapply orel_bind with (R := rvrel).
  - destruct pv; [now apply orel_ret|]. destruct dv; [now apply b_back_rel|now apply b_first_rel].
  - intros b1 b1' Hb1. eapply orel_bind; [now apply Hd|]. intros [w mid] [w' mid'] [Hw Hm]. cbn in *.
    destruct Hw as [|w w' Hw]; [apply orel_ret; auto|].
    eapply orel_bind; [now apply Hp|]. intros r2 r2' Hr2. eapply orel_bind with (R := rvrel).
    + rewrite (has_value_rel _ _ Hr2). destruct dv; [now apply orel_ret|]. destruct (has_value r2'); [|now apply orel_ret].
      destruct pv; [now apply b_back_rel|now apply b_second_rel].
    + intros b2 b2' Hb2. apply IH; auto.
Qed.
Lemma delimit_parse_rel tp td fp fp' fd fd' k : frelf fp fp' -> frelf fd fd' ->
  frelf (delimit_parse tp td fp fd k) (delimit_parse tp td fp' fd' k).
Proof.
  intros Hp Hd i i' Hi. unfold delimit_parse. eapply orel_bind; [now apply Hp|]. intros r r' Hr.
  rewrite (has_value_rel _ _ Hr). destruct (has_value r'); [|auto with reloc].
  eapply orel_bind; [apply delim_loop_rel; auto; apply builder_rel|].
  intros [j b] [j' b'] [Hj Hb]. auto with reloc.
Qed.
Lemma delimit_look_rel fp fp' fd fd' k : frelf fp fp' -> frelf fd fd' ->
  frelf (delimit_look fp fd k) (delimit_look fp' fd' k).
Proof.
  intros Hp Hd i i' Hi. unfold delimit_look. eapply orel_bind; [now apply Hp|]. intros r r' Hr.
  rewrite (has_value_rel _ _ Hr). destruct (has_value r'); [|auto with reloc].
  eapply orel_bind; [apply delim_loop_rel; auto; constructor|].
  intros [j b] [j' b'] [Hj Hb]. auto with reloc.
Qed.

Lemma complete_rel f f' : frelf f f' -> frelf (complete_run f) (complete_run f').
Proof.
  intros Hf i i' Hi. unfold complete_run. eapply orel_bind; [now apply Hf|]. intros r r' Hr.
  rewrite (has_value_rel _ _ Hr). rewrite (irel_len _ _ (proj2 Hr)).
  destruct (_ || _); [auto with reloc|now apply orel_ret].
Qed.

Lemma map_parse_rel fn f f' : frelf f f' -> frelf (map_parse E fn f) (map_parse E' fn f').
Proof.
  intros Hf i i' Hi. unfold map_parse. eapply orel_bind; [now apply Hf|]. intros [o rem] [o' rem'] [Ho Hr]. cbn in *.
  destruct Ho as [|v v' Hv]; [auto with reloc|].
  eapply orel_bind; [apply call_rel; now apply args_rel|]. intros; auto with reloc.
Qed.

Lemma filter_parse_rel fn f f' : frelf f f' -> frelf (filter_parse E fn f) (filter_parse E' fn f').
Proof.
  intros Hf i i' Hi. unfold filter_parse. eapply orel_bind; [now apply Hf|]. intros [o rem] [o' rem'] [Ho Hr]. cbn in *.
  destruct Ho as [|v v' Hv]; [auto with reloc|].
  eapply orel_bind; [apply call_rel; now apply args_rel|]. intros w w' [|c c' Hc]; [constructor|].
  rewrite (al_bool _ _ _ HA _ _ Hc). destruct (as_bool E' c'); [|auto with reloc].
  apply orel_ret. split; cbn; auto with reloc.
Qed.

Lemma custom_parse_rel cv f f' : frelf f f' -> frelf (custom_parse E cv f) (custom_parse E' cv f').
Proof.
  intros Hf i i' Hi. unfold custom_parse. eapply orel_bind; [now apply Hf|]. intros [o rem] [o' rem'] [Ho Hr]. cbn in *.
  assert (Hself : orel presrel (ret (Res o rem)) (ret (Res o' rem'))) by (apply orel_ret; split; auto).
  assert (Hcon : forall t a a', vrel a a' -> orel presrel (w <- call E (FConstruct t) [a];; ret (success w rem))
      (w <- call E' (FConstruct t) [a'];; ret (success w rem'))).
  { intros t a a' Ha. eapply orel_bind; [apply call_rel; auto|]. intros; auto with reloc. }
  destruct cv; auto; destruct Ho as [|v v' [|x x' Hx]]; auto; try constructor; apply Hcon; repeat constructor; auto.
Qed.

(** ** join *)
Definition jrel : bool * option span -> bool * option span -> Prop := fun x x' =>
  fst x = fst x' /\ oprel (fun j j' => srel j j' /\ sp_len j <> 0) (snd x) (snd x').

Lemma try_join_span_rel s s' j j' : srel s s' -> oprel (fun j j' => srel j j' /\ sp_len j <> 0) j j' ->
  orel jrel (try_join_span s j) (try_join_span s' j').
Proof.
  intros Hs Hj. unfold try_join_span. rewrite <- (pl_len _ _ _ _ HP _ _ Hs).
  destruct (Nat.eqb_spec (sp_len s) 0) as [|Hn]; [apply orel_ret; split; auto|].
  destruct Hj as [|a a' [Ha Hna]]; [apply orel_ret; split; cbn; auto with reloc|].
  pose proof (pl_blk _ _ _ _ HP _ _ _ _ Hs Ha Hn Hna) as Hb.
  destruct (Nat.eqb_spec (sp_blk s) (sp_blk a)) as [He|He].
  - rewrite (proj2 (Nat.eqb_eq _ _) (proj1 Hb He)). cbn.
    pose proof (pl_adj _ _ _ _ HP _ _ _ _ Hs Ha Hn Hna He) as Had.
    pose proof (pl_glue _ _ _ _ HP _ _ _ _ Hs Ha Hn Hna He) as Hgl.
    pose proof (pl_len _ _ _ _ HP _ _ Ha) as Hla. pose proof (pl_len _ _ _ _ HP _ _ Hs) as Hls.
    destruct (Z.eqb_spec (Z.of_nat (sp_len a)) (Z.of_nat (sp_off s) - Z.of_nat (sp_off a))) as [Hz|Hz];
    destruct (Z.eqb_spec (Z.of_nat (sp_len a')) (Z.of_nat (sp_off s') - Z.of_nat (sp_off a'))) as [Hz'|Hz'].
    + apply orel_ret. split; cbn; auto. constructor. cbn. split; [|lia]. rewrite Hls. rewrite Hls in Hgl. apply Hgl. lia.
    + exfalso. lia.
    + exfalso. lia.
    + apply orel_ret. split; cbn; auto with reloc.
  - destruct (Nat.eqb_spec (sp_blk s') (sp_blk a')); [tauto|constructor].
Qed.

Lemma try_join_rel v : forall v' j j', vrel v v' -> oprel (fun j j' => srel j j' /\ sp_len j <> 0) j j' ->
  orel jrel (try_join v j) (try_join v' j').
Proof.
  assert (Hmany : forall l, Forall (fun v => forall v' j j', vrel v v' -> oprel (fun j j' => srel j j' /\ sp_len j <> 0) j j' ->
      orel jrel (try_join v j) (try_join v' j')) l -> forall l' j j', Forall2 vrel l l' ->
      oprel (fun j j' => srel j j' /\ sp_len j <> 0) j j' -> orel jrel (try_join_many l j) (try_join_many l' j')).
  { induction 1 as [|x l Hx Hl IH]; intros l' j j' HF Hj; inversion HF; subst; cbn [try_join_many]; [apply orel_ret; split; auto|].
    eapply orel_bind; [apply Hx; eauto|]. intros [b j1] [b' j1'] [Hb Hj1]. cbn in *. subst b'.
    destruct b; [apply IH; auto|apply orel_ret; split; auto]. }
  induction v using val_ind'; intros v' j j' Hv Hj; inversion Hv; subst; cbn [try_join]; fold try_join_many; try constructor; eauto.
  - now apply try_join_span_rel.
  - split; auto.
Qed.

Lemma join_executor_rel v v' rem rem' : vrel v v' -> irel rem rem' ->
  orel (oprel srel) (join_executor v rem) (join_executor v' rem').
Proof.
  intros Hv Hr. unfold join_executor. eapply orel_bind; [apply try_join_rel; eauto with reloc|].
  intros [b j] [b' j'] [Hb Hj]. cbn in *. subst b'.
  assert (H0 : srel (Span (sp_blk rem) (sp_off rem) 0) (Span (sp_blk rem') (sp_off rem') 0)).
  { pose proof (pl_cut _ _ _ _ HP rem rem' 0 0 Hr ltac:(lia)) as Hc. rewrite !Nat.add_0_r in Hc. auto with reloc. }
  destruct Hj as [|a a' [Ha _]]; destruct b; apply orel_ret; auto with reloc.
Qed.

Lemma join_parse_rel f f' : frelf f f' -> frelf (join_parse f) (join_parse f').
Proof.
  intros Hf i i' Hi. unfold join_parse. eapply orel_bind; [now apply Hf|]. intros [o rem] [o' rem'] [Ho Hr]. cbn in *.
  destruct Ho as [|v v' [|x x' Hx]]; [auto with reloc|constructor|].
  eapply orel_bind; [apply join_executor_rel; eauto|]. intros j j' [|s s' Hs]; auto with reloc.
Qed.

(** The fast paths keep a span that ends where the input starts. *)
Definition behind (res i res' i' : span) : Prop := irel i i' /\
  exists w w' o n, irel w w' /\ o + n + sp_len i <= sp_len w /\
    res = Span (sp_blk w) (sp_off w + o) n /\ res' = Span (sp_blk w') (sp_off w' + o) n /\
    i = Span (sp_blk w) (sp_off w + o + n) (sp_len i) /\ i' = Span (sp_blk w') (sp_off w' + o + n) (sp_len i).

Lemma behind_res res i res' i' : behind res i res' i' -> srel res res'.
Proof. intros (_ & w & w' & o & n & Hw & Ho & -> & -> & _). apply in_srel. apply HP; auto. lia. Qed.

Lemma behind_start i i' : irel i i' -> behind (Span (sp_blk i) (sp_off i) 0) i (Span (sp_blk i') (sp_off i') 0) i'.
Proof.
  intros H. split; auto. exists i, i', 0, 0. pose proof (irel_len _ _ H). rewrite !Nat.add_0_r.
  destruct i, i'; cbn in *; subst. repeat split; auto.
Qed.

(** one iteration *)
Lemma behind_step res i res' i' len : behind res i res' i' ->
  orel (fun j j' => behind (Span (sp_blk res) (sp_off res) (sp_len res + len)) j (Span (sp_blk res') (sp_off res') (sp_len res' + len)) j')
    (advance i len) (advance i' len).
Proof.
  intros (Hi & w & w' & o & n & Hw & Ho & -> & -> & He & He').
  unfold advance. rewrite <- (irel_len _ _ Hi). destruct (Nat.leb_spec len (sp_len i)); constructor; auto.
  pose proof (pl_cut _ _ _ _ HP i i' len (sp_len i - len) Hi ltac:(lia)) as Hc.
  split; auto. exists w, w', o, (n + len). cbn. split; auto. split; [lia|]. split; [reflexivity|]. split; [reflexivity|].
  rewrite He' in *. rewrite He in *. cbn. split; f_equal; lia.
Qed.

Definition bpair (x x' : span * span) : Prop := behind (fst x) (snd x) (fst x') (snd x').

Lemma jx_loop_rel fc fc' len k : fcrel fc fc' -> forall res i res' i', behind res i res' i' ->
  orel (oprel bpair) (jx_loop fc len k res i) (jx_loop fc' len k res' i').
Proof.
  intros Hf. induction k as [|k IH]; intros res i res' i' H; cbn [jx_loop]; [apply orel_ret; constructor; exact H|].
  eapply orel_bind; [apply Hf, H|]. intros [|] ? <-; [repeat constructor|].
  eapply orel_bind; [apply behind_step, H|]. intros; auto.
Qed.
Lemma jr_loop_rel fc fc' len k : fcrel fc fc' -> forall res i res' i', behind res i res' i' ->
  orel bpair (jr_loop fc len k res i) (jr_loop fc' len k res' i').
Proof.
  intros Hf. induction k as [|k IH]; intros res i res' i' H; cbn [jr_loop]; [constructor|].
  eapply orel_bind; [apply Hf, H|]. intros [|] ? <-; [apply orel_ret; exact H|].
  eapply orel_bind; [apply behind_step, H|]. intros; auto.
Qed.

Lemma bpair_succ x x' : bpair x x' -> orel presrel (ret (success (RVal (VSpan (fst x))) (snd x))) (ret (success (RVal (VSpan (fst x'))) (snd x'))).
Proof. intros H. apply succ_rel; [apply span_val; eapply behind_res; exact H|apply H]. Qed.

Lemma jx_rel fc fc' len n (m : mode) : fcrel fc fc' ->
  frelf (match m with Parse => jx_parse fc len n | Look => jx_look fc len n end)
        (match m with Parse => jx_parse fc' len n | Look => jx_look fc' len n end).
Proof.
  intros Hf i i' Hi. destruct m; unfold jx_parse, jx_look;
    (eapply orel_bind; [apply jx_loop_rel; [exact Hf|now apply behind_start]|]);
    intros x x' [|[res j] [res' j'] Hx]; auto with reloc.
  - now apply (bpair_succ (res, j) (res', j')).
  - apply succ_rel; [constructor|apply Hx].
Qed.

Lemma jm_rel fc fc' len (m : mode) : fcrel fc fc' ->
  frelf (match m with Parse => jm_parse fc len | Look => jm_look fc len end)
        (match m with Parse => jm_parse fc' len | Look => jm_look fc' len end).
Proof.
  intros Hf i i' Hi. destruct m; unfold jm_parse, jm_look; (eapply orel_bind; [now apply Hf|]); intros [|] ? <-.
  - apply succ_rel; auto. apply span_val. eapply behind_res. apply behind_start. exact Hi.
  - eapply orel_bind; [now apply first_rel|]. intros v v' Hv. eapply orel_bind; [now apply advance_rel|].
    intros; auto with reloc.
  - auto with reloc.
  - eapply orel_bind; [now apply advance_rel|]. intros; auto with reloc.
Qed.

Lemma jz_rel fc fc' len k (m : mode) : fcrel fc fc' ->
  frelf (match m with Parse => jz_parse fc len k | Look => jz_look fc len k end)
        (match m with Parse => jz_parse fc' len k | Look => jz_look fc' len k end).
Proof.
  intros Hf i i' Hi. destruct m; unfold jz_parse, jz_look;
    (eapply orel_bind; [apply jr_loop_rel; [exact Hf|now apply behind_start]|]);
    intros [res j] [res' j'] Hx.
  - now apply (bpair_succ (res, j) (res', j')).
  - apply succ_rel; [constructor|apply Hx].
Qed.

Lemma jo_rel fc fc' len k (m : mode) : fcrel fc fc' ->
  frelf (match m with Parse => jo_parse fc len k | Look => jo_look fc len k end)
        (match m with Parse => jo_parse fc' len k | Look => jo_look fc' len k end).
Proof.
  intros Hf i i' Hi.
  pose proof (behind_step _ _ _ _ len (behind_start i i' Hi)) as Hs. cbn [sp_blk sp_off sp_len] in Hs. rewrite Nat.add_0_l in Hs.
  destruct m; unfold jo_parse, jo_look; (eapply orel_bind; [now apply Hf|]); intros [|] ? <-; auto with reloc.
  - unfold first. rewrite <- (irel_len _ _ Hi). destruct (Nat.leb_spec len (sp_len i)); [|constructor]. rewrite !bind_ret.
    eapply orel_bind; [exact Hs|]. intros j j' Hj. eapply orel_bind; [apply jr_loop_rel; [exact Hf|exact Hj]|].
    intros [res q] [res' q'] Hx. now apply (bpair_succ (res, q) (res', q')).
  - eapply orel_bind; [exact Hs|]. intros j j' Hj. eapply orel_bind; [apply jr_loop_rel; [exact Hf|exact Hj]|].
    intros [res q] [res' q'] Hx. apply succ_rel; [constructor|apply Hx].
Qed.

Lemma join_special_rel p k :
  match join_special E p k, join_special E' p k with
  | Some f, Some f' => forall m, frelf (f m) (f' m)
  | None, None => True
  | _, _ => False
  end.
Proof.
  assert (Hb : forall q, match as_basic E q, as_basic E' q with
    | Some (fc, len), Some (fc', len') => fcrel fc fc' /\ len = len'
    | None, None => True | _, _ => False end).
  { intros q. destruct q; cbn; auto. all: split; auto. apply any_of_rel. apply none_of_rel. apply all_of_rel. }
  destruct p; cbn; auto; specialize (Hb p); destruct (as_basic E p) as [[fc len]|], (as_basic E' p) as [[fc' len']|];
    try contradiction; auto; destruct Hb as [Hf <-].
  - intros m. exact (jm_rel _ _ len m Hf).
  - destruct (n =? 0); auto. intros m. exact (jx_rel _ _ len n m Hf).
  - intros m. exact (jo_rel _ _ len k m Hf).
  - intros m. exact (jz_rel _ _ len k m Hf).
Qed.

(** ** The whole evaluator *)
Lemma step_rel rec rec' k m p : (forall m p, frelf (rec m p) (rec' m p)) ->
  frelf (step E rec k m p) (step E' rec' k m p).
Proof.
  intros Hrec i i' Hi. destruct p; cbn [step]; rewrite <- ?result_for_same.
  - destruct m; [apply basic_parse_rel|apply basic_look_rel]; auto using any_of_rel.
  - destruct m; [apply basic_parse_rel|apply basic_look_rel]; auto using none_of_rel.
  - destruct m; [apply basic_parse_rel|apply basic_look_rel]; auto using all_of_rel.
  - destruct m; [apply basic_parse_rel|apply basic_look_rel]; auto using anything_rel.
  - unfold epsilon_run. auto with reloc.
  - destruct m; [now apply choice_parse_rel|now apply choice_look_rel].
  - destruct m; [now apply sequence_parse_rel|now apply sequence_look_rel].
  - destruct m; [|now apply maybe_look_rel]. destruct (result_for E p); [now apply maybe_parse_rel|constructor].
  - destruct (n =? 0); [constructor|]. destruct m; [|now apply exactly_look_rel].
    destruct (result_for E p); [now apply exactly_parse_rel|constructor].
  - destruct m; [|now apply one_or_more_look_rel]. destruct (result_for E p); [now apply one_or_more_parse_rel|constructor].
  - destruct m; [|now apply zero_or_more_look_rel]. destruct (result_for E p); [now apply zero_or_more_parse_rel|constructor].
  - destruct m; [|now apply delimit_look_rel]. destruct (result_for E p1); [|constructor].
    destruct (result_for E p2); [now apply delimit_parse_rel|constructor].
  - now apply Hrec.
  - now apply complete_rel.
  - pose proof (join_special_rel p k) as Hj. destruct (join_special E p k), (join_special E' p k); try contradiction.
    + now apply Hj.
    + unfold join_generic. destruct m; [|now apply Hrec]. rewrite <- result_for_same.
      destruct (result_for E p); [|constructor]. destruct (joinable t); [now apply join_parse_rel|constructor].
  - destruct m; [|now apply Hrec]. destruct (result_for E (PMap p f)); [now apply map_parse_rel|constructor].
  - destruct m; [|now apply Hrec]. destruct (result_for E (PFilter p f)); [now apply filter_parse_rel|constructor].
  - now apply Hrec.
  - rewrite <- (al_body _ _ _ HA), <- (al_conv _ _ _ HA). destruct m; [now apply custom_parse_rel|now apply Hrec].
Qed.

Theorem run_rel n : forall m p, frelf (run E n m p) (run E' n m p).
Proof.
  induction n as [|n IH]; intros m p i i' Hi; cbn [run]; [constructor|]. now apply step_rel.
Qed.
End Reloc.
