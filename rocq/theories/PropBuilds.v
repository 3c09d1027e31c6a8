(** * Property C58: join on every compiler, at run time and at compile time *)
From Coq Require Import String List Arith ZArith Bool Lia.
From Verif Require Import Types Compound Parser Outcome CompoundFacts Exec Mono Derive Typing Join Leaves Sound
  Builds PropCore Samples.
Import ListNotations.
Local Open Scope outcome_scope.

(** [b] is [a], unless [a] is undefined. *)
Definition le_ub {A} (a b : outcome A) : Prop := a = UB \/ a = b.

Lemma le_ub_refl {A} (a : outcome A) : le_ub a a.
Proof. now right. Qed.
#[local] Hint Resolve le_ub_refl : core.

Lemma le_ub_UB {A} (b : outcome A) : le_ub UB b.
Proof. now left. Qed.
#[local] Hint Resolve le_ub_UB : core.

Lemma bind_ub {A B} (x y : outcome A) (f g : A -> outcome B) :
  le_ub x y -> (forall a, le_ub (f a) (g a)) -> le_ub (bind x f) (bind y g).
Proof.
  intros [->| ->] H; [now left|].
  destruct y as [a tr| | | |]; cbn; auto.
  destruct (H a) as [->| ->]; auto.
Qed.

Lemma try_join_span_ub b far s j : le_ub (try_join_span s j) (try_join_span_on b far s j).
Proof.
  unfold try_join_span, try_join_span_on. destruct (sp_len s =? 0); auto. destruct j as [j|]; auto.
  destruct (Nat.eqb_spec (sp_blk s) (sp_blk j)) as [e|e]; cbn [negb]; auto. right.
  unfold adjacent. rewrite e, Nat.eqb_refl.
  destruct b; cbn; try reflexivity; cycle 1.
  - destruct (_ =? _)%Z; reflexivity.
  - destruct (_ =? _)%Z; reflexivity.
  - destruct (Z.eqb_spec (Z.of_nat (sp_len j)) (Z.of_nat (sp_off s) - Z.of_nat (sp_off j)));
      destruct (Nat.eqb_spec (sp_off j + sp_len j) (sp_off s)); try lia; reflexivity.
Qed.

Definition try_join_many_on b far : list val -> option span -> outcome (bool * option span) :=
  fix go (l : list val) (joined : option span) {struct l} :=
    match l with
    | [] => ret (true, joined)
    | x :: l' => '(ok, j) <- try_join_on b far x joined ;;
                 if ok : bool then go l' j else ret (false, j)
    end.

Lemma try_join_ub b far v : forall j, le_ub (try_join v j) (try_join_on b far v j).
Proof.
  assert (HM : forall l, Forall (fun v => forall j, le_ub (try_join v j) (try_join_on b far v j)) l ->
     forall j, le_ub (try_join_many l j) (try_join_many_on b far l j)).
  { clear v; induction 1 as [|v l H _ IH]; intros j; cbn [try_join_many try_join_many_on]; auto.
    apply bind_ub; auto. intros [[|] j']; auto. }
  induction v using val_ind'; intros j; cbn [try_join try_join_on];
    fold try_join_many; fold (try_join_many_on b far); auto.
  apply try_join_span_ub.
Qed.

Lemma join_executor_ub b far v rem : le_ub (join_executor v rem) (join_executor_on b far v rem).
Proof. apply bind_ub; [apply try_join_ub|auto]. Qed.

Lemma join_parse_ub b far f g i : le_ub (f i) (g i) -> le_ub (join_parse f i) (join_parse_on b far g i).
Proof.
  intros H. apply bind_ub; auto. intros r. destruct (r_ok r) as [[|v]|]; auto.
  apply bind_ub; [apply join_executor_ub|auto].
Qed.

Section Rec.
Context {T V : Type} (E : env T V).
Variables r1 r2 : mode -> parser T -> pfun.
Hypothesis Hr : forall m p i, le_ub (r1 m p i) (r2 m p i).

Lemma exactly_loop_ub (f g : pfun) (H : forall i, le_ub (f i) (g i)) k : forall j i b,
  le_ub (exactly_loop f k j i b) (exactly_loop g k j i b).
Proof.
  induction k; intros; cbn; auto. apply bind_ub; [apply H|].
  intros r; destruct (r_ok r); auto. apply bind_ub; auto.
Qed.

Lemma rep_loop_ub (f g : pfun) (H : forall i, le_ub (f i) (g i)) k : forall i b s,
  le_ub (rep_loop f k i b s) (rep_loop g k i b s).
Proof.
  induction k; intros i b s; cbn; auto. apply bind_ub; [apply H|].
  intros r; destruct (r_ok r); auto. apply bind_ub; auto.
Qed.

Lemma delim_loop_ub (f g f' g' : pfun) (H : forall i, le_ub (f i) (g i)) (H' : forall i, le_ub (f' i) (g' i))
  pv dv k : forall r i b, le_ub (delim_loop f f' pv dv k r i b) (delim_loop g g' pv dv k r i b).
Proof.
  induction k; intros r i b; cbn; auto. destruct (r_ok r); auto.
  apply bind_ub; auto. intros b1. apply bind_ub; [apply H'|]. intros d.
  destruct (r_ok d); auto. apply bind_ub; [apply H|]. intros r'. apply bind_ub; auto.
Qed.

Lemma execute_ub ct u p idx st : le_ub (execute r1 ct u p idx st) (execute r2 ct u p idx st).
Proof. destruct st; cbn. destruct idx; (apply bind_ub; [apply Hr|auto]). Qed.

Lemma exec_or_ub u ps : forall st, le_ub (exec_or r1 u ps st) (exec_or r2 u ps st).
Proof.
  induction ps as [|[p idx] ps IH]; intros; cbn; auto.
  apply bind_ub; [apply execute_ub|]. intros [[|] st']; auto.
Qed.

Lemma exec_and_ub u ps : forall st, le_ub (exec_and r1 u ps st) (exec_and r2 u ps st).
Proof.
  induction ps as [|[p idx] ps IH]; intros; cbn; auto.
  apply bind_ub; [apply execute_ub|]. intros [[|] st']; auto.
Qed.

Lemma step_ub b far k m p i : le_ub (step E r1 k m p i) (step_on E b far r2 k m p i).
Proof.
  assert (HH : forall m q i, le_ub (r1 m q i) (r2 m q i)) by exact Hr.
  destruct p; destruct m; cbn [step step_on];
    unfold choice_parse, choice_look, sequence_parse, sequence_look,
      maybe_parse, maybe_look, exactly_parse, exactly_look, one_or_more_parse, one_or_more_look,
      zero_or_more_parse, zero_or_more_look, delimit_parse, delimit_look, complete_run,
      map_parse, filter_parse, custom_parse, join_generic, join_generic_on;
    repeat first [apply exec_or_ub | apply exec_and_ub
      | apply (Hr _ _ _)
      | apply join_parse_ub; solve [auto]
      | apply exactly_loop_ub; solve [auto]
      | apply rep_loop_ub; solve [auto]
      | apply delim_loop_ub; solve [auto]
      | match goal with
        | |- le_ub ?a ?a => apply le_ub_refl
        | |- le_ub (bind _ _) (bind _ _) => apply bind_ub
        | |- forall _, _ => intro
        | |- le_ub (match ?x with _ => _ end) (match ?x with _ => _ end) => destruct x
        | |- le_ub (if ?x then _ else _) (if ?x then _ else _) => destruct x
        | |- le_ub (let (_, _) := ?x in _) (let (_, _) := ?x in _) => destruct x
        end ].
Qed.
End Rec.

Lemma run_ub {T V} (E : env T V) b far n : forall m p i, le_ub (run E n m p i) (run_on E b far n m p i).
Proof. induction n; intros m p i; [now right|]. cbn [run run_on]. now apply step_ub. Qed.

(** Whatever is not undefined with GCC or Clang at run time has the same outcome with MSVC and
    in a constant expression: result, rest, calls of user code, exceptions. *)
Theorem C58_defined_calls_agree {T V} (E : env T V) m p i o b far :
  evals E m p i o -> o <> UB -> evals_on E b far m p i o.
Proof.
  intros [Ho [n Hn]] Hu. split; auto. exists n.
  destruct (run_ub E b far n m p i) as [H|H]; congruence.
Qed.

(** A compiled parser whose functions below a join hand back (parts of) spans they were given
    behaves the same in all three, and loops forever in all three or in none. *)
Theorem C58_same_on_every_build {T V} (E : env T V) m p i b far :
  valid E i -> compiles E m p = true -> (forall q, reach E p (PJoin q) -> local_parser E q) ->
  env_typed E -> env_customs E ->
  (forall o, evals_on E b far m p i o <-> evals E m p i o) /\
  (diverges_on E b far m p i <-> diverges E m p i).
Proof.
  intros Hv Hc Hj HT HC.
  assert (HE : forall n, run_on E b far n m p i = run E n m p i).
  { intros n. destruct (run_safe E n m p i Hv Hc Hj HT HC) as [Hub _].
    destruct (run_ub E b far n m p i) as [H|H]; congruence. }
  split.
  - intros o. split; intros [Ho [n Hn]]; (split; [exact Ho|exists n]); [now rewrite <- HE|now rewrite HE].
  - split; intros H n; [rewrite <- HE|rewrite HE]; apply H.
Qed.

(** In a constant expression join succeeds on a value exactly if its non-empty spans tile one
    range of one object, whatever objects they point into, and is never undefined. *)
Lemma const_list ls : forall bl lo k far, k <> 0 ->
  let go := fix go (ls : list span) (j : option span) : outcome (bool * option span) :=
    match ls with
    | [] => ret (true, j)
    | s :: ls' => '(ok, j') <- try_join_span_on GccConstant far s j ;;
                  if ok : bool then go ls' j' else ret (false, j')
    end in
  (exists hi, tiles bl (lo + k) hi (nonempty ls) /\ go ls (Some (Span bl lo k)) = Done (true, Some (Span bl lo (hi - lo))) []) \/
  ((forall hi, ~ tiles bl (lo + k) hi (nonempty ls)) /\ go ls (Some (Span bl lo k)) = Done (false, None) []).
Proof.
  induction ls as [|[bs os n] ls IH]; intros bl lo k far Hk go.
  - left. exists (lo + k). split; [constructor|]. cbn. now replace (lo + k - lo) with k by lia.
  - cbn [nonempty filter sp_len]. fold (nonempty ls). unfold go; fold go.
    unfold try_join_span_on. cbn [sp_len sp_blk sp_off].
    destruct (Nat.eqb_spec n 0) as [->|Hn]; cbn [negb].
    + destruct (IH bl lo k far Hk) as [(hi & H1 & H2)|[H1 H2]]; [left; exists hi|right]; split; auto;
        fold go in H2; cbn; now rewrite H2.
    + unfold adjacent. cbn [sp_blk sp_off sp_len].
      destruct (Nat.eqb_spec bs bl) as [->|Hb]; cbn [andb].
      * destruct (Z.eqb_spec (Z.of_nat k) (Z.of_nat os - Z.of_nat lo)) as [He|He].
        -- assert (os = lo + k) by lia. subst os. cbn.
           destruct (IH bl lo (k + n) far) as [(hi & H1 & H2)|[H1 H2]]; [lia|left|right]; fold go in H2.
           ++ exists hi. rewrite H2. split; [|reflexivity]. constructor. now rewrite <- Nat.add_assoc.
           ++ rewrite H2. split; [|reflexivity]. intros hi Ht. inversion Ht; subst. apply (H1 hi).
              now rewrite Nat.add_assoc.
        -- right. split; [|reflexivity]. intros hi Ht. inversion Ht; subst. lia.
      * right. split; [|reflexivity]. intros hi Ht. inversion Ht; subst. congruence.
Qed.

Definition join_list_on b far : list span -> option span -> outcome (bool * option span) :=
  fix go (ls : list span) (j : option span) : outcome (bool * option span) :=
    match ls with
    | [] => ret (true, j)
    | s :: ls' => '(ok, j') <- try_join_span_on b far s j ;;
                  if ok : bool then go ls' j' else ret (false, j')
    end.

Lemma join_list_on_app b far l1 : forall l2 j, join_list_on b far (l1 ++ l2) j =
  ('(ok, j') <- join_list_on b far l1 j ;; if ok : bool then join_list_on b far l2 j' else ret (false, j')).
Proof.
  induction l1 as [|s l1 IH]; intros; cbn [join_list_on app].
  - now rewrite bind_ret.
  - rewrite bind_assoc. apply bind_ext. intros [[|] j']; [apply IH|]. now rewrite bind_ret.
Qed.

Lemma try_join_on_spec b far v : jval v -> forall j, try_join_on b far v j = join_list_on b far (leaves v) j.
Proof.
  assert (HM : forall l, Forall (fun v => jval v -> forall j, try_join_on b far v j = join_list_on b far (leaves v) j) l ->
     Forall jval l -> forall j, try_join_many_on b far l j = join_list_on b far (flat_map leaves l) j).
  { clear v; induction 1 as [|v l H _ IH]; intros Hj j; cbn [try_join_many_on flat_map]; [reflexivity|].
    inversion Hj; subst. rewrite join_list_on_app, H; auto. apply bind_ext. intros [[|] j']; auto. }
  induction v using val_ind'; intros Hj j; inversion Hj; subst;
    cbn [try_join_on leaves]; fold (try_join_many_on b far); auto.
  cbn. destruct (try_join_span_on b far s j) as [[[|] ?] tr| | | |]; cbn; now rewrite ?app_nil_r.
Qed.

Theorem C58_constant_join far x rem : jval x ->
  (nonempty (leaves x) = [] /\
     join_executor_on GccConstant far x rem = Done (Some (Span (sp_blk rem) (sp_off rem) 0)) []) \/
  (exists bl lo hi, nonempty (leaves x) <> [] /\ tiles bl lo hi (nonempty (leaves x)) /\
     join_executor_on GccConstant far x rem = Done (Some (Span bl lo (hi - lo))) []) \/
  (nonempty (leaves x) <> [] /\ (forall bl lo hi, ~ tiles bl lo hi (nonempty (leaves x))) /\
     join_executor_on GccConstant far x rem = Done None []).
Proof.
  intros Hj. unfold join_executor_on. rewrite (try_join_on_spec _ _ x Hj).
  induction (leaves x) as [|[bs os n] ls IH]; [left; auto|].
  cbn [nonempty filter sp_len]. fold (nonempty ls). cbn [join_list_on].
  unfold try_join_span_on. cbn [sp_len]. destruct (Nat.eqb_spec n 0) as [->|Hn]; cbn [negb].
  - rewrite bind_ret. exact IH.
  - rewrite bind_ret. right. fold (join_list_on GccConstant far).
    destruct (const_list ls bs os n far Hn) as [(hi & H1 & H2)|[H1 H2]];
      fold (join_list_on GccConstant far) in H2; rewrite H2; cbn; [left|right].
    + exists bs, os, hi. split; [discriminate|]. split; [now constructor|reflexivity].
    + split; [discriminate|]. split; [|reflexivity]. intros bl lo hi Ht. inversion Ht; subst. now apply (H1 hi).
Qed.

(** A joining parser on which the three agree. *)
Example C58_case : forall b far, evals_on sx b far Parse
  (PJoin (PSequence (PAllOf (codes "(")) [POneOrMore (PAllOf (codes "("))])) in1
  (Done (Res (Some (RVal (VSpan (Span 1 0 2)))) (at1 2)) []).
Proof.
  intros b far. apply C58_defined_calls_agree; [|discriminate]. runs 20.
Qed.

(** With a function that returns a span of another object the three differ: undefined at run
    time with GCC and Clang, a failure in a constant expression, and with MSVC either a failure
    or, if the objects happen to lie next to each other in memory, a span reaching from one
    object into the other. *)
Theorem C58_foreign_span_refuted : exists (E : env nat nat) p i,
  valid E i /\ compiles E Parse p = true /\ env_typed E /\ env_customs E /\
  evals E Parse p i UB /\
  (forall far, evals_on E GccConstant far Parse p i (Done (Res None i) [EInvoke (FUser 6) [VSpan (Span 1 1 1)]])) /\
  evals_on E MsvcRun (fun _ _ => false) Parse p i (Done (Res None i) [EInvoke (FUser 6) [VSpan (Span 1 1 1)]]) /\
  exists s rem tr, evals_on E MsvcRun (fun _ _ => true) Parse p i (Done (Res (Some (RVal (VSpan s))) rem) tr).
Proof.
  exists sx, (PJoin (PSequence (PAllOf (codes "(")) [PMap (PAllOf (codes "(")) (FUser 6)])), in1.
  split; [apply in1_valid|]. split; [reflexivity|]. split; [apply sx_typed|]. split; [apply sx_customs|].
  split; [runs 20|]. split; [|split].
  - intros far. split; [discriminate|]. exists 20. vm_compute. reflexivity.
  - split; [discriminate|]. exists 20. vm_compute. reflexivity.
  - eexists _, _, _. split; [discriminate|]. exists 20. vm_compute. reflexivity.
Qed.

Print Assumptions C58_defined_calls_agree.
Print Assumptions C58_same_on_every_build.
Print Assumptions C58_constant_join.
Print Assumptions C58_foreign_span_refuted.
