(** * C57: which overload an operator expression uses

    Operators.v and Modifiers.v say what the operators return with one [match] each, whose
    branches are in the order of the author's (and this model's) reading of "more
    specialised".  Here the declarations of the overload sets (OverloadSets.v) are resolved
    by the rules of the language (Overload.v): for all operands there is exactly one best
    overload, and it returns what Operators.v says; the same for the partial specialisations
    of join_parser and of substitute_one. *)
From Coq Require Import String List Arith Bool Lia.
From Verif Require Import Types Compound CompoundFacts Parser Typing StaticArray Operators Modifiers Outcome Exec Overload OverloadFacts OverloadSets
  PropSets.
Import ListNotations.

Section Ov.
Context {T : Type} (O : order T) (HO : lawful O).

Lemma all_some_map {A B} (f : A -> B) (g : B -> option A) l : Forall (fun a => g (f a) = Some a) l ->
  all_some (map g (map f l)) = Some l.
Proof. induction 1 as [|a l Ha Hl IH]; cbn; auto. now rewrite Ha, IH. Qed.

Lemma parser_of_ctype (p : parser T) : parser_of (ctype p) = Some p.
Proof.
  induction p using parser_ind'; cbn [ctype parser_of inst]; rewrite ?IHp, ?IHp1, ?IHp2; cbn; auto;
    rewrite all_some_map by assumption; auto.
Qed.

Lemma ctype_inj (p q : parser T) : ctype p = ctype q -> p = q.
Proof. intros H. apply (f_equal parser_of) in H. rewrite !parser_of_ctype in H. congruence. Qed.

Lemma modifier_of_mtype (m : modifier T) : modifier_of (mtype m) = Some m.
Proof.
  induction m using modifier_ind'.
  - destruct m; cbn; rewrite ?parser_of_ctype; auto; [now destruct (H subs)|now destruct (H0 ms)].
  - cbn. rewrite map_map. cbn. replace (all_some _) with (Some subs); auto.
    symmetry. induction H as [|[n m] subs Hm Hs IH]; cbn in *; auto. rewrite Hm. cbn. now rewrite IH.
  - cbn. now rewrite all_some_map.
Qed.

Lemma no_modifier (p : parser T) : modifier_of (ctype p) = None.
Proof. now destruct p. Qed.
Lemma no_parser (m : modifier T) : parser_of (mtype m) = None.
Proof. now destruct m. Qed.

Lemma cls_eqb_spec a b : cls_eqb a b = true <-> a = b.
Proof. unfold cls_eqb. destruct (cls_eq_dec a b); split; congruence. Qed.

Lemma ctypes_eqb (ps : list (parser T)) : Forall (fun p => forall q, term_eqb cls_eqb (atom_eqb O) (ctype p) (ctype q) = parser_eqb O p q) ps ->
  forall qs, (fix go l r := match l, r with [], [] => true | a :: l, b :: r => term_eqb cls_eqb (atom_eqb O) a b && go l r | _, _ => false end)
    (map ctype ps) (map ctype qs) = list_eqb (parser_eqb O) ps qs.
Proof.
  induction 1 as [|p ps Hp Hps IH]; intros [|q qs]; cbn; auto. now rewrite Hp, IH.
Qed.

Lemma ctype_eqb (p : parser T) : forall q, term_eqb cls_eqb (atom_eqb O) (ctype p) (ctype q) = parser_eqb O p q.
Proof.
  induction p using parser_ind'; intros q; destruct q; cbn; auto;
    rewrite ?IHp, ?IHp1, ?IHp2, ?andb_true_r; auto; now rewrite ctypes_eqb.
Qed.

Lemma is_parser_ctype (p : parser T) : is_parser (ctype p) = true.
Proof. unfold is_parser. now rewrite parser_of_ctype. Qed.
Lemma are_parsers (ps : list (parser T)) : forallb is_parser (map ctype ps) = true.
Proof. induction ps as [|p ps IH]; cbn; auto. now rewrite is_parser_ctype. Qed.


Lemma all_parsers (ps : list (parser T)) : all_some (map parser_of (map ctype ps)) = Some ps.
Proof. apply all_some_map, Forall_forall. intros p _. apply parser_of_ctype. Qed.


(** *** Equations of deduction *)
Notation ded := (deduce cls_eqb cls_kind (atom_eqb O)).
Notation binds := (bind cls_eqb (atom_eqb O)).

Lemma ded_var v (p : parser T) s : ded (V v) (ctype p) s = binds s v [ctype p].
Proof. now destruct p. Qed.
Lemma ded_mvar v (m : modifier T) s : ded (V v) (mtype m) s = binds s v [mtype m].
Proof. now destruct m. Qed.
Lemma ded_of1 f v g x s : ded (of1 f v) (inst g [x]) s = if cls_eqb f g then ded (V v) x s else None.
Proof. cbn -[bind cls_eqb]. destruct (cls_eqb f g); auto. now destruct x; try destruct (binds s v _). Qed.
Lemma ded_ofs f v g ts s : ded (ofs f v) (inst g ts) s = if cls_eqb f g then binds s v ts else None.
Proof. reflexivity. Qed.

(** [t] is no instance of the templates [fs] *)
Definition other (fs : list cls) (t : cxx T) : Prop :=
  forall f ps pk s, existsb (cls_eqb f) fs = true -> ded (I f ps pk) t s = None.

Lemma other_inst fs g ts : existsb (cls_eqb g) fs = false -> other fs (inst g ts).
Proof.
  intros H f ps pk s Hf. cbn -[cls_eqb]. destruct (cls_eqb f g) eqn:E; auto.
  apply cls_eqb_spec in E. congruence.
Qed.
Lemma other_atom fs x : other fs (Atom x).
Proof. intros f ps pk s _. reflexivity. Qed.


(** *** Equality of deduced arguments *)
Notation same := (terms_eqb cls_eqb (atom_eqb O)).
Lemma same_parser p q : same [ctype p] [ctype q] = parser_eqb O p q.
Proof. cbn [terms_eqb]. now rewrite ctype_eqb, andb_true_r. Qed.
Lemma same_arr a b : same [Atom (AArr a)] [Atom (AArr b)] = list_eqb (eqb O) a b.
Proof. cbn. now rewrite andb_true_r. Qed.
Lemma same_parsers p ps q qs : same (ctype p :: map ctype ps) (ctype q :: map ctype qs) = parser_eqb O (PChoice p ps) (PChoice q qs).
Proof.
  cbn [parser_eqb terms_eqb]. rewrite ctype_eqb. f_equal.
  revert qs. induction ps as [|r ps IH]; intros [|r' qs]; cbn; auto. now rewrite ctype_eqb, IH.
Qed.

(** *** The heads that choice.h distinguishes *)
Definition heads_choice := [any_of_parser; none_of_parser; choice_parser].
Inductive head := HAny (a : list T) | HNone (a : list T) | HChoice (p : parser T) (ps : list (parser T)) | HOther.
Definition head_of (p : parser T) : head :=
  match p with PAnyOf a => HAny a | PNoneOf a => HNone a | PChoice p ps => HChoice p ps | _ => HOther end.

Lemma head_other p : head_of p = HOther -> other heads_choice (ctype p).
Proof. intros H. destruct p; try discriminate; first [apply other_inst; reflexivity|apply other_atom]. Qed.

Lemma viable2 {R} t u a b req (r : R) :
  viable cls_eqb cls_kind (atom_eqb O) [t; u] (Candidate [a; b] req r)
  = match ded a t [] with
    | Some s => match ded b u s with
                | Some s => if req s then Some (Candidate [a; b] req r, s) else None
                | None => None end
    | None => None end.
Proof. unfold viable. cbn [deduces c_params c_requires]. destruct (ded a t []); auto. destruct (ded b u s); auto. Qed.

Ltac ordering := repeat match goal with |- context [more_specialized ?a ?b ?c ?d] =>
  let r := eval vm_compute in (more_specialized a b c d) in change (more_specialized a b c d) with r end.

Lemma bind_new v ts : binds [] v ts = Some [(v, ts)].
Proof. reflexivity. Qed.
Lemma bind_more v w us ts : (v =? w) = false -> binds [(w, us)] v ts = Some [(v, ts); (w, us)].
Proof. intros H. unfold bind. cbn. now rewrite H. Qed.
Lemma bind_again v us ts : binds [(v, us)] v ts = if same us ts then Some [(v, us)] else None.
Proof. unfold bind. cbn. now rewrite Nat.eqb_refl. Qed.

Lemma ded_atom v x s : ded (V v) (Atom x) s = binds s v [Atom x].
Proof. reflexivity. Qed.


(** deduction from the types with these heads *)
Lemma d_any f v a s : ded (of1 f v) (ctype (PAnyOf a)) s = if cls_eqb f any_of_parser then binds s v [Atom (AArr a)] else None.
Proof. apply ded_of1. Qed.
Lemma d_none f v a s : ded (of1 f v) (ctype (PNoneOf a)) s = if cls_eqb f none_of_parser then binds s v [Atom (AArr a)] else None.
Proof. apply ded_of1. Qed.
Lemma d_all f v a s : ded (of1 f v) (ctype (PAllOf a)) s = if cls_eqb f all_of_parser then binds s v [Atom (AArr a)] else None.
Proof. apply ded_of1. Qed.
Lemma d_choice f v p ps s : ded (ofs f v) (ctype (PChoice p ps)) s = if cls_eqb f choice_parser then binds s v (ctype p :: map ctype ps) else None.
Proof. reflexivity. Qed.
Lemma d_sequence f v p ps s : ded (ofs f v) (ctype (PSequence p ps)) s = if cls_eqb f sequence_parser then binds s v (ctype p :: map ctype ps) else None.
Proof. reflexivity. Qed.
Lemma d_any' f v a s : ded (ofs f v) (ctype (PAnyOf a)) s = if cls_eqb f any_of_parser then binds s v [Atom (AArr a)] else None.
Proof. reflexivity. Qed.
Lemma d_none' f v a s : ded (ofs f v) (ctype (PNoneOf a)) s = if cls_eqb f none_of_parser then binds s v [Atom (AArr a)] else None.
Proof. reflexivity. Qed.
Lemma d_all' f v a s : ded (ofs f v) (ctype (PAllOf a)) s = if cls_eqb f all_of_parser then binds s v [Atom (AArr a)] else None.
Proof. reflexivity. Qed.
Lemma d_choice' f v p ps s : cls_eqb f choice_parser = false -> ded (of1 f v) (ctype (PChoice p ps)) s = None.
Proof. intros H. cbn -[cls_eqb]. now rewrite H. Qed.
Lemma d_sequence' f v p ps s : cls_eqb f sequence_parser = false -> ded (of1 f v) (ctype (PSequence p ps)) s = None.
Proof. intros H. cbn -[cls_eqb]. now rewrite H. Qed.
Lemma d_other1 fs t f v s : other fs t -> existsb (cls_eqb f) fs = true -> ded (of1 f v) t s = None.
Proof. intros H Hf. now apply H. Qed.
Lemma d_others fs t f v s : other fs t -> existsb (cls_eqb f) fs = true -> ded (ofs f v) t s = None.
Proof. intros H Hf. now apply H. Qed.

Ltac consts := repeat match goal with |- context [cls_eqb ?a ?b] =>
  let r := eval vm_compute in (cls_eqb a b) in change (cls_eqb a b) with r; cbv iota end.
Ltac deds := repeat progress (
  rewrite ?ded_var, ?d_any, ?d_none, ?d_all, ?d_choice, ?d_sequence, ?d_any', ?d_none', ?d_all', ?bind_new, ?bind_again,
    ?same_parser, ?same_arr, ?same_parsers;
  consts; rewrite ?d_choice', ?d_sequence', ?bind_more by reflexivity;
  repeat match goal with H : other _ ?t |- context [deduce _ _ _ ?p ?t ?s] =>
    first [rewrite (d_other1 _ t _ _ s H) by reflexivity | rewrite (d_others _ t _ _ s H) by reflexivity] end).
Ltac reqs := unfold parsers2, parser1, anything_goes, all_that;
  cbn [lookup Nat.eqb forallb andb]; rewrite ?is_parser_ctype, ?are_parsers; cbn [andb].
Ltac finish := cbn [app best forallb fst c_params andb]; ordering; cbn [andb c_is].

Lemma choice_default p q : match head_of p, head_of q with
    | HChoice _ _, _ | _, HChoice _ _ => False | HOther, _ | _, HOther => True | _, _ => False end ->
  choice_operator O p q = if parser_eqb O p q then p else PChoice p [q].
Proof. destruct p; try (intros []; fail); destruct q; cbn [head_of]; try (intros []; fail); reflexivity. Qed.
Lemma choice_left p1 ps q : match head_of q with HChoice _ _ => False | _ => True end ->
  choice_operator O (PChoice p1 ps) q = PChoice p1 (ps ++ [q]).
Proof. destruct q; cbn [head_of]; try (intros []; fail); reflexivity. Qed.
Lemma choice_right p q1 qs : match head_of p with HChoice _ _ => False | _ => True end ->
  choice_operator O p (PChoice q1 qs) = PChoice p (q1 :: qs).
Proof. destruct p; cbn [head_of]; try (intros []; fail); reflexivity. Qed.

Lemma head_cases p : (exists a, p = PAnyOf a) \/ (exists a, p = PNoneOf a) \/ (exists p1 ps, p = PChoice p1 ps) \/ head_of p = HOther.
Proof. destruct p; cbn; eauto. right; right; left; eauto. Qed.

Theorem C57_choice (p q : parser T) :
  resolves O (choice_set O) [ctype p; ctype q] = Calls (ctype (choice_operator O p q)).
Proof.
  unfold resolves, resolve, select, choice_set. unfold viables, fn. cbn [flat_map].
  rewrite !viable2.
  destruct (head_cases p) as [[a ->]|[[a ->]|[[p1 [ps ->]]|Hp]]], (head_cases q) as [[b ->]|[[b ->]|[[q1 [qs ->]]|Hq]]].
  all: try apply head_other in Hp as Hp'; try apply head_other in Hq as Hq'.
  all: deds; reqs.
  all: try match goal with |- context [list_eqb ?e ?a ?b] => destruct (list_eqb e a b) eqn:He end.
  all: try match goal with |- context [parser_eqb ?e ?a ?b] => destruct (parser_eqb e a b) eqn:Hpe end.
  all: reqs; finish.
  all: try (cbn [parser_eqb] in Hpe; congruence).
  all: try (apply (parser_eqb_spec O HO) in Hpe; subst; discriminate).
  all: try (cbn [choice_operator]; rewrite ?He; reflexivity).
  all: try (rewrite choice_default by (cbn [head_of]; rewrite ?Hp, ?Hq; exact Logic.I); rewrite Hpe; reflexivity).
  all: try (rewrite choice_left by (cbn [head_of]; rewrite ?Hq; exact Logic.I); cbn [ctype]; rewrite map_app; reflexivity).
  all: try (rewrite choice_right by (cbn [head_of]; rewrite ?Hp; exact Logic.I); reflexivity).
  all: cbn [choice_operator]; rewrite Hpe; cbn [ctype]; rewrite ?map_app; reflexivity.
Qed.

(** ** >> *)
Definition seq_other (p : parser T) : bool := match p with PAllOf _ | PSequence _ _ => false | _ => true end.
Lemma seq_cases p : (exists a, p = PAllOf a) \/ (exists p1 ps, p = PSequence p1 ps) \/ seq_other p = true.
Proof. destruct p; cbn; eauto. Qed.
Lemma seq_head p : seq_other p = true -> other [all_of_parser; sequence_parser] (ctype p).
Proof. intros H. destruct p; try discriminate; first [apply other_inst; reflexivity|apply other_atom]. Qed.
Lemma seq_default (p q : parser T) : match p, q with PSequence _ _, _ | _, PSequence _ _ => False | _, _ => True end ->
  seq_other p || seq_other q = true -> sequence_operator p q = PSequence p [q].
Proof. destruct p; try (intros []; fail); destruct q; try (intros []; fail); cbn; intros; congruence. Qed.
Lemma seq_left (p1 : parser T) ps q : match q with PSequence _ _ => False | _ => True end ->
  sequence_operator (PSequence p1 ps) q = PSequence p1 (ps ++ [q]).
Proof. destruct q; try (intros []; fail); reflexivity. Qed.
Lemma seq_right (p : parser T) q1 qs : match p with PSequence _ _ => False | _ => True end ->
  sequence_operator p (PSequence q1 qs) = PSequence p (q1 :: qs).
Proof. destruct p; try (intros []; fail); reflexivity. Qed.

Theorem C57_sequence (p q : parser T) :
  resolves O sequence_set [ctype p; ctype q] = Calls (ctype (sequence_operator p q)).
Proof.
  unfold resolves, resolve, select, sequence_set. unfold viables, fn. cbn [flat_map]. rewrite !viable2.
  destruct (seq_cases p) as [[a ->]|[[p1 [ps ->]]|Hp]], (seq_cases q) as [[b ->]|[[q1 [qs ->]]|Hq]].
  all: try apply seq_head in Hp as Hp'; try apply seq_head in Hq as Hq'.
  all: deds; reqs; finish.
  all: try (cbn [sequence_operator ctype]; rewrite ?map_app; reflexivity).
  all: try (rewrite seq_default by first [cbn; rewrite ?Hp, ?Hq; reflexivity | destruct p, q; cbn in *; try discriminate; exact Logic.I
     | destruct p; cbn in *; try discriminate; exact Logic.I| destruct q; cbn in *; try discriminate; exact Logic.I ]; reflexivity).
  all: try (rewrite seq_left by first [exact Logic.I|destruct q; cbn in *; try discriminate; exact Logic.I]; cbn [ctype]; rewrite map_app; reflexivity).
  all: rewrite seq_right by first [exact Logic.I|destruct p; cbn in *; try discriminate; exact Logic.I]; reflexivity.
Qed.

(** ** ~ + * ! *)
Lemma viable1 {R} t a req (r : R) :
  viable cls_eqb cls_kind (atom_eqb O) [t] (Candidate [a] req r)
  = match ded a t [] with
    | Some s => if req s then Some (Candidate [a] req r, s) else None
    | None => None end.
Proof. unfold viable. cbn [deduces c_params c_requires]. now destruct (ded a t []). Qed.

Lemma inner_ded v p : ded (V v) (ctype p) [] = Some [(v, [ctype p])].
Proof. now rewrite ded_var. Qed.

Lemma d_maybe f v p s : ded (of1 f v) (ctype (PMaybe p)) s = if cls_eqb f maybe_parser then binds s v [ctype p] else None.
Proof. cbn [ctype]. now rewrite ded_of1, ded_var. Qed.
Lemma d_plus f v p s : ded (of1 f v) (ctype (POneOrMore p)) s = if cls_eqb f one_or_more_parser then binds s v [ctype p] else None.
Proof. cbn [ctype]. now rewrite ded_of1, ded_var. Qed.
Lemma d_star f v p s : ded (of1 f v) (ctype (PZeroOrMore p)) s = if cls_eqb f zero_or_more_parser then binds s v [ctype p] else None.
Proof. cbn [ctype]. now rewrite ded_of1, ded_var. Qed.

Lemma repeat_resolves cm cp cs cd (p : parser T) :
  resolves O (repeat_set cm cp cs cd) [ctype p] =
  Calls (match p with
         | PMaybe q => inst cm [ctype q] | POneOrMore q => inst cp [ctype q] | PZeroOrMore q => inst cs [ctype q]
         | _ => inst cd [ctype p] end).
Proof.
  unfold resolves, resolve, select, repeat_set. unfold viables, fn. cbn [flat_map]. rewrite !viable1, inner_ded.
  destruct p.
  all: try (match goal with |- context [ded (of1 maybe_parser 0) ?t _] =>
        assert (H : other [maybe_parser; one_or_more_parser; zero_or_more_parser] t)
          by first [apply other_inst; reflexivity|apply other_atom] end;
    repeat rewrite (d_other1 _ _ _ _ _ H) by reflexivity; reqs; finish; reflexivity).
  all: rewrite ?d_maybe, ?d_plus, ?d_star; consts; rewrite bind_new; reqs; finish; reflexivity.
Qed.

Theorem C57_unary (p : parser T) :
  resolves O maybe_set [ctype p] = Calls (ctype (maybe_operator p)) /\
  resolves O one_or_more_set [ctype p] = Calls (ctype (one_or_more_operator p)) /\
  resolves O zero_or_more_set [ctype p] = Calls (ctype (zero_or_more_operator p)).
Proof. unfold maybe_set, one_or_more_set, zero_or_more_set. rewrite !repeat_resolves. now destruct p. Qed.

Theorem C57_not (p : parser T) :
  resolves O not_set [ctype p] = match not_operator p with Some q => Calls (ctype q) | None => Deleted end.
Proof.
  unfold resolves, resolve, select, not_set, deleted. unfold viables, fn. cbn [flat_map]. rewrite !viable1, inner_ded.
  destruct p.
  all: try (match goal with |- context [ded (of1 any_of_parser 0) ?t _] =>
        assert (H : other [any_of_parser; none_of_parser] t)
          by first [apply other_inst; reflexivity|apply other_atom] end;
    repeat rewrite (d_other1 _ _ _ _ _ H) by reflexivity; reqs; finish; reflexivity).
  all: deds; reqs; finish; reflexivity.
Qed.

(** ** The operators themselves *)
Definition eps : cxx T := inst epsilon_operator [].
Lemma other_eps p : other [epsilon_operator] (ctype p).
Proof. destruct p; first [apply other_inst; reflexivity|apply other_atom]. Qed.

Lemma ded_eps v s : ded (V v) eps s = binds s v [eps].
Proof. reflexivity. Qed.
Lemma ded_eps' s : ded (I epsilon_operator [] None) eps s = Some s.
Proof. reflexivity. Qed.
Lemma ded_no_eps p s : ded (I epsilon_operator [] None) (ctype p) s = None.
Proof. now apply (other_eps p). Qed.
Lemma eps_no_parser : is_parser eps = false.
Proof. reflexivity. Qed.

Lemma forward_choice p q : forward O (choice_set O) [ctype p; ctype q] = Some (ctype (choice_operator O p q)).
Proof. unfold forward. now rewrite C57_choice. Qed.

Theorem C57_or (p q : parser T) :
  resolves O (or_set O) [ctype p; ctype q] = Calls (ctype (choice_operator O p q)) /\
  resolves O (or_set O) [ctype p; eps] = Calls (ctype (or_epsilon O p)) /\
  resolves O (or_set O) [eps; ctype p] = Deleted /\
  resolves O (or_set O) [eps; eps] = NoViable.
Proof.
  unfold resolves, resolve, select, or_set, deleted. unfold viables, fn. cbn [flat_map]. rewrite !viable2.
  rewrite ?ded_var, ?ded_eps, ?ded_eps', ?ded_no_eps, ?bind_new.
  rewrite ?ded_var, ?ded_eps, ?ded_eps', ?ded_no_eps, ?bind_new, ?bind_more by reflexivity.
  reqs. rewrite ?eps_no_parser. cbn [andb]. finish. cbn [pack lookup Nat.eqb app]. rewrite forward_choice.
  change (inst epsilon_parser [Atom AValueType]) with (ctype (@PEpsilon T)). rewrite forward_choice. auto.
Qed.

Theorem C57_then (p q : parser T) :
  resolves O (then_set O) [ctype p; ctype q] = Calls (ctype (sequence_operator p q)).
Proof.
  unfold resolves, resolve, select, then_set. unfold viables, fn. cbn [flat_map]. rewrite !viable2. deds. reqs. finish.
  cbn [pack lookup Nat.eqb app]. unfold forward. now rewrite C57_sequence.
Qed.

(** ** % *)
Lemma is_modifier_mtype (m : modifier T) : is_modifier (mtype m) = true.
Proof. unfold is_modifier. now rewrite modifier_of_mtype. Qed.
Lemma are_modifiers (ms : list (modifier T)) : forallb is_modifier (map mtype ms) = true.
Proof. induction ms as [|m ms IH]; cbn; auto. now rewrite is_modifier_mtype. Qed.
Lemma parser_no_modifier (p : parser T) : is_modifier (ctype p) = false.
Proof. unfold is_modifier. now rewrite no_modifier. Qed.
Lemma modifier_no_parser (m : modifier T) : is_parser (mtype m) = false.
Proof. unfold is_parser. now rewrite no_parser. Qed.

Definition single (m : modifier T) : bool := match m with MMulti _ => false | _ => true end.
Lemma multi_cases m : (exists ms, m = MMulti ms) \/ single m = true.
Proof. destruct m; cbn; eauto. Qed.
Lemma single_other m : single m = true -> other [multi_modifier] (mtype m).
Proof. destruct m; try discriminate; intros _; apply other_inst; reflexivity. Qed.
Lemma parser_other p : other [multi_modifier] (ctype p).
Proof. destruct p; first [apply other_inst; reflexivity|apply other_atom]. Qed.
Lemma d_multi f v ms s : ded (ofs f v) (mtype (MMulti ms)) s = if cls_eqb f multi_modifier then binds s v (map mtype ms) else None.
Proof. reflexivity. Qed.
Lemma single_default a b : single a = true -> single b = true -> modifier_operator a b = MMulti [a; b].
Proof. destruct a; try discriminate; destruct b; try discriminate; reflexivity. Qed.
Lemma single_right a r : single a = true -> modifier_operator a (MMulti r) = MMulti (a :: r).
Proof. destruct a; try discriminate; reflexivity. Qed.
Lemma single_left l b : single b = true -> modifier_operator (MMulti l) b = MMulti (l ++ [b]).
Proof. destruct b; try discriminate; reflexivity. Qed.

Ltac mdeds := repeat progress (deds; rewrite ?ded_mvar, ?d_multi; consts).
Ltac mreqs := unfold modifiers2; reqs; rewrite ?parser_no_modifier, ?modifier_no_parser, ?is_modifier_mtype, ?are_modifiers; cbn [andb].

Theorem C57_percent (a b : object T) :
  resolves O percent_set [otype a; otype b] = match percent a b with Some o => Calls (otype o) | None => NoViable end.
Proof.
  unfold resolves, resolve, select, percent_set. unfold viables, fn. cbn [flat_map]. rewrite !viable2.
  destruct a as [p|a], b as [q|b]; cbn [otype percent].
  - pose proof (parser_other p) as Hp. pose proof (parser_other q) as Hq. mdeds. mreqs. reflexivity.
  - pose proof (parser_other p) as Hp.
    destruct (multi_cases b) as [[ms ->]|Hb]; [|apply single_other in Hb as Hb'].
    all: mdeds; mreqs; unfold calls at 1; cbn [pack lookup Nat.eqb]; rewrite parser_of_ctype, modifier_of_mtype.
    all: match goal with |- context [Modifiers.call ?m ?q] => destruct (Modifiers.call m q) as [o|] eqn:E end; cbn [option_map]; finish; auto.
    all: unfold calls; cbn [pack lookup Nat.eqb]; rewrite parser_of_ctype, modifier_of_mtype, E; reflexivity.
  - pose proof (parser_other q) as Hq. 
    destruct (multi_cases a) as [[ms ->]|Ha]; [|apply single_other in Ha as Ha'].
    all: mdeds; mreqs; reflexivity.
  - destruct (multi_cases a) as [[l ->]|Ha]; [|apply single_other in Ha as Ha'];
      (destruct (multi_cases b) as [[r ->]|Hb]; [|apply single_other in Hb as Hb']).
    all: mdeds; mreqs; finish; cbn [pack lookup Nat.eqb app otype].
    + cbn [modifier_operator mtype]. now rewrite map_app.
    + rewrite single_left by assumption. cbn [mtype]. now rewrite map_app.
    + now rewrite single_right by assumption.
    + now rewrite single_default by assumption.
Qed.

(** ** The specialisations of join_parser *)
Lemma join_select (p : parser T) :
  selects O join_specs [ctype p] =
  match p with
  | PExactly (PAnyOf a) n => Selected join_exactly [(2, [Atom (ANum n)]); (1, [Atom (AArr a)]); (0, [inst any_of_parser []])]
  | PExactly (PNoneOf a) n => Selected join_exactly [(2, [Atom (ANum n)]); (1, [Atom (AArr a)]); (0, [inst none_of_parser []])]
  | PExactly (PAllOf a) n => Selected join_exactly [(2, [Atom (ANum n)]); (1, [Atom (AArr a)]); (0, [inst all_of_parser []])]
  | PMaybe (PAnyOf a) => Selected join_maybe [(1, [Atom (AArr a)]); (0, [inst any_of_parser []])]
  | PMaybe (PNoneOf a) => Selected join_maybe [(1, [Atom (AArr a)]); (0, [inst none_of_parser []])]
  | PMaybe (PAllOf a) => Selected join_maybe [(1, [Atom (AArr a)]); (0, [inst all_of_parser []])]
  | POneOrMore (PAnyOf a) => Selected join_one_or_more [(1, [Atom (AArr a)]); (0, [inst any_of_parser []])]
  | POneOrMore (PNoneOf a) => Selected join_one_or_more [(1, [Atom (AArr a)]); (0, [inst none_of_parser []])]
  | POneOrMore (PAllOf a) => Selected join_one_or_more [(1, [Atom (AArr a)]); (0, [inst all_of_parser []])]
  | PZeroOrMore (PAnyOf a) => Selected join_zero_or_more [(1, [Atom (AArr a)]); (0, [inst any_of_parser []])]
  | PZeroOrMore (PNoneOf a) => Selected join_zero_or_more [(1, [Atom (AArr a)]); (0, [inst none_of_parser []])]
  | PZeroOrMore (PAllOf a) => Selected join_zero_or_more [(1, [Atom (AArr a)]); (0, [inst all_of_parser []])]
  | _ => NoneViable
  end.
Proof. destruct p; try reflexivity; destruct p; reflexivity. Qed.

(** [Basic<arr>] *)
Definition basic_of (s : args T) : option (parser T) :=
  match pack s 0 with [Inst b []] => parser_of (Inst b (pack s 1)) | _ => None end.
Definition count_of (s : args T) : nat := match pack s 2 with [Atom (ANum n)] => n | _ => 0 end.

Theorem C57_join {W : Type} (E : env T W) (k : nat) (p : parser T) :
  (forall q, p <> PExactly q 0) ->
  match selects O join_specs [ctype p] with
  | NoneViable => join_special E p k = None
  | Tie => False
  | Selected c s =>
      exists b fc len, basic_of s = Some b /\ as_basic E b = Some (fc, len) /\
      p = match c with join_exactly => PExactly b (count_of s) | join_maybe => PMaybe b
                     | join_one_or_more => POneOrMore b | join_zero_or_more => PZeroOrMore b end /\
      join_special E p k = Some (fun m => match c, m with
        | join_exactly, Parse => jx_parse fc len (count_of s) | join_exactly, Look => jx_look fc len (count_of s)
        | join_maybe, Parse => jm_parse fc len | join_maybe, Look => jm_look fc len
        | join_one_or_more, Parse => jo_parse fc len k | join_one_or_more, Look => jo_look fc len k
        | join_zero_or_more, Parse => jz_parse fc len k | join_zero_or_more, Look => jz_look fc len k end)
  end.
Proof.
  intros H. rewrite join_select. destruct p; try reflexivity; destruct p; try reflexivity.
  4-6: match goal with H : forall q, PExactly _ ?n <> _ |- _ => destruct n; [now destruct (H _ eq_refl)|] end.
  all: do 3 eexists; split; [reflexivity|]; split; [reflexivity|]; split; reflexivity.
Qed.

(** ** substitute_one *)
Section Sub.
Variables (name : string) (md : cxx T).
Let sub : cxx T := inst substitution_info [Atom (AName name); md].
Variables (f : parser T -> option (parser T)) (g : cxx T -> option (cxx T)).
Hypothesis Hg : forall p, g (ctype p) = option_map ctype (f p).

Notation sel t := (selects O (sub_specs O) [t; sub]).
Notation subs := (substitutes O sub g).

Lemma viables_sub t : viables cls_eqb cls_kind (atom_eqb O) [t; sub] (sub_specs O) =
  flat_map (fun c => match viable cls_eqb cls_kind (atom_eqb O) [t; sub] c with Some v => [v] | None => [] end) (sub_specs O).
Proof. reflexivity. Qed.

Lemma sel_named p s :
  sel (ctype (PNamed p s)) =
  Selected (if String.eqb name s then sub_found else sub_other) [(2, [sub]); (1, [Atom (AName s)]); (0, [ctype p])].
Proof.
  unfold selects, select. rewrite viables_sub. unfold sub_specs. cbn [flat_map]. rewrite !viable2.
  replace (ded (I named_parser [V 0; V 1] None) (ctype (PNamed p s)) []) with (Some [(1, [Atom (AName s)]); (0, [ctype p])] : option (args T)).
  2: { now destruct p. }
  cbn -[ctype is_parser best parser1 same_name]. unfold parser1, all_that. cbn -[ctype is_parser best same_name].
  rewrite is_parser_ctype. cbn -[ctype best same_name].
  repeat match goal with |- context [same_name O ((2, ?a) :: ?x)] =>
    replace (same_name O ((2, a) :: x)) with (String.eqb name s) by (cbn; now rewrite ?andb_true_r) end.
  destruct (String.eqb name s); reflexivity.
Qed.

Lemma sel_inside c ts : cls_kind c = KTypes ->
  sel (inst c ts) = Selected sub_inside [(2, [sub]); (1, ts); (0, [inst c []])].
Proof. intros H. destruct c; try discriminate; reflexivity. Qed.
Lemma sel_atom x : sel (Atom x) = NoneViable.
Proof. reflexivity. Qed.
Lemma sel_value c ts : cls_kind c = KValue -> sel (inst c ts) = NoneViable.
Proof. intros H. destruct c; try discriminate; reflexivity. Qed.

Lemma sub_none t u : sel t = NoneViable -> (subs t u <-> u = t).
Proof.
  intros H. split; [|intros ->; now apply S_primary].
  inversion 1; subst; auto; congruence.
Qed.
Lemma sub_within c ts u : cls_kind c = KTypes -> (subs (inst c ts) u <-> exists us, u = inst c us /\ Forall2 subs ts us).
Proof.
  intros Hk. pose proof (sel_inside c ts Hk) as H. split.
  - inversion 1 as [? E|? ? ? ? ? E|? ? ? ? ? E|? s c' us E Hs Hf]; subst; rewrite H in E; try discriminate.
    injection E as <-. cbn in Hs, Hf. injection Hs as <-. exists us. auto.
  - intros [us [-> Hf]]. eapply S_inside; [exact H|reflexivity|exact Hf].
Qed.
Lemma sub_named p s u : subs (ctype (PNamed p s)) u <->
  exists v, subs (ctype p) v /\ if String.eqb name s then g v = Some u else u = inst named_parser [v; Atom (AName s)].
Proof.
  pose proof (sel_named p s) as H. split.
  - inversion 1 as [? E|? s' q q' u' E Hp Hr Hm|? s' q str q' E Hp Hs Hr|? s' c' us E Hs Hf]; subst; rewrite H in E;
      destruct (String.eqb name s); try discriminate; injection E as <-; cbn in *; try discriminate.
    + injection Hp as <-. eauto.
    + injection Hp as <-. injection Hs as <-. eauto.
  - intros [v [Hv E]]. destruct (String.eqb name s).
    + eapply S_found; [exact H|reflexivity|exact Hv|exact E].
    + subst u. eapply S_other; [exact H|reflexivity|reflexivity|exact Hv].
Qed.

Definition agrees (p : parser T) : Prop :=
  forall u, subs (ctype p) u <-> exists p', substitute_one name f p = Some p' /\ u = ctype p'.

Lemma sub_atom x u : subs (Atom x) u <-> u = Atom x.
Proof. apply sub_none, sel_atom. Qed.

Lemma agree_list ps : Forall agrees ps -> forall us,
  Forall2 subs (map ctype ps) us <-> exists ps', all_some (map (substitute_one name f) ps) = Some ps' /\ us = map ctype ps'.
Proof.
  induction 1 as [|p ps Hp Hps IH]; intros us; cbn [map all_some].
  - split; [inversion 1; exists []; auto|intros [ps' [E ->]]]. injection E as <-. constructor.
  - split.
    + inversion 1 as [|? u ? us' H1 H2]; subst. apply Hp in H1 as [p' [-> ->]]. apply IH in H2 as [ps' [-> ->]]. exists (p' :: ps'). auto.
    + intros [l [E ->]]. destruct (substitute_one name f p) as [p'|] eqn:Ep; [|discriminate].
      destruct (all_some (map (substitute_one name f) ps)) as [ps'|] eqn:Eps; [|discriminate]. injection E as <-. cbn [map].
      constructor; [apply Hp; eauto|apply IH; eauto].
Qed.

Lemma agree1 p : agrees p -> forall us, Forall2 subs [ctype p] us <-> exists p', substitute_one name f p = Some p' /\ us = [ctype p'].
Proof.
  intros Hp us. split.
  - inversion 1 as [|? u ? us' H1 H2]; subst. inversion H2; subst. apply Hp in H1 as [p' [? ->]]. eauto.
  - intros [p' [E ->]]. constructor; [apply Hp; eauto|constructor].
Qed.
Lemma agree2 p x : agrees p -> forall us, Forall2 subs [ctype p; Atom x] us <-> exists p', substitute_one name f p = Some p' /\ us = [ctype p'; Atom x].
Proof.
  intros Hp us. split.
  - inversion 1 as [|? u ? us' H1 H2]; subst. inversion H2 as [|? v ? us'' H3 H4]; subst. inversion H4; subst.
    apply sub_atom in H3 as ->. apply Hp in H1 as [p' [? ->]]. eauto.
  - intros [p' [E ->]]. constructor; [apply Hp; eauto|constructor; [now apply sub_atom|constructor]].
Qed.

Theorem C57_substitute (p : parser T) (u : cxx T) :
  subs (ctype p) u <-> exists p', substitute_one name f p = Some p' /\ u = ctype p'.
Proof.
  revert u. change (agrees p). induction p using parser_ind'; intros u.
  all: try (cbn [ctype substitute_one]; rewrite sub_none by (first [now apply sel_value|reflexivity]);
            split; [intros ->; eauto|intros [p' [E ->]]; now injection E as <-]).
  all: try (cbn [ctype substitute_one]; rewrite sub_within by reflexivity;
     first [setoid_rewrite (agree1 p IHp)|setoid_rewrite (agree2 p _ IHp)];
     split; [intros [us [-> [p' [-> ->]]]]; eexists; split; [reflexivity|reflexivity]|];
     intros [p' [E ->]]; destruct (substitute_one name f p) as [q|]; [injection E as <-|discriminate];
     eexists; split; [reflexivity|eauto]; fail).
  1, 2: cbn [ctype substitute_one]; rewrite sub_within by reflexivity; split;
      [intros [us [-> H]]; inversion H as [|? v ? us' H1 H2]; subst; inversion H2; subst; apply sub_atom in H1 as ->; eauto
      |intros [p' [E ->]]; injection E as <-; eexists; split; [reflexivity|constructor; [now apply sub_atom|constructor]]].
  1, 2: cbn [ctype substitute_one]; rewrite sub_within by reflexivity;
    change (ctype p :: map ctype qs) with (map ctype (p :: qs)); setoid_rewrite (agree_list (p :: qs) ltac:(constructor; assumption));
    cbn [map all_some]; split;
    [intros [us [-> [ps' [E ->]]]]; destruct (substitute_one name f p) as [p'|]; [|discriminate];
       destruct (all_some _) as [qs'|]; [injection E as <-; eauto|discriminate]
    |intros [p' [E ->]]; destruct (substitute_one name f p) as [q|]; [|discriminate];
       destruct (all_some _) as [qs'|]; [injection E as <-|discriminate]; exists (map ctype (q :: qs')); split; [reflexivity|eauto]].
  - cbn [ctype substitute_one]. rewrite sub_within by reflexivity.
    change [ctype p1; ctype p2] with (map ctype [p1; p2]). setoid_rewrite (agree_list [p1; p2] (Forall_cons _ IHp1 (Forall_cons _ IHp2 (Forall_nil _)))).
    cbn [map all_some]. split.
    + intros [us [-> [ps' [E ->]]]]. destruct (substitute_one name f p1) as [q1|]; [|discriminate].
      destruct (substitute_one name f p2) as [q2|]; [|discriminate]. injection E as <-. eauto.
    + intros [p' [E ->]]. destruct (substitute_one name f p1) as [q1|]; [|discriminate].
      destruct (substitute_one name f p2) as [q2|]; [|discriminate]. injection E as <-. exists (map ctype [q1; q2]). split; [reflexivity|eauto].
  - rewrite sub_named. cbn [substitute_one]. split.
    + intros [v [Hv E]]. apply IHp in Hv as [p' [-> ->]]. destruct (String.eqb name s); [|subst u; now exists (PNamed p' s)].
      rewrite Hg in E. destruct (f p') as [q|]; [|discriminate]. injection E as <-. eauto.
    + intros [p' [E ->]]. destruct (substitute_one name f p) as [q|] eqn:Eq; [|discriminate]. exists (ctype q). split; [apply IHp; eauto|].
      destruct (String.eqb name s); [now rewrite Hg, E|injection E as <-; reflexivity].
Qed.
End Sub.

(** "Matches" means what it should: a list of argument types is deduced from exactly if it is
    the parameter list with the template parameters replaced. *)
Lemma atom_eqb_spec (x y : atom T) : atom_eqb O x y = true <-> x = y.
Proof.
  destruct x, y; cbn; try (split; congruence).
  - rewrite (arr_eqb_spec O HO). split; congruence.
  - rewrite Nat.eqb_eq. split; congruence.
  - rewrite func_eqb_spec. split; congruence.
  - rewrite String.eqb_eq. split; congruence.
  - rewrite ty_eqb_spec. split; congruence.
  - rewrite Nat.eqb_eq. split; congruence.
  - rewrite Nat.eqb_eq. split; congruence.
Qed.
Theorem C57_deduction (ps : list (pat cls)) (ts : list (cxx T)) : Forall clean ts ->
  ((exists s, deduces cls_eqb cls_kind (atom_eqb O) ps ts [] = Some s) <->
   exists a, Forall (proper cls_kind a) ps /\ map (instance a) ps = ts).
Proof.
  intros Hc. split.
  - intros [s E]. exists (fun v => match lookup s v with Some ts => ts | None => [] end).
    destruct (deduces_sound cls_eqb cls_kind cls_eqb_spec (atom_eqb O) atom_eqb_spec ps ts s E Hc
                (fun v => match lookup s v with Some ts => ts | None => [] end)) as [H1 H2]; auto.
    intros v us H. now rewrite H.
  - intros [a [H <-]]. destruct (deduces_complete cls_eqb cls_kind cls_eqb_spec (atom_eqb O) atom_eqb_spec ps a H) as [s [E _]]. eauto.
Qed.
Lemma clean_ctype (p : parser T) : clean (ctype p).
Proof. induction p using parser_ind'; cbn; auto; split; auto; induction H as [|q qs Hq Hqs IH]; cbn; auto. Qed.

(** No operator expression is ambiguous, and only [!] and [eps |] hit a deleted overload. *)
Theorem C57_unambiguous (p q : parser T) (a b : object T) :
  resolves O (choice_set O) [ctype p; ctype q] <> Ambiguous /\ resolves O (or_set O) [ctype p; ctype q] <> Ambiguous /\
  resolves O sequence_set [ctype p; ctype q] <> Ambiguous /\
  resolves O maybe_set [ctype p] <> Ambiguous /\ resolves O one_or_more_set [ctype p] <> Ambiguous /\
  resolves O zero_or_more_set [ctype p] <> Ambiguous /\ resolves O not_set [ctype p] <> Ambiguous /\
  resolves O percent_set [otype a; otype b] <> Ambiguous.
Proof.
  rewrite C57_choice, C57_sequence, C57_not, C57_percent.
  destruct (C57_or p q) as [-> _]. destruct (C57_unary p) as [-> [-> ->]].
  destruct (not_operator p), (percent a b); repeat split; discriminate.
Qed.
End Ov.

(** Concrete operands: sets with a common element, a choice with itself, a named part that
    is replaced, a join with a specialisation. *)
Definition ab : parser nat := PAnyOf [97; 98].
Definition nbc : parser nat := PNoneOf [98; 99].
Definition either : parser nat := PChoice ab [PAllOf [100]].
Example C57_case :
  resolves nat_order (choice_set nat_order) [ctype ab; ctype nbc] = Calls (ctype (PNoneOf [99])) /\
  resolves nat_order (choice_set nat_order) [ctype either; ctype either] = Calls (ctype either) /\
  resolves nat_order sequence_set [ctype either; ctype (PSequence ab [nbc])] = Calls (ctype (PSequence either [ab; nbc])) /\
  selects nat_order join_specs [ctype (PExactly ab 3)]
    = Selected join_exactly [(2, [Atom (ANum 3)]); (1, [Atom (AArr [97; 98])]); (0, [inst any_of_parser []])].
Proof. repeat split. Qed.

Example C57_case_sub :
  substitutes nat_order (inst substitution_info [Atom (AName "x"); mtype (@MIgnore nat)])
    (fun t => option_map (fun p => ctype (PIgnore p)) (parser_of t))
    (ctype (PSequence (PNamed ab "x") [PNamed nbc "y"])) (ctype (PSequence (PIgnore ab) [PNamed nbc "y"])).
Proof.
  apply (C57_substitute nat_order "x" _ (fun p => Some (PIgnore p))).
  - intros p. now rewrite parser_of_ctype.
  - eexists. split; reflexivity.
Qed.

(** The rules do tell programs apart: without choice.h:74-78, [P | P] for a choice P would be
    ambiguous between (choice<P1s...>, choice<P2s...>) and (P, P); without :67-72 two choices
    would be between :80-84 and :86-90; a second default overload ties with the first. *)
Definition without (n : nat) {A} (l : list A) : list A := firstn n l ++ skipn (S n) l.
Example C57_needed :
  resolves nat_order (without 9 (choice_set nat_order)) [ctype either; ctype either] = Ambiguous /\
  resolves nat_order (without 8 (choice_set nat_order)) [ctype either; ctype (PChoice ab [ab])] = Ambiguous /\
  resolves nat_order (sequence_set ++ [fn [V 0; V 1] parsers2 (fun _ => ctype ab)]) [ctype ab; ctype ab] = Ambiguous.
Proof. repeat split. Qed.

Print Assumptions C57_choice.
Print Assumptions C57_sequence.
Print Assumptions C57_unary.
Print Assumptions C57_not.
Print Assumptions C57_or.
Print Assumptions C57_then.
Print Assumptions C57_percent.
Print Assumptions C57_join.
Print Assumptions C57_substitute.
Print Assumptions C57_unambiguous.
Print Assumptions C57_deduction.
