(** * The operators of detail/operators and the literals of basic.h *)
From Coq Require Import String List Arith Bool Lia.
From Verif Require Import Types Compound CompoundFacts Parser Typing StaticArray.
Import ListNotations.

(** ** Identity of parser types *)
Fixpoint func_eqb (f g : func) : bool :=
  match f, g with
  | FUser n, FUser m => n =? m
  | FApply f, FApply g => func_eqb f g
  | FConstant n, FConstant m => n =? m
  | FConstruct t, FConstruct u => ty_eqb t u
  | FDefault t, FDefault u => ty_eqb t u
  | _, _ => false
  end.

Definition list_eqb {A} (e : A -> A -> bool) : list A -> list A -> bool :=
  fix go l l' := match l, l' with
  | [], [] => true
  | a :: l, b :: l' => e a b && go l l'
  | _, _ => false
  end.

Section Operators.
Context {T : Type} (O : order T).

(** [std::is_same_v] of two parser types: same template, same arguments (static_array
    arguments are the same iff their elements are). *)
Fixpoint parser_eqb (p q : parser T) : bool :=
  match p, q with
  | PAnyOf a, PAnyOf b | PNoneOf a, PNoneOf b | PAllOf a, PAllOf b => list_eqb (eqb O) a b
  | PAnything, PAnything | PEpsilon, PEpsilon => true
  | PChoice p ps, PChoice q qs | PSequence p ps, PSequence q qs => parser_eqb p q && list_eqb parser_eqb ps qs
  | PMaybe p, PMaybe q | POneOrMore p, POneOrMore q | PZeroOrMore p, PZeroOrMore q | PIgnore p, PIgnore q
  | PComplete p, PComplete q | PJoin p, PJoin q => parser_eqb p q
  | PExactly p n, PExactly q m => parser_eqb p q && (n =? m)
  | PDelimit p d, PDelimit q e => parser_eqb p q && parser_eqb d e
  | PMap p f, PMap q g | PFilter p f, PFilter q g => parser_eqb p q && func_eqb f g
  | PNamed p s, PNamed q t => parser_eqb p q && String.eqb s t
  | PCustom c, PCustom d => c =? d
  | _, _ => false
  end.

(** ** Literals, basic.h:14-80.  [sort] stands for [std::ranges::sort] (StaticArray.v). *)
Variable sort : list T -> list T.

(** basic.h:14-19, :38-48 [any], [any_of], [_any], [_any_of] *)
Definition any (arr : list T) : parser T := PAnyOf (sort_and_unique O sort arr).
(** basic.h:21-26, :50-60 [none], [none_of], [_none], [_none_of] *)
Definition none (arr : list T) : parser T := PNoneOf (sort_and_unique O sort arr).
(** basic.h:28-33, :62-72 [all], [all_of], [_all], [_all_of] *)
Definition all (arr : list T) : parser T := PAllOf arr.
(** basic.h:35-36, :74-78 [ign], [_ign] *)
Definition ign (arr : list T) : parser T := PIgnore (PAllOf arr).

(** ** operator|, operators/choice.h:15-110.  One branch per overload; which overload is the
    best match is represented by the order of the branches. *)
Definition choice_operator (p q : parser T) : parser T :=
  match p, q with
  | PAnyOf a, PAnyOf b =>
      if list_eqb (eqb O) a b then PAnyOf a                       (* :15-19 *)
      else PAnyOf (set_operation O set_union a b)                 (* :39-44 *)
  | PNoneOf a, PNoneOf b =>
      if list_eqb (eqb O) a b then PNoneOf a                      (* :21-25 *)
      else PNoneOf (set_operation O set_intersection a b)         (* :46-51 *)
  | PAnyOf a, PNoneOf b =>
      if list_eqb (eqb O) a b then PNoneOf []                     (* :27-31 *)
      else PNoneOf (set_operation O set_difference_right a b)     (* :53-58 *)
  | PNoneOf a, PAnyOf b =>
      if list_eqb (eqb O) a b then PNoneOf []                     (* :33-37 *)
      else PNoneOf (set_operation O set_difference_left a b)      (* :60-65 *)
  | PChoice p1 ps, PChoice q1 qs =>
      if parser_eqb p q then p                                    (* :74-78 *)
      else PChoice p1 (ps ++ q1 :: qs)                            (* :67-72 *)
  | PChoice p1 ps, _ => PChoice p1 (ps ++ [q])                    (* :80-84 *)
  | _, PChoice q1 qs => PChoice p (q1 :: qs)                      (* :86-90 *)
  | _, _ => if parser_eqb p q then p                              (* :98-102 *)
            else PChoice p [q]                                    (* :92-96 *)
  end.

(** operators/epsilon.h:17-21 [operator|(P, epsilon_operator)]; the reverse order is deleted *)
Definition or_epsilon (p : parser T) : parser T := choice_operator p PEpsilon.

(** ** operator>>, operators/sequence.h:13-51 *)
Definition sequence_operator (p q : parser T) : parser T :=
  match p, q with
  | PAllOf a, PAllOf b => PAllOf (a ++ b)                         (* :13-18, static_array.h:144-153 *)
  | PSequence p1 ps, PSequence q1 qs => PSequence p1 (ps ++ q1 :: qs)   (* :20-25 *)
  | PSequence p1 ps, _ => PSequence p1 (ps ++ [q])                (* :27-31 *)
  | _, PSequence q1 qs => PSequence p (q1 :: qs)                  (* :33-37 *)
  | _, _ => PSequence p [q]                                       (* :39-43 *)
  end.

(** ** operator~, operators/maybe.h:14-44 *)
Definition maybe_operator (p : parser T) : parser T :=
  match p with
  | PMaybe q => PMaybe q
  | POneOrMore q => PZeroOrMore q
  | PZeroOrMore q => PZeroOrMore q
  | _ => PMaybe p
  end.

(** ** unary operator+, operators/one_or_more.h:14-44 *)
Definition one_or_more_operator (p : parser T) : parser T :=
  match p with
  | PMaybe q => PZeroOrMore q
  | POneOrMore q => POneOrMore q
  | PZeroOrMore q => PZeroOrMore q
  | _ => POneOrMore p
  end.

(** ** unary operator*, operators/zero_or_more.h:14-44 *)
Definition zero_or_more_operator (p : parser T) : parser T :=
  match p with
  | PMaybe q => PZeroOrMore q
  | POneOrMore q => PZeroOrMore q
  | PZeroOrMore q => PZeroOrMore q
  | _ => PZeroOrMore p
  end.

(** ** operator!, operators/not.h:13-35; [None] = deleted *)
Definition not_operator (p : parser T) : option (parser T) :=
  match p with
  | PAnyOf arr => Some (PNoneOf arr)
  | PNoneOf arr => Some (PAnyOf arr)
  | _ => None
  end.

(** ** Facts about identity *)
Lemma list_eqb_spec {A} (e : A -> A -> bool) l : Forall (fun a => forall b, e a b = true <-> a = b) l ->
  forall l', list_eqb e l l' = true <-> l = l'.
Proof.
  induction 1 as [|a l Ha Hl IH]; intros [|b l']; cbn; split; intros H; try discriminate; auto.
  - apply andb_true_iff in H as [H1 H2]. f_equal; [now apply Ha|now apply IH].
  - injection H as -> ->. apply andb_true_iff. split; [now apply Ha|now apply IH].
Qed.

Lemma func_eqb_spec f : forall g, func_eqb f g = true <-> f = g.
Proof.
  induction f; intros [| | | |]; cbn; split; intros H; try discriminate; try (injection H as <-);
    try (f_equal; first [now apply Nat.eqb_eq|now apply IHf|now apply ty_eqb_spec]);
    try (now apply Nat.eqb_eq); try (now apply IHf); try (now apply ty_eqb_spec).
Qed.

Hypothesis HO : lawful O.

Lemma arr_eqb_spec a b : list_eqb (eqb O) a b = true <-> a = b.
Proof. apply list_eqb_spec. apply Forall_forall. intros x _ y. apply (eq_spec O HO). Qed.

Lemma parser_eqb_spec p : forall q, parser_eqb p q = true <-> p = q.
Proof.
  induction p using parser_ind'; intros q'; destruct q'; cbn [parser_eqb]; split; intros HH; try discriminate; auto;
    try (injection HH; intros; subst);
    repeat match goal with
    | H : _ && _ = true |- _ => apply andb_true_iff in H as [? ?]
    | |- _ && _ = true => apply andb_true_iff; split
    | H : list_eqb (eqb O) _ _ = true |- _ => apply arr_eqb_spec in H
    | |- list_eqb (eqb O) _ _ = true => apply arr_eqb_spec
    | IH : forall q, parser_eqb ?p q = true <-> ?p = q, H : parser_eqb ?p _ = true |- _ => apply IH in H
    | IH : forall q, parser_eqb ?p q = true <-> ?p = q |- parser_eqb ?p _ = true => apply IH
    | IH : Forall _ ?ps, H : list_eqb parser_eqb ?ps _ = true |- _ => apply (list_eqb_spec parser_eqb ps IH) in H
    | IH : Forall _ ?ps |- list_eqb parser_eqb ?ps _ = true => apply (list_eqb_spec parser_eqb ps IH)
    | H : (_ =? _) = true |- _ => apply Nat.eqb_eq in H
    | |- (_ =? _) = true => apply Nat.eqb_eq
    | H : func_eqb _ _ = true |- _ => apply func_eqb_spec in H
    | |- func_eqb _ _ = true => apply func_eqb_spec
    | H : String.eqb _ _ = true |- _ => apply String.eqb_eq in H
    | |- String.eqb _ _ = true => apply String.eqb_eq
    end; subst; auto.
Qed.

Lemma parser_eqb_refl p : parser_eqb p p = true.
Proof. now apply parser_eqb_spec. Qed.
End Operators.
