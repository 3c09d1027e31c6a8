(** * How the result of get_parser() becomes the result of a custom parser

    custom.h:41-47 returns [result<T2, V>], what get_parser()'s parser gave, from a function
    that returns [result<T, V>].  Which constructors that goes through is decided by overload
    resolution, first among those of [result] (result.h:22-39, :72-78), then, in the
    initialiser [_result(std::move(other)._result)] of result.h:39, among those of
    [std::optional<T>] ([optional.ctor], C++20).  The rest of the model has the outcome only
    ([conv] in Parser.v).

    What is constructible from or convertible to what is given.  T and T2 are not references
    and not cv-qualified.  Simplified: conversions that are themselves ambiguous. *)
From Coq Require Import String List Arith ZArith Bool Lia.
From Verif Require Import Types Parser.
Import ListNotations.

(** An argument: an expression of type [t], const or not, lvalue or rvalue *)
Record arg := Arg { a_const : bool; a_lvalue : bool; a_type : ty }.
Definition rvalue (t : ty) : arg := Arg false false t.
Definition const_lvalue (t : ty) : arg := Arg true true t.

(** How an argument meets a parameter, [over.ics.rank]: 0 an rvalue bound to an rvalue
    reference; 1 bound to a const lvalue reference; 2 and 3 a user-defined conversion, then 0 and 1.
    Then, [over.match.best]: a template loses to a function that is not one, and to a more
    specialised template. *)
Record cand {C : Type} := Cand { c_rank : nat; c_general : nat; c_what : C }.
Arguments cand : clear implicits.
Arguments Cand {C}.
Definition beats {C} (x y : cand C) : bool :=
  (c_rank x <? c_rank y) || ((c_rank x =? c_rank y) && (c_general x <? c_general y)).
Inductive chosen (C : Type) := NoViable | Ambiguous | Chosen (c : C).
Arguments NoViable {C}. Arguments Ambiguous {C}. Arguments Chosen {C}.
Fixpoint best {C} (before after : list (cand C)) : option C :=
  match after with
  | [] => None
  | x :: after => if forallb (beats x) (before ++ after) then Some (c_what x) else best (before ++ [x]) after
  end.
Definition resolve {C} (l : list (cand C)) : chosen C :=
  match l with
  | [] => NoViable
  | _ => match best [] l with Some c => Chosen c | None => Ambiguous end
  end.

Section Conv.
(** [std::is_constructible_v<T, arg>], [std::is_convertible_v<arg, T>], which type is bool, and
    whether the library has the change of LWG issue 3836 (C++23, applied to older modes by
    recent libraries), which makes an exception for [std::optional<bool>]. *)
Context (builds turns_into : ty -> arg -> bool) (is_bool : ty -> bool) (lwg3836 : bool).

(** ** [std::optional<T>] from an rvalue of type [std::optional<T2>], T and T2 different *)
Inductive octor :=
| OCopy          (* optional(const optional&) *)
| OMove          (* optional(optional&&) *)
| OValue         (* template <class U> optional(U&&) *)
| OFromConst     (* template <class U> optional(const optional<U>&) *)
| OFromRvalue.   (* template <class U> optional(optional<U>&&) *)

Definition four (t : ty) : list arg := [Arg false true t; Arg true true t; Arg false false t; Arg true false t].
(** [optional.ctor]: converts-from-any-cvref *)
Definition converts_from_any (T : ty) (t : ty) : bool :=
  existsb (builds T) (four t) || existsb (turns_into T) (four t).

Definition exempt (T : ty) : bool := lwg3836 && is_bool T.
Definition ovalue_ok (T T2 : ty) : bool := builds T (rvalue (TOpt T2)) && negb (exempt T).
Definition unwraps (T T2 : ty) : bool := exempt T || negb (converts_from_any T (TOpt T2)).
Definition oconst_ok (T T2 : ty) : bool := builds T (const_lvalue T2) && unwraps T T2.
Definition orvalue_ok (T T2 : ty) : bool := builds T (rvalue T2) && unwraps T T2.

(** The copy and the move constructor take an [optional<T>], which an [optional<T2>] becomes by a
    user-defined conversion if one of the three templates applies and is not explicit. *)
Definition implicitly (T T2 : ty) : bool :=
  ovalue_ok T T2 && turns_into T (rvalue (TOpt T2)) ||
  oconst_ok T T2 && turns_into T (const_lvalue T2) ||
  orvalue_ok T T2 && turns_into T (rvalue T2).

Definition when {C} (b : bool) (c : cand C) : list (cand C) := if b then [c] else [].
Definition optional_cands (T T2 : ty) : list (cand octor) :=
  when (implicitly T T2) (Cand 3 0 OCopy) ++ when (implicitly T T2) (Cand 2 0 OMove) ++
  when (ovalue_ok T T2) (Cand 0 2 OValue) ++
  when (oconst_ok T T2) (Cand 1 1 OFromConst) ++ when (orvalue_ok T T2) (Cand 0 1 OFromRvalue).
Definition optional_ctor (T T2 : ty) : chosen octor := resolve (optional_cands T T2).

(** ** [result<T, V>] from a prvalue of type [result<T2, V>], T and T2 different

    In copy-initialisation the copy and move constructors would need another user-defined
    conversion for their argument, which [over.best.ics]/4 excludes; the constructors from tags
    take two arguments or more. *)
Inductive rctor :=
| RFromConst     (* result.h:33-35 *)
| RFromRvalue.   (* result.h:37-39 *)
Definition result_cands (T : ty) : list (cand rctor) :=
  match T with
  | TVoid => []                                     (* result.h:64-88 has none *)
  | _ => [Cand 1 1 RFromConst; Cand 0 1 RFromRvalue]
  end.

(** custom.h:46: the same type needs no constructor.  The body of result.h:37-39 names the
    member [_result], which [result<void, V>] does not have. *)
Definition returned (T T2 : ty) : option conv :=
  if ty_eqb T T2 then Some ConvSame
  else match resolve (result_cands T) with
       | Chosen RFromRvalue =>
           match T2 with
           | TVoid => None
           | _ => match optional_ctor T T2 with
                  | Chosen OValue => Some (ConvWhole T)
                  | Chosen OFromConst | Chosen OFromRvalue => Some (ConvElem T)
                  | Chosen OCopy | Chosen OMove | NoViable | Ambiguous => None
                  end
           end
       | _ => None
       end.
End Conv.
