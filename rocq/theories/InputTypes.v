(** * Which arguments [parse] takes, and what their elements are: detail/span.h:182-229

    Every [parse] and [lookahead] is [template <input_constructible_for<value_type> R> parse(R&& r)] and begins with
    [using V = input_value_t<R>; input_span input{ std::forward<R>(r) };] (basic_base.h:28-32 and the same lines in
    every parser).  [input_value_t] chooses among partial specialisations, [input_span] among deduction guides;
    deduction and partial ordering are those of Overload.v.

    Simplified: no volatile types, no arrays of unknown bound, no functions; what a class is as a range is given. *)
From Coq Require Import List Arith Bool Lia.
From Verif Require Import Overload.
Import ListNotations.

Section InputTypes.
(** The types that are no pointers, arrays or input_spans: [character] is type_traits.h:11-19; [class_range c b] is
    [std::ranges::range_value_t] of the class [b], [const] if [c], if that is a contiguous range.  [comparable]:
    type_traits.h:22-23. *)
Context {B : Type} (b_eqb : B -> B -> bool).
Variable character : B -> bool.

(** Object types without a top-level const: a named one, a pointer to a type that is const or not, an array (const
    itself if its elements are), an [input_span<T>]. *)
Inductive obj := Base (b : B) | Pointer (c : bool) (t : obj) | Array (t : obj) (n : nat) | InputSpan (t : obj).
(** A type: an object type, const or not; a reference to one. *)
Inductive ty := Plain (c : bool) (t : obj) | LRef (c : bool) (t : obj) | RRef (c : bool) (t : obj).

Variable class_range : bool -> B -> option obj.
Variable comparable : obj -> obj -> bool.

(** ** Types as terms *)
Inductive head := HConst | HPointer | HArray | HSpan | HLRef | HRRef.
Definition head_eqb (a b : head) : bool :=
  match a, b with
  | HConst, HConst | HPointer, HPointer | HArray, HArray | HSpan, HSpan | HLRef, HLRef | HRRef, HRRef => true
  | _, _ => false end.
Definition head_kind (h : head) : kind := KMixed.
Notation atom := (B + nat)%type.
Definition atom_eqb (a b : atom) : bool :=
  match a, b with inl a, inl b => b_eqb a b | inr m, inr n => m =? n | _, _ => false end.
Notation tm := (term head atom).
Definition const_term (c : bool) (t : tm) : tm := if c then Inst (Named HConst) [t] else t.
Fixpoint obj_term (t : obj) : tm :=
  match t with
  | Base b => Atom (inl b)
  | Pointer c t => Inst (Named HPointer) [const_term c (obj_term t)]
  | Array t n => Inst (Named HArray) [obj_term t; Atom (inr n)]
  | InputSpan t => Inst (Named HSpan) [obj_term t]
  end.
Definition ty_term (t : ty) : tm :=
  match t with
  | Plain c t => const_term c (obj_term t)
  | LRef c t => Inst (Named HLRef) [const_term c (obj_term t)]
  | RRef c t => Inst (Named HRRef) [const_term c (obj_term t)]
  end.
Fixpoint term_obj (t : tm) : option obj :=
  match t with
  | Atom (inl b) => Some (Base b)
  | Inst (Named HPointer) [Inst (Named HConst) [t]] => option_map (Pointer true) (term_obj t)
  | Inst (Named HPointer) [t] => option_map (Pointer false) (term_obj t)
  | Inst (Named HArray) [t; Atom (inr n)] => option_map (fun t => Array t n) (term_obj t)
  | Inst (Named HSpan) [t] => option_map InputSpan (term_obj t)
  | _ => None
  end.
Definition term_qual (t : tm) : option (bool * obj) :=
  match t with
  | Inst (Named HConst) [t] => option_map (pair true) (term_obj t)
  | t => option_map (pair false) (term_obj t)
  end.
Definition term_ty (t : tm) : option ty :=
  match t with
  | Inst (Named HLRef) [t] => option_map (fun q => LRef (fst q) (snd q)) (term_qual t)
  | Inst (Named HRRef) [t] => option_map (fun q => RRef (fst q) (snd q)) (term_qual t)
  | t => option_map (fun q => Plain (fst q) (snd q)) (term_qual t)
  end.
Notation subst := (subst head atom).
Definition type_of (s : subst) (v : nat) : option ty := match lookup s v with Some [t] => term_ty t | _ => None end.

(** [std::ranges::contiguous_range<T>] and, if it is one, [std::ranges::range_value_t<T>].  [std::ranges::begin] is
    applied to an lvalue, so that a reference changes nothing. *)
Definition range_value (t : ty) : option obj :=
  match t with
  | Plain c t | LRef c t | RRef c t =>
      match t with
      | Array u _ => Some u
      | InputSpan u => Some u
      | Base b => class_range c b
      | Pointer _ _ => None
      end
  end.

(** ** [input_value], :196-219 *)

(** What a specialisation has as [type]: the range's value, the character, or the [type] of another [input_value]. *)
Inductive member := IsRangeValue | IsCharacter | IsThatOf.
Definition specializations : list (candidate head atom member) := [
  Candidate [V 0] (fun s => match type_of s 0 with Some t => match range_value t with Some _ => true | None => false end | None => false end)
    IsRangeValue;                                                                                          (* :199-203 *)
  Candidate [I HPointer [I HConst [V 0] None] None] (fun s => match type_of s 0 with Some (Plain _ (Base b)) => character b | _ => false end)
    IsCharacter;                                                                                           (* :205-209 *)
  Candidate [I HConst [V 0] None] (fun _ => true) IsThatOf;                                                (* :211-212 *)
  Candidate [I HLRef [V 0] None] (fun _ => true) IsThatOf;                                                 (* :213-214 *)
  Candidate [I HRRef [V 0] None] (fun _ => true) IsThatOf ].                                               (* :215-216 *)

(** [typename input_value<T>::type]: a type; not there, in the immediate context of the substitution; an error in the
    definition of a specialisation, which is the end of the compilation ([temp.deduct]/8).  [Deep]: out of fuel. *)
Inductive named := Value (v : obj) | Missing | Error | Deep.
Fixpoint input_value (fuel : nat) (t : ty) : named :=
  match fuel with
  | 0 => Deep
  | S fuel =>
      match select head_eqb head_kind atom_eqb specializations [ty_term t] with
      | NoneViable => Missing                                                                              (* :196-197 *)
      | Tie => Error
      | Selected IsRangeValue s =>
          match type_of s 0 with Some u => match range_value u with Some v => Value v | None => Error end | None => Error end
      | Selected IsCharacter s => match type_of s 0 with Some (Plain _ v) => Value v | _ => Error end
      | Selected IsThatOf s =>
          match type_of s 0 with
          | Some u => match input_value fuel u with Missing => Error | r => r end
          | None => Error
          end
      end
  end.

(** :221-222; a type has one reference and one const to take away *)
Definition input_value_t (t : ty) : named := input_value 3 t.

(** [input_constructible_for<T, V>], :224-225 *)
Inductive truth := True_ | False_ | Stops.
Definition input_constructible_for (t : ty) (v : obj) : truth :=
  match input_value_t t with
  | Value u => if comparable u v then True_ else False_
  | Missing => False_
  | Error | Deep => Stops
  end.

(** ** [input_span input{ e }], :189-192, for an expression [e] *)
Inductive expression := Lvalue (c : bool) (t : obj) | Rvalue (c : bool) (t : obj).
(** [std::forward<R>(r)] *)
Definition forwarded (t : ty) : expression :=
  match t with LRef c t => Lvalue c t | Plain c t | RRef c t => Rvalue c t end.

Record guide := Guide {
  g_param : pat head;
  g_argument : expression -> (nat * tm);      (* the type deduced from, and the rank of the conversion from it *)
  g_requires : subst -> bool;
  g_type : subst -> option obj }.

(** [temp.deduct.call]/3: a forwarding reference; the conversion is the identity *)
Definition by_reference (e : expression) : nat * tm :=
  (0, match e with Lvalue c t => ty_term (LRef c t) | Rvalue c t => ty_term (Plain c t) end).
(** [temp.deduct.call]/2: arrays decay, the const is dropped *)
Definition decayed (e : expression) : obj :=
  match e with Lvalue c t | Rvalue c t => match t with Array u _ => Pointer c u | t => t end end.
(** A parameter passed by value *)
Definition by_value (e : expression) : nat * tm := (0, obj_term (decayed e)).
(** [const T*]: from a pointer that is not to const by a qualification conversion, [temp.deduct.call]/4; that conversion is
    worse than the identity, [over.ics.rank]/3.2.1 *)
Definition by_pointer (e : expression) : nat * tm :=
  match decayed e with
  | Pointer false t => (1, obj_term (Pointer true t))
  | t => (0, obj_term t)
  end.

Definition guide_range : guide := Guide (V 0) by_reference                                                 (* :189-190 *)
  (fun s => match type_of s 0 with Some t => match range_value t with Some _ => true | None => false end | None => false end)
  (fun s => match type_of s 0 with Some t => option_map InputSpan (range_value t) | None => None end).
Definition guide_pointer : guide := Guide (I HPointer [I HConst [V 0] None] None) by_pointer               (* :191-192 *)
  (fun s => match type_of s 0 with Some (Plain _ (Base b)) => character b | _ => false end)
  (fun s => match type_of s 0 with Some (Plain _ t) => Some (InputSpan t) | _ => None end).
(** The copy deduction candidate [input_span(input_span<T>) -> input_span<T>].  The inherited constructors (:186) are
    no guides in C++20, the default constructor leaves [T] open. *)
Definition guide_copy : guide := Guide (I HSpan [V 0] None) by_value
  (fun _ => true)
  (fun s => match type_of s 0 with Some (Plain _ t) => Some (InputSpan t) | _ => None end).
Definition guides : list guide := [guide_range; guide_pointer; guide_copy].

Definition applicable (e : expression) : list (nat * guide * subst) :=
  flat_map (fun g =>
    let '(rank, t) := g_argument g e in
    match deduce head_eqb head_kind atom_eqb (g_param g) t [] with
    | Some s => if g_requires g s then [(rank, g, s)] else []
    | None => []
    end) guides.
(** [over.match.best]: the better conversion, then the more specialised *)
Definition beats (x y : nat * guide * subst) : bool :=
  let '(rx, gx, _) := x in let '(ry, gy, _) := y in
  (rx <? ry) || ((rx =? ry) && more_specialized head_eqb head_kind [g_param gx] [g_param gy]).
Fixpoint best_guide (before after : list (nat * guide * subst)) : option (nat * guide * subst) :=
  match after with
  | [] => None
  | v :: after => if forallb (beats v) (before ++ after) then Some v else best_guide (before ++ [v]) after
  end.
Definition deduced (e : expression) : option obj :=
  match best_guide [] (applicable e) with Some (_, g, s) => g_type g s | None => None end.

(** ** A call [P::parse(e)] with [P::value_type] = [v]

    [Refused]: the constraint is not satisfied, the call is no candidate; [Fails]: the compilation ends; [Sees u w]: the
    result is a [result<.., u>], the input read is an [input_span<w>]. *)
Inductive call := Refused | Fails | Sees (u w : obj).
(** [R], from the expression, [temp.deduct.call]/3 *)
Definition forwarding (e : expression) : ty := match e with Lvalue c t => LRef c t | Rvalue c t => Plain c t end.
Definition parse_call (v : obj) (e : expression) : call :=
  let R := forwarding e in
  match input_constructible_for R v with                                                                   (* basic_base.h:28-29 *)
  | False_ => Refused
  | Stops => Fails
  | True_ =>
      match input_value_t R, deduced (forwarded R) with                                                    (* :31-32 *)
      | Value u, Some (InputSpan w) => Sees u w
      | _, _ => Fails
      end
  end.
End InputTypes.
