(** * What the arguments of [static_array] denote: detail/static_array.h:16-83

    [any_of_parser<"abc">], [all_of_parser<static_array(1, 2, 3)>]: the template parameter is
    [template <static_array arr>], a placeholder for a deduced class type.  First the type is
    deduced from the argument ([over.match.class.deduct]: the deduction guides, the constructors
    taken as guides, the copy deduction candidate), then an object of the type is initialised from it
    ([dcl.init]: the constructors).  Both are overload resolutions; deduction and partial ordering are those of
    Overload.v.

    Simplified: arrays are arrays of const elements of one type (what can stand in a constant
    expression); no floating-point types; of the user's own conversions only whether there is one. *)
From Coq Require Import List Arith ZArith Bool Lia.
From Verif Require Import Overload.
Import ListNotations.

Section ArrayArgs.
(** The types that are neither pointers, arrays nor static_arrays.  [character]: type_traits.h:11-19;
    [range]: the values of an integer or character type; [user]: a user-defined implicit conversion. *)
Context {B : Type} (b_eqb : B -> B -> bool).
Variable character : B -> bool.
Variable range : B -> option (Z * Z).
Variable user : B -> B -> bool.

(** Types: a basic one, [const T*], [const T[n]], [static_array<T, n>]. *)
Inductive aty := Base (b : B) | Pointer (t : aty) | Array (t : aty) (n : nat) | Static (t : aty) (n : nat).
Fixpoint aty_eqb (s t : aty) : bool :=
  match s, t with
  | Base a, Base b => b_eqb a b
  | Pointer s, Pointer t => aty_eqb s t
  | Array s m, Array t n => aty_eqb s t && (m =? n)
  | Static s m, Static t n => aty_eqb s t && (m =? n)
  | _, _ => false
  end.

(** Values: an integer, an object of class type, an array or static_array, the address of the first of some elements,
    the object the user's conversion to [b] makes. *)
Inductive aval := Num (z : Z) | Obj (n : nat) | Elems (l : list aval) | Address (l : list aval) | Converted (b : B) (v : aval).

(** An argument: an expression of a type with a value. *)
Definition arg := (aty * aval)%type.

(** ** Deduction *)

(** The terms of Overload.v: the templates are the type constructors, and a list of parameters. *)
Inductive head := HPointer | HArray | HStatic | HParams.
Definition head_eqb (a b : head) : bool :=
  match a, b with HPointer, HPointer | HArray, HArray | HStatic, HStatic | HParams, HParams => true | _, _ => false end.
Definition head_kind (h : head) : kind := KMixed.
Definition atom := (B + nat)%type.
Definition atom_eqb (a b : atom) : bool :=
  match a, b with inl a, inl b => b_eqb a b | inr m, inr n => m =? n | _, _ => false end.
Fixpoint as_term (t : aty) : term head atom :=
  match t with
  | Base b => Atom (inl b)
  | Pointer t => Inst (Named HPointer) [as_term t]
  | Array t n => Inst (Named HArray) [as_term t; Atom (inr n)]
  | Static t n => Inst (Named HStatic) [as_term t; Atom (inr n)]
  end.
Fixpoint as_type (t : term head atom) : option aty :=
  match t with
  | Atom (inl b) => Some (Base b)
  | Inst (Named HPointer) [t] => option_map Pointer (as_type t)
  | Inst (Named HArray) [t; Atom (inr n)] => option_map (fun t => Array t n) (as_type t)
  | Inst (Named HStatic) [t; Atom (inr n)] => option_map (fun t => Static t n) (as_type t)
  | _ => None
  end.

(** A parameter that is no reference is deduced from the type the argument decays to, [temp.deduct.call]/2. *)
Definition decay (t : aty) : aty := match t with Array t _ => Pointer t | _ => t end.

(** [std::convertible_to<S, T>] *)
Definition integer_type (b : B) : bool := match range b with Some _ => true | None => false end.
Definition convertible (s t : aty) : bool :=
  aty_eqb s t ||
  match s, t with
  | Base s, Base t => (integer_type s && integer_type t) || user s t
  | _, _ => false
  end.

Notation subst := (subst head atom).
Definition type_of (s : subst) (v : nat) : option aty := match lookup s v with Some [t] => as_type t | _ => None end.
Definition size_of (s : subst) (v : nat) : option nat := match lookup s v with Some [Atom (inr n)] => Some n | _ => None end.
Definition types_of (s : subst) (v : nat) : option (list aty) :=
  match lookup s v with
  | Some ts => fold_right (fun t acc => match as_type t, acc with Some t, Some l => Some (t :: l) | _, _ => None end) (Some []) ts
  | None => None end.

Record guide := Guide {
  g_ref : bool;                           (* the parameter is a reference *)
  g_params : pat head;                    (* the list of parameters *)
  g_pack : bool;                          (* the last one is a pack *)
  g_requires : subst -> bool;
  g_type : subst -> option aty }.

(** :75-77 [static_array(T, Ts...) -> static_array<T, sizeof...(Ts) + 1>] *)
Definition guide_values : guide := Guide false (I HParams [V 0] (Some 1)) true
  (fun s => match type_of s 0, types_of s 1 with Some t, Some ts => forallb (fun u => convertible u t) ts | _, _ => false end)
  (fun s => match type_of s 0, types_of s 1 with Some t, Some ts => Some (Static t (List.length ts + 1)) | _, _ => None end).
(** :79-80 [template <character T, size_t N> static_array(const T(&)[N]) -> static_array<T, N - 1>]; N is a size_t, and not 0 *)
Definition guide_literal : guide := Guide true (I HParams [I HArray [V 0; V 1] None] None) false
  (fun s => match type_of s 0 with Some (Base b) => character b | _ => false end)
  (fun s => match type_of s 0, size_of s 1 with Some t, Some (S n) => Some (Static t n) | _, _ => None end).
(** :82-83 [static_array(T) -> static_array<T, 1>] *)
Definition guide_single : guide := Guide false (I HParams [V 0] None) false
  (fun s => true)
  (fun s => match type_of s 0 with Some t => Some (Static t 1) | None => None end).
(** [over.match.funcs]: the copy deduction candidate, [static_array(static_array<T, N>) -> static_array<T, N>] *)
Definition guide_copy : guide := Guide false (I HParams [I HStatic [V 0; V 1] None] None) false
  (fun s => true)
  (fun s => match type_of s 0, size_of s 1 with Some t, Some n => Some (Static t n) | _, _ => None end).
(** The constructors :21, :23-27, :29-33, :35-38 taken as guides have a parameter N that cannot be deduced (in
    [T[N + 1]] it is in an expression), so none of them is viable. *)
Definition guides : list guide := [guide_values; guide_literal; guide_single; guide_copy].

Definition arguments (g : guide) (args : list arg) : term head atom :=
  Inst (Named HParams) (map (fun a => as_term (if g_ref g then fst a else decay (fst a))) args).
Definition applies (args : list arg) (g : guide) : option (guide * subst) :=
  match deduce head_eqb head_kind atom_eqb (g_params g) (arguments g args) [] with
  | Some s => if g_requires g s then Some (g, s) else None
  | None => None
  end.
Definition applicable (args : list arg) : list (guide * subst) :=
  flat_map (fun g => match applies args g with Some x => [x] | None => [] end) guides.

(** All conversions are exact matches ([over.ics.scs]; an array-to-pointer conversion does not count,
    [over.ics.rank]), so that the more specialised guide wins; [temp.deduct.partial]/11: of two that are
    equally specialised, the one without a trailing pack. *)
Definition more (a b : guide) : bool :=
  let x := [g_params a] in let y := [g_params b] in
  more_specialized head_eqb head_kind x y ||
  (at_least_as_specialized head_eqb head_kind x y && at_least_as_specialized head_eqb head_kind y x &&
   negb (g_pack a) && g_pack b).
Fixpoint best_guide (before after : list (guide * subst)) : option (guide * subst) :=
  match after with
  | [] => None
  | v :: after => if forallb (fun w => more (fst v) (fst w)) (before ++ after) then Some v else best_guide (before ++ [v]) after
  end.

Definition deduced (args : list arg) : option aty :=
  match best_guide [] (applicable args) with Some (g, s) => g_type g s | None => None end.

(** ** Initialisation of a [static_array<t, n>] *)

(** [dcl.init.list]/7: an integer that is not a constant narrows unless every value of its type is one of the other. *)
Definition narrows (s t : aty) : bool :=
  match s, t with
  | Base s, Base t =>
      match range s, range t with
      | Some (l, h), Some (l', h') => negb ((l' <=? l)%Z && (h <=? h')%Z)
      | _, _ => false
      end
  | _, _ => false
  end.

(** The argument as a value of the parameter's type [t]. *)
Definition pass (t : aty) (a : arg) : option aval :=
  let v := match fst a with Array _ _ => match snd a with Elems l => Address l | v => v end | _ => snd a end in
  if aty_eqb (decay (fst a)) t then Some v
  else match decay (fst a), t with
       | Base s, Base b => if integer_type s && integer_type b then Some v else if user s b then Some (Converted b v) else None
       | _, _ => None
       end.

(** One element of [data{{t, static_cast<Ts>(ts)...}}] (:26): [ts] has the type [Ts] the argument decays to, the cast
    leaves it as it is, the braces convert it to [T] and do not compile if that narrows. *)
Definition element (t : aty) (a : arg) : option aval :=
  if negb (aty_eqb (decay (fst a)) t) && narrows (decay (fst a)) t then None else pass t a.

Fixpoint all {X} (l : list (option X)) : option (list X) :=
  match l with
  | [] => Some []
  | Some x :: l => option_map (cons x) (all l)
  | None :: _ => None
  end.

Inductive actor := KValues | KLiteral | KSingle | KCopy.

(** Whether a constructor can be called, with the rank of its conversions: 0 exact match, 1 integral, 2 user-defined.
    [N - 1] in :24 is of type size_t. *)
Definition can_pass (t : aty) (a : arg) : option nat :=
  if aty_eqb (decay (fst a)) t then Some 0
  else match decay (fst a), t with
       | Base s, Base b => if integer_type s && integer_type b then Some 1 else if user s b then Some 2 else None
       | _, _ => None
       end.
Definition callable (t : aty) (n : nat) (args : list arg) (k : actor) : option nat :=
  match k, args with
  | KValues, a :: rest =>                                                                                   (* :23-25 *)
      if negb (n =? 0) && (List.length rest =? n - 1) && forallb (fun b => convertible (decay (fst b)) t) rest
      then can_pass t a else None
  | KLiteral, [(Array u m, _)] =>                                                                           (* :29 *)
      match u with Base b => if character b && aty_eqb u t && (m =? n + 1) then Some 0 else None | _ => None end
  | KSingle, [a] => if n =? 1 then can_pass t a else None                                                   (* :35 *)
  | KCopy, [(Static u m, _)] => if aty_eqb u t && (m =? n) then Some 0 else None
  | _, _ => None
  end.

(** What a constructor puts in [data]. *)
Definition construct (t : aty) (args : list arg) (k : actor) : option (list aval) :=
  match k, args with
  | KValues, a :: rest => all (pass t a :: map (element t) rest)                                            (* :26 *)
  | KLiteral, [(Array _ m, Elems l)] => Some (firstn (m - 1) l)                                             (* :31-32 *)
  | KSingle, [a] => option_map (fun v => [v]) (pass t a)                                                    (* :37 *)
  | KCopy, [(_, Elems l)] => Some l
  | _, _ => None
  end.

(** [over.match.best]: the smaller rank; of equal ones a function that is no template (only [KValues] is one). *)
Definition beats (x y : nat * actor) : bool :=
  (fst x <? fst y) || ((fst x =? fst y) && match snd x, snd y with KValues, _ => false | _, KValues => true | _, _ => false end).
Definition ctors (t : aty) (n : nat) (args : list arg) : list (nat * actor) :=
  flat_map (fun k => match callable t n args k with Some r => [(r, k)] | None => [] end) [KValues; KLiteral; KSingle; KCopy].
Definition chosen (t : aty) (n : nat) (args : list arg) : option actor :=
  match filter (fun x => forallb (fun y => negb (beats y x)) (ctors t n args)) (ctors t n args) with
  | [x] => Some (snd x)
  | _ => None
  end.

(** [static_array(args...)] or, with one argument, a template argument for [static_array]: element type and elements;
    [None]: does not compile. *)
Definition make (args : list arg) : option (aty * list aval) :=
  match deduced args with
  | Some (Static t n) =>
      match chosen t n args with
      | Some k => option_map (pair t) (construct t args k)
      | None => None
      end
  | _ => None
  end.
End ArrayArgs.
