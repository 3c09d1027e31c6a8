(** * Values, result types, user functions

    Shapes of the C++ objects that tok3n's [parse] functions return, as far as the
    library's own code can see them. *)
From Coq Require Import List Arith ZArith Bool.
Import ListNotations.

(** A pointer is a storage block and an offset in it; a span adds a length.
    detail/span.h:13-107 ([span<T>] wraps [std::span<const T>]: data pointer and size).
    Block 0 stands for "no storage": [Span 0 0 0] is the default-constructed span
    (null data pointer, size 0; span.h:19 and :58). *)
Record span : Type := Span { sp_blk : nat; sp_off : nat; sp_len : nat }.

(** detail/span.h:19, :58 [constexpr span() = default;] *)
Definition null_span : span := Span 0 0 0.

(** C++ result types that the library itself produces or inspects.
    [TSpan] = [output_span<V>] (span.h:228-233; V is fixed per model instance);
    [TVec]/[TArr]/[TOpt]/[TTup]/[TVar]/[TPair] = std::vector, array, optional, tuple,
    variant, pair as used by the [result_for] aliases in detail/parsers/*.h;
    [TUser n] = any other type (result of map functions, result_type of custom parsers). *)
Inductive ty : Type :=
| TVoid
| TSpan
| TVec (t : ty)
| TArr (t : ty) (n : nat)
| TOpt (t : ty)
| TTup (ts : list ty)
| TVar (ts : list ty)
| TPair (a b : ty)
| TUser (n : nat).

(** Objects of those types.  [VUser n l] is an object of user type [n] with an opaque
    payload; [VZ] is a scalar that may occur in such a payload. *)
Inductive val : Type :=
| VSpan (s : span)
| VVec (l : list val)
| VArr (l : list val)
| VOpt (o : option val)
| VTup (l : list val)
| VVar (i : nat) (v : val)
| VPair (a b : val)
| VUser (n : nat) (l : list val)
| VZ (z : Z).

(** What a call returns: nothing ([void]) or a value. *)
Inductive rv : Type := RVoid | RVal (v : val).

(** Function objects passed as template arguments.
    [FUser n]: a user's own callable; detail/functions.h:11-12 [apply_function],
    :14-15 [constant_function], :17-18 [construct_function], :20-22
    [default_construct_function]. *)
Inductive func : Type :=
| FUser (n : nat)
| FApply (f : func)
| FConstant (k : nat)
| FConstruct (t : ty)
| FDefault (t : ty).

(** One invocation of user code: the function object and its arguments. *)
Inductive event : Type := EInvoke (f : func) (args : list val).

(** Result of invoking a function object.  [FIll]: the call does not type-check. *)
Inductive fnres : Type :=
| FRet (r : rv)
| FThrow (e : nat)
| FIll.

(** ** Decidable equality of types: [std::is_same_v] / [std::same_as] *)
Fixpoint ty_eqb (a b : ty) {struct a} : bool :=
  let list_eqb := fix go (xs ys : list ty) {struct xs} : bool :=
    match xs, ys with
    | [], [] => true
    | x :: xs', y :: ys' => ty_eqb x y && go xs' ys'
    | _, _ => false
    end in
  match a, b with
  | TVoid, TVoid => true
  | TSpan, TSpan => true
  | TVec x, TVec y => ty_eqb x y
  | TArr x n, TArr y m => ty_eqb x y && (n =? m)
  | TOpt x, TOpt y => ty_eqb x y
  | TTup xs, TTup ys => list_eqb xs ys
  | TVar xs, TVar ys => list_eqb xs ys
  | TPair x1 x2, TPair y1 y2 => ty_eqb x1 y1 && ty_eqb x2 y2
  | TUser n, TUser m => n =? m
  | _, _ => false
  end.

(** [std::is_void_v], [std::same_as<void, _>] *)
Definition is_void (t : ty) : bool := match t with TVoid => true | _ => false end.

(** Value initialisation [T value{}] (detail/helpers.h:11-15 [empty_if_void]):
    empty vector, disengaged optional, first variant alternative, null span, ...
    Simplified: a value-initialised user object is represented by the empty payload. *)
Fixpoint default_val (t : ty) : val :=
  match t with
  | TVoid => VTup []            (* never used: [empty_if_void<void>] has no member *)
  | TSpan => VSpan null_span
  | TVec _ => VVec []
  | TArr t n => VArr (repeat (default_val t) n)
  | TOpt _ => VOpt None
  | TTup ts => VTup (map default_val ts)
  | TVar [] => VVar 0 (VTup [])  (* never used: a variant here has two or more alternatives *)
  | TVar (t :: _) => VVar 0 (default_val t)
  | TPair a b => VPair (default_val a) (default_val b)
  | TUser n => VUser n []
  end.

(** ** Specification: which objects belong to which type *)
Fixpoint has_ty (t : ty) (v : val) {struct t} : Prop :=
  match t, v with
  | TSpan, VSpan _ => True
  | TVec t, VVec l => Forall (has_ty t) l
  | TArr t n, VArr l => length l = n /\ Forall (has_ty t) l
  | TOpt t, VOpt None => True
  | TOpt t, VOpt (Some v) => has_ty t v
  | TTup ts, VTup l =>
      (fix go (ts : list ty) (l : list val) {struct ts} : Prop :=
         match ts, l with
         | [], [] => True
         | t :: ts', v :: l' => has_ty t v /\ go ts' l'
         | _, _ => False
         end) ts l
  | TVar ts, VVar i v =>
      (fix go (ts : list ty) (i : nat) {struct ts} : Prop :=
         match ts, i with
         | t :: _, O => has_ty t v
         | _ :: ts', S i' => go ts' i'
         | [], _ => False
         end) ts i
  | TPair a b, VPair x y => has_ty a x /\ has_ty b y
  | TUser n, VUser m _ => n = m
  | _, _ => False
  end.

(** Types that [has_ty] is about: no nested void, variants non-empty (so that default
    values exist). Every type computed by [result_for] on user-type-free components is one. *)
Fixpoint ty_ok (t : ty) : bool :=
  match t with
  | TVoid => false
  | TSpan => true
  | TVec t => ty_ok t
  | TArr t _ => ty_ok t
  | TOpt t => ty_ok t
  | TTup ts => forallb ty_ok ts
  | TVar ts => match ts with [] => false | _ => forallb ty_ok ts end
  | TPair a b => ty_ok a && ty_ok b
  | TUser _ => true
  end.

(** Specification: the spans occurring in a value, in traversal order. User payloads
    included. *)
Fixpoint leaves (v : val) : list span :=
  match v with
  | VSpan s => [s]
  | VVec l => flat_map leaves l
  | VArr l => flat_map leaves l
  | VOpt None => []
  | VOpt (Some v) => leaves v
  | VTup l => flat_map leaves l
  | VVar _ v => leaves v
  | VPair a b => leaves a ++ leaves b
  | VUser _ l => flat_map leaves l
  | VZ _ => []
  end.

Definition rv_leaves (r : rv) : list span :=
  match r with RVoid => [] | RVal v => leaves v end.

Definition rv_has_ty (t : ty) (r : rv) : Prop :=
  match r with
  | RVoid => t = TVoid
  | RVal v => t <> TVoid /\ has_ty t v
  end.
