(** * examples/json/json.cpp

    The grammar, written with the operators and modifiers of Operators.v and Modifiers.v in
    the order of the source.  Characters are their codes. *)
From Coq Require Import String List Arith ZArith Bool Lia.
From Verif Require Import Types Compound Parser Outcome CompoundFacts Exec Derive Typing Leaves Samples StaticArray Operators PropSets Modifiers.
Import ListNotations.

Local Notation P := (parser nat).
Definition qt : nat := 34.   (* quotation mark *)
Definition bs : nat := 92.   (* backslash *)

(** The operators for this element type. *)
Definition anyl (l : list nat) : P := any nat_order (isort nat_order) l.
Definition nonel (l : list nat) : P := none nat_order (isort nat_order) l.
Definition orp (p q : P) : P := choice_operator nat_order p q.
Definition seqp (p q : P) : P := sequence_operator p q.
Definition with_modifier (p : P) (m : modifier nat) : P :=
  match call m p with Some (OParser q) => q | _ => PEpsilon (* does not compile; not reached *) end.

(** The types: [TUser] 0 bool, 1 std::nullptr_t, 2 std::string, 3 number_type (:16-21),
    4 std::pair<std::string, JsonValue::result_type> (:59), 5 JsonValue::result_type (:69-73). *)
Definition t_bool := TUser 0.
Definition t_null := TUser 1.
Definition t_string := TUser 2.
Definition t_number := TUser 3.
Definition t_pair := TUser 4.
Definition t_value := TUser 5.
Definition t_object := TVec t_pair.                               (* :59 *)
Definition t_array := TVec t_value.                               (* :65 *)
Definition t_variant := TVar [t_string; t_number; t_object; t_array; t_bool; t_null].   (* :71 *)

(** :12 *)
Definition whitespace : P := with_modifier (zero_or_more_operator (anyl [32; 10; 13; 9])) MIgnore.

(** :23-35 *)
Definition digit : P := anyl (codes "0123456789").
Definition natural_number : P :=
  orp (all (codes "0")) (with_modifier (seqp (anyl (codes "123456789")) (zero_or_more_operator digit)) MJoin).
Definition integer : P := with_modifier (seqp (or_epsilon nat_order (all (codes "-"))) natural_number) MJoin.
Definition fraction : P := with_modifier (seqp (ign (codes ".")) (one_or_more_operator digit)) MJoin.
Definition exponent : P :=
  with_modifier (seqp (seqp (with_modifier (anyl (codes "Ee")) MIgnore) (or_epsilon nat_order (anyl (codes "-+"))))
                      (one_or_more_operator digit)) MJoin.
Definition number : P :=
  with_modifier (seqp (seqp integer (maybe_operator fraction)) (maybe_operator exponent)) (MApplyInto t_number).

(** :39-47 *)
Definition hex : P :=
  with_modifier (seqp (all (codes "u")) (with_modifier (anyl (codes "0123456789ABCDEFabcdef")) (MExactly 4))) MJoin.
Definition control : P := orp (anyl (qt :: bs :: codes "/bfnrt")) hex.
Definition valid_char : P := orp (nonel [qt; bs]) (with_modifier (seqp (all [bs]) control) MJoin).
Definition str : P :=
  seqp (seqp (ign [qt]) (with_modifier (with_modifier (zero_or_more_operator valid_char) MJoin) (MInto t_string))) (ign [qt]).

(** :51, :57, :63.  Custom parsers: 0 JsonValue, 1 JsonObject, 2 JsonArray. *)
Definition json_value : P := PCustom 0.
Definition json_object : P := PCustom 1.
Definition json_array : P := PCustom 2.

(** :75-81 *)
Definition pair_parser : P :=
  with_modifier (seqp (seqp (seqp (seqp whitespace str) whitespace) (ign (codes ":"))) json_value) (MApplyInto t_pair).
Definition object_body : P :=
  seqp (seqp (ign (codes "{")) (orp (with_modifier pair_parser (MDelimitBy (all (codes ","))) ) whitespace)) (ign (codes "}")).

(** :83-88 *)
Definition array_body : P :=
  seqp (seqp (ign (codes "[")) (orp (with_modifier json_value (MDelimitBy (all (codes ",")))) whitespace)) (ign (codes "]")).

(** :90-102.  Constants: 0 true, 1 false, 2 nullptr. *)
Definition value_body : P :=
  seqp (seqp whitespace
    (orp (orp (orp (orp (orp (orp str number) json_object) json_array)
       (with_modifier (all (codes "true")) (MConstant 0)))
       (with_modifier (all (codes "false")) (MConstant 1)))
       (with_modifier (all (codes "null")) (MConstant 2))))
  whitespace.

Definition json_body (c : nat) : P := match c with 0 => value_body | 1 => object_body | 2 => array_body | _ => PEpsilon end.
Definition json_ty (c : nat) : ty := match c with 0 => t_value | 1 => t_object | 2 => t_array | _ => TVoid end.

(** The constructors that [into] and [apply_into] call, and the one of JsonValue::result_type
    from the variant (custom.h:35-45). *)
Definition json_ct (t : ty) (args : list ty) : bool :=
  match t with
  | TUser 2 => ty_eqb (TTup args) (TTup [TSpan])
  | TUser 3 => ty_eqb (TTup args) (TTup [TSpan; TOpt TSpan; TOpt TSpan])
  | TUser 4 => ty_eqb (TTup args) (TTup [t_string; t_value])
  | TUser 5 => ty_eqb (TTup args) (TTup [t_variant])
  | _ => false
  end.

(** The program, over any memory and whatever those constructors do ([cons]). *)
Definition json_env (memory : nat -> list nat) (cons : ty -> list val -> fnres) : env nat nat := {|
  eqv := Nat.eqb;
  mem := memory;
  fn_ret := fun _ _ => None;
  fn_app := fun _ _ => FIll;
  ct_ok := json_ct;
  ct_app := cons;
  k_ty := fun k => match k with 0 | 1 => t_bool | _ => t_null end;
  k_val := fun k => match k with 0 => VUser 0 [VZ 1] | 1 => VUser 0 [VZ 0] | _ => VUser 1 [] end;
  bool_ok := fun t => ty_eqb t t_bool;
  as_bool := fun v => match v with VUser 0 [VZ 1] => true | _ => false end;
  cust_body := json_body;
  cust_ty := json_ty;
  cust_conv := fun c => match c with 0 => ConvElem t_value | _ => ConvSame end
|}.

(** The constructors return objects of their class, or throw. *)
Definition json_cons_typed (cons : ty -> list val -> fnres) : Prop := forall t args tys,
  json_ct t tys = true -> Forall2 has_ty tys args ->
  match cons t args with FRet r => rv_has_ty t r | FThrow _ => True | FIll => False end.

