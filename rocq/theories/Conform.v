(** * The library's own tests, run on the model: vocabulary

    A check of the model's fidelity, not a proof about the library.  ConformTests.v holds the
    assertions of /repo/tests/char-tests for the value type [char] (VALUE_TYPE_CHAR), one
    Example per TEST block, each computed.  Every expected value in there is the authors' own.

    This file: the meaning of the assertion macros (tests/common/include/common/asserts/*.h)
    and the user code that the samples of tests/common/include/samples/*.ipp bring along.

    The variants of an assertion with [L"..."] or [e<int>("...")] as input differ from the
    [char] one in the type V only, which the model keeps abstract. *)
From Coq Require Import String List Arith ZArith Bool.
From Verif Require Import Types Compound Parser Outcome StaticArray Exec Builds Operators PropSets Modifiers Samples.
Import ListNotations.

(** ** User code of the samples *)

(** Types.  [size_t] is only ever compared by value. *)
Definition t_bool := TUser 0.
Definition t_int := TUser 1.
Definition t_size := TUser 2.
Definition t_char := TUser 3.
Definition t_nullptr := TUser 4.
Definition t_Class1 := TUser 11.
Definition t_Class2 := TUser 12.
Definition t_Class3 := TUser 13.
Definition t_Class4 := TUser 14.
Definition t_Class5 := TUser 15.
Definition t_Sink := TUser 16.
(** wrappers.h:8-66 [MoveOnlyWrapper], [CopyOnlyWrapper] of a span or a pair of spans; that
    they cannot be copied (moved) is not visible here (see Objects.v) *)
Definition t_MoveOnly (t : ty) := match t with TSpan => TUser 20 | _ => TUser 21 end.
Definition t_CopyOnly (t : ty) := match t with TSpan => TUser 22 | _ => TUser 23 end.

Definition t_pair := TTup [TSpan; TSpan].
Definition scalar (t : nat) (z : Z) : fnres := FRet (RVal (VUser t [VZ z])).
Definition of_bool (b : bool) : fnres := scalar 0 (if b then 1 else 0).

(** The elements of a span of block 1, the text given to parse. *)
Definition text (s : list nat) (i : span) : list nat := firstn (sp_len i) (skipn (sp_off i) s).

(** functions.ipp:70, 95 and divergent.ipp:52 [*opt == "abc"] *)
Definition is_abc (s : list nat) (i : span) : bool := list_eqb Nat.eqb (text s i) (codes "abc").

(** Callables:
    - 0 [func1] functions.ipp:5-8, 1 [func2] :10-19, 2 [func3] :21-40, 3 [func3_apply] :42-58
    - 10+k [func4(k)] :60-84, 20+k [func4_apply(k)] :86-107
    - 4 [filter_func1] :109-112, 5 [filter_func2] :114-117, 6 [filter_func3] :119-138,
      7 [filter_func3_apply] :140-156, 8 [sink_func] :158, 9 [true_filter] :160
    - 30 [Cus1::transform] divergent.ipp:49-70
    - 40-43 [MoveOnlyWrapper<span>::make], of pairs, [CopyOnlyWrapper<span>::make], of pairs
    - 50 [[]() { return 0; }], 51 [[](auto) { return 0; }], 52 [[]() { return true; }],
      53 [[](auto) { return true; }], 54 [[]() {}], 55 [[](auto) {}], of map_parser.cpp:166-209
      and filter_parser.cpp:138-152
    - 60 [f] of join_parser.cpp:254-269: a span of a literal, block 2 or 3 *)
Definition cx_fn_ret (n : nat) (tys : list ty) : option ty :=
  match n, tys with
  | 0, [TVec TSpan] => Some t_size
  | 1, [TOpt TSpan] => Some (TVec t_char)
  | 2, [TTup [TSpan; TVec TSpan]] | 6, [TTup [TSpan; TVec TSpan]] => Some t_bool
  | 3, [TSpan; TVec TSpan] | 7, [TSpan; TVec TSpan] => Some t_bool
  | 4, [TVec TSpan] => Some t_bool
  | 5, [TOpt TSpan] => Some t_bool
  | 8, _ => Some TVoid
  | 9, _ => Some t_bool
  | 12, [TTup [TVec TSpan; TOpt TSpan]] | 13, [TTup [TVec TSpan; TOpt TSpan]]
  | 30, [TTup [TVec TSpan; TOpt TSpan]] => Some t_size
  | 22, [TVec TSpan; TOpt TSpan] | 23, [TVec TSpan; TOpt TSpan] => Some t_size
  | 40, [TSpan] => Some (TUser 20)
  | 41, [TSpan; TSpan] => Some (TUser 21)
  | 42, [TSpan] => Some (TUser 22)
  | 43, [TSpan; TSpan] => Some (TUser 23)
  | 50, [] => Some t_int
  | 51, [_] => Some t_int
  | 52, [] => Some t_bool
  | 53, [_] => Some t_bool
  | 54, [] => Some TVoid
  | 55, [_] => Some TVoid
  | 60, [TSpan] | 60, [TVec TSpan] => Some TSpan
  | _, _ => None
  end.

(** [multiply_by * vec.size() * (not opt ? 1 : *opt == "abc" ? 2 : 3)] *)
Definition weigh (s : list nat) (k : nat) (vec : list val) (opt : option val) : fnres :=
  scalar 2 (Z.of_nat (k * List.length vec *
    match opt with None => 1 | Some (VSpan i) => if is_abc s i then 2 else 3 | Some (VVar _ (VSpan i)) => if is_abc s i then 2 else 3 | _ => 0 end)).

Definition literal_a : span := Span 2 0 1.
Definition literal_b : span := Span 3 0 1.

Definition cx_fn_app (s : list nat) (n : nat) (args : list val) : fnres :=
  match n, args with
  | 0, [VVec l] => scalar 2 (Z.of_nat (List.length l))
  | 1, [VOpt None] => FRet (RVal (VVec []))
  | 1, [VOpt (Some (VSpan i))] => FRet (RVal (VVec (map (fun c => VUser 3 [VZ (Z.of_nat c)]) (text s i))))
  | 2, [VTup [_; VVec l]] | 6, [VTup [_; VVec l]] | 3, [_; VVec l] | 7, [_; VVec l] | 4, [VVec l] => of_bool (Nat.even (List.length l))
  | 5, [VOpt o] => of_bool (match o with Some _ => true | None => false end)
  | 8, _ => FRet RVoid
  | 9, _ => of_bool true
  | 12, [VTup [VVec l; VOpt o]] => weigh s 2 l o
  | 13, [VTup [VVec l; VOpt o]] | 30, [VTup [VVec l; VOpt o]] => weigh s 3 l o
  | 22, [VVec l; VOpt o] => weigh s 2 l o
  | 23, [VVec l; VOpt o] => weigh s 3 l o
  | 40, [v] => FRet (RVal (VUser 20 [v]))
  | 41, [v; w] => FRet (RVal (VUser 21 [VTup [v; w]]))
  | 42, [v] => FRet (RVal (VUser 22 [v]))
  | 43, [v; w] => FRet (RVal (VUser 23 [VTup [v; w]]))
  | 50, [] | 51, [_] => scalar 1 0
  | 52, [] | 53, [_] => of_bool true
  | 54, [] | 55, [_] => FRet RVoid
  | 60, [VSpan i] => FRet (RVal (VSpan (if Nat.even (sp_len i) then literal_a else literal_b)))
  | 60, [VVec l] => FRet (RVal (VSpan (if Nat.even (List.length l) then literal_a else literal_b)))
  | _, _ => FIll
  end.

(** classes.ipp:5-126 and wrappers.h; [size_t] from [int] for Cus2 (divergent.ipp:74-82) *)
Definition cx_ct_ok (t : ty) (tys : list ty) : bool :=
  match t, tys with
  | TUser 2, [TUser 1] => true
  | TUser 11, [TSpan] => true
  | TUser 12, [TSpan; TSpan] | TUser 12, [TTup [TSpan; TSpan]] | TUser 12, [TUser 14] => true
  | TUser 14, [TTup [TSpan; TSpan]] => true
  | TUser 15, [TSpan; TSpan] => true
  | TUser 16, _ => true
  | TUser 20, [TSpan] | TUser 22, [TSpan] => true
  | TUser 21, [TSpan; TSpan] | TUser 23, [TSpan; TSpan] => true
  | _, _ => false
  end.

Definition cx_ct_app (s : list nat) (t : ty) (args : list val) : fnres :=
  match t, args with
  | TUser 2, [VUser 1 l] => FRet (RVal (VUser 2 l))
  | TUser 11, [VSpan i] =>
      scalar 11 (match text s i with [32] => 0 | [46] => 1 | [_] => 2 | _ => 3 end)
  | TUser 12, [VTup [v; w]] | TUser 12, [VUser 14 [v; w]] | TUser 12, [v; w] => FRet (RVal (VUser 12 [v; w]))
  | TUser 14, [VTup [v; w]] => FRet (RVal (VUser 14 [v; w]))
  | TUser 15, [v; w] => FRet (RVal (VUser 15 [v; w]))
  | TUser 16, l => FRet (RVal (VUser 16 l))
  | TUser 20, [v] => FRet (RVal (VUser 20 [v]))
  | TUser 22, [v] => FRet (RVal (VUser 22 [v]))
  | TUser 21, [v; w] => FRet (RVal (VUser 21 [VTup [v; w]]))
  | TUser 23, [v; w] => FRet (RVal (VUser 23 [VTup [v; w]]))
  | _, _ => FIll
  end.

(** Constants: 0 [0], 1 [1], 2 ['t'], 3 [true], 4 [nullptr] *)
Definition cx_k_ty (k : nat) : ty := match k with 2 => t_char | 3 => t_bool | 4 => t_nullptr | _ => t_int end.
Definition cx_k_val (k : nat) : val :=
  match k with 1 => VUser 1 [VZ 1] | 2 => VUser 3 [VZ 116] | 3 => VUser 0 [VZ 1] | 4 => VUser 4 [VZ 0] | _ => VUser 1 [VZ 0] end.

(** sub_parsers.ipp:14 *)
Definition cx_25 : parser nat :=
  PSequence (POneOrMore (PAllOf (codes "abc"))) [PMaybe (PChoice (PAllOf (codes "abc")) [PAllOf (codes "??")])].

(** The program that [s] is given to: block 1 is [s], blocks 2 and 3 hold the literals of [f].
    Customs: 0 [Cus1], 1 [Cus2], divergent.ipp:40-83. *)
Definition cx (s : list nat) : env nat nat := {|
  eqv := Nat.eqb;
  mem := fun b => match b with 1 => s | 2 => codes "a" | 3 => codes "b" | _ => [] end;
  fn_ret := cx_fn_ret;
  fn_app := cx_fn_app s;
  ct_ok := cx_ct_ok;
  ct_app := cx_ct_app s;
  k_ty := cx_k_ty;
  k_val := cx_k_val;
  bool_ok := fun t => ty_eqb t t_bool;
  as_bool := fun v => match v with VUser 0 [VZ z] => negb (z =? 0)%Z | _ => false end;
  cust_body := fun c => match c with 0 => PMap cx_25 (FUser 30) | _ => PMap (PAnyOf (codes "abc")) (FConstant 0) end;
  cust_ty := fun _ => t_size;
  cust_conv := fun c => match c with 0 => ConvSame | _ => ConvElem t_size end
|}.

(** ** Expected values: the OUTPUT arguments of ASSERT_PARSE_SUCCESS *)
Inductive expected : Type :=
| XText (t : string)                 (* "..." *)
| XList (l : list expected)          (* {...}, and vector, array, tuple, pair of ... *)
| XNone                              (* std::nullopt *)
| XSome (x : expected)               (* std::optional(...) *)
| XNum (z : Z)                       (* a number, bool, character or nullptr *)
| XObj (n : nat) (l : list expected) (* an object of class TUser n *)
| XVar (i : nat) (x : expected).     (* std::variant with alternative i active *)

Section Shows.
Variable mem : nat -> list nat.

(** [result == OUTPUT].  An optional compares equal to the value it holds. *)
Fixpoint shows (v : val) (x : expected) {struct v} : bool :=
  let all := fix all (l : list val) (xs : list expected) {struct l} : bool :=
    match l, xs with
    | [], [] => true
    | v :: l', x :: xs' => shows v x && all l' xs'
    | _, _ => false
    end in
  match v, x with
  | VOpt None, XNone => true
  | VOpt None, _ => false
  | VOpt (Some w), XSome y => shows w y
  | VOpt (Some w), y => shows w y
  | VSpan i, XText t => list_eqb Nat.eqb (firstn (sp_len i) (skipn (sp_off i) (mem (sp_blk i)))) (codes t)
  | VVec l, XList xs | VArr l, XList xs | VTup l, XList xs => all l xs
  | VPair a b, XList [y; z] => shows a y && shows b z
  | VVar i w, XVar j y => (i =? j) && shows w y
  | VVar _ w, y => shows w y
  | VUser _ [], XNum z => (z =? 0)%Z
  | VUser _ [VZ z], XNum z' => (z =? z')%Z
  | VUser n l, XObj m xs => (n =? m) && all l xs
  | VZ z, XNum z' => (z =? z')%Z
  | _, _ => false
  end.
End Shows.

(** ** The assertions *)

(** The expressions of ASSERT_PARSER_VALUES_EQ and the like: [None] = does not compile. *)
Definition expr := option (object nat).
Definition opar (p : parser nat) : expr := Some (OParser p).
Definition omod (m : modifier nat) : expr := Some (OMod m).

Definition as_p (e : expr) : option (parser nat) := match e with Some (OParser p) => Some p | _ => None end.
Definition binp (f : parser nat -> parser nat -> option (parser nat)) (a b : expr) : expr :=
  match as_p a, as_p b with Some p, Some q => option_map OParser (f p q) | _, _ => None end.
Definition unp (f : parser nat -> option (parser nat)) (a : expr) : expr :=
  match as_p a with Some p => option_map OParser (f p) | _ => None end.

Definition e_or : expr -> expr -> expr := binp (fun p q => Some (choice_operator nat_order p q)).
Definition e_or_eps : expr -> expr := unp (fun p => Some (or_epsilon nat_order p)).
Definition e_seq : expr -> expr -> expr := binp (fun p q => Some (sequence_operator p q)).
Definition e_maybe : expr -> expr := unp (fun p => Some (maybe_operator p)).
Definition e_plus : expr -> expr := unp (fun p => Some (one_or_more_operator p)).
Definition e_star : expr -> expr := unp (fun p => Some (zero_or_more_operator p)).
Definition e_not : expr -> expr := unp not_operator.
Definition e_mod (a b : expr) : expr :=
  match a, b with Some x, Some y => percent x y | _, _ => None end.
Definition e_call (f a : expr) : expr :=
  match f, as_p a with Some (OMod m), Some p => call m p | _, _ => None end.
Definition e_delimit : expr -> expr -> expr := binp (fun p d => Some (delimit_call p d)).
Definition e_delimit_keep : expr -> expr -> expr := binp (fun p d => Some (delimit_keep_call p d)).
Definition e_sub (a : expr) (subs : list (string * modifier nat)) : expr :=
  match as_p a with Some p => sub_call p subs | None => None end.
Definition e_any (t : string) : expr := opar (any nat_order (isort nat_order) (codes t)).
Definition e_none (t : string) : expr := opar (none nat_order (isort nat_order) (codes t)).
Definition e_all (t : string) : expr := opar (all (codes t)).
Definition e_ign (t : string) : expr := opar (ign (codes t)).

(** [std::same_as] of two modifiers *)
Fixpoint mod_eqb (a b : modifier nat) {struct a} : bool :=
  match a, b with
  | MIgnore, MIgnore | MComplete, MComplete | MJoin, MJoin | MDelimit, MDelimit | MDelimitKeep, MDelimitKeep | MSub, MSub => true
  | MExactly n, MExactly m => n =? m
  | MMap f, MMap g | MFilter f, MFilter g | MApply f, MApply g | MApplyFilter f, MApplyFilter g => func_eqb f g
  | MInto t, MInto u | MApplyInto t, MApplyInto u | MDefaulted t, MDefaulted u => ty_eqb t u
  | MConstant k, MConstant l => k =? l
  | MDelimitBy p, MDelimitBy q | MDelimitKeepBy p, MDelimitKeepBy q => parser_eqb nat_order p q
  | MName s, MName t => String.eqb s t
  | MMulti l, MMulti l' => list_eqb mod_eqb l l'
  | _, _ => false
  end.

Inductive check : Type :=
| Success (p : parser nat) (input : string) (output : expected) (remaining : string)
| SuccessVoid (p : parser nat) (input remaining : string)
| Failure (p : parser nat) (input : string)
| LookaheadOnly (p : parser nat) (input remaining : string)
| IsParser (p : parser nat) (f : family) (t : ty)
| IsNotParser (p : parser nat) (f : family)
| ValuesEq (a b : expr)
| ValuesNe (a b : expr)
| ModsEq (a b : expr)
| ModsNe (a b : expr)
| NotOperable (a : expr)
| Constructible (p : parser nat)
| NotConstructible (p : parser nat).

Definition rounds : nat := 60.

(** [ASSERT] checks its condition in a [static_assert] and again at run time (framework
    Assert.h:17-22); [b] is one of these.  [far] is false: in the MSVC build no literal of the
    tests is taken to begin where another one ends. *)
Definition fuelled (b : build) (m : mode) (p : parser nat) (t : string) : outcome presult :=
  let s := codes t in
  if compiles (cx s) m p then run_on (cx s) b (fun _ _ => false) rounds m p (Span 1 0 (List.length s)) else Ill.

(** [remaining() == REMAINING]: the elements; and the span must be the input's tail. *)
Definition leaves (t : string) (rem : span) (remaining : string) : bool :=
  let s := codes t in
  list_eqb Nat.eqb (text s rem) (codes remaining)
  && (sp_blk rem =? 1) && (sp_off rem + sp_len rem =? List.length s).

Definition fam_eqb (f g : family) : bool := if family_eq_dec f g then true else false.

(** The constraints of the class templates on their own arguments: parsers/any_of.h:11-12,
    none_of.h:11-12 (is_sorted_and_uniqued), exactly.h:13-14 (not 0) *)
Definition constructible (p : parser nat) : bool :=
  match p with
  | PAnyOf a | PNoneOf a => is_sorted_and_uniqued nat_order a
  | PExactly _ n => negb (n =? 0)
  | _ => true
  end.

(** [decltype(expr)] used as a parser *)
Definition the (e : expr) : parser nat := match as_p e with Some p => p | None => PCustom 99 end.

Definition holds_on (b : build) (c : check) : bool :=
  match c with
  | Success p t x r =>                                            (* Parse.h:39-45 *)
      match fuelled b Parse p t with
      | Done (Res (Some (RVal v)) rem) _ => shows (mem (cx (codes t))) v x && leaves t rem r
      | _ => false
      end &&
      match fuelled b Look p t with Done (Res (Some _) rem) _ => leaves t rem r | _ => false end
  | SuccessVoid p t r =>                                          (* Parse.h:47-52 *)
      match fuelled b Parse p t with Done (Res (Some RVoid) rem) _ => leaves t rem r | _ => false end &&
      match fuelled b Look p t with Done (Res (Some RVoid) rem) _ => leaves t rem r | _ => false end
  | Failure p t =>                                                (* Parse.h:54-59 *)
      match fuelled b Parse p t with Done (Res None rem) _ => leaves t rem t | _ => false end &&
      match fuelled b Look p t with Done (Res None rem) _ => leaves t rem t | _ => false end
  | LookaheadOnly p t r =>                                        (* Parse.h:61-66 *)
      match fuelled b Parse p t with Done (Res None rem) _ => leaves t rem t | _ => false end &&
      match fuelled b Look p t with Done (Res (Some _) rem) _ => leaves t rem r | _ => false end
  | IsParser p f t =>                                             (* Concept.h:17-24 *)
      fam_eqb (family_of p) f &&
      match result_for (cx []) p with Some u => ty_eqb u t | None => false end
      && compiles (cx []) Parse p && compiles (cx []) Look p
  | IsNotParser p f =>                                            (* Concept.h:26-31 *)
      fam_eqb (family_of p) f &&
      match result_for (cx []) p with
      | None => true
      | Some _ => negb (compiles (cx []) Parse p && compiles (cx []) Look p)
      end
  | ValuesEq a b =>                                               (* Equality.h:17-23 *)
      match as_p a, as_p b with Some p, Some q => parser_eqb nat_order p q | _, _ => false end
  | ValuesNe a b =>                                               (* Equality.h:25-29 *)
      match as_p a, as_p b with Some p, Some q => negb (parser_eqb nat_order p q) | _, _ => false end
  | ModsEq a b =>                                                 (* Equality.h:41-45 *)
      match a, b with Some (OMod m), Some (OMod n) => mod_eqb m n | _, _ => false end
  | ModsNe a b =>                                                 (* Equality.h:47-51 *)
      match a, b with Some (OMod m), Some (OMod n) => negb (mod_eqb m n) | _, _ => false end
  | NotOperable a => match a with None => true | Some _ => false end
  | Constructible p => constructible p                            (* Constructible.h:9-17, 23-25 *)
  | NotConstructible p => negb (constructible p)                  (* Constructible.h:19-21, 27-29 *)
  end.

(** The assertions of a TEST that do not hold, with their line. *)
Definition broken_on (b : build) (cs : list (nat * check)) : list nat :=
  map fst (filter (fun x => negb (holds_on b (snd x))) cs).

(** Those that do not hold in the [static_assert], at run time with GCC or Clang, and at run
    time with MSVC. *)
Definition broken (cs : list (nat * check)) : list nat * list nat * list nat :=
  (broken_on GccConstant cs, broken_on GccRun cs, broken_on MsvcRun cs).
Definition none_broken : list nat * list nat * list nat := ([], [], []).

(** Equality of types does not depend on the build. *)
Definition holds : check -> bool := holds_on GccConstant.

(** ** The asserters that are applied to all samples

    What a macro expects is computed by code of its own, given here as [match]es over the
    families, independent of the model's operators. *)

(** modifiers/*.cpp: [mod(p)] and [p % mod] are both [r]. *)
Definition modifies (m : modifier nat) (p r : parser nat) : list check :=
  [ValuesEq (e_call (omod m) (opar p)) (opar r); ValuesEq (e_mod (opar p) (omod m)) (opar r)].

(** ignore.cpp:52-68, complete.cpp:60-76, join.cpp:54-70 *)
Definition ignore_asserter (p : parser nat) : list check :=
  modifies MIgnore p (match p with PIgnore _ => p | _ => PIgnore p end).
Definition complete_asserter (p : parser nat) : list check :=
  modifies MComplete p (match p with PComplete _ => p | _ => PComplete p end).
Definition join_asserter (p : parser nat) : list check :=
  modifies MJoin p (match p with PJoin _ => p | _ => PJoin p end).
(** apply.cpp:34-40, apply_filter.cpp:30-36, apply_into.cpp:32-38, constant.cpp:36-38,
    defaulted.cpp:32-34, exactly.cpp:36-42, filter.cpp:34-40, into.cpp:32-38, map.cpp:38-44,
    name.cpp:36-40 *)
Definition apply_asserter p := modifies (MApply (FUser 8)) p (PMap p (FApply (FUser 8))).
Definition apply_filter_asserter p := modifies (MApplyFilter (FUser 9)) p (PFilter p (FApply (FUser 9))).
Definition apply_into_asserter p := modifies (MApplyInto t_Sink) p (PMap p (FApply (FConstruct t_Sink))).
Definition constant_asserter p := modifies (MConstant 0) p (PMap p (FConstant 0)).
Definition defaulted_asserter p := modifies (MDefaulted t_bool) p (PMap p (FDefault t_bool)).
Definition exactly_asserter p := modifies (MExactly 2) p (PExactly p 2).
Definition filter_asserter p := modifies (MFilter (FUser 9)) p (PFilter p (FUser 9)).
Definition into_asserter p := modifies (MInto t_Sink) p (PMap p (FConstruct t_Sink)).
Definition map_asserter p := modifies (MMap (FUser 8)) p (PMap p (FUser 8)).
Definition name_asserter p := modifies (MName "test1") p (PNamed p "test1") ++ modifies (MName "test2") p (PNamed p "test2").
(** delimit.cpp:44-68, delimit_keep.cpp:44-68 *)
Definition delimit_asserter_2 (p d : parser nat) : list check :=
  [ValuesEq (e_delimit (opar p) (opar d)) (opar (PDelimit p (PIgnore d)));
   ValuesEq (e_mod (opar p) (e_call (omod MDelimit) (opar d))) (opar (PDelimit p (PIgnore d)))].
Definition delimit_keep_asserter_2 (p d : parser nat) : list check :=
  [ValuesEq (e_delimit_keep (opar p) (opar d)) (opar (PDelimit p d));
   ValuesEq (e_mod (opar p) (e_call (omod MDelimitKeep) (opar d))) (opar (PDelimit p d))].
Definition delimit_asserter p := delimit_asserter_2 p (PAnyOf (codes ",")).
Definition delimit_keep_asserter p := delimit_keep_asserter_2 p (PAnyOf (codes ",")).

(** operators/maybe.cpp:67-90, one_or_more.cpp:67-90, zero_or_more.cpp:67-90, not.cpp:39-57;
    epsilon.cpp:40-48 without the deleted [eps | p], which has no counterpart in the model *)
Definition maybe_asserter (p : parser nat) : list check :=
  [ValuesEq (e_maybe (opar p)) (opar (match p with
     | PMaybe _ => p | POneOrMore q => PZeroOrMore q | PZeroOrMore _ => p | _ => PMaybe p end))].
Definition one_or_more_asserter (p : parser nat) : list check :=
  [ValuesEq (e_plus (opar p)) (opar (match p with
     | PMaybe q => PZeroOrMore q | POneOrMore _ => p | PZeroOrMore _ => p | _ => POneOrMore p end))].
Definition zero_or_more_asserter (p : parser nat) : list check :=
  [ValuesEq (e_star (opar p)) (opar (match p with
     | PMaybe q => PZeroOrMore q | POneOrMore q => PZeroOrMore q | PZeroOrMore _ => p | _ => PZeroOrMore p end))].
Definition not_asserter (p : parser nat) : list check :=
  [match p with
   | PAnyOf a => ValuesEq (e_not (opar p)) (opar (PNoneOf a))
   | PNoneOf a => ValuesEq (e_not (opar p)) (opar (PAnyOf a))
   | _ => NotOperable (e_not (opar p))
   end].
Definition epsilon_asserter (p : parser nat) : list check :=
  [ValuesEq (e_or_eps (opar p)) (e_or (opar p) (opar PEpsilon))].

(** operators/choice.cpp:108-167; the elements that the set operations
    should leave are found by membership, 0-127 being all the characters of the samples *)
Definition chars (keep : nat -> bool) : list nat := filter keep (seq 0 128).
Definition isin (a : list nat) (c : nat) : bool := existsb (Nat.eqb c) a.
Definition choice_asserter (p q : parser nat) : list check :=
  [ValuesEq (e_or (opar p) (opar q)) (opar (
     if parser_eqb nat_order p q then p else
     match p, q with
     | PAnyOf a, PAnyOf b => PAnyOf (chars (fun c => isin a c || isin b c))
     | PNoneOf a, PNoneOf b => PNoneOf (chars (fun c => isin a c && isin b c))
     | PNoneOf a, PAnyOf b => PNoneOf (chars (fun c => isin a c && negb (isin b c)))
     | PAnyOf a, PNoneOf b => PNoneOf (chars (fun c => isin b c && negb (isin a c)))
     | PChoice x xs, PChoice y ys => PChoice x (xs ++ y :: ys)
     | PChoice x xs, _ => PChoice x (xs ++ [q])
     | _, PChoice y ys => PChoice p (y :: ys)
     | _, _ => PChoice p [q]
     end))].
(** operators/sequence.cpp:121-157 *)
Definition sequence_asserter (p q : parser nat) : list check :=
  [ValuesEq (e_seq (opar p) (opar q)) (opar (
     match p, q with
     | PAllOf a, PAllOf b => PAllOf (a ++ b)
     | PSequence x xs, PSequence y ys => PSequence x (xs ++ y :: ys)
     | PSequence x xs, _ => PSequence x (xs ++ [q])
     | _, PSequence y ys => PSequence p (y :: ys)
     | _, _ => PSequence p [q]
     end))].
Definition pairs (f : parser nat -> parser nat -> list check) (ps qs : list (parser nat)) : list check :=
  flat_map (fun p => flat_map (f p) qs) ps.
