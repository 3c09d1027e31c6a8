(** * Parsers as data, result types, compile-time well-formedness *)
From Coq Require Import List Arith ZArith Bool String.
From Verif Require Import Types Compound.
Import ListNotations.

(** The class templates of detail/parsers/*.h.  A parser object is empty and stateless
    (parser.h:71 [std::is_empty_v]), so the type is the parser.  [T] is [value_type].
    - any_of.h:11-16, none_of.h:11-16, all_of.h:11-15, anything.h:10-14, epsilon.h:11-12
    - choice.h:14-15 and sequence.h:14-15 take one or more parsers
    - maybe.h:13, exactly.h:13-15, one_or_more.h:13, zero_or_more.h:13, delimit.h:14-15
    - ignore.h:11, complete.h:11, join.h:120, map.h:13, filter.h:14, named.h:11,
      custom.h:30 ([PCustom c]: the [c]-th class deriving from [custom_parser]). *)
Inductive parser (T : Type) : Type :=
| PAnyOf (arr : list T)
| PNoneOf (arr : list T)
| PAllOf (arr : list T)
| PAnything
| PEpsilon
| PChoice (p : parser T) (ps : list (parser T))
| PSequence (p : parser T) (ps : list (parser T))
| PMaybe (p : parser T)
| PExactly (p : parser T) (n : nat)
| POneOrMore (p : parser T)
| PZeroOrMore (p : parser T)
| PDelimit (p d : parser T)
| PIgnore (p : parser T)
| PComplete (p : parser T)
| PJoin (p : parser T)
| PMap (p : parser T) (f : func)
| PFilter (p : parser T) (f : func)
| PNamed (p : parser T) (str : string)
| PCustom (c : nat).
Arguments PAnyOf {T}. Arguments PNoneOf {T}. Arguments PAllOf {T}. Arguments PAnything {T}.
Arguments PEpsilon {T}. Arguments PChoice {T}. Arguments PSequence {T}. Arguments PMaybe {T}.
Arguments PExactly {T}. Arguments POneOrMore {T}. Arguments PZeroOrMore {T}.
Arguments PDelimit {T}. Arguments PIgnore {T}. Arguments PComplete {T}. Arguments PJoin {T}.
Arguments PMap {T}. Arguments PFilter {T}. Arguments PNamed {T}. Arguments PCustom {T}.

(** How custom.h:46 converts [result<T2, V>] to [result<T, V>].
    - [ConvSame]: T is T2, plain move
    - [ConvElem t]: result.h:37-39 with [std::optional<T>(std::optional<T2>&&)] converting
      the contained value, if any, to [t]
    - [ConvWhole t]: the same line, when [t] is constructible from [std::optional<T2>]
      itself (t = std::optional<T2>, std::any, ...): [optional<T>]'s constructor from a value
      is selected instead ([optional.ctor]), so the whole optional is handed to [t] and the
      outcome is engaged whether or not the inner one was. *)
Inductive conv : Type := ConvSame | ConvElem (t : ty) | ConvWhole (t : ty).

(** Everything a parser's meaning depends on besides its own type and the input span.
    - [eqv]: the comparison [value_type == V] (type_traits.h:21-23)
    - [mem]: contents of the storage blocks
    - [fn_ret], [fn_app]: [std::invoke_result] and effect of a user callable
    - [ct_ok], [ct_app]: is [T(args...)] well-formed, and what does it construct
    - [k_ty], [k_val]: constants given to [constant<value>]
    - [bool_ok], [as_bool]: conversion of a predicate's result to bool
    - [cust_body]: [decltype(P::get_parser())]; [cust_ty]: [result_for] of the custom
      parser (custom.h:14-26: the declared [result_type] if there is one);
      [cust_conv]: which constructor of [result] turns the get_parser() result into the
      declared one. *)
Record env (T V : Type) : Type := Env {
  eqv : T -> V -> bool;
  mem : nat -> list V;
  fn_ret : nat -> list ty -> option ty;
  fn_app : nat -> list val -> fnres;
  ct_ok : ty -> list ty -> bool;
  ct_app : ty -> list val -> fnres;
  k_ty : nat -> ty;
  k_val : nat -> val;
  bool_ok : ty -> bool;
  as_bool : val -> bool;
  cust_body : nat -> parser T;
  cust_ty : nat -> ty;
  cust_conv : nat -> conv;
}.
Arguments eqv {T V}. Arguments mem {T V}. Arguments fn_ret {T V}. Arguments fn_app {T V}.
Arguments ct_ok {T V}. Arguments ct_app {T V}. Arguments k_ty {T V}. Arguments k_val {T V}.
Arguments bool_ok {T V}. Arguments as_bool {T V}. Arguments cust_body {T V}.
Arguments cust_ty {T V}. Arguments cust_conv {T V}.

(** ** parser_family, detail/parser.h:11-36 (numbers = enumerator positions) *)
Inductive family : Type :=
| fam_none | fam_any_of | fam_none_of | fam_all_of | fam_anything | fam_epsilon
| fam_choice | fam_sequence | fam_maybe | fam_exactly | fam_one_or_more | fam_zero_or_more
| fam_delimit | fam_ignore | fam_complete | fam_join | fam_map | fam_filter | fam_named
| fam_custom | fam_end.

(** The aliases, detail/parser.h:38-56.  Lines 52, 53 and 55 permute join, map and named. *)
Definition any_of_family := fam_any_of.
Definition none_of_family := fam_none_of.
Definition all_of_family := fam_all_of.
Definition anything_family := fam_anything.
Definition epsilon_family := fam_epsilon.
Definition choice_family := fam_choice.
Definition sequence_family := fam_sequence.
Definition maybe_family := fam_maybe.
Definition exactly_family := fam_exactly.
Definition one_or_more_family := fam_one_or_more.
Definition zero_or_more_family := fam_zero_or_more.
Definition delimit_family := fam_delimit.
Definition ignore_family := fam_ignore.
Definition complete_family := fam_complete.
Definition join_family := fam_map.
Definition map_family := fam_named.
Definition filter_family := fam_filter.
Definition named_family := fam_join.
Definition custom_family := fam_custom.

(** The [family] members: any_of.h:15, none_of.h:15, all_of.h:14, anything.h:13,
    epsilon.h:19, choice.h:27, sequence.h:27, maybe.h:25, exactly.h:26, one_or_more.h:25,
    zero_or_more.h:25, delimit.h:34, ignore.h:19, complete.h:19, join.h:128, map.h:25,
    filter.h:27, named.h:19, custom.h:39; the join specialisations repeat join_family
    (optimizations/*.h:20). *)
Definition family_of {T} (p : parser T) : family :=
  match p with
  | PAnyOf _ => any_of_family
  | PNoneOf _ => none_of_family
  | PAllOf _ => all_of_family
  | PAnything => anything_family
  | PEpsilon => epsilon_family
  | PChoice _ _ => choice_family
  | PSequence _ _ => sequence_family
  | PMaybe _ => maybe_family
  | PExactly _ _ => exactly_family
  | POneOrMore _ => one_or_more_family
  | PZeroOrMore _ => zero_or_more_family
  | PDelimit _ _ => delimit_family
  | PIgnore _ => ignore_family
  | PComplete _ => complete_family
  | PJoin _ => join_family
  | PMap _ _ => map_family
  | PFilter _ _ => filter_family
  | PNamed _ _ => named_family
  | PCustom _ => custom_family
  end.

Definition family_eq_dec (a b : family) : {a = b} + {a <> b}.
Proof. decide equality. Defined.

Section Static.
Context {T V : Type} (E : env T V).

(** Element types of a type with [std::tuple_size] (apply.h:25-32): tuple, array, pair. *)
Definition tuple_tys (t : ty) : option (list ty) :=
  match t with
  | TTup ts => Some ts
  | TArr t n => Some (repeat t n)
  | TPair a b => Some [a; b]
  | _ => None
  end.

(** [std::invoke_result] of a function object: functions.h:11-22.  Simplified: every type
    of the model but void (nested or not) is default-constructible. *)
Fixpoint fn_ty (f : func) (args : list ty) : option ty :=
  match f with
  | FUser n => fn_ret E n args
  | FApply g =>
      match args with
      | [t] => match tuple_tys t with Some ts => fn_ty g ts | None => None end
      | _ => None
      end
  | FConstant k => Some (k_ty E k)
  | FConstruct t => if ct_ok E t args then Some t else None
  | FDefault t => if ty_ok t then Some t else None
  end.

(** Argument types of a call on a parser's value: none for void (map.h:19-23). *)
Definition arg_tys (t : ty) : list ty := if is_void t then [] else [t].

(** The [result_for] aliases; [None] = ill-formed.
    basic_base.h:26-27, epsilon.h:16-17, choice.h:24-25, sequence.h:24-25, maybe.h:18-23,
    exactly.h:19-24, one_or_more.h:18-23, zero_or_more.h:18-23, delimit.h:19-32,
    ignore.h:16-17, complete.h:16-17, join.h:125-126, map.h:18-23, filter.h:19-25,
    named.h:16-17, custom.h:35-37. *)
Fixpoint result_for (p : parser T) : option ty :=
  match p with
  | PAnyOf _ | PNoneOf _ | PAllOf _ | PAnything => Some TSpan
  | PEpsilon => Some TVoid
  | PChoice p ps =>
      match all_some (result_for p :: map result_for ps) with
      | Some tys => Some (compound_result TVar (fst (filter_out_void_deduplicate tys)))
      | None => None
      end
  | PSequence p ps =>
      match all_some (result_for p :: map result_for ps) with
      | Some tys => Some (compound_result TTup (fst (filter_out_void tys)))
      | None => None
      end
  | PMaybe p =>
      match result_for p with
      | Some t => Some (if is_void t then TVoid else TOpt t)
      | None => None
      end
  | PExactly p n =>
      match result_for p with
      | Some t => Some (if is_void t then TVoid else TArr t n)
      | None => None
      end
  | POneOrMore p | PZeroOrMore p =>
      match result_for p with
      | Some t => Some (if is_void t then TVoid else TVec t)
      | None => None
      end
  | PDelimit p d =>
      match result_for p, result_for d with
      | Some tp, Some td =>
          Some (if is_void td
                then (if is_void tp then TVoid else TVec tp)
                else (if is_void tp then TVec td else TPair (TVec tp) (TVec td)))
      | _, _ => None
      end
  | PIgnore _ => Some TVoid
  | PComplete p => result_for p
  | PJoin _ => Some TSpan
  | PMap p f =>
      match result_for p with
      | Some t => fn_ty f (arg_tys t)
      | None => None
      end
  | PFilter p f =>
      match result_for p with
      | Some t => match fn_ty f (arg_tys t) with
                  | Some b => if bool_ok E b then Some t else None
                  | None => None
                  end
      | None => None
      end
  | PNamed p _ => result_for p
  | PCustom c => Some (cust_ty E c)
  end.

(** Result types of the parts of a choice or sequence. *)
Definition result_fors (ps : list (parser T)) : option (list ty) :=
  all_some (map result_for ps).

(** Result types accepted by the overload set [join_executor::try_join]
    (join.h:41-113): span, vector, array, optional, non-empty tuple.
    Simplified: user types implicitly convertible to a span are rejected. *)
Fixpoint joinable (t : ty) : bool :=
  match t with
  | TSpan => true
  | TVec t | TArr t _ | TOpt t => joinable t
  | TTup ts => match ts with [] => false | _ => forallb joinable ts end
  | _ => false
  end.

Inductive mode : Type := Parse | Look.

(** Does instantiating [P::parse] / [P::lookahead] compile?  (Bodies of the functions in
    detail/parsers/*.h; a custom parser's get_parser() is checked separately, see
    [env_wf] in the specifications.)  In a compound, a part with index -1 only has its
    lookahead instantiated (helpers.h:156-162). *)
Definition compound_compiles (rec : mode -> parser T -> bool) :=
  fix go (ps : list (parser T)) (seq : list index) {struct ps} : bool :=
  match ps, seq with
  | p :: ps', i :: seq' =>
      (match i with None => rec Look p | Some _ => rec Parse p end) && go ps' seq'
  | _, _ => true
  end.

Fixpoint compiles (m : mode) (p : parser T) {struct p} : bool :=
  match p with
  | PAnyOf _ | PNoneOf _ | PAllOf _ | PAnything | PEpsilon => true
  | PChoice p ps =>
      match result_fors (p :: ps) with
      | None => false
      | Some tys =>
          match m with
          | Look => compiles Look p && forallb (compiles Look) ps
          | Parse =>
              let done := fst (filter_out_void_deduplicate tys) in
              let seq := snd (filter_out_void_deduplicate tys) in
              (unwrapped done || emplace_ok done tys seq)
              && match seq with
                 | [] => true
                 | i :: seq' =>
                     (match i with None => compiles Look p | Some _ => compiles Parse p end)
                     && compound_compiles compiles ps seq'
                 end
          end
      end
  | PSequence p ps =>
      match result_fors (p :: ps) with
      | None => false
      | Some tys =>
          match m with
          | Look => compiles Look p && forallb (compiles Look) ps
          | Parse =>
              match snd (filter_out_void tys) with
              | [] => true
              | i :: seq' =>
                  (match i with None => compiles Look p | Some _ => compiles Parse p end)
                  && compound_compiles compiles ps seq'
              end
          end
      end
  | PMaybe p | POneOrMore p | PZeroOrMore p =>
      compiles m p
      && match m with Look => true | Parse => match result_for p with Some _ => true | None => false end end
  | PExactly p n =>
      negb (n =? 0) && compiles m p
      && match m with Look => true | Parse => match result_for p with Some _ => true | None => false end end
  | PDelimit p d =>
      compiles m p && compiles m d
      && match m with
         | Look => true
         | Parse => match result_for p, result_for d with Some _, Some _ => true | _, _ => false end
         end
  | PIgnore p => compiles Look p
  | PComplete p =>
      compiles m p
      && match m with Look => true | Parse => match result_for p with Some _ => true | None => false end end
  | PJoin p =>
      match m with
      | Look => compiles Look p
      | Parse => compiles Parse p
                 && match result_for p with Some t => joinable t | None => false end
      end
  | PMap p f =>
      match m with
      | Look => compiles Look p
      | Parse => compiles Parse p
                 && match result_for (PMap p f) with Some _ => true | None => false end
      end
  | PFilter p f =>
      match m with
      | Look => compiles Look p
      | Parse => compiles Parse p
                 && match result_for (PFilter p f) with Some _ => true | None => false end
      end
  | PNamed p _ => compiles m p
  | PCustom _ => true
  end.

End Static.
