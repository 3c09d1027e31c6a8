(** * The library's overload sets and partial specialisations

    Parser and modifier types as C++ types (instances of templates), and the sets of
    function templates and partial specialisations of operators/*.h, optimizations/*.h and
    modifiers/sub.h, declaration by declaration, to be resolved by the rules of Overload.v.

    As everywhere in the model all parsers of an expression have one [value_type];
    [parser_compatible_with] (parser.h:95-99) and [like_static_arrays] (static_array.h:88)
    therefore hold of any two parsers and arrays. *)
From Coq Require Import String List Arith Bool Lia.
From Verif Require Import Types Compound CompoundFacts Parser Typing StaticArray Operators Modifiers Overload.
Import ListNotations.

(** The class templates, and the classes that are no templates, of parsers/*.h,
    modifiers/*.h, operators/epsilon.h:12-16, substitution.h:11-16 *)
Inductive cls :=
| any_of_parser | none_of_parser | all_of_parser | anything_parser | epsilon_parser
| choice_parser | sequence_parser | maybe_parser | exactly_parser | one_or_more_parser | zero_or_more_parser
| delimit_parser | ignore_parser | complete_parser | join_parser | map_parser | filter_parser | named_parser
| ignore_modifier | complete_modifier | join_modifier | exactly_modifier | map_modifier | filter_modifier
| apply_modifier | apply_filter_modifier | into_modifier | apply_into_modifier | constant_modifier | defaulted_modifier
| delimit_modifier | delimit_keep_modifier | delimit_inner | delimit_keep_inner | name_modifier
| sub_modifier | sub_inner | multi_modifier
| substitution_info | epsilon_operator.

Definition cls_eq_dec (a b : cls) : {a = b} + {a <> b}.
Proof. decide equality. Defined.
Definition cls_eqb (a b : cls) : bool := if cls_eq_dec a b then true else false.

(** [template <static_array>]: any_of.h:20, none_of.h, all_of.h; named.h:11 has a type and
    a value; the functions and constants of modifiers are values *)
Definition cls_kind (f : cls) : kind :=
  match f with
  | any_of_parser | none_of_parser | all_of_parser | name_modifier => KValue
  | named_parser | substitution_info => KMixed
  | exactly_modifier | map_modifier | filter_modifier | apply_modifier | apply_filter_modifier | constant_modifier => KMixed
  | ignore_modifier | complete_modifier | join_modifier | delimit_modifier | delimit_keep_modifier | sub_modifier
  | epsilon_operator => KClass
  | _ => KTypes
  end.

Section Sets.
Context {T : Type} (O : order T).

(** Types and values that are no instances of the templates above: arrays, integral
    constants ([ANum], [AFun], [AConst]), names, result types, the element type, the classes
    of custom parsers *)
Inductive atom :=
| AArr (a : list T) | ANum (n : nat) | AFun (f : func) | AName (s : string) | ATy (t : ty) | AConst (k : nat)
| AValueType | AClass (c : nat).

Definition atom_eqb (x y : atom) : bool :=
  match x, y with
  | AArr a, AArr b => list_eqb (eqb O) a b
  | ANum a, ANum b | AConst a, AConst b | AClass a, AClass b => a =? b
  | AFun f, AFun g => func_eqb f g
  | AName s, AName t => String.eqb s t
  | ATy t, ATy u => ty_eqb t u
  | AValueType, AValueType => true
  | _, _ => false
  end.

Definition cxx : Type := term cls atom.
Definition inst (f : cls) (ts : list cxx) : cxx := Inst (Named f) ts.

(** The C++ type of a parser, *)
Fixpoint ctype (p : parser T) : cxx :=
  match p with
  | PAnyOf a => inst any_of_parser [Atom (AArr a)]
  | PNoneOf a => inst none_of_parser [Atom (AArr a)]
  | PAllOf a => inst all_of_parser [Atom (AArr a)]
  | PAnything => inst anything_parser [Atom AValueType]
  | PEpsilon => inst epsilon_parser [Atom AValueType]
  | PChoice p ps => inst choice_parser (ctype p :: map ctype ps)
  | PSequence p ps => inst sequence_parser (ctype p :: map ctype ps)
  | PMaybe p => inst maybe_parser [ctype p]
  | PExactly p n => inst exactly_parser [ctype p; Atom (ANum n)]
  | POneOrMore p => inst one_or_more_parser [ctype p]
  | PZeroOrMore p => inst zero_or_more_parser [ctype p]
  | PDelimit p d => inst delimit_parser [ctype p; ctype d]
  | PIgnore p => inst ignore_parser [ctype p]
  | PComplete p => inst complete_parser [ctype p]
  | PJoin p => inst join_parser [ctype p]
  | PMap p f => inst map_parser [ctype p; Atom (AFun f)]
  | PFilter p f => inst filter_parser [ctype p; Atom (AFun f)]
  | PNamed p s => inst named_parser [ctype p; Atom (AName s)]
  | PCustom c => Atom (AClass c)
  end.

(** of a modifier, *)
Fixpoint mtype (m : modifier T) : cxx :=
  match m with
  | MIgnore => inst ignore_modifier []
  | MComplete => inst complete_modifier []
  | MJoin => inst join_modifier []
  | MExactly n => inst exactly_modifier [Atom (ANum n)]
  | MMap f => inst map_modifier [Atom (AFun f)]
  | MFilter f => inst filter_modifier [Atom (AFun f)]
  | MApply f => inst apply_modifier [Atom (AFun f)]
  | MApplyFilter f => inst apply_filter_modifier [Atom (AFun f)]
  | MInto t => inst into_modifier [Atom (ATy t)]
  | MApplyInto t => inst apply_into_modifier [Atom (ATy t)]
  | MConstant k => inst constant_modifier [Atom (AConst k)]
  | MDefaulted t => inst defaulted_modifier [Atom (ATy t)]
  | MDelimit => inst delimit_modifier []
  | MDelimitKeep => inst delimit_keep_modifier []
  | MDelimitBy d => inst delimit_inner [ctype d]
  | MDelimitKeepBy d => inst delimit_keep_inner [ctype d]
  | MName s => inst name_modifier [Atom (AName s)]
  | MSub => inst sub_modifier []
  | MSubBy subs => inst sub_inner (map (fun s => inst substitution_info [Atom (AName (fst s)); mtype (snd s)]) subs)
  | MMulti ms => inst multi_modifier (map mtype ms)
  end.

(** and of an operand of % *)
Definition otype (o : object T) : cxx := match o with OParser p => ctype p | OMod m => mtype m end.

(** ... and back *)
Fixpoint parser_of (t : cxx) : option (parser T) :=
  match t with
  | Atom (AClass c) => Some (PCustom c)
  | Inst (Named f) ts =>
      match f, ts with
      | any_of_parser, [Atom (AArr a)] => Some (PAnyOf a)
      | none_of_parser, [Atom (AArr a)] => Some (PNoneOf a)
      | all_of_parser, [Atom (AArr a)] => Some (PAllOf a)
      | anything_parser, [Atom AValueType] => Some PAnything
      | epsilon_parser, [Atom AValueType] => Some PEpsilon
      | choice_parser, t :: ts =>
          match parser_of t, all_some (map parser_of ts) with Some p, Some ps => Some (PChoice p ps) | _, _ => None end
      | sequence_parser, t :: ts =>
          match parser_of t, all_some (map parser_of ts) with Some p, Some ps => Some (PSequence p ps) | _, _ => None end
      | maybe_parser, [t] => option_map PMaybe (parser_of t)
      | exactly_parser, [t; Atom (ANum n)] => option_map (fun p => PExactly p n) (parser_of t)
      | one_or_more_parser, [t] => option_map POneOrMore (parser_of t)
      | zero_or_more_parser, [t] => option_map PZeroOrMore (parser_of t)
      | delimit_parser, [t; u] => match parser_of t, parser_of u with Some p, Some d => Some (PDelimit p d) | _, _ => None end
      | ignore_parser, [t] => option_map PIgnore (parser_of t)
      | complete_parser, [t] => option_map PComplete (parser_of t)
      | join_parser, [t] => option_map PJoin (parser_of t)
      | map_parser, [t; Atom (AFun f)] => option_map (fun p => PMap p f) (parser_of t)
      | filter_parser, [t; Atom (AFun f)] => option_map (fun p => PFilter p f) (parser_of t)
      | named_parser, [t; Atom (AName s)] => option_map (fun p => PNamed p s) (parser_of t)
      | _, _ => None
      end
  | _ => None
  end.

Fixpoint modifier_of (t : cxx) : option (modifier T) :=
  match t with
  | Inst (Named f) ts =>
      match f, ts with
      | ignore_modifier, [] => Some MIgnore
      | complete_modifier, [] => Some MComplete
      | join_modifier, [] => Some MJoin
      | exactly_modifier, [Atom (ANum n)] => Some (MExactly n)
      | map_modifier, [Atom (AFun f)] => Some (MMap f)
      | filter_modifier, [Atom (AFun f)] => Some (MFilter f)
      | apply_modifier, [Atom (AFun f)] => Some (MApply f)
      | apply_filter_modifier, [Atom (AFun f)] => Some (MApplyFilter f)
      | into_modifier, [Atom (ATy t)] => Some (MInto t)
      | apply_into_modifier, [Atom (ATy t)] => Some (MApplyInto t)
      | constant_modifier, [Atom (AConst k)] => Some (MConstant k)
      | defaulted_modifier, [Atom (ATy t)] => Some (MDefaulted t)
      | delimit_modifier, [] => Some MDelimit
      | delimit_keep_modifier, [] => Some MDelimitKeep
      | delimit_inner, [t] => option_map MDelimitBy (parser_of t)
      | delimit_keep_inner, [t] => option_map MDelimitKeepBy (parser_of t)
      | name_modifier, [Atom (AName s)] => Some (MName s)
      | sub_modifier, [] => Some MSub
      | sub_inner, ts =>
          option_map MSubBy (all_some (map (fun t =>
            match t with
            | Inst (Named substitution_info) [Atom (AName s); u] => option_map (pair s) (modifier_of u)
            | _ => None
            end) ts))
      | multi_modifier, ts => option_map MMulti (all_some (map modifier_of ts))
      | _, _ => None
      end
  | _ => None
  end.

(** The concepts [parser], parser.h:71-78, and [modifier], modifier.h:40-44, on the types of
    the model *)
Definition is_parser (t : cxx) : bool := match parser_of t with Some _ => true | None => false end.
Definition is_modifier (t : cxx) : bool := match modifier_of t with Some _ => true | None => false end.

(** Template parameters are numbered as declared: [typename] 0, 1, ... *)
Definition args := subst cls atom.
Definition cand := candidate cls atom (args -> option cxx).
Definition all_that (ok : cxx -> bool) (s : args) (v : nat) : bool :=
  match lookup s v with Some ts => forallb ok ts | None => false end.
Definition pack (s : args) (v : nat) : list cxx := match lookup s v with Some ts => ts | None => [] end.
(** the [static_array] deduced for a parameter *)
Definition arr (s : args) (v : nat) : list T :=
  match lookup s v with Some [Atom (AArr a)] => a | _ => [] end.

Definition parsers2 (s : args) : bool := all_that is_parser s 0 && all_that is_parser s 1.
Definition anything_goes (s : args) : bool := true.

(** [std::declval]-less notation: a function template with parameter types [ps] *)
Definition fn (ps : list (pat cls)) (req : args -> bool) (ret : args -> cxx) : cand :=
  Candidate ps req (fun s => Some (ret s)).
Definition deleted (ps : list (pat cls)) (req : args -> bool) : cand := Candidate ps req (fun _ => None).

(** [f<P0>], [f<P0...>] as parameter types *)
Definition of1 (f : cls) (v : nat) : pat cls := I f [V v] None.
Definition ofs (f : cls) (v : nat) : pat cls := I f [] (Some v).

Definition resolves : list cand -> list cxx -> resolution cls atom := resolve cls_eqb cls_kind atom_eqb.

(** ** operators/choice.h:15-102 [impl::choice_operator] *)
Definition choice_set : list cand := [
  fn [of1 any_of_parser 0; of1 any_of_parser 0] anything_goes                                     (* :15-19 *)
     (fun s => inst any_of_parser [Atom (AArr (arr s 0))]);
  fn [of1 none_of_parser 0; of1 none_of_parser 0] anything_goes                                   (* :21-25 *)
     (fun s => inst none_of_parser [Atom (AArr (arr s 0))]);
  fn [of1 any_of_parser 0; of1 none_of_parser 0] anything_goes                                    (* :27-31 *)
     (fun s => inst none_of_parser [Atom (AArr [])]);
  fn [of1 none_of_parser 0; of1 any_of_parser 0] anything_goes                                    (* :33-37 *)
     (fun s => inst none_of_parser [Atom (AArr [])]);
  fn [of1 any_of_parser 0; of1 any_of_parser 1] anything_goes                                     (* :39-44 *)
     (fun s => inst any_of_parser [Atom (AArr (set_operation O set_union (arr s 0) (arr s 1)))]);
  fn [of1 none_of_parser 0; of1 none_of_parser 1] anything_goes                                   (* :46-51 *)
     (fun s => inst none_of_parser [Atom (AArr (set_operation O set_intersection (arr s 0) (arr s 1)))]);
  fn [of1 any_of_parser 0; of1 none_of_parser 1] anything_goes                                    (* :53-58 *)
     (fun s => inst none_of_parser [Atom (AArr (set_operation O set_difference_right (arr s 0) (arr s 1)))]);
  fn [of1 none_of_parser 0; of1 any_of_parser 1] anything_goes                                    (* :60-65 *)
     (fun s => inst none_of_parser [Atom (AArr (set_operation O set_difference_left (arr s 0) (arr s 1)))]);
  fn [ofs choice_parser 0; ofs choice_parser 1] parsers2                                          (* :67-72 *)
     (fun s => inst choice_parser (pack s 0 ++ pack s 1));
  fn [ofs choice_parser 0; ofs choice_parser 0] (fun s => all_that is_parser s 0)                 (* :74-78 *)
     (fun s => inst choice_parser (pack s 0));
  fn [ofs choice_parser 1; V 0] parsers2                                                          (* :80-84 *)
     (fun s => inst choice_parser (pack s 1 ++ pack s 0));
  fn [V 0; ofs choice_parser 1] parsers2                                                          (* :86-90 *)
     (fun s => inst choice_parser (pack s 0 ++ pack s 1));
  fn [V 0; V 1] parsers2                                                                          (* :92-96 *)
     (fun s => inst choice_parser (pack s 0 ++ pack s 1));
  Candidate [V 0; V 0] (fun s => all_that is_parser s 0)                                          (* :98-102 *)
     (fun s => match pack s 0 with [t] => Some t | _ => None end)
].

(** operators/choice.h:106-110, operators/epsilon.h:18-25 [operator|] *)
Definition forward (set : list cand) (ts : list cxx) : option cxx :=
  match resolves set ts with Calls t => Some t | _ => None end.
Definition or_set : list cand := [
  Candidate [V 0; V 1] parsers2 (fun s => forward choice_set (pack s 0 ++ pack s 1));
  Candidate [V 0; I epsilon_operator [] None] (fun s => all_that is_parser s 0)
     (fun s => forward choice_set (pack s 0 ++ [inst epsilon_parser [Atom AValueType]]));
  deleted [I epsilon_operator [] None; V 0] (fun s => all_that is_parser s 0)
].

(** ** operators/sequence.h:13-43 [impl::sequence_operator], :47-51 [operator>>] *)
Definition sequence_set : list cand := [
  fn [of1 all_of_parser 0; of1 all_of_parser 1] anything_goes                                     (* :13-18 *)
     (fun s => inst all_of_parser [Atom (AArr (arr s 0 ++ arr s 1))]);
  fn [ofs sequence_parser 0; ofs sequence_parser 1] parsers2                                      (* :20-25 *)
     (fun s => inst sequence_parser (pack s 0 ++ pack s 1));
  fn [ofs sequence_parser 1; V 0] parsers2                                                        (* :27-31 *)
     (fun s => inst sequence_parser (pack s 1 ++ pack s 0));
  fn [V 0; ofs sequence_parser 1] parsers2                                                        (* :33-37 *)
     (fun s => inst sequence_parser (pack s 0 ++ pack s 1));
  fn [V 0; V 1] parsers2                                                                          (* :39-43 *)
     (fun s => inst sequence_parser (pack s 0 ++ pack s 1))
].
Definition then_set : list cand := [
  Candidate [V 0; V 1] parsers2 (fun s => forward sequence_set (pack s 0 ++ pack s 1))
].

(** ** operators/maybe.h:14-36, one_or_more.h:14-36, zero_or_more.h:14-36 *)
Definition parser1 (s : args) : bool := all_that is_parser s 0.
Definition repeat_set (of_maybe of_plus of_star default : cls) : list cand := [
  fn [of1 maybe_parser 0] parser1 (fun s => inst of_maybe (pack s 0));
  fn [of1 one_or_more_parser 0] parser1 (fun s => inst of_plus (pack s 0));
  fn [of1 zero_or_more_parser 0] parser1 (fun s => inst of_star (pack s 0));
  fn [V 0] parser1 (fun s => inst default (pack s 0))
].
Definition maybe_set := repeat_set maybe_parser zero_or_more_parser zero_or_more_parser maybe_parser.
Definition one_or_more_set := repeat_set zero_or_more_parser one_or_more_parser zero_or_more_parser one_or_more_parser.
Definition zero_or_more_set := repeat_set zero_or_more_parser zero_or_more_parser zero_or_more_parser zero_or_more_parser.

(** ** operators/not.h:13-26; [operator!], :30-35, exists where the call is well-formed *)
Definition not_set : list cand := [
  fn [of1 any_of_parser 0] anything_goes (fun s => inst none_of_parser [Atom (AArr (arr s 0))]);
  fn [of1 none_of_parser 0] anything_goes (fun s => inst any_of_parser [Atom (AArr (arr s 0))]);
  deleted [V 0] parser1
].

(** ** operators/modifier.h:12-41 [impl::modifier_operator]; [operator%], :45-50, exists where
    the call is well-formed *)
Definition calls (s : args) : option cxx :=
  match pack s 0, pack s 1 with
  | [t], [u] => match parser_of t, modifier_of u with
                | Some p, Some m => option_map otype (call m p)
                | _, _ => None
                end
  | _, _ => None
  end.
Definition modifiers2 (s : args) : bool := all_that is_modifier s 0 && all_that is_modifier s 1.
Definition percent_set : list cand := [
  Candidate [V 0; V 1]                                                                            (* :12-17 *)
     (fun s => all_that is_parser s 0 && all_that is_modifier s 1 && match calls s with Some _ => true | None => false end)
     calls;
  fn [V 0; V 1] modifiers2 (fun s => inst multi_modifier (pack s 0 ++ pack s 1));                 (* :19-23 *)
  fn [ofs multi_modifier 0; V 1] modifiers2 (fun s => inst multi_modifier (pack s 0 ++ pack s 1)); (* :25-29 *)
  fn [V 0; ofs multi_modifier 1] modifiers2 (fun s => inst multi_modifier (pack s 0 ++ pack s 1)); (* :31-35 *)
  fn [ofs multi_modifier 0; ofs multi_modifier 1] modifiers2                                      (* :37-41 *)
     (fun s => inst multi_modifier (pack s 0 ++ pack s 1))
].

(** ** optimizations/*.h:12-13: the partial specialisations of [join_parser<P>] *)
Inductive join_case := join_exactly | join_maybe | join_one_or_more | join_zero_or_more.
Definition basic_pat : pat cls := J 0 KValue [V 1] None.                        (* [Basic<arr>] *)
Definition join_specs : list (candidate cls atom join_case) := [
  Candidate [I exactly_parser [basic_pat; V 2] None] anything_goes join_exactly;
  Candidate [I maybe_parser [basic_pat] None] anything_goes join_maybe;
  Candidate [I one_or_more_parser [basic_pat] None] anything_goes join_one_or_more;
  Candidate [I zero_or_more_parser [basic_pat] None] anything_goes join_zero_or_more
].
Definition selects {R} : list (candidate cls atom R) -> list cxx -> selection cls atom R := select cls_eqb cls_kind atom_eqb.

(** ** modifiers/sub.h:22-40: the partial specialisations of [substitute_one<T, Sub>] *)
Inductive sub_case := sub_found | sub_other | sub_inside.
Definition same_name (s : args) : bool :=                                       (* [Sub::name == str] *)
  match pack s 2, pack s 1 with
  | [Inst (Named substitution_info) [n; _]], [str] => term_eqb cls_eqb atom_eqb n str
  | _, _ => false
  end.
Definition sub_specs : list (candidate cls atom sub_case) := [
  Candidate [I named_parser [V 0; V 1] None; V 2] (fun s => parser1 s && same_name s) sub_found;          (* :22-27 *)
  Candidate [I named_parser [V 0; V 1] None; V 2] (fun s => parser1 s && negb (same_name s)) sub_other;   (* :29-34 *)
  Candidate [J 0 KTypes [] (Some 1); V 2] anything_goes sub_inside                                        (* :36-40 *)
].

(** [substitute_one<t, Sub>::type] is [u]; [md] is [decltype(Sub::mod(...))] *)
Inductive substitutes (sub : cxx) (md : cxx -> option cxx) : cxx -> cxx -> Prop :=
| S_primary t : selects sub_specs [t; sub] = NoneViable -> substitutes sub md t t
| S_found t s p p' u : selects sub_specs [t; sub] = Selected sub_found s -> pack s 0 = [p] ->
    substitutes sub md p p' -> md p' = Some u -> substitutes sub md t u
| S_other t s p str p' : selects sub_specs [t; sub] = Selected sub_other s -> pack s 0 = [p] -> pack s 1 = [str] ->
    substitutes sub md p p' -> substitutes sub md t (inst named_parser [p'; str])
| S_inside t s f us : selects sub_specs [t; sub] = Selected sub_inside s -> pack s 0 = [Inst f []] ->
    Forall2 (substitutes sub md) (pack s 1) us -> substitutes sub md t (Inst f us).
End Sets.
Arguments atom T : clear implicits. Arguments cxx T : clear implicits. Arguments cand T : clear implicits. Arguments args T : clear implicits.
