(** * Value types: the constraint [parser_compatible_with]

    Parser.v has one element type [T] for all the parsers of a program.  Here every basic
    parser carries the type of its elements, names carry the type of their characters, and
    the operators and modifiers are written again with the constraints the library puts on
    their operands. *)
From Coq Require Import String Ascii List Arith Bool Lia.
From Verif Require Import Types Compound CompoundFacts Parser Typing StaticArray Operators Modifiers.
Import ListNotations.

(** type_traits.h:11-19 [character] *)
Inductive chartype := CSChar | CUChar | CChar | CWChar | CChar16 | CChar32 | CChar8.
(** The types elements can have: a character type or some other type. *)
Inductive vtype := VChar (c : chartype) | VOther (n : nat).

Definition chartype_eqb (a b : chartype) : bool :=
  match a, b with
  | CSChar, CSChar | CUChar, CUChar | CChar, CChar | CWChar, CWChar | CChar16, CChar16
  | CChar32, CChar32 | CChar8, CChar8 => true
  | _, _ => false
  end.
(** [std::same_as] *)
Definition vtype_eqb (a b : vtype) : bool :=
  match a, b with
  | VChar a, VChar b => chartype_eqb a b
  | VOther n, VOther m => n =? m
  | _, _ => false
  end.

Lemma chartype_eqb_spec a b : chartype_eqb a b = true <-> a = b.
Proof. destruct a, b; cbn; split; congruence. Qed.
Lemma vtype_eqb_spec a b : vtype_eqb a b = true <-> a = b.
Proof.
  destruct a as [a|n], b as [b|m]; cbn; try (split; congruence).
  - rewrite chartype_eqb_spec. split; congruence.
  - rewrite Nat.eqb_eq. split; congruence.
Qed.
Lemma vtype_eqb_refl a : vtype_eqb a a = true.
Proof. now apply vtype_eqb_spec. Qed.
Lemma chartype_eqb_refl a : chartype_eqb a a = true.
Proof. now apply chartype_eqb_spec. Qed.

(** The class templates of detail/parsers/*.h as in Parser.v.  [k] of the basic parsers is
    [decltype(arr)::value_type] (any_of.h:24, none_of.h:24, all_of.h:22) or the template
    argument (anything.h:10, epsilon.h:11); a name is a [static_array] of characters of
    type [k] (named.h:11). *)
Inductive tparser (T : Type) : Type :=
| XAnyOf (k : vtype) (arr : list T)
| XNoneOf (k : vtype) (arr : list T)
| XAllOf (k : vtype) (arr : list T)
| XAnything (k : vtype)
| XEpsilon (k : vtype)
| XChoice (p : tparser T) (ps : list (tparser T))
| XSequence (p : tparser T) (ps : list (tparser T))
| XMaybe (p : tparser T)
| XExactly (p : tparser T) (n : nat)
| XOneOrMore (p : tparser T)
| XZeroOrMore (p : tparser T)
| XDelimit (p d : tparser T)
| XIgnore (p : tparser T)
| XComplete (p : tparser T)
| XJoin (p : tparser T)
| XMap (p : tparser T) (f : func)
| XFilter (p : tparser T) (f : func)
| XNamed (p : tparser T) (k : chartype) (str : string)
| XCustom (c : nat).
Arguments XAnyOf {T}. Arguments XNoneOf {T}. Arguments XAllOf {T}. Arguments XAnything {T}.
Arguments XEpsilon {T}. Arguments XChoice {T}. Arguments XSequence {T}. Arguments XMaybe {T}.
Arguments XExactly {T}. Arguments XOneOrMore {T}. Arguments XZeroOrMore {T}.
Arguments XDelimit {T}. Arguments XIgnore {T}. Arguments XComplete {T}. Arguments XJoin {T}.
Arguments XMap {T}. Arguments XFilter {T}. Arguments XNamed {T}. Arguments XCustom {T}.

Section Ind.
Context {T : Type} (P : tparser T -> Prop).
Hypothesis Hany : forall k a, P (XAnyOf k a).
Hypothesis Hnone : forall k a, P (XNoneOf k a).
Hypothesis Hall : forall k a, P (XAllOf k a).
Hypothesis Hanything : forall k, P (XAnything k).
Hypothesis Heps : forall k, P (XEpsilon k).
Hypothesis Hcustom : forall c, P (XCustom c).
Hypothesis Hchoice : forall p ps, P p -> Forall P ps -> P (XChoice p ps).
Hypothesis Hseq : forall p ps, P p -> Forall P ps -> P (XSequence p ps).
Hypothesis Hmaybe : forall p, P p -> P (XMaybe p).
Hypothesis Hexactly : forall p n, P p -> P (XExactly p n).
Hypothesis Hoom : forall p, P p -> P (XOneOrMore p).
Hypothesis Hzom : forall p, P p -> P (XZeroOrMore p).
Hypothesis Hdelim : forall p d, P p -> P d -> P (XDelimit p d).
Hypothesis Hign : forall p, P p -> P (XIgnore p).
Hypothesis Hcomp : forall p, P p -> P (XComplete p).
Hypothesis Hjoin : forall p, P p -> P (XJoin p).
Hypothesis Hmap : forall p f, P p -> P (XMap p f).
Hypothesis Hfilter : forall p f, P p -> P (XFilter p f).
Hypothesis Hnamed : forall p k s, P p -> P (XNamed p k s).
Fixpoint tparser_ind' (p : tparser T) : P p.
Proof.
  destruct p as [k a|k a|k a|k|k|p ps|p ps|p|p n|p|p|p d|p|p|p|p f|p f|p k s|c].
  - apply Hany. - apply Hnone. - apply Hall. - apply Hanything. - apply Heps.
  - apply Hchoice; [apply tparser_ind'|]. revert ps. fix go 1. intros [|q qs]; constructor; [apply tparser_ind'|apply go].
  - apply Hseq; [apply tparser_ind'|]. revert ps. fix go 1. intros [|q qs]; constructor; [apply tparser_ind'|apply go].
  - apply Hmaybe, tparser_ind'. - apply Hexactly, tparser_ind'. - apply Hoom, tparser_ind'. - apply Hzom, tparser_ind'.
  - apply Hdelim; apply tparser_ind'.
  - apply Hign, tparser_ind'. - apply Hcomp, tparser_ind'. - apply Hjoin, tparser_ind'. - apply Hmap, tparser_ind'.
  - apply Hfilter, tparser_ind'. - apply Hnamed, tparser_ind'. - apply Hcustom.
Qed.
End Ind.

(** The same parser without value types.  A name keeps the type of its characters in front,
    so that two names are the same iff they are the same static_array. *)
Definition char_tag (k : chartype) : ascii :=
  match k with
  | CSChar => "0" | CUChar => "1" | CChar => "2" | CWChar => "3" | CChar16 => "4" | CChar32 => "5" | CChar8 => "6"
  end%char.
Definition enc (k : chartype) (s : string) : string := String (char_tag k) s.
Lemma enc_inj k s l t : enc k s = enc l t -> k = l /\ s = t.
Proof. unfold enc. intros [= H ->]. split; auto. destruct k, l; cbn in H; congruence. Qed.

Fixpoint erase {T} (p : tparser T) : parser T :=
  match p with
  | XAnyOf _ arr => PAnyOf arr
  | XNoneOf _ arr => PNoneOf arr
  | XAllOf _ arr => PAllOf arr
  | XAnything _ => PAnything
  | XEpsilon _ => PEpsilon
  | XChoice p ps => PChoice (erase p) (map erase ps)
  | XSequence p ps => PSequence (erase p) (map erase ps)
  | XMaybe p => PMaybe (erase p)
  | XExactly p n => PExactly (erase p) n
  | XOneOrMore p => POneOrMore (erase p)
  | XZeroOrMore p => PZeroOrMore (erase p)
  | XDelimit p d => PDelimit (erase p) (erase d)
  | XIgnore p => PIgnore (erase p)
  | XComplete p => PComplete (erase p)
  | XJoin p => PJoin (erase p)
  | XMap p f => PMap (erase p) f
  | XFilter p f => PFilter (erase p) f
  | XNamed p k s => PNamed (erase p) (enc k s)
  | XCustom c => PCustom c
  end.

(** [cvt c]: the [ValueType] argument of the [c]-th class deriving from [custom_parser]
    (custom.h:30-33) *)
Section Types.
Context {T : Type} (O : order T) (cvt : nat -> vtype).

(** The member [value_type]: basic_base.h:24, epsilon.h:14, choice.h:17, sequence.h:17,
    maybe.h:16, exactly.h:17, one_or_more.h:16, zero_or_more.h:16, delimit.h:17,
    ignore.h:14, complete.h:14, join.h:123, map.h:16, filter.h:17, named.h:14, custom.h:33,
    and the join specialisations, optimizations/*.h:15 *)
Fixpoint value_type (p : tparser T) : vtype :=
  match p with
  | XAnyOf k _ | XNoneOf k _ | XAllOf k _ | XAnything k | XEpsilon k => k
  | XChoice p _ | XSequence p _ | XMaybe p | XExactly p _ | XOneOrMore p | XZeroOrMore p | XDelimit p _
  | XIgnore p | XComplete p | XJoin p | XMap p _ | XFilter p _ | XNamed p _ _ => value_type p
  | XCustom c => cvt c
  end.

(** parser.h:89-93 [parser_compatible_with] *)
Definition compatible (p q : tparser T) : bool := vtype_eqb (value_type p) (value_type q).

(** Naming an instance of a class template checks the constraints on its arguments;
    [None]: not satisfied.
    any_of.h:12, none_of.h:12, choice.h:14, sequence.h:14, delimit.h:14, exactly.h:14.
    The other templates only ask for a parser. *)
Definition mk_any (k : vtype) (arr : list T) : option (tparser T) :=
  if is_sorted_and_uniqued O arr then Some (XAnyOf k arr) else None.
Definition mk_none (k : vtype) (arr : list T) : option (tparser T) :=
  if is_sorted_and_uniqued O arr then Some (XNoneOf k arr) else None.
Definition mk_choice (p : tparser T) (ps : list (tparser T)) : option (tparser T) :=
  if forallb (compatible p) ps then Some (XChoice p ps) else None.
Definition mk_sequence (p : tparser T) (ps : list (tparser T)) : option (tparser T) :=
  if forallb (compatible p) ps then Some (XSequence p ps) else None.
Definition mk_delimit (p d : tparser T) : option (tparser T) :=
  if compatible p d then Some (XDelimit p d) else None.
Definition mk_exactly (p : tparser T) (n : nat) : option (tparser T) :=
  if n =? 0 then None else Some (XExactly p n).

(** The type exists: the constraints of every template named in it are satisfied. *)
Fixpoint exists_type (p : tparser T) : bool :=
  match p with
  | XAnyOf _ arr | XNoneOf _ arr => is_sorted_and_uniqued O arr
  | XAllOf _ _ | XAnything _ | XEpsilon _ | XCustom _ => true
  | XChoice p ps | XSequence p ps => exists_type p && forallb exists_type ps && forallb (compatible p) ps
  | XDelimit p d => exists_type p && exists_type d && compatible p d
  | XExactly p n => exists_type p && negb (n =? 0)
  | XMaybe p | XOneOrMore p | XZeroOrMore p | XIgnore p | XComplete p | XJoin p | XMap p _ | XFilter p _
  | XNamed p _ _ => exists_type p
  end.

(** [std::is_same_v] of two parser types *)
Fixpoint tparser_eqb (p q : tparser T) : bool :=
  match p, q with
  | XAnyOf k a, XAnyOf l b | XNoneOf k a, XNoneOf l b | XAllOf k a, XAllOf l b => vtype_eqb k l && list_eqb (eqb O) a b
  | XAnything k, XAnything l | XEpsilon k, XEpsilon l => vtype_eqb k l
  | XChoice p ps, XChoice q qs | XSequence p ps, XSequence q qs => tparser_eqb p q && list_eqb tparser_eqb ps qs
  | XMaybe p, XMaybe q | XOneOrMore p, XOneOrMore q | XZeroOrMore p, XZeroOrMore q | XIgnore p, XIgnore q
  | XComplete p, XComplete q | XJoin p, XJoin q => tparser_eqb p q
  | XExactly p n, XExactly q m => tparser_eqb p q && (n =? m)
  | XDelimit p d, XDelimit q e => tparser_eqb p q && tparser_eqb d e
  | XMap p f, XMap q g | XFilter p f, XFilter q g => tparser_eqb p q && func_eqb f g
  | XNamed p k s, XNamed q l t => tparser_eqb p q && (chartype_eqb k l && String.eqb s t)
  | XCustom c, XCustom d => c =? d
  | _, _ => false
  end.

(** ** Operators

    [None] = does not compile.  Each branch first tests the constraint of the overload
    chosen; an overload that is less specialised and also matches asks for the same value
    types (of operands that exist), so that there is nothing to fall back to when the test
    fails. *)

(** [like_static_arrays], static_array.h:87-88 *)
Definition like_static_arrays (k l : vtype) : bool := vtype_eqb k l.

(** operators/choice.h:15-102 [impl::choice_operator] *)
Definition tchoice_operator (p q : tparser T) : option (tparser T) :=
  match p, q with
  | XAnyOf k a, XAnyOf l b =>
      if tparser_eqb p q then Some p                                                            (* :15-19 *)
      else if like_static_arrays k l then mk_any k (set_operation O set_union a b) else None         (* :39-44 *)
  | XNoneOf k a, XNoneOf l b =>
      if tparser_eqb p q then Some p                                                            (* :21-25 *)
      else if like_static_arrays k l then mk_none k (set_operation O set_intersection a b) else None (* :46-51 *)
  | XAnyOf k a, XNoneOf l b =>
      if vtype_eqb k l && list_eqb (eqb O) a b then mk_none k []                                (* :27-31 *)
      else if like_static_arrays k l then mk_none k (set_operation O set_difference_right a b) else None (* :53-58 *)
  | XNoneOf k a, XAnyOf l b =>
      if vtype_eqb k l && list_eqb (eqb O) a b then mk_none k []                                (* :33-37 *)
      else if like_static_arrays k l then mk_none k (set_operation O set_difference_left a b) else None  (* :60-65 *)
  | XChoice p1 ps, XChoice q1 qs =>
      if tparser_eqb p q then Some p                                                            (* :74-78 *)
      else if compatible p q then mk_choice p1 (ps ++ q1 :: qs) else None                       (* :67-72 *)
  | XChoice p1 ps, _ =>
      if forallb (compatible q) (p1 :: ps) then mk_choice p1 (ps ++ [q]) else None              (* :80-84 *)
  | _, XChoice q1 qs =>
      if forallb (compatible p) (q1 :: qs) then mk_choice p (q1 :: qs) else None                (* :86-90 *)
  | _, _ =>
      if tparser_eqb p q then Some p                                                            (* :98-102 *)
      else if compatible p q then mk_choice p [q] else None                                     (* :92-96 *)
  end.

(** operators/choice.h:106-110 *)
Definition tor (p q : tparser T) : option (tparser T) := if compatible p q then tchoice_operator p q else None.

(** operators/epsilon.h:17-21 *)
Definition tor_epsilon (p : tparser T) : option (tparser T) := tchoice_operator p (XEpsilon (value_type p)).

(** operators/sequence.h:13-43 [impl::sequence_operator] *)
Definition tsequence_operator (p q : tparser T) : option (tparser T) :=
  match p, q with
  | XAllOf k a, XAllOf l b => if like_static_arrays k l then Some (XAllOf k (a ++ b)) else None      (* :13-18 *)
  | XSequence p1 ps, XSequence q1 qs =>
      if compatible p q then mk_sequence p1 (ps ++ q1 :: qs) else None                          (* :20-25 *)
  | XSequence p1 ps, _ =>
      if forallb (compatible q) (p1 :: ps) then mk_sequence p1 (ps ++ [q]) else None            (* :27-31 *)
  | _, XSequence q1 qs =>
      if forallb (compatible p) (q1 :: qs) then mk_sequence p (q1 :: qs) else None              (* :33-37 *)
  | _, _ => if compatible p q then mk_sequence p [q] else None                                  (* :39-43 *)
  end.

(** operators/sequence.h:47-51 *)
Definition tthen (p q : tparser T) : option (tparser T) := if compatible p q then tsequence_operator p q else None.

(** operators/maybe.h:14-44, one_or_more.h:14-44, zero_or_more.h:14-44, not.h:13-35 *)
Definition tmaybe_operator (p : tparser T) : tparser T :=
  match p with XMaybe q => XMaybe q | XOneOrMore q => XZeroOrMore q | XZeroOrMore q => XZeroOrMore q | _ => XMaybe p end.
Definition tone_or_more_operator (p : tparser T) : tparser T :=
  match p with XMaybe q => XZeroOrMore q | XOneOrMore q => XOneOrMore q | XZeroOrMore q => XZeroOrMore q | _ => XOneOrMore p end.
Definition tzero_or_more_operator (p : tparser T) : tparser T :=
  match p with XMaybe q => XZeroOrMore q | XOneOrMore q => XZeroOrMore q | XZeroOrMore q => XZeroOrMore q | _ => XZeroOrMore p end.
Definition tnot_operator (p : tparser T) : option (tparser T) :=
  match p with XAnyOf k arr => mk_none k arr | XNoneOf k arr => mk_any k arr | _ => None end.
End Types.

(** ** Modifiers, as in Modifiers.v.  [n] of [YName] and the first components of [YSubBy]: a
    static_array of characters of some type. *)
Definition name := (chartype * string)%type.
Inductive tmodifier (T : Type) : Type :=
| YIgnore | YComplete | YJoin
| YExactly (n : nat)
| YMap (f : func) | YFilter (f : func) | YApply (f : func) | YApplyFilter (f : func)
| YInto (t : ty) | YApplyInto (t : ty) | YConstant (k : nat) | YDefaulted (t : ty)
| YDelimit | YDelimitKeep
| YDelimitBy (d : tparser T) | YDelimitKeepBy (d : tparser T)
| YName (n : name)
| YSub
| YSubBy (subs : list (name * tmodifier T))
| YMulti (ms : list (tmodifier T)).
Arguments YIgnore {T}. Arguments YComplete {T}. Arguments YJoin {T}. Arguments YExactly {T}.
Arguments YMap {T}. Arguments YFilter {T}. Arguments YApply {T}. Arguments YApplyFilter {T}.
Arguments YInto {T}. Arguments YApplyInto {T}. Arguments YConstant {T}. Arguments YDefaulted {T}.
Arguments YDelimit {T}. Arguments YDelimitKeep {T}. Arguments YDelimitBy {T}. Arguments YDelimitKeepBy {T}.
Arguments YName {T}. Arguments YSub {T}. Arguments YSubBy {T}. Arguments YMulti {T}.

Inductive tobject (T : Type) : Type := ZParser (p : tparser T) | ZMod (m : tmodifier T).
Arguments ZParser {T}. Arguments ZMod {T}.

Section Modifiers.
Context {T : Type} (cvt : nat -> vtype).
Notation value_type := (value_type (T:=T) cvt).

(** sub.h:22-34: the two constraints on [named_parser<P, str>], [Sub::name == str] and
    [Sub::name != str].  The only [operator==] there is takes two arrays of one element type
    (static_array.h:135-142; [!=] is rewritten to it), so with two element types neither
    expression is valid and neither constraint satisfied. *)
Inductive name_match := Same | Other | Incomparable.
Definition compare_names (a b : name) : name_match :=
  if chartype_eqb (fst a) (fst b) then (if String.eqb (snd a) (snd b) then Same else Other) else Incomparable.

(** sub.h:16-40.  Instances are named again, so that their constraints are checked again. *)
Fixpoint tsubstitute_one (n : name) (f : tparser T -> option (tparser T)) (p : tparser T) : option (tparser T) :=
  let rec := tsubstitute_one n f in
  match p with
  | XNamed q k str =>
      match compare_names n (k, str) with
      | Same => match rec q with Some q' => f q' | None => None end                     (* :22-27 *)
      | Other => match rec q with Some q' => Some (XNamed q' k str) | None => None end  (* :29-34 *)
      | Incomparable => Some p                                                          (* :16-20 *)
      end
  (* :36-40 *)
  | XChoice p ps => match rec p, all_some (map rec ps) with Some p', Some ps' => mk_choice cvt p' ps' | _, _ => None end
  | XSequence p ps => match rec p, all_some (map rec ps) with Some p', Some ps' => mk_sequence cvt p' ps' | _, _ => None end
  | XDelimit p d => match rec p, rec d with Some p', Some d' => mk_delimit cvt p' d' | _, _ => None end
  | XMaybe p => option_map XMaybe (rec p)
  | XExactly p n => match rec p with Some p' => mk_exactly p' n | None => None end
  | XOneOrMore p => option_map XOneOrMore (rec p)
  | XZeroOrMore p => option_map XZeroOrMore (rec p)
  | XIgnore p => option_map XIgnore (rec p)
  | XComplete p => option_map XComplete (rec p)
  | XJoin p => option_map XJoin (rec p)
  | XMap p g => option_map (fun p => XMap p g) (rec p)
  | XFilter p g => option_map (fun p => XFilter p g) (rec p)
  (* :16-20 *)
  | XAnyOf _ _ | XNoneOf _ _ | XAllOf _ _ | XAnything _ | XEpsilon _ | XCustom _ => Some p
  end.

(** operators/modifier.h:19-41 *)
Definition tmodifier_operator (a b : tmodifier T) : tmodifier T :=
  match a, b with
  | YMulti l, YMulti r => YMulti (l ++ r)
  | YMulti l, _ => YMulti (l ++ [b])
  | _, YMulti r => YMulti (a :: r)
  | _, _ => YMulti [a; b]
  end.

Definition tas_parser (o : option (tobject T)) : option (tparser T) :=
  match o with Some (ZParser p) => Some p | _ => None end.

(** The call operators; lines as at [call] in Modifiers.v.  The constraints:
    delimit.h:27, delimit_keep.h:26 [parser_compatible_with<D>]; the family of a parser does
    not depend on its value type. *)
Fixpoint tcall (m : tmodifier T) (p : tparser T) {struct m} : option (tobject T) :=
  match m with
  | YIgnore => Some (ZParser (if family_eq_dec (family_of (erase p)) ignore_family then p else XIgnore p))
  | YComplete => Some (ZParser (if family_eq_dec (family_of (erase p)) complete_family then p else XComplete p))
  | YJoin => Some (ZParser (if family_eq_dec (family_of (erase p)) join_family then p else XJoin p))
  | YExactly n => option_map ZParser (mk_exactly p n)
  | YMap f => Some (ZParser (XMap p f))
  | YFilter f => Some (ZParser (XFilter p f))
  | YApply f => Some (ZParser (XMap p (FApply f)))
  | YApplyFilter f => Some (ZParser (XFilter p (FApply f)))
  | YInto t => Some (ZParser (XMap p (FConstruct t)))
  | YApplyInto t => Some (ZParser (XMap p (FApply (FConstruct t))))
  | YConstant k => Some (ZParser (XMap p (FConstant k)))
  | YDefaulted t => Some (ZParser (XMap p (FDefault t)))
  | YDelimit => Some (ZMod (YDelimitBy p))
  | YDelimitKeep => Some (ZMod (YDelimitKeepBy p))
  | YDelimitBy d => if compatible cvt d p then option_map ZParser (mk_delimit cvt p (XIgnore d)) else None
  | YDelimitKeepBy d => if compatible cvt d p then option_map ZParser (mk_delimit cvt p d) else None
  | YName n => Some (ZParser (XNamed p (fst n) (snd n)))
  | YSub => None
  | YSubBy subs =>
      match subs with
      | [] => None
      | _ =>
          (fix substitute (subs : list (name * tmodifier T)) (p : tparser T) : option (tobject T) :=
             match subs with
             | [] => Some (ZParser p)
             | (n, md) :: subs' =>
                 match tsubstitute_one n (fun q => tas_parser (tcall md q)) p with
                 | Some p' => substitute subs' p'
                 | None => None
                 end
             end) subs p
      end
  | YMulti ms =>
      match (fix fold (ms : list (tmodifier T)) (o : tobject T) : option (tobject T) :=
               match ms with
               | [] => Some o
               | m' :: ms' =>
                   match o with
                   | ZParser q => match tcall m' q with Some o' => fold ms' o' | None => None end
                   | ZMod m0 => fold ms' (ZMod (tmodifier_operator m0 m'))
                   end
               end) ms (ZParser p) with
      | Some (ZParser q) => Some (ZParser q)
      | _ => None
      end
  end.

(** operators/modifier.h:45-50 *)
Definition tpercent (a b : tobject T) : option (tobject T) :=
  match a, b with
  | ZParser p, ZMod m => tcall m p
  | ZMod a, ZMod b => Some (ZMod (tmodifier_operator a b))
  | _, ZParser _ => None
  end.

(** delimit.h:16-20, delimit_keep.h:15-19 with two arguments *)
Definition tdelimit_call (p d : tparser T) : option (tparser T) :=
  if compatible cvt p d then mk_delimit cvt p (XIgnore d) else None.
Definition tdelimit_keep_call (p d : tparser T) : option (tparser T) :=
  if compatible cvt p d then mk_delimit cvt p d else None.

(** The same modifier without value types *)
Fixpoint erase_mod (m : tmodifier T) : modifier T :=
  match m with
  | YIgnore => MIgnore | YComplete => MComplete | YJoin => MJoin
  | YExactly n => MExactly n
  | YMap f => MMap f | YFilter f => MFilter f | YApply f => MApply f | YApplyFilter f => MApplyFilter f
  | YInto t => MInto t | YApplyInto t => MApplyInto t | YConstant k => MConstant k | YDefaulted t => MDefaulted t
  | YDelimit => MDelimit | YDelimitKeep => MDelimitKeep
  | YDelimitBy d => MDelimitBy (erase d) | YDelimitKeepBy d => MDelimitKeepBy (erase d)
  | YName n => MName (enc (fst n) (snd n))
  | YSub => MSub
  | YSubBy subs => MSubBy (map (fun s => (enc (fst (fst s)) (snd (fst s)), erase_mod (snd s))) subs)
  | YMulti ms => MMulti (map erase_mod ms)
  end.
Definition erase_obj (o : tobject T) : object T :=
  match o with ZParser p => OParser (erase p) | ZMod m => OMod (erase_mod m) end.

(** *** The folds by name *)
Fixpoint tpercents (o : tobject T) (ms : list (tmodifier T)) : option (tobject T) :=
  match ms with
  | [] => Some o
  | m :: ms' => match tpercent o (ZMod m) with Some o' => tpercents o' ms' | None => None end
  end.
Lemma tcall_multi ms p : tcall (YMulti ms) p = option_map ZParser (tas_parser (tpercents (ZParser p) ms)).
Proof.
  cbn [tcall].
  match goal with |- match ?f ms (ZParser p) with _ => _ end = _ => assert (H : forall ms o, f ms o = tpercents o ms) end.
  { clear. induction ms as [|m ms IH]; intros o; cbn [tpercents]; auto. destruct o; cbn [tpercent]; [destruct (tcall m p)|]; auto. }
  rewrite H. now destruct (tpercents (ZParser p) ms) as [[]|].
Qed.

Fixpoint tsubstitute (subs : list (name * tmodifier T)) (p : tparser T) : option (tparser T) :=
  match subs with
  | [] => Some p
  | (n, md) :: subs' =>
      match tsubstitute_one n (fun q => tas_parser (tcall md q)) p with
      | Some p' => tsubstitute subs' p'
      | None => None
      end
  end.
Lemma tcall_sub subs p : subs <> [] -> tcall (YSubBy subs) p = option_map ZParser (tsubstitute subs p).
Proof.
  intros Hn. destruct subs as [|[n m] subs]; [congruence|]. clear Hn. cbn [tcall tsubstitute].
  destruct (tsubstitute_one n (fun q => tas_parser (tcall m q)) p) as [p'|]; auto. clear.
  revert p'. induction subs as [|[n m] subs IH]; intros p; cbn [tsubstitute]; auto.
  destruct (tsubstitute_one n (fun q => tas_parser (tcall m q)) p); auto.
Qed.

Section ModInd.
Variable P : tmodifier T -> Prop.
Hypothesis Hbase : forall m, (forall subs, m <> YSubBy subs) -> (forall ms, m <> YMulti ms) -> P m.
Hypothesis Hsub : forall subs, Forall (fun s => P (snd s)) subs -> P (YSubBy subs).
Hypothesis Hmulti : forall ms, Forall P ms -> P (YMulti ms).
Fixpoint tmodifier_ind' (m : tmodifier T) : P m.
Proof.
  destruct m as [| | | | | | | | | | | | | | | | | |subs|ms]; try (apply Hbase; discriminate).
  - apply Hsub. revert subs. fix go 1. intros [|[n m] subs]; constructor; [apply tmodifier_ind'|apply go].
  - apply Hmulti. revert ms. fix go 1. intros [|m ms]; constructor; [apply tmodifier_ind'|apply go].
Qed.
End ModInd.
End Modifiers.
