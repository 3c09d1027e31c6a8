(** * Modifiers and operator%, detail/modifiers, detail/operators/modifier.h *)
From Coq Require Import String List Arith Bool Lia.
From Verif Require Import Types Compound CompoundFacts Parser Typing.
Import ListNotations.

(** ** The modifier types

    - ignore.h:11, complete.h:11, join.h:11, exactly.h:11-13, map.h:11-12, filter.h:11-12,
      apply.h:11-12, apply_filter.h:11-12, into.h:11-12, apply_into.h:11-12,
      constant.h:11-12, defaulted.h:11-13 (that the type of [defaulted] is default
      constructible is not modelled)
    - [MDelimit], [MDelimitKeep]: delimit.h:12, delimit_keep.h:11; [MDelimitBy D],
      [MDelimitKeepBy D]: their [inner<D>], delimit.h:22-23, delimit_keep.h:21-22
    - [MName]: name.h:13-14; names are character strings of one character type
    - [MSub]: sub.h:54; [MSubBy]: its [inner<Sub, Subs...>], sub.h:64-65, one pair
      (name, modifier) per [substitution_info], substitution.h:11-16
    - [MMulti]: multi.h:11-12. *)
Inductive modifier (T : Type) : Type :=
| MIgnore | MComplete | MJoin
| MExactly (n : nat)
| MMap (f : func) | MFilter (f : func) | MApply (f : func) | MApplyFilter (f : func)
| MInto (t : ty) | MApplyInto (t : ty) | MConstant (k : nat) | MDefaulted (t : ty)
| MDelimit | MDelimitKeep
| MDelimitBy (d : parser T) | MDelimitKeepBy (d : parser T)
| MName (s : string)
| MSub
| MSubBy (subs : list (string * modifier T))
| MMulti (ms : list (modifier T)).
Arguments MIgnore {T}. Arguments MComplete {T}. Arguments MJoin {T}. Arguments MExactly {T}.
Arguments MMap {T}. Arguments MFilter {T}. Arguments MApply {T}. Arguments MApplyFilter {T}.
Arguments MInto {T}. Arguments MApplyInto {T}. Arguments MConstant {T}. Arguments MDefaulted {T}.
Arguments MDelimit {T}. Arguments MDelimitKeep {T}. Arguments MDelimitBy {T}. Arguments MDelimitKeepBy {T}.
Arguments MName {T}. Arguments MSub {T}. Arguments MSubBy {T}. Arguments MMulti {T}.

(** The operands and results of %. *)
Inductive object (T : Type) : Type :=
| OParser (p : parser T)
| OMod (m : modifier T).
Arguments OParser {T}. Arguments OMod {T}.

Section Modifiers.
Context {T : Type}.

(** sub.h:16-40 [substitute_one<P, Sub>], [f] being the call of [Sub::mod].  [None] = does
    not compile.  The arguments of [template <class...>] instances that are not parsers
    (the integral constants of exactly, map and filter), the templates with a value
    argument (any_of, none_of, all_of) and the classes of custom parsers are matched by the
    primary template, :16-20.  (A custom parser that is itself an instance of a class
    template would be entered; not modelled.) *)
Fixpoint substitute_one (name : string) (f : parser T -> option (parser T)) (p : parser T) : option (parser T) :=
  let rec := substitute_one name f in
  match p with
  | PNamed p str =>
      match rec p with
      | Some p' => if String.eqb name str then f p'               (* :22-27 *)
                   else Some (PNamed p' str)                      (* :29-34 *)
      | None => None
      end
  (* :36-40 *)
  | PChoice p ps => match rec p, all_some (map rec ps) with Some p', Some ps' => Some (PChoice p' ps') | _, _ => None end
  | PSequence p ps => match rec p, all_some (map rec ps) with Some p', Some ps' => Some (PSequence p' ps') | _, _ => None end
  | PDelimit p d => match rec p, rec d with Some p', Some d' => Some (PDelimit p' d') | _, _ => None end
  | PMaybe p => option_map PMaybe (rec p)
  | PExactly p n => option_map (fun p => PExactly p n) (rec p)
  | POneOrMore p => option_map POneOrMore (rec p)
  | PZeroOrMore p => option_map PZeroOrMore (rec p)
  | PIgnore p => option_map PIgnore (rec p)
  | PComplete p => option_map PComplete (rec p)
  | PJoin p => option_map PJoin (rec p)
  | PMap p g => option_map (fun p => PMap p g) (rec p)
  | PFilter p g => option_map (fun p => PFilter p g) (rec p)
  (* :16-20 *)
  | PAnyOf _ | PNoneOf _ | PAllOf _ | PAnything | PEpsilon | PCustom _ => Some p
  end.

(** operators/modifier.h:19-41 on two modifiers *)
Definition modifier_operator (a b : modifier T) : modifier T :=
  match a, b with
  | MMulti l, MMulti r => MMulti (l ++ r)                         (* :37-41 *)
  | MMulti l, _ => MMulti (l ++ [b])                              (* :25-29 *)
  | _, MMulti r => MMulti (a :: r)                                (* :31-35 *)
  | _, _ => MMulti [a; b]                                         (* :19-23 *)
  end.

(** [parser auto], [-> parser]: sub.h:43, multi.h:17, and the [parser] constraint on the
    arguments of the class templates *)
Definition as_parser (o : option (object T)) : option (parser T) :=
  match o with Some (OParser p) => Some p | _ => None end.

(** The call operators on one parser: [M{}(P{})].  [None] = does not compile. *)
Fixpoint call (m : modifier T) (p : parser T) {struct m} : option (object T) :=
  match m with
  (* ignore.h:15-22, complete.h:15-22, join.h:15-22 *)
  | MIgnore => Some (OParser (if family_eq_dec (family_of p) ignore_family then p else PIgnore p))
  | MComplete => Some (OParser (if family_eq_dec (family_of p) complete_family then p else PComplete p))
  | MJoin => Some (OParser (if family_eq_dec (family_of p) join_family then p else PJoin p))
  (* exactly.h:11-21 *)
  | MExactly n => if n =? 0 then None else Some (OParser (PExactly p n))
  (* map.h:16-20, filter.h:16-20 *)
  | MMap f => Some (OParser (PMap p f))
  | MFilter f => Some (OParser (PFilter p f))
  (* apply.h:16-20, apply_filter.h:16-20, into.h:16-20, apply_into.h:16-20,
     constant.h:16-20, defaulted.h:17-21, with aliases/*.h:11-13 and functions.h:11-22 *)
  | MApply f => Some (OParser (PMap p (FApply f)))
  | MApplyFilter f => Some (OParser (PFilter p (FApply f)))
  | MInto t => Some (OParser (PMap p (FConstruct t)))
  | MApplyInto t => Some (OParser (PMap p (FApply (FConstruct t))))
  | MConstant k => Some (OParser (PMap p (FConstant k)))
  | MDefaulted t => Some (OParser (PMap p (FDefault t)))
  (* delimit.h:34-38, :27-31; delimit_keep.h:33-37, :26-30 *)
  | MDelimit => Some (OMod (MDelimitBy p))
  | MDelimitKeep => Some (OMod (MDelimitKeepBy p))
  | MDelimitBy d => Some (OParser (PDelimit p (PIgnore d)))
  | MDelimitKeepBy d => Some (OParser (PDelimit p d))
  (* name.h:20-24 *)
  | MName s => Some (OParser (PNamed p s))
  (* sub.h:58, :76: no call with one parser *)
  | MSub => None
  (* sub.h:69-73 with :42-50 [substitute] *)
  | MSubBy subs =>
      match subs with
      | [] => None
      | _ =>
          (fix substitute (subs : list (string * modifier T)) (p : parser T) : option (object T) :=
             match subs with
             | [] => Some (OParser p)
             | (name, md) :: subs' =>
                 match substitute_one name (fun q => as_parser (call md q)) p with
                 | Some p' => substitute subs' p'
                 | None => None
                 end
             end) subs p
      end
  (* multi.h:16-21: left fold over %, the outcome must be a parser *)
  | MMulti ms =>
      match (fix fold (ms : list (modifier T)) (o : object T) : option (object T) :=
               match ms with
               | [] => Some o
               | m' :: ms' =>
                   match o with
                   | OParser q => match call m' q with Some o' => fold ms' o' | None => None end
                   | OMod m0 => fold ms' (OMod (modifier_operator m0 m'))
                   end
               end) ms (OParser p) with
      | Some (OParser q) => Some (OParser q)
      | _ => None
      end
  end.

(** operators/modifier.h:45-50 [operator%] *)
Definition percent (a b : object T) : option (object T) :=
  match a, b with
  | OParser p, OMod m => call m p                                 (* :12-17 *)
  | OMod a, OMod b => Some (OMod (modifier_operator a b))         (* :19-41 *)
  | _, OParser _ => None
  end.

(** The calls with two arguments: delimit.h:16-20, delimit_keep.h:15-19, sub.h:58-62 *)
Definition delimit_call (p d : parser T) : parser T := PDelimit p (PIgnore d).
Definition delimit_keep_call (p d : parser T) : parser T := PDelimit p d.
Definition sub_call (p : parser T) (subs : list (string * modifier T)) : option (object T) := call (MSubBy subs) p.

(** ** The folds of [call] by name *)
Fixpoint percents (o : object T) (ms : list (modifier T)) : option (object T) :=
  match ms with
  | [] => Some o
  | m :: ms' => match percent o (OMod m) with Some o' => percents o' ms' | None => None end
  end.

Lemma call_multi ms p : call (MMulti ms) p = option_map OParser (as_parser (percents (OParser p) ms)).
Proof.
  cbn [call].
  match goal with |- match ?f ms (OParser p) with _ => _ end = _ => assert (H : forall ms o, f ms o = percents o ms) end.
  { clear. induction ms as [|m ms IH]; intros o; cbn [percents]; auto. destruct o; cbn [percent]; [destruct (call m p)|]; auto. }
  rewrite H. now destruct (percents (OParser p) ms) as [[]|].
Qed.

Fixpoint substitute (subs : list (string * modifier T)) (p : parser T) : option (parser T) :=
  match subs with
  | [] => Some p
  | (name, md) :: subs' =>
      match substitute_one name (fun q => as_parser (call md q)) p with
      | Some p' => substitute subs' p'
      | None => None
      end
  end.

Lemma call_sub subs p : subs <> [] -> call (MSubBy subs) p = option_map OParser (substitute subs p).
Proof.
  intros Hn. destruct subs as [|[n m] subs]; [congruence|]. clear Hn. cbn [call substitute].
  destruct (substitute_one n (fun q => as_parser (call m q)) p) as [p'|]; auto. clear.
  revert p'. induction subs as [|[n m] subs IH]; intros p; cbn [substitute]; auto.
  destruct (substitute_one n (fun q => as_parser (call m q)) p); auto.
Qed.

(** Induction over modifiers with the lists. *)
Section ModInd.
Variable P : modifier T -> Prop.
Hypothesis Hbase : forall m, (forall subs, m <> MSubBy subs) -> (forall ms, m <> MMulti ms) -> P m.
Hypothesis Hsub : forall subs, Forall (fun s => P (snd s)) subs -> P (MSubBy subs).
Hypothesis Hmulti : forall ms, Forall P ms -> P (MMulti ms).
Fixpoint modifier_ind' (m : modifier T) : P m.
Proof.
  destruct m as [| | | | | | | | | | | | | | | | | |subs|ms]; try (apply Hbase; discriminate).
  - apply Hsub. revert subs. fix go 1. intros [|[n m] subs]; constructor; [apply modifier_ind'|apply go].
  - apply Hmulti. revert ms. fix go 1. intros [|m ms]; constructor; [apply modifier_ind'|apply go].
Qed.
End ModInd.
End Modifiers.
