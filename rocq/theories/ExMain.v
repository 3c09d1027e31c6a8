(** * The programs of the examples: examples/algebraic/algebraic.cpp, examples/json/json.cpp:106-142, src/main.cpp

    Each is written as a function of the texts of its string literals (in order; every literal
    is a memory block of its own, seen up to its terminator: C45), and of the fuel given to
    every call of [parse]. *)
From Coq Require Import String List Arith ZArith Bool Lia.
From Verif Require Import Types Compound Parser Outcome CompoundFacts Exec Derive Typing Leaves Samples StaticArray Operators PropSets Modifiers
  ExJson ExAlgebraic PropPrint.
Import ListNotations.
Local Open Scope nat_scope.

(** What was written to std::cout: characters, and doubles (how a double is written is up to
    std::ostream). *)
Inductive emitted (D : Type) : Type := Chars (l : list nat) | Number (d : D).
Arguments Chars {D}. Arguments Number {D}.

(** How a program ends.  What an undefined or terminated one wrote is left out. *)
Inductive ending (D : Type) : Type :=
| Ends (out : list (emitted D))      (* main returns *)
| Undefined                        (* undefined behaviour *)
| Dies                             (* std::terminate: an exception that nobody catches, or [throw;] without one *)
| NoFuel.
Arguments Ends {D}. Arguments Undefined {D}. Arguments Dies {D}. Arguments NoFuel {D}.

Definition and_then {D} (a b : ending D) : ending D :=
  match a with Ends l => match b with Ends l' => Ends (l ++ l') | _ => b end | _ => a end.

(** The literal as an input. *)
Definition literal_at (memory : nat -> list nat) (k : nat) : span := Span k 0 (List.length (memory k)).

Section Algebraic.
Context (memory : nat -> list nat) (F : doubles) (fuel : nat).
Notation D := (dbl F).

(** A call of evaluate, as one of the endings. *)
Definition evaluated (v : val) : ending D :=
  match evaluate memory F KExpr v with
  | EVal d => Ends [Number d]
  | ENull | EFront => Undefined
  | ESwitch | EInvalid | EAbort => Dies
  | EType => Undefined             (* does not compile; not reached *)
  end.
(** A call of print. *)
Definition printed_by (v : val) : ending D :=
  match print memory KExpr v 0 with
  | POut ps => Ends [Chars (written memory ps)]
  | PTabs | PIndex | PFront => Undefined
  | PSwitch => Dies
  | PType => Undefined             (* does not compile; not reached *)
  end.

(** [input::parse("...")], :11, :20-22; [found] is what happens with the value, [empty]
    what happens when there is none. *)
Definition with_parsed (k : nat) (found : val -> ending D) (empty : ending D) : ending D :=
  match run (alg_env memory) fuel Parse alg_input (literal_at memory k) with
  | Done (Res (Some (RVal v)) _) _ => found v
  | Done (Res (Some _) _) _ => Undefined   (* does not compile; not reached *)
  | Done (Res None _) _ => empty
  | UB => Undefined
  | Exn _ => Dies
  | OOF => NoFuel
  | Ill => Undefined
  end.

(** :11-18 *)
Definition first_part : ending D :=
  with_parsed 0
    (fun v => and_then (printed_by v) (and_then (Ends [Chars [10]]) (and_then (evaluated v) (Ends [Chars [10]]))))
    (Ends [Chars (codes "Parse failure." ++ [10])]).
(** :20-22: [operator*] of an empty result is [operator*] of an empty std::optional *)
Definition value_at (k : nat) : ending D := with_parsed k evaluated Undefined.
(** :24-26 write what :20-22 computed *)
Definition line_of (e : ending D) : ending D := and_then (Ends [Chars [10]]) e.

Definition algebraic_main : ending D :=
  and_then first_part (and_then (line_of (value_at 1)) (and_then (line_of (value_at 2)) (line_of (value_at 3)))).
End Algebraic.

(** The literals of algebraic.cpp:11, :20-22. *)
Definition algebraic_texts (k : nat) : list nat :=
  match k with
  | 0 => codes "4 ^ (2 + 4 * 6) + 1 * 3"
  | 1 => codes "1 + 2 + 3 + 4"
  | 2 => codes "1 + 2 - 3 + 4"
  | 3 => codes "3^3^3"
  | _ => []
  end.

(** ** json.cpp:106-142; the result of :129 is not used, but computed; literal 0 is the
    argument of [string.parse], 1 the document *)
Definition json_main (memory : nat -> list nat) (cons : ty -> list val -> fnres) (fuel : nat) : ending Empty_set :=
  let after_parse p k (found empty : ending Empty_set) :=
    match run (json_env memory cons) fuel Parse p (literal_at memory k) with
    | Done (Res (Some _) _) _ => found
    | Done (Res None _) _ => empty
    | UB => Undefined
    | Exn _ => Dies
    | OOF => NoFuel
    | Ill => Undefined
    end in
  and_then (after_parse str 0 (Ends []) (Ends []))                                          (* :129 *)
    (after_parse json_object 1 (Ends []) (Ends [Chars (codes "Json parse error!!!" ++ [10])])).   (* :132-140 *)


Definition tb (n : nat) : list nat := repeat 9 n.
(** :109-126, line by line. *)
Definition json_document : list nat :=
  tl (flat_map (fun x => 10 :: tb (fst x) ++ codes (snd x)) [
    (0, "{");
    (1, """id"": ""0001"",");
    (1, """type"": ""donut"",");
    (1, """name"": ""Cake"",");
    (1, """image"":");
    (2, "{");
    (3, """url"": ""images/0001.jpg"",");
    (3, """width"": 200,");
    (3, """height"": 200");
    (2, "},");
    (1, """thumbnail"":");
    (2, "{");
    (3, """url"": ""images/thumbnails/0001.jpg"",");
    (3, """width"": 32,");
    (3, """height"": 32");
    (2, "}");
    (0, "}")])%string.
Definition json_texts (k : nat) : list nat :=
  match k with
  | 0 => codes """-1234.5678e+9012tdtrwehfg"
  | 1 => json_document
  | _ => []
  end.

(** ** src/main.cpp:13-17: [exactly<2>(any_of_parser<"ab">{})] on two literals; both results are
    kept in variables nobody reads. *)
Definition tool_parser : parser nat := with_modifier (anyl (codes "ab")) (MExactly 2).
Definition tool_texts (k : nat) : list nat :=
  match k with 0 => codes "cbac" | 1 => codes "abac" | _ => [] end.
