(** * Outcomes of running library code *)
From Coq Require Import List.
From Verif Require Import Types.
Import ListNotations.

(** - [Done a tr]: returned [a]; [tr] lists the user functions invoked, in order
    - [UB]: undefined behaviour was reached
    - [Exn e]: a user function threw [e] (the library has no try/catch: it propagates)
    - [OOF]: the evaluator's fuel ran out (no statement about the program)
    - [Ill]: the program is ill-formed (a template instantiation does not compile) *)
Inductive outcome (A : Type) : Type :=
| Done (a : A) (tr : list event)
| UB
| Exn (e : nat)
| OOF
| Ill.
Arguments Done {A}. Arguments UB {A}. Arguments Exn {A}. Arguments OOF {A}. Arguments Ill {A}.

Definition ret {A} (a : A) : outcome A := Done a [].

Definition bind {A B} (x : outcome A) (f : A -> outcome B) : outcome B :=
  match x with
  | Done a tr =>
      match f a with
      | Done b tr' => Done b (tr ++ tr')
      | UB => UB
      | Exn e => Exn e
      | OOF => OOF
      | Ill => Ill
      end
  | UB => UB
  | Exn e => Exn e
  | OOF => OOF
  | Ill => Ill
  end.

Declare Scope outcome_scope.
Delimit Scope outcome_scope with outcome.
Notation "x <- e ;; k" := (bind e (fun x => k))
  (at level 61, e at next level, right associativity) : outcome_scope.
Notation "' pat <- e ;; k" := (bind e (fun x => match x with pat => k end))
  (at level 61, pat pattern, e at next level, right associativity) : outcome_scope.
