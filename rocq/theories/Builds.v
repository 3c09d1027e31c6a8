(** * join's adjacency test on each compiler and at compile time

    [Exec.try_join_span] is the branch taken by GCC and Clang at run time.  This file models
    the other two ways join.h:52-61 may be compiled and the evaluator that uses them. *)
From Coq Require Import String List Arith ZArith Bool Lia.
From Verif Require Import Types Compound Parser Outcome Exec.
Import ListNotations.
Local Open Scope outcome_scope.

(** join.h:52 [_MSC_VER], :54 [__GNUC__ || __clang__]; for the latter
    [std::is_constant_evaluated()] (:58) is false or true. *)
Inductive build := MsvcRun | GccRun | GccConstant.

(** The condition of the [else if] of join.h:53-61, on two non-empty spans.

    - MSVC compares [joined->data() + joined->size() == output.data()].  For pointers into
      different objects [==] is false, except that the end of one object may or may not equal
      the beginning of another: [far] is the implementation's answer there.
    - GCC/Clang at run time subtract [output.data() - joined->data()], undefined for pointers
      into different objects.
    - During constant evaluation the subtraction is guarded by
      [__builtin_constant_p(output.data() - joined->data())], taken to hold exactly for
      pointers into one object. *)
Definition adjacent (b : build) (far : span -> span -> bool) (output joined : span) : outcome bool :=
  let same := sp_blk output =? sp_blk joined in
  let difference := (Z.of_nat (sp_off output) - Z.of_nat (sp_off joined))%Z in
  match b with
  | MsvcRun => ret (if same then sp_off joined + sp_len joined =? sp_off output else far output joined)
  | GccRun => if same then ret (Z.of_nat (sp_len joined) =? difference)%Z else UB
  | GccConstant => ret (same && (Z.of_nat (sp_len joined) =? difference)%Z)
  end.

(** join.h:41-76 *)
Definition try_join_span_on (b : build) (far : span -> span -> bool) (s : span) (joined : option span)
  : outcome (bool * option span) :=
  if sp_len s =? 0 then ret (true, joined)
  else match joined with
       | None => ret (true, Some s)
       | Some j =>
           a <- adjacent b far s j ;;
           if a : bool then ret (true, Some (Span (sp_blk j) (sp_off j) (sp_len j + sp_len s)))
           else ret (false, None)
       end.

(** join.h:78-113 *)
Fixpoint try_join_on (b : build) (far : span -> span -> bool) (v : val) (joined : option span) {struct v}
  : outcome (bool * option span) :=
  let many := fix go (l : list val) (joined : option span) {struct l} :=
    match l with
    | [] => ret (true, joined)
    | x :: l' => '(ok, j) <- try_join_on b far x joined ;;
                 if ok : bool then go l' j else ret (false, j)
    end in
  match v with
  | VSpan s => try_join_span_on b far s joined
  | VVec l => many l joined
  | VArr l => many l joined
  | VOpt None => ret (true, joined)
  | VOpt (Some x) => try_join_on b far x joined
  | VTup l => many l joined
  | _ => Ill
  end.

(** join.h:23-36 *)
Definition join_executor_on b far (v : val) (rem : span) : outcome (option span) :=
  '(ok, j) <- try_join_on b far v None ;;
  match ok, j with
  | true, None => ret (Some (Span (sp_blk rem) (sp_off rem) 0))
  | _, _ => ret j
  end.

(** join.h:130-145 *)
Definition join_parse_on b far (f : pfun) (i : span) : outcome presult :=
  res <- f i ;;
  match r_ok res with
  | None => ret (failure i)
  | Some (RVal v) =>
      j <- join_executor_on b far v (r_rem res) ;;
      match j with
      | Some s => ret (success (RVal (VSpan s)) (r_rem res))
      | None => ret (failure i)
      end
  | Some RVoid => Ill
  end.

Section Builds.
Context {T V : Type} (E : env T V).

(** join.h:120-152 *)
Definition join_generic_on b far (rec : mode -> parser T -> pfun) (m : mode) (q : parser T) (i : span)
  : outcome presult :=
  match m with
  | Look => rec Look q i
  | Parse => match result_for E q with
             | Some t => if joinable t then join_parse_on b far (rec Parse q) i else Ill
             | None => Ill
             end
  end.

(** [Exec.step] with that join: no other code depends on the compiler. *)
Definition step_on b far (rec : mode -> parser T -> pfun) (k : nat) (m : mode) (p : parser T) (i : span)
  : outcome presult :=
  match p with
  | PJoin q => match join_special E q k with
               | Some f => f m i
               | None => join_generic_on b far rec m q i
               end
  | _ => step E rec k m p i
  end.

Fixpoint run_on b far (n : nat) (m : mode) (p : parser T) (i : span) {struct n} : outcome presult :=
  match n with
  | O => OOF
  | S n' => step_on b far (run_on b far n') n' m p i
  end.

Definition evals_on b far (m : mode) (p : parser T) (i : span) (o : outcome presult) : Prop :=
  o <> OOF /\ exists n, run_on b far n m p i = o.

Definition diverges_on b far (m : mode) (p : parser T) (i : span) : Prop :=
  forall n, run_on b far n m p i = OOF.
End Builds.
