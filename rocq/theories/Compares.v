(** * parse and lookahead when comparing elements is user code

    [Exec.v] and [Stateful.v] take [==] between an element of a literal and an element of the input as a function of the
    two.  In C++ the element types can be the user's, and their [operator==] can read and change variables of the
    program and throw.  Here it takes the world and gives a new one, like the functions in [Stateful.v].  What compares
    elements is written again; the rest is [Stateful.v]'s. *)
From Coq Require Import List Arith ZArith Bool String.
From Verif Require Import Types Compound Parser Outcome Exec Stateful.
Import ListNotations.

(** What [element == u] does: converts to a bool, or throws. *)
Inductive cmpres := CRet (b : bool) | CThrow (e : nat).

Section Compares.
Context {T V W : Type} (E : env T V).
Variable sfn : nat -> list val -> W -> fnres * W.
Variable sct : ty -> list val -> W -> fnres * W.
(** [E]'s [eqv] is not used. *)
Variable seq : T -> V -> W -> cmpres * W.
Notation eff := (@eff W).
Notation "x <- e ;; k" := (sbind e (fun x => k)) (at level 61, e at next level, right associativity).
Notation "' pat <- e ;; k" := (sbind e (fun x => match x with pat => k end))
  (at level 61, pat pattern, e at next level, right associativity).

Definition compare (t : T) (c : V) : eff bool := fun w =>
  match seq t c w with
  | (CRet b, w') => (Done b [], w')
  | (CThrow e, w') => (Exn e, w')
  end.

(** static_array.h:50-57 *)
Fixpoint ccontains (arr : list T) (c : V) : eff bool :=
  match arr with
  | [] => sret false
  | t :: arr' => b <- compare t c ;; if b : bool then sret true else ccontains arr' c
  end.

(** span.h:130-137 *)
Fixpoint ceq_loop (arr : list T) (b o : nat) : eff bool :=
  match arr with
  | [] => sret true
  | t :: arr' => c <- lift (read E b o) ;;
                 e <- compare t c ;;
                 if e : bool then ceq_loop arr' b (S o) else sret false
  end.

(** span.h:122-138 *)
Definition cspan_equal (arr : list T) (s : span) : eff bool :=
  if List.length arr =? sp_len s then ceq_loop arr (sp_blk s) (sp_off s) else sret false.

(** any_of.h:29-32 *)
Definition cany_fc (arr : list T) (i : span) : eff bool :=
  if sp_len i =? 0 then sret true
  else c <- lift (front E i) ;; b <- ccontains arr c ;; sret (negb b).

(** none_of.h:29-32 *)
Definition cnone_fc (arr : list T) (i : span) : eff bool :=
  if sp_len i =? 0 then sret true
  else c <- lift (front E i) ;; ccontains arr c.

(** all_of.h:27-30 *)
Definition call_fc (arr : list T) (i : span) : eff bool :=
  if sp_len i <? List.length arr then sret true
  else f <- lift (first i (List.length arr)) ;; b <- cspan_equal arr f ;; sret (negb b).

(** basic_base.h:29-40 *)
Definition cbasic_parse (fc : span -> eff bool) (len : nat) : @sfun W := fun i =>
  b <- fc i ;;
  if b : bool then sret (failure i)
  else v <- lift (first i len) ;;
       r <- lift (advance i len) ;;
       sret (success (RVal (VSpan v)) r).

(** basic_base.h:42-53 *)
Definition cbasic_look (fc : span -> eff bool) (len : nat) : @sfun W := fun i =>
  b <- fc i ;;
  if b : bool then sret (failure i)
  else r <- lift (advance i len) ;;
       sret (success RVoid r).

(** The parsers with a [basic_parser_traits], as [as_basic] of Exec.v. *)
Definition cbasic (p : parser T) : option ((span -> eff bool) * nat) :=
  match p with
  | PAnyOf arr => Some (cany_fc arr, 1)
  | PNoneOf arr => Some (cnone_fc arr, 1)
  | PAllOf arr => Some (call_fc arr, List.length arr)
  | _ => None
  end.

(** join_exactly_basic.h:33-39, :54-59 *)
Fixpoint cjx_loop (fc : span -> eff bool) (len k : nat) (res i : span) : eff (option (span * span)) :=
  match k with
  | O => sret (Some (res, i))
  | S k' =>
      b <- fc i ;;
      if b : bool then sret None
      else i' <- lift (advance i len) ;;
           cjx_loop fc len k' (Span (sp_blk res) (sp_off res) (sp_len res + len)) i'
  end.

(** join_exactly_basic.h:22-42 *)
Definition cjx_parse (fc : span -> eff bool) (len n : nat) : @sfun W := fun i =>
  r <- cjx_loop fc len n (Span (sp_blk i) (sp_off i) 0) i ;;
  match r with
  | Some (res, i') => sret (success (RVal (VSpan res)) i')
  | None => sret (failure i)
  end.

(** join_exactly_basic.h:44-62 *)
Definition cjx_look (fc : span -> eff bool) (len n : nat) : @sfun W := fun i =>
  r <- cjx_loop fc len n (Span (sp_blk i) (sp_off i) 0) i ;;
  match r with
  | Some (_, i') => sret (success RVoid i')
  | None => sret (failure i)
  end.

(** join_maybe_basic.h:22-34 *)
Definition cjm_parse (fc : span -> eff bool) (len : nat) : @sfun W := fun i =>
  b <- fc i ;;
  if b : bool then sret (success (RVal (VSpan (Span (sp_blk i) (sp_off i) 0))) i)
  else v <- lift (first i len) ;;
       r <- lift (advance i len) ;;
       sret (success (RVal (VSpan v)) r).

(** join_maybe_basic.h:36-48 *)
Definition cjm_look (fc : span -> eff bool) (len : nat) : @sfun W := fun i =>
  b <- fc i ;;
  if b : bool then sret (success RVoid i)
  else r <- lift (advance i len) ;; sret (success RVoid r).

(** join_one_or_more_basic.h:36-40, :58-61, join_zero_or_more_basic.h:32-36, :49-52 *)
Fixpoint cjr_loop (fc : span -> eff bool) (len k : nat) (res i : span) : eff (span * span) :=
  match k with
  | O => lift OOF
  | S k' =>
      b <- fc i ;;
      if b : bool then sret (res, i)
      else i' <- lift (advance i len) ;;
           cjr_loop fc len k' (Span (sp_blk res) (sp_off res) (sp_len res + len)) i'
  end.

(** join_one_or_more_basic.h:22-43 *)
Definition cjo_parse (fc : span -> eff bool) (len k : nat) : @sfun W := fun i =>
  b <- fc i ;;
  if b : bool then sret (failure i)
  else v <- lift (first i len) ;;
       i1 <- lift (advance i len) ;;
       '(res, i') <- cjr_loop fc len k v i1 ;;
       sret (success (RVal (VSpan res)) i').

(** join_one_or_more_basic.h:45-64 *)
Definition cjo_look (fc : span -> eff bool) (len k : nat) : @sfun W := fun i =>
  b <- fc i ;;
  if b : bool then sret (failure i)
  else i1 <- lift (advance i len) ;;
       '(_, i') <- cjr_loop fc len k (Span (sp_blk i) (sp_off i) len) i1 ;;
       sret (success RVoid i').

(** join_zero_or_more_basic.h:22-39 *)
Definition cjz_parse (fc : span -> eff bool) (len k : nat) : @sfun W := fun i =>
  '(res, i') <- cjr_loop fc len k (Span (sp_blk i) (sp_off i) 0) i ;;
  sret (success (RVal (VSpan res)) i').

(** join_zero_or_more_basic.h:41-55 *)
Definition cjz_look (fc : span -> eff bool) (len k : nat) : @sfun W := fun i =>
  '(_, i') <- cjr_loop fc len k (Span (sp_blk i) (sp_off i) 0) i ;;
  sret (success RVoid i').

(** As [join_special] of Exec.v. *)
Definition cjoin_special (p : parser T) (k : nat) : option (mode -> @sfun W) :=
  match p with
  | PExactly q n =>
      match cbasic q with
      | Some (fc, len) =>
          if n =? 0 then None
          else Some (fun m => match m with Parse => cjx_parse fc len n | Look => cjx_look fc len n end)
      | None => None
      end
  | PMaybe q =>
      match cbasic q with
      | Some (fc, len) => Some (fun m => match m with Parse => cjm_parse fc len | Look => cjm_look fc len end)
      | None => None
      end
  | POneOrMore q =>
      match cbasic q with
      | Some (fc, len) => Some (fun m => match m with Parse => cjo_parse fc len k | Look => cjo_look fc len k end)
      | None => None
      end
  | PZeroOrMore q =>
      match cbasic q with
      | Some (fc, len) => Some (fun m => match m with Parse => cjz_parse fc len k | Look => cjz_look fc len k end)
      | None => None
      end
  | _ => None
  end.

(** As [sstep] of Stateful.v, which does everything that compares no elements. *)
Definition xstep (rec : mode -> parser T -> @sfun W) (k : nat) (m : mode) (p : parser T) : @sfun W := fun i =>
  match p with
  | PAnyOf arr => match m with Parse => cbasic_parse (cany_fc arr) 1 i | Look => cbasic_look (cany_fc arr) 1 i end
  | PNoneOf arr => match m with Parse => cbasic_parse (cnone_fc arr) 1 i | Look => cbasic_look (cnone_fc arr) 1 i end
  | PAllOf arr => match m with Parse => cbasic_parse (call_fc arr) (List.length arr) i
                             | Look => cbasic_look (call_fc arr) (List.length arr) i end
  | PJoin q => match cjoin_special q k with
               | Some f => f m i
               | None => sjoin_generic E rec m q i
               end
  | _ => sstep E sfn sct rec k m p i
  end.

Fixpoint xrun (n : nat) (m : mode) (p : parser T) (i : span) {struct n} : eff presult :=
  match n with
  | O => lift OOF
  | S n' => xstep (xrun n') n' m p i
  end.

Definition xevals (m : mode) (p : parser T) (i : span) (w : W) (o : outcome presult) (w' : W) : Prop :=
  o <> OOF /\ exists n, xrun n m p i w = (o, w').
End Compares.
