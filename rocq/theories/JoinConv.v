(** * join over class types that convert to a span

    join.h:41 [try_join(output_span<ValueType>)] is also called for an object of any class
    that converts implicitly to [output_span] (span.h:25-34, 64-73: contiguous ranges and
    whatever [std::span] can be made of), such as std::string_view and std::string.  [Exec.v]
    leaves such types out.  A view converts to a span of characters that exist already, an
    owner to a span of its own characters, which are part of [*t], that is of the local variable
    [res] of join.h:136, and end with it. *)
From Coq Require Import String List Arith ZArith Bool Lia.
From Verif Require Import Types Compound Parser Outcome CompoundFacts Exec Join Builds PropBuilds.
Import ListNotations.
Local Open Scope outcome_scope.

(** What an object of a class converts to. *)
Inductive form := Views (s : span) | Owns (n : nat).

Section JoinConv.
(** Which classes convert to a span, and what an object with that content converts to. *)
Variable converts : nat -> bool.
Variable conv : nat -> list val -> form.
(** The block of memory of the characters owned by the object at a place in [*t]; a place is
    the list of positions on the way to it, the last one first. *)
Variable home : list nat -> nat.

(** span.h:25-28, 64-67 *)
Definition converted (place : list nat) (f : form) : span :=
  match f with Views s => s | Owns n => Span (home place) 0 n end.

(** join.h:41-113.  A class has no template of its own there, so its conversion to
    [output_span] is used; a vector, array, optional or tuple is taken apart even if it is a
    contiguous range (the templates need no conversion). *)
Fixpoint try_join_c (b : build) (far : span -> span -> bool) (place : list nat) (v : val) (joined : option span) {struct v}
  : outcome (bool * option span) :=
  let many := fix go (k : nat) (l : list val) (joined : option span) {struct l} :=
    match l with
    | [] => ret (true, joined)
    | x :: l' => '(ok, j) <- try_join_c b far (k :: place) x joined ;;
                 if ok : bool then go (S k) l' j else ret (false, j)
    end in
  match v with
  | VSpan s => try_join_span_on b far s joined
  | VVec l => many 0 l joined
  | VArr l => many 0 l joined
  | VOpt None => ret (true, joined)
  | VOpt (Some x) => try_join_c b far (0 :: place) x joined
  | VTup l => many 0 l joined
  | VUser n l => if converts n then try_join_span_on b far (converted place (conv n l)) joined else Ill
  | _ => Ill
  end.

(** join.h:23-36 *)
Definition join_executor_c b far (v : val) (rem : span) : outcome (option span) :=
  '(ok, j) <- try_join_c b far [] v None ;;
  match ok, j with
  | true, None => ret (Some (Span (sp_blk rem) (sp_off rem) 0))
  | _, _ => ret j
  end.

(** join.h:130-145 *)
Definition join_parse_c b far (f : pfun) (i : span) : outcome presult :=
  res <- f i ;;
  match r_ok res with
  | None => ret (failure i)
  | Some (RVal v) =>
      j <- join_executor_c b far v (r_rem res) ;;
      match j with
      | Some s => ret (success (RVal (VSpan s)) (r_rem res))
      | None => ret (failure i)
      end
  | Some RVoid => Ill
  end.

(** The types for which that compiles. *)
Fixpoint joinable_c (t : ty) : bool :=
  match t with
  | TSpan => true
  | TVec t | TArr t _ | TOpt t => joinable_c t
  | TTup ts => match ts with [] => false | _ => forallb joinable_c ts end
  | TUser n => converts n
  | _ => false
  end.

(** ** As a join over spans *)
Fixpoint seen (place : list nat) (v : val) {struct v} : val :=
  let many := fix go (k : nat) (l : list val) {struct l} := match l with [] => [] | x :: l' => seen (k :: place) x :: go (S k) l' end in
  match v with
  | VVec l => VVec (many 0 l)
  | VArr l => VArr (many 0 l)
  | VOpt (Some x) => VOpt (Some (seen (0 :: place) x))
  | VTup l => VTup (many 0 l)
  | VUser n l => if converts n then VSpan (converted place (conv n l)) else v
  | _ => v
  end.
Definition seen_many (place : list nat) := fix go (k : nat) (l : list val) {struct l} :=
  match l with [] => [] | x :: l' => seen (k :: place) x :: go (S k) l' end.
Definition many_c b far (place : list nat) := fix go (k : nat) (l : list val) (joined : option span) {struct l} :=
  match l with
  | [] => ret (true, joined)
  | x :: l' => '(ok, j) <- try_join_c b far (k :: place) x joined ;;
               if ok : bool then go (S k) l' j else ret (false, j)
  end.

Lemma try_join_seen b far v : forall place j, try_join_c b far place v j = try_join_on b far (seen place v) j.
Proof.
  assert (HM : forall l, Forall (fun v => forall place j, try_join_c b far place v j = try_join_on b far (seen place v) j) l ->
    forall place k j, many_c b far place k l j = try_join_many_on b far (seen_many place k l) j).
  { clear v. induction 1 as [|v l H _ IH]; intros place k j; cbn; [reflexivity|]. rewrite H. apply bind_ext. intros [[|] j']; [apply IH|reflexivity]. }
  induction v using val_ind'; intros place j; cbn [try_join_c seen]; fold (many_c b far place); fold (seen_many place);
    try (cbn [try_join_on]; fold (try_join_many_on b far)); auto.
  destruct (converts n); reflexivity.
Qed.

Lemma join_executor_seen b far v rem : join_executor_c b far v rem = join_executor_on b far (seen [] v) rem.
Proof. unfold join_executor_c, join_executor_on. now rewrite try_join_seen. Qed.
End JoinConv.
