(** * A concrete program to show that the theorems speak about something

    One environment with user callables, constructors, constants and recursive custom
    parsers.  Elements are character codes.  The Examples beside the property theorems run
    parsers in it. *)
From Coq Require Import String List Arith ZArith Bool Lia.
From Verif Require Import Types Compound Parser Outcome CompoundFacts Exec Mono Derive Typing Join Leaves Sound.
Import ListNotations.

Fixpoint codes (s : string) : list nat :=
  match s with EmptyString => [] | String c s' => Ascii.nat_of_ascii c :: codes s' end.

Definition is_digit (c : nat) : bool := (48 <=? c) && (c <=? 57).

(** Block 1 and 2 hold the same text at different offsets, block 3 another one. *)
Definition sx_mem (b : nat) : list nat :=
  match b with
  | 1 => codes "((a)b)+12,345;aab"
  | 2 => codes "xyz((a)b)+12,345;aab!"
  | 3 => codes "aaaa"
  | _ => []
  end.

(** TUser 0 plays bool, TUser 1 int, TUser 2 a class constructible from anything. *)
Definition sx_bool (b : bool) : val := VUser 0 [VZ (if b then 1 else 0)%Z].

(** - callable 0: [span -> bool], longer than one element
    - callable 1: [span -> void]
    - callable 2: [(span, span) -> int], keeps its arguments
    - callable 3: [span -> bool], throws
    - callable 4: [() -> bool], false
    - callable 5: [span -> span], identity
    - callable 6: [span -> span], a span of other storage *)
Definition sx_fn_ret (n : nat) (tys : list ty) : option ty :=
  match n, tys with
  | 0, [TSpan] => Some (TUser 0)
  | 1, [TSpan] => Some TVoid
  | 2, [TSpan; TSpan] => Some (TUser 1)
  | 3, [TSpan] => Some (TUser 0)
  | 4, [] => Some (TUser 0)
  | 5, [TSpan] => Some TSpan
  | 6, [TSpan] => Some TSpan
  | _, _ => None
  end.

Definition sx_fn_app (n : nat) (args : list val) : fnres :=
  match n, args with
  | 0, [VSpan s] => FRet (RVal (sx_bool (1 <? sp_len s)))
  | 1, [VSpan s] => FRet RVoid
  | 2, [VSpan s; VSpan s'] => FRet (RVal (VUser 1 [VSpan s; VSpan s']))
  | 3, [VSpan s] => FThrow 42
  | 4, [] => FRet (RVal (sx_bool false))
  | 5, [VSpan s] => FRet (RVal (VSpan s))
  | 6, [VSpan s] => FRet (RVal (VSpan (Span 3 0 2)))
  | _, _ => FIll
  end.

(** custom 0: nested lists in parentheses; its result_type is a class built from the value.
    custom 1: letters, result_type is the type of get_parser()'s result.
    custom 2: a result_type that is constructible from the optional itself. *)
Definition sx_letter : parser nat := PAnyOf (codes "abc").
Definition sx_body (c : nat) : parser nat :=
  match c with
  | 0 => PSequence (PIgnore (PAllOf (codes "(")))
           [PZeroOrMore (PChoice (PCustom 0) [PCustom 1]); PIgnore (PAllOf (codes ")"))]
  | 1 => PJoin (POneOrMore sx_letter)
  | 2 => PAllOf (codes "z")
  | _ => PEpsilon
  end.
Definition sx_cty (c : nat) : ty :=
  match c with 0 => TUser 2 | 1 => TSpan | 2 => TUser 2 | _ => TVoid end.
Definition sx_conv (c : nat) : conv :=
  match c with 0 => ConvElem (TUser 2) | 2 => ConvWhole (TUser 2) | _ => ConvSame end.

Definition sx : env nat nat := {|
  eqv := Nat.eqb;
  mem := sx_mem;
  fn_ret := sx_fn_ret;
  fn_app := sx_fn_app;
  ct_ok := fun t tys => ty_eqb t (TUser 2);
  ct_app := fun t args => FRet (RVal (VUser 2 args));
  k_ty := fun _ => TUser 1;
  k_val := fun k => VUser 1 [VZ (Z.of_nat k)];
  bool_ok := fun t => ty_eqb t (TUser 0);
  as_bool := fun v => match v with VUser 0 [VZ z] => negb (z =? 0)%Z | _ => false end;
  cust_body := sx_body;
  cust_ty := sx_cty;
  cust_conv := sx_conv
|}.

Lemma sx_typed : env_typed sx.
Proof.
  constructor; cbn.
  - intros n args tys t Hr HF.
    unfold sx_fn_ret in Hr.
    repeat match type of Hr with context [match ?x with _ => _ end] => destruct x; try discriminate end;
      injection Hr as <-;
      repeat match goal with H : Forall2 _ (_ :: _) _ |- _ => inversion H; subst; clear H
                           | H : Forall2 _ [] _ |- _ => inversion H; subst; clear H end;
      repeat match goal with v : val |- _ => destruct v; try contradiction end; cbn; auto; split; auto; discriminate.
  - intros n tys t Hr. unfold sx_fn_ret in Hr.
    repeat match type of Hr with context [match ?x with _ => _ end] => destruct x; try discriminate end;
      injection Hr as <-; auto.
  - intros t args tys Hc HF. destruct t; try discriminate. cbn in Hc. apply Nat.eqb_eq in Hc. subst. cbn. split; auto. discriminate.
  - intros t tys Hc. destruct t; try discriminate. auto.
  - intros k. auto.
  - intros t Hb. destruct t; discriminate.
Qed.

Lemma sx_customs : env_customs sx.
Proof.
  constructor.
  - intros m c. destruct m, c as [|[|[|c]]]; reflexivity.
  - intros c. destruct c as [|[|[|c]]]; cbn; auto.
  - intros c. destruct c as [|[|[|c]]]; cbn; auto; (split; [auto|split; [discriminate|]]); eexists; (split; [reflexivity|]); split; auto; discriminate.
Qed.

(** Inputs: the text at block 1, and the same text inside block 2. *)
Definition in1 : span := Span 1 0 17.
Definition in2 : span := Span 2 3 17.

Lemma in1_valid : valid sx in1. Proof. unfold valid. cbn. lia. Qed.
Lemma in2_valid : valid sx in2. Proof. unfold valid. cbn. lia. Qed.

(** The rest of the text from position [n]. *)
Definition at1 (n : nat) : span := Span 1 n (17 - n).
Lemma at1_valid n : n <= 17 -> valid sx (at1 n). Proof. intros. change (n + (17 - n) <= 17). lia. Qed.

(** Runs of concrete parsers, by computation. *)
Ltac runs n := split; [discriminate|exists n; vm_compute; reflexivity].

(** the nested list [((a)b)] *)
Example sx_list : evals sx Parse (PCustom 0) in1
  (Done (Res (Some (RVal (VUser 2 [VVec [VVar 0 (VUser 2 [VVec [VVar 1 (VSpan (Span 1 2 1))]]);
                                         VVar 1 (VSpan (Span 1 4 1))]]))) (at1 6))
        [EInvoke (FConstruct (TUser 2)) [VVec [VVar 1 (VSpan (Span 1 2 1))]];
         EInvoke (FConstruct (TUser 2))
           [VVec [VVar 0 (VUser 2 [VVec [VVar 1 (VSpan (Span 1 2 1))]]); VVar 1 (VSpan (Span 1 4 1))]]]).
Proof. runs 20. Qed.

(** digits *)
Definition digits : parser nat := POneOrMore (PAnyOf (codes "0123456789")).
