(** * Properties C32 and C47 *)
From Coq Require Import String List Arith ZArith Bool Lia.
From Verif Require Import Types Compound Parser Outcome CompoundFacts Exec Mono Derive Typing Join Leaves Sound
  BigStep BigSound BigComplete Peg Throws Samples Elems Runs PropBasic PropCombos Names.
Import ListNotations.

(** ** C32: names have no effect *)

(** Two programs that differ only in [named_parser]s, in the parser and in the get_parser()
    of the custom parsers, have the same outcomes, or both never return.  (A name can hide
    the operand of a join from the specialisations of detail/optimizations, so this needs
    C22.) *)
Theorem C32_names_have_no_effect {T V} (E : env T V) B m p p' i :
  (forall c, unname (cust_body E c) = unname (B c)) -> unname p = unname p' -> valid E i ->
  (forall o, evals E m p i o <-> evals (with_bodies E B) m p' i o) /\
  (diverges E m p i <-> diverges (with_bodies E B) m p' i).
Proof.
  intros HB Hp Hv.
  assert (H1 : forall o, evals E m p i o -> evals (with_bodies E B) m p' i o).
  { intros o [Ho [n Hn]]. subst o. destruct (all_follow E B HB n p m p' Hp i Hv Ho) as [N HN].
    split; auto. exists N. apply HN. lia. }
  assert (H2 : forall o, evals (with_bodies E B) m p' i o -> evals E m p i o).
  { intros o [Ho [n Hn]]. subst o.
    destruct (all_follow (with_bodies E B) (cust_body E) (fun c => eq_sym (HB c)) n p' m p (eq_sym Hp) i Hv Ho) as [N HN].
    split; auto. exists N. rewrite <- HN with (N := N) by lia. now destruct E. }
  split; [intros o; split; auto|].
  split; intros Hd n; [destruct (run (with_bodies E B) n m p' i) eqn:Hr|destruct (run E n m p i) eqn:Hr]; auto; exfalso.
  all: match type of Hr with run ?X ?k ?mm ?q ?ii = ?o => assert (He : evals X mm q ii o) by (split; [discriminate|eauto]) end.
  all: first [apply H2 in He|apply H1 in He]; destruct He as [_ [k Hk]]; rewrite Hd in Hk; discriminate.
Qed.

(** [join(+digit)] takes the specialised path, [join(+digit % name)] does not; the value is
    the same.  The body of custom 0 is named as well. *)
Example C32_case : let B := fun c => PNamed (cust_body sx c) "item"%string in
  (forall c, unname (cust_body sx c) = unname (B c)) /\
  join_special sx (POneOrMore (PAnyOf (codes "0123456789"))) 0 <> None /\
  join_special sx (POneOrMore (PNamed (PAnyOf (codes "0123456789")) "digit")) 0 = None /\
  evals sx Parse (PJoin (POneOrMore (PAnyOf (codes "0123456789")))) (at1 10)
    (Done (Res (Some (RVal (VSpan (Span 1 10 3)))) (at1 13)) []) /\
  evals (with_bodies sx B) Parse (PNamed (PJoin (POneOrMore (PNamed (PAnyOf (codes "0123456789")) "digit"))) "number") (at1 10)
    (Done (Res (Some (RVal (VSpan (Span 1 10 3)))) (at1 13)) []).
Proof. cbn zeta. split; [reflexivity|]. split; [discriminate|]. split; [reflexivity|]. split; runs 12. Qed.

(** ** C47: exceptions *)

(** What escapes from parse was thrown by the function of a map or filter, or by the
    converting constructor of a custom parser, reachable from the parser; lookahead lets
    nothing escape (C06). *)
Theorem C47_exceptions_are_users {T V} (E : env T V) m p i e : evals E m p i (Exn e) ->
  m = Parse /\
  exists q f args, reach E p q /\ invoke E f args = FThrow e /\
    ((exists r, q = PMap r f) \/ (exists r, q = PFilter r f) \/
     exists c t, q = PCustom c /\ f = FConstruct t /\ (cust_conv E c = ConvElem t \/ cust_conv E c = ConvWhole t)).
Proof.
  intros [_ [n Hn]]. split.
  - destruct m; auto. pose proof (look_quiet E n p i) as Hq. rewrite Hn in Hq. destruct Hq.
  - pose proof (run_exn E n m p i) as H. rewrite Hn in H. destruct H as (q & f & args & Hq & Hf & Hi).
    exists q, f, args. split; auto. split; auto. destruct q; try contradiction; cbn in Hf.
    + subst. eauto.
    + subst. eauto.
    + right. right. exists c. destruct (cust_conv E c) as [|t|t] eqn:Hc; try contradiction; eauto.
Qed.

Example C47_case :
  evals sx Parse (PSequence (PCustom 0) [PFilter (PAllOf (codes "+")) (FUser 3)]) in1 (Exn 42) /\
  invoke sx (FUser 3) [VSpan (Span 1 6 1)] = FThrow 42.
Proof. split; [runs 20|reflexivity]. Qed.

Print Assumptions C32_names_have_no_effect.
Print Assumptions C47_exceptions_are_users.
