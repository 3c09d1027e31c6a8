(** * Property C77: which constructors turn get_parser()'s result into the custom parser's *)
From Coq Require Import String List Arith ZArith Bool Lia.
From Verif Require Import Types Compound Parser Outcome CompoundFacts Exec Mono Derive Typing Join Leaves Sound
  BigStep BigSound BigComplete Peg Elems Runs Samples PropBasic PropCombos CustomConv.
Import ListNotations.

Section C77.
Context (builds turns_into : ty -> arg -> bool) (is_bool : ty -> bool) (lwg : bool).
Notation returned := (returned builds turns_into is_bool lwg).

(** T says something about an optional of T2: it can be made from one, in some form, or one
    converts to it. *)
Definition knows_optional (T T2 : ty) : Prop :=
  exists c l, builds T (Arg c l (TOpt T2)) = true \/ turns_into T (Arg c l (TOpt T2)) = true.
(** ... and is treated as if it did not *)
Definition excepted (T : ty) : Prop := lwg = true /\ is_bool T = true.

Lemma any_knows T T2 : converts_from_any builds turns_into T (TOpt T2) = true <-> knows_optional T T2.
Proof.
  unfold converts_from_any, four, knows_optional. cbn. rewrite !orb_true_iff. split.
  - intros [[H|[H|[H|[H|H]]]]|[H|[H|[H|[H|H]]]]]; try discriminate; eauto.
  - intros (c & l & [H|H]); destruct c, l; auto 9.
Qed.

Lemma exempt_excepted T : exempt is_bool lwg T = true <-> excepted T.
Proof. unfold exempt, excepted. now rewrite andb_true_iff. Qed.

Lemma unwraps_ok T T2 : unwraps builds turns_into is_bool lwg T T2 = true <-> (excepted T \/ ~ knows_optional T T2).
Proof.
  unfold unwraps. rewrite orb_true_iff, exempt_excepted, negb_true_iff, <- any_knows.
  now rewrite not_true_iff_false.
Qed.

(** The template taking any value and those taking optionals exclude each other. *)
Lemma exclusive T T2 : ovalue_ok builds is_bool lwg T T2 = true -> unwraps builds turns_into is_bool lwg T T2 = false.
Proof.
  unfold ovalue_ok, unwraps. intros [H1 H2]%andb_prop. apply negb_true_iff in H2. rewrite H2. cbn.
  apply negb_false_iff, any_knows. exists false, false. auto.
Qed.

Lemma ctor_spec T T2 :
  optional_ctor builds turns_into is_bool lwg T T2 =
    (if ovalue_ok builds is_bool lwg T T2 then Chosen OValue
     else if orvalue_ok builds turns_into is_bool lwg T T2 then Chosen OFromRvalue
     else if oconst_ok builds turns_into is_bool lwg T T2 then Chosen OFromConst
     else NoViable).
Proof.
  pose proof (exclusive T T2) as Hx. unfold optional_ctor, optional_cands, implicitly, orvalue_ok, oconst_ok.
  destruct (ovalue_ok builds is_bool lwg T T2).
  - rewrite Hx by auto. rewrite !andb_false_r. cbn. destruct (turns_into T (rvalue (TOpt T2))); reflexivity.
  - destruct (unwraps builds turns_into is_bool lwg T T2); rewrite ?andb_false_r, ?andb_true_r; [|reflexivity].
    destruct (builds T (rvalue T2)), (builds T (const_lvalue T2)), (turns_into T (const_lvalue T2)), (turns_into T (rvalue T2)); reflexivity.
Qed.

(** Overload resolution never ends in a tie, and never takes the copy or move constructor. *)
Theorem C77_no_tie T T2 :
  optional_ctor builds turns_into is_bool lwg T T2 <> Ambiguous /\
  optional_ctor builds turns_into is_bool lwg T T2 <> Chosen OCopy /\
  optional_ctor builds turns_into is_bool lwg T T2 <> Chosen OMove.
Proof.
  rewrite ctor_spec. destruct (ovalue_ok builds is_bool lwg T T2), (orvalue_ok builds turns_into is_bool lwg T T2), (oconst_ok builds turns_into is_bool lwg T T2); repeat split; discriminate.
Qed.

Lemma returned_spec T T2 : T <> T2 -> T <> TVoid -> T2 <> TVoid ->
  returned T T2 = if ovalue_ok builds is_bool lwg T T2 then Some (ConvWhole T)
                  else if orvalue_ok builds turns_into is_bool lwg T T2 || oconst_ok builds turns_into is_bool lwg T T2 then Some (ConvElem T) else None.
Proof.
  intros Hn HT HT2. unfold CustomConv.returned. destruct (ty_eqb T T2) eqn:He; [apply ty_eqb_spec in He; contradiction|].
  assert (Hr : resolve (result_cands T) = Chosen RFromRvalue) by (destruct T; try contradiction; reflexivity). rewrite Hr.
  assert (Hm : forall X : option conv, match T2 with TVoid => None | _ => X end = X) by (intros X; destruct T2; try contradiction; reflexivity).
  rewrite Hm, ctor_spec.
  destruct (ovalue_ok builds is_bool lwg T T2), (orvalue_ok builds turns_into is_bool lwg T T2), (oconst_ok builds turns_into is_bool lwg T T2); reflexivity.
Qed.

Lemma returned_void T T2 : T <> T2 -> T = TVoid \/ T2 = TVoid -> returned T T2 = None.
Proof.
  intros Hn Hv. unfold CustomConv.returned. destruct (ty_eqb T T2) eqn:He; [apply ty_eqb_spec in He; contradiction|].
  destruct Hv as [-> | ->]; [reflexivity|]. destruct T; reflexivity.
Qed.

(** No conversion iff the types are the same. *)
Theorem C77_same T T2 : returned T T2 = Some ConvSame <-> T = T2.
Proof.
  split.
  - intros H. destruct (ty_eqb T T2) eqn:He; [now apply ty_eqb_spec|]. exfalso.
    assert (Hn : T <> T2) by (intros ->; rewrite ty_eqb_refl in He; discriminate).
    destruct (is_void T) eqn:H1; [destruct T; try discriminate; rewrite returned_void in H; auto; discriminate|].
    destruct (is_void T2) eqn:H2; [destruct T2; try discriminate; rewrite returned_void in H; auto; discriminate|].
    rewrite returned_spec in H; auto; [|now intros ->|now intros ->].
    destruct (ovalue_ok _ _ _ _ _); [discriminate|]. destruct (_ || _); discriminate.
  - intros ->. unfold CustomConv.returned. now rewrite ty_eqb_refl.
Qed.

(** The optional itself is handed over iff the declared type can be made from it. *)
Theorem C77_whole T T2 t : returned T T2 = Some (ConvWhole t) <->
  t = T /\ T <> T2 /\ T <> TVoid /\ T2 <> TVoid /\ builds T (rvalue (TOpt T2)) = true /\ ~ excepted T.
Proof.
  rewrite <- exempt_excepted, not_true_iff_false.
  split.
  - intros H. destruct (ty_eqb T T2) eqn:He; [unfold CustomConv.returned in H; rewrite He in H; discriminate|].
    assert (Hn : T <> T2) by (intros ->; rewrite ty_eqb_refl in He; discriminate).
    assert (H1 : T <> TVoid) by (intros ->; rewrite returned_void in H; auto; discriminate).
    assert (H2 : T2 <> TVoid) by (intros ->; rewrite returned_void in H; auto; discriminate).
    rewrite returned_spec in H; auto. destruct (ovalue_ok _ _ _ _ _) eqn:Ho; [|destruct (_ || _); discriminate].
    injection H as <-. unfold ovalue_ok in Ho. apply andb_prop in Ho as [Ho Ho']. apply negb_true_iff in Ho'. auto 9.
  - intros (-> & Hn & H1 & H2 & Hb & He). rewrite returned_spec; auto. unfold ovalue_ok. now rewrite Hb, He.
Qed.

(** The value inside is converted iff that is possible and T knows nothing about the optional. *)
Theorem C77_elem T T2 t : returned T T2 = Some (ConvElem t) <->
  t = T /\ T <> T2 /\ T <> TVoid /\ T2 <> TVoid /\ (excepted T \/ ~ knows_optional T T2) /\
  (builds T (rvalue T2) = true \/ builds T (const_lvalue T2) = true).
Proof.
  rewrite <- unwraps_ok. split.
  - intros H. destruct (ty_eqb T T2) eqn:He; [unfold CustomConv.returned in H; rewrite He in H; discriminate|].
    assert (Hn : T <> T2) by (intros ->; rewrite ty_eqb_refl in He; discriminate).
    assert (H1 : T <> TVoid) by (intros ->; rewrite returned_void in H; auto; discriminate).
    assert (H2 : T2 <> TVoid) by (intros ->; rewrite returned_void in H; auto; discriminate).
    rewrite returned_spec in H; auto. destruct (ovalue_ok _ _ _ _ _) eqn:Ho; [discriminate|].
    destruct (_ || _) eqn:Hor; [|discriminate]. injection H as <-. unfold orvalue_ok, oconst_ok in Hor.
    apply orb_prop in Hor as [[Hb Hu]%andb_prop|[Hb Hu]%andb_prop]; auto 9.
  - intros (-> & Hn & H1 & H2 & Hu & Hb). rewrite returned_spec; auto.
    destruct (ovalue_ok builds is_bool lwg T T2) eqn:Ho; [rewrite (exclusive _ _ Ho) in Hu; discriminate|].
    unfold orvalue_ok, oconst_ok. rewrite Hu, !andb_true_r. destruct Hb as [-> | ->]; [reflexivity|]. now rewrite orb_true_r.
Qed.

(** Everything else is an error. *)
Theorem C77_error T T2 : returned T T2 = None <->
  T <> T2 /\ (T = TVoid \/ T2 = TVoid \/
    ((excepted T \/ builds T (rvalue (TOpt T2)) = false) /\
     ((~ excepted T /\ knows_optional T T2) \/ (builds T (rvalue T2) = false /\ builds T (const_lvalue T2) = false)))).
Proof.
  split.
  - intros H. destruct (ty_eqb T T2) eqn:He; [unfold CustomConv.returned in H; rewrite He in H; discriminate|].
    assert (Hn : T <> T2) by (intros ->; rewrite ty_eqb_refl in He; discriminate).
    split; auto. destruct (is_void T) eqn:H1; [destruct T; try discriminate; auto|].
    destruct (is_void T2) eqn:H2; [destruct T2; try discriminate; auto|].
    rewrite returned_spec in H; auto; [|now intros ->|now intros ->]. right. right.
    destruct (ovalue_ok _ _ _ _ _) eqn:Ho; [discriminate|]. destruct (_ || _) eqn:Hor; [discriminate|]. split.
    + unfold ovalue_ok in Ho. apply andb_false_iff in Ho as [Ho|Ho]; auto. apply negb_false_iff, exempt_excepted in Ho. auto.
    + unfold orvalue_ok, oconst_ok in Hor. destruct (unwraps builds turns_into is_bool lwg T T2) eqn:Hu.
      * rewrite !andb_true_r in Hor. apply orb_false_iff in Hor. now right.
      * left. unfold unwraps in Hu. apply orb_false_iff in Hu as [Hu Hu']. apply negb_false_iff in Hu'. split; [|now apply any_knows].
        rewrite <- exempt_excepted. now rewrite Hu.
  - intros (Hn & [Hv|[Hv|(H1 & H2)]]); [apply returned_void; auto|apply returned_void; auto|].
    destruct (is_void T) eqn:Hv1; [destruct T; try discriminate; apply returned_void; auto|].
    destruct (is_void T2) eqn:Hv2; [destruct T2; try discriminate; apply returned_void; auto|].
    rewrite returned_spec; auto; [|now intros ->|now intros ->].
    assert (ovalue_ok builds is_bool lwg T T2 = false) as ->.
    { unfold ovalue_ok. destruct H1 as [H1| ->]; auto. apply exempt_excepted in H1. rewrite H1. apply andb_false_r. }
    unfold orvalue_ok, oconst_ok. destruct H2 as [[He Hk]|[-> ->]]; auto.
    destruct (unwraps builds turns_into is_bool lwg T T2) eqn:Hu; [apply unwraps_ok in Hu; tauto|]. now rewrite !andb_false_r.
Qed.

(** ** result_type = bool

    Every optional has an explicit conversion to bool, so bool can be made from one. *)
Theorem C77_bool T T2 : is_bool T = true -> T <> TVoid -> T2 <> TVoid -> T <> T2 ->
  (forall t, builds T (rvalue (TOpt t)) = true) ->
  (lwg = false -> returned T T2 = Some (ConvWhole T)) /\
  (lwg = true -> builds T (rvalue T2) = false -> builds T (const_lvalue T2) = false -> returned T T2 = None) /\
  (lwg = true -> builds T (rvalue T2) = true -> returned T T2 = Some (ConvElem T)).
Proof.
  intros Hb H1 H2 Hn Ho. split; [|split].
  - intros Hl. apply C77_whole. repeat split; auto. unfold excepted. rewrite Hl. intros [? _]. discriminate.
  - intros Hl Hx Hy. apply C77_error. split; auto. right. right. split; [left; split; auto|]. right. auto.
  - intros Hl Hx. apply C77_elem. repeat split; auto. left. split; auto.
Qed.

(** ** In a program *)
Context {T V : Type} (E : env T V).

(** The program's constructions are those of the language, and its custom parsers return as
    custom.h:46 does. *)
Definition returns_by_the_rules : Prop :=
  (forall t a, builds t (rvalue a) = ct_ok E t [a]) /\
  forall c, exists tb, result_for E (cust_body E c) = Some tb /\ returned (cust_ty E c) tb = Some (cust_conv E c).

(** Then the conditions on custom parsers that the other theorems assume hold by themselves,
    but for types that can be converted from const lvalues only. *)
Theorem C77_customs : returns_by_the_rules ->
  (forall t a, builds t (const_lvalue a) = true -> builds t (rvalue a) = true) ->
  (forall m c, compiles E m (cust_body E c) = true) ->
  (forall c, cust_ty E c = TVoid \/ ty_ok (cust_ty E c) = true) -> env_customs E.
Proof.
  intros [Hb Hc] Hcl Hm Ht. constructor; auto. intros c. destruct (Hc c) as (tb & Htb & Hr).
  destruct (cust_conv E c) as [|t|t].
  - apply C77_same in Hr. now rewrite Hr.
  - apply C77_elem in Hr as (-> & Hn & H1 & H2 & _ & Hx). split; auto. split; auto. exists tb. split; auto. split; auto.
    rewrite <- Hb. destruct Hx; auto.
  - apply C77_whole in Hr as (-> & Hn & H1 & H2 & Hx & _). split; auto. split; auto. exists tb. split; auto. split; auto.
    now rewrite <- Hb.
Qed.

(** A declared type that cannot be made from the optional (or is bool where that is excepted)
    keeps the verdict of get_parser(); *)
Theorem C77_keeps_verdict c i r tr : returns_by_the_rules -> valid E i ->
  (forall tb, result_for E (cust_body E c) = Some tb -> builds (cust_ty E c) (rvalue (TOpt tb)) = false \/ excepted (cust_ty E c)) ->
  evals E Parse (PCustom c) i (Done r tr) ->
  exists r' tr', evals E Parse (cust_body E c) i (Done r' tr') /\ r_rem r' = r_rem r /\ (r_ok r' = None <-> r_ok r = None).
Proof.
  intros [_ Hc] Hv Hb H. destruct (Hc c) as (tb & Htb & Hr). specialize (Hb tb Htb). apply evals_big in H; auto.
  inversion H; subst.
  - exists r, tr. split; [now apply evals_big|]. tauto.
  - eexists _, _. split; [apply evals_big; eauto|]. split; auto. split; discriminate.
  - eexists _, _. split; [apply evals_big; eauto|]. split; auto. tauto.
  - exfalso. match goal with Hw : cust_conv E c = ConvWhole _ |- _ => rewrite Hw in Hr end.
    apply C77_whole in Hr as (-> & _ & _ & _ & Hx & Hy). destruct Hb; congruence || tauto.
  - exfalso. match goal with Hw : cust_conv E c = ConvWhole _ |- _ => rewrite Hw in Hr end.
    apply C77_whole in Hr as (-> & _ & _ & _ & Hx & Hy). destruct Hb; congruence || tauto.
Qed.

(** one that can never fails, whatever the input: what get_parser() refuses becomes a success
    that consumes nothing. *)
Theorem C77_never_fails c tb i r tr : returns_by_the_rules -> valid E i ->
  result_for E (cust_body E c) = Some tb -> cust_ty E c <> tb -> tb <> TVoid -> cust_ty E c <> TVoid ->
  builds (cust_ty E c) (rvalue (TOpt tb)) = true -> ~ excepted (cust_ty E c) ->
  evals E Parse (PCustom c) i (Done r tr) ->
  r_ok r <> None /\ forall tr', refuses E Parse (cust_body E c) i tr' -> r_rem r = i.
Proof.
  intros [_ Hc] Hv Htb Hn Hv1 Hv2 Hb He H. destruct (Hc c) as (tb' & Htb' & Hr). assert (tb' = tb) by congruence. subst tb'.
  rewrite (proj2 (C77_whole (cust_ty E c) tb (cust_ty E c))) in Hr by auto 9. injection Hr as Hr. symmetry in Hr.
  apply (C35_custom_whole E c _ i r tr Hr Hv) in H as (x & w & rem & tr0 & -> & _ & _ & Hx). split; [discriminate|].
  intros tr' Href. cbn. destruct x as [y|]; [|apply Hx].
  pose proof (evals_det E _ _ _ _ _ Hx Href). discriminate.
Qed.
End C77.

(** ** Case: [using result_type = bool;] and a parser of the letter a

    TUser 0 plays bool; bool can be made from an optional, not from a span. *)
Definition bx_builds (t : ty) (a : arg) : bool :=
  match t, a_type a with TUser 0, TOpt _ => true | TUser 0, TUser 0 => true | _, _ => false end.
Definition bx_turns (t : ty) (a : arg) : bool := match t, a_type a with TUser 0, TUser 0 => true | _, _ => false end.
Definition bx_bool (t : ty) : bool := match t with TUser 0 => true | _ => false end.
Definition bx : env nat nat := {|
  eqv := Nat.eqb;
  mem := fun b => match b with 1 => codes "ba" | _ => [] end;
  fn_ret := fun _ _ => None;
  fn_app := fun _ _ => FIll;
  ct_ok := fun t l => match t, l with TUser 0, [TOpt _] => true | TUser 0, [TUser 0] => true | _, _ => false end;
  ct_app := fun t l => match l with
                       | [VOpt o] => FRet (RVal (sx_bool (match o with Some _ => true | None => false end)))
                       | [VUser 0 l] => FRet (RVal (VUser 0 l))
                       | _ => FIll end;
  k_ty := fun _ => TUser 0;
  k_val := fun _ => sx_bool true;
  bool_ok := fun t => bx_bool t;
  as_bool := fun v => match v with VUser 0 [VZ z] => negb (z =? 0)%Z | _ => false end;
  cust_body := fun _ => PAllOf (codes "a");
  cust_ty := fun _ => TUser 0;
  cust_conv := fun _ => ConvWhole (TUser 0)
|}.

Lemma bx_rules : returns_by_the_rules bx_builds bx_turns bx_bool false bx.
Proof.
  split.
  - intros t a. destruct t as [| | | | | | | |[|n]]; try reflexivity; destruct a as [| | | | | | | |[|m]]; reflexivity.
  - intros c. exists TSpan. split; reflexivity.
Qed.

(** The parse of "ba" succeeds with the value false, the lookahead fails.  With the change of
    LWG 3836 the program does not compile. *)
Example C77_case :
  evals bx Look (PCustom 0) (Span 1 0 2) (Done (Res None (Span 1 0 2)) []) /\
  evals bx Parse (PCustom 0) (Span 1 0 2)
    (Done (Res (Some (RVal (sx_bool false))) (Span 1 0 2)) [EInvoke (FConstruct (TUser 0)) [VOpt None]]) /\
  returned bx_builds bx_turns bx_bool false (TUser 0) TSpan = Some (ConvWhole (TUser 0)) /\
  returned bx_builds bx_turns bx_bool true (TUser 0) TSpan = None.
Proof. split; [runs 4|]. split; [runs 4|]. split; reflexivity. Qed.

(** A class made from the value, one made from anything, one made from const lvalues only *)
Example C77_case_types :
  returned (fun t a => match a_type a with TSpan => true | _ => false end) (fun _ _ => false) bx_bool false (TUser 1) TSpan = Some (ConvElem (TUser 1)) /\
  returned (fun t a => true) (fun _ _ => true) bx_bool false (TUser 1) TSpan = Some (ConvWhole (TUser 1)) /\
  returned (fun t a => match a with Arg true true TSpan => true | _ => false end) (fun _ _ => false) bx_bool false (TUser 1) TSpan = Some (ConvElem (TUser 1)) /\
  returned (fun t a => match a with Arg false true _ => true | Arg _ _ TSpan => true | _ => false end) (fun _ _ => false) bx_bool false (TUser 1) TSpan = None /\
  (forall b c d l, returned b c d l TVoid TSpan = None) /\ (forall b c d l, returned b c d l TSpan TVoid = None).
Proof. repeat split; reflexivity. Qed.

Example C77_case_customs : env_customs bx.
Proof.
  apply (C77_customs bx_builds bx_turns bx_bool false bx bx_rules).
  - intros t a. exact (fun H => H).
  - intros m c. destruct m; reflexivity.
  - intros c. auto.
Qed.

Print Assumptions C77_no_tie.
Print Assumptions C77_same.
Print Assumptions C77_whole.
Print Assumptions C77_elem.
Print Assumptions C77_error.
Print Assumptions C77_bool.
Print Assumptions C77_customs.
Print Assumptions C77_keeps_verdict.
Print Assumptions C77_never_fails.
