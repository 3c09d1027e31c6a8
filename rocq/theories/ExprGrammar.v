(** * C48, C49: the language and the meaning of algebraic expressions *)
From Coq Require Import String List Arith ZArith QArith Bool Lia.
From Verif Require Import Types Compound Parser Outcome CompoundFacts Exec Mono Derive Typing Join Leaves Sound
  BigStep BigSound BigComplete Peg Elems Runs Samples PropCore PropPeg Lossless Agree Check PropAgree Grammar CharPeg Names PropNames Term PropTerm
  StaticArray Operators PropSets Modifiers ExJson Shape ExAlgebraic PropAlgebraic.
Import ListNotations.
Local Open Scope nat_scope.

(** ** The documented grammar, parser.h:13-27

    [bnf k t]: the rules of the comment, [{ }] being one or more and [[ ]] optional. *)
Definition is_blank (c : nat) : Prop := c = 32 \/ c = 9 \/ c = 10 \/ c = 13.
Definition blank (w : list nat) : Prop := Forall is_blank w.

(** The operators and operands of the three chains. *)
Definition ops (k : kind) : list nat := match k with KExpr => [43; 45] | KTerm => [42; 47] | KFactor => [94] | _ => [] end.
Definition operand (k : kind) : kind := match k with KExpr => KTerm | KTerm => KFactor | _ => KPowterm end.
Definition chained (k : kind) : Prop := k = KFactor \/ k = KTerm \/ k = KExpr.

Inductive bnf : kind -> list nat -> Prop :=
| bnf_number ds fs es : literal ds fs es -> bnf KPowterm (literal_text ds fs es)
| bnf_bracketed w t w' : blank w -> bnf KExpr t -> blank w' -> bnf KPowterm (40 :: w ++ t ++ w' ++ [41])
| bnf_negated w t : blank w -> bnf KExpr t -> bnf KPowterm (45 :: w ++ t)
| bnf_chain k w t u : chained k -> blank w -> bnf (operand k) t -> bnf_more k u -> bnf k (w ++ t ++ u)
with bnf_more : kind -> list nat -> Prop :=
| bnf_nil k : bnf_more k []
| bnf_cons k w c w' t u : blank w -> In c (ops k) -> blank w' -> bnf (operand k) t -> bnf_more k u -> bnf_more k (w ++ c :: w' ++ t ++ u).

Inductive bnf_input : list nat -> Prop :=
| bnf_whole w t w' : blank w -> bnf KExpr t -> blank w' -> bnf_input (w ++ t ++ w').

Scheme bnf_ind2 := Induction for bnf Sort Prop with bnf_more_ind2 := Induction for bnf_more Sort Prop.
Combined Scheme bnf_mut from bnf_ind2, bnf_more_ind2.

(** ** What a text means

    The documented grammar is ambiguous: -1+2 is (-1)+2 or -(1+2).  [spells o k a t] settles
    it: a negation extends as far as it can.  [o] tells that the text ends with a negated
    expression, after which no operator may follow.  [+ - * /] associate to the left
    ([tail], with the value so far), [^] to the right. *)
Inductive ast : Type :=
| ANum (ds : list nat) (fs : option (list nat)) (es : option (bool * list nat))
| ANeg (a : ast)
| ABracket (a : ast)
| ABin (c : nat) (a b : ast).

Inductive spells : bool -> kind -> ast -> list nat -> Prop :=
| sp_number ds fs es : literal ds fs es -> spells false KPowterm (ANum ds fs (option_map (fun x => (snd (fst x), snd x)) es)) (literal_text ds fs es)
| sp_bracketed o a w t w' : blank w -> spells o KExpr a t -> blank w' -> spells false KPowterm (ABracket a) (40 :: w ++ t ++ w' ++ [41])
| sp_negated o a w t : blank w -> spells o KExpr a t -> spells true KPowterm (ANeg a) (45 :: w ++ t)
| sp_power_one o a t : spells o KPowterm a t -> spells o KFactor a t
| sp_power o a b t w w' u : spells false KPowterm a t -> blank w -> blank w' -> spells o KFactor b u ->
    spells o KFactor (ABin 94 a b) (t ++ w ++ 94 :: w' ++ u)
| sp_left k p o a r t u : k = KTerm \/ k = KExpr -> spells p (operand k) a t -> tail p o k a r u -> spells o k r (t ++ u)
with tail : bool -> bool -> kind -> ast -> ast -> list nat -> Prop :=
| tl_nil p k a : tail p p k a a []
| tl_cons p o k a b r w c w' t u : blank w -> In c (ops k) -> blank w' -> spells p (operand k) b t -> tail p o k (ABin c a b) r u ->
    tail false o k a r (w ++ c :: w' ++ t ++ u).

Inductive spells_input : ast -> list nat -> Prop :=
| sp_whole o a w t w' : blank w -> spells o KExpr a t -> blank w' -> spells_input a (w ++ t ++ w').

Scheme spells_ind2 := Induction for spells Sort Prop with tail_ind2 := Induction for tail Sort Prop.
Combined Scheme spells_mut from spells_ind2, tail_ind2.

(** The number it denotes, given the arithmetic; for literals see C41. *)
Section Value.
Context (F : doubles).
Definition literal_value (ds : list nat) (fs : option (list nat)) (es : option (bool * list nat)) : option (dbl F) :=
  match d_from F (ds ++ fraction_text fs), es with
  | Some m, None => Some m
  | Some m, Some (neg, xs) =>
      let z := (if neg : bool then - decimal xs else decimal xs)%Z in
      if fits_int z then Some (d_pow F m (d_int F z)) else None
  | None, _ => None
  end.
Definition binary (c : nat) (x y : dbl F) : option (dbl F) :=
  match c with
  | 43 => Some (d_add F x y) | 45 => Some (d_sub F x y) | 42 => Some (d_mul F x y) | 47 => Some (d_div F x y)
  | 94 => Some (d_pow F x y) | _ => None
  end.
Fixpoint value (a : ast) : option (dbl F) :=
  match a with
  | ANum ds fs es => literal_value ds fs es
  | ANeg a => option_map (d_neg F) (value a)
  | ABracket a => value a
  | ABin c a b => match value a, value b with Some x, Some y => binary c x y | _, _ => None end
  end.
End Value.

(** ** Both grammars have the same texts *)
Definition all_ops : list nat := [43; 45; 42; 47; 94].
Lemma ops_all k c : In c (ops k) -> In c all_ops.
Proof. destruct k; cbn; intuition. Qed.

(** Operators and operands in a row. *)
Inductive flat : list nat -> Prop :=
| fl_atom t : atom t -> flat t
| fl_neg w t : blank w -> flat t -> flat (45 :: w ++ t)
| fl_more t w c w' u : atom t -> blank w -> In c all_ops -> blank w' -> flat u -> flat (t ++ w ++ c :: w' ++ u)
with atom : list nat -> Prop :=
| at_number ds fs es : literal ds fs es -> atom (literal_text ds fs es)
| at_bracketed w t w' : blank w -> flat t -> blank w' -> atom (40 :: w ++ t ++ w' ++ [41]).
Scheme flat_ind2 := Induction for flat Sort Prop with atom_ind2 := Induction for atom Sort Prop.
Combined Scheme flat_mut from flat_ind2, atom_ind2.

Ltac app_norm := cbn [app]; repeat rewrite <- ?app_assoc; cbn [app]; repeat rewrite <- ?app_assoc; cbn [app].

Lemma flat_app t u w c w' : flat t -> blank w -> In c all_ops -> blank w' -> flat u -> flat (t ++ w ++ c :: w' ++ u).
Proof.
  intros Ht Hw Hc Hw' Hu. induction Ht as [t Ht|w0 t Hw0 Ht IH|t w0 c0 w1 u0 Ht Hw0 Hc0 Hw1 Hu0 IH].
  - now apply fl_more.
  - app_norm. now apply fl_neg.
  - app_norm. now apply fl_more.
Qed.

Lemma bnf_flat :
  (forall k t, bnf k t -> exists w t', t = w ++ t' /\ blank w /\ flat t') /\
  (forall k u, bnf_more k u -> forall t, flat t -> flat (t ++ u)).
Proof.
  apply bnf_mut.
  - intros ds fs es H. exists [], (literal_text ds fs es). split; auto. split; [constructor|]. now apply fl_atom, at_number.
  - intros w t w' Hw _ (w0 & t0 & -> & Hw0 & Ht) Hw'. eexists [], _. split; [reflexivity|]. split; [constructor|].
    apply fl_atom. rewrite app_assoc_reverse, app_assoc. apply at_bracketed; auto. now apply Forall_app.
  - intros w t Hw _ (w0 & t0 & -> & Hw0 & Ht). eexists [], _. split; [reflexivity|]. split; [constructor|].
    rewrite app_assoc. apply fl_neg; auto. now apply Forall_app.
  - intros k w t u Hk Hw _ (w0 & t0 & -> & Hw0 & Ht) _ Hu. exists (w ++ w0), (t0 ++ u). split; [now app_norm|].
    split; [now apply Forall_app|auto].
  - intros k t Ht. now rewrite app_nil_r.
  - intros k w c w' t u Hw Hc Hw' _ (w0 & t0 & -> & Hw0 & Ht) _ Hu t1 Ht1.
    replace (t1 ++ w ++ c :: w' ++ (w0 ++ t0) ++ u) with ((t1 ++ w ++ c :: (w' ++ w0) ++ t0) ++ u) by now app_norm.
    apply Hu. apply flat_app; auto; [eapply ops_all; eauto|now apply Forall_app].
Qed.

(** Only the value depends on what is to the left. *)
Lemma tail_acc p o k a r u : tail p o k a r u -> forall a', exists r', tail p o k a' r' u.
Proof.
  induction 1 as [p k a|p o k a b r w c w' t u Hw Hc Hw' Hb Ht IH]; intros a'.
  - exists a'. constructor.
  - destruct (IH (ABin c a' b)) as [r' H]. exists r'. econstructor; eauto.
Qed.

Lemma spells_left_inv k o r t : spells o k r t -> k = KTerm \/ k = KExpr ->
  exists p a t0 u, t = t0 ++ u /\ spells p (operand k) a t0 /\ tail p o k a r u.
Proof. intros H Hk. destruct H; try (destruct Hk; discriminate). eauto 8. Qed.

Lemma prepend a t w c w' o r u : spells false KPowterm a t -> blank w -> In c all_ops -> blank w' -> spells o KExpr r u ->
  exists r', spells o KExpr r' (t ++ w ++ c :: w' ++ u).
Proof.
  intros Ha Hw Hc Hw' Hr.
  apply spells_left_inv in Hr as (p & a0 & t0 & u0 & -> & H0 & T0); auto.
  assert (Hcase : (exists p a1, spells p KTerm a1 (t ++ w ++ c :: w' ++ t0) /\ exists r', tail p o KExpr a1 r' u0) \/ In c [43; 45]).
  { destruct Hc as [<-|[<-|Hc]]; try (right; cbn; tauto). left.
    apply spells_left_inv in H0 as (p1 & a1 & t1 & u1 & -> & H1 & T1); auto.
    assert (Hcase : (exists a2, spells p1 KFactor a2 (t ++ w ++ c :: w' ++ t1)) \/ In c [42; 47]).
    { destruct Hc as [<-|[<-|[<-|[]]]]; try (right; cbn; tauto). left. eexists. apply sp_power; eauto. }
    destruct Hcase as [(a2 & H2)|Hc2].
    - destruct (tail_acc _ _ _ _ _ _ T1 a2) as [r1 T1']. destruct (tail_acc _ _ _ _ _ _ T0 r1) as [r0 T0'].
      exists p, r1. split; [|eauto]. replace (t ++ w ++ c :: w' ++ t1 ++ u1) with ((t ++ w ++ c :: w' ++ t1) ++ u1) by now app_norm.
      eapply sp_left; eauto.
    - destruct (tail_acc _ _ _ _ _ _ T1 (ABin c a a1)) as [r1 T1']. destruct (tail_acc _ _ _ _ _ _ T0 r1) as [r0 T0'].
      exists p, r1. split; [|eauto]. eapply sp_left; [auto|apply sp_power_one; eauto|]. eapply tl_cons; eauto. }
  destruct Hcase as [(p1 & a1 & H1 & r1 & T1)|Hc1].
  - exists r1. replace (t ++ w ++ c :: w' ++ t0 ++ u0) with ((t ++ w ++ c :: w' ++ t0) ++ u0) by now app_norm. eapply sp_left; eauto.
  - destruct (tail_acc _ _ _ _ _ _ T0 (ABin c a a0)) as [r0 T0']. exists r0.
    eapply sp_left; [auto| |eapply tl_cons; eauto].
    rewrite <- (app_nil_r t). eapply sp_left; [auto|apply sp_power_one; eauto|constructor].
Qed.

Lemma spells_up o a t : spells o KPowterm a t -> spells o KExpr a t.
Proof.
  intros H. rewrite <- (app_nil_r t). eapply sp_left; [auto| |constructor].
  rewrite <- (app_nil_r t). eapply sp_left; [auto| |constructor]. now apply sp_power_one.
Qed.

Lemma flat_spells :
  (forall t, flat t -> exists o a, spells o KExpr a t) /\ (forall t, atom t -> exists a, spells false KPowterm a t).
Proof.
  apply flat_mut.
  - intros t _ [a H]. exists false, a. now apply spells_up.
  - intros w t Hw _ (o & a & H). exists true, (ANeg a). apply spells_up. eapply sp_negated; eauto.
  - intros t w c w' u _ [a H] Hw Hc Hw' _ (o & b & Hb). exists o. eapply prepend; eauto.
  - intros ds fs es H. eexists. now apply sp_number.
  - intros w t w' Hw _ (o & a & H) Hw'. exists (ABracket a). eapply sp_bracketed; eauto.
Qed.

Lemma bnf_more_app k u v : bnf_more k u -> bnf_more k v -> bnf_more k (u ++ v).
Proof. induction 1; cbn; auto. intros. app_norm. constructor; auto. Qed.

Lemma spells_bnf :
  (forall o k a t, spells o k a t -> bnf k t) /\ (forall p o k a r u, tail p o k a r u -> bnf_more k u).
Proof.
  apply spells_mut.
  - intros. now apply bnf_number.
  - intros. now apply bnf_bracketed.
  - intros. now apply bnf_negated.
  - intros o a t _ H. rewrite <- (app_nil_r t). apply (bnf_chain KFactor []); [now left|constructor|auto|constructor].
  - intros o a b t w w' u _ Ha Hw Hw' _ Hu. apply (bnf_chain KFactor []); [now left|constructor|auto|].
    inversion Hu; subst. rewrite app_assoc. apply bnf_cons; auto; [now left|now apply Forall_app].
  - intros k p o a r t u Hk _ Ht _ Hu. apply (bnf_chain k []); auto; [right; destruct Hk; auto|constructor].
  - constructor.
  - intros. now constructor.
Qed.

(** The documented grammar has exactly the texts that have a meaning. *)
Lemma bnf_meaning t : bnf_input t <-> exists a, spells_input a t.
Proof.
  split.
  - intros [w t0 w' Hw Ht Hw']. destruct (proj1 bnf_flat _ _ Ht) as (w0 & t1 & -> & Hw0 & Hf).
    destruct (proj1 flat_spells _ Hf) as (o & a & Ha). exists a.
    rewrite <- app_assoc, app_assoc. econstructor; eauto. now apply Forall_app.
  - intros (a & [o a' w t0 w' Hw Ht Hw']). constructor; auto. eapply spells_bnf; eauto.
Qed.

Section Parser.
Context (memory : nat -> list nat).
Notation A := (alg_env memory).
Notation region := (region_text memory).

(** ** What the parser accepts is in the documented grammar *)
Definition sorted (cs : list nat) : list nat := sort_and_unique nat_order (isort nat_order) cs.

Lemma blank_spec c : In c (sorted [9; 10; 13; 32]) <-> is_blank c.
Proof.
  change (sorted [9; 10; 13; 32]) with [9; 10; 13; 32]. unfold is_blank. cbn. intuition.
Qed.

Lemma region_nil b o : region b o o = [].
Proof. unfold region_text, view. now replace (o - o) with 0 by lia. Qed.

Lemma any_derives b m cs lo hi v : derives A b m (anyl cs) lo hi v -> hi = S lo /\ exists c, In c (sorted cs) /\ region b lo hi = [c].
Proof.
  intros H. inversion H; subst. match goal with H : exists t, _ |- _ => destruct H as (t & Ht & He) end. apply Nat.eqb_eq in He. subst.
  split; auto. exists c. split; auto. now apply region_one.
Qed.

Lemma blanks_chain b m n : forall lo hi vs, dchain A b (repeat (m, anyl [9; 10; 13; 32]) n) lo hi vs -> lo <= hi /\ blank (region b lo hi).
Proof.
  induction n as [|n IH]; intros lo hi vs H; cbn in H; inversion H as [|? ? ? ? ? ? ? ? Hd Hc]; subst.
  - split; auto. rewrite region_nil. constructor.
  - apply any_derives in Hd as (-> & c & Hin & Hr). destruct (IH _ _ _ Hc) as [L HF]. split; [lia|].
    rewrite (region_app memory b lo (S lo)) by lia. apply Forall_app. split; auto. rewrite Hr. constructor; auto. now apply blank_spec.
Qed.

Lemma ws_derives b m lo hi v : derives A b m ws lo hi v -> lo <= hi /\ blank (region b lo hi).
Proof.
  intros H. inversion H; subst. match goal with H : derives _ _ Look _ _ _ _ |- _ => inversion H; subst end. eapply blanks_chain; eauto.
Qed.

Lemma seq_two b m p q lo hi v : derives A b m (PSequence p [q]) lo hi v ->
  exists mid m1 m2 v1 v2, derives A b m1 p lo mid v1 /\ derives A b m2 q mid hi v2.
Proof.
  intros H. inversion H; subst.
  - match goal with H : dchain _ _ _ _ _ _ |- _ => rename H into Hc end.
    match goal with H : result_fors _ _ = Some ?t |- _ => apply all_some_spec in H; cbn in H; destruct t as [|t1 [|t2 [|]]]; try discriminate end.
    cbn in Hc. inversion Hc; subst. match goal with H : dchain _ _ [_] _ _ _ |- _ => inversion H; subst end.
    match goal with H : dchain _ _ [] _ _ _ |- _ => inversion H; subst end. eauto 10.
  - match goal with H : dchain _ _ _ _ _ _ |- _ => rename H into Hc end.
    cbn in Hc. inversion Hc; subst. match goal with H : dchain _ _ [_] _ _ _ |- _ => inversion H; subst end.
    match goal with H : dchain _ _ [] _ _ _ |- _ => inversion H; subst end. eauto 10.
Qed.

Lemma delimiter_derives b m cs lo hi v : derives A b m (delimiter cs) lo hi v ->
  lo < hi /\ exists w c, region b lo hi = w ++ [c] /\ blank w /\ In c (sorted cs).
Proof.
  intros H. apply seq_two in H as (mid & m1 & m2 & v1 & v2 & H1 & H2).
  apply ws_derives in H1 as [L1 B1].
  assert (Ha : exists m v, derives A b m (anyl cs) mid hi v) by (inversion H2; subst; eauto).
  destruct Ha as (m3 & v3 & Ha). apply any_derives in Ha as (-> & c & Hin & Hr). split; [lia|].
  exists (region b lo mid), c. split; auto. rewrite (region_app memory b lo mid) by lia. now rewrite Hr.
Qed.

Lemma ign_char b m c lo hi v : derives A b m (ign [c]) lo hi v -> hi = S lo /\ region b lo (S lo) = [c].
Proof. intros H. inversion H; subst. match goal with H : derives _ _ Look _ _ _ _ |- _ => destruct (one_char _ _ _ _ _ _ _ H) as (-> & ? & _) end. auto. Qed.

Ltac chain_inv := repeat match goal with
  | H : dchain _ _ (_ :: _) _ _ _ |- _ => inversion H; subst; clear H
  | H : dchain _ _ [] _ _ _ |- _ => inversion H; subst; clear H
  | H : kept (_ :: _) _ _ |- _ => inversion H; subst; clear H
  | H : kept [] _ _ |- _ => inversion H; subst; clear H
  | H : TVoid <> TVoid |- _ => now destruct H
  end.
Ltac seq_inv :=
  match goal with H : derives _ _ _ (PSequence _ _) _ _ _ |- _ => inversion H; subst; clear H end;
  match goal with H : result_fors _ _ = Some _ |- _ => vm_compute in H; injection H as <- end;
  match goal with H : dchain _ _ _ _ _ _ |- _ => cbn [parts map part_mode is_void combine] in H end; chain_inv.

(** The chains, given that their operands are in the grammar. *)
Lemma chain_bnf b m k cs q d n : chained k ->
  (forall c, In c (sorted cs) -> In c (ops k)) ->
  (forall lo hi v, derives A b m d lo hi v -> exists m v, derives A b m (delimiter cs) lo hi v) ->
  forall lo0 hi0, (forall lo hi v, lo0 <= lo -> hi <= hi0 -> derives A b m q lo hi v -> exists w t, region b lo hi = w ++ t /\ blank w /\ bnf (operand k) t) ->
  forall lo hi vs, lo0 <= lo -> hi <= hi0 -> dchain A b (delim_parts m q d n) lo hi vs ->
  lo <= hi /\ exists w t u, region b lo hi = w ++ t ++ u /\ blank w /\ bnf (operand k) t /\ bnf_more k u.
Proof.
  intros Hk Hcs Hd lo0 hi0 Hq. unfold delim_parts. induction n as [|n IH]; intros lo hi vs Hlo Hhi H; cbn in H; inversion H as [|? ? ? ? ? ? ? ? H1 H2]; subst.
  - inversion H2; subst. pose proof (proj1 (derives_le A b) _ _ _ _ _ H1). apply Hq in H1 as (w & t & Hr & Hw & Ht); auto.
    split; auto. exists w, t, []. rewrite app_nil_r. repeat split; auto. constructor.
  - inversion H2 as [|? ? ? ? ? ? ? ? H3 H4]; subst.
    pose proof (proj1 (derives_le A b) _ _ _ _ _ H1). pose proof (proj2 (derives_le A b) _ _ _ _ H4).
    apply Hd in H3 as (m3 & v3 & H3). apply delimiter_derives in H3 as (L3 & w3 & c & R3 & B3 & C3).
    edestruct IH as (L4 & w4 & t4 & u4 & R4 & B4 & T4 & U4); [| |exact H4|]; [lia|lia|].
    apply Hq in H1 as (w & t & Hr & Hw & Ht); [|lia|lia].
    split; [lia|]. exists w, t, (w3 ++ c :: w4 ++ t4 ++ u4).
    rewrite (region_app memory b lo mid), (region_app memory b mid mid0) by lia. rewrite Hr, R3, R4.
    repeat split; auto; [now app_norm|]. constructor; auto.
Qed.

(** An operand of a chain: blanks before it. *)
Lemma operand_bnf b c k lo hi v : (forall lo' v', lo <= lo' -> derives A b Parse (PCustom c) lo' hi v' -> bnf k (region b lo' hi)) ->
  derives A b Parse (seqp ws (PCustom c)) lo hi v -> alg_ty c <> TVoid ->
  exists w t, region b lo hi = w ++ t /\ blank w /\ bnf k t.
Proof.
  intros Hk H Ht. inversion H; subst. match goal with H : result_fors _ _ = Some _ |- _ => cbn in H; injection H as <- end.
  match goal with H : dchain _ _ _ _ _ _ |- _ => rename H into Hc end.
  inversion Hc as [|? ? ? ? ? ? ? ? H1 X2]; subst. inversion X2 as [|? ? ? ? ? ? ? ? H3 X4]; subst. inversion X4; subst.
  apply ws_derives in H1 as [L1 B1].
  unfold part_mode in H3. apply is_void_false in Ht. rewrite Ht in H3. pose proof (proj1 (derives_le A b) _ _ _ _ _ H3).
  exists (region b lo mid), (region b mid hi). split; [now apply region_app|]. split; auto. eapply Hk; eauto.
Qed.

Lemma derives_bnf b n : forall c k lo hi v, match c with 1 => k = KPowterm | 2 => k = KFactor | 3 => k = KTerm | 4 => k = KExpr | _ => False end ->
  10 * (hi - lo) + c < n -> derives A b Parse (PCustom c) lo hi v -> bnf k (region b lo hi).
Proof.
  induction n as [|n IH]; intros c k lo hi v Hc Hn H; [lia|].
  pose proof (proj1 (derives_le A b) _ _ _ _ _ H) as Hle.
  inversion H; subst; try discriminate. match goal with H : derives _ _ Parse (cust_body _ _) _ _ _ |- _ => rename H into Hb end. clear H.
  destruct c as [|[|[|[|[|c]]]]]; subst; try contradiction; cbn [cust_body alg_env alg_body] in Hb.
  - inversion Hb; subst. match goal with H : derives _ _ _ (PChoice _ _) _ _ _ |- _ => inversion H; subst; clear H end.
    + match goal with H : result_fors _ _ = Some _ |- _ => vm_compute in H; injection H as <- end.
      destruct j as [|[|[|[|j]]]];
        match goal with H : nth_error _ _ = Some p |- _ => cbn - [Pos.to_nat] in H; try discriminate H; injection H as <- end.
      * match goal with H : derives _ _ _ (PMap _ _) _ _ _ |- _ => inversion H; subst; clear H end. seq_inv.
        match goal with H : derives _ _ Look (ign [Pos.to_nat 40]) _ _ _ |- _ => apply (ign_char b _ 40) in H as [-> R1] end.
        match goal with H : derives _ _ Look (ign [Pos.to_nat 41]) _ _ _ |- _ => apply (ign_char b _ 41) in H as [-> R5] end.
        repeat match goal with H : derives _ _ Look (PIgnore _) _ _ _ |- _ => apply ws_derives in H as [? ?] end.
        match goal with H : derives _ _ Parse alg_expr _ _ _ |- _ => pose proof (proj1 (derives_le A b) _ _ _ _ _ H); apply (IH 4 KExpr) in H; [rename H into He|reflexivity|lia] end.
        rewrite (region_app memory b lo (S lo)), (region_app memory b (S lo) mid0), (region_app memory b mid0 mid1), (region_app memory b mid1 mid2), R1, R5 by lia.
        now apply bnf_bracketed.
      * match goal with H : derives _ _ _ (PMap _ _) _ _ _ |- _ => inversion H; subst; clear H end. seq_inv.
        match goal with H : derives _ _ Look (ign [Pos.to_nat 45]) _ _ _ |- _ => apply (ign_char b _ 45) in H as [-> R1] end.
        match goal with H : derives _ _ Look (PIgnore _) _ _ _ |- _ => apply ws_derives in H as [? ?] end.
        match goal with H : derives _ _ Parse alg_expr _ _ _ |- _ => pose proof (proj1 (derives_le A b) _ _ _ _ _ H); apply (IH 4 KExpr) in H; [rename H into He|reflexivity|lia] end.
        rewrite (region_app memory b lo (S lo)), (region_app memory b (S lo) mid0), R1 by lia.
        apply (bnf_negated (region b (S lo) mid0)); auto.
      * match goal with H : derives _ _ _ alg_number _ _ _ |- _ => inversion H; subst; try discriminate end.
        match goal with H : derives _ _ _ (cust_body _ 0) _ _ _ |- _ => apply number_derives in H as (ds & fs & es & x & _ & Hl & -> & _) end.
        now apply bnf_number.
    + match goal with H : result_fors _ _ = Some _ |- _ => vm_compute in H; injection H as <- end.
      destruct j as [|[|[|[|j]]]]; discriminate.
  - inversion Hb; subst.
    match goal with H : dchain _ _ _ _ _ _ |- _ => apply (chain_bnf b Parse KFactor (codes "^")) with (lo0 := lo) (hi0 := hi) in H as (_ & w & t & u & -> & Hw & Ht & Hu) end.
    + apply (bnf_chain KFactor); auto. now left.
    + now left.
    + vm_compute. auto.
    + intros lo' hi' v' Hd. inversion Hd; subst. eauto.
    + intros lo' hi' v' Hlo Hhi Hq. eapply operand_bnf; [|exact Hq|discriminate]. intros. eapply (IH 1); [reflexivity| |eassumption]. lia.
    + lia.
    + lia.
  - inversion Hb; subst.
    match goal with H : dchain _ _ _ _ _ _ |- _ => apply (chain_bnf b Parse KTerm (codes "*/")) with (lo0 := lo) (hi0 := hi) in H as (_ & w & t & u & -> & Hw & Ht & Hu) end.
    + apply (bnf_chain KTerm); auto. right. now left.
    + right. now left.
    + vm_compute. tauto.
    + eauto.
    + intros lo' hi' v' Hlo Hhi Hq. eapply operand_bnf; [|exact Hq|discriminate]. intros. eapply (IH 2); [reflexivity| |eassumption]. lia.
    + lia.
    + lia.
  - inversion Hb; subst.
    match goal with H : dchain _ _ _ _ _ _ |- _ => apply (chain_bnf b Parse KExpr (codes "+-")) with (lo0 := lo) (hi0 := hi) in H as (_ & w & t & u & -> & Hw & Ht & Hu) end.
    + apply (bnf_chain KExpr); auto. right. now right.
    + right. now right.
    + vm_compute. tauto.
    + eauto.
    + intros lo' hi' v' Hlo Hhi Hq. eapply operand_bnf; [|exact Hq|discriminate]. intros. eapply (IH 3); [reflexivity| |eassumption]. lia.
    + lia.
    + lia.
Qed.

(** ** What the parsed object says, and what evaluate makes of it *)
Inductive reads : kind -> val -> ast -> Prop :=
| rd_number ds fs es v : literal ds fs es -> number_object memory ds fs es v ->
    reads KPowterm (VUser 4 [VVar 2 v]) (ANum ds fs (option_map (fun x => (snd (fst x), snd x)) es))
| rd_bracketed v a : reads KExpr v a -> reads KPowterm (VUser 4 [VVar 0 (VUser 2 [v])]) (ABracket a)
| rd_negated v a : reads KExpr v a -> reads KPowterm (VUser 4 [VVar 1 (VUser 3 [v])]) (ANeg a)
| rd_one v a : reads KPowterm v a -> reads KFactor (VVec [v]) a
| rd_power v a vs b : reads KPowterm v a -> reads KFactor (VVec vs) b -> reads KFactor (VVec (v :: vs)) (ABin 94 a b)
| rd_left k v a vs ds r : k = KTerm \/ k = KExpr -> reads (operand k) v a -> reads_more k a vs ds r ->
    reads k (VPair (VVec (v :: vs)) (VVec ds)) r
with reads_more : kind -> ast -> list val -> list val -> ast -> Prop :=
| rm_nil k a : reads_more k a [] [] a
| rm_cons k a v b s c vs ds r : k = KTerm \/ k = KExpr -> reads (operand k) v b -> view memory s = [c] -> In c (ops k) ->
    reads_more k (ABin c a b) vs ds r -> reads_more k a (v :: vs) (VUser 0 [VSpan s] :: ds) r.
Scheme reads_ind2 := Induction for reads Sort Prop with reads_more_ind2 := Induction for reads_more Sort Prop.
Combined Scheme reads_mut from reads_ind2, reads_more_ind2.

Section Eval.
Context (F : doubles).
Notation D := (dbl F).
Definition agrees (e : eres D) (o : option D) : Prop := match o with Some d => e = EVal d | None => forall d, e <> EVal d end.
Definition switch (k : kind) := match k with KExpr => expr_switch F | _ => term_switch F end.

Lemma right_chain_cons x l : l <> [] ->
  right_chain F (x :: l) = match right_chain F l with EVal r => match x with EVal d => EVal (d_pow F d r) | _ => x end | e => e end.
Proof.
  intros Hl. unfold right_chain. cbn [rev].
  assert (Hp : forall o l', power_loop F o (l' ++ [x]) =
    match power_loop F o l' with EVal r => match x with EVal d => EVal (d_pow F d r) | _ => x end | e => e end).
  { intros o l'. revert o. induction l' as [|y l' IH]; intros o; cbn; [destruct x; reflexivity|]. destruct y; auto. }
  destruct (rev l) as [|y l'] eqn:Hr.
  - apply (f_equal (@rev _)) in Hr. rewrite rev_involutive in Hr. contradiction.
  - cbn. destruct y; auto.
Qed.

Lemma reads_value :
  (forall k v a, reads k v a -> agrees (evaluate memory F k v) (value F a)) /\
  (forall k a vs ds r, reads_more k a vs ds r ->
     match value F a with
     | Some x => agrees (operator_loop memory F (switch k) x (map (evaluate memory F (operand k)) vs) ds) (value F r)
     | None => value F r = None
     end).
Proof.
  apply reads_mut.
  - intros ds fs es v Hl (i & d & e & -> & Hi & Hd & He). 
    assert (Hw : forall o, as_view (option_map VSpan o) = Some o) by now intros [].
    cbn [evaluate value]. rewrite !Hw. unfold evaluate_number, literal_value. rewrite Hi.
    replace (match d with Some s => 46 :: view memory s | None => [] end) with (fraction_text fs) by (rewrite <- Hd; now destruct d).
    destruct (d_from F _); [|cbn; discriminate]. destruct Hl as (_ & _ & Hl).
    destruct e as [e|], es as [[[c neg] xs]|]; cbn [option_map fst snd] in *; try discriminate; [|reflexivity].
    injection He as He. rewrite He, int_from_chars_spec by apply Hl. cbv zeta. now destruct (fits_int _).
  - intros v a _ H. exact H.
  - intros v a _ H. cbn. unfold agrees in *. destruct (value F a); cbn; [now rewrite H|].
    destruct (evaluate memory F KExpr v); try discriminate. now destruct (H d).
  - intros v a _ H. change (evaluate memory F KFactor (VVec [v])) with (right_chain F [evaluate memory F KPowterm v]).
    unfold right_chain. cbn [rev app power_loop]. unfold agrees in *.
    destruct (value F a); [now rewrite H|]. destruct (evaluate memory F KPowterm v); try discriminate. now destruct (H d).
  - intros v a vs b _ Ha Hr Hb. assert (vs <> []) by (inversion Hr; discriminate).
    change (evaluate memory F KFactor (VVec (v :: vs))) with (right_chain F (evaluate memory F KPowterm v :: map (evaluate memory F KPowterm) vs)).
    rewrite right_chain_cons by now destruct vs. change (right_chain F (map (evaluate memory F KPowterm) vs)) with (evaluate memory F KFactor (VVec vs)).
    unfold agrees in *. cbn [value].
    destruct (value F b) as [y|]; [rewrite Hb|].
    + destruct (value F a) as [x|]; [now rewrite Ha|]. destruct (evaluate memory F KPowterm v); try discriminate. now destruct (Ha d).
    + destruct (value F a); destruct (evaluate memory F KFactor (VVec vs)); try discriminate; now destruct (Hb d0) || now destruct (Hb d).
  - intros k v a vs ds r Hk _ Ha _ Hm.
    replace (evaluate memory F k (VPair (VVec (v :: vs)) (VVec ds))) with
      (left_chain memory F (switch k) (map (evaluate memory F (operand k)) (v :: vs)) ds) by (destruct Hk; subst; reflexivity).
    cbn [map left_chain]. unfold agrees in Ha. destruct (value F a) as [x|]; [now rewrite Ha|].
    rewrite Hm. cbn. destruct (evaluate memory F (operand k) v); try discriminate. now destruct (Ha d).
  - intros k a. destruct (value F a); reflexivity.
  - intros k a v b s c vs ds r Hk _ Hb Hs Hc _ IH.
    assert (Hf : exists f, switch k c = Some f /\ forall x y, binary F c x y = Some (f x y)).
    { destruct Hk; subst; cbn in Hc; destruct Hc as [<-|[<-|[]]]; cbn; eauto. }
    destruct Hf as (f & Hf1 & Hf2). cbn [value] in IH. unfold agrees in Hb.
    destruct (value F a) as [x|]; [|exact IH].
    cbn [map operator_loop]. rewrite Hs, Hf1. destruct (value F b) as [y|].
    + rewrite Hf2 in IH. now rewrite Hb.
    + rewrite IH. cbn. destruct (evaluate memory F (operand k) v); try discriminate. now destruct (Hb d).
Qed.
End Eval.
End Parser.
