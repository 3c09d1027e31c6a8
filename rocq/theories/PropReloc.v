(** * Properties C03 (only the input is read) and C37 *)
From Coq Require Import String List Arith ZArith Bool Lia.
From Verif Require Import Types Compound Parser Outcome CompoundFacts Exec Mono Derive Typing Join Leaves Sound
  Elems Samples PropCore Reloc.
Import ListNotations.

(** ** C03: nothing but the elements of the input is read *)

(** The same program with other memory contents. *)
Definition with_mem {T V} (E : env T V) (mm : nat -> list V) : env T V :=
  {| eqv := eqv E; mem := mm; fn_ret := fn_ret E; fn_app := fn_app E; ct_ok := ct_ok E; ct_app := ct_app E;
     k_ty := k_ty E; k_val := k_val E; bool_ok := bool_ok E; as_bool := as_bool E;
     cust_body := cust_body E; cust_ty := cust_ty E; cust_conv := cust_conv E |}.

Lemma vrel_eq v : forall v', vrel eq v v' <-> v = v'.
Proof.
  assert (Hall : forall l, Forall (fun v => forall v', vrel eq v v' <-> v = v') l -> forall l', Forall2 (vrel eq) l l' <-> l = l').
  { induction 1 as [|w l Hv Hl IH]; intros l'; split; intros H; subst; try constructor.
    - now inversion H.
    - inversion H; subst. f_equal; [now apply Hv|now apply IH].
    - now apply Hv.
    - now apply IH. }
  induction v using val_ind'; intros v'; split; intros HH; subst; try (inversion HH; subst); try constructor; auto;
    try (f_equal; firstorder; fail); try (do 2 f_equal; now apply IHv); try (now apply Hall); try (now apply IHv); try (now apply IHv1); try (now apply IHv2).
Qed.

Lemma vrel_eq_list l l' : Forall2 (vrel eq) l l' <-> l = l'.
Proof.
  split.
  - induction 1; auto. f_equal; auto. now apply vrel_eq.
  - intros <-. induction l; constructor; auto. now apply vrel_eq.
Qed.

Lemma rvrel_eq r r' : rvrel eq r r' <-> r = r'.
Proof.
  split; [intros [|v v' H]; auto; f_equal; now apply vrel_eq|intros <-; destruct r; constructor; now apply vrel_eq].
Qed.

Lemma orel_eq (R : presult -> presult -> Prop) x x' : (forall r r', R r r' -> r = r') -> orel eq R x x' -> x = x'.
Proof.
  intros HR []; auto. f_equal; auto. induction H0; auto. f_equal; auto. destruct H0. f_equal. now apply vrel_eq_list.
Qed.

(** Specification: [mm] holds the same elements as [E]'s memory where the input is. *)
Definition same_input {T V} (E : env T V) (mm : nat -> list V) (i : span) : Prop :=
  forall k, sp_off i <= k < sp_off i + sp_len i -> nth_error (mm (sp_blk i)) k = nth_error (mem E (sp_blk i)) k.

Definition within (i s s' : span) : Prop :=
  s' = s /\ sp_blk s = sp_blk i /\ sp_off i <= sp_off s /\ sp_off s + sp_len s <= sp_off i + sp_len i.

Theorem C03_only_the_input_is_read {T V} (E : env T V) mm m p i o : same_input E mm i ->
  (evals E m p i o <-> evals (with_mem E mm) m p i o) /\
  (diverges E m p i <-> diverges (with_mem E mm) m p i).
Proof.
  intros Hs.
  assert (HA : alike eq E (with_mem E mm)).
  { constructor; cbn; auto.
    - intros n args args' H. apply vrel_eq_list in H as <-. destruct (fn_app E n args); constructor. now apply rvrel_eq.
    - intros t args args' H. apply vrel_eq_list in H as <-. destruct (ct_app E t args); constructor. now apply rvrel_eq.
    - intros k. now apply vrel_eq.
    - intros v v' H. now apply vrel_eq in H as <-. }
  assert (HP : placing eq (within i) E (with_mem E mm)).
  { constructor; cbn; auto.
    - intros s s' H. symmetry. apply H.
    - intros; now subst.
    - intros s s' o' n (-> & Hb & H1 & H2) Ho. unfold within. cbn. repeat split; auto; lia.
    - intros s s' o' (-> & Hb & H1 & H2) Ho. rewrite Hb. symmetry. apply Hs. lia.
    - intros; subst; tauto.
    - intros; subst; tauto.
    - intros; now subst. }
  assert (Hrun : forall n, run E n m p i = run (with_mem E mm) n m p i).
  { intros n. apply (orel_eq (presrel eq (within i))).
    - intros [a b] [a' b'] [H1 H2]. cbn in *. f_equal; [|symmetry; apply H2]. destruct H1; auto. f_equal. now apply rvrel_eq.
    - apply (run_rel E (with_mem E mm) eq (within i) HA HP). repeat split; auto. }
  split; split.
  - intros [Ho [n Hn]]; split; auto; exists n. now rewrite <- Hrun.
  - intros [Ho [n Hn]]; split; auto; exists n. now rewrite Hrun.
  - intros H n. now rewrite <- Hrun.
  - intros H n. now rewrite Hrun.
Qed.

(** Case: all other storage, and everything before and after the input in its block, is gone or different. *)
Example C03_read_case : let mm := fun b => if b =? 2 then codes "???((a)b)+12,345;aab" else [] in
  same_input sx mm in2 /\ mm 1 <> mem sx 1 /\ mm 2 <> mem sx 2 /\
  exists v tr, evals (with_mem sx mm) Parse C03_parser in2 (Done (Res (Some v) (Span 2 20 0)) tr).
Proof.
  split; [|split; [discriminate|split; [discriminate|]]].
  - intros k Hk. cbn in *. do 20 (destruct k; [try reflexivity; lia|]). lia.
  - eexists _, _. runs 30.
Qed.

(** ** C37: the results depend on the elements, not on where they are stored *)

(** A piece of memory and the place it is moved to. *)
Record move : Type := Move { from_blk : nat; from_off : nat; to_blk : nat; to_off : nat; size : nat }.

(** Specification: [s'] is [s] after the moves [L]: the same relative position in a moved
    piece.  (A null span stays one.) *)
Definition moved (L : list move) (s s' : span) : Prop :=
  (s = null_span /\ s' = null_span) \/
  exists mv k, In mv L /\ k + sp_len s <= size mv /\
    s = Span (from_blk mv) (from_off mv + k) (sp_len s) /\ s' = Span (to_blk mv) (to_off mv + k) (sp_len s).

(** Specification: the moves take whole pieces to different blocks and keep the elements. *)
Definition moves {T V} (L : list move) (E E' : env T V) : Prop :=
  NoDup (map from_blk L) /\ NoDup (map to_blk L) /\
  forall mv, In mv L ->
    elems E (Span (from_blk mv) (from_off mv) (size mv)) = elems E' (Span (to_blk mv) (to_off mv) (size mv)).

Lemma nodup_inj {A} (f : A -> nat) l x y : NoDup (map f l) -> In x l -> In y l -> f x = f y -> x = y.
Proof.
  induction l as [|a l IH]; intros HN Hx Hy Hf; [contradiction|]. cbn in HN. inversion HN; subst.
  destruct Hx as [<-|Hx], Hy as [<-|Hy]; auto.
  - exfalso. apply H1. rewrite Hf. now apply in_map.
  - exfalso. apply H1. rewrite <- Hf. now apply in_map.
Qed.

Lemma moves_placing {T V} L (E E' : env T V) : moves L E E' -> placing (moved L) (moved L) E E'.
Proof.
  intros (HN & HN' & He).
  assert (Hlen : forall s s', moved L s s' -> sp_len s = sp_len s').
  { intros s s' [[-> ->]|(mv & k & _ & _ & _ & ->)]; reflexivity. }
  assert (Hne : forall s s', moved L s s' -> sp_len s <> 0 -> exists mv k, In mv L /\ k + sp_len s <= size mv /\
     s = Span (from_blk mv) (from_off mv + k) (sp_len s) /\ s' = Span (to_blk mv) (to_off mv + k) (sp_len s)).
  { intros s s' [[-> ->]|H] Hn; [cbn in Hn; congruence|auto]. }
  assert (Hadj : forall s s' j j', moved L s s' -> moved L j j' -> sp_len s <> 0 -> sp_len j <> 0 -> sp_blk s = sp_blk j ->
    exists mv k k', In mv L /\ k + sp_len s <= size mv /\ k' + sp_len j <= size mv /\
     s = Span (from_blk mv) (from_off mv + k) (sp_len s) /\ s' = Span (to_blk mv) (to_off mv + k) (sp_len s) /\
     j = Span (from_blk mv) (from_off mv + k') (sp_len j) /\ j' = Span (to_blk mv) (to_off mv + k') (sp_len j)).
  { intros s s' j j' Hs Hj Hn Hn' Hb. destruct (Hne _ _ Hs Hn) as (mv & k & Hin & H1 & H2 & H3).
    destruct (Hne _ _ Hj Hn') as (mv' & k' & Hin' & H1' & H2' & H3').
    assert (mv' = mv).
    { apply (nodup_inj from_blk L); auto. rewrite H2, H2' in Hb. cbn in Hb. auto. }
    subst mv'. exists mv, k, k'. auto 10. }
  constructor; auto.
  - left. auto.
  - intros s s' o n [[-> ->]|(mv & k & Hin & H1 & H2 & H3)] Ho.
    + left. cbn in *. assert (o = 0) by lia. assert (n = 0) by lia. subst. auto.
    + right. rewrite H2, H3 in *. cbn in *. exists mv, (k + o). split; auto. split; [lia|]. split; f_equal; lia.
  - intros s s' o [[-> ->]|(mv & k & Hin & H1 & H2 & H3)] Ho; [cbn in Ho; lia|].
    specialize (He mv Hin). apply (f_equal (fun l => nth_error l (k + o))) in He.
    rewrite !elems_nth in He by (cbn; lia). rewrite H2, H3. cbn in *. now rewrite <- !Nat.add_assoc.
  - intros s s' j j' Hs Hj Hn Hn'. destruct (Hne _ _ Hs Hn) as (mv & k & Hin & H1 & H2 & H3).
    destruct (Hne _ _ Hj Hn') as (mv' & k' & Hin' & H1' & H2' & H3'). rewrite H2, H3, H2', H3'. cbn.
    split; intros Hb.
    + now rewrite (nodup_inj from_blk L mv mv' HN Hin Hin' Hb).
    + now rewrite (nodup_inj to_blk L mv mv' HN' Hin Hin' Hb).
  - intros s s' j j' Hs Hj Hn Hn' Hb. destruct (Hadj _ _ _ _ Hs Hj Hn Hn' Hb) as (mv & k & k' & _ & _ & _ & -> & -> & -> & ->).
    cbn. lia.
  - intros s s' j j' Hs Hj Hn Hn' Hb Ho. destruct (Hadj _ _ _ _ Hs Hj Hn Hn' Hb) as (mv & k & k' & Hin & H1 & H2 & H3 & H4 & H5 & H6).
    right. exists mv, k'. rewrite H3, H5 in Ho. cbn in Ho. rewrite H5, H6, H4. cbn. repeat split; auto. lia.
Qed.

(** Move the input (and whatever else user code knows about) elsewhere, into a memory that is
    otherwise arbitrary: every call of user code gets the moved arguments, and the outcome is the
    moved outcome. *)
Theorem C37_depends_only_on_the_elements {T V} L (E E' : env T V) m p i i' :
  moves L E E' -> alike (moved L) E E' -> moved L i i' ->
  (forall o, evals E m p i o -> exists o', evals E' m p i' o' /\ orel (moved L) (presrel (moved L) (moved L)) o o') /\
  (forall o', evals E' m p i' o' -> exists o, evals E m p i o /\ orel (moved L) (presrel (moved L) (moved L)) o o') /\
  (diverges E m p i <-> diverges E' m p i').
Proof.
  intros HM HA Hi. pose proof (fun n => run_rel E E' _ _ HA (moves_placing L E E' HM) n m p i i' Hi) as Hr.
  split; [|split].
  - intros o [Ho [n Hn]]. specialize (Hr n). rewrite Hn in Hr. exists (run E' n m p i'). split; auto.
    split; [|eauto]. intros Hx. rewrite Hx in Hr. inversion Hr; subst. congruence.
  - intros o [Ho [n Hn]]. specialize (Hr n). rewrite Hn in Hr. exists (run E n m p i). split; auto.
    split; [|eauto]. intros Hx. rewrite Hx in Hr. inversion Hr; subst. congruence.
  - split; intros H n; specialize (Hr n); rewrite H in Hr; inversion Hr; auto.
Qed.

(** Spelled out for a parser that returns: same success, same number of elements consumed, and
    every span of the value at the same distance from the start of the input, or a moved span
    of user storage. *)
Corollary C37_relative_positions {T V} L (E E' : env T V) m p i i' v rem tr :
  moves L E E' -> alike (moved L) E E' -> moved L i i' ->
  evals E m p i (Done (Res (Some v) rem) tr) -> valid E i -> sp_len i <> 0 ->
  exists v' rem' tr', evals E' m p i' (Done (Res (Some v') rem') tr') /\
    sp_off rem' + sp_off i = sp_off rem + sp_off i' /\
    Forall2 (moved L) (rv_leaves v) (rv_leaves v').
Proof.
  intros HM HA Hi H Hv Hn.
  destruct (proj1 (C37_depends_only_on_the_elements L E E' m p i i' HM HA Hi) _ H) as (o' & Ho' & Hrel).
  inversion Hrel as [a [ok' rem'] ? tr' [H1 H2]| | | |]; subst. cbn in *. inversion H1 as [|? v' Hvv]; subst.
  exists v', rem', tr'. split; auto. split.
  - destruct Hi as [[-> ->]|(mv & k & Hin & Hk & He & He')]; [cbn in Hn; congruence|].
    pose proof (evals_sound E _ _ _ _ _ Hv H) as [[c [Hc Hs]] _]. cbn in Hs. subst rem.
    destruct H2 as [[Hs1 ->]|(mv' & k' & Hin' & Hk' & Hs1 & Hs2)].
    + rewrite He in Hs1. unfold adv, null_span in Hs1. cbn in Hs1.
      injection Hs1 as Hb Ho Hl. rewrite He'. rewrite He. cbn. assert (c = sp_len i) by lia. lia.
    + assert (mv' = mv).
      { destruct HM as (HN & _). apply (nodup_inj from_blk L); auto. rewrite He in Hs1. unfold adv in Hs1. cbn in Hs1. now injection Hs1. }
      subst mv'. rewrite Hs2, He'. rewrite He in Hs1. rewrite He. unfold adv in *. cbn in *. injection Hs1 as Hs1. lia.
  - destruct Hvv as [|x x' Hx]; [constructor|]. cbn. clear - Hx.
    assert (Hall : forall l, Forall (fun v => forall v', vrel (moved L) v v' -> Forall2 (moved L) (leaves v) (leaves v')) l ->
      forall l', Forall2 (vrel (moved L)) l l' -> Forall2 (moved L) (flat_map leaves l) (flat_map leaves l')).
    { induction 1; intros l' HF; inversion HF; subst; cbn; [constructor|]. apply Forall2_app; auto. }
    revert x' Hx. induction x using val_ind'; intros x' Hx; inversion Hx; subst; cbn [leaves]; auto.
    now apply Forall2_app; auto.
Qed.

(** Case: the sample program on the same text at two places; one of its callables returns a
    span of storage of its own (block 3), which stays where it is. *)
Definition C37_moves : list move := [Move 1 0 2 3 17; Move 3 0 3 0 4].

Lemma C37_alike : alike (moved C37_moves) sx sx.
Proof.
  assert (Hl : forall s s', moved C37_moves s s' -> sp_len s = sp_len s').
  { intros s s' [[-> ->]|(mv & k & _ & _ & _ & ->)]; reflexivity. }
  constructor; cbn; auto.
  - assert (H1 : forall f : span -> fnres, (forall s s', moved C37_moves s s' -> frel (moved C37_moves) (f s) (f s')) ->
      forall args args', Forall2 (vrel (moved C37_moves)) args args' ->
      frel (moved C37_moves) (match args with [VSpan s] => f s | _ => FIll end) (match args' with [VSpan s] => f s | _ => FIll end)).
    { intros f Hf args args' H. destruct H as [|v v' l l' Hv H]; [constructor|].
      destruct Hv; try apply frel_ill. destruct H; [now apply Hf|apply frel_ill]. }
    intros n args args' H. destruct n as [|[|[|[|[|[|[|n]]]]]]]; cbn [sx_fn_app].
    + apply (H1 (fun s => FRet (RVal (sx_bool (1 <? sp_len s))))); auto. intros s s' Hs. rewrite (Hl _ _ Hs). apply frel_ret, rvrel_val, vrel_user. repeat constructor.
    + apply (H1 (fun s => FRet RVoid)); auto. intros s s' Hs. apply frel_ret. constructor.
    + destruct H as [|v v' l l' Hv H]; [constructor|]. destruct Hv; try apply frel_ill.
      destruct H as [|w w' l1 l1' Hw H]; [apply frel_ill|]. destruct Hw; try apply frel_ill. destruct H; [|apply frel_ill].
      apply frel_ret, rvrel_val, vrel_user. constructor; [now constructor|]. constructor; [now constructor|constructor].
    + apply (H1 (fun s => FThrow 42)); auto. intros s s' Hs. apply frel_throw.
    + destruct H; [|apply frel_ill]. apply frel_ret, rvrel_val, vrel_user. repeat constructor.
    + apply (H1 (fun s => FRet (RVal (VSpan s)))); auto. intros s s' Hs. apply frel_ret, rvrel_val, vrel_span. exact Hs.
    + apply (H1 (fun s => FRet (RVal (VSpan (Span 3 0 2))))); auto. intros s s' Hs. apply frel_ret, rvrel_val, vrel_span.
      right. exists (Move 3 0 3 0 4), 0. cbn. repeat split; auto.
    + apply frel_ill.
  - intros t args args' H. constructor. constructor. now constructor.
  - intros k. repeat constructor.
  - intros v v' []; auto. destruct k; auto. destruct H as [|w w' l l' Hw H]; auto. destruct H; destruct Hw; auto.
Qed.

Example C37_case : moves C37_moves sx sx /\ alike (moved C37_moves) sx sx /\ moved C37_moves in1 in2 /\
  (exists v tr, evals sx Parse C03_parser in1 (Done (Res (Some v) (Span 1 17 0)) tr)) /\
  (exists v tr, evals sx Parse C03_parser in2 (Done (Res (Some v) (Span 2 20 0)) tr)).
Proof.
  split; [|split; [apply C37_alike|split]].
  - split; [|split].
    + repeat constructor; cbn; intuition discriminate.
    + repeat constructor; cbn; intuition discriminate.
    + intros mv [<-|[<-|[]]]; reflexivity.
  - right. exists (Move 1 0 2 3 17), 0. cbn. repeat split; auto.
  - split; do 2 eexists; runs 30.
Qed.

Print Assumptions C03_only_the_input_is_read.
Print Assumptions C37_depends_only_on_the_elements.
Print Assumptions C37_relative_positions.
