(** * Property C70: equal parts can be exchanged *)
From Coq Require Import String List Arith ZArith Bool Lia.
From Verif Require Import Types Compound Parser Outcome CompoundFacts ChoiceIndex Exec Mono Derive Typing Join Leaves Sound
  BigStep BigSound BigComplete Peg Elems Runs Samples PropCore PropBasic PropChoice Verdict Modifiers PropMods.
Import ListNotations.

(** ** Parsers with a hole *)

Inductive ctx (T : Type) : Type :=
| XHole
| XChoice (l1 : list (parser T)) (c : ctx T) (l2 : list (parser T))
| XSequence (l1 : list (parser T)) (c : ctx T) (l2 : list (parser T))
| XMaybe (c : ctx T)
| XExactly (c : ctx T) (n : nat)
| XOneOrMore (c : ctx T)
| XZeroOrMore (c : ctx T)
| XDelimited (c : ctx T) (d : parser T)
| XDelimiter (q : parser T) (c : ctx T)
| XIgnore (c : ctx T)
| XComplete (c : ctx T)
| XJoin (c : ctx T)
| XMap (c : ctx T) (f : func)
| XFilter (c : ctx T) (f : func)
| XNamed (c : ctx T) (s : String.string).
Arguments XHole {T}.
Arguments XChoice {T}. Arguments XSequence {T}. Arguments XMaybe {T}. Arguments XExactly {T}. Arguments XOneOrMore {T}.
Arguments XZeroOrMore {T}. Arguments XDelimited {T}. Arguments XDelimiter {T}. Arguments XIgnore {T}. Arguments XComplete {T}.
Arguments XJoin {T}. Arguments XMap {T}. Arguments XFilter {T}. Arguments XNamed {T}.

(** at least one part *)
Definition parts_of {T} (K : parser T -> list (parser T) -> parser T) (l : list (parser T)) : parser T :=
  match l with [] => PEpsilon | q :: qs => K q qs end.

Fixpoint plug {T} (c : ctx T) (p : parser T) : parser T :=
  match c with
  | XHole => p
  | XChoice l1 c l2 => parts_of PChoice (l1 ++ plug c p :: l2)
  | XSequence l1 c l2 => parts_of PSequence (l1 ++ plug c p :: l2)
  | XMaybe c => PMaybe (plug c p)
  | XExactly c n => PExactly (plug c p) n
  | XOneOrMore c => POneOrMore (plug c p)
  | XZeroOrMore c => PZeroOrMore (plug c p)
  | XDelimited c d => PDelimit (plug c p) d
  | XDelimiter q c => PDelimit q (plug c p)
  | XIgnore c => PIgnore (plug c p)
  | XComplete c => PComplete (plug c p)
  | XJoin c => PJoin (plug c p)
  | XMap c f => PMap (plug c p) f
  | XFilter c f => PFilter (plug c p) f
  | XNamed c s => PNamed (plug c p) s
  end.

(** Every part, however deep, is what some surrounding parser is filled with. *)
Inductive part {T} (q : parser T) : parser T -> Prop :=
| part_self : part q q
| part_choice a l x : In x (a :: l) -> part q x -> part q (PChoice a l)
| part_sequence a l x : In x (a :: l) -> part q x -> part q (PSequence a l)
| part_maybe p : part q p -> part q (PMaybe p)
| part_exactly p n : part q p -> part q (PExactly p n)
| part_one_or_more p : part q p -> part q (POneOrMore p)
| part_zero_or_more p : part q p -> part q (PZeroOrMore p)
| part_delimited p d : part q p -> part q (PDelimit p d)
| part_delimiter p d : part q d -> part q (PDelimit p d)
| part_ignore p : part q p -> part q (PIgnore p)
| part_complete p : part q p -> part q (PComplete p)
| part_join p : part q p -> part q (PJoin p)
| part_map p f : part q p -> part q (PMap p f)
| part_filter p f : part q p -> part q (PFilter p f)
| part_named p s : part q p -> part q (PNamed p s).

Theorem C70_contexts {T} (q p : parser T) : part q p <-> exists c, p = plug c q.
Proof.
  split.
  - intros H. induction H as [|a l x Hin H [c ->]|a l x Hin H [c ->]|p H [c ->]|p n H [c ->]|p H [c ->]|p H [c ->]|p d H [c ->]|p d H [c ->]
      |p H [c ->]|p H [c ->]|p H [c ->]|p f H [c ->]|p f H [c ->]|p s H [c ->]].
    + now exists XHole.
    + apply in_split in Hin as (l1 & l2 & Hl). exists (XChoice l1 c l2). cbn [plug]. now rewrite <- Hl.
    + apply in_split in Hin as (l1 & l2 & Hl). exists (XSequence l1 c l2). cbn [plug]. now rewrite <- Hl.
    + now exists (XMaybe c).
    + now exists (XExactly c n).
    + now exists (XOneOrMore c).
    + now exists (XZeroOrMore c).
    + now exists (XDelimited c d).
    + now exists (XDelimiter p c).
    + now exists (XIgnore c).
    + now exists (XComplete c).
    + now exists (XJoin c).
    + now exists (XMap c f).
    + now exists (XFilter c f).
    + now exists (XNamed c s).
  - intros [c ->]. induction c; cbn [plug]; try (constructor; assumption).
    + destruct l1 as [|a l1]; cbn; eapply part_choice; eauto; [now left | right; apply in_elt].
    + destruct l1 as [|a l1]; cbn; eapply part_sequence; eauto; [now left | right; apply in_elt].
Qed.

Section Exchange.
Context {T V : Type} (E : env T V).

(** The same result type, and on every input, in both modes, the same results and calls. *)
Definition alike (p p' : parser T) : Prop :=
  result_for E p = result_for E p' /\
  forall m i r tr, valid E i -> (evals E m p i (Done r tr) <-> evals E m p' i (Done r tr)).

(** The same success and remaining input in lookahead. *)
Definition looks_alike (p p' : parser T) : Prop :=
  forall i o, valid E i -> (says E Look p i o <-> says E Look p' i o).

(** ** One direction at a time *)

Definition sub (p p' : parser T) : Prop :=
  result_for E p = result_for E p' /\ forall m i r tr, valid E i -> big E m p i r tr -> big E m p' i r tr.
Definition subm (x y : mode * parser T) : Prop := fst x = fst y /\ sub (snd x) (snd y).

Lemma sub_refl p : sub p p.
Proof. split; auto. Qed.

Lemma sub_shaped m p p' v : sub p p' -> shaped E m p v -> shaped E m p' v.
Proof. intros [H _] Hs. unfold shaped. rewrite <- H. exact Hs. Qed.

Lemma sub_bfirst l i o tr : bfirst E l i o tr -> forall l', valid E i -> Forall2 subm l l' -> bfirst E l' i o tr.
Proof.
  induction 1 as [i|m p l i v rem tr H|m p l i o tr tr' H _ IH]; intros l' Hv Hl.
  - inversion Hl. constructor.
  - inversion Hl as [|? [m' p'] ? l2 [Hm Hp] Hl2]; subst. cbn in *. subst. constructor. now apply Hp.
  - inversion Hl as [|? [m' p'] ? l2 [Hm Hp] Hl2]; subst. cbn in *. subst. constructor; auto. now apply Hp.
Qed.

Lemma sub_bchain l i o tr : bchain E l i o tr -> forall l', valid E i -> Forall2 subm l l' -> bchain E l' i o tr.
Proof.
  induction 1 as [i|m p l i tr H|m p l i v mid o tr tr' H Hs _ IH]; intros l' Hv Hl.
  - inversion Hl. constructor.
  - inversion Hl as [|? [m' p'] ? l2 [Hm Hp] Hl2]; subst. cbn in *. subst. constructor. now apply Hp.
  - inversion Hl as [|? [m' p'] ? l2 [Hm Hp] Hl2]; subst. cbn in *. subst. eapply BC_next with (mid := mid); eauto using sub_shaped.
    + now apply Hp.
    + apply IH; auto. eapply big_succ_valid; eauto.
Qed.

Lemma sub_biter m q i vs rem tr : biter E m q i vs rem tr -> forall q', valid E i -> sub q q' -> biter E m q' i vs rem tr.
Proof.
  induction 1 as [m q i tr H|m q i v mid vs rem tr tr' H Hs _ IH]; intros q' Hv Hq.
  - constructor. now apply Hq.
  - eapply BI_next with (mid := mid); eauto using sub_shaped; [now apply Hq|]. apply IH; auto. eapply big_succ_valid; eauto.
Qed.

Lemma sub_btail m q d i prs rem tr : btail E m q d i prs rem tr -> forall q' d', valid E i -> sub q q' -> sub d d' ->
  btail E m q' d' i prs rem tr.
Proof.
  induction 1 as [m q d i tr H|m q d i w mid tr tr' H H'|m q d i w mid v mid' prs rem tr tr' tr'' H Hs H' Hs' _ IH];
    intros q' d' Hv Hq Hd.
  - constructor. now apply Hd.
  - eapply BT_back with (mid := mid); [apply Hd; eassumption|]. apply Hq; auto. eapply big_succ_valid; eauto.
  - assert (valid E mid) by (eapply big_succ_valid; eauto).
    eapply BT_next with (mid := mid) (mid' := mid'); eauto using sub_shaped; [now apply Hd | now apply Hq|]. apply IH; auto. eapply big_succ_valid; eauto.
Qed.

Lemma sub_list (l1 l2 : list (parser T)) p p' : sub p p' -> Forall2 sub (l1 ++ p :: l2) (l1 ++ p' :: l2).
Proof.
  intros H. apply Forall2_app; [|constructor; [exact H|]]; clear; match goal with |- Forall2 _ ?l _ => induction l; constructor; auto using sub_refl end.
Qed.

Lemma sub_fors l l' : Forall2 sub l l' -> result_fors E l = result_fors E l'.
Proof. intros H. unfold result_fors. f_equal. induction H as [|p p' l l' [H _] _ IH]; [reflexivity|]. cbn. now rewrite H, IH. Qed.

Lemma sub_combine (ms : list mode) l l' : Forall2 sub l l' -> Forall2 subm (combine ms l) (combine ms l').
Proof. intros H. revert ms. induction H as [|p p' l l' H _ IH]; intros [|m ms]; constructor; auto. now split. Qed.

Lemma sub_map m l l' : Forall2 sub l l' -> Forall2 subm (map (pair m) l) (map (pair m) l').
Proof. induction 1; constructor; auto. now split. Qed.

Lemma sub_repeat m q q' n : sub q q' -> Forall2 subm (repeat (m, q) n) (repeat (m, q') n).
Proof. intros H. induction n; constructor; auto. now split. Qed.

Lemma sub_choice q qs q' qs' : Forall2 sub (q :: qs) (q' :: qs') -> sub (PChoice q qs) (PChoice q' qs').
Proof.
  intros H. pose proof (sub_fors _ _ H) as Hf. split; [now rewrite !result_for_choice, Hf|].
  intros m i r tr Hv B. inversion B; subst.
  - eapply B_choice_ok; [rewrite <- Hf; eassumption|eassumption| |eassumption]. eapply sub_bfirst; eauto. now apply sub_combine.
  - eapply B_choice_no; [rewrite <- Hf; eassumption|eassumption|]. eapply sub_bfirst; eauto. now apply sub_combine.
  - eapply B_choice_look_ok; [rewrite <- Hf; eassumption|]. eapply sub_bfirst; eauto. now apply sub_map.
  - eapply B_choice_look_no; [rewrite <- Hf; eassumption|]. eapply sub_bfirst; eauto. now apply sub_map.
Qed.

Lemma sub_sequence q qs q' qs' : Forall2 sub (q :: qs) (q' :: qs') -> sub (PSequence q qs) (PSequence q' qs').
Proof.
  intros H. pose proof (sub_fors _ _ H) as Hf. split; [now rewrite !result_for_seq, Hf|].
  intros m i r tr Hv B. inversion B; subst.
  - eapply B_seq_ok; [rewrite <- Hf; eassumption| |eassumption]. eapply sub_bchain; eauto. now apply sub_combine.
  - eapply B_seq_no; [rewrite <- Hf; eassumption|]. eapply sub_bchain; eauto. now apply sub_combine.
  - eapply B_seq_look_ok; [rewrite <- Hf; eassumption|]. eapply sub_bchain; eauto. now apply sub_map.
  - eapply B_seq_look_no; [rewrite <- Hf; eassumption|]. eapply sub_bchain; eauto. now apply sub_map.
Qed.

Lemma sub_delimit q q' d d' : sub q q' -> sub d d' -> sub (PDelimit q d) (PDelimit q' d').
Proof.
  intros Hq Hd. pose proof (proj1 Hq) as Tq. pose proof (proj1 Hd) as Td. split; [cbn; now rewrite Tq, Td|].
  intros m i r tr Hv B. inversion B; subst.
  - eapply B_delim_ok; [rewrite <- Tq; eassumption|rewrite <- Td; eassumption|apply Hq; eassumption|eauto using sub_shaped| |eassumption].
    eapply sub_btail; eauto. eapply big_succ_valid; eauto.
  - eapply B_delim_no; [rewrite <- Tq; eassumption|rewrite <- Td; eassumption|]. now apply Hq.
  - eapply B_delim_look_ok; [apply Hq; eassumption|]. eapply sub_btail; eauto. eapply big_succ_valid; eauto.
  - eapply B_delim_look_no. now apply Hq.
Qed.

Lemma sub_plug c p p' : sub p p' -> sub (plug c p) (plug c p').
Proof.
  intros Hp. induction c as [|l1 c IH l2|l1 c IH l2|c IH|c IH n|c IH|c IH|c IH d|q c IH|c IH|c IH|c IH|c IH f|c IH f|c IH s]; cbn [plug].
  - exact Hp.
  - pose proof (sub_list l1 l2 _ _ IH) as H. unfold parts_of. destruct l1; cbn in *; now apply sub_choice.
  - pose proof (sub_list l1 l2 _ _ IH) as H. unfold parts_of. destruct l1; cbn in *; now apply sub_sequence.
  - destruct IH as [Ht IH]. split; [cbn; now rewrite Ht|]. intros m i r tr Hv B.
    inversion B; subst; rewrite ?Ht in *; [eapply B_maybe_some | eapply B_maybe_none | eapply B_maybe_look_some | eapply B_maybe_look_none]; eauto.
  - pose proof IH as Hs. destruct IH as [Ht IH]. split; [cbn; now rewrite Ht|]. intros m i r tr Hv B.
    inversion B; subst; rewrite ?Ht in *;
      [eapply B_exactly_ok | eapply B_exactly_no | eapply B_exactly_look_ok | eapply B_exactly_look_no]; eauto;
      (eapply sub_bchain; [eassumption|eassumption|now apply sub_repeat]).
  - pose proof IH as Hs. destruct IH as [Ht IH]. split; [cbn; now rewrite Ht|]. intros m i r tr Hv B.
    inversion B; subst; rewrite ?Ht in *; [eapply B_oom_ok | eapply B_oom_no | eapply B_oom_look_ok | eapply B_oom_look_no]; eauto using sub_biter.
  - pose proof IH as Hs. destruct IH as [Ht IH]. split; [cbn; now rewrite Ht|]. intros m i r tr Hv B.
    inversion B; subst; rewrite ?Ht in *; [eapply B_zom | eapply B_zom_look]; eauto using sub_biter.
  - apply sub_delimit; auto using sub_refl.
  - apply sub_delimit; auto using sub_refl.
  - split; [reflexivity|]. intros m i r tr Hv B. inversion B; subst. constructor. now apply IH.
  - destruct IH as [Ht IH]. split; [exact Ht|]. intros m i r tr Hv B.
    inversion B; subst; [eapply B_complete_ok | eapply B_complete_rest | eapply B_complete_no]; eauto.
  - destruct IH as [Ht IH]. split; [reflexivity|]. intros m i r tr Hv B.
    inversion B; subst; rewrite ?Ht in *; [eapply B_join_ok | eapply B_join_gap | eapply B_join_no | eapply B_join_look]; eauto.
  - destruct IH as [Ht IH]. assert (Hm : result_for E (PMap (plug c p) f) = result_for E (PMap (plug c p') f)) by (cbn; now rewrite Ht).
    split; [exact Hm|]. intros m i r tr Hv B. inversion B; subst;
      [eapply B_map_ok | eapply B_map_no | eapply B_map_look]; eauto; rewrite <- Hm; eassumption.
  - destruct IH as [Ht IH]. assert (Hm : result_for E (PFilter (plug c p) f) = result_for E (PFilter (plug c p') f)) by (cbn; now rewrite Ht).
    split; [exact Hm|]. intros m i r tr Hv B. inversion B; subst;
      [eapply B_filter_ok | eapply B_filter_reject | eapply B_filter_no | eapply B_filter_look]; eauto; rewrite <- Hm; eassumption.
  - destruct IH as [Ht IH]. split; [exact Ht|]. intros m i r tr Hv B. inversion B; subst. constructor. auto.
Qed.

Lemma alike_sub p p' : alike p p' <-> sub p p' /\ sub p' p.
Proof.
  unfold alike, sub. split.
  - intros [Ht H]. repeat split; auto; intros m i r tr Hv B; apply evals_big; auto; apply H; auto; now apply evals_big.
  - intros [[Ht H] [_ H']]. split; [exact Ht|]. intros m i r tr Hv. rewrite !evals_big by auto. split; auto.
Qed.

(** A part may be replaced by one that is alike, wherever it stands. *)
Theorem C70_exchange c p p' : alike p p' -> alike (plug c p) (plug c p').
Proof. rewrite !alike_sub. intros [H H']. split; now apply sub_plug. Qed.

(** ** Lookahead *)

Lemma big_look_plain :
  (forall m p i r tr, big E m p i r tr -> m = Look -> tr = [] /\ forall v, r_ok r = Some v -> v = RVoid) /\
  (forall l i o tr, bfirst E l i o tr -> Forall (fun x => fst x = Look) l -> tr = [] /\ forall j v rem, o = Some (j, v, rem) -> v = RVoid) /\
  (forall l i o tr, bchain E l i o tr -> Forall (fun x => fst x = Look) l -> tr = []) /\
  (forall m q i vs rem tr, biter E m q i vs rem tr -> m = Look -> tr = []) /\
  (forall m q d i prs rem tr, btail E m q d i prs rem tr -> m = Look -> tr = []).
Proof.
  assert (HL : forall qs : list (parser T), Forall (fun x => fst x = Look) (map (pair Look) qs)).
  { intros qs. induction qs; constructor; auto. }
  assert (HR : forall (q : parser T) n, Forall (fun x => fst x = Look) (repeat (Look, q) n)).
  { intros q n. induction n; constructor; auto. }
  apply big_mut; intros; subst; try discriminate; cbn [r_ok ok1 in_mode] in *;
    repeat match goal with
      | H : ?x = ?x -> _ |- _ => specialize (H eq_refl)
      | H : Forall _ (_ :: _) |- _ => inversion H; subst; clear H
      | H : Forall _ (map (pair Look) _) -> _ |- _ => specialize (H (HL _))
      | H : Forall _ (repeat (Look, _) _) -> _ |- _ => specialize (H (HR _ _))
      | H : Forall ?P ?l -> _, H' : Forall ?P ?l |- _ => specialize (H H')
      | H : _ /\ _ |- _ => destruct H
      | H : fst (_, _) = Look |- _ => cbn in H; subst
      end; subst; cbn [app]; repeat split; auto; try congruence.
  all: try (intros v0 [= <-]; auto; fail).
  - intros j v0 rem0 [= <- <- <-]. eauto.
  - intros j v0 rem0 Ho. destruct o as [[[j1 v1] r1]|]; [|discriminate]. injection Ho as <- <- <-. eauto.
Qed.

Definition look_result (i : span) (o : option span) : presult :=
  match o with Some rem => Res (Some RVoid) rem | None => Res None i end.

Lemma says_look p i o : valid E i -> (says E Look p i o <-> big E Look p i (look_result i o) []).
Proof.
  intros Hv. split.
  - intros (r & tr & H & ->). apply evals_big in H; [|auto]. destruct (proj1 big_look_plain _ _ _ _ _ H eq_refl) as [-> Hr].
    destruct r as [[v|] rem]; cbn in *; [now rewrite <- (Hr v eq_refl)|]. now rewrite <- (big_fail E Look p i rem [] H) at 2.
  - intros H. exists (look_result i o), []. split; [now apply evals_big|]. destruct o; reflexivity.
Qed.

Definition subl (p p' : parser T) : Prop := forall i r tr, valid E i -> big E Look p i r tr -> big E Look p' i r tr.
Definition sublm (x y : mode * parser T) : Prop := fst x = Look /\ fst y = Look /\ subl (snd x) (snd y).

Lemma subl_bfirst l i o tr : bfirst E l i o tr -> forall l', valid E i -> Forall2 sublm l l' -> bfirst E l' i o tr.
Proof.
  induction 1 as [i|m p l i v rem tr H|m p l i o tr tr' H _ IH]; intros l' Hv Hl.
  - inversion Hl. constructor.
  - inversion Hl as [|? [m' p'] ? l2 (Hm & Hm' & Hp) Hl2]; subst. cbn in *. subst. constructor. now apply Hp.
  - inversion Hl as [|? [m' p'] ? l2 (Hm & Hm' & Hp) Hl2]; subst. cbn in *. subst. constructor; auto.
Qed.

Lemma look_shaped p v : shaped E Look p v.
Proof. intros H. discriminate. Qed.

Lemma subl_bchain l i o tr : bchain E l i o tr -> forall l', valid E i -> Forall2 sublm l l' -> bchain E l' i o tr.
Proof.
  induction 1 as [i|m p l i tr H|m p l i v mid o tr tr' H Hs _ IH]; intros l' Hv Hl.
  - inversion Hl. constructor.
  - inversion Hl as [|? [m' p'] ? l2 (Hm & Hm' & Hp) Hl2]; subst. cbn in *. subst. constructor. now apply Hp.
  - inversion Hl as [|? [m' p'] ? l2 (Hm & Hm' & Hp) Hl2]; subst. cbn in *. subst. eapply BC_next with (mid := mid); auto using look_shaped.
    apply IH; auto. eapply big_succ_valid; eauto.
Qed.

Lemma subl_biter m q i vs rem tr : biter E m q i vs rem tr -> m = Look -> forall q', valid E i -> subl q q' -> biter E m q' i vs rem tr.
Proof.
  induction 1 as [m q i tr H|m q i v mid vs rem tr tr' H Hs _ IH]; intros -> q' Hv Hq.
  - constructor. now apply Hq.
  - eapply BI_next with (mid := mid); eauto using look_shaped. apply IH; auto. eapply big_succ_valid; eauto.
Qed.

Lemma subl_btail m q d i prs rem tr : btail E m q d i prs rem tr -> m = Look -> forall q' d', valid E i -> subl q q' -> subl d d' ->
  btail E m q' d' i prs rem tr.
Proof.
  induction 1 as [m q d i tr H|m q d i w mid tr tr' H H'|m q d i w mid v mid' prs rem tr tr' tr'' H Hs H' Hs' _ IH];
    intros -> q' d' Hv Hq Hd.
  - constructor. now apply Hd.
  - eapply BT_back with (mid := mid); [apply Hd; eassumption|]. apply Hq; auto. eapply big_succ_valid; eauto.
  - assert (valid E mid) by (eapply big_succ_valid; eauto).
    eapply BT_next with (mid := mid) (mid' := mid'); eauto using look_shaped. apply IH; auto. eapply big_succ_valid; eauto.
Qed.

Lemma subl_list (l1 l2 : list (parser T)) p p' : subl p p' ->
  Forall2 sublm (map (pair Look) (l1 ++ p :: l2)) (map (pair Look) (l1 ++ p' :: l2)).
Proof.
  assert (R : forall l : list (parser T), Forall2 sublm (map (pair Look) l) (map (pair Look) l)).
  { induction l; constructor; auto. repeat split. intros i r tr _ H. exact H. }
  intros H. rewrite !map_app. apply Forall2_app; [apply R|]. cbn. constructor; [|apply R]. repeat split. exact H.
Qed.

Lemma subl_repeat q q' n : subl q q' -> Forall2 sublm (repeat (Look, q) n) (repeat (Look, q') n).
Proof. intros H. induction n; constructor; auto. repeat split. exact H. Qed.

Lemma compiles_hole c p : compiles E Look (plug (c) p) = true ->
  match c with
  | XChoice l1 c' l2 | XSequence l1 c' l2 => result_fors E (l1 ++ plug c' p :: l2) <> None /\ compiles E Look (plug c' p) = true
  | XHole => True
  | XMaybe c' | XExactly c' _ | XOneOrMore c' | XZeroOrMore c' | XDelimited c' _ | XDelimiter _ c' | XIgnore c' | XComplete c' | XJoin c'
  | XMap c' _ | XFilter c' _ | XNamed c' _ => compiles E Look (plug c' p) = true
  end.
Proof.
  assert (Hin : forall l1 (q : parser T) l2, In q (l1 ++ q :: l2)) by (intros; apply in_app_iff; right; now left).
  destruct c as [|l1 c l2|l1 c l2|c|c n|c|c|c d|q c|c|c|c|c f|c f|c s]; cbn [plug]; intros H; auto.
  - specialize (Hin l1 (plug c p) l2). unfold parts_of in H. destruct (l1 ++ plug c p :: l2) as [|a l] eqn:He; [destruct l1; discriminate|].
    split; [|eapply compiles_look_compound; eauto]. cbn [compiles] in H. destruct (result_fors E (a :: l)); [discriminate|congruence].
  - specialize (Hin l1 (plug c p) l2). unfold parts_of in H. destruct (l1 ++ plug c p :: l2) as [|a l] eqn:He; [destruct l1; discriminate|].
    split; [|eapply compiles_look_compound; eauto]. cbn [compiles] in H. destruct (result_fors E (a :: l)); [discriminate|congruence].
  - cbn [compiles] in H. now rewrite andb_true_r in H.
  - cbn [compiles] in H. apply andb_prop in H as [H1 H2]. rewrite ?andb_true_iff in *. tauto.
  - cbn [compiles] in H. now rewrite andb_true_r in H.
  - cbn [compiles] in H. now rewrite andb_true_r in H.
  - cbn [compiles] in H. rewrite ?andb_true_iff in *. tauto.
  - cbn [compiles] in H. rewrite ?andb_true_iff in *. tauto.
  - cbn [compiles] in H. rewrite ?andb_true_iff in *. tauto.
Qed.

Lemma subl_plug c p p' : subl p p' -> compiles E Look (plug c p') = true -> subl (plug c p) (plug c p').
Proof.
  intros Hp. induction c as [|l1 c IH l2|l1 c IH l2|c IH|c IH n|c IH|c IH|c IH d|q c IH|c IH|c IH|c IH|c IH f|c IH f|c IH s]; intros Hc;
    pose proof (compiles_hole _ _ Hc) as Hh; cbn [plug]; intros i r tr Hv B.
  - now apply Hp.
  - destruct Hh as [Hf Hh]. specialize (IH Hh). pose proof (subl_list l1 l2 _ _ IH) as H. cbn [plug] in *. unfold parts_of in *.
    destruct (l1 ++ plug c p :: l2) as [|a l] eqn:He; [destruct l1; discriminate|].
    destruct (l1 ++ plug c p' :: l2) as [|a' l'] eqn:He'; [destruct l1; discriminate|].
    destruct (result_fors E (a' :: l')) as [tys|] eqn:Ht; [|congruence].
    inversion B; subst; [eapply B_choice_look_ok | eapply B_choice_look_no]; eauto using subl_bfirst.
  - destruct Hh as [Hf Hh]. specialize (IH Hh). pose proof (subl_list l1 l2 _ _ IH) as H. cbn [plug] in *. unfold parts_of in *.
    destruct (l1 ++ plug c p :: l2) as [|a l] eqn:He; [destruct l1; discriminate|].
    destruct (l1 ++ plug c p' :: l2) as [|a' l'] eqn:He'; [destruct l1; discriminate|].
    destruct (result_fors E (a' :: l')) as [tys|] eqn:Ht; [|congruence].
    inversion B; subst; [eapply B_seq_look_ok | eapply B_seq_look_no]; eauto using subl_bchain.
  - inversion B; subst; [eapply B_maybe_look_some | eapply B_maybe_look_none]; apply IH; eauto.
  - inversion B; subst; [eapply B_exactly_look_ok | eapply B_exactly_look_no]; eauto; (eapply subl_bchain; [eassumption|eassumption|apply subl_repeat; auto]).
  - inversion B; subst; [eapply B_oom_look_ok | eapply B_oom_look_no]; eauto using subl_biter. now apply IH.
  - inversion B; subst. eapply B_zom_look; eauto using subl_biter.
  - inversion B; subst; [eapply B_delim_look_ok | eapply B_delim_look_no]; [apply IH; eassumption| |now apply IH].
    eapply subl_btail; eauto; [eapply big_succ_valid; eauto|]. intros ? ? ? ? H; exact H.
  - inversion B; subst; [eapply B_delim_look_ok | eapply B_delim_look_no]; [eassumption| |eassumption].
    eapply subl_btail; eauto; [eapply big_succ_valid; eauto|]. intros ? ? ? ? H; exact H.
  - inversion B; subst. constructor. now apply IH.
  - inversion B; subst; [eapply B_complete_ok | eapply B_complete_rest | eapply B_complete_no]; eauto; apply IH; eauto.
  - inversion B; subst. constructor. now apply IH.
  - inversion B; subst. constructor. now apply IH.
  - inversion B; subst. constructor. now apply IH.
  - inversion B; subst. constructor. now apply IH.
Qed.

Lemma looks_alike_subl p p' : looks_alike p p' <-> subl p p' /\ subl p' p.
Proof.
  assert (H : forall p p', (forall i o, valid E i -> says E Look p i o -> says E Look p' i o) <-> subl p p').
  { intros q q'. split.
    - intros H i r tr Hv B. destruct (proj1 big_look_plain _ _ _ _ _ B eq_refl) as [-> Hr].
      assert (He : r = look_result i (verdict r)).
      { destruct r as [[v|] rem]; cbn in *; [now rewrite (Hr v eq_refl)|]. f_equal. eapply big_fail; eauto. }
      rewrite He. apply says_look; auto. apply H; auto. apply says_look; auto. now rewrite <- He.
    - intros H i o Hv. rewrite !says_look by auto. now apply H. }
  split.
  - intros Ha. split; apply H; intros i o Hv; now apply Ha.
  - intros [H1 H2] i o Hv. split; now apply H.
Qed.

(** In lookahead it is enough that the parts look alike; the types may differ as long as the
    whole compiles. *)
Theorem C70_exchange_lookahead c p p' : looks_alike p p' ->
  compiles E Look (plug c p) = true -> compiles E Look (plug c p') = true -> looks_alike (plug c p) (plug c p').
Proof. rewrite !looks_alike_subl. intros [H H'] Hc Hc'. split; now apply subl_plug. Qed.
End Exchange.

(** ** Substitution by name *)

(** [p % sub{"n" = m}]: if what [m] makes of the parts named [n] is alike to them, the result is alike to [p]. *)
Lemma sub_rebuilt {T V} (E : env T V) (p : parser T) qs r : rebuilt p qs r -> Forall2 (sub E) (children p) qs -> sub E p r.
Proof.
  intros H HF. destruct H; cbn [children] in HF; try (inversion HF as [|? ? ? ? H1 H2]; subst; clear HF).
  - apply sub_refl.
  - apply sub_choice. now constructor.
  - apply sub_sequence. now constructor.
  - inversion H2; subst. now apply sub_delimit.
  - now apply (sub_plug E (XMaybe XHole)).
  - now apply (sub_plug E (XExactly XHole n)).
  - now apply (sub_plug E (XOneOrMore XHole)).
  - now apply (sub_plug E (XZeroOrMore XHole)).
  - now apply (sub_plug E (XIgnore XHole)).
  - now apply (sub_plug E (XComplete XHole)).
  - now apply (sub_plug E (XJoin XHole)).
  - now apply (sub_plug E (XMap XHole f)).
  - now apply (sub_plug E (XFilter XHole f)).
  - now apply (sub_plug E (XNamed XHole s)).
Qed.

(** the other way round *)
Lemma sub_rebuilt_back {T V} (E : env T V) (p : parser T) qs r : rebuilt p qs r -> Forall2 (fun q q' => sub E q' q) (children p) qs -> sub E r p.
Proof.
  intros H HF. apply sub_rebuilt with (qs := children p).
  - destruct H as [p Hc| | | | | | | | | | | | |]; [|constructor..]. rewrite Hc. now constructor.
  - assert (Hq : children r = qs) by (destruct H; auto). rewrite Hq. clear - HF. induction HF; constructor; auto.
Qed.

Lemma substituted_sub {T V} (E : env T V) n (f : parser T -> parser T -> Prop) :
  (forall q r, f q r -> alike E (PNamed q n) r) -> forall p r, substituted n f p r -> sub E p r /\ sub E r p.
Proof.
  intros Hf. assert (Ht : forall a b c, sub E a b -> sub E b c -> sub E a c).
  { intros a b c [H1 H2] [H3 H4]. split; [congruence|auto]. }
  apply (substituted_mut n f (fun p r _ => sub E p r /\ sub E r p)
    (fun qs rs _ => Forall2 (sub E) qs rs /\ Forall2 (fun q q' => sub E q' q) qs rs)).
  - intros q q' r _ [H1 H2] Hfr. apply Hf, alike_sub in Hfr as [H3 H4].
    split; [apply Ht with (b := PNamed q' n) | apply Ht with (b := PNamed q' n)]; auto; now apply (sub_plug E (XNamed XHole n)).
  - intros p qs r _ _ [H1 H2] Hr. split; [eapply sub_rebuilt | eapply sub_rebuilt_back]; eauto.
  - auto.
  - intros q q' qs qs' _ [H1 H2] _ [H3 H4]. auto.
Qed.

Theorem C70_substitution {T V} (E : env T V) n (f : parser T -> option (parser T)) (p r : parser T) :
  (forall q q', f q = Some q' -> alike E (PNamed q n) q') -> substitute_one n f p = Some r -> alike E p r.
Proof.
  intros Hf H. apply sub_spec in H. apply alike_sub. eapply substituted_sub; eauto. exact Hf.
Qed.

(** ** Replacing the parsers behind custom parsers *)

(** The same program with other [get_parser()]s. *)
Definition with_bodies {T V} (E : env T V) (b : nat -> parser T) : env T V := {|
  eqv := eqv E; mem := mem E; fn_ret := fn_ret E; fn_app := fn_app E; ct_ok := ct_ok E; ct_app := ct_app E;
  k_ty := k_ty E; k_val := k_val E; bool_ok := bool_ok E; as_bool := as_bool E;
  cust_body := b; cust_ty := cust_ty E; cust_conv := cust_conv E |}.

Section Grammar.
Context {T V : Type} (E : env T V) (b : nat -> parser T).
Let E' := with_bodies E b.

Lemma with_bodies_for p : result_for E' p = result_for E p.
Proof. reflexivity. Qed.

(** What runs in [E] runs in [E'], if the new bodies run what the old ones run. *)
Lemma bodies_big : (forall c m i r tr, valid E' i -> big E' m (cust_body E c) i r tr -> big E' m (b c) i r tr) ->
  (forall m p i r tr, big E m p i r tr -> valid E i -> big E' m p i r tr) /\
  (forall l i o tr, bfirst E l i o tr -> valid E i -> bfirst E' l i o tr) /\
  (forall l i o tr, bchain E l i o tr -> valid E i -> bchain E' l i o tr) /\
  (forall m q i vs rem tr, biter E m q i vs rem tr -> valid E i -> biter E' m q i vs rem tr) /\
  (forall m q d i prs rem tr, btail E m q d i prs rem tr -> valid E i -> btail E' m q d i prs rem tr).
Proof.
  intros Hb. assert (Hs : forall m p v, shaped E m p v -> shaped E' m p v) by (intros ? ? ? H; exact H).
  apply big_mut; intros;
    repeat match goal with H : valid E ?i -> _, H' : valid E ?i |- _ => specialize (H H') end;
    repeat match goal with
      | B : big E ?m ?q ?i (Res (Some ?v) ?mid) _, H : valid E ?mid -> _ |- _ =>
          specialize (H ltac:(eapply big_succ_valid; [|exact B]; assumption))
      end.
  all: try (econstructor; solve [eauto]).
  eapply BT_next with (mid := mid) (mid' := mid'); eauto. apply H1. eapply big_succ_valid; [|exact b1]. eapply big_succ_valid; [|exact b0]. assumption.
Qed.
End Grammar.

(** If every custom parser's new body is alike its old one, before and after, then every parser of the
    program returns what it returned, in recursive grammars too. *)
Theorem C70_grammar {T V} (E : env T V) (b : nat -> parser T) :
  (forall c, alike E (cust_body E c) (b c)) -> (forall c, alike (with_bodies E b) (cust_body E c) (b c)) ->
  forall m p i r tr, valid E i -> (evals E m p i (Done r tr) <-> evals (with_bodies E b) m p i (Done r tr)).
Proof.
  intros H1 H2 m p i r tr Hv. rewrite evals_big by exact Hv. rewrite evals_big by exact Hv. split; intros H.
  - eapply (proj1 (bodies_big E b _)); eauto.
  - assert (HE : E = with_bodies (with_bodies E b) (cust_body E)) by now destruct E.
    rewrite HE. eapply (proj1 (bodies_big (with_bodies E b) (cust_body E) _)); eauto.
  Unshelve.
  + intros c m0 i0 r0 tr0 Hv0 B. apply (proj1 (alike_sub _ _ _) (H2 c)); auto.
  + intros c m0 i0 r0 tr0 Hv0 B. rewrite <- HE in *. apply (proj1 (alike_sub _ _ _) (H1 c)); auto.
Qed.

(** Parsers that are alike in every program may be exchanged in the bodies. *)
Corollary C70_rule {T V} (E : env T V) (k : nat) (c : ctx T) (p p' : parser T) :
  (forall E : env T V, alike E p p') -> cust_body E k = plug c p ->
  let E' := with_bodies E (fun n => if Nat.eqb n k then plug c p' else cust_body E n) in
  forall m q i r tr, valid E i -> (evals E m q i (Done r tr) <-> evals E' m q i (Done r tr)).
Proof.
  intros H Hk E' m q i r tr Hv. apply C70_grammar; auto; intros n; destruct (Nat.eqb_spec n k) as [->|];
    try (rewrite Hk; now apply C70_exchange); split; intros; reflexivity.
Qed.

(** ** Concrete cases *)

Lemma named_alike {T V} (E : env T V) (p : parser T) s : alike E (PNamed p s) p.
Proof.
  apply alike_sub. split; (split; [reflexivity|]); intros m i r tr Hv B; [now inversion B | now constructor].
Qed.

(** [+(~"(" >> named("letter", letter))] and the same without the name. *)
Definition c70_ctx : ctx nat := XOneOrMore (XSequence [PMaybe (PAllOf (codes "("))] XHole []).
Example C70_exchange_example :
  alike sx (plug c70_ctx (PNamed sx_letter "letter")) (plug c70_ctx sx_letter) /\
  exists n v rem, run sx n Parse (plug c70_ctx sx_letter) (Span 1 1 16) = Done (Res (Some v) rem) [] /\ sp_len rem < 16 /\
    run sx n Parse (plug c70_ctx (PNamed sx_letter "letter")) (Span 1 1 16) = Done (Res (Some v) rem) [].
Proof.
  split; [apply C70_exchange, named_alike|]. exists 30. eexists. eexists. split; [vm_compute; reflexivity|]. split; [cbn; lia|].
  vm_compute. reflexivity.
Qed.

Example C70_contexts_example : part sx_letter (plug c70_ctx sx_letter).
Proof. apply C70_contexts. now exists c70_ctx. Qed.

(** [(+(~"(" >> letter % name("letter"))) % sub{"letter" = name("character")}]: giving the part another name. *)
Example C70_substitution_example :
  substitute_one "letter" (fun q => Some (PNamed q "character")) (plug c70_ctx (PNamed sx_letter "letter")) =
    Some (plug c70_ctx (PNamed sx_letter "character")) /\
  alike sx (plug c70_ctx (PNamed sx_letter "letter")) (plug c70_ctx (PNamed sx_letter "character")).
Proof.
  assert (H : substitute_one "letter" (fun q => Some (PNamed q "character")) (plug c70_ctx (PNamed sx_letter "letter")) =
    Some (plug c70_ctx (PNamed sx_letter "character"))) by reflexivity.
  split; [exact H|]. eapply C70_substitution; [|exact H]. intros q q' [= <-].
  destruct (named_alike sx q "letter") as [H1 H2], (named_alike sx q "character") as [H3 H4]. split; [congruence|].
  intros. rewrite H2, H4 by auto. reflexivity.
Qed.

(** The recursive rule [list] of the sample grammar with its element named: all texts give the same lists. *)
Definition c70_rule_ctx : ctx nat :=
  XSequence [PIgnore (PAllOf (codes "("))] (XZeroOrMore (XChoice [PCustom 0] XHole [])) [PIgnore (PAllOf (codes ")"))].
Definition c70_body (n : nat) : parser nat :=
  if Nat.eqb n 0 then plug c70_rule_ctx (PNamed (PCustom 1) "word") else cust_body sx n.
Example C70_rule_example : cust_body sx 0 = plug c70_rule_ctx (PCustom 1) /\
  (forall m i r tr, valid sx i -> (evals sx m (PCustom 0) i (Done r tr) <-> evals (with_bodies sx c70_body) m (PCustom 0) i (Done r tr))) /\
  exists n v tr, run (with_bodies sx c70_body) n Parse (PCustom 0) in1 = Done (Res (Some v) (at1 6)) tr.
Proof.
  split; [reflexivity|]. split.
  - intros. apply (C70_rule sx 0 c70_rule_ctx (PCustom 1) (PNamed (PCustom 1) "word")); auto. intros E.
    destruct (named_alike E (PCustom 1) "word") as [H1 H2]. split; [now symmetry|]. intros. symmetry. now apply H2.
  - exists 40. eexists. eexists. vm_compute. reflexivity.
Qed.

Print Assumptions C70_contexts.
Print Assumptions C70_exchange.
Print Assumptions C70_exchange_lookahead.
Print Assumptions C70_grammar.
Print Assumptions C70_substitution.
Print Assumptions C70_rule.
Print Assumptions C70_exchange_example.
Print Assumptions C70_rule_example.
Print Assumptions C70_contexts_example.
Print Assumptions C70_substitution_example.
