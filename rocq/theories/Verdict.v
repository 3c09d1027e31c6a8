(** * Success and remaining input only: specification vocabulary for the operators *)
From Coq Require Import String List Arith ZArith Bool Lia.
From Verif Require Import Types Compound Parser Outcome CompoundFacts ChoiceIndex Exec Mono Derive Typing Join Leaves Sound
  BigStep BigSound BigComplete Peg Elems Runs Samples PropCore PropBasic PropChoice.
Import ListNotations.

Definition verdict (r : presult) : option span :=
  match r_ok r with Some _ => Some (r_rem r) | None => None end.

Section Verdict.
Context {T V : Type} (E : env T V).

(** [p] returns: [Some rem] = succeeds leaving [rem], [None] = fails. *)
Definition says (m : mode) (p : parser T) (i : span) (o : option span) : Prop :=
  exists r tr, evals E m p i (Done r tr) /\ o = verdict r.

Lemma says_some m p i rem : says m p i (Some rem) <-> exists v tr, gives E m p i v rem tr.
Proof.
  split.
  - intros ([[v|] rem'] & tr & H & He); [|discriminate]. injection He as ->. exists v, tr. exact H.
  - intros (v & tr & H). eexists _, tr. split; [exact H|reflexivity].
Qed.

Lemma says_none m p i : valid E i -> says m p i None <-> exists tr, refuses E m p i tr.
Proof.
  intros Hv. split.
  - intros ([[v|] rem'] & tr & H & He); [discriminate|]. exists tr. unfold refuses.
    pose proof (C01_failure_gives_back_the_input E m p i rem' tr Hv H) as ->. exact H.
  - intros (tr & H). eexists _, tr. split; [exact H|reflexivity].
Qed.

Lemma says_det m p i o o' : says m p i o -> says m p i o' -> o = o'.
Proof.
  intros (r & tr & H & ->) (r' & tr' & H' & ->). pose proof (C43_one_outcome _ _ _ _ _ _ H H') as He.
  injection He as -> _. reflexivity.
Qed.

Lemma says_valid m p i rem : valid E i -> says m p i (Some rem) -> valid E rem.
Proof. intros Hv (v & tr & H)%says_some. eauto using gives_valid. Qed.

(** The first one that succeeds. *)
Inductive tries : list (mode * parser T) -> span -> option span -> Prop :=
| tries_nil i : tries [] i None
| tries_here m p l i rem : says m p i (Some rem) -> tries ((m, p) :: l) i (Some rem)
| tries_next m p l i o : says m p i None -> tries l i o -> tries ((m, p) :: l) i o.

(** All of them, one after the other. *)
Inductive chains : list (mode * parser T) -> span -> option span -> Prop :=
| chains_nil i : chains [] i (Some i)
| chains_stop m p l i : says m p i None -> chains ((m, p) :: l) i None
| chains_next m p l i mid o : says m p i (Some mid) -> chains l mid o -> chains ((m, p) :: l) i o.

(** As often as possible. *)
Inductive loops (m : mode) (q : parser T) : span -> span -> Prop :=
| loops_end i : says m q i None -> loops m q i i
| loops_next i mid rem : says m q i (Some mid) -> loops m q mid rem -> loops m q i rem.

Lemma tries_one m p i o : tries [(m, p)] i o <-> says m p i o.
Proof.
  split.
  - inversion 1; subst; auto. match goal with H : tries [] _ _ |- _ => inversion H; subst; auto end.
  - destruct o; intros H; [now constructor|]. apply tries_next; [auto|constructor].
Qed.

Lemma chains_one m p i o : chains [(m, p)] i o <-> says m p i o.
Proof.
  split.
  - inversion 1; subst; auto. match goal with H : chains [] _ _ |- _ => inversion H; subst; auto end.
  - destruct o; intros H; [|now constructor]. eapply chains_next; [eauto|constructor].
Qed.

Lemma tries_app l1 : forall l2 i o, tries (l1 ++ l2) i o <->
  (exists rem, o = Some rem /\ tries l1 i (Some rem)) \/ (tries l1 i None /\ tries l2 i o).
Proof.
  induction l1 as [|[m p] l1 IH]; intros l2 i o; cbn [app].
  - split; [right; split; auto; constructor|]. intros [(rem & -> & H)|[_ H]]; auto. inversion H.
  - split.
    + inversion 1; subst; [left; eexists; split; eauto; now constructor|].
      match goal with H : tries (_ ++ _) _ _ |- _ => apply IH in H as [(rem & -> & H)|[H H']] end.
      * left. exists rem. split; auto. now constructor.
      * right. split; auto. now constructor.
    + intros [(rem & -> & H)|[H H']]; inversion H; subst; try (now constructor);
        (apply tries_next; auto; apply IH; eauto).
Qed.

Lemma chains_app l1 : forall l2 i o, chains (l1 ++ l2) i o <->
  (exists mid, chains l1 i (Some mid) /\ chains l2 mid o) \/ (chains l1 i None /\ o = None).
Proof.
  induction l1 as [|[m p] l1 IH]; intros l2 i o; cbn [app].
  - split; [left; exists i; split; auto; constructor|]. intros [(mid & H & H')|[H _]]; inversion H; subst; auto.
  - split.
    + inversion 1; subst; [right; split; auto; now constructor|].
      match goal with H : chains (_ ++ _) _ _ |- _ => apply IH in H as [(rem & H & H')|[H ->]] end.
      * left. exists rem. split; auto. eapply chains_next; eauto.
      * right. split; auto. eapply chains_next; eauto.
    + intros [(rem & H & H')|[H ->]]; inversion H; subst; try (now constructor);
        (eapply chains_next; eauto; apply IH; eauto).
Qed.

(** ** Links *)
Lemma tries_none_of l i o : valid E i -> tries l i o <->
  (o = None /\ exists tr, none_of E l i tr) \/
  (exists l1 m p l2 tr1 v rem tr2, l = l1 ++ (m, p) :: l2 /\ none_of E l1 i tr1 /\ gives E m p i v rem tr2 /\ o = Some rem).
Proof.
  intros Hv. split.
  - induction 1 as [i|m p l i rem H|m p l i o H Ht IH].
    + left. split; auto. exists []. constructor.
    + right. apply says_some in H as (v & tr & H). exists [], m, p, l, [], v, rem, tr.
      split; [reflexivity|]. split; [constructor|]. auto.
    + apply says_none in H as (tr & H); auto. destruct (IH Hv) as [[-> [tr' Hn]]|(l1 & m' & p' & l2 & tr1 & v & rem & tr2 & -> & Hn & Hg & ->)].
      * left. split; auto. eexists. econstructor; eauto.
      * right. exists ((m, p) :: l1), m', p', l2, (tr ++ tr1), v, rem, tr2. split; [reflexivity|]. split; [now constructor|]. auto.
  - intros [[-> [tr H]]|(l1 & m & p & l2 & tr1 & v & rem & tr2 & -> & Hn & Hg & ->)].
    + induction H; [constructor|]. apply tries_next; auto. apply says_none; eauto.
    + induction Hn; cbn [app].
      * apply tries_here. apply says_some. eauto.
      * apply tries_next; auto. apply says_none; eauto.
Qed.

Lemma chains_each l i o : valid E i -> chains l i o <->
  (o = None /\ exists tr, breaks E l i tr) \/ (exists vs rem tr, each E l i vs rem tr /\ o = Some rem).
Proof.
  intros Hv. split.
  - induction 1 as [i|m p l i H|m p l i mid o H Ht IH].
    + right. exists [], i, []. split; auto. constructor.
    + left. split; auto. apply says_none in H as (tr & H); auto. exists tr. now constructor.
    + assert (Hm : valid E mid) by eauto using says_valid. apply says_some in H as (v & tr & H).
      destruct (IH Hm) as [[-> [tr' Hn]]|(vs & rem & tr' & He & ->)].
      * left. split; auto. eexists. eapply breaks_later; eauto.
      * right. exists (v :: vs), rem, (tr ++ tr'). split; auto. econstructor; eauto.
  - intros [[-> [tr H]]|(vs & rem & tr & H & ->)].
    + induction H.
      * apply chains_stop. apply says_none; eauto.
      * eapply chains_next; [apply says_some; eauto|]. apply IHbreaks. eauto using gives_valid.
    + induction H; [constructor|]. eapply chains_next; [apply says_some; eauto|]. apply IHeach. eauto using gives_valid.
Qed.

Lemma loops_each m q i rem : valid E i -> loops m q i rem <->
  exists vs tr, as_often_as_possible E m q i vs rem tr.
Proof.
  intros Hv. split.
  - induction 1 as [i H|i mid rem H Hl IH].
    + apply says_none in H as (tr & H); auto. exists [], tr, [], tr. split; [constructor|]. auto.
    + assert (Hm : valid E mid) by eauto using says_valid. apply says_some in H as (v & tr & H).
      destruct (IH Hm) as (vs & tr' & tr1 & tr2 & He & Hr & ->).
      exists (v :: vs), (tr ++ tr1 ++ tr2), (tr ++ tr1), tr2. split; [cbn; econstructor; eauto|]. split; auto. apply app_assoc.
  - intros (vs & tr & tr1 & tr2 & He & Hr & ->). revert i tr1 Hv He.
    induction vs as [|v vs IH]; intros i tr1 Hv He; cbn in He; inversion He; subst.
    + apply loops_end. apply says_none; eauto.
    + eapply loops_next; [apply says_some; eauto|]. eapply IH; eauto using gives_valid.
Qed.

Lemma loops_valid m q i rem : valid E i -> loops m q i rem -> valid E rem.
Proof. intros Hv H. induction H; auto. eauto using says_valid. Qed.

Lemma loops_stop m q i rem : loops m q i rem -> says m q rem None.
Proof. induction 1; auto. Qed.

Lemma loops_det m q i rem rem' : loops m q i rem -> loops m q i rem' -> rem = rem'.
Proof.
  intros H. revert rem'. induction H as [i H|i mid rem H Hl IH]; intros rem' H'; inversion H' as [j Hj|j mid' rem'' Hj Hl']; subst; auto.
  - pose proof (says_det _ _ _ _ _ H Hj). discriminate.
  - pose proof (says_det _ _ _ _ _ H Hj). discriminate.
  - pose proof (says_det _ _ _ _ _ H Hj) as He. injection He as <-. auto.
Qed.

(** ** The combinators in these words *)
Hypothesis HP : program E.

Lemma says_maybe m q i o : valid E i -> compiles E m (PMaybe q) = true ->
  says m (PMaybe q) i o <-> exists o', says m q i o' /\ o = Some (match o' with Some rem => rem | None => i end).
Proof.
  intros Hv Hc. cbn [compiles] in Hc. apply andb_true_iff in Hc as [Hc Ht]. unfold says at 1. destruct m.
  - destruct (result_for E q) as [t|] eqn:Hr; [|discriminate].
    setoid_rewrite (fun r tr => C13_maybe_parse E q t i r tr HP Hv Hc Hr). split.
    + intros (r & tr & [(v & rem & Hg & ->)|[Hg ->]] & ->).
      * exists (Some rem). split; auto. apply says_some. eauto.
      * exists None. split; auto. apply says_none; eauto.
    + intros ([rem|] & H & ->).
      * apply says_some in H as (v & tr & H). eexists _, tr. split; [left; exists v, rem; split; [exact H|reflexivity]|reflexivity].
      * apply says_none in H as (tr & H); auto. eexists _, tr. split; [right; split; [exact H|reflexivity]|reflexivity].
  - setoid_rewrite (fun r tr => C13_maybe_look E q i r tr Hv). split.
    + intros (r & tr & [(v & rem & Hg & ->)|[Hg ->]] & ->).
      * exists (Some rem). split; auto. apply says_some. eauto.
      * exists None. split; auto. apply says_none; eauto.
    + intros ([rem|] & H & ->).
      * apply says_some in H as (v & tr & H). eexists _, tr. split; [left; exists v, rem; split; [exact H|reflexivity]|reflexivity].
      * apply says_none in H as (tr & H); auto. eexists _, tr. split; [right; split; [exact H|reflexivity]|reflexivity].
Qed.

Lemma collected_exists t q i vs rem tr : compiles E Parse q = true -> result_for E q = Some t -> valid E i ->
  each E (repeat (Parse, q) (List.length vs)) i vs rem tr -> exists w, collected VVec t vs w.
Proof.
  intros Hc Hr Hv He. unfold collected. destruct (is_void t) eqn:Ht; [eauto|]. apply is_void_false in Ht.
  enough (exists ws, vs = map RVal ws) as (ws & ->) by eauto.
  revert i tr Hv He. induction vs as [|v vs IH]; intros i tr Hv He; [exists []; auto|].
  cbn in He. inversion He as [|m' p' l' i' v' mid vs' rem' tr1 tr2 Hg Hl]; subst.
  destruct (IH mid tr2) as (ws & ->); eauto using gives_valid.
  destruct (shaped_typed E _ _ _ _ _ _ HP Hv Hc Hg eq_refl t Hr Ht) as (w & ->). now exists (w :: ws).
Qed.

Lemma says_zero_or_more m q i o : valid E i -> compiles E m (PZeroOrMore q) = true ->
  says m (PZeroOrMore q) i o <-> exists rem, o = Some rem /\ loops m q i rem.
Proof.
  intros Hv Hc. cbn [compiles] in Hc. apply andb_true_iff in Hc as [Hc Ht]. unfold says at 1. destruct m.
  - destruct (result_for E q) as [t|] eqn:Hr; [|discriminate].
    setoid_rewrite (fun r tr => C14_zero_or_more_parse E q t i r tr HP Hv Hc Hr). split.
    + intros (r & tr & (vs & w & rem & Ha & _ & ->) & ->). exists rem. split; auto. apply loops_each; eauto.
    + intros (rem & -> & H). apply loops_each in H as (vs & tr & H); auto. pose proof H as (tr1 & tr2 & He & _).
      destruct (collected_exists t q i vs rem tr1 Hc Hr Hv He) as (w & Hw). eexists _, tr. split; [exists vs, w, rem; split; [exact H|split; [exact Hw|reflexivity]]|reflexivity].
  - setoid_rewrite (fun r tr => C14_zero_or_more_look E q i r tr HP Hv Hc). split.
    + intros (r & tr & (vs & rem & Ha & ->) & ->). exists rem. split; auto. apply loops_each; eauto.
    + intros (rem & -> & H). apply loops_each in H as (vs & tr & H); auto.
      eexists _, tr. split; [exists vs, rem; split; [exact H|reflexivity]|reflexivity].
Qed.

Lemma says_one_or_more m q i o : valid E i -> compiles E m (POneOrMore q) = true ->
  says m (POneOrMore q) i o <->
  (says m q i None /\ o = None) \/ (exists mid rem, says m q i (Some mid) /\ loops m q mid rem /\ o = Some rem).
Proof.
  intros Hv Hc. cbn [compiles] in Hc. apply andb_true_iff in Hc as [Hc Ht].
  assert (Hne : forall vs rem tr, vs <> [] -> as_often_as_possible E m q i vs rem tr ->
    exists mid rem', says m q i (Some mid) /\ loops m q mid rem' /\ Some rem = Some rem').
  { intros [|v vs] rem tr Hn Ha; [contradiction|]. destruct Ha as (tr1 & tr2 & He & Hr & ->). cbn in He.
    inversion He as [|m' p' l' i' v' mid vs' rem' tr3 tr4 Hg Hl]; subst. exists mid, rem. split; [apply says_some; eauto|].
    split; auto. apply loops_each; [eauto using gives_valid|]. exists vs, (tr4 ++ tr2), tr4, tr2. auto. }
  assert (Hen : forall mid rem, says m q i (Some mid) -> loops m q mid rem ->
    exists vs tr, vs <> [] /\ as_often_as_possible E m q i vs rem tr).
  { intros mid rem H Hl. assert (Hm : valid E mid) by eauto using says_valid. apply says_some in H as (v & tr & H).
    apply loops_each in Hl as (vs & tr' & tr1 & tr2 & He & Hr & ->); auto.
    exists (v :: vs), (tr ++ tr1 ++ tr2). split; [discriminate|]. exists (tr ++ tr1), tr2. split; [cbn; econstructor; eauto|].
    split; auto. apply app_assoc. }
  unfold says at 1. destruct m.
  - destruct (result_for E q) as [t|] eqn:Hr; [|discriminate].
    setoid_rewrite (fun r tr => C14_one_or_more_parse E q t i r tr HP Hv Hc Hr). split.
    + intros (r & tr & [(vs & w & rem & Hn & Ha & _ & ->)|[Hg ->]] & ->); [right; eapply Hne; eauto|].
      left. split; auto. apply says_none; eauto.
    + intros [[H ->]|(mid & rem & H & Hl & ->)].
      * apply says_none in H as (tr & H); auto. eexists _, tr. split; [right; split; [exact H|reflexivity]|reflexivity].
      * destruct (Hen mid rem H Hl) as (vs & tr & Hn & Ha). pose proof Ha as (tr1 & tr2 & He & _).
        destruct (collected_exists t q i vs rem tr1 Hc Hr Hv He) as (w & Hw).
        eexists _, tr. split; [left; exists vs, w, rem; split; [exact Hn|split; [exact Ha|split; [exact Hw|reflexivity]]]|reflexivity].
  - setoid_rewrite (fun r tr => C14_one_or_more_look E q i r tr HP Hv Hc). split.
    + intros (r & tr & [(vs & rem & Hn & Ha & ->)|[Hg ->]] & ->); [right; eapply Hne; eauto|].
      left. split; auto. apply says_none; eauto.
    + intros [[H ->]|(mid & rem & H & Hl & ->)].
      * apply says_none in H as (tr & H); auto. eexists _, tr. split; [right; split; [exact H|reflexivity]|reflexivity].
      * destruct (Hen mid rem H Hl) as (vs & tr & Hn & Ha).
        eexists _, tr. split; [left; exists vs, rem; split; [exact Hn|split; [exact Ha|reflexivity]]|reflexivity].
Qed.

(** ** Choice and sequence *)

(** The mode in which a parser of a compound is run: when values are asked for, a part
    without a value is only recognised. *)
Definition natural (m : mode) (p : parser T) : mode :=
  match m with
  | Look => Look
  | Parse => match result_for E p with Some t => part_mode t | None => Parse end
  end.
Definition naturals (m : mode) (ps : list (parser T)) : list (mode * parser T) := map (fun p => (natural m p, p)) ps.

(** Every alternative that has a value is properly indexed (see C10). *)
Definition indexed (p : parser T) : Prop :=
  match p with
  | PChoice q qs => forall tys, result_fors E (q :: qs) = Some tys ->
      forall j t, nth_error tys j = Some t -> t <> TVoid -> proper tys j
  | _ => True
  end.

Lemma naturals_look ps : naturals Look ps = map (pair Look) ps.
Proof. reflexivity. Qed.

Lemma naturals_parse ps : forall tys, result_fors E ps = Some tys -> naturals Parse ps = combine (map part_mode tys) ps.
Proof.
  unfold result_fors. induction ps as [|p ps IH]; intros tys H; cbn in H.
  - injection H as <-. reflexivity.
  - destruct (result_for E p) as [t|] eqn:Hp; [|discriminate]. destruct (all_some (map (result_for E) ps)) as [l|] eqn:Hl; [|discriminate].
    injection H as <-. cbn. rewrite Hp. f_equal. now apply IH.
Qed.

Lemma combine_look (ps : list (parser T)) : forall tys : list ty, List.length tys = List.length ps -> Forall (fun t => t = TVoid) tys ->
  combine (map part_mode tys) ps = map (pair Look) ps.
Proof.
  induction ps as [|p ps IH]; intros [|t tys] Hl HF; cbn in *; try discriminate; auto.
  inversion HF; subst. cbn. f_equal. apply IH; auto.
Qed.

Lemma list_ext {A} (l : list A) : forall l', List.length l = List.length l' -> (forall j, nth_error l j = nth_error l' j) -> l = l'.
Proof.
  induction l as [|a l IH]; intros [|b l'] Hl H; cbn in *; try discriminate; auto.
  pose proof (H 0) as H0. injection H0 as ->. f_equal. apply IH; [lia|]. intros j. apply (H (S j)).
Qed.

Lemma modes_natural tys ms : modes_ok tys ms ->
  (forall j t, nth_error tys j = Some t -> t <> TVoid -> proper tys j) -> ms = map part_mode tys.
Proof.
  intros [Hl Hm] Hp. apply list_ext; [now rewrite map_length|]. intros j.
  rewrite nth_error_map. destruct (nth_error tys j) as [t|] eqn:Ht; cbn.
  - destruct (nth_error ms j) as [m|] eqn:Hj.
    + destruct (Hm j t m Ht Hj) as [H1 H2]. f_equal. unfold part_mode. destruct (is_void t) eqn:Hv.
      * apply H1. now apply is_void_spec.
      * apply is_void_false in Hv. apply H2; eauto.
    + apply nth_error_None in Hj. assert (j < List.length tys) by (apply nth_error_Some; congruence). lia.
  - apply nth_error_None. apply nth_error_None in Ht. lia.
Qed.

(** In a void compound every part is void. *)
Lemma void_choice q qs tys : result_fors E (q :: qs) = Some tys -> result_for E (PChoice q qs) = Some TVoid ->
  Forall (fun t => t = TVoid) tys.
Proof.
  intros Hr Ht. rewrite result_for_choice, Hr, done_of_eq in Ht. injection Ht as Ht.
  apply Forall_forall. intros t Hin. destruct (ty_eqb t TVoid) eqn:Hv; [now apply ty_eqb_spec|].
  apply ty_eqb_neq in Hv. assert (Hd : In t (done_of tys)) by (apply done_in; auto).
  unfold compound_result in Ht. destruct (done_of tys) as [|a [|b l]] eqn:Hdo; [contradiction| |discriminate].
  subst a. assert (Hx : In TVoid (done_of tys)) by (rewrite Hdo; now left). apply done_in in Hx as [_ Hx]. congruence.
Qed.

Lemma void_sequence q qs tys : result_fors E (q :: qs) = Some tys -> result_for E (PSequence q qs) = Some TVoid ->
  Forall (fun t => t = TVoid) tys.
Proof.
  intros Hr Ht. cbn [result_for] in Ht. change (all_some (result_for E q :: map (result_for E) qs)) with (result_fors E (q :: qs)) in Ht.
  rewrite Hr, filter_out_void_spec in Ht. cbn [fst] in Ht. injection Ht as Ht.
  apply Forall_forall. intros t Hin. destruct (ty_eqb t TVoid) eqn:Hv; [now apply ty_eqb_spec|].
  apply ty_eqb_neq in Hv. assert (Hd : In t (nonvoid tys)).
  { apply filter_In. split; auto. now apply negb_true_iff, is_void_false. }
  unfold compound_result in Ht. destruct (nonvoid tys) as [|a [|b l]] eqn:Hdo; [contradiction| |discriminate].
  subst a. assert (Hx : In TVoid (nonvoid tys)) by (rewrite Hdo; now left). apply filter_In in Hx as [_ Hx]. discriminate.
Qed.

Lemma look_fors' q qs : compiles E Look (PChoice q qs) = true \/ compiles E Look (PSequence q qs) = true ->
  exists tys, result_fors E (q :: qs) = Some tys.
Proof. intros [H|H]; cbn [compiles] in H; destruct (result_fors E (q :: qs)); eauto; discriminate. Qed.

Lemma parse_fors q qs : compiles E Parse (PChoice q qs) = true \/ compiles E Parse (PSequence q qs) = true ->
  exists tys, result_fors E (q :: qs) = Some tys.
Proof. intros [H|H]; cbn [compiles] in H; destruct (result_fors E (q :: qs)); eauto; discriminate. Qed.

Lemma says_choice_look q qs i o : valid E i -> compiles E Look (PChoice q qs) = true ->
  says Look (PChoice q qs) i o <-> tries (map (pair Look) (q :: qs)) i o.
Proof.
  intros Hv Hc. rewrite tries_none_of by auto. unfold says.
  setoid_rewrite (fun r tr => C09_choice_look E q qs i r tr Hv Hc). split.
  - intros (r & tr & [[Hn ->]|(l1 & p & l2 & v & rem & tr1 & tr2 & Hl & Hn & Hg & -> & ->)] & ->).
    + left. eauto.
    + right. exists (map (pair Look) l1), Look, p, (map (pair Look) l2), tr1, v, rem, tr2.
      rewrite Hl, map_app. auto.
  - intros [[-> [tr Hn]]|(l1 & m & p & l2 & tr1 & v & rem & tr2 & Hl & Hn & Hg & ->)].
    + eexists _, tr. split; [left; split; [exact Hn|reflexivity]|reflexivity].
    + apply map_eq_app in Hl as (a & b & Hab & <- & Hb). apply map_eq_cons in Hb as (p' & b' & -> & [= <- <-] & <-).
      eexists _, (tr1 ++ tr2). split; [right; exists a, p', b', v, rem, tr1, tr2; split; [exact Hab|]; split; [exact Hn|]; split; [exact Hg|]; split; reflexivity|reflexivity].
Qed.

Lemma holds_exists tys t x : In t tys -> t <> TVoid -> exists w, holds tys (compound_result TVar (done_of tys)) t x w.
Proof.
  intros Hin Ht. destruct (done_shape tys t Hin Ht) as [[H Hd]|(H & _ & Hr)].
  - exists (RVal x). left. rewrite Hd. auto.
  - assert (Hi : In t (done_of tys)) by (apply done_in; auto). apply In_nth_error in Hi as (k & Hk).
    exists (RVal (VVar k x)). right. split; auto. exists (done_of tys), k. split; auto. split; [apply done_nodup|].
    split; [apply done_in'|auto].
Qed.

Lemma says_choice_parse q qs i o : valid E i -> compiles E Parse (PChoice q qs) = true -> indexed (PChoice q qs) ->
  says Parse (PChoice q qs) i o <-> tries (naturals Parse (q :: qs)) i o.
Proof.
  intros Hv Hc Hi. destruct (parse_fors q qs (or_introl Hc)) as [tys Hr].
  assert (exists res, result_for E (PChoice q qs) = Some res) as [res Hres] by (rewrite result_for_choice, Hr; eauto).
  destruct (C09_choice_parse E q qs tys res HP Hc Hr Hres) as (ms & Hms & Hiff).
  pose proof (modes_natural tys ms Hms (Hi tys Hr)) as ->. rewrite (naturals_parse _ _ Hr).
  rewrite tries_none_of by auto. unfold says. setoid_rewrite (fun r tr => Hiff i r tr Hv). split.
  - intros (r & tr & [[Hn ->]|(l1 & m & p & l2 & v & w & rem & tr1 & tr2 & Hl & Hn & Hg & -> & _ & ->)] & ->).
    + left. eauto.
    + right. exists l1, m, p, l2, tr1, v, rem, tr2. auto.
  - intros [[-> [tr Hn]]|(l1 & m & p & l2 & tr1 & v & rem & tr2 & Hl & Hn & Hg & ->)].
    + eexists _, tr. split; [left; split; [exact Hn|reflexivity]|reflexivity].
    + assert (Hx : says Parse (PChoice q qs) i (Some rem)).
      { assert (Hy : exists w, choice_value tys res (List.length l1) m v w).
        { assert (Hnth : nth_error (combine (map part_mode tys) (q :: qs)) (List.length l1) = Some (m, p)).
          { rewrite Hl, nth_error_app2, Nat.sub_diag by lia. reflexivity. }
          apply nth_error_combine in Hnth as [Hm Hp]. destruct (result_fors_nth E _ _ _ _ Hr Hp) as (t & Ht & Hpt).
          rewrite nth_error_map, Ht in Hm. cbn in Hm. injection Hm as <-.
          destruct (is_void t) eqn:Hvt.
          - apply is_void_spec in Hvt. subst t. exists (default_of res). intros t' Ht'. assert (t' = TVoid) by congruence. subst.
            split; [intros _; split; reflexivity|]. split; congruence.
          - apply is_void_false in Hvt.
            assert (Hcp : compiles E Parse p = true).
            { destruct (Hi tys Hr _ _ Ht Hvt) as (t' & f & Ht' & Hf & Hor). assert (t' = t) by congruence. subst t'.
              destruct (index_some tys _ t f Ht Hvt Hf Hor) as (k & Hk & Hs).
              rewrite <- seq_of_eq in Hs. exact (compiles_choice E _ _ _ _ _ _ Hc Hr Hp Hs). }
            assert (Hpm : part_mode t = Parse) by (unfold part_mode; destruct (is_void t) eqn:Hz; auto; apply is_void_spec in Hz; congruence).
            rewrite Hpm in *.
            destruct (shaped_typed E _ _ _ _ _ _ HP Hv Hcp Hg eq_refl t Hpt Hvt) as (x & ->).
            destruct (holds_exists tys t x (nth_error_In _ _ Ht) Hvt) as (w & Hw).
            assert (res = compound_result TVar (done_of tys)) by (rewrite result_for_choice, Hr, done_of_eq in Hres; congruence). subst res.
            exists w. intros t' Ht'. assert (t' = t) by congruence. subst t'. split; [congruence|].
              split; [intros _ _; split; auto; eauto|]. intros _ Hnp. destruct Hnp. eauto. }
        destruct Hy as (w & Hw). eexists _, (tr1 ++ tr2). split.
        - apply Hiff; auto. right. exists l1, m, p, l2, v, w, rem, tr1, tr2. repeat (split; [solve [auto]|]). reflexivity.
        - reflexivity. }
      destruct Hx as (r & tr & Hx & He). exists r, tr. split; auto. apply Hiff; auto.
Qed.

Lemma says_choice m q qs i o : valid E i -> compiles E (natural m (PChoice q qs)) (PChoice q qs) = true ->
  (m = Parse -> indexed (PChoice q qs)) ->
  says (natural m (PChoice q qs)) (PChoice q qs) i o <-> tries (naturals m (q :: qs)) i o.
Proof.
  intros Hv Hc Hi. destruct m; [|now apply says_choice_look].
  destruct (natural Parse (PChoice q qs)) eqn:Hm; [now apply says_choice_parse; auto|].
  destruct (look_fors' q qs (or_introl Hc)) as [tys Hr]. rewrite (naturals_parse _ _ Hr).
  rewrite combine_look; [now apply says_choice_look|now rewrite (result_fors_length E _ _ Hr)|].
  cbn [natural] in Hm. destruct (result_for E (PChoice q qs)) as [t|] eqn:Ht; [|discriminate].
  unfold part_mode in Hm. destruct (is_void t) eqn:Hvt; [|discriminate]. apply is_void_spec in Hvt. subst t.
  eapply void_choice; eauto.
Qed.

Lemma says_seq_look q qs i o : valid E i -> compiles E Look (PSequence q qs) = true ->
  says Look (PSequence q qs) i o <-> chains (map (pair Look) (q :: qs)) i o.
Proof.
  intros Hv Hc. rewrite chains_each by auto. unfold says.
  setoid_rewrite (fun r tr => C11_sequence_look E q qs i r tr HP Hv Hc). split.
  - intros (r & tr & [(vs & rem & He & ->)|[Hb ->]] & ->); [right|left]; eauto 6.
  - intros [[-> [tr Hb]]|(vs & rem & tr & He & ->)]; eexists _, tr; split;
      [right; split; [exact Hb|reflexivity]|reflexivity|left; exists vs, rem; split; [exact He|reflexivity]|reflexivity].
Qed.

Lemma kept_exists ps : forall tys i vs rem tr, all_compile E (parts tys ps) -> result_fors E ps = Some tys -> valid E i ->
  each E (parts tys ps) i vs rem tr -> exists ws, kept tys vs ws.
Proof.
  unfold result_fors. induction ps as [|p ps IH]; intros tys i vs rem tr Hc Hr Hv He; cbn in Hr.
  - injection Hr as <-. cbn in He. inversion He; subst. exists []. constructor.
  - destruct (result_for E p) as [t|] eqn:Hp; [|discriminate]. destruct (all_some (map (result_for E) ps)) as [l|] eqn:Hl; [|discriminate].
    injection Hr as <-. change (parts (t :: l) (p :: ps)) with ((part_mode t, p) :: parts l ps) in *.
    inversion He as [|m' p' l' i' v mid vs' rem' tr1 tr2 Hg Hl']; subst.
    destruct (IH l mid vs' rem tr2) as (ws & Hw); eauto using gives_valid.
    { intros x Hx. apply Hc. now right. }
    pose proof (Hc _ (or_introl eq_refl)) as Hcp. cbn in Hcp. unfold part_mode in *. destruct (is_void t) eqn:Hvt.
    + apply is_void_spec in Hvt. subst. exists ws. now constructor.
    + apply is_void_false in Hvt. destruct (shaped_typed E _ _ _ _ _ _ HP Hv Hcp Hg eq_refl t Hp Hvt) as (w & ->).
      exists (w :: ws). now constructor.
Qed.

Lemma says_seq_parse q qs i o : valid E i -> compiles E Parse (PSequence q qs) = true ->
  says Parse (PSequence q qs) i o <-> chains (naturals Parse (q :: qs)) i o.
Proof.
  intros Hv Hc. destruct (parse_fors q qs (or_intror Hc)) as [tys Hr]. rewrite (naturals_parse _ _ Hr).
  rewrite chains_each by auto. unfold says.
  setoid_rewrite (fun r tr => C11_sequence_parse E q qs tys i r tr HP Hv Hc Hr). split.
  - intros (r & tr & [(vs & ws & rem & He & _ & ->)|[Hb ->]] & ->); [right|left]; eauto 6.
  - intros [[-> [tr Hb]]|(vs & rem & tr & He & ->)].
    + eexists _, tr. split; [right; split; [exact Hb|reflexivity]|reflexivity].
    + destruct (kept_exists (q :: qs) tys i vs rem tr) as (ws & Hw); auto.
      { exact (compiles_parts E _ _ _ Hc Hr). }
      eexists _, tr. split; [left; exists vs, ws, rem; split; [exact He|split; [exact Hw|reflexivity]]|reflexivity].
Qed.

Lemma says_seq m q qs i o : valid E i -> compiles E (natural m (PSequence q qs)) (PSequence q qs) = true ->
  says (natural m (PSequence q qs)) (PSequence q qs) i o <-> chains (naturals m (q :: qs)) i o.
Proof.
  intros Hv Hc. destruct m; [|now apply says_seq_look].
  destruct (natural Parse (PSequence q qs)) eqn:Hm; [now apply says_seq_parse|].
  destruct (look_fors' q qs (or_intror Hc)) as [tys Hr]. rewrite (naturals_parse _ _ Hr).
  rewrite combine_look; [now apply says_seq_look|now rewrite (result_fors_length E _ _ Hr)|].
  cbn [natural] in Hm. destruct (result_for E (PSequence q qs)) as [t|] eqn:Ht; [|discriminate].
  unfold part_mode in Hm. destruct (is_void t) eqn:Hvt; [|discriminate]. apply is_void_spec in Hvt. subst t.
  eapply void_sequence; eauto.
Qed.
End Verdict.
