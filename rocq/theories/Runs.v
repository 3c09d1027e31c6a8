(** * Running several parsers: specification vocabulary over [evals]

    Used to state the properties of the combinators without mentioning how the library
    implements them. *)
From Coq Require Import String List Arith ZArith Bool Lia.
From Verif Require Import Types Compound Parser Outcome CompoundFacts Exec Mono Derive Typing Join Leaves Sound
  BigStep BigSound BigComplete.
Import ListNotations.

Section Runs.
Context {T V : Type} (E : env T V).

(** The parser returns with / without a value. *)
Definition gives (m : mode) (p : parser T) (i : span) (v : rv) (rem : span) (tr : list event) : Prop :=
  evals E m p i (Done (Res (Some v) rem) tr).
Definition refuses (m : mode) (p : parser T) (i : span) (tr : list event) : Prop :=
  evals E m p i (Done (Res None i) tr).

(** All succeed, each starting where the previous one stopped. *)
Inductive each : list (mode * parser T) -> span -> list rv -> span -> list event -> Prop :=
| each_nil i : each [] i [] i []
| each_cons m p l i v mid vs rem tr tr' :
    gives m p i v mid tr -> each l mid vs rem tr' -> each ((m, p) :: l) i (v :: vs) rem (tr ++ tr').

(** Some succeed one after the other, then one fails. *)
Inductive breaks : list (mode * parser T) -> span -> list event -> Prop :=
| breaks_here m p l i tr : refuses m p i tr -> breaks ((m, p) :: l) i tr
| breaks_later m p l i v mid tr tr' :
    gives m p i v mid tr -> breaks l mid tr' -> breaks ((m, p) :: l) i (tr ++ tr').

(** All fail on the same input. *)
Inductive none_of : list (mode * parser T) -> span -> list event -> Prop :=
| none_of_nil i : none_of [] i []
| none_of_cons m p l i tr tr' : refuses m p i tr -> none_of l i tr' -> none_of ((m, p) :: l) i (tr ++ tr').

(** Well-typed program. *)
Definition program : Prop := env_typed E /\ env_customs E.

(** ** Links to the natural semantics *)
Lemma gives_big m p i v rem tr : valid E i -> gives m p i v rem tr <-> big E m p i (Res (Some v) rem) tr.
Proof. intros. now apply evals_big. Qed.
Lemma refuses_big m p i tr : valid E i -> refuses m p i tr <-> big E m p i (Res None i) tr.
Proof. intros. now apply evals_big. Qed.

Lemma gives_valid m p i v rem tr : valid E i -> gives m p i v rem tr -> valid E rem.
Proof. intros Hv H. apply gives_big in H; auto. eapply big_succ_valid; eauto. Qed.

Lemma each_valid l i vs rem tr : each l i vs rem tr -> valid E i -> valid E rem.
Proof. induction 1; intros; auto. eauto using gives_valid. Qed.

Lemma each_length l i vs rem tr : each l i vs rem tr -> List.length vs = List.length l.
Proof. induction 1; cbn; auto. Qed.

Lemma shaped_typed m p i v rem tr : program -> valid E i -> compiles E m p = true ->
  gives m p i v rem tr -> shaped E m p v.
Proof.
  intros [HT HC] Hv Hc H Hm t Ht Htv. subst m. apply evals_sound in H as [_ H]; auto.
  destruct (derives_typed E HT HC _ _ _ _ _ Hc H) as (t' & Ht' & Hx). assert (t' = t) by congruence. subst.
  destruct v; [contradiction|eauto].
Qed.

Definition all_compile (l : list (mode * parser T)) : Prop := forall mp, In mp l -> compiles E (fst mp) (snd mp) = true.

Lemma bchain_each l i o tr : bchain E l i o tr -> valid E i ->
  match o with Some (vs, rem) => each l i vs rem tr | None => breaks l i tr end.
Proof.
  induction 1; intros Hv.
  - constructor.
  - constructor. now apply refuses_big.
  - apply gives_big in H; auto. specialize (IHbchain (gives_valid _ _ _ _ _ _ Hv H)).
    destruct o as [[vs rem]|]; cbn; [econstructor; eauto|eapply breaks_later; eauto].
Qed.

Lemma each_bchain l i vs rem tr : program -> all_compile l -> each l i vs rem tr -> valid E i ->
  bchain E l i (Some (vs, rem)) tr.
Proof.
  intros HP Hc H. induction H; intros Hv.
  - constructor.
  - pose proof (Hc _ (or_introl eq_refl)) as Hcp. cbn in Hcp.
    change (Some (v :: vs, rem)) with (push v (Some (vs, rem))). econstructor.
    + apply gives_big; eauto.
    + eapply shaped_typed; eauto.
    + apply IHeach; [intros x Hx; apply Hc; now right|]. eauto using gives_valid.
Qed.

Lemma breaks_bchain l i tr : program -> all_compile l -> breaks l i tr -> valid E i -> bchain E l i None tr.
Proof.
  intros HP Hc H. induction H; intros Hv.
  - constructor. now apply refuses_big.
  - pose proof (Hc _ (or_introl eq_refl)) as Hcp. cbn in Hcp.
    change (@None (list rv * span)) with (push v None). eapply BC_next.
    + apply gives_big; eauto.
    + eapply shaped_typed; eauto.
    + apply IHbreaks; [intros x Hx; apply Hc; now right|]. eauto using gives_valid.
Qed.

Lemma biter_each m q i vs rem tr : biter E m q i vs rem tr -> valid E i ->
  exists tr1 tr2, each (repeat (m, q) (List.length vs)) i vs rem tr1 /\ refuses m q rem tr2 /\ tr = tr1 ++ tr2.
Proof.
  induction 1; intros Hv.
  - exists [], tr. split; [constructor|]. split; auto. now apply refuses_big.
  - apply gives_big in H; auto. destruct (IHbiter (gives_valid _ _ _ _ _ _ Hv H)) as (tr1 & tr2 & H2 & H3 & ->).
    exists (tr ++ tr1), tr2. cbn. split; [econstructor; eauto|]. split; auto. now rewrite app_assoc.
Qed.

Lemma each_biter m q i vs rem tr1 tr2 : program -> compiles E m q = true ->
  each (repeat (m, q) (List.length vs)) i vs rem tr1 -> refuses m q rem tr2 -> valid E i ->
  biter E m q i vs rem (tr1 ++ tr2).
Proof.
  intros HP Hc. revert i tr1. induction vs as [|v vs IH]; intros i tr1 He Hr Hv; inversion He; subst; cbn.
  - constructor. now apply refuses_big.
  - rewrite <- app_assoc. econstructor.
    + apply gives_big; eauto.
    + eapply shaped_typed; eauto.
    + eapply IH; eauto using gives_valid.
Qed.

Lemma bfirst_none l i o tr : bfirst E l i o tr -> valid E i ->
  match o with
  | None => none_of l i tr
  | Some (j, v, rem) => exists l1 m p l2 tr1 tr2, l = l1 ++ (m, p) :: l2 /\ List.length l1 = j /\
      none_of l1 i tr1 /\ gives m p i v rem tr2 /\ tr = tr1 ++ tr2
  end.
Proof.
  induction 1; intros Hv.
  - constructor.
  - exists [], m, p, l, [], tr. split; [reflexivity|split; [reflexivity|split; [apply none_of_nil|split; [|reflexivity]]]].
    now apply gives_big.
  - apply refuses_big in H; auto. specialize (IHbfirst Hv). destruct o as [[[j v] rem]|]; cbn.
    + destruct IHbfirst as (l1 & m' & p' & l2 & tr1 & tr2 & -> & <- & Hn & Hg & ->).
      exists ((m, p) :: l1), m', p', l2, (tr ++ tr1), tr2.
      split; [reflexivity|split; [reflexivity|split; [now apply none_of_cons|split; [exact Hg|]]]]. now rewrite app_assoc.
    + now constructor.
Qed.

Lemma none_bfirst l i tr : none_of l i tr -> valid E i -> bfirst E l i None tr.
Proof.
  induction 1; intros Hv; [constructor|]. change (@None (nat * rv * span)) with (bump None). apply BF_next; auto. now apply refuses_big.
Qed.

Lemma some_bfirst l1 m p l2 i tr1 v rem tr2 : none_of l1 i tr1 -> gives m p i v rem tr2 -> valid E i ->
  bfirst E (l1 ++ (m, p) :: l2) i (Some (List.length l1, v, rem)) (tr1 ++ tr2).
Proof.
  intros H Hg Hv. induction H; cbn.
  - constructor. now apply gives_big.
  - rewrite <- app_assoc. change (Some (S (List.length l), v, rem)) with (bump (Some (List.length l, v, rem))).
    constructor; auto. now apply refuses_big.
Qed.

(** Compilation of the parts. *)
Lemma compiles_parts q qs tys : compiles E Parse (PSequence q qs) = true -> result_fors E (q :: qs) = Some tys ->
  all_compile (parts tys (q :: qs)).
Proof.
  intros Hc Hr [m p] Hin. cbn. apply In_nth_error in Hin as [j Hj].
  apply parts_nth in Hj as (t & Ht & -> & Hp). eapply compiles_part; eauto.
Qed.

Lemma compiles_looks q qs :
  compiles E Look (PChoice q qs) = true \/ compiles E Look (PSequence q qs) = true ->
  all_compile (map (pair Look) (q :: qs)).
Proof.
  intros Hc [m p] Hin. apply in_map_iff in Hin as (p' & [= <- <-] & Hin). cbn.
  eapply compiles_look_compound; eauto.
Qed.

Lemma compiles_repeat m q n : compiles E m q = true -> all_compile (repeat (m, q) n).
Proof. intros Hc mp Hin. apply repeat_spec in Hin. now subst. Qed.
(** Two parsers one after the other. *)
Lemma chain2 m1 p1 m2 p2 i o tr : bchain E [(m1, p1); (m2, p2)] i o tr <->
  (big E m1 p1 i (Res None i) tr /\ o = None) \/
  (exists v mid tr1 tr2, big E m1 p1 i (Res (Some v) mid) tr1 /\ shaped E m1 p1 v /\
     big E m2 p2 mid (Res None mid) tr2 /\ tr = tr1 ++ tr2 /\ o = None) \/
  (exists v mid v' rem tr1 tr2, big E m1 p1 i (Res (Some v) mid) tr1 /\ shaped E m1 p1 v /\
     big E m2 p2 mid (Res (Some v') rem) tr2 /\ shaped E m2 p2 v' /\ tr = tr1 ++ tr2 /\ o = Some ([v; v'], rem)).
Proof.
  split.
  - intros H. inversion H as [|? ? ? ? ? H1|? ? ? ? v mid o1 tr1 tr2 H1 Hs H2]; subst; [left; auto|].
    inversion H2 as [|? ? ? ? ? H3|? ? ? ? v' rem o2 tr3 tr4 H3 Hs' H4]; subst.
    + right. left. do 4 eexists. eauto.
    + inversion H4; subst. right. right. rewrite app_nil_r. do 6 eexists. repeat (split; [eassumption|]). auto.
  - intros [[H ->]|[(v & mid & tr1 & tr2 & H1 & H2 & H3 & -> & ->)|(v & mid & v' & rem & tr1 & tr2 & H1 & H2 & H3 & H4 & -> & ->)]].
    + now constructor.
    + change (@None (list rv * span)) with (push v None). eapply BC_next; eauto. now constructor.
    + change (Some ([v; v'], rem)) with (push v (push v' (Some ([], rem)))). eapply BC_next; eauto.
      rewrite <- (app_nil_r tr2). eapply BC_next; eauto. constructor.
Qed.

Lemma big_seq_parse q qs tys i r tr : result_fors E (q :: qs) = Some tys ->
  big E Parse (PSequence q qs) i r tr <->
  (exists vs ws rem, bchain E (parts tys (q :: qs)) i (Some (vs, rem)) tr /\ kept tys vs ws /\ r = Res (Some (tuple_of ws)) rem) \/
  (bchain E (parts tys (q :: qs)) i None tr /\ r = Res None i).
Proof.
  intros Hr. split.
  - intros H. inversion H; subst; match goal with H' : result_fors E _ = Some _ |- _ => rewrite Hr in H'; injection H' as <- end.
    + left. eauto 6.
    + right. auto.
  - intros [(vs & ws & rem & H1 & H2 & ->)|[H ->]]; [eapply B_seq_ok|eapply B_seq_no]; eauto.
Qed.

Lemma big_seq_look q qs tys i r tr : result_fors E (q :: qs) = Some tys ->
  big E Look (PSequence q qs) i r tr <->
  (exists vs rem, bchain E (map (pair Look) (q :: qs)) i (Some (vs, rem)) tr /\ r = Res (Some RVoid) rem) \/
  (bchain E (map (pair Look) (q :: qs)) i None tr /\ r = Res None i).
Proof.
  intros Hr. split.
  - intros H. inversion H; subst; eauto 6.
  - intros [(vs & rem & H1 & ->)|[H ->]]; [eapply B_seq_look_ok|eapply B_seq_look_no]; eauto.
Qed.
End Runs.
