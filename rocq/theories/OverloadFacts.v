(** * Deduction succeeds exactly on the instances of the parameter types *)
From Coq Require Import List Arith Bool.
From Verif Require Import Overload.
Import ListNotations.

Section Facts.
Context {F : Type} (f_eqb : F -> F -> bool) (kind_of : F -> kind).
Hypothesis f_eqb_spec : forall a b, f_eqb a b = true <-> a = b.
Context {X : Type} (x_eqb : X -> X -> bool).
Hypothesis x_eqb_spec : forall a b, x_eqb a b = true <-> a = b.
Notation tm := (term F X).

Lemma kind_eqb_spec a b : kind_eqb a b = true <-> a = b.
Proof. destruct a, b; cbn; split; congruence. Qed.

Lemma tmpl_eqb_spec (a b : tmpl F) : tmpl_eqb f_eqb a b = true <-> a = b.
Proof.
  destruct a, b; cbn; try (split; congruence).
  - rewrite f_eqb_spec. split; congruence.
  - rewrite andb_true_iff, Nat.eqb_eq, kind_eqb_spec. split; [intros []|intros H; injection H]; intros; subst; auto.
Qed.

Section TermInd.
Variable P : tm -> Prop.
Hypothesis Ha : forall x, P (Atom x).
Hypothesis Hi : forall f ts, Forall P ts -> P (Inst f ts).
Hypothesis He : forall v, P (Expand v).
Fixpoint term_ind' (t : tm) : P t :=
  match t with
  | Atom x => Ha x
  | Inst f ts => Hi f ts ((fix go l := match l return Forall P l with [] => Forall_nil _ | t :: l => Forall_cons t (term_ind' t) (go l) end) ts)
  | Expand v => He v
  end.
End TermInd.

Lemma term_eqb_spec (a : tm) : forall b, term_eqb f_eqb x_eqb a b = true <-> a = b.
Proof.
  induction a as [x|f ts IH|v] using term_ind'; intros [y|g us|w]; cbn [term_eqb]; try (split; congruence).
  - rewrite x_eqb_spec. split; congruence.
  - rewrite andb_true_iff, tmpl_eqb_spec.
    match goal with |- _ /\ ?go ts us = true <-> _ => assert (H : go ts us = true <-> ts = us) end.
    { clear f g. revert us. induction IH as [|t ts Ht Hts IH]; intros [|u us]; try (split; congruence).
      rewrite andb_true_iff, Ht, IH. split; [intros []|intros H; injection H]; intros; subst; auto. }
    rewrite H. split; [intros []|intros E; injection E]; intros; subst; auto.
  - rewrite Nat.eqb_eq. split; congruence.
Qed.
Lemma terms_eqb_spec (a b : list tm) : terms_eqb f_eqb x_eqb a b = true <-> a = b.
Proof.
  revert b. induction a as [|t a IH]; intros [|u b]; cbn [terms_eqb]; try (split; congruence).
  rewrite andb_true_iff, term_eqb_spec, IH. split; [intros []|intros H; injection H]; intros; subst; auto.
Qed.

(** ** Instances: the pattern with its parameters replaced *)
Fixpoint instance (a : nat -> list tm) (p : pat F) : tm :=
  match p with
  | V v => hd (Expand 0) (a v)
  | I f ps pack => Inst (Named f) (map (instance a) ps ++ match pack with Some v => a v | None => [] end)
  | J v k ps pack => match a v with
                     | [Inst f _] => Inst f (map (instance a) ps ++ match pack with Some v => a v | None => [] end)
                     | _ => Expand 0
                     end
  end.

(** The replacements have the right form: one type or value for a parameter, one template of
    the right kind for a template template parameter, any number of them for a pack *)
Fixpoint proper (a : nat -> list tm) (p : pat F) : Prop :=
  match p with
  | V v => exists t, a v = [t] /\ forall w, t <> Expand w
  | I f ps pack => fold_right (fun p r => proper a p /\ r) True ps
  | J v k ps pack => (exists f, a v = [Inst f []] /\ tmpl_kind kind_of f = k) /\ fold_right (fun p r => proper a p /\ r) True ps
  end.

(** No pack expansion in it *)
Fixpoint clean (t : tm) : Prop :=
  match t with
  | Atom _ => True
  | Inst f ts => fold_right (fun t r => clean t /\ r) True ts
  | Expand _ => False
  end.

Section PatInd.
Variable P : pat F -> Prop.
Hypothesis Hv : forall v, P (V v).
Hypothesis Hi : forall f ps k, Forall P ps -> P (I f ps k).
Hypothesis Hj : forall v k ps pk, Forall P ps -> P (J v k ps pk).
Fixpoint pat_ind' (p : pat F) : P p :=
  let go := fix go l := match l return Forall P l with [] => Forall_nil _ | t :: l => Forall_cons t (pat_ind' t) (go l) end in
  match p with V v => Hv v | I f ps k => Hi f ps k (go ps) | J v k ps pk => Hj v k ps pk (go ps) end.
End PatInd.

Definition agrees (s : subst F X) (a : nat -> list tm) : Prop := forall v ts, lookup s v = Some ts -> a v = ts.
Notation bnd := (bind f_eqb x_eqb).
Notation ded := (deduce f_eqb kind_of x_eqb).
Notation deds := (deduces f_eqb kind_of x_eqb).

Lemma bind_agrees s v ts s' a : bnd s v ts = Some s' -> (agrees s' a <-> agrees s a /\ a v = ts).
Proof.
  unfold bind. destruct (lookup s v) as [us|] eqn:E.
  - destruct (terms_eqb f_eqb x_eqb us ts) eqn:Et; [|discriminate]. intros H. injection H as <-. apply terms_eqb_spec in Et as <-.
    split; [intros H; split; auto|tauto].
  - intros H. injection H as <-. split.
    + intros H. split.
      * intros w us Hw. apply H. cbn. destruct (w =? v) eqn:Ew; auto. apply Nat.eqb_eq in Ew. congruence.
      * apply H. cbn. now rewrite Nat.eqb_refl.
    + intros [H Hv] w us. cbn. destruct (w =? v) eqn:Ew; [|apply H]. apply Nat.eqb_eq in Ew as ->. intros Hu. now injection Hu as <-.
Qed.
Lemma bind_complete s v a : agrees s a -> exists s', bnd s v (a v) = Some s' /\ agrees s' a.
Proof.
  intros H. destruct (bnd s v (a v)) as [s'|] eqn:E.
  - exists s'. split; auto. apply (bind_agrees _ _ _ _ a E). auto.
  - unfold bind in E. destruct (lookup s v) as [us|] eqn:El; [|discriminate]. rewrite (H _ _ El) in E.
    replace (terms_eqb f_eqb x_eqb us us) with true in E; [discriminate|]. symmetry. now apply terms_eqb_spec.
Qed.

(** the argument lists of [deduce], by name *)
Definition ded_args (ps : list (pat F)) (pack : option nat) : list tm -> subst F X -> option (subst F X) :=
  (fix go ps ts s :=
    match ps, ts with
    | [], _ => match pack with
               | Some v => bnd s v ts
               | None => if forallb (fun t => match t with Expand _ => true | _ => false end) ts then Some s else None
               end
    | p :: ps, t :: ts => match ded p t s with Some s => go ps ts s | None => None end
    | _ :: _, [] => None
    end) ps.
Lemma ded_I f ps pack g ts s : ded (I f ps pack) (Inst g ts) s = if tmpl_eqb f_eqb (Named f) g then ded_args ps pack ts s else None.
Proof. reflexivity. Qed.
Lemma ded_J v k ps pack g ts s : ded (J v k ps pack) (Inst g ts) s =
  if kind_eqb k (tmpl_kind kind_of g) then match bnd s v [Inst g []] with Some s => ded_args ps pack ts s | None => None end else None.
Proof. reflexivity. Qed.

Definition sound1 (p : pat F) : Prop := forall t s s' a, ded p t s = Some s' -> clean t -> agrees s' a -> agrees s a /\ instance a p = t /\ proper a p.

Lemma clean_expand ts : fold_right (fun t r => clean t /\ r) True ts ->
  forallb (fun t : tm => match t with Expand _ => true | _ => false end) ts = true -> ts = [].
Proof. destruct ts as [|[| |] ts]; cbn; auto; try discriminate. tauto. Qed.

Lemma sound_args ps pack : Forall sound1 ps -> forall ts s s' a, ded_args ps pack ts s = Some s' ->
  fold_right (fun t r => clean t /\ r) True ts -> agrees s' a ->
  agrees s a /\ map (instance a) ps ++ match pack with Some v => a v | None => [] end = ts /\ fold_right (fun p r => proper a p /\ r) True ps.
Proof.
  induction 1 as [|p ps Hp Hps IH]; intros ts s s' a E Hc Ha.
  - cbn in E. destruct pack as [v|]; cbn [map app fold_right].
    + apply (bind_agrees _ _ _ _ a E) in Ha as [Ha ->]. auto.
    + destruct (forallb _ ts) eqn:Ef; [|discriminate]. injection E as <-. apply clean_expand in Ef as ->; auto.
  - destruct ts as [|t ts]; [discriminate|]. cbn in E, Hc. destruct Hc as [Hc Hcs]. destruct (ded p t s) as [s1|] eqn:E1; [|discriminate].
    destruct (IH _ _ _ _ E Hcs Ha) as [Ha1 [H1 H2]]. destruct (Hp _ _ _ _ E1 Hc Ha1) as [Ha0 [H3 H4]]. cbn [map app fold_right].
    split; auto. split; [now rewrite H3, H1|auto].
Qed.

Lemma sound_pat p : sound1 p.
Proof.
  induction p as [v|f ps k IH|v k ps pk IH] using pat_ind'; intros t s s' a E Hc Ha.
  - assert (Hb : bnd s v [t] = Some s' /\ forall w, t <> Expand w) by (destruct t; cbn in E; [split; [auto|discriminate]..|discriminate]).
    destruct Hb as [Hb Hn]. apply (bind_agrees _ _ _ _ a Hb) in Ha as [Ha Hv]. cbn. rewrite Hv. eauto.
  - destruct t as [x|g ts|]; try discriminate. rewrite ded_I in E. destruct (tmpl_eqb f_eqb (Named f) g) eqn:Eg; [|discriminate].
    apply tmpl_eqb_spec in Eg as <-. destruct (sound_args ps k IH _ _ _ _ E Hc Ha) as [Ha0 [H1 H2]]. cbn [instance proper]. now rewrite H1.
  - destruct t as [x|g ts|]; try discriminate. rewrite ded_J in E. destruct (kind_eqb k (tmpl_kind kind_of g)) eqn:Ek; [|discriminate].
    apply kind_eqb_spec in Ek. destruct (bnd s v [Inst g []]) as [s1|] eqn:Eb; [|discriminate].
    destruct (sound_args ps pk IH _ _ _ _ E Hc Ha) as [Ha1 [H1 H2]]. apply (bind_agrees _ _ _ _ a Eb) in Ha1 as [Ha0 Hv].
    cbn [instance proper]. rewrite Hv, H1. eauto 6.
Qed.

Definition complete1 (p : pat F) : Prop := forall s a, proper a p -> agrees s a -> exists s', ded p (instance a p) s = Some s' /\ agrees s' a.

Lemma complete_args ps pack : Forall complete1 ps -> forall s a, fold_right (fun p r => proper a p /\ r) True ps -> agrees s a ->
  exists s', ded_args ps pack (map (instance a) ps ++ match pack with Some v => a v | None => [] end) s = Some s' /\ agrees s' a.
Proof.
  induction 1 as [|p ps Hp Hps IH]; intros s a Hc Ha.
  - cbn. destruct pack as [v|]; [now apply bind_complete|]. exists s. auto.
  - cbn in Hc |- *. destruct Hc as [Hc Hcs]. destruct (Hp s a Hc Ha) as [s1 [-> Ha1]]. apply IH; auto.
Qed.

Lemma complete_pat p : complete1 p.
Proof.
  induction p as [v|f ps k IH|v k ps pk IH] using pat_ind'; intros s a Hc Ha.
  - cbn in Hc |- *. destruct Hc as [t [Hv Hn]]. destruct (bind_complete s v a Ha) as [s' [E Ha']]. rewrite Hv in *. cbn [hd].
    exists s'. split; auto. destruct t; auto. now destruct (Hn v0).
  - cbn [instance]. rewrite ded_I. replace (tmpl_eqb f_eqb (Named f) (Named f)) with true by (symmetry; now apply tmpl_eqb_spec).
    now apply complete_args.
  - cbn in Hc. destruct Hc as [[g [Hv Hk]] Hc]. cbn [instance]. rewrite Hv, ded_J.
    replace (kind_eqb k (tmpl_kind kind_of g)) with true by (symmetry; now apply kind_eqb_spec).
    destruct (bind_complete s v a Ha) as [s' [E Ha']]. rewrite Hv in E. rewrite E. now apply complete_args.
Qed.

(** An argument list can be deduced from exactly if it is an instance of the parameter list;
    the arguments deduced are those it is an instance with. *)
Theorem deduces_sound ps ts s : deds ps ts [] = Some s -> Forall clean ts ->
  forall a, agrees s a -> map (instance a) ps = ts /\ Forall (proper a) ps.
Proof.
  intros E Hc a Ha. assert (H : forall ps ts s0, deds ps ts s0 = Some s -> Forall clean ts -> agrees s0 a /\ map (instance a) ps = ts /\ Forall (proper a) ps).
  2: { now apply (H ps ts []). }
  clear ps ts E Hc. induction ps as [|p ps IH]; intros [|t ts] s0 E Hc; try discriminate; cbn in *.
  - injection E as <-. auto.
  - destruct (ded p t s0) as [s1|] eqn:E1; [|discriminate]. inversion Hc; subst. destruct (IH _ _ E H2) as [Ha1 [H3 H4]].
    destruct (sound_pat p _ _ _ _ E1 H1 Ha1) as [Ha0 [H5 H6]]. subst. auto.
Qed.
Theorem deduces_complete ps a : Forall (proper a) ps -> exists s, deds ps (map (instance a) ps) [] = Some s /\ agrees s a.
Proof.
  intros Hc. assert (H : forall s0, agrees s0 a -> exists s, deds ps (map (instance a) ps) s0 = Some s /\ agrees s a).
  { induction Hc as [|p ps Hp Hps IH]; intros s0 Ha; cbn; [eauto|].
    destruct (complete_pat p s0 a Hp Ha) as [s1 [-> Ha1]]. now apply IH. }
  apply H. intros v ts. discriminate.
Qed.
End Facts.
