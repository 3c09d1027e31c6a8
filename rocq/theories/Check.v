(** * Deciding the reachability conditions of the theorems for a given grammar

    [lossless], [solid], [steady] and the condition of C03 are about everything reachable
    from a parser.  Here they are decided by computation for a parser and the list of the
    custom parsers it uses.  The checks are sufficient, not necessary. *)
From Coq Require Import String List Arith ZArith Bool Lia.
From Verif Require Import Types Compound Parser Outcome CompoundFacts Exec Mono Derive Typing Join Leaves Sound
  Peg Elems Lossless Agree.
Import ListNotations.

Section Check.
Context {T V : Type} (E : env T V).

Fixpoint subterms (p : parser T) : list (parser T) :=
  p :: match p with
  | PAnyOf _ | PNoneOf _ | PAllOf _ | PAnything | PEpsilon | PCustom _ => []
  | PChoice q qs | PSequence q qs => subterms q ++ flat_map subterms qs
  | PMaybe q | PExactly q _ | POneOrMore q | PZeroOrMore q | PIgnore q | PComplete q
  | PJoin q | PMap q _ | PFilter q _ | PNamed q _ => subterms q
  | PDelimit q d => subterms q ++ subterms d
  end.

Lemma subterms_refl p : In p (subterms p).
Proof. destruct p; now left. Qed.

Lemma subterms_components p r : In r (components E p) -> (forall c, p <> PCustom c) -> In r (subterms p).
Proof.
  intros H Hc. destruct p; cbn [components subterms] in *; try contradiction;
    try (now destruct (Hc c));
    try (destruct H as [<-|[]]; right; apply subterms_refl).
  - right. apply in_or_app. destruct H as [<-|H]; [left; apply subterms_refl|].
    right. apply in_flat_map. exists r. split; auto using subterms_refl.
  - right. apply in_or_app. destruct H as [<-|H]; [left; apply subterms_refl|].
    right. apply in_flat_map. exists r. split; auto using subterms_refl.
  - right. apply in_or_app. destruct H as [<-|[<-|[]]]; [left|right]; apply subterms_refl.
Qed.

Lemma subterms_trans p : forall q r, In q (subterms p) -> In r (subterms q) -> In r (subterms p).
Proof.
  induction p using parser_ind'; intros r0 s0 Hq Hr; destruct Hq as [<-|Hq]; auto; try contradiction;
    cbn [subterms]; right; cbn in Hq; try (eauto; fail).
  all: apply in_app_or in Hq as [Hq|Hq]; apply in_or_app; [left; now eauto|right].
  1, 2: apply in_flat_map in Hq as (x & Hx & Hq); apply in_flat_map; exists x; split; auto;
    match goal with H : Forall _ _ |- _ => rewrite Forall_forall in H; eapply H; eauto end.
  eauto.
Qed.

(** Everything written in [p] and in the bodies of the custom parsers [cs]. *)
Definition grammar (cs : list nat) (p : parser T) : list (parser T) :=
  subterms p ++ flat_map (fun c => subterms (cust_body E c)) cs.

Definition closed (cs : list nat) (p : parser T) : bool :=
  forallb (fun q => match q with PCustom c => existsb (Nat.eqb c) cs | _ => true end) (grammar cs p).

Lemma reach_grammar cs p : closed cs p = true -> forall q, reach E p q -> In q (grammar cs p).
Proof.
  intros Hc. assert (H : forall a q, reach E a q -> In a (grammar cs p) -> In q (grammar cs p)).
  { induction 1 as [a|a q r Hq Hr IH]; auto. intros Ha. apply IH. clear IH Hr r.
    destruct (match a with PCustom c => Some c | _ => None end) as [c|] eqn:Hac.
    - destruct a; try discriminate. cbn in Hq. destruct Hq as [<-|[]].
      unfold closed in Hc. rewrite forallb_forall in Hc. specialize (Hc _ Ha). cbn in Hc.
      apply existsb_exists in Hc as (d & Hd & ->%Nat.eqb_eq).
      apply in_or_app. right. apply in_flat_map. exists d. split; auto using subterms_refl.
    - assert (Hs : In q (subterms a)) by (apply subterms_components; auto; intros c ->; discriminate).
      unfold grammar in *. apply in_app_or in Ha as [Ha|Ha]; apply in_or_app.
      + left. eapply subterms_trans; eauto.
      + right. apply in_flat_map in Ha as (d & Hd & Ha). apply in_flat_map. exists d. split; auto. eapply subterms_trans; eauto. }
  intros q Hq. apply (H _ _ Hq). apply in_or_app. left. apply subterms_refl.
Qed.

(** The custom parsers to look into: none, if [p] names none. *)
Definition needed (cs : list nat) (p : parser T) : list nat := if closed [] p then [] else cs.

(** ** Keeping text *)
Definition keeps_text_b (p : parser T) : bool :=
  match p with
  | PIgnore _ | PMap _ _ => false
  | PCustom c => match cust_conv E c with ConvSame => true | _ => false end
  | PChoice q qs =>
      match result_fors E (q :: qs) with
      | Some tys => forallb (fun x => is_void (fst x) || match snd x with Some _ => true | None => false end)
                      (combine tys (snd (filter_out_void_deduplicate tys)))
      | None => true
      end
  | _ => true
  end.

Lemma keeps_text_b_ok p : keeps_text_b p = true -> keeps_text E p.
Proof.
  destruct p; cbn [keeps_text_b keeps_text]; auto; try discriminate.
  - destruct (result_fors E (p :: ps)) as [tys|]; [|intros _ tys j t [=]].
    intros H ts j t [= <-] Hj Ht Hn. rewrite forallb_forall in H.
    assert (Hin : In (t, None) (combine tys (snd (filter_out_void_deduplicate tys)))).
    { clear H. revert Hj Hn. generalize (snd (filter_out_void_deduplicate tys)) as is. revert j.
      induction tys as [|x tys IH]; intros [|j] [|y is] Hj Hn; try discriminate; cbn in *.
      - injection Hj as ->. injection Hn as ->. now left.
      - right. eauto. }
    apply H in Hin. cbn in Hin. apply is_void_false in Ht. rewrite Ht in Hin. discriminate.
  - now destruct (cust_conv E c).
Qed.

Definition lossless_b (cs : list nat) (p : parser T) : bool := let cs := needed cs p in closed cs p && forallb keeps_text_b (grammar cs p).

Lemma lossless_b_ok cs p : lossless_b cs p = true -> lossless E p.
Proof.
  unfold lossless_b. cbv zeta. intros [Hc H]%andb_prop q Hq. apply keeps_text_b_ok. rewrite forallb_forall in H. apply H. now apply reach_grammar.
Qed.

(** ** Spans stay in the input *)
Definition local_node_b (p : parser T) : bool :=
  match p with
  | PMap _ _ => false
  | PCustom c => match cust_conv E c with ConvSame => true | _ => false end
  | _ => true
  end.
Definition local_b (cs : list nat) (p : parser T) : bool := let cs := needed cs p in closed cs p && forallb local_node_b (grammar cs p).

Lemma local_b_ok cs p : local_b cs p = true -> local_parser E p.
Proof.
  unfold local_b. cbv zeta. intros [Hc H]%andb_prop q Hq. rewrite forallb_forall in H. specialize (H q (reach_grammar _ _ Hc _ Hq)).
  destruct q; cbn in *; auto; try discriminate. now destruct (cust_conv E c).
Qed.

(** ** What join can take *)
Definition dropped_b (cs : list nat) (p : parser T) : bool := match p with PIgnore _ => local_b cs p | _ => false end.

Lemma dropped_b_ok cs p : dropped_b cs p = true -> dropped E p.
Proof. destruct p; try discriminate. intros H. split; [eauto|]. now apply local_b_ok with cs. Qed.

(** Ignored ones, then lossless ones, then ignored ones. *)
Fixpoint after_b (cs : list nat) (ps : list (parser T)) : bool :=
  match ps with
  | [] => true
  | p :: ps' => if lossless_b cs p then after_b cs ps' else forallb (dropped_b cs) ps
  end.
Fixpoint before_b (cs : list nat) (ps : list (parser T)) : bool :=
  match ps with
  | [] => true
  | p :: ps' => if dropped_b cs p then before_b cs ps' else after_b cs ps
  end.

Lemma after_b_ok cs ps : after_b cs ps = true -> exists mid post, ps = mid ++ post /\ Forall (lossless E) mid /\ Forall (dropped E) post.
Proof.
  induction ps as [|p ps IH]; cbn [after_b]; intros H.
  - exists [], []. auto.
  - destruct (lossless_b cs p) eqn:Hl.
    + destruct (IH H) as (mid & post & -> & H1 & H2). exists (p :: mid), post. repeat split; auto. constructor; auto. now apply lossless_b_ok with cs.
    + exists [], (p :: ps). repeat split; auto. apply Forall_forall. intros q Hq. rewrite forallb_forall in H. apply dropped_b_ok with cs; auto.
Qed.

Lemma before_b_ok cs ps : before_b cs ps = true ->
  exists pre mid post, ps = pre ++ mid ++ post /\ Forall (dropped E) pre /\ Forall (lossless E) mid /\ Forall (dropped E) post.
Proof.
  induction ps as [|p ps IH]; cbn [before_b]; intros H.
  - exists [], [], []. auto.
  - destruct (dropped_b cs p) eqn:Hd.
    + destruct (IH H) as (pre & mid & post & -> & H1 & H2 & H3). exists (p :: pre), mid, post. repeat split; auto. constructor; auto. now apply dropped_b_ok with cs.
    + destruct (after_b_ok cs _ H) as (mid & post & -> & H1 & H2). exists [], mid, post. auto.
Qed.

Definition solid_b (cs : list nat) (p : parser T) : bool :=
  lossless_b cs p || match p with PSequence q qs => before_b cs (q :: qs) | _ => false end.

Lemma solid_b_ok cs p : solid_b cs p = true -> solid E p.
Proof.
  intros [H|H]%orb_prop; [left; now apply lossless_b_ok with cs|].
  destruct p; try discriminate. destruct (before_b_ok cs _ H) as (pre & mid & post & He & H1 & H2 & H3).
  right. exists p, ps, pre, mid, post. auto.
Qed.

(** ** No rejection after success *)
Definition steady_node_b (cs : list nat) (p : parser T) : bool :=
  match p with
  | PFilter _ _ => false
  | PJoin q => solid_b cs q
  | PCustom c => match cust_conv E c with ConvWhole _ => false | _ => true end
  | _ => true
  end.
Definition steady_b (cs : list nat) (p : parser T) : bool := closed cs p && forallb (steady_node_b cs) (grammar cs p).

Lemma steady_b_ok cs p : steady_b cs p = true -> steady E p.
Proof.
  intros [Hc H]%andb_prop q Hq. rewrite forallb_forall in H. specialize (H q (reach_grammar _ _ Hc _ Hq)).
  destruct q; cbn in *; auto; try discriminate.
  - now apply solid_b_ok with cs.
  - intros t Ht. rewrite Ht in H. discriminate.
Qed.

Lemma steady_join_local p : steady E p -> join_local E p.
Proof. intros Hs q Hq. specialize (Hs _ Hq). now apply (solid_local E). Qed.
End Check.
