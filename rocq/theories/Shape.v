(** * The shape of the values a grammar delivers

    [fits G p v]: what is known about the value of a parse of [p], given what [G] says
    about the values of the custom parsers.  To show something about the trees a recursive
    grammar builds it suffices to show that [G] is preserved by every custom parser
    ([derives_fits]). *)
From Coq Require Import String List Arith ZArith Bool Lia.
From Verif Require Import Types Compound Parser Outcome CompoundFacts Exec Mono Derive Typing Join Leaves.
Import ListNotations.

Section Shape.
Context {T V : Type} (E : env T V) (b : nat) (G : nat -> rv -> Prop).

Fixpoint fits (p : parser T) (v : rv) {struct p} : Prop :=
  match p with
  | PAnyOf arr => exists lo c t, v = RVal (VSpan (Span b lo 1)) /\ nth_error (mem E b) lo = Some c /\ In t arr /\ eqv E t c = true
  | PNoneOf arr => exists lo c, v = RVal (VSpan (Span b lo 1)) /\ nth_error (mem E b) lo = Some c /\ forall t, In t arr -> eqv E t c = false
  | PAllOf arr => exists lo, v = RVal (VSpan (Span b lo (List.length arr))) /\ matches_at E b arr lo
  | PAnything => exists lo c, v = RVal (VSpan (Span b lo 1)) /\ nth_error (mem E b) lo = Some c
  | PEpsilon | PIgnore _ => v = RVoid
  | PChoice q qs => exists tys, result_fors E (q :: qs) = Some tys /\
      ((exists j k w, nth_error (snd (filter_out_void_deduplicate tys)) j = Some (Some k) /\
          v = RVal (if unwrapped (fst (filter_out_void_deduplicate tys)) then w else VVar k w) /\
          match j with
          | 0 => fits q (RVal w)
          | S j => (fix at_ (ps : list (parser T)) (j : nat) {struct ps} : Prop :=
                      match ps, j with
                      | p :: _, 0 => fits p (RVal w)
                      | _ :: ps', S j' => at_ ps' j'
                      | [], _ => False
                      end) qs j
          end) \/
       ((exists j, nth_error (snd (filter_out_void_deduplicate tys)) j = Some None) /\
          v = builder_init (compound_result TVar (fst (filter_out_void_deduplicate tys)))))
  | PSequence q qs => exists tys vs ws, result_fors E (q :: qs) = Some tys /\ kept tys vs ws /\ v = tuple_of ws /\
      match tys, vs with
      | t :: tys', v0 :: vs' => (t <> TVoid -> fits q v0) /\
          (fix all (ps : list (parser T)) (tys : list ty) (vs : list rv) {struct ps} : Prop :=
             match ps, tys, vs with
             | [], [], [] => True
             | p :: ps', t :: tys', v :: vs' => (t <> TVoid -> fits p v) /\ all ps' tys' vs'
             | _, _, _ => False
             end) qs tys' vs'
      | _, _ => False
      end
  | PMaybe q => result_for E q = Some TVoid /\ v = RVoid \/ result_for E q <> Some TVoid /\
      (v = RVal (VOpt None) \/ exists x, v = RVal (VOpt (Some x)) /\ fits q (RVal x))
  | PExactly q n => exists t vs, result_for E q = Some t /\ List.length vs = n /\ Forall (fits q) vs /\ collect t VArr vs v
  | POneOrMore q => exists t vs, result_for E q = Some t /\ vs <> [] /\ Forall (fits q) vs /\ collect t VVec vs v
  | PZeroOrMore q => exists t vs, result_for E q = Some t /\ Forall (fits q) vs /\ collect t VVec vs v
  | PDelimit q d => exists tp td pvs dvs, result_for E q = Some tp /\ result_for E d = Some td /\
      List.length pvs = S (List.length dvs) /\ Forall (fits q) pvs /\ Forall (fits d) dvs /\ delim_value tp td pvs dvs v
  | PComplete q | PNamed q _ => fits q v
  | PJoin q => exists x at_ s, fits q (RVal x) /\ join_executor x (Span b at_ 0) = Done (Some s) [] /\ v = RVal (VSpan s)
  | PMap q f => exists u, fits q u /\ invoke E f (args_of u) = FRet v
  | PFilter q f => fits q v /\ exists c, invoke E f (args_of v) = FRet (RVal c) /\ as_bool E c = true
  | PCustom c => G c v
  end.

Definition fits_parts (l : list (mode * parser T)) (vs : list rv) : Prop :=
  Forall2 (fun mp v => fst mp = Parse -> fits (snd mp) v) l vs.

Lemma fits_repeat q n vs : fits_parts (repeat (Parse, q) n) vs -> List.length vs = n /\ Forall (fits q) vs.
Proof.
  revert vs. induction n; intros vs H; inversion H; subst; [auto|].
  destruct (IHn _ H4) as [<- HF]. cbn. split; auto.
Qed.

Lemma fits_interleave q d n : forall v0 prs, List.length prs = n -> fits_parts (delim_parts Parse q d n) (interleave v0 prs) ->
  Forall (fits q) (v0 :: map snd prs) /\ Forall (fits d) (map fst prs).
Proof.
  induction n as [|n IH]; intros v0 [|[w v] prs] Hl H; cbn in Hl; try discriminate; cbn in H; inversion H; subst.
  - split; repeat constructor. auto.
  - injection Hl as Hl. inversion H5; subst.
    destruct (IH v prs eq_refl) as [HF HD]; [exact H7|]. cbn. split; constructor; auto; now apply H3 || now apply H4.
Qed.

Hypothesis Gsame : forall c lo hi v, cust_conv E c = ConvSame -> derives E b Parse (cust_body E c) lo hi v ->
  fits (cust_body E c) v -> G c v.
Hypothesis Gelem : forall c t lo hi x w, cust_conv E c = ConvElem t -> derives E b Parse (cust_body E c) lo hi (RVal x) ->
  fits (cust_body E c) (RVal x) -> invoke E (FConstruct t) [x] = FRet w -> G c w.
Hypothesis Gwhole : forall c t lo hi x w, cust_conv E c = ConvWhole t -> derives E b Parse (cust_body E c) lo hi (RVal x) ->
  fits (cust_body E c) (RVal x) -> invoke E (FConstruct t) [VOpt (Some x)] = FRet w -> G c w.
Hypothesis Gnone : forall c t w, cust_conv E c = ConvWhole t -> invoke E (FConstruct t) [VOpt None] = FRet w -> G c w.

Lemma derives_fits_mut :
  (forall m p lo hi v, derives E b m p lo hi v -> m = Parse -> fits p v) /\
  (forall l lo hi vs, dchain E b l lo hi vs -> fits_parts l vs).
Proof.
  apply derives_mut; intros; try discriminate; subst; cbn [fits]; auto.
  - destruct e0 as (t & Ht & Hc). exists lo, c, t. auto.
  - eauto.
  - eauto.
  - eauto.
  - exists tys. split; auto. left. exists j, k, w. repeat split; auto.
    specialize (H eq_refl). clear - e0 H. destruct j; [cbn in e0; now injection e0 as ->|]. cbn in e0. clear q.
    revert j e0. induction qs as [|q qs IH]; intros [|j] e0; cbn in *; try discriminate; [now injection e0 as ->|now apply IH].
  - exists tys. split; auto. right. eauto.
  - exists tys, vs, ws. split; auto. split; auto. split; auto. clear - H k e.
    assert (Hl : List.length tys = List.length (q :: qs)).
    { clear - e. change (all_some (map (result_for E) (q :: qs)) = Some tys) in e. revert tys e.
      induction (q :: qs) as [|x l IH]; cbn; intros tys e; [now injection e as <-|].
      destruct (result_for E x); [|discriminate]. cbn in IH. destruct (all_some (map (result_for E) l)); [|discriminate].
      injection e as <-. cbn. now rewrite (IH l0). }
    clear e k. destruct tys as [|t tys]; [discriminate|]. cbn in Hl, H. unfold parts in H. cbn in H. inversion H; subst. split.
    + intros Ht. apply H2. destruct t; try reflexivity; congruence.
    + clear H H2. revert tys l' Hl H4. induction qs as [|p qs IH]; intros [|t' tys] vs Hl HF; try discriminate; cbn in HF; inversion HF; subst; auto.
      split; [|apply IH; auto; cbn in Hl; lia]. intros Ht. apply H1. destruct t'; try reflexivity; congruence.
  - destruct o as [[-> ->]|[Ht (x & -> & ->)]]; [now left|]. right. split; [congruence|]. right. eauto.
  - destruct t; cbn; try (right; split; [congruence|]; now left). now left.
  - apply fits_repeat in H as [Hl HF]. exists t, vs. auto.
  - apply fits_repeat in H as [Hl HF]. exists t, vs. repeat split; auto. intros ->. cbn in Hl. congruence.
  - apply fits_repeat in H as [Hl HF]. exists t, vs. auto.
  - destruct (fits_interleave _ _ _ _ _ eq_refl H) as [HF HD].
    exists tp, td, (v0 :: map snd prs), (map fst prs). repeat split; auto. cbn. now rewrite !map_length.
  - exists x, hi, s. auto.
  - exists v. auto.
  - split; auto. eauto.
  - eapply Gsame; eauto.
  - eapply Gelem; eauto.
  - eapply Gwhole; eauto.
  - eapply Gnone; eauto.
  - constructor.
  - constructor; auto.
Qed.

Lemma derives_fits p lo hi v : derives E b Parse p lo hi v -> fits p v.
Proof. intros H. now apply (proj1 derives_fits_mut _ _ _ _ _ H). Qed.
End Shape.
