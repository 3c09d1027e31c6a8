(** * Property C76: who makes parse and lookahead disagree *)
From Coq Require Import String List Arith ZArith Bool Lia.
From Verif Require Import Types Compound Parser Outcome CompoundFacts ChoiceIndex Exec Mono Derive Typing Join Leaves Sound
  BigStep BigSound BigComplete Peg Elems Runs Samples PropBasic Agree PropExchange Blame Check.
Import ListNotations.

Section C76.
Context {T V : Type} (E : env T V).

(** [q] is a filter, a join, or a custom parser that converts the whole optional, and on [j]
    its verdict is not that of the parser it is made of; [tq] are the calls it makes there. *)
Definition overruled (q : parser T) (j : span) (tq : list event) : Prop :=
  exists q0, judges E q q0 /\
    ((exists v rem tr0, gives E Parse q0 j v rem tr0) /\ refuses E Parse q j tq \/
     (exists tr0, refuses E Parse q0 j tr0) /\ (exists v, gives E Parse q j v j tq)).

(** Whatever [p] is: if the parse returns, the lookahead says the same, or something that was
    parsed on the way overruled its component, in this very run: at a position of this input
    and with calls that are among the calls of this run. *)
Theorem C76_blame p i r tr : valid E i -> evals E Parse p i (Done r tr) ->
  evals E Look p i (Done (strip r) []) \/
  exists q j tq, parsed E p q /\ suffix i j /\ part_of tq tr /\ overruled q j tq.
Proof.
  intros Hv H. apply evals_big in H; auto. destruct (blame E p i r tr H) as [(q & j & tq & Hp & Hs & Ht & q0 & Hj & Ho)|Hl].
  - right. exists q, j, tq. do 3 (split; auto). assert (Hvj : valid E j) by (eapply suffix_valid; eauto).
    exists q0. split; auto. destruct Ho as [[(v & rem & tr0 & H1) H2]|[[tr0 H1] [v H2]]]; apply evals_big in H1, H2; auto.
    + left. split; [now exists v, rem, tr0|exact H2].
    + right. split; [now exists tr0|now exists v].
  - left. now apply evals_big.
Qed.

(** A filter's rejection is a call of its function with a false answer. *)
Lemma overruled_filter q f j tq : valid E j -> overruled (PFilter q f) j tq ->
  exists v rem tr c, gives E Parse q j v rem tr /\ tq = tr ++ [EInvoke f (args_of v)] /\
    invoke E f (args_of v) = FRet (RVal c) /\ as_bool E c = false.
Proof.
  intros Hv (q0 & Hj & Ho). inversion Hj; subst. destruct Ho as [[(v & rem & tr0 & H1) H2]|[[tr0 H1] [v H2]]]; apply evals_big in H1, H2; auto.
  - inversion H2; subst.
    + match goal with H : big E Parse _ j (Res (Some ?v') ?rem') ?tr' |- _ => destruct (big_det E _ _ _ _ _ _ _ Hv H1 H) as [_ _] end.
      do 4 eexists. split; [apply evals_big; eauto|]. eauto.
    + match goal with H : big E Parse _ j (Res None _) _ |- _ => destruct (big_det E _ _ _ _ _ _ _ Hv H1 H); discriminate end.
  - inversion H2; subst. match goal with H : big E Parse _ j (Res (Some _) _) _ |- _ => destruct (big_det E _ _ _ _ _ _ _ Hv H1 H); discriminate end.
Qed.

(** A join over a [solid] parser never overrules. *)
Lemma indexed_inv (ps : list (parser T)) : forall seq q, In q (indexed ps seq) -> exists j k, nth_error ps j = Some q /\ nth_error seq j = Some (Some k).
Proof.
  unfold indexed. induction ps as [|p ps IH]; intros [|x seq] q H; cbn in *; try contradiction.
  destruct x as [k|]; cbn in H.
  - destruct H as [<-|H]; [exists 0, k; auto|]. destruct (IH _ _ H) as (j & k' & H1 & H2). exists (S j), k'. auto.
  - destruct (IH _ _ H) as (j & k' & H1 & H2). exists (S j), k'. auto.
Qed.

Lemma compiles_part p q : env_customs E -> compiles E Parse p = true -> In q (parsed_parts E p) -> compiles E Parse q = true.
Proof.
  intros HC Hc Hin. destruct p; cbn [parsed_parts components] in Hin; try contradiction.
  - destruct (result_fors E (p :: ps)) as [tys|] eqn:Ht; [|contradiction]. apply indexed_inv in Hin as (j & k & H1 & H2).
    exact (compiles_choice E _ _ _ _ _ _ Hc Ht H1 H2).
  - destruct (result_fors E (p :: ps)) as [tys|] eqn:Ht; [|contradiction]. apply indexed_inv in Hin as (j & k & H1 & H2).
    exact (compiles_seq E _ _ _ _ _ _ Hc Ht H1 H2).
  - destruct Hin as [<-|[]]. cbn [compiles] in Hc. now apply andb_true_iff in Hc as [Hc _].
  - destruct Hin as [<-|[]]. cbn [compiles] in Hc. apply andb_true_iff in Hc as [Hc _]. now apply andb_true_iff in Hc as [_ Hc].
  - destruct Hin as [<-|[]]. cbn [compiles] in Hc. now apply andb_true_iff in Hc as [Hc _].
  - destruct Hin as [<-|[]]. cbn [compiles] in Hc. now apply andb_true_iff in Hc as [Hc _].
  - cbn [compiles] in Hc. apply andb_true_iff in Hc as [Hc _]. apply andb_true_iff in Hc as [Hc Hc']. destruct Hin as [<-|[<-|[]]]; auto.
  - destruct Hin as [<-|[]]. cbn [compiles] in Hc. now apply andb_true_iff in Hc as [Hc _].
  - destruct Hin as [<-|[]]. cbn [compiles] in Hc. now apply andb_true_iff in Hc as [Hc _].
  - destruct Hin as [<-|[]]. cbn [compiles] in Hc. now apply andb_true_iff in Hc as [Hc _].
  - destruct Hin as [<-|[]]. cbn [compiles] in Hc. now apply andb_true_iff in Hc as [Hc _].
  - destruct Hin as [<-|[]]. exact Hc.
  - destruct Hin as [<-|[]]. apply (ec_compiles E HC).
Qed.

Lemma compiles_parsed p q : env_customs E -> parsed E p q -> compiles E Parse p = true -> compiles E Parse q = true.
Proof. intros HC. induction 1 as [|p q r Hq _ IH]; auto. intros Hc. apply IH. eapply compiles_part; eauto. Qed.

Lemma overruled_join q j tq : program E -> compiles E Parse (PJoin q) = true -> valid E j -> solid E q -> ~ overruled (PJoin q) j tq.
Proof.
  intros [HT HC] Hc Hv Hs (q0 & Hj & Ho). inversion Hj; subst. cbn [compiles] in Hc. apply andb_true_iff in Hc as [Hc Ht].
  destruct Ho as [[(v & rem & tr0 & H1) H2]|[[tr0 H1] [v H2]]]; pose proof H1 as Hg; apply evals_big in H1, H2; auto.
  - inversion H2; subst.
    + match goal with H : big E Parse _ j (Res (Some _) _) _ |- _ => destruct (big_det E _ _ _ _ _ _ _ Hv H1 H) as [He _] end.
      injection He as <- <-. destruct (solid_joins E HT HC q0 t j x rem0) as [s Hs']; auto; [|congruence].
      exact (evals_sound E _ _ _ _ _ Hv Hg).
    + match goal with H : big E Parse _ j (Res None _) _ |- _ => destruct (big_det E _ _ _ _ _ _ _ Hv H1 H); discriminate end.
  - inversion H2; subst. match goal with H : big E Parse _ j (Res (Some _) _) _ |- _ => destruct (big_det E _ _ _ _ _ _ _ Hv H1 H); discriminate end.
Qed.

(** Filters are the only culprits in a parser whose joins are [solid] and whose custom parsers
    do not convert the optional: parse and lookahead say the same unless, in this run, the
    function of a parsed filter was called and answered no. *)
Definition but_for_filters (p : parser T) : Prop :=
  forall q, parsed E p q -> match q with PFilter _ _ => True | _ => steady_node E q end.

Theorem C76_filters p i r tr : program E -> valid E i -> compiles E Parse p = true -> but_for_filters p ->
  evals E Parse p i (Done r tr) ->
  evals E Look p i (Done (strip r) []) \/
  exists q f args c, parsed E p (PFilter q f) /\ In (EInvoke f args) tr /\
    invoke E f args = FRet (RVal c) /\ as_bool E c = false.
Proof.
  intros HP Hv Hc Hb He. destruct (C76_blame p i r tr Hv He) as [H|(q & j & tq & Hq & Hs & (a & b & ->) & Ho)]; auto.
  right. assert (Hvj : valid E j) by (eapply suffix_valid; eauto). pose proof (Hb q Hq) as Hn. destruct Ho as (q0 & Hj & Ho).
  assert (Hov : overruled q j tq) by (exists q0; auto). inversion Hj; subst.
  - apply overruled_filter in Hov as (v & rem & tr & c & _ & -> & Hi & Hr); auto.
    exists q0, f, (args_of v), c. repeat split; auto. rewrite !in_app_iff. cbn. auto.
  - exfalso. revert Hov. apply overruled_join; auto. eapply compiles_parsed; eauto. apply HP.
  - now destruct (Hn t).
Qed.

(** If they all answered yes, there is no difference. *)
Theorem C76_all_accepted p i r tr : program E -> valid E i -> compiles E Parse p = true -> but_for_filters p ->
  (forall f args c, In (EInvoke f args) tr -> invoke E f args = FRet (RVal c) -> (exists q, parsed E p (PFilter q f)) -> as_bool E c = true) ->
  evals E Parse p i (Done r tr) -> evals E Look p i (Done (strip r) []).
Proof.
  intros HP Hv Hc Hb Ha He. destruct (C76_filters p i r tr HP Hv Hc Hb He) as [H|(q & f & args & c & Hq & Hin & Hi & Hr)]; auto.
  rewrite (Ha f args c Hin Hi (ex_intro _ q Hq)) in Hr. discriminate.
Qed.

(** ** Filters and joins only make a parser stricter, as long as no failure is made up for *)

(** Nothing that is parsed goes on after a failure. *)
Definition unforgiving_node (p : parser T) : Prop :=
  match p with
  | PChoice _ _ | PMaybe _ | POneOrMore _ | PZeroOrMore _ | PDelimit _ _ => False
  | PCustom c => forall t, cust_conv E c <> ConvWhole t
  | _ => True
  end.
Definition unforgiving (p : parser T) : Prop := forall q, parsed E p q -> unforgiving_node q.

Lemma unforgiving_part p q : unforgiving p -> In q (parsed_parts E p) -> unforgiving q.
Proof. intros H Hq r Hr. apply H. econstructor; eauto. Qed.

Lemma stricter_all :
  (forall m p i r tr, big E m p i r tr -> (m = Parse -> unforgiving p) -> r_ok r <> None -> exists tr', big E Look p i (strip r) tr') /\
  (forall l i o tr, bfirst E l i o tr -> True) /\
  (forall l i o tr, bchain E l i o tr -> (forall p, In (Parse, p) l -> unforgiving p) -> forall vs rem, o = Some (vs, rem) ->
     exists tr', bchain E (looks l) i (Some (map (fun _ => RVoid) vs, rem)) tr') /\
  (forall m q i vs rem tr, biter E m q i vs rem tr -> True) /\
  (forall m q d i prs rem tr, btail E m q d i prs rem tr -> True).
Proof.
  assert (HL : forall p i r tr, big E Look p i r tr -> exists tr', big E Look p i (strip r) tr').
  { intros p i r tr H. exists []. eapply look_strip; eauto. }
  apply big_mut; intros; auto.
  all: try (eapply HL; econstructor; eauto; fail).
  all: try (eexists; constructor; auto; fail).
  all: try (cbn in *; congruence).
  all: try (match goal with H : Parse = Parse -> unforgiving _ |- _ => destruct (H eq_refl _ (parsed_self _ _)); fail end).
  all: unfold strip in *; cbn [r_ok r_rem ok1] in *.
  all: try (match goal with Hu : _ -> unforgiving _, H : _ -> Some _ <> None -> _ |- _ =>
              destruct H as [t1 H]; [intros Hm; eapply unforgiving_part; [exact (Hu Hm)|cbn; auto]|congruence|] end;
            eexists; econstructor; eauto; fail).
  - (* a sequence *)
    edestruct H as [t1 Hb]; [|reflexivity|].
    { intros r Hr. eapply unforgiving_part; [exact (H0 eq_refl)|]. eapply seq_parsed; eauto. }
    unfold parts in Hb. rewrite looks_combine in Hb by (symmetry; eapply result_fors_length; eauto). exists t1. econstructor; eauto.
  - edestruct H as [t1 Hb]; [|reflexivity|].
    { intros r Hr. eapply unforgiving_part; [exact (H0 eq_refl)|]. apply repeat_spec in Hr. injection Hr as ->. cbn; auto. }
    rewrite looks_repeat in Hb. exists t1. econstructor; eauto.
  - destruct H as [t1 H]; auto; [intros Hm; eapply unforgiving_part; [exact (H0 Hm)|cbn; auto]|]. exists t1. now constructor.
  - destruct H as [t1 H]; auto; [intros Hm; eapply unforgiving_part; [exact (H0 Hm)|cbn; auto]|]. exists t1. now constructor.
  - now destruct (H0 eq_refl _ (parsed_self _ _) t).
  - injection H0 as <- <-. eexists. constructor.
  - destruct o as [[vs0 rem0]|]; [|discriminate]. injection H2 as <- <-.
    destruct H as [t1 H]; [intros ->; apply H1; now left|discriminate|]. edestruct H0 as [t2 H0']; [|reflexivity|].
    { intros r Hr. apply H1. now right. }
    exists (t1 ++ t2). change (Some (map (fun _ : rv => RVoid) (v :: vs0), rem0)) with (push RVoid (Some (map (fun _ : rv => RVoid) vs0, rem0))).
    eapply BC_next; eauto. apply look_shaped.
Qed.

(** What the parse accepts, the lookahead accepts, with the same remaining input. *)
Theorem C76_only_stricter p i v rem tr : valid E i -> unforgiving p ->
  evals E Parse p i (Done (Res (Some v) rem) tr) -> evals E Look p i (Done (Res (Some RVoid) rem) []).
Proof.
  intros Hv Hu H. apply evals_big in H; auto. destruct (proj1 stricter_all _ _ _ _ _ H) as [tr' H']; [auto|discriminate|].
  apply look_strip in H'. now apply evals_big.
Qed.
End C76.

(** Case: a filter makes the choice take its second alternative, so that parse and lookahead
    stop at different places; the culprit is the filter, its call is in the trace. *)
Definition picky : parser nat := PChoice (PFilter (PAllOf (codes "(")) (FUser 0)) [PAllOf (codes "((")].
Example C76_case :
  but_for_filters sx picky /\ compiles sx Parse picky = true /\
  evals sx Parse picky in1 (Done (Res (Some (RVal (VSpan (Span 1 0 2)))) (at1 2)) [EInvoke (FUser 0) [VSpan (Span 1 0 1)]]) /\
  evals sx Look picky in1 (Done (Res (Some RVoid) (at1 1)) []) /\
  parsed sx picky (PFilter (PAllOf (codes "(")) (FUser 0)) /\
  overruled sx (PFilter (PAllOf (codes "(")) (FUser 0)) in1 [EInvoke (FUser 0) [VSpan (Span 1 0 1)]].
Proof.
  split; [|split; [reflexivity|split; [runs 5|split; [runs 5|split]]]].
  - intros q H. inversion H as [|? q' ? Hin Hq]; subst; [exact Logic.I|]. cbn in Hin. destruct Hin as [<-|[<-|[]]].
    + inversion Hq as [|? q' ? Hf Hr]; subst; [exact Logic.I|]. cbn in Hf. destruct Hf as [<-|[]].
      inversion Hr as [|? ? ? Hg]; subst; [exact Logic.I|destruct Hg].
    + inversion Hq as [|? ? ? Hf]; subst; [exact Logic.I|destruct Hf].
  - eapply parsed_part; [left; reflexivity|]. constructor.
  - exists (PAllOf (codes "(")). split; [constructor|]. left. split; [do 3 eexists; runs 3|runs 3].
Qed.

(** ... the other two kinds of culprits: a join over a gap, a class made from an empty optional *)
Example C76_case_others :
  overruled sx (PJoin (PSequence digits [PIgnore (PAllOf (codes ",")); digits])) (at1 7) [] /\
  overruled sx (PCustom 2) in1 [EInvoke (FConstruct (TUser 2)) [VOpt None]].
Proof.
  split.
  - eexists. split; [constructor|]. left. split; [do 3 eexists; runs 20|runs 20].
  - eexists. split; [econstructor; reflexivity|]. right. split; [eexists; runs 20|eexists; runs 20].
Qed.

(** ... an unforgiving parser: filters and joins in sequence, under a name *)
Example C76_case_stricter :
  let p := PNamed (PSequence (PFilter (PAllOf (codes "((")) (FUser 0)) [PJoin (PExactly (PAnyOf (codes "a)")) 2)]) "x" in
  unforgiving sx p /\ exists v tr, evals sx Parse p in1 (Done (Res (Some v) (at1 4)) tr) /\ tr <> [].
Proof.
  cbn zeta. split; [|do 2 eexists; split; [runs 9|discriminate]].
  intros q H. inversion H as [|? q' ? Hin Hq]; subst; [exact Logic.I|]. cbn in Hin. destruct Hin as [<-|[]].
  inversion Hq as [|? q' ? Hin Hq']; subst; [exact Logic.I|]. cbn in Hin. destruct Hin as [<-|[<-|[]]].
  - inversion Hq' as [|? q' ? Hf Hr]; subst; [exact Logic.I|]. cbn in Hf. destruct Hf as [<-|[]].
    inversion Hr as [|? ? ? Hg]; subst; [exact Logic.I|destruct Hg].
  - inversion Hq' as [|? q' ? Hf Hr]; subst; [exact Logic.I|]. cbn in Hf. destruct Hf as [<-|[]].
    inversion Hr as [|? q' ? Hg Hr']; subst; [exact Logic.I|]. cbn in Hg. destruct Hg as [<-|[]].
    inversion Hr' as [|? q' ? Hk Hr'']; subst; [exact Logic.I|destruct Hk].
Qed.

(** An overruling part is necessary for a difference, not sufficient: the choice can come to
    the same end by its second alternative. *)
Theorem C76_converse_refuted :
  exists p v tr q j tq, program sx /\ valid sx in1 /\ compiles sx Parse p = true /\
    evals sx Parse p in1 (Done (Res (Some v) (at1 1)) tr) /\ evals sx Look p in1 (Done (Res (Some RVoid) (at1 1)) []) /\
    parsed sx p q /\ suffix in1 j /\ part_of tq tr /\ overruled sx q j tq.
Proof.
  exists (PChoice (PFilter (PAllOf (codes "(")) (FUser 0)) [PAnyOf (codes "(")]). do 2 eexists.
  exists (PFilter (PAllOf (codes "(")) (FUser 0)), in1. eexists.
  split; [apply sx_program|]. split; [apply in1_valid|]. split; [reflexivity|]. split; [runs 5|]. split; [runs 5|].
  split; [eapply parsed_part; [left; reflexivity|]; constructor|]. split; [apply suffix_refl|]. split; [apply part_refl|].
  exists (PAllOf (codes "(")). split; [constructor|]. left. split; [do 3 eexists; runs 3|runs 3].
Qed.

(** With something that makes up for a failure, filters can also make a parser more generous:
    the parse accepts, the lookahead refuses. *)
Theorem C76_stricter_refuted :
  exists p v rem tr, program sx /\ valid sx in1 /\ compiles sx Parse p = true /\ but_for_filters sx p /\
    evals sx Parse p in1 (Done (Res (Some v) rem) tr) /\ evals sx Look p in1 (Done (Res None in1) []).
Proof.
  exists (PSequence (PMaybe (PFilter (PAllOf (codes "(")) (FUser 0))) [PAllOf (codes "((a")]). do 3 eexists.
  split; [apply sx_program|]. split; [apply in1_valid|]. split; [reflexivity|]. split; [|split; runs 6].
  intros q H. inversion H as [|? q' ? Hin Hq]; subst; [exact Logic.I|]. cbn in Hin. destruct Hin as [<-|[<-|[]]].
  - inversion Hq as [|? q' ? Hf Hr]; subst; [exact Logic.I|]. cbn in Hf. destruct Hf as [<-|[]].
    inversion Hr as [|? q' ? Hg Hr']; subst; [exact Logic.I|]. cbn in Hg. destruct Hg as [<-|[]].
    inversion Hr' as [|? q' ? Hk Hr'']; subst; [exact Logic.I|destruct Hk].
  - inversion Hq as [|? ? ? Hf]; subst; [exact Logic.I|destruct Hf].
Qed.

Print Assumptions C76_blame.
Print Assumptions C76_filters.
Print Assumptions C76_all_accepted.
Print Assumptions C76_only_stricter.
Print Assumptions C76_converse_refuted.
Print Assumptions C76_stricter_refuted.
