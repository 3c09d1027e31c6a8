(** * With user comparisons: parse and lookahead make the same comparisons *)
From Coq Require Import String List Arith ZArith Bool Lia.
From Verif Require Import Types Compound Parser Outcome CompoundFacts Exec Mono Derive Typing Join Leaves
  Agree BigComplete Throws Stateful StatefulFacts Compares CompareFacts.
Import ListNotations.

Section Modes.
Context {T V W : Type} (E : env T V).
Variable sfn : nat -> list val -> W -> fnres * W.
Variable sct : ty -> list val -> W -> fnres * W.
Variable seq : T -> V -> W -> cmpres * W.
Notation eff := (@eff W).
(** The functions and constructors neither throw nor change the state. *)
Hypothesis Hfn : forall n args w, match sfn n args w with (FThrow _, _) => False | (_, w') => w' = w end.
Hypothesis Hct : forall t args w, match sct t args w with (FThrow _, _) => False | (_, w') => w' = w end.

(** The first does what the second does, with related results.  (Undefined and ill-formed programs are excluded by
    [xrun_sok].) *)
Definition twin {A B} (S : A -> B -> Prop) (x : eff A) (y : eff B) : Prop := forall w, match x w with
  | (Done a _, w') => exists b tr, y w = (Done b tr, w') /\ S a b
  | (Exn e, w') => y w = (Exn e, w')
  | (OOF, w') => y w = (OOF, w')
  | (UB, _) | (Ill, _) => True
  end.
Lemma twin_refl {A} (x : eff A) : twin eq x x.
Proof. intros w. destruct (x w) as [[]]; eauto. Qed.
Lemma twin_ret {A B} (S : A -> B -> Prop) a b : S a b -> twin S (sret a) (sret b).
Proof. intros H w. cbn. exists b, []. auto. Qed.
Lemma twin_imp {A B} (S S' : A -> B -> Prop) x y : (forall a b, S a b -> S' a b) -> twin S x y -> twin S' x y.
Proof. intros H Hx w. specialize (Hx w). destruct (x w) as [[]]; auto. destruct Hx as (b & tr' & H1 & H2). eauto. Qed.
Lemma twin_bind {A A' B B'} (S : A -> A' -> Prop) (S' : B -> B' -> Prop) x y (f : A -> eff B) (g : A' -> eff B') :
  twin S x y -> (forall a b, S a b -> twin S' (f a) (g b)) -> twin S' (sbind x f) (sbind y g).
Proof.
  intros Hx Hf w. unfold sbind. specialize (Hx w). destruct (x w) as [[a tr| |e| |] w1]; auto; try (rewrite Hx; auto; fail).
  destruct Hx as (b & tr' & -> & HS). specialize (Hf a b HS w1). destruct (f a w1) as [[c tr2| | | |] w2]; auto; try (rewrite Hf; auto; fail).
  destruct Hf as (d & tr3 & -> & HS'). eauto.
Qed.
Lemma twin_left {A B B'} (S : B -> B' -> Prop) (o : outcome A) (f : A -> eff B) y :
  (forall e, o <> Exn e) -> o <> OOF -> (forall a, twin S (f a) y) -> twin S (sbind (lift o) f) y.
Proof.
  intros H1 H2 Hf w. unfold sbind, lift. destruct o as [a tr| |e| |]; auto; try congruence. specialize (Hf a w).
  destruct (f a w) as [[]]; auto.
Qed.
Lemma twin_right {A B C} (S : A -> B -> Prop) x (c : C) (g : C -> eff B) : twin S x (g c) -> twin S x (sbind (lift (ret c)) g).
Proof.
  intros H w. specialize (H w). unfold sbind, lift, ret. destruct (x w) as [[]]; auto; try (now rewrite H).
  destruct H as (b2 & tr2 & -> & H). eauto.
Qed.
Lemma twin_unit {A B} (S : A -> B -> Prop) x (y : eff B) : twin S x (sbind y (fun r => sret r)) -> twin S x y.
Proof.
  intros H w. specialize (H w). unfold sbind, sret, lift, ret in H. destruct (x w) as [[]]; auto.
  - destruct H as (b & tr' & H & HS). destruct (y w) as [[]]; try discriminate. injection H as <- _ <-. eauto.
  - destruct (y w) as [[]]; try discriminate; auto.
  - destruct (y w) as [[]]; try discriminate; auto.
Qed.
Lemma twin_call {B B'} (S : B -> B' -> Prop) fn args (f : rv -> eff B) y :
  (forall a, twin S (f a) y) -> twin S (sbind (scall E sfn sct fn args) f) y.
Proof.
  intros Hf w. unfold sbind, scall.
  assert (H : forall fn args, match sinvoke E sfn sct fn args w with (FThrow _, _) => False | (_, w') => w' = w end).
  { intros fn'. induction fn' as [n|g IH|k|t|t]; intros a; cbn; auto; [apply Hfn| |apply Hct]. destruct a as [|v [|]]; auto. destruct (tuple_vals v); auto. apply IH. }
  specialize (H fn args). destruct (sinvoke E sfn sct fn args w) as [[r|e|] w1]; [|contradiction|exact Logic.I]. subst w1.
  specialize (Hf r w). destruct (f r w) as [[]]; auto.
Qed.

(** Same verdict and rest; a refusal gives the input back. *)
Definition alike (i : span) (r r' : presult) : Prop :=
  has_value r = has_value r' /\ r_rem r = r_rem r' /\ (has_value r = false -> r_rem r' = i).
Lemma alike_success i v v' j : alike i (success v j) (success v' j).
Proof. repeat split. discriminate. Qed.
Lemma alike_failure i : alike i (failure i) (failure i).
Proof. repeat split. Qed.
Hint Resolve alike_success alike_failure : core.
Ltac fin := apply twin_ret; cbn; auto.
Ltac inert := match goal with |- forall _ : nat, _ => intro | _ => idtac end; repeat match goal with |- context [match ?x with _ => _ end] => destruct x end; discriminate.

Section Loops.
Variables f g : @sfun W.
Hypothesis Hfg : forall i, twin (alike i) (f i) (g i).
Lemma ins_exn b v e : b_insert_back b v <> Exn e. Proof. unfold b_insert_back. inert. Qed.
Lemma ins_oof b v : b_insert_back b v <> OOF. Proof. unfold b_insert_back. inert. Qed.
Lemma ins_void v b : b_insert_back RVoid v = b -> b = ret RVoid. Proof. now intros <-. Qed.
Lemma t_rep : forall k i b s, twin (fun '(i1, _, s1) '(i2, _, s2) => i1 = i2 /\ s1 = s2 /\ (s1 = false -> i1 = i))
  (srep_loop f k i b s) (srep_loop g k i RVoid s).
Proof.
  enough (H : forall k i0 i b s, (s = false -> i = i0) -> twin (fun '(i1, _, s1) '(i2, _, s2) => i1 = i2 /\ s1 = s2 /\ (s1 = false -> i1 = i0))
    (srep_loop f k i b s) (srep_loop g k i RVoid s)) by (intros; apply H; auto).
  induction k as [|k IH]; intros i0 i b s Hs; cbn [srep_loop]; [intros w; reflexivity|]. eapply twin_bind; [apply Hfg|].
  intros [[v|] j] [[v'|] j'] (H1 & H2 & H3); cbn in *; try discriminate; subst.
  - apply twin_left; [apply ins_exn|apply ins_oof|]. intros b'. intros w. specialize (IH i0 j' b' true ltac:(discriminate) w).
    unfold sbind. cbn. destruct (srep_loop f k j' b' true w) as [[]]; auto; try (now rewrite IH).
    destruct IH as (b2 & tr2 & -> & H). eauto.
  - fin. split; auto. split; auto. intros Hx. rewrite H3, Hs; auto.
Qed.
Lemma t_exactly : forall k j i b, twin (fun o o' => match o, o' with Some (i1, _), Some (i2, _) => i1 = i2 | None, None => True | _, _ => False end)
  (sexactly_loop f k j i b) (sexactly_loop g k j i RVoid).
Proof.
  induction k as [|k IH]; intros j i b; cbn [sexactly_loop]; [fin|]. eapply twin_bind; [apply Hfg|].
  intros [[v|] i1] [[v'|] i2] (H1 & H2 & H3); cbn in *; try discriminate; subst.
  - apply twin_left; [unfold b_array_assign; inert|unfold b_array_assign; inert|]. intros b'. intros w. specialize (IH (S j) i2 b' w).
    unfold sbind. cbn. destruct (sexactly_loop f k (S j) i2 b' w) as [[]]; auto; try (now rewrite IH).
    destruct IH as (b2 & tr2 & -> & H). eauto.
  - fin.
Qed.
Variables f2 g2 : @sfun W.
Hypothesis Hfg2 : forall i, twin (alike i) (f2 i) (g2 i).
Lemma t_delim pv dv : forall k i0 res res' i b, alike i0 res res' ->
  twin (fun '(i1, _) '(i2, _) => i1 = i2) (sdelim_loop f f2 pv dv k res i b) (sdelim_loop g g2 true true k res' i RVoid).
Proof.
  induction k as [|k IH]; intros i0 res res' i b (H1 & H2 & H3); cbn [sdelim_loop]; [intros w; reflexivity|].
  destruct res as [[v|] j], res' as [[v'|] j']; cbn in *; try discriminate; subst; [|fin].
  apply twin_right. apply twin_left; [destruct pv, dv; unfold b_insert_back, b_insert_back_first; inert|destruct pv, dv; unfold b_insert_back, b_insert_back_first; inert|].
  intros b1. eapply twin_bind; [apply Hfg2|]. intros [[u|] d] [[u'|] d'] (G1 & G2 & G3); cbn in *; try discriminate; subst; [|fin].
  eapply twin_bind; [apply Hfg|]. intros r r' Hr. apply twin_right.
  apply twin_left; [destruct dv, (has_value r), pv; unfold b_insert_back, b_insert_back_second; inert|destruct dv, (has_value r), pv; unfold b_insert_back, b_insert_back_second; inert|].
  intros b2. eapply IH. exact Hr.
Qed.
End Loops.

Section Rec.
Variable rec : mode -> parser T -> @sfun W.
Lemma t_execute ct ct' unw unw' p idx i b b' : twin (alike i) (rec Parse p i) (rec Look p i) -> twin (alike i) (rec Look p i) (rec Look p i) ->
  twin (fun '(ok, (i1, _)) '(ok', (i2, _)) => ok = ok' /\ i1 = i2 /\ (ok = false -> i1 = i))
    (sexecute rec ct unw p idx (i, b)) (sexecute rec ct' unw' p None (i, b')).
Proof.
  intros H HL. unfold sexecute. destruct idx as [k|].
  - eapply twin_bind; [exact H|]. intros [[v|] j] [[v'|] j'] (H1 & H2 & H3); cbn in *; try discriminate; subst.
    + apply twin_left; [unfold store, b_assign, b_emplace, b_get_assign; inert|unfold store, b_assign, b_emplace, b_get_assign; inert|]. intros b1. fin.
    + fin. rewrite H3; auto.
  - eapply twin_bind; [exact HL|]. intros r r' (H1 & H2 & H3). fin. rewrite H2. auto.
Qed.
Lemma t_or unw unw' : forall ps sq i b b', List.length sq = List.length ps ->
  (forall p, In p ps -> twin (alike i) (rec Parse p i) (rec Look p i) /\ twin (alike i) (rec Look p i) (rec Look p i)) ->
  twin (fun '(ok, (i1, _)) '(ok', (i2, _)) => ok = ok' /\ i1 = i2)
    (sexec_or rec unw (combine ps sq) (i, b)) (sexec_or rec unw' (map (fun p => (p, None)) ps) (i, b')).
Proof.
  induction ps as [|p ps IH]; intros [|idx sq] i b b' Hl Hp; cbn in Hl; try discriminate; cbn [combine map sexec_or]; [fin|].
  eapply twin_bind; [apply t_execute; apply Hp; now left|]. intros [ok [i1 b1]] [ok' [i2 b2]] (<- & <- & H3). destruct ok; [fin|].
  rewrite (H3 eq_refl). apply IH; [lia|]. intros; apply Hp; now right.
Qed.
Lemma t_and unw unw' : forall ps sq i b b', List.length sq = List.length ps ->
  (forall p i, In p ps -> twin (alike i) (rec Parse p i) (rec Look p i) /\ twin (alike i) (rec Look p i) (rec Look p i)) ->
  twin (fun '(ok, (i1, _)) '(ok', (i2, _)) => ok = ok' /\ (ok = true -> i1 = i2))
    (sexec_and rec unw (combine ps sq) (i, b)) (sexec_and rec unw' (map (fun p => (p, None)) ps) (i, b')).
Proof.
  induction ps as [|p ps IH]; intros [|idx sq] i b b' Hl Hp; cbn in Hl; try discriminate; cbn [combine map sexec_and]; [fin|].
  eapply twin_bind; [apply t_execute; apply Hp; now left|]. intros [ok [i1 b1]] [ok' [i2 b2]] (<- & <- & H3). destruct ok; [|fin].
  - apply IH; [lia|]. intros; apply Hp; now right.
Qed.
End Rec.

(** ** What is allowed in a grammar: no filter, no general join, no custom parser that can never fail *)
Definition same_ways (p : parser T) : Prop :=
  match p with
  | PFilter _ _ => False
  | PJoin (PExactly q n) => n <> 0 /\ cbasic E seq q <> None
  | PJoin (PMaybe q) | PJoin (POneOrMore q) | PJoin (PZeroOrMore q) => cbasic E seq q <> None
  | PJoin _ => False
  | PCustom c => match cust_conv E c with ConvWhole _ => False | _ => True end
  | _ => True
  end.

Section Step.
Variable rec : mode -> parser T -> @sfun W.
Variable p : parser T.
Hypothesis Hp : same_ways p.
Hypothesis IHp : forall m q i, In q (components E p) -> twin (alike i) (rec m q i) (rec Look q i).
Variable k : nat.
Lemma t_basic fc len i : twin (alike i) (cbasic_parse (W := W) fc len i) (cbasic_look fc len i).
Proof.
  unfold cbasic_parse, cbasic_look. eapply twin_bind; [apply twin_refl|]. intros b _ <-. destruct b; [fin|].
  apply twin_left; [unfold first; inert|unfold first; inert|]. intros v. eapply twin_bind; [apply twin_refl|]. intros r _ <-. fin.
Qed.
Lemma t_basic_look fc len i : twin (alike i) (cbasic_look (W := W) fc len i) (cbasic_look fc len i).
Proof.
  unfold cbasic_look. eapply twin_bind; [apply twin_refl|]. intros b _ <-. destruct b; [fin|].
  eapply twin_bind; [apply twin_refl|]. intros r _ <-. fin.
Qed.
Lemma t_lift i (o o' : outcome presult) : match o with
  | Done r _ => exists r' tr, o' = Done r' tr /\ alike i r r' | Exn e => o' = Exn e | OOF => o' = OOF | UB | Ill => True end ->
  twin (alike i) (lift (W := W) o) (lift o').
Proof. intros H w. cbn. destruct o; auto; try (now subst). destruct H as (r' & tr' & -> & H). exists r', tr'. auto. Qed.

Lemma t_rep_parse m q : In q (components E p) -> forall i b s, twin (fun '(i1, _, s1) '(i2, _, s2) => i1 = i2 /\ s1 = s2 /\ (s1 = false -> i1 = i))
  (srep_loop (rec m q) k i b s) (srep_loop (rec Look q) k i RVoid s).
Proof. intros Hin i b s. apply t_rep. intros j. apply IHp, Hin. Qed.
Lemma combine_none (ps : list (parser T)) : map (fun p => (p, None)) ps = combine ps (map (fun _ => None (A := nat)) ps).
Proof. induction ps; cbn; congruence. Qed.
Lemma t_step m i : twin (alike i) (xstep E sfn sct seq rec k m p i) (xstep E sfn sct seq rec k Look p i).
Proof.
  destruct p as [arr|arr|arr| | |q qs|q qs|q|q n|q|q|q d|q|q|q|q f|q f|q nm|c]; cbn [xstep sstep components same_ways] in *.
  1-3: destruct m; [apply t_basic|apply t_basic_look].
  - apply t_lift. destruct m; unfold basic_parse, basic_look, anything_fc; cbn; destruct (sp_len i =? 0); cbn; eauto;
      unfold first, advance; destruct (1 <=? sp_len i); cbn; eauto.
  - apply t_lift. cbn. exists (success RVoid i), []. split; auto.
  - destruct m.
    + unfold schoice_parse, schoice_look. destruct (result_fors E (q :: qs)) as [tys|] eqn:Ht; [|intros w; exact Logic.I].
      destruct (unwrapped _ || _); [|intros w; exact Logic.I].
      eapply twin_bind; [apply t_or|].
      * rewrite len_dedup. symmetry. eapply result_fors_length; eauto.
      * intros r Hr. split; apply IHp, Hr.
      * intros [ok [i1 b1]] [ok' [i2 b2]] (<- & <-). destruct ok; fin.
    + unfold schoice_look. destruct (result_fors E (q :: qs)) as [tys|] eqn:Ht; [|intros w; exact Logic.I].
      rewrite combine_none at 1. eapply twin_bind; [apply t_or|].
      * apply map_length.
      * intros r Hr. split; apply IHp, Hr.
      * intros [ok [i1 b1]] [ok' [i2 b2]] (<- & <-). destruct ok; fin.
  - destruct m.
    + unfold ssequence_parse, ssequence_look. destruct (result_fors E (q :: qs)) as [tys|] eqn:Ht; [|intros w; exact Logic.I].
      eapply twin_bind; [apply t_and|].
      * rewrite len_filter. symmetry. eapply result_fors_length; eauto.
      * intros r j Hr. split; apply IHp, Hr.
      * intros [ok [i1 b1]] [ok' [i2 b2]] (<- & H). destruct ok; fin. rewrite H; auto.
    + unfold ssequence_look. destruct (result_fors E (q :: qs)) as [tys|] eqn:Ht; [|intros w; exact Logic.I].
      rewrite combine_none at 1. eapply twin_bind; [apply t_and|].
      * apply map_length.
      * intros r j Hr. split; apply IHp, Hr.
      * intros [ok [i1 b1]] [ok' [i2 b2]] (<- & H). destruct ok; fin. rewrite H; auto.
  - assert (Hq := fun m => IHp m q i (or_introl eq_refl)). destruct m.
    + destruct (result_for E q); [|intros w; exact Logic.I]. unfold smaybe_parse, smaybe_look. eapply twin_bind; [apply Hq|].
      intros [[v|] j] [[v'|] j'] (H1 & H2 & H3); cbn in *; try discriminate; subst.
      * apply twin_left; [unfold b_emplace_opt; inert|unfold b_emplace_opt; inert|]. intros b. fin.
      * fin. rewrite H3; auto.
    + unfold smaybe_look. eapply twin_bind; [apply Hq|].
      intros [[v|] j] [[v'|] j'] (H1 & H2 & H3); cbn in *; try discriminate; subst; fin.
  - destruct (n =? 0); [intros w; exact Logic.I|].
    assert (Hq := fun m i => IHp m q i (or_introl eq_refl)). destruct m.
    + destruct (result_for E q); [|intros w; exact Logic.I]. unfold sexactly_parse, sexactly_look. eapply twin_bind; [apply t_exactly, Hq|].
      intros [[i1 b1]|] [[i2 b2]|] H; try contradiction; subst; fin.
    + unfold sexactly_look. eapply twin_bind; [apply t_exactly, Hq|].
      intros [[i1 b1]|] [[i2 b2]|] H; try contradiction; subst; fin.
  - assert (Hq := fun m i => IHp m q i (or_introl eq_refl)). destruct m.
    + destruct (result_for E q); [|intros w; exact Logic.I]. unfold sone_or_more_parse, sone_or_more_look. eapply twin_bind; [apply t_rep, Hq|].
      intros [[i1 b1] s1] [[i2 b2] s2] (<- & <- & H). destruct s1; fin. rewrite H; auto.
    + unfold sone_or_more_look. eapply twin_bind; [apply t_rep, Hq|].
      intros [[i1 b1] s1] [[i2 b2] s2] (<- & <- & H). destruct s1; fin. rewrite H; auto.
  - assert (Hq := fun m i => IHp m q i (or_introl eq_refl)). destruct m.
    + destruct (result_for E q); [|intros w; exact Logic.I]. unfold szero_or_more_parse, szero_or_more_look. eapply twin_bind; [apply t_rep, Hq|].
      intros [[i1 b1] s1] [[i2 b2] s2] (<- & <- & H). fin.
    + unfold szero_or_more_look. eapply twin_bind; [apply t_rep, Hq|].
      intros [[i1 b1] s1] [[i2 b2] s2] (<- & <- & H). fin.
  - assert (Hq := fun m i => IHp m q i (or_introl eq_refl)). assert (Hd := fun m i => IHp m d i (or_intror (or_introl eq_refl))). destruct m.
    + destruct (result_for E q); [|intros w; exact Logic.I]. destruct (result_for E d); [|intros w; exact Logic.I].
      unfold sdelimit_parse, sdelimit_look. eapply twin_bind; [apply Hq|]. intros r r' Hr. pose proof (proj1 Hr) as H1.
      rewrite <- H1. destruct (has_value r); [|fin]. eapply twin_bind; [eapply t_delim; eauto|]. intros [i1 b1] [i2 b2] <-. fin.
    + unfold sdelimit_look. eapply twin_bind; [apply Hq|]. intros r r' Hr. pose proof (proj1 Hr) as H1.
      rewrite <- H1. destruct (has_value r); [|fin]. eapply twin_bind; [eapply t_delim; eauto|]. intros [i1 b1] [i2 b2] <-. fin.
  - apply IHp. now left.
  - unfold scomplete_run. eapply twin_bind; [apply IHp; now left|]. intros r r' (H1 & H2 & H3). rewrite <- H1, <- H2.
    destruct (negb (has_value r) || _) eqn:Hx; [fin|]. apply twin_ret. split; auto.
  - assert (Hd : forall fc len, twin (alike i) (match m with Parse => cjm_parse fc len i | Look => cjm_look fc len i end) (cjm_look (W := W) fc len i)).
    { intros fc len. destruct m; unfold cjm_parse, cjm_look; (eapply twin_bind; [apply twin_refl|]); intros b _ <-; destruct b; try fin.
      - apply twin_left; [unfold first; inert|unfold first; inert|]. intros v. eapply twin_bind; [apply twin_refl|]. intros r _ <-. fin.
      - eapply twin_bind; [apply twin_refl|]. intros r _ <-. fin. }
    assert (Ho : forall fc len, twin (alike i) (match m with Parse => cjo_parse fc len k i | Look => cjo_look fc len k i end) (cjo_look (W := W) fc len k i)).
    { intros fc len. destruct m; unfold cjo_parse, cjo_look; (eapply twin_bind; [apply twin_refl|]); intros b _ <-; destruct b; try fin.
      - intros w. unfold first, advance. destruct (len <=? sp_len i); [|exact Logic.I]. unfold ret, lift, sbind. cbn.
        destruct (cjr_loop fc len k _ _ w) as [[[res j]| | | |] w1]; cbn; eauto.
      - eapply twin_bind; [apply twin_refl|]. intros r _ <-. eapply twin_bind; [apply twin_refl|]. intros [r1 r2] _ <-. fin. }
    assert (Hz : forall fc len, twin (alike i) (match m with Parse => cjz_parse fc len k i | Look => cjz_look fc len k i end) (cjz_look (W := W) fc len k i)).
    { intros fc len. destruct m; unfold cjz_parse, cjz_look; (eapply twin_bind; [apply twin_refl|]); intros [r1 r2] _ <-; fin. }
    assert (Hx : forall fc len n, twin (alike i) (match m with Parse => cjx_parse fc len n i | Look => cjx_look fc len n i end) (cjx_look (W := W) fc len n i)).
    { intros fc len n. destruct m; unfold cjx_parse, cjx_look; (eapply twin_bind; [apply twin_refl|]); intros [[r1 r2]|] _ <-; fin. }
    destruct q as [arr|arr|arr| | |q qs|q qs|q|q n|q|q|q d|q|q|q|q f|q f|q nm|c]; try contradiction; cbn [cjoin_special].
    + destruct (cbasic E seq q) as [[fc len]|]; [|contradiction]. destruct m; apply Hd.
    + destruct Hp as [Hn Hb]. destruct (cbasic E seq q) as [[fc len]|]; [|contradiction]. rewrite (proj2 (Nat.eqb_neq _ _) Hn). destruct m; apply Hx.
    + destruct (cbasic E seq q) as [[fc len]|]; [|contradiction]. destruct m; apply Ho.
    + destruct (cbasic E seq q) as [[fc len]|]; [|contradiction]. destruct m; apply Hz.
  - assert (Hq := fun m => IHp m q i (or_introl eq_refl)). destruct m; [|apply Hq].
    destruct (result_for E (PMap q f)); [|intros w; exact Logic.I]. unfold smap_parse.
    apply twin_unit. eapply twin_bind; [apply Hq|]. intros [[v|] j] [[v'|] j'] (H1 & H2 & H3); cbn in *; try discriminate; subst.
    + apply twin_call. intros a. apply twin_ret. apply alike_success.
    + rewrite H3 by auto. apply twin_ret. apply alike_failure.
  - contradiction.
  - apply IHp. now left.
  - assert (Hq := fun m => IHp m (cust_body E c) i (or_introl eq_refl)). destruct m; [|apply Hq]. unfold scustom_parse.
    apply twin_unit. eapply twin_bind; [apply Hq|]. intros r r' Hr.
    destruct (cust_conv E c) as [|t|t]; [now apply twin_ret| |contradiction].
    destruct r as [[[|v]|] j]; cbn; [intros w; exact Logic.I| |now apply twin_ret].
    apply twin_call. intros a. apply twin_ret. destruct Hr as (H1 & H2 & H3). cbn in *. repeat split; auto; discriminate.
Qed.
End Step.

Lemma t_run p : (forall q, reach E p q -> same_ways q) -> forall n q, reach E p q -> forall m i,
  twin (alike i) (xrun E sfn sct seq n m q i) (xrun E sfn sct seq n Look q i).
Proof.
  intros Hp. induction n as [|n IH]; intros q Hq m i; [intros w; reflexivity|]. cbn [xrun]. apply t_step; auto.
  intros m' r j Hr. apply IH. eapply reach_trans; [exact Hq|]. eapply reach_step; [exact Hr|apply reach_refl].
Qed.
End Modes.
