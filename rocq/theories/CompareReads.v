(** * With user comparisons: what is compared, and what is read *)
From Coq Require Import String List Arith ZArith Bool Lia.
From Verif Require Import Types Compound Parser Outcome CompoundFacts Exec Mono Derive Typing Join Leaves Sound
  Reloc PropReloc Stateful StatefulFacts StatefulSafe Compares CompareFacts.
Import ListNotations.

(** A relation between the computations of two programs that differ in what is in memory and in [==], established one
    layer at a time: the parsers are [Gd], and everything happens inside the span [i0]. *)
Section Pairs.
Context {T V W : Type} (E : env T V) (mm : nat -> list V).
Variable sfn : nat -> list val -> W -> fnres * W.
Variable sct : ty -> list val -> W -> fnres * W.
Variables seq seq' : T -> V -> W -> cmpres * W.
Notation E' := (with_mem E mm).
Notation eff := (@eff W).

Variable R : forall A, eff A -> eff A -> (A -> Prop) -> Prop.
Variable C : Prop.
Variable Gd : parser T -> Prop.
Variable i0 : span.
Hypothesis Gd_comp : forall p q, Gd p -> In q (components E p) -> Gd q.
Hypothesis R_lift : forall A (o : outcome A) (Q : A -> Prop), quiet o -> wp True o Q -> R A (lift o) (lift o) Q.
Hypothesis R_bind : forall A B (x y : eff A) (f g : A -> eff B) (P : A -> Prop) (Q : B -> Prop),
  R A x y P -> (forall a, P a -> R B (f a) (g a) Q) -> R B (sbind x f) (sbind y g) Q.
Hypothesis R_call : C -> forall f args, R rv (scall E sfn sct f args) (scall E sfn sct f args) (fun _ => True).
Definition inside (i : span) : Prop := suffix i0 i.
Hypothesis R_fc : forall p fc len fc' len' i, Gd p -> inside i -> cbasic E seq p = Some (fc, len) -> cbasic E' seq' p = Some (fc', len') ->
  R bool (fc i) (fc' i) (fun _ => True).

Definition rests (r : presult) : Prop := inside (r_rem r).
Lemma R_ret {A} (a : A) (Q : A -> Prop) : Q a -> R A (sret a) (sret a) Q.
Proof. intros H. apply R_lift; cbn; auto. Qed.
Lemma R_stop {A} (o : outcome A) Q : quiet o -> (forall a tr, o <> Done a tr) -> R A (lift o) (lift o) Q.
Proof. intros Hq H. apply R_lift; auto. destruct o; cbn; auto. destruct (H a tr). reflexivity. Qed.
Lemma R_pure {A B} (o : outcome A) (f g : A -> eff B) Q : quiet o -> (forall a, R B (f a) (g a) Q) -> R B (sbind (lift o) f) (sbind (lift o) g) Q.
Proof. intros Hq H. eapply R_bind with (P := fun _ => True); [|auto]. apply R_lift; auto. destruct o; cbn; auto. Qed.
Lemma R_advance {B} i c (f g : span -> eff B) Q : inside i -> (forall i', inside i' -> R B (f i') (g i') Q) ->
  R B (sbind (lift (advance i c)) f) (sbind (lift (advance i c)) g) Q.
Proof.
  intros Hi H. eapply R_bind with (P := inside); [|auto]. apply R_lift; auto. unfold advance.
  destruct (Nat.leb_spec c (sp_len i)); cbn; auto. eapply suffix_trans; [exact Hi|]. exists c. auto.
Qed.
Ltac stop := apply R_stop; [solve [auto|reflexivity]|discriminate].
Ltac fin_ := first [apply R_ret; solve [auto|reflexivity|exact Logic.I]|stop].

(** ** Loops *)
Section Loops.
Variables f g : @sfun W.
Hypothesis Hfg : forall i, inside i -> R _ (f i) (g i) rests.
Lemma p_rep : forall k i b s, inside i -> R _ (srep_loop f k i b s) (srep_loop g k i b s) (fun '(i', _, _) => inside i').
Proof.
  induction k as [|k IH]; intros i b s Hi; cbn [srep_loop]; [stop|]. eapply R_bind; [auto|]. intros [[v|] rem] Hr; cbn [r_ok r_rem].
  - apply R_pure; auto.
  - fin_.
Qed.
Lemma p_exactly : forall k j i b, inside i -> R _ (sexactly_loop f k j i b) (sexactly_loop g k j i b)
  (fun o => match o with Some (i', _) => inside i' | None => True end).
Proof.
  induction k as [|k IH]; intros j i b Hi; cbn [sexactly_loop]; [fin_|]. eapply R_bind; [auto|]. intros [[v|] rem] Hr; cbn [r_ok r_rem].
  - apply R_pure; auto.
  - fin_.
Qed.
Variables f2 g2 : @sfun W.
Hypothesis Hfg2 : forall i, inside i -> R _ (f2 i) (g2 i) rests.
Lemma p_delim pv dv : forall k res i b, inside i -> rests res -> R _ (sdelim_loop f f2 pv dv k res i b) (sdelim_loop g g2 pv dv k res i b) (fun '(i', _) => inside i').
Proof.
  induction k as [|k IH]; intros res i b Hi Hr; cbn [sdelim_loop]; [stop|]. destruct (r_ok res) as [v|]; [|fin_].
  apply R_pure; [destruct pv, dv; auto|]. intros b1. eapply R_bind; [apply Hfg2, Hr|]. intros d Hd. destruct (r_ok d) as [w|]; [|fin_].
  eapply R_bind; [apply Hfg, Hd|]. intros res' Hr'. apply R_pure; [destruct dv, (has_value res'), pv; auto|]. intros b2. apply IH; auto.
Qed.
End Loops.

(** ** Elementary parsers and special joins *)
Section Basic.
Variables fc fc' : span -> eff bool.
Variable len : nat.
Hypothesis Hfc : forall i, inside i -> R _ (fc i) (fc' i) (fun _ => True).
Lemma p_basic m i : inside i -> R _ (match m with Parse => cbasic_parse fc len i | Look => cbasic_look fc len i end)
  (match m with Parse => cbasic_parse fc' len i | Look => cbasic_look fc' len i end) rests.
Proof.
  intros Hi. destruct m; [unfold cbasic_parse|unfold cbasic_look]; (eapply R_bind; [auto|]); intros [|] _; try fin_.
  - apply R_pure; auto. intros v. apply R_advance; auto. intros i' Hi'. fin_.
  - apply R_advance; auto. intros i' Hi'. fin_.
Qed.
Lemma p_jx : forall k res i, inside i -> R _ (cjx_loop fc len k res i) (cjx_loop fc' len k res i)
  (fun o => match o with Some (_, i') => inside i' | None => True end).
Proof.
  induction k as [|k IH]; intros res i Hi; cbn [cjx_loop]; [fin_|]. eapply R_bind; [auto|]. intros [|] _; [fin_|]. apply R_advance; auto.
Qed.
Lemma p_jr : forall k res i, inside i -> R _ (cjr_loop fc len k res i) (cjr_loop fc' len k res i) (fun '(_, i') => inside i').
Proof.
  induction k as [|k IH]; intros res i Hi; cbn [cjr_loop]; [stop|]. eapply R_bind; [auto|]. intros [|] _; [fin_|]. apply R_advance; auto.
Qed.
End Basic.

Lemma cbasic_both p : match cbasic E seq p, cbasic E' seq' p with
  | Some (_, len), Some (_, len') => len = len'
  | None, None => True
  | _, _ => False
  end.
Proof. destruct p; cbn; auto. Qed.

Lemma p_special q k m i : (forall q', In q' (components E q) -> Gd q') -> inside i ->
  match cjoin_special E seq q k, cjoin_special E' seq' q k with
  | Some f, Some g => R _ (f m i) (g m i) rests
  | None, None => True
  | _, _ => False
  end.
Proof.
  intros Hg Hi. destruct q; try exact Logic.I; cbn [cjoin_special]; pose proof (cbasic_both q) as Hb;
    destruct (cbasic E seq q) as [[fc len]|] eqn:H1, (cbasic E' seq' q) as [[fc' len']|] eqn:H2; try contradiction; auto; subst len';
    assert (Hfc : forall j, inside j -> R _ (fc j) (fc' j) (fun _ => True)) by (intros; eapply R_fc; eauto; apply Hg; now left).
  - destruct m; unfold cjm_parse, cjm_look; (eapply R_bind; [auto|]); intros [|] _; try fin_.
    + apply R_pure; auto. intros v. apply R_advance; auto. intros i' Hi'. fin_.
    + apply R_advance; auto. intros i' Hi'. fin_.
  - destruct (n =? 0); [exact Logic.I|].
    destruct m; unfold cjx_parse, cjx_look; (eapply R_bind; [apply p_jx; auto|]); intros [[r i']|] H; fin_.
  - destruct m; unfold cjo_parse, cjo_look; (eapply R_bind; [auto|]); intros [|] _; try fin_.
    + apply R_pure; auto. intros v. apply R_advance; auto. intros i' Hi'. eapply R_bind; [apply p_jr; auto|]. intros [r i2] H. fin_.
    + apply R_advance; auto. intros i' Hi'. eapply R_bind; [apply p_jr; auto|]. intros [r i2] H. fin_.
  - destruct m; unfold cjz_parse, cjz_look; (eapply R_bind; [apply p_jr; auto|]); intros [r i'] H; fin_.
Qed.

(** ** One layer *)
Section Step.
Variables rec rec' : mode -> parser T -> @sfun W.
Hypothesis Hrec : forall m q i, Gd q -> (m = Parse -> C) -> inside i -> R _ (rec m q i) (rec' m q i) rests.

Lemma p_execute ct u p idx i b : Gd p -> (idx <> None -> C) -> inside i ->
  R _ (sexecute rec ct u p idx (i, b)) (sexecute rec' ct u p idx (i, b)) (fun '(_, (i', _)) => inside i').
Proof.
  intros Hg HC Hi. unfold sexecute. destruct idx as [k|].
  - eapply R_bind; [apply Hrec; auto; intros _; now apply HC|]. intros res Hr. destruct (r_ok res) as [v|]; [|fin_].
    apply R_pure; auto. intros b'. fin_.
  - eapply R_bind; [apply Hrec; auto; discriminate|]. intros res Hr. fin_.
Qed.
Lemma p_or u ps : (forall p k, In (p, k) ps -> Gd p /\ (k <> None -> C)) -> forall i b, inside i ->
  R _ (sexec_or rec u ps (i, b)) (sexec_or rec' u ps (i, b)) (fun '(_, (i', _)) => inside i').
Proof.
  intros Hp. induction ps as [|[p idx] ps IH]; intros i b Hi; cbn [sexec_or]; [fin_|].
  destruct (Hp p idx (or_introl eq_refl)). eapply R_bind; [apply p_execute; auto|]. intros [ok [i' b']] Hi'. destruct ok; [fin_|].
  apply IH; auto. intros; apply Hp; now right.
Qed.
Lemma p_and u ps : (forall p k, In (p, k) ps -> Gd p /\ (k <> None -> C)) -> forall i b, inside i ->
  R _ (sexec_and rec u ps (i, b)) (sexec_and rec' u ps (i, b)) (fun '(_, (i', _)) => inside i').
Proof.
  intros Hp. induction ps as [|[p idx] ps IH]; intros i b Hi; cbn [sexec_and]; [fin_|].
  destruct (Hp p idx (or_introl eq_refl)). eapply R_bind; [apply p_execute; auto|]. intros [ok [i' b']] Hi'. destruct ok; [|fin_].
  apply IH; auto. intros; apply Hp; now right.
Qed.

Lemma p_step k m p i : Gd p -> (m = Parse -> C) -> inside i ->
  R _ (xstep E sfn sct seq rec k m p i) (xstep E' sfn sct seq' rec' k m p i) rests.
Proof.
  intros Hg HC Hi. assert (HG : forall q, In q (components E p) -> Gd q) by (intros; eapply Gd_comp; eauto).
  assert (Hm : forall q i, In q (components E p) -> inside i -> R _ (rec m q i) (rec' m q i) rests) by (intros; apply Hrec; auto).
  assert (HL : forall q i, In q (components E p) -> inside i -> R _ (rec Look q i) (rec' Look q i) rests) by (intros; apply Hrec; auto; discriminate).
  assert (Hcomb : forall q qs is, (forall r, In r (q :: qs) -> Gd r) -> m = Parse -> forall p k, In (p, k) (combine (q :: qs) is) -> Gd p /\ (k <> @None nat -> C)).
  { intros q qs is Hq Hpm r idx Hin. apply in_combine_l in Hin. auto. }
  assert (Hmap : forall q qs, (forall r, In r (q :: qs) -> Gd r) -> forall p k, In (p, k) (map (fun p => (p, None)) (q :: qs)) -> Gd p /\ (k <> @None nat -> C)).
  { intros q qs Hq r idx Hin. apply in_map_iff in Hin as (q' & [= <- <-] & Hin). split; auto. congruence. }
  destruct p as [arr|arr|arr| | |q qs|q qs|q|q n0|q|q|q d|q|q|q|q f|q f|q s|c];
    match goal with
    | |- context [PAnyOf _] => idtac | |- context [PNoneOf _] => idtac | |- context [PAllOf _] => idtac | |- context [PJoin _] => idtac
    | |- context [xstep E' sfn sct seq' rec' k m ?p i] =>
        change (xstep E' sfn sct seq' rec' k m p i) with (sstep E sfn sct rec' k m p i)
    end; cbn [xstep sstep].
  - apply p_basic; auto. intros. eapply (R_fc (PAnyOf arr)); eauto; reflexivity.
  - apply p_basic; auto. intros. eapply (R_fc (PNoneOf arr)); eauto; reflexivity.
  - apply p_basic; auto. intros. eapply (R_fc (PAllOf arr)); eauto; reflexivity.
  - apply R_lift; [apply (quiet_basic E PAnything); reflexivity|].
    assert (Ha : forall (g : span -> presult), (forall r, inside r -> rests (g r)) -> wp True (bind (advance i 1) (fun r => ret (g r))) rests).
    { intros g Hgr. unfold advance. destruct (Nat.leb_spec 1 (sp_len i)); cbn; auto. apply Hgr. eapply suffix_trans; [exact Hi|]. exists 1. auto. }
    unfold basic_parse, basic_look, anything_fc. destruct m; apply wp_bind; destruct (sp_len i =? 0); try exact Hi.
    + apply wp_bind. unfold first. destruct (1 <=? sp_len i); [|exact Logic.I]. apply Ha. auto.
    + apply Ha. auto.
  - fin_.
  - destruct m; unfold schoice_parse, schoice_look; (destruct (result_fors E (q :: qs)) as [tys|]; [|stop]).
    + destruct (_ || _); [|stop]. eapply R_bind; [apply p_or; auto; exact (Hcomb q qs _ HG eq_refl)|]. intros [[|] [i' b]] H; fin_.
    + eapply R_bind; [apply p_or; auto; exact (Hmap q qs HG)|]. intros [[|] [i' b]] H; fin_.
  - destruct m; unfold ssequence_parse, ssequence_look; (destruct (result_fors E (q :: qs)) as [tys|]; [|stop]).
    + eapply R_bind; [apply p_and; auto; exact (Hcomb q qs _ HG eq_refl)|]. intros [[|] [i' b]] H; fin_.
    + eapply R_bind; [apply p_and; auto; exact (Hmap q qs HG)|]. intros [[|] [i' b]] H; fin_.
  - destruct m.
    + destruct (result_for E q) as [t|]; [|stop]. unfold smaybe_parse. eapply R_bind; [apply Hm; auto; now left|]. intros res Hr.
      destruct (r_ok res); [apply R_pure; auto; intros b|]; fin_.
    + unfold smaybe_look. eapply R_bind; [apply Hm; auto; now left|]. intros res Hr. destruct (has_value res); fin_.
  - destruct (n0 =? 0); [stop|]. assert (Hq := fun i => Hm q i (or_introl eq_refl)). destruct m.
    + destruct (result_for E q) as [t|]; [|stop]. unfold sexactly_parse. eapply R_bind; [apply (p_exactly _ _ Hq); auto|]. intros [[i' b]|] H; fin_.
    + unfold sexactly_look. eapply R_bind; [apply (p_exactly _ _ Hq); auto|]. intros [[i' b]|] H; fin_.
  - assert (Hq := fun i => Hm q i (or_introl eq_refl)). destruct m.
    + destruct (result_for E q) as [t|]; [|stop]. unfold sone_or_more_parse. eapply R_bind; [apply (p_rep _ _ Hq); auto|]. intros [[i' b] [|]] H; fin_.
    + unfold sone_or_more_look. eapply R_bind; [apply (p_rep _ _ Hq); auto|]. intros [[i' b] [|]] H; fin_.
  - assert (Hq := fun i => Hm q i (or_introl eq_refl)). destruct m.
    + destruct (result_for E q) as [t|]; [|stop]. unfold szero_or_more_parse. eapply R_bind; [apply (p_rep _ _ Hq); auto|]. intros [[i' b] s] H; fin_.
    + unfold szero_or_more_look. eapply R_bind; [apply (p_rep _ _ Hq); auto|]. intros [[i' b] s] H; fin_.
  - assert (Hq := fun i => Hm q i (or_introl eq_refl)). assert (Hd := fun i => Hm d i (or_intror (or_introl eq_refl))). destruct m.
    + destruct (result_for E q) as [tp|]; [|stop]. destruct (result_for E d) as [td|]; [|stop]. unfold sdelimit_parse.
      eapply R_bind; [apply Hq; auto|]. intros res Hr. destruct (has_value res); [|fin_].
      eapply R_bind; [apply (p_delim _ _ Hq _ _ Hd); auto|]. intros [i' b] H. fin_.
    + unfold sdelimit_look. eapply R_bind; [apply Hq; auto|]. intros res Hr. destruct (has_value res); [|fin_].
      eapply R_bind; [apply (p_delim _ _ Hq _ _ Hd); auto|]. intros [i' b] H. fin_.
  - apply HL; auto. now left.
  - unfold scomplete_run. eapply R_bind; [apply Hm; auto; now left|]. intros res Hr. destruct (_ || _); fin_.
  - assert (Hsp := p_special q k m i (fun q' => Gd_comp q q' (HG q (or_introl eq_refl))) Hi).
    destruct (cjoin_special E seq q k) as [f|], (cjoin_special E' seq' q k) as [g|]; try contradiction; auto.
    change (sjoin_generic E' rec' m q i) with (sjoin_generic E rec' m q i). unfold sjoin_generic. destruct m; [|apply HL; auto; now left].
    destruct (result_for E q) as [t|]; [|stop]. destruct (joinable t); [|stop].
    unfold sjoin_parse. eapply R_bind; [apply Hm; auto; now left|]. intros res Hr. destruct (r_ok res) as [[|v]|]; [stop| |fin_].
    apply R_pure; auto. intros [s|]; fin_.
  - destruct m; [|apply HL; auto; now left]. destruct (result_for E (PMap q f)); [|stop]. unfold smap_parse.
    eapply R_bind; [apply Hm; auto; now left|]. intros res Hr. destruct (r_ok res) as [v|]; [|fin_].
    eapply R_bind; [apply R_call; auto|]. intros w _. fin_.
  - destruct m; [|apply HL; auto; now left]. destruct (result_for E (PFilter q f)); [|stop]. unfold sfilter_parse.
    eapply R_bind; [apply Hm; auto; now left|]. intros res Hr. destruct (r_ok res) as [v|]; [|fin_].
    eapply R_bind; [apply R_call; auto|]. intros [|c] _; [stop|]. destruct (as_bool E c); fin_.
  - apply Hm; auto. now left.
  - destruct m; [|apply HL; auto; now left]. unfold scustom_parse.
    eapply R_bind; [apply Hm; auto; now left|]. intros res Hr. destruct (cust_conv E c) as [|t|t], (r_ok res) as [[|v]|]; try fin_.
    all: eapply R_bind; [apply R_call; auto|]; intros w _; fin_.
Qed.
End Step.

Lemma p_run n : forall m p i, Gd p -> (m = Parse -> C) -> inside i ->
  R _ (xrun E sfn sct seq n m p i) (xrun E' sfn sct seq' n m p i) rests.
Proof.
  induction n as [|n IH]; intros m p i Hg HC Hi; cbn [xrun]; [stop|]. apply p_step; auto.
Qed.
End Pairs.
