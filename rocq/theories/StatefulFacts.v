(** * Facts about runs with state *)
From Coq Require Import String List Arith ZArith Bool Lia.
From Verif Require Import Types Compound Parser Outcome CompoundFacts Exec Mono Derive Typing Join Leaves Sound Stateful.
Import ListNotations.

(** Code that records no event and throws nothing *)
Definition quiet {A} (o : outcome A) : Prop := match o with Done _ tr => tr = [] | Exn _ => False | _ => True end.
Lemma quiet_ret {A} (a : A) : quiet (ret a).
Proof. reflexivity. Qed.
Lemma quiet_bind {A B} (o : outcome A) (f : A -> outcome B) : quiet o -> (forall a, quiet (f a)) -> quiet (bind o f).
Proof.
  intros Ho Hf. destruct o as [a tr1| | | |]; cbn in *; auto. subst tr1. specialize (Hf a). destruct (f a); cbn in *; auto.
Qed.
Ltac quiet := repeat first
  [ apply quiet_ret | apply quiet_bind; [|intros ?]
  | match goal with
    | |- quiet (match ?x with _ => _ end) => destruct x
    | |- quiet (if ?x then _ else _) => destruct x
    end
  | progress intros | solve [auto] | exact Logic.I ].

Lemma quiet_read {T V} (E : env T V) b o : quiet (read E b o).
Proof. unfold read. quiet. Qed.
Lemma quiet_first s n : quiet (first s n).
Proof. unfold first. quiet. Qed.
Lemma quiet_advance s n : quiet (advance s n).
Proof. unfold advance. quiet. Qed.
#[global] Hint Resolve quiet_ret quiet_read quiet_first quiet_advance : core.
Lemma quiet_eq_loop {T V} (E : env T V) arr b : forall o, quiet (eq_loop E arr b o).
Proof. induction arr; intros o; cbn [eq_loop]; quiet. Qed.
Lemma quiet_fc {T V} (E : env T V) p fc len i : elementary E p = Some (fc, len) -> quiet (fc i).
Proof.
  destruct p; try discriminate; cbn; intros [= <- <-]; unfold any_of_fc, none_of_fc, all_of_fc, anything_fc, front, span_equal; quiet.
  apply quiet_eq_loop.
Qed.
Lemma quiet_store ct u k b v : quiet (store ct u k b v).
Proof. unfold store, b_assign, b_emplace, b_get_assign. quiet. Qed.
Lemma quiet_insert b v : quiet (b_insert_back b v).
Proof. unfold b_insert_back. quiet. Qed.
Lemma quiet_insert1 b v : quiet (b_insert_back_first b v).
Proof. unfold b_insert_back_first. quiet. Qed.
Lemma quiet_insert2 b v : quiet (b_insert_back_second b v).
Proof. unfold b_insert_back_second. quiet. Qed.
Lemma quiet_array n b v : quiet (b_array_assign n b v).
Proof. unfold b_array_assign. quiet. Qed.
Lemma quiet_opt b v : quiet (b_emplace_opt b v).
Proof. unfold b_emplace_opt. quiet. Qed.
Lemma quiet_ill {A} : quiet (@Ill A).
Proof. exact Logic.I. Qed.
Lemma quiet_oof {A} : quiet (@OOF A).
Proof. exact Logic.I. Qed.
Lemma quiet_join v rem : quiet (join_executor v rem).
Proof.
  unfold join_executor. apply quiet_bind; [|quiet].
  generalize (@None span). induction v using val_ind'; intros j; cbn [try_join]; try (exact Logic.I); auto.
  - unfold try_join_span. quiet.
  - revert j. induction H; intros j; [reflexivity|]. quiet; auto.
  - revert j. induction H; intros j; [reflexivity|]. quiet; auto.
  - revert j. induction H; intros j; [reflexivity|]. quiet; auto.
Qed.
#[global] Hint Resolve quiet_store quiet_insert quiet_insert1 quiet_insert2 quiet_array quiet_opt quiet_ill quiet_oof quiet_join : core.
Lemma quiet_basic {T V} (E : env T V) p fc len m i : elementary E p = Some (fc, len) ->
  quiet match m with Parse => basic_parse fc len i | Look => basic_look fc len i end.
Proof.
  intros H. assert (Hq := quiet_fc E p fc len i H). destruct m; unfold basic_parse, basic_look; quiet.
Qed.
Lemma quiet_jx fc len : (forall i, quiet (fc i)) -> forall k res i, quiet (jx_loop fc len k res i).
Proof. intros H. induction k; intros; cbn [jx_loop]; quiet. Qed.
Lemma quiet_jr fc len : (forall i, quiet (fc i)) -> forall k res i, quiet (jr_loop fc len k res i).
Proof. intros H. induction k; intros; cbn [jr_loop]; quiet. Qed.
Lemma quiet_special {T V} (E : env T V) q k f m i : join_special E q k = Some f -> quiet (f m i).
Proof.
  assert (Hf : forall p fc len, as_basic E p = Some (fc, len) -> forall i, quiet (fc i)).
  { intros p fc len H j. eapply quiet_fc. eapply as_basic_elementary; eauto. }
  destruct q; cbn [join_special]; try discriminate; destruct (as_basic E q) as [[fc len]|] eqn:Hb; try discriminate;
    try (destruct (n =? 0); [discriminate|]); intros [= <-]; specialize (Hf _ _ _ Hb);
    destruct m; unfold jx_parse, jx_look, jm_parse, jm_look, jo_parse, jo_look, jz_parse, jz_look; quiet; auto using quiet_jx, quiet_jr.
Qed.

Section Facts.
Context {T V W : Type} (E : env T V).
Variable sfn : nat -> list val -> W -> fnres * W.
Variable sct : ty -> list val -> W -> fnres * W.
Notation srun := (srun E sfn sct).
Notation sstep := (sstep E sfn sct).
Notation scall := (scall E sfn sct).
Notation eff := (@eff W).

(** ** One property of all computations *)
Section Unary.
Variable P : forall A, eff A -> Prop.
Variable C : Prop.                                        (* user code may be called *)
Hypothesis P_lift : forall A (o : outcome A), quiet o -> P A (lift o).
Hypothesis P_bind : forall A B (x : eff A) (f : A -> eff B), P A x -> (forall a, P B (f a)) -> P B (sbind x f).
Hypothesis P_call : C -> forall f args, P rv (scall f args).

Ltac una := repeat first
  [ apply P_bind; [|intros ?]
  | match goal with
    | |- P _ (match ?x with _ => _ end) => destruct x
    | |- P _ (if ?x then _ else _) => destruct x
    | |- P _ (sret _) => apply P_lift
    | |- P _ (lift _) => apply P_lift
    | |- quiet (match ?x with _ => _ end) => destruct x
    | |- quiet (if ?x then _ else _) => destruct x
    end
  | progress intros
  | solve [auto] ].

Section Step.
Variable rec : mode -> parser T -> @sfun W.
Hypothesis Hrec : forall m q i, (m = Parse -> C) -> P _ (rec m q i).

Lemma u_rep f k : (forall i, P _ (f i)) -> forall i b s, P _ (srep_loop f k i b s).
Proof. intros Hf. induction k; intros i b s; cbn [srep_loop]; una. Qed.
Lemma u_exactly f k : (forall i, P _ (f i)) -> forall j i b, P _ (sexactly_loop f k j i b).
Proof. intros Hf. induction k; intros j i b; cbn [sexactly_loop]; una. Qed.
Lemma u_delim fp fd pv dv k : (forall i, P _ (fp i)) -> (forall i, P _ (fd i)) ->
  forall res i b, P _ (sdelim_loop fp fd pv dv k res i b).
Proof. intros Hp Hd. induction k; intros res i b; cbn [sdelim_loop]; una. Qed.

Lemma u_execute ct u p idx st : (idx <> None -> C) -> P _ (sexecute rec ct u p idx st).
Proof.
  intros HC. unfold sexecute. una; apply Hrec; try discriminate. intros _. now apply HC.
Qed.
Lemma u_or u ps : (forall p k, In (p, Some k) ps -> C) -> forall st, P _ (sexec_or rec u ps st).
Proof.
  intros HC. induction ps as [|[p idx] ps IH]; intros st; cbn [sexec_or]; una.
  - apply u_execute. intros Hi. destruct idx as [k|]; [|congruence]. eapply HC. now left.
  - apply IH. intros. eapply HC. right. eauto.
Qed.
Lemma u_and u ps : (forall p k, In (p, Some k) ps -> C) -> forall st, P _ (sexec_and rec u ps st).
Proof.
  intros HC. induction ps as [|[p idx] ps IH]; intros st; cbn [sexec_and]; una.
  - apply u_execute. intros Hi. destruct idx as [k|]; [|congruence]. eapply HC. now left.
  - apply IH. intros. eapply HC. right. eauto.
Qed.
Lemma looked (ps : list (parser T)) p k : In (p, Some k) (map (fun p => (p, @None nat)) ps) -> C.
Proof. intros H. apply in_map_iff in H as (q & [=] & _). Qed.

Lemma u_step k m p i : (m = Parse -> C) -> P _ (sstep rec k m p i).
Proof.
  intros HC. assert (HL : forall q i, P _ (rec Look q i)) by (intros; apply Hrec; discriminate).
  assert (Hm : forall q i, P _ (rec m q i)) by (intros; apply Hrec; auto).
  destruct p; cbn [sstep Stateful.sstep]; try (apply P_lift; now eapply quiet_basic); try (now apply P_lift).
  all: try (apply P_lift; match goal with |- context [any_of_fc E ?a] => apply (quiet_basic E (PAnyOf a)) end; reflexivity).
  all: try (apply P_lift; match goal with |- context [none_of_fc E ?a] => apply (quiet_basic E (PNoneOf a)) end; reflexivity).
  all: try (apply P_lift; match goal with |- context [all_of_fc E ?a] => apply (quiet_basic E (PAllOf a)) end; reflexivity).
  all: try (apply P_lift; apply (quiet_basic E PAnything); reflexivity).
  - destruct m; unfold schoice_parse, schoice_look; una; apply u_or; eauto using looked.
  - destruct m; unfold ssequence_parse, ssequence_look; una; apply u_and; eauto using looked.
  - destruct m; unfold smaybe_parse, smaybe_look; una.
  - destruct m; unfold sexactly_parse, sexactly_look; una; apply u_exactly; auto.
  - destruct m; unfold sone_or_more_parse, sone_or_more_look; una; apply u_rep; auto.
  - destruct m; unfold szero_or_more_parse, szero_or_more_look; una; apply u_rep; auto.
  - destruct m; unfold sdelimit_parse, sdelimit_look; una; apply u_delim; auto.
  - apply HL.
  - unfold scomplete_run; una.
  - destruct (join_special E p k) as [f|] eqn:Hj; [apply P_lift; eapply quiet_special; eauto|].
    unfold sjoin_generic, sjoin_parse. una.
  - destruct m; unfold smap_parse; una.
  - destruct m; unfold sfilter_parse; una.
  - apply Hm.
  - destruct m; unfold scustom_parse; una.
Qed.
End Step.

Lemma u_run n : forall m p i, (m = Parse -> C) -> P _ (srun n m p i).
Proof.
  induction n as [|n IH]; intros m p i HC; cbn [Stateful.srun]; [now apply P_lift|]. apply u_step; auto.
Qed.
End Unary.

(** ** A relation with the runs of Exec.v *)
Section Binary.
Variable R : forall A, eff A -> outcome A -> Prop.
Variable C : Prop.
Hypothesis R_lift : forall A (o : outcome A), quiet o -> R A (lift o) o.
Hypothesis R_bind : forall A B (x : eff A) (y : outcome A) (f : A -> eff B) (g : A -> outcome B),
  R A x y -> (forall a, R B (f a) (g a)) -> R B (sbind x f) (bind y g).
Hypothesis R_call : C -> forall f args, R rv (scall f args) (call E f args).

Ltac bin := repeat first
  [ apply R_bind; [|intros ?]
  | match goal with
    | |- R _ (sret ?a) (ret ?a) => apply R_lift; auto
    | |- R _ (lift ?o) ?o => apply R_lift
    | |- R _ (match ?x with _ => _ end) (match ?x with _ => _ end) => destruct x
    | |- R _ (if ?x then _ else _) (if ?x then _ else _) => destruct x
    | |- quiet (match ?x with _ => _ end) => destruct x
    | |- quiet (if ?x then _ else _) => destruct x
    end
  | progress intros
  | solve [auto] ].

Section Step.
Variable rec : mode -> parser T -> @sfun W.
Variable prec : mode -> parser T -> pfun.
Hypothesis Hrec : forall m q i, (m = Parse -> C) -> R _ (rec m q i) (prec m q i).

Lemma b_rep f g k : (forall i, R _ (f i) (g i)) -> forall i b s, R _ (srep_loop f k i b s) (rep_loop g k i b s).
Proof. intros Hf. induction k; intros i b s; cbn [srep_loop rep_loop]; bin. Qed.
Lemma b_exactly f g k : (forall i, R _ (f i) (g i)) -> forall j i b, R _ (sexactly_loop f k j i b) (exactly_loop g k j i b).
Proof. intros Hf. induction k; intros j i b; cbn [sexactly_loop exactly_loop]; bin. Qed.
Lemma b_delim fp fd gp gd pv dv k : (forall i, R _ (fp i) (gp i)) -> (forall i, R _ (fd i) (gd i)) ->
  forall res i b, R _ (sdelim_loop fp fd pv dv k res i b) (delim_loop gp gd pv dv k res i b).
Proof. intros Hp Hd. induction k; intros res i b; cbn [sdelim_loop delim_loop]; bin. Qed.

Lemma b_execute ct u p idx st : (idx <> None -> C) -> R _ (sexecute rec ct u p idx st) (execute prec ct u p idx st).
Proof.
  intros HC. unfold sexecute, execute. bin; apply Hrec; try discriminate. intros _. now apply HC.
Qed.
Lemma b_or u ps : (forall p k, In (p, Some k) ps -> C) -> forall st, R _ (sexec_or rec u ps st) (exec_or prec u ps st).
Proof.
  intros HC. induction ps as [|[p idx] ps IH]; intros st; cbn [sexec_or exec_or]; bin.
  - apply b_execute. intros Hi. destruct idx as [k|]; [|congruence]. eapply HC. now left.
  - apply IH. intros. eapply HC. right. eauto.
Qed.
Lemma b_and u ps : (forall p k, In (p, Some k) ps -> C) -> forall st, R _ (sexec_and rec u ps st) (exec_and prec u ps st).
Proof.
  intros HC. induction ps as [|[p idx] ps IH]; intros st; cbn [sexec_and exec_and]; bin.
  - apply b_execute. intros Hi. destruct idx as [k|]; [|congruence]. eapply HC. now left.
  - apply IH. intros. eapply HC. right. eauto.
Qed.
Lemma blooked (ps : list (parser T)) p k : In (p, Some k) (map (fun p => (p, @None nat)) ps) -> C.
Proof. intros H. apply in_map_iff in H as (q & [=] & _). Qed.

Lemma b_step k m p i : (m = Parse -> C) -> R _ (sstep rec k m p i) (step E prec k m p i).
Proof.
  intros HC. assert (HL : forall q i, R _ (rec Look q i) (prec Look q i)) by (intros; apply Hrec; discriminate).
  assert (Hm : forall q i, R _ (rec m q i) (prec m q i)) by (intros; apply Hrec; auto).
  destruct p; cbn [sstep Stateful.sstep step].
  - apply R_lift. apply (quiet_basic E (PAnyOf arr)). reflexivity.
  - apply R_lift. apply (quiet_basic E (PNoneOf arr)). reflexivity.
  - apply R_lift. apply (quiet_basic E (PAllOf arr)). reflexivity.
  - apply R_lift. apply (quiet_basic E PAnything). reflexivity.
  - apply R_lift, quiet_ret.
  - destruct m; unfold schoice_parse, schoice_look, choice_parse, choice_look; bin; apply b_or; eauto using blooked.
  - destruct m; unfold ssequence_parse, ssequence_look, sequence_parse, sequence_look; bin; apply b_and; eauto using blooked.
  - destruct m; unfold smaybe_parse, smaybe_look, maybe_parse, maybe_look; bin.
  - destruct m; unfold sexactly_parse, sexactly_look, exactly_parse, exactly_look; bin; apply b_exactly; auto.
  - destruct m; unfold sone_or_more_parse, sone_or_more_look, one_or_more_parse, one_or_more_look; bin; apply b_rep; auto.
  - destruct m; unfold szero_or_more_parse, szero_or_more_look, zero_or_more_parse, zero_or_more_look; bin; apply b_rep; auto.
  - destruct m; unfold sdelimit_parse, sdelimit_look, delimit_parse, delimit_look; bin; apply b_delim; auto.
  - apply HL.
  - unfold scomplete_run, complete_run; bin.
  - destruct (join_special E p k) as [f|] eqn:Hj; [apply R_lift; eapply quiet_special; eauto|].
    unfold sjoin_generic, sjoin_parse, join_generic, join_parse. bin.
  - destruct m; unfold smap_parse, map_parse; bin.
  - destruct m; unfold sfilter_parse, filter_parse; bin.
  - apply Hm.
  - destruct m; unfold scustom_parse, custom_parse; bin.
Qed.
End Step.

Lemma b_run n : forall m p i, (m = Parse -> C) -> R _ (srun n m p i) (run E n m p i).
Proof.
  induction n as [|n IH]; intros m p i HC; cbn [Stateful.srun run]; [now apply R_lift|]. apply b_step; auto.
Qed.
End Binary.

(** ** More fuel *)
Definition leq {A} (x y : eff A) : Prop := forall w, fst (x w) <> OOF -> y w = x w.
Lemma leq_refl {A} (x : eff A) : leq x x.
Proof. now intros w _. Qed.
Lemma leq_bind {A B} (x y : eff A) (f g : A -> eff B) : leq x y -> (forall a, leq (f a) (g a)) -> leq (sbind x f) (sbind y g).
Proof.
  intros Hx Hf w. unfold sbind. specialize (Hx w). destruct (x w) as [o w1] eqn:He. cbn in Hx.
  destruct o as [a tr| |e| |]; cbn; try (intros _; now rewrite Hx by discriminate); [|congruence].
  intros H. rewrite Hx by discriminate. specialize (Hf a w1). destruct (f a w1) as [o2 w2]. cbn in Hf.
  destruct o2; cbn in *; try (now rewrite Hf by discriminate). congruence.
Qed.
Lemma leq_oof {A} (x : eff A) : leq (lift OOF) x.
Proof. intros w H. now destruct H. Qed.

Ltac mon := repeat first
  [ apply leq_refl | apply leq_oof | apply leq_bind; [|intros ?]
  | match goal with
    | |- leq (match ?x with _ => _ end) (match ?x with _ => _ end) => destruct x
    | |- leq (if ?x then _ else _) (if ?x then _ else _) => destruct x
    end
  | progress intros
  | solve [auto] ].
Section Mono.
Variables rec rec' : mode -> parser T -> @sfun W.
Hypothesis Hrec : forall m q i, leq (rec m q i) (rec' m q i).
Lemma m_rep (f g : sfun) : (forall i, leq (f i) (g i)) -> forall k k' i b s, k <= k' -> leq (srep_loop f k i b s) (srep_loop g k' i b s).
Proof.
  intros Hf. induction k as [|k IH]; intros [|k'] i b s Hk; cbn [srep_loop]; mon; try lia. apply IH. lia.
Qed.
Lemma m_exactly (f g : sfun) : (forall i, leq (f i) (g i)) -> forall k j i b, leq (sexactly_loop f k j i b) (sexactly_loop g k j i b).
Proof. intros Hf. induction k; intros j i b; cbn [sexactly_loop]; mon. Qed.
Lemma m_delim (fp fd gp gd : sfun) pv dv : (forall i, leq (fp i) (gp i)) -> (forall i, leq (fd i) (gd i)) ->
  forall k k' res i b, k <= k' -> leq (sdelim_loop fp fd pv dv k res i b) (sdelim_loop gp gd pv dv k' res i b).
Proof.
  intros Hp Hd. induction k as [|k IH]; intros [|k'] res i b Hk; cbn [sdelim_loop]; mon; try lia. apply IH. lia.
Qed.
Lemma m_execute ct u p idx st : leq (sexecute rec ct u p idx st) (sexecute rec' ct u p idx st).
Proof. unfold sexecute. mon. Qed.
Lemma m_or u ps : forall st, leq (sexec_or rec u ps st) (sexec_or rec' u ps st).
Proof. induction ps as [|[p idx] ps IH]; intros st; cbn [sexec_or]; mon. apply m_execute. Qed.
Lemma m_and u ps : forall st, leq (sexec_and rec u ps st) (sexec_and rec' u ps st).
Proof. induction ps as [|[p idx] ps IH]; intros st; cbn [sexec_and]; mon. apply m_execute. Qed.

Lemma leq_special q k k' m i : k <= k' ->
  match join_special E q k, join_special E q k' with
  | Some f, Some g => leq (lift (W := W) (f m i)) (lift (g m i))
  | None, None => True
  | _, _ => False
  end.
Proof.
  intros Hk. assert (H : forall f g, join_special E q k = Some f -> join_special E q k' = Some g ->
    leq (lift (W := W) (f m i)) (lift (g m i))).
  { intros f g Hf Hg w Hw. unfold lift in *. cbn in Hw. f_equal.
    assert (Hs := step_le E (fun _ _ _ => OOF) (fun _ _ _ => OOF) ltac:(intros ? ? ?; apply le_out_refl) k k' m (PJoin q) i Hk).
    cbn [step] in Hs. rewrite Hf, Hg in Hs. destruct Hs; [contradiction|auto]. }
  destruct (join_special E q k) as [f|] eqn:Hf, (join_special E q k') as [g|] eqn:Hg; auto.
  - revert Hf Hg. clear. destruct q; cbn [join_special]; try discriminate; destruct (as_basic E q) as [[fc len]|]; try discriminate.
    destruct (n =? 0); discriminate.
  - revert Hf Hg. clear. destruct q; cbn [join_special]; try discriminate; destruct (as_basic E q) as [[fc len]|]; try discriminate.
    destruct (n =? 0); discriminate.
Qed.

Lemma m_step k k' m p i : k <= k' -> leq (sstep rec k m p i) (sstep rec' k' m p i).
Proof.
  intros Hk. destruct p; cbn [sstep Stateful.sstep]; try apply leq_refl; try apply Hrec.
  - destruct m; unfold schoice_parse, schoice_look; mon; apply m_or.
  - destruct m; unfold ssequence_parse, ssequence_look; mon; apply m_and.
  - destruct m; unfold smaybe_parse, smaybe_look; mon.
  - destruct m; unfold sexactly_parse, sexactly_look; mon; apply m_exactly; auto.
  - destruct m; unfold sone_or_more_parse, sone_or_more_look; mon; apply m_rep; auto.
  - destruct m; unfold szero_or_more_parse, szero_or_more_look; mon; apply m_rep; auto.
  - destruct m; unfold sdelimit_parse, sdelimit_look; mon; apply m_delim; auto.
  - unfold scomplete_run; mon.
  - assert (Hs := leq_special p k k' m i Hk). destruct (join_special E p k), (join_special E p k'); auto; [contradiction..|].
    unfold sjoin_generic, sjoin_parse. mon.
  - destruct m; unfold smap_parse; mon.
  - destruct m; unfold sfilter_parse; mon.
  - destruct m; unfold scustom_parse; mon.
Qed.
End Mono.

Lemma m_run n : forall n' m p i, n <= n' -> leq (srun n m p i) (srun n' m p i).
Proof.
  induction n as [|n IH]; intros [|n'] m p i Hn; cbn [Stateful.srun]; try apply leq_oof; [lia|].
  apply m_step; [|lia]. intros. apply IH. lia.
Qed.

Lemma sevals_det m p i w o o' w1 w2 : sevals E sfn sct m p i w o w1 -> sevals E sfn sct m p i w o' w2 -> o = o' /\ w1 = w2.
Proof.
  intros [Ho [n Hn]] [Ho' [n' Hn']].
  assert (H1 := m_run n (max n n') m p i ltac:(lia) w). assert (H2 := m_run n' (max n n') m p i ltac:(lia) w).
  rewrite Hn in H1. rewrite Hn' in H2. cbn in *. specialize (H1 Ho). specialize (H2 Ho'). rewrite H1 in H2. now injection H2.
Qed.
End Facts.
