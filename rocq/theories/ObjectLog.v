(** * What is recorded about the objects of a run *)
From Coq Require Import String List Arith ZArith Bool Lia.
From Verif Require Import Types Compound Parser Outcome CompoundFacts Exec Leaves Typing Objects.
Import ListNotations.

(** Every recorded use satisfies [Q], the result satisfies [P] *)
Definition logs {A} (Q : use -> Prop) (P : A -> Prop) (x : om A) : Prop :=
  Forall Q (fst x) /\ forall a tr, snd x = Done a tr -> P a.

Section Rules.
Context (Q : use -> Prop).

Lemma logs_ret {A} (P : A -> Prop) a : P a -> logs Q P (oret a).
Proof. intros H. split; [constructor|]. now intros ? ? [= <- _]. Qed.

Lemma logs_lift {A} (P : A -> Prop) o : (forall a tr, o = Done a tr -> P a) -> logs Q P (lift o).
Proof. intros H. split; [constructor | exact H]. Qed.

Lemma logs_bind {A B} (P : A -> Prop) (P' : B -> Prop) x f :
  logs Q P x -> (forall a, P a -> logs Q P' (f a)) -> logs Q P' (obind x f).
Proof.
  intros [L H] K. destruct x as [l o]. cbn in *. unfold logs, obind. cbn.
  destruct o as [a tr| | | |]; cbn; rewrite ?app_nil_r; try (split; [assumption | discriminate]).
  destruct (K a (H a tr eq_refl)) as [L' H']. split; [now apply Forall_app|].
  intros b tr'. destruct (snd (f a)) as [b' tr2| | | |]; try discriminate. intros [= <- _]. now apply (H' b' tr2).
Qed.

Lemma logs_say {A} (P : A -> Prop) u k : Q u -> logs Q P (k tt) -> logs Q P (obind (say u) k).
Proof.
  intros Hu H. eapply logs_bind with (P := fun _ => True); [|intros []; auto].
  split; [now repeat constructor | auto].
Qed.

Lemma logs_fault {A} (P : A -> Prop) u : Q u -> logs Q P (fault u).
Proof. intros Hu. split; [now repeat constructor | discriminate]. Qed.

Lemma logs_weaken {A} (P P' : A -> Prop) x : (forall a, P a -> P' a) -> logs Q P x -> logs Q P' x.
Proof. intros H [L K]. split; [exact L|]. eauto. Qed.
End Rules.

Definition any {A} (a : A) : Prop := True.

(** ** Lookahead *)
Section Look.
Context {T V : Type} (E : env T V) (C : traits).

Definition never (u : use) : Prop := False.
Definition void_result (r : robj) : Prop := o_val r = None \/ o_val r = Some (Holds RVoid).
Notation silent := (logs never).

Lemma look_fail i : silent void_result (oret (ofail i)).
Proof. apply logs_ret. now left. Qed.
Lemma look_succeed i : silent void_result (oret (osucceed i)).
Proof. apply logs_ret. now right. Qed.
#[local] Hint Resolve look_fail look_succeed : obj.

Lemma look_basic fc len i : silent void_result (obasic_look fc len i).
Proof.
  unfold obasic_look. eapply logs_bind with (P := any); [now apply logs_lift|]. intros [|] _; [auto with obj|].
  eapply logs_bind with (P := any); [now apply logs_lift|]. auto with obj.
Qed.

Section Rec.
Variable orec : mode -> parser T -> ofun.
Hypothesis Hrec : forall p i, silent void_result (orec Look p i).

Lemma look_or unw ps : forall i, silent any (oexec_or E C orec unw (map (fun p => (p, None)) ps) (i, Holds RVoid)).
Proof.
  induction ps as [|p ps IH]; intros i; cbn [map oexec_or]; [now apply logs_ret|].
  eapply logs_bind with (P := fun x => snd (snd x) = Holds RVoid).
  - cbn [oexecute]. eapply logs_bind; [apply Hrec|]. intros r _. now apply logs_ret.
  - intros [ok [i' b]] Hb. cbn in Hb. subst b. destruct ok; [now apply logs_ret | apply IH].
Qed.

Lemma look_and unw ps : forall i, silent any (oexec_and E C orec unw (map (fun p => (p, None)) ps) (i, Holds RVoid)).
Proof.
  induction ps as [|p ps IH]; intros i; cbn [map oexec_and]; [now apply logs_ret|].
  eapply logs_bind with (P := fun x => snd (snd x) = Holds RVoid).
  - cbn [oexecute]. eapply logs_bind; [apply Hrec|]. intros r _. now apply logs_ret.
  - intros [ok [i' b]] Hb. cbn in Hb. subst b. destruct ok; [apply IH | now apply logs_ret].
Qed.

Lemma look_finish i x : silent void_result (ofinish C TVoid i x).
Proof. destruct x as [[|] [i' b]]; cbn; auto with obj. Qed.

Lemma look_choice ps i : silent void_result (ochoice_look E C orec ps i).
Proof.
  unfold ochoice_look. destruct (result_fors E ps); [|apply logs_lift; discriminate].
  eapply logs_bind with (P := fun b => b = Holds RVoid); [now apply logs_ret|]. intros b ->.
  eapply logs_bind; [apply look_or|]. intros; apply look_finish.
Qed.

Lemma look_sequence ps i : silent void_result (osequence_look E C orec ps i).
Proof.
  unfold osequence_look. destruct (result_fors E ps); [|apply logs_lift; discriminate].
  eapply logs_bind with (P := fun b => b = Holds RVoid); [now apply logs_ret|]. intros b ->.
  eapply logs_bind; [apply look_and|]. intros; apply look_finish.
Qed.
End Rec.

Section Fun.
Variables (f h : ofun).
Hypotheses (Hf : forall i, silent void_result (f i)) (Hh : forall i, silent void_result (h i)).

Lemma look_maybe i : silent void_result (omaybe_look f i).
Proof. eapply logs_bind; [apply Hf|]. intros r _. destruct (engaged r); auto with obj. Qed.

Lemma look_exactly_loop k : forall i, silent any (oexactly_look_loop f k i).
Proof.
  induction k as [|k IH]; intros i; cbn; [now apply logs_ret|].
  eapply logs_bind; [apply Hf|]. intros r _. destruct (engaged r); cbn; [apply IH | now apply logs_ret].
Qed.

Lemma look_exactly n i : silent void_result (oexactly_look f n i).
Proof. eapply logs_bind; [apply look_exactly_loop|]. intros [i'|] _; auto with obj. Qed.

Lemma look_rep k : forall i ok, silent any (orep_look_loop f k i ok).
Proof.
  induction k as [|k IH]; intros i ok; cbn; [now apply logs_lift|].
  eapply logs_bind; [apply Hf|]. intros r _. destruct (engaged r); cbn; [apply IH | now apply logs_ret].
Qed.

Lemma look_one_or_more k i : silent void_result (oone_or_more_look f k i).
Proof. eapply logs_bind; [apply look_rep|]. intros [i' [|]] _; auto with obj. Qed.
Lemma look_zero_or_more k i : silent void_result (ozero_or_more_look f k i).
Proof. eapply logs_bind; [apply look_rep|]. intros [i' ok] _; auto with obj. Qed.

Lemma look_assign t old new : void_result new -> silent void_result (oassign_result C t old new).
Proof. intros H. unfold oassign_result. pose proof H as [H'|H']; rewrite H'; now apply logs_ret. Qed.

Lemma look_delim_loop k : forall r i, void_result r -> silent any (odelim_look_loop C f h k r i).
Proof.
  induction k as [|k IH]; intros r i Hr; cbn; [now apply logs_lift|].
  destruct (engaged r); cbn; [|now apply logs_ret].
  eapply logs_bind; [apply Hh|]. intros d _. destruct (engaged d); cbn; [|now apply logs_ret].
  eapply logs_bind; [apply Hf|]. intros new Hn. eapply logs_bind; [now apply look_assign|]. intros; now apply IH.
Qed.

Lemma look_delimit k i : silent void_result (odelimit_look C f h k i).
Proof.
  eapply logs_bind; [apply Hf|]. intros r Hr. destruct (engaged r); cbn; [|auto with obj].
  eapply logs_bind; [now apply look_delim_loop|]. auto with obj.
Qed.

Lemma look_return t r : void_result r -> silent void_result (oreturn C t r).
Proof. intros H. unfold oreturn. pose proof H as [H'|H']; rewrite H'; now apply logs_ret. Qed.

Lemma look_complete t i : silent void_result (ocomplete_run C t f i).
Proof.
  eapply logs_bind; [apply Hf|]. intros r Hr. destruct (_ || _); [auto with obj | now apply look_return].
Qed.
End Fun.

Lemma join_special_look q k f i r tr : join_special E q k = Some f -> f Look i = Done r tr -> r_ok r = None \/ r_ok r = Some RVoid.
Proof.
  intros H. destruct q; try discriminate; cbn in H; destruct (as_basic E q) as [[fc len]|]; try discriminate.
  - injection H as <-. unfold jm_look. destruct (fc i) as [[|] tr'| | | |]; cbn; try discriminate; [intros [= <- _]; cbn; auto|].
    destruct (advance i len) as [a tr2| | | |]; cbn; try discriminate. intros [= <- _]; cbn; auto.
  - destruct (n =? 0); [discriminate|]. injection H as <-. unfold jx_look.
    destruct (jx_loop fc len n _ i) as [[[a b]|] tr'| | | |]; cbn; try discriminate; intros [= <- _]; cbn; auto.
  - injection H as <-. unfold jo_look. destruct (fc i) as [[|] tr'| | | |]; cbn; try discriminate; [intros [= <- _]; cbn; auto|].
    destruct (advance i len) as [a tr2| | | |]; cbn; try discriminate.
    destruct (jr_loop fc len k _ a) as [[b c] tr3| | | |]; cbn; try discriminate. intros [= <- _]; cbn; auto.
  - injection H as <-. unfold jz_look.
    destruct (jr_loop fc len k _ i) as [[b c] tr3| | | |]; cbn; try discriminate. intros [= <- _]; cbn; auto.
Qed.

Lemma look_step orec k p i : (forall p i, silent void_result (orec Look p i)) -> silent void_result (ostep E C orec k Look p i).
Proof.
  intros H. destruct p; cbn [ostep]; auto with obj.
  1, 2, 3, 4: apply look_basic.
  - now apply look_choice.
  - now apply look_sequence.
  - apply look_maybe. intros; apply H.
  - destruct (n =? 0); [apply logs_lift; discriminate|]. apply look_exactly. intros; apply H.
  - apply look_one_or_more. intros; apply H.
  - apply look_zero_or_more. intros; apply H.
  - apply look_delimit; intros; apply H.
  - apply look_complete. intros; apply H.
  - destruct (join_special E p k) as [f|] eqn:J; [|apply H].
    unfold ojoin_special. eapply logs_bind with (P := fun r => r_ok r = None \/ r_ok r = Some RVoid).
    + apply logs_lift. intros r tr. now apply (join_special_look _ _ _ _ _ _ J).
    + intros r [Hr|Hr]; rewrite Hr; cbn; auto with obj.
Qed.

Theorem look_silent n : forall p i, silent void_result (orun E C n Look p i).
Proof.
  induction n as [|n IH]; intros p i; cbn [orun]; [apply logs_lift; discriminate | now apply look_step].
Qed.
End Look.

(** ** Parse: which uses are possible *)
Section Parse.
Context {T V : Type} (E : env T V) (C : traits) (Q : use -> Prop).

(** uses that any parser may cause *)
Record tolerant : Prop := Tolerant {
  tol_hand : Q Hand; tol_show : Q Show; tol_stale : Q Stale; tol_no : Q NoValue;
  tol_init : forall t, Q (init C t); tol_move : forall t, Q (Move t); tol_insert : forall t, Q (Insert t); tol_massign : forall t, Q (MoveAssign t);
  tol_cassign : forall t, move_assignable C t = false -> Q (CopyAssign t) }.

(** the parsers that have a [result_builder] *)
Definition has_builder (p : parser T) : bool :=
  match p with
  | PChoice _ _ | PSequence _ _ | PMaybe _ | PExactly _ _ | POneOrMore _ | PZeroOrMore _ | PDelimit _ _ => true
  | _ => false
  end.
Definition function_of (p : parser T) : option func :=
  match p with PMap _ f | PFilter _ f => Some f | _ => None end.

Definition permits (p : parser T) : Prop :=
  (forall t, has_builder p = true -> result_for E p = Some t -> t <> TVoid -> Q (Default t)) /\
  (forall f, function_of p = Some f -> Forall Q (fn_uses E f)).

Hypothesis HQ : tolerant.

Notation ok := (logs Q any).

Lemma ok_make t v rem : ok (omake C t v rem).
Proof. destruct v; cbn; [now apply logs_ret|]. apply logs_say; [apply HQ | now apply logs_ret]. Qed.

Lemma ok_return t r : ok (oreturn C t r).
Proof.
  unfold oreturn. destruct (o_val r) as [[[|v]|]|]; try now apply logs_ret.
  - apply logs_say; [apply HQ | now apply logs_ret].
  - apply logs_fault, HQ.
Qed.

Lemma ok_deref r : ok (deref r).
Proof. unfold deref. destruct (o_val r) as [[|]|]; [now apply logs_ret | apply logs_fault, HQ | apply logs_fault, HQ]. Qed.

Lemma ok_take r : ok (take r).
Proof. eapply logs_bind; [apply ok_deref|]. intros; now apply logs_ret. Qed.

Lemma ok_put f u b r : Q u -> ok (oput f u b r).
Proof.
  intros Hu. destruct b as [[|old]|]; cbn; [now apply logs_ret| |apply logs_fault, HQ].
  eapply logs_bind; [apply ok_take|]. intros [v r'] _. apply logs_say; [exact Hu|].
  eapply logs_bind with (P := any); [now apply logs_lift|]. intros; now apply logs_ret.
Qed.

Lemma ok_copy t b r : move_assignable C t = false -> ok (oassign_copy t b r).
Proof.
  intros Ht. destruct b as [[|old]|]; cbn; [now apply logs_ret| |apply logs_fault, HQ].
  eapply logs_bind; [apply ok_deref|]. intros v _. apply logs_say; [now apply HQ|].
  eapply logs_bind with (P := any); [now apply logs_lift|]. intros; now apply logs_ret.
Qed.

Lemma ok_build t b i : ok (obuild C t b i).
Proof.
  destruct b; cbn; [|apply logs_fault, HQ]. eapply logs_bind; [apply ok_make|]. intros; now apply logs_ret.
Qed.

Lemma ok_build' t b i : ok (obind (obuild C t b i) (fun x => let (r, _) := x in oret r)).
Proof. eapply logs_bind; [apply ok_build|]. intros [r c] _; now apply logs_ret. Qed.

Lemma ok_builder t : (t <> TVoid -> Q (Default t)) -> ok (obuilder t).
Proof.
  intros H. unfold obuilder. destruct t; cbn; try (apply logs_say; [apply H; discriminate | now apply logs_ret]). now apply logs_ret.
Qed.

Lemma ok_call f args : Forall Q (fn_uses E f) -> ok (ocall E f args).
Proof. intros H. split; [exact H | auto; exact (fun _ _ _ => Logic.I)]. Qed.

Lemma ok_invoke_move f r : Forall Q (fn_uses E f) -> ok (oinvoke_move E f r).
Proof.
  intros H. unfold oinvoke_move. destruct (o_val r) as [[[|v]|]|];
    try (eapply logs_bind; [apply ok_take|]; intros [w r'] _; apply logs_say; [apply HQ|]);
    (eapply logs_bind; [now apply ok_call|]); intros; now apply logs_ret.
Qed.

Lemma ok_invoke_const f r : Forall Q (fn_uses E f) -> ok (oinvoke_const E f r).
Proof.
  intros H. unfold oinvoke_const. destruct (o_val r) as [[[|v]|]|];
    try (eapply logs_bind; [apply ok_deref|]; intros w _; apply logs_say; [apply HQ|]); now apply ok_call.
Qed.

Lemma ok_basic fc len i : ok (obasic_parse C fc len i).
Proof.
  unfold obasic_parse. eapply logs_bind with (P := any); [now apply logs_lift|]. intros [|] _; [now apply logs_ret|].
  eapply logs_bind with (P := any); [now apply logs_lift|]. intros v _.
  eapply logs_bind with (P := any); [now apply logs_lift|]. intros; apply ok_make.
Qed.

Section Rec.
Variable orec : mode -> parser T -> ofun.
Variable ps : list (parser T).
Hypothesis Hrec : forall m p i, In p ps -> ok (orec m p i).

Lemma ok_execute ct unw p idx st : In p ps -> ok (oexecute E C orec ct unw p idx st).
Proof.
  intros Hp. destruct st as [i b], idx as [k|]; cbn [oexecute].
  - eapply logs_bind; [now apply Hrec|]. intros r _. destruct (engaged r); cbn [negb]; [|now apply logs_ret].
    eapply logs_bind with (P := any).
    + destruct unw; [destruct (move_assignable C (ty_of E p)) eqn:M; [apply ok_put, HQ | now apply ok_copy]|].
      destruct ct; apply ok_put, HQ.
    + intros [c r'] _; now apply logs_ret.
  - eapply logs_bind; [now apply Hrec|]. intros r _; now apply logs_ret.
Qed.

Lemma ok_or unw l : (forall p idx, In (p, idx) l -> In p ps) -> forall st, ok (oexec_or E C orec unw l st).
Proof.
  induction l as [|[p idx] l IH]; intros Hl st; cbn; [now apply logs_ret|].
  eapply logs_bind; [apply ok_execute; apply (Hl p idx); now left|]. intros [[|] st'] _; [now apply logs_ret|].
  apply IH. intros p' idx' Hp. apply (Hl p' idx'). now right.
Qed.

Lemma ok_and unw l : (forall p idx, In (p, idx) l -> In p ps) -> forall st, ok (oexec_and E C orec unw l st).
Proof.
  induction l as [|[p idx] l IH]; intros Hl st; cbn; [now apply logs_ret|].
  eapply logs_bind; [apply ok_execute; apply (Hl p idx); now left|]. intros [[|] st'] _; [|now apply logs_ret].
  apply IH. intros p' idx' Hp. apply (Hl p' idx'). now right.
Qed.

Lemma ok_finish t i x : ok (ofinish C t i x).
Proof.
  destruct x as [[|] [i' b]]; cbn; [|now apply logs_ret]. destruct (is_void t); [now apply logs_ret | apply ok_build'].
Qed.
End Rec.

Lemma ok_choice orec q qs i : permits (PChoice q qs) -> (forall m p i, In p (q :: qs) -> ok (orec m p i)) ->
  ok (ochoice_parse E C orec (q :: qs) i).
Proof.
  intros [Hd _] Hrec. specialize (fun t => Hd t eq_refl). rewrite result_for_choice in Hd.
  unfold ochoice_parse. destruct (result_fors E (q :: qs)) as [tys|]; [|apply logs_lift; discriminate].
  destruct (_ || _); [|apply logs_lift; discriminate].
  eapply logs_bind; [apply ok_builder; intros; now apply Hd|]. intros b _.
  eapply logs_bind; [eapply ok_or; [exact Hrec|]; intros p idx Hp; now apply in_combine_l in Hp|]. intros; apply ok_finish.
Qed.

Lemma ok_sequence orec q qs i : permits (PSequence q qs) -> (forall m p i, In p (q :: qs) -> ok (orec m p i)) ->
  ok (osequence_parse E C orec (q :: qs) i).
Proof.
  intros [Hd _] Hrec. specialize (fun t => Hd t eq_refl). rewrite result_for_seq in Hd.
  unfold osequence_parse. destruct (result_fors E (q :: qs)) as [tys|]; [|apply logs_lift; discriminate].
  eapply logs_bind; [apply ok_builder; intros; now apply Hd|]. intros b _.
  eapply logs_bind; [eapply ok_and; [exact Hrec|]; intros p idx Hp; now apply in_combine_l in Hp|]. intros; apply ok_finish.
Qed.

Section Fun.
Variables (f h : ofun).
Hypotheses (Hf : forall i, ok (f i)) (Hh : forall i, ok (h i)).

Lemma ok_maybe t i : (is_void t = false -> Q (Default (TOpt t))) -> ok (omaybe_parse C t f i).
Proof.
  intros Hd. unfold omaybe_parse. eapply logs_bind; [apply ok_builder; destruct (is_void t); [congruence | auto]|]. intros b _.
  eapply logs_bind; [apply Hf|]. intros r _. eapply logs_bind with (P := any).
  - destruct (engaged r); [apply ok_put, HQ | now apply logs_ret].
  - intros [c r'] _. apply ok_build'.
Qed.

Lemma ok_exactly_loop t k : forall j i b, ok (oexactly_loop t f k j i b).
Proof.
  induction k as [|k IH]; intros j i b; cbn; [now apply logs_ret|].
  eapply logs_bind; [apply Hf|]. intros r _. destruct (engaged r); cbn [negb]; [|now apply logs_ret].
  eapply logs_bind; [apply ok_put, HQ|]. intros [c r'] _. apply IH.
Qed.

Lemma ok_exactly t n i : (is_void t = false -> Q (Default (TArr t n))) -> ok (oexactly_parse C t f n i).
Proof.
  intros Hd. unfold oexactly_parse. eapply logs_bind; [apply ok_builder; destruct (is_void t); [congruence | auto]|]. intros b _.
  eapply logs_bind; [apply ok_exactly_loop|]. intros [[i' c]|] _; [apply ok_build' | now apply logs_ret].
Qed.

Lemma ok_rep t k : forall i b s, ok (orep_loop t f k i b s).
Proof.
  induction k as [|k IH]; intros i b s; cbn; [now apply logs_lift|].
  eapply logs_bind; [apply Hf|]. intros r _. destruct (engaged r); cbn [negb]; [|now apply logs_ret].
  eapply logs_bind; [apply ok_put, HQ|]. intros [c r'] _. apply IH.
Qed.

Lemma ok_one_or_more t k i : (is_void t = false -> Q (Default (TVec t))) -> ok (oone_or_more_parse C t f k i).
Proof.
  intros Hd. unfold oone_or_more_parse. eapply logs_bind; [apply ok_builder; destruct (is_void t); [congruence | auto]|]. intros b _.
  eapply logs_bind; [apply ok_rep|]. intros [[i' c] [|]] _; [apply ok_build' | now apply logs_ret].
Qed.

Lemma ok_zero_or_more t k i : (is_void t = false -> Q (Default (TVec t))) -> ok (ozero_or_more_parse C t f k i).
Proof.
  intros Hd. unfold ozero_or_more_parse. eapply logs_bind; [apply ok_builder; destruct (is_void t); [congruence | auto]|]. intros b _.
  eapply logs_bind; [apply ok_rep|]. intros [[i' c] s] _. apply ok_build'.
Qed.

Lemma ok_assign_result t old new : ok (oassign_result C t old new).
Proof.
  unfold oassign_result. destruct (o_val new) as [[[|v]|]|]; try now apply logs_ret.
  - apply logs_say; [destruct (engaged old); apply HQ | now apply logs_ret].
  - apply logs_fault, HQ.
Qed.

Lemma ok_delim_loop tp td k : forall r i b, ok (odelim_loop C tp td f h k r i b).
Proof.
  induction k as [|k IH]; intros r i b; cbn [odelim_loop]; [now apply logs_lift|].
  destruct (engaged r); cbn [negb]; [|now apply logs_ret].
  eapply logs_bind with (P := any).
  { destruct (is_void tp); [now apply logs_ret|]. destruct (is_void td); apply ok_put, HQ. }
  intros [c r'] _. eapply logs_bind; [apply Hh|]. intros d _. destruct (engaged d); cbn [negb]; [|now apply logs_ret].
  eapply logs_bind; [apply Hf|]. intros new _. eapply logs_bind; [apply ok_assign_result|]. intros r2 _.
  eapply logs_bind with (P := any).
  { destruct (is_void td); [now apply logs_ret|]. destruct (engaged r2); [|now apply logs_ret]. destruct (is_void tp); apply ok_put, HQ. }
  intros [c2 r3] _. apply IH.
Qed.

Lemma ok_delimit tp td k i : (delimit_type tp td <> TVoid -> Q (Default (delimit_type tp td))) -> ok (odelimit_parse C tp td f h k i).
Proof.
  intros Hd. unfold odelimit_parse. eapply logs_bind; [now apply ok_builder|]. intros b _.
  eapply logs_bind; [apply Hf|]. intros r _. destruct (engaged r); cbn [negb]; [|now apply logs_ret].
  eapply logs_bind; [apply ok_delim_loop|]. intros [i' c] _. apply ok_build'.
Qed.

Lemma ok_complete t i : ok (ocomplete_run C t f i).
Proof. eapply logs_bind; [apply Hf|]. intros r _. destruct (_ || _); [now apply logs_ret | apply ok_return]. Qed.

Lemma ok_map t fn i : Forall Q (fn_uses E fn) -> ok (omap_parse E C t fn f i).
Proof.
  intros H. eapply logs_bind; [apply Hf|]. intros r _. destruct (engaged r); cbn [negb]; [|now apply logs_ret].
  eapply logs_bind; [now apply ok_invoke_move|]. intros [w r'] _. apply ok_make.
Qed.

Lemma ok_filter t fn i : Forall Q (fn_uses E fn) -> ok (ofilter_parse E C t fn f i).
Proof.
  intros H. eapply logs_bind; [apply Hf|]. intros r _. destruct (engaged r); cbn [negb]; [|now apply logs_ret].
  eapply logs_bind; [now apply ok_invoke_const|]. intros [|c] _; [now apply logs_lift|].
  destruct (as_bool E c); [apply ok_return | now apply logs_ret].
Qed.

Lemma ok_construct t args rem :
  ok (obind (say Hand) (fun _ => obind (ocall E (FConstruct t) args) (fun w => oret (RObj (Some (Holds w)) rem)))).
Proof.
  apply logs_say; [apply HQ|]. eapply logs_bind; [apply ok_call; constructor|]. intros; now apply logs_ret.
Qed.

Lemma ok_custom cv i : ok (ocustom_parse E cv f i).
Proof.
  eapply logs_bind; [apply Hf|]. intros r _. destruct cv; [now apply logs_ret| |];
    (destruct (engaged r); cbn [negb]; [|first [now apply logs_ret | apply ok_construct]]);
    (eapply logs_bind; [apply ok_take|]); intros [[|v] r'] _; first [now apply logs_lift | apply ok_construct].
Qed.

Lemma ok_join i : ok (ojoin_parse C f i).
Proof.
  eapply logs_bind; [apply Hf|]. intros r _. destruct (engaged r); [|now apply logs_ret].
  eapply logs_bind; [apply ok_deref|]. intros [|v] _; [now apply logs_lift|]. apply logs_say; [apply HQ|].
  eapply logs_bind with (P := any); [now apply logs_lift|]. intros [s|] _; [apply ok_make | now apply logs_ret].
Qed.
End Fun.

Lemma ok_look n p i : ok (orun E C n Look p i).
Proof. destruct (look_silent E C n p i) as [L _]. split; [|auto; exact (fun _ _ _ => Logic.I)]. eapply Forall_impl; [|exact L]. intros ? []. Qed.

Lemma void_no (t : ty) : is_void t = false -> t <> TVoid.
Proof. now destruct t. Qed.

Lemma ok_step n m p i : permits p -> (forall m q i, In q (components E p) -> ok (orun E C n m q i)) ->
  ok (ostep E C (orun E C n) n m p i).
Proof.
  intros Hp H. destruct m; [|change (ok (orun E C (S n) Look p i)); apply ok_look].
  pose proof Hp as [Hd Hfn]. destruct p; cbn [ostep].
  1, 2, 3, 4: apply ok_basic.
  - now apply logs_ret.
  - now apply ok_choice.
  - now apply ok_sequence.
  - destruct (result_for E p) as [t|] eqn:R; [|now apply logs_lift]. apply ok_maybe; [intros; apply H; now left|].
    intros Hv. apply Hd; auto; [|discriminate]. cbn. now rewrite R, Hv.
  - destruct (n0 =? 0); [now apply logs_lift|].
    destruct (result_for E p) as [t|] eqn:R; [|now apply logs_lift]. apply ok_exactly; [intros; apply H; now left|].
    intros Hv. apply Hd; auto; [|discriminate]. cbn. now rewrite R, Hv.
  - destruct (result_for E p) as [t|] eqn:R; [|now apply logs_lift]. apply ok_one_or_more; [intros; apply H; now left|].
    intros Hv. apply Hd; auto; [|discriminate]. cbn. now rewrite R, Hv.
  - destruct (result_for E p) as [t|] eqn:R; [|now apply logs_lift]. apply ok_zero_or_more; [intros; apply H; now left|].
    intros Hv. apply Hd; auto; [|discriminate]. cbn. now rewrite R, Hv.
  - destruct (result_for E p1) as [tp|] eqn:R1; [|now apply logs_lift]. destruct (result_for E p2) as [td|] eqn:R2; [|now apply logs_lift].
    apply ok_delimit; [intros; apply H; cbn; auto | intros; apply H; cbn; auto |].
    intros Hv. apply Hd; auto. cbn. now rewrite R1, R2.
  - apply H. now left.
  - apply ok_complete. intros; apply H; now left.
  - destruct (join_special E p n) as [f|].
    + unfold ojoin_special. eapply logs_bind with (P := any); [now apply logs_lift|]. intros r _.
      destruct (r_ok r); [apply ok_make | now apply logs_ret].
    + cbn. destruct (result_for E p) as [t|]; [|now apply logs_lift]. destruct (joinable t); [|now apply logs_lift].
      apply ok_join. intros; apply H; now left.
  - destruct (result_for E (PMap p f)); [|now apply logs_lift]. apply ok_map; [intros; apply H; now left | now apply Hfn].
  - destruct (result_for E (PFilter p f)); [|now apply logs_lift]. apply ok_filter; [intros; apply H; now left | now apply Hfn].
  - apply H; now left.
  - apply ok_custom. intros; apply H; now left.
Qed.

Theorem ok_run n : forall m p i, (forall q, reach E p q -> permits q) -> ok (orun E C n m p i).
Proof.
  induction n as [|n IH]; intros m p i Hp; cbn [orun]; [now apply logs_lift|].
  apply ok_step; [apply Hp, reach_refl|]. intros m' q i' Hq. apply IH. intros r Hr. apply Hp. eapply reach_step; eauto.
Qed.
End Parse.
