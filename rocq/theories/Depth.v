(** * How much fuel a terminating parser needs: facts used for property C53

    As Term.v, but with bounds. *)
From Coq Require Import String List Arith ZArith Bool Lia.
From Verif Require Import Types Compound Parser Outcome CompoundFacts Exec Mono Derive Typing Join Leaves Sound
  BigStep BigSound BigComplete Peg Throws Runs Term.
Import ListNotations.
Local Open Scope outcome_scope.

(** ** Computations that do not run out of fuel once they have enough: [N] for the calls and
    [K] for the rounds of a loop *)
Section Fuel.
Variable N : nat.
Definition settles (K : nat) {A} (f : nat -> nat -> outcome A) : Prop :=
  exists o, o <> OOF /\ forall n k, N <= n -> K <= k -> f n k = o.

Lemma settles_const K {A} (x : outcome A) : fin x -> settles K (fun _ _ => x).
Proof. intros H. exists x. auto. Qed.

Lemma settles_le K K' {A} (f : nat -> nat -> outcome A) : settles K f -> K <= K' -> settles K' f.
Proof. intros (o & Ho & H) Hk. exists o. split; auto. intros. apply H; lia. Qed.

Lemma settles_ext K {A} (f g : nat -> nat -> outcome A) : (forall n k, f n k = g n k) -> settles K f -> settles K g.
Proof. intros He (o & Ho & H). exists o. split; auto. intros. rewrite <- He. auto. Qed.

Lemma settles_bind K {A B} (f : nat -> nat -> outcome A) (g : nat -> nat -> A -> outcome B) :
  settles K f -> (forall a, (exists n k tr, f n k = Done a tr) -> settles K (fun n k => g n k a)) ->
  settles K (fun n k => bind (f n k) (g n k)).
Proof.
  intros (o & Ho & Hf) Hg.
  destruct o as [a tr| |e| |]; try congruence.
  2:{ exists UB. split; [discriminate|]. intros n k Hn Hk. now rewrite Hf. }
  2:{ exists (Exn e). split; [discriminate|]. intros n k Hn Hk. now rewrite Hf. }
  2:{ exists Ill. split; [discriminate|]. intros n k Hn Hk. now rewrite Hf. }
  destruct (Hg a) as (o' & Ho' & Hg').
  { exists N, K, tr. auto. }
  exists (bind (Done a tr) (fun _ => o')). split.
  - cbn. destruct o'; congruence.
  - intros n k Hn Hk. rewrite Hf by lia. cbn. rewrite Hg' by lia. reflexivity.
Qed.

Lemma settles_pre K {A} (f : nat -> nat -> outcome A) :
  settles K f -> settles (S K) (fun n k => match k with O => OOF | S k' => f n k' end).
Proof. intros (o & Ho & H). exists o. split; auto. intros n [|k] Hn Hk; [lia|]. apply H; lia. Qed.

Section Term.
Context {T V : Type} (E : env T V).

(** The parts without loops or calls *)
Ltac ft := repeat first
  [ apply fin_bind; [|intros ?]
  | match goal with
    | |- fin (match ?x with _ => _ end) => destruct x
    | |- fin (if ?x then _ else _) => destruct x
    end
  | progress intros
  | solve [auto]
  | discriminate ].
Hint Resolve fin_store fin_insert fin_insert1 fin_insert2 fin_array fin_opt fin_ret fin_call fin_read fin_first fin_advance : core.

(** ** Calls and rounds, counted apart: at most [d] calls nested in each other, at most [W]
    rounds of each loop *)
Fixpoint drun (W d : nat) (m : mode) (p : parser T) (i : span) : outcome presult :=
  match d with O => OOF | S d' => step E (drun W d') W m p i end.

Lemma drun_le W W' d d' m p i : W <= W' -> d <= d' -> le_out (drun W d m p i) (drun W' d' m p i).
Proof.
  intros HW. revert d' m p i. induction d as [|d IH]; intros d' m p i Hd; [now left|]. destruct d' as [|d']; [lia|].
  cbn [drun]. apply step_le; auto. intros m' p' i'. apply IH. lia.
Qed.

(** It is the same program: what it delivers is what [run] delivers ... *)
Lemma drun_run W d m p i : le_out (drun W d m p i) (run E (W + d) m p i).
Proof.
  revert m p i. induction d as [|d IH]; intros m p i; [now left|]. rewrite Nat.add_succ_r. cbn [drun run].
  apply step_le; [|lia]. intros m' p' i'. apply IH.
Qed.

(** ... and conversely. *)
Lemma run_drun W n m p i : n <= W -> le_out (run E n m p i) (drun W n m p i).
Proof.
  revert m p i. induction n as [|n IH]; intros m p i Hn; [now left|]. cbn [drun run].
  apply step_le; [|lia]. intros m' p' i'. apply IH. lia.
Qed.

Lemma drun_done W d m p i r tr : drun W d m p i = Done r tr -> run E (W + d) m p i = Done r tr.
Proof. intros H. destruct (drun_run W d m p i) as [H'|H']; congruence. Qed.

Lemma drun_rem W n m q i r tr : valid E i -> drun W n m q i = Done r tr ->
  match r_ok r with None => r_rem r = i | Some _ => suffix i (r_rem r) end.
Proof. intros Hv H. apply drun_done in H. eapply run_rem; eauto. Qed.

Lemma devals_done W n m q i r tr : drun W n m q i = Done r tr -> evals E m q i (Done r tr).
Proof. intros H. apply drun_done in H. eapply evals_done; eauto. Qed.

Lemma dexecute_rem W n ct u q idx i b ok i' b' tr : valid E i -> execute (drun W n) ct u q idx (i, b) = Done (ok, (i', b')) tr ->
  if ok : bool then suffix i i' /\ (exists v tr, gives E (idx_m idx) q i v i' tr) else i' = i.
Proof.
  intros Hv H. apply (execute_rem E (W + n) ct u q idx i b ok i' b' tr Hv).
  destruct (execute_le (drun W n) (run E (W + n)) (fun m q i => drun_run W n m q i) ct u q idx (i, b)) as [H'|H']; congruence.
Qed.

(** ** Components called with what is left of the input *)
Variable W : nat.   (* rounds allowed to each loop *)


(** Enough fuel for the call is [N]. *)
Definition calm (m : mode) (q : parser T) (i : span) : Prop := forall K, settles K (fun n _ => drun W n m q i).

(** A component that may be called at [i] itself only under the condition [L], but anywhere
    further on in the input. *)
Definition called (L : Prop) m q i : Prop :=
  forall j, suffix i j -> sp_len j < sp_len i \/ L -> calm m q j.

Lemma calm_at (L : Prop) m q i : L -> called L m q i -> calm m q i.
Proof. intros HL H. apply H; auto using suffix_refl. Qed.

(** Repetitions: the body runs at [i], later only further on. *)
Lemma rep_settles m q : (forall i v rem tr, valid E i -> gives E m q i v rem tr -> sp_len rem < sp_len i) ->
  forall len i, sp_len i <= len -> valid E i -> (forall j, suffix i j -> calm m q j) ->
  forall b s, settles (S len) (fun n k => rep_loop (drun W n m q) k i b s).
Proof.
  intros Hq. induction len as [len IH] using lt_wf_ind. intros i Hl Hv Hc b s.
  apply (settles_ext _ (fun n k => match k with
    | O => OOF
    | S k' => bind (drun W n m q i) (fun res => match r_ok res with
       | None => ret (r_rem res, b, s)
       | Some v => bind (b_insert_back b v) (fun b' => rep_loop (drun W n m q) k' (r_rem res) b' true) end)
    end)); [intros n [|k]; reflexivity|].
  apply (settles_pre _ (fun n k' => bind (drun W n m q i) (fun res => match r_ok res with
       | None => ret (r_rem res, b, s)
       | Some v => bind (b_insert_back b v) (fun b' => rep_loop (drun W n m q) k' (r_rem res) b' true) end))).
  apply settles_bind; [exact (Hc i (suffix_refl i) _)|].
  intros [[v|] rem] (n & k & tr & Hr); cbn [r_ok r_rem]; [|apply settles_const; discriminate].
  apply settles_bind; [apply settles_const; auto|]. intros b' _.
  assert (Hlt : sp_len rem < sp_len i) by (eapply Hq; [exact Hv|exact (devals_done W _ _ _ _ _ _ Hr)]).
  apply drun_rem in Hr; auto. cbn in Hr.
  apply (settles_le (S (sp_len rem))); [|lia].
  apply (IH (sp_len rem)); [lia|lia|eauto using suffix_valid|]. intros j Hj. apply Hc. eauto using suffix_trans.
Qed.

Lemma exactly_settles (L : Prop) m q i : L -> valid E i -> called L m q i ->
  forall K k0 j x b, suffix i x -> settles K (fun n _ => exactly_loop (drun W n m q) k0 j x b).
Proof.
  intros HL Hv Hc K. induction k0 as [|k0 IH]; intros j x b Hx; cbn [exactly_loop]; [apply settles_const; discriminate|].
  assert (Hvx : valid E x) by eauto using suffix_valid.
  apply settles_bind; [apply Hc; auto|].
  intros [[v|] rem] (n & k & tr & Hr); cbn [r_ok r_rem]; [|apply settles_const; discriminate].
  apply settles_bind; [apply settles_const; auto|]. intros b' _. apply IH.
  apply drun_rem in Hr; auto. cbn in Hr. eauto using suffix_trans.
Qed.

Lemma execute_settles K m' q idx i st ct u : m' = match idx with None => Look | Some _ => Parse end ->
  fst st = i -> calm m' q i ->
  settles K (fun n _ => execute (drun W n) ct u q idx st).
Proof.
  intros -> <- Hc. destruct st as [i b]; cbn [fst] in *. unfold execute. destruct idx as [k0|].
  - apply settles_bind; [exact (Hc _)|]. intros [[v|] rem] _; cbn [r_ok]; apply settles_const; ft.
  - apply settles_bind; [exact (Hc _)|]. intros res _. apply settles_const. ft.
Qed.

Lemma or_settles K u ps i : valid E i -> (forall q idx, In (q, idx) ps -> calm (idx_m idx) q i) ->
  forall b, settles K (fun n _ => exec_or (drun W n) u ps (i, b)).
Proof.
  intros Hv. induction ps as [|[q idx] ps IH]; intros Hc b; cbn [exec_or]; [apply settles_const; discriminate|].
  apply settles_bind; [eapply execute_settles; [reflexivity|reflexivity|exact (Hc q idx (or_introl eq_refl))]|].
  intros [[|] [i' b']] (n & k & tr & Hr); [apply settles_const; discriminate|].
  apply dexecute_rem in Hr; auto. subst i'. apply IH. intros; apply Hc; now right.
Qed.

Variable emp : parser T -> Prop.
Hypothesis emp_sound : forall m q i v rem tr, valid E i -> gives E m q i v rem tr -> sp_len rem = sp_len i -> emp q.

Lemma and_settles K u ps i0 : forall pre, valid E i0 ->
  (forall l1 q l2, map fst ps = l1 ++ q :: l2 -> forall m, called (Forall emp (pre ++ l1)) m q i0) ->
  forall i b, suffix i0 i -> sp_len i < sp_len i0 \/ Forall emp pre ->
  settles K (fun n _ => exec_and (drun W n) u ps (i, b)).
Proof.
  induction ps as [|[q idx] ps IH]; intros pre Hv Hc i b Hi Hpre; cbn [exec_and]; [apply settles_const; discriminate|].
  assert (Hvi : valid E i) by eauto using suffix_valid.
  apply settles_bind.
  { eapply execute_settles; [reflexivity|reflexivity|]. apply (Hc [] q (map fst ps) eq_refl); auto. now rewrite app_nil_r. }
  intros [[|] [i' b']] (n & k & tr & Hr); [|apply settles_const; discriminate].
  apply dexecute_rem in Hr as [Hs (v & tr' & Hg)]; auto.
  apply (IH (pre ++ [q])); auto.
  - intros l1 q' l2 Hl m. rewrite <- app_assoc. apply (Hc (q :: l1) q' l2). cbn. now rewrite Hl.
  - eauto using suffix_trans.
  - assert (Hl := suffix_len _ _ Hs). assert (Hl0 := suffix_len _ _ Hi).
    destruct (Nat.eq_dec (sp_len i') (sp_len i)) as [He|]; [|left; lia].
    destruct Hpre as [|Hpre]; [left; lia|right]. apply Forall_app. split; auto. constructor; auto.
    eapply emp_sound; eauto.
Qed.

(** Delimit: a round is a delimiter and an element. *)
Lemma delim_settles m q d pv dv i0 : valid E i0 -> ~ (emp q /\ emp d) ->
  (forall j, suffix i0 j -> calm m q j) -> (forall m, called (emp q) m d i0) ->
  forall len x i b res, sp_len x <= len -> suffix i0 x -> r_rem res = x ->
  (r_ok res <> None -> sp_len x < sp_len i0 \/ emp q) ->
  settles (S (S len)) (fun n k => delim_loop (drun W n m q) (drun W n m d) pv dv k res i b).
Proof.
  intros Hv Hne Hq Hd. induction len as [len IH] using lt_wf_ind. intros x i b res Hlen Hx Hrem Hlt.
  destruct res as [[v|] x0]; cbn [r_rem r_ok] in *; subst x0.
  2:{ apply (settles_ext _ (fun n k => match k with O => OOF | S _ => ret (i, b) end)); [intros n [|]; reflexivity|].
      apply (settles_pre _ (fun _ _ => ret (i, b))). apply settles_const. discriminate. }
  assert (Hlt' := Hlt ltac:(discriminate)). clear Hlt.
  assert (Hvx : valid E x) by eauto using suffix_valid.
  pose (body := fun n k' =>
    bind (if pv then ret b else if dv then b_insert_back b v else b_insert_back_first b v) (fun b1 =>
    bind (drun W n m d x) (fun d0 => match r_ok d0 with
      | None => ret (x, b1)
      | Some w => bind (drun W n m q (r_rem d0)) (fun res' =>
          bind (if dv then ret b1 else if has_value res'
                          then (if pv then b_insert_back b1 w else b_insert_back_second b1 w)
                          else ret b1) (fun b2 => delim_loop (drun W n m q) (drun W n m d) pv dv k' res' x b2))
      end))).
  apply (settles_ext _ (fun n k => match k with O => OOF | S k' => body n k' end)); [intros n [|]; reflexivity|].
  apply settles_pre. unfold body. clear body.
  apply settles_bind; [apply settles_const; destruct pv, dv; auto|]. intros b1 _.
  apply settles_bind; [apply Hd; auto|].
  intros [[w|] remd] (n & k & tr & Hr); cbn [r_ok r_rem]; [|apply settles_const; discriminate].
  assert (Hsd := drun_rem W _ _ _ _ _ _ Hvx Hr). cbn in Hsd. apply devals_done in Hr.
  assert (Hvd : valid E remd) by eauto using suffix_valid.
  apply settles_bind; [apply Hq; eauto using suffix_trans|].
  intros [ok' remq] (n' & k' & tr' & Hr').
  assert (Hsq := drun_rem W _ _ _ _ _ _ Hvd Hr'). cbn in Hsq.
  apply settles_bind; [apply settles_const; destruct dv, pv; cbn [has_value r_ok]; ft|]. intros b2 _.
  destruct ok' as [v'|]; cbn [r_ok r_rem] in *.
  - apply devals_done in Hr'. assert (Hld := suffix_len _ _ Hsd). assert (Hlq := suffix_len _ _ Hsq). assert (Hlx := suffix_len _ _ Hx).
    assert (sp_len remq < sp_len x).
    { destruct (Nat.eq_dec (sp_len remq) (sp_len x)) as [He|]; [|lia]. exfalso. apply Hne. split.
      - eapply emp_sound; [exact Hvd|exact Hr'|lia].
      - eapply emp_sound; [exact Hvx|exact Hr|lia]. }
    apply (settles_le (S (S (sp_len remq)))); [|lia].
    apply (IH (sp_len remq)) with (x := remq); cbn; auto; try lia; eauto using suffix_trans.
  - apply (settles_ext _ (fun n k => match k with O => OOF | S _ => ret (x, b2) end)); [intros ? [|]; reflexivity|].
    apply (settles_pre _ (fun _ _ => ret (x, b2))). apply settles_const. discriminate.
Qed.

(** The element loop of a specialised join. *)
Lemma jr_settles q fc len : elementary E q = Some (fc, len) -> len <> 0 ->
  forall n0 res i, sp_len i <= n0 -> settles (S n0) (fun _ k => jr_loop fc len k res i).
Proof.
  intros Hq Hl. induction n0 as [n0 IH] using lt_wf_ind. intros res i Hi.
  apply (settles_ext _ (fun (_ k : nat) => match k with O => OOF | S k' => bind (fc i) (fun b : bool => if b then ret (res, i) else
    bind (advance i len) (fun i' => jr_loop fc len k' (Span (sp_blk res) (sp_off res) (sp_len res + len)) i')) end)); [intros n [|]; reflexivity|].
  apply (settles_pre _ (fun _ k' => bind (fc i) (fun b : bool => if b then ret (res, i) else
    bind (advance i len) (fun i' => jr_loop fc len k' (Span (sp_blk res) (sp_off res) (sp_len res + len)) i')))).
  apply settles_bind; [apply settles_const; eapply fin_fc; eauto|]. intros [|] _; [apply settles_const; discriminate|].
  apply settles_bind; [apply settles_const; auto|]. intros i' (_ & _ & tr & Ha).
  unfold advance in Ha. destruct (Nat.leb_spec len (sp_len i)); [|discriminate]. injection Ha as <- _.
  apply (settles_le (S (sp_len i - len))); [|lia]. apply (IH (sp_len i - len)); cbn; lia.
Qed.

Lemma step_settles m p i : valid E i -> repeats_well emp p -> (forall r, p = PJoin r -> repeats_well emp r) ->
  (forall m q j, In q (components E p) -> suffix i j -> sp_len j < sp_len i \/ left E emp p q -> calm m q j) ->
  settles (S (S (sp_len i))) (fun n k => step E (drun W n) k m p i).
Proof.
  intros Hv Hrw Hrj Hc.
  assert (Hs : forall m q, In q (components E p) -> left E emp p q -> calm m q i) by (intros; apply Hc; auto using suffix_refl).
  assert (Hsj : forall m q, In q (components E p) -> left E emp p q -> forall j, suffix i j -> calm m q j) by (intros; apply Hc; auto).
  destruct p as [arr|arr|arr| | |q qs|q qs|q|q n0|q|q|q d|q|q|q|q f|q f|q s|c]; cbn [step].
  - apply settles_const. exact (fin_basic E (PAnyOf arr) _ _ i m eq_refl).
  - apply settles_const. exact (fin_basic E (PNoneOf arr) _ _ i m eq_refl).
  - apply settles_const. exact (fin_basic E (PAllOf arr) _ _ i m eq_refl).
  - apply settles_const. exact (fin_basic E PAnything _ _ i m eq_refl).
  - apply settles_const. discriminate.
  - assert (Ha : forall m q', In q' (q :: qs) -> calm m q' i) by (intros; apply Hs; auto; now constructor).
    destruct m; unfold choice_parse, choice_look; (destruct (result_fors E (q :: qs)) as [tys|]; [|apply settles_const; discriminate]).
    + destruct (_ || _); [|apply settles_const; discriminate].
      apply settles_bind; [apply or_settles; auto; intros q' idx Hi; apply in_combine_l in Hi; auto|].
      intros [ok [i' b]] _. apply settles_const. ft.
    + apply settles_bind; [apply or_settles; auto; intros q' idx Hi; apply in_map_iff in Hi as (? & [= <- <-] & ?); auto|].
      intros [ok [i' b]] _. apply settles_const. ft.
  - assert (Ha : forall l1 q' l2, q :: qs = l1 ++ q' :: l2 -> forall m, called (Forall emp ([] ++ l1)) m q' i).
    { intros l1 q' l2 Hl m' j Hj HL. apply Hc; auto; [cbn [components]; rewrite Hl; apply in_elt|].
      destruct HL; auto. right. eapply left_seq; eauto. }
    destruct m; unfold sequence_parse, sequence_look; (destruct (result_fors E (q :: qs)) as [tys|] eqn:Ht; [|apply settles_const; discriminate]).
    + apply settles_bind; [|intros [ok [i' b]] _; apply settles_const; ft].
      apply (and_settles _ _ _ i []); auto using suffix_refl.
      replace (map fst (combine (q :: qs) (snd (filter_out_void tys)))) with (q :: qs); auto.
      assert (Hl : List.length (q :: qs) = List.length (snd (filter_out_void tys))).
      { rewrite filter_out_void_spec. cbn [snd]. rewrite seq_from_length. now apply result_fors_length in Ht. }
      revert Hl. generalize (snd (filter_out_void tys)). generalize (q :: qs).
      induction l as [|a l IH]; intros [|x l'] Hl; cbn in *; try discriminate; auto. f_equal. apply IH. lia.
    + apply settles_bind; [|intros [ok [i' b]] _; apply settles_const; ft].
      apply (and_settles _ _ _ i []); auto using suffix_refl. rewrite map_map. cbn [fst]. now rewrite map_id.
  - assert (H := fun m => Hs m q (or_introl eq_refl) (left_maybe E emp q)). destruct m.
    + destruct (result_for E q) as [t|]; [|apply settles_const; discriminate]. unfold maybe_parse.
      apply settles_bind; [apply H|]. intros res _. apply settles_const. ft.
    + unfold maybe_look. apply settles_bind; [apply H|]. intros res _. apply settles_const. ft.
  - destruct (n0 =? 0); [apply settles_const; discriminate|].
    assert (H : forall m, called True m q i) by (intros m' j Hj _; apply Hsj; auto; [now left|constructor]). destruct m.
    + destruct (result_for E q) as [t|]; [|apply settles_const; discriminate]. unfold exactly_parse.
      apply settles_bind; [apply (exactly_settles True Parse q i I); auto using suffix_refl|]. intros res _. apply settles_const. ft.
    + unfold exactly_look.
      apply settles_bind; [apply (exactly_settles True Look q i I); auto using suffix_refl|]. intros res _. apply settles_const. ft.
  - assert (H : forall m b s, settles (S (S (sp_len i))) (fun n k => rep_loop (drun W n m q) k i b s)).
    { intros m' b s. apply (settles_le (S (sp_len i))); [|lia]. eapply rep_settles; eauto; [intros; eapply consumes; eauto|]. apply Hsj; [now left|constructor]. }
    destruct m.
    + destruct (result_for E q) as [t|]; [|apply settles_const; discriminate]. unfold one_or_more_parse.
      apply settles_bind; [apply H|]. intros [[? ?] ?] _. apply settles_const. ft.
    + unfold one_or_more_look. apply settles_bind; [apply H|]. intros [[? ?] ?] _. apply settles_const. ft.
  - assert (H : forall m b s, settles (S (S (sp_len i))) (fun n k => rep_loop (drun W n m q) k i b s)).
    { intros m' b s. apply (settles_le (S (sp_len i))); [|lia]. eapply rep_settles; eauto; [intros; eapply consumes; eauto|]. apply Hsj; [now left|constructor]. }
    destruct m.
    + destruct (result_for E q) as [t|]; [|apply settles_const; discriminate]. unfold zero_or_more_parse.
      apply settles_bind; [apply H|]. intros [[? ?] ?] _. apply settles_const. ft.
    + unfold zero_or_more_look. apply settles_bind; [apply H|]. intros [[? ?] ?] _. apply settles_const. ft.
  - assert (Hq : forall m j, suffix i j -> calm m q j) by (intros; apply Hsj; auto; [now left|constructor]).
    assert (Hd : forall m, called (emp q) m d i).
    { intros m' j Hj HL. apply Hc; auto; [right; now left|]. destruct HL; auto. right. now constructor. }
    assert (H : forall m pv dv b n res tr, drun W n m q i = Done res tr -> has_value res = true ->
      settles (S (S (sp_len i))) (fun n k => delim_loop (drun W n m q) (drun W n m d) pv dv k res i b)).
    { intros m' pv dv b n res tr Hr Hok. destruct res as [[v|] rem]; [|discriminate].
      pose proof (drun_rem W _ _ _ _ _ _ Hv Hr) as Hsr. cbn in Hsr.
      apply devals_done in Hr.
      eapply (delim_settles m' q d pv dv i) with (x := rem); eauto using suffix_len.
      intros _. destruct (Nat.eq_dec (sp_len rem) (sp_len i)) as [He|]; [right; eapply emp_sound; eauto|].
      left. apply suffix_len in Hsr. lia. }
    destruct m.
    + destruct (result_for E q) as [tp|]; [|apply settles_const; discriminate].
      destruct (result_for E d) as [td|]; [|apply settles_const; discriminate]. unfold delimit_parse.
      apply settles_bind; [apply Hq, suffix_refl|]. intros res (n & k & tr & Hr).
      destruct (has_value res) eqn:Hok; [|apply settles_const; discriminate].
      apply settles_bind; [eapply H; eauto|]. intros [? ?] _. apply settles_const. ft.
    + unfold delimit_look.
      apply settles_bind; [apply Hq, suffix_refl|]. intros res (n & k & tr & Hr).
      destruct (has_value res) eqn:Hok; [|apply settles_const; discriminate].
      apply settles_bind; [eapply H; eauto|]. intros [? ?] _. apply settles_const. ft.
  - exact (Hs Look q (or_introl eq_refl) (left_ignore E emp q) _).
  - unfold complete_run. apply settles_bind; [exact (Hs m q (or_introl eq_refl) (left_complete E emp q) _)|].
    intros res _. apply settles_const. ft.
  - assert (H := fun m => Hs m q (or_introl eq_refl) (left_join E emp q)).
    assert (Hg : settles (S (S (sp_len i))) (fun n _ => join_generic E (drun W n) m q i)).
    { unfold join_generic. destruct m; [|apply H]. destruct (result_for E q) as [t|]; [|apply settles_const; discriminate].
      destruct (joinable t); [|apply settles_const; discriminate]. unfold join_parse.
      apply settles_bind; [apply H|]. intros [[[|v]|] rem] _; cbn [r_ok]; apply settles_const; try discriminate.
      apply fin_bind; [apply fin_join|]. ft. }
    specialize (Hrj q eq_refl).
    assert (Hjr : forall q' fc len, as_basic E q' = Some (fc, len) -> ~ emp q' ->
      forall res x, sp_len x <= sp_len i -> settles (S (S (sp_len i))) (fun _ k => jr_loop fc len k res x)).
    { intros q' fc len Hb He res x Hx. apply as_basic_elementary in Hb. apply (settles_le (S (sp_len i))); [|lia].
      eapply jr_settles; eauto. eapply elementary_consumes; eauto. }
    assert (Hjf : forall q' fc len, as_basic E q' = Some (fc, len) -> forall x, fin (fc x)).
    { intros q' fc len Hb x. apply as_basic_elementary in Hb. eapply fin_fc; eauto. }
    assert (Hjx : forall q' fc len, as_basic E q' = Some (fc, len) -> forall k res x, fin (jx_loop fc len k res x)).
    { intros q' fc len Hb. induction k; intros res x; cbn [jx_loop]; [discriminate|].
      apply fin_bind; [eapply Hjf; eauto|]. intros [|]; [discriminate|]. ft. }
    destruct q as [| | | | | | |q'|q' n0|q'|q'| | | | | | | |]; cbn [join_special]; auto;
      (destruct (as_basic E q') as [[fc len]|] eqn:Hb; [|exact Hg]).
    + destruct m; apply settles_const; unfold jm_parse, jm_look; (apply fin_bind; [eapply Hjf; eauto|]); ft.
    + destruct (n0 =? 0); [exact Hg|].
      destruct m; apply settles_const; unfold jx_parse, jx_look; (apply fin_bind; [eapply Hjx; eauto|]); ft.
    + destruct m; unfold jo_parse, jo_look.
      * apply settles_bind; [apply settles_const; eapply Hjf; eauto|]. intros [|] _; [apply settles_const; discriminate|].
        apply settles_bind; [apply settles_const; auto|]. intros v _.
        apply settles_bind; [apply settles_const; auto|]. intros i1 (_ & _ & tr & Ha).
        assert (sp_len i1 <= sp_len i) by (unfold advance in Ha; destruct (_ <=? _); [injection Ha as <- _; cbn; lia|discriminate]).
        apply settles_bind; [eapply Hjr; eauto|]. intros [? ?] _. apply settles_const. discriminate.
      * apply settles_bind; [apply settles_const; eapply Hjf; eauto|]. intros [|] _; [apply settles_const; discriminate|].
        apply settles_bind; [apply settles_const; auto|]. intros i1 (_ & _ & tr & Ha).
        assert (sp_len i1 <= sp_len i) by (unfold advance in Ha; destruct (_ <=? _); [injection Ha as <- _; cbn; lia|discriminate]).
        apply settles_bind; [eapply Hjr; eauto|]. intros [? ?] _. apply settles_const. discriminate.
    + destruct m; unfold jz_parse, jz_look; (apply settles_bind; [eapply Hjr; eauto|]); intros [? ?] _; apply settles_const; discriminate.
  - assert (H := fun m => Hs m q (or_introl eq_refl) (left_map E emp q f)). destruct m; [|apply H].
    destruct (result_for E (PMap q f)); [|apply settles_const; discriminate]. unfold map_parse.
    apply settles_bind; [apply H|]. intros res _. apply settles_const. ft.
  - assert (H := fun m => Hs m q (or_introl eq_refl) (left_filter E emp q f)). destruct m; [|apply H].
    destruct (result_for E (PFilter q f)); [|apply settles_const; discriminate]. unfold filter_parse.
    apply settles_bind; [apply H|]. intros res _. apply settles_const. ft.
  - exact (Hs m q (or_introl eq_refl) (left_named E emp q s) _).
  - assert (H := fun m => Hs m _ (or_introl eq_refl) (left_custom E emp c)). destruct m; [|apply H].
    unfold custom_parse. apply settles_bind; [apply H|]. intros res _. apply settles_const. ft.
Qed.
End Term.
End Fuel.
