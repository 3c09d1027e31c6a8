(** * Termination: facts used for property C33 *)
From Coq Require Import String List Arith ZArith Bool Lia.
From Verif Require Import Types Compound Parser Outcome CompoundFacts Exec Mono Derive Typing Join Leaves Sound
  BigStep BigSound BigComplete Peg Throws Runs.
Import ListNotations.
Local Open Scope outcome_scope.

(** ** Computations that do not run out of fuel once they have enough *)
Definition settles {A} (f : nat -> nat -> outcome A) : Prop :=
  exists o N, o <> OOF /\ forall n k, N <= n -> N <= k -> f n k = o.

Definition fin {A} (x : outcome A) : Prop := x <> OOF.

Lemma fin_bind {A B} (x : outcome A) (f : A -> outcome B) : fin x -> (forall a, fin (f a)) -> fin (bind x f).
Proof. unfold fin. intros Hx Hf. destruct x; cbn in *; try congruence. specialize (Hf a). destruct (f a); congruence. Qed.
Lemma fin_ret {A} (a : A) : fin (ret a).
Proof. discriminate. Qed.

Lemma settles_const {A} (x : outcome A) : fin x -> settles (fun _ _ => x).
Proof. intros H. exists x, 0. auto. Qed.

Lemma settles_ext {A} (f g : nat -> nat -> outcome A) : (forall n k, f n k = g n k) -> settles f -> settles g.
Proof. intros He (o & N & Ho & H). exists o, N. split; auto. intros. rewrite <- He. auto. Qed.

Lemma settles_bind {A B} (f : nat -> nat -> outcome A) (g : nat -> nat -> A -> outcome B) :
  settles f -> (forall a, (exists n k tr, f n k = Done a tr) -> settles (fun n k => g n k a)) ->
  settles (fun n k => bind (f n k) (g n k)).
Proof.
  intros (o & N & Ho & Hf) Hg.
  destruct o as [a tr| |e| |]; try congruence.
  2:{ exists UB, N. split; [discriminate|]. intros n k Hn Hk. now rewrite Hf. }
  2:{ exists (Exn e), N. split; [discriminate|]. intros n k Hn Hk. now rewrite Hf. }
  2:{ exists Ill, N. split; [discriminate|]. intros n k Hn Hk. now rewrite Hf. }
  destruct (Hg a) as (o' & N' & Ho' & Hg').
  { exists N, N, tr. auto. }
  exists (bind (Done a tr) (fun _ => o')), (N + N'). split.
  - cbn. destruct o'; congruence.
  - intros n k Hn Hk. rewrite Hf by lia. cbn. rewrite Hg' by lia. reflexivity.
Qed.

Lemma settles_pre {A} (f : nat -> nat -> outcome A) :
  settles f -> settles (fun n k => match k with O => OOF | S k' => f n k' end).
Proof. intros (o & N & Ho & H). exists o, (S N). split; auto. intros n [|k] Hn Hk; [lia|]. apply H; lia. Qed.

Section Term.
Context {T V : Type} (E : env T V).

Lemma settles_terminates m p i : settles (fun n k => step E (run E n) k m p i) -> terminates E m p i.
Proof. intros (o & N & Ho & H). exists (S N). cbn [run]. rewrite H; auto. Qed.

Lemma terminates_settles m p i : terminates E m p i -> settles (fun n _ => run E n m p i).
Proof. intros [N HN]. exists (run E N m p i), N. split; auto. intros n k Hn _. eapply run_stable; eauto. Qed.

(** The parts without loops or calls *)
Ltac ft := repeat first
  [ apply fin_bind; [|intros ?]
  | match goal with
    | |- fin (match ?x with _ => _ end) => destruct x
    | |- fin (if ?x then _ else _) => destruct x
    end
  | progress intros
  | solve [auto]
  | discriminate ].

Lemma fin_store ct u k b v : fin (store ct u k b v).
Proof. unfold store, b_assign, b_emplace, b_get_assign. ft. Qed.
Lemma fin_insert b v : fin (b_insert_back b v).
Proof. unfold b_insert_back. ft. Qed.
Lemma fin_insert1 b v : fin (b_insert_back_first b v).
Proof. unfold b_insert_back_first. ft. Qed.
Lemma fin_insert2 b v : fin (b_insert_back_second b v).
Proof. unfold b_insert_back_second. ft. Qed.
Lemma fin_array n b v : fin (b_array_assign n b v).
Proof. unfold b_array_assign. ft. Qed.
Lemma fin_opt b v : fin (b_emplace_opt b v).
Proof. unfold b_emplace_opt. ft. Qed.
Lemma fin_call f args : fin (call E f args).
Proof. unfold call. ft. Qed.
Lemma fin_read b o : fin (read E b o).
Proof. unfold read. ft. Qed.
Lemma fin_first s n : fin (first s n).
Proof. unfold first. ft. Qed.
Lemma fin_advance s n : fin (advance s n).
Proof. unfold advance. ft. Qed.
Hint Resolve fin_store fin_insert fin_insert1 fin_insert2 fin_array fin_opt fin_ret fin_call fin_read fin_first fin_advance : core.

Lemma fin_eq_loop arr b : forall o, fin (eq_loop E arr b o).
Proof. induction arr; intros; cbn [eq_loop]; ft. Qed.
Hint Resolve fin_eq_loop : core.

Lemma fin_fc p fc len i : elementary E p = Some (fc, len) -> fin (fc i).
Proof.
  destruct p; cbn; try discriminate; intros [= <- <-].
  - unfold any_of_fc, front. ft.
  - unfold none_of_fc, front. ft.
  - unfold all_of_fc, span_equal. ft.
  - discriminate.
Qed.

Lemma fin_join v rem : fin (join_executor v rem).
Proof.
  unfold join_executor. apply fin_bind; [|ft].
  generalize (@None span). induction v using val_ind'; intros j; cbn [try_join]; try discriminate; auto.
  - unfold try_join_span. ft.
  - revert j. induction H; intros j; [discriminate|]. ft; auto.
  - revert j. induction H; intros j; [discriminate|]. ft; auto.
  - revert j. induction H; intros j; [discriminate|]. ft; auto.
Qed.

Lemma fin_basic p fc len i m : elementary E p = Some (fc, len) ->
  fin (match m with Parse => basic_parse fc len i | Look => basic_look fc len i end).
Proof.
  intros H. destruct m; unfold basic_parse, basic_look;
    (apply fin_bind; [eapply fin_fc; eauto|]); ft.
Qed.

(** ** Components called with what is left of the input *)

(** The answer of a component on (the tail) [i]. *)
Lemma run_rem n m q i r tr : valid E i -> run E n m q i = Done r tr ->
  match r_ok r with None => r_rem r = i | Some _ => suffix i (r_rem r) end.
Proof. intros Hv H. apply run_sound in H; auto. unfold okres in H. destruct (r_ok r); tauto. Qed.

Definition calm (m : mode) (q : parser T) (i : span) : Prop := settles (fun n _ => run E n m q i).

Lemma suffix_len i j : suffix i j -> sp_len j <= sp_len i.
Proof. intros (c & Hc & ->). cbn. lia. Qed.
Lemma suffix_same i j : suffix i j -> sp_len j = sp_len i -> j = i.
Proof. intros (c & Hc & ->) H. cbn in H. assert (c = 0) as -> by lia. apply adv_0. Qed.

(** A component that may be called at [i] itself only under the condition [L], but anywhere
    further on in the input. *)
Definition called (L : Prop) m q i : Prop :=
  forall j, suffix i j -> sp_len j < sp_len i \/ L -> calm m q j.

Lemma calm_at (L : Prop) m q i : L -> called L m q i -> calm m q i.
Proof. intros HL H. apply H; auto using suffix_refl. Qed.

(** Repetitions: the body runs at [i], later only further on. *)
Lemma rep_settles m q : (forall i v rem tr, valid E i -> gives E m q i v rem tr -> sp_len rem < sp_len i) ->
  forall len i, sp_len i <= len -> valid E i -> (forall j, suffix i j -> calm m q j) ->
  forall b s, settles (fun n k => rep_loop (run E n m q) k i b s).
Proof.
  intros Hq. induction len as [len IH] using lt_wf_ind. intros i Hl Hv Hc b s.
  apply (settles_ext (fun n k => match k with
    | O => OOF
    | S k' => bind (run E n m q i) (fun res => match r_ok res with
       | None => ret (r_rem res, b, s)
       | Some v => bind (b_insert_back b v) (fun b' => rep_loop (run E n m q) k' (r_rem res) b' true) end)
    end)); [intros n [|k]; reflexivity|].
  apply (settles_pre (fun n k' => bind (run E n m q i) (fun res => match r_ok res with
       | None => ret (r_rem res, b, s)
       | Some v => bind (b_insert_back b v) (fun b' => rep_loop (run E n m q) k' (r_rem res) b' true) end))).
  apply settles_bind; [exact (Hc i (suffix_refl i))|].
  intros [[v|] rem] (n & k & tr & Hr); cbn [r_ok r_rem]; [|apply settles_const; discriminate].
  apply settles_bind; [apply settles_const; auto|]. intros b' _.
  assert (Hlt : sp_len rem < sp_len i) by (eapply Hq; [exact Hv|exact (evals_done E _ _ _ _ _ _ Hr)]).
  apply run_rem in Hr; auto. cbn in Hr.
  apply (IH (sp_len rem)); [lia|lia|eauto using suffix_valid|]. intros j Hj. apply Hc. eauto using suffix_trans.
Qed.

Lemma exactly_settles (L : Prop) m q i : L -> valid E i -> called L m q i ->
  forall k0 j x b, suffix i x -> settles (fun n _ => exactly_loop (run E n m q) k0 j x b).
Proof.
  intros HL Hv Hc. induction k0 as [|k0 IH]; intros j x b Hx; cbn [exactly_loop]; [apply settles_const; discriminate|].
  assert (Hvx : valid E x) by eauto using suffix_valid.
  apply settles_bind; [apply Hc; auto|].
  intros [[v|] rem] (n & k & tr & Hr); cbn [r_ok r_rem]; [|apply settles_const; discriminate].
  apply settles_bind; [apply settles_const; auto|]. intros b' _. apply IH.
  apply run_rem in Hr; auto. cbn in Hr. eauto using suffix_trans.
Qed.

Lemma execute_settles m' q idx i st ct u : m' = match idx with None => Look | Some _ => Parse end ->
  fst st = i -> calm m' q i ->
  settles (fun n _ => execute (run E n) ct u q idx st).
Proof.
  intros -> <- Hc. destruct st as [i b]; cbn [fst] in *. unfold execute. destruct idx as [k0|].
  - apply settles_bind; [exact Hc|]. intros [[v|] rem] _; cbn [r_ok]; apply settles_const; ft.
  - apply settles_bind; [exact Hc|]. intros res _. apply settles_const. ft.
Qed.

Definition idx_m (idx : index) : mode := match idx with None => Look | Some _ => Parse end.

Lemma execute_rem n ct u q idx i b ok i' b' tr : valid E i -> execute (run E n) ct u q idx (i, b) = Done (ok, (i', b')) tr ->
  if ok : bool then suffix i i' /\ (exists v tr, gives E (idx_m idx) q i v i' tr) else i' = i.
Proof.
  intros Hv. unfold execute, idx_m. destruct idx as [k0|].
  - destruct (run E n Parse q i) as [[[v|] rem] tr0| | | |] eqn:Hr; cbn; try discriminate.
    + destruct (store ct u k0 b v); cbn; try discriminate. intros [= <- <- _ _].
      split; [exact (run_rem _ _ _ _ _ _ Hv Hr)|]. exists v, tr0. exact (evals_done E _ _ _ _ _ _ Hr).
    + intros [= <- <- _ _]. reflexivity.
  - destruct (run E n Look q i) as [[[v|] rem] tr0| | | |] eqn:Hr; cbn; try discriminate; intros [= <- <- _ _].
    + split; [exact (run_rem _ _ _ _ _ _ Hv Hr)|]. exists v, tr0. exact (evals_done E _ _ _ _ _ _ Hr).
    + exact (run_rem _ _ _ _ _ _ Hv Hr).
Qed.

Lemma or_settles u ps i : valid E i -> (forall q idx, In (q, idx) ps -> calm (idx_m idx) q i) ->
  forall b, settles (fun n _ => exec_or (run E n) u ps (i, b)).
Proof.
  intros Hv. induction ps as [|[q idx] ps IH]; intros Hc b; cbn [exec_or]; [apply settles_const; discriminate|].
  apply settles_bind; [eapply execute_settles; [reflexivity|reflexivity|exact (Hc q idx (or_introl eq_refl))]|].
  intros [[|] [i' b']] (n & k & tr & Hr); [apply settles_const; discriminate|].
  apply execute_rem in Hr; auto. subst i'. apply IH. intros; apply Hc; now right.
Qed.

(** [emp]: parsers that may succeed without consuming anything. *)
Variable emp : parser T -> Prop.
Hypothesis emp_sound : forall m q i v rem tr, valid E i -> gives E m q i v rem tr -> sp_len rem = sp_len i -> emp q.

Lemma and_settles u ps i0 : forall pre, valid E i0 ->
  (forall l1 q l2, map fst ps = l1 ++ q :: l2 -> forall m, called (Forall emp (pre ++ l1)) m q i0) ->
  forall i b, suffix i0 i -> sp_len i < sp_len i0 \/ Forall emp pre ->
  settles (fun n _ => exec_and (run E n) u ps (i, b)).
Proof.
  induction ps as [|[q idx] ps IH]; intros pre Hv Hc i b Hi Hpre; cbn [exec_and]; [apply settles_const; discriminate|].
  assert (Hvi : valid E i) by eauto using suffix_valid.
  apply settles_bind.
  { eapply execute_settles; [reflexivity|reflexivity|]. apply (Hc [] q (map fst ps) eq_refl); auto. now rewrite app_nil_r. }
  intros [[|] [i' b']] (n & k & tr & Hr); [|apply settles_const; discriminate].
  apply execute_rem in Hr as [Hs (v & tr' & Hg)]; auto.
  apply (IH (pre ++ [q])); auto.
  - intros l1 q' l2 Hl m. rewrite <- app_assoc. apply (Hc (q :: l1) q' l2). cbn. now rewrite Hl.
  - eauto using suffix_trans.
  - assert (Hl := suffix_len _ _ Hs). assert (Hl0 := suffix_len _ _ Hi).
    destruct (Nat.eq_dec (sp_len i') (sp_len i)) as [He|]; [|left; lia].
    destruct Hpre as [|Hpre]; [left; lia|right]. apply Forall_app. split; auto. constructor; auto.
    eapply emp_sound; eauto.
Qed.

(** Delimit: a round is a delimiter and an element. *)
Lemma delim_settles m q d pv dv i0 : valid E i0 -> ~ (emp q /\ emp d) ->
  (forall j, suffix i0 j -> calm m q j) -> (forall m, called (emp q) m d i0) ->
  forall len x i b res, sp_len x <= len -> suffix i0 x -> r_rem res = x ->
  (r_ok res <> None -> sp_len x < sp_len i0 \/ emp q) ->
  settles (fun n k => delim_loop (run E n m q) (run E n m d) pv dv k res i b).
Proof.
  intros Hv Hne Hq Hd. induction len as [len IH] using lt_wf_ind. intros x i b res Hlen Hx Hrem Hlt.
  destruct res as [[v|] x0]; cbn [r_rem r_ok] in *; subst x0.
  2:{ apply (settles_ext (fun n k => match k with O => OOF | S _ => ret (i, b) end)); [intros n [|]; reflexivity|].
      apply (settles_pre (fun _ _ => ret (i, b))). apply settles_const. discriminate. }
  assert (Hlt' := Hlt ltac:(discriminate)). clear Hlt.
  assert (Hvx : valid E x) by eauto using suffix_valid.
  pose (body := fun n k' =>
    bind (if pv then ret b else if dv then b_insert_back b v else b_insert_back_first b v) (fun b1 =>
    bind (run E n m d x) (fun d0 => match r_ok d0 with
      | None => ret (x, b1)
      | Some w => bind (run E n m q (r_rem d0)) (fun res' =>
          bind (if dv then ret b1 else if has_value res'
                          then (if pv then b_insert_back b1 w else b_insert_back_second b1 w)
                          else ret b1) (fun b2 => delim_loop (run E n m q) (run E n m d) pv dv k' res' x b2))
      end))).
  apply (settles_ext (fun n k => match k with O => OOF | S k' => body n k' end)); [intros n [|]; reflexivity|].
  apply settles_pre. unfold body. clear body.
  apply settles_bind; [apply settles_const; destruct pv, dv; auto|]. intros b1 _.
  apply settles_bind; [apply Hd; auto|].
  intros [[w|] remd] (n & k & tr & Hr); cbn [r_ok r_rem]; [|apply settles_const; discriminate].
  assert (Hsd := run_rem _ _ _ _ _ _ Hvx Hr). cbn in Hsd. apply evals_done in Hr.
  assert (Hvd : valid E remd) by eauto using suffix_valid.
  apply settles_bind; [apply Hq; eauto using suffix_trans|].
  intros [ok' remq] (n' & k' & tr' & Hr').
  assert (Hsq := run_rem _ _ _ _ _ _ Hvd Hr'). cbn in Hsq.
  apply settles_bind; [apply settles_const; destruct dv, pv; cbn [has_value r_ok]; ft|]. intros b2 _.
  destruct ok' as [v'|]; cbn [r_ok r_rem] in *.
  - apply evals_done in Hr'. assert (Hld := suffix_len _ _ Hsd). assert (Hlq := suffix_len _ _ Hsq). assert (Hlx := suffix_len _ _ Hx).
    assert (sp_len remq < sp_len x).
    { destruct (Nat.eq_dec (sp_len remq) (sp_len x)) as [He|]; [|lia]. exfalso. apply Hne. split.
      - eapply emp_sound; [exact Hvd|exact Hr'|lia].
      - eapply emp_sound; [exact Hvx|exact Hr|lia]. }
    apply (IH (sp_len remq)) with (x := remq); cbn; auto; try lia; eauto using suffix_trans.
  - apply (settles_ext (fun n k => match k with O => OOF | S _ => ret (x, b2) end)); [intros ? [|]; reflexivity|].
    apply (settles_pre (fun _ _ => ret (x, b2))). apply settles_const. discriminate.
Qed.

(** The element loop of a specialised join. *)
Lemma jr_settles q fc len : elementary E q = Some (fc, len) -> len <> 0 ->
  forall n0 res i, sp_len i <= n0 -> settles (fun _ k => jr_loop fc len k res i).
Proof.
  intros Hq Hl. induction n0 as [n0 IH] using lt_wf_ind. intros res i Hi.
  apply (settles_ext (fun (_ k : nat) => match k with O => OOF | S k' => bind (fc i) (fun b : bool => if b then ret (res, i) else
    bind (advance i len) (fun i' => jr_loop fc len k' (Span (sp_blk res) (sp_off res) (sp_len res + len)) i')) end)); [intros n [|]; reflexivity|].
  apply (settles_pre (fun _ k' => bind (fc i) (fun b : bool => if b then ret (res, i) else
    bind (advance i len) (fun i' => jr_loop fc len k' (Span (sp_blk res) (sp_off res) (sp_len res + len)) i')))).
  apply settles_bind; [apply settles_const; eapply fin_fc; eauto|]. intros [|] _; [apply settles_const; discriminate|].
  apply settles_bind; [apply settles_const; auto|]. intros i' (_ & _ & tr & Ha).
  unfold advance in Ha. destruct (Nat.leb_spec len (sp_len i)); [|discriminate]. injection Ha as <- _.
  apply (IH (sp_len i - len)); cbn; lia.
Qed.

Lemma elementary_consumes q fc len : elementary E q = Some (fc, len) -> ~ emp q -> len <> 0.
Proof.
  intros Hq He ->. apply He. destruct q; cbn in Hq; try discriminate. injection Hq as <- Ha.
  destruct arr; [|discriminate]. eapply (emp_sound Look _ (Span 0 0 0) RVoid (Span 0 0 0) []); auto.
  - unfold valid. cbn. lia.
  - apply (evals_done E 1). reflexivity.
Qed.

(** ** One layer *)

(** What [p] calls before anything has been consumed. *)
Inductive left : parser T -> parser T -> Prop :=
| left_choice q qs r : In r (q :: qs) -> left (PChoice q qs) r
| left_seq q qs pre r post : q :: qs = pre ++ r :: post -> Forall emp pre -> left (PSequence q qs) r
| left_maybe q : left (PMaybe q) q
| left_exactly q n : left (PExactly q n) q
| left_oom q : left (POneOrMore q) q
| left_zom q : left (PZeroOrMore q) q
| left_delimit q d : left (PDelimit q d) q
| left_delimiter q d : emp q -> left (PDelimit q d) d
| left_ignore q : left (PIgnore q) q
| left_complete q : left (PComplete q) q
| left_join q : left (PJoin q) q
| left_map q f : left (PMap q f) q
| left_filter q f : left (PFilter q f) q
| left_named q s : left (PNamed q s) q
| left_custom c : left (PCustom c) (cust_body E c).

(** Repetitions whose body consumes. *)
Definition repeats_well (p : parser T) : Prop :=
  match p with
  | POneOrMore q | PZeroOrMore q => ~ emp q
  | PDelimit q d => ~ (emp q /\ emp d)
  | _ => True
  end.

Lemma consumes q : ~ emp q -> forall m i v rem tr, valid E i -> gives E m q i v rem tr -> sp_len rem < sp_len i.
Proof.
  intros He m i v rem tr Hv Hg. pose proof Hg as Hg'. destruct Hg' as [_ [n Hn]]. apply run_rem in Hn; auto. cbn in Hn.
  apply suffix_len in Hn. destruct (Nat.eq_dec (sp_len rem) (sp_len i)); [|lia]. exfalso. apply He. eapply emp_sound; eauto.
Qed.

Lemma step_settles m p i : valid E i -> repeats_well p -> (forall r, p = PJoin r -> repeats_well r) ->
  (forall m q j, In q (components E p) -> suffix i j -> sp_len j < sp_len i \/ left p q -> calm m q j) ->
  settles (fun n k => step E (run E n) k m p i).
Proof.
  intros Hv Hrw Hrj Hc.
  assert (Hs : forall m q, In q (components E p) -> left p q -> calm m q i) by (intros; apply Hc; auto using suffix_refl).
  assert (Hsj : forall m q, In q (components E p) -> left p q -> forall j, suffix i j -> calm m q j) by (intros; apply Hc; auto).
  destruct p as [arr|arr|arr| | |q qs|q qs|q|q n0|q|q|q d|q|q|q|q f|q f|q s|c]; cbn [step].
  - apply settles_const. exact (fin_basic (PAnyOf arr) _ _ i m eq_refl).
  - apply settles_const. exact (fin_basic (PNoneOf arr) _ _ i m eq_refl).
  - apply settles_const. exact (fin_basic (PAllOf arr) _ _ i m eq_refl).
  - apply settles_const. exact (fin_basic PAnything _ _ i m eq_refl).
  - apply settles_const. discriminate.
  - assert (Ha : forall m q', In q' (q :: qs) -> calm m q' i) by (intros; apply Hs; auto; now constructor).
    destruct m; unfold choice_parse, choice_look; (destruct (result_fors E (q :: qs)) as [tys|]; [|apply settles_const; discriminate]).
    + destruct (_ || _); [|apply settles_const; discriminate].
      apply settles_bind; [apply or_settles; auto; intros q' idx Hi; apply in_combine_l in Hi; auto|].
      intros [ok [i' b]] _. apply settles_const. ft.
    + apply settles_bind; [apply or_settles; auto; intros q' idx Hi; apply in_map_iff in Hi as (? & [= <- <-] & ?); auto|].
      intros [ok [i' b]] _. apply settles_const. ft.
  - assert (Ha : forall l1 q' l2, q :: qs = l1 ++ q' :: l2 -> forall m, called (Forall emp ([] ++ l1)) m q' i).
    { intros l1 q' l2 Hl m' j Hj HL. apply Hc; auto; [cbn [components]; rewrite Hl; apply in_elt|].
      destruct HL; auto. right. eapply left_seq; eauto. }
    destruct m; unfold sequence_parse, sequence_look; (destruct (result_fors E (q :: qs)) as [tys|] eqn:Ht; [|apply settles_const; discriminate]).
    + apply settles_bind; [|intros [ok [i' b]] _; apply settles_const; ft].
      apply (and_settles _ _ i []); auto using suffix_refl.
      replace (map fst (combine (q :: qs) (snd (filter_out_void tys)))) with (q :: qs); auto.
      assert (Hl : List.length (q :: qs) = List.length (snd (filter_out_void tys))).
      { rewrite filter_out_void_spec. cbn [snd]. rewrite seq_from_length. now apply result_fors_length in Ht. }
      revert Hl. generalize (snd (filter_out_void tys)). generalize (q :: qs).
      induction l as [|a l IH]; intros [|x l'] Hl; cbn in *; try discriminate; auto. f_equal. apply IH. lia.
    + apply settles_bind; [|intros [ok [i' b]] _; apply settles_const; ft].
      apply (and_settles _ _ i []); auto using suffix_refl. rewrite map_map. cbn [fst]. now rewrite map_id.
  - assert (H := fun m => Hs m q (or_introl eq_refl) (left_maybe q)). destruct m.
    + destruct (result_for E q) as [t|]; [|apply settles_const; discriminate]. unfold maybe_parse.
      apply settles_bind; [apply H|]. intros res _. apply settles_const. ft.
    + unfold maybe_look. apply settles_bind; [apply H|]. intros res _. apply settles_const. ft.
  - destruct (n0 =? 0); [apply settles_const; discriminate|].
    assert (H : forall m, called True m q i) by (intros m' j Hj _; apply Hsj; auto; [now left|constructor]). destruct m.
    + destruct (result_for E q) as [t|]; [|apply settles_const; discriminate]. unfold exactly_parse.
      apply settles_bind; [apply (exactly_settles True Parse q i I); auto using suffix_refl|]. intros res _. apply settles_const. ft.
    + unfold exactly_look.
      apply settles_bind; [apply (exactly_settles True Look q i I); auto using suffix_refl|]. intros res _. apply settles_const. ft.
  - assert (H : forall m b s, settles (fun n k => rep_loop (run E n m q) k i b s)).
    { intros m' b s. eapply rep_settles; eauto; [intros; eapply consumes; eauto|]. apply Hsj; [now left|constructor]. }
    destruct m.
    + destruct (result_for E q) as [t|]; [|apply settles_const; discriminate]. unfold one_or_more_parse.
      apply settles_bind; [apply H|]. intros [[? ?] ?] _. apply settles_const. ft.
    + unfold one_or_more_look. apply settles_bind; [apply H|]. intros [[? ?] ?] _. apply settles_const. ft.
  - assert (H : forall m b s, settles (fun n k => rep_loop (run E n m q) k i b s)).
    { intros m' b s. eapply rep_settles; eauto; [intros; eapply consumes; eauto|]. apply Hsj; [now left|constructor]. }
    destruct m.
    + destruct (result_for E q) as [t|]; [|apply settles_const; discriminate]. unfold zero_or_more_parse.
      apply settles_bind; [apply H|]. intros [[? ?] ?] _. apply settles_const. ft.
    + unfold zero_or_more_look. apply settles_bind; [apply H|]. intros [[? ?] ?] _. apply settles_const. ft.
  - assert (Hq : forall m j, suffix i j -> calm m q j) by (intros; apply Hsj; auto; [now left|constructor]).
    assert (Hd : forall m, called (emp q) m d i).
    { intros m' j Hj HL. apply Hc; auto; [right; now left|]. destruct HL; auto. right. now constructor. }
    assert (H : forall m pv dv b n res tr, run E n m q i = Done res tr -> has_value res = true ->
      settles (fun n k => delim_loop (run E n m q) (run E n m d) pv dv k res i b)).
    { intros m' pv dv b n res tr Hr Hok. destruct res as [[v|] rem]; [|discriminate].
      pose proof (run_rem _ _ _ _ _ _ Hv Hr) as Hsr. cbn in Hsr.
      apply evals_done in Hr.
      eapply (delim_settles m' q d pv dv i) with (x := rem); eauto.
      intros _. destruct (Nat.eq_dec (sp_len rem) (sp_len i)) as [He|]; [right; eapply emp_sound; eauto|].
      left. apply suffix_len in Hsr. lia. }
    destruct m.
    + destruct (result_for E q) as [tp|]; [|apply settles_const; discriminate].
      destruct (result_for E d) as [td|]; [|apply settles_const; discriminate]. unfold delimit_parse.
      apply settles_bind; [apply Hq, suffix_refl|]. intros res (n & k & tr & Hr).
      destruct (has_value res) eqn:Hok; [|apply settles_const; discriminate].
      apply settles_bind; [eapply H; eauto|]. intros [? ?] _. apply settles_const. ft.
    + unfold delimit_look.
      apply settles_bind; [apply Hq, suffix_refl|]. intros res (n & k & tr & Hr).
      destruct (has_value res) eqn:Hok; [|apply settles_const; discriminate].
      apply settles_bind; [eapply H; eauto|]. intros [? ?] _. apply settles_const. ft.
  - exact (Hs Look q (or_introl eq_refl) (left_ignore q)).
  - unfold complete_run. apply settles_bind; [exact (Hs m q (or_introl eq_refl) (left_complete q))|].
    intros res _. apply settles_const. ft.
  - assert (H := fun m => Hs m q (or_introl eq_refl) (left_join q)).
    assert (Hg : settles (fun n _ => join_generic E (run E n) m q i)).
    { unfold join_generic. destruct m; [|apply H]. destruct (result_for E q) as [t|]; [|apply settles_const; discriminate].
      destruct (joinable t); [|apply settles_const; discriminate]. unfold join_parse.
      apply settles_bind; [apply H|]. intros [[[|v]|] rem] _; cbn [r_ok]; apply settles_const; try discriminate.
      apply fin_bind; [apply fin_join|]. ft. }
    specialize (Hrj q eq_refl).
    assert (Hjr : forall q' fc len, as_basic E q' = Some (fc, len) -> ~ emp q' ->
      forall res x, settles (fun _ k => jr_loop fc len k res x)).
    { intros q' fc len Hb He res x. apply as_basic_elementary in Hb.
      eapply jr_settles; eauto. eapply elementary_consumes; eauto. }
    assert (Hjf : forall q' fc len, as_basic E q' = Some (fc, len) -> forall x, fin (fc x)).
    { intros q' fc len Hb x. apply as_basic_elementary in Hb. eapply fin_fc; eauto. }
    assert (Hjx : forall q' fc len, as_basic E q' = Some (fc, len) -> forall k res x, fin (jx_loop fc len k res x)).
    { intros q' fc len Hb. induction k; intros res x; cbn [jx_loop]; [discriminate|].
      apply fin_bind; [eapply Hjf; eauto|]. intros [|]; [discriminate|]. ft. }
    destruct q as [| | | | | | |q'|q' n0|q'|q'| | | | | | | |]; cbn [join_special]; auto;
      (destruct (as_basic E q') as [[fc len]|] eqn:Hb; [|exact Hg]).
    + destruct m; apply settles_const; unfold jm_parse, jm_look; (apply fin_bind; [eapply Hjf; eauto|]); ft.
    + destruct (n0 =? 0); [exact Hg|].
      destruct m; apply settles_const; unfold jx_parse, jx_look; (apply fin_bind; [eapply Hjx; eauto|]); ft.
    + destruct m; unfold jo_parse, jo_look.
      * apply settles_bind; [apply settles_const; eapply Hjf; eauto|]. intros [|] _; [apply settles_const; discriminate|].
        apply settles_bind; [apply settles_const; auto|]. intros v _.
        apply settles_bind; [apply settles_const; auto|]. intros i1 _.
        apply settles_bind; [eapply Hjr; eauto|]. intros [? ?] _. apply settles_const. discriminate.
      * apply settles_bind; [apply settles_const; eapply Hjf; eauto|]. intros [|] _; [apply settles_const; discriminate|].
        apply settles_bind; [apply settles_const; auto|]. intros i1 _.
        apply settles_bind; [eapply Hjr; eauto|]. intros [? ?] _. apply settles_const. discriminate.
    + destruct m; unfold jz_parse, jz_look; (apply settles_bind; [eapply Hjr; eauto|]); intros [? ?] _; apply settles_const; discriminate.
  - assert (H := fun m => Hs m q (or_introl eq_refl) (left_map q f)). destruct m; [|apply H].
    destruct (result_for E (PMap q f)); [|apply settles_const; discriminate]. unfold map_parse.
    apply settles_bind; [apply H|]. intros res _. apply settles_const. ft.
  - assert (H := fun m => Hs m q (or_introl eq_refl) (left_filter q f)). destruct m; [|apply H].
    destruct (result_for E (PFilter q f)); [|apply settles_const; discriminate]. unfold filter_parse.
    apply settles_bind; [apply H|]. intros res _. apply settles_const. ft.
  - exact (Hs m q (or_introl eq_refl) (left_named q s)).
  - assert (H := fun m => Hs m _ (or_introl eq_refl) (left_custom c)). destruct m; [|apply H].
    unfold custom_parse. apply settles_bind; [apply H|]. intros res _. apply settles_const. ft.
Qed.
End Term.
