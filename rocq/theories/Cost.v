(** * How many calls a parse makes: facts used for property C55

    The evaluator of Exec.v, recording every call of a [parse] or [lookahead] in the trace
    beside the calls of user functions. *)
From Coq Require Import String List Arith ZArith Bool Lia.
From Verif Require Import Types Compound Parser Outcome CompoundFacts Exec Mono Derive Typing Join Leaves Sound
  BigStep BigSound BigComplete Peg Throws Runs Term PropTerm.
Import ListNotations.
Local Open Scope outcome_scope.

(** One more entry: which one does not matter, only how many there are. *)
Definition entry : event := EInvoke (FDefault TVoid) [].
Definition tick {A} (x : outcome A) : outcome A := match x with Done a tr => Done a (entry :: tr) | _ => x end.

(** Equal but for what is recorded *)
Definition same {A} (x y : outcome A) : Prop :=
  match x, y with
  | Done a _, Done b _ => a = b
  | UB, UB | OOF, OOF | Ill, Ill => True
  | Exn e, Exn e' => e = e'
  | _, _ => False
  end.

Lemma same_refl {A} (x : outcome A) : same x x.
Proof. destruct x; cbn; auto. Qed.

Lemma bind_same {A B} (x y : outcome A) (f g : A -> outcome B) :
  same x y -> (forall a, same (f a) (g a)) -> same (bind x f) (bind y g).
Proof.
  intros Hx Hf. destruct x, y; cbn in *; try contradiction; auto. subst. specialize (Hf a0).
  destruct (f a0), (g a0); cbn in *; auto.
Qed.

(** Recording at most [k] entries *)
Definition costs {A} (x : outcome A) (k : nat) : Prop := match x with Done _ tr => List.length tr <= k | _ => True end.

Lemma costs_bind {A B} (x : outcome A) (f : A -> outcome B) a b :
  costs x a -> (forall v tr, x = Done v tr -> costs (f v) b) -> costs (bind x f) (a + b).
Proof.
  intros Hx Hf. destruct x; cbn in *; auto. specialize (Hf a0 tr eq_refl). destruct (f a0); cbn in *; auto. rewrite app_length. lia.
Qed.

Lemma costs_bind0 {A B} (x : outcome A) (f : A -> outcome B) b :
  costs x 0 -> (forall v tr, x = Done v tr -> costs (f v) b) -> costs (bind x f) b.
Proof. apply (costs_bind x f 0 b). Qed.

Lemma costs_le {A} (x : outcome A) a b : costs x a -> a <= b -> costs x b.
Proof. destruct x; cbn; auto; lia. Qed.

Lemma costs_tick {A} (x : outcome A) k : costs x k -> costs (tick x) (S k).
Proof. destruct x; cbn; auto. lia. Qed.

Section Cost.
Context {T V : Type} (E : env T V).
Implicit Types (p q d : parser T).

Fixpoint crun (n : nat) (m : mode) (p : parser T) (i : span) : outcome presult :=
  match n with O => OOF | S n' => tick (step E (crun n') n' m p i) end.

(** ** It is the same program *)
Ltac same_step :=
  match goal with
  | |- same ?a ?a => apply same_refl
  | |- same (bind _ _) (bind _ _) => apply bind_same
  | |- forall _, _ => intro
  | |- same (match ?x with _ => _ end) (match ?x with _ => _ end) => destruct x
  | |- same (if ?x then _ else _) (if ?x then _ else _) => destruct x
  | |- same (let (_, _) := ?x in _) (let (_, _) := ?x in _) => destruct x
  end.

Section Rec.
Variables r1 r2 : mode -> parser T -> pfun.
Hypothesis Hr : forall m q i, same (r1 m q i) (r2 m q i).

Lemma execute_same ct u p idx st : same (execute r1 ct u p idx st) (execute r2 ct u p idx st).
Proof. destruct st; cbn. destruct idx; repeat first [apply Hr | same_step]. Qed.

Lemma exec_or_same u ps : forall st, same (exec_or r1 u ps st) (exec_or r2 u ps st).
Proof.
  induction ps as [|[p idx] ps IH]; intros st; cbn; [reflexivity|].
  apply bind_same; [apply execute_same|]. intros [[|] st']; [reflexivity|apply IH].
Qed.

Lemma exec_and_same u ps : forall st, same (exec_and r1 u ps st) (exec_and r2 u ps st).
Proof.
  induction ps as [|[p idx] ps IH]; intros st; cbn; [reflexivity|].
  apply bind_same; [apply execute_same|]. intros [[|] st']; [apply IH|reflexivity].
Qed.

Lemma exactly_same m q k : forall j i b, same (exactly_loop (r1 m q) k j i b) (exactly_loop (r2 m q) k j i b).
Proof. induction k; intros j i b; cbn [exactly_loop]; repeat first [apply IHk | apply Hr | same_step]. Qed.

Lemma rep_same m q k : forall i b s, same (rep_loop (r1 m q) k i b s) (rep_loop (r2 m q) k i b s).
Proof. induction k; intros i b s; cbn [rep_loop]; repeat first [apply IHk | apply Hr | same_step]. Qed.

Lemma delim_same m q d pv dv k : forall res i b,
  same (delim_loop (r1 m q) (r1 m d) pv dv k res i b) (delim_loop (r2 m q) (r2 m d) pv dv k res i b).
Proof. induction k; intros res i b; cbn [delim_loop]; repeat first [apply IHk | apply Hr | same_step]. Qed.

Lemma step_same k m p i : same (step E r1 k m p i) (step E r2 k m p i).
Proof.
  destruct p; destruct m; cbn [step];
    unfold choice_parse, choice_look, sequence_parse, sequence_look,
      maybe_parse, maybe_look, exactly_parse, exactly_look, one_or_more_parse, one_or_more_look,
      zero_or_more_parse, zero_or_more_look, delimit_parse, delimit_look, complete_run,
      map_parse, filter_parse, custom_parse, join_generic, join_parse;
    repeat first [apply Hr | apply exec_or_same | apply exec_and_same | apply exactly_same | apply rep_same | apply delim_same | same_step].
Qed.
End Rec.

Lemma tick_same {A} (x y : outcome A) : same x y -> same (tick x) y.
Proof. destruct x, y; cbn; auto. Qed.

Lemma crun_same n : forall m p i, same (crun n m p i) (run E n m p i).
Proof. induction n as [|n IH]; intros m p i; [exact I|]. cbn [crun run]. apply tick_same, step_same, IH. Qed.

Lemma crun_run n m p i r tr : crun n m p i = Done r tr -> exists tr', run E n m p i = Done r tr'.
Proof. intros H. pose proof (crun_same n m p i) as Hs. rewrite H in Hs. destruct (run E n m p i); cbn in Hs; try contradiction. subst. eauto. Qed.

Lemma run_crun n m p i r tr : run E n m p i = Done r tr -> exists tr', crun n m p i = Done r tr'.
Proof. intros H. pose proof (crun_same n m p i) as Hs. rewrite H in Hs. destruct (crun n m p i); cbn in Hs; try contradiction. subst. eauto. Qed.

Lemma tick_le {A} (x y : outcome A) : le_out x y -> le_out (tick x) (tick y).
Proof. intros [->| ->]; [now left|now right]. Qed.

Lemma crun_le n n' : n <= n' -> forall m p i, le_out (crun n m p i) (crun n' m p i).
Proof.
  revert n'. induction n as [|n IH]; intros n' Hn m p i; [now left|]. destruct n' as [|n']; [lia|]. cbn [crun].
  apply tick_le, step_le; [|lia]. intros m' p' i'. apply IH. lia.
Qed.

(** ** Bounds *)
Lemma c_ret {A} (a : A) k : costs (ret a) k. Proof. cbn. lia. Qed.
Lemma c_store ct u k b v : costs (store ct u k b v) 0.
Proof. unfold store, b_assign, b_emplace, b_get_assign. destruct u, ct, b, v; cbn; auto; repeat (match goal with |- costs (match ?x with _ => _ end) _ => destruct x end; cbn; auto). Qed.
Lemma c_insert b v : costs (b_insert_back b v) 0.
Proof. destruct b as [|[]], v; cbn; auto. Qed.
Lemma c_insert1 b v : costs (b_insert_back_first b v) 0.
Proof. destruct b as [|[| | | | | |[] | |]], v; cbn; auto. Qed.
Lemma c_insert2 b v : costs (b_insert_back_second b v) 0.
Proof. destruct b as [|[| | | | | |? [] | |]], v; cbn; auto. Qed.
Lemma c_array k b v : costs (b_array_assign k b v) 0.
Proof. unfold b_array_assign. repeat (match goal with |- costs (match ?x with _ => _ end) _ => destruct x end; try exact I; try apply c_ret). Qed.
Lemma c_opt b v : costs (b_emplace_opt b v) 0.
Proof. destruct b as [|[]], v; cbn; auto. Qed.
Lemma c_call f args : costs (call E f args) 1.
Proof. unfold call. destruct (invoke E f args); cbn; auto. Qed.
Lemma c_read b o : costs (read E b o) 0.
Proof. unfold read. destruct (nth_error _ _); cbn; auto. Qed.
Lemma c_front i : costs (front E i) 0.
Proof. unfold front. destruct (_ =? _); [exact I|apply c_read]. Qed.
Lemma c_first i n : costs (first i n) 0.
Proof. unfold first. destruct (_ <=? _); cbn; auto. Qed.
Lemma c_advance i n : costs (advance i n) 0.
Proof. unfold advance. destruct (_ <=? _); cbn; auto. Qed.
Lemma c_eq_loop arr b : forall o, costs (eq_loop E arr b o) 0.
Proof. induction arr; intros o; cbn [eq_loop]; [apply c_ret|]. apply costs_bind0; [apply c_read|]. intros v tr _. destruct (eqv _ _ _); [apply IHarr|apply c_ret]. Qed.
Lemma c_try_join v : forall j, costs (try_join v j) 0.
Proof.
  assert (HM : forall l, (forall x, In x l -> forall j, costs (try_join x j) 0) -> forall j,
    costs ((fix go (l : list val) (joined : option span) {struct l} :=
    match l with
    | [] => ret (true, joined)
    | x :: l' => '(b, j) <- try_join x joined ;;
                 if b : bool then go l' j else ret (false, j)
    end) l j) 0).
  { induction l as [|a l IH]; intros Hx j; [apply c_ret|]. apply costs_bind0; [apply Hx; now left|]. intros [[|] j'] tr _; [|apply c_ret].
    apply IH. intros; apply Hx; now right. }
  induction v using val_ind'; intros j; cbn [try_join]; try exact I; try (apply HM; now rewrite <- Forall_forall).
  - unfold try_join_span. repeat match goal with |- costs (match ?x with _ => _ end) _ => destruct x end; cbn; auto.
  - apply c_ret.
  - auto.
Qed.

Lemma c_join_executor v rem : costs (join_executor v rem) 0.
Proof. unfold join_executor. apply costs_bind0; [apply c_try_join|]. intros [[|] [|]] tr _; apply c_ret. Qed.

Lemma c_elementary q fc len : elementary E q = Some (fc, len) -> forall i, costs (fc i) 0.
Proof.
  intros H i. destruct q; cbn in H; try discriminate; injection H as <- _.
  - unfold any_of_fc. destruct (_ =? _); [apply c_ret|]. apply costs_bind0; [apply c_front|]. intros; apply c_ret.
  - unfold none_of_fc. destruct (_ =? _); [apply c_ret|]. apply costs_bind0; [apply c_front|]. intros; apply c_ret.
  - unfold all_of_fc. destruct (_ <? _); [apply c_ret|]. apply costs_bind0; [apply c_first|]. intros f tr _.
    apply costs_bind0; [|intros; apply c_ret]. unfold span_equal. destruct (_ =? _); [apply c_eq_loop|apply c_ret].
  - apply c_ret.
Qed.

Lemma c_basic q fc len m i : elementary E q = Some (fc, len) ->
  costs (match m with Parse => basic_parse fc len i | Look => basic_look fc len i end) 0.
Proof.
  intros H. destruct m; unfold basic_parse, basic_look; (apply costs_bind0; [eapply c_elementary; eauto|]); intros [|] tr _; try apply c_ret;
    repeat (apply costs_bind0; [first [apply c_first|apply c_advance]|intros]); apply c_ret.
Qed.

Lemma c_jr q fc len : elementary E q = Some (fc, len) -> forall k res i, costs (jr_loop fc len k res i) 0.
Proof.
  intros H. induction k; intros res i; cbn [jr_loop]; [exact I|]. apply costs_bind0; [eapply c_elementary; eauto|]. intros [|] tr _; [apply c_ret|].
  apply costs_bind0; [apply c_advance|]. auto.
Qed.

Lemma c_jx q fc len : elementary E q = Some (fc, len) -> forall k res i, costs (jx_loop fc len k res i) 0.
Proof.
  intros H. induction k; intros res i; cbn [jx_loop]; [apply c_ret|]. apply costs_bind0; [eapply c_elementary; eauto|]. intros [|] tr _; [apply c_ret|].
  apply costs_bind0; [apply c_advance|]. auto.
Qed.

(** The specialised joins call no other parser. *)
Lemma c_special q k f m i : join_special E q k = Some f -> costs (f m i) 0.
Proof.
  intros H. destruct q; cbn in H; try discriminate; (destruct (as_basic E q) as [[fc len]|] eqn:Hb; [|discriminate]);
    apply as_basic_elementary in Hb; try (destruct (n =? 0); [discriminate|]); injection H as <-; destruct m;
    unfold jx_parse, jx_look, jm_parse, jm_look, jo_parse, jo_look, jz_parse, jz_look;
    repeat first
      [ apply c_ret
      | apply costs_bind0; [first [eapply c_elementary; eassumption | eapply c_jr; eassumption | eapply c_jx; eassumption | apply c_first | apply c_advance]|intros ? ? _]
      | match goal with |- costs (match ?x with _ => _ end) _ => destruct x end ].
Qed.

Lemma crun_rem n m q i r tr : valid E i -> crun n m q i = Done r tr ->
  match r_ok r with None => r_rem r = i | Some _ => suffix i (r_rem r) end.
Proof. intros Hv H. apply crun_run in H as [tr' H]. eapply run_rem; eauto. Qed.

Lemma crun_gives n m q i v rem tr : crun n m q i = Done (Res (Some v) rem) tr -> exists tr', gives E m q i v rem tr'.
Proof. intros H. apply crun_run in H as [tr' H]. exists tr'. eapply evals_done; eauto. Qed.

(** ** Each component called at [i] or further on costs at most [B]: what a call of the
    parser then costs *)
Definition width p : nat := match p with PChoice _ qs | PSequence _ qs => S (List.length qs) | PExactly _ n => n | _ => 2 end.

Section Level.
Variables (n : nat) (i0 : span) (B : nat).
Hypothesis Hv0 : valid E i0.

Definition cheap m q : Prop := forall j, suffix i0 j -> costs (crun n m q j) B.

Lemma execute_costs ct u q idx i b : cheap (idx_m idx) q -> suffix i0 i -> costs (execute (crun n) ct u q idx (i, b)) B.
Proof.
  intros Hc Hi. unfold execute. replace B with (B + 0) by lia. destruct idx; (apply costs_bind; [exact (Hc _ Hi)|]); intros res tr _; [|apply c_ret].
  destruct (r_ok res); [|apply c_ret]. apply costs_bind0; [apply c_store|]. intros; apply c_ret.
Qed.

Lemma execute_suffix ct u q idx i b ok i' b' tr : suffix i0 i -> execute (crun n) ct u q idx (i, b) = Done (ok, (i', b')) tr -> suffix i0 i'.
Proof.
  intros Hi H. assert (Hvi : valid E i) by eauto using suffix_valid.
  pose proof (execute_same _ _ (crun_same n) ct u q idx (i, b)) as Hs. rewrite H in Hs.
  destruct (execute (run E n) ct u q idx (i, b)) eqn:Hx; cbn in Hs; try contradiction. subst a.
  apply execute_rem in Hx; auto. destruct ok; [destruct Hx; eauto using suffix_trans|now subst].
Qed.

Lemma or_costs u ps : (forall q idx, In (q, idx) ps -> cheap (idx_m idx) q) ->
  forall i b, suffix i0 i -> costs (exec_or (crun n) u ps (i, b)) (List.length ps * B).
Proof.
  induction ps as [|[q idx] ps IH]; intros Hc i b Hi; cbn [exec_or]; [apply c_ret|]. cbn [List.length Nat.mul].
  apply costs_bind; [apply execute_costs; auto; exact (Hc q idx (or_introl eq_refl))|].
  intros [[|] [i' b']] tr Hr; [apply c_ret|]. apply IH; [intros; apply Hc; now right|]. eapply execute_suffix; eauto.
Qed.

Lemma and_costs u ps : (forall q idx, In (q, idx) ps -> cheap (idx_m idx) q) ->
  forall i b, suffix i0 i -> costs (exec_and (crun n) u ps (i, b)) (List.length ps * B).
Proof.
  induction ps as [|[q idx] ps IH]; intros Hc i b Hi; cbn [exec_and]; [apply c_ret|]. cbn [List.length Nat.mul].
  apply costs_bind; [apply execute_costs; auto; exact (Hc q idx (or_introl eq_refl))|].
  intros [[|] [i' b']] tr Hr; [|apply c_ret]. apply IH; [intros; apply Hc; now right|]. eapply execute_suffix; eauto.
Qed.

Lemma exactly_costs m q : cheap m q -> forall k j i b, suffix i0 i -> costs (exactly_loop (crun n m q) k j i b) (k * B).
Proof.
  intros Hc. induction k as [|k IH]; intros j i b Hi; cbn [exactly_loop]; [apply c_ret|]. cbn [Nat.mul].
  apply costs_bind; [auto|]. intros [[v|] rem] tr Hr; cbn [r_ok r_rem]; [|apply c_ret].
  apply costs_bind0; [apply c_array|]. intros b' ? _. apply IH. apply crun_rem in Hr; eauto using suffix_trans, suffix_valid.
Qed.

Lemma rep_costs m q : cheap m q -> ~ can_be_empty E q ->
  forall k i b s, suffix i0 i -> costs (rep_loop (crun n m q) k i b s) (S (sp_len i) * B).
Proof.
  intros Hc He. induction k as [|k IH]; intros i b s Hi; cbn [rep_loop]; [exact I|]. cbn [Nat.mul].
  assert (Hvi : valid E i) by eauto using suffix_valid.
  apply costs_bind; [auto|]. intros [[v|] rem] tr Hr; cbn [r_ok r_rem]; [|apply c_ret].
  apply costs_bind0; [apply c_insert|]. intros b' ? _.
  pose proof (crun_rem _ _ _ _ _ _ Hvi Hr) as Hs. cbn in Hs.
  apply crun_gives in Hr as [tr' Hg]. apply (consumes E (can_be_empty E) (can_be_empty_sound E) q He) in Hg; auto.
  apply (costs_le _ (S (sp_len rem) * B)); [apply IH; eauto using suffix_trans|]. nia.
Qed.

Lemma delim_costs m q d pv dv : cheap m q -> cheap m d -> ~ (can_be_empty E q /\ can_be_empty E d) ->
  forall k res i b, suffix i0 (r_rem res) ->
  costs (delim_loop (crun n m q) (crun n m d) pv dv k res i b) (2 * S (sp_len (r_rem res)) * B).
Proof.
  intros Hq Hd He. induction k as [|k IH]; intros res i b Hi; cbn [delim_loop]; [exact I|].
  assert (Hvi : valid E (r_rem res)) by eauto using suffix_valid.
  destruct (r_ok res) as [v|]; [|apply c_ret].
  apply costs_bind0; [destruct pv; [apply c_ret|]; destruct dv; [apply c_insert|apply c_insert1]|]. intros b1 tr0 _.
  replace (2 * S (sp_len (r_rem res)) * B) with (B + (B + 2 * sp_len (r_rem res) * B)) by lia.
  apply costs_bind; [auto|]. intros [[w|] remd] tr Hr; cbn [r_ok r_rem]; [|apply c_ret].
  pose proof (crun_rem _ _ _ _ _ _ Hvi Hr) as Hs. cbn in Hs. apply crun_gives in Hr as [tr' Hg].
  assert (Hvd : valid E remd) by eauto using suffix_valid.
  apply costs_bind; [apply Hq; eauto using suffix_trans|]. intros [o' rem'] tr2 Hr'.
  pose proof (crun_rem _ _ _ _ _ _ Hvd Hr') as Hs'. cbn in Hs'.
  apply costs_bind0.
  { destruct dv; [apply c_ret|]. destruct (has_value _); [|apply c_ret]. destruct pv; [apply c_insert|apply c_insert2]. }
  intros b2 ? _. destruct o' as [v'|]; cbn [r_ok r_rem] in *.
  - apply crun_gives in Hr' as [tr3 Hg'].
    assert (sp_len rem' < sp_len (r_rem res)).
    { pose proof (suffix_len _ _ Hs). pose proof (suffix_len _ _ Hs'). destruct (Nat.eq_dec (sp_len rem') (sp_len (r_rem res))); [|lia].
      exfalso. apply He. split; [eapply can_be_empty_sound; [exact Hvd|exact Hg'|lia]|eapply can_be_empty_sound; [exact Hvi|exact Hg|lia]]. }
    eapply costs_le; [apply IH; cbn; eauto using suffix_trans|]. cbn [r_rem]. nia.
  - destruct k; cbn [delim_loop r_ok]; [exact I|apply c_ret].
Qed.

Lemma step_costs k m p : repeats_well (can_be_empty E) p -> (forall m q, In q (components E p) -> cheap m q) ->
  costs (step E (crun n) k m p i0) (width p * (sp_len i0 + 2) * B + 2).
Proof.
  intros Hw Hc. pose proof (suffix_refl i0) as Hi.
  assert (HF : forall b (f : presult -> outcome presult) (x : outcome presult), (forall r tr, x = Done r tr -> costs (f r) 2) -> costs x b -> b <= width p * (sp_len i0 + 2) * B ->
    costs (bind x f) (width p * (sp_len i0 + 2) * B + 2)).
  { intros b f x Hf Hx Hb. apply costs_bind; auto. eapply costs_le; eauto. }
  destruct p as [arr|arr|arr| | |q qs|q qs|q|q n0|q|q|q d|q|q|q|q f|q f|q s|c]; cbn [step width components] in *.
  - eapply costs_le; [exact (c_basic (PAnyOf arr) _ _ m i0 eq_refl)|lia].
  - eapply costs_le; [exact (c_basic (PNoneOf arr) _ _ m i0 eq_refl)|lia].
  - eapply costs_le; [exact (c_basic (PAllOf arr) _ _ m i0 eq_refl)|lia].
  - eapply costs_le; [exact (c_basic PAnything _ _ m i0 eq_refl)|lia].
  - apply c_ret.
  - assert (Hs : forall ps u b, (forall q idx, In (q, idx) ps -> cheap (idx_m idx) q) -> List.length ps <= S (List.length qs) ->
      costs (exec_or (crun n) u ps (i0, b)) (S (List.length qs) * (sp_len i0 + 2) * B)).
    { intros ps u b Hp Hl. eapply costs_le; [apply or_costs; auto|]. apply Nat.mul_le_mono_r. nia. }
    destruct m; unfold choice_parse, choice_look; (destruct (result_fors E (q :: qs)) as [tys|]; [|exact I]).
    + destruct (_ || _); [|exact I]. apply costs_bind; [|intros [[|] [? ?]] ? _; apply c_ret]. apply Hs.
      * intros q' idx Hin. apply in_combine_l in Hin. auto.
      * rewrite combine_length. cbn [List.length]. lia.
    + apply costs_bind; [|intros [[|] [? ?]] ? _; apply c_ret]. apply Hs.
      * intros q' idx Hin. apply in_map_iff in Hin as (? & [= <- <-] & ?). auto.
      * rewrite map_length. cbn [List.length]. lia.
  - assert (Hs : forall ps u b, (forall q idx, In (q, idx) ps -> cheap (idx_m idx) q) -> List.length ps <= S (List.length qs) ->
      costs (exec_and (crun n) u ps (i0, b)) (S (List.length qs) * (sp_len i0 + 2) * B)).
    { intros ps u b Hp Hl. eapply costs_le; [apply and_costs; auto|]. apply Nat.mul_le_mono_r. nia. }
    destruct m; unfold sequence_parse, sequence_look; (destruct (result_fors E (q :: qs)) as [tys|]; [|exact I]).
    + apply costs_bind; [|intros [[|] [? ?]] ? _; apply c_ret]. apply Hs.
      * intros q' idx Hin. apply in_combine_l in Hin. auto.
      * rewrite combine_length. cbn [List.length]. lia.
    + apply costs_bind; [|intros [[|] [? ?]] ? _; apply c_ret]. apply Hs.
      * intros q' idx Hin. apply in_map_iff in Hin as (? & [= <- <-] & ?). auto.
      * rewrite map_length. cbn [List.length]. lia.
  - assert (H := fun m => Hc m q (or_introl eq_refl)). destruct m; [destruct (result_for E q); [|exact I]|]; unfold maybe_parse, maybe_look;
      (eapply HF; [|apply H, Hi|nia]); intros r tr _.
    + destruct (r_ok r); [|apply c_ret]. apply costs_bind0; [apply c_opt|]. intros; apply c_ret.
    + destruct (has_value r); apply c_ret.
  - assert (H := fun m => Hc m q (or_introl eq_refl)). destruct (n0 =? 0); [exact I|].
    destruct m; [destruct (result_for E q); [|exact I]|]; unfold exactly_parse, exactly_look;
      (apply costs_bind; [eapply costs_le; [apply exactly_costs; auto|nia]|]); intros [[? ?]|] ? _; apply c_ret.
  - assert (H := fun m => Hc m q (or_introl eq_refl)).
    destruct m; [destruct (result_for E q); [|exact I]|]; unfold one_or_more_parse, one_or_more_look;
      (apply costs_bind; [eapply costs_le; [apply rep_costs; auto|nia]|]); intros [[? ?] [|]] ? _; apply c_ret.
  - assert (H := fun m => Hc m q (or_introl eq_refl)).
    destruct m; [destruct (result_for E q); [|exact I]|]; unfold zero_or_more_parse, zero_or_more_look;
      (apply costs_bind; [eapply costs_le; [apply rep_costs; auto|nia]|]); intros [[? ?] [|]] ? _; apply c_ret.
  - assert (Hq := fun m => Hc m q (or_introl eq_refl)). assert (Hd := fun m => Hc m d (or_intror (or_introl eq_refl))).
    assert (Hx : forall m (f : presult -> outcome presult), (forall r tr, suffix i0 (r_rem r) -> crun n m q i0 = Done r tr -> costs (f r) (2 * S (sp_len i0) * B)) ->
      costs (bind (crun n m q i0) f) (2 * (sp_len i0 + 2) * B + 2)).
    { intros m' f Hf. apply (costs_le _ (B + 2 * S (sp_len i0) * B)); [|nia]. apply costs_bind; [apply Hq, Hi|]. intros r tr Hr. eapply Hf; eauto.
      apply crun_rem in Hr; auto. destruct (r_ok r); auto. now rewrite Hr. }
    destruct m; [destruct (result_for E q); [|exact I]; destruct (result_for E d); [|exact I]|]; unfold delimit_parse, delimit_look; apply Hx; intros r tr Hs _;
      (destruct (has_value r); [|apply c_ret]); rewrite <- (Nat.add_0_r (2 * S (sp_len i0) * B)); apply costs_bind;
      try (intros [? ?] ? _; apply c_ret); (eapply costs_le; [apply delim_costs; auto|]); apply suffix_len in Hs; nia.
  - eapply costs_le; [apply (Hc Look q); [now left|auto]|nia].
  - unfold complete_run. eapply HF; [|apply (Hc m q); [now left|auto]|nia]. intros r tr _. destruct (_ || _); apply c_ret.
  - destruct (join_special E q k) as [f|] eqn:Hf; [eapply costs_le; [eapply c_special; eauto|lia]|].
    assert (H := fun m => Hc m q (or_introl eq_refl)). unfold join_generic. destruct m; [|eapply costs_le; [apply H, Hi|nia]].
    destruct (result_for E q) as [t|]; [|exact I]. destruct (joinable t); [|exact I]. unfold join_parse. eapply HF; [|apply H, Hi|nia].
    intros r tr _. destruct (r_ok r) as [[|v]|]; [exact I| |apply c_ret]. apply costs_bind0; [apply c_join_executor|]. intros [|] ? _; apply c_ret.
  - assert (H := fun m => Hc m q (or_introl eq_refl)). destruct m; [|eapply costs_le; [apply H, Hi|nia]].
    destruct (result_for E (PMap q f)) as [t|]; [|exact I]. unfold map_parse. eapply HF; [|apply H, Hi|nia].
    intros r tr _. destruct (r_ok r) as [v|]; [|apply c_ret]. apply (costs_le _ (1 + 0)); [|lia]. apply costs_bind; [apply c_call|]. intros; apply c_ret.
  - assert (H := fun m => Hc m q (or_introl eq_refl)). destruct m; [|eapply costs_le; [apply H, Hi|nia]].
    destruct (result_for E (PFilter q f)) as [t|]; [|exact I]. unfold filter_parse. eapply HF; [|apply H, Hi|nia].
    intros r tr _. destruct (r_ok r) as [v|]; [|apply c_ret]. apply (costs_le _ (1 + 0)); [|lia]. apply costs_bind; [apply c_call|].
    intros [|v'] ? _; [exact I|]. destruct (as_bool E v'); apply c_ret.
  - eapply costs_le; [apply (Hc m q); [now left|auto]|nia].
  - assert (H := fun m => Hc m _ (or_introl eq_refl)). destruct m; [|eapply costs_le; [apply H, Hi|nia]].
    unfold custom_parse. eapply HF; [|apply H, Hi|nia]. intros r tr _. apply (costs_le _ (1 + 0)); [|lia].
    destruct (cust_conv E c), (r_ok r) as [[|]|]; first [exact I | apply c_ret | apply costs_bind; [apply c_call|intros; apply c_ret]].
Qed.
End Level.
End Cost.
