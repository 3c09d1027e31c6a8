(** * Names do not influence evaluation *)
From Coq Require Import String List Arith ZArith Bool Lia.
From Verif Require Import Types Compound Parser Outcome CompoundFacts Exec Mono Derive Typing Join Leaves Sound
  BigStep BigSound BigComplete Peg Throws Elems Runs PropBasic PropCombos.
Import ListNotations.
Local Open Scope outcome_scope.

(** ** Eventual outcomes *)

(** If [x] is not out of fuel, [y] is [x] from some fuel on. *)
Definition sim {A} (x : outcome A) (y : nat -> outcome A) : Prop :=
  x <> OOF -> exists N0, forall N, N0 <= N -> y N = x.

Lemma sim_refl {A} (x : outcome A) : sim x (fun _ => x).
Proof. intros _. now exists 0. Qed.

Lemma sim_bind {A B} (x : outcome A) y (f : A -> outcome B) g :
  sim x y -> (forall a tr, x = Done a tr -> sim (f a) (fun N => g N a)) ->
  sim (bind x f) (fun N => bind (y N) (g N)).
Proof.
  intros Hx Hf Ho. destruct x as [a tr| | e | |]; cbn in Ho.
  - destruct (Hx ltac:(discriminate)) as [N1 H1].
    destruct (Hf a tr eq_refl) as [N2 H2]; [intros E; rewrite E in Ho; congruence|].
    exists (Nat.max N1 N2). intros N HN. rewrite H1 by lia. cbn. now rewrite H2 by lia.
  - destruct (Hx ltac:(discriminate)) as [N1 H1]. exists N1. intros N HN. now rewrite H1.
  - destruct (Hx ltac:(discriminate)) as [N1 H1]. exists N1. intros N HN. now rewrite H1.
  - congruence.
  - destruct (Hx ltac:(discriminate)) as [N1 H1]. exists N1. intros N HN. now rewrite H1.
Qed.

Lemma sim_from {A} c (x : outcome A) y y' : (forall N, c <= N -> y' N = y N) -> sim x y -> sim x y'.
Proof.
  intros Hc Hs Ho. destruct (Hs Ho) as [N0 H0]. exists (Nat.max c N0). intros N HN. rewrite Hc, H0 by lia. auto.
Qed.

Lemma sim_shift {A} (x : outcome A) y : sim x y -> sim x (fun N => y (pred N)).
Proof. intros Hs Ho. destruct (Hs Ho) as [N0 H0]. exists (S N0). intros [|N] HN; [lia|]. apply H0. cbn. lia. Qed.

Section Fuel.
Context {T V : Type} (E : env T V).

(** Families of functions over valid inputs. *)
Definition fsim (f : pfun) (f' : nat -> pfun) : Prop := forall i, valid E i -> sim (f i) (fun N => f' N i).

Definition keeps (f : pfun) : Prop := forall i r tr, valid E i -> f i = Done r tr -> valid E (r_rem r).

Lemma run_keeps n m p : keeps (run E n m p).
Proof.
  intros i r tr Hv Hr. pose proof (run_sound E n m p i r tr Hv Hr) as Hs. unfold okres in Hs.
  destruct r as [[v|] rem]; cbn in *; [eapply suffix_valid; [apply Hs|exact Hv]|now subst].
Qed.

Section Loops.
Variables (f : pfun) (f' : nat -> pfun).
Hypothesis Hf : fsim f f'.
Hypothesis Hk : keeps f.

Lemma sim_exactly k : forall j i b, valid E i ->
  sim (exactly_loop f k j i b) (fun N => exactly_loop (f' N) k j i b).
Proof.
  induction k as [|k IH]; intros j i b Hv; cbn [exactly_loop]; [apply sim_refl|].
  apply sim_bind; [now apply Hf|]. intros r tr Hr. pose proof (Hk _ _ _ Hv Hr).
  destruct (r_ok r); [|apply sim_refl]. apply sim_bind; [apply sim_refl|]. intros. now apply IH.
Qed.

Lemma sim_rep k : forall c i b s, valid E i ->
  sim (rep_loop f k i b s) (fun N => rep_loop (f' N) (N - c) i b s).
Proof.
  induction k as [|k IH]; intros c i b s Hv; cbn [rep_loop]; [intros []; reflexivity|].
  eapply (sim_from (S c)) with (y := fun N => bind (f' N i) (fun res => match r_ok res with
      | Some v => bind (b_insert_back b v) (fun b' => rep_loop (f' N) (N - S c) (r_rem res) b' true)
      | None => ret (r_rem res, b, s) end)).
  { intros N HN. replace (N - c) with (S (N - S c)) by lia. reflexivity. }
  apply (sim_bind _ _ _ (fun N res => match r_ok res with
      | Some v => bind (b_insert_back b v) (fun b' => rep_loop (f' N) (N - S c) (r_rem res) b' true)
      | None => ret (r_rem res, b, s) end)); [now apply Hf|]. intros r tr Hr. pose proof (Hk _ _ _ Hv Hr).
  destruct (r_ok r); [|apply sim_refl].
  apply (sim_bind _ (fun _ => b_insert_back b r0) _ (fun N b' => rep_loop (f' N) (N - S c) (r_rem r) b' true)); [apply sim_refl|].
  intros. now apply IH.
Qed.

Lemma sim_delim g g' (Hg : fsim g g') (Hgk : keeps g) pv dv k : forall c r i b, valid E (r_rem r) ->
  sim (delim_loop f g pv dv k r i b) (fun N => delim_loop (f' N) (g' N) pv dv (N - c) r i b).
Proof.
  induction k as [|k IH]; intros c r i b Hv; cbn [delim_loop]; [intros []; reflexivity|].
  destruct (r_ok r) as [v|] eqn:Hr0.
  2: { eapply (sim_from (S c)); [|apply sim_refl]. intros N HN. replace (N - c) with (S (N - S c)) by lia.
       cbn [delim_loop]. now rewrite Hr0. }
  set (b1 := (if pv then ret b else if dv then b_insert_back b v else b_insert_back_first b v)).
  set (b2 := fun w res' b1 => (if dv then ret b1 else if has_value res'
                          then (if pv then b_insert_back b1 w else b_insert_back_second b1 w) else ret b1)).
  apply (sim_from (S c)) with (y := fun N => bind b1 (fun b1 => bind (g' N (r_rem r)) (fun d =>
     match r_ok d with None => ret (r_rem r, b1) | Some w =>
       bind (f' N (r_rem d)) (fun res' => bind (b2 w res' b1) (fun b2 =>
         delim_loop (f' N) (g' N) pv dv (N - S c) res' (r_rem r) b2)) end))).
  { intros N HN. replace (N - c) with (S (N - S c)) by lia. cbn [delim_loop]. now rewrite Hr0. }
  apply (sim_bind _ (fun _ => b1) _ (fun N b1 => bind (g' N (r_rem r)) (fun d =>
     match r_ok d with None => ret (r_rem r, b1) | Some w =>
       bind (f' N (r_rem d)) (fun res' => bind (b2 w res' b1) (fun b2 =>
         delim_loop (f' N) (g' N) pv dv (N - S c) res' (r_rem r) b2)) end))); [apply sim_refl|].
  intros b1' tr1 _.
  apply (sim_bind _ (fun N => g' N (r_rem r)) _ (fun N d =>
     match r_ok d with None => ret (r_rem r, b1') | Some w =>
       bind (f' N (r_rem d)) (fun res' => bind (b2 w res' b1') (fun b2 =>
         delim_loop (f' N) (g' N) pv dv (N - S c) res' (r_rem r) b2)) end)); [now apply Hg|].
  intros d trd Hd. pose proof (Hgk _ _ _ Hv Hd). destruct (r_ok d) as [w|]; [|apply sim_refl].
  apply (sim_bind _ (fun N => f' N (r_rem d)) _ (fun N res' => bind (b2 w res' b1') (fun b2 =>
         delim_loop (f' N) (g' N) pv dv (N - S c) res' (r_rem r) b2))); [now apply Hf|].
  intros r' tr' Hr'. pose proof (Hk _ _ _ H Hr').
  apply (sim_bind _ (fun _ => b2 w r' b1') _ (fun N b2 => delim_loop (f' N) (g' N) pv dv (N - S c) r' (r_rem r) b2)); [apply sim_refl|].
  intros. now apply IH.
Qed.
End Loops.

Section Compound.
Variables (rec : mode -> parser T -> pfun) (rec' : nat -> mode -> parser T -> pfun).
Variable R : parser T -> parser T -> Prop.
Hypothesis Hrec : forall m p p', R p p' -> fsim (rec m p) (fun N => rec' N m p').
Hypothesis Hk : forall m p, keeps (rec m p).

Lemma sim_execute ct u p p' idx i b : R p p' -> valid E i ->
  sim (execute rec ct u p idx (i, b)) (fun N => execute (rec' N) ct u p' idx (i, b)).
Proof.
  intros HR Hv. unfold execute. destruct idx as [k|].
  - apply (sim_bind _ (fun N => rec' N Parse p' i) _ (fun _ res => match r_ok res with
      | None => ret (false, (i, b)) | Some v => bind (store ct u k b v) (fun b' => ret (true, (r_rem res, b'))) end));
      [now apply Hrec|]. intros; apply sim_refl.
  - apply (sim_bind _ (fun N => rec' N Look p' i) _ (fun _ res => ret (has_value res, (r_rem res, b))));
      [now apply Hrec|]. intros; apply sim_refl.
Qed.

Lemma execute_keeps ct u p idx i b x st tr : valid E i -> execute rec ct u p idx (i, b) = Done (x, st) tr -> valid E (fst st).
Proof.
  intros Hv. unfold execute. destruct idx as [k|].
  - destruct (rec Parse p i) as [[[v|] rem] tr0| | | |] eqn:Hr; try discriminate; cbn [bind r_ok r_rem].
    + destruct (store ct u k b v); try discriminate. cbn. intros [= <- <- <-]. cbn. exact (Hk _ _ _ _ _ Hv Hr).
    + cbn. now intros [= <- <- <-].
  - destruct (rec Look p i) as [[[v|] rem] tr0| | | |] eqn:Hr; try discriminate; cbn [bind r_ok r_rem ret has_value];
      intros [= <- <- <-]; exact (Hk _ _ _ _ _ Hv Hr).
Qed.

Lemma sim_or u ps ps' : Forall2 (fun a b => R (fst a) (fst b) /\ snd a = snd b) ps ps' -> forall st, valid E (fst st) ->
  sim (exec_or rec u ps st) (fun N => exec_or (rec' N) u ps' st).
Proof.
  induction 1 as [|[p idx] [p' idx'] ps ps' [HR Hi] _ IH]; intros [i b] Hv; cbn [exec_or]; [apply sim_refl|].
  cbn in HR, Hi. subst idx'.
  apply (sim_bind _ (fun N => execute (rec' N) CChoice u p' idx (i, b)) _
    (fun N '(x, st') => if x : bool then ret (true, st') else exec_or (rec' N) u ps' st')); [now apply sim_execute|].
  intros [[|] st'] tr Hx; [apply sim_refl|]. apply IH. eapply execute_keeps; eauto.
Qed.

Lemma sim_and u ps ps' : Forall2 (fun a b => R (fst a) (fst b) /\ snd a = snd b) ps ps' -> forall st, valid E (fst st) ->
  sim (exec_and rec u ps st) (fun N => exec_and (rec' N) u ps' st).
Proof.
  induction 1 as [|[p idx] [p' idx'] ps ps' [HR Hi] _ IH]; intros [i b] Hv; cbn [exec_and]; [apply sim_refl|].
  cbn in HR, Hi. subst idx'.
  apply (sim_bind _ (fun N => execute (rec' N) CSequence u p' idx (i, b)) _
    (fun N '(x, st') => if x : bool then exec_and (rec' N) u ps' st' else ret (false, st'))); [now apply sim_execute|].
  intros [[|] st'] tr Hx; [|apply sim_refl]. apply IH. eapply execute_keeps; eauto.
Qed.
End Compound.
End Fuel.

(** ** Forgetting names *)

(** [p] without any [named_parser] (detail/parsers/named.h). *)
Fixpoint unname {T} (p : parser T) : parser T :=
  match p with
  | PAnyOf _ | PNoneOf _ | PAllOf _ | PAnything | PEpsilon | PCustom _ => p
  | PChoice q qs => PChoice (unname q) (map unname qs)
  | PSequence q qs => PSequence (unname q) (map unname qs)
  | PMaybe q => PMaybe (unname q)
  | PExactly q n => PExactly (unname q) n
  | POneOrMore q => POneOrMore (unname q)
  | PZeroOrMore q => PZeroOrMore (unname q)
  | PDelimit q d => PDelimit (unname q) (unname d)
  | PIgnore q => PIgnore (unname q)
  | PComplete q => PComplete (unname q)
  | PJoin q => PJoin (unname q)
  | PMap q f => PMap (unname q) f
  | PFilter q f => PFilter (unname q) f
  | PNamed q _ => unname q
  end.

(** The same program with other custom parser bodies. *)
Definition with_bodies {T V} (E : env T V) (B : nat -> parser T) : env T V :=
  {| eqv := eqv E; mem := mem E; fn_ret := fn_ret E; fn_app := fn_app E; ct_ok := ct_ok E; ct_app := ct_app E;
     k_ty := k_ty E; k_val := k_val E; bool_ok := bool_ok E; as_bool := as_bool E;
     cust_body := B; cust_ty := cust_ty E; cust_conv := cust_conv E |}.

Section Names.
Context {T V : Type} (E : env T V) (B : nat -> parser T).
Let E' := with_bodies E B.

Definition same (p p' : parser T) : Prop := unname p = unname p'.
Hypothesis HB : forall c, same (cust_body E c) (B c).

(** Outer names only *)
Fixpoint strip (p : parser T) : parser T := match p with PNamed q _ => strip q | _ => p end.
Fixpoint depth (p : parser T) : nat := match p with PNamed q _ => S (depth q) | _ => 0 end.

Lemma strip_run m p i : forall N, run E' (depth p + N) m p i = run E' N m (strip p) i.
Proof. induction p; intros N; auto. cbn [depth strip]. rewrite <- IHp. reflexivity. Qed.

Lemma strip_same p : unname (strip p) = unname p.
Proof. induction p; auto. Qed.

Lemma strip_head p : match strip p with PNamed _ _ => False | _ => True end.
Proof. induction p; cbn; auto. Qed.

Lemma sim_strip m p (x : outcome presult) i : sim x (fun N => run E' N m (strip p) i) -> sim x (fun N => run E' N m p i).
Proof.
  intros H Ho. destruct (H Ho) as [N0 H0]. exists (depth p + N0). intros N HN.
  replace N with (depth p + (N - depth p)) by lia. rewrite strip_run. apply H0. lia.
Qed.

Lemma same_result p : forall p', same p p' -> result_for E p = result_for E' p'.
Proof.
  assert (H : forall p, result_for E p = result_for E (unname p)).
  { clear p.
    assert (HL : forall ps, Forall (fun p => result_for E p = result_for E (unname p)) ps ->
      map (result_for E) (map unname ps) = map (result_for E) ps).
    { induction 1; cbn; auto. now f_equal. }
    induction p using parser_ind'; cbn [result_for unname]; auto.
    all: try (rewrite <- IHp, HL by auto; reflexivity).
    all: try (rewrite <- IHp; reflexivity). all: try (rewrite <- IHp1, <- IHp2; reflexivity). }
  intros p' Hs. unfold same in Hs. rewrite H, Hs, <- H. reflexivity.
Qed.

Lemma same_map ps ps' : map unname ps = map unname ps' -> Forall2 same ps ps'.
Proof.
  revert ps'. induction ps; intros [|p' ps'] H; try discriminate; constructor; injection H; auto.
Qed.

Lemma same_results ps ps' : Forall2 same ps ps' -> result_fors E ps = result_fors E' ps'.
Proof.
  intros H. unfold result_fors. f_equal. induction H; auto. cbn. f_equal; auto. now apply same_result.
Qed.

Lemma same_in ps ps' : Forall2 same ps ps' -> Forall2 (fun p p' => In p ps /\ same p p') ps ps'.
Proof.
  assert (H : forall all, Forall2 same ps ps' -> incl ps all -> Forall2 (fun p p' => In p all /\ same p p') ps ps').
  { intros all. induction 1; intros Hi; constructor.
    - split; auto. apply Hi. now left.
    - apply IHForall2. intros z Hz. apply Hi. now right. }
  intros HF. apply H; auto. apply incl_refl.
Qed.

Lemma same_combine {A} (R : parser T -> parser T -> Prop) (ps ps' : list (parser T)) : Forall2 R ps ps' -> forall l : list A,
  Forall2 (fun a b => R (fst a) (fst b) /\ snd a = snd b) (combine ps l) (combine ps' l).
Proof. intros H. induction H; intros [|z zs]; cbn; constructor; auto. Qed.

Lemma same_lookahead (R : parser T -> parser T -> Prop) (ps ps' : list (parser T)) : Forall2 R ps ps' ->
  Forall2 (fun a b => R (fst a) (fst b) /\ snd a = snd b) (map (fun p => (p, None : index)) ps) (map (fun p => (p, None)) ps').
Proof. induction 1; cbn; constructor; auto. Qed.

(** With [n] units of fuel, [p] does what any renamed [p'] eventually does. *)
Definition follows (n : nat) (p : parser T) : Prop := forall m p', same p p' ->
  fsim E (run E n m p) (fun N => run E' N m p').

Lemma core p' : exists r, match r with PNamed _ _ => False | _ => True end /\ unname r = unname p' /\
  forall x m i, sim x (fun N => step E' (run E' N) N m r i) -> sim x (fun N => run E' N m p' i).
Proof.
  exists (strip p'). split; [apply strip_head|]. split; [apply strip_same|].
  intros x m i H. apply sim_strip. apply (sim_from 1) with (y := fun N => step E' (run E' (pred N)) (pred N) m (strip p') i).
  - intros [|N] HN; [lia|reflexivity].
  - apply (sim_shift x (fun N => step E' (run E' N) N m (strip p') i)). exact H.
Qed.

Ltac go := first
  [ apply sim_refl
  | apply sim_bind; [|intros ? ? ?]
  | match goal with
    | |- sim (match ?x with _ => _ end) (fun _ => match ?x with _ => _ end) => destruct x
    end ].

Lemma step_follows n p : match p with PJoin _ => False | _ => True end ->
  (forall q, In q (components E p) -> follows n q) -> follows (S n) p.
Proof.
  intros Hj IH m p' Hs i Hv. destruct (core p') as (r & Hh & Hu & Hcore). unfold same in Hs. rewrite <- Hu in Hs.
  destruct p; try (destruct Hj; fail); cbn [components In] in IH; cbn [run].
  17: { apply IH; auto. unfold same. now rewrite <- Hu. }
  all: destruct r; try (cbn in Hs; discriminate); try contradiction; clear Hh Hu; cbn [unname] in Hs;
    try (injection Hs; clear Hs; intros); subst; apply Hcore; cbn [step].
  - apply sim_refl.
  - apply sim_refl.
  - apply sim_refl.
  - apply sim_refl.
  - apply sim_refl.
  - assert (HF : Forall2 same (p :: ps) (r :: ps0)) by (constructor; [auto|now apply same_map]).
    pose proof (same_results _ _ HF) as HR.
    assert (Hrec : forall m0 q q', In q (p :: ps) /\ same q q' -> fsim E (run E n m0 q) (fun N => run E' N m0 q')).
    { intros m0 q q' [Hin Hq]. now apply IH. }
    destruct m; unfold choice_parse, choice_look; rewrite <- HR; destruct (result_fors E (p :: ps)) as [tys|]; try apply sim_refl; cbn zeta.
    + destruct (_ || _); [|apply sim_refl]. apply sim_bind; [|intros [? [? ?]] ? ?; apply sim_refl].
      apply (sim_or E (run E n) (run E') _ Hrec); [intros; apply run_keeps| |exact Hv].
      apply (same_combine (fun q q' => In q (p :: ps) /\ same q q')). now apply same_in.
    + apply sim_bind; [|intros [? [? ?]] ? ?; apply sim_refl].
      apply (sim_or E (run E n) (run E') _ Hrec); [intros; apply run_keeps| |exact Hv].
      apply (same_lookahead (fun q q' => In q (p :: ps) /\ same q q')). now apply same_in.
  - assert (HF : Forall2 same (p :: ps) (r :: ps0)) by (constructor; [auto|now apply same_map]).
    pose proof (same_results _ _ HF) as HR.
    assert (Hrec : forall m0 q q', In q (p :: ps) /\ same q q' -> fsim E (run E n m0 q) (fun N => run E' N m0 q')).
    { intros m0 q q' [Hin Hq]. now apply IH. }
    destruct m; unfold sequence_parse, sequence_look; rewrite <- HR; destruct (result_fors E (p :: ps)) as [tys|]; try apply sim_refl; cbn zeta.
    + apply sim_bind; [|intros [? [? ?]] ? ?; apply sim_refl].
      apply (sim_and E (run E n) (run E') _ Hrec); [intros; apply run_keeps| |exact Hv].
      apply (same_combine (fun q q' => In q (p :: ps) /\ same q q')). now apply same_in.
    + apply sim_bind; [|intros [? [? ?]] ? ?; apply sim_refl].
      apply (sim_and E (run E n) (run E') _ Hrec); [intros; apply run_keeps| |exact Hv].
      apply (same_lookahead (fun q q' => In q (p :: ps) /\ same q q')). now apply same_in.
  - rewrite <- (same_result p r) by assumption. destruct m.
    + destruct (result_for E p); [|apply sim_refl]. unfold maybe_parse.
      apply sim_bind; [apply IH; auto|intros; apply sim_refl].
    + unfold maybe_look. apply sim_bind; [apply IH; auto|intros; apply sim_refl].
  - destruct (n1 =? 0); [apply sim_refl|].
    rewrite <- (same_result p r) by assumption. destruct m.
    + destruct (result_for E p); [|apply sim_refl]. unfold exactly_parse. apply sim_bind; [|intros; apply sim_refl].
      apply (sim_exactly E); [apply IH; auto|apply run_keeps|auto].
    + unfold exactly_look. apply sim_bind; [|intros; apply sim_refl].
      apply (sim_exactly E); [apply IH; auto|apply run_keeps|auto].
  - rewrite <- (same_result p r) by assumption. destruct m.
    + destruct (result_for E p); [|apply sim_refl]. unfold one_or_more_parse.
      apply sim_bind; [|intros [[? ?] ?] ? ?; apply sim_refl].
      eapply (sim_from 0); [|apply (sim_rep E (run E n Parse p) (fun N => run E' N Parse r)) with (c := 0);
        [apply IH; auto|apply run_keeps|auto]]. intros N _. cbn. now rewrite Nat.sub_0_r.
    + unfold one_or_more_look. apply sim_bind; [|intros [[? ?] ?] ? ?; apply sim_refl].
      eapply (sim_from 0); [|apply (sim_rep E (run E n Look p) (fun N => run E' N Look r)) with (c := 0);
        [apply IH; auto|apply run_keeps|auto]]. intros N _. cbn. now rewrite Nat.sub_0_r.
  - rewrite <- (same_result p r) by assumption. destruct m.
    + destruct (result_for E p); [|apply sim_refl]. unfold zero_or_more_parse.
      apply sim_bind; [|intros [[? ?] ?] ? ?; apply sim_refl].
      eapply (sim_from 0); [|apply (sim_rep E (run E n Parse p) (fun N => run E' N Parse r)) with (c := 0);
        [apply IH; auto|apply run_keeps|auto]]. intros N _. cbn. now rewrite Nat.sub_0_r.
    + unfold zero_or_more_look. apply sim_bind; [|intros [[? ?] ?] ? ?; apply sim_refl].
      eapply (sim_from 0); [|apply (sim_rep E (run E n Look p) (fun N => run E' N Look r)) with (c := 0);
        [apply IH; auto|apply run_keeps|auto]]. intros N _. cbn. now rewrite Nat.sub_0_r.
  - rewrite <- (same_result p1 r1), <- (same_result p2 r2) by assumption. destruct m.
    + destruct (result_for E p1) as [tp|], (result_for E p2) as [td|]; try apply sim_refl. unfold delimit_parse.
      apply sim_bind; [apply IH; auto|]. intros a tr Ha. pose proof (run_keeps E n Parse p1 i a tr Hv Ha).
      destruct (has_value a); [|apply sim_refl]. apply sim_bind; [|intros [? ?] ? ?; apply sim_refl].
      eapply (sim_from 0); [|apply (sim_delim E (run E n Parse p1) (fun N => run E' N Parse r1)) with (c := 0) (g' := fun N => run E' N Parse r2);
        [apply IH; auto|apply run_keeps|apply IH; auto|apply run_keeps|auto]]. intros N _. cbn. now rewrite Nat.sub_0_r.
    + unfold delimit_look.
      apply sim_bind; [apply IH; auto|]. intros a tr Ha. pose proof (run_keeps E n Look p1 i a tr Hv Ha).
      destruct (has_value a); [|apply sim_refl]. apply sim_bind; [|intros [? ?] ? ?; apply sim_refl].
      eapply (sim_from 0); [|apply (sim_delim E (run E n Look p1) (fun N => run E' N Look r1)) with (c := 0) (g' := fun N => run E' N Look r2);
        [apply IH; auto|apply run_keeps|apply IH; auto|apply run_keeps|auto]]. intros N _. cbn. now rewrite Nat.sub_0_r.
  - apply IH; auto.
  - unfold complete_run. apply sim_bind; [apply IH; auto|intros; apply sim_refl].
  - destruct m; [|apply IH; auto]. rewrite <- (same_result (PMap p f0) (PMap r f0)) by (unfold same; cbn; congruence).
    destruct (result_for E (PMap p f0)); [|apply sim_refl]. unfold map_parse.
    apply sim_bind; [apply IH; auto|intros; apply sim_refl].
  - destruct m; [|apply IH; auto]. rewrite <- (same_result (PFilter p f0) (PFilter r f0)) by (unfold same; cbn; congruence).
    destruct (result_for E (PFilter p f0)); [|apply sim_refl]. unfold filter_parse.
    apply sim_bind; [apply IH; auto|intros; apply sim_refl].
  - destruct m; [|apply IH; auto; apply HB]. unfold custom_parse.
    apply sim_bind; [apply IH; auto; apply HB|intros; apply sim_refl].
Qed.

Lemma join_generic_follows n q m q' i : follows n q -> same q q' -> valid E i ->
  sim (join_generic E (run E n) m q i) (fun N => join_generic E' (run E' N) m q' i).
Proof.
  intros Hf Hs Hv. unfold join_generic. destruct m; [|now apply Hf].
  rewrite <- (same_result q q') by auto. destruct (result_for E q); [|apply sim_refl].
  destruct (joinable t); [|apply sim_refl]. unfold join_parse. apply sim_bind; [now apply Hf|intros; apply sim_refl].
Qed.

Lemma join_general q' m i (x : outcome presult) : valid E i ->
  sim x (fun N => join_generic E' (run E' N) m q' i) -> sim x (fun N => run E' N m (PJoin q') i).
Proof.
  intros Hv H Ho. destruct (H Ho) as [N0 H0].
  assert (Hg : general_join E' m q' i x) by (split; [auto|exists N0; apply H0; lia]).
  apply (proj1 (C22_fast_path_is_general_join E' m q' i Hv)) in Hg. now apply evals_ge.
Qed.

Lemma basic_follows arr b n : b = PAnyOf arr \/ b = PNoneOf arr \/ b = PAllOf arr -> follows n b.
Proof.
  intros Hb. destruct n as [|n]; [intros m p' _ i _ []; reflexivity|].
  apply step_follows; destruct Hb as [-> | [-> | ->]]; cbn; auto; contradiction.
Qed.

Lemma fast_follows q n : has_fast_path q -> follows n q.
Proof.
  intros (b & (arr & Hb) & Hq). destruct n as [|n]; [intros m p' _ i _ []; reflexivity|].
  pose proof (basic_follows arr b n Hb).
  apply step_follows; destruct Hq as [-> | [-> | [-> | (k & Hk & ->)]]]; cbn; auto; intros ? [<-|[]]; auto.
Qed.

Theorem all_follow n : forall p, follows n p.
Proof.
  induction n as [|n IH]; intros p; [intros m p' _ i _ []; reflexivity|].
  destruct p; try (apply step_follows; auto; exact I).
  intros m p' Hs i Hv. apply sim_strip. pose proof (strip_head p') as Hh. unfold same in Hs. rewrite <- (strip_same p') in Hs.
  destruct (strip p') as [| | | | | | | | | | | | | |r| | | |]; try (cbn in Hs; discriminate); try contradiction. cbn in Hs. injection Hs as Hs.
  apply join_general; auto. cbn [run step]. destruct (join_special E p n) as [f|] eqn:Hj.
  - assert (Hq : has_fast_path p) by (eapply special_fast; eauto).
    intros Ho. assert (He : evals E m (PJoin p) i (f m i)).
    { split; auto. exists (S n). cbn [run step]. now rewrite Hj. }
    apply (proj1 (C22_fast_path_is_general_join E m p i Hv)) in He as [_ [k Hk]].
    rewrite <- Hk in Ho |- *. now apply (join_generic_follows k p m r i (fast_follows p k Hq)).
  - apply join_generic_follows; auto.
Qed.
End Names.
