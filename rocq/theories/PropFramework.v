(** * The test framework: results, registration, hashes, exit status, list of tests (C63-C67) *)

From Coq Require Import String Ascii List Arith NArith Bool Lia Permutation Sorting.Sorted.
From Verif Require Import Framework.
Import ListNotations.
Open Scope string_scope.
Open Scope list_scope.

(** ** Specification: what happens in a test *)

(** An assertion that is executed: its value, message and place *)
Definition event : Type := bool * string * location.

Inductive ending := Ends | Returns | Raises.

(** The assertions executed in a function, with those in the functions it calls and without those
    of the tests it runs; and how it ends: at its end, by the return of a failed assertion, or by
    an exception. *)
Inductive happens : list stmt -> list event -> ending -> Prop :=
| H_nil : happens [] [] Ends
| H_true m l r evs e : happens r evs e -> happens (SAssert true m l :: r) ((true, m, l) :: evs) e
| H_false m l r : happens (SAssert false m l :: r) [(false, m, l)] Returns
| H_call b r evs1 e1 evs2 e2 : happens b evs1 e1 -> e1 <> Raises -> happens r evs2 e2 ->
    happens (SCall b :: r) (evs1 ++ evs2) e2
| H_call_raises b r evs : happens b evs Raises -> happens (SCall b :: r) evs Raises
| H_try b r evs1 e1 evs2 e2 : happens b evs1 e1 -> e1 <> Returns -> happens r evs2 e2 ->
    happens (STry b :: r) (evs1 ++ evs2) e2
| H_try_returns b r evs : happens b evs Returns -> happens (STry b :: r) evs Returns
| H_run n b r evs1 e1 evs2 e2 : happens b evs1 e1 -> e1 <> Raises -> happens r evs2 e2 ->
    happens (SRun n b :: r) evs2 e2
| H_run_raises n b r evs : happens b evs Raises -> happens (SRun n b :: r) [] Raises
| H_throw r : happens (SThrow :: r) [] Raises.

Definition holds (ev : event) : Prop := fst (fst ev) = true.

(** The failed assertions, as errors *)
Definition failed (evs : list event) : list error :=
  map (fun ev => Err RunTime Fatal (snd (fst ev)) (snd ev)) (filter (fun ev : event => negb (fst (fst ev))) evs).

(** Induction over statements *)
Section StmtInd.
Variable P : stmt -> Prop.
Hypothesis h_assert : forall c m l, P (SAssert c m l).
Hypothesis h_call : forall b, Forall P b -> P (SCall b).
Hypothesis h_try : forall b, Forall P b -> P (STry b).
Hypothesis h_run : forall n b, Forall P b -> P (SRun n b).
Hypothesis h_throw : P SThrow.
Fixpoint stmt_ind' (s : stmt) : P s :=
  let go := fix go (l : list stmt) : Forall P l :=
    match l with [] => Forall_nil P | x :: r => @Forall_cons _ P x r (stmt_ind' x) (go r) end in
  match s with
  | SAssert c m l => h_assert c m l
  | SCall b => h_call b (go b)
  | STry b => h_try b (go b)
  | SRun n b => h_run n b (go b)
  | SThrow => h_throw
  end.
End StmtInd.

Lemma body_ind (P : list stmt -> Prop) :
  P [] ->
  (forall c m l r, P r -> P (SAssert c m l :: r)) ->
  (forall b r, P b -> P r -> P (SCall b :: r)) ->
  (forall b r, P b -> P r -> P (STry b :: r)) ->
  (forall n b r, P b -> P r -> P (SRun n b :: r)) ->
  (forall r, P r -> P (SThrow :: r)) ->
  forall b, P b.
Proof.
  intros H0 H1 H2 H3 H4 H5.
  assert (Hs : forall s, forall r, P r -> P (s :: r)).
  { intros s. induction s using stmt_ind'; intros r Hr; auto.
    all: assert (P b) by (clear Hr; induction H; auto); auto. }
  induction b; auto.
Qed.

(** Every function has exactly one course. *)
Lemma happens_total b : exists evs e, happens b evs e.
Proof.
  induction b as [|c m l r [evs [e H]]|b r [evs1 [e1 H1]] [evs2 [e2 H2]]|b r [evs1 [e1 H1]] [evs2 [e2 H2]]|n b r [evs1 [e1 H1]] [evs2 [e2 H2]]|r _] using body_ind.
  - repeat eexists. constructor.
  - destruct c; repeat eexists; constructor; eauto.
  - destruct e1; repeat eexists; try (eapply H_call; eauto; discriminate). apply H_call_raises; eauto.
  - destruct e1; repeat eexists; try (eapply H_try; eauto; discriminate). apply H_try_returns; eauto.
  - destruct e1; repeat eexists; try (eapply H_run; eauto; discriminate). eapply H_run_raises; eauto.
  - repeat eexists. constructor.
Qed.

Lemma happens_unique b : forall evs e evs' e', happens b evs e -> happens b evs' e' -> evs = evs' /\ e = e'.
Proof.
  induction b as [|c m l r IH|b r IH1 IH2|b r IH1 IH2|n b r IH1 IH2|r _] using body_ind; intros evs e evs' e' H H';
    inversion H; subst; inversion H'; subst; auto;
    try match goal with A : happens b _ _, B : happens b _ _ |- _ => destruct (IH1 _ _ _ _ A B); subst end;
    try match goal with A : happens r _ _, B : happens r _ _ |- _ => destruct (IH2 _ _ _ _ A B); subst end;
    auto; try congruence.
  match goal with A : happens r _ _, B : happens r _ _ |- _ => destruct (IH _ _ _ _ A B); subst end. auto.
Qed.

(** ** C63: the result of a test *)

Lemma sappend_assoc (a b c : string) : ((a ++ b) ++ c = a ++ (b ++ c))%string.
Proof. induction a; cbn; congruence. Qed.
Lemma sappend_nil (a : string) : (a ++ "" = a)%string.
Proof. induction a; cbn; congruence. Qed.

Lemma update_last {A} (o : list A) x f : update (List.length o) f (o ++ [x]) = o ++ [f x].
Proof. induction o; cbn; congruence. Qed.
Lemma nth_last {A} (o : list A) x d : nth (List.length o) (o ++ [x]) d = x.
Proof. induction o; cbn; auto. Qed.

Definition noted (evs : list event) (r : tresult) : tresult :=
  TResult (tr_name r) (tr_checks r + List.length evs) (tr_errors r ++ failed evs).

Lemma noted_app a b r : noted b (noted a r) = noted (a ++ b) r.
Proof. unfold noted, failed; cbn. rewrite app_length, filter_app, map_app, app_assoc. f_equal. lia. Qed.

Lemma noted_nil r : noted [] r = r.
Proof. destruct r; unfold noted, failed; cbn. rewrite Nat.add_0_r, app_nil_r. auto. Qed.

Definition finish (w : world) (e : ending) : fin (world * bool) :=
  match e with Ends => Go (w, false) | Returns => Go (w, true) | Raises => Throws w end.

Lemma exec_stmt_call b w : exec_stmt (SCall b) w = bind (exec_body b w) (fun x => Go (fst x, false)).
Proof. reflexivity. Qed.
Lemma exec_stmt_try b w : exec_stmt (STry b) w = match exec_body b w with Throws w' => Go (w', false) | x => x end.
Proof. reflexivity. Qed.
Lemma exec_stmt_run n b w : exec_stmt (SRun n b) w =
  bind (run_test (Test n b) w) (fun x => Go (fst x, false)).
Proof.
  unfold run_test. cbn [t_func t_name].
  change (exec_stmt (SRun n b) w) with
    (let k := List.length (w_objs w) in
      match exec_body b (World (w_objs w ++ [TResult n 0 []]) (Some k) (w_out w)) with
      | Go (w1, _) => Go (leave (w_cur w) (put (print_brief_test (nth k (w_objs w1) (TResult n 0 []))) w1), false)
      | Throws w1 => Throws (leave (w_cur w) w1)
      | NullDeref => NullDeref
      end). cbn zeta.
  now destruct (exec_body _ _) as [[w1 x]| |].
Qed.

Lemma body_course b : forall o r c out evs e, happens b evs e -> c = Some (List.length o) ->
  exists out', exec_body b (World (o ++ [r]) c out) = finish (World (o ++ [noted evs r]) c (out ++ out')) e.
Proof.
  induction b as [|c0 m l rest IH|b rest IH1 IH2|b rest IH1 IH2|n b rest IH1 IH2|rest _] using body_ind;
    intros o r c out evs e H ->; inversion H; subst.
  - exists "". cbn. now rewrite noted_nil, sappend_nil.
  - match goal with A : happens rest _ _ |- _ => edestruct (IH o (noted [(true, m, l)] r)) as [out' E]; [exact A|reflexivity|] end.
    exists out'. cbn. rewrite update_last.
    unfold noted at 1 in E; cbn in E. rewrite app_nil_r, Nat.add_1_r in E. rewrite E.
    now rewrite noted_app.
  - exists "". cbn. rewrite !update_last. unfold noted; cbn.
    now rewrite sappend_nil, Nat.add_1_r.
  - match goal with A : happens b _ _ |- _ => edestruct (IH1 o r) as [out1 E1]; [exact A|reflexivity|] end.
    match goal with A : happens rest _ _ |- _ => edestruct (IH2 o (noted evs1 r)) as [out2 E2]; [exact A|reflexivity|] end.
    exists (out1 ++ out2)%string. cbn [exec_body]. rewrite exec_stmt_call, E1.
    destruct e1; try congruence; cbn; rewrite E2, noted_app, sappend_assoc; reflexivity.
  - match goal with A : happens b _ _ |- _ => edestruct (IH1 o r) as [out1 E1]; [exact A|reflexivity|] end.
    exists out1. cbn [exec_body]. rewrite exec_stmt_call, E1. reflexivity.
  - match goal with A : happens b _ _ |- _ => edestruct (IH1 o r) as [out1 E1]; [exact A|reflexivity|] end.
    match goal with A : happens rest _ _ |- _ => edestruct (IH2 o (noted evs1 r)) as [out2 E2]; [exact A|reflexivity|] end.
    exists (out1 ++ out2)%string. cbn [exec_body]. rewrite exec_stmt_try, E1.
    destruct e1; try congruence; cbn; rewrite E2, noted_app, sappend_assoc; reflexivity.
  - match goal with A : happens b _ _ |- _ => edestruct (IH1 o r) as [out1 E1]; [exact A|reflexivity|] end.
    exists out1. cbn [exec_body]. rewrite exec_stmt_try, E1. reflexivity.
  - match goal with A : happens b _ _ |- _ => edestruct (IH1 (o ++ [r]) (TResult n 0 [])) as [out1 E1]; [exact A|reflexivity|] end.
    match goal with A : happens rest _ _ |- _ => pose proof (fun out => IH2 o r _ out _ _ A eq_refl) as E2 end.
    cbn [exec_body]. rewrite exec_stmt_run. unfold run_test. cbn [t_func t_name w_objs w_out w_cur]. rewrite E1.
    destruct e1; try congruence; cbn; rewrite nth_last; unfold leave, put; cbn; rewrite removelast_last;
      edestruct E2 as [out2 E2']; rewrite E2', !sappend_assoc; eexists; reflexivity.
  - match goal with A : happens b _ _ |- _ => edestruct (IH1 (o ++ [r]) (TResult n 0 [])) as [out1 E1]; [exact A|reflexivity|] end.
    cbn [exec_body]. rewrite exec_stmt_run. unfold run_test. cbn [t_func t_name w_objs w_out w_cur]. rewrite E1.
    cbn. unfold leave; cbn. rewrite removelast_last, noted_nil. eexists; reflexivity.
  - exists "". cbn. now rewrite noted_nil, sappend_nil.
Qed.

(** Whatever tests are being run around it, the result of a test that raises nothing has its name,
    counts the assertions executed in it and has one error for each of them that failed, in order,
    with its message and place; the results of the tests around it and the current result are as
    they were. *)
Theorem C63_own_assertions t w evs e : happens (t_func t) evs e -> e <> Raises ->
  exists out, run_test t w =
    Go (World (w_objs w) (w_cur w) (w_out w ++ out), TResult (t_name t) (List.length evs) (failed evs)).
Proof.
  intros H He. unfold run_test. destruct w as [o c out].
  destruct (body_course (t_func t) o (TResult (t_name t) 0 []) _ out _ _ H eq_refl) as [out' E].
  cbn [w_objs w_out w_cur]. rewrite E.
  destruct e; try congruence; cbn; rewrite nth_last; unfold leave, put; cbn; rewrite removelast_last, sappend_assoc;
    eexists; reflexivity.
Qed.

(** An exception in a test leaves it, and the results of the tests around it and the current
    result are as they were. *)
Theorem C63_exception t w evs : happens (t_func t) evs Raises ->
  exists out, run_test t w = Throws (World (w_objs w) (w_cur w) (w_out w ++ out)).
Proof.
  intros H. unfold run_test. destruct w as [o c out].
  destruct (body_course (t_func t) o (TResult (t_name t) 0 []) _ out _ _ H eq_refl) as [out' E].
  cbn [w_objs w_out w_cur]. rewrite E. cbn. unfold leave; cbn. rewrite removelast_last. eexists; reflexivity.
Qed.

(** Every test has exactly one course, so that the two theorems say what [Test::run] does in all cases. *)
Theorem C63_one_course b : exists evs e, happens b evs e /\ forall evs' e', happens b evs' e' -> evs' = evs /\ e' = e.
Proof.
  destruct (happens_total b) as [evs [e H]]. exists evs, e. split; auto.
  intros evs' e' H'. now destruct (happens_unique _ _ _ _ _ H' H).
Qed.

Definition here (n : nat) : location := Loc "tests.cpp" n.

(** A failed assertion in a helper returns from the helper only; the test goes on; the assertion
    of the test run inside is not counted; after the exception of another, caught, the assertions
    are again those of this test. *)
Definition sample_test : test := Test "outer"
  [ SAssert true "a" (here 1);
    SCall [SAssert false "b" (here 2); SAssert true "not reached" (here 3)];
    SRun "inner" [SAssert false "c" (here 4)];
    STry [SRun "raising" [SAssert false "d" (here 5)]; SRun "raising" [SThrow]; SAssert false "not reached" (here 6)];
    SAssert false "e" (here 7);
    SAssert true "not reached" (here 8) ].
Example C63_case : happens (t_func sample_test) [(true, "a", here 1); (false, "b", here 2); (false, "e", here 7)] Returns /\
  (exists w, run_test sample_test (World [TResult "around" 2 []] (Some 0) "") =
    Go (w, TResult "outer" 3 [Err RunTime Fatal "b" (here 2); Err RunTime Fatal "e" (here 7)]) /\
    w_objs w = [TResult "around" 2 []] /\ w_cur w = Some 0).
Proof.
  split.
  - cbn. apply H_true. apply (H_call _ _ [(false, "b", here 2)] Returns [(false, "e", here 7)]);
      [apply H_false|discriminate|].
    eapply H_run; [apply H_false|discriminate|].
    apply (H_try _ _ [] Raises [(false, "e", here 7)]); [|discriminate|apply H_false].
    eapply H_run; [apply H_false|discriminate|]. eapply H_run_raises, H_throw.
  - eexists. split; [vm_compute; reflexivity|]. split; reflexivity.
Qed.
(** Outside of a test an assertion goes through a null pointer. *)
Example C63_case_outside : exec_body [SAssert true "a" (here 1)] start_world = NullDeref.
Proof. reflexivity. Qed.

(** ** C64: registration *)

(** Specification: a test is declared in a program, registered with a runner *)
Definition declared (p : program) (f n : string) (b : list stmt) : Prop := In (DTest f n b) (concat p).
Definition registered (r : runner) (f n : string) (b : list stmt) : Prop :=
  exists ts, In (f, ts) r /\ In (Test n b) ts.

Definition before (a b : string) : Prop := String.compare a b = Lt.

(** The map is walked in the order of the names; no fixture has two tests of one name. *)
Definition well_formed (r : runner) : Prop :=
  StronglySorted before (map fst r) /\ Forall (fun nf => NoDup (map t_name (snd nf))) r.

Lemma compare_trans a : forall b c, before a b -> before b c -> before a c.
Proof.
  unfold before. induction a as [|x a IH]; intros [|y b] [|z c]; cbn; try discriminate; auto.
  unfold Ascii.compare.
  destruct (N.compare_spec (N_of_ascii x) (N_of_ascii y)) as [E1|L1|L1]; try discriminate;
    destruct (N.compare_spec (N_of_ascii y) (N_of_ascii z)) as [E2|L2|L2]; try discriminate; intros H1 H2.
  - rewrite E1, E2, N.compare_refl. eauto.
  - rewrite E1. apply N.compare_lt_iff in L2. now rewrite L2.
  - rewrite <- E2. apply N.compare_lt_iff in L1. now rewrite L1.
  - assert (L : (N_of_ascii x < N_of_ascii z)%N) by lia. apply N.compare_lt_iff in L. now rewrite L.
Qed.

Lemma compare_refl a : String.compare a a = Eq.
Proof. induction a; cbn; auto. unfold Ascii.compare. now rewrite N.compare_refl. Qed.

Lemma sorted_nodup l : StronglySorted before l -> NoDup l.
Proof.
  induction 1 as [|x l Hs IH Hf]; constructor; auto. intros Hin.
  rewrite Forall_forall in Hf. specialize (Hf _ Hin). unfold before in Hf. rewrite compare_refl in Hf. discriminate.
Qed.

Lemma nodup_key {A} (r : list (string * A)) n a b : NoDup (map fst r) -> In (n, a) r -> In (n, b) r -> a = b.
Proof.
  induction r as [|[m c] r IH]; cbn; [tauto|]. intros Hn. inversion Hn as [|x y Hm Hr]; subst.
  intros [[= -> ->]|Ha] [[= E]|Hb]; try congruence; auto.
  - exfalso. apply Hm. apply (in_map fst) in Hb. auto.
  - subst. exfalso. apply Hm. apply (in_map fst) in Ha. auto.
Qed.

Lemma find_fixture_in r n f : NoDup (map fst r) -> find_fixture n r = Some f <-> In (n, f) r.
Proof.
  intros Hn. unfold find_fixture. split.
  - destruct (find _ r) as [[m g]|] eqn:E; [|discriminate]. cbn. intros [= <-].
    apply find_some in E. cbn in E. destruct E as [E1 E2]. apply String.eqb_eq in E2. now subst.
  - intros H. destruct (find _ r) as [[m g]|] eqn:E.
    + cbn. apply find_some in E. cbn in E. destruct E as [E1 E2]. apply String.eqb_eq in E2. subst.
      f_equal. eapply nodup_key; eauto.
    + exfalso. apply (find_none _ _ E) in H. cbn in H. now rewrite String.eqb_refl in H.
Qed.

Lemma find_fixture_none r n : find_fixture n r = None <-> ~ In n (map fst r).
Proof.
  unfold find_fixture. split.
  - destruct (find _ r) as [[m g]|] eqn:E; [discriminate|]. intros _ H. apply in_map_iff in H. destruct H as [[m g] [E1 E2]].
    apply (find_none _ _ E) in E2. cbn in *. subst. now rewrite String.eqb_refl in E2.
  - intros H. destruct (find _ r) as [[m g]|] eqn:E; auto. exfalso. apply find_some in E. cbn in E.
    destruct E as [E1 E2]. apply String.eqb_eq in E2. subst. apply H. apply (in_map fst) in E1. auto.
Qed.

Lemma find_test_in f t : NoDup (map t_name f) -> In t f -> find_test (t_name t) f = Some t.
Proof.
  unfold find_test. induction f as [|x f IH]; cbn; [tauto|]. intros Hn. inversion Hn as [|y z Hx Hf]; subst. intros [->|Ht].
  - now rewrite String.eqb_refl.
  - destruct (String.eqb_spec (t_name x) (t_name t)) as [E|E]; auto.
    exfalso. apply Hx. rewrite E. now apply in_map.
Qed.

Lemma add_fixture_keys n r x : In x (map fst (add_fixture n r)) <-> x = n \/ In x (map fst r).
Proof.
  induction r as [|[m f] r IH]; cbn; [intuition congruence|].
  destruct (String.compare n m) eqn:E; cbn; try (intuition congruence).
  apply String.compare_eq_iff in E. subst. intuition congruence.
Qed.

Lemma add_fixture_sorted n r : StronglySorted before (map fst r) -> StronglySorted before (map fst (add_fixture n r)).
Proof.
  induction r as [|[m f] r IH]; cbn; intros H; [repeat constructor|].
  inversion H; subst. destruct (String.compare n m) eqn:E; cbn; auto.
  - constructor; auto. constructor; auto. rewrite Forall_forall in *. intros x Hx. eapply compare_trans; [exact E|auto].
  - constructor; auto. rewrite Forall_forall in *. intros x Hx. apply add_fixture_keys in Hx. destruct Hx as [->|Hx]; auto.
    unfold before. rewrite String.compare_antisym, E. reflexivity.
Qed.

Lemma add_fixture_in n r m ts : In (m, ts) (add_fixture n r) -> In (m, ts) r \/ (m = n /\ ts = []).
Proof.
  induction r as [|[k f] r IH]; cbn; [intuition congruence|].
  destruct (String.compare n k); cbn; intuition congruence.
Qed.
Lemma add_fixture_keeps n r x : In x r -> In x (add_fixture n r).
Proof.
  induction r as [|[k f] r IH]; cbn; [tauto|].
  destruct (String.compare n k); cbn; intuition.
Qed.

Lemma add_to_fixture_keys n t r r' : add_to_fixture n t r = Some r' -> map fst r' = map fst r.
Proof.
  revert r'. induction r as [|[m f] r IH]; cbn; intros r'; [discriminate|].
  destruct (String.eqb m n); [intros [= <-]; auto|].
  destruct (add_to_fixture n t r); cbn; [|discriminate]. intros [= <-]. cbn. f_equal. auto.
Qed.

Lemma add_to_fixture_some n t r : In n (map fst r) -> exists r', add_to_fixture n t r = Some r'.
Proof.
  induction r as [|[m f] r IH]; cbn; [tauto|]. intros H.
  destruct (String.eqb_spec m n) as [E|E]; [eauto|]. destruct H as [H|H]; [congruence|].
  destruct (IH H) as [r' ->]. cbn. eauto.
Qed.

Lemma add_to_fixture_in n t r r' : NoDup (map fst r) -> add_to_fixture n t r = Some r' ->
  forall m ts, In (m, ts) r' <-> (m <> n /\ In (m, ts) r) \/ (m = n /\ exists ts0, In (n, ts0) r /\ ts = add_test t ts0).
Proof.
  revert r'. induction r as [|[k f] r IH]; cbn; intros r' Hn; [discriminate|]. inversion Hn; subst.
  destruct (String.eqb_spec k n) as [E|E].
  - subst. intros [= <-] m ts. cbn. split.
    + intros [[= <- <-]|H]; [right; eauto|]. left. split; auto. intros ->. apply H1. apply (in_map fst) in H. auto.
    + intros [[A [[= B]|B]]|[-> [ts0 [[[= <-]|B] ->]]]]; auto.
      * congruence.
      * exfalso. apply H1. apply (in_map fst) in B. auto.
  - destruct (add_to_fixture n t r) as [r1|] eqn:E1; cbn; [|discriminate]. intros [= <-] m ts. cbn.
    rewrite (IH _ H2 eq_refl). split.
    + intros [[= <- <-]|[[A B]|[-> [ts0 [B ->]]]]]; auto. right. eauto.
    + intros [[A [[= <- <-]|B]]|[-> [ts0 [[[= B]|B] ->]]]]; auto; try congruence. right. right. eauto.
Qed.

Lemma add_test_in t f x : In x (add_test t f) -> In x f \/ x = t.
Proof.
  unfold add_test. destruct (existsb _ f); [auto|]. rewrite in_app_iff. cbn. intuition.
Qed.
Lemma add_test_keeps t f x : In x f -> In x (add_test t f).
Proof. unfold add_test. destruct (existsb _ f); auto. rewrite in_app_iff. auto. Qed.
Lemma add_test_new t f : ~ In (t_name t) (map t_name f) -> In t (add_test t f).
Proof.
  intros H. unfold add_test. destruct (existsb _ f) eqn:E.
  - apply existsb_exists in E. destruct E as [x [E1 E2]]. apply String.eqb_eq in E2. exfalso. apply H. rewrite <- E2. now apply in_map.
  - rewrite in_app_iff. cbn. auto.
Qed.
Lemma add_test_nodup t f : NoDup (map t_name f) -> NoDup (map t_name (add_test t f)).
Proof.
  intros H. unfold add_test. destruct (existsb _ f) eqn:E; auto. rewrite map_app. cbn.
  eapply Permutation_NoDup; [apply Permutation_cons_append|]. constructor; auto. intros Hin.
  apply in_map_iff in Hin. destruct Hin as [x [E1 E2]]. enough (existsb (fun t' => String.eqb (t_name t') (t_name t)) f = true) by congruence.
  apply existsb_exists. exists x. split; auto. now apply String.eqb_eq.
Qed.

(** Each test comes after a fixture of its name. *)
Fixpoint ready (ks : list string) (l : list decl) : Prop :=
  match l with
  | [] => True
  | DFixture n :: r => ready (n :: ks) r
  | DTest f n b :: r => In f ks /\ ready ks r
  end.

Definition test_names (l : list decl) : list (string * string) :=
  flat_map (fun d => match d with DFixture _ => [] | DTest f n _ => [(f, n)] end) l.

Lemma in_test_names f n l : In (f, n) (test_names l) <-> exists b, In (DTest f n b) l.
Proof.
  unfold test_names. rewrite in_flat_map. split.
  - intros [[m|f' n' b] [H1 H2]]; cbn in H2; [tauto|]. destruct H2 as [[= -> ->]|[]]. eauto.
  - intros [b H]. exists (DTest f n b). cbn. auto.
Qed.


Lemma ready_more l : forall ks ks', (forall x, In x ks -> In x ks') -> ready ks l -> ready ks' l.
Proof.
  induction l as [|[k|f n b] l IH]; intros ks ks' H; cbn; auto.
  - apply IH. intros x [->|Hx]; cbn; auto.
  - intros [H1 H2]. split; auto. eapply IH; eauto.
Qed.

Lemma startup_spec l : forall r, well_formed r -> ready (map fst r) l -> NoDup (test_names l) ->
  (forall f n b b', In (DTest f n b) l -> ~ registered r f n b') ->
  exists r', startup l r = Some r' /\ well_formed r' /\
    (forall f n b, registered r' f n b <-> registered r f n b \/ In (DTest f n b) l) /\
    (forall f, In f (map fst r') <-> In f (map fst r) \/ In (DFixture f) l).
Proof.
  induction l as [|[m|f n b] l IH]; intros r [Hs Hu] Hr Hd Hnew; cbn [startup initialise].
  - exists r. split; auto. split; [split; auto|]. split; intros; cbn; tauto.
  - assert (Hreg : forall f n b, registered (add_fixture m r) f n b <-> registered r f n b).
    { intros f n b. split.
      - intros [ts [H1 H2]]. apply add_fixture_in in H1. destruct H1 as [H1|[_ ->]]; [exists ts; auto|destruct H2].
      - intros [ts [H1 H2]]. exists ts. split; auto. now apply add_fixture_keeps. }
    destruct (IH (add_fixture m r)) as [r' [E [Hw [H1 H2]]]].
    + split; [now apply add_fixture_sorted|]. rewrite Forall_forall in *. intros [k ts] Hin.
      apply add_fixture_in in Hin. destruct Hin as [Hin|[_ ->]]; [exact (Hu _ Hin)|constructor].
    + cbn in Hr. eapply ready_more; [|exact Hr]. intros x Hx. apply add_fixture_keys. cbn in Hx. intuition congruence.
    + exact Hd.
    + intros f n b b' H. rewrite Hreg. eapply Hnew. right. exact H.
    + exists r'. split; auto. split; auto. split.
      * intros f n b. rewrite H1, Hreg. cbn. intuition congruence.
      * intros f. rewrite H2, add_fixture_keys. cbn. intuition congruence.
  - destruct Hr as [Hk Hr]. destruct (add_to_fixture_some f (Test n b) r Hk) as [r1 E1]. rewrite E1.
    pose proof (sorted_nodup _ Hs) as Hn.
    pose proof (add_to_fixture_in _ _ _ _ Hn E1) as Hin.
    pose proof (add_to_fixture_keys _ _ _ _ E1) as Hkeys.
    assert (Hreg : forall f' n' b', registered r1 f' n' b' <-> registered r f' n' b' \/ (f', n', b') = (f, n, b)).
    { intros f' n' b'. split.
      - intros [ts [H1 H2]]. apply Hin in H1. destruct H1 as [[_ H1]|[-> [ts0 [H1 ->]]]]; [left; exists ts; auto|].
        apply add_test_in in H2. destruct H2 as [H2|H2]; [left; exists ts0; auto|right; congruence].
      - intros [[ts [H1 H2]]|[= -> -> ->]].
        + destruct (String.string_dec f' f) as [->|Hne].
          * exists (add_test (Test n b) ts). split; [apply Hin; right; eauto|]. now apply add_test_keeps.
          * exists ts. split; auto. apply Hin. auto.
        + apply in_map_iff in Hk. destruct Hk as [[f0 ts] [E0 Hts]]. cbn in E0. subst f0.
          exists (add_test (Test n b) ts). split; [apply Hin; right; eauto|].
          apply add_test_new. intros Hx. apply in_map_iff in Hx. destruct Hx as [[n0 b0] [E0 Hx]]. cbn in E0. subst n0.
          apply (Hnew f n b b0); [left; auto|]. exists ts. auto. }
    cbn in Hd. inversion Hd as [|x y Hd1 Hd2]; subst.
    destruct (IH r1) as [r' [E [Hw [H1 H2]]]].
    + split; [rewrite Hkeys; auto|]. rewrite Forall_forall in *. intros [k ts] Hx. apply Hin in Hx. cbn.
      destruct Hx as [[_ Hx]|[-> [ts0 [Hx ->]]]]; [exact (Hu _ Hx)|]. apply add_test_nodup. exact (Hu _ Hx).
    + rewrite Hkeys. exact Hr.
    + exact Hd2.
    + intros f' n' b1 b' H. rewrite Hreg. intros [Hx|[= -> -> ->]].
      * revert Hx. eapply Hnew. right. exact H.
      * apply Hd1. apply in_test_names. eauto.
    + exists r'. split; auto. split; auto. split.
      * intros f' n' b'. rewrite H1, Hreg. cbn. intuition congruence.
      * intros f'. rewrite H2, Hkeys. cbn. intuition congruence.
Qed.

(** *** From the build to the order *)

Lemma no_repetition_nodup l : no_repetition l = true -> NoDup l.
Proof.
  induction l as [|x l IH]; cbn; intros H; constructor; apply andb_true_iff in H; destruct H as [H1 H2]; auto.
  intros Hin. apply negb_true_iff in H1. enough (existsb (N.eqb x) l = true) by congruence.
  apply existsb_exists. exists x. split; auto. apply N.eqb_refl.
Qed.

Lemma in_fixture_hashes sg n l : In (DFixture n) l -> In (hash sg n) (fixture_hashes sg l).
Proof. intros H. unfold fixture_hashes. rewrite in_flat_map. exists (DFixture n). cbn. auto. Qed.

Lemma compiles_ready sg st l : forall ks, compiles sg st (map (hash sg) ks) l = true ->
  NoDup (map (hash sg) ks ++ fixture_hashes sg l) ->
  (forall f n b, In (DTest f n b) l -> In f ks \/ In (DFixture f) l) -> ready ks l.
Proof.
  induction l as [|[m|f n b] l IH]; intros ks Hc Hn Hf; cbn; auto.
  - apply IH; [exact Hc| |].
    + cbn. cbn in Hn. eapply Permutation_NoDup; [|exact Hn]. symmetry. apply Permutation_middle.
    + intros f n b H. destruct (Hf f n b) as [H1|[[= ->]|H1]]; cbn; auto.
  - cbn in Hc. apply andb_true_iff in Hc. destruct Hc as [Hc Hc3]. apply andb_true_iff in Hc. destruct Hc as [Hc1 Hc2].
    split.
    + destruct (Hf f n b) as [H|[H|H]]; cbn; auto; [discriminate|]. exfalso.
      apply existsb_exists in Hc1. destruct Hc1 as [h [H1 H2]]. apply N.eqb_eq in H2. subst h.
      apply (in_fixture_hashes sg) in H. cbn in Hn.
      apply in_split in H1. destruct H1 as [a [c E]]. rewrite E in Hn. rewrite <- app_assoc in Hn. cbn in Hn.
      apply NoDup_remove_2 in Hn. apply Hn. rewrite !in_app_iff. auto.
    + apply IH; auto. intros f' n' b' H. destruct (Hf f' n' b') as [H1|[H1|H1]]; cbn; auto. discriminate.
Qed.

Lemma interleaving_ready p l : interleaving p l -> forall ks, Forall (ready ks) p -> ready ks l.
Proof.
  induction 1 as [p Hp|p1 x r p2 l H IH]; intros ks Hr; cbn; auto.
  apply Forall_app in Hr. destruct Hr as [Hr1 Hr2]. inversion Hr2 as [|? ? Hx Hr3]; subst.
  destruct x as [m|f n b]; cbn in Hx.
  - apply IH. apply Forall_app. split; [|constructor; auto].
    all: eapply Forall_impl; [|eassumption]; intros a; apply ready_more; cbn; auto.
  - destruct Hx as [Hx1 Hx2]. split; auto. apply IH. apply Forall_app. split; auto.
Qed.

Lemma interleaving_permutation {A} (p : list (list A)) l : interleaving p l -> Permutation (concat p) l.
Proof.
  induction 1 as [p Hp|p1 x r p2 l H IH].
  - induction Hp as [|y p <- Hp IH]; cbn; auto.
  - rewrite concat_app in *. cbn in *. rewrite app_comm_cons.
    eapply Permutation_trans; [symmetry; apply Permutation_middle|]. constructor. exact IH.
Qed.

Lemma fixture_hashes_app sg a b : fixture_hashes sg (a ++ b) = fixture_hashes sg a ++ fixture_hashes sg b.
Proof. unfold fixture_hashes. apply flat_map_app. Qed.

Lemma nodup_part {A} (a b : list A) : NoDup (a ++ b) -> NoDup a /\ NoDup b.
Proof.
  induction a as [|x a IH]; cbn; intros H; [split; auto; constructor|]. inversion H; subst. destruct (IH H3). split; auto.
  constructor; auto. rewrite in_app_iff in H2. auto.
Qed.

Lemma nodup_unit sg (p : program) tu : In tu p -> NoDup (fixture_hashes sg (concat p)) -> NoDup (fixture_hashes sg tu).
Proof.
  induction p as [|x p IH]; [intros []|]. cbn [concat]. rewrite fixture_hashes_app.
  intros [->|H] Hn; apply nodup_part in Hn; tauto.
Qed.

Lemma test_hashes_names sg l : test_hashes sg l = map (fun fn => hash2 sg (fst fn) (snd fn)) (test_names l).
Proof. induction l as [|[m|f n b] l IH]; cbn; auto. f_equal. exact IH. Qed.

(** In every translation unit the fixture that a TEST names is declared. *)
Definition names_fixtures (p : program) : Prop :=
  forall tu f n b, In tu p -> In (DTest f n b) tu -> In (DFixture f) tu.

(** If a program builds and each of its tests names a fixture that is declared in the same
    translation unit, then, in whatever order the static members of different translation units
    are initialised, main is reached, every declared fixture is registered and nothing else, and
    every declared test is registered with its own function under the fixture it names and
    nothing else. *)
Theorem C64_registered_partial signed static_on p l : builds signed static_on p = true -> names_fixtures p ->
  interleaving p l ->
  exists r, startup l [] = Some r /\ well_formed r /\
    (forall f n b, registered r f n b <-> declared p f n b) /\
    (forall f, In f (map fst r) <-> In (DFixture f) (concat p)).
Proof.
  intros Hb Hf Hi. unfold builds in Hb. apply andb_true_iff in Hb. destruct Hb as [Hb Ht].
  apply andb_true_iff in Hb. destruct Hb as [Hc Hfh].
  apply no_repetition_nodup in Ht, Hfh. rewrite forallb_forall in Hc.
  pose proof (interleaving_permutation _ _ Hi) as Hp.
  destruct (startup_spec l []) as [r [E [Hw [H1 H2]]]].
  - repeat constructor.
  - apply (interleaving_ready p); auto. rewrite Forall_forall. intros tu Htu.
    apply (compiles_ready signed static_on); cbn; auto.
    + eapply nodup_unit; eauto.
    + intros f n b H. right. eapply Hf; eauto.
  - rewrite test_hashes_names in Ht. apply NoDup_map_inv in Ht. eapply Permutation_NoDup; [|exact Ht].
    unfold test_names. now apply Permutation_flat_map.
  - intros f n b b' _ [ts [[] _]].
  - exists r. split; auto. split; auto. split.
    + intros f n b. rewrite H1. unfold declared. split.
      * intros [[ts [[] _]]|H]. eapply Permutation_in; [symmetry; exact Hp|exact H].
      * intros H. right. eapply Permutation_in; eauto.
    + intros f. rewrite H2. cbn. split.
      * intros [[]|H]. eapply Permutation_in; [symmetry; exact Hp|exact H].
      * intros H. right. eapply Permutation_in; eauto.
Qed.

(** Without the condition: the fixture is found by its hash when compiling, by its name when
    starting.  A test that names a fixture that does not exist builds if the hash is that of
    another, and the program is terminated before main in every order. *)
Definition collision : program := [[DFixture "ab"; DTest "b`" "t" []]].
Theorem C64_builds_but_terminated_refuted : exists p, builds true true p = true /\
  forall l, interleaving p l -> startup l [] = None.
Proof.
  exists collision. split; [vm_compute; reflexivity|]. intros l H.
  assert (Hone : forall (a : list decl) l, interleaving [a] l -> l = a).
  { intros a l0 H0. remember [a] as p eqn:E. revert a E. induction H0 as [p Hp|p1 x r p2 l0 H0 IH]; intros a E.
    - subst p. inversion Hp; auto.
    - destruct p1 as [|y p1]; cbn in E; [|destruct p1; discriminate]. injection E as <- ->. f_equal. now apply IH. }
  apply Hone in H. subst l. reflexivity.
Qed.

(** Two translation units, two fixtures, tests of one name in both; initialised interleaved *)
Definition two_units : program :=
  [ [DFixture "b"; DTest "b" "t" [SAssert true "m" (here 1)]; DTest "b" "u" []];
    [DFixture "a"; DTest "a" "t" [SAssert false "m" (here 2)]] ].
Definition mixed : list decl :=
  [DFixture "b"; DFixture "a"; DTest "a" "t" [SAssert false "m" (here 2)]; DTest "b" "t" [SAssert true "m" (here 1)]; DTest "b" "u" []].
Example C64_case : builds true false two_units = true /\ names_fixtures two_units /\ interleaving two_units mixed /\
  startup mixed [] = Some [("a", [Test "t" [SAssert false "m" (here 2)]]); ("b", [Test "t" [SAssert true "m" (here 1)]; Test "u" []])].
Proof.
  split; [vm_compute; reflexivity|]. split; [|split].
  - intros tu f n b [<-|[<-|[]]]; cbn; intuition congruence.
  - apply (I_step [] (DFixture "b") _ _). apply (I_step [_] (DFixture "a") _ []). apply (I_step [_] (DTest _ _ _) _ []).
    apply (I_step [] (DTest _ _ _) _ _). apply (I_step [] (DTest _ _ _) _ _). constructor. repeat constructor.
  - reflexivity.
Qed.

(** ** C65: hashes *)

Lemma rotl1_injective a b : (a < two64)%N -> (b < two64)%N -> rotl1 a = rotl1 b -> a = b.
Proof.
  unfold rotl1, two64. intros Ha Hb H.
  pose proof (N.div_mod a (2 ^ 63) ltac:(discriminate)) as Ea. pose proof (N.div_mod b (2 ^ 63) ltac:(discriminate)) as Eb.
  pose proof (N.mod_lt a (2 ^ 63) ltac:(discriminate)) as La. pose proof (N.mod_lt b (2 ^ 63) ltac:(discriminate)) as Lb.
  assert (Hm : forall x, ((2 * x) mod 2 ^ 64 = 2 * (x mod 2 ^ 63))%N).
  { intros x. change (2 ^ 64)%N with (2 * 2 ^ 63)%N. apply N.mul_mod_distr_l; discriminate. }
  rewrite !Hm in H.
  assert (a / 2 ^ 63 < 2)%N by (apply N.div_lt_upper_bound; [discriminate|exact Ha]).
  assert (b / 2 ^ 63 < 2)%N by (apply N.div_lt_upper_bound; [discriminate|exact Hb]).
  revert Ea Eb La Lb H H0 H1. clear.
  generalize (a / 2 ^ 63)%N, (b / 2 ^ 63)%N, (a mod 2 ^ 63)%N, (b mod 2 ^ 63)%N.
  intros qa qb ra rb. intros. assert (qa = qb) by lia. subst. lia.
Qed.

Lemma N_of_ascii_lt c : (N_of_ascii c < 256)%N.
Proof. apply N_ascii_bounded. Qed.

Lemma char_value_lt sg c : (char_value sg c < two64)%N.
Proof.
  unfold char_value, two64. pose proof (N_of_ascii_lt c). destruct (sg && (128 <=? N_of_ascii c)%N); lia.
Qed.

Lemma char_value_injective sg c d : char_value sg c = char_value sg d -> c = d.
Proof.
  intros H. rewrite <- (ascii_N_embedding c), <- (ascii_N_embedding d). f_equal.
  unfold char_value, two64 in H. pose proof (N_of_ascii_lt c). pose proof (N_of_ascii_lt d).
  destruct sg; cbn [andb] in H; [|exact H].
  destruct (N.leb_spec 128 (N_of_ascii c)), (N.leb_spec 128 (N_of_ascii d)); lia.
Qed.

Lemma add_cancel_r a b c : (a < two64)%N -> (b < two64)%N -> ((a + c) mod two64 = (b + c) mod two64)%N -> a = b.
Proof.
  unfold two64. intros Ha Hb H.
  pose proof (N.div_mod (a + c) (2 ^ 64) ltac:(discriminate)) as Ea. pose proof (N.div_mod (b + c) (2 ^ 64) ltac:(discriminate)) as Eb.
  rewrite H in Ea. revert Ea Eb Ha Hb. generalize ((a + c) / 2 ^ 64)%N, ((b + c) / 2 ^ 64)%N, ((b + c) mod 2 ^ 64)%N. intros. lia.
Qed.

Lemma rotl1_lt a : (a < two64)%N -> (rotl1 a < two64)%N.
Proof.
  unfold rotl1, two64. intros Ha.
  pose proof (N.mod_lt a (2 ^ 63) ltac:(discriminate)) as La.
  assert (Hm : ((2 * a) mod 2 ^ 64 = 2 * (a mod 2 ^ 63))%N).
  { change (2 ^ 64)%N with (2 * 2 ^ 63)%N. apply N.mul_mod_distr_l; discriminate. }
  rewrite Hm. assert (a / 2 ^ 63 < 2)%N by (apply N.div_lt_upper_bound; [discriminate|exact Ha]).
  revert La H. generalize (a / 2 ^ 63)%N, (a mod 2 ^ 63)%N. intros. lia.
Qed.

Lemma hash_from_lt sg s : forall h, (h < two64)%N -> (hash_from sg h s < two64)%N.
Proof.
  induction s as [|c s IH]; cbn [hash_from]; auto. intros h Hh. apply IH. apply N.mod_lt. discriminate.
Qed.

Lemma hash_from_injective sg s : forall a b, (a < two64)%N -> (b < two64)%N -> hash_from sg a s = hash_from sg b s -> a = b.
Proof.
  induction s as [|c s IH]; cbn [hash_from]; auto. intros a b Ha Hb H.
  apply IH in H; try (apply N.mod_lt; discriminate). apply add_cancel_r in H; auto using rotl1_lt.
  now apply rotl1_injective.
Qed.

Lemma hash_from_app sg a b : forall h, hash_from sg h (a ++ b)%string = hash_from sg (hash_from sg h a) b.
Proof. induction a as [|c a IH]; cbn; auto. Qed.

(** Names that differ in one character have different hashes, also as names of tests of one
    fixture and as names of fixtures of tests of one name; and a common ending of two names can
    be left out. *)
Theorem C65_one_character_partial signed a b c d x : c <> d ->
  hash signed (a ++ String c b) <> hash signed (a ++ String d b) /\
  hash2 signed x (a ++ String c b) <> hash2 signed x (a ++ String d b) /\
  hash2 signed (a ++ String c b) x <> hash2 signed (a ++ String d b) x.
Proof.
  intros Hcd.
  assert (H : hash signed (a ++ String c b) <> hash signed (a ++ String d b)).
  { unfold hash. rewrite !hash_from_app. cbn [hash_from]. intros H.
    apply hash_from_injective in H; try (apply N.mod_lt; discriminate).
    rewrite (N.add_comm _ (char_value signed c)), (N.add_comm _ (char_value signed d)) in H.
    apply add_cancel_r in H; auto using char_value_lt. apply Hcd. eapply char_value_injective; eauto. }
  split; auto. unfold hash2. split; intros E; apply H.
  - assert (E2 : forall u v, N.lxor u (N.lxor u v) = v) by (intros; now rewrite <- N.lxor_assoc, N.lxor_nilpotent, N.lxor_0_l).
    rewrite <- (E2 (hash signed x) (hash signed (a ++ String c b))), E. apply E2.
  - assert (E2 : forall u v, N.lxor (N.lxor v u) u = v) by (intros; now rewrite N.lxor_assoc, N.lxor_nilpotent, N.lxor_0_r).
    rewrite <- (E2 (hash signed x) (hash signed (a ++ String c b))), E. apply E2.
Qed.

Theorem C65_common_ending_partial signed a b s : hash signed (a ++ s) = hash signed (b ++ s) <-> hash signed a = hash signed b.
Proof.
  unfold hash. rewrite !hash_from_app. split; intros H; [|now rewrite H].
  apply hash_from_injective in H; auto; apply hash_from_lt; reflexivity.
Qed.

(** Tests of different names in one fixture can have the same hash; so have all tests that are
    named as their fixture, and two tests with the names of fixture and test exchanged.  None of
    these pairs builds. *)
Theorem C65_distinct_refuted : exists f n n', n <> n' /\ hash2 true f n = hash2 true f n' /\
  forall b b', builds true false [[DFixture f; DTest f n b; DTest f n' b']] = false.
Proof. exists "f", "ab", "b`". repeat split; try discriminate. Qed.
Theorem C65_same_name_refuted signed static_on x y b b' :
  hash2 signed x x = hash2 signed y y /\ hash2 signed x y = hash2 signed y x /\
  builds signed static_on [[DFixture x; DFixture y; DTest x x b; DTest y y b']] = false /\
  builds signed static_on [[DFixture x; DFixture y; DTest x y b; DTest y x b']] = false.
Proof.
  assert (H1 : hash2 signed x x = hash2 signed y y) by (unfold hash2; now rewrite !N.lxor_nilpotent).
  assert (H2 : hash2 signed x y = hash2 signed y x) by (unfold hash2; apply N.lxor_comm).
  repeat split; auto; unfold builds; cbn [concat app test_hashes flat_map no_repetition existsb]; rewrite ?H1, ?H2, N.eqb_refl; apply andb_false_r.
Qed.

(** More than 64 characters: the bits come around again *)
Example C65_case : hash true "Parse" <> hash true "Parsf" /\
  hash true "a name of more than sixty-four characters, so that bits come around again" = 10809716707284191149%N.
Proof. vm_compute. split; [discriminate|reflexivity]. Qed.

(** ** C66: the exit status and the report *)

(** Specification *)
Definition passes (t : test) : Prop := exists evs e, happens (t_func t) evs e /\ e <> Raises /\ Forall holds evs.
Definition fails (t : test) : Prop := exists evs e, happens (t_func t) evs e /\ e <> Raises /\ ~ Forall holds evs.
Definition raises (t : test) : Prop := exists evs, happens (t_func t) evs Raises.

(** The tests that a command line asks for *)
Inductive selects (r : runner) : list string -> list test -> Prop :=
| Sel_default x : selects r [x] (concat (map snd r))
| Sel_all x : selects r [x; "run"] (concat (map snd r))
| Sel_fixture x n f : In (n, f) r -> selects r [x; "run"; n] f
| Sel_test x n f t : In (n, f) r -> In t f -> selects r [x; "run"; n; t_name t] [t].

(** How many of some tests fail *)
Inductive counts : list test -> nat -> Prop :=
| C_nil : counts [] 0
| C_pass t l k : passes t -> counts l k -> counts (t :: l) k
| C_fail t l k : fails t -> counts l k -> counts (t :: l) (S k).

Definition occurs (s t : string) : Prop := exists a b, t = (a ++ s ++ b)%string.

Definition outcome (t : test) (res : tresult) : Prop :=
  exists evs e, happens (t_func t) evs e /\ e <> Raises /\ res = TResult (t_name t) (List.length evs) (failed evs).

Lemma outcome_exists t : ~ raises t -> exists res, outcome t res.
Proof.
  intros H. destruct (happens_total (t_func t)) as [evs [e Hh]]. exists (TResult (t_name t) (List.length evs) (failed evs)).
  exists evs, e. split; auto. split; auto. intros ->. apply H. exists evs. auto.
Qed.

Lemma outcomes_exist l : (forall t, In t l -> ~ raises t) -> exists rs, Forall2 outcome l rs.
Proof.
  induction l as [|t l IH]; intros H; [exists []; constructor|].
  destruct (outcome_exists t) as [res Hres]; [apply H; left; auto|].
  destruct IH as [rs Hrs]; [intros; apply H; right; auto|]. exists (res :: rs). constructor; auto.
Qed.

Lemma failed_nil evs : failed evs = [] <-> Forall holds evs.
Proof.
  unfold failed. induction evs as [|[[b m] l] evs IH]; cbn; [split; auto; constructor|]. destruct b; cbn.
  - rewrite IH. split; intros H; [constructor; auto; reflexivity|now inversion H].
  - split; intros H; [discriminate|]. inversion H as [|? ? H1 ?]. discriminate H1.
Qed.

Definition bad (r : tresult) : bool := match tr_errors r with [] => false | _ :: _ => true end.

Lemma outcome_passes t res : outcome t res -> (bad res = false <-> passes t).
Proof.
  intros [evs [e [H [He ->]]]]. unfold bad; cbn. split.
  - intros E. exists evs, e. split; auto. split; auto. apply failed_nil. destruct (failed evs); auto. discriminate.
  - intros [evs' [e' [H' [_ Hf]]]]. destruct (happens_unique _ _ _ _ _ H H') as [-> ->]. apply failed_nil in Hf. now rewrite Hf.
Qed.
Lemma outcome_fails t res : outcome t res -> (bad res = true <-> fails t).
Proof.
  intros [evs [e [H [He ->]]]]. unfold bad; cbn. split.
  - intros E. exists evs, e. split; auto. split; auto. intros Hf. apply failed_nil in Hf. rewrite Hf in E. discriminate.
  - intros [evs' [e' [H' [_ Hf]]]]. destruct (happens_unique _ _ _ _ _ H H') as [-> ->].
    destruct (failed evs') eqn:E; auto. apply failed_nil in E. contradiction.
Qed.

Lemma raises_not t : raises t -> ~ passes t /\ ~ fails t.
Proof.
  intros [evs H]. split; intros [evs' [e' [H' [He _]]]]; destruct (happens_unique _ _ _ _ _ H H'); congruence.
Qed.
Lemma passes_not_fails t : passes t -> ~ fails t.
Proof.
  intros [evs [e [H [_ Hp]]]] [evs' [e' [H' [_ Hf]]]]. destruct (happens_unique _ _ _ _ _ H H'). subst. auto.
Qed.
Lemma raises_or t : raises t \/ ~ raises t.
Proof.
  destruct (happens_total (t_func t)) as [evs [e H]]. destruct e; [right|right|left; exists evs; auto].
  all: intros [evs' H']; destruct (happens_unique _ _ _ _ _ H H'); discriminate.
Qed.
Lemma raises_some l : Exists raises l \/ forall t, In t l -> ~ raises t.
Proof.
  induction l as [|t l IH]; [right; intros t []|]. destruct (raises_or t) as [H|H]; [left; constructor; auto|].
  destruct IH as [IH|IH]; [left; now constructor 2|]. right. intros x [<-|Hx]; auto.
Qed.

Lemma counts_outcomes l rs : Forall2 outcome l rs -> counts l (List.length (filter bad rs)).
Proof.
  induction 1 as [|t res l rs H _ IH]; cbn; [constructor|]. destruct (bad res) eqn:E; cbn.
  - apply C_fail; auto. now apply (outcome_fails t res).
  - apply C_pass; auto. now apply (outcome_passes t res).
Qed.
Lemma counts_unique l k k' : counts l k -> counts l k' -> k = k'.
Proof.
  intros H. revert k'. induction H; intros k' H'; inversion H'; subst; auto.
  - exfalso. eapply passes_not_fails; eauto.
  - exfalso. eapply passes_not_fails; eauto.
Qed.
Lemma counts_permutation l l' k : Permutation l l' -> counts l k -> counts l' k.
Proof.
  intros H. revert k. induction H; intros k Hk; auto.
  - inversion Hk; subst; auto using C_pass, C_fail.
  - inversion Hk as [|? ? ? ? H1|? ? ? ? H1]; subst; inversion H1; subst; auto using C_pass, C_fail.
Qed.

Lemma exec_results_failures rs : forall acc,
  fr_failures (fold_left push_back rs acc) = fr_failures acc ++ filter bad rs /\ fr_name (fold_left push_back rs acc) = fr_name acc.
Proof.
  induction rs as [|res rs IH]; intros acc; cbn; [now rewrite app_nil_r|].
  destruct (IH (push_back acc res)) as [E1 E2]. rewrite E1, E2. unfold push_back, bad.
  destruct (tr_errors res); cbn; [auto|]. now rewrite <- app_assoc.
Qed.

Lemma run_tests_ok l rs : Forall2 outcome l rs -> forall w acc, exists out,
  run_tests l w acc = Go (World (w_objs w) (w_cur w) (w_out w ++ out)%string, fold_left push_back rs acc).
Proof.
  induction 1 as [|t res l rs H _ IH]; intros w acc; cbn.
  - exists "". rewrite sappend_nil. now destruct w.
  - destruct H as [evs [e [H [He ->]]]]. destruct (C63_own_assertions t w evs e H He) as [out1 ->]. cbn.
    edestruct IH as [out2 E2]. rewrite E2. cbn. rewrite sappend_assoc. eexists; reflexivity.
Qed.
Lemma run_tests_raise l : Exists raises l -> forall w acc, exists w', run_tests l w acc = Throws w'.
Proof.
  induction l as [|t l IH]; intros He w acc; [inversion He|]. cbn.
  destruct (raises_or t) as [[evs H]|H].
  - destruct (C63_exception t w evs H) as [out ->]. cbn. eauto.
  - inversion He as [? ? H1|? ? H1]; subst; [contradiction|].
    destruct (outcome_exists t H) as [res [evs [e [Hh [Hr _]]]]].
    destruct (C63_own_assertions t w evs e Hh Hr) as [out ->]. cbn. apply IH; auto.
Qed.

Lemma concat_cons s l : String.concat "" (s :: l) = (s ++ String.concat "" l)%string.
Proof. destruct l; cbn; auto. now rewrite sappend_nil. Qed.

Lemma occurs_refl s : occurs s s.
Proof. exists "", "". cbn. now rewrite sappend_nil. Qed.
Lemma occurs_l s t u : occurs s t -> occurs s (t ++ u).
Proof. intros [a [b ->]]. exists a, (b ++ u)%string. now rewrite !sappend_assoc. Qed.
Lemma occurs_r s t u : occurs s u -> occurs s (t ++ u).
Proof. intros [a [b ->]]. exists (t ++ a)%string, b. now rewrite !sappend_assoc. Qed.
Lemma occurs_concat s t l : In t l -> occurs s t -> occurs s (String.concat "" l).
Proof.
  induction l as [|x l IH]; [intros []|]. intros [->|H] Ho; rewrite concat_cons; [now apply occurs_l|apply occurs_r; auto].
Qed.

Lemma occurs_errors e res : In e (tr_errors res) -> occurs (print_error e) (print_errors_test res).
Proof.
  intros H. unfold print_errors_test. do 8 apply occurs_r. eapply occurs_concat; [apply in_map; exact H|apply occurs_refl].
Qed.
Lemma occurs_fixture e res fr : In res (fr_failures fr) -> In e (tr_errors res) -> occurs (print_error e) (print_errors_fixture fr).
Proof.
  intros H He. unfold print_errors_fixture. do 3 apply occurs_r. apply occurs_l.
  eapply occurs_concat; [apply in_map; exact H|now apply occurs_errors].
Qed.

(** What the report says about results *)
Definition reports (x : finished) (rs : list tresult) : Prop :=
  (filter bad rs = [] -> f_ended x = Exit true /\ exists pre, f_out x = (pre ++ all_passed)%string) /\
  (filter bad rs <> [] -> f_ended x = Exit false /\ exists pre post,
     f_out x = (pre ++ some_failed (List.length (filter bad rs)) ++ post)%string /\
     forall res e, In res rs -> In e (tr_errors res) -> occurs (print_error e) post).

Lemma error_bad res e rs : In res rs -> In e (tr_errors res) -> In res (filter bad rs).
Proof. intros H He. apply filter_In. split; auto. unfold bad. destruct (tr_errors res); auto. Qed.

Lemma report_ok w fr rs : fr_failures fr = filter bad rs -> reports (report (Go (w, fr))) rs.
Proof.
  intros E. unfold reports, report. cbn [bind fst snd]. rewrite E. split.
  - intros ->. cbn [bind ends f_ended f_out put w_out]. split; auto. eexists; reflexivity.
  - intros H. destruct (filter bad rs) as [|x l] eqn:Eb; [congruence|]. cbn [bind ends f_ended f_out put w_out]. split; auto.
    exists (w_out w), (print_errors_fixture fr). split; [reflexivity|].
    intros res e Hr He. eapply occurs_fixture; eauto. rewrite E, <- Eb. eapply error_bad; eauto.
Qed.

Section Exit.
Variable iter : fixture -> list test.
Hypothesis iter_permutation : forall f, Permutation f (iter f).
Variable can_open : string -> bool.

Lemma run_fixture_ok n f rs w : Forall2 outcome (iter f) rs -> exists out fr,
  run_fixture iter n f w = Go (World (w_objs w) (w_cur w) (w_out w ++ out)%string, fr) /\ fr_failures fr = filter bad rs.
Proof.
  intros H. unfold run_fixture.
  destruct (run_tests_ok _ _ H (put (running n) w) (FResult n [] [])) as [out ->]. cbn.
  destruct (exec_results_failures rs (FResult n [] [])) as [E _]. cbn in E.
  unfold put; cbn. rewrite !sappend_assoc. repeat eexists. exact E.
Qed.
Lemma run_fixture_raise n f w : Exists raises f -> exists w', run_fixture iter n f w = Throws w'.
Proof.
  intros H. unfold run_fixture.
  destruct (run_tests_raise (iter f)) with (w := put (running n) w) (acc := FResult n [] []) as [w' ->]; [|cbn; eauto].
  rewrite Exists_exists in *. destruct H as [t [H1 H2]]. exists t. split; auto. eapply Permutation_in; eauto.
Qed.

Lemma run_fixtures_ok (r : runner) rss : Forall2 (fun nf rs => Forall2 outcome (iter (snd nf)) rs) r rss -> forall w fl tot,
  exists out frs, run_fixtures iter r w fl tot =
    Go (World (w_objs w) (w_cur w) (w_out w ++ out)%string, (fl ++ frs, tot + List.length (filter bad (concat rss)))) /\
  concat (map fr_failures frs) = filter bad (concat rss) /\ Forall (fun fr => fr_failures fr <> []) frs.
Proof.
  induction 1 as [|[n f] rs r rss H _ IH]; intros w fl tot; cbn [run_fixtures concat].
  - exists "", []. rewrite sappend_nil, app_nil_r. cbn. rewrite Nat.add_0_r. destruct w. repeat split; constructor.
  - destruct (run_fixture_ok n f rs w H) as [out1 [fr [-> E]]]. cbn [bind fst snd].
    edestruct IH as [out2 [frs [E2 [E3 E4]]]]. rewrite E2. rewrite filter_app, app_length, <- E.
    cbn [w_objs w_cur w_out]. rewrite sappend_assoc. destruct (fr_failures fr) as [|x l] eqn:Ef.
    + exists (out1 ++ out2)%string, frs. cbn. rewrite Nat.add_0_r. auto.
    + exists (out1 ++ out2)%string, (fr :: frs). rewrite <- app_assoc. cbn [app map concat List.length].
      rewrite Ef, E3. split; [do 3 f_equal; lia|]. split; auto. constructor; auto. rewrite Ef. discriminate.
Qed.
Lemma run_fixtures_raise (r : runner) : Exists raises (concat (map snd r)) -> forall w fl tot, exists w', run_fixtures iter r w fl tot = Throws w'.
Proof.
  induction r as [|[n f] r IH]; cbn [map concat snd run_fixtures]; intros H w fl tot; [inversion H|].
  destruct (raises_some f) as [Hf|Hf].
  - destruct (run_fixture_raise n f w Hf) as [w' ->]. cbn. eauto.
  - destruct (outcomes_exist (iter f)) as [rs Hrs].
    { intros t Ht. apply Hf. eapply Permutation_in; [symmetry; apply iter_permutation|exact Ht]. }
    destruct (run_fixture_ok n f rs w Hrs) as [out1 [fr [-> _]]]. cbn.
    apply IH. apply Exists_app in H. destruct H as [H|H]; auto. apply Exists_exists in H. destruct H as [t [H1 H2]].
    exfalso. eapply Hf; eauto.
Qed.

Lemma run_all_ok r rss : Forall2 (fun nf rs => Forall2 outcome (iter (snd nf)) rs) r rss ->
  reports (run_all iter r) (concat rss).
Proof.
  intros H. unfold run_all. destruct (run_fixtures_ok _ _ H start_world [] 0) as [out [frs [-> [E1 E2]]]].
  cbn [bind fst snd]. rewrite Nat.add_0_l. cbn [app]. unfold reports. split.
  - intros E. rewrite E in E1. destruct frs as [|fr frs].
    + cbn. split; auto. eexists; reflexivity.
    + exfalso. inversion E2; subst. cbn in E1. apply app_eq_nil in E1. tauto.
  - intros Hne. destruct frs as [|fr frs]; [cbn in E1; congruence|]. cbn [ends f_ended f_out]. split; auto.
    exists out, (String.concat "" (map print_errors_fixture (fr :: frs))). split; [reflexivity|].
    intros res e Hr He. pose proof (error_bad _ _ _ Hr He) as Hb. rewrite <- E1 in Hb. apply in_concat in Hb.
    destruct Hb as [l [Hl Hb]]. apply in_map_iff in Hl. destruct Hl as [fr' [<- Hl]].
    eapply occurs_concat; [apply in_map; exact Hl|]. eapply occurs_fixture; eauto.
Qed.

Lemma fixtures_outcomes (r : runner) : (forall t, In t (concat (map snd r)) -> ~ raises t) ->
  exists rss, Forall2 (fun nf rs => Forall2 outcome (iter (snd nf)) rs) r rss.
Proof.
  induction r as [|[n f] r IH]; cbn; intros H; [exists []; constructor|].
  destruct IH as [rss Hrss]; [intros; apply H; apply in_app_iff; auto|].
  destruct (outcomes_exist (iter f)) as [rs Hrs].
  { intros t Ht. apply H. apply in_app_iff. left. eapply Permutation_in; [symmetry; apply iter_permutation|exact Ht]. }
  exists (rs :: rss). constructor; auto.
Qed.
Lemma fixtures_permutation (r : runner) rss : Forall2 (fun nf rs => Forall2 outcome (iter (snd nf)) rs) r rss ->
  exists ts, Permutation (concat (map snd r)) ts /\ Forall2 outcome ts (concat rss).
Proof.
  induction 1 as [|[n f] rs r rss H _ [ts [IH1 IH2]]]; cbn; [exists []; split; auto|].
  exists (iter f ++ ts). split; [now apply Permutation_app|now apply Forall2_app].
Qed.

Lemma selected_ok r args ts : well_formed r -> selects r args ts -> (forall t, In t ts -> ~ raises t) ->
  exists ts' rs, Permutation ts ts' /\ Forall2 outcome ts' rs /\ reports (exec iter can_open r args) rs.
Proof.
  intros [Hs Hu] Hsel Hr. pose proof (sorted_nodup _ Hs) as Hn. destruct Hsel as [x|x|x n f Hf|x n f t Hf Ht].
  1,2: destruct (fixtures_outcomes r Hr) as [rss Hrss]; destruct (fixtures_permutation _ _ Hrss) as [ts [H1 H2]];
    exists ts, (concat rss); split; auto; split; auto; cbn; now apply run_all_ok.
  - destruct (outcomes_exist (iter f)) as [rs Hrs].
    { intros t Ht. apply Hr. eapply Permutation_in; [symmetry; apply iter_permutation|exact Ht]. }
    exists (iter f), rs. split; auto. split; auto. cbn. apply find_fixture_in in Hf; auto. rewrite Hf.
    destruct (run_fixture_ok n f rs start_world Hrs) as [out [fr [-> E]]]. now apply report_ok.
  - destruct (outcomes_exist [t] Hr) as [rs Hrs]. exists [t], rs. split; auto. split; auto.
    assert (Hnt : NoDup (map t_name f)) by (rewrite Forall_forall in Hu; exact (Hu _ Hf)).
    cbn. apply find_fixture_in in Hf; auto. rewrite Hf. unfold run_fixture_test. rewrite find_test_in; auto.
    destruct (run_tests_ok [t] rs Hrs (put (running n) start_world) (FResult n [] [])) as [out ->]. cbn [bind fst snd].
    apply report_ok. destruct (exec_results_failures rs (FResult n [] [])) as [E _]. exact E.
Qed.

Lemma selected_raise r args ts : well_formed r -> selects r args ts -> Exists raises ts ->
  f_ended (exec iter can_open r args) = Terminated.
Proof.
  intros [Hs Hu] Hsel Hr. pose proof (sorted_nodup _ Hs) as Hn. destruct Hsel as [x|x|x n f Hf|x n f t Hf Ht].
  1,2: cbn; unfold run_all; destruct (run_fixtures_raise r Hr start_world [] 0) as [w' ->]; reflexivity.
  - cbn. apply find_fixture_in in Hf; auto. rewrite Hf.
    destruct (run_fixture_raise n f start_world Hr) as [w' ->]. reflexivity.
  - assert (Hnt : NoDup (map t_name f)) by (rewrite Forall_forall in Hu; exact (Hu _ Hf)).
    cbn. apply find_fixture_in in Hf; auto. rewrite Hf. unfold run_fixture_test. rewrite find_test_in; auto.
    destruct (run_tests_raise [t] Hr (put (running n) start_world) (FResult n [] [])) as [w' ->]. reflexivity.
Qed.

Lemma filter_none {A} (f : A -> bool) l : filter f l = [] <-> Forall (fun x => f x = false) l.
Proof.
  induction l as [|x l IH]; cbn; [split; auto; constructor|]. destruct (f x) eqn:E.
  - split; intros H; [discriminate|]. inversion H; congruence.
  - rewrite IH. split; intros H; [constructor; auto|now inversion H].
Qed.
Lemma outcomes_pass l rs : Forall2 outcome l rs -> (filter bad rs = [] <-> Forall passes l).
Proof.
  rewrite filter_none. induction 1 as [|t res l rs H _ IH]; [split; constructor|].
  pose proof (outcome_passes _ _ H) as Hp. split; intros Hf; inversion Hf; subst; constructor; tauto.
Qed.
Lemma outcomes_fail l rs : Forall2 outcome l rs -> (filter bad rs <> [] <-> Exists fails l).
Proof.
  induction 1 as [|t res l rs H _ IH]; cbn; [split; [congruence|intros Hx; inversion Hx]|].
  pose proof (outcome_fails _ _ H) as Hf. pose proof (outcome_passes _ _ H) as Hp. destruct (bad res) eqn:E.
  - split; [intros _; constructor; tauto|discriminate].
  - rewrite IH. split; intros Hx; [now constructor 2|]. inversion Hx; subst; auto. exfalso.
    eapply passes_not_fails; [|eassumption]. tauto.
Qed.

(** The program asked for tests ends with EXIT_SUCCESS iff all of them pass, with EXIT_FAILURE iff
    some fail and none raises an exception, and is terminated iff one raises an exception. *)
Theorem C66_exit_partial r args ts : well_formed r -> selects r args ts ->
  (f_ended (exec iter can_open r args) = Exit true <-> Forall passes ts) /\
  (f_ended (exec iter can_open r args) = Exit false <-> Exists fails ts /\ forall t, In t ts -> ~ raises t) /\
  (f_ended (exec iter can_open r args) = Terminated <-> Exists raises ts).
Proof.
  intros Hw Hsel. destruct (raises_some ts) as [Hr|Hr].
  - rewrite (selected_raise _ _ _ Hw Hsel Hr). split; [|split]; split; intros H; auto; try discriminate.
    + exfalso. apply Exists_exists in Hr. destruct Hr as [t [H1 H2]]. rewrite Forall_forall in H.
      destruct (raises_not t H2). auto.
    + exfalso. destruct H as [_ H]. apply Exists_exists in Hr. destruct Hr as [t [H1 H2]]. eapply H; eauto.
  - destruct (selected_ok _ _ _ Hw Hsel Hr) as [ts' [rs [Hp [Ho [H1 H2]]]]].
    assert (Ep : Forall passes ts <-> filter bad rs = []).
    { rewrite (outcomes_pass _ _ Ho). split; apply Permutation_Forall; auto. now symmetry. }
    assert (Ef : Exists fails ts <-> filter bad rs <> []).
    { rewrite (outcomes_fail _ _ Ho). split; apply Permutation_Exists; auto. now symmetry. }
    assert (Er : ~ Exists raises ts) by (rewrite Exists_exists; intros [t [A B]]; eapply Hr; eauto).
    rewrite Ep, Ef. destruct (filter bad rs) as [|x l].
    + destruct H1 as [E _]; auto. rewrite E. split; [tauto|]. split; split; intros H; try discriminate; try tauto.
    + destruct H2 as [E _]; [discriminate|]. rewrite E. split; [split; discriminate|]. split; split; intros H; try discriminate; try tauto.
      split; auto. discriminate.
Qed.

(** If none raises an exception, the last thing printed is that all tests passed, or the number of
    those that failed and after it every assertion that failed. *)
Theorem C66_report r args ts k : well_formed r -> selects r args ts -> counts ts k ->
  (k = 0 -> exists pre, f_out (exec iter can_open r args) = (pre ++ all_passed)%string) /\
  (k <> 0 -> exists pre post, f_out (exec iter can_open r args) = (pre ++ some_failed k ++ post)%string /\
     forall t evs e m l, In t ts -> happens (t_func t) evs e -> In (false, m, l) evs ->
       occurs (print_error (Err RunTime Fatal m l)) post).
Proof.
  intros Hw Hsel Hk.
  assert (Hr : forall t, In t ts -> ~ raises t).
  { intros t Ht Hr. destruct (raises_not t Hr) as [A B].
    clear Hsel. induction Hk; [destruct Ht| |]; destruct Ht as [<-|Ht]; auto. }
  destruct (selected_ok _ _ _ Hw Hsel Hr) as [ts' [rs [Hp [Ho [H1 H2]]]]].
  assert (Ek : k = List.length (filter bad rs)).
  { eapply counts_unique; [exact Hk|]. eapply counts_permutation; [symmetry; exact Hp|]. now apply counts_outcomes. }
  split.
  - intros ->. apply H1. destruct (filter bad rs); auto. discriminate.
  - intros Hne. destruct H2 as [_ [pre [post [E Hocc]]]]; [intros E; rewrite E in Ek; auto|].
    exists pre, post. rewrite Ek. split; auto. intros t evs e m l Ht Hh Hin.
    assert (Ht' : In t ts') by (eapply Permutation_in; eauto).
    assert (Hres : exists res, In res rs /\ outcome t res).
    { clear -Ho Ht'. induction Ho; [destruct Ht'|]. destruct Ht' as [->|Ht'].
      - exists y. cbn. auto.
      - destruct (IHHo Ht') as [res [A B]]. exists res. cbn. auto. }
    destruct Hres as [res [Hres [evs' [e' [Hh' [_ ->]]]]]]. destruct (happens_unique _ _ _ _ _ Hh Hh') as [-> ->].
    eapply Hocc; [exact Hres|]. cbn. unfold failed. apply in_map_iff. exists (false, m, l). split; auto.
    apply filter_In. split; auto.
Qed.

(** A command line that asks for a fixture that does not exist, or that is not understood, fails. *)
Theorem C66_wrong_arguments r x n cmd rest : well_formed r ->
  (~ In n (map fst r) -> forall t, (List.length t <= 1) -> f_ended (exec iter can_open r (x :: "run" :: n :: t)) = Exit false) /\
  (cmd <> "--help" -> cmd <> "run" -> cmd <> "list" -> f_ended (exec iter can_open r (x :: cmd :: rest)) = Exit false) /\
  (3 <= List.length rest -> f_ended (exec iter can_open r (x :: "run" :: rest)) = Exit false).
Proof.
  intros Hw. split; [|split].
  - intros H t Ht. apply find_fixture_none in H. destruct t as [|t [|t' l]]; cbn in *; try lia; now rewrite H.
  - intros H1 H2 H3. cbn. now rewrite (proj2 (String.eqb_neq _ _) H1), (proj2 (String.eqb_neq _ _) H2), (proj2 (String.eqb_neq _ _) H3).
  - intros H. destruct rest as [|a [|b [|c l]]]; cbn in *; try lia. reflexivity.
Qed.
End Exit.

(** But: a test that does not exist counts as passed. *)
Theorem C66_missing_test_refuted : exists r n t pre, well_formed r /\ In n (map fst r) /\ (forall b, ~ registered r n t b) /\
  exec (fun f => f) (fun _ => true) r ["tests"; "run"; n; t] = Finished (Exit true) (pre ++ all_passed) None.
Proof.
  exists [("a", [Test "Parse" []])], "a", "parse". eexists. split; [|split; [|split]].
  - split; repeat constructor. intros [].
  - left. reflexivity.
  - intros b [ts [[[= <-]|[]] [[=]|[]]]].
  - reflexivity.
Qed.

(** *** With static assertions *)

Lemma static_holds b : forallb static_asserts b = true -> forall evs e, happens b evs e -> Forall holds evs.
Proof.
  induction b as [|c m l r IH|b r IH1 IH2|b r IH1 IH2|n b r IH1 IH2|r IH] using body_ind; cbn; intros Hs evs e H;
    inversion H; subst; try apply andb_true_iff in Hs; try destruct Hs; try constructor; try apply Forall_app;
    eauto; try reflexivity; try discriminate.
Qed.

Lemma compiles_static sg ds l f n b : compiles sg true ds l = true -> In (DTest f n b) l -> forallb static_asserts b = true.
Proof.
  revert ds. induction l as [|[m|f' n' b'] l IH]; cbn; intros ds Hc; [tauto| |].
  - intros [H|H]; [discriminate|]. eapply IH; eauto.
  - apply andb_true_iff in Hc. destruct Hc as [Hc Hc3]. apply andb_true_iff in Hc. destruct Hc as [_ Hc2].
    intros [[= -> -> ->]|H]; [exact Hc2|]. eapply IH; eauto.
Qed.

(** Unless DISABLE_STATIC_ASSERT is defined, no test of a program that builds fails: when all tests
    are run, the program ends with EXIT_SUCCESS or by an exception. *)
Theorem C66_static iter can_open signed p l r x : (forall f, Permutation f (iter f)) ->
  builds signed true p = true -> names_fixtures p -> interleaving p l -> startup l [] = Some r ->
  f_ended (exec iter can_open r [x]) = Exit true \/
  (f_ended (exec iter can_open r [x]) = Terminated /\ exists f n b evs, declared p f n b /\ happens b evs Raises).
Proof.
  intros Hi Hb Hf Hl Hst. destruct (C64_registered_partial _ _ _ _ Hb Hf Hl) as [r' [E [Hw [Hreg _]]]].
  rewrite Hst in E. injection E as <-.
  destruct (C66_exit_partial iter Hi can_open r [x] _ Hw (Sel_default r x)) as [H1 [H2 H3]].
  assert (Hd : forall t, In t (concat (map snd r)) -> exists f, declared p f (t_name t) (t_func t)).
  { intros t Ht. apply in_concat in Ht. destruct Ht as [ts [A B]]. apply in_map_iff in A. destruct A as [[f ts'] [<- A]].
    exists f. apply Hreg. exists ts'. split; auto. now destruct t. }
  destruct (raises_some (concat (map snd r))) as [Hr|Hr].
  - right. split; [tauto|]. apply Exists_exists in Hr. destruct Hr as [t [A [evs B]]]. destruct (Hd t A) as [f Hf'].
    exists f, (t_name t), (t_func t), evs. auto.
  - left. apply H1. apply Forall_forall. intros t Ht. destruct (Hd t Ht) as [f Hf'].
    destruct (happens_total (t_func t)) as [evs [e He]]. exists evs, e. split; auto. split.
    + intros ->. apply (Hr t Ht). exists evs. auto.
    + eapply static_holds; eauto. unfold declared in Hf'. apply in_concat in Hf'. destruct Hf' as [tu [A B]].
      unfold builds in Hb. apply andb_true_iff in Hb. destruct Hb as [Hb _]. apply andb_true_iff in Hb. destruct Hb as [Hb _].
      rewrite forallb_forall in Hb. eapply compiles_static; eauto.
Qed.

(** The two units above: all tests, a fixture that passes, one that fails, one test *)
Definition two_registered : runner :=
  [("a", [Test "t" [SAssert false "m" (here 2)]]); ("b", [Test "t" [SAssert true "m" (here 1)]; Test "u" []])].
Example C66_case : well_formed two_registered /\ counts (concat (map snd two_registered)) 1 /\
  map (fun args => f_ended (exec (@rev test) (fun _ => true) two_registered ("tests" :: args)))
    [[]; ["run"]; ["run"; "a"]; ["run"; "b"]; ["run"; "a"; "t"]; ["run"; "b"; "u"]; ["run"; "c"]; ["all"]] =
    [Exit false; Exit false; Exit false; Exit true; Exit false; Exit true; Exit false; Exit false].
Proof.
  split; [|split].
  - split; repeat constructor; cbn; intuition congruence.
  - apply C_fail.
    + eexists _, _. split; [apply H_false|]. split; [discriminate|]. intros H. inversion H as [|? ? H1 ?]. discriminate H1.
    + apply C_pass; [|apply C_pass; [|constructor]].
      * eexists _, _. split; [apply H_true, H_nil|]. split; [discriminate|]. repeat constructor.
      * eexists _, _. split; [apply H_nil|]. split; [discriminate|]. constructor.
  - vm_compute. reflexivity.
Qed.
(** An exception *)
Example C66_case_raises : f_ended (exec (fun f => f) (fun _ => true) [("a", [Test "t" [SThrow]; Test "u" []])] ["tests"]) = Terminated /\
  builds true true [[DFixture "a"; DTest "a" "t" [SAssert true "m" (here 1); SThrow]]] = true.
Proof. split; vm_compute; reflexivity. Qed.

(** ** C67: the list of tests for CTest *)

(** Specification: names that CMake can take as they are *)
Fixpoint plain (s : string) : Prop :=
  match s with
  | EmptyString => True
  | String c r => ~ In c [ascii_of_nat 10; ascii_of_nat 13; "$"%char; "@"%char] /\ plain r
  end.

Lemma escape_app_cases c s x : (escape (String c s) ++ x)%string =
  if Ascii.eqb c dquote || Ascii.eqb c backslash then String backslash (String c (escape s ++ x)) else String c (escape s ++ x).
Proof. cbn [escape]. now destruct (Ascii.eqb c dquote || Ascii.eqb c backslash). Qed.

Lemma last_is_quote_app s : last_is_quote (s ++ chr dquote) = true.
Proof.
  induction s as [|c s IH]; [reflexivity|]. cbn [append last_is_quote].
  destruct (s ++ chr dquote)%string eqn:E; [destruct s; discriminate|exact IH].
Qed.

Lemma second_group_other c s : c <> " "%char -> second_group (String c s) = None.
Proof.
  intros H. destruct s as [|c2 [|c3 [|q g]]]; auto. cbn [second_group].
  rewrite (proj2 (String.eqb_neq (String c (String c2 (String c3 ""))) " - ")); auto. intros [= -> _ _]. auto.
Qed.

Lemma second_group_escaped t : second_group (escape t ++ chr dquote) = None.
Proof.
  destruct t as [|c1 t]; [reflexivity|]. rewrite escape_app_cases.
  destruct (Ascii.eqb c1 dquote || Ascii.eqb c1 backslash); [now apply second_group_other|].
  destruct t as [|c2 t]; [reflexivity|]. rewrite escape_app_cases.
  assert (Hb : forall c x, second_group (String c (String backslash x)) = None).
  { intros c [|c3 [|q g]]; auto. cbn [second_group].
    rewrite (proj2 (String.eqb_neq (String c (String backslash (String c3 ""))) " - ")); auto. discriminate. }
  destruct (Ascii.eqb c2 dquote || Ascii.eqb c2 backslash); [apply Hb|].
  destruct t as [|c3 t]; [reflexivity|]. rewrite escape_app_cases.
  assert (Hb3 : forall c d x, second_group (String c (String d (String backslash x))) = None).
  { intros c d [|q g]; auto. cbn [second_group].
    rewrite (proj2 (String.eqb_neq (String c (String d (String backslash ""))) " - ")); auto. discriminate. }
  destruct (Ascii.eqb c3 dquote || Ascii.eqb c3 backslash); [apply Hb3|].
  destruct t as [|c4 t].
  - cbn [escape append chr second_group last_is_quote]. now rewrite andb_false_r.
  - rewrite escape_app_cases. destruct (Ascii.eqb c4 dquote) eqn:E; cbn [orb].
    + cbn [second_group]. replace (Ascii.eqb backslash dquote) with false by reflexivity. now rewrite andb_false_r.
    + destruct (Ascii.eqb c4 backslash); cbn [second_group].
      * replace (Ascii.eqb backslash dquote) with false by reflexivity. now rewrite andb_false_r.
      * rewrite E. now rewrite andb_false_r.
Qed.

Lemma first_group_escaped t : first_group (escape t ++ chr dquote) = None.
Proof.
  induction t as [|c t IH]; [reflexivity|]. rewrite escape_app_cases.
  destruct (Ascii.eqb c dquote) eqn:E; cbn [orb].
  - cbn [first_group]. rewrite IH, E, second_group_escaped. reflexivity.
  - destruct (Ascii.eqb c backslash); cbn [first_group]; rewrite IH, E; reflexivity.
Qed.

Lemma first_group_here a x g : first_group x = None -> second_group x = Some g ->
  first_group (a ++ String dquote x) = Some ((a ++ chr dquote)%string, g).
Proof.
  intros H1 H2. induction a as [|c a IH]; cbn [append].
  - cbn [first_group]. rewrite H1, H2. reflexivity.
  - cbn [first_group]. rewrite IH. reflexivity.
Qed.

(** However the names look, the regular expression splits the line between the two of them. *)
Theorem C67_split f t : match_line (quoted f ++ " - " ++ quoted t) = Some ("", quoted f, quoted t).
Proof.
  unfold quoted at 1. cbn [chr append match_line]. rewrite Ascii.eqb_refl. rewrite sappend_assoc.
  cbn [chr append].
  rewrite (first_group_here _ _ (quoted t)); [reflexivity| |].
  - unfold quoted. cbn [chr append first_group]. rewrite first_group_escaped, second_group_escaped. reflexivity.
  - unfold quoted. cbn [chr append second_group]. rewrite last_is_quote_app. reflexivity.
Qed.

Lemma unescape_escape s : plain s -> unescape (escape s ++ chr dquote) = Some s.
Proof.
  induction s as [|c s IH]; [reflexivity|]. intros [Hc Hs]. specialize (IH Hs). rewrite escape_app_cases.
  destruct (Ascii.eqb c dquote || Ascii.eqb c backslash) eqn:E.
  - cbn [unescape]. rewrite Ascii.eqb_refl, E, IH. reflexivity.
  - apply orb_false_iff in E. destruct E as [E1 E2].
    assert (E3 : Ascii.eqb c "$" = false) by (apply Ascii.eqb_neq; intros ->; apply Hc; cbn; auto).
    assert (E4 : Ascii.eqb c "@" = false) by (apply Ascii.eqb_neq; intros ->; apply Hc; cbn; auto).
    destruct (escape s ++ chr dquote)%string as [|d r] eqn:Ed; [destruct (escape s); discriminate|].
    cbn [unescape]. cbn [unescape] in IH. rewrite E1, E2, E3, E4. cbn [orb]. rewrite IH. reflexivity.
Qed.

Lemma has_break_app a b : has_break (a ++ b) = has_break a || has_break b.
Proof. induction a as [|c a IH]; cbn; auto. rewrite IH. apply orb_assoc. Qed.

Lemma plain_break s : plain s -> has_break (quoted s) = false.
Proof.
  intros H. unfold quoted. rewrite !has_break_app. cbn [chr has_break].
  enough (has_break (escape s) = false) as -> by reflexivity.
  induction s as [|c s IH]; [reflexivity|]. destruct H as [Hc Hs]. specialize (IH Hs).
  assert (E : is_break c = false).
  { unfold is_break. apply orb_false_iff. split; apply Ascii.eqb_neq; intros ->; apply Hc; cbn; auto. }
  cbn [escape]. destruct (Ascii.eqb c dquote || Ascii.eqb c backslash); cbn [has_break]; rewrite E, IH; reflexivity.
Qed.

Lemma lines_app s : forall line rest, has_break s = false ->
  lines (s ++ newline ++ rest) line = (line ++ s)%string :: lines rest "".
Proof.
  induction s as [|c s IH]; intros line rest H; cbn [append].
  - now rewrite sappend_nil.
  - cbn [has_break] in H. apply orb_false_iff in H. destruct H as [H1 H2].
    unfold is_break in H1. apply orb_false_iff in H1. destruct H1 as [H1 _].
    cbn [lines]. rewrite H1, IH; auto. rewrite sappend_assoc. reflexivity.
Qed.

(** The tests in the order in which they are listed, with the name of their fixture *)
Definition listed (iter : fixture -> list test) (r : runner) : list (string * test) :=
  flat_map (fun nf => map (pair (fst nf)) (iter (snd nf))) r.

Lemma concat_app a b : String.concat "" (a ++ b) = (String.concat "" a ++ String.concat "" b)%string.
Proof. induction a as [|x a IH]; [reflexivity|]. cbn [List.app]. now rewrite !concat_cons, IH, sappend_assoc. Qed.

Lemma listing_listed iter r : listing iter r =
  String.concat "" (map (fun nt => (quoted (fst nt) ++ " - " ++ quoted (t_name (snd nt)) ++ newline)%string) (listed iter r)).
Proof.
  unfold listing, listed. induction r as [|[n f] r IH]; [reflexivity|].
  cbn [map flat_map]. rewrite concat_cons, IH, map_app, concat_app. f_equal.
  unfold list_fixture. cbn [fst snd]. now rewrite map_map.
Qed.

(** [list] writes one line for each registered test, and from it CTest gets the command to run
    that test, with the names as they were declared. *)
Theorem C67_commands iter r : (forall n t, In (n, t) (listed iter r) -> plain n /\ plain (t_name t)) ->
  ctest_commands (listing iter r) = map (fun nt => Some ["run"; fst nt; t_name (snd nt)]) (listed iter r).
Proof.
  rewrite listing_listed. generalize (listed iter r). intros l H. unfold ctest_commands.
  induction l as [|[n t] l IH]; [reflexivity|]. cbn [map]. rewrite concat_cons. cbn [fst snd].
  destruct (H n t) as [Hn Ht]; [left; auto|].
  rewrite !sappend_assoc.
  replace (quoted n ++ " - " ++ quoted (t_name t) ++ newline ++ String.concat "" (map (fun nt => (quoted (fst nt) ++ " - " ++ quoted (t_name (snd nt)) ++ newline)%string) l))%string
    with ((quoted n ++ " - " ++ quoted (t_name t)) ++ newline ++ String.concat "" (map (fun nt => (quoted (fst nt) ++ " - " ++ quoted (t_name (snd nt)) ++ newline)%string) l))%string
    by (now rewrite !sappend_assoc).
  assert (Hb : has_break (quoted n ++ " - " ++ quoted (t_name t)) = false).
  { rewrite !has_break_app, !plain_break; auto. }
  rewrite lines_app; auto. cbn [map]. f_equal.
  - change ("" ++ (quoted n ++ " - " ++ quoted (t_name t)))%string with (quoted n ++ " - " ++ quoted (t_name t))%string.
    unfold ctest_command. rewrite Hb, C67_split. unfold cmake_argument, quoted. cbn [chr append].
    rewrite Ascii.eqb_refl, !unescape_escape; auto.
  - apply IH. intros n' t' H'. apply H. right. auto.
Qed.

Lemma listed_in iter r n t : (forall f, Permutation f (iter f)) ->
  (In (n, t) (listed iter r) <-> exists f, In (n, f) r /\ In t f).
Proof.
  intros Hi. unfold listed. rewrite in_flat_map. split.
  - intros [[m f] [H1 H2]]. apply in_map_iff in H2. cbn in H2. destruct H2 as [t' [[= <- <-] H2]].
    exists f. split; auto. eapply Permutation_in; [symmetry; apply Hi|exact H2].
  - intros [f [H1 H2]]. exists (n, f). split; auto. apply in_map. eapply Permutation_in; [apply Hi|exact H2].
Qed.

(** From the file that the build writes, CTest gets a command for each declared test and no other;
    all of them succeed iff the program run without arguments succeeds. *)
Theorem C67_ctest iter can_open signed static_on p l r x file : can_open file = true -> (forall f, Permutation f (iter f)) ->
  builds signed static_on p = true -> names_fixtures p -> interleaving p l -> startup l [] = Some r ->
  (forall f n b, declared p f n b -> plain f /\ plain n) ->
  exists text cmds, exec iter can_open r [x; "list"; file] = Finished (Exit true) "" (Some (file, text)) /\
    ctest_commands text = map Some cmds /\
    NoDup cmds /\ (forall c, In c cmds <-> exists f n b, declared p f n b /\ c = ["run"; f; n]) /\
    (Forall (fun c => f_ended (exec iter can_open r (x :: c)) = Exit true) cmds <->
     f_ended (exec iter can_open r [x]) = Exit true).
Proof.
  intros Hopen Hi Hb Hf Hl Hst Hplain. destruct (C64_registered_partial _ _ _ _ Hb Hf Hl) as [r' [E [Hw [Hreg _]]]].
  rewrite Hst in E. injection E as <-.
  assert (Hlist : forall n t, In (n, t) (listed iter r) <-> declared p n (t_name t) (t_func t)).
  { intros n t. rewrite listed_in; auto. rewrite <- Hreg. unfold registered. destruct t. reflexivity. }
  exists (listing iter r), (map (fun nt => ["run"; fst nt; t_name (snd nt)]) (listed iter r)).
  split; [cbn; now rewrite Hopen|]. split; [|split; [|split]].
  - rewrite C67_commands, map_map; auto. intros n t H. apply Hlist in H. eauto.
  - destruct Hw as [Hs Hu]. apply sorted_nodup in Hs.
    assert (Hn : NoDup (map (fun nt => (fst nt, t_name (snd nt))) (listed iter r))).
    { clear -Hs Hu Hi. induction r as [|[n f] r IH]; cbn in *; [constructor|]. inversion Hs; subst. inversion Hu; subst.
      unfold listed. cbn [flat_map fst snd]. rewrite map_app, map_map. cbn.
      assert (Happ : forall (A : Type) (a b : list A), NoDup a -> NoDup b -> (forall x, In x a -> ~ In x b) -> NoDup (a ++ b)).
      { intros A a b Ha Hb Hd. induction Ha as [|y a Hy Ha IHa]; cbn; auto. constructor.
        - rewrite in_app_iff. intros [H|H]; [auto|]. eapply Hd; [left; reflexivity|exact H].
        - apply IHa. intros z Hz. apply Hd. right. exact Hz. }
      apply Happ.
      - assert (NoDup (map t_name (iter f))) by (eapply Permutation_NoDup; [apply Permutation_map, Hi|assumption]).
        rewrite <- map_map. apply FinFun.Injective_map_NoDup with (f := fun y => (n, y)); auto. intros a b [= ->]. auto.
      - apply IH; auto.
      - intros y H5 H6. apply in_map_iff in H5, H6. destruct H5 as [t1 [<- _]]. destruct H6 as [[m t2] [E H6]]. cbn in E.
        injection E as -> _. apply listed_in in H6; auto. destruct H6 as [f' [H6 _]]. apply H1. now apply (in_map fst) in H6. }
    rewrite <- (map_map (fun nt => (fst nt, t_name (snd nt))) (fun fn => ["run"; fst fn; snd fn])).
    apply FinFun.Injective_map_NoDup; auto. intros [a1 a2] [b1 b2] [= -> ->]. auto.
  - intros c. rewrite in_map_iff. split.
    + intros [[n t] [<- H]]. apply Hlist in H. cbn. eauto.
    + intros [f [n [b [H ->]]]]. exists (f, Test n b). split; auto. apply Hlist. exact H.
  - destruct (C66_exit_partial iter Hi can_open r [x] _ Hw (Sel_default r x)) as [-> _].
    rewrite Forall_map, !Forall_forall. split.
    + intros H t Ht. apply in_concat in Ht. destruct Ht as [f [Hf1 Ht]]. apply in_map_iff in Hf1. destruct Hf1 as [[n f'] [<- Hf1]].
      cbn in Ht. specialize (H (n, t)). cbn in H.
      destruct (C66_exit_partial iter Hi can_open r _ _ Hw (Sel_test r x n f' t Hf1 Ht)) as [E _].
      assert (Forall passes [t]) by (apply E, H; apply listed_in; eauto). now inversion H0.
    + intros H [n t] Hnt. apply listed_in in Hnt; auto. destruct Hnt as [f [Hf1 Ht]].
      apply (C66_exit_partial iter Hi can_open r _ _ Hw (Sel_test r x n f t Hf1 Ht)).
      constructor; [|constructor]. apply H. apply in_concat. exists f. split; auto. now apply (in_map snd) in Hf1.
Qed.

(** Names with quotes, backslashes and the separator itself *)
Definition odd_names : runner := [("a ""b"" \", [Test "x"" - ""y" []; Test " - " []; Test """ - " []])].
Example C67_case : ctest_commands (listing (@rev test) odd_names) =
  [Some ["run"; "a ""b"" \"; """ - "]; Some ["run"; "a ""b"" \"; " - "]; Some ["run"; "a ""b"" \"; "x"" - ""y"]].
Proof. vm_compute. reflexivity. Qed.
Example C67_case_plain : (forall n t, In (n, t) (listed (@rev test) odd_names) -> plain n /\ plain (t_name t)) /\
  (forall f : fixture, Permutation f (rev f)).
Proof.
  split; [|exact (@Permutation_rev test)]. intros n t H. cbn in H.
  destruct H as [[= <- <-]|[[= <- <-]|[[= <- <-]|[]]]]; cbn; intuition discriminate.
Qed.
(** A name over two lines makes no command. *)
Example C67_case_break : ctest_commands (listing (fun f => f) [("a", [Test ("x" ++ newline ++ "y")%string []])]) = [None; None].
Proof. vm_compute. reflexivity. Qed.

Print Assumptions C63_own_assertions.
Print Assumptions C63_exception.
Print Assumptions C63_one_course.
Print Assumptions C64_registered_partial.
Print Assumptions C64_builds_but_terminated_refuted.
Print Assumptions C65_one_character_partial.
Print Assumptions C65_common_ending_partial.
Print Assumptions C65_distinct_refuted.
Print Assumptions C65_same_name_refuted.
Print Assumptions C66_exit_partial.
Print Assumptions C66_report.
Print Assumptions C66_wrong_arguments.
Print Assumptions C66_missing_test_refuted.
Print Assumptions C66_static.
Print Assumptions C67_split.
Print Assumptions C67_commands.
Print Assumptions C67_ctest.
