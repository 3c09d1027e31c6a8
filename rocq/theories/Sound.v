(** * Every run is a derivation; well-formed programs reach neither UB nor ill-formed code *)
From Coq Require Import String List Arith ZArith Bool Lia.
From Verif Require Import Types Compound Parser Outcome CompoundFacts Exec Mono Derive Typing Join Leaves.
Import ListNotations.
Local Open Scope outcome_scope.

(** [wpu bad ub x Q]: if [x] returns, [Q] holds of the value; UB implies [ub] and ill-formedness [bad];
    exceptions and running out of fuel are allowed. *)
Definition wpu {A} (bad ub : Prop) (x : outcome A) (Q : A -> Prop) : Prop :=
  match x with Done a _ => Q a | UB => ub | Exn _ => True | OOF => True | Ill => bad end.
Notation wp bad := (wpu bad bad).

Lemma wp_bind {A B} bad ub (x : outcome A) (f : A -> outcome B) Q :
  wpu bad ub x (fun a => wpu bad ub (f a) Q) -> wpu bad ub (bind x f) Q.
Proof. destruct x; cbn; auto. destruct (f a); cbn; auto. Qed.

Lemma wp_mono {A} bad ub (x : outcome A) (P Q : A -> Prop) :
  wpu bad ub x P -> (forall a, P a -> Q a) -> wpu bad ub x Q.
Proof. destruct x; cbn; auto. Qed.

Lemma wp_ret {A} bad ub (a : A) (Q : A -> Prop) : Q a -> wpu bad ub (ret a) Q.
Proof. auto. Qed.

(** ** Spans over readable storage *)
Definition adv (i : span) (c : nat) : span := Span (sp_blk i) (sp_off i + c) (sp_len i - c).

Lemma adv_0 i : adv i 0 = i.
Proof. destruct i. unfold adv. cbn. f_equal; lia. Qed.

Lemma adv_adv i c c' : adv (adv i c) c' = adv i (c + c').
Proof. unfold adv. cbn. f_equal; lia. Qed.

(** [x] is what remains of [i0] after some prefix. *)
Definition suffix (i0 x : span) : Prop := exists c, c <= sp_len i0 /\ x = adv i0 c.

Lemma suffix_refl i : suffix i i.
Proof. exists 0. split; [lia|]. now rewrite adv_0. Qed.

Lemma suffix_trans a b c : suffix a b -> suffix b c -> suffix a c.
Proof.
  intros (n & Hn & ->) (k & Hk & ->). exists (n + k). cbn in Hk. split; [lia|]. apply adv_adv.
Qed.

Lemma suffix_blk a b : suffix a b -> sp_blk b = sp_blk a.
Proof. now intros (n & _ & ->). Qed.

Lemma adv_suffix i c : c <= sp_len i -> suffix i (adv i c).
Proof. intros. exists c. auto. Qed.

#[global] Hint Resolve suffix_refl suffix_trans adv_suffix : core.

Section Sound.
Context {T V : Type} (E : env T V).

(** The span lies inside its storage block. *)
Definition valid (i : span) : Prop := sp_off i + sp_len i <= List.length (mem E (sp_blk i)).

Lemma suffix_valid a b : suffix a b -> valid a -> valid b.
Proof. intros (c & Hc & ->). unfold valid. cbn. lia. Qed.

(** What a returned result says. *)
Definition okres (m : mode) (p : parser T) (i : span) (r : presult) : Prop :=
  match r_ok r with
  | None => r_rem r = i
  | Some v => suffix i (r_rem r) /\ derives E (sp_blk i) m p (sp_off i) (sp_off (r_rem r)) v
  end.

(** Reads *)
Lemma read_valid i : valid i -> sp_len i <> 0 ->
  exists c, nth_error (mem E (sp_blk i)) (sp_off i) = Some c /\ front E i = ret c.
Proof.
  unfold valid, front, read. intros Hv Hn.
  destruct (Nat.eqb_spec (sp_len i) 0); [contradiction|].
  destruct (nth_error (mem E (sp_blk i)) (sp_off i)) as [c|] eqn:Hc; [eauto|].
  apply nth_error_None in Hc. lia.
Qed.

Lemma eq_loop_spec b arr : forall o, o + List.length arr <= List.length (mem E b) ->
  exists x, eq_loop E arr b o = ret x /\ (x = true <-> matches_at E b arr o).
Proof.
  induction arr as [|t arr IH]; intros o Ho; cbn [eq_loop matches_at].
  - exists true. cbn. tauto.
  - cbn in Ho. unfold read. destruct (nth_error (mem E b) o) as [c|] eqn:Hc.
    2: { apply nth_error_None in Hc. lia. }
    rewrite bind_ret. destruct (eqv E t c) eqn:He.
    + destruct (IH (S o)) as (x & Hx & Hiff); [lia|]. exists x. split; auto. rewrite Hiff.
      split; [intros; split; eauto|tauto].
    + exists false. split; auto. split; [discriminate|]. intros ((c' & [= <-] & He') & _). congruence.
Qed.

Lemma contains_spec arr c : contains E arr c = true <-> exists t, In t arr /\ eqv E t c = true.
Proof. unfold contains. apply existsb_exists. Qed.

Lemma contains_false arr c : contains E arr c = false <-> forall t, In t arr -> eqv E t c = false.
Proof.
  split.
  - intros H t Ht. destruct (eqv E t c) eqn:He; auto.
    assert (contains E arr c = true) by (apply contains_spec; eauto). congruence.
  - intros H. destruct (contains E arr c) eqn:Hc; auto. apply contains_spec in Hc as (t & Ht & He).
    rewrite H in He; auto.
Qed.

(** The element parsers: failure condition and length *)
Definition elementary (p : parser T) : option ((span -> outcome bool) * nat) :=
  match p with
  | PAnything => Some (anything_fc, 1)
  | _ => as_basic E p
  end.

Lemma as_basic_elementary p x : as_basic E p = Some x -> elementary p = Some x.
Proof. destruct p; cbn; auto; discriminate. Qed.

Definition matched (p : parser T) (b lo len : nat) : Prop :=
  forall m, derives E b m p lo (lo + len) (in_mode m (VSpan (Span b lo len))).

Lemma fc_spec p fc len i : elementary p = Some (fc, len) -> valid i ->
  exists x, fc i = ret x /\
    (x = false <-> len <= sp_len i /\ matched p (sp_blk i) (sp_off i) len).
Proof.
  intros Hp Hv. destruct p; try discriminate; injection Hp as <- <-.
  - unfold any_of_fc. destruct (Nat.eqb_spec (sp_len i) 0) as [H0|H0].
    + exists true. split; auto. split; [discriminate|]. lia.
    + destruct (read_valid i Hv H0) as (c & Hc & ->). rewrite bind_ret. eexists. split; [reflexivity|].
      rewrite negb_false_iff, contains_spec. split.
      * intros Ht. split; [lia|]. intros m. rewrite Nat.add_1_r. econstructor; eauto.
      * intros [_ Hm]. specialize (Hm Look). inversion Hm; subst.
        replace c with c0 in * by congruence. eauto.
  - unfold none_of_fc. destruct (Nat.eqb_spec (sp_len i) 0) as [H0|H0].
    + exists true. split; auto. split; [discriminate|]. lia.
    + destruct (read_valid i Hv H0) as (c & Hc & ->). rewrite bind_ret. eexists. split; [reflexivity|].
      rewrite contains_false. split.
      * intros Ht. split; [lia|]. intros m. rewrite Nat.add_1_r. econstructor; eauto.
      * intros [_ Hm]. specialize (Hm Look). inversion Hm; subst.
        replace c with c0 in * by congruence. auto.
  - unfold all_of_fc. destruct (Nat.ltb_spec (sp_len i) (List.length arr)) as [H0|H0].
    + exists true. split; auto. split; [discriminate|]. lia.
    + unfold first. destruct (Nat.leb_spec (List.length arr) (sp_len i)); [|lia]. rewrite bind_ret.
      unfold span_equal. cbn [sp_len sp_blk sp_off]. rewrite Nat.eqb_refl.
      destruct (eq_loop_spec (sp_blk i) arr (sp_off i)) as (x & -> & Hx).
      { unfold valid in Hv. lia. }
      rewrite bind_ret. eexists. split; [reflexivity|]. rewrite negb_false_iff, Hx. split.
      * intros Hm. split; [lia|]. intros m. now constructor.
      * intros [_ Hm]. specialize (Hm Look). inversion Hm; subst. auto.
  - unfold anything_fc. exists (sp_len i =? 0). split; auto. rewrite Nat.eqb_neq. split.
    + intros H0. split; [lia|]. intros m. rewrite Nat.add_1_r.
      destruct (read_valid i Hv H0) as (c & Hc & _). econstructor; eauto.
    + intros [H _]. lia.
Qed.

Lemma elementary_ty p x : elementary p = Some x -> result_for E p = Some TSpan.
Proof. destruct p; try discriminate; reflexivity. Qed.

(** Two spellings of joining neighbours *)
Lemma nonempty_const b len : forall n lo,
  (len = 0 /\ nonempty (map (fun k => Span b (lo + k * len) len) (seq 0 n)) = []) \/
  (len <> 0 /\ nonempty (map (fun k => Span b (lo + k * len) len) (seq 0 n))
               = map (fun k => Span b (lo + k * len) len) (seq 0 n)).
Proof.
  intros n lo. unfold nonempty.
  destruct (Nat.eq_dec len 0) as [->|Hn]; [left|right]; split; auto; generalize (seq 0 n) as l;
    induction l; cbn; auto.
  destruct (Nat.eqb_spec len 0); [contradiction|]. cbn. now rewrite IHl.
Qed.

Lemma tiles_const b len n : forall lo,
  tiles b lo (lo + n * len) (map (fun k => Span b (lo + k * len) len) (seq 0 n)).
Proof.
  assert (H : forall s lo, tiles b (lo + s * len) (lo + (s + n) * len)
                             (map (fun k => Span b (lo + k * len) len) (seq s n))).
  { induction n as [|n IH]; intros s lo; cbn [seq map].
    - rewrite Nat.add_0_r. constructor.
    - constructor. replace (lo + s * len + len) with (lo + S s * len) by lia.
      replace (s + S n) with (S s + n) by lia. apply IH. }
  intros lo. specialize (H 0 lo). now rewrite Nat.mul_0_l, !Nat.add_0_r, Nat.add_0_l in H.
Qed.

(** The spans of [n] consecutive matches of length [len] *)
Definition run_spans (b lo len n : nat) : list val :=
  map (fun k => VSpan (Span b (lo + k * len) len)) (seq 0 n).

Lemma run_spans_leaves b lo len n :
  flat_map leaves (run_spans b lo len n) = map (fun k => Span b (lo + k * len) len) (seq 0 n).
Proof.
  unfold run_spans. rewrite flat_map_concat_map, map_map. cbn [leaves].
  induction (seq 0 n); cbn; auto. now rewrite IHl.
Qed.

Lemma run_spans_jval b lo len n : Forall jval (run_spans b lo len n).
Proof.
  unfold run_spans. apply Forall_forall. intros v Hv. apply in_map_iff in Hv as (k & <- & _). constructor.
Qed.

Lemma run_spans_join C b lo len n :
  (C = VVec \/ C = VArr) ->
  join_executor (C (run_spans b lo len n)) (Span b (lo + n * len) 0)
  = Done (Some (Span b lo (n * len))) [].
Proof.
  intros HC.
  assert (Hj : jval (C (run_spans b lo len n))).
  { destruct HC as [-> | ->]; constructor; apply run_spans_jval. }
  assert (Hl : leaves (C (run_spans b lo len n)) = map (fun k => Span b (lo + k * len) len) (seq 0 n)).
  { rewrite <- run_spans_leaves. destruct HC as [-> | ->]; reflexivity. }
  apply (join_executor_some b); auto; rewrite Hl.
  - intros s Hs _. apply in_map_iff in Hs as (k & <- & _). reflexivity.
  - destruct (nonempty_const b len n lo) as [[H0 H]|[H0 H]]; rewrite H.
    + left. split; auto. cbn. subst. f_equal; lia.
    + destruct n as [|n].
      * left. split; auto. cbn. f_equal; lia.
      * right. split; [discriminate|]. exists lo, (lo + S n * len). split.
        -- apply tiles_const.
        -- f_equal; lia.
Qed.

(** The executor never records an event, and looks only at the position of [rem]. *)
Lemma try_join_trace v : forall j o tr, try_join v j = Done o tr -> tr = [].
Proof.
  assert (HM : forall l, Forall (fun v => forall j o tr, try_join v j = Done o tr -> tr = []) l ->
     forall j o tr, try_join_many l j = Done o tr -> tr = []).
  { clear v; induction 1 as [|v l H _ IH]; intros j o tr; cbn [try_join_many]; [now intros [= _ <-]|].
    destruct (try_join v j) as [[[|] j1] tr1| | | |] eqn:Hv; cbn; try discriminate.
    - destruct (try_join_many l j1) as [o2 tr2| | | |] eqn:Hl; cbn; try discriminate.
      intros [= _ <-]. apply H in Hv. apply IH in Hl. now subst.
    - intros [= _ <-]. apply H in Hv. now subst. }
  induction v using val_ind'; cbn [try_join]; fold try_join_many; intros j o' tr Hd;
    try discriminate; eauto.
  - unfold try_join_span in Hd. destruct (sp_len s =? 0); [now injection Hd|].
    destruct j; [|now injection Hd]. destruct (negb _); [discriminate|].
    destruct (Z.eqb _ _); now injection Hd.
Qed.

Lemma join_executor_trace v rem o tr : join_executor v rem = Done o tr -> tr = [].
Proof.
  unfold join_executor. destruct (try_join v None) as [[[|] [|]] tr1| | | |] eqn:Hv; cbn; try discriminate;
    apply try_join_trace in Hv; subst; now intros [= _ <-].
Qed.

Lemma join_executor_rem v rem rem' : sp_blk rem = sp_blk rem' -> sp_off rem = sp_off rem' ->
  join_executor v rem = join_executor v rem'.
Proof. intros H1 H2. unfold join_executor. now rewrite H1, H2. Qed.

(** ** Main induction *)
Variables bad ub : Prop.
Hypothesis bad_ub : bad -> ub.

(** Every join reachable from [p] is over a parser whose functions are local. *)
Definition join_local (p : parser T) : Prop := forall q, reach E p (PJoin q) -> local_parser E q.

(** The hypotheses under which nothing bad happens. *)
Definition ok (m : mode) (p : parser T) : Prop :=
  bad \/ (compiles E m p = true /\ (m = Parse -> ub \/ join_local p) /\ env_typed E /\ env_customs E).

Definition fok (m : mode) (q : parser T) (f : pfun) : Prop :=
  forall i, valid i -> wpu bad ub (f i) (okres m q i).

Lemma join_local_comp p q : join_local p -> In q (components E p) -> join_local q.
Proof. intros H Hin r Hr. apply H. econstructor; eauto. Qed.

Lemma val_of q t b lo hi v : ok Parse q -> result_for E q = Some t -> t <> TVoid ->
  derives E b Parse q lo hi v -> bad \/ exists w, v = RVal w.
Proof.
  intros [Hb|(Hc & _ & HT & HC)] Hr Ht Hd; [now left|right].
  destruct (derives_typed E HT HC b q lo hi v Hc Hd) as (t' & Hr' & Hv).
  replace t' with t in * by congruence. destruct v; [contradiction|eauto].
Qed.

(** Repetition *)
Lemma rep_loop_ok m q t f i0 : fok m q f -> valid i0 ->
  (t <> TVoid -> forall lo hi v, derives E (sp_blk i0) m q lo hi v -> bad \/ exists w, v = RVal w) ->
  forall k i b s n vs, suffix i0 i ->
  dchain E (sp_blk i0) (repeat (m, q) n) (sp_off i0) (sp_off i) vs -> collect t VVec vs b ->
  (s = true <-> n <> 0) ->
  wpu bad ub (rep_loop f k i b s) (fun '(i', b', s') => exists n' vs', suffix i0 i' /\
    dchain E (sp_blk i0) (repeat (m, q) n') (sp_off i0) (sp_off i') vs' /\ collect t VVec vs' b' /\
    (s' = true <-> n' <> 0) /\ (s' = false -> i' = i0)).
Proof.
  intros Hf Hv0 Hval. induction k as [|k IH]; intros i b s n vs Hs Hd Hc Hsn; cbn [rep_loop]; [exact I|].
  apply wp_bind. eapply wp_mono; [apply Hf; eapply suffix_valid; eauto|].
  intros [[v|] rem] Hok; cbn in Hok |- *.
  - destruct Hok as [Hs' Hd']. rewrite (suffix_blk _ _ Hs) in Hd'.
    assert (Hd2 : dchain E (sp_blk i0) (repeat (m, q) (S n)) (sp_off i0) (sp_off rem) (vs ++ [v])).
    { replace (repeat (m, q) (S n)) with (repeat (m, q) n ++ [(m, q)]).
      - eapply dchain_app; eauto. econstructor; eauto. constructor.
      - change [(m, q)] with (repeat (m, q) 1). now rewrite <- repeat_app, Nat.add_1_r. }
    apply wp_bind. destruct Hc as [[-> ->]|(Ht & ws & -> & ->)].
    + cbn. eapply IH; eauto. left; auto. split; auto.
    + destruct (Hval Ht _ _ _ Hd') as [Hb|[w ->]].
      * destruct v; cbn; [exact Hb|]. eapply IH; eauto; [|split; auto].
        right. split; auto. exists (ws ++ [v]). rewrite map_app. auto.
      * cbn. eapply IH; eauto; [|split; auto].
        right. split; auto. exists (ws ++ [w]). rewrite map_app. auto.
  - subst rem. exists n, vs. repeat split; auto; try tauto.
    intros ->. assert (n = 0) by (destruct n; auto; destruct Hsn as [_ H]; now discriminate H).
    subst n. destruct Hs as (c & Hc2 & ->). inversion Hd as [? Hlo|]; subst.
    cbn in *. replace c with 0 by lia. apply adv_0.
Qed.

(** Fixed count *)
Definition arrb (t : ty) (n : nat) (vs : list rv) (b : rv) : Prop :=
  (t = TVoid /\ b = RVoid) \/
  (t <> TVoid /\ exists ws, vs = map RVal ws /\
     b = RVal (VArr (ws ++ repeat (default_val t) (n - List.length ws)))).

Lemma upd_app {A} (l1 : list A) x l2 y : upd (l1 ++ x :: l2) (List.length l1) y = l1 ++ y :: l2.
Proof. induction l1; cbn; auto. now rewrite IHl1. Qed.

Lemma exactly_loop_ok m q t f i0 N : fok m q f -> valid i0 ->
  (t <> TVoid -> forall lo hi v, derives E (sp_blk i0) m q lo hi v -> bad \/ exists w, v = RVal w) ->
  forall k i b j vs, j + k = N -> suffix i0 i ->
  dchain E (sp_blk i0) (repeat (m, q) j) (sp_off i0) (sp_off i) vs -> arrb t N vs b ->
  wpu bad ub (exactly_loop f k j i b) (fun o => match o with
    | None => True
    | Some (i', b') => exists vs', suffix i0 i' /\
        dchain E (sp_blk i0) (repeat (m, q) N) (sp_off i0) (sp_off i') vs' /\ collect t VArr vs' b'
    end).
Proof.
  intros Hf Hv0 Hval. induction k as [|k IH]; intros i b j vs Hjk Hs Hd Hc; cbn [exactly_loop].
  - cbn. rewrite Nat.add_0_r in Hjk. subst j. exists vs. repeat split; auto.
    destruct Hc as [[-> ->]|(Ht & ws & -> & ->)]; [left; auto|]. right. split; auto.
    exists ws. split; auto. apply dchain_length in Hd. rewrite repeat_length, map_length in Hd.
    rewrite <- Hd, Nat.sub_diag. cbn. now rewrite app_nil_r.
  - apply wp_bind. eapply wp_mono; [apply Hf; eapply suffix_valid; eauto|].
    intros [[v|] rem] Hok; cbn in Hok |- *; auto.
    destruct Hok as [Hs' Hd']. rewrite (suffix_blk _ _ Hs) in Hd'.
    assert (Hd2 : dchain E (sp_blk i0) (repeat (m, q) (S j)) (sp_off i0) (sp_off rem) (vs ++ [v])).
    { replace (repeat (m, q) (S j)) with (repeat (m, q) j ++ [(m, q)]).
      - eapply dchain_app; eauto. econstructor; eauto. constructor.
      - change [(m, q)] with (repeat (m, q) 1). now rewrite <- repeat_app, Nat.add_1_r. }
    apply wp_bind. destruct Hc as [[-> ->]|(Ht & ws & -> & ->)].
    + cbn. eapply IH; eauto; [lia|]. left; auto.
    + assert (Hlen : List.length ws = j).
      { apply dchain_length in Hd. rewrite repeat_length, map_length in Hd. auto. }
      assert (Hv : forall w, v = RVal w -> wpu bad ub
        (b_array_assign j (RVal (VArr (ws ++ repeat (default_val t) (N - List.length ws)))) v)
        (fun b' => wpu bad ub (exactly_loop f k (S j) rem b') (fun o => match o with
    | None => True
    | Some (i', b') => exists vs', suffix i0 i' /\
        dchain E (sp_blk i0) (repeat (m, q) N) (sp_off i0) (sp_off i') vs' /\ collect t VArr vs' b'
    end))).
      { intros w ->. cbn [b_array_assign]. rewrite app_length, repeat_length.
        destruct (Nat.ltb_spec j (List.length ws + (N - List.length ws))); [|lia]. cbn [wp ret].
        replace (N - List.length ws) with (S (N - S j)) by lia. cbn [repeat].
        replace (upd _ j w) with (ws ++ w :: repeat (default_val t) (N - S j)).
        2: { subst j. now rewrite upd_app. }
        eapply IH; eauto; [lia|]. right. split; auto. exists (ws ++ [w]). rewrite map_app. split; auto.
        do 2 f_equal. rewrite <- app_assoc. cbn. do 3 f_equal. rewrite app_length. cbn. lia. }
      destruct (Hval Ht _ _ _ Hd') as [Hb|[w ->]]; [|eapply Hv; eauto].
      destruct v; [exact Hb|eapply Hv; eauto].
Qed.

(** Sequences *)
Lemma tuple_of_store ws d ds w : store CSequence (unwrapped (map (fun _ => TVoid) (ws ++ d :: ds)))
  (List.length ws) (tuple_of (ws ++ d :: ds)) (RVal w) = ret (tuple_of (ws ++ w :: ds)).
Proof.
  destruct ws as [|a [|a' ws]].
  - destruct ds; reflexivity.
  - reflexivity.
  - cbn [app map unwrapped store]. cbn [tuple_of b_get_assign].
    match goal with |- context [List.length (a :: a' :: ws) <? ?n] =>
      destruct (Nat.ltb_spec (List.length (a :: a' :: ws)) n) as [H|H] end.
    + do 3 f_equal. apply (upd_app (a :: a' :: ws)).
    + cbn in H. rewrite app_length in H. cbn in H. lia.
Qed.

Lemma unwrapped_map {A B} (f : A -> ty) (g : B -> ty) l l' : List.length l = List.length l' ->
  unwrapped (map f l) = unwrapped (map g l').
Proof. destruct l as [|? [|]], l' as [|? [|]]; cbn; intros; auto; discriminate. Qed.

Lemma exec_and_ok (rec : mode -> parser T -> pfun) i0 tys0 tys : valid i0 ->
  forall ps, Forall2 (fun p t => fok (part_mode t) p (rec (part_mode t) p) /\
     (t <> TVoid -> forall lo hi v, derives E (sp_blk i0) Parse p lo hi v -> bad \/ exists w, v = RVal w)) ps tys ->
  forall ps0 vs ws i, suffix i0 i -> dchain E (sp_blk i0) (parts tys0 ps0) (sp_off i0) (sp_off i) vs ->
  List.length ps0 = List.length tys0 ->
  kept tys0 vs ws ->
  wpu bad ub (exec_and rec (unwrapped (nonvoid (tys0 ++ tys))) (combine ps (seq_from (List.length ws) tys))
            (i, tuple_of (ws ++ map default_val (nonvoid tys))))
    (fun '(okb, (i', b')) => okb = true -> exists vs' ws', suffix i0 i' /\
       dchain E (sp_blk i0) (parts (tys0 ++ tys) (ps0 ++ ps)) (sp_off i0) (sp_off i') vs' /\
       kept (tys0 ++ tys) vs' ws' /\ b' = tuple_of ws').
Proof.
  intros Hv0. revert tys0. induction tys as [|t tys IH]; intros tys0 ps HF ps0 vs ws i Hs Hd Hl Hk;
    inversion HF as [|p ? ps' ? [Hf Hval] HF']; subst; cbn [seq_from combine exec_and].
  - cbn. intros _. exists vs, ws. rewrite !app_nil_r. auto.
  - assert (Happ : forall (l : list ty), tys0 ++ t :: l = (tys0 ++ [t]) ++ l) by (intros; now rewrite <- app_assoc).
    assert (Happ' : forall (l : list (parser T)), ps0 ++ p :: l = (ps0 ++ [p]) ++ l) by (intros; now rewrite <- app_assoc).
    assert (Hparts : parts (tys0 ++ [t]) (ps0 ++ [p]) = parts tys0 ps0 ++ [(part_mode t, p)]).
    { unfold parts. rewrite map_app. clear -Hl. revert ps0 Hl. induction tys0; intros [|]; cbn; try discriminate; auto.
      intros [= H]. now rewrite IHtys0. }
    assert (Hkn : List.length ws = List.length (nonvoid tys0)).
    { clear -Hk. induction Hk; cbn; auto. apply is_void_false in H. rewrite H. cbn. auto. }
    assert (Hsnoc : forall v w', kept (tys0 ++ [t]) (vs ++ [v]) w' \/ True) by auto. clear Hsnoc.
    unfold part_mode in *. destruct (is_void t) eqn:Ht; cbn [combine exec_and nonvoid filter negb];
      rewrite ?Ht; cbn [negb combine exec_and].
    + apply is_void_spec in Ht. subst t. apply wp_bind. cbn [execute]. apply wp_bind.
      eapply wp_mono; [apply Hf; eapply suffix_valid; eauto|].
      intros [[v|] rem] Hok; cbn in Hok |- *; [|discriminate].
      destruct Hok as [Hs' Hd']. rewrite (suffix_blk _ _ Hs) in Hd'.
      specialize (IH (tys0 ++ [TVoid]) ps' HF' (ps0 ++ [p]) (vs ++ [v]) ws rem).
      rewrite <- Happ, <- Happ' in IH. apply IH; eauto.
      * rewrite Hparts. eapply dchain_app; eauto. econstructor; eauto. constructor.
      * rewrite !app_length; cbn; lia.
      * clear -Hk. induction Hk; cbn; try (constructor; auto). repeat constructor.
    + apply is_void_false in Ht. apply wp_bind. cbn [execute]. apply wp_bind.
      eapply wp_mono; [apply Hf; eapply suffix_valid; eauto|].
      intros [[v|] rem] Hok; cbn [r_ok r_rem] in Hok |- *; [|cbn; discriminate].
      unfold okres in Hok; cbn [r_ok r_rem] in Hok.
      destruct Hok as [Hs' Hd']. rewrite (suffix_blk _ _ Hs) in Hd'.
      assert (Hv : forall w, v = RVal w -> wpu bad ub
         (b' <- store CSequence (unwrapped (nonvoid (tys0 ++ t :: tys))) (List.length ws)
            (tuple_of (ws ++ map default_val (t :: nonvoid tys))) v;; ret (true, (rem, b')))
         (fun a => wpu bad ub (let (b, st') := a in
            if b then exec_and rec (unwrapped (nonvoid (tys0 ++ t :: tys)))
                        (combine ps' (seq_from (S (List.length ws)) tys)) st'
            else ret (false, st'))
           (fun '(okb, (i', b')) => okb = true -> exists vs' ws', suffix i0 i' /\
       dchain E (sp_blk i0) (parts (tys0 ++ t :: tys) (ps0 ++ p :: ps')) (sp_off i0) (sp_off i') vs' /\
       kept (tys0 ++ t :: tys) vs' ws' /\ b' = tuple_of ws'))).
      { intros w ->. cbn [map].
        replace (unwrapped (nonvoid (tys0 ++ t :: tys)))
          with (unwrapped (map (fun _ => TVoid) (ws ++ default_val t :: map default_val (nonvoid tys)))) at 1.
        2: { rewrite <- (map_id (nonvoid (tys0 ++ t :: tys))). apply unwrapped_map.
             unfold nonvoid at 2. rewrite filter_app. cbn. apply is_void_false in Ht. rewrite Ht. cbn.
             rewrite !app_length. cbn. rewrite map_length. fold nonvoid. unfold nonvoid in Hkn |- *. lia. }
        rewrite tuple_of_store, bind_ret. cbn [wp ret].
        specialize (IH (tys0 ++ [t]) ps' HF' (ps0 ++ [p]) (vs ++ [RVal w]) (ws ++ [w]) rem).
        rewrite <- Happ, <- Happ' in IH.
        rewrite (app_length ws [w]) in IH. cbn [List.length] in IH.
        rewrite (Nat.add_1_r (List.length ws)) in IH. rewrite <- app_assoc in IH. apply IH; eauto.
        - rewrite Hparts. eapply dchain_app; eauto. econstructor; eauto. constructor.
        - rewrite !app_length; cbn; lia.
        - clear -Hk Ht. induction Hk; cbn; try (constructor; auto); constructor; auto. }
      destruct (Hval Ht _ _ _ Hd') as [Hb|[w ->]]; [|eapply Hv; eauto].
      destruct v as [|w]; [|eapply Hv; eauto].
      destruct (bind _ _) eqn:Hx; cbn; auto.
      exfalso. revert Hx. unfold store. destruct (unwrapped _); cbn [b_assign b_get_assign].
      all: destruct (tuple_of _) as [|[]] eqn:Hto; cbn; try discriminate.
      all: destruct ws as [|x1 [|x2 ws]]; cbn in Hto; try discriminate;
           try (destruct (nonvoid tys); cbn in Hto; discriminate).
Qed.

Lemma exec_and_look_ok (rec : mode -> parser T -> pfun) i0 unw b : valid i0 ->
  forall ps, Forall (fun p => fok Look p (rec Look p)) ps -> forall i, suffix i0 i ->
  wpu bad ub (exec_and rec unw (map (fun p => (p, None)) ps) (i, b))
    (fun '(okb, (i', _)) => okb = true -> suffix i0 i' /\ exists vs,
       dchain E (sp_blk i0) (map (pair Look) ps) (sp_off i) (sp_off i') vs).
Proof.
  intros Hv0. induction 1 as [|p ps Hf _ IH]; intros i Hs; cbn [map exec_and].
  - cbn. intros _. split; auto. exists []. constructor.
  - apply wp_bind. cbn [execute]. apply wp_bind. eapply wp_mono; [apply Hf; eapply suffix_valid; eauto|].
    intros [[v|] rem] Hok; cbn in Hok |- *; [|discriminate].
    destruct Hok as [Hs' Hd']. rewrite (suffix_blk _ _ Hs) in Hd'.
    eapply wp_mono; [apply IH; eauto|]. intros [okb [i' b']] H Hok. destruct (H Hok) as [H1 [vs H2]].
    split; auto. exists (v :: vs). econstructor; eauto.
Qed.

(** Choices *)
Lemma exec_or_ok (rec : mode -> parser T -> pfun) i unw b : valid i ->
  forall l, Forall (fun '(p, idx) => fok (mode_of_index idx) p (rec (mode_of_index idx) p)) l ->
  (forall p k, In (p, Some k) l -> (exists x, b = RVal x /\ (unw = false -> exists a c, x = VVar a c)) /\
     forall lo hi v, derives E (sp_blk i) Parse p lo hi v -> bad \/ exists w, v = RVal w) ->
  wpu bad ub (exec_or rec unw l (i, b))
    (fun '(okb, (i', b')) => okb = true -> suffix i i' /\ exists j p idx,
       nth_error l j = Some (p, idx) /\
       match idx with
       | None => b' = b /\ exists v, derives E (sp_blk i) Look p (sp_off i) (sp_off i') v
       | Some k => exists w, derives E (sp_blk i) Parse p (sp_off i) (sp_off i') (RVal w) /\
                             b' = RVal (if unw then w else VVar k w)
       end).
Proof.
  intros Hv0. induction 1 as [|[p idx] l Hf _ IH]; intros Hval; cbn [exec_or].
  - cbn. discriminate.
  - assert (IH' : wpu bad ub (exec_or rec unw l (i, b))
      (fun '(okb, (i', b')) => okb = true -> suffix i i' /\ exists j p0 idx0,
       nth_error ((p, idx) :: l) j = Some (p0, idx0) /\
       match idx0 with
       | None => b' = b /\ exists v, derives E (sp_blk i) Look p0 (sp_off i) (sp_off i') v
       | Some k => exists w, derives E (sp_blk i) Parse p0 (sp_off i) (sp_off i') (RVal w) /\
                             b' = RVal (if unw then w else VVar k w)
       end)).
    { eapply wp_mono; [apply IH; intros; apply Hval with (k := k); now right|].
      intros [okb [i' b']] H Hok. destruct (H Hok) as (H1 & j & H2). split; auto. exists (S j). exact H2. }
    apply wp_bind. destruct idx as [k|]; cbn [execute mode_of_index] in *.
    + apply wp_bind. eapply wp_mono; [apply Hf; auto|].
      intros [[v|] rem] Hok; unfold okres in Hok; cbn [r_ok r_rem] in Hok |- *; [|exact IH'].
      destruct Hok as [Hs Hd]. destruct (Hval p k (or_introl eq_refl)) as [(x & -> & Hx) Hv].
      assert (HH : forall w, v = RVal w -> store CChoice unw k (RVal x) v
                 = ret (RVal (if unw then w else VVar k w))).
      { intros w ->. unfold store. destruct unw; [reflexivity|].
        destruct (Hx eq_refl) as (a & c & ->). reflexivity. }
      assert (HG : forall w, v = RVal w -> wpu bad ub (b' <- store CChoice unw k (RVal x) v;; ret (true, (rem, b')))
         (fun a => wpu bad ub (let (b0, st') := a in if b0 then ret (true, st') else exec_or rec unw l st')
      (fun '(okb, (i', b')) => okb = true -> suffix i i' /\ exists j p0 idx0,
       nth_error ((p, Some k) :: l) j = Some (p0, idx0) /\
       match idx0 with
       | None => b' = RVal x /\ exists v, derives E (sp_blk i) Look p0 (sp_off i) (sp_off i') v
       | Some k => exists w, derives E (sp_blk i) Parse p0 (sp_off i) (sp_off i') (RVal w) /\
                             b' = RVal (if unw then w else VVar k w)
       end))).
      { intros w Hw. rewrite (HH w Hw), bind_ret. cbn. intros _. split; auto. exists 0, p, (Some k).
        split; auto. exists w. subst. auto. }
      destruct (Hv _ _ _ Hd) as [Hb|[w Hw]]; [|eapply HG; eauto].
      destruct v as [|w]; [|eapply HG; eauto].
      assert (Hill : store CChoice unw k (RVal x) RVoid = Ill).
      { unfold store. destruct unw; [reflexivity|]. destruct (Hx eq_refl) as (a & c & ->). reflexivity. }
      rewrite Hill. exact Hb.
    + apply wp_bind. eapply wp_mono; [apply Hf; auto|].
      intros [[v|] rem] Hok; unfold okres in Hok; cbn [r_ok r_rem] in Hok; cbn.
      * intros _. destruct Hok as [Hs Hd]. split; auto. exists 0, p, None. split; auto. split; eauto.
      * subst rem. exact IH'.
Qed.

(** Delimit *)
Lemma interleave_snoc {A} (x d y : A) l :
  interleave x (l ++ [(d, y)]) = interleave x l ++ [d; y].
Proof. revert x. induction l as [|[a c] l IH]; intros x; cbn; auto. now rewrite IH. Qed.

Lemma delim_parts_snoc m (q d : parser T) n :
  delim_parts m q d (S n) = delim_parts m q d n ++ [(m, d); (m, q)].
Proof.
  unfold delim_parts. rewrite <- interleave_snoc. f_equal.
  change [(m, d, (m, q))] with (repeat (m, d, (m, q)) 1). rewrite <- repeat_app. f_equal. lia.
Qed.

Lemma delim_value_p tp td pvs dvs b v : delim_value tp td pvs dvs b ->
  (tp <> TVoid -> bad \/ exists w, v = RVal w) ->
  wpu bad ub (if is_void tp then ret b else if is_void td then b_insert_back b v else b_insert_back_first b v)
     (fun b' => delim_value tp td (pvs ++ [v]) dvs b').
Proof.
  intros H Hv. inversion H; subst; cbn.
  - constructor.
  - pose proof (proj2 (is_void_false tp) H0) as Hi. rewrite Hi.
    assert (HH : forall w, v = RVal w -> delim_value tp TVoid (map RVal ps ++ [v]) dvs (RVal (VVec (ps ++ [w])))).
    { intros w ->. change [RVal w] with (map RVal [w]). rewrite <- map_app. now constructor. }
    destruct v; cbn; auto. destruct (Hv H0) as [Hb|[w Hw]]; auto. discriminate.
  - constructor; auto.
  - pose proof (proj2 (is_void_false tp) H0) as Hi. rewrite Hi.
    pose proof (proj2 (is_void_false td) H1) as Hj. rewrite Hj.
    assert (HH : forall w, v = RVal w -> delim_value tp td (map RVal ps ++ [v]) (map RVal ds)
              (RVal (VPair (VVec (ps ++ [w])) (VVec ds)))).
    { intros w ->. change [RVal w] with (map RVal [w]). rewrite <- map_app. now constructor. }
    destruct v; cbn; auto. destruct (Hv H0) as [Hb|[w Hw]]; auto. discriminate.
Qed.

Lemma delim_value_d tp td pvs dvs b v : delim_value tp td pvs dvs b ->
  (td <> TVoid -> bad \/ exists w, v = RVal w) ->
  wpu bad ub (if is_void td then ret b else if is_void tp then b_insert_back b v else b_insert_back_second b v)
     (fun b' => delim_value tp td pvs (dvs ++ [v]) b').
Proof.
  intros H Hv. inversion H; subst; cbn.
  - constructor.
  - constructor; auto.
  - pose proof (proj2 (is_void_false td) H0) as Hi. rewrite Hi.
    assert (HH : forall w, v = RVal w -> delim_value TVoid td pvs (map RVal ds ++ [v]) (RVal (VVec (ds ++ [w])))).
    { intros w ->. change [RVal w] with (map RVal [w]). rewrite <- map_app. now constructor. }
    destruct v; cbn; auto. destruct (Hv H0) as [Hb|[w Hw]]; auto. discriminate.
  - pose proof (proj2 (is_void_false tp) H0) as Hi. rewrite Hi.
    pose proof (proj2 (is_void_false td) H1) as Hj. rewrite Hj.
    assert (HH : forall w, v = RVal w -> delim_value tp td (map RVal ps) (map RVal ds ++ [v])
              (RVal (VPair (VVec ps) (VVec (ds ++ [w]))))).
    { intros w ->. change [RVal w] with (map RVal [w]). rewrite <- map_app. now constructor. }
    destruct v; cbn; auto. destruct (Hv H1) as [Hb|[w Hw]]; auto. discriminate.
Qed.

Definition delim_done m q d tp td (i0 i : span) (b : rv) : Prop :=
  suffix i0 i /\ exists v0 prs,
    dchain E (sp_blk i0) (delim_parts m q d (List.length prs)) (sp_off i0) (sp_off i) (interleave v0 prs) /\
    delim_value tp td (v0 :: map snd prs) (map fst prs) b.

(** the last P has matched up to [i], but its value has not been stored yet *)
Definition delim_pend m q d tp td (i0 i : span) (v b : rv) : Prop :=
  suffix i0 i /\ exists v0 prs pvs,
    dchain E (sp_blk i0) (delim_parts m q d (List.length prs)) (sp_off i0) (sp_off i) (interleave v0 prs) /\
    v0 :: map snd prs = pvs ++ [v] /\
    delim_value tp td pvs (map fst prs) b.

Lemma delim_loop_ok m q d tp td fp fd i0 : fok m q fp -> fok m d fd -> valid i0 ->
  (tp <> TVoid -> forall lo hi v, derives E (sp_blk i0) m q lo hi v -> bad \/ exists w, v = RVal w) ->
  (td <> TVoid -> forall lo hi v, derives E (sp_blk i0) m d lo hi v -> bad \/ exists w, v = RVal w) ->
  forall k res i b,
  (match r_ok res with
   | None => delim_done m q d tp td i0 i b
   | Some v => (tp <> TVoid -> bad \/ exists w, v = RVal w) /\
               delim_pend m q d tp td i0 (r_rem res) v b
   end) ->
  wpu bad ub (delim_loop fp fd (is_void tp) (is_void td) k res i b)
    (fun '(i', b') => delim_done m q d tp td i0 i' b').
Proof.
  intros Hfp Hfd Hv0 Hvp Hvd. induction k as [|k IH]; intros [ro rem] i b Hinv; cbn [delim_loop r_ok r_rem]; [exact I|].
  cbn [r_ok r_rem] in Hinv. destruct ro as [v|]; [|exact Hinv].
  destruct Hinv as (Hw & Hs & v0 & prs & pvs & Hc & Hl & Hb).
  apply wp_bind. eapply wp_mono; [apply delim_value_p; eauto|]. intros b1 Hb1. cbn.
  rewrite <- Hl in Hb1.
  assert (Hdone : delim_done m q d tp td i0 rem b1) by (split; eauto).
  apply wp_bind. eapply wp_mono; [apply Hfd; eapply suffix_valid; eauto|].
  intros [[w|] remd] Hokd; unfold okres in Hokd; cbn [r_ok r_rem] in Hokd |- *; [|exact Hdone].
  destruct Hokd as [Hsd Hdd]. rewrite (suffix_blk _ _ Hs) in Hdd.
  apply wp_bind. eapply wp_mono; [apply Hfp; apply (suffix_valid i0); eauto|].
  intros [[v'|] remp] Hokp; unfold okres in Hokp; cbn [r_ok r_rem has_value] in Hokp |- *.
  - destruct Hokp as [Hsp Hdp].
    assert (Hblk : sp_blk remd = sp_blk i0) by (apply suffix_blk; eauto). rewrite Hblk in Hdp.
    apply wp_bind.
    eapply wp_mono; [apply (delim_value_d tp td (v0 :: map snd prs) (map fst prs) b1 w); eauto|].
    intros b2 Hb2. apply IH. cbn [r_ok r_rem]. split; [eauto|]. split; [eauto|].
    exists v0, (prs ++ [(w, v')]), (v0 :: map snd prs). split; [|split].
    + rewrite app_length. cbn [List.length]. rewrite Nat.add_1_r, delim_parts_snoc, interleave_snoc.
      eapply dchain_app; eauto. econstructor; eauto. econstructor; eauto. constructor.
    + now rewrite map_app.
    + rewrite map_app. exact Hb2.
  - subst remp.
    assert (Hif : (if is_void td then ret b1 else ret b1) = ret b1) by now destruct (is_void td).
    rewrite Hif, bind_ret. apply IH. exact Hdone.
Qed.

(** Specialised joins *)
Lemma jr_loop_ok q fc len i0 : elementary q = Some (fc, len) -> valid i0 ->
  forall k n res i, i = adv i0 (n * len) -> n * len <= sp_len i0 ->
  res = Span (sp_blk i0) (sp_off i0) (n * len) ->
  (forall m, dchain E (sp_blk i0) (repeat (m, q) n) (sp_off i0) (sp_off i)
     (map (in_mode m) (run_spans (sp_blk i0) (sp_off i0) len n))) ->
  wpu bad ub (jr_loop fc len k res i) (fun '(res', i') => exists n', n <= n' /\
    n' * len <= sp_len i0 /\ i' = adv i0 (n' * len) /\ res' = Span (sp_blk i0) (sp_off i0) (n' * len) /\
    (forall m, dchain E (sp_blk i0) (repeat (m, q) n') (sp_off i0) (sp_off i')
       (map (in_mode m) (run_spans (sp_blk i0) (sp_off i0) len n')))).
Proof.
  intros Hq Hv0. induction k as [|k IH]; intros n res i -> Hn -> Hd; cbn [jr_loop]; [exact I|].
  assert (Hs : suffix i0 (adv i0 (n * len))) by auto.
  destruct (fc_spec q fc len (adv i0 (n * len)) Hq) as (x & -> & Hx); [eapply suffix_valid; eauto|].
  rewrite bind_ret. destruct x.
  - cbn. exists n. auto.
  - destruct Hx as [Hx _]. destruct (Hx eq_refl) as [Hle Hm]. cbn [sp_len sp_blk sp_off adv] in Hle, Hm.
    unfold advance. destruct (Nat.leb_spec len (sp_len (adv i0 (n * len)))) as [_|Hlt];
      [|cbn in Hlt; lia]. rewrite bind_ret.
    eapply wp_mono; [eapply (IH (S n)); cbn [Nat.mul]|].
    + unfold adv; cbn. f_equal; lia.
    + lia.
    + cbn. f_equal; lia.
    + intros m. cbn [sp_off]. rewrite <- Nat.add_1_r, repeat_app. unfold run_spans.
      rewrite seq_app, !map_app. eapply dchain_app; [apply Hd|]. cbn.
      econstructor; [|constructor]. apply Hm.
    + intros [res' i'] (n' & H1 & H2). exists n'. split; [lia|auto].
Qed.

Lemma jx_loop_ok q fc len i0 : elementary q = Some (fc, len) -> valid i0 ->
  forall k n res i, i = adv i0 (n * len) -> n * len <= sp_len i0 ->
  res = Span (sp_blk i0) (sp_off i0) (n * len) ->
  (forall m, dchain E (sp_blk i0) (repeat (m, q) n) (sp_off i0) (sp_off i)
     (map (in_mode m) (run_spans (sp_blk i0) (sp_off i0) len n))) ->
  wpu bad ub (jx_loop fc len k res i) (fun o => match o with
    | None => True
    | Some (res', i') => let n' := n + k in
    n' * len <= sp_len i0 /\ i' = adv i0 (n' * len) /\ res' = Span (sp_blk i0) (sp_off i0) (n' * len) /\
    (forall m, dchain E (sp_blk i0) (repeat (m, q) n') (sp_off i0) (sp_off i')
       (map (in_mode m) (run_spans (sp_blk i0) (sp_off i0) len n')))
    end).
Proof.
  intros Hq Hv0. induction k as [|k IH]; intros n res i -> Hn -> Hd; cbn [jx_loop].
  - cbn [wp ret]. rewrite Nat.add_0_r. auto.
  - assert (Hs : suffix i0 (adv i0 (n * len))) by auto.
    destruct (fc_spec q fc len (adv i0 (n * len)) Hq) as (x & -> & Hx); [eapply suffix_valid; eauto|].
    rewrite bind_ret. destruct x; [exact I|].
    destruct Hx as [Hx _]. destruct (Hx eq_refl) as [Hle Hm]. cbn [sp_len sp_blk sp_off adv] in Hle, Hm.
    unfold advance. destruct (Nat.leb_spec len (sp_len (adv i0 (n * len)))) as [_|Hlt];
      [|cbn in Hlt; lia]. rewrite bind_ret.
    replace (n + S k) with (S n + k) by lia.
    eapply (IH (S n)); cbn [Nat.mul].
    + unfold adv; cbn. f_equal; lia.
    + lia.
    + cbn. f_equal; lia.
    + intros m. cbn [sp_off]. rewrite <- Nat.add_1_r, repeat_app. unfold run_spans.
      rewrite seq_app, !map_app. eapply dchain_app; [apply Hd|]. cbn.
      econstructor; [|constructor]. apply Hm.
Qed.

Lemma suffix_mul i0 n len : n * len <= sp_len i0 -> suffix i0 (adv i0 (n * len)).
Proof. auto. Qed.

Lemma run_spans_parse b lo len n : map (in_mode Parse) (run_spans b lo len n) = map RVal (run_spans b lo len n).
Proof. reflexivity. Qed.

Lemma join_special_ok q k f m : join_special E q k = Some f -> fok m (PJoin q) (f m).
Proof.
  intros Hq i Hv. destruct q; try discriminate; cbn [join_special] in Hq;
    (destruct (as_basic E q) as [[fc len]|] eqn:Hb; [|discriminate]);
    pose proof (as_basic_elementary _ _ Hb) as He; pose proof (elementary_ty _ _ He) as Hty.
  - (* maybe *)
    injection Hq as <-. destruct (fc_spec q fc len i He Hv) as (x & Hfc & Hx).
    destruct m; unfold jm_parse, jm_look; rewrite Hfc, bind_ret; destruct x.
    + cbn. split; auto.
      eapply D_join with (x := VOpt None).
      * cbn. rewrite Hty. reflexivity.
      * apply (D_maybe_none E (sp_blk i) q TSpan). exact Hty.
      * reflexivity.
    + destruct (proj1 Hx eq_refl) as [Hle Hm]. unfold first, advance.
      destruct (Nat.leb_spec len (sp_len i)); [|lia]. rewrite !bind_ret. cbn.
      split; [change (suffix i (adv i len)); auto|].
      eapply D_join with (x := VOpt (Some (VSpan (Span (sp_blk i) (sp_off i) len)))).
      * cbn. rewrite Hty. reflexivity.
      * eapply D_maybe_some; [exact Hty|apply (Hm Parse)|]. right. split; [discriminate|].
        eexists. split; reflexivity.
      * unfold join_executor. cbn [try_join]. unfold try_join_span. cbn [sp_len].
        destruct (Nat.eqb_spec len 0) as [->|]; cbn; [|reflexivity]. now rewrite Nat.add_0_r.
    + cbn. split; auto. eapply D_join_look, D_maybe_look_none.
    + destruct (proj1 Hx eq_refl) as [Hle Hm]. unfold advance.
      destruct (Nat.leb_spec len (sp_len i)); [|lia]. rewrite !bind_ret. cbn.
      split; [change (suffix i (adv i len)); auto|]. eapply D_join_look, D_maybe_look_some, (Hm Look).
  - (* exactly *)
    destruct (Nat.eqb_spec n 0) as [|Hn]; [discriminate|]. injection Hq as <-.
    assert (HL : wpu bad ub (jx_loop fc len n (Span (sp_blk i) (sp_off i) 0) i) (fun o => match o with
      | None => True
      | Some (res', i') => n * len <= sp_len i /\ i' = adv i (n * len) /\ res' = Span (sp_blk i) (sp_off i) (n * len) /\
        (forall m, dchain E (sp_blk i) (repeat (m, q) n) (sp_off i) (sp_off i')
           (map (in_mode m) (run_spans (sp_blk i) (sp_off i) len n)))
      end)).
    { eapply (jx_loop_ok q fc len i He Hv n 0); cbn; rewrite ?adv_0; auto; try lia. intros. constructor. }
    destruct m; unfold jx_parse, jx_look; apply wp_bind; eapply wp_mono; try exact HL;
      (intros [[res' i']|]; [|reflexivity]); intros (H1 & -> & -> & Hd); cbn; split; try (apply suffix_mul; auto).
    + eapply D_join with (x := VArr (run_spans (sp_blk i) (sp_off i) len n)).
      * cbn. rewrite Hty. reflexivity.
      * eapply D_exactly; [exact Hty|assumption|apply (Hd Parse)|]. right. split; [discriminate|]. eexists. split; reflexivity.
      * apply run_spans_join. auto.
    + eapply D_join_look, D_exactly_look; [assumption|apply (Hd Look)].
  - (* one or more *)
    injection Hq as <-. destruct (fc_spec q fc len i He Hv) as (x & Hfc & Hx).
    assert (HL : x = false -> wpu bad ub (jr_loop fc len k (Span (sp_blk i) (sp_off i) len) (adv i len))
      (fun '(res', i') => exists n', n' <> 0 /\
       n' * len <= sp_len i /\ i' = adv i (n' * len) /\ res' = Span (sp_blk i) (sp_off i) (n' * len) /\
       (forall m, dchain E (sp_blk i) (repeat (m, q) n') (sp_off i) (sp_off i')
       (map (in_mode m) (run_spans (sp_blk i) (sp_off i) len n'))))).
    { intros ->. destruct (proj1 Hx eq_refl) as [Hle Hm].
      eapply wp_mono; [eapply (jr_loop_ok q fc len i He Hv k 1); cbn; rewrite ?Nat.add_0_r; auto|].
      - intros m0. econstructor; [|constructor]. apply Hm.
      - intros [res' i'] (n' & H1 & H2). exists n'. split; [lia|auto]. }
    destruct m; unfold jo_parse, jo_look; rewrite Hfc, bind_ret; destruct x; try reflexivity;
      destruct (proj1 Hx eq_refl) as [Hle _]; unfold first, advance;
      (destruct (Nat.leb_spec len (sp_len i)); [|lia]); rewrite !bind_ret; apply wp_bind;
      (eapply wp_mono; [apply HL; reflexivity|]); intros [res' i'] (n' & Hn & H1 & -> & -> & Hd); cbn;
      (split; [apply suffix_mul; auto|]).
    + eapply D_join with (x := VVec (run_spans (sp_blk i) (sp_off i) len n')).
      * cbn. rewrite Hty. reflexivity.
      * eapply D_oom; [exact Hty|exact Hn|apply (Hd Parse)|]. right. split; [discriminate|]. eexists. split; reflexivity.
      * apply run_spans_join. auto.
    + eapply D_join_look, D_oom_look; [exact Hn|apply (Hd Look)].
  - (* zero or more *)
    injection Hq as <-.
    assert (HL : wpu bad ub (jr_loop fc len k (Span (sp_blk i) (sp_off i) 0) i)
      (fun '(res', i') => exists n',
       n' * len <= sp_len i /\ i' = adv i (n' * len) /\ res' = Span (sp_blk i) (sp_off i) (n' * len) /\
       (forall m, dchain E (sp_blk i) (repeat (m, q) n') (sp_off i) (sp_off i')
       (map (in_mode m) (run_spans (sp_blk i) (sp_off i) len n'))))).
    { eapply wp_mono; [eapply (jr_loop_ok q fc len i He Hv k 0); cbn; rewrite ?adv_0; auto; try lia|].
      - intros m0. constructor.
      - intros [res' i'] (n' & H1 & H2). exists n'. auto. }
    destruct m; unfold jz_parse, jz_look; apply wp_bind;
      (eapply wp_mono; [apply HL|]); intros [res' i'] (n' & H1 & -> & -> & Hd); cbn;
      (split; [apply suffix_mul; auto|]).
    + eapply D_join with (x := VVec (run_spans (sp_blk i) (sp_off i) len n')).
      * cbn. rewrite Hty. reflexivity.
      * eapply D_zom; [exact Hty|apply (Hd Parse)|]. right. split; [discriminate|]. eexists. split; reflexivity.
      * apply run_spans_join. auto.
    + eapply D_join_look, D_zom_look. apply (Hd Look).
Qed.


(** ** One layer *)
Lemma ok_comp m p q m' : ok m p -> In q (components E p) ->
  (compiles E m p = true -> compiles E m' q = true) -> (m' = Parse -> m = Parse) -> ok m' q.
Proof.
  intros [Hb|(Hc & Hj & HT & HC)] Hin Himp Hm; [now left|right].
  split; [auto|]. split; [|split; auto]. intros Hp.
  destruct (Hj (Hm Hp)) as [Hu|Hl]; [now left|right]. eapply join_local_comp; eauto.
Qed.
Hint Extern 1 (_ = Parse) => discriminate : core.

Ltac splitc H := repeat (apply andb_true_iff in H; let H' := fresh in destruct H as [H H']).

Lemma basic_ok p fc len m i : elementary p = Some (fc, len) -> valid i ->
  wpu bad ub (match m with Parse => basic_parse fc len i | Look => basic_look fc len i end) (okres m p i).
Proof.
  intros He Hv. destruct (fc_spec p fc len i He Hv) as (x & Hfc & Hx).
  destruct m; unfold basic_parse, basic_look; rewrite Hfc, bind_ret; destruct x; try reflexivity;
    destruct (proj1 Hx eq_refl) as [Hle Hm]; unfold first, advance;
    (destruct (Nat.leb_spec len (sp_len i)); [|lia]); rewrite !bind_ret; cbn;
    (split; [change (suffix i (adv i len)); auto|]).
  - apply (Hm Parse).
  - apply (Hm Look).
Qed.

Lemma builder_init_tup ts : Forall (fun t => t <> TVoid) ts ->
  builder_init (compound_result TTup ts) = tuple_of (map default_val ts).
Proof.
  destruct ts as [|t [|t' ts]]; intros H; cbn; auto.
  inversion H; subst. unfold builder_init. apply is_void_false in H2. now rewrite H2.
Qed.

Lemma nonvoid_forall ts : Forall (fun t => t <> TVoid) (nonvoid ts).
Proof.
  apply Forall_forall. intros t Ht. unfold nonvoid in Ht. apply filter_In in Ht as [_ Ht].
  apply negb_true_iff, is_void_false in Ht. exact Ht.
Qed.

Lemma invoke_ok f tys t args : (bad \/ env_typed E /\ fn_ty E f tys = Some t /\ Forall2 has_ty tys args) ->
  wpu bad ub (call E f args) (fun w => invoke E f args = FRet w /\ (bad \/ rv_has_ty t w)).
Proof.
  intros H. unfold call. destruct (invoke E f args) eqn:Hi; cbn; auto.
  - split; auto. destruct H as [Hb|(HT & Hf & Ha)]; auto. right.
    pose proof (invoke_typed E HT f args tys t Hf Ha) as H. now rewrite Hi in H.
  - destruct H as [Hb|(HT & Hf & Ha)]; auto.
    pose proof (invoke_typed E HT f args tys t Hf Ha) as H. rewrite Hi in H. contradiction.
Qed.

Definition rec_ok (rec : mode -> parser T -> pfun) : Prop :=
  forall m q, ok m q -> fok m q (rec m q).

Lemma choice_parse_ok rec q qs i : rec_ok rec -> ok Parse (PChoice q qs) -> valid i ->
  wpu bad ub (choice_parse E rec (q :: qs) i) (okres Parse (PChoice q qs) i).
Proof.
  intros Hrec Hok Hv. unfold choice_parse.
  destruct (result_fors E (q :: qs)) as [tys|] eqn:Hr.
  2: { destruct Hok as [Hb|(Hc & _)]; auto. cbn [compiles] in Hc. rewrite Hr in Hc. discriminate. }
  pose proof (filter_out_void_deduplicate_spec tys) as Hspec.
  destruct (unwrapped _ || emplace_ok _ _ _) eqn:Hg.
  2: { destruct Hok as [Hb|(Hc & _)]; auto. rewrite (compiles_choice_emplace E q qs tys) in Hg; auto. discriminate. }
  set (done := fst (filter_out_void_deduplicate tys)) in *.
  set (sq := snd (filter_out_void_deduplicate tys)) in *.
  assert (Hnv : forall t, In t done -> t <> TVoid).
  { intros t Ht. unfold done in Ht. rewrite Hspec in Ht. cbn in Ht. apply distinct_from_in in Ht. tauto. }
  apply wp_bind. eapply wp_mono.
  - apply exec_or_ok; auto.
    + apply Forall_forall. intros [p idx] Hin. apply In_nth_error in Hin as [j Hj].
      apply nth_error_combine in Hj as [Hj1 Hj2]. apply Hrec.
      eapply ok_comp; eauto; [cbn [components]; eapply nth_error_In; eauto|].
      intros Hc. eapply compiles_choice; eauto.
    + intros p k Hin. apply In_nth_error in Hin as [j Hj]. apply nth_error_combine in Hj as [Hj1 Hj2].
      destruct (result_fors_nth E _ _ _ _ Hr Hj1) as (t & Ht1 & Ht2).
      assert (Htv : t <> TVoid).
      { apply (dedup_from_some_nonvoid tys [] [] j k t); auto. unfold sq in Hj2. now rewrite Hspec in Hj2. }
      split.
      * assert (Hin : In t done).
        { unfold done. rewrite Hspec. cbn. apply distinct_from_in. repeat split; auto. eapply nth_error_In; eauto. }
        clearbody done. destruct done as [|a [|a' l]]; [contradiction| |].
        -- cbn [compound_result unwrapped]. unfold builder_init.
           rewrite (proj2 (is_void_false a)); [|apply Hnv; now left].
           eexists. split; [reflexivity|discriminate].
        -- cbn. eexists. split; [reflexivity|]. intros _. eauto.
      * intros lo hi v Hd. apply (val_of p t (sp_blk i) lo hi v); auto.
        eapply ok_comp; eauto; [cbn [components]; eapply nth_error_In; eauto|].
        intros Hc. apply (compiles_choice E q qs tys j p (Some k)); auto.
  - intros [[|] [i' b']] H; [|reflexivity]. destruct (H eq_refl) as (Hs & j & p & idx & Hj & Hd).
    apply nth_error_combine in Hj as [Hj1 Hj2]. cbn. split; auto. destruct idx as [k|].
    + destruct Hd as (w & Hd & ->). eapply D_choice_parse; eauto.
    + destruct Hd as (-> & v & Hd). eapply D_choice_lost; eauto.
Qed.

Lemma choice_look_ok rec q qs i : rec_ok rec -> ok Look (PChoice q qs) -> valid i ->
  wpu bad ub (choice_look E rec (q :: qs) i) (okres Look (PChoice q qs) i).
Proof.
  intros Hrec Hok Hv. unfold choice_look.
  destruct (result_fors E (q :: qs)) as [tys|] eqn:Hr.
  2: { destruct Hok as [Hb|(Hc & _)]; auto. cbn [compiles] in Hc. rewrite Hr in Hc. discriminate. }
  apply wp_bind. eapply wp_mono.
  - apply exec_or_ok; auto.
    + apply Forall_forall. intros [p idx] Hin. apply in_map_iff in Hin as (p' & [= <- <-] & Hin).
      apply Hrec. eapply ok_comp; eauto. intros Hc. eapply compiles_look_compound; eauto.
    + intros p k Hin. apply in_map_iff in Hin as (p' & [=] & Hin).
  - intros [[|] [i' b']] H; [|reflexivity]. destruct (H eq_refl) as (Hs & j & p & idx & Hj & Hd).
    apply nth_error_In, in_map_iff in Hj as (p' & [= -> <-] & Hin). cbn. split; auto.
    destruct Hd as (_ & v & Hd). eapply D_choice_look; eauto.
Qed.

Lemma sequence_parse_ok rec q qs i : rec_ok rec -> ok Parse (PSequence q qs) -> valid i ->
  wpu bad ub (sequence_parse E rec (q :: qs) i) (okres Parse (PSequence q qs) i).
Proof.
  intros Hrec Hok Hv. unfold sequence_parse.
  destruct (result_fors E (q :: qs)) as [tys|] eqn:Hr.
  2: { destruct Hok as [Hb|(Hc & _)]; auto. cbn [compiles] in Hc. rewrite Hr in Hc. discriminate. }
  rewrite filter_out_void_spec. cbn [fst snd].
  rewrite (builder_init_tup _ (nonvoid_forall tys)).
  apply wp_bind. eapply wp_mono.
  - apply (exec_and_ok rec i [] tys Hv (q :: qs)) with (ps0 := []) (vs := []) (ws := []); auto; try constructor.
    apply Forall2_nth. split; [eapply result_fors_length; eauto|]. intros j p t Hj Ht.
    assert (Hin : In p (components E (PSequence q qs))) by (cbn [components]; eapply nth_error_In; eauto).
    assert (Hokp : ok (part_mode t) p).
    { eapply ok_comp; eauto. intros Hc. eapply compiles_part; eauto. }
    split; [now apply Hrec|]. intros Htv lo hi v Hd.
    destruct (result_fors_nth E _ _ _ _ Hr Hj) as (t' & Ht1 & Ht2).
    replace t' with t in * by congruence. apply (val_of p t (sp_blk i) lo hi v); auto.
    unfold part_mode in Hokp. apply is_void_false in Htv. now rewrite Htv in Hokp.
  - intros [[|] [i' b']] H; [|reflexivity]. destruct (H eq_refl) as (vs & ws & Hs & Hd & Hk & ->).
    cbn. split; auto. eapply D_seq_parse; eauto.
Qed.

Lemma sequence_look_ok rec q qs i : rec_ok rec -> ok Look (PSequence q qs) -> valid i ->
  wpu bad ub (sequence_look E rec (q :: qs) i) (okres Look (PSequence q qs) i).
Proof.
  intros Hrec Hok Hv. unfold sequence_look.
  destruct (result_fors E (q :: qs)) as [tys|] eqn:Hr.
  2: { destruct Hok as [Hb|(Hc & _)]; auto. cbn [compiles] in Hc. rewrite Hr in Hc. discriminate. }
  apply wp_bind. eapply wp_mono.
  - apply (exec_and_look_ok rec i); auto.
    apply Forall_forall. intros p Hin. apply Hrec. eapply ok_comp; eauto.
    intros Hc. eapply compiles_look_compound; eauto.
  - intros [[|] [i' b']] H; [|reflexivity]. destruct (H eq_refl) as (Hs & vs & Hd).
    cbn. split; auto. eapply D_seq_look; eauto.
Qed.

Lemma okres_look p q i r :
  (forall lo hi v, derives E (sp_blk i) Look q lo hi v -> derives E (sp_blk i) Look p lo hi RVoid) ->
  okres Look q i r -> okres Look p i r.
Proof.
  intros H. unfold okres. destruct (r_ok r) as [v|]; auto. intros [Hs Hd]. split; auto.
  pose proof (derives_look_void _ _ _ _ _ _ _ Hd eq_refl). subst v. eauto.
Qed.

Lemma collect_init t : collect t VVec [] (builder_init (if is_void t then TVoid else TVec t)).
Proof.
  destruct (is_void t) eqn:Ht.
  - left. apply is_void_spec in Ht. auto.
  - right. apply is_void_false in Ht. split; auto. exists []. auto.
Qed.

Lemma delim_init tp td : delim_value tp td [] [] (builder_init (delimit_type tp td)).
Proof.
  unfold delimit_type. destruct (is_void td) eqn:Hd, (is_void tp) eqn:Hp; cbn;
    rewrite ?is_void_spec, ?is_void_false in *; subst.
  - constructor.
  - now apply (dv_p tp [] []).
  - now apply (dv_d td [] []).
  - now apply (dv_both tp td [] []).
Qed.

Lemma call_ok q f v t b lo hi : ok Parse q -> derives E b Parse q lo hi v ->
  (exists tq, result_for E q = Some tq /\ fn_ty E f (arg_tys tq) = Some t) ->
  wpu bad ub (call E f (args_of v)) (fun w => invoke E f (args_of v) = FRet w /\
     (bad \/ env_typed E /\ rv_has_ty t w)).
Proof.
  intros Hok Hd (tq & Hq & Hf). eapply wp_mono; [eapply invoke_ok|].
  - destruct Hok as [Hb|(Hc & _ & HT & HC)]; [now left|right].
    destruct (derives_typed E HT HC b q lo hi v Hc Hd) as (t' & Hr' & Hty).
    replace t' with tq in * by congruence. split; auto. split; eauto. now apply args_of_typed.
  - intros w [H1 H2]. split; auto. destruct H2 as [H2|H2]; auto.
    destruct Hok as [Hb|(Hc & _ & HT & HC)]; auto.
Qed.

Lemma join_list_not_ill ls : forall j, join_list ls j <> Ill.
Proof.
  induction ls as [|s ls IH]; intros j; cbn [join_list]; [discriminate|].
  unfold try_join_span. destruct (sp_len s =? 0); [rewrite bind_ret; auto|]. destruct j as [j|]; [|rewrite bind_ret; auto].
  destruct (negb (sp_blk s =? sp_blk j)); [discriminate|]. destruct (_ =? _)%Z; rewrite bind_ret; [auto|discriminate].
Qed.
Lemma join_executor_not_ill x rem : jval x -> join_executor x rem <> Ill.
Proof.
  intros Hx. unfold join_executor. rewrite try_join_spec by auto. pose proof (join_list_not_ill (leaves x) None) as H.
  destruct (join_list (leaves x) None) as [[[] []] tr| | | |]; cbn; try discriminate. contradiction.
Qed.

Lemma join_generic_ok rec m q i : rec_ok rec -> ok m (PJoin q) -> valid i ->
  wpu bad ub (join_generic E rec m q i) (okres m (PJoin q) i).
Proof.
  intros Hrec Hok Hv. unfold join_generic. destruct m.
  - assert (Hokq : ok Parse q).
    { eapply ok_comp; eauto; [now left|]. cbn [compiles]. intros H. splitc H. auto. }
    destruct (result_for E q) as [t|] eqn:Hr.
    2: { destruct Hok as [Hb|(Hc & _)]; auto. cbn [compiles] in Hc. rewrite Hr in Hc.
         rewrite andb_false_r in Hc. discriminate. }
    destruct (joinable t) eqn:Hj.
    2: { destruct Hok as [Hb|(Hc & _)]; auto. cbn [compiles] in Hc. rewrite Hr, Hj in Hc.
         rewrite andb_false_r in Hc. discriminate. }
    unfold join_parse. apply wp_bind. eapply wp_mono; [apply (Hrec _ _ Hokq); auto|].
    intros [[v|] rem] Hres; unfold okres in Hres; cbn [r_ok r_rem] in Hres |- *; [|reflexivity].
    destruct Hres as [Hs Hd].
    assert (Htv : t <> TVoid) by (intros ->; discriminate).
    destruct v as [|x].
    { destruct (val_of q t _ _ _ _ Hokq Hr Htv Hd) as [Hb|[w [=]]]. exact Hb. }
    apply wp_bind.
    assert (HD : forall s tr, join_executor x rem = Done (Some s) tr ->
        derives E (sp_blk i) Parse (PJoin q) (sp_off i) (sp_off rem) (RVal (VSpan s))).
    { intros s tr Hx. eapply D_join; eauto. pose proof (join_executor_trace _ _ _ _ Hx). subst tr.
      rewrite <- Hx. apply join_executor_rem; cbn; auto. symmetry. now apply suffix_blk. }
    destruct Hok as [Hb|(Hc & Hjl & HT & HC)].
    { destruct (join_executor x rem) as [[s|] tr| | | |] eqn:Hx; cbn; auto. split; auto. eapply HD; eauto. }
    destruct Hokq as [Hb|(Hcq & _)].
    { destruct (join_executor x rem) as [[s|] tr| | | |] eqn:Hx; cbn; auto. split; auto. eapply HD; eauto. }
    destruct (derives_typed E HT HC _ q _ _ _ Hcq Hd) as (t' & Hr' & Hty).
    replace t' with t in * by congruence. apply rv_val_inv in Hty.
    pose proof (joinable_jval t x Hj Hty) as Hjv.
    destruct (Hjl eq_refl) as [Hu|Hjl'].
    { pose proof (join_executor_not_ill x rem Hjv) as Hni.
      destruct (join_executor x rem) as [[s|] tr| | | |] eqn:Hx; cbn; auto; [|contradiction]. split; auto. eapply HD; eauto. }
    assert (Hloc : local_parser E q) by (apply Hjl'; constructor).
    destruct (derives_region E _ _ _ _ _ _ Hloc Hd) as [_ Hreg].
    destruct (join_executor_spec (sp_blk i) x rem Hjv) as [[_ Hx]|[(lo & hi & _ & _ & Hx)|(_ & _ & Hx)]].
    { intros s Hin Hlen. rewrite Forall_forall in Hreg. apply Hreg. apply nonempty_in. auto. }
    + rewrite Hx. cbn. split; auto. eapply HD; eauto.
    + rewrite Hx. cbn. split; auto. eapply HD; eauto.
    + rewrite Hx. reflexivity.
  - assert (Hokq : ok Look q) by (eapply ok_comp; eauto; now left).
    eapply wp_mono; [apply (Hrec _ _ Hokq); auto|]. intros r. apply okres_look.
    intros. eapply D_join_look; eauto.
Qed.

(** One layer of the evaluator is sound if its components are. *)
Lemma step_ok rec k m p i : rec_ok rec -> ok m p -> valid i ->
  wpu bad ub (step E rec k m p i) (okres m p i).
Proof.
  intros Hrec Hok Hv.
  destruct p; cbn [step].
  - apply (basic_ok (PAnyOf arr)); auto.
  - apply (basic_ok (PNoneOf arr)); auto.
  - apply (basic_ok (PAllOf arr)); auto.
  - apply (basic_ok PAnything); auto.
  - cbn. split; auto. constructor.
  - destruct m; [apply choice_parse_ok|apply choice_look_ok]; auto.
  - destruct m; [apply sequence_parse_ok|apply sequence_look_ok]; auto.
  - (* maybe *)
    assert (Hokq : ok m p) by (eapply ok_comp; eauto; [now left|]; cbn [compiles]; intros H; splitc H; auto).
    destruct m.
    + destruct (result_for E p) as [t|] eqn:Hr.
      2: { destruct Hok as [Hb|(Hc & _)]; auto. cbn [compiles] in Hc. rewrite Hr, andb_false_r in Hc. discriminate. }
      unfold maybe_parse. apply wp_bind. eapply wp_mono; [apply (Hrec _ _ Hokq); auto|].
      intros [[v|] rem] Hres; unfold okres in Hres; cbn [r_ok r_rem] in Hres |- *.
      * destruct Hres as [Hs Hd]. destruct (is_void t) eqn:Ht.
        -- apply is_void_spec in Ht. cbn. split; auto. eapply D_maybe_some; eauto.
        -- apply is_void_false in Ht. cbn [builder_init is_void default_val].
           destruct v as [|w].
           ++ destruct (val_of p t _ _ _ _ Hokq Hr Ht Hd) as [Hb|[w [=]]]. exact Hb.
           ++ cbn. split; auto. eapply D_maybe_some; eauto.
      * subst rem. replace (builder_init _) with (if is_void t then RVoid else RVal (VOpt None)) by now destruct (is_void t).
        cbn. split; auto. now apply D_maybe_none.
    + unfold maybe_look. apply wp_bind. eapply wp_mono; [apply (Hrec _ _ Hokq); auto|].
      intros [[v|] rem] Hres; unfold okres in Hres; cbn in Hres |- *.
      * split; [tauto|]. eapply D_maybe_look_some; apply Hres.
      * split; auto. apply D_maybe_look_none.
  - (* exactly *)
    destruct (Nat.eqb_spec n 0) as [->|Hn].
    { destruct Hok as [Hb|(Hc & _)]; auto. discriminate. }
    assert (Hokq : ok m p) by (eapply ok_comp; eauto; [now left|]; cbn [compiles]; intros H; splitc H; auto).
    destruct m.
    + destruct (result_for E p) as [t|] eqn:Hr.
      2: { destruct Hok as [Hb|(Hc & _)]; auto. cbn [compiles] in Hc. rewrite Hr, andb_false_r in Hc. discriminate. }
      unfold exactly_parse. apply wp_bind. eapply wp_mono.
      * apply (exactly_loop_ok Parse p t (rec Parse p) i n) with (vs := []); auto; try lia.
        -- intros Ht lo hi v Hd. eapply val_of; eauto.
        -- constructor.
        -- unfold arrb. destruct (is_void t) eqn:Ht.
           ++ left. apply is_void_spec in Ht. auto.
           ++ right. apply is_void_false in Ht. split; auto. exists []. split; auto. cbn. rewrite Nat.sub_0_r. reflexivity.
      * intros [[i' b']|]; [|reflexivity]. intros (vs & Hs & Hd & Hc). cbn. split; auto. eapply D_exactly; eauto.
    + unfold exactly_look. apply wp_bind. eapply wp_mono.
      * apply (exactly_loop_ok Look p TVoid (rec Look p) i n) with (vs := []); auto; try lia.
        -- intros []; reflexivity.
        -- constructor.
        -- left. auto.
      * intros [[i' b']|]; [|reflexivity]. intros (vs & Hs & Hd & Hc). cbn. split; auto. eapply D_exactly_look; eauto.
  - (* one or more *)
    assert (Hokq : ok m p) by (eapply ok_comp; eauto; [now left|]; cbn [compiles]; intros H; splitc H; auto).
    destruct m.
    + destruct (result_for E p) as [t|] eqn:Hr.
      2: { destruct Hok as [Hb|(Hc & _)]; auto. cbn [compiles] in Hc. rewrite Hr, andb_false_r in Hc. discriminate. }
      unfold one_or_more_parse. apply wp_bind. eapply wp_mono.
      * apply (rep_loop_ok Parse p t (rec Parse p) i) with (vs := []) (n := 0); auto.
        -- intros Ht lo hi v Hd. eapply val_of; eauto.
        -- constructor.
        -- apply collect_init.
        -- split; [discriminate|contradiction].
      * intros [[i' b'] [|]] (n' & vs & Hs & Hd & Hc & Hn & Hf).
        -- cbn. split; auto. apply (D_oom E (sp_blk i) p t n' _ _ vs); auto. now apply Hn.
        -- cbn. auto.
    + unfold one_or_more_look. apply wp_bind. eapply wp_mono.
      * apply (rep_loop_ok Look p TVoid (rec Look p) i) with (vs := []) (n := 0); auto.
        -- intros []; reflexivity.
        -- constructor.
        -- left. auto.
        -- split; [discriminate|contradiction].
      * intros [[i' b'] [|]] (n' & vs & Hs & Hd & Hc & Hn & Hf).
        -- cbn. split; auto. apply (D_oom_look E (sp_blk i) p n' _ _ vs); auto. now apply Hn.
        -- cbn. auto.
  - (* zero or more *)
    assert (Hokq : ok m p) by (eapply ok_comp; eauto; [now left|]; cbn [compiles]; intros H; splitc H; auto).
    destruct m.
    + destruct (result_for E p) as [t|] eqn:Hr.
      2: { destruct Hok as [Hb|(Hc & _)]; auto. cbn [compiles] in Hc. rewrite Hr, andb_false_r in Hc. discriminate. }
      unfold zero_or_more_parse. apply wp_bind. eapply wp_mono.
      * apply (rep_loop_ok Parse p t (rec Parse p) i) with (vs := []) (n := 0); auto.
        -- intros Ht lo hi v Hd. eapply val_of; eauto.
        -- constructor.
        -- apply collect_init.
        -- split; [discriminate|contradiction].
      * intros [[i' b'] s] (n' & vs & Hs & Hd & Hc & Hn & Hf). cbn. split; auto. eapply D_zom; eauto.
    + unfold zero_or_more_look. apply wp_bind. eapply wp_mono.
      * apply (rep_loop_ok Look p TVoid (rec Look p) i) with (vs := []) (n := 0); auto.
        -- intros []; reflexivity.
        -- constructor.
        -- left. auto.
        -- split; [discriminate|contradiction].
      * intros [[i' b'] s] (n' & vs & Hs & Hd & Hc & Hn & Hf). cbn. split; auto. eapply D_zom_look; eauto.
  - (* delimit *)
    assert (Hokq : ok m p1) by (eapply ok_comp; eauto; [now left|]; cbn [compiles]; intros H; splitc H; auto).
    assert (Hokd : ok m p2) by (apply (ok_comp m (PDelimit p1 p2)); [auto|right; now left| |auto]; cbn [compiles]; intros H; splitc H; auto).
    destruct m.
    + destruct (result_for E p1) as [tp|] eqn:Hp.
      2: { destruct Hok as [Hb|(Hc & _)]; auto. cbn [compiles] in Hc. rewrite Hp, andb_false_r in Hc. discriminate. }
      destruct (result_for E p2) as [td|] eqn:Hdt.
      2: { destruct Hok as [Hb|(Hc & _)]; auto. cbn [compiles] in Hc. rewrite Hp, Hdt, andb_false_r in Hc. discriminate. }
      unfold delimit_parse. apply wp_bind. eapply wp_mono; [apply (Hrec _ _ Hokq); auto|].
      intros [[v|] rem] Hres; unfold okres in Hres; cbn [r_ok r_rem has_value] in Hres |- *; [|reflexivity].
      destruct Hres as [Hs Hd]. apply wp_bind. eapply wp_mono.
      * apply (delim_loop_ok Parse p1 p2 tp td (rec Parse p1) (rec Parse p2) i); auto.
        -- intros Ht lo hi w Hw. apply (val_of p1 tp (sp_blk i) lo hi w); auto.
        -- intros Ht lo hi w Hw. apply (val_of p2 td (sp_blk i) lo hi w); auto.
        -- cbn. split; [intros Ht; eapply (val_of p1 tp); eauto|]. split; auto. exists v, [], []. repeat split.
           ++ cbn. econstructor; eauto. constructor.
           ++ apply delim_init.
      * intros [i' b'] (Hs' & v0 & prs & Hc & Hdv). cbn. split; auto. eapply D_delim; eauto.
    + unfold delimit_look. apply wp_bind. eapply wp_mono; [apply (Hrec _ _ Hokq); auto|].
      intros [[v|] rem] Hres; unfold okres in Hres; cbn [r_ok r_rem has_value] in Hres |- *; [|reflexivity].
      destruct Hres as [Hs Hd]. apply wp_bind. eapply wp_mono.
      * apply (delim_loop_ok Look p1 p2 TVoid TVoid (rec Look p1) (rec Look p2) i); auto.
        -- intros []; reflexivity.
        -- intros []; reflexivity.
        -- cbn. split; [intros []; reflexivity|]. split; auto. exists v, [], []. repeat split.
           ++ cbn. econstructor; eauto. constructor.
           ++ constructor.
      * intros [i' b'] (Hs' & v0 & prs & Hc & Hdv). cbn. split; auto. eapply D_delim_look; eauto.
  - (* ignore *)
    assert (Hokq : ok Look p) by (eapply ok_comp; eauto; now left).
    eapply wp_mono; [apply (Hrec _ _ Hokq); auto|].
    intros [[v|] rem] Hres; unfold okres in Hres |- *; cbn [r_ok r_rem] in Hres |- *; auto.
    destruct Hres as [Hs Hd]. split; auto. pose proof (derives_look_void _ _ _ _ _ _ _ Hd eq_refl). subst v.
    eapply D_ignore; eauto.
  - (* complete *)
    assert (Hokq : ok m p) by (eapply ok_comp; eauto; [now left|]; cbn [compiles]; intros H; splitc H; auto).
    unfold complete_run. apply wp_bind. eapply wp_mono; [apply (Hrec _ _ Hokq); auto|].
    intros [[v|] rem] Hres; unfold okres in Hres; cbn [r_ok r_rem has_value negb orb] in Hres |- *; [|reflexivity].
    destruct (negb (sp_len rem =? 0)); [reflexivity|]. cbn. split; [tauto|]. apply D_complete. apply Hres.
  - (* join *)
    destruct (join_special E p k) as [f|] eqn:Hsp.
    + eapply (join_special_ok p k f m); eauto.
    + now apply join_generic_ok.
  - (* map *)
    destruct m.
    + assert (Hokq : ok Parse p) by (eapply ok_comp; eauto; [now left|]; cbn [compiles]; intros H; splitc H; auto).
      destruct (result_for E (PMap p f)) as [t|] eqn:Hr.
      2: { destruct Hok as [Hb|(Hc & _)]; auto. cbn [compiles] in Hc. rewrite Hr, andb_false_r in Hc. discriminate. }
      unfold map_parse. apply wp_bind. eapply wp_mono; [apply (Hrec _ _ Hokq); auto|].
      intros [[v|] rem] Hres; unfold okres in Hres; cbn [r_ok r_rem] in Hres |- *; [|reflexivity].
      destruct Hres as [Hs Hd]. apply wp_bind. eapply wp_mono; [eapply (call_ok p f v); eauto|].
      * cbn [result_for] in Hr. destruct (result_for E p) as [tq|]; [|discriminate]. exists tq. eauto.
      * intros w Hw. cbn. split; auto. eapply D_map; eauto. apply Hw.
    + assert (Hokq : ok Look p) by (eapply ok_comp; eauto; now left).
      eapply wp_mono; [apply (Hrec _ _ Hokq); auto|]. intros r. apply okres_look. intros. eapply D_map_look; eauto.
  - (* filter *)
    destruct m.
    + assert (Hokq : ok Parse p) by (eapply ok_comp; eauto; [now left|]; cbn [compiles]; intros H; splitc H; auto).
      destruct (result_for E (PFilter p f)) as [t|] eqn:Hr.
      2: { destruct Hok as [Hb|(Hc & _)]; auto. cbn [compiles] in Hc. rewrite Hr, andb_false_r in Hc. discriminate. }
      unfold filter_parse. apply wp_bind. eapply wp_mono; [apply (Hrec _ _ Hokq); auto|].
      intros [[v|] rem] Hres; unfold okres in Hres; cbn [r_ok r_rem] in Hres |- *; [|reflexivity].
      destruct Hres as [Hs Hd].
      cbn [result_for] in Hr. destruct (result_for E p) as [tq|] eqn:Hq; [|discriminate].
      destruct (fn_ty E f (arg_tys tq)) as [tb|] eqn:Hf; [|discriminate].
      destruct (bool_ok E tb) eqn:Hbo; [|discriminate].
      apply wp_bind. eapply wp_mono; [eapply (call_ok p f v) with (t := tb); eauto|].
      intros w [Hw Hty]. destruct w as [|c].
      * destruct Hty as [Hb|[HT Hty]]; auto. cbn in Hty. subst tb.
        exfalso. exact (et_bool E HT TVoid Hbo eq_refl).
      * destruct (as_bool E c) eqn:Hc; cbn; [|reflexivity]. split; auto. eapply D_filter; eauto.
    + assert (Hokq : ok Look p) by (eapply ok_comp; eauto; now left).
      eapply wp_mono; [apply (Hrec _ _ Hokq); auto|]. intros r. apply okres_look. intros. eapply D_filter_look; eauto.
  - (* named *)
    assert (Hokq : ok m p) by (eapply ok_comp; eauto; now left).
    eapply wp_mono; [apply (Hrec _ _ Hokq); auto|].
    intros [[v|] rem] Hres; unfold okres in Hres |- *; cbn [r_ok r_rem] in Hres |- *; auto.
    destruct Hres as [Hs Hd]. split; auto. now apply D_named.
  - (* custom *)
    assert (Hokq : ok m (cust_body E c)).
    { destruct Hok as [Hb|(Hc & Hj & HT & HC)]; [now left|right]. split; [apply HC|]. split; [|auto].
      intros Hm. destruct (Hj Hm) as [Hu|Hl]; [now left|right]. eapply join_local_comp; eauto. now left. }
    destruct m.
    + unfold custom_parse. apply wp_bind. eapply wp_mono; [apply (Hrec _ _ Hokq); auto|].
      intros [ro rem] Hres; unfold okres in Hres; cbn [r_ok r_rem] in Hres |- *.
      destruct (cust_conv E c) as [|t|t] eqn:Hcv.
      * destruct ro as [v|]; [|exact Hres]. destruct Hres as [Hs Hd]. split; auto. now apply D_custom.
      * assert (Hty : bad \/ env_typed E /\ exists tb, result_for E (cust_body E c) = Some tb /\ tb <> TVoid /\
            ct_ok E t [tb] = true).
        { destruct Hok as [Hb|(_ & _ & HT & HC)]; [now left|right]. split; auto.
          pose proof (ec_conv E HC c) as H. rewrite Hcv in H. destruct H as (_ & _ & H). exact H. }
        destruct ro as [[|v]|]; [| |exact Hres]; destruct Hres as [Hs Hd].
        -- destruct Hty as [Hb|(HT & tb & Hr & Htv & _)]; auto.
           destruct (val_of _ tb _ _ _ _ Hokq Hr Htv Hd) as [Hb|[w [=]]]. exact Hb.
        -- apply wp_bind. eapply wp_mono; [apply (invoke_ok (FConstruct t) (match result_for E (cust_body E c) with Some tb => [tb] | None => [] end) t)|].
           ++ destruct Hty as [Hb|(HT & tb & Hr & Htv & Hct)]; [now left|].
              destruct Hokq as [Hb|(Hcq & _ & _ & HC)]; [now left|right].
              rewrite Hr. split; auto. cbn [fn_ty]. rewrite Hct. split; auto.
              destruct (derives_typed E HT HC _ _ _ _ _ Hcq Hd) as (t' & Hr' & Hv').
              replace t' with tb in * by congruence. repeat constructor. now apply rv_val_inv.
           ++ intros w [Hw _]. cbn. split; auto. eapply D_custom_elem; eauto.
      * assert (Hty : bad \/ env_typed E /\ exists tb, result_for E (cust_body E c) = Some tb /\ tb <> TVoid /\
            ct_ok E t [TOpt tb] = true).
        { destruct Hok as [Hb|(_ & _ & HT & HC)]; [now left|right]. split; auto.
          pose proof (ec_conv E HC c) as H. rewrite Hcv in H. destruct H as (_ & _ & H). exact H. }
        destruct ro as [[|v]|].
        -- destruct Hres as [Hs Hd]. destruct Hty as [Hb|(HT & tb & Hr & Htv & _)]; auto.
           destruct (val_of _ tb _ _ _ _ Hokq Hr Htv Hd) as [Hb|[w [=]]]. exact Hb.
        -- destruct Hres as [Hs Hd].
           apply wp_bind. eapply wp_mono; [apply (invoke_ok (FConstruct t) (match result_for E (cust_body E c) with Some tb => [TOpt tb] | None => [] end) t)|].
           ++ destruct Hty as [Hb|(HT & tb & Hr & Htv & Hct)]; [now left|].
              destruct Hokq as [Hb|(Hcq & _ & _ & HC)]; [now left|right].
              rewrite Hr. split; auto. cbn [fn_ty]. rewrite Hct. split; auto.
              destruct (derives_typed E HT HC _ _ _ _ _ Hcq Hd) as (t' & Hr' & Hv').
              replace t' with tb in * by congruence. repeat constructor. cbn. now apply rv_val_inv.
           ++ intros w [Hw _]. cbn. split; auto. eapply D_custom_whole; eauto.
        -- subst rem.
           apply wp_bind. eapply wp_mono; [apply (invoke_ok (FConstruct t) (match result_for E (cust_body E c) with Some tb => [TOpt tb] | None => [] end) t)|].
           ++ destruct Hty as [Hb|(HT & tb & Hr & Htv & Hct)]; [now left|right].
              rewrite Hr. split; auto. cbn [fn_ty]. rewrite Hct. split; auto. repeat constructor.
           ++ intros w [Hw _]. cbn. split; auto. eapply D_custom_whole_fail; eauto.
    + eapply wp_mono; [apply (Hrec _ _ Hokq); auto|]. intros r. apply okres_look. intros. eapply D_custom_look; eauto.
Qed.

Theorem run_ok n : forall m p i, ok m p -> valid i -> wpu bad ub (run E n m p i) (okres m p i).
Proof.
  induction n as [|n IH]; intros m p i Hok Hv; cbn [run]; [exact I|].
  apply step_ok; auto. intros m' q Hq i' Hv'. now apply IH.
Qed.
End Sound.

Section Corollaries.
Context {T V : Type} (E : env T V).

(** Partial correctness, for every environment and parser. *)
Theorem run_sound n m p i r tr : valid E i -> run E n m p i = Done r tr -> okres E m p i r.
Proof.
  intros Hv Hr. assert (H : wp True (run E n m p i) (okres E m p i)) by (apply run_ok; auto; now left).
  now rewrite Hr in H.
Qed.

(** Compiling programs over well-typed environments. *)
Theorem run_safe n m p i : valid E i -> compiles E m p = true -> join_local E p ->
  env_typed E -> env_customs E -> run E n m p i <> UB /\ run E n m p i <> Ill.
Proof.
  intros Hv Hc Hj HT HC.
  assert (H : wp False (run E n m p i) (okres E m p i)) by (apply run_ok; auto; right; auto).
  destruct (run E n m p i); split; try discriminate; intros _; exact H.
Qed.

(** Whatever its joins are given, a program that compiles does not turn out ill-formed. *)
Theorem run_compiled n m p i : valid E i -> compiles E m p = true -> env_typed E -> env_customs E -> run E n m p i <> Ill.
Proof.
  intros Hv Hc HT HC Hr. assert (H : wpu False True (run E n m p i) (okres E m p i)) by (apply run_ok; auto; right; auto).
  rewrite Hr in H. exact H.
Qed.

(** Lookahead joins nothing, so nothing has to be local. *)
Theorem look_safe n p i : valid E i -> compiles E Look p = true -> env_typed E -> env_customs E ->
  run E n Look p i <> UB /\ run E n Look p i <> Ill.
Proof.
  intros Hv Hc HT HC.
  assert (H : wp False (run E n Look p i) (okres E Look p i)).
  { apply run_ok; auto. right. split; [auto|]. split; [discriminate|auto]. }
  destruct (run E n Look p i); split; try discriminate; intros _; exact H.
Qed.

Theorem evals_sound m p i r tr : valid E i -> evals E m p i (Done r tr) -> okres E m p i r.
Proof. intros Hv [_ [n Hn]]. eapply run_sound; eauto. Qed.
End Corollaries.
