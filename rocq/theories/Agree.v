(** * parse and lookahead of the same parser, step by step *)
From Coq Require Import String List Arith ZArith Bool Lia.
From Verif Require Import Types Compound Parser Outcome CompoundFacts Exec Mono Derive Typing Join Leaves Sound
  Peg Elems Lossless.
Import ListNotations.
Local Open Scope outcome_scope.

(** If the parse returns, so does the lookahead, silently, and the results are related; if
    the parse is still running, so is the lookahead.  Nothing is said when the parse throws. *)
Definition agr {A B} (R : A -> B -> Prop) (x : outcome A) (y : outcome B) : Prop :=
  match x with Done a _ => exists b, y = Done b [] /\ R a b | OOF => y = OOF | _ => True end.

Lemma agr_bind {A B A' B'} (R : A -> B -> Prop) (S : A' -> B' -> Prop) x y f g :
  agr R x y -> (forall a b, R a b -> agr S (f a) (g b)) -> agr S (bind x f) (bind y g).
Proof.
  intros Hx Hf. destruct x as [a tr| |e| |]; cbn in *; auto.
  - destruct Hx as (b & -> & HR). specialize (Hf a b HR). cbn. destruct (f a) as [a' tr'| |e| |]; cbn in *; auto.
    + destruct Hf as (b' & -> & HS). eauto.
    + now rewrite Hf.
  - now subst.
Qed.

Lemma agr_bind_l {A A' B'} (S : A' -> B' -> Prop) (x : outcome A) f y :
  x <> OOF -> (forall a, agr S (f a) y) -> agr S (bind x f) y.
Proof.
  intros Hx Hf. destruct x as [a tr| |e| |]; cbn in *; auto; [|congruence].
  specialize (Hf a). destruct (f a) as [a' tr'| |e| |]; cbn in *; auto.
Qed.

Lemma agr_ret {A B} (R : A -> B -> Prop) a b : R a b -> agr R (ret a) (ret b).
Proof. intros H. exists b. auto. Qed.

Lemma agr_mono {A B} (R S : A -> B -> Prop) x y : agr R x y -> (forall a b, R a b -> S a b) -> agr S x y.
Proof. intros H HI. destruct x; cbn in *; auto. destruct H as (b & -> & H). eauto. Qed.

(** The result without its value. *)
Definition strip (r : presult) : presult :=
  Res (match r_ok r with Some _ => Some RVoid | None => None end) (r_rem r).

Section Agree.
Context {T V : Type} (E : env T V).
Hypothesis HT : env_typed E.
Hypothesis HC : env_customs E.

(** What join can always take: a parser that keeps all its text, or a sequence of such parsers
    with ignored ones before and after them. *)
Definition dropped (p : parser T) : Prop := (exists q, p = PIgnore q) /\ local_parser E p.
Definition solid (p : parser T) : Prop :=
  lossless E p \/
  exists q qs pre mid post, p = PSequence q qs /\ q :: qs = pre ++ mid ++ post /\
    Forall dropped pre /\ Forall (lossless E) mid /\ Forall dropped post.

(** Nothing reachable can reject after its inner parser succeeded, or succeed after it failed. *)
Definition steady_node (p : parser T) : Prop :=
  match p with
  | PFilter _ _ => False
  | PJoin q => solid q
  | PCustom c => forall t, cust_conv E c <> ConvWhole t
  | _ => True
  end.
Definition steady (p : parser T) : Prop := forall q, reach E p q -> steady_node q.

(** Weaker: only what is parsed when [p] is parsed counts.  An ignored parser, a void part of a
    sequence, and an alternative of a choice without an index are only looked at. *)
Definition indexed (ps : list (parser T)) (seq : list (option nat)) : list (parser T) :=
  map fst (filter (fun x => match snd x with Some _ => true | None => false end) (combine ps seq)).
Definition parsed_parts (p : parser T) : list (parser T) :=
  match p with
  | PChoice q qs => match result_fors E (q :: qs) with
                    | Some tys => indexed (q :: qs) (snd (filter_out_void_deduplicate tys)) | None => [] end
  | PSequence q qs => match result_fors E (q :: qs) with
                      | Some tys => indexed (q :: qs) (snd (filter_out_void tys)) | None => [] end
  | PIgnore _ => []
  | _ => components E p
  end.
Inductive parsed : parser T -> parser T -> Prop :=
| parsed_self p : parsed p p
| parsed_part p q r : In q (parsed_parts p) -> parsed q r -> parsed p r.
Definition steadily_parsed (p : parser T) : Prop := forall q, parsed p q -> steady_node q.

Lemma indexed_in ps seq q : In q (indexed ps seq) -> In q ps.
Proof.
  unfold indexed. intros H. apply in_map_iff in H as ([x y] & <- & H). apply filter_In in H as [H _].
  now apply in_combine_l in H.
Qed.

Lemma indexed_nth ps seq j q k : nth_error ps j = Some q -> nth_error seq j = Some (Some k) -> In q (indexed ps seq).
Proof.
  intros H1 H2. unfold indexed. apply in_map_iff. exists (q, Some k). split; auto. apply filter_In. split; auto.
  revert seq j H1 H2. induction ps as [|p ps IH]; intros seq [|j] H1 H2; try discriminate; destruct seq as [|x seq]; try discriminate; cbn in *.
  - left. congruence.
  - right. eauto.
Qed.

Lemma parsed_reach p q : parsed p q -> reach E p q.
Proof.
  induction 1 as [|p q r H _ IH]; [constructor|]. econstructor; [|exact IH].
  destruct p; cbn [parsed_parts components] in *; auto; try contradiction;
    destruct (result_fors E (p :: ps)); try contradiction; now apply indexed_in in H.
Qed.

Lemma steady_parsed p : steady p -> steadily_parsed p.
Proof. intros H q Hq. apply H. now apply parsed_reach. Qed.

Lemma steadily_part p q : steadily_parsed p -> In q (parsed_parts p) -> steadily_parsed q.
Proof. intros H Hin r Hr. apply H. econstructor; eauto. Qed.

Lemma steady_comp p q : steady p -> In q (components E p) -> steady q.
Proof. intros H Hin r Hr. apply H. econstructor; eauto. Qed.

Definition same (i : span) (r r' : presult) : Prop :=
  r' = strip r /\ valid E (r_rem r) /\ (r_ok r = None -> r_rem r = i).

Definition agrees (f g : pfun) : Prop := forall i, valid E i -> agr (same i) (f i) (g i).

Lemma run_same n m p i r tr : valid E i -> run E n m p i = Done r tr ->
  valid E (r_rem r) /\ (r_ok r = None -> r_rem r = i).
Proof.
  intros Hv Hr. pose proof (run_sound E n m p i r tr Hv Hr) as H. unfold okres in H.
  destruct (r_ok r) as [v|].
  - destruct H as [Hs _]. split; [|discriminate]. now apply (suffix_valid E i).
  - rewrite H. auto.
Qed.

Lemma agrees_run n m p i (y : outcome presult) : valid E i -> agr (fun r r' => r' = strip r) (run E n m p i) y ->
  agr (same i) (run E n m p i) y.
Proof.
  intros Hv H. destruct (run E n m p i) as [r tr| | | |] eqn:Hr; cbn in *; auto.
  destruct H as (b & -> & ->). eexists. split; [reflexivity|]. destruct (run_same _ _ _ _ _ _ Hv Hr). split; auto.
Qed.

(** A lookahead agrees with itself. *)
Lemma look_self n p : agrees (run E n Look p) (run E n Look p).
Proof.
  intros i Hv. apply agrees_run; auto. pose proof (look_quiet E n p i) as Hq.
  destruct (run E n Look p i) as [r tr| | | |] eqn:Hr; cbn in *; auto. subst. eexists. split; [reflexivity|].
  pose proof (run_sound E n Look p i r [] Hv Hr) as H. unfold okres in H. destruct r as [[v|] rem]; cbn in *; auto.
  destruct H as [_ H]. apply derives_look_void in H; auto. now subst.
Qed.

Lemma store_neq ct unw k b v : store ct unw k b v <> OOF.
Proof.
  unfold store, b_assign, b_emplace, b_get_assign. destruct unw; [destruct b, v; discriminate|].
  destruct ct; destruct b as [|[]], v; try discriminate; destruct (_ <? _); try discriminate.
Qed.
Lemma emplace_opt_neq b v : b_emplace_opt b v <> OOF.
Proof. unfold b_emplace_opt. destruct b as [|[]], v; discriminate. Qed.
Lemma array_assign_neq k b v : b_array_assign k b v <> OOF.
Proof. unfold b_array_assign. destruct b as [|[]], v; try discriminate. destruct (_ <? _); discriminate. Qed.
Lemma insert_back_neq b v : b_insert_back b v <> OOF.
Proof. unfold b_insert_back. destruct b as [|[]], v; discriminate. Qed.
Lemma insert_back_first_neq b v : b_insert_back_first b v <> OOF.
Proof. unfold b_insert_back_first. destruct b as [|b]; [discriminate|]. destruct b as [| | | | | |a ?| |], v; try discriminate; destruct a; discriminate. Qed.
Lemma insert_back_second_neq b v : b_insert_back_second b v <> OOF.
Proof. unfold b_insert_back_second. destruct b as [|b]; [discriminate|]. destruct b as [| | | | | |? a| |], v; try discriminate; destruct a; discriminate. Qed.
Lemma call_neq f args : call E f args <> OOF.
Proof. unfold call. destruct (invoke E f args); discriminate. Qed.

Definition plain (r r' : presult) : Prop := r' = strip r.

Lemma agr_basic p fc len i : elementary E p = Some (fc, len) -> valid E i ->
  agr plain (basic_parse fc len i) (basic_look fc len i).
Proof.
  intros He Hv. destruct (fc_spec E p fc len i He Hv) as (x & Hfc & Hx). unfold basic_parse, basic_look.
  rewrite Hfc, !bind_ret. destruct x; [now apply agr_ret|].
  unfold first, advance. destruct (len <=? sp_len i); [|exact I]. rewrite !bind_ret. now apply agr_ret.
Qed.

Definition same_state (x y : bool * (span * rv)) : Prop := fst x = fst y /\ fst (snd x) = fst (snd y).

Lemma agr_exec_or n unw unw' ps : forall seq i b b', List.length seq = List.length ps -> valid E i ->
  (forall j p k, nth_error ps j = Some p -> nth_error seq j = Some (Some k) -> agrees (run E n Parse p) (run E n Look p)) ->
  agr same_state (exec_or (run E n) unw (combine ps seq) (i, b))
                 (exec_or (run E n) unw' (map (fun p => (p, None)) ps) (i, b')).
Proof.
  induction ps as [|p ps IH]; intros [|x seq] i b b' Hl Hv Ha; try discriminate; cbn [combine map exec_or].
  - now apply agr_ret.
  - assert (Hrest : forall b1 b1', agr same_state (exec_or (run E n) unw (combine ps seq) (i, b1))
                 (exec_or (run E n) unw' (map (fun p => (p, None)) ps) (i, b1'))).
    { intros b1 b1'. apply IH; auto. intros j q k H1 H2. apply (Ha (S j) q k); auto. }
    cbn [execute].
    destruct x as [k|].
    + rewrite !bind_assoc. eapply agr_bind; [apply (Ha 0 p k eq_refl eq_refl i Hv)|].
      intros r r' (-> & Hr & Hf). unfold strip, has_value. cbn [r_ok r_rem]. destruct (r_ok r) as [v|].
      * rewrite bind_assoc. apply agr_bind_l; [apply store_neq|]. intros b1. rewrite !bind_ret. now apply agr_ret.
      * rewrite !bind_ret. rewrite Hf by auto. apply Hrest.
    + rewrite !bind_assoc. eapply agr_bind; [apply (look_self n p i Hv)|].
      intros r r' (-> & Hr & Hf). unfold strip, has_value. rewrite !bind_ret. cbn [r_ok r_rem]. destruct (r_ok r) as [v|].
      * now apply agr_ret.
      * rewrite Hf by auto. apply Hrest.
Qed.

Lemma agr_exec_and n unw unw' ps : forall seq i b b', List.length seq = List.length ps -> valid E i ->
  (forall j p k, nth_error ps j = Some p -> nth_error seq j = Some (Some k) -> agrees (run E n Parse p) (run E n Look p)) ->
  agr (fun x y => fst x = fst y /\ (fst x = true -> fst (snd x) = fst (snd y)))
                 (exec_and (run E n) unw (combine ps seq) (i, b))
                 (exec_and (run E n) unw' (map (fun p => (p, None)) ps) (i, b')).
Proof.
  induction ps as [|p ps IH]; intros [|x seq] i b b' Hl Hv Ha; try discriminate; cbn [combine map exec_and].
  - now apply agr_ret.
  - assert (Hrest : forall i1, valid E i1 -> forall b1 b1', agr (fun x y => fst x = fst y /\ (fst x = true -> fst (snd x) = fst (snd y)))
                 (exec_and (run E n) unw (combine ps seq) (i1, b1))
                 (exec_and (run E n) unw' (map (fun p => (p, None)) ps) (i1, b1'))).
    { intros i1 Hi1 b1 b1'. apply IH; auto. intros j q k H1 H2. apply (Ha (S j) q k); auto. }
    cbn [execute].
    destruct x as [k|].
    + rewrite !bind_assoc. eapply agr_bind; [apply (Ha 0 p k eq_refl eq_refl i Hv)|].
      intros r r' (-> & Hr & Hf). unfold strip, has_value. cbn [r_ok r_rem]. destruct (r_ok r) as [v|].
      * rewrite bind_assoc. apply agr_bind_l; [apply store_neq|]. intros b1. rewrite !bind_ret. apply Hrest; auto.
      * rewrite !bind_ret. apply agr_ret. cbn. split; [auto|discriminate].
    + rewrite !bind_assoc. eapply agr_bind; [apply (look_self n p i Hv)|].
      intros r r' (-> & Hr & Hf). unfold strip, has_value. rewrite !bind_ret. cbn [r_ok r_rem]. destruct (r_ok r) as [v|].
      * apply Hrest; auto.
      * apply agr_ret. cbn. split; [auto|discriminate].
Qed.

Lemma agr_exactly f g k : agrees f g -> forall j j' i b, valid E i ->
  agr (fun x y => match x, y with Some (i1, _), Some (i2, _) => i1 = i2 | None, None => True | _, _ => False end)
    (exactly_loop f k j i b) (exactly_loop g k j' i RVoid).
Proof.
  intros Ha. induction k as [|k IH]; intros j j' i b Hv; cbn [exactly_loop]; [now apply agr_ret|].
  eapply agr_bind; [apply (Ha i Hv)|]. intros r r' (-> & Hr & Hf). unfold strip. cbn [r_ok r_rem].
  destruct (r_ok r) as [v|]; [|now apply agr_ret].
  apply agr_bind_l; [apply array_assign_neq|]. intros b'. cbn [b_array_assign]. rewrite bind_ret. now apply IH.
Qed.

Lemma agr_rep f g k : agrees f g -> forall s i b, valid E i ->
  agr (fun x y => fst (fst x) = fst (fst y) /\ snd x = snd y) (rep_loop f k i b s) (rep_loop g k i RVoid s).
Proof.
  intros Ha. induction k as [|k IH]; intros s i b Hv; cbn [rep_loop]; [reflexivity|].
  eapply agr_bind; [apply (Ha i Hv)|]. intros r r' (-> & Hr & Hf). unfold strip. cbn [r_ok r_rem].
  destruct (r_ok r) as [v|]; [|now apply agr_ret].
  apply agr_bind_l; [apply insert_back_neq|]. intros b'. cbn [b_insert_back]. rewrite bind_ret. now apply IH.
Qed.

Lemma agr_delim fp fd gp gd pv dv k : agrees fp gp -> agrees fd gd -> forall res i b,
  valid E i -> valid E (r_rem res) ->
  agr (fun x y => fst x = fst y) (delim_loop fp fd pv dv k res i b) (delim_loop gp gd true true k (strip res) i RVoid).
Proof.
  intros Hp Hd. induction k as [|k IH]; intros res i b Hv Hr; cbn [delim_loop]; [reflexivity|].
  unfold strip at 1. cbn [r_ok]. destruct (r_ok res) as [v|]; [|now apply agr_ret].
  apply agr_bind_l.
  { destruct pv; [discriminate|]. destruct dv; [apply insert_back_neq|apply insert_back_first_neq]. }
  intros b1. rewrite bind_ret. cbn [strip r_rem]. eapply agr_bind; [apply (Hd _ Hr)|].
  intros d d' (-> & Hdr & Hdf). cbn [strip r_ok r_rem]. destruct (r_ok d) as [w|]; [|now apply agr_ret].
  eapply agr_bind; [apply (Hp _ Hdr)|]. intros res' res'' (-> & Hpr & Hpf). rewrite bind_ret.
  apply agr_bind_l.
  { destruct dv; [discriminate|]. destruct (has_value res'); [|discriminate].
    destruct pv; [apply insert_back_neq|apply insert_back_second_neq]. }
  intros b2. apply IH; auto.
Qed.

Lemma silent_agr {A B C} (R : B -> C -> Prop) (x : outcome A) f g : quiet x ->
  (forall a, agr R (f a) (g a)) -> agr R (bind x f) (bind x g).
Proof.
  intros Hq H. eapply (agr_bind eq); [|intros a b ->; apply H].
  destruct x; cbn in *; auto. subst. eauto.
Qed.

Lemma agr_special q k f i : join_special E q k = Some f -> agr plain (f Parse i) (f Look i).
Proof.
  intros Hq. destruct q; try discriminate; cbn [join_special] in Hq;
    (destruct (as_basic E q) as [[fc len]|] eqn:Hb; [|discriminate]);
    pose proof (quiet_fc E _ _ _ (as_basic_elementary E _ _ Hb)) as Hfc.
  - injection Hq as <-. unfold jm_parse, jm_look. apply silent_agr; [apply Hfc|]. intros [|]; [now apply agr_ret|].
    apply agr_bind_l; [unfold first; destruct (_ <=? _); discriminate|]. intros v. apply silent_agr; [apply quiet_advance|].
    intros r. now apply agr_ret.
  - destruct (n =? 0); [discriminate|]. injection Hq as <-. unfold jx_parse, jx_look.
    apply silent_agr; [now apply quiet_jx|]. intros [[res i']|]; now apply agr_ret.
  - injection Hq as <-. unfold jo_parse, jo_look. apply silent_agr; [apply Hfc|]. intros [|]; [now apply agr_ret|].
    unfold first. destruct (len <=? sp_len i); [|exact I]. rewrite bind_ret.
    apply silent_agr; [apply quiet_advance|]. intros i1. apply silent_agr; [now apply quiet_jr|].
    intros [res i']. now apply agr_ret.
  - injection Hq as <-. unfold jz_parse, jz_look. apply silent_agr; [now apply quiet_jr|].
    intros [res i']. now apply agr_ret.
Qed.

Lemma lossless_local p : lossless E p -> local_parser E p.
Proof.
  intros H q Hq. specialize (H q Hq). destruct q; cbn in *; auto; try contradiction.
  now rewrite H.
Qed.

(** A join over a parser that keeps its text never rejects. *)
Lemma lossless_joins q t i x rem : lossless E q -> compiles E Parse q = true -> result_for E q = Some t -> joinable t = true ->
  valid E i -> okres E Parse q i (Res (Some (RVal x)) rem) ->
  join_executor x rem = Done (Some (Span (sp_blk i) (sp_off i) (sp_off rem - sp_off i))) [].
Proof.
  intros Hl Hc Ht Hj Hv [Hs Hd]. cbn [r_rem] in *.
  pose proof (derives_tiles E (sp_blk i) HC q _ _ _ Hl Hd) as Htl. cbn [rv_src] in Htl.
  destruct (derives_typed E HT HC _ _ _ _ _ Hc Hd) as (t' & Ht' & Hx). assert (t' = t) by congruence. subst t'.
  assert (Hjv : jval x) by (eapply joinable_jval; eauto; now apply rv_val_inv).
  rewrite (jval_src x Hjv) in Htl.
  assert (Hblk : forall s, In s (leaves x) -> sp_len s <> 0 -> sp_blk s = sp_blk i).
  { intros s Hin Hn. destruct (derives_region E _ _ _ _ _ _ (lossless_local q Hl) Hd) as [_ HF].
    rewrite Forall_forall in HF. apply (HF s). now apply nonempty_in. }
  apply (join_executor_some (sp_blk i)); auto.
  destruct (nonempty (leaves x)) as [|s ls] eqn:He.
  - left. split; auto. inversion Htl; subst. rewrite (suffix_blk _ _ Hs). f_equal. lia.
  - right. split; [discriminate|]. exists (sp_off i), (sp_off rem). split; auto.
Qed.

Lemma solid_local p : solid p -> local_parser E p.
Proof.
  intros [H|(q & qs & pre & mid & post & -> & Hq & H1 & H2 & H3)]; [now apply lossless_local|].
  intros r Hr. inversion Hr; subst; [exact I|]. cbn [components] in H. rewrite Hq in H.
  rewrite !in_app_iff in H. rewrite Forall_forall in H1, H2, H3. destruct H as [H|[H|H]].
  - now apply (H1 _ H).
  - now apply (lossless_local _ (H2 _ H)).
  - now apply (H3 _ H).
Qed.

Lemma dropped_void p : dropped p -> result_for E p = Some TVoid \/ result_for E p = None.
Proof. intros [[q ->] _]. cbn. destruct (result_for E q); auto. Qed.

(** The values of the parts of a chain: nothing from the dropped ones. *)
Lemma kept_app t1 : forall t2 vs ws, kept (t1 ++ t2) vs ws ->
  exists v1 v2 w1 w2, vs = v1 ++ v2 /\ ws = w1 ++ w2 /\ kept t1 v1 w1 /\ kept t2 v2 w2.
Proof.
  induction t1 as [|t t1 IH]; intros t2 vs ws H; cbn in H.
  - exists [], vs, [], ws. repeat split; auto. constructor.
  - inversion H; subst.
    + destruct (IH _ _ _ H4) as (v1 & v2 & w1 & w2 & -> & -> & K1 & K2).
      exists (v :: v1), v2, w1, w2. repeat split; auto. now constructor.
    + destruct (IH _ _ _ H5) as (v1 & v2 & w1 & w2 & -> & -> & K1 & K2).
      exists (RVal w :: v1), v2, (w :: w1), w2. repeat split; auto. now constructor.
Qed.

Lemma kept_voids tys vs ws : kept tys vs ws -> Forall (eq TVoid) tys -> ws = [].
Proof. induction 1; intros HF; auto; inversion HF; subst; auto. congruence. Qed.

Lemma dchain_app b l1 : forall l2 lo hi vs, dchain E b (l1 ++ l2) lo hi vs ->
  exists mid v1 v2, vs = v1 ++ v2 /\ List.length v1 = List.length l1 /\ dchain E b l1 lo mid v1 /\ dchain E b l2 mid hi v2.
Proof.
  induction l1 as [|[m p] l1 IH]; intros l2 lo hi vs H; cbn in H.
  - exists lo, [], vs. repeat split; auto. constructor.
  - inversion H; subst. destruct (IH _ _ _ _ H7) as (mid' & v1 & v2 & -> & Hl & H1 & H2).
    exists mid', (v :: v1), v2. repeat split; auto; [cbn; lia|]. econstructor; eauto.
Qed.

Lemma kept_len tys vs ws : kept tys vs ws -> List.length tys = List.length vs.
Proof. induction 1; cbn; lia. Qed.

Lemma result_fors_app ps qs tys : result_fors E (ps ++ qs) = Some tys ->
  exists t1 t2, tys = t1 ++ t2 /\ result_fors E ps = Some t1 /\ result_fors E qs = Some t2.
Proof.
  revert tys. induction ps as [|p ps IH]; intros tys H; cbn in *.
  - exists [], tys. auto.
  - unfold result_fors in *. cbn in *. destruct (result_for E p) as [t|]; [|discriminate].
    destruct (all_some (map (result_for E) (ps ++ qs))) as [ts|] eqn:Ha; [|discriminate]. injection H as <-.
    destruct (IH ts eq_refl) as (t1 & t2 & -> & -> & H2). exists (t :: t1), t2. auto.
Qed.

Lemma combine_app {A B} (a1 a2 : list A) (b1 b2 : list B) : List.length a1 = List.length b1 ->
  combine (a1 ++ a2) (b1 ++ b2) = combine a1 b1 ++ combine a2 b2.
Proof. revert b1. induction a1; intros [|y b1] H; try discriminate; cbn; auto. f_equal. apply IHa1. cbn in H. lia. Qed.

Lemma parts_app (t1 t2 : list ty) (p1 p2 : list (parser T)) : List.length t1 = List.length p1 ->
  parts (t1 ++ t2) (p1 ++ p2) = parts t1 p1 ++ parts t2 p2.
Proof. intros H. unfold parts. rewrite map_app. apply combine_app. now rewrite map_length. Qed.

Lemma app_eq_length {A} (a1 a2 b1 b2 : list A) : a1 ++ a2 = b1 ++ b2 -> List.length a1 = List.length b1 -> a1 = b1 /\ a2 = b2.
Proof.
  revert b1. induction a1 as [|x a1 IH]; intros [|y b1] H Hl; try discriminate; auto.
  cbn in H. injection H as -> H. cbn in Hl. destruct (IH b1 H ltac:(lia)) as [-> ->]. auto.
Qed.

Lemma dropped_types ps tys : Forall dropped ps -> result_fors E ps = Some tys -> Forall (eq TVoid) tys.
Proof.
  intros HF. revert tys. induction HF as [|p ps Hp HF IH]; intros tys H; unfold result_fors in *; cbn in H.
  - injection H as <-. constructor.
  - destruct (result_for E p) as [t|] eqn:Ht; [|discriminate]. destruct (all_some _) as [ts|]; [|discriminate].
    injection H as <-. constructor; auto. destruct (dropped_void p Hp); congruence.
Qed.

(** A join over a solid parser never rejects. *)
Lemma solid_joins q t i x rem : solid q -> compiles E Parse q = true -> result_for E q = Some t -> joinable t = true ->
  valid E i -> okres E Parse q i (Res (Some (RVal x)) rem) ->
  exists s, join_executor x rem = Done (Some s) [].
Proof.
  intros [Hl|(q0 & qs & pre & mid & post & -> & Hq & H1 & H2 & H3)] Hc Ht Hj Hv Hok.
  { eexists. eapply lossless_joins; eauto. }
  pose proof Hok as [Hs Hd]. cbn [r_rem] in *.
  destruct (derives_typed E HT HC _ _ _ _ _ Hc Hd) as (t' & Ht' & Hx). assert (t' = t) by congruence. subst t'.
  assert (Hjv : jval x) by (eapply joinable_jval; eauto; now apply rv_val_inv).
  assert (Htl : exists lo hi, tiles (sp_blk i) lo hi (nonempty (rv_src (RVal x)))).
  { inversion Hd; subst.
    match goal with H : result_fors E _ = Some _ |- _ => rename H into Hf end.
    match goal with H : dchain _ _ _ _ _ _ |- _ => rename H into Hch end.
    match goal with H : kept _ _ _ |- _ => rename H into Hk end.
    rewrite Hq in Hf, Hch.
    apply result_fors_app in Hf as (t1 & t' & -> & Hf1 & Hf). apply result_fors_app in Hf as (t2 & t3 & -> & Hf2 & Hf3).
    pose proof (result_fors_length E _ _ Hf1) as L1. pose proof (result_fors_length E _ _ Hf2) as L2.
    rewrite !parts_app in Hch by auto.
    apply dchain_app in Hch as (m1 & v1 & v' & -> & Lv1 & Hc1 & Hch). apply dchain_app in Hch as (m2 & v2 & v3 & -> & Lv2 & Hc2 & Hc3).
    apply kept_app in Hk as (v1' & v'' & w1 & w' & Ev & -> & Hk1 & Hk). apply kept_app in Hk as (v2' & v3' & w2 & w3 & -> & -> & Hk2 & Hk3).
    apply app_eq_length in Ev as [<- Ev]; [|apply kept_len in Hk1; unfold parts in Lv1; rewrite combine_length, map_length in Lv1; lia].
    apply app_eq_length in Ev as [<- ->]; [|apply kept_len in Hk2; unfold parts in Lv2; rewrite combine_length, map_length in Lv2; lia].
    apply kept_voids in Hk1; [|exact (dropped_types _ _ H1 Hf1)]. apply kept_voids in Hk3; [|exact (dropped_types _ _ H3 Hf3)]. subst.
    cbn [app] in *. rewrite app_nil_r in *.
    exists m1, m2.
    rewrite tuple_of_src.
    eapply (rchain_kept E); eauto.
    - intros j p ty Hp Hty. destruct (result_fors_nth E _ _ _ _ Hf2 Hp) as (t' & Ht2 & Hr). congruence.
    - eapply (proj2 (derives_tiles_mut E (sp_blk i) HC)); eauto. intros mp Hmp. apply parts_in in Hmp.
      rewrite Forall_forall in H2. auto. }
  destruct Htl as (lo & hi & Htl). cbn [rv_src] in Htl. rewrite (jval_src x Hjv) in Htl.
  assert (Hblk : forall s, In s (leaves x) -> sp_len s <> 0 -> sp_blk s = sp_blk i).
  { intros s0 Hin Hn. assert (Hin' : In s0 (nonempty (leaves x))) by now apply nonempty_in.
    revert Hin'. clear - Htl. induction Htl as [|lo n hi ls Ht IH]; [intros []|]. intros [<-|Hin']; auto. }
  destruct (nonempty (leaves x)) as [|s ls] eqn:He.
  - eexists. apply (join_executor_some (sp_blk i)); auto. 
  - eexists. apply (join_executor_some (sp_blk i)); auto. rewrite He. right. split; [discriminate|]. eauto.
Qed.

Lemma len_dedup tys : List.length (snd (filter_out_void_deduplicate tys)) = List.length tys.
Proof. rewrite filter_out_void_deduplicate_spec. cbn. apply dedup_from_length. Qed.
Lemma len_filter tys : List.length (snd (filter_out_void tys)) = List.length tys.
Proof. rewrite filter_out_void_spec. cbn. apply seq_from_length. Qed.

Theorem run_agree n : forall p i, valid E i -> steadily_parsed p -> compiles E Parse p = true ->
  agr plain (run E n Parse p i) (run E n Look p i).
Proof.
  induction n as [|n IH]; intros p i Hv Hst Hc; [reflexivity|].
  assert (Hag : forall q, In q (parsed_parts p) -> compiles E Parse q = true -> agrees (run E n Parse q) (run E n Look q)).
  { intros q Hq Hcq j Hj. apply agrees_run; auto. apply IH; auto. eapply steadily_part; eauto. }
  cbn [run]. destruct p; cbn [step].
  - now apply (agr_basic (PAnyOf arr)).
  - now apply (agr_basic (PNoneOf arr)).
  - now apply (agr_basic (PAllOf arr)).
  - now apply (agr_basic PAnything).
  - now apply agr_ret.
  - unfold choice_parse, choice_look. destruct (result_fors E (p :: ps)) as [tys|] eqn:Ht; [|exact I].
    destruct (_ || _); [|exact I].
    eapply agr_bind.
    + apply (agr_exec_or n _ _ (p :: ps)); auto.
      * rewrite len_dedup. symmetry. eapply result_fors_length; eauto.
      * intros j q k Hj Hk. apply Hag; [cbn [parsed_parts]; rewrite Ht; eapply indexed_nth; eauto|].
        exact (compiles_choice E _ _ _ _ _ _ Hc Ht Hj Hk).
    + intros [ok [i' b]] [ok' [i'' b']] [He1 He2]. cbn in He1, He2. subst. destruct ok'; now apply agr_ret.
  - unfold sequence_parse, sequence_look. destruct (result_fors E (p :: ps)) as [tys|] eqn:Ht; [|exact I].
    eapply agr_bind.
    + apply (agr_exec_and n _ _ (p :: ps)); auto.
      * rewrite len_filter. symmetry. eapply result_fors_length; eauto.
      * intros j q k Hj Hk. apply Hag; [cbn [parsed_parts]; rewrite Ht; eapply indexed_nth; eauto|].
        exact (compiles_seq E _ _ _ _ _ _ Hc Ht Hj Hk).
    + intros [ok [i' b]] [ok' [i'' b']] [He1 He2]. cbn in He1, He2. subst.
      destruct ok'; [rewrite He2 by auto|]; now apply agr_ret.
  - cbn [compiles] in Hc. apply andb_true_iff in Hc as [Hc _]. destruct (result_for E p) as [t|]; [|exact I].
    unfold maybe_parse, maybe_look. eapply agr_bind; [apply (Hag p (or_introl eq_refl) Hc i Hv)|].
    intros r r' (-> & Hr & Hf). unfold has_value. cbn [strip r_ok r_rem]. destruct (r_ok r) as [v|].
    + apply agr_bind_l; [apply emplace_opt_neq|]. intros b. now apply agr_ret.
    + rewrite Hf by auto. now apply agr_ret.
  - destruct (n0 =? 0); [exact I|]. cbn [compiles] in Hc. apply andb_true_iff in Hc as [Hc _]. apply andb_true_iff in Hc as [_ Hc].
    destruct (result_for E p) as [t|]; [|exact I].
    unfold exactly_parse, exactly_look.
    eapply agr_bind; [apply (agr_exactly _ _ n0 (Hag p (or_introl eq_refl) Hc)); auto|].
    intros [[i1 b1]|] [[i2 b2]|] Hx; cbn in Hx; try contradiction; subst; now apply agr_ret.
  - cbn [compiles] in Hc. apply andb_true_iff in Hc as [Hc _]. destruct (result_for E p) as [t|]; [|exact I].
    unfold one_or_more_parse, one_or_more_look.
    eapply agr_bind; [apply (agr_rep _ _ n (Hag p (or_introl eq_refl) Hc)); auto|].
    intros [[i1 b1] s1] [[i2 b2] s2] [He1 He2]. cbn in He1, He2. subst. destruct s2; now apply agr_ret.
  - cbn [compiles] in Hc. apply andb_true_iff in Hc as [Hc _]. destruct (result_for E p) as [t|]; [|exact I].
    unfold zero_or_more_parse, zero_or_more_look.
    eapply agr_bind; [apply (agr_rep _ _ n (Hag p (or_introl eq_refl) Hc)); auto|].
    intros [[i1 b1] s1] [[i2 b2] s2] [He1 He2]. cbn in He1, He2. subst. now apply agr_ret.
  - cbn [compiles] in Hc. apply andb_true_iff in Hc as [Hc _]. apply andb_true_iff in Hc as [Hc Hc'].
    destruct (result_for E p1) as [tp|]; [|exact I]. destruct (result_for E p2) as [td|]; [|exact I].
    unfold delimit_parse, delimit_look. eapply agr_bind; [apply (Hag p1 (or_introl eq_refl) Hc i Hv)|].
    intros r r' (-> & Hr & Hf). unfold has_value. cbn [strip r_ok]. destruct (r_ok r) as [v|] eqn:Hok; [|now apply agr_ret].
    eapply agr_bind.
    + assert (Hd := agr_delim _ _ _ _ (is_void tp) (is_void td) n (Hag p1 (or_introl eq_refl) Hc) (Hag p2 (or_intror (or_introl eq_refl)) Hc')
        r i (builder_init (delimit_type tp td)) Hv Hr). exact Hd.
    + intros [i1 b1] [i2 b2] He. cbn in He. subst. now apply agr_ret.
  - eapply agr_mono; [apply (look_self n p i Hv)|]. intros a b' [H _]. exact H.
  - cbn [compiles] in Hc. apply andb_true_iff in Hc as [Hc _]. unfold complete_run.
    eapply agr_bind; [apply (Hag p (or_introl eq_refl) Hc i Hv)|]. intros r r' (-> & Hr & Hf).
    unfold has_value. cbn [strip r_ok r_rem].
    destruct (r_ok r) as [v|] eqn:Hok; cbn [negb orb]; [|now apply agr_ret].
    destruct (negb (sp_len (r_rem r) =? 0)); now apply agr_ret.
  - destruct (join_special E p n) as [f|] eqn:Hs; [eapply agr_special; eauto|].
    cbn [compiles] in Hc. apply andb_true_iff in Hc as [Hc Hj]. unfold join_generic.
    destruct (result_for E p) as [t|] eqn:Ht; [|exact I]. rewrite Hj. unfold join_parse.
    pose proof (Hag p (or_introl eq_refl) Hc i Hv) as Ha. pose proof (run_sound E n Parse p i) as Hsd.
    destruct (run E n Parse p i) as [r tr| |e| |]; cbn in Ha; auto.
    destruct Ha as (b & -> & -> & Hr & Hf). specialize (Hsd r tr Hv eq_refl). cbn [bind].
    destruct r as [[[|x]|] rem]; cbn [r_ok r_rem] in *; [exact I| |].
    + destruct (solid_joins p t i x rem) as [s Hjs]; auto; [exact (Hst _ (parsed_self _))|].
      rewrite Hjs. cbn. eexists. split; reflexivity.
    + rewrite Hf by auto. cbn. eexists. split; reflexivity.
  - cbn [compiles] in Hc. apply andb_true_iff in Hc as [Hc _]. destruct (result_for E (PMap p f)) as [t|]; [|exact I].
    unfold map_parse.
    pose proof (Hag p (or_introl eq_refl) Hc i Hv) as Ha.
    destruct (run E n Parse p i) as [r tr| |e| |]; cbn in Ha; auto.
    destruct Ha as (b & -> & -> & Hr & Hf). cbn [bind]. destruct r as [[v|] rem]; cbn [r_ok r_rem] in *.
    + unfold call. destruct (invoke E f (args_of v)); cbn; auto. eexists. split; reflexivity.
    + rewrite Hf by auto. cbn. eexists. split; reflexivity.
  - destruct (Hst _ (parsed_self _)).
  - cbn [compiles] in Hc. eapply agr_mono; [apply (Hag p (or_introl eq_refl) Hc i Hv)|]. intros a b [H _]. exact H.
  - unfold custom_parse. pose proof (Hst _ (parsed_self _)) as Hcv. cbn in Hcv.
    pose proof (Hag (cust_body E c) (or_introl eq_refl) (ec_compiles E HC Parse c) i Hv) as Ha.
    destruct (run E n Parse (cust_body E c) i) as [r tr| |e| |]; cbn in Ha; auto.
    destruct Ha as (b & -> & -> & Hr & Hf). cbn [bind].
    destruct (cust_conv E c) as [|t|t] eqn:Hcc; [| |now destruct (Hcv t)].
    + cbn. eexists. split; reflexivity.
    + destruct r as [[[|v]|] rem]; cbn [r_ok r_rem] in *; [exact I| |].
      * unfold call. destruct (invoke E (FConstruct t) [v]); cbn; auto. eexists. split; reflexivity.
      * cbn. eexists. split; reflexivity.
Qed.
End Agree.
