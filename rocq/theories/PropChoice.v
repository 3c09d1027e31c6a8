(** * Properties C09, C10, C12 (choices), C44: choice *)
From Coq Require Import String List Arith ZArith Bool Lia.
From Verif Require Import Types Compound Parser Outcome CompoundFacts ChoiceIndex Exec Mono Derive Typing Join Leaves Sound
  BigStep BigSound BigComplete Peg Elems Runs Samples PropBasic.
Import ListNotations.

(** The [j]-th alternative is the first of its type, or everything up to the first one of
    its type is free of void types and repetitions. *)
Definition proper (tys : list ty) (j : nat) : Prop :=
  exists t f, nth_error tys j = Some t /\ first_at tys t f /\ (j = f \/ clean_prefix tys f).

(** The choice holds the value [x] of type [t]: bare if no other non-void type occurs among
    the alternatives, else in the (only) variant alternative of that type. *)
Definition holds (tys : list ty) (res : ty) (t : ty) (x : val) (w : rv) : Prop :=
  ((forall t', In t' tys -> t' = TVoid \/ t' = t) /\ res = t /\ w = RVal x) \/
  ((exists t', In t' tys /\ t' <> TVoid /\ t' <> t) /\
   exists l k, res = TVar l /\ NoDup l /\ (forall t', In t' l <-> In t' tys /\ t' <> TVoid) /\
     nth_error l k = Some t /\ w = RVal (VVar k x)).

(** The default value of the result type (nothing if it is void). *)
Definition default_of (res : ty) : rv := if is_void res then RVoid else RVal (default_val res).

(** The value of a choice of result type [res] whose [j]-th alternative returned [v]. *)
Definition choice_value (tys : list ty) (res : ty) (j : nat) (m : mode) (v w : rv) : Prop :=
  forall t, nth_error tys j = Some t ->
    (t = TVoid -> m = Look /\ w = default_of res) /\
    (t <> TVoid -> proper tys j -> m = Parse /\ exists x, v = RVal x /\ holds tys res t x w) /\
    (* otherwise the value is lost (see C10_refuted), or only one type occurs *)
    (t <> TVoid -> ~ proper tys j ->
       m = Look /\ w = default_of res \/
       m = Parse /\ (forall t', In t' tys -> t' = TVoid \/ t' = t) /\ exists x, v = RVal x /\ holds tys res t x w).

Section Choice.
Context {T V : Type} (E : env T V).

Lemma proper_dec tys j : (exists t, nth_error tys j = Some t) -> proper tys j \/ ~ proper tys j.
Proof.
  intros [t Ht]. destruct (first_at_exists tys j t Ht) as (f & Hle & Hf).
  destruct (Nat.eq_dec j f) as [->|Hne]; [left; exists t, f; auto|].
  assert (Hu : forall t' f', nth_error tys j = Some t' -> first_at tys t' f' -> f' = f).
  { intros t' f' Ht' Hf'. assert (t' = t) by congruence. subst.
    pose proof (first_at_le _ _ _ _ Hf (proj1 Hf')). pose proof (first_at_le _ _ _ _ Hf' (proj1 Hf)). lia. }
  assert (Hd : clean_prefix tys f \/ ~ clean_prefix tys f).
  { unfold clean_prefix.
    assert (D : forall a b : ty, {a = b} + {a <> b}).
    { intros a b. destruct (ty_eqb a b) eqn:He; [left; now apply ty_eqb_spec|right; now apply ty_eqb_neq]. }
    destruct (in_dec D TVoid (firstn f tys)); [right; tauto|].
    enough (NoDup (firstn f tys) \/ ~ NoDup (firstn f tys)) by tauto.
    clear - D. induction (firstn f tys) as [|a l IH]; [left; constructor|].
    destruct (in_dec D a l); [right; now inversion 1|]. destruct IH; [left; now constructor|right; now inversion 1]. }
  destruct Hd as [Hc|Hc]; [left; exists t, f; auto|right].
  intros (t' & f' & Ht' & Hf' & [->|Hc']).
  - apply Hne. exact (Hu _ _ Ht' Hf').
  - apply Hc. rewrite <- (Hu _ _ Ht' Hf'). auto.
Qed.

Lemma done_of_eq tys : fst (filter_out_void_deduplicate tys) = done_of tys.
Proof. now rewrite filter_out_void_deduplicate_spec. Qed.
Lemma seq_of_eq tys : snd (filter_out_void_deduplicate tys) = seq_of tys.
Proof. now rewrite filter_out_void_deduplicate_spec. Qed.

Lemma done_in' tys t : In t (done_of tys) <-> In t tys /\ t <> TVoid.
Proof. unfold done_of. rewrite distinct_from_in. cbn. tauto. Qed.

(** One type only: the result is that type; several: their variant. *)
Lemma done_shape tys t : In t tys -> t <> TVoid ->
  ((forall t', In t' tys -> t' = TVoid \/ t' = t) /\ done_of tys = [t]) \/
  ((exists t', In t' tys /\ t' <> TVoid /\ t' <> t) /\ unwrapped (done_of tys) = false /\ compound_result TVar (done_of tys) = TVar (done_of tys)).
Proof.
  intros Hin Ht. pose proof (done_in' tys) as Hd. pose proof (done_nodup tys) as Hn.
  assert (Hit : In t (done_of tys)) by (apply Hd; auto).
  destruct (done_of tys) as [|a [|b l]] eqn:He; [destruct Hit| |].
  - left. destruct Hit as [->|[]]. split; auto. intros t' Ht'.
    destruct (ty_eqb t' TVoid) eqn:Hv; [left; now apply ty_eqb_spec|right].
    apply ty_eqb_neq in Hv. destruct (proj2 (Hd t') (conj Ht' Hv)) as [->|[]]; auto.
  - right. split; [|split; reflexivity].
    assert (a <> b) by (inversion Hn as [|? ? Hna]; subst; intros ->; apply Hna; now left).
    destruct (ty_eqb a t) eqn:Ha.
    + apply ty_eqb_spec in Ha. subst. exists b. destruct (proj1 (Hd b)) as [? ?]; [right; now left|]. auto.
    + apply ty_eqb_neq in Ha. exists a. destruct (proj1 (Hd a)) as [? ?]; [now left|]. auto.
Qed.

Lemma delivered_value tys j v w t : choice_wf tys -> nth_error tys j = Some t ->
  (forall w', nth_error (seq_of tys) j = Some (Some w') -> t <> TVoid -> exists x, v = RVal x) ->
  delivered tys j v w <->
  exists x, nth_error (seq_of tys) j = Some x /\
    choice_value tys (compound_result TVar (done_of tys)) j (idx_mode x) v w.
Proof.
  intros Hwf Ht Hsh.
  assert (Hseq : exists x, nth_error (seq_of tys) j = Some x).
  { destruct (nth_error (seq_of tys) j) eqn:H; eauto. apply nth_error_None in H. rewrite seq_length in H.
    assert (j < List.length tys) by (apply nth_error_Some; congruence). lia. }
  destruct Hseq as [x Hx].
  assert (Hvoid : t = TVoid -> x = None).
  { intros ->. unfold seq_of in Hx. rewrite (dedup_from_void _ [] [] j Ht) in Hx. now injection Hx. }
  assert (Hprop : t <> TVoid -> proper tys j -> exists k, x = Some k /\ nth_error (done_of tys) k = Some t).
  { intros Hnv (t' & f & Ht' & Hf & Hor). assert (t' = t) by congruence. subst.
    destruct (index_some tys j t f Ht Hnv Hf Hor) as (r & Hr & Hs). exists r. split; auto. congruence. }
  assert (Hsingle : forall k, x = Some k -> t <> TVoid -> ~ proper tys j -> forall t', In t' tys -> t' = TVoid \/ t' = t).
  { intros k -> Hnv Hnp. destruct (done_shape tys t (nth_error_In _ _ Ht) Hnv) as [[H _]|(_ & Hu & _)]; auto.
    exfalso. apply Hnp. unfold choice_wf in Hwf. rewrite done_of_eq, Hu in Hwf. cbn [orb] in Hwf.
    rewrite seq_of_eq in Hwf. pose proof (proj1 (emplace_ok_spec _ _ _) Hwf j t k Ht Hx) as Hk.
    destruct (first_at_exists tys j t Ht) as (f & _ & Hf). exists t, f. split; auto. split; auto.
    eapply index_exact; eauto. }
  assert (Hval : forall k, x = Some k -> t <> TVoid -> forall y w0, 
    holds tys (compound_result TVar (done_of tys)) t y w0 <-> w0 = RVal (if unwrapped (done_of tys) then y else VVar k y)).
  { intros k -> Hnv y w0. unfold holds.
    destruct (done_shape tys t (nth_error_In _ _ Ht) Hnv) as [[H Hd]|(He & Hu & Hcr)].
    - rewrite Hd. cbn. split.
      + intros [(_ & _ & ?)|((t' & H1 & H2 & H3) & _)]; auto. exfalso. destruct (H _ H1); auto.
      + intros ->. left. auto.
    - rewrite Hu, Hcr. unfold choice_wf in Hwf. rewrite done_of_eq, Hu in Hwf. cbn [orb] in Hwf.
      rewrite seq_of_eq in Hwf. pose proof (proj1 (emplace_ok_spec _ _ _) Hwf j t k Ht Hx) as Hk. split.
      + intros [(H & _)|(_ & l & k' & [= <-] & Hn & Hi & Hk' & ->)].
        * destruct He as (t' & H1 & H2 & H3). destruct (H _ H1); contradiction.
        * f_equal. f_equal. eapply NoDup_nth_error; eauto; [|congruence]. apply nth_error_Some. congruence.
      + intros ->. right. split; auto. exists (done_of tys), k. split; auto. split; [apply done_nodup|].
        split; [apply done_in'|]. auto. }
  split.
  - intros Hd. exists x. split; auto. intros t' Ht'. assert (t' = t) by congruence. subst t'.
    inversion Hd as [j' k y Hk|j' v' Hk]; subst; rewrite seq_of_eq in Hk; rewrite ?done_of_eq in *.
    + assert (x = Some k) by congruence. subst x. cbn [idx_mode].
      split; [intros H'; apply Hvoid in H'; discriminate|]. split.
      * intros Hnv _. split; auto. exists y. split; auto. apply (Hval k); auto.
      * intros Hnv Hnp. right. split; auto. split; [apply (Hsingle k); auto|]. exists y. split; auto. apply (Hval k); auto.
    + assert (x = None) by congruence. subst x. cbn [idx_mode].
      split; [intros _; split; auto|]. split.
      * intros Hnv Hp. destruct (Hprop Hnv Hp) as (k & ? & _). discriminate.
      * intros _ _. left. auto.
  - intros (x' & Hx' & Hcv). assert (x' = x) by congruence. subst x'. specialize (Hcv t Ht) as (H1 & H2 & H3).
    destruct x as [k|].
    + assert (Hnv : t <> TVoid) by (intros Hv; apply Hvoid in Hv; discriminate).
      assert (Hh : exists y, v = RVal y /\ holds tys (compound_result TVar (done_of tys)) t y w).
      { destruct (proper_dec tys j) as [Hp|Hp]; [eauto| |].
        - destruct (H2 Hnv Hp) as (_ & y & -> & Hy). eauto.
        - destruct (H3 Hnv Hp) as [[? _]|(_ & _ & y & -> & Hy)]; [discriminate|eauto]. }
      destruct Hh as (y & -> & Hy). apply (Hval k) in Hy; auto. subst w.
      pose proof (del_val tys j k y) as Hd. rewrite done_of_eq, seq_of_eq in Hd. auto.
    + assert (Hw : w = default_of (compound_result TVar (done_of tys))).
      { destruct (ty_eqb t TVoid) eqn:Hv.
        - apply ty_eqb_spec in Hv. now apply H1.
        - apply ty_eqb_neq in Hv. destruct (proper_dec tys j) as [Hp|Hp]; [eauto| |].
          + destruct (H2 Hv Hp) as [? _]. discriminate.
          + destruct (H3 Hv Hp) as [[_ ?]|[? _]]; [auto|discriminate]. }
      subst w. pose proof (del_lost tys j v) as Hd. rewrite done_of_eq, seq_of_eq in Hd. auto.
Qed.

(** ** C09, C10 *)

(** The modes in which the alternatives are run, by their types. *)
Definition modes_ok (tys : list ty) (ms : list mode) : Prop :=
  List.length ms = List.length tys /\
  forall j t m, nth_error tys j = Some t -> nth_error ms j = Some m ->
    (t = TVoid -> m = Look) /\ (t <> TVoid -> proper tys j -> m = Parse).

Theorem C09_choice_parse q qs tys res :
  program E -> compiles E Parse (PChoice q qs) = true ->
  result_fors E (q :: qs) = Some tys -> result_for E (PChoice q qs) = Some res ->
  exists ms, modes_ok tys ms /\
  forall i r tr, valid E i ->
  (evals E Parse (PChoice q qs) i (Done r tr) <->
   (* every alternative fails on the whole input *)
   (none_of E (combine ms (q :: qs)) i tr /\ r = Res None i) \/
   (* one succeeds, after exactly the earlier ones failed; the later ones are not run *)
   (exists l1 m p l2 v w rem tr1 tr2,
      combine ms (q :: qs) = l1 ++ (m, p) :: l2 /\
      none_of E l1 i tr1 /\ gives E m p i v rem tr2 /\ tr = tr1 ++ tr2 /\
      choice_value tys res (List.length l1) m v w /\ r = Res (Some w) rem)).
Proof.
  intros HP Hc Hr Hres. exists (map idx_mode (seq_of tys)).
  assert (Hres' : res = compound_result TVar (done_of tys)).
  { rewrite result_for_choice, Hr, done_of_eq in Hres. now injection Hres. }
  assert (Hwf : choice_wf tys) by exact (compiles_choice_emplace E _ _ _ Hc Hr).
  pose proof (result_fors_length E _ _ Hr) as Hlen.
  split.
  { split; [now rewrite map_length, seq_length|]. intros j t m Ht Hm. rewrite nth_error_map in Hm.
    destruct (nth_error (seq_of tys) j) as [x|] eqn:Hx; [|discriminate]. injection Hm as <-. split.
    - intros ->. unfold seq_of in Hx. rewrite (dedup_from_void _ [] [] j Ht) in Hx. injection Hx as <-. reflexivity.
    - intros Hnv (t' & f & Ht' & Hf & Hor). assert (t' = t) by congruence. subst.
      destruct (index_some tys j t f Ht Hnv Hf Hor) as (k & Hk & Hs). assert (x = Some k) by congruence. now subst. }
  intros i r tr Hv. rewrite evals_big by auto.
  assert (Halts : alts tys (q :: qs) = combine (map idx_mode (seq_of tys)) (q :: qs)) by (unfold alts; now rewrite seq_of_eq).
  rewrite <- Halts.
  (* facts about the alternative that succeeded *)
  assert (Hnth : forall l1 m p l2, alts tys (q :: qs) = l1 ++ (m, p) :: l2 ->
    exists t x, nth_error tys (List.length l1) = Some t /\ nth_error (seq_of tys) (List.length l1) = Some x /\
      m = idx_mode x /\ compiles E m p = true /\ result_for E p = Some t).
  { intros l1 m p l2 H. assert (Hn : nth_error (alts tys (q :: qs)) (List.length l1) = Some (m, p)).
    { rewrite H, nth_error_app2, Nat.sub_diag by lia. reflexivity. }
    rewrite Halts, nth_error_combine, nth_error_map in Hn.
    destruct (nth_error (seq_of tys) (List.length l1)) as [x|] eqn:Hx; [|destruct Hn; discriminate].
    cbn in Hn. destruct Hn as [[= <-] Hp]. destruct (result_fors_nth E _ _ _ _ Hr Hp) as (t & Ht & Hpt).
    exists t, x. split; auto. split; auto. split; auto. split; auto.
    rewrite <- seq_of_eq in Hx. pose proof (compiles_choice E _ _ _ _ _ _ Hc Hr Hp Hx) as Hcp.
    destruct x; exact Hcp. }
  split.
  - intros H. inversion H; subst; match goal with H' : result_fors E _ = Some _ |- _ => rewrite Hr in H'; injection H' as <- end.
    + right. match goal with H' : bfirst _ _ _ _ _ |- _ => apply bfirst_none in H'; [|auto];
        destruct H' as (l1 & m & p & l2 & tr1 & tr2 & Ha & Hl & Hn & Hg & ->) end.
      exists l1, m, p, l2, v, w, rem, tr1, tr2. repeat (split; [solve [auto]|]). split; auto.
      destruct (Hnth _ _ _ _ Ha) as (t & x & Ht & Hx & -> & Hcp & Hpt). subst j.
      match goal with H' : delivered _ _ _ _ |- _ => apply (delivered_value tys _ v w t) in H' as (x' & Hx' & Hcv); auto end.
      * assert (x' = x) by congruence. subst. exact Hcv.
      * intros k Hk Hnv. assert (x = Some k) by congruence. subst x.
        exact (shaped_typed E _ _ _ _ _ _ HP Hv Hcp Hg eq_refl t Hpt Hnv).
    + left. split; auto. match goal with H' : bfirst _ _ _ _ _ |- _ => exact (bfirst_none E _ _ _ _ H' Hv) end.
  - intros [[Hn ->]|(l1 & m & p & l2 & v & w & rem & tr1 & tr2 & Ha & Hn & Hg & -> & Hcv & ->)].
    + eapply B_choice_no; eauto. now apply none_bfirst.
    + destruct (Hnth _ _ _ _ Ha) as (t & x & Ht & Hx & -> & Hcp & Hpt).
      eapply B_choice_ok; eauto.
      * rewrite Ha. eapply some_bfirst; eauto.
      * apply (delivered_value tys _ v w t); auto.
        -- intros k Hk Hnv. assert (x = Some k) by congruence. subst x.
           exact (shaped_typed E _ _ _ _ _ _ HP Hv Hcp Hg eq_refl t Hpt Hnv).
        -- exists x. split; auto. now rewrite <- Hres'.
Qed.

Theorem C09_choice_look q qs i r tr :
  valid E i -> compiles E Look (PChoice q qs) = true ->
  evals E Look (PChoice q qs) i (Done r tr) <->
  (none_of E (map (pair Look) (q :: qs)) i tr /\ r = Res None i) \/
  (exists l1 p l2 v rem tr1 tr2, q :: qs = l1 ++ p :: l2 /\ none_of E (map (pair Look) l1) i tr1 /\
     gives E Look p i v rem tr2 /\ tr = tr1 ++ tr2 /\ r = Res (Some RVoid) rem).
Proof.
  intros Hv Hc. rewrite evals_big by auto.
  assert (exists tys, result_fors E (q :: qs) = Some tys) as [tys Hr].
  { cbn [compiles] in Hc. destruct (result_fors E (q :: qs)); eauto. discriminate. }
  split.
  - intros H. inversion H; subst.
    + right. match goal with H' : bfirst _ _ _ _ _ |- _ => apply bfirst_none in H'; [|auto];
        destruct H' as (l1 & m & p & l2 & tr1 & tr2 & Ha & Hl & Hn & Hg & ->) end.
      apply map_eq_app in Ha as (a & b & Hab & <- & Hb). apply map_eq_cons in Hb as (p' & b' & -> & [= <- <-] & <-).
      exists a, p', b', v, rem, tr1, tr2. auto 6.
    + left. split; auto. match goal with H' : bfirst _ _ _ _ _ |- _ => exact (bfirst_none E _ _ _ _ H' Hv) end.
  - intros [[Hn ->]|(l1 & p & l2 & v & rem & tr1 & tr2 & Ha & Hn & Hg & -> & ->)].
    + eapply B_choice_look_no; eauto. now apply none_bfirst.
    + eapply B_choice_look_ok; eauto. rewrite Ha, map_app. cbn [map]. eapply some_bfirst; eauto.
Qed.

(** ** C10: which value a choice holds *)
(* Missing for the full statement: the alternatives that are not [proper], see C10_refuted. *)
Theorem C10_choice_value_partial q qs tys res i w rem tr :
  program E -> valid E i -> compiles E Parse (PChoice q qs) = true ->
  result_fors E (q :: qs) = Some tys -> result_for E (PChoice q qs) = Some res ->
  evals E Parse (PChoice q qs) i (Done (Res (Some w) rem) tr) ->
  exists j p t, nth_error (q :: qs) j = Some p /\ nth_error tys j = Some t /\
    (* the one that matches, after all earlier ones failed *)
    (exists m v tr', gives E m p i v rem tr') /\
    (forall k p', k < j -> nth_error (q :: qs) k = Some p' -> exists m tr', refuses E m p' i tr') /\
    (* an alternative of non-void type: its value, in the alternative of its type *)
    (t <> TVoid -> proper tys j -> exists x tr', gives E Parse p i (RVal x) rem tr' /\ holds tys res t x w) /\
    (t = TVoid -> exists v tr', gives E Look p i v rem tr' /\ w = default_of res).
Proof.
  intros HP Hv Hc Hr Hres H. destruct (C09_choice_parse q qs tys res HP Hc Hr Hres) as (ms & [Hl Hms] & Hiff).
  apply Hiff in H; auto. destruct H as [[_ ?]|(l1 & m & p & l2 & v & w' & rem' & tr1 & tr2 & Ha & Hno & Hg & -> & Hcv & [= <- <-])]; [discriminate|].
  assert (Hn : nth_error (combine ms (q :: qs)) (List.length l1) = Some (m, p)).
  { rewrite Ha, nth_error_app2, Nat.sub_diag by lia. reflexivity. }
  apply nth_error_combine in Hn as [Hm Hp]. destruct (result_fors_nth E _ _ _ _ Hr Hp) as (t & Ht & Hpt).
  exists (List.length l1), p, t. split; auto. split; auto. split; [eauto|]. split.
  { intros k p' Hk Hp'.
    assert (Hml : List.length ms = List.length (q :: qs)) by (rewrite <- (result_fors_length E _ _ Hr) in Hl; exact Hl).
    destruct (nth_error ms k) as [mk|] eqn:Hmk.
    2:{ apply nth_error_None in Hmk. assert (k < List.length (q :: qs)) by (apply nth_error_Some; congruence). lia. }
    assert (Hin : In (mk, p') l1).
    { apply nth_error_In with (n := k). rewrite <- (nth_error_app1 l1 ((m, p) :: l2)) by auto. rewrite <- Ha.
      apply nth_error_combine. auto. }
    clear - Hno Hin. induction Hno; [destruct Hin|]. destruct Hin as [[= -> ->]|Hin]; eauto. }
  destruct (Hcv t Ht) as (H1 & H2 & _). split.
  - intros Hnv Hpr. destruct (H2 Hnv Hpr) as (-> & x & -> & Hh). eauto.
  - intros Hvd. destruct (H1 Hvd) as (-> & ->). eauto.
Qed.

(** ** C12 for choices: a filter that is the alternative taken has accepted *)
(* Missing for the full statement: filters over void parsers and those that are not [proper],
   see C12_filter_in_choice_refuted. *)
Theorem C12_filter_in_choice_partial q qs tys res i w rem tr :
  program E -> valid E i -> compiles E Parse (PChoice q qs) = true ->
  result_fors E (q :: qs) = Some tys -> result_for E (PChoice q qs) = Some res ->
  evals E Parse (PChoice q qs) i (Done (Res (Some w) rem) tr) ->
  exists j a t, nth_error (q :: qs) j = Some a /\ nth_error tys j = Some t /\
    (exists m v tr', gives E m a i v rem tr') /\
    (forall k p', k < j -> nth_error (q :: qs) k = Some p' -> exists m tr', refuses E m p' i tr') /\
    forall p f, a = PFilter p f -> t <> TVoid -> proper tys j ->
      exists x tr' c, gives E Parse p i (RVal x) rem tr' /\ holds tys res t x w /\
        invoke E f [x] = FRet (RVal c) /\ as_bool E c = true.
Proof.
  intros HP Hv Hc Hr Hres H.
  destruct (C10_choice_value_partial q qs tys res i w rem tr HP Hv Hc Hr Hres H) as (j & a & t & Hj & Ht & Hg & Hb & Hp & _).
  exists j, a, t. do 4 (split; auto). intros p f -> Hnv Hpr. destruct (Hp Hnv Hpr) as (x & tr' & Hx & Hh).
  apply gives_big in Hx; auto. inversion Hx; subst.
  match goal with H' : big _ _ p _ _ _ |- _ => apply gives_big in H'; auto end.
  eauto 8.
Qed.

(** Every alternative is proper when the types are all different and not void. *)
Lemma distinct_proper tys j : NoDup tys -> j < List.length tys -> proper tys j.
Proof.
  intros Hn Hj. destruct (nth_error tys j) as [t|] eqn:Ht; [|apply nth_error_None in Ht; lia].
  exists t, j. split; auto. split; auto. split; auto. intros Hin. apply In_nth_error in Hin as [k Hk].
  assert (k < j). { assert (k < List.length (firstn j tys)) by (apply nth_error_Some; congruence). rewrite firstn_length in *. lia. }
  rewrite nth_error_firstn_lt in Hk by auto. assert (k = j); [|lia].
  eapply NoDup_nth_error; eauto; [|congruence]. apply nth_error_Some. congruence.
Qed.

(** ... and when there is one type only. *)
Lemma single_proper tys j t : (forall t', In t' tys -> t' = t) -> nth_error tys j = Some t -> proper tys j.
Proof.
  intros H Ht. exists t, 0. split; auto.
  assert (H0 : nth_error tys 0 = Some t).
  { destruct tys as [|a l]; [destruct j; discriminate|]. cbn. f_equal. apply H. now left. }
  split; [split; auto|]. right. split; [constructor|auto].
Qed.

(** ** C44: an empty alternative at the end *)
Theorem C44_or_eps_never_fails m q qs i rem tr : valid E i ->
  ~ evals E m (PChoice q (qs ++ [PEpsilon])) i (Done (Res None rem) tr).
Proof.
  intros Hv H. apply evals_big in H; auto.
  assert (Hno : forall l tr, none_of E l i tr -> forall mp, In mp l -> snd mp <> PEpsilon).
  { induction 1 as [|m' p l i tr1 tr2 Hr Hn IH]; intros mp [].
    - subst. cbn. intros ->. apply refuses_big in Hr; auto. inversion Hr.
    - auto. }
  inversion H; subst; match goal with H' : bfirst _ _ _ _ _ |- _ => apply bfirst_none in H'; auto; rename H' into Hb end.
  - assert (Hl : List.length (seq_of tys) = List.length (q :: qs ++ [PEpsilon])).
    { rewrite seq_length. symmetry. eapply result_fors_length; eauto. }
    assert (Hin : exists m', In (m', PEpsilon) (alts tys (q :: qs ++ [PEpsilon]))).
    { destruct (nth_error (map idx_mode (seq_of tys)) (S (List.length qs))) as [m'|] eqn:Hm.
      - exists m'. eapply nth_error_In with (n := S (List.length qs)). unfold alts. rewrite seq_of_eq. apply nth_error_combine.
        split; auto. cbn. rewrite nth_error_app2, Nat.sub_diag by lia. reflexivity.
      - apply nth_error_None in Hm. rewrite map_length, Hl in Hm. cbn in Hm. rewrite app_length in Hm. cbn in Hm. lia. }
    destruct Hin as [m' Hin]. exact (Hno _ _ Hb _ Hin eq_refl).
  - apply (Hno _ _ Hb (Look, PEpsilon)); auto. apply in_map. right. apply in_app_iff. right. now left.
Qed.

(** [p | eps] for a [p] that is not itself a choice, not a repetition, and not [eps]
    (operators/choice.h:92-96): p's result if p succeeds, else nothing consumed and the
    default value. *)
Theorem C44_or_eps q t i r tr :
  program E -> valid E i -> compiles E Parse (PChoice q [PEpsilon]) = true -> result_for E q = Some t ->
  evals E Parse (PChoice q [PEpsilon]) i (Done r tr) <->
  (exists v rem, gives E (if is_void t then Look else Parse) q i v rem tr /\
     r = Res (Some (if is_void t then RVoid else v)) rem) \/
  (refuses E (if is_void t then Look else Parse) q i tr /\ r = Res (Some (default_of t)) i).
Proof.
  intros HP Hv Hc Ht.
  assert (Hr : result_fors E [q; PEpsilon] = Some [t; TVoid]).
  { unfold result_fors. cbn. now rewrite Ht. }
  assert (Hres : result_for E (PChoice q [PEpsilon]) = Some t).
  { rewrite result_for_choice, Hr, done_of_eq. unfold done_of. cbn. destruct t; reflexivity. }
  destruct (C09_choice_parse q [PEpsilon] _ _ HP Hc Hr Hres) as (ms & [Hl Hms] & Hiff).
  rewrite (Hiff i r tr Hv). clear Hiff.
  destruct ms as [|m0 [|m1 [|]]]; try discriminate. cbn [combine].
  assert (Hp0 : proper [t; TVoid] 0) by (exists t, 0; split; [reflexivity|]; split; [split; auto|auto]).
  assert (Hm0 : m0 = if is_void t then Look else Parse).
  { destruct (Hms 0 t m0 eq_refl eq_refl) as [H1 H2]. destruct (is_void t) eqn:Hvt.
    - apply is_void_spec in Hvt. auto.
    - apply is_void_false in Hvt. auto. }
  assert (Hm1 : m1 = Look) by (apply (Hms 1 TVoid m1); reflexivity). subst m1. rewrite <- Hm0.
  assert (Heps : forall m i' v rem tr', valid E i' -> gives E m PEpsilon i' v rem tr' <-> v = RVoid /\ rem = i' /\ tr' = []).
  { intros m i' v rem tr' Hv'. rewrite gives_big by auto. split; [now inversion 1|]. intros (-> & -> & ->). constructor. }
  split.
  - intros [[Hn _]|(l1 & m & p & l2 & v & w & rem & tr1 & tr2 & Ha & Hn & Hg & -> & Hcv & ->)].
    + exfalso. inversion Hn; subst. match goal with H : none_of _ [_] _ _ |- _ => inversion H; subst end.
      match goal with H : refuses _ _ PEpsilon _ _ |- _ => apply refuses_big in H; auto; inversion H end.
    + destruct l1 as [|mp1 [|mp2 l1]]; cbn [app] in Ha.
      * injection Ha as <- <- <-. inversion Hn; subst. left. exists v, rem. split; auto. cbn [List.length] in Hcv.
        destruct (Hcv t eq_refl) as (H1 & H2 & _). destruct (is_void t) eqn:Hvt.
        -- apply is_void_spec in Hvt. destruct (H1 Hvt) as [_ ->]. subst t. reflexivity.
        -- apply is_void_false in Hvt. destruct (H2 Hvt Hp0) as (_ & x & -> & Hh).
           destruct Hh as [(_ & _ & ->)|((t' & Hin & H4 & H5) & _)]; auto. destruct Hin as [|[|[]]]; congruence.
      * injection Ha as <- <- <- <-. right. inversion Hn; subst.
        match goal with H : none_of _ [] _ _ |- _ => inversion H; subst end.
        apply Heps in Hg as (-> & -> & ->); auto. rewrite !app_nil_r. split; auto.
        destruct (Hcv TVoid eq_refl) as ((_ & ->) & _); auto.
      * destruct l1; discriminate.
  - intros H. right. destruct H as [(v & rem & Hg & ->)|[Hf ->]].
    + exists [], m0, q, [(Look, PEpsilon)], v, (if is_void t then RVoid else v), rem, [], tr.
      split; auto. split; [constructor|]. split; auto. split; auto. split; auto.
      intros t' [= <-]. cbn [List.length]. destruct (is_void t) eqn:Hvt.
      * apply is_void_spec in Hvt. subst. split; auto. split; intros; contradiction.
      * apply is_void_false in Hvt. split; [intros; contradiction|]. split.
        -- intros _ _. split; auto.
           assert (Hc0 : compiles E Parse q = true).
           { assert (Hx : nth_error (snd (filter_out_void_deduplicate [t; TVoid])) 0 = Some (Some 0)).
             { apply is_void_false in Hvt. rewrite seq_of_eq. unfold seq_of. cbn. unfold next_index. rewrite Hvt. reflexivity. }
             exact (compiles_choice E _ _ _ 0 q (Some 0) Hc Hr eq_refl Hx). }
           subst m0. destruct (shaped_typed E _ _ _ _ _ _ HP Hv Hc0 Hg eq_refl t Ht Hvt) as [x ->].
           exists x. split; auto. left. split; auto. intros t' [|[|[]]]; auto.
        -- intros _ Hnp. contradiction.
    + exists [(m0, q)], Look, PEpsilon, [], RVoid, (default_of t), i, tr, [].
      split; auto. split; [rewrite <- (app_nil_r tr); constructor; auto; constructor|].
      split; [apply Heps; auto|]. split; [now rewrite app_nil_r|]. split; auto.
      intros t' [= <-]. split; auto. split; intros; contradiction.
Qed.
End Choice.

(** ** C10 refuted: a repeated type after a void one *)

(** [void, span, span]: the third alternative matches but its value is lost, the choice
    returns an empty span (index_lookup in detail/filter.h:66-75 looks up by position among
    the distinct types in a list that has one entry per alternative). *)
Theorem C10_choice_value_refuted :
  exists (q p1 p2 : parser nat) i w rem,
    program sx /\ valid sx i /\ compiles sx Parse (PChoice q [p1; p2]) = true /\
    refuses sx Parse q i [] /\ refuses sx Parse p1 i [] /\
    gives sx Parse p2 i (RVal (VSpan (Span 1 0 1))) rem [] /\
    evals sx Parse (PChoice q [p1; p2]) i (Done (Res (Some w) rem) []) /\
    w = RVal (VSpan null_span).
Proof.
  exists (PIgnore (PAllOf (codes "z"))), (PAllOf (codes "b")), (PAllOf (codes "(")), in1.
  do 2 eexists. split; [apply sx_program|]. split; [apply in1_valid|]. split; [reflexivity|].
  split; [runs 4|]. split; [runs 4|]. split; [runs 4|]. split; [runs 6|reflexivity].
Qed.

(** ** C12 refuted for choices *)

(** A filter over a void parser, and one whose index is lost: parsed on its own each rejects, as
    an alternative it is taken. *)
Theorem C12_filter_in_choice_refuted :
  (exists (p q : parser nat) v rem,
    program sx /\ compiles sx Parse (PChoice p [q]) = true /\ valid sx in1 /\
    (exists tr, refuses sx Parse p in1 tr) /\ refuses sx Parse q in1 [] /\
    evals sx Parse (PChoice p [q]) in1 (Done (Res (Some v) rem) [])) /\
  (exists (a b p : parser nat) v rem,
    program sx /\ compiles sx Parse (PChoice a [b; p]) = true /\ valid sx in1 /\ result_for sx p = Some TSpan /\
    refuses sx Parse a in1 [] /\ refuses sx Parse b in1 [] /\ (exists tr, refuses sx Parse p in1 tr) /\
    evals sx Parse (PChoice a [b; p]) in1 (Done (Res (Some v) rem) [])).
Proof.
  split.
  - exists (PFilter (PIgnore (PAllOf (codes "("))) (FUser 4)), (PAllOf (codes "z")). do 2 eexists.
    split; [apply sx_program|]. split; [reflexivity|]. split; [apply in1_valid|].
    split; [eexists; runs 5|]. split; [runs 4|]. runs 6.
  - exists (PIgnore (PAllOf (codes "z"))), (PAllOf (codes "b")), (PFilter (PAllOf (codes "(")) (FUser 0)). do 2 eexists.
    split; [apply sx_program|]. split; [reflexivity|]. split; [apply in1_valid|]. split; [reflexivity|].
    split; [runs 4|]. split; [runs 4|]. split; [eexists; runs 5|]. runs 6.
Qed.

(** Two types, each twice: the fourth alternative gets the index of the second one, whose
    type is different; the program does not compile. *)
Theorem C10_two_repeated_types_do_not_compile :
  compiles sx Parse (PChoice (PAnyOf (codes "a"))
    [PAnyOf (codes "b"); POneOrMore (PAnyOf (codes "c")); POneOrMore (PAnyOf (codes "d"))]) = false.
Proof. reflexivity. Qed.

(** ** Cases *)
Example C09_case : let p := PChoice (PAllOf (codes "(b")) [POneOrMore (PAnyOf (codes "(")); PAllOf (codes "((a)b")] in
  compiles sx Parse p = true /\
  evals sx Parse p in1
    (Done (Res (Some (RVal (VVar 1 (VVec [VSpan (Span 1 0 1); VSpan (Span 1 1 1)])))) (at1 2)) []).
Proof. split; [reflexivity|runs 8]. Qed.

(** both proper and improper alternatives exist *)
Example C10_case : proper [TSpan; TVec TSpan; TSpan] 2 /\ ~ proper [TVoid; TSpan; TSpan] 2.
Proof.
  split.
  - exists TSpan, 0. split; [reflexivity|]. split; [split; auto|]. right. split; [constructor|auto].
  - intros (t & f & [= <-] & [H1 H2] & Hor).
    destruct f as [|[|[|[|f]]]]; cbn in *; try discriminate.
    + destruct Hor as [|[_ H]]; [discriminate|]. apply H. cbn. auto.
    + apply H2. auto.
Qed.

(** a filter that accepts is the alternative taken; one that rejects is passed over *)
Example C12_case : let p f := PChoice (PAllOf (codes "z")) [PFilter (PJoin (POneOrMore (PAnyOf (codes "(")))) f; POneOrMore (PAnyOf (codes "("))] in
  compiles sx Parse (p (FUser 0)) = true /\ proper [TSpan; TSpan; TVec TSpan] 1 /\
  evals sx Parse (p (FUser 0)) in1
    (Done (Res (Some (RVal (VVar 0 (VSpan (Span 1 0 2))))) (at1 2)) [EInvoke (FUser 0) [VSpan (Span 1 0 2)]]) /\
  (exists v tr, evals sx Parse (p (FUser 0)) (at1 1) (Done (Res (Some (RVal (VVar 1 v))) (at1 2)) tr)).
Proof.
  split; [reflexivity|]. split; [|split; [runs 8|do 2 eexists; runs 8]].
  exists TSpan, 0. split; [reflexivity|]. split; [split; auto|]. right. split; [constructor|auto].
Qed.

Example C44_case :
  evals sx Parse (PChoice (PAllOf (codes "-")) [PEpsilon]) in1 (Done (Res (Some (RVal (VSpan null_span))) in1) []).
Proof. runs 5. Qed.

Print Assumptions C09_choice_parse.
Print Assumptions C09_choice_look.
Print Assumptions C10_choice_value_partial.
Print Assumptions C10_choice_value_refuted.
Print Assumptions C12_filter_in_choice_partial.
Print Assumptions C12_filter_in_choice_refuted.
Print Assumptions C10_two_repeated_types_do_not_compile.
Print Assumptions C44_or_eps_never_fails.
Print Assumptions C44_or_eps.
