(** * With state: lookahead, traces, and safety in every world *)
From Coq Require Import String List Arith ZArith Bool Lia.
From Verif Require Import Types Compound Parser Outcome CompoundFacts Exec Mono Derive Typing Join Leaves Sound Stateful StatefulFacts.
Import ListNotations.

Section Simple.
Context {T V W : Type} (E : env T V).
Variable sfn : nat -> list val -> W -> fnres * W.
Variable sct : ty -> list val -> W -> fnres * W.
Notation srun := (srun E sfn sct).
Notation eff := (@eff W).

Lemma lift_bind {A B} (x : eff A) (y : outcome A) (f : A -> eff B) (g : A -> outcome B) :
  (forall w, x w = (y, w)) -> (forall a w, f a w = (g a, w)) -> forall w, sbind x f w = (bind y g, w).
Proof.
  intros Hx Hf w. unfold sbind. rewrite Hx. destruct y; cbn; auto. rewrite Hf. now destruct (g a).
Qed.
Lemma fst_bind {A B} (x : eff A) (y : outcome A) (f : A -> eff B) (g : A -> outcome B) :
  (forall w, fst (x w) = y) -> (forall a w, fst (f a w) = g a) -> forall w, fst (sbind x f w) = bind y g.
Proof.
  intros Hx Hf w. unfold sbind. specialize (Hx w). destruct (x w) as [o w']. cbn in Hx. subst o. destruct y; cbn; auto.
  specialize (Hf a w'). destruct (f a w') as [o w2]. cbn in Hf. subst o. now destruct (g a).
Qed.

(** Lookahead is [Exec.v]'s, in every world, and leaves the world alone. *)
Lemma look_run n p i w : srun n Look p i w = (run E n Look p i, w).
Proof.
  revert w. apply (b_run E sfn sct (fun A x o => forall w, x w = (o, w)) False); try discriminate; try contradiction.
  - reflexivity.
  - intros. apply lift_bind; auto.
Qed.

(** Functions whose results do not depend on the world *)
Lemma same_invoke : (forall n args w, fst (sfn n args w) = fn_app E n args) ->
  (forall t args w, fst (sct t args w) = ct_app E t args) ->
  forall f args w, fst (sinvoke E sfn sct f args w) = invoke E f args.
Proof.
  intros Hf Hc. induction f; intros args w; cbn; auto. destruct args as [|v [|]]; auto. destruct (tuple_vals v); auto.
Qed.
Lemma same_run : (forall n args w, fst (sfn n args w) = fn_app E n args) ->
  (forall t args w, fst (sct t args w) = ct_app E t args) ->
  forall n m p i w, fst (srun n m p i w) = run E n m p i.
Proof.
  intros Hf Hc n m p i. apply (b_run E sfn sct (fun A x o => forall w, fst (x w) = o) True); auto.
  - intros. apply fst_bind; auto.
  - intros _ f args w. unfold scall, call. rewrite <- (same_invoke Hf Hc f args w).
    destruct (sinvoke E sfn sct f args w) as [[r|e|] w']; reflexivity.
Qed.

(** The world after the calls of a trace *)
Fixpoint replay (tr : list event) (w : W) : W :=
  match tr with
  | [] => w
  | EInvoke f args :: tr' => replay tr' (snd (sinvoke E sfn sct f args w))
  end.
Lemma replay_app tr tr' w : replay (tr ++ tr') w = replay tr' (replay tr w).
Proof. revert w. induction tr as [|[f args] tr IH]; intros w; cbn; auto. Qed.

Lemma run_replay n m p i w r tr w' : srun n m p i w = (Done r tr, w') -> w' = replay tr w.
Proof.
  assert (H : forall w r tr w', srun n m p i w = (Done r tr, w') -> w' = replay tr w); [|apply H].
  apply (u_run E sfn sct (fun A x => forall w r tr w', x w = (Done r tr, w') -> w' = replay tr w) True); auto.
  - intros A o Hq w0 a tr0 w1 [= -> ->]. cbn in Hq. now subst tr0.
  - intros A B x f Hx Hf w0 b tr0 w1. unfold sbind. destruct (x w0) as [o w2] eqn:He. destruct o as [a tr1| | | |]; try discriminate.
    destruct (f a w2) as [o w3] eqn:Hf2. destruct o as [b' tr2| | | |]; try discriminate. intros [= <- <- <-].
    rewrite replay_app, <- (Hx _ _ _ _ He). eauto.
  - intros _ f args w0 a tr0 w1. unfold scall. destruct (sinvoke E sfn sct f args w0) as [[r0|e|] w2] eqn:He; try discriminate.
    intros [= <- <- <-]. cbn. now rewrite He.
Qed.
End Simple.

(** ** Safety *)
Section Safe.
Context {T V W : Type} (E : env T V).
Variable sfn : nat -> list val -> W -> fnres * W.
Variable sct : ty -> list val -> W -> fnres * W.
Notation srun := (srun E sfn sct).
Notation eff := (@eff W).
Notation sinvoke := (sinvoke E sfn sct).

(** In every world functions, constructors and constants respect their declared types (as [env_typed]). *)
Record senv_typed : Prop := {
  st_fn : forall n args tys t w, fn_ret E n tys = Some t -> Forall2 has_ty tys args ->
    match fst (sfn n args w) with FRet r => rv_has_ty t r | FThrow _ => True | FIll => False end;
  st_fn_ok : forall n tys t, fn_ret E n tys = Some t -> t = TVoid \/ ty_ok t = true;
  st_ct : forall t args tys w, ct_ok E t tys = true -> Forall2 has_ty tys args ->
    match fst (sct t args w) with FRet r => rv_has_ty t r | FThrow _ => True | FIll => False end;
  st_ct_ok : forall t tys, ct_ok E t tys = true -> t = TVoid \/ ty_ok t = true;
  st_k : forall k, ty_ok (k_ty E k) = true /\ has_ty (k_ty E k) (k_val E k);
  st_bool : forall t, bool_ok E t = true -> t <> TVoid
}.

(** In every world the function only returns (sub-spans of) spans found in its arguments (as [local_fn]). *)
Definition slocal_fn (f : func) : Prop := forall args w r w',
  sinvoke f args w = (FRet r, w') ->
  forall s, In s (rv_leaves r) -> sp_len s <> 0 ->
  exists s', In s' (flat_map leaves args) /\ sp_blk s = sp_blk s' /\
    sp_off s' <= sp_off s /\ sp_off s + sp_len s <= sp_off s' + sp_len s'.
Definition slocal_parser (p : parser T) : Prop := forall q, reach E p q ->
  match q with
  | PMap _ f => slocal_fn f
  | PCustom c => match cust_conv E c with
                 | ConvSame => True
                 | ConvElem t | ConvWhole t => slocal_fn (FConstruct t)
                 end
  | _ => True
  end.
Definition sjoin_local (p : parser T) : Prop := forall q, reach E p (PJoin q) -> slocal_parser q.

Hypothesis HT : senv_typed.
Hypothesis HC : env_customs E.

(** The same program with functions that always throw: it has the same types, and the same lookahead. *)
Definition mute : env T V := Env T V (eqv E) (mem E) (fn_ret E) (fun _ _ => FThrow 0) (ct_ok E) (fun _ _ => FThrow 0)
  (k_ty E) (k_val E) (bool_ok E) (as_bool E) (cust_body E) (cust_ty E) (cust_conv E).
Lemma mute_result p : result_for mute p = result_for E p.
Proof. reflexivity. Qed.
Lemma mute_compiles m p : compiles mute m p = compiles E m p.
Proof. reflexivity. Qed.
Lemma mute_typed : env_typed mute.
Proof.
  destruct HT. constructor; cbn; auto.
Qed.
Lemma mute_customs : env_customs mute.
Proof. destruct HC. constructor; auto. Qed.
Lemma mute_look n p i : run mute n Look p i = run E n Look p i.
Proof.
  pose proof (look_run (W := unit) E (fun _ _ w => (FIll, w)) (fun _ _ w => (FIll, w)) n p i tt) as H1.
  pose proof (look_run (W := unit) mute (fun _ _ w => (FIll, w)) (fun _ _ w => (FIll, w)) n p i tt) as H2.
  assert (Hs : Stateful.srun E (fun _ _ w => (FIll, w)) (fun _ _ w => (FIll, w)) n Look p i tt
             = Stateful.srun mute (fun _ _ w => (FIll, w)) (fun _ _ (w : unit) => (FIll, w)) n Look p i tt) by reflexivity.
  congruence.
Qed.

Notation valid := (valid E).

Definition swp {A} (x : eff A) (Q : A -> Prop) : Prop := forall w, wp False (fst (x w)) Q.
Lemma swp_bind {A B} (x : eff A) (f : A -> eff B) Q : swp x (fun a => swp (f a) Q) -> swp (sbind x f) Q.
Proof.
  intros H w. unfold sbind. specialize (H w). destruct (x w) as [[a tr| |e| |] w']; cbn in *; auto.
  specialize (H w'). destruct (f a w') as [[b tr'| |e| |] w'']; cbn in *; auto.
Qed.
Lemma swp_mono {A} (x : eff A) (P Q : A -> Prop) : swp x P -> (forall a, P a -> Q a) -> swp x Q.
Proof. intros H HPQ w. eapply wp_mono; eauto. Qed.
Lemma swp_lift {A} (o : outcome A) (Q : A -> Prop) : wp False o Q -> swp (lift o) Q.
Proof. intros H w. exact H. Qed.
Lemma swp_ret {A} (a : A) (Q : A -> Prop) : Q a -> swp (sret a) Q.
Proof. intros H w. exact H. Qed.

(** Every non-empty span in [v] lies in [lo..hi) of block [b]. *)
Definition inreg (b lo hi : nat) (v : rv) : Prop := forall s, In s (rv_leaves v) -> sp_len s <> 0 ->
  sp_blk s = b /\ lo <= sp_off s /\ sp_off s + sp_len s <= hi.
Lemma inreg_widen b lo hi lo' hi' v : inreg b lo hi v -> lo' <= lo -> hi <= hi' -> inreg b lo' hi' v.
Proof. intros H H1 H2 s Hs Hn. destruct (H s Hs Hn) as (? & ? & ?). repeat split; auto; lia. Qed.

Definition okr (m : mode) (p : parser T) (i : span) (r : presult) : Prop :=
  match r_ok r with
  | None => r_rem r = i
  | Some v => suffix i (r_rem r) /\
      match m with
      | Look => v = RVoid
      | Parse => (exists t, result_for E p = Some t /\ rv_has_ty t v) /\
                 (slocal_parser p -> inreg (sp_blk i) (sp_off i) (sp_off (r_rem r)) v)
      end
  end.
Definition sok (m : mode) (p : parser T) : Prop := compiles E m p = true /\ (m = Parse -> sjoin_local p).
Definition fsok (m : mode) (q : parser T) (f : @sfun W) : Prop := forall i, valid i -> swp (f i) (okr m q i).

Lemma look_sok n p i : compiles E Look p = true -> valid i -> swp (srun n Look p i) (okr Look p i).
Proof.
  intros Hc Hv w. rewrite look_run. cbn [fst]. rewrite <- mute_look.
  eapply wp_mono; [apply (run_ok mute False False (fun H => H) n Look p i)|].
  - right. split; [exact Hc|]. split; [discriminate|]. split; [apply mute_typed|apply mute_customs].
  - exact Hv.
  - intros r. unfold okres, okr. destruct (r_ok r) as [v|]; auto. intros [Hs Hd]. split; auto.
    eapply derives_look_void; eauto.
Qed.

Lemma slocal_comp p q : slocal_parser p -> In q (components E p) -> slocal_parser q.
Proof. intros H Hin r Hr. apply H. econstructor; eauto. Qed.
Lemma sjoin_comp p q : sjoin_local p -> In q (components E p) -> sjoin_local q.
Proof. intros H Hin r Hr. apply H. econstructor; eauto. Qed.
Lemma sok_comp m p q m' : sok m p -> In q (components E p) ->
  (compiles E m p = true -> compiles E m' q = true) -> (m' = Parse -> m = Parse) -> sok m' q.
Proof. intros [Hc Hj] Hin Hi Hm. split; auto. intros Hp. eapply sjoin_comp; eauto. Qed.

(** Parsers without user code *)
Lemma special_local q k f : join_special E q k = Some f -> local_parser E (PJoin q) /\ exists q', components E q = [q'] /\ components E q' = [].
Proof.
  intros Hq.
  assert (Hc : exists q', components E q = [q'] /\ components E q' = [] /\ match q with PMap _ _ | PCustom _ => False | _ => True end /\
     match q' with PMap _ _ | PCustom _ => False | _ => True end).
  { destruct q; try discriminate; cbn [join_special] in Hq; (destruct (as_basic E q) as [x|] eqn:Hb; [|discriminate]);
      exists q; repeat split; destruct q; try discriminate; first [reflexivity|exact Logic.I]. }
  destruct Hc as (q' & H1 & H2 & H3 & H4). split; [|eauto].
  intros r Hr. inversion Hr as [|? a ? Hin Hr1]; subst; [exact I|]. destruct Hin as [<-|[]].
  inversion Hr1 as [|? a ? Hin Hr2]; subst; [destruct r; auto; contradiction|]. rewrite H1 in Hin. destruct Hin as [<-|[]].
  inversion Hr2 as [|? a ? Hin Hr3]; subst; [destruct r; auto; contradiction|]. rewrite H2 in Hin. contradiction.
Qed.
Lemma okres_okr p i r : local_parser E p -> (forall lo hi v, derives E (sp_blk i) Parse p lo hi v -> exists s, v = RVal (VSpan s)) ->
  result_for E p = Some TSpan -> okres E Parse p i r -> okr Parse p i r.
Proof.
  intros Hl Hsp Ht. unfold okres, okr. destruct (r_ok r) as [v|]; auto. intros [Hs Hd]. split; auto.
  destruct (Hsp _ _ _ Hd) as [s ->]. split.
  - exists TSpan. split; auto. now apply rv_has_ty_val.
  - intros _ s' Hin Hn. destruct (derives_region E _ _ _ _ _ _ Hl Hd) as [_ HF]. rewrite Forall_forall in HF.
    apply HF. apply nonempty_in. auto.
Qed.
Lemma basic_sok p fc len i : elementary E p = Some (fc, len) -> valid i ->
  swp (lift (basic_parse fc len i)) (okr Parse p i).
Proof.
  intros He Hv. apply swp_lift. eapply wp_mono; [apply (basic_ok E False False p fc len Parse i He Hv)|].
  intros r. apply okres_okr.
  - intros q Hq. inversion Hq as [|? a ? Hin]; subst.
    + destruct q; try discriminate; exact I.
    + destruct p; try discriminate; contradiction.
  - intros lo hi v Hd. destruct p; try discriminate; inversion Hd; subst; cbn; eauto.
  - eapply elementary_ty; eauto.
Qed.
Lemma special_sok q k f i : join_special E q k = Some f -> valid i -> swp (lift (f Parse i)) (okr Parse (PJoin q) i).
Proof.
  intros Hf Hv. apply swp_lift. eapply wp_mono; [apply (join_special_ok E False False q k f Parse Hf i Hv)|].
  intros r. apply okres_okr; auto.
  - eapply special_local; eauto.
  - intros lo hi v Hd. inversion Hd; subst; eauto.
Qed.

(** ** Builders *)
Definition bv (L : Prop) (ct : ty) (i0 i : span) (b : rv) : Prop :=
  rv_has_ty ct b /\ (L -> inreg (sp_blk i0) (sp_off i0) (sp_off i) b).
Lemma suffix_off a b : suffix a b -> sp_off a <= sp_off b.
Proof. intros (c & _ & ->). cbn. lia. Qed.
Lemma bv_step L ct i0 i i' b : bv L ct i0 i b -> suffix i i' -> bv L ct i0 i' b.
Proof. intros [H1 H2] Hs. split; auto. intros HL. eapply inreg_widen; eauto. now apply suffix_off. Qed.
Lemma bv_init L ct i0 i : ct = TVoid \/ ty_ok ct = true -> bv L ct i0 i (builder_init ct).
Proof.
  intros H. unfold builder_init. destruct (is_void ct) eqn:Hv.
  - apply is_void_spec in Hv. subst. split; [reflexivity|]. intros _ s [].
  - apply is_void_false in Hv. destruct H as [-> |H]; [congruence|]. split.
    + apply rv_has_ty_val. now apply default_has_ty.
    + intros _ s Hs Hn. apply default_empty in Hs. contradiction.
Qed.
(** The result of a component, seen from the start of the whole. *)
Definition cv (L : Prop) (t : ty) (i0 i : span) (v : rv) : Prop := bv L t i0 i v.
Lemma okr_cv (L : Prop) q t i0 i rem v : suffix i0 i -> okr Parse q i (Res (Some v) rem) -> result_for E q = Some t ->
  (L -> slocal_parser q) -> suffix i rem /\ bv L t i0 rem v.
Proof.
  intros Hs Hok Ht HL. unfold okr in Hok. cbn in Hok. destruct Hok as [Hs' [(t' & Ht' & Hty) Hr]]. split; auto.
  replace t' with t in * by congruence. split; auto. intros HL'. rewrite <- (suffix_blk _ _ Hs).
  eapply inreg_widen; [apply Hr; auto| |auto]. now apply suffix_off.
Qed.
Lemma bv_void L i0 i b : bv L TVoid i0 i b -> b = RVoid.
Proof. intros [H _]. destruct b; [reflexivity|]. destruct H. congruence. Qed.
Lemma bv_val L t i0 i v : bv L t i0 i v -> t <> TVoid -> exists x, v = RVal x /\ has_ty t x.
Proof. intros [H _] Ht. destruct v as [|x]; [cbn in H; congruence|]. exists x. split; auto. now apply rv_val_inv. Qed.

Lemma inreg_app b lo hi x y : (forall s, In s (rv_leaves y) -> In s (rv_leaves x) \/ exists z, inreg b lo hi z /\ In s (rv_leaves z)) ->
  inreg b lo hi x -> inreg b lo hi y.
Proof. intros H Hx s Hs Hn. destruct (H s Hs) as [H'|(z & Hz & H')]; auto. Qed.

Definition vec_of (t : ty) : ty := if is_void t then TVoid else TVec t.
Lemma insert_bv L t i0 i b v : bv L (vec_of t) i0 i b -> bv L t i0 i v ->
  wp False (b_insert_back b v) (bv L (vec_of t) i0 i).
Proof.
  unfold vec_of. intros Hb Hv. destruct (is_void t) eqn:Ht.
  - rewrite (bv_void _ _ _ _ Hb). cbn. split; [reflexivity|]. intros _ s [].
  - apply is_void_false in Ht. destruct (bv_val _ _ _ _ _ Hb) as (x & -> & Hx); [discriminate|].
    destruct (bv_val _ _ _ _ _ Hv Ht) as (y & -> & Hy). destruct x; try contradiction. cbn. split.
    + apply rv_has_ty_val. cbn in *. apply Forall_app. split; auto.
    + intros HL s Hs. cbn in Hs. rewrite flat_map_app, in_app_iff in Hs. cbn in Hs. rewrite app_nil_r in Hs.
      destruct Hs as [Hs|Hs]; [apply (proj2 Hb HL)|apply (proj2 Hv HL)]; exact Hs.
Qed.

Lemma in_upd {A} (l : list A) n a x : In x (upd l n a) -> In x l \/ x = a.
Proof.
  revert n. induction l as [|y l IH]; intros [|n]; cbn; auto.
  - intros [-> |H]; auto.
  - intros [-> |H]; auto. destruct (IH n H); auto.
Qed.
Lemma upd_length {A} (l : list A) n a : List.length (upd l n a) = List.length l.
Proof. revert n. induction l; intros [|n]; cbn; auto. Qed.
Lemma upd_forall2 {A B} (R : A -> B -> Prop) ts l n t a : Forall2 R ts l -> nth_error ts n = Some t -> R t a -> Forall2 R ts (upd l n a).
Proof.
  intros H. revert n. induction H; intros [|n] Hn Ha; cbn in *; try discriminate.
  - injection Hn as ->. constructor; auto.
  - constructor; eauto.
Qed.
Lemma upd_leaves l n a s : In s (flat_map leaves (upd l n a)) -> In s (flat_map leaves l) \/ In s (leaves a).
Proof.
  intros H. apply in_flat_map in H as (x & Hx & Hs). apply in_upd in Hx as [Hx| ->]; auto. left. apply in_flat_map. eauto.
Qed.

Definition arr_of (t : ty) (n : nat) : ty := if is_void t then TVoid else TArr t n.
Lemma array_bv L t n j i0 i b v : j < n -> bv L (arr_of t n) i0 i b -> bv L t i0 i v ->
  wp False (b_array_assign j b v) (bv L (arr_of t n) i0 i).
Proof.
  unfold arr_of. intros Hj Hb Hv. destruct (is_void t) eqn:Ht.
  - rewrite (bv_void _ _ _ _ Hb). cbn. split; [reflexivity|]. intros _ s [].
  - apply is_void_false in Ht. destruct (bv_val _ _ _ _ _ Hb) as (x & -> & Hx); [discriminate|].
    destruct (bv_val _ _ _ _ _ Hv Ht) as (y & -> & Hy). destruct x as [| |l| | | | | |]; try contradiction. cbn in Hx. destruct Hx as [Hl Hx].
    cbn [b_array_assign]. rewrite Hl. destruct (Nat.ltb_spec j n); [|lia]. cbn. split.
    + apply rv_has_ty_val. cbn. rewrite upd_length. split; auto. rewrite Forall_forall in *. intros z Hz.
      apply in_upd in Hz as [Hz| ->]; auto.
    + intros HL s Hs. cbn in Hs. apply upd_leaves in Hs as [Hs|Hs]; [apply (proj2 Hb HL)|apply (proj2 Hv HL)]; exact Hs.
Qed.

Lemma seq_store_bv L done k t i0 i b v : nth_error done k = Some t -> t <> TVoid ->
  bv L (compound_result TTup done) i0 i b -> bv L t i0 i v ->
  wp False (store CSequence (unwrapped done) k b v) (bv L (compound_result TTup done) i0 i).
Proof.
  intros Hk Ht Hb Hv. destruct (bv_val _ _ _ _ _ Hv Ht) as (y & -> & Hy).
  destruct done as [|a [|a' l]]; [destruct k; discriminate| |]; cbn [unwrapped compound_result] in *; unfold store.
  - destruct k as [|[|]]; try discriminate. injection Hk as ->. destruct (bv_val _ _ _ _ _ Hb Ht) as (x & -> & Hx). exact Hv.
  - destruct (bv_val _ _ _ _ _ Hb) as (x & -> & Hx); [discriminate|]. destruct x as [| | | |vs| | | |]; try contradiction.
    apply has_ty_tup in Hx. cbn [b_get_assign].
    assert (Hlen : List.length vs = List.length (a :: a' :: l)) by (clear -Hx; induction Hx; cbn; auto).
    rewrite Hlen. assert (Hlt : k < List.length (a :: a' :: l)) by (apply nth_error_Some; congruence).
    apply Nat.ltb_lt in Hlt. rewrite Hlt. cbn [wp ret]. split.
    + apply rv_has_ty_val, has_ty_tup. eapply upd_forall2; eauto.
    + intros HL s Hs. cbn in Hs. apply upd_leaves in Hs as [Hs|Hs]; [apply (proj2 Hb HL)|apply (proj2 Hv HL)]; exact Hs.
Qed.
Lemma choice_store_bv L done k t i0 i b v : In t done -> (unwrapped done = false -> nth_error done k = Some t) -> t <> TVoid ->
  bv L (compound_result TVar done) i0 i b -> bv L t i0 i v ->
  wp False (store CChoice (unwrapped done) k b v) (bv L (compound_result TVar done) i0 i).
Proof.
  intros Hin Hk Ht Hb Hv. destruct (bv_val _ _ _ _ _ Hv Ht) as (y & -> & Hy).
  destruct done as [|a [|a' l]]; [contradiction| |]; cbn [unwrapped compound_result] in *; unfold store.
  - destruct Hin as [-> |[]]. destruct (bv_val _ _ _ _ _ Hb Ht) as (x & -> & Hx). exact Hv.
  - destruct (bv_val _ _ _ _ _ Hb) as (x & -> & Hx); [discriminate|]. destruct x; try contradiction.
    cbn [b_emplace wp ret]. split.
    + apply rv_has_ty_val, has_ty_var. exists t. auto.
    + intros HL s Hs. apply (proj2 Hv HL). exact Hs.
Qed.

Lemma delim_p_bv L tp td i0 i b v : bv L (delimit_type tp td) i0 i b -> bv L tp i0 i v ->
  wp False (if is_void tp then ret b else if is_void td then b_insert_back b v else b_insert_back_first b v) (bv L (delimit_type tp td) i0 i).
Proof.
  intros Hb Hv. destruct (is_void tp) eqn:Hp; [exact Hb|]. unfold delimit_type in *. rewrite Hp in *.
  destruct (is_void td) eqn:Hd.
  - pose proof (insert_bv L tp i0 i b v) as H. unfold vec_of in H. rewrite Hp in H. auto.
  - apply is_void_false in Hp. destruct (bv_val _ _ _ _ _ Hb) as (x & -> & Hx); [discriminate|].
    destruct (bv_val _ _ _ _ _ Hv Hp) as (y & -> & Hy). destruct x as [| | | | | |x1 x2| |]; try contradiction. destruct Hx as [H1 H2].
    destruct x1; try contradiction. cbn. split.
    + apply rv_has_ty_val. cbn. split; auto. apply Forall_app. split; auto.
    + intros HL s Hs. cbn in Hs. rewrite flat_map_app, !in_app_iff in Hs. cbn in Hs. rewrite app_nil_r in Hs.
      destruct Hs as [[Hs|Hs]|Hs]; [apply (proj2 Hb HL)|apply (proj2 Hv HL)|apply (proj2 Hb HL)]; cbn; rewrite ?in_app_iff; auto.
Qed.
Lemma delim_d_bv L tp td i0 i b v : bv L (delimit_type tp td) i0 i b -> bv L td i0 i v ->
  wp False (if is_void td then ret b else if is_void tp then b_insert_back b v else b_insert_back_second b v) (bv L (delimit_type tp td) i0 i).
Proof.
  intros Hb Hv. destruct (is_void td) eqn:Hd; [exact Hb|]. unfold delimit_type in *. rewrite Hd in *.
  destruct (is_void tp) eqn:Hp.
  - pose proof (insert_bv L td i0 i b v) as H. unfold vec_of in H. rewrite Hd in H. auto.
  - apply is_void_false in Hd. destruct (bv_val _ _ _ _ _ Hb) as (x & -> & Hx); [discriminate|].
    destruct (bv_val _ _ _ _ _ Hv Hd) as (y & -> & Hy). destruct x as [| | | | | |x1 x2| |]; try contradiction. destruct Hx as [H1 H2].
    destruct x2; try contradiction. cbn. destruct x1; try contradiction. split.
    + apply rv_has_ty_val. cbn. split; auto. apply Forall_app. split; auto.
    + intros HL s Hs. cbn in Hs. rewrite flat_map_app, !in_app_iff in Hs. cbn in Hs. rewrite app_nil_r in Hs.
      destruct Hs as [Hs|[Hs|Hs]]; [apply (proj2 Hb HL)|apply (proj2 Hb HL)|apply (proj2 Hv HL)]; cbn; rewrite ?in_app_iff; auto.
Qed.

(** ** Loops *)
Lemma srep_sok (L : Prop) q t f i0 : fsok Parse q f -> valid i0 -> result_for E q = Some t -> (L -> slocal_parser q) ->
  forall k i b s, suffix i0 i -> bv L (vec_of t) i0 i b -> (s = false -> i = i0) ->
  swp (srep_loop f k i b s) (fun '(i', b', s') => suffix i0 i' /\ bv L (vec_of t) i0 i' b' /\ (s' = false -> i' = i0)).
Proof.
  intros Hf Hv0 Ht HL. induction k as [|k IH]; intros i b s Hs Hb Hi; cbn [srep_loop]; [now apply swp_lift|].
  apply swp_bind. eapply swp_mono; [apply Hf; eapply suffix_valid; eauto|].
  intros [[v|] rem] Hok; cbn [r_ok r_rem].
  - destruct (okr_cv L q t i0 i rem v Hs Hok Ht HL) as [Hs' Hv]. apply swp_bind, swp_lift.
    eapply wp_mono; [apply (insert_bv L t i0 rem b v); auto; eapply bv_step; eauto|].
    intros b' Hb'. apply IH; eauto. discriminate.
  - cbn in Hok. subst rem. apply swp_ret. auto.
Qed.

Lemma sexactly_sok (L : Prop) q t f i0 n : fsok Parse q f -> valid i0 -> result_for E q = Some t -> (L -> slocal_parser q) ->
  forall k j i b, j + k = n -> suffix i0 i -> bv L (arr_of t n) i0 i b ->
  swp (sexactly_loop f k j i b) (fun o => match o with
    | None => True
    | Some (i', b') => suffix i0 i' /\ bv L (arr_of t n) i0 i' b' end).
Proof.
  intros Hf Hv0 Ht HL. induction k as [|k IH]; intros j i b Hj Hs Hb; cbn [sexactly_loop]; [now apply swp_ret|].
  apply swp_bind. eapply swp_mono; [apply Hf; eapply suffix_valid; eauto|].
  intros [[v|] rem] Hok; cbn [r_ok r_rem]; [|now apply swp_ret].
  destruct (okr_cv L q t i0 i rem v Hs Hok Ht HL) as [Hs' Hv]. apply swp_bind, swp_lift.
  eapply wp_mono; [apply (array_bv L t n j i0 rem b v); auto; [lia|eapply bv_step; eauto]|].
  intros b' Hb'. apply IH; eauto. lia.
Qed.

Lemma sdelim_sok (L : Prop) p d tp td fp fd i0 : fsok Parse p fp -> fsok Parse d fd -> valid i0 ->
  result_for E p = Some tp -> result_for E d = Some td -> (L -> slocal_parser p) -> (L -> slocal_parser d) ->
  forall k res i b,
  match r_ok res with
  | None => suffix i0 i /\ bv L (delimit_type tp td) i0 i b
  | Some v => suffix i0 (r_rem res) /\ bv L (delimit_type tp td) i0 (r_rem res) b /\ bv L tp i0 (r_rem res) v
  end ->
  swp (sdelim_loop fp fd (is_void tp) (is_void td) k res i b) (fun '(i', b') => suffix i0 i' /\ bv L (delimit_type tp td) i0 i' b').
Proof.
  intros Hp Hd Hv0 Htp Htd HLp HLd. induction k as [|k IH]; intros [ro rem] i b Hres; cbn [sdelim_loop]; [now apply swp_lift|].
  cbn [r_ok r_rem] in *. destruct ro as [v|]; [|now apply swp_ret]. destruct Hres as (Hs1 & Hb & Hv).
  apply swp_bind, swp_lift. eapply wp_mono; [apply (delim_p_bv L tp td i0 rem b v); auto|].
  intros b1 Hb1. apply swp_bind. eapply swp_mono; [apply Hd; eapply suffix_valid; eauto|].
  intros [[w|] rd] Hok; cbn [r_ok r_rem]; [|now apply swp_ret].
  destruct (okr_cv L d td i0 rem rd w Hs1 Hok Htd HLd) as [Hs2 Hw]. assert (Hs3 : suffix i0 rd) by eauto.
  apply swp_bind. eapply swp_mono; [apply Hp; apply (suffix_valid E i0 rd); auto|].
  intros [[v'|] rp] Hok'; cbn [has_value r_ok].
  - destruct (okr_cv L p tp i0 rd rp v' Hs3 Hok' Htp HLp) as [Hs4 Hv'].
    assert (Hs5 : suffix rem rp) by eauto.
    apply swp_bind, swp_lift. eapply wp_mono; [apply (delim_d_bv L tp td i0 rp b1 w); eapply bv_step; eauto|].
    intros b2 Hb2. apply IH. cbn. split; eauto.
  - apply swp_bind, swp_lift. destruct (is_void td); cbn [wp ret]; apply IH; cbn; auto.
Qed.

Definition rec_sok (rec : mode -> parser T -> @sfun W) : Prop := forall m q i, sok m q -> valid i -> swp (rec m q i) (okr m q i).

Lemma sand_sok (rec : mode -> parser T -> @sfun W) (L : Prop) done i0 : rec_sok rec -> valid i0 ->
  forall l, (forall p idx, In (p, idx) l -> sok (mode_of_index idx) p /\ (L -> slocal_parser p) /\
     forall k, idx = Some k -> exists t, result_for E p = Some t /\ t <> TVoid /\ nth_error done k = Some t) ->
  forall i b, suffix i0 i -> bv L (compound_result TTup done) i0 i b ->
  swp (sexec_and rec (unwrapped done) l (i, b)) (fun '(okb, (i', b')) => okb = true ->
     suffix i0 i' /\ bv L (compound_result TTup done) i0 i' b').
Proof.
  intros Hrec Hv0. induction l as [|[p idx] l IH]; intros Hl i b Hs Hb; cbn [sexec_and]; [now apply swp_ret|].
  assert (Hl' : forall p idx, In (p, idx) l -> sok (mode_of_index idx) p /\ (L -> slocal_parser p) /\
     forall k, idx = Some k -> exists t, result_for E p = Some t /\ t <> TVoid /\ nth_error done k = Some t) by (intros; apply Hl; now right).
  destruct (Hl p idx (or_introl eq_refl)) as (Hok & HL & Hk).
  apply swp_bind. destruct idx as [k|]; cbn [sexecute mode_of_index] in *.
  - destruct (Hk k eq_refl) as (t & Ht & Htv & Hn).
    apply swp_bind. eapply swp_mono; [apply Hrec; auto; eapply suffix_valid; eauto|].
    intros [[v|] rem] Hr; cbn [r_ok r_rem].
    + destruct (okr_cv L p t i0 i rem v Hs Hr Ht HL) as [Hs' Hv]. apply swp_bind, swp_lift.
      eapply wp_mono; [apply (seq_store_bv L done k t i0 rem b v); auto; eapply bv_step; eauto|].
      intros b' Hb'. apply swp_ret. apply IH; eauto.
    + apply swp_ret, swp_ret. discriminate.
  - apply swp_bind. eapply swp_mono; [apply Hrec; auto; eapply suffix_valid; eauto|].
    intros [[v|] rem] Hr; cbn [has_value r_ok r_rem]; apply swp_ret.
    + destruct Hr as [Hs' _]. cbn in Hs'. apply IH; eauto. eapply bv_step; eauto.
    + apply swp_ret. discriminate.
Qed.

Lemma sor_sok (rec : mode -> parser T -> @sfun W) (L : Prop) done i0 : rec_sok rec -> valid i0 ->
  forall l, (forall p idx, In (p, idx) l -> sok (mode_of_index idx) p /\ (L -> slocal_parser p) /\
     forall k, idx = Some k -> exists t, result_for E p = Some t /\ t <> TVoid /\ In t done /\ (unwrapped done = false -> nth_error done k = Some t)) ->
  forall b, bv L (compound_result TVar done) i0 i0 b ->
  swp (sexec_or rec (unwrapped done) l (i0, b)) (fun '(okb, (i', b')) => okb = true ->
     suffix i0 i' /\ bv L (compound_result TVar done) i0 i' b').
Proof.
  intros Hrec Hv0. induction l as [|[p idx] l IH]; intros Hl b Hb; cbn [sexec_or]; [apply swp_ret; discriminate|].
  assert (Hl' : forall p idx, In (p, idx) l -> sok (mode_of_index idx) p /\ (L -> slocal_parser p) /\
     forall k, idx = Some k -> exists t, result_for E p = Some t /\ t <> TVoid /\ In t done /\ (unwrapped done = false -> nth_error done k = Some t)) by (intros; apply Hl; now right).
  destruct (Hl p idx (or_introl eq_refl)) as (Hok & HL & Hk).
  apply swp_bind. destruct idx as [k|]; cbn [sexecute mode_of_index] in *.
  - destruct (Hk k eq_refl) as (t & Ht & Htv & Hin & Hn).
    apply swp_bind. eapply swp_mono; [apply Hrec; auto|].
    intros [[v|] rem] Hr; cbn [r_ok r_rem].
    + destruct (okr_cv L p t i0 i0 rem v (suffix_refl _) Hr Ht HL) as [Hs' Hv]. apply swp_bind, swp_lift.
      eapply wp_mono; [apply (choice_store_bv L done k t i0 rem b v); auto; eapply bv_step; eauto|].
      intros b' Hb'. apply swp_ret, swp_ret. auto.
    + apply swp_ret. auto.
  - apply swp_bind. eapply swp_mono; [apply Hrec; auto|].
    intros [[v|] rem] Hr; cbn [has_value r_ok r_rem]; apply swp_ret.
    + destruct Hr as [Hs' _]. cbn in Hs'. apply swp_ret. intros _. split; auto. eapply bv_step; eauto.
    + cbn in Hr. subst rem. auto.
Qed.

(** ** Calls *)
Lemma sinvoke_typed f : forall args tys t w, fn_ty E f tys = Some t -> Forall2 has_ty tys args ->
  match fst (sinvoke f args w) with FRet r => rv_has_ty t r | FThrow _ => True | FIll => False end.
Proof.
  induction f as [n|f IH|k|t0|t0]; intros args tys t w Ht Ha; cbn in *.
  - eapply st_fn; eauto.
  - destruct tys as [|t1 [|]]; try discriminate.
    destruct (tuple_tys t1) as [ts|] eqn:Hts; [|discriminate].
    inversion Ha as [|? v ? l Hv Hl]; subst. inversion Hl; subst.
    destruct (tuple_typed _ _ _ Hts Hv) as (vs & -> & Hvs). exact (IH _ _ _ _ Ht Hvs).
  - injection Ht as <-. destruct (st_k HT k) as [_ H]. split; auto. eapply has_ty_not_void; eauto.
  - destruct (ct_ok E t0 tys) eqn:Hc; [|discriminate]. injection Ht as <-. eapply st_ct; eauto.
  - destruct (ty_ok t0) eqn:Hok; [|discriminate]. injection Ht as <-.
    apply default_has_ty in Hok. split; auto. eapply has_ty_not_void; eauto.
Qed.
Lemma scall_sok f args tys t b lo hi : fn_ty E f tys = Some t -> Forall2 has_ty tys args ->
  swp (scall E sfn sct f args) (fun r => rv_has_ty t r /\
     (slocal_fn f -> (forall s, In s (flat_map leaves args) -> sp_len s <> 0 -> sp_blk s = b /\ lo <= sp_off s /\ sp_off s + sp_len s <= hi) ->
        inreg b lo hi r)).
Proof.
  intros Hf Ha w. unfold scall. pose proof (sinvoke_typed f args tys t w Hf Ha) as Hty.
  destruct (sinvoke f args w) as [[r|e|] w'] eqn:Hi; cbn in *; auto. split; auto.
  intros Hl Hr s Hs Hn. destruct (Hl _ _ _ _ Hi s Hs Hn) as (s' & Hs' & Hb & H1 & H2).
  destruct (Hr s' Hs') as (H3 & H4 & H5); [lia|]. repeat split; try congruence; lia.
Qed.
Lemma args_leaves v s : In s (flat_map leaves (args_of v)) <-> In s (rv_leaves v).
Proof. destruct v; cbn; [tauto|]. now rewrite app_nil_r. Qed.

(** ** One layer *)
Lemma seq_from_some tys : forall n j k t, nth_error (seq_from n tys) j = Some (Some k) -> nth_error tys j = Some t ->
  t <> TVoid /\ n <= k /\ nth_error (nonvoid tys) (k - n) = Some t.
Proof.
  induction tys as [|a tys IH]; intros n [|j] k t; cbn; try discriminate.
  - intros H [= ->]. destruct (is_void t) eqn:Ht; [discriminate|]. cbn in H. injection H as <-. apply is_void_false in Ht.
    split; auto. split; auto. now rewrite Nat.sub_diag.
  - intros H Hj. destruct (is_void a) eqn:Ha; cbn in *.
    + eauto.
    + destruct (IH (S n) j k t H Hj) as (H1 & H2 & H3). split; auto. split; [lia|]. replace (k - n) with (S (k - S n)) by lia. exact H3.
Qed.
Lemma result_ok p t : result_for E p = Some t -> t = TVoid \/ ty_ok t = true.
Proof. intros H. apply (result_for_ok mute mute_typed mute_customs p t H). Qed.
Ltac splitc H := repeat (apply andb_true_iff in H; let H' := fresh in destruct H as [H H']).
Ltac comp := cbn [compiles]; let H := fresh in intros H; splitc H; auto.

Lemma okr_bv p t i i' b : result_for E p = Some t -> suffix i i' -> bv (slocal_parser p) t i i' b -> okr Parse p i (success b i').
Proof. intros Ht Hs [H1 H2]. split; [exact Hs|]. split; eauto. Qed.
Lemma okr_fail m p i : okr m p i (failure i).
Proof. reflexivity. Qed.

Lemma sstep_sok rec k p i : rec_sok rec -> sok Parse p -> valid i ->
  swp (sstep E sfn sct rec k Parse p i) (okr Parse p i).
Proof.
  intros Hrec Hok Hv. destruct p; cbn [sstep].
  - apply (basic_sok (PAnyOf arr)); auto.
  - apply (basic_sok (PNoneOf arr)); auto.
  - apply (basic_sok (PAllOf arr)); auto.
  - apply (basic_sok PAnything); auto.
  - apply swp_lift. cbn. split; auto. split; [exists TVoid; split; reflexivity|]. intros _ s [].
  - (* choice *)
    unfold schoice_parse. pose proof (proj1 Hok) as Hc. set (P := PChoice p ps) in *.
    destruct (result_fors E (p :: ps)) as [tys|] eqn:Hr.
    2: { cbn [compiles] in Hc. subst P. cbn [compiles] in Hc. rewrite Hr in Hc. discriminate. }
    rewrite (compiles_choice_emplace E p ps tys Hc Hr).
    pose proof (compiles_choice_emplace E p ps tys Hc Hr) as Hem.
    pose proof (filter_out_void_deduplicate_spec tys) as Hspec.
    set (done := fst (filter_out_void_deduplicate tys)) in *.
    set (sq := snd (filter_out_void_deduplicate tys)) in *.
    assert (Hty : result_for E P = Some (compound_result TVar done)) by (subst P; now rewrite result_for_choice, Hr).
    apply swp_bind. eapply swp_mono; [apply (sor_sok rec (slocal_parser P) done i)|]; auto.
    + intros q idx Hin. apply In_nth_error in Hin as [j Hj]. apply nth_error_combine in Hj as [Hj1 Hj2].
      assert (Hin : In q (components E P)) by (cbn [components P]; eapply nth_error_In; eauto).
      split; [|split].
      * eapply sok_comp; eauto. intros _. eapply compiles_choice; eauto.
      * intros HL. eapply slocal_comp; eauto.
      * intros k0 ->. destruct (result_fors_nth E _ _ _ _ Hr Hj1) as (t & Ht1 & Ht2). exists t. split; auto.
        assert (Htv : t <> TVoid).
        { apply (dedup_from_some_nonvoid tys [] [] j k0 t); auto. unfold sq in Hj2. now rewrite Hspec in Hj2. }
        split; auto. split.
        -- unfold done. rewrite Hspec. cbn. apply distinct_from_in. repeat split; auto. eapply nth_error_In; eauto.
        -- intros Hu. rewrite Hu in Hem. cbn [orb] in Hem. rewrite emplace_ok_spec in Hem. eauto.
    + apply bv_init. eapply result_ok; eauto.
    + intros [[|] [i' b']] H; apply swp_ret; [|apply okr_fail]. destruct (H eq_refl) as [Hs Hb]. eapply okr_bv; eauto.
  - (* sequence *)
    unfold ssequence_parse. pose proof (proj1 Hok) as Hc. set (P := PSequence p ps) in *.
    destruct (result_fors E (p :: ps)) as [tys|] eqn:Hr.
    2: { subst P. cbn [compiles] in Hc. rewrite Hr in Hc. discriminate. }
    assert (Hty : result_for E P = Some (compound_result TTup (fst (filter_out_void tys)))) by (subst P; now rewrite result_for_seq, Hr).
    rewrite filter_out_void_spec in *. cbn [fst snd] in *.
    apply swp_bind. eapply swp_mono; [apply (sand_sok rec (slocal_parser P) (nonvoid tys) i)|]; auto.
    + intros q idx Hin. apply In_nth_error in Hin as [j Hj]. apply nth_error_combine in Hj as [Hj1 Hj2].
      assert (Hin : In q (components E P)) by (cbn [components P]; eapply nth_error_In; eauto).
      split; [|split].
      * eapply sok_comp; eauto. intros _. apply (compiles_seq E p ps tys j q idx); auto. rewrite filter_out_void_spec. exact Hj2.
      * intros HL. eapply slocal_comp; eauto.
      * intros k0 ->. destruct (result_fors_nth E _ _ _ _ Hr Hj1) as (t & Ht1 & Ht2). exists t. split; auto.
        destruct (seq_from_some tys 0 j k0 t Hj2 Ht1) as (H1 & _ & H2). rewrite Nat.sub_0_r in H2. auto.
    + apply bv_init. eapply result_ok; eauto.
    + intros [[|] [i' b']] H; apply swp_ret; [|apply okr_fail]. destruct (H eq_refl) as [Hs Hb]. eapply okr_bv; eauto.
  - (* maybe *)
    pose proof (proj1 Hok) as Hc. assert (Hokq : sok Parse p) by (eapply sok_comp; eauto; [now left|comp]).
    cbn [compiles] in Hc. destruct (result_for E p) as [t|] eqn:Hr; [|rewrite andb_false_r in Hc; discriminate].
    assert (Hty : result_for E (PMaybe p) = Some (if is_void t then TVoid else TOpt t)) by (cbn; now rewrite Hr).
    unfold smaybe_parse. apply swp_bind. eapply swp_mono; [apply (Hrec Parse p); auto|].
    intros [[v|] rem] Hres; cbn [r_ok r_rem].
    + destruct (okr_cv (slocal_parser (PMaybe p)) p t i i rem v (suffix_refl _) Hres Hr) as [Hs Hb].
      { intros HL. eapply slocal_comp; eauto. now left. }
      apply swp_bind, swp_lift. destruct (is_void t) eqn:Ht.
      * cbn. apply swp_ret. eapply okr_bv; eauto. split; [reflexivity|]. intros _ s [].
      * pose proof Ht as Htv. apply is_void_false in Htv. destruct (bv_val _ _ _ _ _ Hb Htv) as (x & -> & Hx). cbn. apply swp_ret.
        eapply okr_bv; eauto. split; [now apply rv_has_ty_val|exact (proj2 Hb)].
    + cbn in Hres. subst rem. apply swp_ret. eapply okr_bv; eauto. apply bv_init. eapply result_ok; eauto.
  - (* exactly *)
    pose proof (proj1 Hok) as Hc. assert (Hokq : sok Parse p) by (eapply sok_comp; eauto; [now left|comp]).
    cbn [compiles] in Hc. destruct (n =? 0) eqn:Hn; [discriminate|].
    destruct (result_for E p) as [t|] eqn:Hr; [|rewrite andb_false_r in Hc; discriminate].
    assert (Hty : result_for E (PExactly p n) = Some (arr_of t n)) by (cbn; now rewrite Hr).
    unfold sexactly_parse. apply swp_bind. eapply swp_mono.
    + apply (sexactly_sok (slocal_parser (PExactly p n)) p t (rec Parse p) i n); auto.
      * intros j Hj. now apply Hrec.
      * intros HL. eapply slocal_comp; eauto. now left.
      * apply bv_init. eapply result_ok; eauto.
    + intros [[i' b']|] H; apply swp_ret; [|apply okr_fail]. destruct H. eapply okr_bv; eauto.
  - (* one or more *)
    pose proof (proj1 Hok) as Hc. assert (Hokq : sok Parse p) by (eapply sok_comp; eauto; [now left|comp]).
    cbn [compiles] in Hc. destruct (result_for E p) as [t|] eqn:Hr; [|rewrite andb_false_r in Hc; discriminate].
    assert (Hty : result_for E (POneOrMore p) = Some (vec_of t)) by (cbn; now rewrite Hr).
    unfold sone_or_more_parse. apply swp_bind. eapply swp_mono.
    + apply (srep_sok (slocal_parser (POneOrMore p)) p t (rec Parse p) i); auto.
      * intros j Hj. now apply Hrec.
      * intros HL. eapply slocal_comp; eauto. now left.
      * apply bv_init. eapply result_ok; eauto.
    + intros [[i' b'] [|]] (Hs & Hb & Hf); apply swp_ret; [eapply okr_bv; eauto|]. rewrite (Hf eq_refl). apply okr_fail.
  - (* zero or more *)
    pose proof (proj1 Hok) as Hc. assert (Hokq : sok Parse p) by (eapply sok_comp; eauto; [now left|comp]).
    cbn [compiles] in Hc. destruct (result_for E p) as [t|] eqn:Hr; [|rewrite andb_false_r in Hc; discriminate].
    assert (Hty : result_for E (PZeroOrMore p) = Some (vec_of t)) by (cbn; now rewrite Hr).
    unfold szero_or_more_parse. apply swp_bind. eapply swp_mono.
    + apply (srep_sok (slocal_parser (PZeroOrMore p)) p t (rec Parse p) i); auto.
      * intros j Hj. now apply Hrec.
      * intros HL. eapply slocal_comp; eauto. now left.
      * apply bv_init. eapply result_ok; eauto.
    + intros [[i' b'] x] (Hs & Hb & Hf); apply swp_ret. eapply okr_bv; eauto.
  - (* delimit *)
    pose proof (proj1 Hok) as Hc. assert (Hokq : sok Parse p1) by (eapply sok_comp; eauto; [now left|comp]).
    assert (Hokd : sok Parse p2) by (apply (sok_comp Parse (PDelimit p1 p2)); auto; [right; now left|comp]).
    cbn [compiles] in Hc. destruct (result_for E p1) as [tp|] eqn:Hp; [|rewrite andb_false_r in Hc; discriminate].
    destruct (result_for E p2) as [td|] eqn:Hd; [|rewrite andb_false_r in Hc; discriminate].
    assert (Hty : result_for E (PDelimit p1 p2) = Some (delimit_type tp td)) by (cbn; now rewrite Hp, Hd).
    set (L := slocal_parser (PDelimit p1 p2)).
    assert (HL1 : L -> slocal_parser p1) by (intros HL; eapply slocal_comp; eauto; now left).
    assert (HL2 : L -> slocal_parser p2) by (intros HL; eapply slocal_comp; eauto; right; now left).
    unfold sdelimit_parse. apply swp_bind. eapply swp_mono; [apply (Hrec Parse p1); auto|].
    intros [[v|] rem] Hres; cbn [has_value r_ok]; [|apply swp_ret, okr_fail].
    destruct (okr_cv L p1 tp i i rem v (suffix_refl _) Hres Hp HL1) as [Hs Hb].
    apply swp_bind. eapply swp_mono.
    + apply (sdelim_sok L p1 p2 tp td (rec Parse p1) (rec Parse p2) i); auto.
      * intros j Hj. now apply Hrec.
      * intros j Hj. now apply Hrec.
      * cbn. split; auto. split; auto. apply bv_init. eapply result_ok; eauto.
    + intros [i' b'] [Hs' Hb']. apply swp_ret. eapply okr_bv; eauto.
  - (* ignore *)
    assert (Hokq : sok Look p) by (eapply sok_comp; eauto; now left || discriminate).
    eapply swp_mono; [apply (Hrec Look p); auto|].
    intros [[v|] rem] Hres; unfold okr in *; cbn [r_ok r_rem] in *; auto. destruct Hres as [Hs ->]. split; auto.
    split; [exists TVoid; split; reflexivity|]. intros _ s [].
  - (* complete *)
    assert (Hokq : sok Parse p) by (eapply sok_comp; eauto; [now left|comp]).
    unfold scomplete_run. apply swp_bind. eapply swp_mono; [apply (Hrec Parse p); auto|].
    intros [[v|] rem] Hres; cbn [has_value r_ok r_rem negb orb]; [|apply swp_ret, okr_fail].
    destruct (negb (sp_len rem =? 0)); apply swp_ret; [apply okr_fail|]. unfold okr in *. cbn [r_ok r_rem] in *.
    destruct Hres as (Hs & Ht & Hr). split; auto. split; auto. intros HL. apply Hr. eapply slocal_comp; eauto. now left.
  - (* join *)
    destruct (join_special E p k) as [f|] eqn:Hsp; [eapply special_sok; eauto|].
    pose proof Hok as [Hc Hjl]. assert (Hokq : sok Parse p) by (eapply sok_comp; eauto; [now left|comp]).
    assert (Hloc : slocal_parser p) by (apply Hjl; auto; constructor).
    unfold sjoin_generic. cbn [compiles] in Hc. destruct (result_for E p) as [t|] eqn:Hr; [|rewrite andb_false_r in Hc; discriminate].
    destruct (joinable t) eqn:Hj; [|rewrite andb_false_r in Hc; discriminate].
    assert (Htv : t <> TVoid) by (intros ->; discriminate).
    unfold sjoin_parse. apply swp_bind. eapply swp_mono; [apply (Hrec Parse p); auto|].
    intros [[v|] rem] Hres; cbn [r_ok r_rem]; [|apply swp_ret, okr_fail].
    destruct (okr_cv True p t i i rem v (suffix_refl _) Hres Hr) as [Hs Hb]; auto.
    destruct (bv_val _ _ _ _ _ Hb Htv) as (x & -> & Hx). apply swp_bind, swp_lift.
    assert (Hspan : forall s, (sp_len s <> 0 -> sp_blk s = sp_blk i /\ sp_off i <= sp_off s /\ sp_off s + sp_len s <= sp_off rem) ->
      okr Parse (PJoin p) i (success (RVal (VSpan s)) rem)).
    { intros s Hin. split; [exact Hs|]. split; [exists TSpan; split; [reflexivity|now apply rv_has_ty_val]|].
      intros _ s' [<-|[]] Hn. auto. }
    destruct (join_executor_spec (sp_blk i) x rem (joinable_jval t x Hj Hx)) as [[_ He]|[(lo & hi & Hne & Htl & He)|(_ & _ & He)]].
    + intros s Hin Hn. now apply (proj2 Hb Logic.I).
    + rewrite He. cbn. apply swp_ret, Hspan. cbn. congruence.
    + rewrite He. cbn. apply swp_ret, Hspan. cbn. intros Hn.
      destruct (tiles_bounds _ _ _ _ Htl Hne) as [(y & Hy & <-) (z & Hz & <-)].
      apply nonempty_in in Hy as [Hy Hyn]. apply nonempty_in in Hz as [Hz Hzn].
      destruct (proj2 Hb Logic.I y Hy Hyn) as (_ & ? & _). destruct (proj2 Hb Logic.I z Hz Hzn) as (_ & _ & ?). lia.
    + rewrite He. cbn. apply swp_ret, okr_fail.
  - (* map *)
    pose proof (proj1 Hok) as Hc. assert (Hokq : sok Parse p) by (eapply sok_comp; eauto; [now left|comp]).
    cbn [compiles] in Hc. destruct (result_for E (PMap p f)) as [t|] eqn:Hr; [|rewrite andb_false_r in Hc; discriminate].
    pose proof Hr as Hr'. cbn [result_for] in Hr'. destruct (result_for E p) as [tq|] eqn:Hq; [|discriminate].
    unfold smap_parse. apply swp_bind. eapply swp_mono; [apply (Hrec Parse p); auto|].
    intros [[v|] rem] Hres; cbn [r_ok r_rem]; [|apply swp_ret, okr_fail].
    unfold okr in Hres. cbn in Hres. destruct Hres as (Hs & (t' & Ht' & Hty) & Hreg). replace t' with tq in * by congruence.
    apply swp_bind. eapply swp_mono; [apply (scall_sok f (args_of v) (arg_tys tq) t (sp_blk i) (sp_off i) (sp_off rem) Hr'); now apply args_of_typed|].
    intros r [Hrt Hrl]. apply swp_ret. split; [exact Hs|]. split; [eauto|]. intros HL. apply Hrl.
    + apply (HL (PMap p f)). constructor.
    + intros s Hin. apply Hreg; [|now apply args_leaves]. eapply slocal_comp; eauto. now left.
  - (* filter *)
    pose proof (proj1 Hok) as Hc. assert (Hokq : sok Parse p) by (eapply sok_comp; eauto; [now left|comp]).
    cbn [compiles] in Hc. destruct (result_for E (PFilter p f)) as [t|] eqn:Hr; [|rewrite andb_false_r in Hc; discriminate].
    pose proof Hr as Hr'. cbn [result_for] in Hr'. destruct (result_for E p) as [tq|] eqn:Hq; [|discriminate].
    destruct (fn_ty E f (arg_tys tq)) as [tb|] eqn:Hf; [|discriminate]. destruct (bool_ok E tb) eqn:Hbo; [|discriminate].
    injection Hr' as <-.
    unfold sfilter_parse. apply swp_bind. eapply swp_mono; [apply (Hrec Parse p); auto|].
    intros [[v|] rem] Hres; cbn [r_ok r_rem]; [|apply swp_ret, okr_fail].
    unfold okr in Hres. cbn in Hres. destruct Hres as (Hs & (t' & Ht' & Hty) & Hreg). replace t' with tq in * by congruence.
    apply swp_bind. eapply swp_mono; [apply (scall_sok f (args_of v) (arg_tys tq) tb 0 0 0 Hf); now apply args_of_typed|].
    intros [|c] [Hrt _]; [cbn in Hrt; subst tb; exfalso; exact (st_bool HT TVoid Hbo eq_refl)|].
    destruct (as_bool E c); apply swp_ret; [|apply okr_fail]. split; [exact Hs|]. split; [eauto|].
    intros HL. apply Hreg. eapply slocal_comp; eauto. now left.
  - (* named *)
    assert (Hokq : sok Parse p) by (eapply sok_comp; eauto; now left).
    eapply swp_mono; [apply (Hrec Parse p); auto|].
    intros [[v|] rem] Hres; unfold okr in *; cbn [r_ok r_rem] in *; auto. destruct Hres as (Hs & Ht & Hr). split; auto. split; auto.
    intros HL. apply Hr. eapply slocal_comp; eauto. now left.
  - (* custom *)
    assert (Hin : In (cust_body E c) (components E (PCustom c))) by now left.
    assert (Hokq : sok Parse (cust_body E c)) by (eapply sok_comp; eauto; intros _; apply (ec_compiles E HC)).
    pose proof (ec_conv E HC c) as Hcv.
    unfold scustom_parse. apply swp_bind. eapply swp_mono; [apply (Hrec Parse (cust_body E c)); auto|].
    intros [ro rem] Hres; cbn [r_ok r_rem]. unfold okr in Hres. cbn [r_ok r_rem] in Hres.
    destruct (cust_conv E c) as [|t|t] eqn:Hcc.
    + apply swp_ret. unfold okr. cbn [r_ok r_rem]. destruct ro as [v|]; auto. destruct Hres as (Hs & (t & Ht & Hty) & Hr). split; auto. split.
      * exists (cust_ty E c). split; [reflexivity|congruence].
      * intros HL. apply Hr. eapply slocal_comp; eauto.
    + destruct Hcv as (Hct & Htv & tb & Htb & Htbv & Hctok).
      assert (Hf : fn_ty E (FConstruct t) [tb] = Some t) by (cbn; now rewrite Hctok).
      destruct ro as [v|]; [|now apply swp_ret]. destruct Hres as (Hs & (t' & Ht & Hty) & Hr).
      replace t' with tb in * by congruence. destruct v as [|v]; [cbn in Hty; contradiction|].
      apply swp_bind. eapply swp_mono; [apply (scall_sok (FConstruct t) [v] [tb] t (sp_blk i) (sp_off i) (sp_off rem) Hf)|].
      { repeat constructor. now apply rv_val_inv. }
      intros r [Hrt Hrl]. apply swp_ret. split; [exact Hs|]. split; [exists t; split; auto; cbn; congruence|].
      intros HL. apply Hrl; [specialize (HL (PCustom c) (reach_refl _ _)); cbn in HL; now rewrite Hcc in HL|].
      intros s Hins. apply Hr; [eapply slocal_comp; eauto|]. cbn in Hins. now rewrite app_nil_r in Hins.
    + destruct Hcv as (Hct & Htv & tb & Htb & Htbv & Hctok).
      assert (Hf : fn_ty E (FConstruct t) [TOpt tb] = Some t) by (cbn; now rewrite Hctok).
      destruct ro as [v|].
      * destruct Hres as (Hs & (t' & Ht & Hty) & Hr).
        replace t' with tb in * by congruence. destruct v as [|v]; [cbn in Hty; contradiction|].
        apply swp_bind. eapply swp_mono; [apply (scall_sok (FConstruct t) [VOpt (Some v)] [TOpt tb] t (sp_blk i) (sp_off i) (sp_off rem) Hf)|].
        { repeat constructor. cbn. now apply rv_val_inv. }
        intros r [Hrt Hrl]. apply swp_ret. split; [exact Hs|]. split; [exists t; split; auto; cbn; congruence|].
        intros HL. apply Hrl; [specialize (HL (PCustom c) (reach_refl _ _)); cbn in HL; now rewrite Hcc in HL|].
        intros s Hins. apply Hr; [eapply slocal_comp; eauto|]. cbn in Hins. now rewrite app_nil_r in Hins.
      * subst rem. apply swp_bind. eapply swp_mono; [apply (scall_sok (FConstruct t) [VOpt None] [TOpt tb] t (sp_blk i) (sp_off i) (sp_off i) Hf)|].
        { repeat constructor. }
        intros r [Hrt Hrl]. apply swp_ret. split; [apply suffix_refl|]. split; [exists t; split; auto; cbn; congruence|].
        intros HL. apply Hrl; [specialize (HL (PCustom c) (reach_refl _ _)); cbn in HL; now rewrite Hcc in HL|].
        intros s Hins. contradiction.
Qed.

Theorem srun_sok n : forall m p i, sok m p -> valid i -> swp (srun n m p i) (okr m p i).
Proof.
  induction n as [|n IH]; intros m p i Hok Hv.
  - now apply swp_lift.
  - destruct m; [|apply look_sok; auto; apply Hok]. cbn [Stateful.srun]. apply sstep_sok; auto.
Qed.
End Safe.
