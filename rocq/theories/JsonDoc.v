(** * C51: what the JSON example delivers for a document *)
From Coq Require Import String List Arith ZArith Bool Lia.
From Verif Require Import Types Compound Parser Outcome CompoundFacts Exec Mono Derive Typing Join Leaves Sound
  BigStep BigSound BigComplete Peg Elems Runs Samples PropCore PropPeg Lossless Agree Check PropAgree Grammar CharPeg Names PropNames Term PropTerm
  StaticArray Operators PropSets Modifiers ExAlgebraic PropAlgebraic ExJson PropJson JsonGrammar JsonPeg.
Import ListNotations.

Section JsonDoc.
Context (memory : nat -> list nat) (cons : ty -> list val -> fnres).
Notation J := (json_env memory cons).

(** ** What is delivered

    The object for a document, given what the constructors make of their arguments: a value
    object from a variant with the index of json.cpp:71, from a string, a number, a vector of
    pairs, a vector of values, a bool or a nullptr. *)
Inductive built : doc -> rv -> Prop :=
| bt_value d k x v : payload d k x -> cons t_value [VVar k x] = FRet v -> built d v
with payload : doc -> nat -> val -> Prop :=
| pl_string raw v : string_object raw v -> payload (JString raw) 0 v
| pl_number i f e si sf se v : view memory si = i -> option_map (view memory) sf = f -> option_map (view memory) se = e ->
    cons t_number [VSpan si; VOpt (option_map VSpan sf); VOpt (option_map VSpan se)] = FRet (RVal v) -> payload (JNumber i f e) 1 v
| pl_object ms vs : pair_objects ms vs -> payload (JObject ms) 2 (VVec vs)
| pl_array ds vs : objects ds vs -> payload (JArray ds) 3 (VVec vs)
| pl_bool b : payload (JBool b) 4 (VUser 0 [VZ (if b then 1 else 0)])
| pl_null : payload JNull 5 (VUser 1 [])
with string_object : list nat -> val -> Prop :=
| so_span raw s v : view memory s = raw -> cons t_string [VSpan s] = FRet (RVal v) -> string_object raw v
with pair_object : list nat * doc -> val -> Prop :=
| po_pair raw d k v p : string_object raw k -> built d (RVal v) -> cons t_pair [k; v] = FRet (RVal p) -> pair_object (raw, d) p
with pair_objects : list (list nat * doc) -> list val -> Prop :=
| ps_nil : pair_objects [] []
| ps_cons m ms v vs : pair_object m v -> pair_objects ms vs -> pair_objects (m :: ms) (v :: vs)
with objects : list doc -> list val -> Prop :=
| os_nil : objects [] []
| os_cons d ds v vs : built d (RVal v) -> objects ds vs -> objects (d :: ds) (v :: vs).

Notation region := (region_text memory).

Lemma region_nil b o : region b o o = [].
Proof. unfold region_text, view. now replace (o - o) with 0 by lia. Qed.

Lemma any_d b m arr lo hi v : derives J b m (PAnyOf arr) lo hi v -> hi = S lo /\ exists c, In c arr /\ region b lo hi = [c].
Proof.
  intros H. inversion H; subst. match goal with H : exists t, _ |- _ => destruct H as (t & Ht & He) end. apply Nat.eqb_eq in He. subst.
  split; auto. exists c. split; auto. now apply region_one.
Qed.
Lemma none_d b m arr lo hi v : derives J b m (PNoneOf arr) lo hi v -> hi = S lo /\ exists c, ~ In c arr /\ region b lo hi = [c].
Proof.
  intros H. inversion H; subst. split; auto. exists c. split; [|now apply region_one].
  intros Hin. match goal with H : forall t, In t _ -> _ |- _ => specialize (H c Hin) end. cbn in *. rewrite Nat.eqb_refl in *. discriminate.
Qed.
Lemma matches_region b arr : forall lo, matches_at J b arr lo -> region b lo (lo + List.length arr) = arr.
Proof.
  induction arr as [|c arr IH]; intros lo H.
  - rewrite Nat.add_0_r. apply region_nil.
  - destruct H as ((c' & Hc & He) & H). apply Nat.eqb_eq in He. subst c'. specialize (IH _ H).
    replace (lo + List.length (c :: arr)) with (S lo + List.length arr) by (cbn; lia).
    rewrite (region_app memory b lo (S lo)) by lia. rewrite IH. now rewrite (region_one memory b lo c Hc).
Qed.
Lemma all_d b m arr lo hi v : derives J b m (PAllOf arr) lo hi v -> hi = lo + List.length arr /\ region b lo hi = arr.
Proof. intros H. inversion H; subst. split; auto. now apply matches_region. Qed.
Lemma ign_d b m c lo hi v : derives J b m (PIgnore (PAllOf [c])) lo hi v -> hi = S lo /\ region b lo (S lo) = [c].
Proof.
  intros H. inversion H; subst. match goal with H : derives _ _ Look _ _ _ _ |- _ => apply all_d in H as [-> Hr] end. cbn [List.length] in *.
  replace (S lo) with (lo + 1) by lia. auto.
Qed.

(** Forgetting values and modes. *)
Lemma seq_d b m q qs lo hi v : derives J b m (PSequence q qs) lo hi v ->
  exists ms vs, List.length ms = List.length (q :: qs) /\ dchain J b (combine ms (q :: qs)) lo hi vs.
Proof.
  intros H. inversion H; subst.
  - match goal with H : result_fors _ _ = Some _ |- _ => apply all_some_spec in H; rename H into Hr end.
    apply (f_equal (@List.length _)) in Hr. rewrite !map_length in Hr.
    eexists (map part_mode tys), vs. split; [rewrite map_length; symmetry; exact Hr|]. assumption.
  - match goal with H : dchain _ _ _ _ _ _ |- _ => rename H into Hc end.
    exists (repeat Look (List.length (q :: qs))), vs. split; [apply repeat_length|].
    replace (combine (repeat Look (List.length (q :: qs))) (q :: qs)) with (map (pair Look) (q :: qs)); auto.
    generalize (q :: qs). intros l. induction l; cbn; congruence.
Qed.
Lemma seq2_d b m p q lo hi v : derives J b m (PSequence p [q]) lo hi v ->
  exists mid m1 m2 v1 v2, derives J b m1 p lo mid v1 /\ derives J b m2 q mid hi v2.
Proof.
  intros H. apply seq_d in H as ([|m1 [|m2 [|]]] & vs & Hl & Hc); try discriminate Hl. cbn [combine] in Hc.
  inversion Hc; subst. match goal with H : dchain _ _ [_] _ _ _ |- _ => inversion H; subst end.
  match goal with H : dchain _ _ [] _ _ _ |- _ => inversion H; subst end. eauto 10.
Qed.
Lemma choice_d b m q qs lo hi v : derives J b m (PChoice q qs) lo hi v ->
  exists p m' v', In p (q :: qs) /\ derives J b m' p lo hi v'.
Proof. intros H. inversion H; subst; try match goal with H : nth_error (_ :: _) _ = Some _ |- _ => apply nth_error_In in H end; eauto. Qed.
Lemma join_d b m q lo hi v : derives J b m (PJoin q) lo hi v -> exists m' v', derives J b m' q lo hi v'.
Proof. intros H. inversion H; subst; eauto. Qed.

Lemma run_d b (P : nat -> Prop) arr m n : (forall c, In c arr -> P c) -> forall lo hi vs, dchain J b (repeat (m, PAnyOf arr) n) lo hi vs ->
  hi = lo + n /\ Forall P (region b lo hi) /\ List.length (region b lo hi) = n.
Proof.
  intros HP. induction n as [|n IH]; intros lo hi vs H; cbn in H; inversion H as [|? ? ? ? ? ? ? ? Hd Hc]; subst.
  - rewrite region_nil. repeat split; auto.
  - apply any_d in Hd as (-> & c & Hin & Hr). destruct (IH _ _ _ Hc) as (-> & HF & Hl). split; [lia|].
    rewrite (region_app memory b lo (S lo)) by lia. rewrite Hr. split; [constructor; auto|cbn; auto].
Qed.
Lemma white_d b m lo hi v : derives J b m whitespace lo hi v -> lo <= hi /\ Forall white (region b lo hi).
Proof.
  intros H. inversion H; subst. match goal with H : derives _ _ Look _ _ _ _ |- _ => inversion H; subst end.
  match goal with H : dchain _ _ _ _ _ _ |- _ => apply (run_d _ white) in H as (-> & HF & _); [split; [lia|auto]|] end.
  unfold white. cbn. lia.
Qed.
Lemma digits_d b m lo hi v : derives J b m (POneOrMore digit) lo hi v -> lo < hi /\ region b lo hi <> [] /\ Forall is_dg (region b lo hi).
Proof.
  intros H. assert (Hn : exists m n vs, n <> 0 /\ dchain J b (repeat (m, digit) n) lo hi vs) by (inversion H; subst; eauto).
  destruct Hn as (m' & n & vs & Hn & Hc). apply (run_d _ is_dg) in Hc as (-> & HF & Hl).
  - split; [lia|]. split; auto. intros He. rewrite He in Hl. cbn in Hl. lia.
  - clear. intros c Hc. vm_compute in Hc. unfold is_dg. repeat (destruct Hc as [<-|Hc]; [lia|]). destruct Hc.
Qed.

(** *** Joined text *)
Lemma join_view b x lo hi s : jval x -> tiles b lo hi (nonempty (leaves x)) -> join_executor x (Span b hi 0) = Done (Some s) [] ->
  view memory s = region b lo hi.
Proof.
  intros Hj Ht He. pose proof (tiles_le _ _ _ _ Ht). destruct (Nat.eq_dec lo hi) as [->|Hne].
  - apply (join_executor_some b) in He; auto.
    + destruct He as [[_ ->]|(Hn & lo' & hi' & Ht' & ->)]; [now rewrite region_nil|].
      assert (lo' = hi) by (clear - Ht Ht' Hn; destruct (nonempty (leaves x)); [congruence|]; inversion Ht; inversion Ht'; subst; congruence). subst lo'. rewrite (tiles_fun _ _ _ _ Ht _ Ht').
      unfold region_text. now rewrite Nat.sub_diag.
    + intros y Hy Hl. apply (tiles_blk _ _ _ _ Ht). now apply nonempty_in.
  - rewrite (join_tiles _ _ _ _ _ _ Hj Ht ltac:(lia) He). reflexivity.
Qed.
Lemma tile_d b p x lo hi : lossless_b J [] p = true -> derives J b Parse p lo hi (RVal x) -> jval x -> tiles b lo hi (nonempty (leaves x)).
Proof.
  intros Hl H Hj. rewrite <- jval_src by auto. apply (derives_tiles J b (json_customs _ _) p lo hi (RVal x)); auto. now apply (lossless_b_ok J []).
Qed.

(** *** Strings *)
Lemma unit_d b m lo hi v : derives J b m valid_char lo hi v -> lo <= hi /\ unit_ false (region b lo hi).
Proof.
  rewrite valid_char_shape. intros H. pose proof (proj1 (derives_le J b) _ _ _ _ _ H) as Hle. split; auto.
  apply choice_d in H as (p & m1 & v1 & [<-|[<-|[]]] & H).
  - apply none_d in H as (-> & c & Hc & ->). constructor; [intros ->|intros ->|discriminate]; apply Hc; cbn; auto.
  - apply join_d in H as (m2 & v2 & H). apply seq2_d in H as (mid & m3 & m4 & v3 & v4 & H1 & H2).
    apply all_d in H1 as [Hm R1]. cbn [List.length] in Hm. pose proof (proj1 (derives_le J b) _ _ _ _ _ H2).
    rewrite (region_app memory b lo mid hi), R1 by lia.
    apply choice_d in H2 as (p & m5 & v5 & [<-|[<-|[]]] & H2).
    + apply any_d in H2 as (-> & c & Hc & ->). constructor. now apply escapes_spec.
    + apply join_d in H2 as (m6 & v6 & H2). apply seq2_d in H2 as (mid2 & m7 & m8 & v7 & v8 & H3 & H4).
      apply all_d in H3 as [Hm3 R3]. cbn [List.length] in Hm3. pose proof (proj1 (derives_le J b) _ _ _ _ _ H4).
      rewrite (region_app memory b mid mid2 hi), R3 by lia.
      assert (Hx : exists m9 vs, dchain J b (repeat (m9, PAnyOf hexes) 4) mid2 hi vs) by (inversion H4; subst; eauto).
      destruct Hx as (m9 & vs & Hx). apply (run_d _ hex_digit) in Hx as (-> & HF & Hl); [|intros c; apply hexes_spec].
      destruct (region b mid2 (mid2 + 4)) as [|c1 [|c2 [|c3 [|c4 [|]]]]]; try discriminate Hl. now apply u_hex.
Qed.
Lemma chars_d b m n : forall lo hi vs, dchain J b (repeat (m, valid_char) n) lo hi vs -> lo <= hi /\ chars false (region b lo hi).
Proof.
  induction n as [|n IH]; intros lo hi vs H; cbn [repeat] in H; inversion H as [|? ? ? ? ? ? ? ? Hd Hc]; subst.
  - rewrite region_nil. split; auto. constructor.
  - apply unit_d in Hd as [L1 U]. destruct (IH _ _ _ Hc) as [L2 C]. split; [lia|]. rewrite (region_app memory b lo mid hi) by lia. now constructor.
Qed.
Lemma body_d b lo hi v : derives J b Parse string_body lo hi v -> lo <= hi /\ chars false (region b lo hi) /\
  exists s, view memory s = region b lo hi /\ cons t_string [VSpan s] = FRet v.
Proof.
  intros H. pose proof (proj1 (derives_le J b) _ _ _ _ _ H) as Hle. split; auto.
  inversion H; subst. match goal with H : derives _ _ _ (PJoin _) _ _ _ |- _ => inversion H; subst; clear H end.
  match goal with H : derives _ _ _ (PZeroOrMore _) _ _ _ |- _ => rename H into Hz end.
  match goal with H : join_executor _ _ = _ |- _ => rename H into Hj end. pose proof (join_some_jval _ _ _ Hj) as Hjv.
  split.
  - inversion Hz; subst. eapply chars_d; eauto.
  - exists s. split; [|assumption]. eapply join_view; eauto. eapply tile_d; eauto. reflexivity.
Qed.

(** *** Numbers *)
Lemma natural_d b m lo hi v : derives J b m natural_number lo hi v -> exists body, region b lo hi = body /\
  (body = [48] \/ exists d ds, body = d :: ds /\ 49 <= d <= 57 /\ Forall is_dg ds).
Proof.
  intros H. pose proof (proj1 (derives_le J b) _ _ _ _ _ H). eexists. split; [reflexivity|].
  apply choice_d in H as (p & m1 & v1 & [<-|[<-|[]]] & H).
  - left. apply all_d in H as [_ ->]. reflexivity.
  - right. apply join_d in H as (m2 & v2 & H). apply seq2_d in H as (mid & m3 & m4 & v3 & v4 & H1 & H2).
    apply any_d in H1 as (-> & d & Hd & R1). pose proof (proj1 (derives_le J b) _ _ _ _ _ H2).
    rewrite (region_app memory b lo (S lo) hi), R1 by lia. exists d, (region b (S lo) hi). split; auto. split.
    + clear - Hd. vm_compute in Hd. repeat (destruct Hd as [<-|Hd]; [lia|]). destruct Hd.
    + assert (Hn : exists m n vs, dchain J b (repeat (m, digit) n) (S lo) hi vs) by (inversion H2; subst; eauto).
      destruct Hn as (m' & n & vs & Hc). apply (run_d _ is_dg) in Hc as (_ & HF & _); auto.
      clear. intros c Hc. vm_compute in Hc. unfold is_dg. repeat (destruct Hc as [<-|Hc]; [lia|]). destruct Hc.
Qed.
Lemma integer_d b lo hi v : derives J b Parse integer lo hi v -> int_part (region b lo hi) /\ exists s, v = RVal (VSpan s) /\ view memory s = region b lo hi.
Proof.
  intros H. inversion H; subst. match goal with H : derives _ _ _ _ _ _ (RVal x) |- _ => rename H into Hs end.
  match goal with H : join_executor _ _ = _ |- _ => rename H into Hj end. split.
  - pose proof Hs as Hs'. apply seq2_d in Hs' as (mid & m1 & m2 & v1 & v2 & K1 & K2).
    pose proof (proj1 (derives_le J b) _ _ _ _ _ K1). pose proof (proj1 (derives_le J b) _ _ _ _ _ K2).
    destruct (natural_d _ _ _ _ _ K2) as (body & Hb & Hx). exists (region b lo mid), body. rewrite <- Hb.
    split; [apply region_app; lia|]. split; [|rewrite Hb; auto].
    apply choice_d in K1 as (p & m3 & v3 & [<-|[<-|[]]] & K1).
    + right. now apply all_d in K1 as [_ ->].
    + left. inversion K1; subst. apply region_nil.
  - exists s. split; auto. eapply join_view; eauto using join_some_jval. eapply tile_d; eauto using join_some_jval. reflexivity.
Qed.

Ltac chain_inv := repeat match goal with
  | H : dchain _ _ (_ :: _) _ _ _ |- _ => inversion H; subst; clear H
  | H : dchain _ _ [] _ _ _ |- _ => inversion H; subst; clear H
  | H : kept (_ :: _) _ _ |- _ => inversion H; subst; clear H
  | H : kept [] _ _ |- _ => inversion H; subst; clear H
  | H : TVoid <> TVoid |- _ => now destruct H
  end.
Ltac seq_inv :=
  match goal with H : derives _ _ _ (PSequence _ _) _ _ _ |- _ => inversion H; subst; clear H end;
  match goal with H : result_fors _ _ = Some _ |- _ => vm_compute in H; injection H as <- end;
  match goal with H : dchain _ _ _ _ _ _ |- _ => cbn [parts map part_mode is_void combine] in H end; chain_inv.

Lemma fraction_shape : fraction = PJoin (PSequence (PIgnore (PAllOf [46])) [POneOrMore digit]). Proof. reflexivity. Qed.
Lemma exponent_shape : exponent = PJoin (PSequence (PIgnore (PAnyOf [69; 101])) [PChoice (PAnyOf [43; 45]) [PEpsilon]; POneOrMore digit]). Proof. reflexivity. Qed.
Lemma number_shape : number = PMap (PSequence integer [PMaybe fraction; PMaybe exponent]) (FApply (FConstruct t_number)). Proof. reflexivity. Qed.

Lemma fraction_d b lo hi v : derives J b Parse fraction lo hi v ->
  exists s, v = RVal (VSpan s) /\ lo < hi /\ region b lo hi = 46 :: view memory s /\ view memory s <> [] /\ Forall is_dg (view memory s).
Proof.
  rewrite fraction_shape. intros H. inversion H; subst. match goal with H : join_executor _ _ = _ |- _ => rename H into Hj end.
  seq_inv. match goal with H : tuple_of _ = RVal _ |- _ => injection H as -> end.
  match goal with H : derives _ _ Look (PIgnore _) _ _ _ |- _ => apply ign_d in H as [-> R1] end.
  match goal with H : derives _ _ Parse (POneOrMore _) _ _ _ |- _ => rename H into Hd end.
  destruct (digits_d _ _ _ _ _ Hd) as (Hlt & Hne & HF).
  assert (Hv : view memory s = region b (S lo) hi) by (eapply join_view; eauto using join_some_jval; eapply tile_d; eauto using join_some_jval; reflexivity).
  exists s. rewrite Hv, (region_app memory b lo (S lo) hi), R1 by lia. repeat split; auto. lia.
Qed.
Lemma exponent_d b lo hi v : derives J b Parse exponent lo hi v ->
  exists s, v = RVal (VSpan s) /\ lo < hi /\ exp_text (Some (view memory s)) (region b lo hi).
Proof.
  rewrite exponent_shape. intros H. inversion H; subst. match goal with H : join_executor _ _ = _ |- _ => rename H into Hj end.
  seq_inv. match goal with H : tuple_of _ = RVal _ |- _ => injection H as <- end.
  match goal with H : derives _ _ Look (PIgnore _) _ _ _ |- _ => inversion H; subst; clear H end.
  match goal with H : derives _ _ Look (PAnyOf _) _ _ _ |- _ => apply any_d in H as (-> & c & Hc & R1) end.
  match goal with H : derives _ _ Parse (POneOrMore _) _ _ _ |- _ => rename H into Hd end.
  match goal with H : derives _ _ Parse (PChoice _ _) _ _ _ |- _ => rename H into Hm end.
  destruct (digits_d _ _ _ _ _ Hd) as (Hlt & Hne & HF).
  pose proof (join_some_jval _ _ _ Hj) as Hjv. inversion Hjv as [| | | | |? HJ]; subst. inversion HJ as [|? ? Hjw HJ']; subst. inversion HJ' as [|? ? Hjw0 _]; subst.
  pose proof (proj1 (derives_le J b) _ _ _ _ _ Hm).
  assert (T1 := tile_d b _ _ _ _ (eq_refl : lossless_b J [] (PChoice (PAnyOf [43; 45]) [PEpsilon]) = true) Hm Hjw).
  assert (T2 := tile_d b _ _ _ _ (eq_refl : lossless_b J [] (POneOrMore digit) = true) Hd Hjw0).
  assert (Hv : view memory s = region b (S lo) hi).
  { apply (join_view b (VTup [w; w0])); auto. cbn [leaves flat_map]. rewrite app_nil_r, nonempty_app. eapply tiles_app; eauto. }
  exists s. split; auto. split; [lia|]. exists c, (region b (S lo) mid0), (region b mid0 hi). rewrite Hv.
  rewrite (region_app memory b lo (S lo) hi), R1 by lia. repeat split; auto.
  - destruct Hc as [<-|[<-|[]]]; auto.
  - apply region_app; lia.
  - apply choice_d in Hm as (p & m3 & v3 & [<-|[<-|[]]] & Hm).
    + right. apply any_d in Hm as (_ & x & [<-|[<-|[]]] & ->); auto.
    + left. inversion Hm; subst. apply region_nil.
Qed.
Lemma maybe_d b q lo hi v t : result_for J q = Some t -> t <> TVoid -> derives J b Parse (PMaybe q) lo hi v ->
  (v = RVal (VOpt None) /\ lo = hi) \/ exists x, v = RVal (VOpt (Some x)) /\ derives J b Parse q lo hi (RVal x).
Proof.
  intros Hr Ht H. inversion H; subst; match goal with H : result_for _ _ = Some ?u |- _ => assert (u = t) by congruence; subst u end.
  - right. match goal with H : _ \/ _ |- _ => destruct H as [[? _]|[_ (x & -> & ->)]]; [congruence|] end. eauto.
  - left. destruct t; try congruence; auto.
Qed.
Lemma number_d b lo hi v : derives J b Parse number lo hi v ->
  exists i f e, spells false (JNumber i f e) (region b lo hi) /\ (forall x, v = RVal x -> payload (JNumber i f e) 1 x).
Proof.
  rewrite number_shape. intros H. inversion H; subst. match goal with H : invoke _ _ _ = _ |- _ => rename H into Hv end. seq_inv.
  match goal with H : derives _ _ _ integer _ _ _ |- _ => pose proof (proj1 (derives_le J b) _ _ _ _ _ H); apply integer_d in H as (Hi & si & [= ->] & Vi) end.
  match goal with H : derives _ _ _ (PMaybe fraction) _ _ _ |- _ => pose proof (proj1 (derives_le J b) _ _ _ _ _ H); apply (maybe_d _ _ _ _ _ TSpan) in H; [rename H into Hfr|reflexivity|discriminate] end.
  match goal with H : derives _ _ _ (PMaybe exponent) _ _ _ |- _ => pose proof (proj1 (derives_le J b) _ _ _ _ _ H); apply (maybe_d _ _ _ _ _ TSpan) in H; [rename H into Hex|reflexivity|discriminate] end.
  assert (Hf : exists sf, w0 = VOpt (option_map VSpan sf) /\ frac_text (option_map (view memory) sf) (region b mid mid0)).
  { destruct Hfr as [([= ->] & <-)|(x & [= ->] & Hx)]; [exists None; split; auto; apply region_nil|].
    apply fraction_d in Hx as (s & [= ->] & _ & R & Hn & HF). exists (Some s). cbn. auto. }
  assert (He : exists se, w1 = VOpt (option_map VSpan se) /\ exp_text (option_map (view memory) se) (region b mid0 hi)).
  { destruct Hex as [([= ->] & <-)|(x & [= ->] & Hx)]; [exists None; split; auto; apply region_nil|].
    apply exponent_d in Hx as (s & [= ->] & _ & R). exists (Some s). auto. }
  destruct Hf as (sf & -> & Hf), He as (se & -> & He).
  exists (region b lo mid), (option_map (view memory) sf), (option_map (view memory) se). split.
  - rewrite (region_app memory b lo mid hi), (region_app memory b mid mid0 hi) by lia. now constructor.
  - intros x ->. eapply pl_number; eauto.
Qed.

(** *** Lists *)
Section Lists.
Context {X : Type} (one : X -> list nat -> Prop) (obj : X -> rv -> Prop).
Inductive many : list X -> list nat -> Prop :=
| many_one x t : one x t -> many [x] t
| many_more x xs t u : one x t -> many xs u -> many (x :: xs) (t ++ 44 :: u).
Lemma delim_d b q : forall prs lo hi v0,
  (forall lo' hi' v, lo <= lo' -> hi' <= hi -> derives J b Parse q lo' hi' v -> exists x, one x (region b lo' hi') /\ obj x v) ->
  dchain J b (delim_parts Parse q (PIgnore (PAllOf [44])) (List.length prs)) lo hi (interleave v0 prs) ->
  exists xs, many xs (region b lo hi) /\ Forall2 obj xs (v0 :: map snd prs).
Proof.
  unfold delim_parts. induction prs as [|[vd v1] prs IH]; intros lo hi v0 Hq H; cbn in H; inversion H as [|? ? ? ? ? ? ? ? H1 H2]; subst.
  - inversion H2; subst. destruct (Hq _ _ _ (le_n _) (le_n _) H1) as (x & Hx & Ho). exists [x]. split; [now constructor|repeat constructor; auto].
  - inversion H2 as [|? ? ? ? ? ? ? ? H3 H4]; subst. apply ign_d in H3 as [-> R3].
    pose proof (proj1 (derives_le J b) _ _ _ _ _ H1). pose proof (proj2 (derives_le J b) _ _ _ _ H4).
    destruct (Hq lo mid v0) as (x & Hx & Ho); auto; [lia|].
    destruct (IH (S mid) hi v1) as (xs & Hxs & Hos).
    { intros lo' hi' v Hlo Hhi. apply Hq; lia. }
    { exact H4. }
    exists (x :: xs). split; [|constructor; auto].
    rewrite (region_app memory b lo mid hi), (region_app memory b mid (S mid) hi), R3 by lia. now constructor.
Qed.
End Lists.
Lemma many_elements ds t : many (element false) ds t -> elements false ds t.
Proof. induction 1; constructor; auto. Qed.
Lemma many_members ms t : many (member false) ms t -> members false ms t.
Proof. induction 1; constructor; auto. Qed.

(** *** Members *)
Lemma pair_d b lo hi v : (forall lo' hi' v', lo < lo' -> hi' <= hi -> derives J b Parse json_value lo' hi' v' -> exists d, element false d (region b lo' hi') /\ built d v') ->
  derives J b Parse pair_parser lo hi v -> exists m, member false m (region b lo hi) /\ (forall x, v = RVal x -> pair_object m x).
Proof.
  rewrite pair_shape. intros Hval H. inversion H; subst. match goal with H : invoke _ _ _ = _ |- _ => rename H into Hv end. seq_inv.
  match goal with H : derives _ _ _ string_body _ _ _ |- _ => apply body_d in H as (Lb & Hb & s & Vs & Cs) end.
  match goal with H : derives _ _ _ json_value _ _ _ |- _ => rename H into Hjv end.
  repeat match goal with H : derives _ _ _ (PIgnore (PAllOf [_])) _ _ _ |- _ => apply ign_d in H as [? ?] end. subst.
  repeat match goal with H : derives _ _ _ whitespace _ _ _ |- _ => apply white_d in H as [? ?] end.
  pose proof (proj1 (derives_le J b) _ _ _ _ _ Hjv). apply Hval in Hjv as (d & Hd & Ho); [|lia|lia].
  exists (view memory s, d). split; [|intros x ->; econstructor; [econstructor; eauto|exact Ho|exact Hv]].
  match goal with H1 : region b ?a ?b1 = [34], H2 : region b ?c ?d1 = [34], H3 : region b ?e ?f1 = [58] |- _ =>
    assert (Hr : region b lo hi = region b lo a ++ (34 :: region b b1 c ++ [34]) ++ region b d1 e ++ 58 :: region b f1 hi);
    [rewrite (region_app memory b lo a hi), (region_app memory b a b1 hi), (region_app memory b b1 c hi), (region_app memory b c d1 hi), (region_app memory b d1 e hi), (region_app memory b e f1 hi), H1, H2, H3 by lia; cbn [app]; now rewrite <- app_assoc|]
  end.
  rewrite Hr, Vs. constructor; auto.
Qed.

(** *** Objects, arrays, values *)
Lemma spread_vals {X} (R : X -> rv -> Prop) ms ps : Forall2 R ms (map RVal ps) -> Forall2 (fun m x => R m (RVal x)) ms ps.
Proof. revert ms. induction ps as [|x ps IH]; intros ms H; inversion H; subst; constructor; auto. Qed.
Lemma pair_objects_intro ms vs : Forall2 pair_object ms vs -> pair_objects ms vs.
Proof. induction 1; constructor; auto. Qed.
Lemma objects_intro ds vs : Forall2 (fun d x => built d (RVal x)) ds vs -> objects ds vs.
Proof. induction 1; constructor; auto. Qed.

Definition delivers (c : nat) (t : list nat) (v : rv) : Prop :=
  match c with
  | 0 => exists d, element false d t /\ built d v
  | 1 => exists ms x, spells false (JObject ms) t /\ v = RVal x /\ payload (JObject ms) 2 x
  | 2 => exists ds x, spells false (JArray ds) t /\ v = RVal x /\ payload (JArray ds) 3 x
  | _ => True
  end.

Lemma doc_d b n : forall c lo hi v, 2 * (hi - lo) + (if c =? 0 then 1 else 0) < n -> derives J b Parse (PCustom c) lo hi v -> delivers c (region b lo hi) v.
Proof.
  induction n as [|n IH]; intros c lo hi v Hn H; [lia|]. pose proof (proj1 (derives_le J b) _ _ _ _ _ H) as Hle.
  destruct c as [|[|[|c]]]; [| | |exact I].
  - inversion H; subst; try discriminate.
    match goal with H : cust_conv _ _ = _ |- _ => injection H as <- end.
    match goal with H : invoke _ _ _ = _ |- _ => rename H into Hv end.
    match goal with H : derives _ _ Parse (cust_body _ _) _ _ _ |- _ => change (cust_body J 0) with value_body in H; rewrite value_shape in H end.
    clear H. seq_inv.
    match goal with H : tuple_of _ = RVal _ |- _ => injection H as -> end.
    repeat match goal with H : derives _ _ _ whitespace _ _ _ |- _ => apply white_d in H as [? ?] end.
    match goal with H : derives _ _ _ value_choice _ _ _ |- _ => rename H into Hc end. pose proof (proj1 (derives_le J b) _ _ _ _ _ Hc).
    assert (Hd : exists d k y, x = VVar k y /\ payload d k y /\ spells false d (region b mid mid0)).
    { inversion Hc; subst.
      - match goal with H : result_fors _ _ = Some _ |- _ => vm_compute in H; injection H as <- end.
        match goal with H : derives _ _ _ p _ _ _ |- _ => rename H into Hp end.
        match goal with |- ?G => assert (pick : forall d, payload d k w -> spells false d (region b mid mid0) -> G) by (intros d ? ?; exists d, k, w; auto) end.
        destruct j as [|[|[|[|[|[|[|[|j]]]]]]]];
          match goal with H : nth_error _ _ = Some p |- _ => cbn [nth_error tl values] in H; try discriminate H; injection H as <- end;
          match goal with H : nth_error _ _ = Some (Some k) |- _ => vm_compute in H; injection H as <- end.
        + rewrite str_shape in Hp. seq_inv. match goal with H : tuple_of _ = RVal _ |- _ => injection H as -> end.
          repeat match goal with H : derives _ _ _ (PIgnore (PAllOf [_])) _ _ _ |- _ => apply ign_d in H as [? ?] end. subst.
          match goal with H : derives _ _ _ string_body _ _ _ |- _ => apply body_d in H as (Lb & Hb & s & Vs & Cs) end.
          apply (pick (JString (view memory s))); [constructor; econstructor; [reflexivity|exact Cs]|]. rewrite Vs.
          match goal with H1 : region b mid _ = [34], H2 : region b ?c _ = [34] |- _ =>
            rewrite (region_app memory b mid (S mid) (S c)), (region_app memory b (S mid) c (S c)), H1, H2 by lia end. now constructor.
        + apply number_d in Hp as (i & f & e & Hs & Ho). eapply pick; [now apply Ho|exact Hs].
        + apply (IH 1) in Hp; [|cbn [Nat.eqb] in *; lia]. destruct Hp as (ms & y & Hs & [= ->] & Ho). eapply pick; [exact Ho|exact Hs].
        + apply (IH 2) in Hp; [|cbn [Nat.eqb] in *; lia]. destruct Hp as (ds & y & Hs & [= ->] & Ho). eapply pick; [exact Ho|exact Hs].
        + inversion Hp; subst. match goal with H : derives _ _ _ (PAllOf _) _ _ _ |- _ => apply all_d in H as [_ Hr] end.
          match goal with H : invoke _ _ _ = FRet (RVal w) |- _ => cbn in H; injection H as <- end. eapply pick; [apply (pl_bool true)|rewrite Hr; constructor].
        + inversion Hp; subst. match goal with H : derives _ _ _ (PAllOf _) _ _ _ |- _ => apply all_d in H as [_ Hr] end.
          match goal with H : invoke _ _ _ = FRet (RVal w) |- _ => cbn in H; injection H as <- end. eapply pick; [apply (pl_bool false)|rewrite Hr; constructor].
        + inversion Hp; subst. match goal with H : derives _ _ _ (PAllOf _) _ _ _ |- _ => apply all_d in H as [_ Hr] end.
          match goal with H : invoke _ _ _ = FRet (RVal w) |- _ => cbn in H; injection H as <- end. eapply pick; [apply pl_null|rewrite Hr; constructor].
      - match goal with H : result_fors _ _ = Some _ |- _ => vm_compute in H; injection H as <- end.
        exfalso. match goal with H : nth_error _ j = Some None |- _ => vm_compute in H; destruct j as [|[|[|[|[|[|[|[|j]]]]]]]]; discriminate H end. }
    destruct Hd as (d & k & y & -> & Hp & Hs). exists d. split; [|econstructor; eauto].
    rewrite (region_app memory b lo mid hi), (region_app memory b mid mid0 hi) by lia. now constructor.
  - inversion H; subst; try discriminate.
    match goal with H : derives _ _ Parse (cust_body _ _) _ _ _ |- _ => change (cust_body J 1) with object_body in H; rewrite object_shape in H end.
    clear H. seq_inv.
    repeat match goal with H : derives _ _ _ (PIgnore (PAllOf [_])) _ _ _ |- _ => apply ign_d in H as [? ?] end. subst.
    match goal with H : derives _ _ _ (PChoice _ _) _ _ _ |- _ => rename H into Hc end. pose proof (proj1 (derives_le J b) _ _ _ _ _ Hc).
    match goal with H1 : region b lo _ = [123], H2 : region b ?c _ = [125] |- _ =>
      rewrite (region_app memory b lo (S lo) (S c)), (region_app memory b (S lo) c (S c)), H1, H2 by lia end.
    cbn [app delivers].
    inversion Hc; subst.
    + match goal with H : result_fors _ _ = Some _ |- _ => vm_compute in H; injection H as <- end.
      match goal with H : derives _ _ _ p _ _ _ |- _ => rename H into Hp end.
      destruct j as [|[|j]]; [|match goal with H : nth_error _ _ = Some (Some k) |- _ => vm_compute in H; discriminate H end|destruct j; discriminate].
      match goal with H : nth_error _ _ = Some p |- _ => injection H as <- end.
      inversion Hp; subst.
      match goal with H : result_for _ pair_parser = Some _ |- _ => vm_compute in H; injection H as <- end.
      match goal with H : result_for _ (PIgnore _) = Some _ |- _ => vm_compute in H; injection H as <- end.
      match goal with H : dchain _ _ _ _ _ _ |- _ => eapply (delim_d (member false) (fun m v => forall x, v = RVal x -> pair_object m x)) in H; [destruct H as (ms & Hm & Ho)|] end.
      * match goal with H : delim_value _ _ _ _ _ |- _ => inversion H; subst; try congruence end.
        match goal with H : map RVal _ = _ :: map snd _ |- _ => rewrite <- H in Ho end.
        apply spread_vals in Ho. exists ms. eexists. split; [apply sp_object; now apply many_members|]. split; [reflexivity|].
        constructor. apply pair_objects_intro. clear - Ho. induction Ho; constructor; auto.
      * intros lo' hi' v' Hlo Hhi Hpair. apply pair_d; auto. intros lo2 hi2 v2 L1 L2 H2. pose proof (proj1 (derives_le J b) _ _ _ _ _ H2).
        apply (IH 0) in H2; auto. cbn [Nat.eqb] in *. lia.
    + match goal with H : result_fors _ _ = Some _ |- _ => vm_compute in H; injection H as <- end.
      match goal with H : derives _ _ _ p _ _ _ |- _ => rename H into Hp end.
      destruct j as [|[|j]].
      * match goal with H : nth_error _ _ = Some None |- _ => vm_compute in H; discriminate H end.
      * match goal with H : nth_error _ _ = Some p |- _ => injection H as <- end. apply white_d in Hp as [_ Hw].
        exists []. eexists. split; [now apply sp_no_members|]. split; [reflexivity|].
        match goal with H : builder_init _ = RVal w |- _ => vm_compute in H; injection H as <- end. repeat constructor.
      * destruct j; discriminate.
  - inversion H; subst; try discriminate.
    match goal with H : derives _ _ Parse (cust_body _ _) _ _ _ |- _ => change (cust_body J 2) with array_body in H; rewrite array_shape in H end.
    clear H. seq_inv.
    repeat match goal with H : derives _ _ _ (PIgnore (PAllOf [_])) _ _ _ |- _ => apply ign_d in H as [? ?] end. subst.
    match goal with H : derives _ _ _ (PChoice _ _) _ _ _ |- _ => rename H into Hc end. pose proof (proj1 (derives_le J b) _ _ _ _ _ Hc).
    match goal with H1 : region b lo _ = [91], H2 : region b ?c _ = [93] |- _ =>
      rewrite (region_app memory b lo (S lo) (S c)), (region_app memory b (S lo) c (S c)), H1, H2 by lia end.
    cbn [app delivers].
    inversion Hc; subst.
    + match goal with H : result_fors _ _ = Some _ |- _ => vm_compute in H; injection H as <- end.
      match goal with H : derives _ _ _ p _ _ _ |- _ => rename H into Hp end.
      destruct j as [|[|j]]; [|match goal with H : nth_error _ _ = Some (Some k) |- _ => vm_compute in H; discriminate H end|destruct j; discriminate].
      match goal with H : nth_error _ _ = Some p |- _ => injection H as <- end.
      inversion Hp; subst.
      match goal with H : result_for _ json_value = Some _ |- _ => vm_compute in H; injection H as <- end.
      match goal with H : result_for _ (PIgnore _) = Some _ |- _ => vm_compute in H; injection H as <- end.
      match goal with H : dchain _ _ _ _ _ _ |- _ => eapply (delim_d (element false) built) in H; [destruct H as (ds & Hm & Ho)|] end.
      * match goal with H : delim_value _ _ _ _ _ |- _ => inversion H; subst; try congruence end.
        match goal with H : map RVal _ = _ :: map snd _ |- _ => rewrite <- H in Ho end.
        apply spread_vals in Ho. exists ds. eexists. split; [apply sp_array; now apply many_elements|]. split; [reflexivity|].
        constructor. now apply objects_intro.
      * intros lo' hi' v' Hlo Hhi H2. pose proof (proj1 (derives_le J b) _ _ _ _ _ H2). apply (IH 0) in H2; auto. cbn [Nat.eqb] in *. lia.
    + match goal with H : result_fors _ _ = Some _ |- _ => vm_compute in H; injection H as <- end.
      match goal with H : derives _ _ _ p _ _ _ |- _ => rename H into Hp end.
      destruct j as [|[|j]].
      * match goal with H : nth_error _ _ = Some None |- _ => vm_compute in H; discriminate H end.
      * match goal with H : nth_error _ _ = Some p |- _ => injection H as <- end. apply white_d in Hp as [_ Hw].
        exists []. eexists. split; [now apply sp_no_elements|]. split; [reflexivity|].
        match goal with H : builder_init _ = RVal w |- _ => vm_compute in H; injection H as <- end. repeat constructor.
      * destruct j; discriminate.
Qed.
End JsonDoc.

