(** * C40, C41, C42: the algebraic example *)
From Coq Require Import String List Arith ZArith QArith Qpower Bool Lia.
From Verif Require Import Types Compound Parser Outcome CompoundFacts Exec Mono Derive Typing Join Leaves Sound
  BigStep BigSound BigComplete Peg Elems Runs Samples PropCore PropPeg Lossless Agree Check PropAgree Grammar CharPeg Names PropNames Term PropTerm
  StaticArray Operators PropSets Modifiers ExJson Shape ExAlgebraic.
Import ListNotations.
Local Open Scope nat_scope.

Section Algebraic.
Context (memory : nat -> list nat).
Notation A := (alg_env memory).

Lemma alg_typed : env_typed A.
Proof.
  constructor; cbn; try discriminate.
  - intros t args tys H HF. destruct t as [| | | | | | | |[|[|[|[|[|]]]]]]; try discriminate; (split; [discriminate|reflexivity]).
  - intros t tys H. right. destruct t as [| | | | | | | |[|[|[|[|[|]]]]]]; try discriminate; reflexivity.
  - intros k. split; reflexivity.
Qed.

Lemma alg_customs : env_customs A.
Proof.
  constructor.
  - intros m [|[|[|[|[|[|c]]]]]]; destruct m; reflexivity.
  - intros [|[|[|[|[|[|c]]]]]]; cbn; auto.
  - intros [|[|[|[|[|[|c]]]]]]; reflexivity.
Qed.

Lemma alg_program : program A.
Proof. split; [apply alg_typed|apply alg_customs]. Qed.

Definition alg_entry (p : parser nat) : Prop := In p [alg_number; alg_powterm; alg_factor; alg_term; alg_expr; alg_input].

Lemma alg_checks p : alg_entry p ->
  grammar_ok A (fun _ => false) (fun c => c) [0; 1; 2; 3; 4; 5] p = true
  /\ steady_b A [0; 1; 2; 3; 4; 5] p = true /\ compiles A Parse p = true /\ compiles A Look p = true.
Proof. intros [<-|[<-|[<-|[<-|[<-|[<-|[]]]]]]]; repeat split; vm_compute; reflexivity. Qed.

(** Parsing and lookahead return on every input: no exception, no undefined behaviour. *)
Theorem C40_parser_terminates p m i : alg_entry p -> valid A i -> exists r tr, evals A m p i (Done r tr).
Proof.
  intros Hp Hv. destruct (alg_checks p Hp) as (Hg & Hs & Hc & Hl).
  destruct (C33_check A _ _ _ _ Hg) as [Hb Hr].
  destruct (C33_terminates A p _ Hb Hr m i Hv) as [n Hn].
  assert (He : evals A m p i (run A n m p i)) by (split; [exact Hn|eauto]).
  destruct (run_safe A n m p i Hv) as [Hub Hill]; auto using alg_typed, alg_customs.
  - now destruct m.
  - apply steady_join_local. now apply steady_b_ok with [0; 1; 2; 3; 4; 5].
  - destruct (run A n m p i) as [r tr| |e| |]; try congruence; [eauto|].
    exfalso. destruct (C47_exceptions_are_users A m p i e He) as (_ & q & f & args & Hq & Hf & _).
    clear -Hf. revert args Hf. induction f; intros args Hf; cbn in Hf; try discriminate.
    + destruct args as [|v [|]]; try discriminate. destruct (tuple_vals v); [eauto|discriminate].
    + destruct t; discriminate.
Qed.

(** ** Number literals *)

(** The characters of block [b] between two offsets. *)
Definition region_text (b lo hi : nat) : list nat := view memory (Span b lo (hi - lo)).

Lemma region_app b lo mid hi : lo <= mid -> mid <= hi -> region_text b lo hi = region_text b lo mid ++ region_text b mid hi.
Proof.
  intros H1 H2. unfold region_text, view. cbn. change (firstn ?n (skipn ?o (memory b))) with (elems A (Span b o n)).
  replace (hi - lo) with ((mid - lo) + (hi - mid)) by lia. rewrite elems_split. repeat f_equal. lia.
Qed.

Lemma region_one b lo c : nth_error (memory b) lo = Some c -> region_text b lo (S lo) = [c].
Proof.
  intros H. unfold region_text, view. replace (S lo - lo) with 1 by lia. cbn [sp_len sp_off sp_blk].
  assert (Hs : skipn lo (memory b) = c :: skipn (S lo) (memory b)).
  { revert H. generalize (memory b). intros l. revert lo. induction l as [|x l IH]; intros [|lo] H; try discriminate; cbn in *; [now injection H as ->|auto]. }
  now rewrite Hs.
Qed.

Lemma region_view b lo hi : view memory (Span b lo (hi - lo)) = region_text b lo hi.
Proof. reflexivity. Qed.

(** A run of digits. *)
Definition digit_string (l : list nat) : Prop := l <> [] /\ Forall is_dg l.

Lemma digits_chain b m n : forall lo hi vs, dchain A b (repeat (m, dgt) n) lo hi vs ->
  hi = lo + n /\ Forall is_dg (region_text b lo hi).
Proof.
  induction n as [|n IH]; intros lo hi vs H; cbn in H; inversion H as [|? ? ? ? ? ? ? ? Hd Hc]; subst.
  - split; [lia|]. unfold region_text, view. cbn. replace (hi - hi) with 0 by lia. constructor.
  - assert (Hx : exists c, mid = S lo /\ nth_error (memory b) lo = Some c /\ exists t, In t (codes "0123456789") /\ t = c).
    { inversion Hd; subst. match goal with H : exists t, _ |- _ => destruct H as (t & Ht & He) end.
      apply Nat.eqb_eq in He. subst. eauto 6. }
    destruct Hx as (c & -> & Hc0 & t & Ht & He).
    destruct (IH _ _ _ Hc) as [-> HF]. split; [lia|]. rewrite (region_app b lo (S lo)) by lia.
    apply Forall_app. split; auto. rewrite (region_one _ _ _ Hc0). constructor; auto.
    subst c. clear -Ht. vm_compute in Ht. unfold is_dg.
    repeat (destruct Ht as [<-|Ht]; [lia|]). destruct Ht.
Qed.

Lemma digits_region b m lo hi v : derives A b m (POneOrMore dgt) lo hi v -> lo < hi /\ digit_string (region_text b lo hi).
Proof.
  intros H. assert (Hn : exists m n vs, n <> 0 /\ dchain A b (repeat (m, dgt) n) lo hi vs) by (inversion H; subst; eauto).
  destruct Hn as (m' & n & vs & Hn & Hc). destruct (digits_chain b m' n lo hi vs Hc) as [-> HF]. split; [lia|].
  split; auto. destruct n; [congruence|]. cbn in Hc. inversion Hc as [|? ? ? ? ? ? ? ? Hd Hc']; subst.
  inversion Hd; subst.
  match goal with H : nth_error _ _ = Some _ |- _ => rewrite (region_app b lo (S lo)) by lia; rewrite (region_one _ _ _ H) end. discriminate.
Qed.

(** What the parser makes of a number: the text is read as [ds], [fs], [es]. *)
Definition fraction_text (fs : option (list nat)) : list nat := match fs with Some f => 46 :: f | None => [] end.
Definition exponent_text (es : option (nat * bool * list nat)) : list nat :=
  match es with Some (e, neg, xs) => e :: (if neg : bool then [45] else []) ++ xs | None => [] end.
Definition literal_text ds fs es : list nat := ds ++ fraction_text fs ++ exponent_text es.
Definition literal (ds : list nat) (fs : option (list nat)) (es : option (nat * bool * list nat)) : Prop :=
  digit_string ds /\
  match fs with Some f => digit_string f | None => True end /\
  match es with Some (e, _, xs) => (e = 69 \/ e = 101) /\ digit_string xs | None => True end.

(** The object that stands for it. *)
Definition number_object (ds : list nat) fs (es : option (nat * bool * list nat)) (v : val) : Prop := exists i d e,
  v = VUser 1 [VSpan i; VOpt (option_map VSpan d); VOpt (option_map VSpan e)] /\
  view memory i = ds /\ option_map (view memory) d = fs /\
  option_map (view memory) e = option_map (fun x => (if snd (fst x) : bool then [45] else []) ++ snd x) es.

Lemma tiles_blk b lo hi ls : tiles b lo hi ls -> forall y, In y ls -> sp_blk y = b.
Proof. induction 1; intros y Hy; [destruct Hy|]. destruct Hy as [<-|Hy]; auto. Qed.

Lemma join_tiles b x lo hi rem s : jval x -> tiles b lo hi (nonempty (leaves x)) -> lo < hi ->
  join_executor x rem = Done (Some s) [] -> s = Span b lo (hi - lo).
Proof.
  intros Hj Ht Hlt He. apply (join_executor_some b) in He; auto.
  - destruct He as [[Hn ->]|(_ & lo' & hi' & Ht' & ->)].
    + rewrite Hn in Ht. inversion Ht; subst; lia.
    + assert (lo' = lo) by (destruct Ht; inversion Ht'; subst; auto; lia). subst. now rewrite (tiles_fun _ _ _ _ Ht _ Ht').
  - intros y Hy Hl. apply (tiles_blk _ _ _ _ Ht). now apply nonempty_in.
Qed.

Lemma digits_tile b x lo hi : derives A b Parse (POneOrMore dgt) lo hi (RVal x) -> jval x -> tiles b lo hi (nonempty (leaves x)).
Proof.
  intros H Hj. rewrite <- jval_src by auto. apply (derives_tiles A b alg_customs (POneOrMore dgt) lo hi (RVal x)); auto.
  apply (lossless_b_ok A []). reflexivity.
Qed.

Lemma join_digits b x lo hi rem s : derives A b Parse (POneOrMore dgt) lo hi (RVal x) ->
  join_executor x rem = Done (Some s) [] -> s = Span b lo (hi - lo).
Proof.
  intros H He. pose proof (join_some_jval _ _ _ He) as Hj. apply join_tiles with x rem; auto.
  - now apply digits_tile.
  - eapply digits_region; eauto.
Qed.

Ltac chain_inv := repeat match goal with
  | H : dchain _ _ (_ :: _) _ _ _ |- _ => inversion H; subst; clear H
  | H : dchain _ _ [] _ _ _ |- _ => inversion H; subst; clear H
  | H : kept (_ :: _) _ _ |- _ => inversion H; subst; clear H
  | H : kept [] _ _ |- _ => inversion H; subst; clear H
  | H : TVoid <> TVoid |- _ => now destruct H
  end.
Ltac seq_inv :=
  match goal with H : derives _ _ _ (PSequence _ _) _ _ _ |- _ => inversion H; subst; clear H end;
  match goal with H : result_fors _ _ = Some _ |- _ => vm_compute in H; injection H as <- end;
  match goal with H : dchain _ _ _ _ _ _ |- _ => cbn [parts map part_mode is_void combine] in H end; chain_inv.

Lemma one_char b m c lo hi v : derives A b m (PAllOf [c]) lo hi v -> hi = S lo /\ region_text b lo (S lo) = [c] /\ v = in_mode m (VSpan (Span b lo 1)).
Proof.
  intros H. inversion H; subst. cbn [List.length] in *.
  match goal with H : matches_at _ _ _ _ |- _ => destruct H as ((c' & Hc & He) & _) end.
  apply Nat.eqb_eq in He. subst c'. split; [lia|]. split; auto. now apply region_one.
Qed.

Lemma integer_derives b lo hi v : derives A b Parse number_integer lo hi v ->
  v = RVal (VSpan (Span b lo (hi - lo))) /\ lo < hi /\ digit_string (region_text b lo hi).
Proof.
  intros H. inversion H; subst.
  match goal with Hd : derives _ _ Parse _ _ _ (RVal x), Hj : join_executor _ _ = _ |- _ =>
    destruct (digits_region _ _ _ _ _ Hd) as [Hlt Hds]; rewrite (join_digits _ _ _ _ _ _ Hd Hj) end. auto.
Qed.

Lemma fraction_derives b lo hi v : derives A b Parse number_fraction lo hi v ->
  v = RVal (VSpan (Span b (S lo) (hi - S lo))) /\ S lo < hi /\ region_text b lo (S lo) = [46] /\ digit_string (region_text b (S lo) hi).
Proof.
  intros H. inversion H; subst. 
  seq_inv. match goal with H : tuple_of _ = RVal _ |- _ => injection H as -> end.
  match goal with H : derives _ _ Look _ lo _ _ |- _ => inversion H; subst end.
  match goal with H : derives _ _ Look (PAllOf _) _ _ _ |- _ => destruct (one_char _ _ 46 _ _ _ H) as (-> & Hc & _) end.
  match goal with Hd : derives _ _ Parse (POneOrMore _) _ _ (RVal x), Hj : join_executor _ _ = _ |- _ =>
    destruct (digits_region _ _ _ _ _ Hd) as [Hlt Hds]; rewrite (join_digits _ _ _ _ _ _ Hd Hj) end. auto.
Qed.

Lemma exponent_derives b lo hi v : derives A b Parse number_exponent lo hi v ->
  v = RVal (VSpan (Span b (S lo) (hi - S lo))) /\ S lo < hi /\
  exists e (neg : bool) xs, (e = 69 \/ e = 101) /\ region_text b lo (S lo) = [e] /\
    region_text b (S lo) hi = (if neg then [45] else []) ++ xs /\ digit_string xs.
Proof.
  intros H. inversion H; subst. seq_inv. match goal with H : tuple_of _ = RVal _ |- _ => injection H as <- end.
  match goal with H : derives _ _ Look (with_modifier _ _) _ _ _ |- _ => inversion H; subst; clear H end.
  match goal with H : derives _ _ Look _ lo _ _ |- _ => inversion H; subst; clear H end.
  match goal with H : exists t, In t _ /\ _ |- _ => destruct H as (e & Hin & He) end. apply Nat.eqb_eq in He. subst c.
  match goal with H : nth_error _ _ = Some e |- _ => rename H into Hc end.
  match goal with H : derives _ _ Parse (POneOrMore _) _ _ _ |- _ => rename H into Hd end.
  match goal with H : derives _ _ Parse (PMaybe _) _ _ _ |- _ => rename H into Hm end.
  match goal with H : join_executor _ _ = _ |- _ => rename H into Hj end.
  destruct (digits_region _ _ _ _ _ Hd) as [Hlt Hds].
  pose proof (join_some_jval _ _ _ Hj) as Hjv. inversion Hjv as [| | | | |? HF]; subst. inversion HF as [|? ? Hjw HF']; subst. inversion HF' as [|? ? Hjw0 _]; subst.
  pose proof (digits_tile _ _ _ _ Hd Hjw0) as Ht.
  assert (He : e = 69 \/ e = 101) by (destruct Hin as [<-|[<-|[]]]; auto).
  assert (Hcase : exists neg : bool, S lo <= mid0 /\ tiles b (S lo) hi (nonempty (leaves w) ++ nonempty (leaves w0)) /\ region_text b (S lo) mid0 = if neg then [45] else []).
  { inversion Hm; subst.
    - match goal with H : result_for _ _ = Some _ |- _ => vm_compute in H; injection H as <- end.
      match goal with H : _ \/ _ |- _ => destruct H as [[? _]|[_ (x & -> & Hx)]]; [discriminate|] end. injection Hx as ->.
      match goal with H : derives _ _ Parse (all _) _ _ _ |- _ => destruct (one_char _ _ 45 _ _ _ H) as (-> & Hm1 & Hx) end.
      injection Hx as ->. exists true. split; [lia|]. split; auto. cbn. constructor. now replace (S lo + 1) with (S (S lo)) by lia.
    - match goal with H : result_for _ _ = Some _ |- _ => vm_compute in H; injection H as <- end.
      match goal with H : _ = RVal w |- _ => injection H as <- end. exists false. split; [lia|]. split; auto.
      unfold region_text, view. now replace (S lo - S lo) with 0 by lia. }
  destruct Hcase as (neg & Hle & Htl & Hneg). rewrite <- nonempty_app in Htl.
  assert (s = Span b (S lo) (hi - S lo)) as ->.
  { apply join_tiles with (VTup [w; w0]) (Span b hi 0); auto; [|lia]. cbn [leaves flat_map]. now rewrite app_nil_r. }
  split; auto. split; [lia|]. exists e, neg, (region_text b mid0 hi). split; auto. split; [now apply region_one|]. split; auto.
  rewrite <- Hneg. apply region_app; lia.
Qed.

Lemma maybe_derives b q lo hi v t : result_for A q = Some t -> t <> TVoid -> derives A b Parse (PMaybe q) lo hi v ->
  (v = RVal (VOpt None) /\ lo = hi) \/ exists x, v = RVal (VOpt (Some x)) /\ derives A b Parse q lo hi (RVal x).
Proof.
  intros Hr Ht H. inversion H; subst; match goal with H : result_for _ _ = Some ?u |- _ => assert (u = t) by congruence; subst u end.
  - right. match goal with H : _ \/ _ |- _ => destruct H as [[? _]|[_ (x & -> & ->)]]; [congruence|] end. eauto.
  - left. destruct t; try congruence; auto.
Qed.

Lemma number_derives b lo hi v : derives A b Parse number_body lo hi v ->
  exists ds fs es x, v = RVal x /\ literal ds fs es /\ region_text b lo hi = literal_text ds fs es /\ number_object ds fs es x.
Proof.
  intros H. inversion H; subst. seq_inv.
  match goal with H : derives _ _ _ number_integer _ _ _ |- _ => destruct (integer_derives _ _ _ _ H) as ([= ->] & L1 & D1) end.
  match goal with H : derives _ _ _ (PMaybe number_fraction) _ _ _ |- _ => apply (maybe_derives _ _ _ _ _ TSpan) in H; [rename H into Hfr|reflexivity|discriminate] end.
  match goal with H : derives _ _ _ (PMaybe number_exponent) _ _ _ |- _ => apply (maybe_derives _ _ _ _ _ TSpan) in H; [rename H into Hex|reflexivity|discriminate] end.
  assert (Hnil : forall o, region_text b o o = []) by (intros o; unfold region_text, view; now replace (o - o) with 0 by lia).
  assert (Hf : mid <= mid0 /\ exists d fs, w0 = VOpt (option_map VSpan d) /\ option_map (view memory) d = fs /\ region_text b mid mid0 = fraction_text fs
     /\ match fs with Some f => digit_string f | None => True end).
  { destruct Hfr as [([= ->] & <-)|(x & [= ->] & Hx)].
    - split; [lia|]. exists None, None. repeat split; auto.
    - destruct (fraction_derives _ _ _ _ Hx) as ([= ->] & L2 & Hdot & D2). split; [lia|].
      exists (Some (Span b (S mid) (mid0 - S mid))), (Some (region_text b (S mid) mid0)).
      repeat split; auto; try apply D2. rewrite (region_app b mid (S mid) mid0) by lia. now rewrite Hdot. }
  assert (He : mid0 <= hi /\ exists e es, w1 = VOpt (option_map VSpan e) /\
     option_map (view memory) e = option_map (fun x => (if snd (fst x) : bool then [45] else []) ++ snd x) es /\ region_text b mid0 hi = exponent_text es
     /\ match es with Some (e, _, xs) => (e = 69 \/ e = 101) /\ digit_string xs | None => True end).
  { destruct Hex as [([= ->] & <-)|(x & [= ->] & Hx)].
    - split; [lia|]. exists None, None. repeat split; auto.
    - destruct (exponent_derives _ _ _ _ Hx) as ([= ->] & L2 & e & neg & xs & Hc & Htxt & Hrest & D2). split; [lia|].
      exists (Some (Span b (S mid0) (hi - S mid0))), (Some (e, neg, xs)).
      repeat split; auto; try apply D2; [cbn [option_map fst snd]; now rewrite region_view, Hrest|]. rewrite (region_app b mid0 (S mid0) hi) by lia. now rewrite Htxt, Hrest. }
  destruct Hf as (L2 & d & fs & -> & Hd & Ht2 & D2). destruct He as (L3 & e & es & -> & Hx & Ht3 & D3).
  match goal with H : invoke _ _ _ = FRet v |- _ => cbn in H; injection H as <- end.
  exists (region_text b lo mid), fs, es. eexists. split; [reflexivity|]. split; [|split].
  - repeat split; auto; apply D1.
  - unfold literal_text. rewrite (region_app b lo mid hi), (region_app b mid mid0 hi) by lia. now rewrite Ht2, Ht3.
  - eexists _, d, e. split; [reflexivity|]. auto.
Qed.

(** ** The trees the parser builds *)

(** One of the operators [cs], in a view of one character. *)
Definition delim_object (cs : list nat) (v : val) : Prop := exists s c, v = VUser 0 [VSpan s] /\ view memory s = [c] /\ In c cs.

Inductive tree : kind -> val -> Prop :=
| tree_number ds fs es v : literal ds fs es -> number_object ds fs es v -> tree KNumber v
| tree_bracketed v : tree KExpr v -> tree KBracketed (VUser 2 [v])
| tree_negated v : tree KExpr v -> tree KNegated (VUser 3 [v])
| tree_powterm_bracketed v : tree KBracketed v -> tree KPowterm (VUser 4 [VVar 0 v])
| tree_powterm_negated v : tree KNegated v -> tree KPowterm (VUser 4 [VVar 1 v])
| tree_powterm_number v : tree KNumber v -> tree KPowterm (VUser 4 [VVar 2 v])
| tree_factor vs : vs <> [] -> Forall (tree KPowterm) vs -> tree KFactor (VVec vs)
| tree_term vs ds : List.length vs = S (List.length ds) -> Forall (tree KFactor) vs -> Forall (delim_object [42; 47]) ds ->
    tree KTerm (VPair (VVec vs) (VVec ds))
| tree_expr vs ds : List.length vs = S (List.length ds) -> Forall (tree KTerm) vs -> Forall (delim_object [43; 45]) ds ->
    tree KExpr (VPair (VVec vs) (VVec ds)).

Definition alg_kind (c : nat) : option kind :=
  match c with 0 => Some KNumber | 1 => Some KPowterm | 2 => Some KFactor | 3 => Some KTerm | 4 | 5 => Some KExpr | _ => None end.
Definition alg_good (c : nat) (v : rv) : Prop :=
  match alg_kind c with Some k => exists x, v = RVal x /\ tree k x | None => True end.

Ltac fits_seq H :=
  let Ht := fresh in destruct H as (? & ? & ? & Ht & ? & -> & H); vm_compute in Ht; injection Ht as <-; chain_inv; cbn in H.

Lemma delimiter_fits b cs v : fits A b alg_good (delimiter cs) v ->
  exists x, v = RVal x /\ delim_object (sort_and_unique nat_order (isort nat_order) cs) x.
Proof.
  intros H. cbn in H. fits_seq H. destruct H as (_ & H & _). destruct H as (u & (lo & c & t & -> & Hc & Hin & He) & [= <-]); [discriminate|].
  eexists. split; [reflexivity|]. apply Nat.eqb_eq in He. subst t. exists (Span b lo 1), c. repeat split; auto.
  pose proof (region_one b lo c Hc) as Hr. unfold region_text in Hr. now replace (S lo - lo) with 1 in Hr by lia.
Qed.

Lemma operand_fits b c v k : alg_kind c = Some k -> alg_ty c <> TVoid -> fits A b alg_good (seqp ws (PCustom c)) v ->
  exists x, v = RVal x /\ tree k x.
Proof.
  intros Hk Ht H. cbn in H. destruct H as (tys & vs & ws & Hr & Hkept & -> & H). injection Hr as <-. chain_inv; [congruence|].
  { destruct H as (_ & H & _). specialize (H Ht). unfold alg_good in H. rewrite Hk in H. destruct H as (x & [= ->] & Hx). eexists. split; [reflexivity|auto]. }
Qed.

Lemma Forall_vals (Q : val -> Prop) vs : Forall (fun v => exists x, v = RVal x /\ Q x) vs -> forall ws, vs = map RVal ws -> Forall Q ws.
Proof.
  intros H ws ->. rewrite Forall_map in H. eapply Forall_impl; [|exact H]. cbn. intros a (x & [= ->] & Hx). auto.
Qed.

Lemma alg_preserved c b lo hi v : derives A b Parse (alg_body c) lo hi v -> fits A b alg_good (alg_body c) v -> alg_good c v.
Proof.
  intros Hd H. destruct c as [|[|[|[|[|[|c]]]]]]; try exact I.
  - destruct (number_derives _ _ _ _ Hd) as (ds & fs & es & x & -> & Hl & _ & Ho). exists x. split; auto. econstructor; eauto.
  - clear Hd. cbn in H. destruct H as (u & (tys & Ht & H) & Hv). injection Ht as <-. injection Hv as <-.
    change (filter_out_void_deduplicate [a_bracketed; a_negated; a_number]) with
      ([a_bracketed; a_negated; a_number], [Some 0; Some 1; Some 2]) in H. cbn [fst snd unwrapped] in H.
    destruct H as [(j & k & w & Hj & -> & H)|[(j & Hj) _]]; [|destruct j as [|[|[|[|]]]]; discriminate Hj].
    eexists. split; [reflexivity|]. cbn [args_of]. destruct j as [|[|[|[|j]]]]; cbn in Hj; try discriminate Hj; injection Hj as <-; cbn in H.
    + destruct H as (u & H & Hv). injection Hv as <-. fits_seq H. destruct H as (_ & _ & H & _).
      destruct H as (x & Hx & Htree); [discriminate|]. injection Hx as ->. cbn. constructor. now constructor.
    + destruct H as (u & H & Hv). injection Hv as <-. fits_seq H. destruct H as (_ & _ & H & _).
      destruct H as (x & Hx & Htree); [discriminate|]. injection Hx as ->. cbn. constructor. now constructor.
    + destruct H as (x & Hx & Htree). injection Hx as ->. now constructor.
  - clear Hd. destruct H as (tp & td & pvs & dvs & Htp & Htd & Hl & Hp & Hd & Hv).
    vm_compute in Htp, Htd. injection Htp as <-. injection Htd as <-. inversion Hv; subst; try congruence.
    eexists. split; [reflexivity|]. constructor.
    + intros ->. discriminate.
    + eapply Forall_vals; [|reflexivity]. eapply Forall_impl; [|exact Hp]. intros v. now apply (operand_fits b).
  - clear Hd. destruct H as (tp & td & pvs & dvs & Htp & Htd & Hl & Hp & Hd & Hv).
    vm_compute in Htp, Htd. injection Htp as <-. injection Htd as <-. inversion Hv; subst; try congruence.
    eexists. split; [reflexivity|]. rewrite !map_length in Hl. constructor; auto.
    + eapply Forall_vals; [|reflexivity]. eapply Forall_impl; [|exact Hp]. intros v. now apply (operand_fits b).
    + eapply Forall_vals; [|reflexivity]. eapply Forall_impl; [|exact Hd]. intros v. apply delimiter_fits.
  - clear Hd. destruct H as (tp & td & pvs & dvs & Htp & Htd & Hl & Hp & Hd & Hv).
    vm_compute in Htp, Htd. injection Htp as <-. injection Htd as <-. inversion Hv; subst; try congruence.
    eexists. split; [reflexivity|]. rewrite !map_length in Hl. constructor; auto.
    + eapply Forall_vals; [|reflexivity]. eapply Forall_impl; [|exact Hp]. intros v. now apply (operand_fits b).
    + eapply Forall_vals; [|reflexivity]. eapply Forall_impl; [|exact Hd]. intros v. apply delimiter_fits.
  - clear Hd. fits_seq H. destruct H as (_ & H & _). destruct H as (x & Hx & Ht); [discriminate|]. injection Hx as ->. eexists. split; [reflexivity|]. auto.
Qed.

(** Every parsed value is such a tree. *)
Theorem C40_values_are_trees c k i v rem tr : alg_kind c = Some k -> valid A i ->
  evals A Parse (PCustom c) i (Done (Res (Some v) rem) tr) -> exists x, v = RVal x /\ tree k x.
Proof.
  intros Hk Hv H. apply evals_sound in H as [_ H]; auto. cbn in H.
  assert (Hf : fits A (sp_blk i) alg_good (PCustom c) v).
  { eapply derives_fits; [| | | |exact H]; cbn; try discriminate. intros c' lo hi w _. apply alg_preserved. }
  cbn in Hf. unfold alg_good in Hf. now rewrite Hk in Hf.
Qed.

Lemma tree_ind' (R : kind -> val -> Prop) :
  (forall ds fs es v, literal ds fs es -> number_object ds fs es v -> R KNumber v) ->
  (forall v, tree KExpr v -> R KExpr v -> R KBracketed (VUser 2 [v])) ->
  (forall v, tree KExpr v -> R KExpr v -> R KNegated (VUser 3 [v])) ->
  (forall v, tree KBracketed v -> R KBracketed v -> R KPowterm (VUser 4 [VVar 0 v])) ->
  (forall v, tree KNegated v -> R KNegated v -> R KPowterm (VUser 4 [VVar 1 v])) ->
  (forall v, tree KNumber v -> R KNumber v -> R KPowterm (VUser 4 [VVar 2 v])) ->
  (forall vs, vs <> [] -> Forall (R KPowterm) vs -> R KFactor (VVec vs)) ->
  (forall vs ds, List.length vs = S (List.length ds) -> Forall (R KFactor) vs -> Forall (delim_object [42; 47]) ds -> R KTerm (VPair (VVec vs) (VVec ds))) ->
  (forall vs ds, List.length vs = S (List.length ds) -> Forall (R KTerm) vs -> Forall (delim_object [43; 45]) ds -> R KExpr (VPair (VVec vs) (VVec ds))) ->
  forall k v, tree k v -> R k v.
Proof.
  intros H1 H2 H3 H4 H5 H6 H7 H8 H9. fix IH 3. intros k v H.
  assert (go : forall k vs, Forall (tree k) vs -> Forall (R k) vs).
  { intros k0. fix go 2. intros vs HF. destruct HF as [|x vs Hx HF]; constructor; [apply IH, Hx|apply go, HF]. }
  destruct H; [eapply H1; eauto|apply H2|apply H3|apply H4|apply H5|apply H6|apply H7|apply H8|apply H9]; auto.
Qed.

(** ** C40: evaluate *)

(** The number objects in a tree. *)
Fixpoint numbers (v : val) : list val :=
  match v with
  | VUser 1 _ => [v]
  | VUser _ l | VVec l => flat_map numbers l
  | VVar _ x => numbers x
  | VPair a b => numbers a ++ numbers b
  | _ => []
  end.

(** [r] is a value, or what the evaluation of one of the numbers [ns] ended with. *)
Definition clean (F : doubles) (ns : list val) (r : eres (dbl F)) : Prop :=
  match r with
  | EVal _ => True
  | EInvalid | EAbort => exists n, In n ns /\ evaluate memory F KNumber n = r
  | ENull | EFront | ESwitch | EType => False
  end.

Lemma clean_incl F ns ns' r : clean F ns r -> incl ns ns' -> clean F ns' r.
Proof. intros H Hi. destruct r; auto; destruct H as (n & Hn & He); exists n; auto. Qed.

Lemma operator_clean F ns op cs ds : (forall c, In c cs -> op c <> None) -> Forall (delim_object cs) ds ->
  forall rs d, Forall (clean F ns) rs -> clean F ns (operator_loop memory F op d rs ds).
Proof.
  intros Hop HD. induction HD as [|x ds (s & c & -> & Hv & Hc) HD IH]; intros [|r rs] d HF; try exact I.
  inversion HF; subst. cbn [operator_loop]. rewrite Hv. specialize (Hop c Hc). destruct (op c); [|congruence].
  destruct r; auto.
Qed.

Lemma left_clean F ns op cs ds rs : (forall c, In c cs -> op c <> None) -> Forall (delim_object cs) ds ->
  rs <> [] -> Forall (clean F ns) rs -> clean F ns (left_chain memory F op rs ds).
Proof.
  intros Hop HD Hn HF. destruct HF as [|r rs Hr HF]; [congruence|]. cbn. destruct r; auto. eapply operator_clean; eauto.
Qed.

Lemma right_clean F ns rs : rs <> [] -> Forall (clean F ns) rs -> clean F ns (right_chain F rs).
Proof.
  intros Hn HF. unfold right_chain. assert (HF' : Forall (clean F ns) (rev rs)) by now apply Forall_rev.
  assert (Hn' : rev rs <> []). { intros H. apply Hn. rewrite <- (rev_involutive rs), H. reflexivity. }
  destruct HF' as [|r l Hr HF']; [congruence|]. clear -Hr HF'. destruct r; auto. clear Hr. revert d.
  induction HF' as [|r l Hr HF' IH]; intros d; cbn; auto. destruct r; auto.
Qed.

Lemma map_clean F vs k : Forall (fun v => clean F (numbers v) (evaluate memory F k v)) vs ->
  Forall (clean F (flat_map numbers vs)) (map (evaluate memory F k) vs).
Proof.
  intros H. rewrite Forall_map. rewrite Forall_forall in *. intros v Hv. eapply clean_incl; [now apply H|].
  intros n Hn. apply in_flat_map. eauto.
Qed.

Lemma evaluate_tree F k v : tree k v -> clean F (numbers v) (evaluate memory F k v).
Proof.
  intros H. induction H using tree_ind'.
  - destruct H0 as (i & d & e & -> & Hrest).
    set (v := VUser 1 _). assert (Hin : In v (numbers v)) by now left.
    assert (Hcase : match evaluate memory F KNumber v with EVal _ | EInvalid | EAbort => True | _ => False end).
    { subst v. assert (He : forall o, as_view (option_map VSpan o) = Some o) by now intros [].
      cbn [evaluate]. rewrite !He. unfold evaluate_number. destruct (d_from F _); auto. destruct e; auto. destruct (int_from_chars _); auto. }
    destruct (evaluate memory F KNumber v) eqn:Hr; try contradiction; cbn; eauto.
  - cbn. rewrite app_nil_r. auto.
  - cbn. rewrite app_nil_r. destruct (evaluate memory F KExpr v); auto.
  - cbn. rewrite app_nil_r. auto.
  - cbn. rewrite app_nil_r. auto.
  - cbn [evaluate]. eapply clean_incl; [exact IHtree|]. cbn. rewrite app_nil_r. apply incl_refl.
  - cbn [evaluate numbers]. apply right_clean; [now destruct vs|]. now apply map_clean.
  - cbn [evaluate numbers]. eapply clean_incl; [|apply incl_appl, incl_refl].
    eapply left_clean with (cs := [42; 47]); auto; [|now destruct vs|now apply map_clean]. intros c [<-|[<-|[]]]; discriminate.
  - cbn [evaluate numbers]. eapply clean_incl; [|apply incl_appl, incl_refl].
    eapply left_clean with (cs := [43; 45]); auto; [|now destruct vs|now apply map_clean]. intros c [<-|[<-|[]]]; discriminate.
Qed.

(** Whatever input parses: evaluate neither dereferences an end iterator or the front of an
    empty view nor takes a default branch.  It returns a number, or one of the number
    literals makes it throw or terminate (see C41). *)
Theorem C40_evaluate_is_safe F i v rem tr : valid A i -> evals A Parse alg_input i (Done (Res (Some v) rem) tr) ->
  exists x, v = RVal x /\
    match evaluate memory F KExpr x with
    | EVal _ => True
    | EInvalid | EAbort => exists n, In n (numbers x) /\ evaluate memory F KNumber n = evaluate memory F KExpr x
    | ENull | EFront | ESwitch | EType => False
    end.
Proof.
  intros Hv H. destruct (C40_values_are_trees 5 KExpr i v rem tr eq_refl Hv H) as (x & -> & Ht).
  exists x. split; auto. pose proof (evaluate_tree F KExpr x Ht) as Hc. unfold clean in Hc. destruct (evaluate memory F KExpr x); auto.
Qed.

(** ** C41: numbers *)

(** The natural number a string of digits denotes. *)
Definition decimal (l : list nat) : Z := fold_left (fun a c => 10 * a + (Z.of_nat c - 48))%Z l 0%Z.
Definition fits_int (z : Z) : bool := ((-2147483648 <=? z) && (z <=? 2147483647))%Z.

Lemma digits_value_all l : Forall is_dg l -> forall a, digits_value a l = (fold_left (fun a c => 10 * a + (Z.of_nat c - 48))%Z l a, []).
Proof.
  induction 1 as [|c l Hc H IH]; intros a; cbn [digits_value fold_left]; auto. unfold is_dg in Hc.
  destruct (Nat.leb_spec 48 c), (Nat.leb_spec c 57); try lia. cbn [andb]. rewrite IH. do 3 f_equal. lia.
Qed.

Lemma int_from_chars_spec (neg : bool) xs : digit_string xs ->
  int_from_chars ((if neg then [45] else []) ++ xs) =
  let z := (if neg then - decimal xs else decimal xs)%Z in if fits_int z then Some z else None.
Proof.
  intros [Hn HF]. assert (Hu : unsigned_from_chars xs = Some (decimal xs)).
  { destruct xs as [|c xs]; [congruence|]. unfold unsigned_from_chars.
    assert (Hc : is_dg c) by now inversion HF. unfold is_dg in Hc. destruct (Nat.leb_spec 48 c), (Nat.leb_spec c 57); try lia. cbn [andb].
    now rewrite digits_value_all. }
  unfold int_from_chars. destruct neg; cbn [app].
  - rewrite Hu. reflexivity.
  - assert (Hm : match xs with 45 :: l' => option_map Z.opp (unsigned_from_chars l') | _ => unsigned_from_chars xs end = Some (decimal xs)).
    { destruct xs as [|c xs]; [congruence|]. assert (Hc : is_dg c) by now inversion HF. unfold is_dg in Hc.
      do 46 (destruct c as [|c]; [lia|]). exact Hu. }
    rewrite Hm. reflexivity.
Qed.

(** What evaluate makes of a literal: with an exponent, the power of the mantissa. *)
Theorem C41_number_value F i v rem tr : valid A i -> evals A Parse alg_number i (Done (Res (Some v) rem) tr) ->
  exists ds fs es x, v = RVal x /\ literal ds fs es /\
    elems A i = literal_text ds fs es ++ elems A rem /\
    evaluate memory F KNumber x =
      match d_from F (ds ++ fraction_text fs) with
      | None => EInvalid
      | Some value =>
          match es with
          | None => EVal value
          | Some (_, neg, xs) =>
              let z := (if neg : bool then - decimal xs else decimal xs)%Z in
              if fits_int z then EVal (d_pow F value (d_int F z)) else EAbort
          end
      end.
Proof.
  intros Hv H. apply evals_sound in H as [Hs H]; auto. cbn [r_rem] in *.
  inversion H; subst; try discriminate.
  match goal with H : derives _ _ Parse (cust_body _ _) _ _ _ |- _ => destruct (number_derives _ _ _ _ H) as (ds & fs & es & x & -> & Hl & Ht & Ho) end.
  exists ds, fs, es, x. split; auto. split; auto. split.
  - destruct Hs as (c & Hc & ->). rewrite (elems_adv A i c Hc), <- Ht. f_equal. unfold region_text, view, elems. cbn. now replace (sp_off i + c - sp_off i) with c by lia.
  - destruct Ho as (si & d & e & -> & Hi & Hd & He).
    assert (Hw : forall o, as_view (option_map VSpan o) = Some o) by now intros [].
    cbn [evaluate]. rewrite !Hw. unfold evaluate_number. rewrite Hi.
    replace (match d with Some s => 46 :: view memory s | None => [] end) with (fraction_text fs) by (rewrite <- Hd; now destruct d).
    destruct (d_from F _); auto. destruct Hl as (_ & _ & Hl).
    destruct e as [e|], es as [[[c neg] xs]|]; cbn [option_map fst snd] in He; try discriminate; auto.
    injection He as He. rewrite He, int_from_chars_spec by apply Hl. cbv zeta. now destruct (fits_int _).
Qed.

(** Without an exponent it is what from_chars makes of the characters of the literal. *)
Corollary C41_without_exponent_partial F i v rem tr : valid A i -> evals A Parse alg_number i (Done (Res (Some v) rem) tr) ->
  exists l x, v = RVal x /\ elems A i = l ++ elems A rem /\
    ((exists c, In c l /\ (c = 69 \/ c = 101)) \/
     evaluate memory F KNumber x = match d_from F l with Some d => EVal d | None => EInvalid end).
Proof.
  intros Hv H. destruct (C41_number_value F i v rem tr Hv H) as (ds & fs & es & x & -> & (_ & _ & Hl) & Ht & He).
  exists (literal_text ds fs es), x. split; auto. split; auto. destruct es as [[[c neg] xs]|].
  - left. exists c. split; [|apply Hl]. unfold literal_text. rewrite !in_app_iff. right. right. now left.
  - right. unfold literal_text. cbn [exponent_text]. now rewrite app_nil_r.
Qed.
End Algebraic.

(** *** Exact arithmetic

    Rational numbers in place of doubles; from_chars reads digits with at most one decimal
    point exactly; pow is exact for whole exponents (all that is needed here). *)
Fixpoint q_read (l : list nat) (acc : Z) (den : positive) (point : bool) : Q :=
  match l with
  | [] => acc # den
  | c :: l' => if c =? 46 then q_read l' acc den true
               else q_read l' (10 * acc + (Z.of_nat c - 48))%Z (if point then den * 10 else den)%positive point
  end.
Definition exact : doubles := {|
  dbl := Q; d_add := Qplus; d_sub := Qminus; d_mul := Qmult; d_div := Qdiv; d_neg := Qopp;
  d_pow := fun a b => Qpower a (Qnum b);
  d_from := fun l => Some (q_read l 0 1 false);
  d_int := inject_Z
|}.

(** What a literal denotes. *)
Definition meaning (ds : list nat) (fs : option (list nat)) (es : option (nat * bool * list nat)) : Q :=
  let f := match fs with Some f => f | None => [] end in
  (inject_Z (decimal (ds ++ f)) / Qpower 10 (Z.of_nat (List.length f))
   * match es with Some (_, neg, xs) => Qpower 10 (if neg : bool then - decimal xs else decimal xs)%Z | None => 1 end)%Q.

Definition numbers_text (b : nat) : list nat :=
  match b with 1 => codes "12.50" | 2 => codes "2e3" | _ => codes "1e2147483648" end.

(** 2e3 evaluates to 8. *)
Theorem C41_exponent_refuted :
  exists ds fs es x tr, evals (alg_env numbers_text) Parse alg_number (Span 2 0 3) (Done (Res (Some (RVal x)) (Span 2 3 0)) tr) /\
    literal ds fs es /\ elems (alg_env numbers_text) (Span 2 0 3) = literal_text ds fs es /\
    exists q, evaluate numbers_text exact KNumber x = EVal q /\ ~ (q == meaning ds fs es)%Q.
Proof.
  exists [50], None, (Some (101, false, [51])). eexists. eexists. split; [runs 20|]. split.
  { repeat split; auto; try discriminate; repeat constructor; unfold is_dg; lia. }
  split; [reflexivity|]. exists (8 # 1)%Q. split; [reflexivity|]. vm_compute. discriminate.
Qed.

(** An exponent that is no int aborts the program. *)
Theorem C41_abort_refuted : exists x tr,
  evals (alg_env numbers_text) Parse alg_number (Span 3 0 12) (Done (Res (Some (RVal x)) (Span 3 12 0)) tr) /\
  forall F d, d_from F [49] = Some d -> evaluate numbers_text F KNumber x = EAbort.
Proof.
  eexists. eexists. split; [runs 20|]. intros F d H. cbn [evaluate as_view]. unfold evaluate_number.
  change (view numbers_text (Span 3 0 1) ++ []) with [49]. rewrite H.
  replace (int_from_chars _) with (@None Z) by (vm_compute; reflexivity). reflexivity.
Qed.

(** Without exponent the exact value is the meaning. *)
Theorem C41_exact_partial memory i v rem tr : valid (alg_env memory) i ->
  evals (alg_env memory) Parse alg_number i (Done (Res (Some v) rem) tr) ->
  exists ds fs es x, v = RVal x /\ literal ds fs es /\ elems (alg_env memory) i = literal_text ds fs es ++ elems (alg_env memory) rem /\
    (es = None -> exists q, evaluate memory exact KNumber x = EVal q /\ (q == meaning ds fs es)%Q).
Proof.
  intros Hv H. destruct (C41_number_value memory exact i v rem tr Hv H) as (ds & fs & es & x & -> & Hl & Ht & He).
  exists ds, fs, es, x. split; auto. split; auto. split; auto. intros ->. rewrite He. eexists. split; [reflexivity|].
  cbn [d_from exact]. unfold meaning. destruct Hl as ([_ Hd] & Hf & _). rewrite Qmult_1_r.
  assert (Hpre : forall l r acc, Forall is_dg l -> q_read (l ++ r) acc 1 false = q_read r (fold_left (fun a c => 10 * a + (Z.of_nat c - 48))%Z l acc) 1 false).
  { intros l r acc Hl. revert acc. induction Hl as [|c l Hc Hl IH]; intros acc; cbn [app q_read fold_left]; auto.
    unfold is_dg in Hc. destruct (Nat.eqb_spec c 46); [lia|]. now rewrite IH. }
  assert (Hpost : forall l acc den, Forall is_dg l ->
            (q_read l acc den true == (fold_left (fun a c => 10 * a + (Z.of_nat c - 48))%Z l acc # den) / Qpower 10 (Z.of_nat (List.length l)))%Q).
  { induction l as [|c l IH]; intros acc den Hl; [unfold Qeq; cbn; lia|].
    inversion Hl; subst. cbn [q_read fold_left List.length]. unfold is_dg in *. destruct (Nat.eqb_spec c 46); [lia|]. rewrite IH by auto.
    set (z := fold_left _ l _). rewrite Nat2Z.inj_succ. unfold Z.succ. rewrite Qpower_plus by discriminate.
    change (Qpower 10 1) with 10%Q. unfold Qdiv. rewrite Qinv_mult_distr, (Qmult_comm (/ _) (/ 10)), Qmult_assoc.
    apply Qmult_comp; [|reflexivity]. unfold Qeq, Qmult, Qinv. cbn. lia. }
  rewrite Hpre by auto. destruct fs as [fs|]; cbn [fraction_text].
  - change (q_read (46 :: fs) ?z 1 false) with (q_read fs z 1 true). destruct Hf. rewrite Hpost by auto. unfold decimal. now rewrite fold_left_app.
  - cbn [q_read List.length]. rewrite app_nil_r. cbn [Z.of_nat Qpower]. unfold Qdiv. cbn [Qinv]. now rewrite Qmult_1_r.
Qed.

(** ** C42: printing *)

(** How many levels of tabs an object needs below its own. *)
Fixpoint height (v : val) : nat :=
  match v with
  | VUser 1 _ => 0
  | VUser _ [VVar _ x] => S (height x)
  | VUser _ [x] => S (height x)
  | VVec l => S (list_max (map height l))
  | VPair x _ => height x
  | _ => 0
  end.

Definition prints (p : pres) (b : bool) : Prop :=
  match p with POut _ => b = true | PTabs => b = false | _ => False end.

Lemma prints_then p q a b : prints p a -> prints q b -> prints (then_ p q) (a && b).
Proof. destruct p, q, a, b; cbn; try easy. Qed.
Lemma prints_out l : prints (POut l) true.
Proof. reflexivity. Qed.
Lemma prints_tabs n : prints (get_tabs n) (n <=? 1025).
Proof. unfold get_tabs. now destruct (n <=? 1025) eqn:?. Qed.
Lemma prints_text s n : prints (print_text s n) (n <=? 1025).
Proof.
  unfold print_text. pose proof (prints_then _ _ _ _ (prints_tabs n) (prints_out [Text s])) as H. now rewrite andb_true_r in H.
Qed.
Lemma prints_auto s n body b : (b = true -> n <= 1025) -> prints body b -> prints (autoprint s n body) b.
Proof.
  intros Hb H. unfold autoprint.
  pose proof (prints_then _ _ _ _ (prints_text s n) (prints_then _ _ _ _ (prints_out [Text (ln " :")]) (prints_then _ _ _ _ (prints_text (ln "{") n)
    (prints_then _ _ _ _ H (prints_then _ _ _ _ (prints_out [Text (ln "")]) (prints_text "}" n)))))) as Hp.
  destruct b; cbn in Hp |- *.
  - replace (n <=? 1025) with true in Hp by (symmetry; apply Nat.leb_le; auto). exact Hp.
  - now rewrite !andb_false_r in Hp.
Qed.

Section Printing.
Context (memory : nat -> list nat).

Lemma prints_list size : forall l i bs, Forall2 prints l bs -> prints (print_list size i l) (forallb (fun b => b) bs).
Proof.
  intros l i bs H. revert i. induction H as [|p b l bs Hp H IH]; intros i; cbn [print_list forallb]; [reflexivity|].
  apply prints_then; auto. change (forallb _ bs) with (true && forallb (fun b => b) bs). apply prints_then; auto.
  destruct (i =? size - 1); reflexivity.
Qed.

Lemma prints_loop op cs tabs size delims : (forall c, In c cs -> exists s, op c = Some s) -> Forall (delim_object memory cs) delims ->
  size = S (List.length delims) ->
  forall l bs, Forall2 prints l bs -> (forall b, In b bs -> b = true -> tabs + 1 <= 1025) ->
  forall i, i + List.length l = size -> prints (print_loop memory op tabs size i delims l) (forallb (fun b => b) bs).
Proof.
  intros Hop Hd Hs l bs H Hb. induction H as [|p b l bs Hp H IH]; intros i Hi; cbn [print_loop forallb]; [reflexivity|].
  cbn [List.length] in Hi. assert (Hb' : forall b, In b bs -> b = true -> tabs + 1 <= 1025) by (intros; eapply Hb; [right|]; eauto).
  specialize (IH Hb' (S i)).
  assert (Hr : prints (print_loop memory op tabs size (S i) delims l) (forallb (fun b => b) bs)) by (apply IH; lia). clear IH.
  apply prints_then; auto.
  destruct (Nat.eqb_spec i (size - 1)) as [Hl|Hl].
  { change (forallb _ bs) with (true && forallb (fun b => b) bs). apply prints_then; auto. reflexivity. }
  destruct (nth_error delims i) as [v|] eqn:Hn.
  2:{ apply nth_error_None in Hn. lia. }
  apply nth_error_In in Hn. rewrite Forall_forall in Hd. destruct (Hd v Hn) as (s & c & -> & -> & Hc).
  destruct (Hop c Hc) as [nm ->].
  pose proof (prints_then _ _ _ _ (prints_then _ _ _ _ (prints_out [Text (ln ",")])
    (prints_then _ _ _ _ (prints_text nm (tabs + 1)) (prints_out [Text (ln "")]))) Hr) as Hp'.
  destruct (forallb (fun b => b) bs) eqn:Hall; cbn [andb] in Hp'.
  - replace (tabs + 1 <=? 1025) with true in Hp'; [exact Hp'|].
    symmetry. apply Nat.leb_le. destruct bs as [|b' bs']; [inversion H; subst; cbn in Hi; lia|].
    cbn in Hall. apply andb_prop in Hall as [-> _]. apply (Hb' true); auto. now left.
  - rewrite andb_false_r in Hp'. exact Hp'.
Qed.

Lemma leb_children tabs vs : vs <> [] ->
  forallb (fun b => b) (map (fun x => tabs + 1 + height x <=? 1025) vs) = (tabs + S (list_max (map height vs)) <=? 1025).
Proof.
  induction vs as [|x vs IH]; [easy|]. intros _. cbn [map forallb list_max fold_right].
  destruct vs as [|y vs]; [cbn; rewrite andb_true_r, Nat.max_0_r; f_equal; lia|].
  rewrite IH by discriminate. apply eq_true_iff_eq. rewrite andb_true_iff, !Nat.leb_le. fold (list_max (map height (y :: vs))). lia.
Qed.

Lemma forall2_children (f : val -> pres) tabs vs : Forall (fun x => forall t, t = tabs + 1 -> prints (f x) (t + height x <=? 1025)) vs ->
  Forall2 prints (map f vs) (map (fun x => tabs + 1 + height x <=? 1025) vs).
Proof. induction 1; cbn; constructor; auto. Qed.

(** The printer stays within its buffer as long as the tree is not too high, and runs over
    its end otherwise; nothing else goes wrong. *)
Theorem C42_print_partial k v : tree memory k v -> forall tabs,
  match print memory k v tabs with
  | POut _ => tabs + height v <= 1025
  | PTabs => 1025 < tabs + height v
  | _ => False
  end.
Proof.
  enough (H : tree memory k v -> forall tabs, prints (print memory k v tabs) (tabs + height v <=? 1025)).
  { intros Ht tabs. specialize (H Ht tabs). destruct (print memory k v tabs); cbn in H; auto; [now apply Nat.leb_le|now apply Nat.leb_gt]. }
  revert k v. apply (tree_ind' memory (fun k v => forall tabs, prints (print memory k v tabs) (tabs + height v <=? 1025))).
  - intros ds fs es v _ (si & d & e & -> & _) tabs. cbn [print height]. rewrite Nat.add_0_r.
    assert (Hw : forall o, as_view (option_map VSpan o) = Some o) by now intros [].
    rewrite !Hw. rewrite <- (andb_true_r (tabs <=? 1025)). apply prints_then; [apply prints_text|reflexivity].
  - intros v Ht IH tabs. cbn [print]. apply prints_auto; [rewrite Nat.leb_le; lia|]. specialize (IH (tabs + 1)).
    replace (height (VUser 2 [v])) with (S (height v)) by now inversion Ht. replace (tabs + S (height v)) with (tabs + 1 + height v) by lia. exact IH.
  - intros v Ht IH tabs. cbn [print]. apply prints_auto; [rewrite Nat.leb_le; lia|]. specialize (IH (tabs + 1)).
    replace (height (VUser 3 [v])) with (S (height v)) by now inversion Ht. replace (tabs + S (height v)) with (tabs + 1 + height v) by lia. exact IH.
  - intros v _ IH tabs. cbn [print height]. apply prints_auto; [rewrite Nat.leb_le; lia|]. specialize (IH (tabs + 1)).
    replace (tabs + S (height v)) with (tabs + 1 + height v) by lia. exact IH.
  - intros v _ IH tabs. cbn [print height]. apply prints_auto; [rewrite Nat.leb_le; lia|]. specialize (IH (tabs + 1)).
    replace (tabs + S (height v)) with (tabs + 1 + height v) by lia. exact IH.
  - intros v _ IH tabs. cbn [print height]. apply prints_auto; [rewrite Nat.leb_le; lia|]. specialize (IH (tabs + 1)).
    replace (tabs + S (height v)) with (tabs + 1 + height v) by lia. exact IH.
  - intros vs Hn IH tabs. cbn [print height]. apply prints_auto; [rewrite Nat.leb_le; lia|]. rewrite <- leb_children by auto.
    apply prints_list, forall2_children. eapply Forall_impl; [|exact IH]. cbn. intros x Hx t ->. apply Hx.
  - intros vs ds Hl IH Hd tabs. cbn [print height]. apply prints_auto; [rewrite Nat.leb_le; lia|].
    rewrite <- leb_children by (intros ->; discriminate). eapply prints_loop; [|exact Hd|exact Hl| | |].
    + intros c [<-|[<-|[]]]; eexists; reflexivity.
    + apply forall2_children. eapply Forall_impl; [|exact IH]. cbn. intros x Hx t ->. apply Hx.
    + intros b Hb ->. apply in_map_iff in Hb as (x & Hb & _). apply Nat.leb_le in Hb. lia.
    + now rewrite map_length.
  - intros vs ds Hl IH Hd tabs. cbn [print height]. apply prints_auto; [rewrite Nat.leb_le; lia|].
    rewrite <- leb_children by (intros ->; discriminate). eapply prints_loop; [|exact Hd|exact Hl| | |].
    + intros c [<-|[<-|[]]]; eexists; reflexivity.
    + apply forall2_children. eapply Forall_impl; [|exact IH]. cbn. intros x Hx t ->. apply Hx.
    + intros b Hb ->. apply in_map_iff in Hb as (x & Hb & _). apply Nat.leb_le in Hb. lia.
    + now rewrite map_length.
Qed.

(** For everything the parser returns. *)
Corollary C42_parsed_partial i v rem tr : valid (alg_env memory) i -> evals (alg_env memory) Parse alg_input i (Done (Res (Some v) rem) tr) ->
  exists x, v = RVal x /\
    ((exists l, print memory KExpr x 0 = POut l /\ height x <= 1025) \/ (print memory KExpr x 0 = PTabs /\ 1025 < height x)).
Proof.
  intros Hv H. destruct (C40_values_are_trees memory 5 KExpr i v rem tr eq_refl Hv H) as (x & -> & Ht).
  exists x. split; auto. pose proof (C42_print_partial KExpr x Ht 0) as Hp. destruct (print memory KExpr x 0); try easy; eauto.
Qed.
End Printing.

(** 205 pairs of brackets around a digit: the printer reads past the end of its buffer. *)
Definition brackets (n : nat) (b : nat) : list nat := repeat 40 n ++ [49] ++ repeat 41 n.
Definition overruns (memory : nat -> list nat) (n : nat) (i : span) : bool :=
  match run (alg_env memory) n Parse alg_input i with
  | Done (Res (Some (RVal x)) rem) _ => match print memory KExpr x 0 with PTabs => sp_len rem =? 0 | _ => false end
  | _ => false
  end.
Lemma overruns_ok memory n i : overruns memory n i = true -> exists x rem tr,
  evals (alg_env memory) Parse alg_input i (Done (Res (Some (RVal x)) rem) tr) /\ sp_len rem = 0 /\ print memory KExpr x 0 = PTabs.
Proof.
  unfold overruns. intros H. destruct (run _ _ _ _ _) as [[[[|x]|] rem] tr| | | |] eqn:Hr; try discriminate.
  apply evals_done in Hr. exists x, rem, tr. split; [exact Hr|]. destruct (print memory KExpr x 0); try discriminate. split; auto. now apply Nat.eqb_eq.
Qed.
Theorem C42_depth_refuted : exists x rem tr,
  valid (alg_env (brackets 205)) (Span 0 0 411) /\
  evals (alg_env (brackets 205)) Parse alg_input (Span 0 0 411) (Done (Res (Some (RVal x)) rem) tr) /\
  sp_len rem = 0 /\ print (brackets 205) KExpr x 0 = PTabs.
Proof.
  destruct (overruns_ok (brackets 205) 3000 (Span 0 0 411)) as (x & rem & tr & H).
  - vm_compute. reflexivity.
  - exists x, rem, tr. split; [vm_compute; repeat constructor|exact H].
Qed.

(** *** Cases *)
Definition some_text (b : nat) : list nat :=
  match b with 0 => codes "4 ^ (2 + 4 * 6) + 1 * 3" | 1 => codes "12.50" | 2 => codes "8 - 3 - 2" | _ => codes "-(1)" end.

Example C40_case : exists x tr,
  valid (alg_env some_text) (Span 0 0 23) /\
  evals (alg_env some_text) Parse alg_input (Span 0 0 23) (Done (Res (Some (RVal x)) (Span 0 23 0)) tr) /\
  evaluate some_text exact KExpr x = EVal (4503599627370499 # 1)%Q.
Proof. eexists. eexists. split; [vm_compute; repeat constructor|]. split; [runs 100|]. vm_compute. reflexivity. Qed.
Example C40_left : exists x tr,
  evals (alg_env some_text) Parse alg_input (Span 2 0 9) (Done (Res (Some (RVal x)) (Span 2 9 0)) tr) /\
  evaluate some_text exact KExpr x = EVal (3 # 1)%Q.
Proof. eexists. eexists. split; [runs 100|]. vm_compute. reflexivity. Qed.

Example C41_case : exists x tr,
  valid (alg_env some_text) (Span 1 0 5) /\
  evals (alg_env some_text) Parse alg_number (Span 1 0 5) (Done (Res (Some (RVal x)) (Span 1 5 0)) tr) /\
  evaluate some_text exact KNumber x = EVal (1250 # 100)%Q.
Proof. eexists. eexists. split; [vm_compute; repeat constructor|]. split; [runs 100|]. vm_compute. reflexivity. Qed.

Example C42_case : exists x tr,
  valid (alg_env some_text) (Span 3 0 4) /\
  evals (alg_env some_text) Parse alg_input (Span 3 0 4) (Done (Res (Some (RVal x)) (Span 3 4 0)) tr) /\
  height x = 14 /\ exists l, print some_text KExpr x 0 = POut l /\ In (Tabs 14) l.
Proof.
  eexists. eexists. split; [vm_compute; repeat constructor|]. split; [runs 100|]. split; [reflexivity|]. eexists. split; [vm_compute; reflexivity|].
  cbn. tauto.
Qed.

Print Assumptions C40_parser_terminates.
Print Assumptions C40_values_are_trees.
Print Assumptions C40_evaluate_is_safe.
Print Assumptions C41_number_value.
Print Assumptions C41_without_exponent_partial.
Print Assumptions C41_exact_partial.
Print Assumptions C41_exponent_refuted.
Print Assumptions C41_abort_refuted.
Print Assumptions C42_print_partial.
Print Assumptions C42_parsed_partial.
Print Assumptions C42_depth_refuted.
