(** * Property C69: which parsers need memory *)
From Coq Require Import String List Arith ZArith Bool Lia.
From Verif Require Import Types Compound Parser Outcome CompoundFacts Exec Mono Derive Typing Join Leaves Sound Agree
  Objects ObjectFacts ObjectLog PropCore PropObjects Needs PropNeeds Samples.
Import ListNotations.

(** ** Specification *)

(** The operations that may allocate: a new element of a vector, and copies (of a vector, say) *)
Definition allocates (u : use) : Prop :=
  match u with Insert _ | Copy _ | CopyAssign _ => True | _ => False end.

Section Spec.
Context {T V : Type} (E : env T V).

(** [p] itself puts values of type [t] into a vector *)
Definition repeats (p : parser T) (t : ty) : Prop :=
  t <> TVoid /\
  match p with
  | POneOrMore q | PZeroOrMore q => result_for E q = Some t
  | PDelimit q d => result_for E q = Some t \/ result_for E d = Some t
  | _ => False
  end.

(** [maybe], [exactly], [+], [*] of a set or of a literal *)
Definition lean (p : parser T) : Prop :=
  match p with
  | PMaybe q | POneOrMore q | PZeroOrMore q =>
      match q with PAnyOf _ | PNoneOf _ | PAllOf _ => True | _ => False end
  | PExactly q n => n <> 0 /\ match q with PAnyOf _ | PNoneOf _ | PAllOf _ => True | _ => False end
  | _ => False
  end.

(** a type with a vector somewhere in it *)
Fixpoint vectorial (t : ty) : bool :=
  match t with
  | TVoid | TSpan | TUser _ => false
  | TVec _ => true
  | TArr t _ | TOpt t => vectorial t
  | TTup ts | TVar ts => existsb vectorial ts
  | TPair a b => vectorial a || vectorial b
  end.

(** a value with a non-empty vector somewhere in it, objects of classes aside *)
Fixpoint owning (v : val) : bool :=
  match v with
  | VSpan _ | VUser _ _ | VZ _ | VOpt None => false
  | VVec l => match l with [] => false | _ => true end
  | VArr l | VTup l => existsb owning l
  | VOpt (Some v) | VVar _ v => owning v
  | VPair a b => owning a || owning b
  end.

(** [p] hands out vectors: it repeats something with a value, or passes on the value of a part
    that hands out vectors.  Join and ignore do not pass values on. *)
Fixpoint hands_out (p : parser T) : bool :=
  match p with
  | PAnyOf _ | PNoneOf _ | PAllOf _ | PAnything | PEpsilon | PIgnore _ | PJoin _ => false
  | PChoice q qs | PSequence q qs => hands_out q || existsb hands_out qs
  | PMaybe q | PExactly q _ | PComplete q | PFilter q _ | PNamed q _ => hands_out q
  | POneOrMore q | PZeroOrMore q => match result_for E q with Some TVoid => false | _ => true end
  | PDelimit q d => match result_for E q, result_for E d with Some TVoid, Some TVoid => false | _, _ => true end
  | PMap _ _ => match result_for E p with Some t => vectorial t | None => false end
  | PCustom c => vectorial (cust_ty E c)
  end.
End Spec.

Section C69.
Context {T V : Type} (E : env T V) (K : nat -> cls).
Notation C := (traits_of K).

(** ** Operations *)

Lemma no_insert_init t t' : Insert t <> init C t'.
Proof. unfold init. destruct (from_rvalue C t'); discriminate. Qed.

Lemma no_insert_part t ct unw p : Insert t <> part_need E K ct unw p.
Proof. unfold part_need. destruct unw, (move_assignable C (ty_of E p)), ct; discriminate. Qed.

Lemma no_insert_fn t f : ~ In (Insert t) (fn_uses E f).
Proof. induction f; cbn; auto; intros [H|[]]; discriminate. Qed.

Lemma insert_builder t t' l : In (Insert t) (builder_needs K t' l) -> In (Insert t) l.
Proof.
  unfold builder_needs. destruct (is_void t'); [intros []|]. intros [H|[H|H]]; auto; [discriminate|].
  now apply eq_sym, no_insert_init in H.
Qed.

Lemma insert_insert t t' : In (Insert t) (insert_needs t') -> t' = t /\ t <> TVoid.
Proof.
  unfold insert_needs. destruct (is_void t') eqn:G; [intros []|]. apply is_void_false in G.
  intros [[= <-]|[H|[]]]; auto. discriminate.
Qed.

Lemma ty_of_some q t : ty_of E q = t -> t <> TVoid -> result_for E q = Some t.
Proof. unfold ty_of. destruct (result_for E q); congruence. Qed.

Lemma needs_insert q t : In (Insert t) (needs E K q) -> repeats E q t.
Proof.
  destruct q; cbn [needs]; intros H.
  1, 2, 3, 4: destruct H as [H|[]]; now apply eq_sym, no_insert_init in H.
  - destruct H.
  - destruct (result_fors E (q :: ps)); [|destruct H]. cbn zeta in H. apply insert_builder, in_map_iff in H as (x & H & _).
    now apply eq_sym, no_insert_part in H.
  - destruct (result_fors E (q :: ps)); [|destruct H]. cbn zeta in H. apply insert_builder, in_map_iff in H as (x & H & _).
    now apply eq_sym, no_insert_part in H.
  - destruct (is_void (ty_of E q)); [destruct H|]. apply insert_builder in H as [H|[]]. discriminate.
  - destruct (is_void (ty_of E q)); [destruct H|]. apply insert_builder in H as [H|[]]. discriminate.
  - destruct (is_void (ty_of E q)); [destruct H|]. apply insert_builder, insert_insert in H as [H H']. split; [exact H' | now apply ty_of_some].
  - destruct (is_void (ty_of E q)); [destruct H|]. apply insert_builder, insert_insert in H as [H H']. split; [exact H' | now apply ty_of_some].
  - apply in_app_or in H as [H|H].
    + apply insert_builder, in_app_or in H as [H|H]; apply insert_insert in H as [H H']; (split; [exact H'|]); [left|right]; now apply ty_of_some.
    + destruct H as [H|[H|[H|[]]]]; [|discriminate..]. now apply eq_sym, no_insert_init in H.
  - destruct H.
  - destruct H as [H|[]]. now apply eq_sym, no_insert_init in H.
  - destruct H as [H|[]]. now apply eq_sym, no_insert_init in H.
  - destruct H as [H|H]; [now apply eq_sym, no_insert_init in H | now apply no_insert_fn in H].
  - destruct H as [H|H]; [now apply eq_sym, no_insert_init in H | now apply no_insert_fn in H].
  - destruct H.
  - destruct H.
Qed.

(** Vectors grow only in the [parse] of a repetition or a delimit that is itself called (not in
    those that are only looked at or that a specialization of join replaces). *)
Theorem C69_inserts n m p i t : In (Insert t) (fst (orun E C n m p i)) ->
  m = Parse /\ exists q, called E p q /\ repeats E q t.
Proof.
  intros H. destruct (C68_named E K n m p i _ H) as (-> & q & Hq & Hn); [discriminate|].
  split; [reflexivity|]. exists q. split; [exact Hq | now apply needs_insert].
Qed.

Lemma massign_types : (forall k, c_move (K k) = true /\ c_massign (K k) = true) ->
  forall t, t_move (ops_of K t) = true /\ t_massign (ops_of K t) = true.
Proof.
  intros H. assert (A : forall (f : ops -> bool) ts, Forall (fun t => f (ops_of K t) = true) ts -> forallb f (map (ops_of K) ts) = true).
  { intros f ts F. rewrite forallb_forall. intros o Ho. apply in_map_iff in Ho as (t & <- & Ht). rewrite Forall_forall in F. auto. }
  induction t using ty_ind'; cbn [ops_of].
  - split; reflexivity.
  - split; reflexivity.
  - split; reflexivity.
  - destruct IHt as (H2 & H3). cbn. rewrite H2, H3. split; reflexivity.
  - destruct IHt as (H2 & H3). cbn. rewrite H2, H3. split; reflexivity.
  - unfold prod_ops. cbn [t_move t_massign].
    rewrite (A t_move), (A t_massign) by (eapply Forall_impl; [|eassumption]; cbn; intros; tauto). split; reflexivity.
  - unfold var_ops. cbn [t_move t_massign].
    rewrite (A t_move), (A t_massign) by (eapply Forall_impl; [|eassumption]; cbn; intros; tauto). split; reflexivity.
  - destruct IHt1 as (H2 & H3), IHt2 as (G2 & G3).
    cbn. rewrite H2, H3, G2, G3. split; reflexivity.
  - cbn. apply H.
Qed.

(** If no repetition of values is called, classes can be moved, and no function returns a
    constant, then no run performs an operation that may allocate. *)
Theorem C69_no_allocation n m p i u :
  (forall k, c_move (K k) = true /\ c_massign (K k) = true) ->
  (forall q t, called E p q -> ~ repeats E q t) ->
  (forall q f k, reach E p q -> function_of q = Some f -> innermost f <> FConstant k) ->
  In u (fst (orun E C n m p i)) -> ~ allocates u.
Proof.
  intros HK Hr Hk Hu Ha. pose proof (massign_types HK) as M. destruct u as [t|t|t|t|t|t| | | |]; try contradiction.
  - destruct (C69_inserts n m p i t Hu) as (_ & q & Hq & Ht). now apply (Hr q t).
  - destruct (C59_copies E C n m p i t) as [HC _]. destruct (HC Hu) as [F|(q & f & k & H1 & H2 & H3 & _)]; [|now apply (Hk q f k)].
    cbn in F. destruct (M t) as [M1 _]. congruence.
  - destruct (C59_copies E C n m p i t) as [_ HC]. specialize (HC Hu). cbn in HC. destruct (M t) as [_ M2]. congruence.
Qed.

(** A repetition that delivers a non-empty vector has put its values there one by one. *)
Theorem C69_repetition_inserts n p q i t vs rem tr : p = PZeroOrMore q \/ p = POneOrMore q ->
  result_for E q = Some t -> t <> TVoid ->
  run E (S n) Parse p i = Done (Res (Some (RVal (VVec vs))) rem) tr ->
  List.length vs <= count_occ (fun a b : bool => Bool.bool_dec a b)
    (map (fun u => match u with Insert t' => ty_eqb t' t | _ => false end) (fst (orun E C (S n) Parse p i))) true.
Proof.
  intros Hp Ht Hv H. destruct (C59_repetition_uses E C n p q i t vs rem tr Hp Ht Hv H) as (l & Hl & ->).
  cbn [map]. rewrite map_app, count_occ_cons_neq by discriminate. rewrite count_occ_app.
  assert (G : List.length vs <= count_occ (fun a b : bool => Bool.bool_dec a b)
    (map (fun u => match u with Insert t' => ty_eqb t' t | _ => false end) l) true); [|lia].
  clear H. induction Hl; cbn; [lia|]. rewrite map_app, count_occ_app. cbn [map]. rewrite ty_eqb_refl, count_occ_cons_eq by reflexivity. lia.
Qed.

(** ** Joins *)

Lemma sized_bind {A} (x : outcome A) (f : A -> outcome presult) :
  (forall a v rem tr, f a = Done (Res (Some v) rem) tr -> exists s, v = RVal s) ->
  forall v rem tr, bind x f = Done (Res (Some v) rem) tr -> exists s, v = RVal s.
Proof.
  intros H v rem tr. destruct x as [a tr0| | | |]; cbn; try discriminate.
  destruct (f a) as [r tr1| | | |] eqn:G; try discriminate. intros [= -> _]. eauto.
Qed.

(** The specializations of join make one span and nothing else. *)
Theorem C69_lean_join n q i : lean q ->
  fst (orun E C (S n) Parse (PJoin q) i) =
  match run E (S n) Parse (PJoin q) i with Done (Res (Some _) _) _ => [init C TSpan] | _ => [] end.
Proof.
  intros Hq. assert (H : exists f, join_special E q n = Some f /\
    forall v rem tr, f Parse i = Done (Res (Some v) rem) tr -> exists s, v = RVal s).
  { destruct q as [| | | | | | |q|q k|q|q| | | | | | | |]; try contradiction; try (destruct Hq as [Hk Hq]);
      destruct q; try contradiction; cbn [join_special as_basic]; try (apply Nat.eqb_neq in Hk; rewrite Hk);
      (eexists; split; [reflexivity|]); intros v rem tr.
    all: revert v rem tr; unfold jm_parse, jx_parse, jo_parse, jz_parse.
    all: repeat (apply sized_bind; intros ?; repeat match goal with
      | |- forall v rem tr, (if ?x then _ else _) = _ -> _ => destruct x
      | |- forall v rem tr, (match ?x with _ => _ end) = _ -> _ => destruct x
      end).
    all: intros v rem tr; try discriminate; intros [= <- _ _]; eauto. }
  destruct H as (f & Hf & Hs). cbn [orun ostep run step]. rewrite Hf. unfold ojoin_special, obind, lift. cbn [fst snd].
  destruct (f Parse i) as [[[v|] rem] tr| | | |] eqn:G; cbn; auto.
  destruct (Hs v rem tr eq_refl) as [s ->]. reflexivity.
Qed.

(** What does not call [parse] of its parts: ignore, the specializations of join, and sequences
    and choices for their parts without a value. *)
Theorem C69_not_called p q : called E p q -> p <> q ->
  match p with
  | PIgnore _ => False
  | PJoin r => ~ lean r
  | PSequence r rs | PChoice r rs => exists s, In s (r :: rs) /\ result_for E s <> Some TVoid /\ called E s q
  | _ => True
  end.
Proof.
  intros H Hn. inversion H as [|? s ? Hs Hq]; subst; [congruence|]. destruct p; auto.
  - cbn [called_parts parsed_parts] in Hs. destruct (result_fors E (p :: ps)) as [tys|] eqn:R; [|destruct Hs].
    exists s. split; [eapply indexed_in; eauto|]. split; [|exact Hq].
    unfold indexed in Hs. apply in_map_iff in Hs as ([x [k|]] & <- & Hs); apply filter_In in Hs as [Hs Hk]; [|discriminate].
    apply In_nth_error in Hs as (j & Hj). rewrite filter_out_void_deduplicate_spec in Hj.
    apply nth_error_combine in Hj as [H1 H2].
    destruct (result_fors_nth E _ _ _ _ R H1) as (t & Ht & Hr). cbn [fst]. rewrite Hr. intros [= ->].
    cbn [snd] in H2. eapply dedup_from_some_nonvoid in H2; eauto.
  - cbn [called_parts parsed_parts] in Hs. destruct (result_fors E (p :: ps)) as [tys|] eqn:R; [|destruct Hs].
    exists s. split; [eapply indexed_in; eauto|]. split; [|exact Hq].
    unfold indexed in Hs. apply in_map_iff in Hs as ([x [k|]] & <- & Hs); apply filter_In in Hs as [Hs Hk]; [|discriminate].
    apply In_nth_error in Hs as (j & Hj). rewrite filter_out_void_spec in Hj.
    apply nth_error_combine in Hj as [H1 H2].
    destruct (result_fors_nth E _ _ _ _ R H1) as (t & Ht & Hr). cbn [fst snd] in *. rewrite Hr. intros [= ->].
    clear - Ht H2. revert j H2 Ht. generalize 0. induction tys as [|a tys IH]; intros n [|j] H2 Ht; try discriminate.
    + injection Ht as ->. discriminate.
    + cbn in H2, Ht. destruct (is_void a); cbn in H2; eauto.
  - intros Hl. cbn [called_parts] in Hs. destruct p as [| | | | | | |r|r k|r|r| | | | | | | |]; try contradiction; try (destruct Hl as [Hk Hl]);
      destruct r; try contradiction; cbn [join_special as_basic] in Hs; try (apply Nat.eqb_neq in Hk; rewrite Hk in Hs); destruct Hs.
Qed.

(** ** Values *)

Lemma existsb_false {A} (f : A -> bool) l : existsb f l = false <-> Forall (fun x => f x = false) l.
Proof.
  induction l as [|a l IH]; cbn; [split; auto|]. rewrite orb_false_iff, IH. split.
  - intros [H1 H2]. auto.
  - intros H. inversion H; auto.
Qed.

(** a value of a type without vectors owns none *)
Lemma not_owning t : forall v, has_ty t v -> vectorial t = false -> owning v = false.
Proof.
  induction t using ty_ind'; intros v Hv Ht.
  - destruct Hv.
  - destruct v; try destruct Hv. reflexivity.
  - discriminate.
  - destruct v; try destruct Hv. cbn [owning]. apply existsb_false. apply Forall_forall.
    match goal with F : Forall _ l |- _ => rewrite Forall_forall in F end. intros x Hx. apply IHt; auto.
  - destruct v as [| | |[v|]| | | | |]; try (now destruct Hv). cbn. apply IHt; auto.
  - destruct v; try (now destruct Hv). apply has_ty_tup in Hv. cbn [vectorial owning] in *. apply existsb_false.
    induction Hv as [|t v ts l Hx Hl IH]; constructor.
    + cbn in Ht. apply orb_false_iff in Ht. inversion H; subst. tauto || (apply H2; tauto).
    + cbn in Ht. apply orb_false_iff in Ht. inversion H; subst. apply IH; tauto.
  - destruct v; try (now destruct Hv). apply has_ty_var in Hv as (t & Hn & Hv). cbn in *. rewrite existsb_false in Ht.
    rewrite Forall_forall in *. apply nth_error_In in Hn. eapply H; eauto.
  - destruct v; try (now destruct Hv). cbn in *. apply orb_false_iff in Ht. destruct Hv.
    rewrite IHt1, IHt2; tauto.
  - destruct v; try (now destruct Hv).
Qed.

Lemma vectorial_compound F ts : (F = TVar \/ F = TTup) -> vectorial (compound_result F ts) = existsb vectorial ts.
Proof.
  intros HF. destruct ts as [|t [|t' ts]]; cbn [compound_result]; [reflexivity | cbn; now rewrite orb_false_r |].
  destruct HF as [-> | ->]; reflexivity.
Qed.

Lemma existsb_same {A} (f : A -> bool) l l' : (forall x, f x = true -> (In x l <-> In x l')) -> existsb f l = existsb f l'.
Proof.
  intros H. apply eq_true_iff_eq. rewrite !existsb_exists. split; intros (x & H1 & H2); exists x; split; auto; now apply H.
Qed.

Lemma vectorial_parts (qs : list (parser T)) tys : Forall (fun q => forall t, result_for E q = Some t -> vectorial t = hands_out E q) qs ->
  result_fors E qs = Some tys -> existsb vectorial tys = existsb (hands_out E) qs.
Proof.
  intros F. rewrite result_fors_spec. revert tys. induction F as [|q qs Hq Hqs IH]; intros [|t tys] H; try discriminate; [reflexivity|].
  cbn in *. injection H as H1 H2. rewrite (Hq t H1), (IH tys H2). reflexivity.
Qed.

(** Whether the type of a parser's value has a vector in it can be read off its shape. *)
Theorem C69_vector_types p t : result_for E p = Some t -> vectorial t = hands_out E p.
Proof.
  revert t. induction p using parser_ind'; intros t Ht.
  1, 2, 3, 4, 5: injection Ht as <-; reflexivity.
  - rewrite result_for_choice in Ht. destruct (result_fors E (p :: qs)) as [tys|] eqn:R; [|discriminate]. injection Ht as <-.
    rewrite vectorial_compound by auto. rewrite filter_out_void_deduplicate_spec. cbn [fst].
    rewrite (existsb_same vectorial _ tys); [apply (vectorial_parts (p :: qs)); auto|].
    intros x Hx. rewrite distinct_from_in. split; [tauto|]. intros Hi. repeat split; auto. intros ->. discriminate.
  - rewrite result_for_seq in Ht. destruct (result_fors E (p :: qs)) as [tys|] eqn:R; [|discriminate]. injection Ht as <-.
    rewrite vectorial_compound by auto. rewrite filter_out_void_spec. cbn [fst]. unfold nonvoid.
    rewrite (existsb_same vectorial _ tys); [apply (vectorial_parts (p :: qs)); auto|].
    intros x Hx. rewrite filter_In. destruct x; cbn; tauto || discriminate.
  - cbn in *. destruct (result_for E p) as [t'|]; [|discriminate]. injection Ht as <-. specialize (IHp t' eq_refl).
    destruct t'; exact IHp.
  - cbn in *. destruct (result_for E p) as [t'|]; [|discriminate]. injection Ht as <-. specialize (IHp t' eq_refl).
    destruct t'; exact IHp.
  - cbn in *. destruct (result_for E p) as [[]|]; try discriminate; injection Ht as <-; reflexivity.
  - cbn in *. destruct (result_for E p) as [[]|]; try discriminate; injection Ht as <-; reflexivity.
  - cbn in *. destruct (result_for E p1) as [[]|]; try discriminate; destruct (result_for E p2) as [[]|]; try discriminate; injection Ht as <-; reflexivity.
  - injection Ht as <-; reflexivity.
  - cbn in *. auto.
  - injection Ht as <-; reflexivity.
  - cbn [hands_out]. rewrite Ht. reflexivity.
  - cbn in *. destruct (result_for E p) as [t'|]; [|discriminate]. destruct (fn_ty E f (arg_tys t')) as [b|]; [|discriminate].
    destruct (bool_ok E b); [|discriminate]. injection Ht as <-. auto.
  - cbn in *. auto.
  - cbn in *. congruence.
Qed.

(** So a parser that does not hand out vectors delivers values that own no memory, whatever its
    parts do on the way (the README's constexpr variables). *)
Theorem C69_values p i v rem tr :
  valid E i -> compiles E Parse p = true -> env_typed E -> env_customs E -> hands_out E p = false ->
  evals E Parse p i (Done (Res (Some (RVal v)) rem) tr) -> owning v = false.
Proof.
  intros Hv Hc HT HC Hh H. destruct (C34_value_has_the_advertised_type E p i (RVal v) rem tr Hv Hc HT HC H) as (t & Ht & Hty).
  apply rv_has_ty_val in Hty. eapply not_owning; [exact Hty|]. now rewrite (C69_vector_types p t Ht).
Qed.
End C69.

(** That a value owns nothing does not mean that nothing was allocated for it: the general join
    collects the parts in a vector and drops it. *)
Definition signed_digits : parser nat := POneOrMore (PChoice (PAnyOf (codes "0123456789")) [PIgnore (PAllOf (codes "-"))]).
Theorem C69_transient_refuted : exists (p : parser nat) (K : nat -> cls) i v rem tr n u,
  hands_out sx p = false /\ valid sx i /\ run sx n Parse p i = Done (Res (Some (RVal v)) rem) tr /\
  In u (fst (orun sx (traits_of K) n Parse p i)) /\ u = Insert TSpan.
Proof.
  exists (PJoin signed_digits), (only true true true), (at1 7), (VSpan (Span 1 7 2)), (at1 9), [], 9, (Insert TSpan).
  split; [reflexivity|]. split; [apply at1_valid; lia|]. split; [vm_compute; reflexivity|]. split; [vm_compute; tauto | reflexivity].
Qed.

(** ** Cases *)

(** digits joined by the specialization, an ignored repetition, an optional *)
Definition quiet : parser nat :=
  PSequence (PJoin digits) [PIgnore (PZeroOrMore (PAnyOf (codes "!,"))); PMaybe (PJoin digits)].

Example C69_case_quiet : (forall k, c_move (only true true true k) = true /\ c_massign (only true true true k) = true) /\
  (forall q t, called sx quiet q -> ~ repeats sx q t) /\
  (forall q f k, reach sx quiet q -> function_of q = Some f -> innermost f <> FConstant k) /\
  hands_out sx quiet = false /\ lean digits /\ compiles sx Parse quiet = true /\
  evals sx Parse quiet (at1 7) (Done (Res (Some (RVal (VTup [VSpan (Span 1 7 2); VOpt (Some (VSpan (Span 1 10 3)))]))) (at1 13)) []) /\
  fst (orun sx (traits_of (only true true true)) 9 Parse quiet (at1 7)) =
    [Default (TTup [TSpan; TOpt TSpan]); Move TSpan; MoveAssign TSpan;
     Default (TOpt TSpan); Move TSpan; Move TSpan; Move (TOpt TSpan); MoveAssign (TOpt TSpan);
     Move (TTup [TSpan; TOpt TSpan])].
Proof.
  split; [intros k; unfold only; destruct (k =? 2); split; reflexivity|].
  split.
  { intros q t Hq [_ Hr]. repeat (inversion Hq as [|? b ? I0 H0]; subst; clear Hq; [exact Hr|];
      repeat (destruct I0 as [<-|I0]); try destruct I0; rename H0 into Hq). }
  split.
  { intros q f k Hq Hf. exfalso. repeat (inversion Hq as [|? b ? I0 H0]; subst; clear Hq; [discriminate Hf|];
      repeat (destruct I0 as [<-|I0]); try destruct I0; rename H0 into Hq). }
  split; [reflexivity|]. split; [exact Logic.I|]. split; [reflexivity|]. split; [runs 20 | reflexivity].
Qed.

Example C69_case_not_called : called sx quiet (PJoin digits) /\ quiet <> PJoin digits /\ lean digits /\
  ~ called sx quiet digits /\ ~ called sx quiet (PZeroOrMore (PAnyOf (codes "!,"))).
Proof.
  split; [eapply called_part; [now left | constructor]|]. split; [discriminate|]. split; [exact Logic.I|].
  split; intros Hq; repeat (inversion Hq as [|? b ? I0 H0]; subst; clear Hq;
      repeat (destruct I0 as [<-|I0]); try destruct I0; rename H0 into Hq).
Qed.

(** a repetition of joins: one insertion for each of two parts *)
Definition counted : parser nat := PZeroOrMore (PSequence (PJoin digits) [PIgnore (PAnyOf (codes ",;"))]).
Example C69_case_insert : result_for sx counted = Some (TVec TSpan) /\ hands_out sx counted = true /\
  called sx counted counted /\ repeats sx counted TSpan /\
  run sx 9 Parse counted (at1 7) = Done (Res (Some (RVal (VVec [VSpan (Span 1 7 2); VSpan (Span 1 10 3)]))) (at1 14)) [] /\
  In (Insert TSpan) (fst (orun sx (traits_of (only true true true)) 9 Parse counted (at1 7))).
Proof.
  split; [reflexivity|]. split; [reflexivity|]. split; [constructor|]. split; [split; [discriminate | reflexivity]|].
  split; [reflexivity|]. vm_compute; tauto.
Qed.

Print Assumptions C69_inserts.
Print Assumptions C69_no_allocation.
Print Assumptions C69_repetition_inserts.
Print Assumptions C69_lean_join.
Print Assumptions C69_not_called.
Print Assumptions C69_vector_types.
Print Assumptions C69_values.
Print Assumptions C69_transient_refuted.
