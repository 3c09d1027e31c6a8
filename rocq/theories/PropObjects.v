(** * Property C59: no object is used after it has been moved from; what is copied and what is
    default-constructed *)
From Coq Require Import String List Arith ZArith Bool Lia.
From Verif Require Import Types Compound Parser Outcome CompoundFacts Exec Mono Derive Typing Join Leaves Sound
  Objects ObjectFacts ObjectLog Samples.
Import ListNotations.

(** Specification: the function at the bottom of [apply_function]s *)
Fixpoint innermost (f : func) : func := match f with FApply g => innermost g | f => f end.

(** Specification: containers that are created empty, without any element *)
Definition empty_container (t : ty) : Prop :=
  match t with
  | TOpt _ | TVec _ => True
  | TPair (TVec _) (TVec _) => True
  | _ => False
  end.

Definition sized {T} (p : parser T) : Prop :=
  match p with PSequence _ _ | PChoice _ _ | PExactly _ _ => True | _ => False end.

Section C59.
Context {T V : Type} (E : env T V) (C : traits).

(** The calls on objects return what the calls on values return, in an object from which
    nothing has been moved. *)
Theorem C59_same n m p i : snd (orun E C n m p i) =
  match run E n m p i with
  | Done q tr => Done (RObj (option_map Holds (r_ok q)) (r_rem q)) tr
  | UB => UB | Exn e => Exn e | OOF => OOF | Ill => Ill
  end.
Proof.
  destruct (sim_run E C n m p i) as [_ H].
  destruct (snd (orun E C n m p i)), (run E n m p i); cbn in H; try tauto; [|congruence].
  destruct H as [-> ->]. reflexivity.
Qed.

(** No call, finished or not, uses a value that has been moved away, or dereferences a result
    without a value. *)
Theorem C59_no_use_after_move n m p i :
  ~ In Stale (fst (orun E C n m p i)) /\ ~ In NoValue (fst (orun E C n m p i)).
Proof.
  destruct (sim_run E C n m p i) as [L _]. rewrite Forall_forall in L.
  split; intros H; destruct (L _ H); congruence.
Qed.

(** Lookahead makes, moves and shows nothing. *)
Theorem C59_lookahead n p i : fst (orun E C n Look p i) = [].
Proof.
  destruct (look_silent E C n p i) as [L _]. destruct (fst (orun E C n Look p i)); [reflexivity|].
  inversion L as [|? ? F]. destruct F.
Qed.

(** Values are copied only if their type cannot be moved, or to return the constant of
    [constant<value>]. *)
Theorem C59_copies n m p i t :
  (In (Copy t) (fst (orun E C n m p i)) ->
     from_rvalue C t = false \/
     exists q f k, reach E p q /\ function_of q = Some f /\ innermost f = FConstant k /\ k_ty E k = t) /\
  (In (CopyAssign t) (fst (orun E C n m p i)) -> move_assignable C t = false).
Proof.
  set (Q := fun u => match u with
    | Copy t => from_rvalue C t = false \/
        exists q f k, reach E p q /\ function_of q = Some f /\ innermost f = FConstant k /\ k_ty E k = t
    | CopyAssign t => move_assignable C t = false
    | _ => True end).
  assert (HQ : tolerant C Q).
  { constructor; cbn; auto. intros t'. unfold init. destruct (from_rvalue C t') eqn:F; cbn; auto. }
  destruct (ok_run E C Q HQ n m p i) as [L _].
  - intros q Hq. split; [cbn; auto|]. intros f Hf.
    assert (G : forall g, innermost g = innermost f -> Forall Q (fn_uses E g)).
    { induction g; cbn; intros Hg; auto; apply Forall_cons; auto; try exact Logic.I. right. exists q, f, k. auto. }
    now apply G.
  - rewrite Forall_forall in L. split; intros H; exact (L _ H).
Qed.

(** Apart from empty containers, only the value of a sequence, a choice or an exactly, and of
    [defaulted<T>], is created by default. *)
Theorem C59_defaults n m p i t : In (Default t) (fst (orun E C n m p i)) ->
  empty_container t \/
  (exists q, reach E p q /\ sized q /\ result_for E q = Some t) \/
  (exists q f, reach E p q /\ function_of q = Some f /\ innermost f = FDefault t).
Proof.
  set (Q := fun u => match u with
    | Default t => empty_container t \/
        (exists q, reach E p q /\ sized q /\ result_for E q = Some t) \/
        (exists q f, reach E p q /\ function_of q = Some f /\ innermost f = FDefault t)
    | _ => True end).
  assert (HQ : tolerant C Q).
  { constructor; cbn; auto. intros t'. unfold init. destruct (from_rvalue C t') eqn:F; cbn; auto. }
  destruct (ok_run E C Q HQ n m p i) as [L _].
  - intros q Hq. split.
    + intros t' Hb Hr Hv. cbn. destruct q; try discriminate; cbn in Hr; try (right; left; eexists; split; [exact Hq|]; split; [exact Logic.I | exact Hr]).
      * destruct (result_for E q) as [u|]; [|discriminate]. injection Hr as <-. destruct (is_void u); [congruence | left; exact Logic.I].
      * destruct (result_for E q) as [u|]; [|discriminate]. injection Hr as <-. destruct (is_void u); [congruence | left; exact Logic.I].
      * destruct (result_for E q) as [u|]; [|discriminate]. injection Hr as <-. destruct (is_void u); [congruence | left; exact Logic.I].
      * destruct (result_for E q1) as [u|]; [|discriminate]. destruct (result_for E q2) as [w|]; [|discriminate].
        injection Hr as <-. destruct (is_void u), (is_void w); try congruence; left; exact Logic.I.
    + intros f Hf. assert (G : forall g, innermost g = innermost f -> Forall Q (fn_uses E g)).
      { induction g; cbn; intros Hg; auto; apply Forall_cons; auto; try exact Logic.I. right. right. exists q, f. auto. }
      now apply G.
  - rewrite Forall_forall in L. intros H. exact (L _ H).
Qed.

(** A class without default constructor can be the value of any parser built without
    sequences, choices, exactly and [defaulted]: no object of it is ever created by default. *)
Corollary C59_no_default_needed n m p i k :
  (forall q, reach E p q -> ~ sized q /\ forall f t, function_of q = Some f -> innermost f <> FDefault t) ->
  ~ In (Default (TUser k)) (fst (orun E C n m p i)).
Proof.
  intros H HD. apply C59_defaults in HD as [[]|[(q & Hq & Hs & _)|(q & f & Hq & Hf & Hi)]].
  - now apply (H q Hq).
  - now apply (proj2 (H q Hq) f (TUser k)).
Qed.

(** A sequence and an exactly create the whole of their value before they call anything. *)
Theorem C59_default_first n q i t : result_for E q = Some t -> t <> TVoid ->
  match q with PSequence _ _ => True | PExactly _ k => k <> 0 | _ => False end ->
  exists l, fst (orun E C (S n) Parse q i) = Default t :: l.
Proof.
  intros Hr Hv Hq. cbn [orun]. destruct q; try contradiction; cbn [ostep].
  - rewrite result_for_seq in Hr. unfold osequence_parse. destruct (result_fors E (q :: ps)) as [tys|]; [|discriminate].
    injection Hr as Hr. rewrite Hr. unfold obuilder. destruct t; try congruence; cbn; eauto.
  - apply Nat.eqb_neq in Hq. rewrite Hq. cbn in Hr. destruct (result_for E q) as [u|]; [|discriminate].
    injection Hr as Hr. unfold oexactly_parse. destruct (is_void u); [congruence|]. subst t. cbn. eauto.
Qed.
(** Specification: how [result] takes over a value of type [t] *)
Definition taken_over (t : ty) : use := if from_rvalue C t then Move t else Copy t.

(** A value can be moved out of a result, or built from a builder, once: a second attempt is
    recorded as an error. *)
Theorem C59_move_spends r v r' l tr : take r = (l, Done (v, r') tr) ->
  fst (deref r') = [Stale] /\ fst (take r') = [Stale] /\ engaged r' = true /\ o_rem r' = o_rem r.
Proof.
  unfold take, deref, obind. destruct (o_val r) as [[w|]|]; cbn; intros [= <- <- <- <-]. auto.
Qed.

Theorem C59_build_spends t b i r b' l tr : obuild C t b i = (l, Done (r, b') tr) ->
  forall i', fst (obuild C t b' i') = [Stale].
Proof.
  unfold obuild, omake, obind. destruct b as [[|v]|]; cbn; intros [= <- <- <- <-]; reflexivity.
Qed.

Lemma value_run n q i v rem tr : run E n Parse q i = Done (Res (Some v) rem) tr ->
  orun E C n Parse q i = (fst (orun E C n Parse q i), Done (RObj (Some (Holds v)) rem) tr).
Proof.
  intros H. pose proof (C59_same n Parse q i) as S. rewrite H in S. cbn in S.
  rewrite <- S. apply surjective_pairing.
Qed.

Lemma no_value_run n q i rem tr : run E n Parse q i = Done (Res None rem) tr ->
  orun E C n Parse q i = (fst (orun E C n Parse q i), Done (RObj None rem) tr).
Proof.
  intros H. pose proof (C59_same n Parse q i) as S. rewrite H in S. cbn in S.
  rewrite <- S. apply surjective_pairing.
Qed.

(** map gives its part's value away, once, as an rvalue, and takes over what comes back. *)
Theorem C59_map_uses n q f i t v rem tr w tr' : result_for E (PMap q f) = Some t ->
  run E n Parse q i = Done (Res (Some (RVal v)) rem) tr -> call E f [v] = Done w tr' ->
  fst (orun E C (S n) Parse (PMap q f) i) =
    fst (orun E C n Parse q i) ++ Hand :: fn_uses E f ++
    match w with RVoid => [] | RVal _ => [taken_over t] end.
Proof.
  intros Ht H Hc. apply value_run in H. cbn [orun ostep]. rewrite Ht. unfold omap_parse. rewrite H.
  unfold obind, oinvoke_move, take, deref, ocall, omake, obind. cbn. rewrite Hc. cbn.
  destruct w; cbn; now rewrite <- ?app_assoc.
Qed.

(** filter shows it, and takes it over only if the predicate agrees. *)
Theorem C59_filter_uses n q f i t v rem tr c tr' : result_for E (PFilter q f) = Some t ->
  run E n Parse q i = Done (Res (Some (RVal v)) rem) tr -> call E f [v] = Done (RVal c) tr' ->
  fst (orun E C (S n) Parse (PFilter q f) i) =
    fst (orun E C n Parse q i) ++ Show :: fn_uses E f ++ (if as_bool E c then [taken_over t] else []).
Proof.
  intros Ht H Hc. apply value_run in H. cbn [orun ostep]. rewrite Ht. unfold ofilter_parse. rewrite H.
  unfold obind, oinvoke_const, deref, ocall, obind. cbn. rewrite Hc. cbn.
  destruct (as_bool E c); cbn; now rewrite <- ?app_assoc.
Qed.

(** maybe moves it into its optional, which is taken over; nothing is moved without a value. *)
Theorem C59_maybe_uses n q i t o rem tr : result_for E q = Some t -> t <> TVoid ->
  run E n Parse q i = Done (Res (option_map RVal o) rem) tr ->
  fst (orun E C (S n) Parse (PMaybe q) i) =
    Default (TOpt t) :: fst (orun E C n Parse q i) ++
    match o with Some _ => [Move t] | None => [] end ++ [taken_over (TOpt t)].
Proof.
  intros Ht Hv H. cbn [orun ostep]. rewrite Ht. unfold omaybe_parse.
  assert (Z : is_void t = false) by (destruct t; try reflexivity; congruence). rewrite Z.
  destruct o as [v|]; cbn [option_map] in H; [apply value_run in H | apply no_value_run in H]; rewrite H;
    cbn; rewrite ?app_nil_r; reflexivity.
Qed.

(** Specification: the uses of [k] rounds of a repetition of [q] from [i] and of the attempt
    that ends it *)
Inductive turns (n : nat) (q : parser T) (t : ty) : nat -> span -> list use -> Prop :=
| turns_end i rem tr : run E n Parse q i = Done (Res None rem) tr ->
    turns n q t 0 i (fst (orun E C n Parse q i))
| turns_more i v rem tr k l : run E n Parse q i = Done (Res (Some (RVal v)) rem) tr -> turns n q t k rem l ->
    turns n q t (S k) i (fst (orun E C n Parse q i) ++ Insert t :: l).

Lemma rep_turns n q t : forall k i vs s i' b ok tr,
  snd (orep_loop t (orun E C n Parse q) k i (Holds (RVal (VVec vs))) s) = Done (i', b, ok) tr ->
  exists ws, b = Holds (RVal (VVec (vs ++ ws))) /\
    turns n q t (List.length ws) i (fst (orep_loop t (orun E C n Parse q) k i (Holds (RVal (VVec vs))) s)).
Proof.
  induction k as [|k IH]; intros i vs s i' b ok tr H; [discriminate|].
  cbn [orep_loop] in *. destruct (run E n Parse q i) as [[[v|] rem] tr0| | | |] eqn:R;
    [| | pose proof (C59_same n Parse q i) as S; rewrite R in S; cbn in S; cbn [obind snd] in H; rewrite S in H; discriminate ..].
  - pose proof (value_run _ _ _ _ _ _ R) as O. rewrite O in *.
    destruct v as [|u]; [discriminate H|].
    cbn in H. cbn [obind fst snd engaged o_val negb oput take deref oret say lift b_insert_back] in *. cbn in *.
    destruct (snd (orep_loop t (orun E C n Parse q) k rem (Holds (RVal (VVec (vs ++ [u])))) true)) as [[[x y] z] tr1| | | |] eqn:L;
      cbn in H; try discriminate.
    injection H as -> -> -> _.
    destruct (IH _ _ _ _ _ _ _ L) as (ws & -> & Tn). exists (u :: ws). split.
    + now rewrite <- app_assoc.
    + cbn [List.length]. econstructor; eauto.
  - pose proof (no_value_run _ _ _ _ _ R) as O. rewrite O in *. cbn in *. injection H as <- <- <- _.
    exists []. rewrite app_nil_r. split; [reflexivity|]. rewrite app_nil_r. econstructor; eauto.
Qed.

(** A repetition moves every element into its vector, once, and takes the vector over. *)
Theorem C59_repetition_uses n p q i t vs rem tr : p = PZeroOrMore q \/ p = POneOrMore q ->
  result_for E q = Some t -> t <> TVoid ->
  run E (S n) Parse p i = Done (Res (Some (RVal (VVec vs))) rem) tr ->
  exists l, turns n q t (List.length vs) i l /\
    fst (orun E C (S n) Parse p i) = Default (TVec t) :: l ++ [taken_over (TVec t)].
Proof.
  intros Hp Ht Hv H. apply value_run in H.
  assert (S : snd (orun E C (S n) Parse p i) = Done (RObj (Some (Holds (RVal (VVec vs)))) rem) tr) by (rewrite H; reflexivity).
  clear H. assert (Z : is_void t = false) by (destruct t; try reflexivity; congruence).
  destruct Hp as [-> | ->]; cbn [orun ostep] in *; rewrite Ht in *;
    unfold ozero_or_more_parse, oone_or_more_parse in *; rewrite Z in *; cbn in *;
    destruct (snd (orep_loop t (orun E C n Parse q) n i (Holds (RVal (VVec []))) false)) as [[[x y] z] tr1| | | |] eqn:L;
    cbn in S; try discriminate;
    destruct (rep_turns _ _ _ _ _ _ _ _ _ _ _ L) as (ws & -> & Tn); cbn [app] in *;
    try (destruct z; cbn in S; [|discriminate]); cbn in S; injection S as <- _ _;
    eexists; (split; [exact Tn|]); cbn; rewrite ?app_nil_r; reflexivity.
Qed.
End C59.

(** Callable 2 of the sample environment makes an object of class 1 from two pieces; below, such
    objects are put into a vector, which a sequence with an ignored part assigns to its value.
    The vector is given a type that cannot be move-assigned, so it is copied there. *)
Definition sx_traits : traits :=
  {| move_assignable := fun t => match t with TVec _ => false | _ => true end; from_rvalue := fun _ => true |}.
Definition sx_pair : parser nat :=
  PMap (PSequence (PAnyOf (codes "a1")) [PAnyOf (codes "a2")]) (FApply (FUser 2)).
Definition sx_objects : parser nat := PSequence (PZeroOrMore sx_pair) [PIgnore (PMaybe (PAnyOf (codes "b")))].

Example C59_case :
  run sx 20 Parse sx_objects (Span 3 0 4) =
    Done (Res (Some (RVal (VVec [VUser 1 [VSpan (Span 3 0 1); VSpan (Span 3 1 1)];
                                 VUser 1 [VSpan (Span 3 2 1); VSpan (Span 3 3 1)]]))) (Span 3 4 0))
      [EInvoke (FApply (FUser 2)) [VTup [VSpan (Span 3 0 1); VSpan (Span 3 1 1)]];
       EInvoke (FApply (FUser 2)) [VTup [VSpan (Span 3 2 1); VSpan (Span 3 3 1)]]] /\
  (let pair := [Default (TTup [TSpan; TSpan]);
                Move TSpan; MoveAssign TSpan; Move TSpan; MoveAssign TSpan; Move (TTup [TSpan; TSpan])] in
   fst (orun sx sx_traits 20 Parse sx_objects (Span 3 0 4)) =
     [Default (TVec (TUser 1)); Default (TVec (TUser 1))] ++
     pair ++ [Hand; Move (TUser 1); Insert (TUser 1)] ++
     pair ++ [Hand; Move (TUser 1); Insert (TUser 1)] ++
     [Default (TTup [TSpan; TSpan])] ++                   (* the third attempt *)
     [Move (TVec (TUser 1)); CopyAssign (TVec (TUser 1)); Move (TVec (TUser 1))]) /\
  (* the objects end up in the vector without ever having been created by default *)
  ~ In (Default (TUser 1)) (fst (orun sx sx_traits 20 Parse sx_objects (Span 3 0 4))).
Proof. split; [reflexivity|]. split; [reflexivity|].
  vm_compute. intros H. repeat (destruct H as [H|H]; [discriminate H|]). exact H.
Qed.

(** The same parser meets the hypotheses of [C59_map_uses] and [C59_repetition_uses]: two rounds
    and the attempt that ends them. *)
Example C59_case_uses :
  result_for sx sx_pair = Some (TUser 1) /\
  (exists tr, run sx 20 Parse (PZeroOrMore sx_pair) (Span 3 0 4) =
     Done (Res (Some (RVal (VVec [VUser 1 [VSpan (Span 3 0 1); VSpan (Span 3 1 1)];
                                  VUser 1 [VSpan (Span 3 2 1); VSpan (Span 3 3 1)]]))) (Span 3 4 0)) tr) /\
  count_occ Bool.bool_dec (map (fun u => match u with Hand => true | _ => false end)
    (fst (orun sx sx_traits 20 Parse (PZeroOrMore sx_pair) (Span 3 0 4)))) true = 2 /\
  fst (orun sx sx_traits 20 Parse (PMaybe (PAnyOf (codes "a"))) (Span 3 0 4)) =
    [Default (TOpt TSpan); Move TSpan; Move TSpan; Move (TOpt TSpan)] /\
  (* a filter that agrees and one that does not: one more move *)
  fst (orun sx sx_traits 20 Parse (PFilter (PAllOf (codes "aa")) (FUser 0)) (Span 3 0 4)) = [Move TSpan; Show; Move TSpan] /\
  fst (orun sx sx_traits 20 Parse (PFilter (PAllOf (codes "a")) (FUser 0)) (Span 3 0 4)) = [Move TSpan; Show].
Proof. split; [reflexivity|]. split; [eexists; reflexivity|]. repeat split; reflexivity. Qed.

(** A parser as in [C59_no_default_needed]: class 2 has no use for a default constructor. *)
Example C59_case_no_default : let p := PZeroOrMore (PMap (PAnyOf (codes "a")) (FConstruct (TUser 2))) in
  (forall q, reach sx p q -> ~ sized q /\ forall f t, function_of q = Some f -> innermost f <> FDefault t) /\
  fst (orun sx sx_traits 9 Parse p (Span 3 0 2)) =
    [Default (TVec (TUser 2)); Move TSpan; Hand; Move (TUser 2); Insert (TUser 2);
     Move TSpan; Hand; Move (TUser 2); Insert (TUser 2); Move (TVec (TUser 2))].
Proof.
  split; [|reflexivity]. intros q Hq.
  inversion Hq as [|? a ? I1 H1]; subst; [split; [auto | discriminate]|]. destruct I1 as [<-|[]].
  inversion H1 as [|? b ? I2 H2]; subst; [split; [auto | intros ? ? [= <-]; discriminate]|]. destruct I2 as [<-|[]].
  inversion H2 as [|? c ? I3 H3]; subst; [split; [auto | discriminate]|]. destruct I3.
Qed.

Print Assumptions C59_same.
Print Assumptions C59_no_use_after_move.
Print Assumptions C59_lookahead.
Print Assumptions C59_copies.
Print Assumptions C59_defaults.
Print Assumptions C59_no_default_needed.
Print Assumptions C59_default_first.
Print Assumptions C59_move_spends.
Print Assumptions C59_build_spends.
Print Assumptions C59_map_uses.
Print Assumptions C59_filter_uses.
Print Assumptions C59_maybe_uses.
Print Assumptions C59_repetition_uses.
