(** * Rules for bounding the number of calls (property C55)

    [sp n p i Q]: whenever a call of [p] on [i], by parse or lookahead, returns (using at most
    [n] units of fuel), then [Q] holds of what is left ([None]: it failed) and of the number
    of calls recorded. *)
From Coq Require Import String List Arith ZArith Bool Lia.
From Verif Require Import Types Compound Parser Outcome CompoundFacts Exec Mono Derive Typing Join Leaves Sound
  BigStep BigSound BigComplete Peg Throws Elems Runs Samples PropCore Lossless Agree PropPeg Check PropAgree Grammar Term PropTerm Cost.
Import ListNotations.
Local Open Scope outcome_scope.

Definition left_over (r : presult) : option span := match r_ok r with Some _ => Some (r_rem r) | None => None end.

(** The same for any computation *)
Definition when {A} (x : outcome A) (Q : A -> nat -> Prop) : Prop := match x with Done a tr => Q a (List.length tr) | _ => True end.

Lemma when_bind {A B} (x : outcome A) (f : A -> outcome B) Q :
  when x (fun a k => when (f a) (fun b k' => Q b (k + k'))) -> when (bind x f) Q.
Proof. destruct x; cbn; auto. destruct (f a); cbn; auto. now rewrite app_length. Qed.
Lemma when_impl {A} (x : outcome A) (Q Q' : A -> nat -> Prop) : when x Q -> (forall a k, Q a k -> Q' a k) -> when x Q'.
Proof. destruct x; cbn; auto. Qed.
Lemma when_free {A} (x : outcome A) (Q : A -> nat -> Prop) : costs x 0 -> (forall a tr, x = Done a tr -> Q a 0) -> when x Q.
Proof. destruct x; cbn; auto. intros H HQ. destruct tr; [eauto|cbn in H; lia]. Qed.
Lemma when_one {A} (x : outcome A) (Q : A -> nat -> Prop) : costs x 1 -> (forall a k, k <= 1 -> Q a k) -> when x Q.
Proof. destruct x; cbn; auto. Qed.

Section Rules.
Context {T V : Type} (E : env T V).
Implicit Types (p q d : parser T).

Definition sp (n : nat) p (i : span) (Q : option span -> nat -> Prop) : Prop :=
  forall n' m, n' <= n -> when (crun E n' m p i) (fun r k => Q (left_over r) k).

Lemma sp_le n n' p i (Q : option span -> nat -> Prop) : sp n p i Q -> n' <= n -> sp n' p i Q.
Proof. intros H Hn n0 m Hn0. apply H. lia. Qed.

Lemma sp_impl n p i (Q Q' : option span -> nat -> Prop) : sp n p i Q -> (forall o k, Q o k -> Q' o k) -> sp n p i Q'.
Proof. intros H HQ n' m Hn. eapply when_impl; [apply H; auto|]. intros a k. apply HQ. Qed.

Lemma sp_and n p i (Q Q' : option span -> nat -> Prop) : sp n p i Q -> sp n p i Q' -> sp n p i (fun o k => Q o k /\ Q' o k).
Proof. intros H H' n' m Hn. specialize (H n' m Hn). specialize (H' n' m Hn). destruct (crun E n' m p i); cbn in *; auto. Qed.

Lemma sp_suffix n p i : valid E i -> sp n p i (fun o _ => match o with Some j => suffix i j | None => True end).
Proof.
  intros Hv n' m _. destruct (crun E n' m p i) as [r tr| | | |] eqn:H; cbn; auto. apply crun_rem in H; auto. unfold left_over. destruct (r_ok r); auto.
Qed.

(** One level down *)
Lemma sp_step n p i (Q : option span -> nat -> Prop) : (forall n' k m, n' < n -> k < n -> when (step E (crun E n') k m p i) (fun r k => Q (left_over r) (S k))) -> sp n p i Q.
Proof.
  intros H n' m Hn. destruct n' as [|n']; [exact I|]. cbn [crun]. specialize (H n' n' m Hn Hn).
  destruct (step E (crun E n') n' m p i); cbn in *; auto.
Qed.

(** ** Elementary parsers *)
Lemma sp_elementary n q fc len i (Q : option span -> nat -> Prop) : elementary E q = Some (fc, len) -> valid E i ->
  Q None 1 -> (len <= sp_len i -> Q (Some (adv i len)) 1) -> sp n q i Q.
Proof.
  intros Hq Hv Hn Hs. apply sp_step. intros n' k m _ _.
  assert (Hx : when (match m with Parse => basic_parse fc len i | Look => basic_look fc len i end) (fun r k => Q (left_over r) (S k))).
  { apply when_free; [eapply c_basic; eauto|]. intros r tr. destruct m; unfold basic_parse, basic_look; destruct (fc i) as [[|]| | | |]; cbn; try discriminate.
    - now intros [= <- _].
    - unfold first, advance. destruct (Nat.leb_spec len (sp_len i)); cbn; [|discriminate]. intros [= <- _]. cbn. now apply Hs.
    - now intros [= <- _].
    - unfold first, advance. destruct (Nat.leb_spec len (sp_len i)); cbn; [|discriminate]. intros [= <- _]. cbn. now apply Hs. }
  destruct q; cbn in Hq; try discriminate; injection Hq as <- <-; exact Hx.
Qed.

Lemma front_elems i : front E i = match elems E i with c :: _ => if sp_len i =? 0 then UB else ret c | [] => UB end.
Proof.
  unfold front, read. destruct (Nat.eqb_spec (sp_len i) 0) as [H|H].
  - unfold elems. rewrite H. reflexivity.
  - rewrite <- (Nat.add_0_r (sp_off i)) at 1. rewrite <- elems_nth by lia. destruct (elems E i); reflexivity.
Qed.

(** with the element read *)
Lemma sp_any n arr i (Q : option span -> nat -> Prop) : valid E i ->
  (match elems E i with c :: _ => if contains E arr c then Q (Some (adv i 1)) 1 else Q None 1 | [] => Q None 1 end) -> sp n (PAnyOf arr) i Q.
Proof.
  intros Hv HQ. apply sp_step. intros n' k m _ _.
  assert (Hl := elems_length E i Hv). cbn [step].
  assert (Hf : any_of_fc E arr i = match elems E i with c :: _ => ret (negb (contains E arr c)) | [] => ret true end).
  { unfold any_of_fc. rewrite front_elems. destruct (elems E i) as [|c l]; cbn in Hl; destruct (Nat.eqb_spec (sp_len i) 0); try lia; reflexivity. }
  destruct (elems E i) as [|c l]; cbn in Hl.
  - destruct m; unfold basic_parse, basic_look; rewrite Hf; exact HQ.
  - destruct (contains E arr c); destruct m; unfold basic_parse, basic_look; rewrite Hf; cbn -[adv]; try exact HQ;
      unfold first, advance; (destruct (Nat.leb_spec 1 (sp_len i)); [|exact I]); exact HQ.
Qed.

Lemma sp_char n a i (Q : option span -> nat -> Prop) : valid E i ->
  (match elems E i with c :: _ => if eqv E a c then Q (Some (adv i 1)) 1 else Q None 1 | [] => Q None 1 end) -> sp n (PAllOf [a]) i Q.
Proof.
  intros Hv HQ. apply sp_step. intros n' k m _ _.
  assert (Hl := elems_length E i Hv). cbn [step List.length].
  assert (Hf : all_of_fc E [a] i = match elems E i with c :: _ => ret (negb (eqv E a c)) | [] => ret true end).
  { unfold all_of_fc. cbn [List.length]. destruct (elems E i) as [|c l] eqn:He; cbn in Hl.
    - destruct (Nat.ltb_spec (sp_len i) 1); [reflexivity|lia].
    - destruct (Nat.ltb_spec (sp_len i) 1); [lia|]. unfold first. destruct (Nat.leb_spec 1 (sp_len i)); [|lia]. cbn.
      unfold read. rewrite <- (Nat.add_0_r (sp_off i)) at 1. rewrite <- elems_nth by lia. rewrite He. cbn. destruct (eqv E a c); reflexivity. }
  destruct (elems E i) as [|c l]; cbn in Hl.
  - destruct m; unfold basic_parse, basic_look; rewrite Hf; exact HQ.
  - destruct (eqv E a c); destruct m; unfold basic_parse, basic_look; rewrite Hf; cbn -[adv]; try exact HQ;
      unfold first, advance; (destruct (Nat.leb_spec 1 (sp_len i)); [|exact I]); exact HQ.
Qed.

(** ** Sequences and choices *)
Fixpoint chain (n : nat) (ps : list (parser T)) (i : span) (Q : option span -> nat -> Prop) : Prop :=
  match ps with
  | [] => Q (Some i) 0
  | p :: ps' => sp n p i (fun o k => match o with None => Q None k | Some j => chain n ps' j (fun o k' => Q o (k + k')) end)
  end.
Fixpoint alts (n : nat) (ps : list (parser T)) (i : span) (Q : option span -> nat -> Prop) : Prop :=
  match ps with
  | [] => Q None 0
  | p :: ps' => sp n p i (fun o k => match o with Some j => Q (Some j) k | None => alts n ps' i (fun o k' => Q o (k + k')) end)
  end.

Lemma chain_le n n' ps : n' <= n -> forall i Q, chain n ps i Q -> chain n' ps i Q.
Proof.
  intros Hn. induction ps as [|p ps IH]; intros i Q H; auto. cbn [chain] in *. eapply sp_impl; [eapply sp_le; eauto|].
  intros [j|] k; cbn beta iota; auto.
Qed.
Lemma alts_le n n' ps : n' <= n -> forall i Q, alts n ps i Q -> alts n' ps i Q.
Proof.
  intros Hn. induction ps as [|p ps IH]; intros i Q H; auto. cbn [alts] in *. eapply sp_impl; [eapply sp_le; eauto|].
  intros [j|] k; cbn beta iota; auto.
Qed.

Lemma chain_impl n ps : forall i (Q Q' : option span -> nat -> Prop), chain n ps i Q -> (forall o k, Q o k -> Q' o k) -> chain n ps i Q'.
Proof.
  induction ps as [|p ps IH]; intros i Q Q' H HQ; cbn [chain] in *; auto. eapply sp_impl; [exact H|]. intros [j|] k Hj; [eapply IH; [exact Hj|]|]; auto.
Qed.
Lemma alts_impl n ps : forall i (Q Q' : option span -> nat -> Prop), alts n ps i Q -> (forall o k, Q o k -> Q' o k) -> alts n ps i Q'.
Proof.
  induction ps as [|p ps IH]; intros i Q Q' H HQ; cbn [alts] in *; auto. eapply sp_impl; [exact H|]. intros [j|] k Hj; [|eapply IH; [exact Hj|]]; auto.
Qed.

Lemma execute_when n n' ct u q idx i b (Q : option span -> nat -> Prop) : n' <= n -> valid E i -> sp n q i Q ->
  when (execute (crun E n') ct u q idx (i, b)) (fun x k => Q (if fst x then Some (fst (snd x)) else None) k /\ (fst x = false -> fst (snd x) = i)).
Proof.
  intros Hn Hv H. unfold execute. destruct idx as [k0|].
  - apply when_bind. specialize (H n' Parse Hn). destruct (crun E n' Parse q i) as [[[v|] rem] tr| | | |] eqn:Hr; cbn in *; auto.
    + apply when_bind. apply when_free; [apply c_store|]. intros b' tr' _. cbn. rewrite !Nat.add_0_r. split; [exact H|discriminate].
    + rewrite Nat.add_0_r. auto.
  - apply when_bind. specialize (H n' Look Hn). destruct (crun E n' Look q i) as [[[v|] rem] tr| | | |] eqn:Hr; cbn in *; auto; rewrite Nat.add_0_r.
    + split; [exact H|discriminate].
    + apply crun_rem in Hr; auto.
Qed.

Lemma and_when n n' u : n' <= n -> forall ps i b (Q : option span -> nat -> Prop), valid E i -> chain n (map fst ps) i Q ->
  when (exec_and (crun E n') u ps (i, b)) (fun x k => Q (if fst x then Some (fst (snd x)) else None) k).
Proof.
  intros Hn. induction ps as [|[q idx] ps IH]; intros i b Q Hv H; [exact H|]. cbn [exec_and map fst chain] in *.
  apply when_bind. eapply when_impl; [apply (execute_when n); [exact Hn|exact Hv|apply (sp_and _ _ _ _ _ H (sp_suffix n q i Hv))]|].
  intros [[|] [i' b']] k [[H1 H2] H3]; cbn in *.
  - apply (IH i' b' (fun o k' => Q o (k + k'))); eauto using suffix_valid.
  - now rewrite Nat.add_0_r.
Qed.

Lemma or_when n n' u : n' <= n -> forall ps i b (Q : option span -> nat -> Prop), valid E i -> alts n (map fst ps) i Q ->
  when (exec_or (crun E n') u ps (i, b)) (fun x k => Q (if fst x then Some (fst (snd x)) else None) k).
Proof.
  intros Hn. induction ps as [|[q idx] ps IH]; intros i b Q Hv H; [exact H|]. cbn [exec_or map fst alts] in *.
  apply when_bind. eapply when_impl; [apply (execute_when n); [exact Hn|exact Hv|exact H]|].
  intros [[|] [i' b']] k [H1 H3]; cbn in *.
  - now rewrite Nat.add_0_r.
  - rewrite H3 by auto. apply (IH i b' (fun o k' => Q o (k + k'))); auto.
Qed.

Lemma map_fst_combine {A B} (l : list A) : forall l' : list B, List.length l = List.length l' -> map fst (combine l l') = l.
Proof. induction l as [|a l IH]; intros [|x l'] H; cbn in *; try discriminate; auto. f_equal. apply IH. lia. Qed.

Lemma sp_seq n q qs i (Q : option span -> nat -> Prop) : valid E i -> chain n (q :: qs) i (fun o k => Q o (S k)) -> sp n (PSequence q qs) i Q.
Proof.
  intros Hv H. apply sp_step. intros n' k0 m Hn _. cbn [step]. unfold sequence_parse, sequence_look.
  destruct m; (destruct (result_fors E (q :: qs)) as [tys|] eqn:Ht; [|exact I]); apply when_bind.
  - eapply when_impl; [apply (and_when n n'); [lia|exact Hv|]|].
    + rewrite map_fst_combine; [exact H|]. rewrite filter_out_void_spec. cbn [snd]. rewrite seq_from_length. now apply result_fors_length in Ht.
    + intros [[|] [i' b']] k Hx; cbn in *; now rewrite Nat.add_0_r.
  - eapply when_impl; [apply (and_when n n'); [lia|exact Hv|]|].
    + rewrite map_map. cbn [fst]. rewrite map_id. exact H.
    + intros [[|] [i' b']] k Hx; cbn in *; now rewrite Nat.add_0_r.
Qed.

Lemma sp_choice n q qs i (Q : option span -> nat -> Prop) : valid E i -> alts n (q :: qs) i (fun o k => Q o (S k)) -> sp n (PChoice q qs) i Q.
Proof.
  intros Hv H. apply sp_step. intros n' k0 m Hn _. cbn [step]. unfold choice_parse, choice_look.
  destruct m; (destruct (result_fors E (q :: qs)) as [tys|] eqn:Ht; [|exact I]).
  - destruct (_ || _); [|exact I]. apply when_bind. eapply when_impl; [apply (or_when n n'); [lia|exact Hv|]|].
    + rewrite map_fst_combine; [exact H|]. rewrite len_dedup. now apply result_fors_length in Ht.
    + intros [[|] [i' b']] k Hx; cbn in *; now rewrite Nat.add_0_r.
  - apply when_bind. eapply when_impl; [apply (or_when n n'); [lia|exact Hv|]|].
    + rewrite map_map. cbn [fst]. rewrite map_id. exact H.
    + intros [[|] [i' b']] k Hx; cbn in *; now rewrite Nat.add_0_r.
Qed.

(** ** Adaptors *)
Lemma sp_ignore n q i (Q : option span -> nat -> Prop) : sp n q i (fun o k => Q o (S k)) -> sp n (PIgnore q) i Q.
Proof. intros H. apply sp_step. intros n' k m Hn _. cbn [step]. apply H. lia. Qed.

Lemma sp_maybe n q i (Q : option span -> nat -> Prop) : valid E i -> sp n q i (fun o k => match o with Some j => Q (Some j) (S k) | None => Q (Some i) (S k) end) -> sp n (PMaybe q) i Q.
Proof.
  intros Hv H. apply sp_step. intros n' k m Hn _. cbn [step]. destruct m; [destruct (result_for E q); [|exact I]|]; unfold maybe_parse, maybe_look; apply when_bind.
  - specialize (H n' Parse ltac:(lia)). destruct (crun E n' Parse q i) as [[[v|] rem] tr| | | |] eqn:Hr; cbn in *; auto.
    + apply when_bind, when_free; [apply c_opt|]. intros b' tr' _. cbn. now rewrite !Nat.add_0_r.
    + rewrite Nat.add_0_r. apply crun_rem in Hr; auto. cbn in Hr. now subst.
  - specialize (H n' Look ltac:(lia)). destruct (crun E n' Look q i) as [[[v|] rem] tr| | | |] eqn:Hr; cbn in *; auto; now rewrite !Nat.add_0_r.
Qed.

Lemma sp_map n q f i (Q : option span -> nat -> Prop) : sp n q i (fun o k => match o with Some j => Q (Some j) (S k) /\ Q (Some j) (S (S k)) | None => Q None (S k) end) -> sp n (PMap q f) i Q.
Proof.
  intros H. apply sp_step. intros n' k m Hn _. cbn [step]. destruct m.
  - destruct (result_for E (PMap q f)); [|exact I]. unfold map_parse. apply when_bind. specialize (H n' Parse ltac:(lia)).
    destruct (crun E n' Parse q i) as [[[v|] rem] tr| | | |] eqn:Hr; cbn in *; auto; [|now rewrite Nat.add_0_r].
    apply when_bind. apply when_one; [apply c_call|]. intros a k1 Hk. cbn. destruct H as [H0 H1]. assert (k1 = 0 \/ k1 = 1) as [->| ->] by lia.
    + now rewrite !Nat.add_0_r.
    + replace (S (List.length tr + (1 + 0))) with (S (S (List.length tr))) by lia. exact H1.
  - specialize (H n' Look ltac:(lia)). destruct (crun E n' Look q i) as [[[v|] rem] tr| | | |] eqn:Hr; cbn in *; auto. tauto.
Qed.

Lemma sp_complete n q i (Q : option span -> nat -> Prop) : sp n q i (fun o k => match o with Some j => Q (Some j) (S k) /\ Q None (S k) | None => Q None (S k) end) -> sp n (PComplete q) i Q.
Proof.
  intros H. apply sp_step. intros n' k m Hn _. cbn [step]. unfold complete_run. apply when_bind. specialize (H n' m ltac:(lia)).
  destruct (crun E n' m q i) as [[[v|] rem] tr| | | |] eqn:Hr; cbn in *; auto; [|now rewrite Nat.add_0_r].
  destruct (negb _); cbn; rewrite Nat.add_0_r; tauto.
Qed.

(** join of something that is not itself a repetition of a basic parser *)
Lemma sp_join n q i (Q : option span -> nat -> Prop) : (forall k, join_special E q k = None) ->
  sp n q i (fun o k => match o with Some j => Q (Some j) (S k) /\ Q None (S k) | None => Q None (S k) end) -> sp n (PJoin q) i Q.
Proof.
  intros Hj H. apply sp_step. intros n' k m Hn _. cbn [step]. rewrite Hj. unfold join_generic. destruct m.
  - destruct (result_for E q) as [t|]; [|exact I]. destruct (joinable t); [|exact I]. unfold join_parse. apply when_bind. specialize (H n' Parse ltac:(lia)).
    destruct (crun E n' Parse q i) as [[[[|v]|] rem] tr| | | |] eqn:Hr; cbn in *; auto; [|now rewrite Nat.add_0_r].
    apply when_bind, when_free; [apply c_join_executor|]. intros [s|] tr' _; cbn; rewrite !Nat.add_0_r; tauto.
  - specialize (H n' Look ltac:(lia)). destruct (crun E n' Look q i) as [[[v|] rem] tr| | | |] eqn:Hr; cbn in *; auto. tauto.
Qed.

Lemma sp_custom n c i (Q : option span -> nat -> Prop) : (forall t, cust_conv E c <> ConvWhole t) ->
  sp (pred n) (cust_body E c) i (fun o k => match o with Some j => Q (Some j) (S k) /\ Q (Some j) (S (S k)) | None => Q None (S k) end) -> sp n (PCustom c) i Q.
Proof.
  intros Hc H. apply sp_step. intros n' k m Hn _. cbn [step]. destruct m.
  - unfold custom_parse. apply when_bind. specialize (H n' Parse ltac:(lia)). destruct (cust_conv E c) as [|t|t]; [| |now destruct (Hc t)].
    + destruct (crun E n' Parse (cust_body E c) i) as [[[v|] rem] tr| | | |] eqn:Hr; cbn in *; auto; rewrite Nat.add_0_r; tauto.
    + destruct (crun E n' Parse (cust_body E c) i) as [[[[|v]|] rem] tr| | | |] eqn:Hr; cbn in *; auto; [|now rewrite Nat.add_0_r].
      apply when_bind. apply when_one; [apply c_call|]. intros a k1 Hk. cbn. destruct H as [H0 H1]. assert (k1 = 0 \/ k1 = 1) as [->| ->] by lia.
      * now rewrite !Nat.add_0_r.
      * replace (S (List.length tr + (1 + 0))) with (S (S (List.length tr))) by lia. exact H1.
  - specialize (H n' Look ltac:(lia)). destruct (crun E n' Look (cust_body E c) i) as [[[v|] rem] tr| | | |] eqn:Hr; cbn in *; auto. tauto.
Qed.

(** ** Loops: an invariant [I j k] of what is left and the calls made so far *)
Lemma rep_when n n' m q (I : span -> nat -> Prop) (Q : span -> nat -> Prop) : n' <= n ->
  (forall j k, valid E j -> I j k -> sp n q j (fun o k' => match o with Some j' => I j' (k + k') | None => Q j (k + k') end)) ->
  forall k0 i b s k, valid E i -> I i k -> when (rep_loop (crun E n' m q) k0 i b s) (fun x k' => Q (fst (fst x)) (k + k')).
Proof.
  intros Hn HI. induction k0 as [|k0 IH]; intros i b s k Hv Hi; [exact Logic.I|]. cbn [rep_loop]. apply when_bind.
  pose proof (HI i k Hv Hi n' m Hn) as H.
  destruct (crun E n' m q i) as [[[v|] rem] tr| | | |] eqn:Hr; cbn in *; auto.
  - apply when_bind, when_free; [apply c_insert|]. intros b' tr' _. cbn [Nat.add].
    pose proof (crun_rem _ _ _ _ _ _ _ Hv Hr) as Hs. cbn in Hs.
    eapply when_impl; [apply (IH rem b' true (k + List.length tr)); eauto using suffix_valid|]. intros x k' Hq. now rewrite Nat.add_assoc.
  - apply crun_rem in Hr; auto. cbn in Hr. subst. now rewrite Nat.add_0_r.
Qed.

Lemma sp_zero_or_more n q i (I : span -> nat -> Prop) (Q : option span -> nat -> Prop) : valid E i -> I i 1 ->
  (forall j k, valid E j -> I j k -> sp n q j (fun o k' => match o with Some j' => I j' (k + k') | None => Q (Some j) (k + k') end)) ->
  sp n (PZeroOrMore q) i Q.
Proof.
  intros Hv Hi HI. apply sp_step. intros n' k m Hn _. cbn [step].
  assert (Hx := fun m b => rep_when n n' m q I (fun j k => Q (Some j) k) ltac:(lia) HI k i b false 1 Hv Hi).
  destruct m; [destruct (result_for E q); [|exact Logic.I]|]; unfold zero_or_more_parse, zero_or_more_look; apply when_bind;
    (eapply when_impl; [apply Hx|]); intros [[i' b'] s] k' H; cbn in *; now rewrite Nat.add_0_r.
Qed.

Lemma rep_flag f k : forall i b i' b' s' tr, rep_loop f k i b true = Done (i', b', s') tr -> s' = true.
Proof.
  induction k as [|k IH]; intros i b i' b' s' tr; cbn [rep_loop]; [discriminate|]. destruct (f i) as [[[v|] rem] tr1| | | |]; cbn; try discriminate.
  - destruct (b_insert_back b v) as [b1 tr2| | | |]; cbn; try discriminate. destruct (rep_loop f k rem b1 true) as [[[? ?] ?] tr3| | | |] eqn:Hr; cbn; try discriminate.
    intros [= -> -> -> _]. eapply IH; eauto.
  - now intros [= _ _ <- _].
Qed.

Lemma sp_one_or_more n q i (I : span -> nat -> Prop) (Q : option span -> nat -> Prop) : valid E i ->
  sp n q i (fun o k => match o with None => Q None (S k) | Some j => I j (S k) end) ->
  (forall j k, valid E j -> I j k -> sp n q j (fun o k' => match o with Some j' => I j' (k + k') | None => Q (Some j) (k + k') end)) ->
  sp n (POneOrMore q) i Q.
Proof.
  intros Hv H0 HI. apply sp_step. intros n' k m Hn _. cbn [step].
  assert (Hx : forall m b, when (rep_loop (crun E n' m q) k i b false) (fun x k' => Q (if snd x then Some (fst (fst x)) else None) (S k'))).
  { intros m' b. destruct k as [|k]; [exact Logic.I|]. cbn [rep_loop]. apply when_bind. specialize (H0 n' m' ltac:(lia)).
    destruct (crun E n' m' q i) as [[[v|] rem] tr| | | |] eqn:Hr; cbn in *; auto.
    - apply when_bind, when_free; [apply c_insert|]. intros b' tr' _.
      pose proof (crun_rem _ _ _ _ _ _ _ Hv Hr) as Hs. cbn in Hs.
      pose proof (rep_when n n' m' q I (fun j k => Q (Some j) k) ltac:(lia) HI k rem b' true (S (List.length tr)) ltac:(eauto using suffix_valid) H0) as Hw.
      destruct (rep_loop (crun E n' m' q) k rem b' true) as [[[j' b2] s'] tr2| | | |] eqn:Hl; cbn in *; auto.
      apply rep_flag in Hl. subst s'. exact Hw.
    - rewrite Nat.add_0_r. exact H0. }
  destruct m; [destruct (result_for E q); [|exact Logic.I]|]; unfold one_or_more_parse, one_or_more_look; apply when_bind;
    (eapply when_impl; [apply Hx|]); intros [[i' b'] [|]] k' H; cbn in *; now rewrite Nat.add_0_r.
Qed.

Lemma exactly_when n n' m q B : n' <= n -> forall k j i b, valid E i ->
  (forall j, suffix i j -> sp n q j (fun _ k => k <= B)) -> when (exactly_loop (crun E n' m q) k j i b) (fun _ k' => k' <= k * B).
Proof.
  intros Hn. induction k as [|k IH]; intros j i b Hv Hq; cbn [exactly_loop]; [exact (le_n _)|]. apply when_bind.
  pose proof (Hq i (suffix_refl i) n' m Hn) as H.
  destruct (crun E n' m q i) as [[[v|] rem] tr| | | |] eqn:Hr; cbn [when left_over r_ok r_rem] in *; auto; [|cbn; lia].
  apply when_bind, when_free; [apply c_array|]. intros b' tr' _. pose proof (crun_rem _ _ _ _ _ _ _ Hv Hr) as Hs. cbn in Hs.
  eapply when_impl; [apply IH; [eauto using suffix_valid|]|].
  - intros j' Hj. apply Hq. eauto using suffix_trans.
  - cbn beta. intros _ k' Hk. lia.
Qed.

Lemma sp_exactly n q c i B : valid E i -> (forall j, suffix i j -> sp n q j (fun _ k => k <= B)) -> sp n (PExactly q c) i (fun _ k => k <= S (c * B)).
Proof.
  intros Hv Hq. apply sp_step. intros n' k m Hn _. cbn [step]. destruct (c =? 0); [exact I|].
  destruct m; [destruct (result_for E q); [|exact I]|]; unfold exactly_parse, exactly_look; apply when_bind;
    (eapply when_impl; [apply (exactly_when n); auto; lia|]); cbn beta; intros [[? ?]|] k' Hk; cbn; lia.
Qed.

Lemma sp_epsilon n i (Q : option span -> nat -> Prop) : Q (Some i) 1 -> sp n PEpsilon i Q.
Proof. intros H. apply sp_step. intros n' k m _ _. exact H. Qed.

Lemma sp_consumes n p i : valid E i -> ~ can_be_empty E p -> sp n p i (fun o _ => match o with Some j => sp_len j < sp_len i | None => True end).
Proof.
  intros Hv He n' m _. destruct (crun E n' m p i) as [[[v|] rem] tr| | | |] eqn:H; cbn; auto. apply crun_gives in H as [tr' H].
  apply (consumes E (can_be_empty E) (can_be_empty_sound E) p He) in H; auto.
Qed.

(** What is left, where nothing rejects after success: as the PEG says *)
Lemma sp_peg n p i : program E -> valid E i -> compiles E Parse p = true -> compiles E Look p = true -> steady E p ->
  sp n p i (fun o _ => exists c, peg E p (elems E i) c /\ o = option_map (after i) c).
Proof.
  intros HP Hv Hp Hl Hs n' m _. destruct (crun E n' m p i) as [[ok rem] tr| | | |] eqn:H; cbn; auto.
  apply crun_run in H as [tr' H]. apply evals_done in H. destruct m.
  - destruct (parse_peg E p i ok rem tr' HP Hv Hp Hl Hs H) as (o & Ho & Hx). exists o. split; auto. unfold left_over; cbn.
    destruct o as [c|]; [destruct Hx as [Hx ->]; destruct ok; [reflexivity|congruence]|destruct Hx as [-> _]; reflexivity].
  - apply C38_lookahead_is_peg in H as (_ & o & Ho & Hx); auto; [|intros c; apply (ec_compiles E (proj2 HP))]. exists o. split; auto.
    destruct o; cbn in Hx; injection Hx as -> ->; reflexivity.
Qed.

Lemma sp_join_peg n q i (Q : option span -> nat -> Prop) : (forall k, join_special E q k = None) -> program E -> valid E i ->
  compiles E Parse (PJoin q) = true -> compiles E Look (PJoin q) = true -> steady E (PJoin q) ->
  compiles E Parse q = true -> compiles E Look q = true -> steady E q ->
  sp n q i (fun o k => Q o (S k)) -> sp n (PJoin q) i Q.
Proof.
  intros Hj HP Hv Hp Hl Hs Hp' Hl' Hs' H.
  pose proof (sp_and _ _ _ _ _ H (sp_peg n q i HP Hv Hp' Hl' Hs')) as H'.
  assert (HA : sp n (PJoin q) i (fun o k => (exists c, peg E (PJoin q) (elems E i) c /\ o = option_map (after i) c) -> Q o k)).
  { apply sp_join; auto. eapply sp_impl; [exact H'|]. intros [j|] k [HQ (c & Hc & Ho)]; auto. split; auto.
    intros (c' & Hc' & Ho'). exfalso. inversion Hc'; subst. assert (c = c') by (eapply (proj1 (peg_det E)); eauto). subst c'. destruct c; discriminate. }
  eapply sp_impl; [exact (sp_and _ _ _ _ _ HA (sp_peg n _ i HP Hv Hp Hl Hs))|]. intros o k [H1 H2]. auto.
Qed.

(** [I j k]: an element has just been read up to [j]. *)
Lemma delim_when n n' m q d pv dv (I : span -> nat -> Prop) (Q : span -> nat -> Prop) : n' <= n ->
  (forall j k, valid E j -> I j k -> sp n d j (fun o k' => match o with None => Q j (k + k') | Some j' =>
     sp n q j' (fun o2 k2 => match o2 with Some j2 => I j2 (k + k' + k2) | None => Q j (k + k' + k2) end) end)) ->
  forall k0 v j i b k, valid E j -> I j k -> when (delim_loop (crun E n' m q) (crun E n' m d) pv dv k0 (Res (Some v) j) i b) (fun x k' => Q (fst x) (k + k')).
Proof.
  intros Hn HI. induction k0 as [|k0 IH]; intros v j i b k Hv Hi; [exact Logic.I|]. cbn [delim_loop r_ok r_rem]. apply when_bind.
  apply when_free; [destruct pv; [apply c_ret|]; destruct dv; [apply c_insert|apply c_insert1]|]. intros b1 tr0 _. cbn [Nat.add]. apply when_bind.
  pose proof (HI j k Hv Hi n' m Hn) as H.
  destruct (crun E n' m d j) as [[[w|] remd] tr| | | |] eqn:Hr; cbn in *; auto; [|now rewrite Nat.add_0_r].
  apply when_bind. specialize (H n' m Hn). pose proof (crun_rem _ _ _ _ _ _ _ Hv Hr) as Hs. cbn in Hs.
  assert (Hvd : valid E remd) by eauto using suffix_valid.
  destruct (crun E n' m q remd) as [[[v2|] rem2] tr2| | | |] eqn:Hr2; cbn in *; auto.
  - pose proof (crun_rem _ _ _ _ _ _ _ Hvd Hr2) as Hs2. cbn in Hs2.
    apply when_bind, when_free; [destruct dv; [apply c_ret|]; destruct pv; [apply c_insert|apply c_insert2]|]. intros b2 tr3 _.
    eapply when_impl; [apply (IH v2 rem2 j b2 (k + List.length tr + List.length tr2)); eauto using suffix_valid|].
    intros x k' Hq. cbn [Nat.add]. now rewrite !Nat.add_assoc.
  - apply when_bind, when_free; [destruct dv; apply c_ret|]. intros b2 tr3 _. destruct k0; cbn [delim_loop r_ok]; [exact Logic.I|]. cbn.
    now rewrite Nat.add_0_r, Nat.add_assoc.
Qed.

Lemma sp_delimit n q d i (I : span -> nat -> Prop) (Q : option span -> nat -> Prop) : valid E i ->
  sp n q i (fun o k => match o with None => Q None (S k) | Some j => I j (S k) end) ->
  (forall j k, valid E j -> I j k -> sp n d j (fun o k' => match o with None => Q (Some j) (k + k') | Some j' =>
     sp n q j' (fun o2 k2 => match o2 with Some j2 => I j2 (k + k' + k2) | None => Q (Some j) (k + k' + k2) end) end)) ->
  sp n (PDelimit q d) i Q.
Proof.
  intros Hv H0 HI. apply sp_step. intros n' k m Hn _. cbn [step].
  assert (Hx := fun m pv dv => delim_when n n' m q d pv dv I (fun j k => Q (Some j) k) ltac:(lia) HI).
  destruct m; [destruct (result_for E q) as [tp|]; [|exact Logic.I]; destruct (result_for E d) as [td|]; [|exact Logic.I]|]; unfold delimit_parse, delimit_look; apply when_bind.
  - specialize (H0 n' Parse ltac:(lia)). destruct (crun E n' Parse q i) as [[[v|] rem] tr| | | |] eqn:Hr; cbn in *; auto; [|now rewrite Nat.add_0_r].
    pose proof (crun_rem _ _ _ _ _ _ _ Hv Hr) as Hs. cbn in Hs.
    apply when_bind. eapply when_impl; [eapply (Hx Parse (is_void tp) (is_void td)); [|exact H0]; eauto using suffix_valid|].
    intros [j b] k' Hq. cbn in *. now rewrite Nat.add_0_r.
  - specialize (H0 n' Look ltac:(lia)). destruct (crun E n' Look q i) as [[[v|] rem] tr| | | |] eqn:Hr; cbn in *; auto; [|now rewrite Nat.add_0_r].
    pose proof (crun_rem _ _ _ _ _ _ _ Hv Hr) as Hs. cbn in Hs.
    apply when_bind. eapply when_impl; [eapply (Hx Look true true); [|exact H0]; eauto using suffix_valid|].
    intros [j b] k' Hq. cbn in *. now rewrite Nat.add_0_r.
Qed.
End Rules.
