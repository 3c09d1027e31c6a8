(** * Runs that do not look at the end of their input

    [asks E m p i m' q j]: when [p] runs on [i], it runs its component [q] on [j].
    [sees_end E m p i]: somewhere in the run, a parser finds no element left ([all_of]: when
    those that are left are the first of its own), or
    [complete] asks whether any are left. *)
From Coq Require Import String List Arith ZArith Bool Lia.
From Verif Require Import Types Compound Parser Outcome CompoundFacts Exec Mono Derive Typing Join Leaves Sound
  BigStep BigSound BigComplete Runs.
Import ListNotations.

(** The input with [k] more elements. *)
Definition grow (k : nat) (i : span) : span := Span (sp_blk i) (sp_off i) (sp_len i + k).
Definition grow_result (k : nat) (r : presult) : presult := Res (r_ok r) (grow k (r_rem r)).

Section Extend.
Context {T V : Type} (E : env T V).

(** Each run in turn succeeds, from where the one before it stopped. *)
Inductive after : list (mode * parser T) -> span -> span -> Prop :=
| after_none i : after [] i i
| after_next m p l i v mid j tr : gives E m p i v mid tr -> after l mid j -> after ((m, p) :: l) i j.

Definition fails (i : span) (a : mode * parser T) : Prop := exists tr, refuses E (fst a) (snd a) i tr.

Inductive asks : mode -> parser T -> span -> mode -> parser T -> span -> Prop :=
| ask_choice q qs tys pre m p post i :
    result_fors E (q :: qs) = Some tys -> alts tys (q :: qs) = pre ++ (m, p) :: post -> Forall (fails i) pre ->
    asks Parse (PChoice q qs) i m p i
| ask_choice_look q qs pre m p post i :
    map (pair Look) (q :: qs) = pre ++ (m, p) :: post -> Forall (fails i) pre -> asks Look (PChoice q qs) i m p i
| ask_sequence q qs tys pre m p post i j :
    result_fors E (q :: qs) = Some tys -> parts tys (q :: qs) = pre ++ (m, p) :: post -> after pre i j ->
    asks Parse (PSequence q qs) i m p j
| ask_sequence_look q qs pre m p post i j :
    map (pair Look) (q :: qs) = pre ++ (m, p) :: post -> after pre i j -> asks Look (PSequence q qs) i m p j
| ask_exactly m q n k i j : k < n -> after (repeat (m, q) k) i j -> asks m (PExactly q n) i m q j
| ask_one_or_more m q k i j : after (repeat (m, q) k) i j -> asks m (POneOrMore q) i m q j
| ask_zero_or_more m q k i j : after (repeat (m, q) k) i j -> asks m (PZeroOrMore q) i m q j
| ask_delimit m q d i : asks m (PDelimit q d) i m q i
| ask_delimiter m q d k i j :
    after ((m, q) :: concat (repeat [(m, d); (m, q)] k)) i j -> asks m (PDelimit q d) i m d j
| ask_delimited m q d k i j :
    after ((m, q) :: concat (repeat [(m, d); (m, q)] k) ++ [(m, d)]) i j -> asks m (PDelimit q d) i m q j
| ask_maybe m q i : asks m (PMaybe q) i m q i
| ask_ignore m q i : asks m (PIgnore q) i Look q i
| ask_complete m q i : asks m (PComplete q) i m q i
| ask_join m q i : asks m (PJoin q) i m q i
| ask_map m q f i : asks m (PMap q f) i m q i
| ask_filter m q f i : asks m (PFilter q f) i m q i
| ask_named m q n i : asks m (PNamed q n) i m q i
| ask_custom m c i : asks m (PCustom c) i m (cust_body E c) i.

Inductive sees_end : mode -> parser T -> span -> Prop :=
| see_any m arr i : sp_len i = 0 -> sees_end m (PAnyOf arr) i
| see_none m arr i : sp_len i = 0 -> sees_end m (PNoneOf arr) i
| see_anything m i : sp_len i = 0 -> sees_end m PAnything i
| see_all m arr i :
    sp_len i < List.length arr -> matches_at E (sp_blk i) (firstn (sp_len i) arr) (sp_off i) -> sees_end m (PAllOf arr) i
| see_complete m q i v rem tr : gives E m q i v rem tr -> sees_end m (PComplete q) i
| see_inside m p i m' q j : asks m p i m' q j -> sees_end m' q j -> sees_end m p i.

Lemma grow_adv k i n : n <= sp_len i -> grow k (adv i n) = adv (grow k i) n.
Proof. intros H. unfold grow, adv. cbn. f_equal. lia. Qed.
Lemma grow_head k i P : head_is E i P -> head_is E (grow k i) P.
Proof. unfold head_is, grow. cbn. intros [H H']. split; auto. lia. Qed.
Lemma grow_no_head k i P : sp_len i <> 0 -> ~ head_is E i P -> ~ head_is E (grow k i) P.
Proof. unfold head_is, grow. cbn. intros H Hn [_ H']. apply Hn. split; auto. lia. Qed.

Definition grow_first k (o : option (nat * rv * span)) := option_map (fun x => (fst x, grow k (snd x))) o.
Definition grow_chain k (o : option (list rv * span)) := option_map (fun x => (fst x, grow k (snd x))) o.

Lemma repeat_split {A} (x y : A) n : forall pre post, repeat x n = pre ++ y :: post -> y = x /\ pre = repeat x (List.length pre) /\ List.length pre < n.
Proof.
  induction n as [|n IH]; intros [|a pre] post H; cbn in *; try discriminate.
  - injection H as <- _. repeat split; lia.
  - injection H as <- H. destruct (IH _ _ H) as (-> & Hp & Hl). split; [reflexivity|]. split; [now f_equal|lia].
Qed.

Lemma join_executor_grow k x rem : join_executor x (grow k rem) = join_executor x rem.
Proof. unfold join_executor. reflexivity. Qed.

Definition sees_first (l : list (mode * parser T)) (i : span) : Prop :=
  exists pre m q post, l = pre ++ (m, q) :: post /\ Forall (fails i) pre /\ sees_end m q i.
Definition sees_chain (l : list (mode * parser T)) (i : span) : Prop :=
  exists pre m q post j, l = pre ++ (m, q) :: post /\ after pre i j /\ sees_end m q j.
Definition sees_iter (m : mode) (q : parser T) (i : span) : Prop := exists n j, after (repeat (m, q) n) i j /\ sees_end m q j.
Definition sees_tail (m : mode) (q d : parser T) (i : span) : Prop :=
  (exists n j, after (concat (repeat [(m, d); (m, q)] n)) i j /\ sees_end m d j) \/
  (exists n j, after (concat (repeat [(m, d); (m, q)] n) ++ [(m, d)]) i j /\ sees_end m q j).

Lemma matches_dec b : forall arr lo, matches_at E b arr lo \/ ~ matches_at E b arr lo.
Proof.
  induction arr as [|t arr IH]; intros lo; cbn; auto. destruct (nth_error (mem E b) lo) as [c|]; [|right; intros [(c & Hc & _) _]; discriminate].
  destruct (eqv E t c) eqn:He; [|right; intros [(c' & Hc & He') _]; congruence]. destruct (IH (S lo)); [left|right; tauto]. eauto.
Qed.
Lemma matches_firstn b : forall arr lo k, matches_at E b arr lo -> matches_at E b (firstn k arr) lo.
Proof. induction arr as [|t arr IH]; intros lo [|k] H; cbn in *; auto. destruct H. auto. Qed.

Ltac inside H HV := let Hs := fresh in destruct (H HV) as [Hs|Hs]; [left; eapply see_inside; [constructor|exact Hs]|right].

Theorem extend k :
  (forall m p i r tr, big E m p i r tr -> valid E i -> sees_end m p i \/ big E m p (grow k i) (grow_result k r) tr) /\
  (forall l i o tr, bfirst E l i o tr -> valid E i -> sees_first l i \/ bfirst E l (grow k i) (grow_first k o) tr) /\
  (forall l i o tr, bchain E l i o tr -> valid E i -> sees_chain l i \/ bchain E l (grow k i) (grow_chain k o) tr) /\
  (forall m q i vs rem tr, biter E m q i vs rem tr -> valid E i ->
    sees_iter m q i \/ biter E m q (grow k i) vs (grow k rem) tr) /\
  (forall m q d i prs rem tr, btail E m q d i prs rem tr -> valid E i ->
    sees_tail m q d i \/ btail E m q d (grow k i) prs (grow k rem) tr).
Proof.
  apply big_mut; intros; match goal with Hv : valid E _ |- _ => rename Hv into HV end;
    unfold grow_result in *; cbn [r_ok r_rem ok1 grow_first grow_chain option_map fst snd] in *.
  (* leaves *)
  - right. rewrite grow_adv by (destruct h; lia). apply (B_any_ok E m arr (grow k i)). now apply grow_head.
  - destruct (Nat.eq_dec (sp_len i) 0); [left; now constructor|right]. apply B_any_no. now apply grow_no_head.
  - right. rewrite grow_adv by (destruct h; lia). apply (B_none_ok E m arr (grow k i)). now apply grow_head.
  - destruct (Nat.eq_dec (sp_len i) 0); [left; now constructor|right]. apply B_none_no. now apply grow_no_head.
  - right. rewrite grow_adv by (destruct p; lia). apply (B_all_ok E m arr (grow k i)). destruct p as [Hl Hm]. split; [cbn; lia|exact Hm].
  - destruct (le_lt_dec (List.length arr) (sp_len i)) as [Hle|Hlt].
    + right. apply B_all_no. intros [Hl Hm]. cbn in Hl, Hm. apply n. split; auto.
    + destruct (matches_dec (sp_blk i) (firstn (sp_len i) arr) (sp_off i)) as [Hm|Hm]; [left; now constructor|right].
      apply B_all_no. intros [_ Hp]. apply Hm. now apply matches_firstn.
  - right. rewrite grow_adv by lia. apply (B_anything_ok E m (grow k i)). cbn. lia.
  - left. now constructor.
  - right. apply B_eps.
  (* choice *)
  - destruct (H HV) as [(pre & m & q0 & post & Hl & Hp & Hs)|Hg]; [left; eapply see_inside; [eapply ask_choice; eauto|exact Hs]|right].
    eapply B_choice_ok; eauto.
  - destruct (H HV) as [(pre & m & q0 & post & Hl & Hp & Hs)|Hg]; [left; eapply see_inside; [eapply ask_choice; eauto|exact Hs]|right].
    eapply B_choice_no; eauto.
  - destruct (H HV) as [(pre & m & q0 & post & Hl & Hp & Hs)|Hg]; [left; eapply see_inside; [eapply ask_choice_look; eauto|exact Hs]|right].
    eapply B_choice_look_ok; eauto.
  - destruct (H HV) as [(pre & m & q0 & post & Hl & Hp & Hs)|Hg]; [left; eapply see_inside; [eapply ask_choice_look; eauto|exact Hs]|right].
    eapply B_choice_look_no; eauto.
  (* sequence *)
  - destruct (H HV) as [(pre & m & q0 & post & j & Hl & Hp & Hs)|Hg]; [left; eapply see_inside; [eapply ask_sequence; eauto|exact Hs]|right].
    eapply B_seq_ok; eauto.
  - destruct (H HV) as [(pre & m & q0 & post & j & Hl & Hp & Hs)|Hg]; [left; eapply see_inside; [eapply ask_sequence; eauto|exact Hs]|right].
    eapply B_seq_no; eauto.
  - destruct (H HV) as [(pre & m & q0 & post & j & Hl & Hp & Hs)|Hg]; [left; eapply see_inside; [eapply ask_sequence_look; eauto|exact Hs]|right].
    eapply B_seq_look_ok; eauto.
  - destruct (H HV) as [(pre & m & q0 & post & j & Hl & Hp & Hs)|Hg]; [left; eapply see_inside; [eapply ask_sequence_look; eauto|exact Hs]|right].
    eapply B_seq_look_no; eauto.
  (* maybe *)
  - inside H HV. eapply B_maybe_some; eauto.
  - inside H HV. eapply B_maybe_none; eauto.
  - inside H HV. eapply B_maybe_look_some; eauto.
  - inside H HV. eapply B_maybe_look_none; eauto.
  (* exactly *)
  - destruct (H HV) as [(pre & m & q0 & post & j & Hl & Hp & Hs)|Hg].
    + left. destruct (repeat_split _ _ _ _ _ Hl) as ([= -> ->] & Hr & Hn). rewrite Hr in Hp. eapply see_inside; [econstructor; eassumption|exact Hs].
    + right. eapply B_exactly_ok; eauto.
  - destruct (H HV) as [(pre & m & q0 & post & j & Hl & Hp & Hs)|Hg].
    + left. destruct (repeat_split _ _ _ _ _ Hl) as ([= -> ->] & Hr & Hn). rewrite Hr in Hp. eapply see_inside; [econstructor; eassumption|exact Hs].
    + right. eapply B_exactly_no; eauto.
  - destruct (H HV) as [(pre & m & q0 & post & j & Hl & Hp & Hs)|Hg].
    + left. destruct (repeat_split _ _ _ _ _ Hl) as ([= -> ->] & Hr & Hn). rewrite Hr in Hp. eapply see_inside; [econstructor; eassumption|exact Hs].
    + right. eapply B_exactly_look_ok; eauto.
  - destruct (H HV) as [(pre & m & q0 & post & j & Hl & Hp & Hs)|Hg].
    + left. destruct (repeat_split _ _ _ _ _ Hl) as ([= -> ->] & Hr & Hn). rewrite Hr in Hp. eapply see_inside; [econstructor; eassumption|exact Hs].
    + right. eapply B_exactly_look_no; eauto.
  (* repetitions *)
  - destruct (H HV) as [(n & j & Hp & Hs)|Hg]; [left; eapply see_inside; [econstructor; eassumption|exact Hs]|right]. eapply B_oom_ok; eauto.
  - destruct (H HV) as [Hs|Hg]; [left; eapply see_inside; [apply ask_one_or_more with (k := 0); constructor|exact Hs]|right]. eapply B_oom_no; eauto.
  - destruct (H HV) as [(n & j & Hp & Hs)|Hg]; [left; eapply see_inside; [econstructor; eassumption|exact Hs]|right]. eapply B_oom_look_ok; eauto.
  - destruct (H HV) as [Hs|Hg]; [left; eapply see_inside; [apply ask_one_or_more with (k := 0); constructor|exact Hs]|right]. eapply B_oom_look_no; eauto.
  - destruct (H HV) as [(n & j & Hp & Hs)|Hg]; [left; eapply see_inside; [econstructor; eassumption|exact Hs]|right]. eapply B_zom; eauto.
  - destruct (H HV) as [(n & j & Hp & Hs)|Hg]; [left; eapply see_inside; [econstructor; eassumption|exact Hs]|right]. eapply B_zom_look; eauto.
  (* delimit *)
  - destruct (H HV) as [Hs|Hg]; [left; eapply see_inside; [apply ask_delimit|exact Hs]|].
    destruct H0 as [[(n & j & Hp & Hs)|(n & j & Hp & Hs)]|Hg'].
    + eapply big_succ_valid; eauto.
    + left. eapply see_inside; [eapply ask_delimiter with (k := n); econstructor; [apply gives_big; eauto|eauto]|exact Hs].
    + left. eapply see_inside; [eapply ask_delimited with (k := n); econstructor; [apply gives_big; eauto|eauto]|exact Hs].
    + right. eapply B_delim_ok; eauto.
  - inside H HV. eapply B_delim_no; eauto.
  - destruct (H HV) as [Hs|Hg]; [left; eapply see_inside; [apply ask_delimit|exact Hs]|].
    destruct H0 as [[(n & j & Hp & Hs)|(n & j & Hp & Hs)]|Hg'].
    + eapply big_succ_valid; eauto.
    + left. eapply see_inside; [eapply ask_delimiter with (k := n); econstructor; [apply gives_big; eauto|eauto]|exact Hs].
    + left. eapply see_inside; [eapply ask_delimited with (k := n); econstructor; [apply gives_big; eauto|eauto]|exact Hs].
    + right. eapply B_delim_look_ok; eauto.
  - inside H HV. eapply B_delim_look_no; eauto.
  - inside H HV. now apply B_ignore.
  (* complete *)
  - left. econstructor. apply gives_big; eauto.
  - left. econstructor. apply gives_big; eauto.
  - inside H HV. now apply B_complete_no.
  (* join *)
  - inside H HV. eapply B_join_ok; [eauto|eauto|eauto|]. now rewrite join_executor_grow.
  - inside H HV. eapply B_join_gap; [eauto|eauto|eauto|]. now rewrite join_executor_grow.
  - inside H HV. eapply B_join_no; eauto.
  - inside H HV. now apply B_join_look.
  - inside H HV. eapply B_map_ok; eauto.
  - inside H HV. eapply B_map_no; eauto.
  - inside H HV. now apply B_map_look.
  - inside H HV. eapply B_filter_ok; eauto.
  - inside H HV. eapply B_filter_reject; eauto.
  - inside H HV. eapply B_filter_no; eauto.
  - inside H HV. now apply B_filter_look.
  - inside H HV. now apply B_named.
  - inside H HV. eapply B_custom_same; eauto.
  - inside H HV. eapply B_custom_elem; eauto.
  - inside H HV. eapply B_custom_elem_no; eauto.
  - inside H HV. eapply B_custom_whole; eauto.
  - inside H HV. eapply B_custom_whole_no; eauto.
  - inside H HV. now apply B_custom_look.
  (* bfirst *)
  - right. constructor.
  - destruct (H HV) as [Hs|Hg]; [left; exists [], m, p, l; auto|right]. now apply BF_here.
  - destruct (H HV) as [Hs|Hg]; [left; exists [], m, p, l; auto|].
    destruct (H0 HV) as [(pre & m' & q & post & -> & Hf & Hs)|Hg'].
    + left. exists ((m, p) :: pre), m', q, post. split; [reflexivity|]. split; auto. constructor; auto. exists tr. now apply refuses_big.
    + right. replace (grow_first k (bump o)) with (bump (grow_first k o)) by (destruct o as [[[? ?] ?]|]; reflexivity). now apply BF_next.
  (* bchain *)
  - right. constructor.
  - destruct (H HV) as [Hs|Hg]; [left; exists [], m, p, l, i; repeat split; auto; constructor|right]. now apply BC_fail.
  - assert (HV' : valid E mid) by (eapply big_succ_valid; eauto).
    destruct (H HV) as [Hs|Hg]; [left; exists [], m, p, l, i; repeat split; auto; constructor|].
    destruct (H0 HV') as [(pre & m' & q & post & j & -> & Hf & Hs)|Hg'].
    + left. exists ((m, p) :: pre), m', q, post, j. split; [reflexivity|]. split; auto. econstructor; [apply gives_big; eauto|auto].
    + right. replace (grow_chain k (push v o)) with (push v (grow_chain k o)) by (destruct o as [[? ?]|]; reflexivity).
      eapply BC_next; eauto.
  (* biter *)
  - destruct (H HV) as [Hs|Hg]; [left; exists 0, i; split; auto; constructor|right]. now apply BI_end.
  - assert (HV' : valid E mid) by (eapply big_succ_valid; eauto).
    destruct (H HV) as [Hs|Hg]; [left; exists 0, i; split; auto; constructor|].
    destruct (H0 HV') as [(n & j & Hf & Hs)|Hg'].
    + left. exists (S n), j. split; auto. econstructor; [apply gives_big; eauto|auto].
    + right. eapply BI_next; eauto.
  (* btail *)
  - destruct (H HV) as [Hs|Hg]; [left; left; exists 0, i; split; auto; constructor|right]. now apply BT_end.
  - assert (HV' : valid E mid) by (eapply big_succ_valid; eauto).
    destruct (H HV) as [Hs|Hg]; [left; left; exists 0, i; split; auto; constructor|].
    destruct (H0 HV') as [Hs|Hg'].
    + left. right. exists 0, mid. split; auto. econstructor; [apply gives_big; eauto|constructor].
    + right. eapply BT_back; eauto.
  - assert (HV' : valid E mid) by (eapply big_succ_valid; eauto).
    assert (HV'' : valid E mid') by (exact (big_succ_valid E _ _ _ _ _ _ HV' b0)).
    destruct (H HV) as [Hs|Hg]; [left; left; exists 0, i; split; auto; constructor|].
    destruct (H0 HV') as [Hs|Hg'].
    { left. right. exists 0, mid. split; auto. econstructor; [apply gives_big; eauto|constructor]. }
    destruct (H1 HV'') as [[(n & j & Hf & Hs)|(n & j & Hf & Hs)]|Hg''].
    + left. left. exists (S n), j. split; auto. cbn. econstructor; [apply gives_big; eauto|]. econstructor; [apply gives_big; eauto|auto].
    + left. right. exists (S n), j. split; auto. cbn. econstructor; [apply gives_big; eauto|]. econstructor; [apply gives_big; eauto|auto].
    + right. eapply BT_next; eauto.
Qed.

(** ** A check for a given input *)
(** [may_see n m p i = false]: the run does not look at the end ([true]: it does, or the
    fuel was too small). *)
Section Check.
Variable run' : mode -> parser T -> span -> outcome presult.
Variable see' : mode -> parser T -> span -> bool.

Fixpoint see_first (l : list (mode * parser T)) (i : span) : bool :=
  match l with
  | [] => false
  | (m, q) :: l' => see' m q i || match run' m q i with Done (Res None _) _ => see_first l' i | OOF => true | _ => false end
  end.
Fixpoint see_chain (l : list (mode * parser T)) (i : span) : bool :=
  match l with
  | [] => false
  | (m, q) :: l' => see' m q i || match run' m q i with Done (Res (Some _) mid) _ => see_chain l' mid | OOF => true | _ => false end
  end.
Fixpoint see_iter (n : nat) (m : mode) (q : parser T) (i : span) : bool :=
  match n with
  | 0 => true
  | S n' => see' m q i || match run' m q i with Done (Res (Some _) mid) _ => see_iter n' m q mid | OOF => true | _ => false end
  end.
Fixpoint see_tail (n : nat) (m : mode) (q d : parser T) (i : span) : bool :=
  match n with
  | 0 => true
  | S n' => see' m d i || match run' m d i with
      | Done (Res (Some _) mid) _ => see' m q mid || match run' m q mid with
          | Done (Res (Some _) mid') _ => see_tail n' m q d mid' | OOF => true | _ => false end
      | OOF => true | _ => false end
  end.
End Check.

Fixpoint begins (b : nat) (arr : list T) (lo : nat) : bool :=
  match arr with
  | [] => true
  | t :: arr' => match nth_error (mem E b) lo with Some c => eqv E t c | None => false end && begins b arr' (S lo)
  end.
Lemma begins_ok b : forall arr lo, matches_at E b arr lo -> begins b arr lo = true.
Proof. induction arr as [|t arr IH]; intros lo H; cbn; auto. destruct H as [(c & -> & ->) H]. cbn. auto. Qed.

Fixpoint may_see (n : nat) (m : mode) (p : parser T) (i : span) : bool :=
  match n with
  | 0 => true
  | S n' =>
    let run' := run E n' in let see' := may_see n' in
    match p with
    | PAnyOf _ | PNoneOf _ | PAnything => sp_len i =? 0
    | PAllOf arr => (sp_len i <? List.length arr) && begins (sp_blk i) (firstn (sp_len i) arr) (sp_off i)
    | PEpsilon => false
    | PChoice q qs => match m with
        | Parse => match result_fors E (q :: qs) with Some tys => see_first run' see' (alts tys (q :: qs)) i | None => true end
        | Look => see_first run' see' (map (pair Look) (q :: qs)) i end
    | PSequence q qs => match m with
        | Parse => match result_fors E (q :: qs) with Some tys => see_chain run' see' (parts tys (q :: qs)) i | None => true end
        | Look => see_chain run' see' (map (pair Look) (q :: qs)) i end
    | PMaybe q | PJoin q | PMap q _ | PFilter q _ | PNamed q _ => see' m q i
    | PExactly q k => see_chain run' see' (repeat (m, q) k) i
    | POneOrMore q | PZeroOrMore q => see_iter run' see' n' m q i
    | PDelimit q d => see' m q i || match run' m q i with
        | Done (Res (Some _) mid) _ => see_tail run' see' n' m q d mid | OOF => true | _ => false end
    | PIgnore q => see' Look q i
    | PComplete q => see' m q i || match run' m q i with Done (Res (Some _) _) _ | OOF => true | _ => false end
    | PCustom c => see' m (cust_body E c) i
    end
  end.

Lemma run_gives n m p i v mid tr : gives E m p i v mid tr -> run E n m p i = OOF \/ run E n m p i = Done (Res (Some v) mid) tr.
Proof.
  intros Hg. destruct (run E n m p i) eqn:Hr; auto; right; rewrite <- Hr;
    (assert (He : evals E m p i (run E n m p i)) by (split; [rewrite Hr; discriminate|eauto])); exact (evals_det E _ _ _ _ _ He Hg).
Qed.
Lemma run_refuses n m p i tr : refuses E m p i tr -> run E n m p i = OOF \/ run E n m p i = Done (Res None i) tr.
Proof.
  intros Hg. destruct (run E n m p i) eqn:Hr; auto; right; rewrite <- Hr;
    (assert (He : evals E m p i (run E n m p i)) by (split; [rewrite Hr; discriminate|eauto])); exact (evals_det E _ _ _ _ _ He Hg).
Qed.

Ltac known n H := match goal with
  | Hg : gives E _ _ _ _ _ _ |- _ => destruct (run_gives n _ _ _ _ _ _ Hg) as [Hr|Hr]; rewrite Hr in H; [discriminate|]
  | Hg : refuses E _ _ _ _ |- _ => destruct (run_refuses n _ _ _ _ Hg) as [Hr|Hr]; rewrite Hr in H; [discriminate|]
  end.
Ltac split_or := repeat match goal with H : _ || _ = false |- _ => apply orb_false_iff in H as [? H] end.

Section Sound.
Variables (n : nat).
Hypothesis IH : forall m p i, may_see n m p i = false -> ~ sees_end m p i.

Lemma see_first_ok pre m q post i : see_first (run E n) (may_see n) (pre ++ (m, q) :: post) i = false -> Forall (fails i) pre -> ~ sees_end m q i.
Proof.
  induction pre as [|[m0 q0] pre IHp]; cbn [app see_first]; intros H Hf; split_or; auto.
  inversion Hf as [|? ? [tr Ht] Hf']; subst. cbn in Ht.
  known n H. auto.
Qed.

Lemma see_chain_ok pre m q post : forall i j, see_chain (run E n) (may_see n) (pre ++ (m, q) :: post) i = false -> after pre i j -> ~ sees_end m q j.
Proof.
  induction pre as [|[m0 q0] pre IHp]; cbn [app see_chain]; intros i j H Ha; split_or; inversion Ha; subst; auto.
  known n H. eauto.
Qed.

Lemma see_iter_ok m q : forall c k i j, see_iter (run E n) (may_see n) c m q i = false -> after (repeat (m, q) k) i j -> ~ sees_end m q j.
Proof.
  induction c as [|c IHc]; cbn [see_iter]; intros k i j H Ha; [discriminate|]. split_or.
  destruct k; inversion Ha; subst; auto.
  known n H. eauto.
Qed.

Lemma see_tail_ok m q d : forall c k i j, see_tail (run E n) (may_see n) c m q d i = false ->
  (after (concat (repeat [(m, d); (m, q)] k)) i j -> ~ sees_end m d j) /\
  (after (concat (repeat [(m, d); (m, q)] k) ++ [(m, d)]) i j -> ~ sees_end m q j).
Proof.
  induction c as [|c IHc]; cbn [see_tail]; intros k i j H; [discriminate|]. split_or.
  assert (Hd : forall v mid tr, gives E m d i v mid tr ->
    may_see n m q mid || match run E n m q mid with Done (Res (Some _) mid') _ => see_tail (run E n) (may_see n) c m q d mid' | OOF => true | _ => false end = false).
  { intros v mid tr Hg. known n H. exact H. }
  clear H. destruct k; cbn; split; intros Ha; inversion Ha; subst; auto.
  - match goal with Hg : gives E m d i _ _ _, Hn : after [] _ _ |- _ => specialize (Hd _ _ _ Hg); inversion Hn; subst end. split_or. auto.
  - match goal with Hg : gives E m d i _ _ _, Hn : after (_ :: _) _ _ |- _ => specialize (Hd _ _ _ Hg); clear Hg; inversion Hn; subst end. split_or.
    known n Hd. eapply IHc; eauto.
  - match goal with Hg : gives E m d i _ _ _, Hn : after (_ :: _) _ _ |- _ => specialize (Hd _ _ _ Hg); clear Hg; inversion Hn; subst end. split_or.
    known n Hd. eapply IHc; eauto.
Qed.
End Sound.

Theorem may_see_ok : forall n m p i, may_see n m p i = false -> ~ sees_end m p i.
Proof.
  induction n as [|n IH]; intros m p i H Hs; [discriminate|]. cbn [may_see] in H. cbv zeta in H.
  inversion Hs as [? ? ? Hl|? ? ? Hl|? ? Hl|? ? ? Hl Hm|? ? ? ? ? ? Hg|? ? ? ? ? ? Ha Hs']; subst.
  - rewrite Hl in H. discriminate.
  - rewrite Hl in H. discriminate.
  - rewrite Hl in H. discriminate.
  - apply Nat.ltb_lt in Hl. rewrite Hl, (begins_ok _ _ _ Hm) in H. discriminate.
  - apply orb_false_iff in H as [_ H]. known n H. discriminate.
  - clear Hs. inversion Ha; subst; try (eapply IH; eassumption); try (split_or; eapply IH; eassumption).
    + rewrite H0, H1 in H. eapply see_first_ok; eauto.
    + rewrite H0 in H. eapply see_first_ok; eauto.
    + rewrite H0, H1 in H. eapply see_chain_ok; eauto.
    + rewrite H0 in H. eapply see_chain_ok; eauto.
    + replace n0 with (k + S (n0 - S k)) in H by lia. rewrite repeat_app in H. cbn [repeat] in H. eapply see_chain_ok; eauto.
    + eapply see_iter_ok; eauto.
    + eapply see_iter_ok; eauto.
    + split_or. inversion H0; subst. known n H. eapply (proj1 (see_tail_ok n IH _ _ _ _ k _ _ H)); eauto.
    + split_or. inversion H0; subst. known n H. eapply (proj2 (see_tail_ok n IH _ _ _ _ k _ _ H)); eauto.
Qed.
End Extend.
