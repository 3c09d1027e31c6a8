(** * C61: a parser has one value type *)
From Coq Require Import String List Arith Bool Lia.
From Verif Require Import Types Compound CompoundFacts Parser Typing StaticArray Operators Modifiers PropMods ValueTypes.
Import ListNotations.

(** ** Specification *)

(** The element types written somewhere in a parser: those of its literals, of its
    [anything]s and [eps]s, and of its custom parsers. *)
Fixpoint written {T} (cvt : nat -> vtype) (p : tparser T) : list vtype :=
  match p with
  | XAnyOf k _ | XNoneOf k _ | XAllOf k _ | XAnything k | XEpsilon k => [k]
  | XCustom c => [cvt c]
  | XChoice p ps | XSequence p ps => written cvt p ++ flat_map (written cvt) ps
  | XDelimit p d => written cvt p ++ written cvt d
  | XMaybe p | XExactly p _ | XOneOrMore p | XZeroOrMore p | XIgnore p | XComplete p | XJoin p | XMap p _
  | XFilter p _ | XNamed p _ _ => written cvt p
  end.

(** What is asked of a parser besides value types: its sets are sorted, its counts not zero. *)
Fixpoint plain_ok {T} (O : order T) (p : tparser T) : Prop :=
  match p with
  | XAnyOf _ arr | XNoneOf _ arr => is_sorted_and_uniqued O arr = true
  | XAllOf _ _ | XAnything _ | XEpsilon _ | XCustom _ => True
  | XChoice p ps | XSequence p ps => plain_ok O p /\ (fix go l := match l with [] => True | q :: l => plain_ok O q /\ go l end) ps
  | XDelimit p d => plain_ok O p /\ plain_ok O d
  | XExactly p n => plain_ok O p /\ n <> 0
  | XMaybe p | XOneOrMore p | XZeroOrMore p | XIgnore p | XComplete p | XJoin p | XMap p _ | XFilter p _
  | XNamed p _ _ => plain_ok O p
  end.

Section Facts.
Context {T : Type} (O : order T) (cvt : nat -> vtype).
Notation vt := (value_type (T:=T) cvt).
Notation ok := (exists_type (T:=T) O cvt).

Lemma written_value_type p : In (vt p) (written cvt p).
Proof. induction p using tparser_ind'; cbn; auto using in_or_app. Qed.

Lemma compatible_spec p q : compatible cvt p q = true <-> vt p = vt q.
Proof. unfold compatible. apply vtype_eqb_spec. Qed.

Lemma forallb_compatible p ps : forallb (compatible cvt p) ps = true <-> Forall (fun q => vt q = vt p) ps.
Proof.
  rewrite forallb_forall, Forall_forall. split; intros H q Hq; specialize (H q Hq).
  - symmetry. now apply compatible_spec.
  - apply compatible_spec. now symmetry.
Qed.

Lemma plain_list ps : (fix go l := match l with [] => True | q :: l => plain_ok O q /\ go l end) ps <-> Forall (plain_ok O) ps.
Proof.
  induction ps as [|q ps IH]; split; intros H; auto.
  - destruct H. constructor; auto. now apply IH.
  - inversion H; subst. split; auto. now apply IH.
Qed.

Lemma exists_spec p : ok p = true <-> plain_ok O p /\ Forall (eq (vt p)) (written cvt p).
Proof.
  induction p as [k a|k a|k a|k|k|c|p ps IHp IHs|p ps IHp IHs|p IHp|p n IHp|p IHp|p IHp|p d IHp IHd|p IHp|p IHp|p IHp|p f IHp|p f IHp|p k s IHp] using tparser_ind';
    cbn [exists_type plain_ok written value_type]; auto;
    try (split; [intros H; split; auto|intros [H _]; auto]; fail).
  1,2: rewrite !andb_true_iff, IHp, plain_list, Forall_app, forallb_compatible, forallb_forall, !Forall_forall; split.
  1,3: intros [[[Hp Hw] Hs] Hc]; repeat split; auto;
    [intros q Hq; rewrite Forall_forall in IHs; now apply IHs; auto
    |intros k Hk; apply in_flat_map in Hk as (q & Hq & Hk); rewrite Forall_forall in IHs;
     destruct (proj1 (IHs q Hq) (Hs q Hq)) as [_ Hall]; rewrite Forall_forall in Hall;
     rewrite <- (Hall k Hk); symmetry; now apply Hc].
  1,2: intros [[Hp Hs] [Hw Hk]];
    assert (HH : forall q, In q ps -> Forall (eq (vt p)) (written cvt q))
      by (intros q Hq; apply Forall_forall; intros k Hkq; apply Hk, in_flat_map; eauto);
    assert (HV : forall q, In q ps -> vt q = vt p)
      by (intros q Hq; specialize (HH q Hq); rewrite Forall_forall in HH; symmetry; apply HH, written_value_type);
    repeat split; auto; intros q Hq; rewrite Forall_forall in IHs; apply IHs; auto; split; auto; rewrite HV; auto.
  - rewrite andb_true_iff, IHp, negb_true_iff, Nat.eqb_neq. tauto.
  - rewrite !andb_true_iff, IHp, IHd, compatible_spec, Forall_app. split.
    + intros [[[Hp Hw] [Hd Hwd]] He]. rewrite He in *. auto.
    + intros [[Hp Hd] [Hw Hwd]]. assert (He : vt p = vt d) by (rewrite Forall_forall in Hwd; apply Hwd, written_value_type).
      rewrite <- He. auto.
Qed.

(** *** Types without value types *)
Lemma map_erase_inj v ps : Forall (fun p => forall q, ok p = true -> ok q = true -> vt p = vt q -> erase p = erase q -> p = q) ps ->
  forall qs, forallb ok ps = true -> forallb ok qs = true -> Forall (fun q => vt q = v) ps -> Forall (fun q => vt q = v) qs ->
  map erase ps = map erase qs -> ps = qs.
Proof.
  induction 1 as [|p ps Hp Hps IH]; intros [|q qs] A B C D He; try discriminate; auto.
  cbn in A, B. apply andb_true_iff in A as [A1 A2], B as [B1 B2]. inversion C; inversion D; subst.
  injection He as He1 He2. f_equal; [apply Hp; auto; congruence|now apply IH].
Qed.

Lemma erase_inj p : forall q, ok p = true -> ok q = true -> vt p = vt q -> erase p = erase q -> p = q.
Proof.
  induction p as [k a|k a|k a|k|k|c|p ps IHp IHs|p ps IHp IHs|p IHp|p n IHp|p IHp|p IHp|p d IHp IHd|p IHp|p IHp|p IHp|p f IHp|p f IHp|p k s IHp] using tparser_ind';
    intros q Hp Hq Hv He; destruct q; cbn [erase] in He; try discriminate; cbn [value_type] in Hv; cbn [exists_type] in Hp, Hq;
    repeat match goal with H : _ && _ = true |- _ => apply andb_true_iff in H as [? ?] end;
    try (congruence); try (injection He; intros; subst; f_equal; auto; fail).
  1,2: injection He as He1 He2; assert (p = q) as <- by auto; f_equal;
    rewrite ?forallb_compatible in *; eauto using map_erase_inj.
  - injection He as He1 He2. repeat match goal with H : compatible _ _ _ = true |- _ => apply compatible_spec in H end. f_equal; auto. apply IHd; auto. congruence.
  - injection He as He1 He2 He3. destruct (enc_inj k s k0 str) as [-> ->]; [unfold enc; congruence|]. f_equal; auto.
Qed.

Hypothesis HO : lawful O.

Lemma tparser_eqb_spec p : forall q, tparser_eqb O p q = true <-> p = q.
Proof.
  induction p using tparser_ind'; intros q'; destruct q'; cbn [tparser_eqb]; split; intros HH; try discriminate; auto;
    try (injection HH; intros; subst);
    repeat match goal with
    | H : _ && _ = true |- _ => apply andb_true_iff in H as [? ?]
    | |- _ && _ = true => apply andb_true_iff; split
    | H : list_eqb (eqb O) _ _ = true |- _ => apply (arr_eqb_spec O HO) in H
    | |- list_eqb (eqb O) _ _ = true => apply (arr_eqb_spec O HO)
    | IH : forall q, tparser_eqb O ?p q = true <-> ?p = q, H : tparser_eqb O ?p _ = true |- _ => apply IH in H
    | IH : forall q, tparser_eqb O ?p q = true <-> ?p = q |- tparser_eqb O ?p _ = true => apply IH
    | IH : Forall _ ?ps, H : list_eqb (tparser_eqb O) ?ps _ = true |- _ => apply (list_eqb_spec (tparser_eqb O) ps IH) in H
    | IH : Forall _ ?ps |- list_eqb (tparser_eqb O) ?ps _ = true => apply (list_eqb_spec (tparser_eqb O) ps IH)
    | H : (_ =? _) = true |- _ => apply Nat.eqb_eq in H
    | |- (_ =? _) = true => apply Nat.eqb_eq
    | H : func_eqb _ _ = true |- _ => apply func_eqb_spec in H
    | |- func_eqb _ _ = true => apply func_eqb_spec
    | H : String.eqb _ _ = true |- _ => apply String.eqb_eq in H
    | |- String.eqb _ _ = true => apply String.eqb_eq
    | H : vtype_eqb _ _ = true |- _ => apply vtype_eqb_spec in H
    | |- vtype_eqb _ _ = true => apply vtype_eqb_spec
    | H : chartype_eqb _ _ = true |- _ => apply chartype_eqb_spec in H
    | |- chartype_eqb _ _ = true => apply chartype_eqb_spec
    end; subst; auto.
Qed.

Lemma same_type p q : ok p = true -> ok q = true -> vt p = vt q -> tparser_eqb O p q = parser_eqb O (erase p) (erase q).
Proof.
  intros Hp Hq Hv. apply eq_iff_eq_true. rewrite tparser_eqb_spec, (parser_eqb_spec O HO).
  split; [now intros ->|]. now apply erase_inj.
Qed.

Lemma sorted_set op a b : is_sorted_and_uniqued O a = true -> is_sorted_and_uniqued O b = true ->
  is_sorted_and_uniqued O (set_operation O op a b) = true.
Proof. rewrite !(sorted_spec O HO). intros Ha Hb. now apply (set_operation_spec O HO op a b Ha Hb). Qed.

(** A parser with the class constraints of its parts known *)
Definition fine (v : vtype) (p : tparser T) : Prop := ok p = true /\ vt p = v.

Lemma fine_choice v p ps : fine v (XChoice p ps) <-> Forall (fine v) (p :: ps).
Proof.
  unfold fine. cbn [exists_type value_type]. rewrite !andb_true_iff, forallb_compatible, forallb_forall, Forall_cons_iff, !Forall_forall.
  split.
  - intros [[[A B] C] D]. split; [now split|]. intros q Hq. split; auto. rewrite (C q Hq). auto.
  - intros [[A B] C]. split; [split; [split|]|]; auto; intros q Hq; [now apply C|rewrite B; now apply C].
Qed.
Lemma fine_sequence v p ps : fine v (XSequence p ps) <-> Forall (fine v) (p :: ps).
Proof. rewrite <- fine_choice. reflexivity. Qed.

Lemma fine_compatible v p q : fine v p -> fine v q -> compatible cvt p q = true.
Proof. intros [_ A] [_ B]. apply compatible_spec. congruence. Qed.
Lemma fine_compatibles v p qs : fine v p -> Forall (fine v) qs -> forallb (compatible cvt p) qs = true.
Proof. intros A B. apply forallb_forall. rewrite Forall_forall in B. intros q Hq. eapply fine_compatible; eauto. Qed.

Lemma mk_choice_fine v p ps : Forall (fine v) (p :: ps) ->
  exists r, mk_choice cvt p ps = Some r /\ fine v r /\ erase r = PChoice (erase p) (map erase ps).
Proof.
  intros H. exists (XChoice p ps). inversion H; subst. unfold mk_choice. rewrite (fine_compatibles v); auto.
  split; [|split]; try (now apply fine_choice); reflexivity.
Qed.
Lemma mk_sequence_fine v p ps : Forall (fine v) (p :: ps) ->
  exists r, mk_sequence cvt p ps = Some r /\ fine v r /\ erase r = PSequence (erase p) (map erase ps).
Proof.
  intros H. exists (XSequence p ps). inversion H; subst. unfold mk_sequence. rewrite (fine_compatibles v); auto.
  split; [|split]; try (now apply fine_sequence); reflexivity.
Qed.

Lemma choice_total v p q : fine v p -> fine v q ->
  exists r, tchoice_operator O cvt p q = Some r /\ fine v r /\ erase r = choice_operator O (erase p) (erase q).
Proof.
  intros Hp Hq. assert (He : tparser_eqb O p q = parser_eqb O (erase p) (erase q)).
  { destruct Hp, Hq. apply same_type; auto. congruence. }
  assert (Hc : compatible cvt p q = true) by eauto using fine_compatible.
  assert (D : exists r, (if tparser_eqb O p q then Some p else if compatible cvt p q then mk_choice cvt p [q] else None) = Some r
    /\ fine v r /\ erase r = if parser_eqb O (erase p) (erase q) then erase p else PChoice (erase p) [erase q]).
  { rewrite He. destruct (parser_eqb _ _ _); [now exists p|]. rewrite Hc. apply (mk_choice_fine v); auto. }
  assert (L : forall p1 ps, p = XChoice p1 ps -> exists r, (if forallb (compatible cvt q) (p1 :: ps) then mk_choice cvt p1 (ps ++ [q]) else None) = Some r
    /\ fine v r /\ erase r = PChoice (erase p1) (map erase ps ++ [erase q])).
  { intros p1 ps ->. apply fine_choice in Hp. rewrite (fine_compatibles v); auto.
    change [erase q] with (map erase [q]). rewrite <- map_app. apply mk_choice_fine.
    change (p1 :: ps ++ [q]) with ((p1 :: ps) ++ [q]). apply Forall_app. auto. }
  assert (R : forall q1 qs, q = XChoice q1 qs -> exists r, (if forallb (compatible cvt p) (q1 :: qs) then mk_choice cvt p (q1 :: qs) else None) = Some r
    /\ fine v r /\ erase r = PChoice (erase p) (erase q1 :: map erase qs)).
  { intros q1 qs ->. apply fine_choice in Hq. rewrite (fine_compatibles v); auto.
    change (erase q1 :: map erase qs) with (map erase (q1 :: qs)). apply mk_choice_fine. auto. }
  destruct p as [k a|k a| | | |p1 ps| | | | | | | | | | | | |];
    destruct q as [l b|l b| | | |q1 qs| | | | | | | | | | | | |];
    try exact D; try (exact (L _ _ eq_refl)); try (exact (R _ _ eq_refl)); clear D L R;
    cbn [tchoice_operator choice_operator erase] in *.
  1-4: destruct Hp as [Hp1 Hp2], Hq as [Hq1 Hq2]; cbn [exists_type value_type] in *; subst k l;
    cbn [tparser_eqb]; unfold like_static_arrays; rewrite vtype_eqb_refl; cbn [andb];
    destruct (list_eqb (eqb O) a b);
    [eexists; unfold mk_none; cbn; repeat split; auto
    |unfold mk_any, mk_none; rewrite sorted_set by auto; eexists; repeat split; cbn; auto using sorted_set].
  rewrite He. destruct (parser_eqb _ _ _); [eexists; repeat split; try apply Hp; auto|].
  rewrite Hc. change (erase q1 :: map erase qs) with (map erase (q1 :: qs)). rewrite <- map_app. apply mk_choice_fine.
  apply fine_choice in Hp, Hq. change (p1 :: ps ++ q1 :: qs) with ((p1 :: ps) ++ (q1 :: qs)). apply Forall_app. auto.
Qed.

Lemma sequence_total v p q : fine v p -> fine v q ->
  exists r, tsequence_operator cvt p q = Some r /\ fine v r /\ erase r = sequence_operator (erase p) (erase q).
Proof.
  intros Hp Hq. assert (Hc : compatible cvt p q = true) by eauto using fine_compatible.
  assert (D : exists r, (if compatible cvt p q then mk_sequence cvt p [q] else None) = Some r
    /\ fine v r /\ erase r = PSequence (erase p) [erase q]).
  { rewrite Hc. apply (mk_sequence_fine v); auto. }
  assert (L : forall p1 ps, p = XSequence p1 ps -> exists r, (if forallb (compatible cvt q) (p1 :: ps) then mk_sequence cvt p1 (ps ++ [q]) else None) = Some r
    /\ fine v r /\ erase r = PSequence (erase p1) (map erase ps ++ [erase q])).
  { intros p1 ps ->. apply fine_sequence in Hp. rewrite (fine_compatibles v); auto.
    change [erase q] with (map erase [q]). rewrite <- map_app. apply mk_sequence_fine.
    change (p1 :: ps ++ [q]) with ((p1 :: ps) ++ [q]). apply Forall_app. auto. }
  assert (R : forall q1 qs, q = XSequence q1 qs -> exists r, (if forallb (compatible cvt p) (q1 :: qs) then mk_sequence cvt p (q1 :: qs) else None) = Some r
    /\ fine v r /\ erase r = PSequence (erase p) (erase q1 :: map erase qs)).
  { intros q1 qs ->. apply fine_sequence in Hq. rewrite (fine_compatibles v); auto.
    change (erase q1 :: map erase qs) with (map erase (q1 :: qs)). apply mk_sequence_fine. auto. }
  destruct p as [| |k a| | | |p1 ps| | | | | | | | | | | |];
    destruct q as [| |l b| | | |q1 qs| | | | | | | | | | | |];
    try exact D; try (exact (L _ _ eq_refl)); try (exact (R _ _ eq_refl)); clear D L R;
    cbn [tsequence_operator sequence_operator erase] in *.
  - destruct Hp as [Hp1 Hp2], Hq as [Hq1 Hq2]; cbn [exists_type value_type] in *; subst k l.
    unfold like_static_arrays; rewrite vtype_eqb_refl. eexists. repeat split; auto.
  - rewrite Hc. change (erase q1 :: map erase qs) with (map erase (q1 :: qs)). rewrite <- map_app. apply mk_sequence_fine.
    apply fine_sequence in Hp, Hq. change (p1 :: ps ++ q1 :: qs) with ((p1 :: ps) ++ (q1 :: qs)). apply Forall_app. auto.
Qed.

(** *** Modifiers *)
Lemma all_some_Forall {A} (P : A -> Prop) (g : A -> option A) l l' :
  Forall (fun x => forall y, g x = Some y -> P y) l -> all_some (map g l) = Some l' -> Forall P l'.
Proof.
  intros H E. apply all_some_spec in E. revert l' E. induction H as [|x l Hx Hl IH]; intros [|y l'] E; try discriminate; constructor.
  - injection E as E _. now apply Hx.
  - injection E as _ E. now apply IH.
Qed.
Lemma fine_sub v n f : (forall q r, fine v q -> f q = Some r -> fine v r) ->
  forall p r, fine v p -> tsubstitute_one cvt n f p = Some r -> fine v r.
Proof.
  intros Hf p. induction p as [k a|k a|k a|k|k|c|p ps IHp IHs|p ps IHp IHs|p IHp|p j IHp|p IHp|p IHp|p d IHp IHd|p IHp|p IHp|p IHp|p g IHp|p g IHp|p k s IHp] using tparser_ind';
    intros r Hp Hr; cbn [tsubstitute_one] in Hr; try (injection Hr as <-; exact Hp);
    try (destruct (tsubstitute_one cvt n f p) as [p'|] eqn:Ep; [|discriminate]; cbn in Hr; injection Hr as <-; exact (IHp p' Hp eq_refl)).
  1,2: first [apply fine_choice in Hp|apply fine_sequence in Hp]; inversion Hp as [|? ? Hp1 Hps]; subst;
    destruct (tsubstitute_one cvt n f p) as [p'|] eqn:Ep; [|discriminate];
    destruct (all_some (map (tsubstitute_one cvt n f) ps)) as [ps'|] eqn:Es; [|discriminate];
    assert (Hps' : Forall (fine v) ps')
      by (refine (all_some_Forall (fine v) _ ps ps' _ Es); rewrite Forall_forall in *; intros q Hq r'; apply IHs; auto);
    assert (Hp' : fine v p') by (apply (IHp _ Hp1); reflexivity);
    destruct (mk_choice_fine v p' ps') as (rc & C1 & C2 & _); auto;
    destruct (mk_sequence_fine v p' ps') as (rs & S1 & S2 & _); auto;
    rewrite ?C1, ?S1 in Hr; injection Hr as <-; assumption.
  - destruct (tsubstitute_one cvt n f p) as [p'|] eqn:Ep; [|discriminate].
    destruct Hp as [Hp Hv]. cbn in Hp, Hv. apply andb_true_iff in Hp as [Hp Hj].
    destruct (IHp p' (conj Hp Hv) eq_refl) as [A B].
    unfold mk_exactly in Hr. destruct (j =? 0) eqn:Ej; [discriminate|]. injection Hr as <-. split; cbn; auto. now rewrite A, Ej.
  - destruct (tsubstitute_one cvt n f p) as [p'|] eqn:Ep; [|discriminate].
    destruct (tsubstitute_one cvt n f d) as [d'|] eqn:Ed; [|discriminate].
    destruct Hp as [Hp Hv]. cbn in Hp, Hv. apply andb_true_iff in Hp as [Hp Hc]. apply andb_true_iff in Hp as [Hp Hd].
    apply compatible_spec in Hc.
    destruct (IHp p' (conj Hp Hv) eq_refl) as [A B]. destruct (IHd d' (conj Hd (eq_trans (eq_sym Hc) Hv)) eq_refl) as [A' B'].
    unfold mk_delimit in Hr. destruct (compatible cvt p' d') eqn:Ec; [|discriminate]. injection Hr as <-. split; cbn; auto. now rewrite A, A', Ec.
  - destruct (compare_names n (k, s)).
    + destruct (tsubstitute_one cvt n f p) as [p'|] eqn:Ep; [|discriminate]. apply (Hf p'); auto.
    + destruct (tsubstitute_one cvt n f p) as [p'|] eqn:Ep; [|discriminate]. injection Hr as <-. exact (IHp p' Hp eq_refl).
    + now injection Hr as <-.
Qed.

(** The delimiters given to a modifier *)
Fixpoint delimiters (m : tmodifier T) : list (tparser T) :=
  match m with
  | YDelimitBy d | YDelimitKeepBy d => [d]
  | YSubBy subs => flat_map (fun s => delimiters (snd s)) subs
  | YMulti ms => flat_map delimiters ms
  | _ => []
  end.

Definition fine_obj (v : vtype) (o : tobject T) : Prop :=
  match o with ZParser r => fine v r | ZMod m => Forall (fun d => ok d = true) (delimiters m) end.

Lemma delimiters_operator (a b : tmodifier T) : delimiters (tmodifier_operator a b) = delimiters a ++ delimiters b.
Proof.
  destruct a, b; cbn [tmodifier_operator delimiters]; try rewrite flat_map_app; cbn [flat_map delimiters];
    rewrite ?app_nil_r, ?app_assoc; auto.
Qed.

Lemma fine_call v m : Forall (fun d => ok d = true) (delimiters m) -> forall p o, fine v p -> tcall cvt m p = Some o -> fine_obj v o.
Proof.
  induction m as [m Hns Hnm|subs IHs|ms IHm] using tmodifier_ind'; intros Hm p o Hp Ho.
  - destruct m; cbn [tcall] in Ho; try discriminate; try (injection Ho as <-);
      try (cbn; destruct Hp as [Hp Hv]; split; cbn; auto; fail);
      try (cbn; destruct (family_eq_dec _ _); exact Hp).
    + unfold mk_exactly in Ho. destruct (n =? 0) eqn:En; [discriminate|]. cbn in Ho. injection Ho as <-.
      destruct Hp as [Hp Hv]. split; cbn; auto. now rewrite Hp, En.
    + cbn. constructor; auto. apply Hp.
    + cbn. constructor; auto. apply Hp.
    + destruct (compatible cvt d p); [|discriminate]. unfold mk_delimit in Ho.
      destruct (compatible cvt p (XIgnore d)) eqn:Ec; [|discriminate]. cbn in Ho. injection Ho as <-.
      cbn in Hm. inversion Hm; subst. destruct Hp as [Hp Hv]. split; auto. cbn [exists_type]. now rewrite Hp, Ec, H1.
    + destruct (compatible cvt d p); [|discriminate]. unfold mk_delimit in Ho.
      destruct (compatible cvt p d) eqn:Ec; [|discriminate]. cbn in Ho. injection Ho as <-.
      cbn in Hm. inversion Hm; subst. destruct Hp as [Hp Hv]. split; auto. cbn [exists_type]. now rewrite Hp, Ec, H1.
    + now destruct (Hns subs).
    + now destruct (Hnm ms).
  - destruct subs as [|s0 subs0]; [discriminate|]. rewrite tcall_sub in Ho by discriminate.
    remember (s0 :: subs0) as subs eqn:Es. clear Es s0 subs0.
    revert p Hp Ho. cbn [delimiters] in Hm. induction IHs as [|[n md] subs H1 H2 IH]; intros p Hp Ho; cbn [tsubstitute] in Ho.
    + now injection Ho as <-.
    + cbn in Hm. apply Forall_app in Hm as [Hm1 Hm2].
      destruct (tsubstitute_one cvt n (fun q => tas_parser (tcall cvt md q)) p) as [p'|] eqn:E1; [|discriminate].
      apply (IH Hm2 p'); auto. revert E1. apply fine_sub; auto.
      intros q r Hq Hr. destruct (tcall cvt md q) as [[r'|]|] eqn:E2; try discriminate. injection Hr as <-.
      exact (H1 Hm1 q _ Hq E2).
  - rewrite tcall_multi in Ho. cbn [delimiters] in Hm.
    assert (HH : forall o0 o1, fine_obj v o0 -> tpercents cvt o0 ms = Some o1 -> fine_obj v o1).
    { clear p o Hp Ho. induction IHm as [|m ms H1 H2 IH]; intros o0 o1 Hf Ho; cbn [tpercents] in Ho.
      - now injection Ho as <-.
      - cbn in Hm. apply Forall_app in Hm as [Hm1 Hm2]. destruct o0 as [q|m0]; cbn [tpercent] in Ho.
        + destruct (tcall cvt m q) as [o'|] eqn:E1; [|discriminate]. apply (IH Hm2 o'); auto. exact (H1 Hm1 q o' Hf E1).
        + apply (IH Hm2 _ _) with (2 := Ho). cbn [fine_obj] in *. rewrite delimiters_operator. apply Forall_app. auto. }
    destruct (tpercents cvt (ZParser p) ms) as [[r|m]|] eqn:E1; try discriminate. injection Ho as <-. exact (HH (ZParser p) _ Hp E1).
Qed.

(** *** Names *)
Fixpoint names_of (p : tparser T) : list chartype :=
  match p with
  | XAnyOf _ _ | XNoneOf _ _ | XAllOf _ _ | XAnything _ | XEpsilon _ | XCustom _ => []
  | XChoice p ps | XSequence p ps => names_of p ++ flat_map names_of ps
  | XDelimit p d => names_of p ++ names_of d
  | XMaybe p | XExactly p _ | XOneOrMore p | XZeroOrMore p | XIgnore p | XComplete p | XJoin p | XMap p _
  | XFilter p _ => names_of p
  | XNamed p k _ => k :: names_of p
  end.
Fixpoint mod_names_of (m : tmodifier T) : list chartype :=
  match m with
  | YDelimitBy d | YDelimitKeepBy d => names_of d
  | YName n => [fst n]
  | YSubBy subs => flat_map (fun s => fst (fst s) :: mod_names_of (snd s)) subs
  | YMulti ms => flat_map mod_names_of ms
  | _ => []
  end.

(** One value type [v], and names of characters of type [k] only *)
Definition good (v : vtype) (k : chartype) (p : tparser T) : Prop := fine v p /\ Forall (eq k) (names_of p).
Definition good_mod (v : vtype) (k : chartype) (m : tmodifier T) : Prop :=
  Forall (fine v) (delimiters m) /\ Forall (eq k) (mod_names_of m).
Definition good_obj v k (o : tobject T) : Prop := match o with ZParser p => good v k p | ZMod m => good_mod v k m end.

Lemma good_choice v k p ps : good v k (XChoice p ps) <-> Forall (good v k) (p :: ps).
Proof.
  unfold good. rewrite fine_choice. cbn [names_of]. rewrite Forall_app, Forall_flat_map, !Forall_cons_iff.
  assert (H : Forall (fun x => fine v x /\ Forall (eq k) (names_of x)) ps <-> Forall (fine v) ps /\ Forall (fun x => Forall (eq k) (names_of x)) ps)
    by (rewrite !Forall_forall; split; [intros H; split; intros x Hx; apply (H x Hx)|intros [H1 H2] x Hx; auto]). rewrite H. tauto.
Qed.

Lemma good_sequence v k p ps : good v k (XSequence p ps) <-> Forall (good v k) (p :: ps).
Proof. rewrite <- good_choice. reflexivity. Qed.
Lemma good_delimit v k p d : good v k (XDelimit p d) <-> good v k p /\ good v k d.
Proof.
  unfold good, fine. cbn [exists_type value_type names_of]. rewrite !andb_true_iff, compatible_spec, Forall_app.
  split; [intros [[[[A B] C] D] [E F]]|intros [[[A B] C] [[D E] F]]]; subst; repeat split; auto.
Qed.
Lemma good_exactly v k p n : good v k (XExactly p n) <-> good v k p /\ n <> 0.
Proof.
  unfold good, fine. cbn [exists_type value_type names_of]. rewrite !andb_true_iff, negb_true_iff, Nat.eqb_neq. tauto.
Qed.
Lemma good_named v k p l s : good v k (XNamed p l s) <-> good v k p /\ k = l.
Proof. unfold good, fine. cbn [exists_type value_type names_of]. rewrite Forall_cons_iff. tauto. Qed.

(** [g] does to parsers of value type [v] with names of characters of type [k] what [f] does
    to them without types, and keeps to such parsers. *)
Definition follows v k (g : tparser T -> option (tparser T)) (f : parser T -> option (parser T)) : Prop :=
  forall q, good v k q -> option_map erase (g q) = f (erase q) /\ (forall r, g q = Some r -> good v k r).

Lemma follows_list v k (g : tparser T -> option (tparser T)) (f : parser T -> option (parser T)) : forall ps,
  Forall (fun q => option_map erase (g q) = f (erase q) /\ (forall r, g q = Some r -> good v k r)) ps ->
  option_map (map erase) (all_some (map g ps)) = all_some (map f (map erase ps)) /\
  (forall ps', all_some (map g ps) = Some ps' -> Forall (good v k) ps').
Proof.
  induction ps as [|q ps IH]; intros H; cbn [map all_some]; [split; auto; intros ps' [= <-]; auto|].
  inversion H as [|? ? [H1 H2] H3]; subst. destruct (IH H3) as [I1 I2]. rewrite <- H1, <- I1.
  destruct (g q) as [q'|]; cbn; [|split; auto; discriminate].
  destruct (all_some (map g ps)) as [ps'|]; cbn; [|split; auto; discriminate].
  split; auto. intros ps1 [= <-]. constructor; auto.
Qed.

Lemma follows_sub v k s g f : follows v k g f ->
  follows v k (tsubstitute_one cvt (k, s) g) (substitute_one (enc k s) f).
Proof.
  intros Hf p. induction p as [l a|l a|l a|l|l|c|p ps IHp IHs|p ps IHp IHs|p IHp|p j IHp|p IHp|p IHp|p d IHp IHd|p IHp|p IHp|p IHp|p h IHp|p h IHp|p l t IHp] using tparser_ind';
    intros Hp; cbn [tsubstitute_one substitute_one erase];
    try (split; [reflexivity|intros r [= <-]; exact Hp]);
    try (destruct (IHp Hp) as [I1 I2]; rewrite <- I1; destruct (tsubstitute_one cvt (k, s) g p) as [p'|]; cbn;
         (split; [reflexivity|intros r [= <-]]); exact (I2 _ eq_refl)).
  1,2: first [apply good_choice in Hp|apply good_sequence in Hp]; inversion Hp as [|? ? Hp1 Hps]; subst;
    destruct (IHp Hp1) as [I1 I2]; destruct (follows_list v k (tsubstitute_one cvt (k, s) g) (substitute_one (enc k s) f) ps) as [J1 J2];
    [rewrite Forall_forall in *; intros q Hq; apply IHs; auto|]; rewrite <- I1, <- J1;
    (destruct (tsubstitute_one cvt (k, s) g p) as [p'|]; cbn; [|split; [reflexivity|discriminate]]);
    (destruct (all_some (map (tsubstitute_one cvt (k, s) g) ps)) as [ps'|]; cbn; [|split; [reflexivity|discriminate]]);
    assert (G : Forall (good v k) (p' :: ps')) by (constructor; auto);
    assert (F : Forall (fine v) (p' :: ps')) by (rewrite Forall_forall in *; intros q Hq; now apply G);
    inversion F; subst; unfold mk_choice, mk_sequence; rewrite (fine_compatibles v) by auto; cbn;
    (split; [reflexivity|intros r [= <-]]); first [now apply good_choice|now apply good_sequence].
  - apply good_exactly in Hp as [Hp Hj]. destruct (IHp Hp) as [I1 I2]. rewrite <- I1.
    destruct (tsubstitute_one cvt (k, s) g p) as [p'|]; cbn; [|split; [reflexivity|discriminate]].
    unfold mk_exactly. destruct (Nat.eqb_spec j 0); [contradiction|]. split; [reflexivity|]. intros r [= <-]. apply good_exactly. auto.
  - apply good_delimit in Hp as [Hp Hd]. destruct (IHp Hp) as [I1 I2]. destruct (IHd Hd) as [J1 J2]. rewrite <- I1, <- J1.
    destruct (tsubstitute_one cvt (k, s) g p) as [p'|]; cbn; [|split; [reflexivity|discriminate]].
    destruct (tsubstitute_one cvt (k, s) g d) as [d'|]; cbn; [|split; [reflexivity|discriminate]].
    destruct (I2 _ eq_refl) as [F1 F2]. destruct (J2 _ eq_refl) as [F3 F4].
    unfold mk_delimit. rewrite (fine_compatible v) by auto. split; [reflexivity|]. intros r [= <-]. apply good_delimit. split; split; auto.
  - apply good_named in Hp as [Hp <-]. destruct (IHp Hp) as [I1 I2]. unfold compare_names. cbn [fst snd]. rewrite chartype_eqb_refl.
    assert (He : String.eqb (enc k s) (enc k t) = String.eqb s t).
    { apply eq_iff_eq_true. rewrite !String.eqb_eq. split; [intros H; now apply enc_inj in H as [_ ->]|now intros ->]. }
    rewrite He, <- I1. destruct (tsubstitute_one cvt (k, s) g p) as [p'|]; cbn.
    + destruct (String.eqb s t); [apply Hf; auto|]. split; [reflexivity|]. intros r [= <-]. apply good_named. auto.
    + destruct (String.eqb s t); split; auto; discriminate.
Qed.

Lemma mod_names_operator (a b : tmodifier T) : mod_names_of (tmodifier_operator a b) = mod_names_of a ++ mod_names_of b.
Proof.
  destruct a, b; cbn [tmodifier_operator mod_names_of]; try rewrite flat_map_app; cbn [flat_map mod_names_of];
    rewrite ?app_nil_r, ?app_assoc; auto.
Qed.
Lemma good_operator v k a b : good_mod v k a -> good_mod v k b -> good_mod v k (tmodifier_operator a b).
Proof. unfold good_mod. rewrite delimiters_operator, mod_names_operator, !Forall_app. tauto. Qed.
Lemma erase_operator (a b : tmodifier T) : erase_mod (tmodifier_operator a b) = modifier_operator (erase_mod a) (erase_mod b).
Proof. destruct a, b; cbn [tmodifier_operator erase_mod modifier_operator map]; rewrite ?map_app; reflexivity. Qed.

Lemma follows_call v k m : good_mod v k m -> forall p, good v k p ->
  option_map erase_obj (tcall cvt m p) = call (erase_mod m) (erase p) /\ (forall o, tcall cvt m p = Some o -> good_obj v k o).
Proof.
  induction m as [m Hns Hnm|subs IHs|ms IHm] using tmodifier_ind'; intros Hm p Hp.
  - destruct m; cbn [tcall call erase_mod];
      try (split; [reflexivity|intros o [= <-]; exact Hp]);
      try (split; [destruct (family_eq_dec _ _); reflexivity|intros o [= <-]; cbn; destruct (family_eq_dec _ _); exact Hp]).
    + unfold mk_exactly. destruct (Nat.eqb_spec n 0); cbn; (split; [reflexivity|intros o [= <-]]). apply good_exactly. auto.
    + split; [reflexivity|intros o [= <-]]. destruct Hp. split; cbn; auto.
    + split; [reflexivity|intros o [= <-]]. destruct Hp. split; cbn; auto.
    + destruct Hm as [Hd Hn]. cbn in Hd, Hn. inversion Hd; subst. destruct Hp as [Hp Hq].
      rewrite (fine_compatible v) by auto. unfold mk_delimit. rewrite (fine_compatible v) by auto. cbn. split; [reflexivity|]. intros o [= <-].
      apply good_delimit. split; split; auto.
    + destruct Hm as [Hd Hn]. cbn in Hd, Hn. inversion Hd; subst. destruct Hp as [Hp Hq].
      rewrite (fine_compatible v) by auto. unfold mk_delimit. rewrite (fine_compatible v) by auto. cbn. split; [reflexivity|]. intros o [= <-].
      apply good_delimit. split; split; auto.
    + split; [reflexivity|intros o [= <-]]. apply good_named. split; auto. destruct Hm as [_ Hn]. cbn in Hn. now inversion Hn.
    + now destruct (Hns subs).
    + now destruct (Hnm ms).
  - destruct subs as [|s0 subs0]; [split; [reflexivity|discriminate]|]. rewrite tcall_sub by discriminate. cbn [erase_mod].
    rewrite call_sub by discriminate. remember (s0 :: subs0) as subs eqn:Es. clear Es s0 subs0.
    enough (HH : option_map erase (tsubstitute cvt subs p) =
      substitute (map (fun s => (enc (fst (fst s)) (snd (fst s)), erase_mod (snd s))) subs) (erase p) /\
      (forall r, tsubstitute cvt subs p = Some r -> good v k r)).
    { destruct HH as [H1 H2]. rewrite <- H1. destruct (tsubstitute cvt subs p); cbn; (split; [reflexivity|intros o [= <-]]). now apply H2. }
    revert p Hp. unfold good_mod in Hm. cbn [delimiters mod_names_of] in Hm.
    induction IHs as [|[[l s] md] subs H1 H2 IH]; intros p Hp; cbn [tsubstitute map substitute fst snd].
    + split; [reflexivity|intros r [= <-]; auto].
    + destruct Hm as [Hd Hn]. cbn in Hd, Hn. apply Forall_app in Hd as [Hd1 Hd2]. apply Forall_cons_iff in Hn as [Hn0 Hn]. subst l.
      apply Forall_app in Hn as [Hn1 Hn2].
      destruct (follows_sub v k s (fun q => tas_parser (tcall cvt md q)) (fun q => as_parser (call (erase_mod md) q))) with (q := p) as [S1 S2]; auto.
      { intros q Hq. destruct (H1 (conj Hd1 Hn1) q Hq) as [C1 C2]. cbn [snd] in C1, C2. rewrite <- C1.
        destruct (tcall cvt md q) as [[r|m]|]; cbn; (split; [reflexivity|intros r' [= <-]]). exact (C2 _ eq_refl). }
      rewrite <- S1. destruct (tsubstitute_one cvt (k, s) (fun q => tas_parser (tcall cvt md q)) p) as [p'|]; cbn; [|split; [reflexivity|discriminate]].
      apply IH; auto.
  - rewrite tcall_multi. cbn [erase_mod]. rewrite call_multi. unfold good_mod in Hm. cbn [delimiters mod_names_of] in Hm.
    assert (HH : forall o0, good_obj v k o0 -> option_map erase_obj (tpercents cvt o0 ms) = percents (erase_obj o0) (map erase_mod ms) /\
      (forall o1, tpercents cvt o0 ms = Some o1 -> good_obj v k o1)).
    { clear p Hp. induction IHm as [|m ms H1 H2 IH]; intros o0 Ho; cbn [tpercents map percents].
      - split; [reflexivity|intros o1 [= <-]; auto].
      - destruct Hm as [Hd Hn]. cbn in Hd, Hn. apply Forall_app in Hd as [Hd1 Hd2]. apply Forall_app in Hn as [Hn1 Hn2].
        destruct o0 as [q|m0]; cbn [tpercent percent erase_obj].
        + destruct (H1 (conj Hd1 Hn1) q Ho) as [C1 C2]. rewrite <- C1. destruct (tcall cvt m q) as [o'|]; cbn [option_map]; [|split; [reflexivity|discriminate]].
          apply IH; auto.
        + rewrite <- erase_operator. change (OMod (erase_mod (tmodifier_operator m0 m))) with (erase_obj (ZMod (tmodifier_operator m0 m))).
          apply IH; auto. apply good_operator; [exact Ho|split; auto]. }
    destruct (HH (ZParser p) Hp) as [H1 H2]. cbn [erase_obj] in H1. rewrite <- H1.
    destruct (tpercents cvt (ZParser p) ms) as [[r|m]|]; cbn; (split; [reflexivity|intros o [= <-]]). exact (H2 _ eq_refl).
Qed.
End Facts.

(** ** C61 *)

(** A parser type exists iff its sets are sorted, its counts are not zero, and only one
    element type is written in it; that one is its [value_type]. *)
Theorem C61_one_value_type {T} (O : order T) cvt (p : tparser T) :
  exists_type O cvt p = true <-> plain_ok O p /\ exists v, Forall (eq v) (written cvt p).
Proof.
  rewrite exists_spec. split; intros [H1 H2]; split; eauto.
  destruct H2 as [v Hv]. assert (v = value_type cvt p) as <-; auto.
  rewrite Forall_forall in Hv. apply Hv, written_value_type.
Qed.

Theorem C61_value_type {T} (O : order T) cvt (p : tparser T) v :
  exists_type O cvt p = true -> (value_type cvt p = v <-> In v (written cvt p)).
Proof.
  intros H. apply exists_spec in H as [_ H]. rewrite Forall_forall in H.
  split; [intros <-; apply written_value_type|intros Hv; now apply H].
Qed.

(** The parsers which the operators give: the untyped operators (Operators.v) on the same
    operands, and the value type of the operands. *)
Definition gives_type {T} (O : order T) cvt (r : option (tparser T)) (v : vtype) (u : parser T) : Prop :=
  exists t, r = Some t /\ exists_type O cvt t = true /\ value_type cvt t = v /\ erase t = u.

(** p | q and p >> q compile iff the operands have the same value type. *)
Theorem C61_or {T} (O : order T) (HO : lawful O) cvt (p q : tparser T) :
  exists_type O cvt p = true -> exists_type O cvt q = true ->
  (value_type cvt p = value_type cvt q -> gives_type O cvt (tor O cvt p q) (value_type cvt p) (choice_operator O (erase p) (erase q))) /\
  (value_type cvt p <> value_type cvt q -> tor O cvt p q = None).
Proof.
  intros Hp Hq. unfold tor. split; intros Hv.
  - destruct (choice_total O cvt HO (value_type cvt p) p q) as (r & H1 & [H2 H3] & H4); [now split|now split|].
    rewrite (proj2 (compatible_spec cvt p q) Hv). exists r. auto.
  - destruct (compatible cvt p q) eqn:E; auto. now apply compatible_spec in E.
Qed.

Theorem C61_then {T} (O : order T) cvt (p q : tparser T) :
  exists_type O cvt p = true -> exists_type O cvt q = true ->
  (value_type cvt p = value_type cvt q -> gives_type O cvt (tthen cvt p q) (value_type cvt p) (sequence_operator (erase p) (erase q))) /\
  (value_type cvt p <> value_type cvt q -> tthen cvt p q = None).
Proof.
  intros Hp Hq. unfold tthen. split; intros Hv.
  - destruct (sequence_total O cvt (value_type cvt p) p q) as (r & H1 & [H2 H3] & H4); [now split|now split|].
    rewrite (proj2 (compatible_spec cvt p q) Hv). exists r. auto.
  - destruct (compatible cvt p q) eqn:E; auto. now apply compatible_spec in E.
Qed.

(** The other operators keep the value type and always compile where the untyped ones do. *)
Theorem C61_unary {T} (O : order T) (HO : lawful O) cvt (p : tparser T) :
  exists_type O cvt p = true ->
  gives_type O cvt (tor_epsilon O cvt p) (value_type cvt p) (or_epsilon O (erase p)) /\
  gives_type O cvt (Some (tmaybe_operator p)) (value_type cvt p) (maybe_operator (erase p)) /\
  gives_type O cvt (Some (tone_or_more_operator p)) (value_type cvt p) (one_or_more_operator (erase p)) /\
  gives_type O cvt (Some (tzero_or_more_operator p)) (value_type cvt p) (zero_or_more_operator (erase p)) /\
  match not_operator (erase p) with
  | Some u => gives_type O cvt (tnot_operator O p) (value_type cvt p) u
  | None => tnot_operator O p = None
  end.
Proof.
  intros Hp. split; [|split; [|split; [|split]]].
  - destruct (choice_total O cvt HO (value_type cvt p) p (XEpsilon (value_type cvt p))) as (r & H1 & [H2 H3] & H4); [now split|now split|].
    exists r. auto.
  - exists (tmaybe_operator p). destruct p; auto.
  - exists (tone_or_more_operator p). destruct p; auto.
  - exists (tzero_or_more_operator p). destruct p; auto.
  - destruct p; cbn [erase not_operator tnot_operator]; auto; cbn in Hp.
    + exists (XNoneOf k arr). unfold mk_none. rewrite Hp. auto.
    + exists (XAnyOf k arr). unfold mk_any. rewrite Hp. auto.
Qed.

(** Whatever a modifier makes of a parser has the value type of that parser.  (The
    delimiters in it are parsers; that they have the same value type is not assumed.) *)
Theorem C61_modifiers_keep {T} (O : order T) cvt (m : tmodifier T) p r :
  exists_type O cvt p = true -> Forall (fun d => exists_type O cvt d = true) (delimiters m) ->
  tpercent cvt (ZParser p) (ZMod m) = Some (ZParser r) ->
  exists_type O cvt r = true /\ value_type cvt r = value_type cvt p.
Proof.
  intros Hp Hm Hr. exact (fine_call O cvt (value_type cvt p) m Hm p (ZParser r) (conj Hp eq_refl) Hr).
Qed.

(** delimit and delimit_keep compile iff the delimiter has the value type of the parser. *)
Theorem C61_delimit {T} (O : order T) cvt (p d : tparser T) :
  exists_type O cvt p = true -> exists_type O cvt d = true ->
  (value_type cvt p = value_type cvt d ->
   gives_type O cvt (tdelimit_call cvt p d) (value_type cvt p) (delimit_call (erase p) (erase d)) /\
   gives_type O cvt (tdelimit_keep_call cvt p d) (value_type cvt p) (delimit_keep_call (erase p) (erase d)) /\
   gives_type O cvt (tas_parser (tpercent cvt (ZParser p) (ZMod (YDelimitBy d)))) (value_type cvt p) (delimit_call (erase p) (erase d)) /\
   gives_type O cvt (tas_parser (tpercent cvt (ZParser p) (ZMod (YDelimitKeepBy d)))) (value_type cvt p) (delimit_keep_call (erase p) (erase d))) /\
  (value_type cvt p <> value_type cvt d ->
   tdelimit_call cvt p d = None /\ tdelimit_keep_call cvt p d = None /\
   tpercent cvt (ZParser p) (ZMod (YDelimitBy d)) = None /\ tpercent cvt (ZParser p) (ZMod (YDelimitKeepBy d)) = None).
Proof.
  intros Hp Hd. unfold tdelimit_call, tdelimit_keep_call, tpercent. cbn [tcall]. split; intros Hv.
  - assert (H1 : compatible cvt p d = true) by now apply compatible_spec.
    assert (H2 : compatible cvt d p = true) by now apply compatible_spec.
    assert (H3 : compatible cvt p (XIgnore d) = true) by exact H1.
    rewrite H1, H2. unfold mk_delimit. rewrite H1, H3. cbn [option_map tas_parser]. unfold gives_type.
    repeat split; eexists; (split; [reflexivity|]); cbn [exists_type value_type erase]; rewrite ?H1, ?H3, Hp, Hd; auto.
  - destruct (compatible cvt p d) eqn:E1; [now apply compatible_spec in E1|].
    destruct (compatible cvt d p) eqn:E2; [apply compatible_spec in E2; now symmetry in E2|]. auto.
Qed.

(** With one value type throughout, and names written in one character type, a modifier
    compiles iff it does without value types (Modifiers.v), with the same outcome.  So the
    properties of modifiers and substitutions proved there carry over. *)
Theorem C61_same_as_untyped {T} (O : order T) cvt (m : tmodifier T) p k :
  exists_type O cvt p = true -> Forall (eq k) (names_of p) ->
  Forall (fun d => exists_type O cvt d = true /\ value_type cvt d = value_type cvt p) (delimiters m) -> Forall (eq k) (mod_names_of m) ->
  option_map erase_obj (tpercent cvt (ZParser p) (ZMod m)) = percent (OParser (erase p)) (OMod (erase_mod m)).
Proof.
  intros Hp Hn Hm Hmn. destruct (follows_call O cvt (value_type cvt p) k m) with (p := p) as [H _]; [now split|now repeat split|exact H].
Qed.

(** *** An input fits a parser iff it fits its value type

    [comparable k]: can the elements of the input be compared with elements of type [k]?
    That is what [parse] and [lookahead] of every parser ask ([input_constructible_for],
    span.h:225-226: any_of etc. basic_base.h:29, :43; choice.h:29, :53; sequence.h:29, :54;
    the same in the other parsers); custom.h:41-57 also asserts that get_parser() has the
    declared value type. *)
Section Inputs.
Context {T : Type} (O : order T) (cvt : nat -> vtype) (body : nat -> tparser T).

(** The parsers whose [parse] or [lookahead] a parser's own calls *)
Inductive uses : tparser T -> tparser T -> Prop :=
| uses_self p : uses p p
| uses_choice p ps q r : In q (p :: ps) -> uses q r -> uses (XChoice p ps) r
| uses_sequence p ps q r : In q (p :: ps) -> uses q r -> uses (XSequence p ps) r
| uses_maybe p r : uses p r -> uses (XMaybe p) r
| uses_exactly p n r : uses p r -> uses (XExactly p n) r
| uses_oom p r : uses p r -> uses (XOneOrMore p) r
| uses_zom p r : uses p r -> uses (XZeroOrMore p) r
| uses_delimit p d r : uses p r -> uses (XDelimit p d) r
| uses_delimiter p d r : uses d r -> uses (XDelimit p d) r
| uses_ignore p r : uses p r -> uses (XIgnore p) r
| uses_complete p r : uses p r -> uses (XComplete p) r
| uses_join p r : uses p r -> uses (XJoin p) r
| uses_map p f r : uses p r -> uses (XMap p f) r
| uses_filter p f r : uses p r -> uses (XFilter p f) r
| uses_named p k s r : uses p r -> uses (XNamed p k s) r
| uses_custom c r : uses (body c) r -> uses (XCustom c) r.

Lemma uses_fine v p r : (forall c, exists_type O cvt (body c) = true /\ value_type cvt (body c) = cvt c) ->
  uses p r -> fine O cvt v p -> fine O cvt v r.
Proof.
  intros Hb. induction 1; intros Hp; auto.
  - apply fine_choice in Hp. rewrite Forall_forall in Hp. auto.
  - apply fine_sequence in Hp. rewrite Forall_forall in Hp. auto.
  - apply IHuses. destruct Hp as [A B]. cbn in A. apply andb_true_iff in A as [A _]. now split.
  - apply IHuses. destruct Hp as [A B]. cbn in A. rewrite !andb_true_iff in A. now split.
  - apply IHuses. destruct Hp as [A B]. cbn in A. rewrite !andb_true_iff, compatible_spec in A. destruct A as [[A1 A2] A3]. split; auto. now rewrite <- A3.
  - apply IHuses. destruct Hp as [_ B]. destruct (Hb c) as [C D]. split; auto. now rewrite D.
Qed.

Theorem C61_input_fits (comparable : vtype -> bool) p :
  (forall c, exists_type O cvt (body c) = true /\ value_type cvt (body c) = cvt c) -> exists_type O cvt p = true ->
  (comparable (value_type cvt p) = true <-> forall q, uses p q -> comparable (value_type cvt q) = true).
Proof.
  intros Hb Hp. split; [|intros H; apply H; constructor].
  intros Hc q Hq. destruct (uses_fine (value_type cvt p) p q Hb Hq (conj Hp eq_refl)) as [_ ->]. exact Hc.
Qed.
End Inputs.

(** ** Cases *)
Definition wide := VChar CWChar.
Definition narrow := VChar CChar.
(** "ab"_any >> ~L"x"_all does not compile, L"ab"_any >> ~L"x"_all does. *)
Definition nat_O : order nat := Order nat Nat.ltb Nat.leb Nat.eqb.
Definition no_custom (c : nat) : vtype := narrow.
Definition wide_word : tparser nat := XSequence (XAnyOf wide [97; 98]) [XMaybe (XAllOf wide [120])].

Example C61_case_word : exists_type nat_O no_custom wide_word = true /\ value_type no_custom wide_word = wide /\
  written no_custom wide_word = [wide; wide] /\
  tthen no_custom (XAnyOf wide [97; 98]) (XMaybe (XAllOf wide [120])) = Some wide_word /\
  tthen no_custom (XAnyOf narrow [97; 98]) (XMaybe (XAllOf wide [120])) = None.
Proof. repeat split. Qed.

(** A type that mixes the two does not exist. *)
Example C61_case_mixed : exists_type nat_O no_custom (XMaybe (XChoice (XAllOf narrow [97]) [XAllOf wide [98]])) = false /\
  written no_custom (XMaybe (XChoice (XAllOf narrow [97]) [XAllOf wide [98]])) = [narrow; wide].
Proof. repeat split. Qed.

(** Sets of the same elements but of different types are not merged; of one type they are. *)
Example C61_case_or : tor nat_O no_custom (XAnyOf narrow [97]) (XAnyOf wide [97]) = None /\
  tor nat_O no_custom (XAnyOf wide [97]) (XAnyOf wide [97; 99]) = Some (XAnyOf wide [97; 99]) /\
  tor_epsilon nat_O no_custom wide_word = Some (XChoice wide_word [XEpsilon wide]).
Proof. repeat split. Qed.

(** The library's own tests: a delimiter of another type is refused, also when it is given
    by a substitution; one that is not used does not matter. *)
Definition word_named : tparser nat := XSequence (XNamed (XAnyOf wide [97; 98]) CChar "x") [XMaybe (XAllOf wide [120])].
Definition delimited_by (v : vtype) : tmodifier nat := YSubBy [((CChar, "x"%string), YDelimitBy (XAllOf v [44]))].
Example C61_case_sub :
  tpercent no_custom (ZParser word_named) (ZMod (delimited_by narrow)) = None /\
  tpercent no_custom (ZParser word_named) (ZMod (delimited_by wide)) =
    Some (ZParser (XSequence (XDelimit (XAnyOf wide [97; 98]) (XIgnore (XAllOf wide [44]))) [XMaybe (XAllOf wide [120])])) /\
  tpercent no_custom (ZParser wide_word) (ZMod (delimited_by narrow)) = Some (ZParser wide_word).
Proof. repeat split. Qed.
Example C61_case_untyped : Forall (eq CChar) (names_of word_named) /\ exists_type nat_O no_custom word_named = true /\
  Forall (fun d => exists_type nat_O no_custom d = true /\ value_type no_custom d = value_type no_custom word_named) (delimiters (delimited_by wide)) /\
  Forall (eq CChar) (mod_names_of (delimited_by wide)) /\
  percent (OParser (erase word_named)) (OMod (erase_mod (delimited_by wide))) =
    Some (OParser (PSequence (PDelimit (PAnyOf [97; 98]) (PIgnore (PAllOf [44]))) [PMaybe (PAllOf [120])])).
Proof. repeat split; repeat constructor. Qed.

(** A recursive parser of wide characters: its custom parts say so. *)
Definition wide_custom (c : nat) : vtype := wide.
Definition wide_body (c : nat) : tparser nat := XChoice (XSequence (XAllOf wide [40]) [XCustom 0; XAllOf wide [41]]) [XEpsilon wide].
Example C61_case_input : (forall c, exists_type nat_O wide_custom (wide_body c) = true /\ value_type wide_custom (wide_body c) = wide_custom c) /\
  exists_type nat_O wide_custom (XJoin (XCustom 0)) = true /\ uses wide_body (XJoin (XCustom 0)) (XAllOf wide [41]).
Proof.
  split; [now split|]. split; [reflexivity|]. apply uses_join, uses_custom.
  apply uses_choice with (q := XSequence (XAllOf wide [40]) [XCustom 0; XAllOf wide [41]]); [left; reflexivity|].
  apply uses_sequence with (q := XAllOf wide [41]); [right; right; left; reflexivity|constructor].
Qed.

(** ** C62: sub reaches every parser of that name

    [holds_name n p]: some part of [p] is named [n]. *)
Inductive holds_name {T} (n : name) : tparser T -> Prop :=
| holds_here q : holds_name n (XNamed q (fst n) (snd n))
| holds_named q k s : holds_name n q -> holds_name n (XNamed q k s)
| holds_choice p ps q : In q (p :: ps) -> holds_name n q -> holds_name n (XChoice p ps)
| holds_sequence p ps q : In q (p :: ps) -> holds_name n q -> holds_name n (XSequence p ps)
| holds_maybe p : holds_name n p -> holds_name n (XMaybe p)
| holds_exactly p j : holds_name n p -> holds_name n (XExactly p j)
| holds_oom p : holds_name n p -> holds_name n (XOneOrMore p)
| holds_zom p : holds_name n p -> holds_name n (XZeroOrMore p)
| holds_delimit p d : holds_name n p -> holds_name n (XDelimit p d)
| holds_delimiter p d : holds_name n d -> holds_name n (XDelimit p d)
| holds_ignore p : holds_name n p -> holds_name n (XIgnore p)
| holds_complete p : holds_name n p -> holds_name n (XComplete p)
| holds_join p : holds_name n p -> holds_name n (XJoin p)
| holds_map p f : holds_name n p -> holds_name n (XMap p f)
| holds_filter p f : holds_name n p -> holds_name n (XFilter p f).

(** A modifier that can put a parser named [n] into its result *)
Inductive adds_name {T} (n : name) : tmodifier T -> Prop :=
| adds_here : adds_name n (YName n)
| adds_delimit d : holds_name n d -> adds_name n (YDelimitBy d)
| adds_delimit_keep d : holds_name n d -> adds_name n (YDelimitKeepBy d)
| adds_sub subs s m : In (s, m) subs -> adds_name n m -> adds_name n (YSubBy subs)
| adds_multi ms m : In m ms -> adds_name n m -> adds_name n (YMulti ms).

Lemma holds_contains {T} (n : name) (p : tparser T) : holds_name n p -> contains_name (enc (fst n) (snd n)) (erase p).
Proof.
  induction 1; cbn [erase]; try (now constructor);
    try (eapply cn_in; [|eassumption]; cbn; auto; fail);
    (eapply cn_in; [|eassumption]; cbn [children]; destruct H as [<-|H]; [now left|right; now apply in_map]).
Qed.

Lemma contains_holds {T} (n : name) (p : tparser T) : contains_name (enc (fst n) (snd n)) (erase p) -> holds_name n p.
Proof.
  induction p as [k a|k a|k a|k|k|c|p ps IHp IHs|p ps IHp IHs|p IHp|p j IHp|p IHp|p IHp|p d IHp IHd|p IHp|p IHp|p IHp|p f IHp|p f IHp|p k s IHp] using tparser_ind';
    cbn [erase]; intros H; inversion H as [q Eq|r q Hin Hq]; subst; try (now destruct Hin);
    try (destruct Hin as [<-|[]]; constructor; auto; fail).
  - destruct Hin as [<-|Hin]; [eapply holds_choice; [now left|auto]|]. apply in_map_iff in Hin as (x & <- & Hx).
    rewrite Forall_forall in IHs. eapply holds_choice; [right; exact Hx|auto].
  - destruct Hin as [<-|Hin]; [eapply holds_sequence; [now left|auto]|]. apply in_map_iff in Hin as (x & <- & Hx).
    rewrite Forall_forall in IHs. eapply holds_sequence; [right; exact Hx|auto].
  - destruct Hin as [<-|[<-|[]]]; [now apply holds_delimit; auto|now apply holds_delimiter; auto].
  - destruct n as [l t]. cbn [fst snd] in *. assert (k = l) as -> by (destruct k, l; cbn in *; congruence).
    exact (holds_here (l, t) p).
Qed.

Lemma adds_adds {T} (n : name) (m : tmodifier T) : adds (enc (fst n) (snd n)) (erase_mod m) -> adds_name n m.
Proof.
  induction m as [m Hns Hnm|subs IHs|ms IHm] using tmodifier_ind'; intros H.
  - destruct m; cbn [erase_mod] in H; inversion H; subst; try (constructor; now apply contains_holds).
    + destruct n0 as [l t], n as [k s]. cbn [fst snd] in *. assert (l = k) as -> by (destruct k, l; cbn in *; congruence).
      subst. constructor.
    + now destruct (Hns subs).
    + now destruct (Hnm ms).
  - cbn [erase_mod] in H. inversion H as [| | |subs' s m Hin Ha|]; subst. apply in_map_iff in Hin as ([s' m'] & E & Hin).
    injection E as _ <-. rewrite Forall_forall in IHs. eapply adds_sub; [exact Hin|]. now apply (IHs _ Hin).
  - cbn [erase_mod] in H. inversion H as [| | | |ms' m Hin Ha]; subst. apply in_map_iff in Hin as (m' & <- & Hin).
    rewrite Forall_forall in IHm. eapply adds_multi; [exact Hin|]. now apply IHm.
Qed.

(** With the names in one character type, no parser is left with the substituted name
    (unless the modifier gives it that name again), and if there is none nothing changes. *)
Theorem C62_one_character_type_partial {T} (O : order T) cvt (p r : tparser T) (n : name) m :
  exists_type O cvt p = true -> Forall (eq (fst n)) (names_of p) ->
  Forall (fun d => exists_type O cvt d = true /\ value_type cvt d = value_type cvt p) (delimiters m) ->
  Forall (eq (fst n)) (mod_names_of m) ->
  tpercent cvt (ZParser p) (ZMod (YSubBy [(n, m)])) = Some (ZParser r) ->
  (~ adds_name n m -> ~ holds_name n r) /\
  (~ holds_name n p -> erase r = erase p).
Proof.
  intros Hp Hn Hd Hm Hr.
  assert (HH := C61_same_as_untyped O cvt (YSubBy [(n, m)]) p (fst n) Hp Hn).
  cbn [delimiters mod_names_of flat_map fst snd] in HH. rewrite !app_nil_r in HH.
  specialize (HH Hd (Forall_cons _ eq_refl Hm)). rewrite Hr in HH. cbn [option_map erase_obj erase_mod map fst snd] in HH.
  symmetry in HH. split.
  - intros Ha Hh. apply holds_contains in Hh. revert Hh. apply (C31_no_name_left _ (erase_mod m) (erase p)); auto.
    intros H. now apply Ha, adds_adds.
  - intros Hh. rewrite C31_identity in HH; [congruence|]. intros H. now apply Hh, contains_holds.
Qed.

(** With names of any character types: what is left with the substituted name is inside a
    parser with a name in another character type.  [sees_name n p]: some part of [p] is named
    [n] and the names around it, if any, are in the character type of [n]. *)
Inductive sees_name {T} (n : name) : tparser T -> Prop :=
| sees_here q : sees_name n (XNamed q (fst n) (snd n))
| sees_named q s : sees_name n q -> sees_name n (XNamed q (fst n) s)
| sees_choice p ps q : In q (p :: ps) -> sees_name n q -> sees_name n (XChoice p ps)
| sees_sequence p ps q : In q (p :: ps) -> sees_name n q -> sees_name n (XSequence p ps)
| sees_maybe p : sees_name n p -> sees_name n (XMaybe p)
| sees_exactly p j : sees_name n p -> sees_name n (XExactly p j)
| sees_oom p : sees_name n p -> sees_name n (XOneOrMore p)
| sees_zom p : sees_name n p -> sees_name n (XZeroOrMore p)
| sees_delimit p d : sees_name n p -> sees_name n (XDelimit p d)
| sees_delimiter p d : sees_name n d -> sees_name n (XDelimit p d)
| sees_ignore p : sees_name n p -> sees_name n (XIgnore p)
| sees_complete p : sees_name n p -> sees_name n (XComplete p)
| sees_join p : sees_name n p -> sees_name n (XJoin p)
| sees_map p f : sees_name n p -> sees_name n (XMap p f)
| sees_filter p f : sees_name n p -> sees_name n (XFilter p f).

Lemma sub_sees {T} cvt (n : name) (f : tparser T -> option (tparser T)) :
  (forall q r, f q = Some r -> sees_name n r -> sees_name n q) ->
  forall p r, tsubstitute_one cvt n f p = Some r -> ~ sees_name n r.
Proof.
  intros Hf p. induction p as [k a|k a|k a|k|k|c|p ps IHp IHs|p ps IHp IHs|p IHp|p j IHp|p IHp|p IHp|p d IHp IHd|p IHp|p IHp|p IHp|p g IHp|p g IHp|p k s IHp] using tparser_ind';
    intros r Hr Hs; cbn [tsubstitute_one] in Hr; try (injection Hr as <-; inversion Hs; fail);
    try (destruct (tsubstitute_one cvt n f p) as [p'|] eqn:Ep; [|discriminate]; cbn in Hr; injection Hr as <-; inversion Hs; subst;
         now apply (IHp p' eq_refl)).
  1,2: destruct (tsubstitute_one cvt n f p) as [p'|] eqn:Ep; [|discriminate];
    destruct (all_some (map (tsubstitute_one cvt n f) ps)) as [ps'|] eqn:Es; [|discriminate];
    assert (Hall : Forall (fun q => ~ sees_name n q) ps') by exact (all_some_Forall _ _ ps ps' IHs Es);
    unfold mk_choice, mk_sequence in Hr; destruct (forallb (compatible cvt p') ps'); [|discriminate]; injection Hr as <-;
    rewrite Forall_forall in Hall;
    inversion Hs as [| |? ? q Hin Hq|? ? q Hin Hq| | | | | | | | | | |]; subst; (destruct Hin as [<-|Hin]; [now apply (IHp p' eq_refl)|now apply (Hall q)]).
  - destruct (tsubstitute_one cvt n f p) as [p'|] eqn:Ep; [|discriminate]. unfold mk_exactly in Hr. destruct (j =? 0); [discriminate|].
    injection Hr as <-. inversion Hs; subst. now apply (IHp p' eq_refl).
  - destruct (tsubstitute_one cvt n f p) as [p'|] eqn:Ep; [|discriminate].
    destruct (tsubstitute_one cvt n f d) as [d'|] eqn:Ed; [|discriminate].
    unfold mk_delimit in Hr. destruct (compatible cvt p' d'); [|discriminate]. injection Hr as <-.
    inversion Hs; subst; [now apply (IHp p' eq_refl)|now apply (IHd d' eq_refl)].
  - destruct n as [l t]. unfold compare_names in Hr. cbn [fst snd] in *. destruct (chartype_eqb l k) eqn:Ek.
    + apply chartype_eqb_spec in Ek as <-. destruct (String.eqb_spec t s) as [<-|Hne].
      * destruct (tsubstitute_one cvt (l, t) f p) as [p'|] eqn:Ep; [|discriminate]. apply (IHp p' eq_refl). now apply (Hf p' r).
      * destruct (tsubstitute_one cvt (l, t) f p) as [p'|] eqn:Ep; [|discriminate]. injection Hr as <-.
        inversion Hs; subst; [now apply Hne|now apply (IHp p' eq_refl)].
    + injection Hr as <-. inversion Hs; subst; cbn [fst] in *; now rewrite chartype_eqb_refl in Ek.
Qed.

Theorem C62_any_character_type_partial {T} cvt (p r : tparser T) (n : name) m :
  (forall q r, tpercent cvt (ZParser q) (ZMod m) = Some (ZParser r) -> sees_name n r -> sees_name n q) ->
  tpercent cvt (ZParser p) (ZMod (YSubBy [(n, m)])) = Some (ZParser r) -> ~ sees_name n r.
Proof.
  intros Hm Hr. cbn [tpercent] in Hr. rewrite tcall_sub in Hr by discriminate. cbn [tsubstitute] in Hr.
  destruct (tsubstitute_one cvt n (fun q => tas_parser (tcall cvt m q)) p) as [p'|] eqn:E; [|discriminate]. injection Hr as <-.
  revert E. apply sub_sees. intros q r' Hq. destruct (tcall cvt m q) as [[r''|]|] eqn:Ec; try discriminate. injection Hq as ->.
  now apply Hm.
Qed.

(** Not so in general: a parser with a name in another character type is passed over with
    everything inside it, without a diagnostic. *)
Definition wrapped_name : tparser nat := XNamed (XSequence (XNamed (XAllOf narrow [97]) CChar "x") [XAllOf narrow [98]]) CWChar "outer".
Theorem C62_other_character_type_refuted : exists (p : tparser nat) n m r,
  exists_type nat_O no_custom p = true /\ holds_name n p /\ ~ adds_name n m /\
  tpercent no_custom (ZParser p) (ZMod (YSubBy [(n, m)])) = Some (ZParser r) /\ holds_name n r /\ r = p.
Proof.
  assert (H : holds_name (CChar, "x"%string) wrapped_name).
  { apply holds_named. eapply holds_sequence; [left; reflexivity|]. exact (holds_here (CChar, "x"%string) _). }
  exists wrapped_name, (CChar, "x"%string), YIgnore, wrapped_name. repeat split; auto. intros Ha. inversion Ha.
Qed.

(** The same with the outer name in the same character type *)
Example C62_case : let p := XNamed (XSequence (XNamed (XAllOf narrow [97]) CChar "x") [XAllOf narrow [98]]) CChar "outer" in
  exists_type nat_O no_custom p = true /\ Forall (eq CChar) (names_of p) /\
  tpercent no_custom (ZParser p) (ZMod (YSubBy [((CChar, "x"%string), YIgnore)])) =
    Some (ZParser (XNamed (XSequence (XIgnore (XAllOf narrow [97])) [XAllOf narrow [98]]) CChar "outer")).
Proof. repeat split; repeat constructor. Qed.

(** ignore adds no names; in the witness the name is inside one of another character type. *)
Example C62_case_ignore : (forall n (q r : tparser nat), tpercent no_custom (ZParser q) (ZMod YIgnore) = Some (ZParser r) -> sees_name n r -> sees_name n q) /\
  ~ sees_name (CChar, "x"%string) wrapped_name.
Proof.
  split.
  - intros n q r [= <-]. destruct (family_eq_dec _ _); auto. intros H. now inversion H.
  - intros H. inversion H.
Qed.

Print Assumptions C61_one_value_type.
Print Assumptions C61_value_type.
Print Assumptions C61_or.
Print Assumptions C61_then.
Print Assumptions C61_unary.
Print Assumptions C61_modifiers_keep.
Print Assumptions C61_delimit.
Print Assumptions C61_same_as_untyped.
Print Assumptions C61_input_fits.
Print Assumptions C62_one_character_type_partial.
Print Assumptions C62_any_character_type_partial.
Print Assumptions C62_other_character_type_refuted.
