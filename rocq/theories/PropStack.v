(** * Property C54: how deep the calls of a parser nest *)
From Coq Require Import String List Arith ZArith Bool Lia.
From Verif Require Import Types Compound Parser Outcome CompoundFacts Exec Mono Derive Typing Join Leaves Sound
  BigStep BigSound BigComplete Peg Throws Elems Samples Runs PropCore PropPeg Lossless Agree Check PropAgree Grammar CharPeg Names PropNames Term PropTerm Depth
  StaticArray Operators PropSets Modifiers ExJson PropJson JsonGrammar JsonPeg ExAlgebraic PropAlgebraic JsonDoc PropJsonDoc PropDepth.
Import ListNotations.
Local Open Scope outcome_scope.

(** ** Parsers that do not come back to themselves *)
Section C54.
Context {T V : Type} (E : env T V).
Implicit Types (p q r d : parser T).

(** Through components and get_parser(), a parser at most [h] class templates deep. *)
Fixpoint tall (h : nat) p : Prop :=
  match h with 0 => False | S h' => forall q, In q (components E p) -> tall h' q end.

(** Nesting of the class templates in the type of a parser *)
Fixpoint height p : nat :=
  S (match p with
     | PChoice q qs | PSequence q qs => Nat.max (height q) (list_max (map height qs))
     | PMaybe q | PExactly q _ | POneOrMore q | PZeroOrMore q | PIgnore q | PComplete q
     | PJoin q | PMap q _ | PFilter q _ | PNamed q _ => height q
     | PDelimit q d => Nat.max (height q) (height d)
     | _ => 0
     end).

Lemma tall_le h : forall h' p, tall h p -> h <= h' -> tall h' p.
Proof.
  induction h as [|h IH]; intros h' p H Hle; [destruct H|]. destruct h' as [|h']; [lia|]. intros q Hq. apply (IH h'); [now apply H|lia].
Qed.

Lemma height_tall p : customs p = [] -> tall (height p) p.
Proof.
  induction p using parser_ind'; cbn [customs height tall components]; intros Hc q Hq; cbn in Hq;
    repeat match goal with H : _ \/ False |- _ => destruct H as [H|[]] | H : False |- _ => destruct H end; subst; auto.
  - apply app_eq_nil in Hc as [H1 H2]. destruct Hq as [<-|Hq]; [apply (tall_le (height p)); auto; lia|].
    assert (Hl : height q <= list_max (map height qs)).
    { pose proof (proj1 (list_max_le (map height qs) _) (le_n _)) as HF. rewrite Forall_forall in HF. apply HF. now apply in_map. }
    rewrite Forall_forall in H. apply (tall_le (height q)); [|lia]. apply H; auto.
    destruct (customs q) as [|c l] eqn:Hq'; auto. exfalso. assert (In c (flat_map customs qs)) by (apply in_flat_map; exists q; rewrite Hq'; split; [auto|now left]).
    now rewrite H2 in H0.
  - apply app_eq_nil in Hc as [H1 H2]. destruct Hq as [<-|Hq]; [apply (tall_le (height p)); auto; lia|].
    assert (Hl : height q <= list_max (map height qs)).
    { pose proof (proj1 (list_max_le (map height qs) _) (le_n _)) as HF. rewrite Forall_forall in HF. apply HF. now apply in_map. }
    rewrite Forall_forall in H. apply (tall_le (height q)); [|lia]. apply H; auto.
    destruct (customs q) as [|c l] eqn:Hq'; auto. exfalso. assert (In c (flat_map customs qs)) by (apply in_flat_map; exists q; rewrite Hq'; split; [auto|now left]).
    now rewrite H2 in H0.
  - apply app_eq_nil in Hc as [H1 H2]. destruct Hq as [<-|[<-|[]]]; [apply (tall_le (height p1))|apply (tall_le (height p2))]; auto; lia.
  - discriminate.
Qed.

(** [step_le] of Mono.v, asking about the components only *)
Ltac le_step :=
  match goal with
  | |- le_out ?a ?a => apply le_out_refl
  | |- le_out (bind _ _) (bind _ _) => apply bind_le
  | |- forall _, _ => intro
  | |- le_out (match ?x with _ => _ end) (match ?x with _ => _ end) => destruct x
  | |- le_out (if ?x then _ else _) (if ?x then _ else _) => destruct x
  | |- le_out (let (_, _) := ?x in _) (let (_, _) := ?x in _) => destruct x
  | |- le_out OOF _ => apply le_out_OOF
  end.
Section Rec.
Variables r1 r2 : mode -> parser T -> pfun.

Lemma execute_le_on ct u p idx st : (forall m, le_fun (r1 m p) (r2 m p)) -> le_out (execute r1 ct u p idx st) (execute r2 ct u p idx st).
Proof. intros Hr. destruct st; cbn. destruct idx; (apply bind_le; [apply Hr|auto]). Qed.

Lemma exec_or_le_on u ps : (forall m p idx, In (p, idx) ps -> le_fun (r1 m p) (r2 m p)) -> forall st, le_out (exec_or r1 u ps st) (exec_or r2 u ps st).
Proof.
  induction ps as [|[p idx] ps IH]; intros Hr st; cbn; auto.
  apply bind_le; [apply execute_le_on; intros m; exact (Hr m p idx (or_introl eq_refl))|]. intros [[|] st']; auto. apply IH. intros; eapply Hr; right; eauto.
Qed.

Lemma exec_and_le_on u ps : (forall m p idx, In (p, idx) ps -> le_fun (r1 m p) (r2 m p)) -> forall st, le_out (exec_and r1 u ps st) (exec_and r2 u ps st).
Proof.
  induction ps as [|[p idx] ps IH]; intros Hr st; cbn; auto.
  apply bind_le; [apply execute_le_on; intros m; exact (Hr m p idx (or_introl eq_refl))|]. intros [[|] st']; auto. apply IH. intros; eapply Hr; right; eauto.
Qed.

Lemma step_le_on k k' m p i : (forall m q, In q (components E p) -> le_fun (r1 m q) (r2 m q)) -> k <= k' -> le_out (step E r1 k m p i) (step E r2 k' m p i).
Proof.
  intros Hr Hk.
  assert (Hp : forall q qs m r (idx : index) l, components E p = q :: qs -> In (r, idx) (combine (q :: qs) l) -> le_fun (r1 m r) (r2 m r)).
  { intros q qs m' r idx l Hc Hi. apply in_combine_l in Hi. apply Hr. now rewrite Hc. }
  assert (Hl : forall q qs m r (idx : index), components E p = q :: qs -> In (r, idx) (map (fun p => (p, None)) (q :: qs)) -> le_fun (r1 m r) (r2 m r)).
  { intros q qs m' r idx Hc Hi. apply in_map_iff in Hi as (? & [= -> _] & ?). apply Hr. now rewrite Hc. }
  destruct p; cbn [components] in *; destruct m; cbn [step];
    unfold choice_parse, choice_look, sequence_parse, sequence_look,
      maybe_parse, maybe_look, exactly_parse, exactly_look, one_or_more_parse, one_or_more_look,
      zero_or_more_parse, zero_or_more_look, delimit_parse, delimit_look, complete_run,
      map_parse, filter_parse, custom_parse, join_generic, join_parse;
    try (apply Hr; now left);
    try solve [repeat first [apply exec_or_le_on; solve [eauto] | apply exec_and_le_on; solve [eauto]
      | apply Hr; solve [now left | right; now left]
      | apply exactly_loop_le; solve [auto | apply Hr; now left]
      | apply rep_loop_le; solve [auto | apply Hr; now left]
      | apply delim_loop_le; solve [auto | apply Hr; solve [now left | right; now left]]
      | le_step ]].
  - destruct (join_special E p k) as [f|] eqn:Hf.
    + destruct p; cbn in *; try discriminate;
        (destruct (as_basic E p) as [[fc len]|]; [|discriminate]);
        try (destruct (n =? 0); [discriminate|]);
        injection Hf as <-; auto;
        unfold jo_parse, jz_parse;
        repeat first [apply jr_loop_le; solve [auto] | le_step].
    + assert (join_special E p k' = None) as ->.
      { destruct p; cbn in *; try reflexivity;
        (destruct (as_basic E p) as [[fc len]|]; try discriminate; try reflexivity);
        try (destruct (n =? 0); try discriminate; reflexivity). }
      repeat first [apply Hr; now left | le_step].
  - destruct (join_special E p k) as [f|] eqn:Hf.
    + destruct p; cbn in *; try discriminate;
        (destruct (as_basic E p) as [[fc len]|]; [|discriminate]);
        try (destruct (n =? 0); [discriminate|]);
        injection Hf as <-; auto;
        unfold jo_look, jz_look;
        repeat first [apply jr_loop_le; solve [auto] | le_step].
    + assert (join_special E p k' = None) as ->.
      { destruct p; cbn in *; try reflexivity;
        (destruct (as_basic E p) as [[fc len]|]; try discriminate; try reflexivity);
        try (destruct (n =? 0); try discriminate; reflexivity). }
      apply Hr. now left.
Qed.
End Rec.

Lemma tall_drun h : forall p, tall h p -> forall n m i, le_out (run E n m p i) (drun E n h m p i).
Proof.
  induction h as [|h IH]; intros p Ht n m i; [destruct Ht|]. destruct n as [|n]; [now left|]. cbn [run drun].
  apply step_le_on; [|lia]. intros m' q Hq j. eapply le_out_trans; [apply IH; now apply Ht|]. apply drun_le; lia.
Qed.

(** Whatever the input: the calls of a parser [h] class templates deep never nest deeper than
    [h], even when it runs for ever; the depth does not depend on the input. *)
Theorem C54_bounded_partial h p m i o : tall h p -> (evals E m p i o <-> o <> OOF /\ exists rounds, drun E rounds h m p i = o).
Proof.
  intros Ht. split.
  - intros [Ho [n Hn]]. split; auto. exists n. destruct (tall_drun h p Ht n m i) as [H|H]; congruence.
  - intros [Ho [W H]]. apply C53_same_program. eauto.
Qed.

(** In particular without custom parsers: as deep as the type. *)
Theorem C54_bounded_by_type_partial p m i o : customs p = [] -> evals E m p i o -> exists rounds, drun E rounds (height p) m p i = o.
Proof. intros Hc He. apply (C54_bounded_partial (height p)) in He; [apply He|now apply height_tall]. Qed.
End C54.

(** ** The JSON example: no bound *)
Section C54_json.
Context (memory : nat -> list nat) (cons : ty -> list val -> fnres).
Hypothesis Hcons : json_cons_typed cons.
Notation J := (json_env memory cons).

(** However deep the calls may nest: it fails, or that depth is not enough. *)
Definition quits (m : mode) (p : parser nat) (i : span) : Prop :=
  forall W d, drun J W d m p i = OOF \/ exists tr, drun J W d m p i = Done (Res None i) tr.
Definition passes (m : mode) (p : parser nat) (i : span) (n : nat) : Prop :=
  forall W d, drun J W d m p i = OOF \/ exists v tr, drun J W d m p i = Done (Res (Some v) (after i n)) tr.

Lemma evals_quits m p i tr : evals J m p i (Done (Res None i) tr) -> quits m p i.
Proof.
  intros [_ [n Hn]] W d. destruct (drun J W d m p i) eqn:Hd; auto; right;
    destruct (drun_run J W d m p i) as [H|H]; try congruence;
    rewrite Hd in H; (assert (Hx := run_det J _ _ _ _ _ _ _ Hn (eq_sym H)); specialize (Hx ltac:(discriminate) ltac:(discriminate)); inversion Hx; subst; eauto).
Qed.

Lemma evals_passes m p i n v tr : evals J m p i (Done (Res (Some v) (after i n)) tr) -> passes m p i n.
Proof.
  intros [_ [n' Hn]] W d. destruct (drun J W d m p i) eqn:Hd; auto; right;
    destruct (drun_run J W d m p i) as [H|H]; try congruence;
    rewrite Hd in H; (assert (Hx := run_det J _ _ _ _ _ _ _ Hn (eq_sym H)); specialize (Hx ltac:(discriminate) ltac:(discriminate)); inversion Hx; subst; eauto).
Qed.

(** Parsers without user code do what the PEG says. *)
Definition no_code (p : parser nat) : bool :=
  closed J [] p && forallb (fun q => match q with PMap _ _ | PFilter _ _ | PCustom _ => false | _ => true end) (grammar J [] p).
Definition plain (p : parser nat) : Prop :=
  no_code p = true /\ steady_b J [0; 1; 2] p = true /\ compiles J Parse p = true /\ compiles J Look p = true.

Lemma peg_does m p i o : valid J i -> plain p -> peg J p (elems J i) o ->
  match o with None => quits m p i | Some n => passes m p i n end.
Proof.
  intros Hv (Hn & Hs & Hp & Hl) Ho. apply (steady_b_ok J [0; 1; 2]) in Hs. destruct m.
  - destruct (peg_parse J p i o (json_program memory cons Hcons) Hv Hp Hl Hs Ho) as [[e He]|H].
    + exfalso. destruct (C47_exceptions_are_users J Parse p i e He) as (_ & q & f & args & Hq & _ & Hk).
      unfold no_code in Hn. apply andb_prop in Hn as [Hc Hn]. apply (reach_grammar J []) in Hq; auto.
      rewrite forallb_forall in Hn. specialize (Hn q Hq). destruct Hk as [[r ->]|[[r ->]|(c & t & -> & _)]]; discriminate.
    + destruct o; [destruct H as (v & tr & H); eapply evals_passes; eauto|destruct H as [tr H]; eapply evals_quits; eauto].
  - assert (He : evals J Look p i (Done (peg_result i o) [])).
    { apply C38_lookahead_is_peg; auto; [|eauto]. intros c. apply (ec_compiles J (json_customs memory cons)). }
    destruct o; [eapply evals_passes; exact He|eapply evals_quits; exact He].
Qed.

(** The combinators *)
Lemma and_quits W d u p ix l i b : (forall m, quits m p i) ->
  exec_and (drun J W d) u ((p, ix) :: l) (i, b) = OOF \/ exists b' tr, exec_and (drun J W d) u ((p, ix) :: l) (i, b) = Done (false, (i, b')) tr.
Proof.
  intros Hq. cbn [exec_and]. unfold execute. destruct ix as [k|].
  - destruct (Hq Parse W d) as [->|[tr ->]]; cbn; eauto.
  - destruct (Hq Look W d) as [->|[tr ->]]; cbn; eauto.
Qed.

Lemma seq_quits m p ps i tys : result_fors J (p :: ps) = Some tys -> (forall m, quits m p i) -> quits m (PSequence p ps) i.
Proof.
  intros Ht Hq W [|d]; [now left|]. cbn [drun step]. unfold sequence_parse, sequence_look. rewrite Ht. destruct m.
  - destruct (snd (filter_out_void tys)) as [|ix l] eqn:Hl.
    { exfalso. rewrite filter_out_void_spec in Hl. cbn [snd] in Hl. apply (f_equal (@List.length _)) in Hl. rewrite seq_from_length in Hl.
      apply result_fors_length in Ht. cbn in *. lia. }
    cbn [combine]. edestruct and_quits as [->|(b' & tr & ->)]; eauto.
    right. cbn. eauto.
  - pose proof (and_quits W d (unwrapped (fst (filter_out_void tys))) p None (map (fun p => (p, None)) ps) i RVoid Hq) as Hx.
    change ((p, None) :: map (fun p => (p, None)) ps) with (map (fun p => (p, @None nat)) (p :: ps)) in Hx.
    destruct Hx as [Hx|(b' & tr & Hx)]; unfold index in *; rewrite Hx; [now left|]. right. cbn. eauto.
Qed.

Lemma or_stuck W d u q l2 i : (forall m, drun J W d m q i = OOF) ->
  forall l ps b, map fst ps = l ++ q :: l2 -> (forall m r, In r l -> quits m r i) -> exec_or (drun J W d) u ps (i, b) = OOF.
Proof.
  intros Hq. induction l as [|r l IH]; intros [|[p jx] ps] b Hm Hl; try discriminate; injection Hm as -> Hm; cbn [exec_or]; unfold execute.
  - destruct jx; rewrite Hq; reflexivity.
  - assert (Hx := IH ps b Hm (fun m r Hi => Hl m r (or_intror Hi))).
    destruct jx; [destruct (Hl Parse r (or_introl eq_refl) W d) as [->|[tr ->]]|destruct (Hl Look r (or_introl eq_refl) W d) as [->|[tr ->]]]; cbn; auto; now rewrite Hx.
Qed.

Lemma ignore_quits m c i : valid J i -> head_not (eq c) (elems J i) -> quits m (PIgnore (PAllOf [c])) i.
Proof.
  intros Hv Hh. apply (peg_does m _ i None); auto; [|apply G_ignore, peg_isnt; auto]. repeat split; vm_compute; reflexivity.
Qed.

Lemma str_quits m i : valid J i -> head_not (eq 34) (elems J i) -> quits m str i.
Proof. intros. rewrite str_shape. eapply seq_quits; [vm_compute; reflexivity|]. intros; now apply ignore_quits. Qed.

Lemma object_quits m i : valid J i -> head_not (eq 123) (elems J i) -> quits m json_object i.
Proof.
  intros Hv Hh W [|d]; [now left|]. cbn [drun step json_object].
  assert (Hb : quits m object_body i).
  { rewrite object_shape. eapply seq_quits; [vm_compute; reflexivity|]. intros; now apply ignore_quits. }
  change (cust_body J 1) with object_body. destruct m; [|apply Hb].
  unfold custom_parse. destruct (Hb W d) as [->|[tr ->]]; cbn; eauto.
Qed.

Lemma number_quits m i : valid J i -> head_not (fun c => c = 45 \/ is_dg c) (elems J i) -> quits m number i.
Proof.
  intros Hv Hh.
  assert (Hi : forall m, quits m integer i).
  { intros m'. apply (peg_does m' _ i None); auto; [repeat split; vm_compute; reflexivity|].
    pose proof (peg_integer memory cons (elems J i)) as Hp. cbn zeta in Hp. destruct (elems J i) as [|c l]; [exact Hp|].
    cbn [sign_len] in Hp. assert (45 =? c = false) as Hc by (apply Nat.eqb_neq; intros <-; apply Hh; auto).
    rewrite Hc in Hp. cbn [skipn int_len] in Hp. assert (c =? 48 = false) as H0 by (apply Nat.eqb_neq; intros ->; apply Hh; right; unfold is_dg; lia).
    rewrite H0 in Hp. destruct (dgb c) eqn:Hd; [|exact Hp]. exfalso. apply Hh. right. now apply dgb_spec. }
  assert (Hs : exists s, number = PMap (PSequence integer s) (FApply (FConstruct t_number)) /\ exists tys, result_fors J (integer :: s) = Some tys).
  { eexists. split; [reflexivity|]. eexists. vm_compute. reflexivity. }
  destruct Hs as (s & Hn & tys & Ht). assert (Hq : forall m, quits m (PSequence integer s) i) by (intros; eapply seq_quits; eauto).
  intros W [|d]; [now left|]. rewrite Hn. cbn [drun step]. destruct m; [|apply Hq].
  rewrite <- Hn. destruct (result_for J number) eqn:Hr; [|vm_compute in Hr; discriminate].
  unfold map_parse. destruct (Hq Parse W d) as [->|[tr ->]]; cbn; eauto.
Qed.

Lemma value_types : result_fors J [whitespace; value_choice; whitespace] = Some [TVoid; t_variant; TVoid].
Proof. vm_compute. reflexivity. Qed.
Lemma array_types : result_fors J [PIgnore (PAllOf [91]); PChoice (PDelimit json_value (PIgnore (PAllOf [44]))) [whitespace]; PIgnore (PAllOf [93])] = Some [TVoid; t_array; TVoid].
Proof. vm_compute. reflexivity. Qed.

(** A sequence whose first parser delivers nothing and whose second one does not come back *)
Lemma seq_stuck W d p q r t i n : result_fors J [p; q; r] = Some [TVoid; t; TVoid] -> is_void t = false ->
  passes Look p i n -> (forall m, drun J W d m q (after i n) = OOF) -> forall m, drun J W (S d) m (PSequence p [q; r]) i = OOF.
Proof.
  intros Ht Hv Hp Hq m. cbn [drun step]. destruct m; unfold sequence_parse, sequence_look; rewrite Ht.
  - rewrite filter_out_void_spec. cbn. rewrite Hv. cbn. destruct (Hp W d) as [->|(v & tr & ->)]; cbn; auto. now rewrite Hq.
  - cbn. destruct (Hp W d) as [->|(v & tr & ->)]; cbn; auto. now rewrite Hq.
Qed.

Lemma choice_stuck W d p ps l1 q l2 i : p :: ps = l1 ++ q :: l2 -> compiles J Parse (PChoice p ps) = true ->
  (forall m r, In r l1 -> quits m r i) -> (forall m, drun J W d m q i = OOF) -> forall m, drun J W (S d) m (PChoice p ps) i = OOF.
Proof.
  intros Hl Hc Hr Hq m. cbn [drun step]. unfold choice_parse, choice_look. cbn [compiles] in Hc.
  destruct (result_fors J (p :: ps)) as [tys|] eqn:Ht; [|discriminate]. apply andb_prop in Hc as [Hc _]. destruct m.
  - rewrite Hc. rewrite (or_stuck W d _ q l2 i Hq l1); auto. rewrite <- Hl.
    assert (Hn : List.length (p :: ps) = List.length (snd (filter_out_void_deduplicate tys))) by (rewrite len_dedup; now apply result_fors_length in Ht).
    revert Hn. generalize (snd (filter_out_void_deduplicate tys)). generalize (p :: ps).
    induction l as [|a l IH]; intros [|x l'] Hn; cbn in *; try discriminate; auto. f_equal. apply IH. lia.
  - rewrite (or_stuck W d _ q l2 i Hq l1); auto. rewrite map_map, <- Hl. cbn [fst]. apply map_id.
Qed.

(** [d] opening brackets are too many for calls nested [d] deep, however many rounds loops run. *)
Lemma deep W d : forall i, valid J i -> (exists k rest, d <= k /\ elems J i = repeat 91 k ++ rest) ->
  forall m, drun J W d m json_value i = OOF /\ drun J W d m json_array i = OOF.
Proof.
  induction d as [d IH] using lt_wf_ind. intros i Hv (k & rest & Hk & He) m.
  destruct d as [|d]; [split; reflexivity|]. destruct k as [|k]; [lia|]. cbn [repeat app] in He.
  assert (Hno : forall P : nat -> Prop, ~ P 91 -> head_not P (elems J i)) by (intros P HP; rewrite He; exact HP).
  assert (Hdg : ~ is_dg 91) by (unfold is_dg; lia).
  assert (Ha : after i 0 = i) by (destruct i; unfold after; cbn; f_equal; lia).
  assert (HV : forall m, drun J W d m value_body i = OOF).
  { rewrite value_shape. destruct d as [|d]; [reflexivity|].
    apply (seq_stuck W d _ _ _ _ i 0 value_types eq_refl).
    - apply (peg_does Look _ i (Some 0)); auto; [repeat split; vm_compute; reflexivity|].
      pose proof (peg_white memory cons (elems J i)) as Hp. rewrite white_len_stop in Hp; auto. apply Hno. unfold white. cbn. lia.
    - rewrite Ha. destruct d as [|d]; [reflexivity|].
      apply (choice_stuck W d str (tl values) [str; number; json_object] json_array
        [PMap (PAllOf [116; 114; 117; 101]) (FConstant 0); PMap (PAllOf [102; 97; 108; 115; 101]) (FConstant 1); PMap (PAllOf [110; 117; 108; 108]) (FConstant 2)] i eq_refl).
      + vm_compute. reflexivity.
      + intros m3 p [<-|[<-|[<-|[]]]]; [apply str_quits|apply number_quits|apply object_quits]; auto; apply Hno; intuition lia.
      + intros m3. apply (IH d ltac:(lia) i Hv). exists (S k), rest. split; [lia|auto]. }
  assert (HA : forall m, drun J W d m array_body i = OOF).
  { rewrite array_shape. destruct d as [|d]; [reflexivity|].
    apply (seq_stuck W d _ _ _ _ i 1 array_types eq_refl).
    - apply (peg_does Look _ i (Some 1)); auto; [repeat split; vm_compute; reflexivity|]. rewrite He. apply peg_is.
    - destruct d as [|d]; [reflexivity|].
      apply (choice_stuck W d _ _ [] (PDelimit json_value (PIgnore (PAllOf [44]))) [whitespace] (after i 1) eq_refl).
      + vm_compute. reflexivity.
      + intros ? ? [].
      + destruct d as [|d]; [reflexivity|].
        assert (Hin : forall m, drun J W d m json_value (after i 1) = OOF).
        { intros m3. apply (IH d ltac:(lia) (after i 1)).
          - eapply suffix_valid; [|exact Hv]. exists 1. split; [|reflexivity]. apply (f_equal (@List.length nat)) in He. rewrite elems_length in He; auto. cbn in He. lia.
          - exists k, rest. split; [lia|]. change (after i 1) with (adv i 1). rewrite elems_adv_skipn, He. reflexivity. }
        intros m3. cbn [drun step]. destruct m3; unfold delimit_parse, delimit_look.
        * destruct (result_for J json_value) eqn:H1; [|vm_compute in H1; discriminate].
          destruct (result_for J (PIgnore (PAllOf [44]))) eqn:H2; [|vm_compute in H2; discriminate]. now rewrite Hin.
        * now rewrite Hin. }
  split; cbn [drun step json_value json_array]; destruct m; unfold custom_parse.
  - change (cust_body J 0) with value_body. now rewrite HV.
  - apply HV.
  - change (cust_body J 2) with array_body. now rewrite HA.
  - apply HA.
Qed.

(** The depth grows with the nesting of the text. *)
Theorem C54_json_depth rounds depth m i k rest : valid J i -> elems J i = repeat 91 k ++ rest -> depth <= k ->
  drun J rounds depth m json_value i = OOF /\ drun J rounds depth m json_array i = OOF.
Proof. intros Hv He Hd. apply deep; eauto. Qed.
End C54_json.

(** [k + 1] arrays, one in the other *)
Fixpoint nested (k : nat) : doc := match k with 0 => JArray [] | S k' => JArray [nested k'] end.

Lemma nested_spells s k : spells s (nested k) (repeat 91 (S k) ++ repeat 93 (S k)).
Proof.
  induction k as [|k IH]; cbn [nested].
  - apply (sp_no_elements s []). constructor.
  - change (repeat 91 (S (S k))) with (91 :: repeat 91 (S k)). change (repeat 93 (S (S k))) with (93 :: repeat 93 (S k)).
    rewrite (repeat_cons (S k) 93), app_assoc.
    set (t := repeat 91 (S k)) in *. set (u := repeat 93 (S k)) in *. change (((91 :: t) ++ u) ++ [93]) with (91 :: (t ++ u) ++ [93]). apply (sp_array s [nested k]). apply es_one. rewrite <- (app_nil_r (_ ++ _)). apply (el_white s (nested k) []); auto.
Qed.

(** "There is a depth of calls that is enough for every JSON text": no.  For each depth there
    is a text of RFC 8259 that json.cpp accepts, parses to the document it spells, and needs
    more. *)
Theorem C54_bounded_stack_refuted : json_cons_typed json_cons /\ forall depth, exists memory i v tr,
  let J := json_env memory json_cons in
  valid J i /\ spells true (nested depth) (elems J i) /\
  evals J Parse json_value i (Done (Res (Some v) (after i (sp_len i))) tr) /\
  forall rounds, drun J rounds depth Parse json_value i = OOF.
Proof.
  split; [apply json_cons_ok|]. intros n.
  set (text := repeat 91 (S n) ++ repeat 93 (S n)). set (memory := fun _ : nat => text). set (i := Span 0 0 (List.length text)).
  assert (Hv : valid (json_env memory json_cons) i) by (unfold valid, i, memory; cbn; apply le_n).
  assert (He : elems (json_env memory json_cons) i = text) by apply firstn_all.
  assert (Hs : spells true (nested n) text) by apply nested_spells.
  destruct (C50_accepts_rfc memory json_cons json_cons_ok 0 i ltac:(lia) Hv) as [_ [(e & t & args & _ & Ht)|(v & tr & Hp)]].
  { exists (nested n). rewrite He. rewrite <- (app_nil_r text). apply (el_white true (nested n) []); auto. }
  { exfalso. destruct t; discriminate. }
  exists memory, i, v, tr. cbv zeta. split; [exact Hv|]. rewrite He. split; [exact Hs|]. split; [exact Hp|].
  intros W. destruct (C54_json_depth memory json_cons json_cons_ok W n Parse i (S n) (repeat 93 (S n)) Hv He ltac:(lia)) as [H _]. exact H.
Qed.

(** The hypotheses of C54_bounded_partial: a parser with nested repetitions, and one that goes through
    get_parser() of a custom parser that does not come back. *)
Example C54_case :
  (let p := PZeroOrMore (PSequence (PMaybe (PAllOf (codes "("))) [POneOrMore (PAnyOf (codes "abc")); PAnyOf (codes ")+")]) in
   customs p = [] /\ height p = 4 /\ (exists v rem tr, gives sx Parse p (at1 1) v rem tr) /\
   drun sx 20 4 Parse p (at1 1) <> OOF /\ drun sx 20 3 Parse p (at1 1) = OOF) /\
  tall sx 5 (PMaybe (PCustom 1)) /\ forall h, ~ tall sx h (PCustom 0).
Proof.
  split; [|split].
  - cbn zeta. split; [reflexivity|]. split; [reflexivity|]. split; [eexists _, _, _; runs 40|]. split; [vm_compute; discriminate|reflexivity].
  - do 4 (intros ? [<-|[]]). intros ? [].
  - intros h. induction h as [h IH] using lt_wf_ind. intros H.
    destruct h as [|[|[|[|h]]]]; cbn [tall components] in H.
    + exact H.
    + exact (H _ (or_introl eq_refl)).
    + exact (H _ (or_introl eq_refl) _ (or_introl eq_refl)).
    + exact (H _ (or_introl eq_refl) _ (or_intror (or_introl eq_refl)) _ (or_introl eq_refl)).
    + exact (IH h ltac:(lia) (H _ (or_introl eq_refl) _ (or_intror (or_introl eq_refl)) _ (or_introl eq_refl) _ (or_introl eq_refl))).
Qed.

Print Assumptions C54_bounded_partial.
Print Assumptions C54_bounded_by_type_partial.
Print Assumptions C54_json_depth.
Print Assumptions C54_bounded_stack_refuted.
