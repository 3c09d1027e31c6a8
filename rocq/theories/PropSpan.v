(** * C45 and C46: what parse sees of a range, and what comparing spans compares *)
From Coq Require Import String List Arith ZArith Bool Lia.
From Verif Require Import Types Compound Parser Outcome Exec Derive Sound Elems Samples SpanModel.
Import ListNotations.
Local Open Scope outcome_scope.

Section PropSpan.
Context {V : Type} (mem : nat -> list V) (nul : V -> bool) (character : bool).

(** Specification: the elements at a place in memory, and the ones an argument of parse
    holds.  A string literal holds its characters, not the terminator after them; any other
    array all its elements; a pointer to characters a C string. *)
Definition at_place (b o : nat) (l : list V) : Prop := exists pre post, mem b = pre ++ l ++ post /\ List.length pre = o.

Definition span_holds (s : span) (l : list V) : Prop := at_place (sp_blk s) (sp_off s) l /\ List.length l = sp_len s.

Inductive source_holds : source -> list V -> Prop :=
| HContainer s l : span_holds s l -> source_holds (SContainer s) l
| HView s l : character = true -> span_holds s l -> source_holds (SView s) l
| HStdSpan s l : span_holds s l -> source_holds (SStdSpan s) l
| HSpan s l : span_holds s l -> source_holds (SSpan s) l
| HArray b o l : at_place b o l -> source_holds (SArray b o (List.length l)) l
| HConstArray b o l : character = false -> at_place b o l -> source_holds (SConstArray b o (List.length l)) l
| HLiteral b o l z : character = true -> nul z = true -> at_place b o (l ++ [z]) -> source_holds (SConstArray b o (S (List.length l))) l
| HPointer b o l z : character = true -> nul z = true -> Forall (fun c => nul c = false) l -> at_place b o (l ++ [z]) ->
    source_holds (SPointer b o) l.

Lemma at_place_skipn b o l : at_place b o l -> exists post, skipn o (mem b) = l ++ post.
Proof.
  intros (pre & post & E & <-). exists post. rewrite E, skipn_app, skipn_all, Nat.sub_diag. reflexivity.
Qed.

Lemma at_place_app b o l l' : at_place b o (l ++ l') -> at_place b o l.
Proof. intros (pre & post & E & H). exists pre, (l' ++ post). split; auto. rewrite E, <- !app_assoc. reflexivity. Qed.

Lemma nul_length_stop l z post : Forall (fun c => nul c = false) l -> nul z = true -> nul_length nul (l ++ z :: post) = Done (List.length l) [].
Proof.
  intros HF Hz. induction HF as [|c l Hc HF IH]; cbn.
  - now rewrite Hz.
  - rewrite Hc, IH. reflexivity.
Qed.

Lemma nul_length_none l : Forall (fun c => nul c = false) l -> nul_length nul l = UB.
Proof. induction 1 as [|c l Hc HF IH]; cbn; auto. now rewrite Hc, IH. Qed.

(** The place of the first null element. *)
Lemma first_nul (l : list V) : Forall (fun c => nul c = false) l \/
  exists l1 z l2, l = l1 ++ z :: l2 /\ nul z = true /\ Forall (fun c => nul c = false) l1.
Proof.
  induction l as [|c l IH]; [left; constructor|]. destruct (nul c) eqn:Hc.
  - right. exists [], c, l. auto.
  - destruct IH as [IH|(l1 & z & l2 & -> & Hz & HF)]; [left; now constructor|].
    right. exists (c :: l1), z, l2. auto.
Qed.

Lemma overload_const b o n : character = true -> overload character (SConstArray b o n) = Some CPointer.
Proof. intros ->. reflexivity. Qed.

Lemma firstn_exact {A} (l r : list A) n : List.length l = n -> firstn n (l ++ r) = l.
Proof. intros <-. rewrite firstn_app, firstn_all, Nat.sub_diag. cbn. apply app_nil_r. Qed.

(** ** C45: parse sees exactly the elements its argument holds - except that a string literal
    must have no null character among its own. *)
Theorem C45_sees_all_partial a l : source_holds a l ->
  (forall b o n, character = true -> a = SConstArray b o n -> Forall (fun c => nul c = false) l) ->
  exists s, make_span mem nul character a = Done s [] /\ span_holds s l.
Proof.
  intros H Hn. inversion H; subst.
  - exists s. split; auto. unfold make_span. now destruct character.
  - exists s. split; auto. unfold make_span. now rewrite H0.
  - exists s. split; auto. unfold make_span. now destruct character.
  - exists s. split; auto. unfold make_span. now destruct character.
  - exists (Span b o (List.length l)). split; [unfold make_span; now destruct character|]. split; auto.
  - exists (Span b o (List.length l)). split; [unfold make_span; now rewrite H0|]. split; auto.
  - exists (Span b o (List.length l)). split.
    + unfold make_span. rewrite overload_const by auto. cbn [construct]. unfold c_string. cbn [walk].
      destruct (at_place_skipn _ _ _ H2) as [post ->]. rewrite firstn_exact by (rewrite app_length; cbn; lia).
      rewrite nul_length_stop; auto. eapply Hn; eauto.
    + split; auto. now apply at_place_app with [z].
  - exists (Span b o (List.length l)). split.
    + unfold make_span. replace (overload character (SPointer b o)) with (Some CPointer) by now rewrite H0.
      cbn. unfold c_string. cbn. destruct (at_place_skipn _ _ _ H3) as [post ->].
      rewrite <- app_assoc. cbn. rewrite nul_length_stop; auto.
    + split; auto. now apply at_place_app with [z].
Qed.

(** A const array of characters: what lies before its first null character, whatever the size
    of the array; undefined behaviour if there is none. *)
Theorem C45_const_array b o l1 z l2 : character = true -> nul z = true -> Forall (fun c => nul c = false) l1 ->
  at_place b o (l1 ++ z :: l2) ->
  make_span mem nul character (SConstArray b o (List.length (l1 ++ z :: l2))) = Done (Span b o (List.length l1)) [].
Proof.
  intros Hc Hz HF Hp. unfold make_span. rewrite overload_const by auto. cbn [construct]. unfold c_string. cbn [walk].
  destruct (at_place_skipn _ _ _ Hp) as [post ->]. rewrite firstn_exact by auto.
  rewrite nul_length_stop by auto. reflexivity.
Qed.

Theorem C45_unterminated b o l : character = true -> Forall (fun c => nul c = false) l -> at_place b o l ->
  make_span mem nul character (SConstArray b o (List.length l)) = UB.
Proof.
  intros Hc HF Hp. unfold make_span. rewrite overload_const by auto. cbn [construct]. unfold c_string. cbn [walk].
  destruct (at_place_skipn _ _ _ Hp) as [post ->]. rewrite firstn_exact by auto.
  rewrite nul_length_none by auto. reflexivity.
Qed.

(** The constructor meant for literals (span.h:84-87), which would see them in full, is never
    the one chosen: the pointer constructor is as good and not a template. *)
Theorem C45_literal_constructor_unused a : overload character a <> Some CLiteral.
Proof. destruct a; destruct character; discriminate. Qed.

(** So a literal is seen in full iff it has no null character of its own. *)
Theorem C45_literal_iff b o l z : character = true -> nul z = true -> at_place b o (l ++ [z]) ->
  (exists s, make_span mem nul character (SConstArray b o (S (List.length l))) = Done s [] /\ span_holds s l)
  <-> Forall (fun c => nul c = false) l.
Proof.
  intros Hc Hz Hp. split.
  - intros (s & Hs & _ & Hl). destruct (first_nul l) as [HF|(l1 & z1 & l2 & -> & Hz1 & HF)]; auto.
    exfalso. rewrite <- app_assoc in Hp. cbn in Hp.
    pose proof (C45_const_array b o l1 z1 (l2 ++ [z]) Hc Hz1 HF Hp) as Hm.
    replace (List.length (l1 ++ z1 :: l2 ++ [z])) with (S (List.length (l1 ++ z1 :: l2))) in Hm
      by (rewrite !app_length; cbn; rewrite app_length; cbn; lia).
    rewrite Hm in Hs. injection Hs as <-. cbn in Hl. rewrite app_length in Hl. cbn in Hl. lia.
  - intros HF. apply C45_sees_all_partial; [now constructor 7 with z|]. auto.
Qed.
End PropSpan.

(** ** The claim as stated is false: a literal with a null character inside, and a const
    array without one. *)
Definition at_zero (c : nat) : bool := c =? 0.
Definition zx_mem (b : nat) : list nat := match b with 1 => [97; 0; 98; 0] | 2 => [97; 98] | 3 => [97; 98; 0] | _ => [] end.

Theorem C45_literal_refuted : exists a l, source_holds zx_mem at_zero true a l /\
  forall s, make_span zx_mem at_zero true a = Done s [] -> ~ span_holds zx_mem s l.
Proof.
  exists (SConstArray 1 0 4), [97; 0; 98]. split.
  - apply (HLiteral zx_mem at_zero true 1 0 [97; 0; 98] 0); auto. exists [], []. auto.
  - intros s Hs. vm_compute in Hs. injection Hs as <-. intros [_ H]. discriminate.
Qed.

(** [const char a[] = {'a', 'b'}] *)
Theorem C45_unterminated_refuted : exists b l, at_place zx_mem b 0 l /\
  make_span zx_mem at_zero true (SConstArray b 0 (List.length l)) = UB.
Proof.
  exists 2, [97; 98]. split; [exists [], []; auto|]. reflexivity.
Qed.

(** The theorem at work: a vector, a literal, and an array that is not const, whose
    terminator is one of its elements. *)
Example C45_case : make_span zx_mem at_zero true (SContainer (Span 1 0 4)) = Done (Span 1 0 4) []
  /\ make_span zx_mem at_zero true (SConstArray 3 0 3) = Done (Span 3 0 2) []
  /\ make_span zx_mem at_zero true (SArray 3 0 3) = Done (Span 3 0 3) []
  /\ source_holds zx_mem at_zero true (SConstArray 3 0 3) [97; 98].
Proof.
  repeat split; auto. apply (HLiteral zx_mem at_zero true 3 0 [97; 98] 0); auto. exists [], []. auto.
Qed.

(** In the evaluator: [*anything] on the literal ["a\0b"] stops after the [a] and leaves
    nothing; on a std::string of the same characters it takes all three. *)
Definition zx : env nat nat := {|
  eqv := Nat.eqb; mem := zx_mem; fn_ret := fn_ret sx; fn_app := fn_app sx; ct_ok := ct_ok sx; ct_app := ct_app sx;
  k_ty := k_ty sx; k_val := k_val sx; bool_ok := bool_ok sx; as_bool := as_bool sx;
  cust_body := cust_body sx; cust_ty := cust_ty sx; cust_conv := cust_conv sx |}.

Definition parse_source {T V} (E : env T V) (nul : V -> bool) (n : nat) (p : parser T) (a : source) : outcome presult :=
  i <- make_span (mem E) nul true a ;; run E n Parse p i.

Example C45_parse_case :
  parse_source zx at_zero 20 (PJoin (PZeroOrMore PAnything)) (SConstArray 1 0 4)
    = Done (Res (Some (RVal (VSpan (Span 1 0 1)))) (Span 1 1 0)) []
  /\ parse_source zx at_zero 20 (PJoin (PZeroOrMore PAnything)) (SContainer (Span 1 0 3))
    = Done (Res (Some (RVal (VSpan (Span 1 0 3)))) (Span 1 3 0)) [].
Proof. split; vm_compute; reflexivity. Qed.

(** ** C46 *)
Section C46.
Context {V W : Type} (memV : nat -> list V) (memW : nat -> list W) (eqVW : V -> W -> bool).

Lemma equal_loop_lists : forall l r b1 o1 b2 o2, at_place memV b1 o1 l -> at_place memW b2 o2 r -> List.length l = List.length r ->
  (equal_loop memV memW eqVW (List.length l) b1 o1 b2 o2 = Done true [] /\ Forall2 (fun x y => eqVW x y = true) l r)
  \/ (equal_loop memV memW eqVW (List.length l) b1 o1 b2 o2 = Done false [] /\ ~ Forall2 (fun x y => eqVW x y = true) l r).
Proof.
  induction l as [|x l IH]; intros r b1 o1 b2 o2 Hl Hr Hn; destruct r as [|y r]; try discriminate.
  - left. split; auto.
  - cbn [List.length equal_loop]. unfold rd.
    assert (Hx : nth_error (memV b1) o1 = Some x).
    { destruct Hl as (pre & post & -> & <-). rewrite nth_error_app2 by lia. now rewrite Nat.sub_diag. }
    assert (Hy : nth_error (memW b2) o2 = Some y).
    { destruct Hr as (pre & post & -> & <-). rewrite nth_error_app2 by lia. now rewrite Nat.sub_diag. }
    rewrite Hx, Hy. cbn.
    destruct (eqVW x y) eqn:Hxy; cbn.
    + destruct (IH r b1 (S o1) b2 (S o2)) as [[E HF]|[E HF]].
      * destruct Hl as (pre & post & E & <-). exists (pre ++ [x]), post. rewrite E, <- app_assoc. split; auto. rewrite app_length. cbn. lia.
      * destruct Hr as (pre & post & E & <-). exists (pre ++ [y]), post. rewrite E, <- app_assoc. split; auto. rewrite app_length. cbn. lia.
      * auto.
      * left. rewrite E. cbn. split; auto.
      * right. rewrite E. cbn. split; auto. intros H. inversion H; auto.
    + right. split; auto. intros H. inversion H; congruence.
Qed.

(** span == span: never undefined, and true iff both have equally many elements, equal
    position by position. *)
Theorem C46_spans s t l r : span_holds memV s l -> span_holds memW t r ->
  exists b, equal_spans memV memW eqVW s t = Done b [] /\ (b = true <-> Forall2 (fun x y => eqVW x y = true) l r).
Proof.
  intros [Hs Ls] [Ht Lt]. unfold equal_spans. destruct (sp_len s =? sp_len t) eqn:Hn; cbn [negb].
  - apply Nat.eqb_eq in Hn. rewrite <- Ls. destruct (equal_loop_lists l r _ _ _ _ Hs Ht) as [[E HF]|[E HF]]; [lia| |].
    + exists true. tauto.
    + exists false. split; auto. split; [discriminate|]. intros; contradiction.
  - apply Nat.eqb_neq in Hn. exists false. split; auto. split; [discriminate|]. intros HF.
    exfalso. apply Hn. rewrite <- Ls, <- Lt. clear -HF. induction HF; cbn; auto.
Qed.
End C46.

Section C46_other.
Context {V : Type} (mem : nat -> list V) (nul : V -> bool) (character : bool) (same : V -> V -> bool).

(** span == anything it can be compared with: a container, view, span or pointer is compared
    element by element, and so is a literal without null characters of its own. *)
Theorem C46_others_partial s l a r : span_holds mem s l -> source_holds mem nul character a r ->
  match a with SArray _ _ _ => False | SConstArray _ _ _ => character = true /\ Forall (fun c => nul c = false) r | _ => True end ->
  exists b, equal_other mem nul character same s a = Done b [] /\ (b = true <-> Forall2 (fun x y => same x y = true) l r).
Proof.
  intros Hs Ha Hx. destruct a; try contradiction; unfold equal_other, equal_views.
  1-4: destruct (C45_sees_all_partial mem nul character _ _ Ha ltac:(discriminate)) as (t & Ht & Hh).
  1-3: rewrite Ht; destruct (C46_spans mem mem same s t l r Hs Hh) as (b & Eb & Hb); exists b; cbn; rewrite Eb; cbn; auto.
  - inversion Ha; subst. now apply C46_spans.
  - assert (H0 : character = true) by now inversion Ha. rewrite H0.
    destruct (C45_sees_all_partial mem nul character _ _ Ha ltac:(discriminate)) as (t & Ht & Hh).
    unfold make_span in Ht. replace (overload character (SPointer b o)) with (Some CPointer) in Ht by now rewrite H0. change (c_string mem nul (SPointer b o) = Done t []) in Ht.
    rewrite Ht. destruct (C46_spans mem mem same s t l r Hs Hh) as (b' & Eb & Hb). exists b'. cbn; rewrite Eb; cbn. auto.
  - destruct Hx as [Hc HF]. rewrite Hc.
    destruct (C45_sees_all_partial mem nul character _ _ Ha) as (t & Ht & Hh); [auto|].
    unfold make_span in Ht. rewrite overload_const in Ht by auto. cbn [construct] in Ht.
    rewrite Ht. destruct (C46_spans mem mem same s t l r Hs Hh) as (b' & Eb & Hb). exists b'. cbn; rewrite Eb; cbn. auto.
Qed.

(** With a null character in the literal, only what precedes it is compared. *)
Theorem C46_literal_prefix s l b o r1 z r2 : character = true -> span_holds mem s l ->
  nul z = true -> Forall (fun c => nul c = false) r1 -> at_place mem b o (r1 ++ z :: r2) ->
  exists v, equal_other mem nul character same s (SConstArray b o (List.length (r1 ++ z :: r2))) = Done v []
    /\ (v = true <-> Forall2 (fun x y => same x y = true) l r1).
Proof.
  intros Hc Hs Hz HF Hp. pose proof (C45_const_array mem nul character b o r1 z r2 Hc Hz HF Hp) as Hm.
  unfold make_span in Hm. rewrite overload_const in Hm by auto. cbn [construct] in Hm.
  unfold equal_other, equal_views. rewrite Hc, Hm.
  destruct (C46_spans mem mem same s (Span b o (List.length r1)) l r1 Hs) as (v & Ev & Hv).
  - split; auto. now apply at_place_app with (z :: r2).
  - exists v. cbn; rewrite Ev; cbn. auto.
Qed.
End C46_other.

(** The claim about literals is false: the span of one [a] compares equal to ["a\0b"], and the
    span of the three characters [a], null, [b] compares different from that literal. *)
Theorem C46_literal_refuted :
  source_holds zx_mem at_zero true (SConstArray 1 0 4) [97; 0; 98] /\
  (exists s l, span_holds zx_mem s l /\ l <> [97; 0; 98] /\
     equal_other zx_mem at_zero true Nat.eqb s (SConstArray 1 0 4) = Done true []) /\
  (exists s, span_holds zx_mem s [97; 0; 98] /\
     equal_other zx_mem at_zero true Nat.eqb s (SConstArray 1 0 4) = Done false []).
Proof.
  split; [|split].
  - apply (HLiteral zx_mem at_zero true 1 0 [97; 0; 98] 0); auto. exists [], []. auto.
  - exists (Span 1 0 1), [97]. repeat split; [exists [], [0; 98; 0]; auto|discriminate].
  - exists (Span 1 0 3). repeat split. exists [], [0]. auto.
Qed.

Example C46_case : equal_spans zx_mem zx_mem Nat.eqb (Span 1 0 2) (Span 1 0 2) = Done true []
  /\ equal_spans zx_mem zx_mem Nat.eqb (Span 1 0 1) (Span 2 0 1) = Done true []
  /\ equal_spans zx_mem zx_mem Nat.eqb (Span 1 0 2) (Span 2 0 2) = Done false []
  /\ equal_other zx_mem at_zero true Nat.eqb (Span 2 0 2) (SConstArray 3 0 3) = Done true []
  /\ span_holds zx_mem (Span 2 0 2) [97; 98].
Proof. repeat split; auto. exists [], []. auto. Qed.

Print Assumptions C45_sees_all_partial.
Print Assumptions C45_const_array.
Print Assumptions C45_unterminated.
Print Assumptions C45_literal_constructor_unused.
Print Assumptions C45_literal_iff.
Print Assumptions C45_literal_refuted.
Print Assumptions C46_spans.
Print Assumptions C46_others_partial.
Print Assumptions C46_literal_prefix.
Print Assumptions C46_literal_refuted.
