(** * lookahead is PEG recognition over the list of input elements *)
From Coq Require Import String List Arith ZArith Bool Lia.
From Verif Require Import Types Compound Parser Outcome CompoundFacts Exec Mono Derive Typing Join Leaves Sound.
Import ListNotations.
Local Open Scope outcome_scope.

(** ** lookahead runs no user code *)

(** Nothing was invoked, nothing was thrown. *)
Definition quiet {A} (x : outcome A) : Prop :=
  match x with Done _ tr => tr = [] | Exn _ => False | UB => True | OOF => True | Ill => True end.

Lemma quiet_bind {A B} (x : outcome A) (f : A -> outcome B) :
  quiet x -> (forall a, quiet (f a)) -> quiet (bind x f).
Proof.
  intros Hx Hf. destruct x; cbn in *; auto. subst. specialize (Hf a). destruct (f a); cbn in *; auto.
Qed.

Lemma quiet_ret {A} (a : A) : quiet (ret a).
Proof. reflexivity. Qed.

Definition quiet_fun (f : pfun) : Prop := forall i, quiet (f i).

Section Quiet.
Context {T V : Type} (E : env T V).

Lemma quiet_read b o : quiet (read E b o).
Proof. unfold read. destruct (nth_error _ _); cbn; auto. Qed.
Lemma quiet_front s : quiet (front E s).
Proof. unfold front. destruct (_ =? _); [exact I|apply quiet_read]. Qed.
Lemma quiet_first s n : quiet (first s n).
Proof. unfold first. destruct (_ <=? _); cbn; auto. Qed.
Lemma quiet_advance s n : quiet (advance s n).
Proof. unfold advance. destruct (_ <=? _); cbn; auto. Qed.
Lemma quiet_eq_loop arr b : forall o, quiet (eq_loop E arr b o).
Proof.
  induction arr; intros; cbn; auto. apply quiet_bind; [apply quiet_read|].
  intros c. destruct (eqv _ _ _); auto. reflexivity.
Qed.

Hint Resolve quiet_ret quiet_read quiet_front quiet_first quiet_advance quiet_eq_loop quiet_bind : core.

Ltac qt := repeat first
  [ apply quiet_bind; [|intros ?]
  | match goal with
    | |- quiet (match ?x with _ => _ end) => destruct x
    | |- quiet (if ?x then _ else _) => destruct x
    end
  | progress intros
  | solve [auto]
  | exact I ].

Lemma quiet_fc p fc len : elementary E p = Some (fc, len) -> forall i, quiet (fc i).
Proof.
  intros H i. destruct p; try discriminate; injection H as <- <-.
  - unfold any_of_fc; qt.
  - unfold none_of_fc; qt.
  - unfold all_of_fc, span_equal; qt.
  - reflexivity.
Qed.

Lemma quiet_basic_look p fc len i : elementary E p = Some (fc, len) -> quiet (basic_look fc len i).
Proof. intros H. unfold basic_look. pose proof (quiet_fc _ _ _ H). qt. Qed.

Lemma quiet_exec_or rec unw ps : (forall q, quiet_fun (rec Look q)) -> forall st,
  quiet (exec_or rec unw (map (fun p : parser T => (p, None)) ps) st).
Proof.
  intros Hr. induction ps as [|p ps IH]; intros [i b]; cbn [map exec_or execute]; auto.
  apply quiet_bind.
  - apply quiet_bind; [apply Hr|auto].
  - intros [[|] st]; auto.
Qed.

Lemma quiet_exec_and rec unw ps : (forall q, quiet_fun (rec Look q)) -> forall st,
  quiet (exec_and rec unw (map (fun p : parser T => (p, None)) ps) st).
Proof.
  intros Hr. induction ps as [|p ps IH]; intros [i b]; cbn [map exec_and execute]; auto.
  apply quiet_bind.
  - apply quiet_bind; [apply Hr|auto].
  - intros [[|] st]; auto.
Qed.

Lemma quiet_rep f k : quiet_fun f -> forall i s, quiet (rep_loop f k i RVoid s).
Proof.
  intros Hf. induction k; intros; cbn; auto. apply quiet_bind; [apply Hf|]. intros [[v|] r]; cbn; auto.
  specialize (IHk r true). destruct (rep_loop f k r RVoid true); auto.
Qed.

Lemma quiet_exactly f k : quiet_fun f -> forall i j, quiet (exactly_loop f k j i RVoid).
Proof.
  intros Hf. induction k; intros; cbn; auto. apply quiet_bind; [apply Hf|]. intros [[v|] r]; cbn; auto.
  specialize (IHk r (S j)). destruct (exactly_loop f k (S j) r RVoid); auto.
Qed.

Lemma quiet_delim fp fd k : quiet_fun fp -> quiet_fun fd -> forall res i,
  quiet (delim_loop fp fd true true k res i RVoid).
Proof.
  intros Hp Hd. induction k; intros [[v|] r] i; cbn [delim_loop r_ok r_rem]; auto; try exact I.
  rewrite bind_ret. apply quiet_bind; [apply Hd|]. intros [[w|] rd]; cbn [r_ok r_rem]; auto.
  apply quiet_bind; [apply Hp|]. intros res. rewrite bind_ret. auto.
Qed.

Lemma quiet_jr fc len k : (forall i, quiet (fc i)) -> forall res i, quiet (jr_loop fc len k res i).
Proof.
  intros Hf. induction k; intros; cbn; auto; try exact I. apply quiet_bind; auto.
  intros [|]; auto.
Qed.

Lemma quiet_jx fc len k : (forall i, quiet (fc i)) -> forall res i, quiet (jx_loop fc len k res i).
Proof.
  intros Hf. induction k; intros; cbn; auto; try exact I. apply quiet_bind; auto.
  intros [|]; auto.
Qed.

Lemma quiet_join_special q k f m : join_special E q k = Some f -> quiet_fun (f m).
Proof.
  intros Hq i. destruct q; try discriminate; cbn [join_special] in Hq;
    (destruct (as_basic E q) as [[fc len]|] eqn:Hb; [|discriminate]);
    pose proof (quiet_fc _ _ _ (as_basic_elementary E _ _ Hb)) as Hfc.
  - injection Hq as <-. destruct m; unfold jm_parse, jm_look; qt.
  - destruct (n =? 0); [discriminate|]. injection Hq as <-.
    pose proof (quiet_jx fc len n Hfc). destruct m; unfold jx_parse, jx_look; qt.
  - injection Hq as <-. pose proof (quiet_jr fc len k Hfc). destruct m; unfold jo_parse, jo_look; qt.
  - injection Hq as <-. pose proof (quiet_jr fc len k Hfc). destruct m; unfold jz_parse, jz_look; qt.
Qed.

Lemma step_quiet rec k p i : (forall q, quiet_fun (rec Look q)) -> quiet (step E rec k Look p i).
Proof.
  intros Hr. destruct p; cbn [step]; try (apply Hr).
  - apply (quiet_basic_look (PAnyOf arr)). reflexivity.
  - apply (quiet_basic_look (PNoneOf arr)). reflexivity.
  - apply (quiet_basic_look (PAllOf arr)). reflexivity.
  - apply (quiet_basic_look PAnything). reflexivity.
  - reflexivity.
  - unfold choice_look. destruct (result_fors E (p :: ps)); [|exact I].
    apply quiet_bind; [apply (quiet_exec_or rec _ (p :: ps)); auto|]. intros [[|] [? ?]]; auto.
  - unfold sequence_look. destruct (result_fors E (p :: ps)); [|exact I].
    apply quiet_bind; [apply (quiet_exec_and rec _ (p :: ps)); auto|]. intros [[|] [? ?]]; auto.
  - unfold maybe_look. apply quiet_bind; [apply Hr|]. intros r. destruct (has_value r); auto.
  - destruct (n =? 0); [exact I|]. unfold exactly_look.
    apply quiet_bind; [apply quiet_exactly; auto|]. intros [[? ?]|]; auto.
  - unfold one_or_more_look. apply quiet_bind; [apply quiet_rep; auto|]. intros [[? ?] [|]]; auto.
  - unfold zero_or_more_look. apply quiet_bind; [apply quiet_rep; auto|]. intros [[? ?] ?]; auto.
  - unfold delimit_look. apply quiet_bind; [apply Hr|]. intros r. destruct (has_value r); auto.
    apply quiet_bind; [apply quiet_delim; auto|]. intros [? ?]; auto.
  - unfold complete_run. apply quiet_bind; [apply Hr|]. intros r. destruct (_ || _); auto.
  - destruct (join_special E p k) eqn:Hs; [eapply quiet_join_special; eauto|]. apply Hr.
Qed.

(** Every lookahead, of every parser. *)
Theorem look_quiet n p i : quiet (run E n Look p i).
Proof.
  revert p i. induction n as [|n IH]; intros p i; cbn [run]; [exact I|].
  apply step_quiet. intros q i'. apply IH.
Qed.
End Quiet.

(** ** Parsing expression grammars

    [peg E p l o]: on the element list [l], [p] consumes [Some c] elements or fails ([None]).
    No spans, no values, no modes. *)
Section Peg.
Context {T V : Type} (E : env T V).

(** [l] starts with something equal to the literal. *)
Definition starts (arr : list T) (l : list V) : Prop :=
  exists l1 l2, l = l1 ++ l2 /\ Forall2 (fun t c => eqv E t c = true) arr l1.

Inductive peg : parser T -> list V -> option nat -> Prop :=
| G_any_ok arr c l : (exists t, In t arr /\ eqv E t c = true) -> peg (PAnyOf arr) (c :: l) (Some 1)
| G_any_no arr c l : (forall t, In t arr -> eqv E t c = false) -> peg (PAnyOf arr) (c :: l) None
| G_any_nil arr : peg (PAnyOf arr) [] None
| G_none_ok arr c l : (forall t, In t arr -> eqv E t c = false) -> peg (PNoneOf arr) (c :: l) (Some 1)
| G_none_no arr c l : (exists t, In t arr /\ eqv E t c = true) -> peg (PNoneOf arr) (c :: l) None
| G_none_nil arr : peg (PNoneOf arr) [] None
| G_all_ok arr l : starts arr l -> peg (PAllOf arr) l (Some (List.length arr))
| G_all_no arr l : ~ starts arr l -> peg (PAllOf arr) l None
| G_anything_ok c l : peg PAnything (c :: l) (Some 1)
| G_anything_nil : peg PAnything [] None
| G_eps l : peg PEpsilon l (Some 0)
| G_choice q qs l o : peg_or (q :: qs) l o -> peg (PChoice q qs) l o
| G_seq q qs l o : peg_and (q :: qs) l o -> peg (PSequence q qs) l o
| G_maybe_some q l c : peg q l (Some c) -> peg (PMaybe q) l (Some c)
| G_maybe_none q l : peg q l None -> peg (PMaybe q) l (Some 0)
| G_exactly q n l o : peg_and (repeat q n) l o -> peg (PExactly q n) l o
| G_oom_some q l c d : peg q l (Some c) -> peg_star q (skipn c l) d -> peg (POneOrMore q) l (Some (c + d))
| G_oom_none q l : peg q l None -> peg (POneOrMore q) l None
| G_zom q l c : peg_star q l c -> peg (PZeroOrMore q) l (Some c)
| G_delim_some q d l c e : peg q l (Some c) -> peg_tail q d (skipn c l) e ->
    peg (PDelimit q d) l (Some (c + e))
| G_delim_none q d l : peg q l None -> peg (PDelimit q d) l None
| G_ignore q l o : peg q l o -> peg (PIgnore q) l o
| G_complete_ok q l : peg q l (Some (List.length l)) -> peg (PComplete q) l (Some (List.length l))
| G_complete_rest q l c : peg q l (Some c) -> c < List.length l -> peg (PComplete q) l None
| G_complete_no q l : peg q l None -> peg (PComplete q) l None
| G_join q l o : peg q l o -> peg (PJoin q) l o
| G_map q f l o : peg q l o -> peg (PMap q f) l o
| G_filter q f l o : peg q l o -> peg (PFilter q f) l o
| G_named q s l o : peg q l o -> peg (PNamed q s) l o
| G_custom c l o : peg (cust_body E c) l o -> peg (PCustom c) l o
(* ordered choice *)
with peg_or : list (parser T) -> list V -> option nat -> Prop :=
| G_or_nil l : peg_or [] l None
| G_or_here q qs l c : peg q l (Some c) -> peg_or (q :: qs) l (Some c)
| G_or_next q qs l o : peg q l None -> peg_or qs l o -> peg_or (q :: qs) l o
(* one after the other *)
with peg_and : list (parser T) -> list V -> option nat -> Prop :=
| G_and_nil l : peg_and [] l (Some 0)
| G_and_fail q qs l : peg q l None -> peg_and (q :: qs) l None
| G_and_next q qs l c o : peg q l (Some c) -> peg_and qs (skipn c l) o ->
    peg_and (q :: qs) l (match o with Some d => Some (c + d) | None => None end)
(* as often as possible *)
with peg_star : parser T -> list V -> nat -> Prop :=
| G_star_end q l : peg q l None -> peg_star q l 0
| G_star_next q l c d : peg q l (Some c) -> peg_star q (skipn c l) d -> peg_star q l (c + d)
(* (d p)*, a final d without p is given back *)
with peg_tail : parser T -> parser T -> list V -> nat -> Prop :=
| G_tail_end q d l : peg d l None -> peg_tail q d l 0
| G_tail_back q d l a : peg d l (Some a) -> peg q (skipn a l) None -> peg_tail q d l 0
| G_tail_next q d l a b e : peg d l (Some a) -> peg q (skipn a l) (Some b) ->
    peg_tail q d (skipn b (skipn a l)) e -> peg_tail q d l (a + (b + e)).

Scheme peg_ind2 := Induction for peg Sort Prop
  with peg_or_ind2 := Induction for peg_or Sort Prop
  with peg_and_ind2 := Induction for peg_and Sort Prop
  with peg_star_ind2 := Induction for peg_star Sort Prop
  with peg_tail_ind2 := Induction for peg_tail Sort Prop.
Combined Scheme peg_mut from peg_ind2, peg_or_ind2, peg_and_ind2, peg_star_ind2, peg_tail_ind2.

(** Consumption stays within the list. *)
Lemma Forall2_len {A B} (R : A -> B -> Prop) l1 l2 : Forall2 R l1 l2 -> List.length l1 = List.length l2.
Proof. induction 1; cbn; lia. Qed.

Lemma starts_length arr l : starts arr l -> List.length arr <= List.length l.
Proof.
  intros (l1 & l2 & -> & H). apply Forall2_len in H. rewrite app_length. lia.
Qed.

Lemma peg_le :
  (forall p l o, peg p l o -> forall c, o = Some c -> c <= List.length l) /\
  (forall ps l o, peg_or ps l o -> forall c, o = Some c -> c <= List.length l) /\
  (forall ps l o, peg_and ps l o -> forall c, o = Some c -> c <= List.length l) /\
  (forall p l c, peg_star p l c -> c <= List.length l) /\
  (forall p d l c, peg_tail p d l c -> c <= List.length l).
Proof.
  apply peg_mut; intros;
    repeat match goal with
    | H : Some _ = Some _ |- _ => injection H as H; subst
    | H : None = Some _ |- _ => discriminate
    | H : forall c, Some ?x = Some c -> _ |- _ => specialize (H x eq_refl)
    end; cbn [List.length]; rewrite ?skipn_length in *; try lia; auto.
  - now apply starts_length.
  - destruct o; [|discriminate]. injection H1 as <-. specialize (H0 _ eq_refl).
    lia.
Qed.

(** PEG recognition is a partial function. *)
Lemma peg_det :
  (forall p l o, peg p l o -> forall o', peg p l o' -> o' = o) /\
  (forall ps l o, peg_or ps l o -> forall o', peg_or ps l o' -> o' = o) /\
  (forall ps l o, peg_and ps l o -> forall o', peg_and ps l o' -> o' = o) /\
  (forall p l c, peg_star p l c -> forall c', peg_star p l c' -> c' = c) /\
  (forall p d l c, peg_tail p d l c -> forall c', peg_tail p d l c' -> c' = c).
Proof.
  apply peg_mut; intros;
    match goal with
    | H : peg _ _ ?o' |- ?o' = _ => inversion H; subst
    | H : peg_or _ _ ?o' |- ?o' = _ => inversion H; subst
    | H : peg_and _ _ ?o' |- ?o' = _ => inversion H; subst
    | H : peg_star _ _ ?o' |- ?o' = _ => inversion H; subst
    | H : peg_tail _ _ _ ?o' |- ?o' = _ => inversion H; subst
    end;
    repeat first
    [ match goal with
      | H : Some _ = Some _ |- _ => injection H as H
      | H : None = Some _ |- _ => discriminate
      | H : Some _ = None |- _ => discriminate
      | H : None = None |- _ => clear H
      | IH : forall o', peg ?p ?l o' -> o' = ?o, H : peg ?p ?l ?x |- _ =>
          tryif unify x o then fail else (apply IH in H)
      | IH : forall o', peg_or ?p ?l o' -> o' = ?o, H : peg_or ?p ?l ?x |- _ =>
          tryif unify x o then fail else (apply IH in H)
      | IH : forall o', peg_and ?p ?l o' -> o' = ?o, H : peg_and ?p ?l ?x |- _ =>
          tryif unify x o then fail else (apply IH in H)
      | IH : forall o', peg_star ?p ?l o' -> o' = ?o, H : peg_star ?p ?l ?x |- _ =>
          tryif unify x o then fail else (apply IH in H)
      | IH : forall o', peg_tail ?p ?d ?l o' -> o' = ?o, H : peg_tail ?p ?d ?l ?x |- _ =>
          tryif unify x o then fail else (apply IH in H)
      end
    | progress subst ]; auto; try congruence; try lia;
    try (match goal with
      | e : (exists t, In t ?arr /\ eqv E t ?c = true), H : (forall t, In t ?arr -> eqv E t ?c = false) |- _ =>
          destruct e as (t0 & Ht0 & He0); rewrite H in He0; auto; discriminate end);
    try contradiction.
Qed.
End Peg.
