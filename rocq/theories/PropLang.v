(** * Property C75: parsers as context-free grammars *)
From Coq Require Import String List Arith ZArith Bool Lia Relations.
From Verif Require Import Types Compound Parser Outcome CompoundFacts Exec Mono Derive Typing Join Leaves Sound
  BigStep BigSound BigComplete Peg Throws Elems Samples Runs  PropBasic PropCore PropPeg Lossless Agree Check PropAgree Term PropTerm Grammar Lang LL1 StaticArray Operators PropSets Modifiers ExJson PropJson.
Import ListNotations.

Section C75.
Context {T V : Type} (E : env T V).
Implicit Types (p q d : parser T) (w : list V).

(** ** A success has consumed a word of the grammar, whatever the actions do *)

(** No custom parser of [p] builds its result from the optional (and so succeeds where its body fails). *)
Definition plain p : Prop := forall c t, reach E p (PCustom c) -> cust_conv E c <> ConvWhole t.
Definition fine (m : mode) p : Prop := m = Look \/ plain p.

Lemma fine_part m m' p q : In q (components E p) -> (m = Look -> m' = Look) -> fine m p -> fine m' q.
Proof. intros Hi Hm [H|H]; [left; auto|right]. intros c t Hc. apply H. eapply reach_step; eauto. Qed.

Section Block.
Variable b : nat.
Definition slice (lo hi : nat) : list V := firstn (hi - lo) (skipn lo (mem E b)).
Lemma slice_none lo : slice lo lo = [].
Proof. unfold slice. now rewrite Nat.sub_diag. Qed.
Lemma slice_one lo c : nth_error (mem E b) lo = Some c -> slice lo (S lo) = [c].
Proof.
  unfold slice. replace (S lo - lo) with 1 by lia. generalize (mem E b). induction lo; intros [|x l]; cbn; intros H; try discriminate; auto.
  - now injection H as ->.
  - apply (IHlo l H).
Qed.
Lemma slice_app lo mid hi : lo <= mid <= hi -> slice lo hi = slice lo mid ++ slice mid hi.
Proof.
  intros H. unfold slice. replace (hi - lo) with ((mid - lo) + (hi - mid)) by lia. rewrite firstn_add. f_equal. f_equal.
  rewrite skipn_skipn'. f_equal. lia.
Qed.
Lemma slice_all arr : forall lo, matches_at E b arr lo -> Forall2 (fun t c => eqv E t c = true) arr (slice lo (lo + List.length arr)).
Proof.
  induction arr as [|t arr IH]; intros lo H; cbn in *; [rewrite Nat.add_0_r, slice_none; constructor|].
  destruct H as ((c & Hc & He) & H). rewrite (slice_app lo (S lo)) by lia. rewrite (slice_one lo c Hc). cbn. constructor; auto.
  replace (lo + S (List.length arr)) with (S lo + List.length arr) by lia. auto.
Qed.

Lemma star_of q n : forall w, lang_and E (repeat q n) w -> lang_star E q w.
Proof. induction n; intros w H; cbn in H; inversion H; subst; constructor; auto. Qed.
Fixpoint pieces (m : mode) q d (n : nat) : list (mode * parser T) :=
  match n with 0 => [] | S n' => (m, d) :: (m, q) :: pieces m q d n' end.
Lemma tail_of q d m n : forall w, lang_and E (map snd (pieces m q d n)) w -> lang_tail E q d w.
Proof. induction n; intros w H; cbn in H; inversion H; subst; [constructor|]. inversion H4; subst. constructor; auto. Qed.
Lemma pieces_of m q d n : delim_parts m q d n = (m, q) :: pieces m q d n.
Proof. unfold delim_parts. generalize (m, q) at 1 3. induction n; intros a; cbn; auto. now rewrite IHn. Qed.
Lemma pieces_in m q d n x : In x (pieces m q d n) -> x = (m, d) \/ x = (m, q).
Proof. induction n; cbn; [intros []|]. intros [<-|[<-|H]]; auto. Qed.
Lemma or_nth qs j p w : nth_error qs j = Some p -> lang E p w -> lang_or E qs w.
Proof.
  revert j. induction qs as [|q qs IH]; intros [|j] H Hw; try discriminate; cbn in H.
  - injection H as ->. now constructor.
  - apply L_or_next. eauto.
Qed.
Lemma or_in qs p w : In p qs -> lang E p w -> lang_or E qs w.
Proof. intros (j & Hj)%In_nth_error. eapply or_nth; eauto. Qed.
Lemma map_snd_repeat (m : mode) q n : map snd (repeat (m, q) n) = repeat q n.
Proof. induction n; cbn; congruence. Qed.

Lemma derives_lang :
  (forall m p lo hi v, derives E b m p lo hi v -> fine m p -> lang E p (slice lo hi)) /\
  (forall l lo hi vs, dchain E b l lo hi vs -> Forall (fun x => fine (fst x) (snd x)) l -> lang_and E (map snd l) (slice lo hi)).
Proof.
  apply derives_mut; intros.
  - rewrite (slice_one _ _ e). now constructor.
  - rewrite (slice_one _ _ e). now constructor.
  - constructor. now apply slice_all.
  - rewrite (slice_one _ _ e). constructor.
  - rewrite slice_none. constructor.
  - constructor. eapply or_nth; eauto. apply H. eapply fine_part; eauto. eapply nth_error_In; eauto.
  - constructor. eapply or_nth; eauto. apply H. now left.
  - constructor. eapply or_in; eauto. apply H. now left.
  - constructor. rewrite parts_snd in H by (now apply result_fors_length in e). apply H. apply Forall_forall.
    intros [m r] Hr. apply in_combine_r in Hr. apply (fine_part Parse m (PSequence q qs) r Hr); [discriminate|exact H0].
  - constructor. rewrite map_map in H. cbn [snd] in H. rewrite map_id in H. apply H. apply Forall_forall.
    intros x Hx. apply in_map_iff in Hx as (r & <- & _). now left.
  - apply L_maybe. apply H. eapply fine_part; eauto. now left.
  - rewrite slice_none. constructor.
  - apply L_maybe. apply H. now left.
  - rewrite slice_none. constructor.
  - constructor. rewrite map_snd_repeat in H. apply H. apply Forall_forall. intros x Hx. apply repeat_spec in Hx. subst. eapply fine_part; eauto. now left.
  - constructor. rewrite map_snd_repeat in H. apply H. apply Forall_forall. intros x Hx. apply repeat_spec in Hx. subst. now left.
  - rewrite map_snd_repeat in H. destruct n as [|n]; [contradiction|]. cbn in H.
    assert (Hl : lang_and E (q :: repeat q n) (slice lo hi)).
    { apply H. apply (Forall_forall _ ((Parse, q) :: repeat (Parse, q) n)). intros x Hx. change ((Parse, q) :: repeat (Parse, q) n) with (repeat (Parse, q) (S n)) in Hx.
      apply repeat_spec in Hx. subst. eapply fine_part; eauto. now left. }
    inversion Hl; subst. constructor; auto. eapply star_of; eauto.
  - rewrite map_snd_repeat in H. destruct n as [|n]; [contradiction|]. cbn in H.
    assert (Hl : lang_and E (q :: repeat q n) (slice lo hi)).
    { apply H. apply (Forall_forall _ ((Look, q) :: repeat (Look, q) n)). intros x Hx. change ((Look, q) :: repeat (Look, q) n) with (repeat (Look, q) (S n)) in Hx.
      apply repeat_spec in Hx. subst. now left. }
    inversion Hl; subst. constructor; auto. eapply star_of; eauto.
  - constructor. rewrite map_snd_repeat in H. eapply star_of. apply H. apply Forall_forall. intros x Hx. apply repeat_spec in Hx. subst. eapply fine_part; eauto. now left.
  - constructor. rewrite map_snd_repeat in H. eapply star_of. apply H. apply Forall_forall. intros x Hx. apply repeat_spec in Hx. subst. now left.
  - rewrite pieces_of in H. cbn [map snd] in H.
    assert (Hl : lang_and E (q :: map snd (pieces Parse q d (List.length prs))) (slice lo hi)).
    { apply H. constructor; [eapply fine_part; eauto; now left|]. apply Forall_forall. intros x Hx. apply pieces_in in Hx as [-> | ->]; (eapply fine_part; [|intros Hm; exact Hm|eassumption]); cbn; auto. }
    inversion Hl; subst. constructor; auto. eapply tail_of; eauto.
  - rewrite pieces_of in H. cbn [map snd] in H.
    assert (Hl : lang_and E (q :: map snd (pieces Look q d n)) (slice lo hi)).
    { apply H. constructor; [now left|]. apply Forall_forall. intros x Hx. apply pieces_in in Hx as [-> | ->]; now left. }
    inversion Hl; subst. constructor; auto. eapply tail_of; eauto.
  - constructor. apply H. now left.
  - constructor. apply H. eapply fine_part; eauto. now left.
  - constructor. apply H. eapply fine_part; eauto. now left.
  - constructor. apply H. now left.
  - constructor. apply H. eapply fine_part; eauto. now left.
  - constructor. apply H. now left.
  - constructor. apply H. eapply fine_part; eauto. now left.
  - constructor. apply H. now left.
  - constructor. apply H. eapply fine_part; eauto. now left.
  - constructor. apply H. eapply fine_part; eauto. now left.
  - constructor. apply H. eapply fine_part; eauto. now left.
  - constructor. apply H. eapply fine_part; eauto. now left.
  - destruct H as [H|H]; [discriminate|]. destruct (H c t (reach_refl E _) e).
  - constructor. apply H. now left.
  - rewrite slice_none. constructor.
  - cbn [map snd]. inversion H1; subst. rewrite (slice_app lo mid hi).
    + constructor; auto.
    + pose proof (proj1 (derives_le E b) _ _ _ _ _ d). pose proof (proj2 (derives_le E b) _ _ _ _ d0). lia.
Qed.
End Block.

Theorem C75_sound m p i v rem tr : valid E i -> m = Look \/ plain p -> evals E m p i (Done (Res (Some v) rem) tr) ->
  exists w, elems E i = w ++ elems E rem /\ lang E p w.
Proof.
  intros Hv Hf He. apply evals_sound in He as [Hs Hd]; auto. cbn [r_rem r_ok] in *.
  exists (slice (sp_blk i) (sp_off i) (sp_off rem)). split; [|eapply (proj1 (derives_lang (sp_blk i))); eauto].
  destruct Hs as (c & Hc & ->). unfold elems, slice. cbn [adv sp_blk sp_off sp_len].
  replace (sp_off i + c - sp_off i) with c by lia. replace (sp_len i) with (c + (sp_len i - c)) at 1 by lia. rewrite firstn_add. f_equal. f_equal.
  apply skipn_skipn'.
Qed.

(** ** Every part has an answer: the conditions of C33 *)
Definition runs_to_end p : Prop := (forall c, compiles E Look (cust_body E c) = true) /\ compiles E Look p = true /\
  bodies_consume E p /\ exists cs, no_left_recursion E p cs.

Lemma look_component p q : (forall c, compiles E Look (cust_body E c) = true) -> In q (components E p) ->
  compiles E Look p = true -> compiles E Look q = true.
Proof.
  intros Hc Hi Hp. destruct p; cbn [components] in Hi; try contradiction;
    try (destruct (look_fors E p ps) as (? & _ & Hl); [auto|]; unfold look_ok in Hl; rewrite Forall_forall in Hl; now apply Hl);
    cbn [compiles] in Hp; repeat match goal with H : andb _ _ = true |- _ => apply andb_prop in H as [? ?] end;
    repeat match goal with H : In _ (_ :: _) |- _ => destruct H as [<-|H] | H : In _ [] |- _ => contradiction end; auto.
Qed.
Lemma look_reach p q : (forall c, compiles E Look (cust_body E c) = true) -> reach E p q -> compiles E Look p = true -> compiles E Look q = true.
Proof. intros Hc. induction 1; auto. intros. apply IHreach. eapply look_component; eauto. Qed.

Lemma peg_empty : (forall c, compiles E Look (cust_body E c) = true) ->
  (forall p l o, peg E p l o -> o = Some 0 -> compiles E Look p = true -> can_be_empty E p) /\
  (forall ps l o, peg_or E ps l o -> o = Some 0 -> Forall (fun q => compiles E Look q = true) ps -> exists q, In q ps /\ can_be_empty E q) /\
  (forall ps l o, peg_and E ps l o -> o = Some 0 -> Forall (fun q => compiles E Look q = true) ps -> all_can_be_empty E ps) /\
  (forall p l c, peg_star E p l c -> True) /\
  (forall p d l c, peg_tail E p d l c -> True).
Proof.
  intros Hc. apply peg_mut; intros; subst; auto; try discriminate;
    repeat match goal with
    | H : compiles E Look _ = true |- _ => let H' := fresh in pose proof (fun q Hq => look_component _ q Hc Hq H) as H'; cbn [components] in H'; revert H
    end; intros;
    try (constructor; first [apply H | auto]; auto; match goal with H : forall q, In q _ -> _ |- _ => apply H; cbn; auto end; fail).
  - injection H as H. destruct arr; [constructor|discriminate].
  - destruct H as (r & Hr & He); auto; [apply Forall_forall; auto|]. eapply ce_choice; eauto.
  - constructor. apply H; auto. apply Forall_forall. auto.
  - cbn [compiles] in H1. destruct n; [discriminate|]. constructor. cbn [repeat] in H.
    assert (Ha : all_can_be_empty E (q :: repeat q n)) by (apply H; auto; apply (Forall_forall _ (repeat q (S n))); intros x ->%repeat_spec; apply H0; now left).
    now inversion Ha.
  - injection H1 as H1. constructor. apply H; [f_equal; lia|apply H3; now left].
  - injection H1 as H1. constructor. apply H; [f_equal; lia|apply H3; now left].
  - injection H0 as ->. inversion H1; subst. exists q. split; [now left|auto].
  - inversion H2 as [|? ? Hq Hqs]; subst. destruct (H0 eq_refl Hqs) as (r & Hr & He). exists r. split; [now right|auto].
  - destruct o as [e|]; [|discriminate]. injection H1 as H1. inversion H2; subst. constructor; [apply H; auto; f_equal; lia|apply H0; auto; f_equal; lia].
Qed.

Lemma end_answers p : runs_to_end p -> answers E p.
Proof.
  intros (Hc & Hp & Hb & cs & Hf & Ha). apply (all_answer E (can_be_empty E)); auto.
  - intros q l Hq Ho. apply (proj1 (peg_empty Hc) q l (Some 0)); auto. eapply look_reach; eauto.
  - apply (acyclic_acc E p cs Hf Ha).
Qed.

Lemma app_inv_len (w1 w2 r1 r2 : list V) : List.length w1 = List.length w2 -> w1 ++ r1 = w2 ++ r2 -> w1 = w2 /\ r1 = r2.
Proof.
  revert w2. induction w1 as [|x w1 IH]; intros [|y w2] Hl He; try discriminate; auto. injection Hl as Hl. injection He as -> He.
  destruct (IH w2 Hl He) as [-> ->]. auto.
Qed.

(** ** Where order and greed make no difference *)
Section Clear.
Variable G : nat -> list V -> Prop.
Hypothesis customs_clear : forall c, clear E G (cust_body E c) (G c).

(** A word of the grammar followed by something allowed is recognised, whole. *)
Theorem C75_exact p F i w r : runs_to_end p -> clear E G p F -> valid E i -> elems E i = w ++ r -> lang E p w -> F r ->
  evals E Look p i (Done (Res (Some RVoid) (after i (List.length w))) []).
Proof.
  intros Hp Hcl Hv Hi Hw Hr. pose proof (end_answers p Hp) as Ha. destruct Hp as (Hc & Hp & _).
  apply C38_lookahead_is_peg; auto. split; auto. exists (Some (List.length w)). split; [|reflexivity].
  rewrite Hi. eapply clear_peg_p; eauto.
Qed.

(** The same for parse, if nothing in [p] rejects after a success. *)
Theorem C75_parse_exact p F i w r : program E -> compiles E Parse p = true -> steady E p ->
  runs_to_end p -> clear E G p F -> valid E i -> elems E i = w ++ r -> lang E p w -> F r ->
  (exists e, evals E Parse p i (Exn e)) \/ exists v tr, evals E Parse p i (Done (Res (Some v) (after i (List.length w))) tr).
Proof.
  intros HP Hpp Hs Hp Hcl Hv Hi Hw Hr. pose proof (end_answers p Hp) as Ha. destruct Hp as (Hc & Hp & _).
  apply (peg_parse E p i (Some (List.length w))); auto. rewrite Hi. eapply clear_peg_p; eauto.
Qed.

(** A text has at most one beginning in the grammar that is followed by something allowed. *)
Theorem C75_unique p F w1 r1 w2 r2 : runs_to_end p -> clear E G p F -> lang E p w1 -> lang E p w2 -> F r1 -> F r2 ->
  w1 ++ r1 = w2 ++ r2 -> w1 = w2 /\ r1 = r2.
Proof.
  intros Hp Hcl H1 H2 F1 F2 He. pose proof (end_answers p Hp) as Ha.
  assert (P1 : peg E p (w1 ++ r1) (Some (List.length w1))) by (eapply clear_peg_p; eauto).
  assert (P2 : peg E p (w1 ++ r1) (Some (List.length w2))) by (rewrite He; eapply clear_peg_p; eauto).
  pose proof (proj1 (peg_det E) _ _ _ P1 _ P2) as Hl. injection Hl as Hl.
  apply app_inv_len; auto.
Qed.

(** [complete(p)] accepts exactly the words of the grammar. *)
Lemma complete_ends p : runs_to_end p -> runs_to_end (PComplete p).
Proof.
  intros (Hc & Hp & Hb & cs & Hf & Ha). split; auto. split; [cbn; now rewrite Hp|].
  assert (Hr : forall q, reach E (PComplete p) q -> q = PComplete p \/ reach E p q).
  { intros q Hq. inversion Hq as [|? r ? Hi Hr]; subst; auto. destruct Hi as [<-|[]]. auto. }
  split; [|exists cs; split].
  - intros q [-> |Hq]%Hr; [exact Logic.I|auto].
  - intros c [Hq|Hq]%Hr; [discriminate|auto].
  - intros c [Hq|Hq]%Hr; [discriminate|auto].
Qed.

Lemma complete_answer p l : runs_to_end p -> clear E G p (eq []) ->
  (lang E p l /\ peg E (PComplete p) l (Some (List.length l))) \/ (~ lang E p l /\ peg E (PComplete p) l None).
Proof.
  intros Hp Hcl. pose proof (end_answers _ (complete_ends p Hp)) as Ha.
  assert (Hin : lang E p l -> peg E (PComplete p) l (Some (List.length l))).
  { intros Hw. constructor. rewrite <- (app_nil_r l) at 1. eapply clear_peg_p; eauto. now apply end_answers. }
  destruct (Ha (PComplete p) l (reach_refl E _)) as [[c|] Ho].
  - left. assert (Hw : lang E p (firstn c l)) by (apply peg_lang_p in Ho; now inversion Ho).
    assert (c = List.length l) as -> by (inversion Ho; auto). rewrite firstn_all in Hw. auto.
  - right. split; auto. intros Hw%Hin. pose proof (proj1 (peg_det E) _ _ _ Ho _ Hw). discriminate.
Qed.

Theorem C75_language p i : runs_to_end p -> clear E G p (eq []) -> valid E i ->
  (lang E p (elems E i) -> evals E Look (PComplete p) i (Done (Res (Some RVoid) (after i (sp_len i))) [])) /\
  (~ lang E p (elems E i) -> evals E Look (PComplete p) i (Done (Res None i) [])).
Proof.
  intros Hp Hcl Hv. split.
  - intros Hw. rewrite <- (elems_length E i Hv). eapply C75_exact with (F := eq []) (r := []); auto using complete_ends.
    + constructor; auto.
    + now rewrite app_nil_r.
    + now constructor.
  - intros Hn. destruct (complete_answer p (elems E i) Hp Hcl) as [[Hl _]|[_ Ho]]; [contradiction|].
    destruct (complete_ends p Hp) as (Hc & Hpc & _). apply C38_lookahead_is_peg; auto. split; auto. exists None. auto.
Qed.

Theorem C75_parse_language p i : program E -> compiles E Parse (PComplete p) = true -> steady E p ->
  runs_to_end p -> clear E G p (eq []) -> valid E i ->
  (exists e, evals E Parse (PComplete p) i (Exn e)) \/
  (lang E p (elems E i) /\ exists v tr, evals E Parse (PComplete p) i (Done (Res (Some v) (after i (sp_len i))) tr)) \/
  (~ lang E p (elems E i) /\ exists tr, evals E Parse (PComplete p) i (Done (Res None i) tr)).
Proof.
  intros HP Hpp Hs Hp Hcl Hv.
  assert (Hs' : steady E (PComplete p)).
  { intros q Hq. inversion Hq as [|? r ? Hi Hr]; subst; [exact Logic.I|]. destruct Hi as [<-|[]]. auto. }
  destruct (complete_ends p Hp) as (_ & Hpc & _).
  destruct (complete_answer p (elems E i) Hp Hcl) as [[Hl Ho]|[Hl Ho]]; destruct (peg_parse E _ i _ HP Hv Hpp Hpc Hs' Ho) as [H|H]; auto.
  right. left. split; auto. now rewrite (elems_length E i Hv) in H.
Qed.
End Clear.

(** What has no beginning in the grammar is refused, by any parser that returns. *)
Theorem C75_refused p i : runs_to_end p -> valid E i -> ~ begins (lang E p) (elems E i) ->
  evals E Look p i (Done (Res None i) []).
Proof.
  intros Hp Hv Hn. pose proof (end_answers p Hp) as Ha. destruct Hp as (Hc & Hp & _).
  apply C38_lookahead_is_peg; auto. split; auto. exists None. split; [|reflexivity]. apply refused; auto. apply Ha. constructor.
Qed.

(** ** A test for the condition *)
Theorem C75_ll1 (teq sep : T -> T -> bool) cs nul fs fo p : (forall t t', teq t t' = true -> t = t') ->
  (forall t t' c, sep t t' = true -> eqv E t c = true -> eqv E t' c = false) ->
  ll1_ok E teq sep cs nul fs fo p [] = true ->
  (forall c, clear E (what_follows E cs fo) (cust_body E c) (what_follows E cs fo c)) /\ clear E (what_follows E cs fo) p (eq []).
Proof.
  intros Ht Hs H. apply (ll1_grammar E teq sep Ht Hs cs nul fs fo p []); auto. intros s <-. exact Logic.I.
Qed.
End C75.

(** ** Cases *)

(** Lists [(a,(bc,a),b)]: custom parser 0, which calls itself; 1 is a word. *)
Definition gx_item : parser nat := PChoice (PCustom 0) [PCustom 1].
Definition gx_body (c : nat) : parser nat :=
  match c with
  | 0 => PSequence (PIgnore (PAllOf (codes "("))) [PDelimit gx_item (PIgnore (PAllOf (codes ","))); PIgnore (PAllOf (codes ")"))]
  | 1 => PJoin (POneOrMore sx_letter)
  | _ => PEpsilon
  end.
Definition gx_mem (b : nat) : list nat := match b with 1 => codes "(a,(bc,a),b)" | 2 => codes "(a,(bc,),b)" | _ => [] end.
Definition gx : env nat nat := {|
  eqv := Nat.eqb; mem := gx_mem; fn_ret := fn_ret sx; fn_app := fn_app sx; ct_ok := ct_ok sx; ct_app := ct_app sx;
  k_ty := k_ty sx; k_val := k_val sx; bool_ok := bool_ok sx; as_bool := as_bool sx;
  cust_body := gx_body; cust_ty := fun c => match c with 0 => TUser 2 | 1 => TSpan | _ => TVoid end;
  cust_conv := fun c => match c with 0 => ConvElem (TUser 2) | _ => ConvSame end |}.
Lemma gx_program : program gx.
Proof.
  split.
  - destruct sx_typed. constructor; auto.
  - constructor.
    + intros m c. destruct m, c as [|[|c]]; reflexivity.
    + intros c. destruct c as [|[|c]]; cbn; auto.
    + intros c. destruct c as [|[|c]]; cbn; auto; (split; [auto|split; [discriminate|]]); eexists; (split; [reflexivity|]); split; auto; discriminate.
Qed.

Definition apart_nat (t t' : nat) : bool := negb (Nat.eqb t t').
Lemma teq_nat t t' : Nat.eqb t t' = true -> t = t'.
Proof. apply Nat.eqb_eq. Qed.
Lemma sep_nat t t' c : apart_nat t t' = true -> Nat.eqb t c = true -> Nat.eqb t' c = false.
Proof. unfold apart_nat. intros H ->%Nat.eqb_eq. apply negb_true_iff in H. rewrite Nat.eqb_sym. exact H. Qed.

Definition gx_first (c : nat) : list (bool * list nat) := match c with 0 => [(false, codes "(")] | _ => [(false, codes "abc")] end.
Definition gx_follow (c : nat) : list (bool * list nat) := [(false, codes ",)")].

Example C75_case : let p := PCustom 0 in
  runs_to_end gx p /\ steady gx p /\ compiles gx Parse (PComplete p) = true /\
  (exists G, (forall c, clear gx G (cust_body gx c) (G c)) /\ clear gx G p (eq [])) /\
  lang gx p (codes "(a,(bc,a),b)") /\ ~ lang gx p (codes "(a,(bc,),b)").
Proof.
  cbn zeta. set (p := PCustom 0).
  assert (He : runs_to_end gx p).
  { split; [intros [|[|c]]; reflexivity|]. split; [reflexivity|].
    destruct (C33_check gx (fun _ => false) (fun c => 1 - c) [0; 1] p eq_refl) as [H1 H2]. split; eauto. }
  assert (Hg := C75_ll1 gx Nat.eqb apart_nat [0; 1] (fun _ => false) gx_first gx_follow p teq_nat sep_nat eq_refl).
  destruct Hg as [Hg Hp].
  split; [exact He|]. split; [apply (steady_b_ok gx [0; 1]); reflexivity|]. split; [reflexivity|]. split; [eauto|].
  split.
  - assert (Hs := C75_sound gx Look p (Span 1 0 12) RVoid (Span 1 12 0) []). destruct Hs as (w & Hw & Hl); [cbv; lia|now left|runs 60|].
    cbn in Hw. rewrite app_nil_r in Hw. rewrite <- Hw in Hl. exact Hl.
  - intros Hl. destruct (C75_language gx _ Hg p (Span 2 0 11) He Hp) as [Hy _]; [cbv; lia|]. specialize (Hy Hl).
    assert (Hf : evals gx Look (PComplete p) (Span 2 0 11) (Done (Res None (Span 2 0 11)) [])) by runs 60.
    pose proof (evals_det _ _ _ _ _ _ Hy Hf). discriminate.
Qed.

(** Every number the JSON grammar describes, and nothing else, is accepted by its parser (examples/json/json.cpp:23-35):
    the order of its alternatives and the greed of its repetitions exclude nothing. *)
Theorem C75_json_number memory cons i : json_cons_typed cons -> valid (json_env memory cons) i ->
  (exists e, evals (json_env memory cons) Parse (PComplete number) i (Exn e)) \/
  (lang (json_env memory cons) number (elems (json_env memory cons) i) /\
     exists v tr, evals (json_env memory cons) Parse (PComplete number) i (Done (Res (Some v) (after i (sp_len i))) tr)) \/
  (~ lang (json_env memory cons) number (elems (json_env memory cons) i) /\
     exists tr, evals (json_env memory cons) Parse (PComplete number) i (Done (Res None i) tr)).
Proof.
  intros Hcons Hv. set (J := json_env memory cons) in *.
  destruct (C75_ll1 J Nat.eqb apart_nat [] (fun _ => false) (fun _ => []) (fun _ => []) number teq_nat sep_nat) as [Hg Hp]; [vm_compute; reflexivity|].
  apply (C75_parse_language J _ Hg); auto.
  - now apply json_program.
  - apply (steady_b_ok J []). vm_compute. reflexivity.
  - split; [intros c; apply (ec_compiles J (proj2 (json_program memory cons Hcons)))|]. split; [vm_compute; reflexivity|].
    destruct (C33_check J (fun _ => false) (fun _ => 0) [] number) as [H1 H2]; [vm_compute; reflexivity|]. split; eauto.
Qed.

(** Without the condition: the text is in the grammar, and refused, because of the order, or the greed. *)
Theorem C75_order_refuted : exists p i, runs_to_end sx p /\ valid sx i /\ lang sx p (elems sx i) /\
  evals sx Look (PComplete p) i (Done (Res None i) []) /\ p = PChoice (PAllOf (codes "a")) [PAllOf (codes "aa")].
Proof.
  exists (PChoice (PAllOf (codes "a")) [PAllOf (codes "aa")]), (Span 3 0 2). repeat split; try (intros; reflexivity); try (cbv; lia).
  - intros [|[|[|c]]]; reflexivity.
  - apply (C33_check sx (fun _ => false) (fun _ => 0) []). reflexivity.
  - exists []. apply (C33_check sx (fun _ => false) (fun _ => 0) []). reflexivity.
  - constructor. apply L_or_next, L_or_here. constructor. cbn. repeat constructor.
  - discriminate.
  - exists 20. reflexivity.
Qed.
Theorem C75_greed_refuted : exists p i, runs_to_end sx p /\ valid sx i /\ lang sx p (elems sx i) /\
  evals sx Look (PComplete p) i (Done (Res None i) []) /\ p = PSequence (PZeroOrMore (PAllOf (codes "a"))) [PAllOf (codes "a")].
Proof.
  exists (PSequence (PZeroOrMore (PAllOf (codes "a"))) [PAllOf (codes "a")]), (Span 3 0 2). repeat split; try (intros; reflexivity); try (cbv; lia).
  - intros [|[|[|c]]]; reflexivity.
  - apply (C33_check sx (fun _ => false) (fun _ => 0) []). reflexivity.
  - exists []. apply (C33_check sx (fun _ => false) (fun _ => 0) []). reflexivity.
  - constructor. apply (L_and_next sx _ _ (codes "a") (codes "a")).
    + constructor. apply (L_star_next sx _ (codes "a") []); constructor. repeat constructor.
    + apply (L_and_next sx _ _ (codes "a") []); repeat constructor.
  - discriminate.
  - exists 20. reflexivity.
Qed.
(** A custom parser whose result_type is built from the optional succeeds without a word of its grammar. *)
Theorem C75_whole_refuted : exists p i v tr, valid sx i /\ evals sx Parse p i (Done (Res (Some v) i) tr) /\ ~ lang sx p [].
Proof.
  exists (PCustom 2), in1. eexists _, _. split; [apply in1_valid|]. split; [runs 20|].
  assert (Hz : forall q w, lang sx q w -> q = PAllOf (codes "z") -> w <> []).
  { intros q w [] He; try discriminate. injection He as ->. intros ->. inversion H. }
  assert (Hc : forall q w, lang sx q w -> q = PCustom 2 -> w <> []).
  { intros q w [] He; try discriminate. injection He as ->. eapply Hz; eauto. }
  intros H. exact (Hc _ _ H eq_refl eq_refl).
Qed.

Print Assumptions C75_sound.
Print Assumptions C75_exact.
Print Assumptions C75_parse_exact.
Print Assumptions C75_unique.
Print Assumptions C75_language.
Print Assumptions C75_parse_language.
Print Assumptions C75_refused.
Print Assumptions C75_ll1.
Print Assumptions C75_json_number.
Print Assumptions C75_order_refuted.
Print Assumptions C75_greed_refuted.
Print Assumptions C75_whole_refuted.
