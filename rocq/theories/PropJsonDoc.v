(** * C50, C51: the JSON example accepts JSON and delivers the document *)
From Coq Require Import String List Arith ZArith Bool Lia.
From Verif Require Import Types Compound Parser Outcome CompoundFacts Exec Mono Derive Typing Join Leaves Sound
  BigStep BigSound BigComplete Peg Elems Runs Samples PropCore PropPeg Lossless Agree Check PropAgree Grammar CharPeg Names PropNames Term PropTerm
  StaticArray Operators PropSets Modifiers ExAlgebraic PropAlgebraic ExJson PropJson JsonGrammar JsonPeg JsonDoc.
Import ListNotations.

(** ** The language *)

(** The texts of the three parsers of json.cpp:51-73: 0 values with white space around them,
    1 objects, 2 arrays. *)
Definition json_language (strict : bool) (c : nat) (t : list nat) : Prop :=
  match c with
  | 0 => exists d, element strict d t
  | 1 => exists ms, spells strict (JObject ms) t
  | _ => exists ds, spells strict (JArray ds) t
  end.

(** PEG recognition does not depend on memory or constructors. *)
Lemma peg_env {T V} (E F : env T V) : (forall t c, eqv E t c = eqv F t c) -> (forall c, cust_body E c = cust_body F c) ->
  (forall p l o, peg E p l o -> peg F p l o) /\ (forall ps l o, peg_or E ps l o -> peg_or F ps l o) /\
  (forall ps l o, peg_and E ps l o -> peg_and F ps l o) /\ (forall q l n, peg_star E q l n -> peg_star F q l n) /\
  (forall q d l n, peg_tail E q d l n -> peg_tail F q d l n).
Proof.
  intros He Hc. assert (Hs : forall arr l, starts E arr l <-> starts F arr l).
  { intros arr l. split; intros (l1 & l2 & -> & HF); exists l1, l2; (split; [reflexivity|]); induction HF; constructor; auto; congruence. }
  apply peg_mut; intros; try (econstructor; eauto; intros; rewrite <- He; auto; fail).
  - apply G_any_ok. destruct e as (t & ? & ?). exists t. now rewrite <- He.
  - apply G_none_no. destruct e as (t & ? & ?). exists t. now rewrite <- He.
  - apply G_all_ok. now apply Hs.
  - apply G_all_no. now rewrite <- Hs.
  - apply G_custom. now rewrite <- Hc.
Qed.

Lemma json_cons_ok : json_cons_typed json_cons.
Proof. intros t args tys H HF. destruct t as [| | | | | | | |[|[|[|[|[|[|]]]]]]]; try discriminate; (split; [discriminate|reflexivity]). Qed.

Section Language.
Context (memory : nat -> list nat) (cons : ty -> list val -> fnres).
Notation J := (json_env memory cons).

Lemma entry c : c <= 2 -> json_entry (PCustom c).
Proof. intros H. destruct c as [|[|[|c]]]; [| | |lia]; cbn; tauto. Qed.

Lemma language_complete c t r : c <= 2 -> json_language false c t -> exists n, peg J (PCustom c) (t ++ r) (Some n) /\ List.length t <= n.
Proof.
  intros Hc Ht. destruct c as [|[|[|c]]]; [| | |lia].
  - destruct Ht as [d Hd]. destruct (proj1 (proj2 (complete memory cons)) _ _ Hd r) as (n & Hn & Hle & _). eauto.
  - destruct Ht as [ms Hs]. destruct (proj1 (complete memory cons) _ _ Hs r) as (n & Hn & Hle & _). exists n. split; auto.
    destruct (spells_head _ _ _ Hs) as (x & l & -> & ->).
    inversion Hn; subst; clear Hn. cbn [app values tl] in *.
    pose proof (peg_str_no memory cons (123 :: l ++ r)) as N1. pose proof (peg_num_no memory cons (123 :: l ++ r)) as N2.
    pose proof (peg_array_no memory cons (123 :: l ++ r)) as N4. cbn [head_not] in N1, N2, N4.
    specialize (N1 ltac:(lia)). specialize (N2 ltac:(unfold is_dg; lia)). specialize (N4 ltac:(lia)).
    assert (N3 : forall a arr f, In a [116; 102; 110] -> peg J (PMap (PAllOf (a :: arr)) f) (123 :: l ++ r) None).
    { intros a arr f Ha. apply peg_word_no. cbn in Ha. lia. }
    repeat match goal with
    | H : peg_or _ (_ :: _) _ (Some _) |- _ => inversion H; subst; clear H
    | H : peg_or _ [] _ (Some _) |- _ => inversion H
    end; auto; exfalso.
    all: match goal with
    | H : peg _ str _ (Some _) |- _ => pose proof (proj1 (peg_det J) _ _ _ H _ N1); discriminate
    | H : peg _ number _ (Some _) |- _ => pose proof (proj1 (peg_det J) _ _ _ H _ N2); discriminate
    | H : peg _ json_array _ (Some _) |- _ => pose proof (proj1 (peg_det J) _ _ _ H _ N4); discriminate
    | H : peg _ (PMap _ _) _ (Some _) |- _ => assert (K := fun Hin => proj1 (peg_det J) _ _ _ H _ (N3 _ _ _ Hin)); cbn in K; discriminate K; tauto
    end.
  - destruct Ht as [ms Hs]. destruct (proj1 (complete memory cons) _ _ Hs r) as (n & Hn & Hle & _). exists n. split; auto.
    destruct (spells_head _ _ _ Hs) as (x & l & -> & ->).
    inversion Hn; subst; clear Hn. cbn [app values tl] in *.
    pose proof (peg_str_no memory cons (91 :: l ++ r)) as N1. pose proof (peg_num_no memory cons (91 :: l ++ r)) as N2.
    pose proof (peg_object_no memory cons (91 :: l ++ r)) as N4. cbn [head_not] in N1, N2, N4.
    specialize (N1 ltac:(lia)). specialize (N2 ltac:(unfold is_dg; lia)). specialize (N4 ltac:(lia)).
    assert (N3 : forall a arr f, In a [116; 102; 110] -> peg J (PMap (PAllOf (a :: arr)) f) (91 :: l ++ r) None).
    { intros a arr f Ha. apply peg_word_no. cbn in Ha. lia. }
    repeat match goal with
    | H : peg_or _ (_ :: _) _ (Some _) |- _ => inversion H; subst; clear H
    | H : peg_or _ [] _ (Some _) |- _ => inversion H
    end; auto; exfalso.
    all: match goal with
    | H : peg _ str _ (Some _) |- _ => pose proof (proj1 (peg_det J) _ _ _ H _ N1); discriminate
    | H : peg _ number _ (Some _) |- _ => pose proof (proj1 (peg_det J) _ _ _ H _ N2); discriminate
    | H : peg _ json_object _ (Some _) |- _ => pose proof (proj1 (peg_det J) _ _ _ H _ N4); discriminate
    | H : peg _ (PMap _ _) _ (Some _) |- _ => assert (K := fun Hin => proj1 (peg_det J) _ _ _ H _ (N3 _ _ _ Hin)); cbn in K; discriminate K; tauto
    end.
Qed.

Lemma delivers_language c t v : c <= 2 -> delivers memory cons c t v -> json_language false c t.
Proof. intros Hc. destruct c as [|[|[|c]]]; [| | |lia]; cbn; firstorder. Qed.

Lemma parsed_text c i v rem tr : c <= 2 -> valid J i -> evals J Parse (PCustom c) i (Done (Res (Some v) rem) tr) ->
  exists n, n <= sp_len i /\ rem = after i n /\ delivers memory cons c (firstn n (elems J i)) v.
Proof.
  intros Hc Hv H. apply evals_sound in H as [Hs H]; auto. cbn [r_rem] in *. destruct Hs as (n & Hn & ->). exists n. split; auto. split; auto.
  cbn [sp_off adv] in H. apply (doc_d memory cons _ (S (2 * (sp_off i + n - sp_off i) + 1))) in H; [|destruct (c =? 0); lia].
  replace (firstn n (elems J i)) with (region_text memory (sp_blk i) (sp_off i) (sp_off i + n)); auto.
  unfold region_text, view, elems. cbn. rewrite firstn_firstn. f_equal. lia.
Qed.
End Language.

Lemma language_peg memory cons c l : c <= 2 -> exists o, peg (json_env memory cons) (PCustom c) l o /\
  match o with
  | Some n => n <= List.length l /\ json_language false c (firstn n l) /\ (forall k, k <= List.length l -> json_language false c (firstn k l) -> k <= n)
  | None => forall k, ~ json_language false c (firstn k l)
  end.
Proof.
  intros Hc. set (m0 := fun _ : nat => l). set (i := Span 0 0 (List.length l)). set (J0 := json_env m0 json_cons).
  assert (Hv : valid J0 i) by (unfold valid, i, J0, m0; cbn; lia).
  assert (Hl : elems J0 i = l) by (unfold elems, i, J0, m0; cbn; apply firstn_all).
  destruct (json_checks m0 json_cons _ (entry c Hc)) as (_ & Hs & Hcp & Hcl).
  destruct (C39_json_terminates m0 json_cons json_cons_ok _ Parse i (entry c Hc) Hv) as (o & He & Ho).
  destruct o as [[ok rem] tr| |e| |]; try contradiction.
  2:{ destruct Ho as (_ & t & args & Ha). destruct t; discriminate. }
  destruct (parse_peg J0 _ i ok rem tr (json_program _ _ json_cons_ok) Hv Hcp Hcl (steady_b_ok J0 [0; 1; 2] _ Hs) He) as (o & Hp & Hm).
  rewrite Hl in Hp. exists o. split; [eapply (peg_env J0); eauto|]. destruct o as [n|].
  - destruct Hm as [Hok ->]. destruct ok as [v|]; [|congruence].
    destruct (parsed_text _ _ _ _ _ _ _ Hc Hv He) as (k & Hk & Heq & Hd). fold J0 in Hd. rewrite Hl in Hd.
    assert (n = k) by (unfold after in Heq; injection Heq as E1 E2; cbn in *; lia). subst k. split; [exact Hk|]. split; [eapply delivers_language; eauto|].
    intros k Hkl HL. destruct (language_complete m0 json_cons c _ (skipn k l) Hc HL) as (n' & Hn' & Hle). rewrite firstn_skipn in Hn'.
    pose proof (proj1 (peg_det J0) _ _ _ Hp _ Hn') as E. injection E as <-. rewrite firstn_length in Hle. lia.
  - intros k HL. destruct (language_complete m0 json_cons c _ (skipn k l) Hc HL) as (n' & Hn' & _). rewrite firstn_skipn in Hn'.
    pose proof (proj1 (peg_det J0) _ _ _ Hp _ Hn') as E. discriminate.
Qed.

(** ** C50 *)
Section C50.
Context (memory : nat -> list nat) (cons : ty -> list val -> fnres).
Hypothesis Hcons : json_cons_typed cons.
Notation J := (json_env memory cons).

(** The longest prefix of the input that is in the language is [n] long. *)
Definition longest (c : nat) (i : span) (n : nat) : Prop :=
  n <= sp_len i /\ json_language false c (firstn n (elems J i)) /\
  forall k, k <= sp_len i -> json_language false c (firstn k (elems J i)) -> k <= n.
Definition none_at (c : nat) (i : span) : Prop := forall k, ~ json_language false c (firstn k (elems J i)).

(** Whatever the input: lookahead takes the longest text of the grammar, and fails if the input
    starts with none. *)
Theorem C50_lookahead_is_longest c i : c <= 2 -> valid J i ->
  (exists n, evals J Look (PCustom c) i (Done (Res (Some RVoid) (after i n)) []) /\ longest c i n) \/
  (evals J Look (PCustom c) i (Done (Res None i) []) /\ none_at c i).
Proof.
  intros Hc Hv. destruct (language_peg memory cons c (elems J i) Hc) as (o & Hp & Ho).
  destruct (json_checks memory cons _ (entry c Hc)) as (_ & Hs & Hcp & Hcl).
  assert (He : evals J Look (PCustom c) i (Done (peg_result i o) [])).
  { apply C38_lookahead_is_peg; auto; [|eauto]. intros x. apply (ec_compiles J (proj2 (json_program memory cons Hcons))). }
  unfold longest. destruct o as [n|]; cbn in He; rewrite (elems_length J i Hv) in Ho || idtac.
  - left. exists n. split; [exact He|auto].
  - right. split; [exact He|exact Ho].
Qed.

(** So does parse, unless a constructor throws. *)
Theorem C50_parse_is_longest c i : c <= 2 -> valid J i ->
  (exists e t args, evals J Parse (PCustom c) i (Exn e) /\ cons t args = FThrow e) \/
  (exists n v tr, evals J Parse (PCustom c) i (Done (Res (Some v) (after i n)) tr) /\ longest c i n) \/
  (exists tr, evals J Parse (PCustom c) i (Done (Res None i) tr) /\ none_at c i).
Proof.
  intros Hc Hv. destruct (language_peg memory cons c (elems J i) Hc) as (o & Hp & Ho).
  destruct (json_checks memory cons _ (entry c Hc)) as (_ & Hs & Hcp & Hcl).
  destruct (peg_parse J _ i o (json_program memory cons Hcons) Hv Hcp Hcl (steady_b_ok J [0; 1; 2] _ Hs) Hp) as [[e He]|He].
  - left. destruct (C39_json_terminates memory cons Hcons _ Parse i (entry c Hc) Hv) as (o' & He' & Ho').
    pose proof (evals_det J _ _ _ _ _ He He') as E. subst o'. destruct Ho' as (_ & t & args & Ha). eauto.
  - right. unfold longest. destruct o as [n|]; rewrite (elems_length J i Hv) in Ho || idtac.
    + left. destruct He as (v & tr & He). exists n, v, tr. split; [exact He|auto].
    + right. destruct He as (tr & He). exists tr. split; [exact He|exact Ho].
Qed.

(** A whole text of RFC 8259 is consumed completely. *)
Theorem C50_accepts_rfc c i : c <= 2 -> valid J i -> json_language true c (elems J i) ->
  evals J Look (PCustom c) i (Done (Res (Some RVoid) (after i (sp_len i))) []) /\
  ((exists e t args, evals J Parse (PCustom c) i (Exn e) /\ cons t args = FThrow e) \/
   exists v tr, evals J Parse (PCustom c) i (Done (Res (Some v) (after i (sp_len i))) tr)).
Proof.
  intros Hc Hv HL.
  assert (HL' : json_language false c (firstn (sp_len i) (elems J i))).
  { rewrite firstn_all2 by (rewrite elems_length; auto). destruct c as [|[|c]]; destruct HL as [d Hd]; exists d; eapply spells_lax; eauto. }
  split.
  - destruct (C50_lookahead_is_longest c i Hc Hv) as [(n & He & Hn & _ & Hk)|(_ & Hno)]; [|now destruct (Hno _ HL')].
    specialize (Hk _ (le_n _) HL'). now replace n with (sp_len i) in He by lia.
  - destruct (C50_parse_is_longest c i Hc Hv) as [He|[(n & v & tr & He & Hn & _ & Hk)|(tr & _ & Hno)]]; auto; [|now destruct (Hno _ HL')].
    specialize (Hk _ (le_n _) HL'). right. exists v, tr. now replace n with (sp_len i) in He by lia.
Qed.

(** Only texts of RFC 8259 with control characters as they are in strings are consumed
    completely.  Missing from the RFC's grammar: C50_rfc_only_refuted. *)
Theorem C50_accepts_only_partial c i m v rem tr : c <= 2 -> valid J i ->
  evals J m (PCustom c) i (Done (Res (Some v) rem) tr) -> sp_len rem = 0 -> json_language false c (elems J i).
Proof.
  intros Hc Hv He Hr. assert (Hl : exists n, rem = after i n /\ longest c i n).
  { destruct m.
    - destruct (C50_parse_is_longest c i Hc Hv) as [(e & t & args & He' & _)|[(n & v' & tr' & He' & HL)|(tr' & He' & _)]];
        pose proof (evals_det J _ _ _ _ _ He He') as E; try discriminate. injection E as -> -> ->. eauto.
    - destruct (C50_lookahead_is_longest c i Hc Hv) as [(n & He' & HL)|(He' & _)];
        pose proof (evals_det J _ _ _ _ _ He He') as E; try discriminate. injection E as -> -> ->. eauto. }
  destruct Hl as (n & -> & Hn & HL & _). cbn in Hr. rewrite firstn_all2 in HL; auto. rewrite elems_length; auto. lia.
Qed.
End C50.

(** The two grammars differ in just this: strings may contain control characters. *)
Theorem C50_rfc_is_printable d t : element true d t <-> element false d t /\ Forall (Forall (le 32)) (doc_strings d).
Proof. apply strict_iff. Qed.

(** "\x01" (json.cpp:44 excludes only the quotation mark and the backslash): accepted, though
    RFC 8259 has no such text. *)
Definition control_text (b : nat) : list nat := [34; 1; 34].
Theorem C50_rfc_only_refuted : json_cons_typed json_cons /\ exists i v rem tr,
  valid (json_env control_text json_cons) i /\ evals (json_env control_text json_cons) Parse json_value i (Done (Res (Some v) rem) tr) /\ sp_len rem = 0 /\
  ~ json_language true 0 (elems (json_env control_text json_cons) i).
Proof.
  split; [exact json_cons_ok|]. exists (Span 0 0 3). eexists _, (Span 0 3 0), _. split; [unfold valid; cbn; lia|]. split; [runs 30|]. split; [reflexivity|].
  intros (d & Hd). apply C50_rfc_is_printable in Hd as [Hd Hc].
  assert (Hs : element false (JString [1]) [34; 1; 34]).
  { apply (el_white _ _ [] (string_text [1]) []); try constructor. apply (ch_cons _ [1] []); constructor; lia. }
  rewrite <- (proj1 (proj2 (unique control_text json_cons)) _ _ Hs _ Hd) in Hc.
  inversion Hc as [|? ? H1 _]; subst. inversion H1; subst. lia.
Qed.

(** ** C51 *)
Theorem C51_unambiguous s d d' t : element s d t -> element s d' t -> d = d'.
Proof.
  intros H H'. apply spells_lax in H, H'. exact (proj1 (proj2 (unique control_text json_cons)) _ _ H _ H').
Qed.

Section C51.
Context (memory : nat -> list nat) (cons : ty -> list val -> fnres).
Notation J := (json_env memory cons).

(** Whatever was parsed: the object delivered is the one for the document that the consumed
    text spells, and that text spells no other. *)
Theorem C51_delivers_the_document i v rem tr : valid J i -> evals J Parse json_value i (Done (Res (Some v) rem) tr) ->
  exists n d, n <= sp_len i /\ rem = after i n /\ built memory cons d v /\ element false d (firstn n (elems J i)) /\
    forall d', element false d' (firstn n (elems J i)) -> d' = d.
Proof.
  intros Hv He. destruct (parsed_text memory cons 0 i v rem tr ltac:(lia) Hv He) as (n & Hn & -> & d & Hd & Hb).
  exists n, d. repeat split; auto. intros d' Hd'. eapply C51_unambiguous; eauto.
Qed.

Theorem C51_delivers_the_object i v rem tr : valid J i -> evals J Parse json_object i (Done (Res (Some v) rem) tr) ->
  exists n ms vs, n <= sp_len i /\ rem = after i n /\ v = RVal (VVec vs) /\ spells false (JObject ms) (firstn n (elems J i)) /\ pair_objects memory cons ms vs.
Proof.
  intros Hv He. destruct (parsed_text memory cons 1 i v rem tr ltac:(lia) Hv He) as (n & Hn & -> & ms & x & Hd & -> & Hb).
  inversion Hb; subst. exists n, ms, vs. auto.
Qed.
Theorem C51_delivers_the_array i v rem tr : valid J i -> evals J Parse json_array i (Done (Res (Some v) rem) tr) ->
  exists n ds vs, n <= sp_len i /\ rem = after i n /\ v = RVal (VVec vs) /\ spells false (JArray ds) (firstn n (elems J i)) /\ objects memory cons ds vs.
Proof.
  intros Hv He. destruct (parsed_text memory cons 2 i v rem tr ltac:(lia) Hv He) as (n & Hn & -> & ms & x & Hd & -> & Hb).
  inversion Hb; subst. exists n, ms, vs. auto.
Qed.

(** From the text: the object for the document it spells, or what a constructor threw. *)
Theorem C51_value_of_text i d : json_cons_typed cons -> valid J i -> element true d (elems J i) ->
  (exists e t args, evals J Parse json_value i (Exn e) /\ cons t args = FThrow e) \/
  exists v rem tr, evals J Parse json_value i (Done (Res (Some v) rem) tr) /\ sp_len rem = 0 /\ built memory cons d v.
Proof.
  intros Hc Hv Hd. destruct (C50_accepts_rfc memory cons Hc 0 i ltac:(lia) Hv (ex_intro _ d Hd)) as [_ [H|(v & tr & He)]]; auto. right.
  eexists v, _, tr. split; [exact He|]. split; [cbn; lia|].
  destruct (C51_delivers_the_document i v _ tr Hv He) as (n & d' & Hn & Hr & Hb & _ & Hu).
  assert (n = sp_len i) by (unfold after in Hr; injection Hr as E1 E2; lia). subst n.
  rewrite firstn_all2 in Hu by (rewrite elems_length; auto). rewrite (Hu d); auto. eapply spells_lax; eauto.
Qed.
End C51.

(** Case: a document in which everything but null occurs. *)
Definition doc_text (b : nat) : list nat := codes " {""k"" : [1.5e-2,true,{}]} .".
Definition doc_value : doc := JObject [(codes "k", JArray [JNumber [49] (Some [53]) (Some [45; 50]); JBool true; JObject []])].

Lemma doc_case_spelled : element true doc_value (codes " {""k"" : [1.5e-2,true,{}]} ").
Proof.
  assert (Hn : spells true (JNumber [49] (Some [53]) (Some [45; 50])) (codes "1.5e-2")).
  { apply (sp_number true [49] (Some [53]) (Some [45; 50]) (codes ".5") (codes "e-2")).
    - exists [], [49]. repeat split; auto. right. exists 49, []. repeat split; auto; lia.
    - repeat split; [discriminate|]. apply Forall_cons; [unfold is_dg; lia|constructor].
    - exists 101, [45], [50]. repeat split; auto; [discriminate|]. apply Forall_cons; [unfold is_dg; lia|constructor]. }
  assert (E : forall d t, spells true d t -> element true d t).
  { intros d t H. pose proof (el_white true d [] t [] (Forall_nil _) H (Forall_nil _)) as K. cbn in K. now rewrite app_nil_r in K. }
  assert (W : Forall white [32]) by (apply Forall_cons; [now left|constructor]).
  apply (el_white _ _ [32] (codes "{""k"" : [1.5e-2,true,{}]}") [32]); auto.
  apply (sp_object _ _ (codes """k"" : [1.5e-2,true,{}]")). apply ms_one.
  apply (me_pair _ (codes "k") _ [] [32] (codes " [1.5e-2,true,{}]")); auto.
  { apply (ch_cons _ (codes "k") []); constructor; cbn; lia. }
  apply (el_white _ _ [32] (codes "[1.5e-2,true,{}]") []); auto.
  apply (sp_array _ _ (codes "1.5e-2,true,{}")). apply (es_more _ _ _ (codes "1.5e-2") (codes "true,{}")); auto.
  apply (es_more _ _ _ (codes "true") (codes "{}")); [apply E; constructor|]. apply es_one, E. apply (sp_no_members _ []). constructor.
Qed.

Example C51_case : valid (json_env doc_text json_cons) (Span 0 0 27) /\
  evals (json_env doc_text json_cons) Look json_value (Span 0 0 27) (Done (Res (Some RVoid) (after (Span 0 0 27) 26)) []) /\
  exists v tr, evals (json_env doc_text json_cons) Parse json_value (Span 0 0 27) (Done (Res (Some v) (after (Span 0 0 27) 26)) tr) /\
    built doc_text json_cons doc_value v /\ json_language true 0 (firstn 26 (elems (json_env doc_text json_cons) (Span 0 0 27))).
Proof.
  assert (Hv : valid (json_env doc_text json_cons) (Span 0 0 27)) by (unfold valid; cbn; lia).
  split; [exact Hv|]. split; [runs 60|]. eexists. eexists. split; [runs 60|]. split.
  - eapply bt_value; [|reflexivity]. apply pl_object. constructor; [|constructor].
    eapply po_pair; [eapply (so_span _ _ _ (Span 0 3 1)); reflexivity| |reflexivity].
    eapply bt_value; [|reflexivity]. apply pl_array.
    constructor; [eapply bt_value; [|reflexivity]; eapply (pl_number _ _ _ _ _ (Span 0 9 1) (Some (Span 0 11 1)) (Some (Span 0 13 2))); reflexivity|].
    constructor; [eapply bt_value; [|reflexivity]; apply (pl_bool _ _ true)|].
    constructor; [|constructor]. eapply bt_value; [|reflexivity]. apply pl_object. constructor.
  - exists doc_value. exact doc_case_spelled.
Qed.

Print Assumptions C50_lookahead_is_longest.
Print Assumptions C50_parse_is_longest.
Print Assumptions C50_accepts_rfc.
Print Assumptions C50_accepts_only_partial.
Print Assumptions C50_rfc_is_printable.
Print Assumptions C50_rfc_only_refuted.
Print Assumptions C51_unambiguous.
Print Assumptions C51_delivers_the_document.
Print Assumptions C51_delivers_the_object.
Print Assumptions C51_delivers_the_array.
Print Assumptions C51_value_of_text.
