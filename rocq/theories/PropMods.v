(** * Properties C30, C31, C36: modifiers *)
From Coq Require Import String List Arith ZArith Bool Lia.
From Verif Require Import Types Compound Parser Outcome CompoundFacts Exec Mono Derive Typing Join Leaves Sound
  BigStep BigSound BigComplete Peg Elems Runs Samples PropCore PropBasic Modifiers.
Import ListNotations.

(** ** C30 *)
Section Compose.
Context {T : Type}.
Implicit Types (p q r : parser T) (m : modifier T).

(** The modifiers a modifier consists of. *)
Definition chain m : list (modifier T) := match m with MMulti ms => ms | _ => [m] end.

Lemma operator_chain (a b : modifier T) : modifier_operator a b = MMulti (chain a ++ chain b).
Proof. destruct a; try reflexivity; destruct b; reflexivity. Qed.

(** % on modifiers is associative. *)
Theorem C30_modifiers_associative (a b c : modifier T) :
  percent (OMod a) (OMod (modifier_operator b c)) = percent (OMod (modifier_operator a b)) (OMod c).
Proof. cbn [percent]. rewrite !operator_chain. cbn [chain]. now rewrite app_assoc. Qed.

Lemma percents_app (o : object T) l1 l2 : percents o (l1 ++ l2) = match percents o l1 with Some o' => percents o' l2 | None => None end.
Proof. revert o. induction l1 as [|m l1 IH]; intros o; cbn [app percents]; auto. destruct (percent o (OMod m)); auto. Qed.

Lemma percents_mod l : forall m0 : modifier T, as_parser (percents (OMod m0) l) = None.
Proof. induction l as [|m l IH]; intros m0; cbn [percents percent]; auto. Qed.

(** delimit and delimit_keep before they are given their delimiter. *)
Definition raw m : Prop := m = MDelimit \/ m = MDelimitKeep.
Lemma raw_dec m : raw m \/ ~ raw m.
Proof. unfold raw. destruct m; (now (left; auto)) || (right; intros [?|?]; discriminate). Qed.

(** What is not raw gives a parser or does not compile. *)
Lemma call_parser m p : ~ raw m -> call m p = option_map OParser (as_parser (call m p)).
Proof.
  unfold raw. intros Hn. destruct m as [| | |n| | | | | | | | | | | | | | |subs|ms]; try reflexivity.
  - cbn [call]. now destruct (n =? 0).
  - tauto.
  - tauto.
  - destruct subs as [|s subs]; [reflexivity|]. rewrite call_sub by discriminate. now destruct (substitute (s :: subs) p).
  - rewrite call_multi. now destruct (as_parser (percents (OParser p) ms)).
Qed.

Lemma call_raw m p : raw m -> as_parser (call m p) = None.
Proof. now intros [-> | ->]. Qed.

(** Alone or as a chain. *)
Lemma call_chain m p : as_parser (call m p) = as_parser (percents (OParser p) (chain m)).
Proof.
  destruct m as [| | |n| | | | | | | | | | | | | | |subs|ms]; cbn [chain percents percent]; auto.
  - cbn [call]. now destruct (n =? 0).
  - destruct (call (MSubBy subs) p) as [[]|]; auto.
  - rewrite call_multi. now destruct (as_parser (percents (OParser p) ms)).
Qed.

(** One after the other, or first composed: as far as the result is a parser, the same. *)
Theorem C30_same_parser p m1 m2 r :
  (exists o, percent (OParser p) (OMod m1) = Some o /\ percent o (OMod m2) = Some (OParser r)) <->
  percent (OParser p) (OMod (modifier_operator m1 m2)) = Some (OParser r).
Proof.
  assert (Hp : forall m q z, call m q = Some (OParser z) <-> as_parser (call m q) = Some z).
  { intros m q z. destruct (call m q) as [[]|]; cbn; split; congruence. }
  cbn [percent]. rewrite Hp, operator_chain, call_chain. cbn [chain]. rewrite percents_app.
  assert (Hc : forall o, as_parser o = as_parser (percents (OParser p) (chain m1)) ->
     as_parser (match percents (OParser p) (chain m1) with Some o' => percents o' (chain m2) | None => None end) =
     match as_parser o with Some q => as_parser (percents (OParser q) (chain m2)) | None => None end).
  { intros o ->. destruct (percents (OParser p) (chain m1)) as [[q|m0]|]; cbn [as_parser]; auto. apply percents_mod. }
  rewrite (Hc (call m1 p)) by apply call_chain. split.
  - intros (o & Ho & H). rewrite Ho. destruct o as [q|m0]; cbn in H; [|discriminate]. cbn. rewrite <- call_chain. now apply Hp.
  - intros H. destruct (call m1 p) as [[q|m0]|] eqn:Ho; cbn in H; try discriminate. exists (OParser q). split; auto.
    cbn. apply Hp. now rewrite call_chain.
Qed.

(** Full statement: without the condition on [m1] and [m2].  It is false
    (C30_raw_delimit_refuted).  Missing: delimit and delimit_keep without delimiter; for
    these C30_same_parser still holds. *)
Theorem C30_composition_partial p m1 m2 : ~ raw m1 -> ~ raw m2 ->
  match percent (OParser p) (OMod m1) with Some o => percent o (OMod m2) | None => None end =
  percent (OParser p) (OMod (modifier_operator m1 m2)).
Proof.
  intros H1 H2. cbn [percent].
  assert (Hr : ~ raw (modifier_operator m1 m2)) by (rewrite operator_chain; intros [?|?]; discriminate).
  rewrite (call_parser _ p Hr), (call_parser m1 p H1).
  destruct (as_parser (call m1 p)) as [q|] eqn:Hq; cbn [option_map percent].
  - rewrite (call_parser _ q H2). f_equal.
    destruct (as_parser (call m2 q)) as [r|] eqn:Hs.
    + symmetry. assert (H : percent (OParser p) (OMod (modifier_operator m1 m2)) = Some (OParser r)).
      { apply C30_same_parser. exists (OParser q). split; [cbn; now rewrite (call_parser m1 p H1), Hq|cbn; now rewrite (call_parser _ q H2), Hs]. }
      cbn in H. now rewrite H.
    + destruct (as_parser (call (modifier_operator m1 m2) p)) as [r|] eqn:Ho; auto.
      assert (H : percent (OParser p) (OMod (modifier_operator m1 m2)) = Some (OParser r)) by (cbn; now rewrite (call_parser _ p Hr), Ho).
      apply C30_same_parser in H as (o & Ho1 & Ho2). cbn in Ho1. rewrite (call_parser m1 p H1), Hq in Ho1. injection Ho1 as <-.
      cbn in Ho2. rewrite (call_parser _ q H2), Hs in Ho2. discriminate.
  - destruct (as_parser (call (modifier_operator m1 m2) p)) as [r|] eqn:Ho; auto.
    assert (H : percent (OParser p) (OMod (modifier_operator m1 m2)) = Some (OParser r)) by (cbn; now rewrite (call_parser _ p Hr), Ho).
    apply C30_same_parser in H as (o & Ho1 & Ho2). cbn in Ho1. rewrite (call_parser m1 p H1), Hq in Ho1. discriminate.
Qed.

(** (p % delimit) % m is a modifier (which delimits with p), p % (delimit % m) does not
    compile; likewise with delimit on the right. *)
Theorem C30_raw_delimit_refuted : forall p,
  (exists m1 m2 m, raw m1 /\ ~ raw m2 /\
     match percent (OParser p) (OMod m1) with Some o => percent o (OMod m2) | None => None end = Some (OMod m) /\
     percent (OParser p) (OMod (modifier_operator m1 m2)) = None) /\
  (exists m1 m2 m, ~ raw m1 /\ raw m2 /\
     match percent (OParser p) (OMod m1) with Some o => percent o (OMod m2) | None => None end = Some (OMod m) /\
     percent (OParser p) (OMod (modifier_operator m1 m2)) = None).
Proof.
  intros p. split.
  - exists MDelimit, (MName "x"), (MMulti [MDelimitBy p; MName "x"]). split; [now left|]. split; [intros [?|?]; discriminate|]. split; reflexivity.
  - exists (MName "x"), MDelimitKeep, (MDelimitKeepBy (PNamed p "x")). split; [intros [?|?]; discriminate|]. split; [now right|]. split; reflexivity.
Qed.

(** Any bracketing of any number of modifiers. *)
Inductive bracketing : Type := One (m : modifier T) | Two (a b : bracketing).
Fixpoint composed (b : bracketing) : modifier T :=
  match b with One m => m | Two a b => modifier_operator (composed a) (composed b) end.
Fixpoint in_order (b : bracketing) : list (modifier T) :=
  match b with One m => [m] | Two a b => in_order a ++ in_order b end.
(** One after the other. *)
Inductive applied : parser T -> list (modifier T) -> parser T -> Prop :=
| applied_none p : applied p [] p
| applied_next p m q ms r : percent (OParser p) (OMod m) = Some (OParser q) -> applied q ms r -> applied p (m :: ms) r.

Lemma applied_app l1 : forall p l2 r, applied p (l1 ++ l2) r <-> exists q, applied p l1 q /\ applied q l2 r.
Proof.
  induction l1 as [|m l1 IH]; intros p l2 r; cbn [app].
  - split; [intros H; exists p; split; [constructor|auto]|]. intros (q & H & H'). now inversion H; subst.
  - split.
    + intros H. inversion H as [|? ? q ? ? Hq Hr]; subst. apply IH in Hr as (q' & H1 & H2). exists q'. split; auto. econstructor; eauto.
    + intros (q & H1 & H2). inversion H1 as [|? ? q' ? ? Hq Hr]; subst. econstructor; eauto. apply IH. eauto.
Qed.

Theorem C30_any_bracketing b p r : percent (OParser p) (OMod (composed b)) = Some (OParser r) <-> applied p (in_order b) r.
Proof.
  revert p r. induction b as [m|a IHa b IHb]; intros p r; cbn [composed in_order].
  - split; [intros H; econstructor; [exact H|constructor]|].
    intros H. inversion H as [|? ? q ? ? Hq Hr]; subst. now inversion Hr; subst.
  - rewrite <- C30_same_parser, applied_app. split.
    + intros (o & H1 & H2). destruct o as [q|m0]; [|cbn in H2; discriminate]. exists q. split; [now apply IHa|now apply IHb].
    + intros (q & H1 & H2). exists (OParser q). split; [now apply IHa|now apply IHb].
Qed.

(** m(p, d) = p % m(d) *)
Theorem C30_two_arguments p d :
  (exists m, percent (OParser d) (OMod MDelimit) = Some (OMod m) /\ percent (OParser p) (OMod m) = Some (OParser (delimit_call p d))) /\
  (exists m, percent (OParser d) (OMod MDelimitKeep) = Some (OMod m) /\ percent (OParser p) (OMod m) = Some (OParser (delimit_keep_call p d))) /\
  (forall subs, sub_call p subs = percent (OParser p) (OMod (MSubBy subs))).
Proof. split; [|split]; [eexists; split; reflexivity..|reflexivity]. Qed.
End Compose.

(** letters % name<"word"> % (join % ignore), modifiers and parsers mixed *)
Example C30_case : let p := POneOrMore (PAnyOf (codes "abc")) in
  let b := Two (One (MName "word")) (Two (One MJoin) (One (MMap (FUser 5)))) in
  composed b = MMulti [MName "word"; MJoin; MMap (FUser 5)] /\
  percent (OParser p) (OMod (composed b)) = Some (OParser (PMap (PJoin (PNamed p "word")) (FUser 5))) /\
  applied p (in_order b) (PMap (PJoin (PNamed p "word")) (FUser 5)).
Proof. cbn zeta. split; [reflexivity|]. split; [reflexivity|]. repeat (econstructor; [reflexivity|]). constructor. Qed.

(** ** C36 *)

(** Which class template a parser is an instance of. *)
Inductive same_kind {T} : parser T -> parser T -> Prop :=
| sk_any a b : same_kind (PAnyOf a) (PAnyOf b)
| sk_none a b : same_kind (PNoneOf a) (PNoneOf b)
| sk_all a b : same_kind (PAllOf a) (PAllOf b)
| sk_anything : same_kind PAnything PAnything
| sk_eps : same_kind PEpsilon PEpsilon
| sk_choice p ps q qs : same_kind (PChoice p ps) (PChoice q qs)
| sk_seq p ps q qs : same_kind (PSequence p ps) (PSequence q qs)
| sk_maybe p q : same_kind (PMaybe p) (PMaybe q)
| sk_exactly p q n k : same_kind (PExactly p n) (PExactly q k)
| sk_oom p q : same_kind (POneOrMore p) (POneOrMore q)
| sk_zom p q : same_kind (PZeroOrMore p) (PZeroOrMore q)
| sk_delim p q d e : same_kind (PDelimit p d) (PDelimit q e)
| sk_ignore p q : same_kind (PIgnore p) (PIgnore q)
| sk_complete p q : same_kind (PComplete p) (PComplete q)
| sk_join p q : same_kind (PJoin p) (PJoin q)
| sk_map p q f g : same_kind (PMap p f) (PMap q g)
| sk_filter p q f g : same_kind (PFilter p f) (PFilter q g)
| sk_named p q s t : same_kind (PNamed p s) (PNamed q t)
| sk_custom c d : same_kind (PCustom c) (PCustom d).

Theorem C36_families_are_distinct {T} (p q : parser T) : family_of p = family_of q <-> same_kind p q.
Proof. split; [destruct p; destruct q; cbn; intros H; try discriminate; constructor|now destruct 1]. Qed.

(** Enumerators strictly between none and end (the concept of parser.h:70). *)
Theorem C36_families_are_in_bounds {T} (p : parser T) : family_of p <> fam_none /\ family_of p <> fam_end.
Proof. destruct p; split; discriminate. Qed.

Theorem C36_redundant_modifiers {T} (p : parser T) :
  ((exists q, p = PIgnore q) /\ call MIgnore p = Some (OParser p) \/
   (forall q, p <> PIgnore q) /\ call MIgnore p = Some (OParser (PIgnore p))) /\
  ((exists q, p = PComplete q) /\ call MComplete p = Some (OParser p) \/
   (forall q, p <> PComplete q) /\ call MComplete p = Some (OParser (PComplete p))) /\
  ((exists q, p = PJoin q) /\ call MJoin p = Some (OParser p) \/
   (forall q, p <> PJoin q) /\ call MJoin p = Some (OParser (PJoin p))).
Proof.
  split; [|split]; destruct p; try (right; split; [discriminate|reflexivity]); left; (split; [eauto|reflexivity]).
Qed.

Theorem C36_idempotent {T} (m : modifier T) p q : In m [MIgnore; MComplete; MJoin] ->
  call m p = Some (OParser q) -> call m q = Some (OParser q).
Proof. intros [<-|[<-|[<-|[]]]]; destruct p; cbn; intros [= <-]; reflexivity. Qed.

(** The dropped second modifier would have made no difference. *)
Lemma try_join_nonempty v : forall j b j' tr, (forall s, j = Some s -> sp_len s <> 0) ->
  try_join v j = Done (b, j') tr -> forall s, j' = Some s -> sp_len s <> 0.
Proof.
  assert (Hmany : forall l, Forall (fun v => forall j b j' tr, (forall s, j = Some s -> sp_len s <> 0) ->
      try_join v j = Done (b, j') tr -> forall s, j' = Some s -> sp_len s <> 0) l ->
    forall j b j' tr, (forall s, j = Some s -> sp_len s <> 0) ->
    (fix go (l : list val) (joined : option span) {struct l} : outcome (bool * option span) :=
       match l with
       | [] => ret (true, joined)
       | x :: l' => bind (try_join x joined) (fun '(b, j) => if b : bool then go l' j else ret (false, j))
       end) l j = Done (b, j') tr -> forall s, j' = Some s -> sp_len s <> 0).
  { induction 1 as [|x l Hx Hl IH]; intros j b j' tr Hj H; cbn in H; [injection H as <- <- <-; auto|].
    destruct (try_join x j) as [[b1 j1] tr1| | | |] eqn:H1; try discriminate. cbn in H.
    destruct b1; [|injection H as <- <- <-; exact (Hx _ _ _ _ Hj H1)].
    match type of H with match ?g with _ => _ end = _ => destruct g as [[b2 j2] tr2| | | |] eqn:H2; try discriminate end.
    cbn in H. injection H as <- <- <-. exact (IH _ _ _ _ (Hx _ _ _ _ Hj H1) H2). }
  induction v using val_ind'; intros j b j' tr Hj H'; cbn in H'; try discriminate;
    try (match goal with Hl : Forall _ ?l |- _ => exact (Hmany l Hl _ _ _ _ Hj H') end).
  - unfold try_join_span in H'. destruct (Nat.eqb_spec (sp_len s) 0); [injection H' as <- <- <-; auto|].
    destruct j as [j|]; [|injection H' as <- <- <-; intros ? [= <-]; auto].
    destruct (negb _); [discriminate|]. destruct (_ =? _)%Z; injection H' as <- <- <-; [|discriminate].
    intros s' [= <-]. cbn. specialize (Hj j eq_refl). lia.
  - injection H' as <- <- <-. auto.
  - eauto.
Qed.

Lemma join_executor_twice x rem s tr : join_executor x rem = Done (Some s) tr -> join_executor (VSpan s) rem = Done (Some s) [].
Proof.
  unfold join_executor. destruct (try_join x None) as [[b j] tr'| | | |] eqn:H; try discriminate. cbn.
  assert (Hne : forall s, j = Some s -> sp_len s <> 0) by (eapply try_join_nonempty; [|exact H]; discriminate).
  destruct b, j as [j|]; cbn; intros [= <- _]; cbn; unfold try_join_span; try reflexivity.
  - specialize (Hne j eq_refl). apply Nat.eqb_neq in Hne. now rewrite Hne.
  - specialize (Hne j eq_refl). apply Nat.eqb_neq in Hne. now rewrite Hne.
Qed.

Lemma join_type {T V} (E : env T V) p t : result_for E p = Some t -> joinable t = true -> result_for E (PJoin p) = Some TSpan.
Proof. reflexivity. Qed.

Theorem C36_dropping_is_sound {T V} (E : env T V) m p i r tr : valid E i ->
  (evals E m (PIgnore (PIgnore p)) i (Done r tr) <-> evals E m (PIgnore p) i (Done r tr)) /\
  (evals E m (PComplete (PComplete p)) i (Done r tr) <-> evals E m (PComplete p) i (Done r tr)) /\
  (evals E m (PJoin (PJoin p)) i (Done r tr) <-> evals E m (PJoin p) i (Done r tr)).
Proof.
  intros Hv. rewrite !evals_big by auto. split; [|split]; split; intros H.
  - inversion H; subst. match goal with H : big _ _ (PIgnore _) _ _ _ |- _ => inversion H; subst end. now constructor.
  - inversion H; subst. constructor. now constructor.
  - inversion H; subst; match goal with H : big _ _ (PComplete _) _ _ _ |- _ => inversion H; subst end; auto; try contradiction.
  - inversion H; subst; [apply B_complete_ok; auto|apply B_complete_no; auto|apply B_complete_no; auto].
  - inversion H; subst.
    + match goal with H : big _ _ (PJoin _) _ _ _ |- _ => inversion H; subst end.
      match goal with H1 : join_executor _ _ = Done (Some ?s) _, H2 : join_executor (VSpan ?s) _ = _ |- _ =>
        rewrite (join_executor_twice _ _ _ _ H1) in H2; injection H2 as <- end. eapply B_join_ok; eauto.
    + match goal with H : big _ _ (PJoin _) _ _ _ |- _ => inversion H; subst end.
      match goal with H1 : join_executor _ _ = Done (Some ?s) _, H2 : join_executor (VSpan ?s) _ = _ |- _ =>
        rewrite (join_executor_twice _ _ _ _ H1) in H2; discriminate end.
    + match goal with H : big _ _ (PJoin _) _ _ _ |- _ => inversion H; subst end; [eapply B_join_gap|eapply B_join_no]; eauto.
    + match goal with H : big _ _ (PJoin _) _ _ _ |- _ => inversion H; subst end. now constructor.
  - inversion H; subst.
    + eapply B_join_ok; [exact (join_type E p t H1 H2)|reflexivity|eapply B_join_ok; eauto|eauto using join_executor_twice].
    + eapply B_join_no; [exact (join_type E p t H1 H2)|reflexivity|eapply B_join_gap; eauto].
    + eapply B_join_no; [exact (join_type E p t H1 H2)|reflexivity|eapply B_join_no; eauto].
    + constructor. now constructor.
Qed.

Example C36_case :
  call MJoin (PMap (PAllOf (codes "a")) (FUser 5)) = Some (OParser (PJoin (PMap (PAllOf (codes "a")) (FUser 5)))) /\
  call MJoin (PJoin (PAllOf (codes "a"))) = Some (OParser (PJoin (PAllOf (codes "a")))) /\
  family_of (PJoin (PAllOf (codes "a"))) = fam_map.
Proof. repeat split. Qed.

(** ** C31 *)
Section Substitution.
Context {T : Type}.
Implicit Types (p q r : parser T) (m : modifier T).

(** The parsers a parser is directly built from (a custom parser names its body, it does not
    contain it), and the same parser built from others. *)
Definition children p : list (parser T) :=
  match p with
  | PAnyOf _ | PNoneOf _ | PAllOf _ | PAnything | PEpsilon | PCustom _ => []
  | PChoice q qs | PSequence q qs => q :: qs
  | PDelimit q d => [q; d]
  | PMaybe q | PExactly q _ | POneOrMore q | PZeroOrMore q | PIgnore q | PComplete q | PJoin q
  | PMap q _ | PFilter q _ | PNamed q _ => [q]
  end.

Inductive rebuilt : parser T -> list (parser T) -> parser T -> Prop :=
| rb_leaf p : children p = [] -> rebuilt p [] p
| rb_choice q qs q' qs' : rebuilt (PChoice q qs) (q' :: qs') (PChoice q' qs')
| rb_seq q qs q' qs' : rebuilt (PSequence q qs) (q' :: qs') (PSequence q' qs')
| rb_delimit q d q' d' : rebuilt (PDelimit q d) [q'; d'] (PDelimit q' d')
| rb_maybe q q' : rebuilt (PMaybe q) [q'] (PMaybe q')
| rb_exactly q n q' : rebuilt (PExactly q n) [q'] (PExactly q' n)
| rb_oom q q' : rebuilt (POneOrMore q) [q'] (POneOrMore q')
| rb_zom q q' : rebuilt (PZeroOrMore q) [q'] (PZeroOrMore q')
| rb_ignore q q' : rebuilt (PIgnore q) [q'] (PIgnore q')
| rb_complete q q' : rebuilt (PComplete q) [q'] (PComplete q')
| rb_join q q' : rebuilt (PJoin q) [q'] (PJoin q')
| rb_map q f q' : rebuilt (PMap q f) [q'] (PMap q' f)
| rb_filter q f q' : rebuilt (PFilter q f) [q'] (PFilter q' f)
| rb_named q s q' : rebuilt (PNamed q s) [q'] (PNamed q' s).

(** [r] is [p] with every part named [n], its own parts having been treated first, replaced
    by what [f] makes of it, and nothing else changed. *)
Inductive substituted (n : string) (f : parser T -> parser T -> Prop) : parser T -> parser T -> Prop :=
| here q q' r : substituted n f q q' -> f q' r -> substituted n f (PNamed q n) r
| elsewhere p qs r : (forall q, p <> PNamed q n) -> substituted_all n f (children p) qs -> rebuilt p qs r ->
    substituted n f p r
with substituted_all (n : string) (f : parser T -> parser T -> Prop) : list (parser T) -> list (parser T) -> Prop :=
| sub_nil : substituted_all n f [] []
| sub_cons q q' qs qs' : substituted n f q q' -> substituted_all n f qs qs' -> substituted_all n f (q :: qs) (q' :: qs').

(** [p] contains a parser named [n]. *)
Inductive contains_name (n : string) : parser T -> Prop :=
| cn_here q : contains_name n (PNamed q n)
| cn_in p q : In q (children p) -> contains_name n q -> contains_name n p.

(** A modifier that can put a parser named [n] into its result. *)
Inductive adds (n : string) : modifier T -> Prop :=
| add_name : adds n (MName n)
| add_delimit d : contains_name n d -> adds n (MDelimitBy d)
| add_delimit_keep d : contains_name n d -> adds n (MDelimitKeepBy d)
| add_sub subs s m : In (s, m) subs -> adds n m -> adds n (MSubBy subs)
| add_multi ms m : In m ms -> adds n m -> adds n (MMulti ms).

Scheme substituted_mut := Induction for substituted Sort Prop
  with substituted_all_mut := Induction for substituted_all Sort Prop.

(** What [substitute_one] does, case by case. *)
Lemma sub_step n f p (r : parser T) : substitute_one n f p = Some r <->
  (exists q q', p = PNamed q n /\ substitute_one n f q = Some q' /\ f q' = Some r) \/
  ((forall q, p <> PNamed q n) /\ exists qs, Forall2 (fun q q' => substitute_one n f q = Some q') (children p) qs /\ rebuilt p qs r).
Proof.
  assert (Hall : forall ps ps', all_some (map (substitute_one n f) ps) = Some ps' <->
    Forall2 (fun q q' => substitute_one n f q = Some q') ps ps').
  { clear. intros ps ps'. rewrite all_some_spec. split.
    - revert ps'. induction ps; intros [|q' ps'] H; try discriminate; constructor; cbn in H; injection H as ?; auto.
    - induction 1; cbn; congruence. }
  assert (Hone : forall (K : parser T -> parser T) q, 
    (forall q', rebuilt p [q'] (K q')) -> children p = [q] -> (forall q, p <> PNamed q n) ->
    (forall qs r, rebuilt p qs r -> exists q', qs = [q'] /\ r = K q') ->
    option_map K (substitute_one n f q) = Some r <->
    (exists q q', p = PNamed q n /\ substitute_one n f q = Some q' /\ f q' = Some r) \/
    ((forall q, p <> PNamed q n) /\ exists qs, Forall2 (fun q q' => substitute_one n f q = Some q') (children p) qs /\ rebuilt p qs r)).
  { intros K q HK Hc Hn HR. rewrite Hc. split.
    - intros H. right. split; auto. destruct (substitute_one n f q) as [q'|] eqn:Hq; [|discriminate]. injection H as <-.
      exists [q']. split; auto.
    - intros [(? & ? & -> & _)|(_ & qs & Hqs & Hr)]; [now destruct (Hn x)|].
      apply HR in Hr as (q' & -> & ->). inversion Hqs; subst. now rewrite H2. }
  assert (Hleaf : children p = [] -> (forall q, p <> PNamed q n) -> Some p = Some r <->
    (exists q q', p = PNamed q n /\ substitute_one n f q = Some q' /\ f q' = Some r) \/
    ((forall q, p <> PNamed q n) /\ exists qs, Forall2 (fun q q' => substitute_one n f q = Some q') (children p) qs /\ rebuilt p qs r)).
  { intros Hc Hn. rewrite Hc. split.
    - intros [= <-]. right. split; auto. exists []. split; auto. now constructor.
    - intros [(? & ? & -> & _)|(_ & qs & Hqs & Hr)]; [now destruct (Hn x)|]. inversion Hqs; subst.
      inversion Hr; subst; reflexivity. }
  destruct p as [| | | | |q qs|q qs|q|q k|q|q|q d|q|q|q|q g|q g|q s|c]; cbn [substitute_one];
    try (apply Hleaf; [reflexivity|discriminate]);
    try (apply Hone; [intros; constructor|reflexivity|discriminate|intros ? ? HR; inversion HR; subst; [discriminate|eauto]]; fail).
  - split.
    + intros H. right. split; [discriminate|]. destruct (substitute_one n f q) as [q'|] eqn:Hq; [|discriminate].
      destruct (all_some (map (substitute_one n f) qs)) as [qs'|] eqn:Hqs; [|discriminate]. injection H as <-.
      exists (q' :: qs'). split; [constructor; auto; now apply Hall|constructor].
    + intros [(? & ? & ? & _)|(_ & l & Hl & Hr)]; [discriminate|]. inversion Hr; subst; [discriminate|]. inversion Hl; subst.
      apply Hall in H4. now rewrite H2, H4.
  - split.
    + intros H. right. split; [discriminate|]. destruct (substitute_one n f q) as [q'|] eqn:Hq; [|discriminate].
      destruct (all_some (map (substitute_one n f) qs)) as [qs'|] eqn:Hqs; [|discriminate]. injection H as <-.
      exists (q' :: qs'). split; [constructor; auto; now apply Hall|constructor].
    + intros [(? & ? & ? & _)|(_ & l & Hl & Hr)]; [discriminate|]. inversion Hr; subst; [discriminate|]. inversion Hl; subst.
      apply Hall in H4. now rewrite H2, H4.
  - split.
    + intros H. right. split; [discriminate|]. destruct (substitute_one n f q) as [q'|] eqn:Hq; [|discriminate].
      destruct (substitute_one n f d) as [d'|] eqn:Hd; [|discriminate]. injection H as <-.
      exists [q'; d']. split; [repeat constructor; auto|constructor].
    + intros [(? & ? & ? & _)|(_ & l & Hl & Hr)]; [discriminate|]. inversion Hr; subst; [discriminate|]. inversion Hl; subst.
      inversion H4; subst. now rewrite H2, H3.
  - destruct (String.eqb_spec n s) as [->|Hns].
    + split.
      * intros H. left. destruct (substitute_one s f q) as [q'|] eqn:Hq; [|discriminate]. exists q, q'. auto.
      * intros [(q0 & q' & [= <-] & Hq & Hf)|(Hn & _)]; [now rewrite Hq|now destruct (Hn q)].
    + assert (Hd : forall q0, PNamed q s <> PNamed q0 n) by (intros ? [=]; congruence).
      transitivity (option_map (fun q => PNamed q s) (substitute_one n f q) = Some r); [now destruct (substitute_one n f q)|].
      apply Hone; [intros; constructor|reflexivity|auto|intros ? ? HR; inversion HR; subst; [discriminate|eauto]].
Qed.

Lemma sub_spec n f p : forall r, substitute_one n f p = Some r <-> substituted n (fun q r => f q = Some r) p r.
Proof.
  assert (Hall : forall ps, Forall (fun p => forall r, substitute_one n f p = Some r <-> substituted n (fun q r => f q = Some r) p r) ps ->
    forall qs, Forall2 (fun q q' => substitute_one n f q = Some q') ps qs <-> substituted_all n (fun q r => f q = Some r) ps qs).
  { induction 1 as [|p0 ps Hp Hps IH]; intros qs; split; intros H; inversion H; subst; constructor; try (apply Hp; auto); apply IH; auto. }
  assert (Hstep : forall p, Forall (fun p => forall r, substitute_one n f p = Some r <-> substituted n (fun q r => f q = Some r) p r) (children p) ->
    forall r, substitute_one n f p = Some r <-> substituted n (fun q r => f q = Some r) p r).
  { intros q Hc r. rewrite sub_step. split.
    - intros [(q0 & q' & -> & Hq & Hf)|(Hn & qs & Hqs & Hr)].
      + inversion Hc; subst. econstructor; eauto. now apply H1.
      + eapply elsewhere; eauto. now apply Hall.
    - intros H. inversion H as [q0 q' r' Hq Hf|p' qs r' Hn Hqs Hr]; subst.
      + left. inversion Hc; subst. exists q0, q'. repeat split; auto. now apply H2.
      + right. split; auto. exists qs. split; auto. now apply Hall. }
  induction p using parser_ind'; apply Hstep; cbn [children]; auto.
Qed.

(** p % sub(name<n> = m) *)
Theorem C31_substitutes n m p r :
  percent (OParser p) (OMod (MSubBy [(n, m)])) = Some (OParser r) <->
  substituted n (fun q r => percent (OParser q) (OMod m) = Some (OParser r)) p r.
Proof.
  cbn [percent]. rewrite call_sub by discriminate. cbn [substitute].
  assert (Hf : forall q r, as_parser (call m q) = Some r <-> call m q = Some (OParser r)).
  { intros q r'. destruct (call m q) as [[|]|]; cbn; split; congruence. }
  transitivity (substitute_one n (fun q => as_parser (call m q)) p = Some r).
  { destruct (substitute_one n (fun q => as_parser (call m q)) p); cbn; split; congruence. }
  rewrite sub_spec. split; intros H.
  - induction H using substituted_mut with (P0 := fun l1 l2 _ => substituted_all n (fun q r => call m q = Some (OParser r)) l1 l2);
      [eapply here; eauto; now apply Hf|eapply elsewhere; eauto|constructor|constructor; auto].
  - induction H using substituted_mut with (P0 := fun l1 l2 _ => substituted_all n (fun q r => as_parser (call m q) = Some r) l1 l2);
      [eapply here; eauto; now apply Hf|eapply elsewhere; eauto|constructor|constructor; auto].
Qed.

(** Nothing named n: nothing changes, whatever the modifier. *)
Lemma sub_identity n f p : ~ contains_name n p -> substitute_one n f p = Some p.
Proof.
  assert (Hstep : forall p, Forall (fun p => ~ contains_name n p -> substitute_one n f p = Some p) (children p) ->
    ~ contains_name n p -> substitute_one n f p = Some p).
  { clear p. intros p Hc Hn. apply sub_step. right. split; [intros q ->; apply Hn; constructor|]. exists (children p). split.
    - assert (Hs : forall q, In q (children p) -> ~ contains_name n q) by (intros q Hi H; apply Hn; eapply cn_in; eauto).
      induction Hc; constructor; [apply H, Hs; now left|apply IHHc; intros; apply Hs; now right].
    - destruct p; constructor; reflexivity. }
  induction p using parser_ind'; apply Hstep; cbn [children]; auto.
Qed.

Theorem C31_identity n m p : ~ contains_name n p ->
  percent (OParser p) (OMod (MSubBy [(n, m)])) = Some (OParser p).
Proof. intros H. cbn [percent]. rewrite call_sub by discriminate. cbn [substitute]. now rewrite sub_identity. Qed.

(** The names in the result come from the parser or from the modifier, and those of the
    substituted name from the modifier alone. *)
Lemma rebuilt_children p qs r : rebuilt p qs r -> children r = qs.
Proof. destruct 1; auto. Qed.
Lemma rebuilt_named p qs r n : rebuilt p qs r -> contains_name n r -> (exists q, p = PNamed q n) \/ (exists q, In q qs /\ contains_name n q).
Proof.
  intros Hr H. inversion H as [q|r' q Hi Hc]; subst.
  - inversion Hr; subst; [discriminate|]. left. eauto.
  - right. rewrite (rebuilt_children _ _ _ Hr) in Hi. eauto.
Qed.

Lemma sub_names (n k : string) (f : parser T -> parser T -> Prop) (A : Prop) :
  (forall q r, f q r -> contains_name k r -> contains_name k q \/ A) ->
  forall p r, substituted n f p r -> contains_name k r -> contains_name k p /\ k <> n \/ A.
Proof.
  intros Hf p r H.
  induction H using substituted_mut with
    (P0 := fun l1 l2 _ => forall q, In q l2 -> contains_name k q -> (exists q0, In q0 l1 /\ contains_name k q0 /\ k <> n) \/ A).
  - intros Hk. destruct (Hf _ _ f0 Hk) as [Hq|]; [|now right]. destruct (IHsubstituted Hq) as [(H1 & H2)|]; [|now right].
    left. split; auto. eapply cn_in; [left; reflexivity|auto].
  - intros Hk. destruct (rebuilt_named _ _ _ _ r0 Hk) as [(q & ->)|(q & Hi & Hc)].
    + left. split; [constructor|]. intros ->. now destruct (n0 q).
    + destruct (IHsubstituted _ Hi Hc) as [(q0 & H1 & H2 & H3)|]; [|now right]. left. split; auto. eapply cn_in; eauto.
  - intros q [].
  - intros x [<-|Hi] Hc.
    + destruct (IHsubstituted Hc) as [(H1 & H2)|]; [|now right]. left. exists q. cbn. auto.
    + destruct (IHsubstituted0 _ Hi Hc) as [(q0 & H1 & H2)|]; [|now right]. left. exists q0. cbn. auto.
Qed.

Lemma call_names k m : forall p r, call m p = Some (OParser r) -> contains_name k r -> contains_name k p \/ adds k m.
Proof.
  induction m as [m Hs Hm|subs IH|ms IH] using modifier_ind'; intros p r H Hk.
  - destruct m as [| | |n| | | | | | | | | | |d|d|s| |subs|ms]; cbn [call] in H; try discriminate;
      try (injection H as <-; inversion Hk; subst; cbn in *; intuition (subst; eauto); fail).
    + injection H as <-. destruct (family_eq_dec _ _); auto. inversion Hk; subst. cbn in *. intuition (subst; auto).
    + injection H as <-. destruct (family_eq_dec _ _); auto. inversion Hk; subst. cbn in *. intuition (subst; auto).
    + injection H as <-. destruct (family_eq_dec _ _); auto. inversion Hk; subst. cbn in *. intuition (subst; auto).
    + destruct (n =? 0); [discriminate|]. injection H as <-. inversion Hk; subst. cbn in *. intuition (subst; auto).
    + injection H as <-. inversion Hk as [|? q Hi Hc]; subst. destruct Hi as [<-|[<-|[]]]; auto.
      right. constructor. inversion Hc as [|? q Hi Hc']; subst. destruct Hi as [<-|[]]; auto.
    + injection H as <-. inversion Hk as [|? q Hi Hc]; subst. destruct Hi as [<-|[<-|[]]]; auto. right. now constructor.
    + injection H as <-. inversion Hk as [|? q Hi Hc]; subst; [right; constructor|]. destruct Hi as [<-|[]]; auto.
    + now destruct (Hs subs).
    + now destruct (Hm ms).
  - destruct subs as [|s0 subs0]; [discriminate|]. rewrite call_sub in H by discriminate.
    destruct (substitute (s0 :: subs0) p) as [r'|] eqn:Hr; [|discriminate]. injection H as ->.
    set (l := s0 :: subs0) in *. clearbody l.
    assert (Hl : forall l', incl l' l -> substitute l' p = Some r -> contains_name k p \/ adds k (MSubBy l)).
    { clear Hr. intros l'. revert p. induction l' as [|[s m] l' IHl]; intros p Hi Hr; cbn in Hr; [injection Hr as ->; auto|].
      destruct (substitute_one s (fun q => as_parser (call m q)) p) as [p'|] eqn:Hp; [|discriminate].
      destruct (IHl p') as [Hn|]; auto; [intros x Hx; apply Hi; now right|].
      apply sub_spec in Hp. assert (Hin : In (s, m) l) by (apply Hi; now left).
      assert (Hf : forall q r', as_parser (call m q) = Some r' -> contains_name k r' -> contains_name k q \/ adds k (MSubBy l)).
      { intros q r' Hq Hr'.
        rewrite Forall_forall in IH. destruct (call m q) as [[r''|]|] eqn:Hc; try discriminate. injection Hq as ->.
        destruct (IH _ Hin q r' Hc Hr'); auto. right. econstructor; eauto. }
      destruct (sub_names s k _ (adds k (MSubBy l)) Hf _ _ Hp Hn) as [(? & _)|]; auto. }
    exact (Hl l (incl_refl l) Hr).
  - rewrite call_multi in H. destruct (percents (OParser p) ms) as [[r'|]|] eqn:Hr; [|discriminate..]. injection H as ->.
    assert (Hl : forall l, incl l ms -> percents (OParser p) l = Some (OParser r) -> contains_name k p \/ adds k (MMulti ms)).
    { clear Hr. intros l. revert p. induction l as [|m l IHl]; intros p Hi Hr; cbn in Hr; [injection Hr as ->; auto|].
      assert (Hin : In m ms) by (apply Hi; now left).
      destruct (call m p) as [[p'|m0]|] eqn:Hc; [| |discriminate].
      - destruct (IHl p') as [Hn|]; auto; [intros x Hx; apply Hi; now right|]. rewrite Forall_forall in IH.
        destruct (IH m Hin p p' Hc Hn); auto. right. econstructor; eauto.
      - assert (Hx := percents_mod l m0). rewrite Hr in Hx. discriminate. }
    exact (Hl ms (incl_refl ms) Hr).
Qed.

Theorem C31_no_name_left n m p r : ~ adds n m ->
  percent (OParser p) (OMod (MSubBy [(n, m)])) = Some (OParser r) -> ~ contains_name n r.
Proof.
  intros Ha H Hn. apply C31_substitutes in H.
  destruct (sub_names n n _ (adds n m) (fun q r' H => call_names n m q r' H) _ _ H Hn) as [(_ & Hx)|]; auto.
Qed.

(** No other name appears either. *)
Theorem C31_other_names n k m p r : k <> n ->
  percent (OParser p) (OMod (MSubBy [(n, m)])) = Some (OParser r) ->
  contains_name k r -> contains_name k p \/ adds k m.
Proof.
  intros Hk H Hn. apply C31_substitutes in H.
  destruct (sub_names n k _ (adds k m) (fun q r' H => call_names k m q r' H) _ _ H Hn) as [(? & _)|]; auto.
Qed.

(** p % sub(s1, s2) = p % sub(s1) % sub(s2) *)
Theorem C31_one_after_the_other l1 l2 p : l1 <> [] -> l2 <> [] ->
  percent (OParser p) (OMod (MSubBy (l1 ++ l2))) =
  match percent (OParser p) (OMod (MSubBy l1)) with
  | Some o => percent o (OMod (MSubBy l2))
  | None => None
  end.
Proof.
  intros H1 H2. cbn [percent]. rewrite (call_sub (l1 ++ l2)), (call_sub l1) by (destruct l1; cbn; congruence).
  assert (H : substitute (l1 ++ l2) p = match substitute l1 p with Some q => substitute l2 q | None => None end).
  { clear. revert p. induction l1 as [|[n m] l1 IH]; intros p; cbn [app substitute]; auto.
    destruct (substitute_one n (fun q => as_parser (call m q)) p); auto. }
  rewrite H. destruct (substitute l1 p) as [q|]; cbn [option_map percent]; auto. now rewrite call_sub by auto.
Qed.
End Substitution.

(** digits % name<"d"> inside another parser of that name: both replaced, the inner first;
    the parser named "e" and the rest stay. *)
Example C31_case :
  let d := PAnyOf (codes "0123456789") in
  let a := PAllOf (codes "a") in
  let p := PSequence (PNamed (POneOrMore (PNamed d "d")) "d") [PNamed a "e"; a] in
  percent (OParser p) (OMod (MSubBy [("d"%string, MJoin)])) =
    Some (OParser (PSequence (PJoin (POneOrMore (PJoin d))) [PNamed a "e"; a])) /\
  contains_name "d" p /\ ~ adds "d" (@MJoin Z) /\
  percent (OParser p) (OMod (MSubBy [("d"%string, MName "e"); ("e"%string, MIgnore)])) =
    Some (OParser (PSequence (PIgnore (POneOrMore (PIgnore d))) [PIgnore a; a])).
Proof.
  cbn zeta. split; [reflexivity|]. split; [eapply cn_in; [left; reflexivity|constructor]|]. split; [inversion 1|reflexivity].
Qed.

Print Assumptions C30_modifiers_associative.
Print Assumptions C30_same_parser.
Print Assumptions C30_composition_partial.
Print Assumptions C30_any_bracketing.
Print Assumptions C30_two_arguments.
Print Assumptions C30_raw_delimit_refuted.
Print Assumptions C36_families_are_distinct.
Print Assumptions C36_families_are_in_bounds.
Print Assumptions C36_redundant_modifiers.
Print Assumptions C36_idempotent.
Print Assumptions C36_dropping_is_sound.
Print Assumptions C31_substitutes.
Print Assumptions C31_identity.
Print Assumptions C31_no_name_left.
Print Assumptions C31_other_names.
Print Assumptions C31_one_after_the_other.
