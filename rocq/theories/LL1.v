(** * A test for grammars in which order and greed make no difference

    The LL(1) conditions with given first and follow sets: a computable, sufficient condition for [clear] (Lang.v).
    None of this is code of the library; it is a way to discharge the hypothesis of C75 for a concrete grammar. *)
From Coq Require Import String List Arith ZArith Bool Lia.
From Verif Require Import Types Compound Parser Outcome CompoundFacts Exec Mono Derive Typing Join Leaves Sound Peg Throws Term Lang.
Import ListNotations.

Section LL1.
Context {T V : Type} (E : env T V).
Implicit Types (p q d : parser T) (w r l s : list V).

(** Classes of elements: those equal to one of [arr] ([false]), those equal to none ([true]). *)
Notation cls := (bool * list T)%type.
Definition fits (k : cls) (c : V) : bool := xorb (fst k) (existsb (fun t => eqv E t c) (snd k)).
Definition fits_some (K : list cls) (c : V) : bool := existsb (fun k => fits k c) K.

(** The texts that are empty or begin with an element of [K]. *)
Definition follows (K : list cls) (s : list V) : Prop := match s with [] => True | c :: _ => fits_some K c = true end.

(** Given: [teq] proves elements of parsers equal, [sep] proves that nothing equals both. *)
Variable teq sep : T -> T -> bool.
Hypothesis teq_ok : forall t t', teq t t' = true -> t = t'.
Hypothesis sep_ok : forall t t' c, sep t t' = true -> eqv E t c = true -> eqv E t' c = false.

Definition covers1 (k k' : cls) : bool :=
  match k, k' with
  | (false, a), (false, b) => forallb (fun t => existsb (teq t) b) a
  | (false, a), (true, b) => forallb (fun t => forallb (sep t) b) a
  | (true, a), (true, b) => forallb (fun t => existsb (teq t) a) b
  | (true, _), (false, _) => false
  end.
(** Everything in [k] is in [K]; an array is covered element by element. *)
Definition covers (K' : list cls) (K : list cls) : bool :=
  forallb (fun k => existsb (covers1 k) K' ||
    match k with (false, a) => forallb (fun t => existsb (covers1 (false, [t])) K') a | _ => false end) K.
Definition disjoint1 (k k' : cls) : bool :=
  match k, k' with
  | (false, a), (false, b) => forallb (fun t => forallb (sep t) b) a
  | (false, a), (true, b) => forallb (fun t => existsb (teq t) b) a
  | (true, a), (false, b) => forallb (fun t => existsb (teq t) a) b
  | (true, _), (true, _) => false
  end.
Definition disjoint (K K' : list cls) : bool := forallb (fun k => forallb (disjoint1 k) K') K.

Lemma exists_teq t b : existsb (teq t) b = true -> In t b.
Proof. intros H. apply existsb_exists in H as (t' & Hi & He). apply teq_ok in He. now subst. Qed.
Lemma fits_pos a c : fits (false, a) c = true <-> exists t, In t a /\ eqv E t c = true.
Proof. unfold fits. cbn. rewrite <- existsb_exists. now destruct existsb. Qed.
Lemma fits_neg a c : fits (true, a) c = true <-> forall t, In t a -> eqv E t c = false.
Proof.
  unfold fits. cbn [fst snd xorb]. split.
  - intros H t Ht. destruct (eqv E t c) eqn:He; auto. apply negb_true_iff in H. assert (existsb (fun t => eqv E t c) a = true) by (apply existsb_exists; eauto). congruence.
  - intros H. apply negb_true_iff. destruct (existsb (fun t => eqv E t c) a) eqn:He; auto. apply existsb_exists in He as (t & Ht & Hc). rewrite (H t Ht) in Hc. discriminate.
Qed.
Lemma covers1_ok k k' c : covers1 k k' = true -> fits k c = true -> fits k' c = true.
Proof.
  destruct k as [[] a], k' as [[] b]; cbn [covers1]; intros H; try discriminate; rewrite forallb_forall in H; rewrite ?fits_pos, ?fits_neg.
  - intros Hf t Ht. apply Hf, exists_teq, H, Ht.
  - intros (t & Ht & Hc) t' Ht'. specialize (H t Ht). rewrite forallb_forall in H. eapply sep_ok; [apply H, Ht'|exact Hc].
  - intros (t & Ht & Hc). exists t. split; [apply exists_teq, H, Ht|exact Hc].
Qed.
Lemma covers_ok K' K c : covers K' K = true -> fits_some K c = true -> fits_some K' c = true.
Proof.
  unfold covers, fits_some. rewrite forallb_forall. intros H Hf. apply existsb_exists in Hf as (k & Hk & Hc).
  specialize (H k Hk). apply orb_prop in H as [H|H].
  - apply existsb_exists in H as (k' & Hi & H). apply existsb_exists. exists k'. split; auto. eapply covers1_ok; eauto.
  - destruct k as [[] a]; [discriminate|]. apply fits_pos in Hc as (t & Ht & Hc). rewrite forallb_forall in H. specialize (H t Ht).
    apply existsb_exists in H as (k' & Hi & H). apply existsb_exists. exists k'. split; auto. eapply covers1_ok; eauto.
    apply fits_pos. exists t. split; [now left|auto].
Qed.
Lemma disjoint1_ok k k' c : disjoint1 k k' = true -> fits k c = true -> fits k' c = true -> False.
Proof.
  destruct k as [[] a], k' as [[] b]; cbn [disjoint1]; intros H; try discriminate; rewrite forallb_forall in H; rewrite ?fits_pos, ?fits_neg.
  - intros Hf (t & Ht & Hc). rewrite Hf in Hc; [discriminate|]. apply exists_teq, H, Ht.
  - intros (t & Ht & Hc) Hf. rewrite Hf in Hc; [discriminate|]. apply exists_teq, H, Ht.
  - intros (t & Ht & Hc) (t' & Ht' & Hc'). specialize (H t Ht). rewrite forallb_forall in H.
    rewrite (sep_ok t t' c (H t' Ht') Hc) in Hc'. discriminate.
Qed.
Lemma disjoint_ok K K' c : disjoint K K' = true -> fits_some K c = true -> fits_some K' c = true -> False.
Proof.
  unfold disjoint, fits_some. rewrite forallb_forall. intros H Hf Hf'. apply existsb_exists in Hf as (k & Hk & Hc), Hf' as (k' & Hk' & Hc').
  specialize (H k Hk). rewrite forallb_forall in H. eapply disjoint1_ok; eauto.
Qed.
Lemma fits_app K K' c : fits_some (K ++ K') c = fits_some K c || fits_some K' c.
Proof. apply existsb_app. Qed.

(** ** First sets *)
Variable cs : list nat.
Variable nul : nat -> bool.
Variable fs fo : nat -> list cls.
Definition known (c : nat) : bool := existsb (Nat.eqb c) cs.

Fixpoint empty_b p : bool :=
  match p with
  | PAnyOf _ | PNoneOf _ | PAnything => false
  | PAllOf arr => match arr with [] => true | _ => false end
  | PEpsilon | PMaybe _ | PZeroOrMore _ => true
  | PChoice q qs => empty_b q || existsb empty_b qs
  | PSequence q qs => empty_b q && forallb empty_b qs
  | PExactly q n => Nat.eqb n 0 || empty_b q
  | POneOrMore q | PDelimit q _ | PIgnore q | PComplete q | PJoin q | PMap q _ | PFilter q _ | PNamed q _ => empty_b q
  | PCustom c => if known c then nul c else true
  end.
(** The first elements of [q], and of what follows if [q] can be empty. *)
Definition and_then (e : bool) (K K' : list cls) : list cls := K ++ if e then K' else [].
Fixpoint first p : list cls :=
  match p with
  | PAnyOf arr => [(false, arr)]
  | PNoneOf arr => [(true, arr)]
  | PAllOf arr => match arr with [] => [] | t :: _ => [(false, [t])] end
  | PAnything => [(true, [])]
  | PEpsilon => []
  | PChoice q qs => first q ++ flat_map first qs
  | PSequence q qs => and_then (empty_b q) (first q) ((fix go qs := match qs with [] => [] | r :: qs' => and_then (empty_b r) (first r) (go qs') end) qs)
  | PDelimit q d => and_then (empty_b q) (first q) (and_then (empty_b d) (first d) (first q))
  | PMaybe q | PZeroOrMore q | PExactly q _ | POneOrMore q | PIgnore q | PComplete q | PJoin q | PMap q _ | PFilter q _ | PNamed q _ => first q
  | PCustom c => if known c then fs c else [(true, [])]
  end.
Fixpoint first_and (qs : list (parser T)) (K : list cls) : list cls :=
  match qs with [] => K | q :: qs' => and_then (empty_b q) (first q) (first_and qs' K) end.
Definition first_tail q d : list cls := and_then (empty_b d) (first d) (first q).

Section Given.
Hypothesis nul_ok : forall c, In c cs -> empty_b (cust_body E c) = true -> nul c = true.
Hypothesis fs_ok : forall c, In c cs -> covers (fs c) (first (cust_body E c)) = true.

Lemma known_in c : known c = true <-> In c cs.
Proof.
  unfold known. rewrite existsb_exists. split; [|intros H; exists c; now rewrite Nat.eqb_refl].
  intros (x & H & He). apply Nat.eqb_eq in He. now subst.
Qed.
Lemma app_nil_inv (a b : list V) : [] = a ++ b -> a = [] /\ b = [].
Proof. destruct a; [auto|discriminate]. Qed.

Definition empties (qs : list (parser T)) : bool := forallb empty_b qs.
Lemma lang_empty :
  (forall p w, lang E p w -> w = [] -> empty_b p = true) /\
  (forall ps w, lang_or E ps w -> w = [] -> existsb empty_b ps = true) /\
  (forall ps w, lang_and E ps w -> w = [] -> forallb empty_b ps = true) /\
  (forall p w, lang_star E p w -> True) /\
  (forall p d w, lang_tail E p d w -> True).
Proof.
  apply lang_mut; intros; subst; auto; cbn [empty_b existsb forallb];
    repeat match goal with H : _ ++ _ = [] |- _ => apply app_eq_nil in H as [-> ->] end; try discriminate; auto.
  - inversion f; subst. reflexivity.
  - destruct n; [reflexivity|]. specialize (H eq_refl). cbn in H. apply andb_prop in H as [-> _]. apply orb_true_r.
  - destruct (known c) eqn:Hk; auto. apply nul_ok; auto. now apply known_in.
  - now rewrite H.
  - rewrite H by auto. apply orb_true_r.
  - now rewrite H, H0.
Qed.
Lemma lang_empty_p p : lang E p [] -> empty_b p = true.
Proof. intros H. exact (proj1 lang_empty p [] H eq_refl). Qed.

Lemma fits_then e K K' c : fits_some K c = true -> fits_some (and_then e K K') c = true.
Proof. intros H. unfold and_then. now rewrite fits_app, H. Qed.
Lemma fits_next K K' c : fits_some K' c = true -> fits_some (and_then true K K') c = true.
Proof. intros H. unfold and_then. rewrite fits_app, H. apply orb_true_r. Qed.
Lemma first_go qs : (fix go qs := match qs with [] => [] | r :: qs' => and_then (empty_b r) (first r) (go qs') end) qs = first_and qs [].
Proof. induction qs; cbn; congruence. Qed.

Definition headed w (K : list cls) : Prop := forall c w', w = c :: w' -> fits_some K c = true.
Lemma headed_app w w' e K K' : headed w K -> (w = [] -> e = true) -> headed w' K' -> headed (w ++ w') (and_then e K K').
Proof.
  intros H He H' c r Hr. destruct w as [|x w]; cbn in Hr.
  - rewrite (He eq_refl). apply fits_next. eapply H'; eauto.
  - injection Hr as -> _. apply fits_then. eapply H; eauto.
Qed.
Lemma headed_more w e K K' : headed w K -> headed w (and_then e K K').
Proof. intros H c r Hr. apply fits_then. eapply H; eauto. Qed.

Lemma lang_first :
  (forall p w, lang E p w -> headed w (first p)) /\
  (forall ps w, lang_or E ps w -> headed w (flat_map first ps)) /\
  (forall ps w, lang_and E ps w -> headed w (first_and ps [])) /\
  (forall p w, lang_star E p w -> headed w (first p)) /\
  (forall p d w, lang_tail E p d w -> headed w (first_tail p d)).
Proof.
  apply lang_mut; intros; cbn [first flat_map first_and]; rewrite ?first_go; auto.
  - intros x w' [= <- _]. cbn. rewrite orb_false_r. now apply fits_pos.
  - intros x w' [= <- _]. cbn. rewrite orb_false_r. now apply fits_neg.
  - destruct f as [|t c arr w Ht Hf]; intros x w' Hw; [discriminate|]. injection Hw as <- _. cbn. now rewrite Ht.
  - intros x w' [= <- _]. reflexivity.
  - intros x w' [=].
  - intros x w' [=].
  - intros x w' Hw. specialize (H x w' Hw). destruct n; [cbn in H; discriminate|]. cbn [repeat first_and] in H.
    unfold and_then in H. rewrite fits_app in H. apply orb_prop in H as [H|H]; auto.
    destruct (empty_b q); [|discriminate]. clear -H. induction n as [|n IH]; [discriminate|]. cbn [repeat first_and] in H.
    unfold and_then in H. rewrite fits_app in H. apply orb_prop in H as [H|H]; auto. destruct (empty_b q); [auto|discriminate].
  - intros x r Hr. destruct w; cbn in Hr; [eapply H0; eauto|]. injection Hr as -> _. eapply H; eauto.
  - apply headed_app; auto. intros ->. now apply lang_empty_p.
  - intros x w' Hw. destruct (known c) eqn:Hk; [|reflexivity]. eapply covers_ok; [apply fs_ok; now apply known_in|eapply H; eauto].
  - intros x w' Hw. rewrite fits_app, (H x w' Hw). reflexivity.
  - intros x w' Hw. rewrite fits_app, (H x w' Hw). apply orb_true_r.
  - intros x w' [=].
  - apply headed_app; auto. intros ->. now apply lang_empty_p.
  - intros x w' [=].
  - intros x r Hr. destruct w; cbn in Hr; [eapply H0; eauto|]. injection Hr as -> _. eapply H; eauto.
  - intros x w' [=].
  - rewrite app_assoc. intros x r Hr. destruct (w1 ++ w2) eqn:Hw; cbn in Hr; [eapply H1; eauto|]. injection Hr as -> _.
    assert (Hh : headed (w1 ++ w2) (first_tail q d)) by (apply headed_app; auto; intros ->; now apply lang_empty_p). eapply Hh; eauto.
Qed.

Lemma lang_first_p p w : lang E p w -> headed w (first p).
Proof. exact (proj1 lang_first p w). Qed.

(** ** The LL(1) conditions, [K] being what may follow *)
Definition apart_b q (qs : list (parser T)) (K : list cls) : bool :=
  match qs with
  | [] => true
  | _ => negb (empty_b q) && disjoint (first q) (and_then (existsb empty_b qs) (flat_map first qs) K)
  end.
Fixpoint ll1 p (K : list cls) {struct p} : bool :=
  match p with
  | PAnyOf _ | PNoneOf _ | PAllOf _ | PAnything | PEpsilon => true
  | PChoice q qs => ll1 q K && apart_b q qs K &&
      (fix go qs := match qs with [] => true | r :: qs' => ll1 r K && apart_b r qs' K && go qs' end) qs
  | PSequence q qs => ll1 q (first_and qs K) &&
      (fix go qs := match qs with [] => true | r :: qs' => ll1 r (first_and qs' K) && go qs' end) qs
  | PExactly q n => (fix go n := match n with 0 => true | S m => ll1 q (first_and (repeat q m) K) && go m end) n
  | PMaybe q => ll1 q K && (negb (empty_b q) && disjoint (first q) K)
  | POneOrMore q | PZeroOrMore q => ll1 q (first q ++ K) && (negb (empty_b q) && disjoint (first q) K)
  | PDelimit q d => ll1 q (first_tail q d ++ K) && ll1 d (and_then (empty_b q) (first q) (first_tail q d ++ K)) &&
      (negb (empty_b d && empty_b q) && disjoint (first_tail q d) K)
  | PComplete q => ll1 q K && match K with [] => true | _ => false end
  | PIgnore q | PJoin q | PMap q _ | PFilter q _ | PNamed q _ => ll1 q K
  | PCustom c => known c && covers (fo c) K
  end.

Lemma follows_app w s K K' : headed w K -> follows K' s -> follows (K ++ K') (w ++ s).
Proof.
  intros Hw Hs. destruct w as [|c w]; cbn.
  - destruct s as [|c s]; cbn in *; auto. rewrite fits_app, Hs. apply orb_true_r.
  - now rewrite fits_app, (Hw c w eq_refl).
Qed.
Lemma follows_and_then w s e K K' : headed w K -> (w = [] -> e = true) -> follows K' s -> follows (and_then e K K') (w ++ s).
Proof.
  intros Hw He Hs. destruct w as [|c w]; cbn [app].
  - rewrite (He eq_refl). destruct s as [|c s]; cbn in *; auto. now apply fits_next.
  - cbn. apply fits_then. now apply (Hw c w).
Qed.
Lemma follows_lang q w s K : lang E q w -> follows K s -> follows (and_then (empty_b q) (first q) K) (w ++ s).
Proof. intros Hw. apply follows_and_then; [now apply lang_first_p|]. intros ->. now apply lang_empty_p. Qed.

Lemma follows_and qs K F : within F (follows K) -> within (then_ (lang_and E qs) F) (follows (first_and qs K)).
Proof.
  intros HF s (w & r & -> & Hw & Hr). apply HF in Hr. clear HF. revert w Hw. induction qs as [|q qs IH]; intros w Hw; inversion Hw; subst; cbn; auto.
  rewrite <- app_assoc. apply follows_lang; auto.
Qed.
Lemma follows_star q K F : within F (follows K) -> within (then_ (lang_star E q) F) (follows (first q ++ K)).
Proof.
  intros HF s (w & r & -> & Hw & Hr). apply follows_app; auto. now apply (proj1 (proj2 (proj2 (proj2 lang_first)))).
Qed.
Lemma follows_tail q d K F : within F (follows K) -> within (then_ (lang_tail E q d) F) (follows (first_tail q d ++ K)).
Proof.
  intros HF s (w & r & -> & Hw & Hr). apply follows_app; auto. now apply (proj2 (proj2 (proj2 (proj2 lang_first)))).
Qed.
Lemma follows_or qs K F : within F (follows K) ->
  within (then_ (lang_or E qs) F) (follows (and_then (existsb empty_b qs) (flat_map first qs) K)).
Proof.
  intros HF s (w & r & -> & Hw & Hr). apply follows_and_then; auto; [now apply (proj1 (proj2 lang_first))|].
  now apply (proj1 (proj2 lang_empty)).
Qed.
Lemma apart_gen (L : list V -> Prop) K1 K F : (forall w, L w -> w <> [] /\ headed w K1) -> disjoint K1 K = true ->
  within F (follows K) -> apart L F.
Proof.
  intros HL Hd HF s Hs (w & r & -> & Hw). apply HF in Hs. destruct (HL w Hw) as [Hn Hh]. destruct w as [|c w]; [congruence|].
  cbn in Hs. eapply disjoint_ok; eauto.
Qed.
Lemma apart_ok q K F : negb (empty_b q) && disjoint (first q) K = true -> within F (follows K) -> apart (lang E q) F.
Proof.
  intros [Hn Hd]%andb_prop. apply apart_gen with (K1 := first q); auto. intros w Hw. split; [|now apply lang_first_p].
  intros ->. apply lang_empty_p in Hw. rewrite Hw in Hn. discriminate.
Qed.
Lemma within_refl (F : list V -> Prop) : within F F.
Proof. intros s H. exact H. Qed.

Definition what_follows (c : nat) : list V -> Prop := if known c then follows (fo c) else fun _ => False.

Lemma or_ok F K : within F (follows K) -> forall qs,
  Forall (fun q => forall K F, within F (follows K) -> ll1 q K = true -> clear E what_follows q F) qs ->
  (fix go qs := match qs with [] => true | r :: qs' => ll1 r K && apart_b r qs' K && go qs' end) qs = true ->
  clear_or E what_follows qs F.
Proof.
  intros HF. induction qs as [|q qs IH]; intros HI H; [constructor|]. inversion HI as [|? ? Hq Hqs]; subst.
  apply andb_prop in H as [[H1 H2]%andb_prop H3]. constructor; eauto.
  unfold apart_b in H2. destruct qs as [|x qs].
  - intros s (w & r & -> & Hw & _) _. inversion Hw.
  - eapply apart_ok; [exact H2|]. now apply follows_or.
Qed.
Lemma and_ok F K : within F (follows K) -> forall qs,
  Forall (fun q => forall K F, within F (follows K) -> ll1 q K = true -> clear E what_follows q F) qs ->
  (fix go qs := match qs with [] => true | r :: qs' => ll1 r (first_and qs' K) && go qs' end) qs = true ->
  clear_and E what_follows qs F.
Proof.
  intros HF. induction qs as [|q qs IH]; intros HI H; [constructor|]. inversion HI as [|? ? Hq Hqs]; subst.
  apply andb_prop in H as [H1 H2]. constructor; eauto. eapply Hq; eauto. now apply follows_and.
Qed.

Lemma ll1_clear p : forall K F, within F (follows K) -> ll1 p K = true -> clear E what_follows p F.
Proof.
  induction p using parser_ind'; intros K F HF HL; cbn [ll1] in HL; try (constructor; eauto; fail).
  - constructor. eapply or_ok; eauto.
  - constructor. eapply and_ok; eauto.
  - apply andb_prop in HL as [H1 H2]. constructor; eauto using apart_ok.
  - constructor. revert HL. induction n as [|n IHn]; intros HL; [constructor|]. apply andb_prop in HL as [H1 H2]. cbn [repeat].
    constructor; eauto. eapply IHp; eauto. now apply follows_and.
  - apply andb_prop in HL as [H1 H2]. constructor; [eapply IHp; eauto; now apply follows_star|eapply apart_ok; eauto].
  - apply andb_prop in HL as [H1 H2]. constructor; [eapply IHp; eauto; now apply follows_star|eapply apart_ok; eauto].
  - apply andb_prop in HL as [[H1 H2]%andb_prop [H3 H4]%andb_prop]. constructor.
    + eapply IHp1; eauto. now apply follows_tail.
    + eapply IHp2; eauto. intros s (w & r & -> & Hw & Hr). apply follows_lang; auto. eapply follows_tail; eauto.
    + eapply apart_gen; [|exact H4|exact HF]. intros w (w1 & w2 & -> & Hd & Hq). split.
      * intros [-> ->]%app_eq_nil. apply lang_empty_p in Hd, Hq. rewrite Hd, Hq in H3. discriminate.
      * apply headed_app; try now apply lang_first_p. intros ->. now apply lang_empty_p.
  - apply andb_prop in HL as [H1 H2]. destruct K; [|discriminate]. constructor; eauto. intros s Hs. apply HF in Hs. destruct s; [auto|discriminate].
  - apply andb_prop in HL as [H1 H2]. constructor. intros s Hs. unfold what_follows. rewrite H1. apply HF in Hs.
    destruct s; cbn in *; auto. eapply covers_ok; eauto.
Qed.

(** Where nothing can follow, nothing is asked. *)
Lemma clear_void p : forall F, (forall s, ~ F s) -> clear E what_follows p F.
Proof.
  assert (Hthen : forall L F, (forall s, ~ F s) -> forall s, ~ then_ L F s) by (intros L F H s (w & r & _ & _ & Hr); exact (H r Hr)).
  assert (Hap : forall L F, (forall s, ~ F s) -> apart L F) by (intros L F H s Hs; destruct (H s Hs)).
  induction p using parser_ind'; intros F HF; try (constructor; eauto; fail).
  - constructor. assert (HI : Forall (fun p => forall F, (forall s, ~ F s) -> clear E what_follows p F) (p :: qs)) by (constructor; auto).
    clear -HI HF Hap Hthen. induction HI; constructor; eauto.
  - constructor. assert (HI : Forall (fun p => forall F, (forall s, ~ F s) -> clear E what_follows p F) (p :: qs)) by (constructor; auto).
    clear -HI HF Hap Hthen. induction HI; constructor; eauto.
  - constructor. revert F HF. induction n; intros; cbn; constructor; eauto.
  - constructor; eauto. intros s Hs. destruct (HF s Hs).
  - constructor. intros s Hs. destruct (HF s Hs).
Qed.
End Given.

Definition ll1_custom (c : nat) : bool :=
  implb (empty_b (cust_body E c)) (nul c) && covers (fs c) (first (cust_body E c)) && ll1 (cust_body E c) (fo c).
Definition ll1_ok p (K : list cls) : bool := forallb ll1_custom cs && ll1 p K.

Theorem ll1_grammar p K F : ll1_ok p K = true -> within F (follows K) ->
  (forall c, clear E what_follows (cust_body E c) (what_follows c)) /\ clear E what_follows p F.
Proof.
  unfold ll1_ok. rewrite andb_true_iff, forallb_forall. intros [Hc Hp] HF.
  assert (H : forall c, In c cs -> (empty_b (cust_body E c) = true -> nul c = true) /\ covers (fs c) (first (cust_body E c)) = true /\
    ll1 (cust_body E c) (fo c) = true).
  { intros c Hi. specialize (Hc c Hi). unfold ll1_custom in Hc. apply andb_prop in Hc as [[H1 H2]%andb_prop H3]. repeat split; auto.
    intros He. rewrite He in H1. exact H1. }
  assert (Hn : forall c, In c cs -> empty_b (cust_body E c) = true -> nul c = true) by (intros c Hi; apply (H c Hi)).
  assert (Hf : forall c, In c cs -> covers (fs c) (first (cust_body E c)) = true) by (intros c Hi; apply (H c Hi)).
  split; [|apply (ll1_clear Hn Hf p K); auto].
  intros c. unfold what_follows at 2. destruct (known c) eqn:Hk; [|apply clear_void; auto].
  apply known_in in Hk. apply (ll1_clear Hn Hf (cust_body E c) (fo c)); [apply within_refl|apply (H c Hk)].
Qed.
End LL1.
