(** * Properties C27, C28, C29: sets of elements *)
From Coq Require Import String List Arith ZArith Bool Lia Permutation.
From Verif Require Import Types Compound Parser Outcome CompoundFacts Exec Mono Derive Typing Join Leaves Sound
  BigStep BigSound BigComplete Peg Elems Runs Samples PropCore PropBasic StaticArray Operators.
Import ListNotations.

(** ** Specification *)

(** A single-element parser type that may be instantiated: its array meets the
    requires-clause of any_of.h:11-12, none_of.h:11-12 (strictly increasing). *)
Inductive single {T} (O : order T) : parser T -> Prop :=
| single_any arr : increasing O arr -> single O (PAnyOf arr)
| single_none arr : increasing O arr -> single O (PNoneOf arr).

(** The elements a single-element parser accepts. *)
Inductive accepts {T V} (E : env T V) : parser T -> V -> Prop :=
| accepts_any arr t c : In t arr -> eqv E t c = true -> accepts E (PAnyOf arr) c
| accepts_none arr c : (forall t, In t arr -> eqv E t c = false) -> accepts E (PNoneOf arr) c.

(** No input element equals two different literal elements. *)
Definition exact {T V} (E : env T V) : Prop := forall t t' c, eqv E t c = true -> eqv E t' c = true -> t = t'.

(** ** Running single-element parsers *)
Section Sets.
Context {T V : Type} (E : env T V).

Inductive is_single : parser T -> Prop :=
| is_any arr : is_single (PAnyOf arr)
| is_none arr : is_single (PNoneOf arr).

Definition member (arr : list T) (c : V) : Prop := exists t, In t arr /\ eqv E t c = true.

Lemma none_inv arr c t : accepts E (PNoneOf arr) c -> In t arr -> eqv E t c = false.
Proof. inversion 1 as [|arr' c' Hn]; subst. apply Hn. Qed.

Lemma accepts_any_iff arr c : accepts E (PAnyOf arr) c <-> member arr c.
Proof.
  split; [inversion 1 as [arr' t c' Ht He|]; subst; exists t; auto|]. intros (t & Ht & He). econstructor; eauto.
Qed.
Lemma accepts_none_iff arr c : accepts E (PNoneOf arr) c <-> ~ member arr c.
Proof.
  split.
  - intros H (t & Ht & He). rewrite (none_inv _ _ _ H Ht) in He. discriminate.
  - intros H. constructor. intros t Ht. destruct (eqv E t c) eqn:He; auto. destruct H. exists t. auto.
Qed.

Lemma single_is O p : single O p -> is_single p.
Proof. destruct 1; constructor. Qed.

Lemma accepts_dec p c : is_single p -> accepts E p c \/ ~ accepts E p c.
Proof.
  destruct 1; rewrite ?accepts_any_iff, ?accepts_none_iff; pose proof (in_set_dec E arr c : member arr c \/ ~ member arr c); tauto.
Qed.

(** The input starts with an accepted element. *)
Definition ready (p : parser T) (i : span) : Prop := exists c rest, elems E i = c :: rest /\ accepts E p c.

Lemma ready_dec p i : is_single p -> ready p i \/ ~ ready p i.
Proof.
  intros H. unfold ready. destruct (elems E i) as [|c rest].
  - right. intros (? & ? & ? & _). discriminate.
  - destruct (accepts_dec p c H); [left; eauto|right]. intros (? & ? & [= <- <-] & ?). auto.
Qed.

Lemma single_runs m p i : is_single p -> valid E i ->
  (ready p i -> evals E m p i (Done (took_one m i) [])) /\
  (~ ready p i -> evals E m p i (Done (Res None i) [])).
Proof.
  intros Hp Hv. destruct Hp.
  - destruct (C07_any_of E m arr i Hv) as [[(c & rest & He & t & Ht & Hc) H]|[Hn H]]; split; intros Hr; auto.
    + destruct Hr. exists c, rest. split; auto. econstructor; eauto.
    + destruct Hr as (c & rest & He & (t & Ht & Hc)%accepts_any_iff). rewrite (Hn _ _ He) in Hc; auto. discriminate.
  - destruct (C07_none_of E m arr i Hv) as [[(c & rest & He & Hc) H]|[Hn H]]; split; intros Hr; auto.
    + destruct Hr. exists c, rest. split; auto. now constructor.
    + destruct Hr as (c & rest & He & Ha). destruct (Hn _ _ He) as (t & Ht & Hc). rewrite (none_inv _ _ _ Ha Ht) in Hc. discriminate.
Qed.

Lemma result_single p : is_single p -> result_for E p = Some TSpan.
Proof. now destruct 1. Qed.

Lemma choice_runs m p q i : is_single p -> is_single q -> valid E i ->
  (ready p i \/ ready q i -> evals E m (PChoice p [q]) i (Done (took_one m i) [])) /\
  (~ ready p i -> ~ ready q i -> evals E m (PChoice p [q]) i (Done (Res None i) [])).
Proof.
  intros Hp Hq Hv.
  assert (Hr : result_fors E [p; q] = Some [TSpan; TSpan]) by (cbn; now rewrite !result_single).
  assert (Hrun : forall z, is_single z -> exists r, evals E m z i (Done r []) /\
    ((ready z i /\ r = took_one m i) \/ (~ ready z i /\ r = Res None i))).
  { intros z Hz. destruct (single_runs m z i Hz Hv) as [H1 H2]. destruct (ready_dec z i Hz); eexists; split; eauto. }
  destruct (Hrun p Hp) as (rp & Ep & Dp). destruct (Hrun q Hq) as (rq & Eq & Dq).
  destruct Ep as [_ [a Ha]]. destruct Eq as [_ [b Hb]].
  assert (Ha' : run E (a + b) m p i = Done rp []) by (apply (run_stable E a); [auto|discriminate|lia]).
  assert (Hb' : run E (a + b) m q i = Done rq []) by (apply (run_stable E b); [auto|discriminate|lia]).
  assert (Hc : run E (S (a + b)) m (PChoice p [q]) i =
    match r_ok rp with Some v => Done rp [] | None => match r_ok rq with Some _ => Done rq [] | None => Done (Res None i) [] end end).
  { cbn [run step]. destruct m.
    - unfold choice_parse. rewrite Hr. cbn. rewrite Ha'.
      destruct Dp as [[_ ->]|[_ ->]]; cbn; auto. rewrite Hb'. destruct Dq as [[_ ->]|[_ ->]]; cbn; auto.
    - unfold choice_look. rewrite Hr. cbn. rewrite Ha'.
      destruct Dp as [[_ ->]|[_ ->]]; cbn; auto. rewrite Hb'. destruct Dq as [[_ ->]|[_ ->]]; cbn; auto. }
  split; intros H; [|intros H'].
  - split; [discriminate|]. exists (S (a + b)). rewrite Hc.
    destruct Dp as [[_ ->]|[Hn ->]]; cbn; auto. destruct Dq as [[_ ->]|[Hn' ->]]; cbn; auto. tauto.
  - split; [discriminate|]. exists (S (a + b)). rewrite Hc.
    destruct Dp as [[? ->]|[Hn ->]]; [tauto|]. destruct Dq as [[? ->]|[Hn' ->]]; [tauto|]. reflexivity.
Qed.

Lemma same_runs m p q s i o : is_single p -> is_single q -> is_single s -> valid E i ->
  (forall c, accepts E s c <-> accepts E p c \/ accepts E q c) ->
  evals E m s i o <-> evals E m (PChoice p [q]) i o.
Proof.
  intros Hp Hq Hs Hv Ha.
  assert (Hr : ready s i <-> ready p i \/ ready q i).
  { unfold ready. split.
    - intros (c & rest & He & Hc). apply Ha in Hc as [|]; eauto.
    - intros [(c & rest & He & Hc)|(c & rest & He & Hc)]; exists c, rest; (split; auto); apply Ha; auto. }
  destruct (single_runs m s i Hs Hv) as [S1 S2]. destruct (choice_runs m p q i Hp Hq Hv) as [C1 C2].
  destruct (ready_dec s i Hs) as [H|H].
  - specialize (S1 H). specialize (C1 (proj1 Hr H)). split; intros Ho;
      [rewrite (C43_one_outcome _ _ _ _ _ _ Ho S1)|rewrite (C43_one_outcome _ _ _ _ _ _ Ho C1)]; auto.
  - specialize (S2 H). assert (C3 : evals E m (PChoice p [q]) i (Done (Res None i) [])) by (apply C2; tauto).
    split; intros Ho; [rewrite (C43_one_outcome _ _ _ _ _ _ Ho S2)|rewrite (C43_one_outcome _ _ _ _ _ _ Ho C3)]; auto.
Qed.

Lemma same_runs' m p s i o : is_single p -> is_single s -> valid E i ->
  (forall c, accepts E s c <-> accepts E p c) -> evals E m s i o <-> evals E m p i o.
Proof.
  intros Hp Hs Hv Ha.
  assert (Hr : ready s i <-> ready p i).
  { unfold ready. split; intros (c & rest & He & Hc); exists c, rest; (split; auto); now apply Ha. }
  destruct (single_runs m s i Hs Hv) as [S1 S2]. destruct (single_runs m p i Hp Hv) as [C1 C2].
  destruct (ready_dec s i Hs) as [H|H].
  - specialize (S1 H). specialize (C1 (proj1 Hr H)). split; intros Ho;
      [rewrite (C43_one_outcome _ _ _ _ _ _ Ho S1)|rewrite (C43_one_outcome _ _ _ _ _ _ Ho C1)]; auto.
  - specialize (S2 H). assert (C3 : evals E m p i (Done (Res None i) [])) by (apply C2; tauto).
    split; intros Ho; [rewrite (C43_one_outcome _ _ _ _ _ _ Ho S2)|rewrite (C43_one_outcome _ _ _ _ _ _ Ho C3)]; auto.
Qed.

(** ** Sets *)
Lemma member_dec arr c : member arr c \/ ~ member arr c.
Proof. apply in_set_dec. Qed.
End Sets.

(** ** C27 *)
Theorem C27_merging_is_union_of_accepted_sets {T V} (O : order T) (E : env T V) p q :
  lawful O -> exact E -> single O p -> single O q ->
  let s := choice_operator O p q in
  single O s /\
  (forall c, accepts E s c <-> accepts E p c \/ accepts E q c) /\
  (forall m i o, valid E i -> evals E m s i o <-> evals E m (PChoice p [q]) i o).
Proof.
  intros HO HE Hp Hq s.
  assert (Hs : single O s /\ forall c, accepts E s c <-> accepts E p c \/ accepts E q c).
  { subst s. destruct Hp as [a Ha|a Ha]; destruct Hq as [b Hb|b Hb]; cbn [choice_operator];
      (destruct (list_eqb (eqb O) a b) eqn:Heq;
       [apply (arr_eqb_spec O HO) in Heq; subst b; split; [constructor; first [assumption|apply increasing_nil]|intros c]
       |destruct (fun op => set_operation_spec O HO op a b Ha Hb) with (op := set_union) as [Hu1 Hu2];
        destruct (fun op => set_operation_spec O HO op a b Ha Hb) with (op := set_intersection) as [Hi1 Hi2];
        destruct (fun op => set_operation_spec O HO op a b Ha Hb) with (op := set_difference_left) as [Hl1 Hl2];
        destruct (fun op => set_operation_spec O HO op a b Ha Hb) with (op := set_difference_right) as [Hr1 Hr2];
        split; [constructor; assumption|intros c]]);
      rewrite ?accepts_any_iff, ?accepts_none_iff;
      pose proof (member_dec E a c) as Da; try pose proof (member_dec E b c) as Db; try unfold in_result in *.
    - tauto.
    - unfold member. setoid_rewrite Hu2. split.
      + intros (t & [?|?] & ?); eauto.
      + intros [(t & ? & ?)|(t & ? & ?)]; eauto.
    - split; [tauto|]. intros _ (t & [] & _).
    - split.
      + intros H. destruct Db as [(t & Ht & He)|]; auto. left. exists t. split; auto.
        destruct (member_dec E a c) as [(t' & Ht' & He')|Hn]; [now rewrite (HE t t' c He He')|].
        destruct H. exists t. split; auto. apply Hr2. split; auto. intros Hta. apply Hn. exists t; auto.
      + intros [(t & Ht & He)|H] (t' & Ht' & He'); apply Hr2 in Ht' as [Hb' Ha'].
        * rewrite (HE t t' c He He') in Ht. auto.
        * apply H. exists t'. auto.
    - split; [tauto|]. intros _ (t & [] & _).
    - split.
      + intros H. destruct Da as [(t & Ht & He)|]; auto. right. exists t. split; auto.
        destruct (member_dec E b c) as [(t' & Ht' & He')|Hn]; [now rewrite (HE t t' c He He')|].
        destruct H. exists t. split; auto. apply Hl2. split; auto. intros Hta. apply Hn. exists t; auto.
      + intros [H|(t & Ht & He)] (t' & Ht' & He'); apply Hl2 in Ht' as [Hb' Ha'].
        * apply H. exists t'. auto.
        * rewrite (HE t t' c He He') in Ht. auto.
    - tauto.
    - split.
      + intros H. destruct Da as [(t & Ht & He)|]; auto. right. intros (t' & Ht' & He').
        rewrite (HE t' t c He' He) in Ht'. apply H. exists t. split; auto. apply Hi2. auto.
      + intros H (t & Ht & He). apply Hi2 in Ht as [Hta Htb]. destruct H as [H|H]; apply H; exists t; auto. }
  destruct Hs as [Hs Ha]. split; auto. split; auto. intros m i o Hv.
  apply same_runs; eauto using single_is.
Qed.

(** The natural instance: the input elements are of the literal's type, compared with its [==]. *)
Lemma exact_self {T V} (O : order T) (E : env T V) (f : V -> T) :
  lawful O -> (forall t c, eqv E t c = eqb O t (f c)) -> exact E.
Proof. intros HO H t t' c. rewrite !H, !(eq_spec O HO). congruence. Qed.

Definition nat_order : order nat := Order nat Nat.ltb Nat.leb Nat.eqb.
Lemma nat_lawful : lawful nat_order.
Proof.
  constructor; cbn; intros.
  - apply Nat.ltb_irrefl.
  - apply Nat.ltb_lt in H, H0. apply Nat.ltb_lt. lia.
  - apply Nat.ltb_ge in H, H0. lia.
  - now rewrite Nat.leb_antisym.
  - apply Nat.eqb_eq.
Qed.

Lemma sx_exact : exact sx.
Proof. apply (exact_self nat_order sx (fun c => c) nat_lawful). reflexivity. Qed.

Example C27_case :
  single nat_order (PAnyOf (codes "abc")) /\ single nat_order (PNoneOf (codes "bd")) /\
  choice_operator nat_order (PAnyOf (codes "abc")) (PNoneOf (codes "bd")) = PNoneOf (codes "d") /\
  choice_operator nat_order (PAnyOf (codes "abc")) (PAnyOf (codes "bd")) = PAnyOf (codes "abcd") /\
  choice_operator nat_order (PNoneOf (codes "abc")) (PAnyOf (codes "bd")) = PNoneOf (codes "ac") /\
  choice_operator nat_order (PNoneOf (codes "abc")) (PNoneOf (codes "bd")) = PNoneOf (codes "b") /\
  choice_operator nat_order (PNoneOf (codes "abc")) (PAnyOf (codes "abc")) = PNoneOf [].
Proof. repeat split; constructor; apply (sorted_spec _ nat_lawful); reflexivity. Qed.

(** With a comparison under which an input element equals two literal elements (here: case
    is ignored, 97 and 65), [none | none] accepts what neither operand accepts. *)
Definition folding : env nat nat := {|
  eqv := fun t c => (t =? c) || (t =? c + 32);
  mem := fun b => if b =? 1 then [65] else [];
  fn_ret := fun _ _ => None; fn_app := fun _ _ => FIll; ct_ok := fun _ _ => false; ct_app := fun _ _ => FIll;
  k_ty := fun _ => TUser 0; k_val := fun _ => VUser 0 []; bool_ok := fun _ => false; as_bool := fun _ => false;
  cust_body := fun _ => PEpsilon; cust_ty := fun _ => TVoid; cust_conv := fun _ => ConvSame |}.

Theorem C27_inexact_comparison_refuted : exists (E : env nat nat) p q i,
  single nat_order p /\ single nat_order q /\ valid E i /\
  evals E Parse (PChoice p [q]) i (Done (Res None i) []) /\
  evals E Parse (choice_operator nat_order p q) i (Done (took_one Parse i) []).
Proof.
  exists folding, (PNoneOf [65]), (PNoneOf [97]), (Span 1 0 1).
  repeat split; try (constructor; apply (sorted_spec _ nat_lawful); reflexivity); try discriminate; try (unfold valid; cbn; lia).
  - exists 3. reflexivity.
  - exists 3. reflexivity.
Qed.

(** ** C28 *)
Theorem C28_any_accepts_the_written_elements {T V} (O : order T) sort (E : env T V) arr :
  lawful O -> sorts O sort ->
  single O (any O sort arr) /\
  (forall c, accepts E (any O sort arr) c <-> exists t, In t arr /\ eqv E t c = true) /\
  (forall m i o, valid E i -> evals E m (any O sort arr) i o <-> evals E m (PAnyOf arr) i o).
Proof.
  intros HO Hs. destruct (sort_and_unique_spec O HO sort arr Hs) as [Hi He]. unfold any.
  assert (Ha : forall c, accepts E (PAnyOf (sort_and_unique O sort arr)) c <-> exists t, In t arr /\ eqv E t c = true).
  { intros c. rewrite accepts_any_iff. unfold member. now setoid_rewrite He. }
  split; [now constructor|]. split; auto. intros m i o Hv. apply same_runs'; auto; try apply is_any; try apply is_none.
  intros c. rewrite Ha. symmetry. apply accepts_any_iff.
Qed.

Theorem C28_none_accepts_all_others {T V} (O : order T) sort (E : env T V) arr :
  lawful O -> sorts O sort ->
  single O (none O sort arr) /\
  (forall c, accepts E (none O sort arr) c <-> forall t, In t arr -> eqv E t c = false) /\
  (forall m i o, valid E i -> evals E m (none O sort arr) i o <-> evals E m (PNoneOf arr) i o).
Proof.
  intros HO Hs. destruct (sort_and_unique_spec O HO sort arr Hs) as [Hi He]. unfold none.
  assert (Ha : forall c, accepts E (PNoneOf (sort_and_unique O sort arr)) c <-> forall t, In t arr -> eqv E t c = false).
  { intros c. split; [intros H t Ht; apply (none_inv _ _ _ _ H), He, Ht|].
    intros H. constructor. intros t Ht. apply H, He, Ht. }
  split; [now constructor|]. split; auto. intros m i o Hv. apply same_runs'; auto; try apply is_any; try apply is_none.
  intros c. rewrite Ha. split; [now constructor|intros H t; now apply none_inv].
Qed.

(** The parser type depends only on the set of elements written, not on their order or
    multiplicity, nor on the sorting algorithm. *)
Theorem C28_same_elements_same_parser {T} (O : order T) sort sort' arr arr' :
  lawful O -> sorts O sort -> sorts O sort' -> (forall t, In t arr <-> In t arr') ->
  any O sort arr = any O sort' arr' /\ none O sort arr = none O sort' arr'.
Proof.
  intros HO Hs Hs' He.
  destruct (sort_and_unique_spec O HO sort arr Hs) as [Hi Hm].
  destruct (sort_and_unique_spec O HO sort' arr' Hs') as [Hi' Hm'].
  assert (Heq : sort_and_unique O sort arr = sort_and_unique O sort' arr').
  { apply (increasing_ext O HO); auto. intros t. now rewrite Hm, Hm', He. }
  unfold any, none. now rewrite Heq.
Qed.

Example C28_case :
  any nat_order (isort nat_order) (codes "banana") = PAnyOf (codes "abn") /\
  any nat_order (isort nat_order) (codes "nab") = PAnyOf (codes "abn") /\
  sorts nat_order (isort nat_order).
Proof. split; [reflexivity|]. split; [reflexivity|]. apply (isort_sorts nat_order nat_lawful). Qed.

(** ** C29 *)

(** Accepting an element: one element consumed; else the input is given back.  On a
    non-empty input exactly one of [p] and [!p] accepts, on the empty input none; [!] is its
    own inverse and only defined on single-element parsers. *)
Theorem C29_not_is_complement {T V} (O : order T) (E : env T V) p :
  (single O p -> exists q, not_operator p = Some q /\ not_operator q = Some p /\ single O q /\
     (forall c, accepts E q c <-> ~ accepts E p c) /\
     forall m i, valid E i ->
       (elems E i = [] /\ refuses E m p i [] /\ refuses E m q i []) \/
       (elems E i <> [] /\
        ((evals E m p i (Done (took_one m i) []) /\ refuses E m q i []) \/
         (refuses E m p i [] /\ evals E m q i (Done (took_one m i) []))))) /\
  ((forall arr, p <> PAnyOf arr) -> (forall arr, p <> PNoneOf arr) -> not_operator p = None).
Proof.
  split.
  - intros Hp.
    assert (Hq : exists q, not_operator p = Some q /\ not_operator q = Some p /\ single O q /\
      forall c, accepts E q c <-> ~ accepts E p c).
    { destruct Hp as [arr Ha|arr Ha]; [exists (PNoneOf arr)|exists (PAnyOf arr)]; repeat (split; [first [reflexivity|now constructor]|]);
        intros c; rewrite accepts_any_iff, accepts_none_iff; [tauto|]. pose proof (member_dec E arr c). tauto. }
    destruct Hq as (q & H1 & H2 & H3 & H4). exists q. repeat (split; [assumption|]). intros m i Hv.
    destruct (single_runs E m p i (single_is _ _ Hp) Hv) as [P1 P2].
    destruct (single_runs E m q i (single_is _ _ H3) Hv) as [Q1 Q2].
    assert (Hn : forall z, elems E i = [] -> ~ ready E z i).
    { intros z He (c & rest & He' & _). congruence. }
    destruct (elems E i) as [|c rest] eqn:He.
    + left. split; auto. split; [apply P2|apply Q2]; now apply Hn.
    + right. split; [discriminate|]. assert (Hr : forall z, ready E z i <-> accepts E z c).
      { intros z. unfold ready. rewrite He. split; [intros (? & ? & [= <- <-] & ?); auto|eauto]. }
      rewrite Hr in P1, P2, Q1, Q2. rewrite H4 in Q1, Q2.
      destruct (accepts_dec E p c (single_is _ _ Hp)) as [Ha|Ha]; [left|right]; (split; [|]); first [now apply P1|now apply P2|now apply Q1|apply Q2; tauto].
  - intros Ha Hn. destruct p; auto; [now destruct (Ha arr)|now destruct (Hn arr)].
Qed.

Example C29_case : not_operator (PAnyOf (codes "()")) = Some (PNoneOf (codes "()")) /\
  evals sx Parse (PAnyOf (codes "()")) in1 (Done (took_one Parse in1) []) /\
  refuses sx Parse (PNoneOf (codes "()")) in1 [].
Proof. repeat split; try discriminate; exists 2; reflexivity. Qed.

Print Assumptions C27_merging_is_union_of_accepted_sets.
Print Assumptions C27_inexact_comparison_refuted.
Print Assumptions C28_any_accepts_the_written_elements.
Print Assumptions C28_none_accepts_all_others.
Print Assumptions C28_same_elements_same_parser.
Print Assumptions C29_not_is_complement.
