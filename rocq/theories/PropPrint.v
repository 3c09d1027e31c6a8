(** * C56: what the algebraic example prints *)
From Coq Require Import String List Arith ZArith Bool Lia.
From Verif Require Import Types Compound Parser Outcome CompoundFacts Exec Mono Derive Typing Join Leaves Sound
  BigStep BigSound BigComplete Peg Elems Runs Samples PropCore PropBasic PropPeg Lossless Agree Check PropAgree Grammar CharPeg Names PropNames Term PropTerm
  StaticArray Operators PropSets Modifiers ExJson Shape ExAlgebraic PropAlgebraic ExprGrammar PropExpr.
Import ListNotations.
Local Open Scope nat_scope.

(** ** The outline of an expression

    A line has a number of tabs and a text; a comma closes an operand that another one
    follows. *)
Inductive item : Type :=
| Line (depth : nat) (text : list nat)
| Comma.

Definition item_text (it : item) : list nat := match it with Line d t => 10 :: repeat 9 d ++ t | Comma => [44] end.
(** No newline before the first line. *)
Definition outline_text (l : list item) : list nat := tl (flat_map item_text l).

Definition block (d : nat) (name : string) (l : list item) : list item :=
  Line d (codes name ++ codes " :") :: Line d (codes "{") :: l ++ [Line d (codes "}")].
Definition operator_name (c : nat) : string :=
  match c with 43 => "<plus>" | 45 => "<minus>" | 42 => "<multiplied by>" | _ => "<divided by>" end.
Definition chain_name (k : kind) : string := match k with KExpr => "Expr" | _ => "Term" end.

(** The lines between the braces of a level, [d] tabs before them.  A number, a bracketed or
    a negated expression is alone; otherwise the operands at this level, each a block of the
    level below.  Exponent letters are small. *)
Fixpoint inside (a : ast) (k : kind) (d : nat) {struct a} : list item :=
  let powterm d :=
    match a with
    | ANum ds fs es => [Line d (codes "Number : " ++ literal_text ds fs (option_map (fun x => (101, fst x, snd x)) es))]
    | ABracket x => block d "Bracketed Expr" (block (d + 1) "Expr" (inside x KExpr (d + 2)))
    | ANeg x => block d "Negated Expr" (block (d + 1) "Expr" (inside x KExpr (d + 2)))
    | ABin _ _ _ => []
    end in
  let factor d :=
    match a with
    | ABin c x y =>
        if c =? 94 then block d "Powterm" (inside x KPowterm (d + 1)) ++ Comma :: inside y KFactor d
        else block d "Powterm" (powterm (d + 1))
    | _ => block d "Powterm" (powterm (d + 1))
    end in
  let term d :=
    match a with
    | ABin c x y =>
        if (c =? 42) || (c =? 47)
        then inside x KTerm d ++ Comma :: Line d (codes (operator_name c)) :: block d "Factor" (inside y KFactor (d + 1))
        else block d "Factor" (factor (d + 1))
    | _ => block d "Factor" (factor (d + 1))
    end in
  match k with
  | KPowterm => powterm d
  | KFactor => factor d
  | KTerm => term d
  | _ =>
      match a with
      | ABin c x y =>
          if (c =? 43) || (c =? 45)
          then inside x KExpr d ++ Comma :: Line d (codes (operator_name c)) :: block d "Term" (inside y KTerm (d + 1))
          else block d "Term" (term (d + 1))
      | _ => block d "Term" (term (d + 1))
      end
  end.
Definition outline (a : ast) : list item := block 0 "Expr" (inside a KExpr 1).

(** ** The same as a relation

    The exponent letter is printed small. *)
Definition small (es : option (nat * bool * list nat)) : option (nat * bool * list nat) := option_map (fun x => (101, snd (fst x), snd x)) es.

Inductive shown : kind -> nat -> ast -> list item -> Prop :=
| sh_number d ds fs es : literal ds fs es ->
    shown KPowterm d (ANum ds fs (option_map (fun x => (snd (fst x), snd x)) es))
      (block d "Powterm" [Line (d + 1) (codes "Number : " ++ literal_text ds fs (small es))])
| sh_bracketed d a l : shown KExpr (d + 2) a l -> shown KPowterm d (ABracket a) (block d "Powterm" (block (d + 1) "Bracketed Expr" l))
| sh_negated d a l : shown KExpr (d + 2) a l -> shown KPowterm d (ANeg a) (block d "Powterm" (block (d + 1) "Negated Expr" l))
| sh_factor d a l : powers (d + 1) a l -> shown KFactor d a (block d "Factor" l)
| sh_chain k d a r l l' : k = KTerm \/ k = KExpr -> shown (operand k) (d + 1) a l -> more k (d + 1) a r l' ->
    shown k d r (block d (chain_name k) (l ++ l'))
with powers : nat -> ast -> list item -> Prop :=
| pw_one d a l : shown KPowterm d a l -> powers d a l
| pw_more d a b l l' : shown KPowterm d a l -> powers d b l' -> powers d (ABin 94 a b) (l ++ Comma :: l')
with more : kind -> nat -> ast -> ast -> list item -> Prop :=
| mo_nil k d a : more k d a a []
| mo_cons k d a b c r l l' : In c (ops k) -> shown (operand k) d b l -> more k d (ABin c a b) r l' ->
    more k d a r (Comma :: Line d (codes (operator_name c)) :: l ++ l').

Scheme shown_ind2 := Induction for shown Sort Prop with powers_ind2 := Induction for powers Sort Prop with more_ind2 := Induction for more Sort Prop.
Combined Scheme shown_mut from shown_ind2, powers_ind2, more_ind2.

(** How deep brackets and negations nest. *)
Fixpoint nesting (a : ast) : nat :=
  match a with
  | ANum _ _ _ => 0
  | ANeg a | ABracket a => S (nesting a)
  | ABin _ a b => max (nesting a) (nesting b)
  end.

(** The text without its blanks, exponent letters small. *)
Definition is_blank_b (c : nat) : bool := existsb (Nat.eqb c) [32; 9; 10; 13].
Definition squeeze (t : list nat) : list nat := map (fun c => if c =? 69 then 101 else c) (filter (fun c => negb (is_blank_b c)) t).

(** ** The characters written *)
Section Written.
Context (memory : nat -> list nat).

(** The buffer of 1024 tabs and its terminator, print.h:11. *)
Definition piece_text (p : piece) : list nat :=
  match p with
  | Tabs n => firstn n (repeat 9 1024 ++ [0])
  | Text s => codes s
  | View s => view memory s
  end.
Definition written (l : list piece) : list nat := flat_map piece_text l.
Definition narrow (l : list piece) : Prop := forall n, In (Tabs n) l -> n <= 1024.

Lemma written_app l l' : written (l ++ l') = written l ++ written l'.
Proof. apply flat_map_app. Qed.
Lemma narrow_app l l' : narrow (l ++ l') -> narrow l /\ narrow l'.
Proof. intros H. split; intros n Hn; apply H, in_or_app; auto. Qed.

Lemma then_inv a b l : then_ a b = POut l -> exists la lb, a = POut la /\ b = POut lb /\ l = la ++ lb.
Proof. destruct a, b; cbn; try discriminate. intros [= <-]. eauto. Qed.

Lemma text_written s n l : print_text s n = POut l -> narrow l -> written l = repeat 9 n ++ codes s.
Proof.
  intros H Hn. apply then_inv in H as (la & lb & Ha & [= <-] & ->). unfold get_tabs in Ha. destruct (n <=? 1025); [|discriminate].
  injection Ha as <-. assert (n <= 1024) by (apply Hn; now left). cbn [written flat_map app piece_text]. rewrite app_nil_r. f_equal.
  rewrite firstn_app, repeat_length. replace (n - 1024) with 0 by lia. rewrite app_nil_r.
  replace 1024 with (n + (1024 - n)) by lia. rewrite repeat_app, firstn_app, repeat_length, Nat.sub_diag, app_nil_r. now apply firstn_all2; rewrite repeat_length.
Qed.

Lemma codes_app s s' : codes (s ++ s') = codes s ++ codes s'.
Proof. induction s as [|c s IH]; [reflexivity|]. cbn. now rewrite <- IH. Qed.
Lemma codes_ln s : codes (ln s) = codes s ++ [10].
Proof. unfold ln. now rewrite codes_app. Qed.

Lemma auto_written name tabs body l : autoprint name tabs body = POut l -> narrow l ->
  exists lb, body = POut lb /\ narrow lb /\ forall its, flat_map item_text its = 10 :: written lb ->
    flat_map item_text (block tabs name its) = 10 :: written l.
Proof.
  intros H Hn. unfold autoprint in H.
  apply then_inv in H as (l1 & r1 & H1 & H & ->). apply then_inv in H as (l2 & r2 & [= <-] & H & ->).
  apply then_inv in H as (l3 & r3 & H3 & H & ->). apply then_inv in H as (lb & r4 & Hb & H & ->).
  apply then_inv in H as (l5 & l6 & [= <-] & H6 & ->).
  apply narrow_app in Hn as [N1 Hn]. apply narrow_app in Hn as [_ Hn]. apply narrow_app in Hn as [N3 Hn]. apply narrow_app in Hn as [Nb Hn].
  apply narrow_app in Hn as [_ N6].
  exists lb. split; auto. split; auto. intros its Hits.
  rewrite !written_app, (text_written _ _ _ H1 N1), (text_written _ _ _ H3 N3), (text_written _ _ _ H6 N6).
  cbn [written flat_map piece_text]. rewrite !app_nil_r, !codes_ln. unfold block. cbn [flat_map item_text]. rewrite flat_map_app, Hits.
  cbn [flat_map item_text]. rewrite app_nil_r. cbn [app]. f_equal. repeat rewrite <- app_assoc. reflexivity.
Qed.

Definition names (k : kind) := match k with KExpr => expr_names | _ => term_names end.

Definition body_printed (vs : list val) (d : nat) (a : ast) : Prop := exists l, powers d a l /\
  forall i size ps, i + List.length vs = size -> print_list size i (map (fun x => print memory KPowterm x d) vs) = POut ps -> narrow ps ->
    flat_map item_text l = 10 :: written ps.

Definition printed (k : kind) (v : val) (a : ast) : Prop :=
  (forall tabs, exists l, shown k tabs a l /\ forall ps, print memory k v tabs = POut ps -> narrow ps -> flat_map item_text l = 10 :: written ps) /\
  (k = KFactor -> exists vs, v = VVec vs /\ vs <> [] /\ forall d, body_printed vs d a).

Definition more_printed (k : kind) (a : ast) (vs ds : list val) (r : ast) : Prop := k = KTerm \/ k = KExpr -> forall tabs,
  exists l, more k (tabs + 1) a r l /\
    forall pre p ps, print_loop memory (names k) tabs (S (List.length pre + List.length vs)) (List.length pre) (pre ++ ds)
        (p :: map (fun x => print memory (operand k) x (tabs + 1)) vs) = POut ps -> narrow ps ->
      exists p0, p = POut p0 /\ narrow p0 /\ written ps = written p0 ++ flat_map item_text l.

Lemma names_ok k c : k = KTerm \/ k = KExpr -> In c (ops k) -> names k c = Some (operator_name c).
Proof. intros [->| ->] [<-|[<-|[]]]; reflexivity. Qed.

Lemma reads_printed :
  (forall k v a, reads memory k v a -> printed k v a) /\
  (forall k a vs ds r, reads_more memory k a vs ds r -> more_printed k a vs ds r).
Proof.
  apply reads_mut.
  - intros ds fs es v Hl (i & d & e & -> & Hi & Hd & He). split; [|discriminate]. intros tabs.
    eexists. split; [now apply sh_number|]. intros ps H Hn. cbn [print] in H.
    apply auto_written in H as (lb & Hb & Nb & H); auto. apply H. clear H.
    assert (Hw : forall o, as_view (option_map VSpan o) = Some o) by now intros [].
    rewrite !Hw in Hb. apply then_inv in Hb as (l1 & l2 & H1 & H2 & ->). injection H2 as <-. apply narrow_app in Nb as [N1 _].
    rewrite written_app, (text_written _ _ _ H1 N1). cbn [flat_map item_text written]. rewrite app_nil_r. f_equal. rewrite <- app_assoc. f_equal. f_equal.
    cbn [piece_text]. rewrite Hi. unfold literal_text. f_equal. rewrite flat_map_app. f_equal.
    + destruct d as [d|]; cbn in Hd; subst fs; cbn; now rewrite ?app_nil_r.
    + destruct e as [e|], es as [[[c neg] xs]|]; cbn in He; try discriminate; auto. injection He as He. cbn. now rewrite He, app_nil_r.
  - intros v a Hr [IH _]. split; [|discriminate]. intros tabs. destruct (IH (tabs + 2)) as (l & Hs & Hl).
    eexists. split; [apply sh_bracketed; exact Hs|]. intros ps H Hn. cbn [print] in H.
    apply auto_written in H as (lb & Hb & Nb & H); auto. apply H. clear H.
    apply auto_written in Hb as (lc & Hb & Nc & H); auto. apply H. clear H. apply Hl; auto. now replace (tabs + 2) with (tabs + 1 + 1) by lia.
  - intros v a Hr [IH _]. split; [|discriminate]. intros tabs. destruct (IH (tabs + 2)) as (l & Hs & Hl).
    eexists. split; [apply sh_negated; exact Hs|]. intros ps H Hn. cbn [print] in H.
    apply auto_written in H as (lb & Hb & Nb & H); auto. apply H. clear H.
    apply auto_written in Hb as (lc & Hb & Nc & H); auto. apply H. clear H. apply Hl; auto. now replace (tabs + 2) with (tabs + 1 + 1) by lia.
  - intros v a _ [IH _].
    assert (Hbody : forall d, body_printed [v] d a).
    { intros d. destruct (IH d) as (l & Hs & Hl). exists l. split; [now apply pw_one|].
      intros i size ps Hi H Hn. cbn [map print_list List.length] in H, Hi. replace (i =? size - 1) with true in H by (symmetry; apply Nat.eqb_eq; lia).
      apply then_inv in H as (l1 & l2 & H1 & [= <-] & ->). rewrite app_nil_r in *. auto. }
    split; [|intros _; exists [v]; repeat split; auto; discriminate].
    intros tabs. destruct (Hbody (tabs + 1)) as (l & Hp & Hl). eexists. split; [apply sh_factor; eauto|].
    intros ps H Hn. cbn [print] in H. apply auto_written in H as (lb & Hb & Nb & H); auto. apply H. eapply (Hl 0); eauto.
  - intros v a vs b _ [IHa _] _ [_ IHb]. destruct (IHb eq_refl) as (vs' & [= <-] & Hne & Hb).
    assert (Hbody : forall d, body_printed (v :: vs) d (ABin 94 a b)).
    { intros d. destruct (IHa d) as (l & Hs & Hl). destruct (Hb d) as (l' & Hp & Hl'). eexists. split; [apply pw_more; eauto|].
      intros i size ps Hi H Hn. cbn [List.length] in Hi. change (map ?f (v :: vs)) with (f v :: map f vs) in H. cbn [print_list] in H.
      assert (Hlt : i =? size - 1 = false) by (apply Nat.eqb_neq; destruct vs; [congruence|]; cbn in Hi; lia). rewrite Hlt in H.
      apply then_inv in H as (l1 & r1 & H1 & H & ->). apply then_inv in H as (l2 & l3 & [= <-] & H3 & ->).
      apply narrow_app in Hn as [N1 Hn]. apply narrow_app in Hn as [_ N3].
      rewrite flat_map_app. cbn [flat_map item_text]. rewrite (Hl _ H1 N1), (Hl' (S i) size _ ltac:(lia) H3 N3), !written_app. reflexivity. }
    split; [|intros _; exists (v :: vs); repeat split; auto; discriminate].
    intros tabs. destruct (Hbody (tabs + 1)) as (l & Hp & Hl). eexists. split; [apply sh_factor; eauto|].
    intros ps H Hn. cbn [print] in H. apply auto_written in H as (lb & Hb' & Nb & H); auto. apply H. eapply (Hl 0); eauto.
  - intros k v a vs ds r Hk _ [IHa _] _ IHm. split; [|destruct Hk; subst; discriminate]. intros tabs.
    destruct (IHa (tabs + 1)) as (l & Hs & Hl). destruct (IHm Hk tabs) as (l' & Hm & Hl').
    eexists. split; [eapply sh_chain; eauto|]. intros ps H Hn.
    assert (H' : autoprint (chain_name k) tabs (print_loop memory (names k) tabs (S (0 + List.length vs)) 0 ([] ++ ds)
       (print memory (operand k) v (tabs + 1) :: map (fun x => print memory (operand k) x (tabs + 1)) vs)) = POut ps).
    { destruct Hk as [->| ->]; exact H. }
    clear H. apply auto_written in H' as (lb & Hb & Nb & H); auto. apply H. clear H.
    destruct (Hl' [] _ _ Hb Nb) as (p0 & H0 & N0 & ->). rewrite flat_map_app, (Hl _ H0 N0). reflexivity.
  - intros k a Hk tabs. exists []. split; [constructor|]. intros pre p ps H Hn. cbn [map print_loop List.length] in H.
    replace (List.length pre =? S (List.length pre + 0) - 1) with true in H by (symmetry; apply Nat.eqb_eq; lia).
    apply then_inv in H as (l1 & l2 & H1 & [= <-] & ->). rewrite app_nil_r in *. exists l1. split; auto. split; auto. cbn. now rewrite app_nil_r.
  - intros k a v b s c vs ds r Hk _ [IHb _] Hs Hc _ IHm _ tabs.
    destruct (IHb (tabs + 1)) as (l & Hsh & Hl). destruct (IHm Hk tabs) as (l' & Hm & Hl').
    eexists. split; [eapply mo_cons; eauto|]. intros pre p ps H Hn.
    change (map ?f (v :: vs)) with (f v :: map f vs) in H. remember (print memory (operand k) v (tabs + 1) :: map (fun x => print memory (operand k) x (tabs + 1)) vs) as rest eqn:Hrest.
    cbn [print_loop List.length] in H.
    replace (List.length pre =? S (List.length pre + S (List.length vs)) - 1) with false in H by (symmetry; apply Nat.eqb_neq; lia).
    rewrite nth_error_app2, Nat.sub_diag in H by lia. cbn [nth_error] in H. rewrite Hs, (names_ok k c Hk Hc) in H.
    apply then_inv in H as (p0 & r0 & H0 & H & ->). apply then_inv in H as (sep & rst & Hsep & H & ->).
    apply then_inv in Hsep as (l2 & r2 & [= <-] & Hsep & ->). apply then_inv in Hsep as (l3 & l4 & H3 & [= <-] & ->).
    apply narrow_app in Hn as [N0 Hn]. apply narrow_app in Hn as [Ns Nr]. apply narrow_app in Ns as [_ Ns]. apply narrow_app in Ns as [N3 _].
    exists p0. split; auto. split; auto.
    subst rest. edestruct (Hl' (pre ++ [VUser 0 [VSpan s]])) as (q0 & Hq & Nq & Hw); [|exact Nr|].
    { rewrite app_length, <- app_assoc. cbn [List.length app]. rewrite <- H. f_equal; lia. }
    rewrite !written_app, Hw, (text_written _ _ _ H3 N3). cbn [flat_map item_text]. rewrite flat_map_app, (Hl _ Hq Nq).
    f_equal. change (written [Text (ln ",")]) with [44; 10]. change (written [Text (ln "")]) with [10]. cbn [app]. f_equal. f_equal.
    repeat rewrite <- app_assoc. reflexivity.
Qed.
End Written.

(** ** How far the tabs go *)
Section Height.
Context (memory : nat -> list nat).

Definition upto (m : nat) (p : pres) : Prop := match p with POut l => forall n, In (Tabs n) l -> n <= m | _ => True end.
Lemma upto_then m a b : upto m a -> upto m b -> upto m (then_ a b).
Proof. destruct a, b; cbn; auto. intros Ha Hb n Hn. apply in_app_or in Hn as [|]; auto. Qed.
Lemma upto_weaken m m' a : m <= m' -> upto m a -> upto m' a.
Proof. destruct a; cbn; auto. intros Hm H n Hn. specialize (H n Hn). lia. Qed.
Lemma upto_out m l : (forall n, ~ In (Tabs n) l) -> upto m (POut l).
Proof. intros H n Hn. now destruct (H n). Qed.
Lemma upto_one m s : upto m (POut [Text s]).
Proof. apply upto_out. now intros n [|[]]. Qed.
Lemma upto_nil m : upto m (POut []).
Proof. now apply upto_out. Qed.
Lemma upto_text m s n : n <= m -> upto m (print_text s n).
Proof.
  intros H. apply upto_then; [|apply upto_one]. unfold get_tabs. destruct (n <=? 1025); cbn; auto. now intros x [[= <-]|[]].
Qed.
Lemma upto_auto m s n body : n <= m -> upto m body -> upto m (autoprint s n body).
Proof. intros H Hb. unfold autoprint. apply upto_then; [now apply upto_text|]. apply upto_then; [apply upto_one|].
  apply upto_then; [now apply upto_text|]. apply upto_then; auto. apply upto_then; [apply upto_one|now apply upto_text]. Qed.
Lemma upto_list m size : forall l i, Forall (upto m) l -> upto m (print_list size i l).
Proof.
  intros l i H. revert i. induction H as [|p l Hp H IH]; intros i; cbn [print_list]; [apply upto_nil|].
  repeat apply upto_then; auto. destruct (i =? size - 1); [apply upto_nil|apply upto_one].
Qed.
Lemma upto_loop m op tabs size delims : tabs + 1 <= m -> forall l i, Forall (upto m) l -> upto m (print_loop memory op tabs size i delims l).
Proof.
  intros Ht l i H. revert i. induction H as [|p l Hp H IH]; intros i; cbn [print_loop]; [apply upto_nil|].
  apply upto_then; auto. apply upto_then; auto. destruct (i =? size - 1); [apply upto_nil|]. apply upto_then; [apply upto_one|].
  repeat match goal with |- upto _ (match ?x with _ => _ end) => destruct x; try exact I end.
  apply upto_then; [now apply upto_text|apply upto_one].
Qed.

Lemma children_upto (f : val -> nat -> pres) m tabs vs : (tabs + S (list_max (map height vs))) <= m ->
  Forall (fun x => forall t, upto (t + height x) (f x t)) vs -> Forall (upto m) (map (fun x => f x (tabs + 1)) vs).
Proof.
  intros Hm H. revert Hm. induction H as [|x vs Hx H IH]; cbn [map]; [constructor|].
  cbn [list_max fold_right]. fold (list_max (map height vs)). intros Hm. constructor; [|apply IH; lia].
  eapply upto_weaken; [|apply Hx]. lia.
Qed.

Lemma tree_upto k v : tree memory k v -> forall tabs, upto (tabs + height v) (print memory k v tabs).
Proof.
  revert k v. apply (tree_ind' memory (fun k v => forall tabs, upto (tabs + height v) (print memory k v tabs))).
  - intros ds fs es v _ (si & d & e & -> & _) tabs. cbn [print height]. rewrite Nat.add_0_r.
    assert (Hw : forall o, as_view (option_map VSpan o) = Some o) by now intros [].
    rewrite !Hw. apply upto_then; [now apply upto_text|]. apply upto_out. intros n. destruct d, e; cbn; intuition discriminate.
  - intros v Ht IH tabs. cbn [print]. replace (height (VUser 2 [v])) with (S (height v)) by now inversion Ht.
    apply upto_auto; [lia|]. eapply upto_weaken; [|apply IH]. lia.
  - intros v Ht IH tabs. cbn [print]. replace (height (VUser 3 [v])) with (S (height v)) by now inversion Ht.
    apply upto_auto; [lia|]. eapply upto_weaken; [|apply IH]. lia.
  - intros v _ IH tabs. cbn [print height]. apply upto_auto; [lia|]. eapply upto_weaken; [|apply IH]. lia.
  - intros v _ IH tabs. cbn [print height]. apply upto_auto; [lia|]. eapply upto_weaken; [|apply IH]. lia.
  - intros v _ IH tabs. cbn [print height]. apply upto_auto; [lia|]. eapply upto_weaken; [|apply IH]. lia.
  - intros vs Hn IH tabs. cbn [print height]. apply upto_auto; [lia|]. apply upto_list.
    now apply (children_upto (print memory KPowterm)).
  - intros vs ds Hl IH Hd tabs. cbn [print height]. apply upto_auto; [lia|]. apply upto_loop; [lia|].
    now apply (children_upto (print memory KFactor)).
  - intros vs ds Hl IH Hd tabs. cbn [print height]. apply upto_auto; [lia|]. apply upto_loop; [lia|].
    now apply (children_upto (print memory KTerm)).
Qed.

Definition base (k : kind) : nat := match k with KPowterm => 1 | KFactor => 2 | KTerm => 3 | _ => 4 end.
Lemma reads_height :
  (forall k v a, reads memory k v a -> height v = base k + 5 * nesting a) /\
  (forall k a vs ds r, reads_more memory k a vs ds r ->
     max (base (operand k) + 5 * nesting a) (list_max (map height vs)) = base (operand k) + 5 * nesting r).
Proof.
  apply reads_mut.
  - intros ds fs es v Hl (i & d & e & -> & _). reflexivity.
  - intros v a Hr IH. cbn [nesting base] in *. replace (height (VUser 4 [VVar 0 (VUser 2 [v])])) with (S (S (height v))); [lia|].
    inversion Hr; subst; try discriminate; reflexivity.
  - intros v a Hr IH. cbn [nesting base] in *. replace (height (VUser 4 [VVar 1 (VUser 3 [v])])) with (S (S (height v))); [lia|].
    inversion Hr; subst; try discriminate; reflexivity.
  - intros v a _ IH. cbn [height map list_max fold_right base] in *. lia.
  - intros v a vs b _ IHa Hb IHb. cbn [height nesting map list_max fold_right base] in *. fold (list_max (map height vs)) in *. lia.
  - intros k v a vs ds r Hk _ IHa _ IHm. cbn [height map list_max fold_right]. fold (list_max (map height vs)). rewrite IHa.
    destruct Hk as [->| ->]; cbn [base operand] in *; lia.
  - intros k a. cbn. lia.
  - intros k a v b s c vs ds r Hk _ IHb Hs Hc _ IHm. cbn [map list_max fold_right nesting] in *. fold (list_max (map height vs)) in *. lia.
Qed.

Lemma reads_tree :
  (forall k v a, reads memory k v a -> tree memory k v) /\
  (forall k a vs ds r, reads_more memory k a vs ds r -> Forall (tree memory (operand k)) vs /\ Forall (delim_object memory (ops k)) ds /\ List.length vs = List.length ds).
Proof.
  apply reads_mut.
  - intros. eapply tree_powterm_number, tree_number; eauto.
  - intros. now apply tree_powterm_bracketed, tree_bracketed.
  - intros. now apply tree_powterm_negated, tree_negated.
  - intros. apply tree_factor; [discriminate|]. auto.
  - intros v a vs b _ Ha _ Hb. inversion Hb; subst. apply tree_factor; [discriminate|]. auto.
  - intros k v a vs ds r Hk _ Ha _ (Hvs & Hds & Hl). destruct Hk as [->| ->]; [apply tree_term|apply tree_expr]; cbn; auto.
  - auto.
  - intros k a v b s c vs ds r Hk _ IHb Hs Hc _ (Hvs & Hds & Hl). split; [auto|]. split; [|cbn; now f_equal].
    constructor; auto. exists s, c. auto.
Qed.

(** What printing the value of an expression ends with. *)
Lemma print_reads v a : reads memory KExpr v a ->
  if nesting a <=? 204 then exists l ps, shown KExpr 0 a l /\ print memory KExpr v 0 = POut ps /\ written memory ps = outline_text l
  else print memory KExpr v 0 = PTabs.
Proof.
  intros Hr. pose proof (proj1 reads_tree _ _ _ Hr) as Ht. pose proof (proj1 reads_height _ _ _ Hr) as Hh. cbn [base] in Hh.
  pose proof (C42_print_partial memory KExpr v Ht 0) as Hp. pose proof (tree_upto KExpr v Ht 0) as Hu. cbn [Nat.add] in *.
  destruct (proj1 (proj1 (reads_printed memory) _ _ _ Hr) 0) as (l & Hs & Hl).
  destruct (Nat.leb_spec (nesting a) 204) as [Hle|Hgt].
  - destruct (print memory KExpr v 0) as [ps| | | | |]; try easy; [|lia]. exists l, ps. split; auto. split; auto.
    unfold outline_text. rewrite (Hl ps); auto. intros n Hn. specialize (Hu n Hn). lia.
  - destruct (print memory KExpr v 0) as [ps| | | | |]; try easy. lia.
Qed.
End Height.

(** ** The text without blanks *)
Lemma squeeze_app t u : squeeze (t ++ u) = squeeze t ++ squeeze u.
Proof. unfold squeeze. now rewrite filter_app, map_app. Qed.
Lemma squeeze_blank w : blank w -> squeeze w = [].
Proof. induction 1 as [|c w [->|[->|[->| ->]]] Hw IH]; auto. Qed.
Lemma squeeze_digits ds : Forall is_dg ds -> squeeze ds = ds.
Proof.
  induction 1 as [|c l Hc Hl IH]; auto. unfold squeeze in *. cbn [filter]. unfold is_dg in Hc.
  replace (is_blank_b c) with false.
  - cbn [negb map]. rewrite IH. now replace (c =? 69) with false by (symmetry; apply Nat.eqb_neq; lia).
  - unfold is_blank_b. cbn. repeat match goal with |- context [c =? ?n] => destruct (Nat.eqb_spec c n); [lia|] end. reflexivity.
Qed.
Lemma squeeze_op c t : In c [43; 45; 42; 47; 94; 40; 41; 46] -> squeeze (c :: t) = c :: squeeze t.
Proof. intros H. cbn in H. repeat destruct H as [<-|H]; try contradiction; reflexivity. Qed.
Lemma squeeze_literal ds fs es : literal ds fs es -> squeeze (literal_text ds fs es) = literal_text ds fs (small es).
Proof.
  intros ((_ & Hd) & Hf & He). unfold literal_text. rewrite !squeeze_app, squeeze_digits by auto. f_equal. f_equal.
  - destruct fs as [f|]; auto. cbn [fraction_text]. rewrite squeeze_op by (cbn; tauto). destruct Hf. now rewrite squeeze_digits.
  - destruct es as [[[e neg] xs]|]; auto. destruct He as [He (_ & Hx)]. cbn [exponent_text small option_map fst snd].
    change (e :: (if neg then [45] else []) ++ xs) with ([e] ++ (if neg then [45] else []) ++ xs). rewrite !squeeze_app, (squeeze_digits xs) by auto.
    destruct He as [-> | ->], neg; reflexivity.
Qed.
Lemma small_literal ds fs es : literal ds fs es -> literal ds fs (small es).
Proof. intros (Hd & Hf & He). repeat split; try apply Hd; auto; destruct es as [[[e n] x]|]; cbn; tauto. Qed.
Lemma small_drop (es : option (nat * bool * list nat)) :
  option_map (fun x => (snd (fst x), snd x)) (small es) = option_map (fun x => (snd (fst x), snd x)) es.
Proof. now destruct es as [[[e n] x]|]. Qed.

(** The expression written without blanks. *)
Fixpoint plain_text (a : ast) : list nat :=
  match a with
  | ANum ds fs es => literal_text ds fs (option_map (fun x => (101, fst x, snd x)) es)
  | ANeg a => 45 :: plain_text a
  | ABracket a => 40 :: plain_text a ++ [41]
  | ABin c a b => plain_text a ++ c :: plain_text b
  end.

Lemma ops_squeeze k c t : In c (ops k) -> squeeze (c :: t) = c :: squeeze t.
Proof. intros H. apply squeeze_op. apply ops_all in H. cbn in *. tauto. Qed.

Lemma spells_squeeze :
  (forall o k a t, spells o k a t -> spells o k a (squeeze t) /\ squeeze t = plain_text a) /\
  (forall p o k a r u, tail p o k a r u -> tail p o k a r (squeeze u) /\ plain_text r = plain_text a ++ squeeze u).
Proof.
  apply spells_mut.
  - intros ds fs es Hl. rewrite squeeze_literal by auto. rewrite <- small_drop. split; [now apply sp_number, small_literal|].
    cbn. f_equal. now destruct es as [[[e n] x]|].
  - intros o a w t w' Hw Hs (IH & E) Hw'. rewrite squeeze_op by (cbn; tauto). rewrite !squeeze_app, ?(squeeze_blank w), ?(squeeze_blank w') by auto. cbn [app].
    change (squeeze [41]) with [41]. split; [apply (sp_bracketed o a [] (squeeze t) []); auto; constructor|]. cbn. now rewrite E.
  - intros o a w t Hw Hs (IH & E). rewrite squeeze_op by (cbn; tauto). rewrite !squeeze_app, ?(squeeze_blank w), ?(squeeze_blank w') by auto. cbn [app].
    split; [apply (sp_negated o a [] (squeeze t)); auto; constructor|]. cbn. now rewrite E.
  - intros o a t _ (IH & E). split; auto. now apply sp_power_one.
  - intros o a b t w w' u _ (IHa & Ea) Hw Hw' _ (IHb & Eb). rewrite !squeeze_app, (squeeze_blank w) by auto. rewrite squeeze_op by (cbn; tauto).
    rewrite squeeze_app, (squeeze_blank w') by auto. cbn [app]. split; [apply (sp_power o a b (squeeze t) [] [] (squeeze u)); auto; constructor|].
    cbn. now rewrite Ea, Eb.
  - intros k p o a r t u Hk _ (IHa & Ea) _ (IHt & Et). rewrite squeeze_app. split; [eapply sp_left; eauto|]. now rewrite Ea, Et.
  - intros p k a. split; [constructor|]. cbn. now rewrite app_nil_r.
  - intros p o k a b r w c w' t u Hw Hc Hw' _ (IHb & Eb) _ (IHt & Et). rewrite squeeze_app, (squeeze_blank w) by auto. rewrite app_nil_l, (ops_squeeze k) by auto.
    rewrite !squeeze_app, (squeeze_blank w') by auto. cbn [app].
    split; [apply (tl_cons p o k a b r [] c [] (squeeze t) (squeeze u)); auto; constructor|].
    rewrite Et. cbn [plain_text]. rewrite Eb. now rewrite <- app_assoc.
Qed.

Lemma input_squeeze a t : spells_input a t -> spells_input a (squeeze t) /\ squeeze t = plain_text a.
Proof.
  intros [o a' w u w' Hw Hs Hw']. destruct (proj1 spells_squeeze _ _ _ _ Hs) as [H E]. rewrite !squeeze_app, ?(squeeze_blank w), ?(squeeze_blank w') by auto.
  cbn [app]. rewrite app_nil_r. split; auto. rewrite <- (app_nil_r (squeeze u)). apply (sp_whole o a' [] (squeeze u) []); auto; constructor.
Qed.

(** Texts that differ in blanks and exponent letters only spell the same expression, and
    only those. *)
Lemma same_expression a b t u : spells_input a t -> spells_input b u -> (a = b <-> squeeze t = squeeze u).
Proof.
  intros Ha Hb. apply input_squeeze in Ha as [Ha Ea], Hb as [Hb Eb]. split; [intros ->; congruence|].
  intros E. rewrite E in Ha. eapply C48_unambiguous; eauto.
Qed.

(** ** The outline determines the expression *)
Definition plain (t : list nat) : Prop := Forall (fun c => c <> 9 /\ c <> 10 /\ c <> 44) t.
Definition plain_item (it : item) : Prop := match it with Line _ t => plain t | Comma => True end.
Definition ends (r : list nat) : Prop := match r with [] => True | c :: _ => c = 10 \/ c = 44 end.

Lemma plain_split t : forall u r s, plain t -> plain u -> ends r -> ends s -> t ++ r = u ++ s -> t = u /\ r = s.
Proof.
  induction t as [|c t IH]; intros [|d u] r s Ht Hu Hr Hs H; cbn in H; auto.
  - subst r. inversion Hu; subst. cbn in Hr. lia.
  - subst s. inversion Ht; subst. cbn in Hs. lia.
  - injection H as -> H. inversion Ht; inversion Hu; subst. destruct (IH u r s) as [-> ->]; auto.
Qed.
Lemma tabs_split d : forall e t u r s, plain t -> plain u -> ends r -> ends s ->
  repeat 9 d ++ t ++ r = repeat 9 e ++ u ++ s -> d = e /\ t ++ r = u ++ s.
Proof.
  assert (N : forall x t r, plain t -> ends r -> 9 :: x <> t ++ r).
  { intros x [|c t] r Ht Hr H; cbn in H; [subst r; cbn in Hr; lia|]. injection H as <- _. inversion Ht; subst. tauto. }
  induction d as [|d IH]; intros [|e] t u r s Ht Hu Hr Hs H; cbn in H; auto.
  - symmetry in H. now apply N in H.
  - now apply N in H.
  - injection H as H. destruct (IH e t u r s) as [-> E]; auto.
Qed.
Lemma items_end l : ends (flat_map item_text l).
Proof. destruct l as [|[] l]; cbn; auto. Qed.

Lemma items_inj l : forall l', Forall plain_item l -> Forall plain_item l' -> flat_map item_text l = flat_map item_text l' -> l = l'.
Proof.
  induction l as [|[d t|] l IH]; intros [|[e u|] l'] Hl Hl' H; cbn in H; try discriminate; auto.
  - injection H as H. repeat rewrite <- app_assoc in H. inversion Hl as [|? ? P1 P2]; inversion Hl' as [|? ? P3 P4]; subst. cbn [plain_item] in *.
    apply tabs_split in H as [-> H]; auto using items_end. apply plain_split in H as [-> H]; auto using items_end. f_equal. auto.
  - injection H as H. inversion Hl; inversion Hl'; subst. f_equal. auto.
Qed.

Lemma plain_app t u : plain t -> plain u -> plain (t ++ u).
Proof. intros. now apply Forall_app. Qed.
Ltac plainly := unfold plain; repeat constructor; discriminate.
Lemma plain_digits ds : Forall is_dg ds -> plain ds.
Proof. intros H. eapply Forall_impl; [|exact H]. unfold is_dg. cbn. lia. Qed.
Lemma plain_literal ds fs es : literal ds fs es -> plain (literal_text ds fs es).
Proof.
  intros ((_ & Hd) & Hf & He). unfold literal_text. apply plain_app; [now apply plain_digits|]. apply plain_app.
  - destruct fs as [f|]; [|constructor]. destruct Hf. constructor; [lia|now apply plain_digits].
  - destruct es as [[[e neg] xs]|]; [|constructor]. destruct He as [He (_ & Hx)]. constructor; [lia|].
    apply plain_app; [|now apply plain_digits]. destruct neg; [|constructor]. constructor; [lia|constructor].
Qed.
Lemma plain_block d name l : plain (codes name) -> Forall plain_item l -> Forall plain_item (block d name l).
Proof.
  intros Hn Hl. unfold block. constructor; [apply plain_app; [auto|plainly]|]. constructor; [plainly|]. apply Forall_app. split; auto.
  constructor; [plainly|constructor].
Qed.
Lemma plain_operator c : plain (codes (operator_name c)).
Proof.
  unfold operator_name. repeat match goal with |- context [match ?x with _ => _ end] => is_var x; destruct x; try plainly end.
Qed.

Lemma shown_plain :
  (forall k d a l, shown k d a l -> Forall plain_item l) /\ (forall d a l, powers d a l -> Forall plain_item l) /\
  (forall k d a r l, more k d a r l -> Forall plain_item l).
Proof.
  apply shown_mut; intros; auto.
  - apply plain_block; [plainly|]. constructor; [|constructor]. cbn [plain_item]. apply plain_app; [plainly|]. now apply plain_literal, small_literal.
  - apply plain_block; [plainly|]. apply plain_block; [plainly|]. auto.
  - apply plain_block; [plainly|]. apply plain_block; [plainly|]. auto.
  - apply plain_block; [plainly|]. auto.
  - apply plain_block; [destruct k; plainly|]. now apply Forall_app.
  - apply Forall_app. split; auto. constructor; [exact I|auto].
  - constructor; [exact I|]. constructor; [apply plain_operator|]. now apply Forall_app.
Qed.

Definition no_comma (r : list item) : Prop := match r with Comma :: _ => False | _ => True end.

Lemma block_split d name l r l' r' : block d name l ++ r = block d name l' ++ r' -> l ++ Line d (codes "}") :: r = l' ++ Line d (codes "}") :: r'.
Proof. unfold block. cbn [app]. intros H. injection H as H. now repeat rewrite <- app_assoc in H. Qed.
Lemma operators_inj k c c' : In c (ops k) -> In c' (ops k) -> codes (operator_name c) = codes (operator_name c') -> c = c'.
Proof.
  intros H H'. destruct k; cbn in H, H'; try contradiction;
    repeat match goal with H : _ \/ _ |- _ => destruct H | H : False |- _ => contradiction end; subst; auto; discriminate.
Qed.

Lemma drop_small ds fs es ds' fs' es' : literal ds fs es -> literal ds' fs' es' -> literal_text ds fs (small es) = literal_text ds' fs' (small es') ->
  ANum ds fs (option_map (fun x => (snd (fst x), snd x)) es) = ANum ds' fs' (option_map (fun x => (snd (fst x), snd x)) es').
Proof.
  intros H H' E. apply literal_inj in E as (-> & -> & E); auto using small_literal. rewrite <- (small_drop es), <- (small_drop es'). now rewrite E.
Qed.

Ltac no_kind := match goal with H : ?k = KTerm \/ ?k = KExpr |- _ => destruct H; discriminate end.
Lemma shown_inj :
  (forall k d a l, shown k d a l -> forall a' l' r r', shown k d a' l' -> l ++ r = l' ++ r' -> a = a' /\ r = r') /\
  (forall d a l, powers d a l -> forall a' l' r r', powers d a' l' -> no_comma r -> no_comma r' -> l ++ r = l' ++ r' -> a = a' /\ r = r') /\
  (forall k d a b l, more k d a b l -> forall b' l' r r', more k d a b' l' -> no_comma r -> no_comma r' -> l ++ r = l' ++ r' -> b = b' /\ r = r').
Proof.
  apply shown_mut.
  - intros d ds fs es Hl a' l' r r' H E. inversion H; subst.
    + apply block_split in E. injection E as E ->. split; auto. eapply drop_small; eauto.
    + apply block_split in E. discriminate.
    + apply block_split in E. discriminate.
    + no_kind.
  - intros d a l _ IH a' l' r r' H E. inversion H; subst; try (apply block_split in E).
    + discriminate.
    + apply block_split in E. eapply IH in E as [-> E]; [|eassumption]. injection E as ->. auto.
    + discriminate.
    + no_kind.
  - intros d a l _ IH a' l' r r' H E. inversion H; subst; try (apply block_split in E).
    + discriminate.
    + discriminate.
    + apply block_split in E. eapply IH in E as [-> E]; [|eassumption]. injection E as ->. auto.
    + no_kind.
  - intros d a l _ IH a' l' r r' H E. inversion H; subst; [|no_kind]. apply block_split in E.
    eapply IH in E as [-> E]; [injection E as ->; auto|eassumption|exact I|exact I].
  - intros k d a b l l' Hk _ IHa _ IHm a' l0 r r' H E. inversion H as [| | | |k' d' a0 b' l1 l1' Hk' Ha Hm]; subst; try no_kind.
    apply block_split in E. repeat rewrite <- app_assoc in E. apply (IHa _ _ _ _ Ha) in E as [<- E].
    apply (IHm _ _ (Line _ _ :: _) (Line _ _ :: _) Hm I I) in E as [-> E]. injection E as ->. auto.
  - intros d a l _ IH a' l' r r' H Hr Hr' E. inversion H as [d' a0 l0 Ha|d' a0 b0 l0 l0' Ha Hb]; subst.
    + eapply IH; eauto.
    + repeat rewrite <- app_assoc in E. apply (IH _ _ _ _ Ha) in E as [_ E]. subst r. contradiction.
  - intros d a b l l' _ IHa _ IHb a' l0 r r' H Hr Hr' E. repeat rewrite <- app_assoc in E. inversion H as [d' a0 l1 Ha|d' a0 b0 l1 l1' Ha Hb]; subst.
    + apply (IHa _ _ _ _ Ha) in E as [_ E]. subst r'. contradiction.
    + repeat rewrite <- app_assoc in E. apply (IHa _ _ _ _ Ha) in E as [-> E]. injection E as E.
      apply (IHb _ _ _ _ Hb Hr Hr') in E as [-> ->]. auto.
  - intros k d a b' l' r r' H Hr Hr' E. inversion H; subst; auto. cbn in E. subst r. contradiction.
  - intros k d a b c b0 l l' Hc _ IHb _ IHm b' l0 r r' H Hr Hr' E. inversion H as [|k' d' a0 b1 c' b2 l1 l1' Hc' Hb Hm]; subst.
    + cbn in E. subst r'. contradiction.
    + cbn [app] in E. injection E as E1 E. apply (operators_inj k) in E1 as <-; auto. repeat rewrite <- app_assoc in E.
      destruct (IHb _ _ _ _ Hb E) as [E2 E3]. subst b1. exact (IHm _ _ _ _ Hm Hr Hr' E3).
Qed.

Lemma outline_inj a b l l' : shown KExpr 0 a l -> shown KExpr 0 b l' -> outline_text l = outline_text l' -> a = b.
Proof.
  intros Ha Hb E. assert (flat_map item_text l = flat_map item_text l').
  { unfold outline_text in E. assert (X : forall a l, shown KExpr 0 a l -> exists t, flat_map item_text l = 10 :: t) by (intros ? ? H; inversion H; subst; cbn; eauto).
    destruct (X _ _ Ha) as [t Ht], (X _ _ Hb) as [u Hu]. rewrite Ht, Hu in *. cbn in E. congruence. }
  apply items_inj in H as ->; try (eapply (proj1 shown_plain); eauto; fail).
  apply (proj1 shown_inj _ _ _ _ Ha b l' [] [] Hb eq_refl).
Qed.

(** ** The relation and the function *)
Definition below (k : kind) : list nat := match k with KFactor => [94] | KTerm => [94; 42; 47] | KExpr => [94; 42; 47; 43; 45] | _ => [] end.
Definition level (k : kind) (a : ast) : Prop := match a with ABin c _ _ => In c (below k) | _ => True end.
Definition level_name (k : kind) : string :=
  match k with KPowterm => "Powterm" | KFactor => "Factor" | KTerm => "Term" | _ => "Expr" end.

Lemma more_level k d a r l : k = KTerm \/ k = KExpr -> more k d a r l -> level k a -> level k r.
Proof.
  intros Hk H. induction H as [|k d a b c r l l' Hc _ _ IH]; auto. intros _. apply IH; auto. destruct Hk as [->| ->]; cbn in *; tauto.
Qed.
Lemma level_up k a : chained k -> level (operand k) a -> level k a.
Proof. unfold level. destruct a; auto. intros [->|[->| ->]]; cbn; tauto. Qed.

(** A level without an operator of its own. *)
Lemma inside_up k a d : chained k -> level (operand k) a -> inside a k d = block d (level_name (operand k)) (inside a (operand k) (d + 1)).
Proof.
  unfold level. intros Hk Hl.
  assert (Hc : match a with ABin c _ _ => In c (below (operand k)) /\ In c [94; 42; 47] | _ => True end).
  { destruct a; auto. split; auto. destruct Hk as [->|[->| ->]]; cbn in *; tauto. }
  clear Hl. destruct a as [ds fs es|a|a|c a b]; [destruct Hk as [->|[->| ->]]; reflexivity..|]. destruct Hc as [Hl Hc].
  repeat (destruct Hc as [<-|Hc]; [destruct Hk as [->|[->| ->]]; cbn [operand below In] in Hl; try reflexivity; exfalso; lia|]). contradiction.
Qed.

Lemma inside_left k a b c d : k = KTerm \/ k = KExpr -> In c (ops k) ->
  inside (ABin c a b) k d = inside a k d ++ Comma :: Line d (codes (operator_name c)) :: block d (level_name (operand k)) (inside b (operand k) (d + 1)).
Proof. intros [->| ->] [<-|[<-|[]]]; reflexivity. Qed.

Lemma shown_inside :
  (forall k d a l, shown k d a l -> l = block d (level_name k) (inside a k (d + 1)) /\ level k a) /\
  (forall d a l, powers d a l -> l = inside a KFactor d /\ level KFactor a) /\
  (forall k d a r l, more k d a r l -> k = KTerm \/ k = KExpr -> inside r k d = inside a k d ++ l).
Proof.
  apply shown_mut.
  - intros d ds fs es Hl. split; [|exact I]. cbn [inside level_name]. unfold small. now destruct es as [[[e n] x]|].
  - intros d a l _ [-> _]. split; [|exact I]. cbn [inside level_name]. now replace (d + 2) with (d + 1 + 1) by lia; replace (d + 1 + 2) with (d + 1 + 1 + 1) by lia.
  - intros d a l _ [-> _]. split; [|exact I]. cbn [inside level_name]. now replace (d + 2) with (d + 1 + 1) by lia; replace (d + 1 + 2) with (d + 1 + 1 + 1) by lia.
  - intros d a l _ [-> Hl]. split; auto.
  - intros k d a r l l' Hk _ [-> Hl] Hm IHm. assert (Hc : chained k) by (destruct Hk; subst; unfold chained; auto).
    apply level_up in Hl as Hl'; auto. split; [|eapply more_level; eauto]. rewrite (IHm Hk), (inside_up k) by auto.
    destruct Hk as [->| ->]; reflexivity.
  - intros d a l _ [-> Hl]. assert (Hc : chained KFactor) by now left. split; [now rewrite (inside_up KFactor)|]. now apply (level_up KFactor).
  - intros d a b l l' _ [-> _] _ [-> _]. split; [reflexivity|now left].
  - intros. now rewrite app_nil_r.
  - intros k d a b c r l l' Hc _ [-> _] _ IH Hk. rewrite (IH Hk), inside_left by auto. rewrite <- app_assoc. reflexivity.
Qed.

Lemma shown_outline a l : shown KExpr 0 a l -> l = outline a.
Proof. intros H. now apply (proj1 shown_inside) in H. Qed.

(** ** C56 *)

(** The printer writes the outline of the expression that the text spells, unless brackets
    and negations nest deeper than 204: then it reads past the end of its tab buffer. *)
Theorem C56_prints_outline memory i v rem tr : valid (alg_env memory) i ->
  evals (alg_env memory) Parse alg_input i (Done (Res (Some v) rem) tr) ->
  exists x a, v = RVal x /\ spells_input a (elems (alg_env memory) i) /\
    (nesting a <= 204 -> exists ps, print memory KExpr x 0 = POut ps /\ written memory ps = outline_text (outline a)) /\
    (204 < nesting a -> print memory KExpr x 0 = PTabs).
Proof.
  intros Hv H. pose proof (input_bnf memory _ _ _ _ Hv H) as Hb. apply bnf_meaning in Hb as [a Ha].
  inversion Ha as [o a' w t w' Hw Hs Hw' Ea Heq]; subst a'.
  destruct (input_big memory i o a w t w' Hs Hw Hw' (conj Hv (eq_sym Heq))) as (x & tr' & Hb & Hr).
  apply evals_big in H; auto. destruct (big_det _ _ _ _ _ _ _ _ Hv H Hb) as [E _]. injection E as E _. subst v.
  exists x, a. split; auto. split; [rewrite Heq; exact Ha|]. pose proof (print_reads memory x a Hr) as Hp.
  destruct (Nat.leb_spec (nesting a) 204) as [Hn|Hn]; split; intros; try lia; auto. destruct Hp as (l & ps & Hl & Ho & Hw0).
  apply shown_outline in Hl as ->. eauto.
Qed.

(** Different expressions have different outlines.  (Those that a text spells: the digits
    of a number are digits.) *)
Theorem C56_outline_determines_expression a b t u : spells_input a t -> spells_input b u ->
  outline_text (outline a) = outline_text (outline b) -> a = b.
Proof.
  assert (S : forall a t, spells_input a t -> shown KExpr 0 a (outline a)).
  { clear. intros a t H. set (memory := fun _ : nat => t). set (i := Span 0 0 (List.length t)).
    assert (Hat : at_ memory i t).
    { split; [unfold valid, i, memory; cbn; lia|]. unfold elems, i, memory. cbn. apply firstn_all. }
    inversion H as [o a' w u w' Hw Hs Hw' Ea Heq]; subst a'. rewrite <- Heq in Hat.
    destruct (input_big memory i o a w u w' Hs Hw Hw' Hat) as (v & tr & B & R).
    destruct (proj1 (proj1 (reads_printed memory) _ _ _ R) 0) as (l & Hl & _). now rewrite <- (shown_outline a l). }
  intros Ha Hb. eapply outline_inj; eauto.
Qed.

(** Two inputs give the same output exactly when they differ in blanks and in the case of
    exponent letters only. *)
Theorem C56_output_determines_input memory memory' i i' v v' rem rem' tr tr' ps ps' :
  valid (alg_env memory) i -> valid (alg_env memory') i' ->
  evals (alg_env memory) Parse alg_input i (Done (Res (Some (RVal v)) rem) tr) ->
  evals (alg_env memory') Parse alg_input i' (Done (Res (Some (RVal v')) rem') tr') ->
  print memory KExpr v 0 = POut ps -> print memory' KExpr v' 0 = POut ps' ->
  (written memory ps = written memory' ps' <-> squeeze (elems (alg_env memory) i) = squeeze (elems (alg_env memory') i')).
Proof.
  intros Hv Hv' H H' Hp Hp'.
  destruct (C56_prints_outline _ _ _ _ _ Hv H) as (x & a & [= <-] & Ha & O1 & O2).
  destruct (C56_prints_outline _ _ _ _ _ Hv' H') as (x' & a' & [= <-] & Ha' & O1' & O2').
  destruct (le_lt_dec (nesting a) 204) as [Hn|Hn]; [|rewrite O2 in Hp by auto; discriminate].
  destruct (le_lt_dec (nesting a') 204) as [Hn'|Hn']; [|rewrite O2' in Hp' by auto; discriminate].
  destruct (O1 Hn) as (qs & Hq & Hl), (O1' Hn') as (qs' & Hq' & Hl'). rewrite Hp in Hq. rewrite Hp' in Hq'. injection Hq as <-. injection Hq' as <-.
  rewrite Hl, Hl', <- (same_expression a a') by auto. split; [|now intros ->]. eapply C56_outline_determines_expression; eauto.
Qed.

(** *** Cases *)
Definition prints_as (s : string) : option (list nat) :=
  let t := codes s in
  match run (alg_env (fun _ => t)) 100 Parse alg_input (Span 0 0 (List.length t)) with
  | Done (Res (Some (RVal v)) _) _ => match print (fun _ => t) KExpr v 0 with POut ps => Some (written (fun _ => t) ps) | _ => None end
  | _ => None
  end.
Definition two_lines : string := "2^3 - 1.5E-7".
(** The outline, line by line. *)
Definition lines_of (l : list (nat * string)) : list nat := tl (flat_map (fun x => 10 :: repeat 9 (fst x) ++ codes (snd x)) l).
Example C56_case :
  valid (alg_env (fun _ => codes two_lines)) (Span 0 0 12) /\
  prints_as two_lines = Some (lines_of [
    (0, "Expr :"); (0, "{");
      (1, "Term :"); (1, "{");
        (2, "Factor :"); (2, "{");
          (3, "Powterm :"); (3, "{"); (4, "Number : 2"); (3, "},");
          (3, "Powterm :"); (3, "{"); (4, "Number : 3"); (3, "}");
        (2, "}");
      (1, "},");
      (1, "<minus>");
      (1, "Term :"); (1, "{");
        (2, "Factor :"); (2, "{");
          (3, "Powterm :"); (3, "{"); (4, "Number : 1.5e-7"); (3, "}");
        (2, "}");
      (1, "}");
    (0, "}")])%string /\
  prints_as " 2 ^3-1.5e-7" = prints_as two_lines /\ prints_as "(2)^3-1.5e-7" <> prints_as two_lines /\ prints_as "-(1)" <> None.
Proof. split; [vm_compute; lia|]. vm_compute. repeat split; discriminate. Qed.

Print Assumptions C56_prints_outline.
Print Assumptions C56_outline_determines_expression.
Print Assumptions C56_output_determines_input.
