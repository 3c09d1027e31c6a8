(** * C50, C51: JSON texts are recognised by the example's grammar, and spell one document *)
From Coq Require Import String List Arith ZArith Bool Lia.
From Verif Require Import Types Compound Parser Outcome CompoundFacts Exec Mono Derive Typing Join Leaves Sound
  BigStep BigSound BigComplete Peg Elems Runs Samples PropCore PropPeg Lossless Agree Check PropAgree Grammar CharPeg Names PropNames Term PropTerm
  StaticArray Operators PropSets Modifiers ExAlgebraic PropAlgebraic ExJson PropJson JsonGrammar.
Import ListNotations.

Definition head_is (P : nat -> Prop) (l : list nat) : Prop := match l with c :: _ => P c | [] => False end.
Definition head_not (P : nat -> Prop) (l : list nat) : Prop := match l with c :: _ => ~ P c | [] => True end.
Lemma head_not_impl (P Q : nat -> Prop) l : (forall c, P c -> Q c) -> head_not Q l -> head_not P l.
Proof. destruct l; cbn; auto. Qed.

(** What may follow an element inside a document. *)
Definition stops : list nat -> Prop := fun r => match r with c :: _ => c = 44 \/ c = 93 \/ c = 125 | [] => True end.

(** ** Everything the grammar has is recognised *)
Section JsonPeg.
Context (memory : nat -> list nat) (cons : ty -> list val -> fnres).
Notation J := (json_env memory cons).
Definition char := peg_char J (fun _ _ => eq_refl).
Definition anyc := peg_any J (fun _ _ => eq_refl).

Lemma whiteb c : existsb (fun t => t =? c) [9; 10; 13; 32] = true <-> white c.
Proof. clear memory cons.
  unfold white. cbn [existsb]. rewrite !orb_true_iff, !Nat.eqb_eq. intuition; try discriminate; subst; auto.
Qed.

Fixpoint white_len (l : list nat) : nat := match l with c :: l' => if existsb (fun t => t =? c) [9; 10; 13; 32] then S (white_len l') else 0 | [] => 0 end.
Lemma white_len_app w r : Forall white w -> white_len (w ++ r) = List.length w + white_len r.
Proof. clear memory cons. induction 1 as [|c w Hc HF IH]; auto. apply whiteb in Hc. cbn [app white_len]. rewrite Hc, IH. reflexivity. Qed.
Lemma white_len_stop r : head_not white r -> white_len r = 0.
Proof. clear memory cons. destruct r as [|c r]; auto. intros H. cbn [white_len]. destruct (existsb _ _) eqn:Hc; auto. apply whiteb in Hc. contradiction. Qed.

Lemma peg_white l : peg J whitespace l (Some (white_len l)).
Proof.
  apply G_ignore, G_zom. induction l as [|c l IH].
  - apply G_star_end. apply (anyc [9; 10; 13; 32] []).
  - pose proof (anyc [9; 10; 13; 32] (c :: l)) as H. cbn beta iota in H. cbn [white_len]. destruct (existsb _ _) eqn:Hc.
    + change (S (white_len l)) with (1 + white_len l). eapply G_star_next; [exact H|]. exact IH.
    + now apply G_star_end.
Qed.
Lemma peg_white_exact w r : Forall white w -> head_not white r -> peg J whitespace (w ++ r) (Some (List.length w)).
Proof. intros Hw Hr. pose proof (peg_white (w ++ r)) as H. now rewrite white_len_app, white_len_stop, Nat.add_0_r in H. Qed.

Lemma peg_is c l : peg J (PIgnore (PAllOf [c])) (c :: l) (Some 1).
Proof. apply G_ignore. pose proof (char c (c :: l)) as H. cbn beta iota in H. now rewrite Nat.eqb_refl in H. Qed.
Lemma peg_isnt c l : head_not (eq c) l -> peg J (PAllOf [c]) l None.
Proof. intros Hn. pose proof (char c l) as H. destruct l as [|x l]; auto. cbn beta iota in H. apply Nat.eqb_neq in Hn. now rewrite Hn in H. Qed.
Lemma peg_in arr c l : In c arr -> peg J (PAnyOf arr) (c :: l) (Some 1).
Proof.
  intros Hin. pose proof (anyc arr (c :: l)) as H. cbn beta iota in H.
  assert (existsb (fun t => t =? c) arr = true) as Hx by (apply existsb_exists; exists c; split; auto; apply Nat.eqb_refl).
  now rewrite Hx in H.
Qed.
Lemma peg_notin arr l : head_not (fun c => In c arr) l -> peg J (PAnyOf arr) l None.
Proof.
  intros Hin. pose proof (anyc arr l) as H. destruct l as [|c l]; auto. cbn beta iota in H.
  destruct (existsb _ _) eqn:Hx; auto. apply existsb_exists in Hx as (t & Ht & He). apply Nat.eqb_eq in He. subst. contradiction.
Qed.

(** *** Strings *)
Definition string_body : parser nat := PMap (PJoin (PZeroOrMore valid_char)) (FConstruct t_string).
Lemma str_shape : str = PSequence (PIgnore (PAllOf [34])) [string_body; PIgnore (PAllOf [34])]. Proof. reflexivity. Qed.
Definition escapes : list nat := [34; 47; 92; 98; 102; 110; 114; 116].
Definition hexes : list nat := [48; 49; 50; 51; 52; 53; 54; 55; 56; 57; 65; 66; 67; 68; 69; 70; 97; 98; 99; 100; 101; 102].
Lemma valid_char_shape : valid_char = PChoice (PNoneOf [34; 92]) [PJoin (PSequence (PAllOf [92])
  [PChoice (PAnyOf escapes) [PJoin (PSequence (PAllOf [117]) [PExactly (PAnyOf hexes) 4])]])].
Proof. reflexivity. Qed.

Lemma hexes_b c : existsb (Nat.eqb c) hexes = dgb c || ((65 <=? c) && (c <=? 70)) || ((97 <=? c) && (c <=? 102)).
Proof. clear memory cons. do 103 (destruct c as [|c]; [reflexivity|]). reflexivity. Qed.
Lemma hexes_spec c : In c hexes <-> hex_digit c.
Proof. clear memory cons.
  assert (H : existsb (Nat.eqb c) hexes = true <-> In c hexes).
  { rewrite existsb_exists. split; [intros (x & Hx & He); apply Nat.eqb_eq in He; now subst|]. intros Hc. exists c. split; auto. apply Nat.eqb_refl. }
  rewrite <- H, hexes_b, !orb_true_iff, !andb_true_iff, dgb_spec, !Nat.leb_le. unfold hex_digit. tauto.
Qed.
Lemma escapes_spec c : In c escapes <-> In c [34; 92; 47; 98; 102; 110; 114; 116].
Proof. clear memory cons. unfold escapes. cbn. lia. Qed.

Lemma peg_unit u r : unit_ false u -> peg J valid_char (u ++ r) (Some (List.length u)).
Proof.
  intros H. rewrite valid_char_shape. apply G_choice. destruct H as [c H1 H2 _|c Hc|a b c d HF].
  - apply G_or_here. apply G_none_ok. intros t [<-|[<-|[]]]; apply Nat.eqb_neq; congruence.
  - apply G_or_next; [apply G_none_no; exists 92; split; [cbn; auto|reflexivity]|]. apply G_or_here, G_join, G_seq.
    refine (and_more J _ _ _ 1 1 _ _); [apply (char 92 (92 :: c :: r))|]. apply and_last, G_choice, G_or_here. apply peg_in. now apply escapes_spec.
  - inversion HF as [|? ? Ha HF1]; subst. inversion HF1 as [|? ? Hb HF2]; subst. inversion HF2 as [|? ? Hc HF3]; subst. inversion HF3 as [|? ? Hd _]; subst.
    apply hexes_spec in Ha, Hb, Hc, Hd.
    apply G_or_next; [apply G_none_no; exists 92; split; [cbn; auto|reflexivity]|]. apply G_or_here, G_join, G_seq.
    refine (and_more J _ _ _ 1 5 _ _); [apply (char 92 (92 :: 117 :: a :: b :: c :: d :: r))|]. apply and_last, G_choice.
    apply G_or_next; [apply peg_notin; cbn; lia|]. apply G_or_here, G_join, G_seq.
    refine (and_more J _ _ _ 1 4 _ _); [apply (char 117 (117 :: a :: b :: c :: d :: r))|]. apply and_last, G_exactly.
    cbn [repeat skipn app].
    refine (and_more J _ _ _ 1 3 (peg_in _ _ _ Ha) _). refine (and_more J _ _ _ 1 2 (peg_in _ _ _ Hb) _).
    refine (and_more J _ _ _ 1 1 (peg_in _ _ _ Hc) _). refine (and_last J _ _ 1 (peg_in _ _ _ Hd)).
Qed.
Lemma peg_unit_quote r : peg J valid_char (34 :: r) None.
Proof.
  rewrite valid_char_shape. apply G_choice. apply G_or_next; [apply G_none_no; exists 34; split; [cbn; auto|reflexivity]|].
  apply G_or_next; [|constructor]. apply G_join, G_seq, G_and_fail, peg_isnt. cbn. discriminate.
Qed.
Lemma peg_chars raw r : chars false raw -> peg_star J valid_char (raw ++ 34 :: r) (List.length raw).
Proof.
  induction 1 as [|u l Hu Hl IH].
  - apply G_star_end, peg_unit_quote.
  - rewrite <- app_assoc, app_length. eapply G_star_next; [now apply peg_unit|]. now rewrite skipn_exact.
Qed.
Lemma peg_body raw r : chars false raw -> peg J string_body (raw ++ 34 :: r) (Some (List.length raw)).
Proof. intros H. apply G_map, G_join, G_zom. now apply peg_chars. Qed.

Lemma string_len raw : List.length (string_text raw) = 1 + (List.length raw + 1).
Proof. clear memory cons. unfold string_text. cbn. rewrite app_length. cbn. lia. Qed.
Lemma string_app raw r : string_text raw ++ r = 34 :: raw ++ 34 :: r.
Proof. clear memory cons. unfold string_text. cbn. now rewrite <- app_assoc. Qed.

Lemma peg_str raw r : chars false raw -> peg J str (string_text raw ++ r) (Some (List.length (string_text raw))).
Proof.
  intros H. rewrite str_shape, string_len, string_app. apply G_seq.
  apply and_more; [apply peg_is|]. cbn [skipn]. apply and_more; [now apply peg_body|]. rewrite skipn_exact by auto. apply and_last, peg_is.
Qed.
Lemma peg_str_no l : head_not (eq 34) l -> peg J str l None.
Proof. intros H. rewrite str_shape. apply G_seq, G_and_fail, G_ignore, peg_isnt; auto. Qed.

(** *** Numbers *)
Definition number_char (c : nat) : Prop := is_dg c \/ c = 45 \/ c = 43 \/ c = 46 \/ c = 69 \/ c = 101.
Lemma number_chars l : is_number l -> Forall number_char l.
Proof. clear memory cons.
  assert (D : forall ds, Forall is_dg ds -> Forall number_char ds) by (intros ds; apply Forall_impl; unfold number_char; auto).
  intros (a & b & c & -> & (s & body & -> & Hs & Hb) & Hf & He). unfold number_char in *.
  rewrite !Forall_app. repeat split.
  - destruct Hs; subst; auto.
  - destruct Hb as [->|(d & ds & -> & Hd & HF)].
    + apply Forall_cons; [left; unfold is_dg; lia|constructor].
    + constructor; auto. left. unfold is_dg. lia.
  - destruct Hf as [->|(d & ds & -> & HF)]; auto. constructor; [lia|auto].
  - destruct He as [->|(e & s' & d & ds & -> & He & Hs' & HF)]; auto. constructor; [lia|]. rewrite Forall_app. split; auto.
    destruct Hs' as [->|[->| ->]]; auto.
Qed.
Lemma spelled_number i f e tf te : int_part i -> frac_text f tf -> exp_text e te -> is_number (i ++ tf ++ te).
Proof. clear memory cons.
  intros Hi Hf He. exists i, tf, te. repeat split; auto.
  - destruct f as [ds|]; cbn in Hf; [|now left]. destruct Hf as (-> & Hn & HF). destruct ds as [|d ds]; [congruence|]. right. eauto.
  - destruct e as [x|]; cbn in He; [|now left]. destruct He as (c & s & ds & -> & Hc & -> & Hs & Hn & HF).
    destruct ds as [|d ds]; [congruence|]. right. exists c, s, d, ds. auto.
Qed.
Lemma peg_num t r : is_number t -> exists n, peg J number (t ++ r) (Some n) /\ List.length t <= n /\ (head_not number_char r -> n = List.length t).
Proof.
  intros H. destruct (num_len_complete t r H) as (n & Hn & Hle). exists n. split; [|split; auto].
  - rewrite <- Hn. apply peg_number.
  - intros Hr. destruct (num_len_sound _ _ Hn) as (p & r' & Hp & <- & Hnum). apply number_chars in Hnum.
    destruct (Nat.eq_dec (List.length p) (List.length t)) as [|Hne]; auto. exfalso.
    destruct r as [|c r].
    + apply (f_equal (@List.length nat)) in Hp. rewrite !app_length in Hp. cbn in Hp. lia.
    + assert (Hc : nth_error p (List.length t) = Some c).
      { rewrite <- (nth_error_app1 p r') by lia. rewrite <- Hp, nth_error_app2 by lia. now rewrite Nat.sub_diag. }
      apply nth_error_In in Hc. rewrite Forall_forall in Hnum. now apply Hr, Hnum.
Qed.
Lemma peg_num_no l : head_not (fun c => c = 45 \/ is_dg c) l -> peg J number l None.
Proof.
  intros H. pose proof (peg_number memory cons l) as Hp. destruct l as [|c l]; [exact Hp|].
  unfold num_len in Hp. cbn [sign_len] in Hp. assert (45 =? c = false) as Hc by (apply Nat.eqb_neq; intros <-; apply H; auto).
  rewrite Hc in Hp. cbn [skipn int_len] in Hp. assert (c =? 48 = false) as H0 by (apply Nat.eqb_neq; intros ->; apply H; right; unfold is_dg; lia).
  rewrite H0 in Hp. destruct (dgb c) eqn:Hd; [|exact Hp]. exfalso. apply H. right. now apply dgb_spec.
Qed.

(** *** Literals *)
Lemma starts_self arr r : starts J arr (arr ++ r).
Proof. exists arr, r. split; auto. induction arr; constructor; auto. apply Nat.eqb_refl. Qed.
Lemma starts_head a arr c r : starts J (a :: arr) (c :: r) -> a = c.
Proof. intros (l1 & l2 & He & HF). inversion HF; subst. cbn in He. injection He as -> ->. now apply Nat.eqb_eq. Qed.
Lemma peg_word a arr f r : peg J (PMap (PAllOf (a :: arr)) f) (a :: arr ++ r) (Some (List.length (a :: arr))).
Proof. apply G_map, G_all_ok. apply (starts_self (a :: arr)). Qed.
Lemma peg_word_no a arr f c r : a <> c -> peg J (PMap (PAllOf (a :: arr)) f) (c :: r) None.
Proof. intros H. apply G_map, G_all_no. intros Hs. now apply starts_head in Hs. Qed.

(** *** Values *)
Definition values : list (parser nat) := [str; number; json_object; json_array;
  PMap (PAllOf [116; 114; 117; 101]) (FConstant 0); PMap (PAllOf [102; 97; 108; 115; 101]) (FConstant 1); PMap (PAllOf [110; 117; 108; 108]) (FConstant 2)].
Definition value_choice : parser nat := PChoice str (tl values).
Lemma value_shape : value_body = PSequence whitespace [value_choice; whitespace]. Proof. reflexivity. Qed.
Lemma object_shape : object_body = PSequence (PIgnore (PAllOf [123])) [PChoice (PDelimit pair_parser (PIgnore (PAllOf [44]))) [whitespace]; PIgnore (PAllOf [125])].
Proof. reflexivity. Qed.
Lemma array_shape : array_body = PSequence (PIgnore (PAllOf [91])) [PChoice (PDelimit json_value (PIgnore (PAllOf [44]))) [whitespace]; PIgnore (PAllOf [93])].
Proof. reflexivity. Qed.
Lemma pair_shape : pair_parser = PMap (PSequence whitespace [PIgnore (PAllOf [34]); string_body; PIgnore (PAllOf [34]); whitespace; PIgnore (PAllOf [58]); json_value])
  (FApply (FConstruct t_pair)).
Proof. reflexivity. Qed.

Lemma peg_object_no l : head_not (eq 123) l -> peg J json_object l None.
Proof. intros H. apply G_custom. change (cust_body J 1) with object_body. rewrite object_shape. apply G_seq, G_and_fail, G_ignore, peg_isnt; auto. Qed.
Lemma peg_array_no l : head_not (eq 91) l -> peg J json_array l None.
Proof. intros H. apply G_custom. change (cust_body J 2) with array_body. rewrite array_shape. apply G_seq, G_and_fail, G_ignore, peg_isnt; auto. Qed.

Lemma peg_value_no l : head_not (fun c => In c [34; 45; 123; 91; 116; 102; 110] \/ is_dg c) l -> peg J value_choice l None.
Proof.
  intros H. unfold value_choice, values, tl. apply G_choice.
  apply G_or_next; [apply peg_str_no; eapply head_not_impl; [|exact H]; cbn; intuition|].
  apply G_or_next; [apply peg_num_no; eapply head_not_impl; [|exact H]; cbn; intuition|].
  apply G_or_next; [apply peg_object_no; eapply head_not_impl; [|exact H]; cbn; intuition|].
  apply G_or_next; [apply peg_array_no; eapply head_not_impl; [|exact H]; cbn; intuition|].
  assert (Hw : forall a arr f, In a [116; 102; 110] -> peg J (PMap (PAllOf (a :: arr)) f) l None).
  { intros a arr f Ha. destruct l as [|c l]; [|apply peg_word_no; intros ->; apply H; cbn in *; tauto].
    apply G_map, G_all_no. intros (l1 & l2 & He & HF). inversion HF; subst. discriminate. }
  repeat (apply G_or_next; [apply Hw; cbn; tauto|]). constructor.
Qed.

Lemma stops_clean r : stops r -> head_not number_char r /\ head_not white r.
Proof. clear memory cons. destruct r as [|c r]; cbn; auto. unfold number_char, white, is_dg. lia. Qed.

(** A delimited list. *)
Lemma peg_close q c r : c = 93 \/ c = 125 -> peg_tail J q (PIgnore (PAllOf [44])) (c :: r) 0.
Proof. intros H. apply G_tail_end, G_ignore, peg_isnt. cbn. lia. Qed.

Definition is_num (d : doc) : Prop := match d with JNumber _ _ _ => True | _ => False end.
Definition tail_ok (q : parser nat) (t : list nat) : Prop := forall c r, c = 93 \/ c = 125 ->
  peg J (PDelimit q (PIgnore (PAllOf [44]))) (t ++ c :: r) (Some (List.length t)).

Lemma delim_one q t : (forall r, stops r -> peg J q (t ++ r) (Some (List.length t))) -> tail_ok q t.
Proof.
  intros H c r Hc. rewrite <- (Nat.add_0_r (List.length t)). eapply G_delim_some; [apply H; cbn; tauto|].
  rewrite skipn_exact by auto. now apply peg_close.
Qed.
Lemma delim_more q t u : (forall r, stops r -> peg J q (t ++ r) (Some (List.length t))) -> tail_ok q u -> tail_ok q (t ++ 44 :: u).
Proof.
  intros H Hu c r Hc. rewrite <- app_assoc, app_length. eapply G_delim_some; [apply H; cbn; auto|].
  rewrite skipn_exact by auto. specialize (Hu c r Hc). cbn [app List.length]. inversion Hu; subst.
  refine (G_tail_next J _ _ _ 1 _ _ (peg_is 44 _) _ _); cbn [skipn]; eassumption.
Qed.

Lemma complete :
  (forall d t, spells false d t -> forall r, exists n, peg J value_choice (t ++ r) (Some n) /\ List.length t <= n /\
     (n = List.length t \/ is_num d /\ ~ head_not number_char r)) /\
  (forall d t, element false d t -> forall r, exists n, peg J json_value (t ++ r) (Some n) /\ List.length t <= n /\ (stops r -> n = List.length t)) /\
  (forall m t, member false m t -> forall r, stops r -> peg J pair_parser (t ++ r) (Some (List.length t))) /\
  (forall ms t, members false ms t -> tail_ok pair_parser t) /\
  (forall ds t, elements false ds t -> tail_ok json_value t).
Proof.
  apply spells_mut.
  - intros raw H r. exists (List.length (string_text raw)). split; [|auto]. apply G_choice, G_or_here. now apply peg_str.
  - intros i f e tf te Hi Hf He r. destruct (peg_num (i ++ tf ++ te) r (spelled_number _ _ _ _ _ Hi Hf He)) as (n & Hn & Hle & Hx).
    exists n. split; [|split; auto].
    + apply G_choice. apply G_or_next; [|now apply G_or_here]. destruct (number_head i tf te Hi) as (c & l & -> & Hc).
      apply peg_str_no. cbn. unfold is_dg in Hc. lia.
    + destruct (Nat.eq_dec n (List.length (i ++ tf ++ te))); auto. right. split; [exact I|]. auto.
  - intros w Hw r. exists (List.length (123 :: w ++ [125])). split; [|auto]. apply G_choice.
    apply G_or_next; [apply peg_str_no; cbn; lia|]. apply G_or_next; [apply peg_num_no; cbn; unfold is_dg; lia|]. apply G_or_here.
    apply G_custom. change (cust_body J 1) with object_body. rewrite object_shape. apply G_seq. cbn [app List.length]. rewrite app_length.
    refine (and_more J _ _ _ 1 _ (peg_is 123 _) _). cbn [skipn]. rewrite <- app_assoc. cbn [app List.length].
    apply and_more; [|rewrite skipn_exact by auto; apply and_last, peg_is].
    apply G_choice. apply G_or_next; [|apply G_or_here; apply peg_white_exact; auto; cbn; unfold white; lia].
    apply G_delim_none. rewrite pair_shape. apply G_map, G_seq. eapply and_stop; [apply peg_white_exact; auto; cbn; unfold white; lia|].
    rewrite skipn_exact by auto. apply G_and_fail, G_ignore, peg_isnt. cbn. lia.
  - intros ms t _ IH r. exists (List.length (123 :: t ++ [125])). split; [|auto]. apply G_choice.
    apply G_or_next; [apply peg_str_no; cbn; lia|]. apply G_or_next; [apply peg_num_no; cbn; unfold is_dg; lia|]. apply G_or_here.
    apply G_custom. change (cust_body J 1) with object_body. rewrite object_shape. apply G_seq. cbn [app List.length]. rewrite app_length.
    refine (and_more J _ _ _ 1 _ (peg_is 123 _) _). cbn [skipn]. rewrite <- app_assoc. cbn [app List.length].
    apply and_more; [|rewrite skipn_exact by auto; apply and_last, peg_is]. apply G_choice, G_or_here. now apply IH; auto.
  - intros w Hw r. exists (List.length (91 :: w ++ [93])). split; [|auto]. apply G_choice.
    apply G_or_next; [apply peg_str_no; cbn; lia|]. apply G_or_next; [apply peg_num_no; cbn; unfold is_dg; lia|].
    apply G_or_next; [apply peg_object_no; cbn; lia|]. apply G_or_here.
    apply G_custom. change (cust_body J 2) with array_body. rewrite array_shape. apply G_seq. cbn [app List.length]. rewrite app_length.
    refine (and_more J _ _ _ 1 _ (peg_is 91 _) _). cbn [skipn]. rewrite <- app_assoc. cbn [app List.length].
    apply and_more; [|rewrite skipn_exact by auto; apply and_last, peg_is].
    apply G_choice. apply G_or_next; [|apply G_or_here; apply peg_white_exact; auto; cbn; unfold white; lia].
    apply G_delim_none. apply G_custom. change (cust_body J 0) with value_body. rewrite value_shape. apply G_seq.
    eapply and_stop; [apply peg_white_exact; auto; cbn; unfold white; lia|]. rewrite skipn_exact by auto. apply G_and_fail, peg_value_no.
    cbn. unfold is_dg. lia.
  - intros xs t _ IH r. exists (List.length (91 :: t ++ [93])). split; [|auto]. apply G_choice.
    apply G_or_next; [apply peg_str_no; cbn; lia|]. apply G_or_next; [apply peg_num_no; cbn; unfold is_dg; lia|].
    apply G_or_next; [apply peg_object_no; cbn; lia|]. apply G_or_here.
    apply G_custom. change (cust_body J 2) with array_body. rewrite array_shape. apply G_seq. cbn [app List.length]. rewrite app_length.
    refine (and_more J _ _ _ 1 _ (peg_is 91 _) _). cbn [skipn]. rewrite <- app_assoc. cbn [app List.length].
    apply and_more; [|rewrite skipn_exact by auto; apply and_last, peg_is]. apply G_choice, G_or_here. now apply IH; auto.
  - intros r. exists 4. split; [|auto]. apply G_choice. do 4 (apply G_or_next; [
      (apply peg_str_no || apply peg_num_no || apply peg_object_no || apply peg_array_no); cbn; unfold is_dg; lia|]).
    apply G_or_here. apply (peg_word 116 [114; 117; 101]).
  - intros r. exists 5. split; [|auto]. apply G_choice. do 4 (apply G_or_next; [
      (apply peg_str_no || apply peg_num_no || apply peg_object_no || apply peg_array_no); cbn; unfold is_dg; lia|]).
    apply G_or_next; [apply peg_word_no; lia|]. apply G_or_here. apply (peg_word 102 [97; 108; 115; 101]).
  - intros r. exists 4. split; [|auto]. apply G_choice. do 4 (apply G_or_next; [
      (apply peg_str_no || apply peg_num_no || apply peg_object_no || apply peg_array_no); cbn; unfold is_dg; lia|]).
    do 2 (apply G_or_next; [apply peg_word_no; lia|]). apply G_or_here. apply (peg_word 110 [117; 108; 108]).
  - intros d w t w' Hw Hs IH Hw' r. destruct (IH (w' ++ r)) as (n & Hn & Hle & Hx).
    destruct (spells_solid _ _ _ Hs) as (c & l & Hc & Hsol).
    assert (Hsk : head_not white (t ++ w' ++ r)) by (rewrite Hc; exact Hsol).
    assert (Hseq : peg J json_value ((w ++ t ++ w') ++ r) (Some (List.length w + (n + white_len (skipn n (t ++ w' ++ r)))))).
    { apply G_custom. change (cust_body J 0) with value_body. rewrite value_shape. apply G_seq. rewrite <- !app_assoc.
      apply and_more; [now apply peg_white_exact|]. rewrite skipn_exact by auto. apply and_more; [exact Hn|]. apply and_last, peg_white. }
    eexists. split; [exact Hseq|]. rewrite !app_length.
    assert (Hcase : n = List.length t \/ w' = [] /\ ~ head_not number_char r).
    { destruct Hx as [|[_ Hx]]; auto. destruct w' as [|b w']; [auto|]. exfalso. apply Hx. inversion Hw' as [|? ? Hb]; subst.
      cbn. unfold white, number_char, is_dg in *. lia. }
    destruct Hcase as [-> | [-> Hx']].
    + rewrite skipn_exact by auto. rewrite white_len_app by auto. split; [lia|]. intros Hr. apply stops_clean in Hr as [_ Hr].
      rewrite (white_len_stop r Hr). lia.
    + cbn [List.length]. split; [lia|]. intros Hr. apply stops_clean in Hr as [Hr _]. contradiction.
  - intros raw d w w' t Hw Hraw Hw' He IH r Hr. destruct (IH r) as (n & Hn & _ & Hx). rewrite (Hx Hr) in Hn.
    rewrite pair_shape. apply G_map, G_seq. rewrite <- app_assoc, app_length.
    apply and_more; [apply peg_white_exact; auto; cbn; unfold white; lia|]. rewrite skipn_exact by auto.
    rewrite <- app_assoc, string_app, app_length, string_len, <- app_assoc. cbn [app].
    replace (1 + (List.length raw + 1) + List.length (w' ++ 58 :: t)) with (1 + (List.length raw + (1 + (List.length w' + (1 + List.length t))))) by (rewrite app_length; cbn; lia).
    apply and_more; [apply peg_is|]. cbn [skipn]. apply and_more; [now apply peg_body|]. rewrite skipn_exact by auto.
    apply and_more; [apply peg_is|]. cbn [skipn]. apply and_more; [apply peg_white_exact; auto; cbn; unfold white; lia|]. rewrite skipn_exact by auto.
    apply and_more; [apply peg_is|]. cbn [skipn]. now apply and_last.
  - intros m t _ H. now apply delim_one.
  - intros m ms t u _ H _ IH. now apply delim_more.
  - intros d t _ H. apply delim_one. intros r Hr. destruct (H r) as (n & Hn & _ & Hx). now rewrite (Hx Hr) in Hn.
  - intros d ds t u _ H _ IH. apply delim_more; auto. intros r Hr. destruct (H r) as (n & Hn & _ & Hx). now rewrite (Hx Hr) in Hn.
Qed.

(** ** A text spells one document *)
Lemma white_split w : forall w2 x y, Forall white w -> Forall white w2 -> head_not white x -> head_not white y -> w ++ x = w2 ++ y -> w = w2 /\ x = y.
Proof. clear memory cons.
  induction w as [|c w IH]; intros [|c2 w2] x y Hw Hw2 Hx Hy H; cbn in H; auto.
  - subst x. inversion Hw2; subst. now destruct Hx.
  - subst y. inversion Hw; subst. now destruct Hy.
  - injection H as -> H. inversion Hw; inversion Hw2; subst. destruct (IH w2 x y) as [-> ->]; auto.
Qed.
Lemma app_same (a b c d : list nat) : List.length a = List.length c -> a ++ b = c ++ d -> a = c /\ b = d.
Proof. clear memory cons.
  intros Hl H. split; [apply (f_equal (firstn (List.length a))) in H|apply (f_equal (skipn (List.length a))) in H].
  - rewrite firstn_exact in H by auto. now rewrite firstn_exact in H by auto.
  - rewrite skipn_exact in H by auto. now rewrite skipn_exact in H by auto.
Qed.

Lemma int_measure i r : int_part i -> head_not is_dg r ->
  exists n, int_len (skipn (sign_len (Nat.eqb 45) (i ++ r)) (i ++ r)) = Some n /\ sign_len (Nat.eqb 45) (i ++ r) + n = List.length i.
Proof. clear memory cons.
  intros (s & b & -> & Hs & Hb) Hr. rewrite <- app_assoc.
  assert (Hl : sign_len (Nat.eqb 45) (s ++ b ++ r) = List.length s).
  { destruct Hs as [-> | ->]; [|reflexivity]. destruct Hb as [->|(d & ds & -> & Hd & _)]; [reflexivity|].
    cbn [app sign_len List.length]. assert (45 =? d = false) as -> by (apply Nat.eqb_neq; lia). reflexivity. }
  rewrite Hl, skipn_exact by auto. rewrite app_length.
  destruct Hb as [->|(d & ds & -> & Hd & HF)]; [exists 1; auto|].
  exists (1 + List.length ds). split; [|cbn; lia]. cbn [app int_len]. destruct (Nat.eqb_spec d 48); [lia|].
  assert (dgb d = true) as -> by (apply dgb_spec; unfold is_dg; lia). rewrite run_app by auto.
  replace (run_of_digits r) with 0; [now rewrite Nat.add_0_r|].
  destruct r as [|c r]; auto. cbn. destruct (dgb c) eqn:Hc; auto. apply dgb_spec in Hc. now destruct Hr.
Qed.
Lemma exp_not_digit e te : exp_text e te -> head_not is_dg te.
Proof. clear memory cons. destruct e as [x|]; cbn; [|intros ->; exact I]. intros (c & s & ds & -> & Hc & _). cbn. unfold is_dg. lia. Qed.
Lemma frac_not_digit f tf e te : frac_text f tf -> exp_text e te -> head_not is_dg (tf ++ te).
Proof. clear memory cons.
  destruct f as [ds|]; cbn; [intros (-> & _); cbn; unfold is_dg; lia|]. intros -> H. cbn. now apply exp_not_digit in H.
Qed.
Lemma frac_measure f tf e te : frac_text f tf -> exp_text e te -> frac_len (tf ++ te) = List.length tf.
Proof. clear memory cons.
  intros Hf He. pose proof (exp_not_digit _ _ He) as Hd. destruct f as [ds|]; cbn in Hf.
  - destruct Hf as (-> & Hn & HF). cbn [app frac_len]. rewrite run_app by auto.
    replace (run_of_digits te) with 0; [rewrite Nat.add_0_r; destruct ds; [congruence|reflexivity]|].
    destruct te as [|c te]; auto. cbn. destruct (dgb c) eqn:Hc; auto. apply dgb_spec in Hc. now destruct Hd.
  - subst tf. cbn. destruct e as [x|]; cbn in He; [|now subst]. destruct He as (c & s & ds & -> & Hc & _). cbn.
    destruct (Nat.eqb_spec c 46); [lia|reflexivity].
Qed.
Lemma number_unique i f e tf te i' f' e' tf' te' : int_part i -> frac_text f tf -> exp_text e te -> int_part i' -> frac_text f' tf' -> exp_text e' te' ->
  i ++ tf ++ te = i' ++ tf' ++ te' -> i = i' /\ f = f' /\ e = e'.
Proof. clear memory cons.
  intros Hi Hf He Hi' Hf' He' H.
  destruct (int_measure i (tf ++ te) Hi (frac_not_digit _ _ _ _ Hf He)) as (n & Hn & Hl).
  destruct (int_measure i' (tf' ++ te') Hi' (frac_not_digit _ _ _ _ Hf' He')) as (n' & Hn' & Hl').
  rewrite H in Hn, Hl. rewrite Hn in Hn'. injection Hn' as <-.
  apply app_same in H as [-> H]; [|lia]. split; auto.
  pose proof (frac_measure _ _ _ _ Hf He) as H1. pose proof (frac_measure _ _ _ _ Hf' He') as H2. rewrite H in H1.
  apply app_same in H as [-> ->]; [|lia]. split.
  - clear - Hf Hf'. destruct f, f'; cbn in Hf, Hf'; auto; [destruct Hf as (-> & _), Hf' as ([= <-] & _); auto| |]; [destruct Hf as (-> & _)|destruct Hf' as (-> & _)]; discriminate.
  - clear - He He'. destruct e, e'; cbn in He, He'; auto.
    + destruct He as (c & s & ds & -> & _). destruct He' as (c' & s' & ds' & [= _ ->] & _). reflexivity.
    + destruct He as (c & s & ds & -> & _). discriminate.
    + destruct He' as (c & s & ds & -> & _). discriminate.
Qed.

Lemma element_solid d t : element false d t -> exists c, In c t /\ ~ white c.
Proof. clear memory cons.
  intros [d' w u w' _ Hs _]. destruct (spells_solid _ _ _ Hs) as (c & l & -> & Hc). exists c. split; auto.
  apply in_or_app. right. now left.
Qed.
Lemma elements_solid ds t : elements false ds t -> exists c, In c t /\ ~ white c.
Proof. clear memory cons. intros [d u H|d ds' u v H _]; destruct (element_solid _ _ H) as (c & Hc & Hw); exists c; split; auto. apply in_or_app; auto. Qed.
Lemma members_solid ms t : members false ms t -> exists c, In c t /\ ~ white c.
Proof. clear memory cons.
  intros H. assert (Hm : exists m u v, t = u ++ v /\ member false m u) by (destruct H as [m u H|m ms' u v H _]; [exists m, u, []; now rewrite app_nil_r|eauto]).
  destruct Hm as (m & u & v & -> & [raw d w w' x _ _ _ _]). exists 34. split; [|unfold white; lia].
  apply in_or_app. left. apply in_or_app. right. now left.
Qed.
Lemma not_white (w t : list nat) c : Forall white w -> (exists x, In x t /\ ~ white x) -> w ++ [c] <> t ++ [c].
Proof. clear memory cons. intros Hw (x & Hx & Hn) H. apply app_inj_tail in H as [<- _]. rewrite Forall_forall in Hw. auto. Qed.

Lemma det p l a b : peg J p l (Some a) -> peg J p l (Some b) -> a = b.
Proof. intros H1 H2. pose proof (proj1 (peg_det J) _ _ _ H2 _ H1). congruence. Qed.

Lemma element_length d t r : element false d t -> stops r -> peg J json_value (t ++ r) (Some (List.length t)).
Proof. intros H Hr. destruct (proj1 (proj2 complete) _ _ H r) as (n & Hn & _ & Hx). now rewrite (Hx Hr) in Hn. Qed.
Lemma member_length m t r : member false m t -> stops r -> peg J pair_parser (t ++ r) (Some (List.length t)).
Proof. intros H Hr. now apply (proj1 (proj2 (proj2 complete)) _ _ H). Qed.

Lemma unique :
  (forall d t, spells false d t -> forall d', spells false d' t -> d = d') /\
  (forall d t, element false d t -> forall d', element false d' t -> d = d') /\
  (forall m t, member false m t -> forall m', member false m' t -> m = m') /\
  (forall ms t, members false ms t -> forall ms', members false ms' t -> ms = ms') /\
  (forall ds t, elements false ds t -> forall ds', elements false ds' t -> ds = ds').
Proof.
  apply spells_mut.
  - intros raw H d' H'. destruct (spells_head _ _ _ H') as (c & l & [= <- _] & Hc).
    destruct d' as [raw'|i f e|ms|xs|[]|]; try discriminate; [|unfold is_dg in Hc; lia].
    inversion H' as [? ? E1 E2| | | | | | | |]; subst. apply app_inj_tail in E2 as [-> _]. reflexivity.
  - intros i f e tf te Hi Hf He d' H'. destruct (number_head i tf te Hi) as (c & l & Hcl & Hc).
    destruct (spells_head _ _ _ H') as (c' & l' & Hcl' & Hc'). rewrite Hcl in Hcl'. injection Hcl' as <- <-.
    destruct d' as [raw'|i' f' e'|ms|xs|[]|]; try (unfold is_dg in Hc; lia).
    inversion H' as [|? ? ? tf' te' Hi' Hf' He' E1 E2| | | | | | |]; subst.
    destruct (number_unique _ _ _ _ _ _ _ _ _ _ Hi Hf He Hi' Hf' He' (eq_sym E2)) as (-> & -> & ->). reflexivity.
  - intros w Hw d' H'. destruct (spells_head _ _ _ H') as (c & l & [= <- _] & Hc).
    destruct d' as [raw'|i f e|ms|xs|[]|]; try discriminate; [unfold is_dg in Hc; lia|].
    inversion H' as [| | |? t E1 E2 E3| | | | |]; subst; auto. exfalso. eapply not_white; [exact Hw|eapply members_solid; exact E1|symmetry; eassumption].
  - intros ms t Hm IH d' H'. destruct (spells_head _ _ _ H') as (c & l & [= <- _] & Hc).
    destruct d' as [raw'|i f e|ms'|xs|[]|]; try discriminate; [unfold is_dg in Hc; lia|].
    inversion H' as [| |w Hw E1 E2|? t' E1 E2 E3| | | | |]; subst.
    + exfalso. eapply not_white; [exact Hw|eapply members_solid; exact Hm|]. eassumption.
    + apply app_inj_tail in E3 as [-> _]. f_equal. now apply IH.
  - intros w Hw d' H'. destruct (spells_head _ _ _ H') as (c & l & [= <- _] & Hc).
    destruct d' as [raw'|i f e|ms|xs|[]|]; try discriminate; [unfold is_dg in Hc; lia|].
    inversion H' as [| | | | |? t E1 E2 E3| | |]; subst; auto. exfalso. eapply not_white; [exact Hw|eapply elements_solid; exact E1|symmetry; eassumption].
  - intros xs t Hm IH d' H'. destruct (spells_head _ _ _ H') as (c & l & [= <- _] & Hc).
    destruct d' as [raw'|i f e|ms'|xs'|[]|]; try discriminate; [unfold is_dg in Hc; lia|].
    inversion H' as [| | | |w Hw E1 E2|? t' E1 E2 E3| | |]; subst.
    + exfalso. eapply not_white; [exact Hw|eapply elements_solid; exact Hm|]. eassumption.
    + apply app_inj_tail in E3 as [-> _]. f_equal. now apply IH.
  - intros d' H'. destruct (spells_head _ _ _ H') as (c & l & [= <- _] & Hc).
    destruct d' as [raw'|i f e|ms'|xs'|[]|]; try discriminate; auto. unfold is_dg in Hc; lia.
  - intros d' H'. destruct (spells_head _ _ _ H') as (c & l & [= <- _] & Hc).
    destruct d' as [raw'|i f e|ms'|xs'|[]|]; try discriminate; auto. unfold is_dg in Hc; lia.
  - intros d' H'. destruct (spells_head _ _ _ H') as (c & l & [= <- _] & Hc).
    destruct d' as [raw'|i f e|ms'|xs'|[]|]; try discriminate; auto. unfold is_dg in Hc; lia.
  - intros d w t w' Hw Hs IH Hw' d' H'. inversion H' as [? w2 t2 w2' Hw2 Hs2 Hw2' E1 E2]; subst.
    destruct (spells_solid _ _ _ Hs) as (c & l & -> & Hc). destruct (spells_solid _ _ _ Hs2) as (c2 & l2 & -> & Hc2).
    apply white_split in E2 as [-> E2]; auto.
    assert (Hwn : forall w, Forall white w -> head_not number_char w).
    { intros x Hx. destruct x as [|y x]; [exact I|]. inversion Hx; subst. cbn. unfold white, number_char, is_dg in *. lia. }
    destruct (proj1 complete _ _ Hs w') as (n & Hn & _ & Hx). destruct (proj1 complete _ _ Hs2 w2') as (n2 & Hn2 & _ & Hx2).
    destruct Hx as [-> | [_ Hx]]; [|destruct Hx; auto]. destruct Hx2 as [-> | [_ Hx2]]; [|destruct Hx2; auto].
    rewrite E2 in Hn2. pose proof (det _ _ _ _ Hn Hn2). apply app_same in E2 as [E2 _]; auto. rewrite E2 in Hs2. now apply IH.
  - intros raw d w w' t Hw Hraw Hw' He IH m' H'. inversion H' as [raw2 d2 w2 w2' t2 Hw2 Hraw2 Hw2' He2 E1 E2]; subst.
    apply white_split in E2 as [-> E2]; auto; try (cbn; unfold white; lia).
    injection E2 as E2. symmetry in E2. rewrite <- !app_assoc in E2. cbn [app] in E2.
    pose proof (peg_chars raw (w' ++ 58 :: t) Hraw) as P1. pose proof (peg_chars raw2 (w2' ++ 58 :: t2) Hraw2) as P2. rewrite <- E2 in P2.
    pose proof (proj1 (proj2 (proj2 (proj2 (peg_det J)))) _ _ _ P1 _ P2) as Hl. apply app_same in E2 as [-> E2]; auto.
    injection E2 as E2. apply white_split in E2 as [_ E2]; auto; try (cbn; unfold white; lia). injection E2 as ->. f_equal. now apply IH.
  - intros m t Hm IH ms' H'. inversion H' as [m' t' Hm' E1 E2|m' ms2 t' u Hm' Hms E1 E2]; subst.
    + f_equal. now apply IH.
    + exfalso. pose proof (member_length _ _ [] Hm I) as P1. pose proof (member_length _ _ (44 :: u) Hm' (or_introl eq_refl)) as P2.
      rewrite app_nil_r in P1. pose proof (det _ _ _ _ P1 P2) as Hl. rewrite app_length in Hl. cbn in Hl. lia.
  - intros m ms t u Hm IHm Hms IHs ms' H'. inversion H' as [m' t' Hm' E1 E2|m' ms2 t' u' Hm' Hms' E1 E2]; subst.
    + exfalso. pose proof (member_length _ _ [] Hm' I) as P1. pose proof (member_length _ _ (44 :: u) Hm (or_introl eq_refl)) as P2.
      rewrite app_nil_r in P1. pose proof (det _ _ _ _ P1 P2) as Hl. rewrite app_length in Hl. cbn in Hl. lia.
    + pose proof (member_length _ _ (44 :: u) Hm (or_introl eq_refl)) as P1. pose proof (member_length _ _ (44 :: u') Hm' (or_introl eq_refl)) as P2.
      rewrite E2 in P2. pose proof (det _ _ _ _ P1 P2) as Hl. apply app_same in E2 as [-> E2]; auto. injection E2 as ->.
      f_equal; [now apply IHm|now apply IHs].
  - intros d t Hd IH ds' H'. inversion H' as [d' t' Hd' E1 E2|d' ds2 t' u Hd' Hds E1 E2]; subst.
    + f_equal. now apply IH.
    + exfalso. pose proof (element_length _ _ [] Hd I) as P1. pose proof (element_length _ _ (44 :: u) Hd' (or_introl eq_refl)) as P2.
      rewrite app_nil_r in P1. pose proof (det _ _ _ _ P1 P2) as Hl. rewrite app_length in Hl. cbn in Hl. lia.
  - intros d ds t u Hd IHd Hds IHs ds' H'. inversion H' as [d' t' Hd' E1 E2|d' ds2 t' u' Hd' Hds' E1 E2]; subst.
    + exfalso. pose proof (element_length _ _ [] Hd' I) as P1. pose proof (element_length _ _ (44 :: u) Hd (or_introl eq_refl)) as P2.
      rewrite app_nil_r in P1. pose proof (det _ _ _ _ P1 P2) as Hl. rewrite app_length in Hl. cbn in Hl. lia.
    + pose proof (element_length _ _ (44 :: u) Hd (or_introl eq_refl)) as P1. pose proof (element_length _ _ (44 :: u') Hd' (or_introl eq_refl)) as P2.
      rewrite E2 in P2. pose proof (det _ _ _ _ P1 P2) as Hl. apply app_same in E2 as [-> E2]; auto. injection E2 as ->.
      f_equal; [now apply IHd|now apply IHs].
Qed.
End JsonPeg.
