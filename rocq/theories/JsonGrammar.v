(** * C50, C51: JSON texts and the documents they spell

    RFC 8259 on lists of character codes; nothing here refers to the library.  [strict]: the
    grammar of the RFC; otherwise strings may also contain control characters as they are,
    which is the one point where the example deviates (json.cpp:44). *)
From Coq Require Import String List Arith Bool Lia.
From Verif Require Import CharPeg PropJson.
Import ListNotations.

(** A document.  Strings as written between their quotation marks, escapes included; numbers
    by their parts: integer with sign, digits of the fraction, exponent with sign. *)
Inductive doc : Type :=
| JString (raw : list nat)
| JNumber (int : list nat) (frac exp : option (list nat))
| JObject (ms : list (list nat * doc))
| JArray (xs : list doc)
| JBool (b : bool)
| JNull.

Definition white (c : nat) : Prop := c = 32 \/ c = 9 \/ c = 10 \/ c = 13.
Definition hex_digit (c : nat) : Prop := is_dg c \/ 65 <= c <= 70 \/ 97 <= c <= 102.

Section Json.
Context (strict : bool).

(** One character of a string: not a quotation mark or backslash, or an escape. *)
Inductive unit_ : list nat -> Prop :=
| u_plain c : c <> 34 -> c <> 92 -> (strict = true -> 32 <= c) -> unit_ [c]
| u_escape c : In c [34; 92; 47; 98; 102; 110; 114; 116] -> unit_ [92; c]
| u_hex a b c d : Forall hex_digit [a; b; c; d] -> unit_ [92; 117; a; b; c; d].
Inductive chars : list nat -> Prop :=
| ch_nil : chars []
| ch_cons u l : unit_ u -> chars l -> chars (u ++ l).
Definition string_text (raw : list nat) : list nat := 34 :: raw ++ [34].

Definition frac_text (f : option (list nat)) (t : list nat) : Prop :=
  match f with None => t = [] | Some ds => t = 46 :: ds /\ ds <> [] /\ Forall is_dg ds end.
Definition exp_text (e : option (list nat)) (t : list nat) : Prop :=
  match e with
  | None => t = []
  | Some x => exists c sign ds, t = c :: x /\ (c = 69 \/ c = 101) /\ x = sign ++ ds /\
      (sign = [] \/ sign = [43] \/ sign = [45]) /\ ds <> [] /\ Forall is_dg ds
  end.

(** [spells d t]: [t] is a value spelling [d]; [element]: with white space around it;
    [member]: one member of an object; [members], [elements]: one or more, separated by
    commas. *)
Inductive spells : doc -> list nat -> Prop :=
| sp_string raw : chars raw -> spells (JString raw) (string_text raw)
| sp_number i f e tf te : int_part i -> frac_text f tf -> exp_text e te -> spells (JNumber i f e) (i ++ tf ++ te)
| sp_no_members w : Forall white w -> spells (JObject []) (123 :: w ++ [125])
| sp_object ms t : members ms t -> spells (JObject ms) (123 :: t ++ [125])
| sp_no_elements w : Forall white w -> spells (JArray []) (91 :: w ++ [93])
| sp_array xs t : elements xs t -> spells (JArray xs) (91 :: t ++ [93])
| sp_true : spells (JBool true) [116; 114; 117; 101]
| sp_false : spells (JBool false) [102; 97; 108; 115; 101]
| sp_null : spells JNull [110; 117; 108; 108]
with element : doc -> list nat -> Prop :=
| el_white d w t w' : Forall white w -> spells d t -> Forall white w' -> element d (w ++ t ++ w')
with member : list nat * doc -> list nat -> Prop :=
| me_pair raw d w w' t : Forall white w -> chars raw -> Forall white w' -> element d t ->
    member (raw, d) (w ++ string_text raw ++ w' ++ 58 :: t)
with members : list (list nat * doc) -> list nat -> Prop :=
| ms_one m t : member m t -> members [m] t
| ms_more m ms t u : member m t -> members ms u -> members (m :: ms) (t ++ 44 :: u)
with elements : list doc -> list nat -> Prop :=
| es_one d t : element d t -> elements [d] t
| es_more d ds t u : element d t -> elements ds u -> elements (d :: ds) (t ++ 44 :: u).
Scheme spells_ind2 := Induction for spells Sort Prop
  with element_ind2 := Induction for element Sort Prop
  with member_ind2 := Induction for member Sort Prop
  with members_ind2 := Induction for members Sort Prop
  with elements_ind2 := Induction for elements Sort Prop.
Combined Scheme spells_mut from spells_ind2, element_ind2, member_ind2, members_ind2, elements_ind2.
End Json.

Lemma unit_lax s u : unit_ s u -> unit_ false u.
Proof. intros []; constructor; auto. discriminate. Qed.
Lemma chars_lax s l : chars s l -> chars false l.
Proof. induction 1; constructor; eauto using unit_lax. Qed.
(** The RFC's texts are among those with control characters allowed. *)
Lemma spells_lax s :
  (forall d t, spells s d t -> spells false d t) /\ (forall d t, element s d t -> element false d t) /\
  (forall m t, member s m t -> member false m t) /\ (forall ms t, members s ms t -> members false ms t) /\
  (forall ds t, elements s ds t -> elements false ds t).
Proof. apply spells_mut; intros; try (econstructor; eauto using chars_lax; fail). Qed.

(** ** First characters *)
Lemma number_head i tf te : int_part i -> exists c l, i ++ tf ++ te = c :: l /\ (c = 45 \/ is_dg c).
Proof.
  intros (s & b & -> & Hs & Hb). destruct Hs as [-> | ->]; cbn; [|eauto 6].
  destruct Hb as [->|(d & ds & -> & Hd & _)]; cbn; eexists _, _; (split; [reflexivity|right; unfold is_dg; lia]).
Qed.

Lemma spells_head s d t : spells s d t -> exists c l, t = c :: l /\
  match d with
  | JString _ => c = 34 | JNumber _ _ _ => c = 45 \/ is_dg c | JObject _ => c = 123 | JArray _ => c = 91
  | JBool true => c = 116 | JBool false => c = 102 | JNull => c = 110
  end.
Proof.
  intros H. destruct H; try (eexists _, _; split; [reflexivity|auto]; fail). now apply number_head.
Qed.

Lemma spells_solid s d t : spells s d t -> exists c l, t = c :: l /\ ~ white c.
Proof.
  intros H. destruct (spells_head _ _ _ H) as (c & l & -> & Hc). exists c, l. split; auto.
  unfold white, is_dg in *. destruct d as [| | | |[]|]; lia.
Qed.

(** ** What separates the two: control characters in strings *)
Fixpoint doc_strings (d : doc) : list (list nat) :=
  match d with
  | JString raw => [raw]
  | JObject ms => flat_map (fun m => match m with (k, x) => k :: doc_strings x end) ms
  | JArray xs => flat_map doc_strings xs
  | _ => []
  end.
Definition printable (l : list nat) : Prop := Forall (le 32) l.

Lemma unit_printable u : unit_ true u -> printable u.
Proof.
  intros [c _ _ H|c H|a b c d H]; unfold printable.
  - repeat constructor. auto.
  - assert (32 <= c) by (cbn in H; lia). repeat constructor; auto; lia.
  - assert (HX : Forall (le 32) [a; b; c; d]).
    { eapply Forall_impl; [|exact H]. intros x [Hx|Hx]; [unfold is_dg in Hx; lia|lia]. }
    do 2 (constructor; [lia|]). exact HX.
Qed.
Lemma chars_printable l : chars true l <-> chars false l /\ printable l.
Proof.
  split.
  - intros H. split; [eapply chars_lax; eauto|]. induction H; [constructor|]. apply Forall_app. split; auto. now apply unit_printable.
  - intros [H HF]. induction H as [|u l Hu Hl IH]; [constructor|]. apply Forall_app in HF as [H1 H2]. constructor; auto.
    destruct Hu; try (constructor; auto; fail). constructor; auto. intros _. now inversion H1.
Qed.

Definition clean (d : doc) : Prop := Forall printable (doc_strings d).
Definition clean_member (m : list nat * doc) : Prop := printable (fst m) /\ clean (snd m).
Lemma clean_object ms : clean (JObject ms) <-> Forall clean_member ms.
Proof.
  unfold clean. cbn. induction ms as [|[k x] ms IH]; cbn; [split; constructor|].
  rewrite Forall_cons_iff, Forall_app, IH, Forall_cons_iff. unfold clean_member, clean. cbn. tauto.
Qed.
Lemma clean_array xs : clean (JArray xs) <-> Forall clean xs.
Proof. unfold clean. cbn. induction xs as [|x xs IH]; cbn; [split; constructor|]. rewrite Forall_app, IH, Forall_cons_iff. tauto. Qed.

Lemma strict_clean :
  (forall d t, spells true d t -> clean d) /\ (forall d t, element true d t -> clean d) /\
  (forall m t, member true m t -> clean_member m) /\ (forall ms t, members true ms t -> Forall clean_member ms) /\
  (forall ds t, elements true ds t -> Forall clean ds).
Proof.
  apply spells_mut; intros; rewrite ?clean_object, ?clean_array; auto; try (constructor; auto; fail).
  - unfold clean. cbn. constructor; [|constructor]. now apply chars_printable.
  - split; auto. cbn. now apply chars_printable.
Qed.
Lemma clean_strict :
  (forall d t, spells false d t -> clean d -> spells true d t) /\ (forall d t, element false d t -> clean d -> element true d t) /\
  (forall m t, member false m t -> clean_member m -> member true m t) /\ (forall ms t, members false ms t -> Forall clean_member ms -> members true ms t) /\
  (forall ds t, elements false ds t -> Forall clean ds -> elements true ds t).
Proof.
  apply spells_mut; intros; try (constructor; auto; fail).
  - constructor. apply chars_printable. split; auto. match goal with H : clean _ |- _ => now inversion H end.
  - apply sp_object. match goal with H : clean _ |- _ => apply clean_object in H; auto end.
  - apply sp_array. match goal with H : clean _ |- _ => apply clean_array in H; auto end.
  - match goal with H : clean_member _ |- _ => destruct H as [H1 H2] end. constructor; auto. now apply chars_printable.
  - apply ms_one. match goal with H : Forall _ [_] |- _ => inversion H; subst end. auto.
  - match goal with H : Forall clean_member (_ :: _) |- _ => inversion H; subst end. apply ms_more; auto.
  - apply es_one. match goal with H : Forall _ [_] |- _ => inversion H; subst end. auto.
  - match goal with H : Forall clean (_ :: _) |- _ => inversion H; subst end. apply es_more; auto.
Qed.
Lemma strict_iff d t : element true d t <-> element false d t /\ clean d.
Proof.
  split; [intros H; split; [eapply spells_lax; eauto|eapply strict_clean; eauto]|]. intros [H1 H2]. now apply clean_strict.
Qed.
