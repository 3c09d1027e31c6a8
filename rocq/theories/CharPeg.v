(** * Character grammars as PEGs: the building blocks the examples share *)
From Coq Require Import String List Arith ZArith Bool Lia.
From Verif Require Import Types Compound Parser Outcome Exec Derive Leaves Sound Peg.
Import ListNotations.

(** ** Decimal digits in a list of characters *)
Definition is_dg (c : nat) : Prop := 48 <= c <= 57.
Definition dgb (c : nat) : bool := (48 <=? c) && (c <=? 57).
Lemma dgb_spec c : dgb c = true <-> is_dg c.
Proof. unfold dgb, is_dg. rewrite andb_true_iff, !Nat.leb_le. tauto. Qed.

Fixpoint run_of_digits (l : list nat) : nat := match l with c :: l' => if dgb c then S (run_of_digits l') else 0 | [] => 0 end.
Definition sign_len (ok : nat -> bool) (l : list nat) : nat := match l with c :: _ => if ok c then 1 else 0 | [] => 0 end.
Lemma run_app ds r : Forall is_dg ds -> run_of_digits (ds ++ r) = List.length ds + run_of_digits r.
Proof. induction 1 as [|d ds Hd HF IH]; cbn; auto. apply dgb_spec in Hd. rewrite Hd, IH. reflexivity. Qed.

Lemma run_split l : exists ds r, l = ds ++ r /\ Forall is_dg ds /\ List.length ds = run_of_digits l /\ run_of_digits r = 0.
Proof.
  induction l as [|c l (ds & r & -> & HF & Hl & Hr)].
  - exists [], []. auto.
  - cbn. destruct (dgb c) eqn:Hc.
    + exists (c :: ds), r. repeat split; auto; [constructor; auto; now apply dgb_spec|cbn; lia].
    + exists [], (c :: ds ++ r). repeat split; auto. cbn. now rewrite Hc.
Qed.

Lemma run_prefix l : exists ds r, l = ds ++ r /\ Forall is_dg ds /\ List.length ds = run_of_digits l.
Proof. destruct (run_split l) as (ds & r & H1 & H2 & H3 & _). eauto. Qed.

Lemma skipn_exact {A} (l r : list A) n : List.length l = n -> skipn n (l ++ r) = r.
Proof. intros <-. rewrite skipn_app, skipn_all, Nat.sub_diag. reflexivity. Qed.
Lemma firstn_exact {A} (l r : list A) n : List.length l = n -> firstn n (l ++ r) = l.
Proof. intros <-. rewrite firstn_app, firstn_all, Nat.sub_diag. cbn. apply app_nil_r. Qed.

Lemma sign_split ok l : exists s r, l = s ++ r /\ List.length s = sign_len ok l /\ (s = [] \/ exists c, s = [c] /\ ok c = true).
Proof.
  destruct l as [|c l]; [exists [], []; auto|]. cbn. destruct (ok c) eqn:H.
  - exists [c], l. repeat split; auto. right. eauto.
  - exists [], (c :: l). auto.
Qed.


(** ** PEG answers of the parsers for single characters and digits *)
Section CharPeg.
Context (E : env nat nat) (HE : forall t c, eqv E t c = (t =? c)).

Lemma peg_any arr (l : list nat) : peg E (PAnyOf arr) l (match l with c :: _ => if existsb (fun t => t =? c) arr then Some 1 else None | [] => None end).
Proof.
  destruct l as [|c l]; [constructor|]. destruct (existsb (fun t => t =? c) arr) eqn:H; constructor.
  - apply existsb_exists in H as (t & Ht & Hc). exists t. now rewrite HE.
  - intros t Ht. rewrite HE. destruct (t =? c) eqn:Htc; auto.
    assert (existsb (fun t => t =? c) arr = true) by (apply existsb_exists; eauto). congruence.
Qed.

Lemma peg_char a l : peg E (PAllOf [a]) l (match l with c :: _ => if a =? c then Some 1 else None | [] => None end).
Proof.
  assert (Hs : forall c l, starts E [a] (c :: l) <-> a = c).
  { intros c l'. split.
    - intros (l1 & l2 & He & HF). inversion HF; subst. inversion H3; subst. cbn in He. injection He as -> ->. rewrite HE in H1. now apply Nat.eqb_eq.
    - intros <-. exists [a], l'. split; auto. constructor; auto. rewrite HE. apply Nat.eqb_refl. }
  destruct l as [|c l].
  - apply G_all_no. intros (l1 & l2 & He & HF). inversion HF; subst. discriminate.
  - destruct (Nat.eqb_spec a c) as [->|Hn].
    + apply (G_all_ok E [c]). now apply Hs.
    + apply G_all_no. now rewrite Hs.
Qed.

Definition ten : list nat := [48; 49; 50; 51; 52; 53; 54; 55; 56; 57].
Lemma ten_spec c : existsb (fun t => t =? c) ten = dgb c.
Proof. do 58 (destruct c as [|c]; [reflexivity|]). reflexivity. Qed.

Lemma peg_digit l : peg E (PAnyOf ten) l (match l with c :: _ => if dgb c then Some 1 else None | [] => None end).
Proof. pose proof (peg_any ten l) as H. destruct l; auto. rewrite ten_spec in H. exact H. Qed.

Lemma peg_digits l : peg_star E (PAnyOf ten) l (run_of_digits l).
Proof.
  induction l as [|c l IH]; cbn.
  - apply G_star_end. exact (peg_digit []).
  - pose proof (peg_digit (c :: l)) as H. cbn in H. destruct (dgb c).
    + change (S (run_of_digits l)) with (1 + run_of_digits l). eapply G_star_next; eauto.
    + now apply G_star_end.
Qed.

Lemma peg_digits1 l : peg E (POneOrMore (PAnyOf ten)) l (if run_of_digits l =? 0 then None else Some (run_of_digits l)).
Proof.
  pose proof (peg_digit l) as H. destruct l as [|c l]; [now apply G_oom_none|]. cbn. destruct (dgb c).
  - cbn. change (Some (S (run_of_digits l))) with (Some (1 + run_of_digits l)). eapply G_oom_some; eauto. apply peg_digits.
  - now apply G_oom_none.
Qed.

Lemma peg_sign q (ok : nat -> bool) (l : list nat) : peg E q l (match l with c :: _ => if ok c then Some 1 else None | [] => None end) ->
  peg E (PChoice q [PEpsilon]) l (Some (sign_len ok l)).
Proof.
  intros H. apply G_choice. destruct l as [|c l]; [|cbn; destruct (ok c)].
  - apply G_or_next; auto. apply G_or_here. constructor.
  - now apply G_or_here.
  - apply G_or_next; auto. apply G_or_here. constructor.
Qed.

Lemma and_more q qs l c d : peg E q l (Some c) -> peg_and E qs (skipn c l) (Some d) -> peg_and E (q :: qs) l (Some (c + d)).
Proof. intros H1 H2. exact (G_and_next E _ _ _ _ _ H1 H2). Qed.
Lemma and_stop q qs l c : peg E q l (Some c) -> peg_and E qs (skipn c l) None -> peg_and E (q :: qs) l None.
Proof. intros H1 H2. exact (G_and_next E _ _ _ _ _ H1 H2). Qed.
Lemma and_last q l c : peg E q l (Some c) -> peg_and E [q] l (Some c).
Proof. intros H. rewrite <- (Nat.add_0_r c). apply and_more; auto. constructor. Qed.

End CharPeg.
