(** * C39: the JSON example *)
From Coq Require Import String List Arith ZArith Bool Lia.
From Verif Require Import Types Compound Parser Outcome CompoundFacts Exec Mono Derive Typing Join Leaves Sound
  BigStep BigSound BigComplete Peg Elems Runs Samples PropCore PropPeg Lossless Agree Check PropAgree Grammar CharPeg Names PropNames Term PropTerm
  StaticArray Operators PropSets Modifiers ExJson.
Import ListNotations.

Section Json.
Context (memory : nat -> list nat) (cons : ty -> list val -> fnres).
Hypothesis Hcons : json_cons_typed cons.
Notation J := (json_env memory cons).

Lemma json_typed : env_typed J.
Proof.
  constructor; cbn; try discriminate.
  - exact Hcons.
  - intros t tys H. right. destruct t as [| | | | | | | |[|[|[|[|[|[|]]]]]]]; try discriminate; reflexivity.
  - intros [|[|k]]; cbn; auto.
  - intros t H. destruct t; discriminate.
Qed.

Lemma json_customs : env_customs J.
Proof.
  constructor.
  - intros m [|[|[|c]]]; destruct m; reflexivity.
  - intros [|[|[|c]]]; cbn; auto.
  - intros [|[|[|c]]]; cbn; auto. split; [reflexivity|]. split; [discriminate|]. eexists. split; [reflexivity|]. split; [discriminate|reflexivity].
Qed.

Lemma json_program : program J.
Proof. split; [apply json_typed|apply json_customs]. Qed.

(** The parsers main() and the commented-out lines use. *)
Definition json_entry (p : parser nat) : Prop := In p [number; str; json_value; json_object; json_array].

Lemma json_checks p : json_entry p ->
  grammar_ok J (fun _ => false) (fun c => match c with 0 => 1 | _ => 0 end) [0; 1; 2] p = true
  /\ steady_b J [0; 1; 2] p = true /\ compiles J Parse p = true /\ compiles J Look p = true.
Proof. intros [<-|[<-|[<-|[<-|[<-|[]]]]]]; repeat split; vm_compute; reflexivity. Qed.

(** Every one of them, on every input, by parse and by lookahead: returns or throws what a
    constructor threw; never undefined behaviour. *)
Theorem C39_json_terminates p m i : json_entry p -> valid J i ->
  exists o, evals J m p i o /\
    match o with
    | Done _ _ => True
    | Exn e => m = Parse /\ exists t args, cons t args = FThrow e
    | UB | Ill | OOF => False
    end.
Proof.
  intros Hp Hv. destruct (json_checks p Hp) as (Hg & Hs & Hc & Hl).
  destruct (C33_check J _ _ _ _ Hg) as [Hb Hr].
  destruct (C33_terminates J p _ Hb Hr m i Hv) as [n Hn].
  exists (run J n m p i). assert (He : evals J m p i (run J n m p i)) by (split; [exact Hn|eauto]).
  split; [exact He|].
  destruct (run_safe J n m p i Hv) as [Hub Hill]; auto using json_typed, json_customs.
  - now destruct m.
  - apply steady_join_local. now apply steady_b_ok with [0; 1; 2].
  - destruct (run J n m p i) as [r tr| |e| |]; auto.
    destruct (C47_exceptions_are_users J m p i e He) as (-> & q & f & args & Hq & Hf & _).
    split; [reflexivity|]. clear -Hf. revert args Hf. induction f; intros args Hf; cbn in Hf; try discriminate.
    + destruct args as [|v [|]]; try discriminate. destruct (tuple_vals v); [eauto|discriminate].
    + eauto.
Qed.

(** ** Numbers: the grammar of RFC 8259, section 6, on lists of characters *)
Definition int_part (l : list nat) : Prop := exists sign body, l = sign ++ body /\
  (sign = [] \/ sign = [45]) /\
  (body = [48] \/ exists d ds, body = d :: ds /\ 49 <= d <= 57 /\ Forall is_dg ds).
Definition frac_part (l : list nat) : Prop := l = [] \/ exists d ds, l = 46 :: d :: ds /\ Forall is_dg (d :: ds).
Definition exp_part (l : list nat) : Prop := l = [] \/
  exists e sign d ds, l = e :: sign ++ d :: ds /\ (e = 69 \/ e = 101) /\ (sign = [] \/ sign = [43] \/ sign = [45]) /\
    Forall is_dg (d :: ds).
Definition is_number (l : list nat) : Prop := exists a b c, l = a ++ b ++ c /\ int_part a /\ frac_part b /\ exp_part c.

(** *** What the grammar consumes, as a function *)
Definition int_len (l : list nat) : option nat :=
  match l with
  | c :: l' => if c =? 48 then Some 1 else if dgb c then Some (1 + run_of_digits l') else None
  | [] => None
  end.
Definition frac_len (l : list nat) : nat :=
  match l with c :: l' => if (c =? 46) && negb (run_of_digits l' =? 0) then 1 + run_of_digits l' else 0 | [] => 0 end.
Definition exp_len (l : list nat) : nat :=
  match l with
  | c :: l' =>
      if (c =? 69) || (c =? 101) then
        let s := sign_len (fun c => (c =? 43) || (c =? 45)) l' in
        let n := run_of_digits (skipn s l') in if n =? 0 then 0 else 1 + (s + n)
      else 0
  | [] => 0
  end.
Definition num_len (l : list nat) : option nat :=
  let s := sign_len (Nat.eqb 45) l in
  match int_len (skipn s l) with
  | None => None
  | Some n =>
      let f := frac_len (skipn n (skipn s l)) in
      let e := exp_len (skipn f (skipn n (skipn s l))) in
      Some (s + n + (f + (e + 0)))
  end.

(** *** It is the longest number *)
Lemma frac_len_ok l : exists b r, l = b ++ r /\ frac_part b /\ List.length b = frac_len l.
Proof.
  destruct l as [|c l]; [exists [], []; cbn; unfold frac_part; auto|]. cbn.
  destruct ((c =? 46) && negb (run_of_digits l =? 0)) eqn:H.
  - apply andb_prop in H as [Hc Hn]. apply Nat.eqb_eq in Hc. apply negb_true_iff, Nat.eqb_neq in Hn. subst c.
    destruct (run_prefix l) as (ds & r & -> & HF & Hl). destruct ds as [|d ds]; [cbn in *; lia|].
    exists (46 :: d :: ds), r. repeat split; [right; eauto|cbn in *; lia].
  - exists [], (c :: l). unfold frac_part. auto.
Qed.

Lemma exp_len_ok l : exists b r, l = b ++ r /\ exp_part b /\ List.length b = exp_len l.
Proof.
  destruct l as [|c l]; [exists [], []; cbn; unfold exp_part; auto|]. cbn.
  destruct ((c =? 69) || (c =? 101)) eqn:He; [|exists [], (c :: l); unfold exp_part; auto].
  destruct (sign_split (fun c => (c =? 43) || (c =? 45)) l) as (s & r & -> & Hs & Hx). rewrite <- Hs.
  rewrite skipn_exact by auto.
  destruct (Nat.eqb_spec (run_of_digits r) 0); [exists [], (c :: s ++ r); unfold exp_part; auto|].
  destruct (run_prefix r) as (ds & r' & -> & HF & Hl). destruct ds as [|d ds]; [cbn in *; lia|].
  exists (c :: s ++ d :: ds), r'. split; [cbn; now rewrite <- app_assoc|]. split.
  - right. exists c, s, d, ds. repeat split; auto.
    + apply orb_prop in He as [He|He]; apply Nat.eqb_eq in He; auto.
    + destruct Hx as [->|(x & -> & Hx)]; auto. right. apply orb_prop in Hx as [Hx|Hx]; apply Nat.eqb_eq in Hx; subst; auto.
  - cbn in *. rewrite app_length. cbn. lia.
Qed.

Lemma num_len_sound l n : num_len l = Some n -> exists p r, l = p ++ r /\ List.length p = n /\ is_number p.
Proof.
  unfold num_len. destruct (sign_split (Nat.eqb 45) l) as (s & r & -> & Hs & Hx). rewrite <- Hs. rewrite skipn_exact by auto.
  destruct r as [|c r]; [discriminate|]. cbn [int_len].
  assert (Hsign : s = [] \/ s = [45]).
  { destruct Hx as [->|(x & -> & Hx)]; auto. right. apply Nat.eqb_eq in Hx. now subst. }
  assert (Hi : forall a, a = List.length s + 0 -> True) by auto. clear Hi.
  assert (Hrest : forall body r1 k, body ++ r1 = c :: r -> List.length body = k -> int_part (s ++ body) ->
    Some (List.length s + k + (frac_len (skipn k (c :: r)) + (exp_len (skipn (frac_len (skipn k (c :: r))) (skipn k (c :: r))) + 0))) = Some n ->
    exists p r0, s ++ c :: r = p ++ r0 /\ List.length p = n /\ is_number p).
  { intros body r1 k <- Hk Hi [= <-]. rewrite skipn_exact by auto.
    destruct (frac_len_ok r1) as (f & r2 & -> & Hf & Hfl). rewrite <- Hfl, skipn_exact by auto.
    destruct (exp_len_ok r2) as (e & r3 & -> & He & Hel). rewrite <- Hel.
    exists ((s ++ body) ++ f ++ e), r3. repeat split.
    - now rewrite <- !app_assoc.
    - rewrite !app_length. lia.
    - exists (s ++ body), f, e. auto. }
  destruct (Nat.eqb_spec c 48) as [->|Hc].
  - apply (Hrest [48] r 1); auto. exists s, [48]. auto.
  - destruct (dgb c) eqn:Hd; [|discriminate]. destruct (run_prefix r) as (ds & r1 & Hr & HF & Hl).
    apply (Hrest (c :: ds) r1 (1 + run_of_digits r)).
    + rewrite Hr. reflexivity.
    + cbn. lia.
    + exists s, (c :: ds). repeat split; auto. right. exists c, ds. repeat split; auto; apply dgb_spec in Hd; unfold is_dg in Hd; lia.
Qed.

Lemma exp_starts c r : exp_part c -> c <> [] -> run_of_digits (c ++ r) = 0 /\ frac_len (c ++ r) = 0.
Proof.
  intros [->|(e & s & d & ds & -> & He & _)]; [congruence|]. intros _. destruct He as [-> | ->]; cbn; auto.
Qed.
Lemma frac_starts b r : frac_part b -> b <> [] -> run_of_digits (b ++ r) = 0.
Proof. intros [->|(d & ds & -> & _)]; [congruence|]. auto. Qed.

Lemma exp_len_complete c r : exp_part c -> List.length c <= exp_len (c ++ r).
Proof.
  intros [->|(e & s & d & ds & -> & He & Hs & HF)]; [cbn; lia|]. cbn [app exp_len].
  assert ((e =? 69) || (e =? 101) = true) as -> by (destruct He as [-> | ->]; reflexivity).
  rewrite <- app_assoc.
  assert (Hl : sign_len (fun c => (c =? 43) || (c =? 45)) (s ++ (d :: ds) ++ r) = List.length s).
  { destruct Hs as [-> |[-> | ->]]; cbn; auto. inversion HF as [|? ? Hd]; subst. unfold is_dg in Hd.
    destruct (Nat.eqb_spec d 43); [lia|]. destruct (Nat.eqb_spec d 45); [lia|]. reflexivity. }
  rewrite Hl, skipn_exact by auto. rewrite run_app by auto. cbn [List.length Nat.add Nat.eqb]. cbv zeta.
  rewrite app_length. cbn. lia.
Qed.

Lemma frac_exp_complete b c r : frac_part b -> exp_part c ->
  List.length (b ++ c) <= frac_len (b ++ c ++ r) + exp_len (skipn (frac_len (b ++ c ++ r)) (b ++ c ++ r)).
Proof.
  intros [->|(d & ds & -> & HF)] Hc.
  - cbn [app]. destruct c as [|x c]; [cbn; lia|].
    assert (Hx : x :: c <> []) by discriminate.
    rewrite (proj2 (exp_starts _ r Hc Hx)). cbn [skipn]. pose proof (exp_len_complete _ r Hc). lia.
  - change ((46 :: d :: ds) ++ c ++ r) with (46 :: (d :: ds) ++ c ++ r). cbn [frac_len].
    rewrite run_app by auto. cbn [List.length Nat.add Nat.eqb negb andb]. cbv iota.
    destruct c as [|x c].
    + rewrite app_nil_r. cbn. lia.
    + assert (Hx : x :: c <> []) by discriminate. rewrite (proj1 (exp_starts _ r Hc Hx)).
      change (46 :: (d :: ds) ++ (x :: c) ++ r) with ((46 :: d :: ds) ++ (x :: c) ++ r).
      rewrite (skipn_exact (46 :: d :: ds)) by (cbn; lia). pose proof (exp_len_complete _ r Hc). rewrite app_length. cbn in *. lia.
Qed.

Lemma num_len_complete p r : is_number p -> exists n, num_len (p ++ r) = Some n /\ List.length p <= n.
Proof.
  intros (a & b & c & -> & (s & body & -> & Hs & Hb) & Hf & He).
  rewrite <- !app_assoc. unfold num_len.
  assert (Hl : sign_len (Nat.eqb 45) (s ++ body ++ b ++ c ++ r) = List.length s).
  { destruct Hs as [-> | ->]; [|reflexivity]. destruct Hb as [->|(d & ds & -> & Hd & _)]; [reflexivity|].
    cbn [app sign_len List.length]. assert (45 =? d = false) as -> by (apply Nat.eqb_neq; lia). reflexivity. }
  rewrite Hl, skipn_exact by auto.
  assert (Hi : int_len (body ++ b ++ c ++ r) = Some (List.length body) \/
     (b ++ c = [] /\ exists k, int_len (body ++ b ++ c ++ r) = Some k /\ List.length body <= k)).
  { destruct Hb as [->|(d & ds & -> & Hd & HF)]; [left; reflexivity|].
    cbn [app int_len]. destruct (Nat.eqb_spec d 48); [lia|].
    assert (dgb d = true) as -> by (apply dgb_spec; unfold is_dg; lia). rewrite run_app by auto.
    destruct b as [|x b].
    - destruct c as [|y c].
      + right. split; auto. eexists. split; [reflexivity|]. cbn. lia.
      + left. cbn [app]. assert (Hy : y :: c <> []) by discriminate.
        change (y :: c ++ r) with ((y :: c) ++ r). rewrite (proj1 (exp_starts _ r He Hy)). cbn. f_equal. lia.
    - left. assert (Hx : x :: b <> []) by discriminate. rewrite (frac_starts _ (c ++ r) Hf Hx). cbn. f_equal. lia. }
  destruct Hi as [-> | (Hbc & k & -> & Hk)].
  - eexists. split; [reflexivity|]. rewrite skipn_exact by auto. pose proof (frac_exp_complete b c r Hf He).
    rewrite !app_length in *. lia.
  - apply app_eq_nil in Hbc as [-> ->]. eexists. split; [reflexivity|]. rewrite !app_length. cbn. lia.
Qed.

(** *** The PEG consumes just that *)
Let char := peg_char J (fun _ _ => eq_refl).
Let anyc := peg_any J (fun _ _ => eq_refl).
Let digits1 := peg_digits1 J (fun _ _ => eq_refl).

Lemma peg_natural l : peg J natural_number l (int_len l).
Proof.
  assert (Hz := char 48 l). apply G_choice. destruct l as [|c l].
  - apply G_or_next; auto. apply G_or_next; [|constructor]. apply G_join, G_seq, G_and_fail. apply (anyc [49; 50; 51; 52; 53; 54; 55; 56; 57] []).
  - cbn [int_len]. rewrite (Nat.eqb_sym 48 c) in Hz. destruct (Nat.eqb_spec c 48) as [->|Hc].
    + now apply G_or_here.
    + apply G_or_next; auto.
      assert (Hd := anyc [49; 50; 51; 52; 53; 54; 55; 56; 57] (c :: l)). cbn beta iota in Hd.
      assert (Hx : existsb (fun t => t =? c) [49; 50; 51; 52; 53; 54; 55; 56; 57] = dgb c).
      { rewrite <- ten_spec. unfold ten. cbn [existsb]. destruct (Nat.eqb_spec 48 c); [congruence|reflexivity]. }
      rewrite Hx in Hd. destruct (dgb c).
      * apply G_or_here. apply G_join, G_seq.
        apply and_more; [exact Hd|]. cbn [skipn]. apply and_last. apply G_zom. apply (peg_digits J (fun _ _ => eq_refl)).
      * apply G_or_next; [|constructor]. apply G_join, G_seq, G_and_fail. exact Hd.
Qed.

Lemma peg_integer l : let s := sign_len (Nat.eqb 45) l in
  peg J integer l (match int_len (skipn s l) with Some n => Some (s + n) | None => None end).
Proof.
  cbn zeta. apply G_join, G_seq.
  assert (Hs : peg J (PChoice (PAllOf [45]) [PEpsilon]) l (Some (sign_len (Nat.eqb 45) l))) by apply peg_sign, char.
  pose proof (peg_natural (skipn (sign_len (Nat.eqb 45) l) l)) as H. destruct (int_len _) as [n|].
  - apply and_more; [exact Hs|]. now apply and_last.
  - eapply and_stop; [exact Hs|]. now apply G_and_fail.
Qed.

Lemma peg_fraction l : peg J (PMaybe fraction) l (Some (frac_len l)).
Proof.
  assert (Hp := char 46 l).
  destruct l as [|c l]; [apply G_maybe_none, G_join, G_seq, G_and_fail, G_ignore, Hp|]. cbn [frac_len]. rewrite Nat.eqb_sym in Hp.
  destruct (c =? 46); cbn [andb].
  - pose proof (digits1 l) as Hd. destruct (run_of_digits l =? 0); cbn [negb].
    + apply G_maybe_none, G_join, G_seq. eapply and_stop; [apply G_ignore, Hp|]. now apply G_and_fail.
    + apply G_maybe_some, G_join, G_seq. apply and_more; [apply G_ignore, Hp|]. now apply and_last.
  - apply G_maybe_none, G_join, G_seq, G_and_fail, G_ignore, Hp.
Qed.

Lemma peg_exponent l : peg J (PMaybe exponent) l (Some (exp_len l)).
Proof.
  assert (Hp := anyc [69; 101] l).
  destruct l as [|c l]; [apply G_maybe_none, G_join, G_seq, G_and_fail, G_ignore, Hp|]. cbn [exp_len].
  cbn [existsb] in Hp. rewrite orb_false_r, (Nat.eqb_sym 69), (Nat.eqb_sym 101) in Hp.
  destruct ((c =? 69) || (c =? 101)); [|apply G_maybe_none, G_join, G_seq, G_and_fail, G_ignore, Hp]. cbv zeta.
  assert (Hs : peg J (PChoice (PAnyOf [43; 45]) [PEpsilon]) l (Some (sign_len (fun c => (c =? 43) || (c =? 45)) l))).
  { apply peg_sign. pose proof (anyc [43; 45] l) as H. destruct l as [|x l]; auto.
    cbn [existsb] in H. now rewrite orb_false_r, (Nat.eqb_sym 43), (Nat.eqb_sym 45) in H. }
  set (s := sign_len _ l) in *. pose proof (digits1 (skipn s l)) as Hd. destruct (run_of_digits (skipn s l) =? 0).
  - apply G_maybe_none, G_join, G_seq. eapply and_stop; [apply G_ignore, Hp|]. cbn [skipn].
    eapply and_stop; [exact Hs|]. now apply G_and_fail.
  - apply G_maybe_some, G_join, G_seq. apply and_more; [apply G_ignore, Hp|]. cbn [skipn].
    apply and_more; [exact Hs|]. now apply and_last.
Qed.

Lemma peg_number l : peg J number l (num_len l).
Proof.
  apply G_map, G_seq. unfold num_len. pose proof (peg_integer l) as Hi. cbn zeta in *.
  set (s := sign_len (Nat.eqb 45) l) in *. destruct (int_len (skipn s l)) as [n|]; [|now apply G_and_fail].
  assert (Hsk : skipn n (skipn s l) = skipn (s + n) l) by now rewrite skipn_skipn'.
  rewrite Hsk. apply and_more; auto. apply and_more; [apply peg_fraction|]. rewrite Nat.add_0_r. apply and_last, peg_exponent.
Qed.

(** The only user code in it is the construction of a number_type. *)
Lemma number_throws i e : evals J Parse number i (Exn e) -> exists args, cons t_number args = FThrow e.
Proof.
  intros He. destruct (C47_exceptions_are_users J Parse number i e He) as (_ & q & f & args & Hq & Hf & Hk).
  apply (reach_grammar J []) in Hq; [|reflexivity]. vm_compute in Hq.
  repeat (destruct Hq as [<-|Hq]; [
    destruct Hk as [[r Hk]|[[r Hk]|(c & t & Hk & _)]]; try discriminate Hk; injection Hk as <- <-;
    cbn in Hf; destruct args as [|v [|]]; try discriminate Hf; destruct (tuple_vals v); try discriminate Hf; eauto |]).
  destruct Hq.
Qed.

(** ** The number parser takes the longest number at the front of the input, and fails only
    if there is none. *)
Theorem C39_number_is_longest i : valid J i ->
  (exists e args, evals J Parse number i (Exn e) /\ cons t_number args = FThrow e) \/
  (exists n v tr, evals J Parse number i (Done (Res (Some v) (after i n)) tr) /\
     is_number (firstn n (elems J i)) /\
     forall k, k <= sp_len i -> is_number (firstn k (elems J i)) -> k <= n) \/
  (exists tr, evals J Parse number i (Done (Res None i) tr) /\
     forall k, ~ is_number (firstn k (elems J i))).
Proof.
  intros Hv. assert (Hin : json_entry number) by now left. destruct (json_checks _ Hin) as (_ & Hs & Hc & Hl).
  pose proof (peg_parse J number i _ json_program Hv Hc Hl (steady_b_ok J [0; 1; 2] _ Hs) (peg_number (elems J i))) as [[e H]|H].
  { left. destruct (number_throws i e H) as [args Ha]. eauto. }
  right. destruct (num_len (elems J i)) as [n|] eqn:Hn.
  - left. destruct H as (v & tr & H). exists n, v, tr. split; auto.
    destruct (num_len_sound _ _ Hn) as (p & r & Hp & Hlen & Hnum). rewrite Hp. split.
    + now rewrite firstn_exact.
    + intros k Hk Hkn. rewrite <- Hp in Hkn. destruct (num_len_complete _ (skipn k (elems J i)) Hkn) as (n' & Hn' & Hle).
      rewrite firstn_skipn, Hn in Hn'. injection Hn' as <-. rewrite firstn_length, (elems_length J i Hv) in Hle. lia.
  - right. destruct H as (tr & H). exists tr. split; auto. intros k Hk.
    destruct (num_len_complete _ (skipn k (elems J i)) Hk) as (n' & Hn' & _). rewrite firstn_skipn in Hn'. congruence.
Qed.
End Json.

(** A program with these constructors: each makes an object that holds what it was given.
    The input: a number, then something that is not part of it. *)
Definition json_cons (t : ty) (args : list val) : fnres :=
  match t with TUser k => FRet (RVal (VUser k args)) | _ => FIll end.
Definition json_text (b : nat) : list nat :=
  match b with 1 => codes "-12.5e+3x" | _ => codes " [ 1 , {} ,null,""a\n""] ." end.

Example C39_case : json_cons_typed json_cons /\
  (exists tr, evals (json_env json_text json_cons) Parse number (Span 1 0 9)
    (Done (Res (Some (RVal (VUser 3 [VSpan (Span 1 0 3); VOpt (Some (VSpan (Span 1 4 1))); VOpt (Some (VSpan (Span 1 6 2)))])))
               (Span 1 8 1)) tr)) /\
  is_number (codes "-12.5e+3") /\
  evals (json_env json_text json_cons) Parse number (Span 1 8 1) (Done (Res None (Span 1 8 1)) []) /\
  (exists v tr, evals (json_env json_text json_cons) Parse json_value (Span 2 0 24) (Done (Res (Some v) (Span 2 23 1)) tr)).
Proof.
  split.
  { intros t args tys H HF. destruct t as [| | | | | | | |[|[|[|[|[|[|]]]]]]]; try discriminate; (split; [discriminate|reflexivity]). }
  split; [eexists; runs 30|]. split; [|split; [runs 30|eexists; eexists; runs 60]].
  exists (codes "-12"), (codes ".5"), (codes "e+3"). split; [reflexivity|]. split; [|split].
  - exists [45], [49; 50]. split; [reflexivity|]. split; auto. right. exists 49, [50]. repeat split; try lia. repeat constructor; unfold is_dg; lia.
  - right. exists 53, []. split; auto. repeat constructor; unfold is_dg; lia.
  - right. exists 101, [43], 51, []. repeat split; auto. repeat constructor; unfold is_dg; lia.
Qed.

Print Assumptions C39_json_terminates.
Print Assumptions C39_number_is_longest.
