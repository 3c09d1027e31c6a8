(** * With state: runs end in every world *)
From Coq Require Import String List Arith ZArith Bool Lia Relations.
From Verif Require Import Types Compound Parser Outcome CompoundFacts Exec Mono Derive Typing Join Leaves Sound
  BigStep BigSound BigComplete Peg Throws Runs PropCore Term PropTerm Stateful StatefulFacts StatefulSafe.
Import ListNotations.

Section Term.
Context {T V W : Type} (E : env T V).
Variable sfn : nat -> list val -> W -> fnres * W.
Variable sct : ty -> list val -> W -> fnres * W.
Notation srun := (srun E sfn sct).
Notation eff := (@eff W).
Notation valid := (valid E).
Notation ce := (can_be_empty E).

(** ** What is left over, and successes without consuming *)
Definition okp (p : parser T) (i : span) (r : presult) : Prop :=
  match r_ok r with
  | None => r_rem r = i
  | Some _ => suffix i (r_rem r) /\ (sp_len (r_rem r) = sp_len i -> ce p)
  end.
Definition ends {A} (x : eff A) (Q : A -> Prop) : Prop := forall w a tr w', x w = (Done a tr, w') -> Q a.
Lemma ends_bind {A B} (x : eff A) (f : A -> eff B) (P : A -> Prop) Q : ends x P -> (forall a, P a -> ends (f a) Q) -> ends (sbind x f) Q.
Proof.
  intros Hx Hf w b tr w'. unfold sbind. destruct (x w) as [[a tr1| | | |] w1] eqn:He; try discriminate.
  destruct (f a w1) as [[b' tr2| | | |] w2] eqn:Hf'; try discriminate. intros [= <- <- <-]. eapply Hf; eauto.
Qed.
Lemma ends_ret {A} (a : A) (Q : A -> Prop) : Q a -> ends (sret a) Q.
Proof. intros H w b tr w' [= <- _ _]. auto. Qed.
Lemma ends_any {A} (x : eff A) : ends x (fun _ => True).
Proof. intros w a tr w' _. exact Logic.I. Qed.
Lemma ends_ill {A} (Q : A -> Prop) : ends (lift Ill) Q.
Proof. discriminate. Qed.
Lemma ends_oof {A} (Q : A -> Prop) : ends (lift OOF) Q.
Proof. discriminate. Qed.
Lemma ends_lift_bind {A B} (o : outcome A) (f : A -> eff B) Q : (forall a, ends (f a) Q) -> ends (sbind (lift o) f) Q.
Proof. intros H. eapply ends_bind; [apply ends_any|auto]. Qed.

Lemma run_okp n m p i r tr : valid i -> run E n m p i = Done r tr -> okp p i r.
Proof.
  intros Hv Hr. pose proof (run_rem E n m p i r tr Hv Hr) as H. unfold okp. destruct r as [[v|] rem]; cbn in *; auto.
  split; auto. intros Hl. apply evals_done in Hr. eapply can_be_empty_sound; eauto.
Qed.
Lemma lift_okp n m p i (o : outcome presult) : valid i -> run E n m p i = o -> ends (lift o) (okp p i).
Proof. intros Hv <- w r tr w' [= Hr _]. eapply run_okp; eauto. Qed.
Lemma look_okp n p i : valid i -> ends (srun n Look p i) (okp p i).
Proof. intros Hv w r tr w'. rewrite look_run. intros [= Hr _]. eapply run_okp; eauto. Qed.

Definition fokp (q : parser T) (f : @sfun W) : Prop := forall i, valid i -> ends (f i) (okp q i).

Lemma slen i j : suffix i j -> sp_len j <= sp_len i.
Proof. apply suffix_len. Qed.

Lemma ends_mono {A} (x : eff A) (P Q : A -> Prop) : ends x P -> (forall a, P a -> Q a) -> ends x Q.
Proof. intros H HPQ w a tr w' Hx. eauto. Qed.

Lemma rep_okp q f k : fokp q f -> forall x b s, valid x -> ends (srep_loop f k x b s)
  (fun '(i', _, s') => suffix x i' /\ (s' = false -> s = false /\ i' = x) /\ (s = false -> s' = true -> sp_len i' = sp_len x -> ce q)).
Proof.
  intros Hf. induction k as [|k IH]; intros x b s Hv; cbn [srep_loop]; [apply ends_oof|].
  eapply ends_bind; [apply Hf; auto|]. intros [[v|] rem] Hr; cbn [r_ok r_rem] in *.
  - destruct Hr as [Hs He]. cbn in Hs, He. apply ends_lift_bind. intros b'.
    eapply ends_mono; [apply (IH rem b' true); eauto using suffix_valid|].
    intros [[i' b2] s'] (H1 & H2 & _). assert (L1 := slen _ _ Hs). assert (L2 := slen _ _ H1).
    split; [eauto using suffix_trans|]. split.
    + intros H. destruct (H2 H). discriminate.
    + intros _ _ Hl. apply He. lia.
  - unfold okp in Hr. cbn in Hr. subst rem. apply ends_ret. split; [apply suffix_refl|]. split; auto. intros -> [=].
Qed.

Lemma exactly_okp q f : fokp q f -> forall k j x b, valid x -> ends (sexactly_loop f k j x b)
  (fun r => match r with None => True | Some (i', _) => suffix x i' /\ (k <> 0 -> sp_len i' = sp_len x -> ce q) end).
Proof.
  intros Hf. induction k as [|k IH]; intros j x b Hv; cbn [sexactly_loop].
  - apply ends_ret. split; [apply suffix_refl|congruence].
  - eapply ends_bind; [apply Hf; auto|]. intros [[v|] rem] Hr; cbn [r_ok r_rem] in *; [|now apply ends_ret].
    destruct Hr as [Hs He]. cbn in Hs, He. apply ends_lift_bind. intros b'.
    eapply ends_mono; [apply (IH (S j) rem b'); eauto using suffix_valid|].
    intros [[i' b2]|]; auto. intros [H1 _]. assert (L1 := slen _ _ Hs). assert (L2 := slen _ _ H1).
    split; [eauto using suffix_trans|]. intros _ Hl. apply He. lia.
Qed.

Lemma delim_okp q d fp fd pv dv : fokp q fp -> fokp d fd -> forall k res i b,
  valid (match r_ok res with Some _ => r_rem res | None => i end) ->
  ends (sdelim_loop fp fd pv dv k res i b) (fun '(i', _) => suffix (match r_ok res with Some _ => r_rem res | None => i end) i').
Proof.
  intros Hp Hd. induction k as [|k IH]; intros [[v|] x] i b Hv; cbn [sdelim_loop r_ok r_rem] in *; try apply ends_oof.
  2:{ apply ends_ret. apply suffix_refl. }
  apply ends_lift_bind. intros b1. eapply ends_bind; [apply Hd; auto|].
  intros [[w|] remd] Hr; cbn [r_ok r_rem]; [|apply ends_ret; apply suffix_refl].
  destruct Hr as [Hsd _]. cbn in Hsd. eapply ends_bind; [apply Hp; eauto using suffix_valid|]. intros res' Hr'.
  apply ends_lift_bind. intros b2. unfold okp in Hr'. destruct res' as [[v'|] remq]; cbn [r_ok r_rem] in Hr'.
  - destruct Hr' as [Hq _]. eapply ends_mono; [apply IH; cbn; eauto using suffix_valid|]. intros [i' b3]. cbn. eauto using suffix_trans.
  - eapply ends_mono; [apply IH; cbn; auto|]. intros [i' b3]. cbn. auto.
Qed.

Section Rec.
Variable rec : mode -> parser T -> @sfun W.
Variable n : nat.
Hypothesis any_okp : forall m p, fokp p (rec m p).

Lemma execute_okp ct u q idx x b : valid x -> ends (sexecute rec ct u q idx (x, b))
  (fun '(ok, (i', _)) => if ok : bool then suffix x i' /\ (sp_len i' = sp_len x -> ce q) else i' = x).
Proof.
  intros Hv. unfold sexecute. destruct idx as [k|].
  - eapply ends_bind; [apply any_okp; auto|]. intros [[v|] rem] Hr; cbn [r_ok r_rem]; [|now apply ends_ret].
    apply ends_lift_bind. intros b'. apply ends_ret. exact Hr.
  - eapply ends_bind; [apply any_okp; auto|]. intros [[v|] rem] Hr; apply ends_ret; exact Hr.
Qed.
Lemma or_okp u ps x : valid x -> forall b, ends (sexec_or rec u ps (x, b))
  (fun '(ok, (i', _)) => if ok : bool then suffix x i' /\ (sp_len i' = sp_len x -> exists q, In q (map fst ps) /\ ce q) else True).
Proof.
  intros Hv. induction ps as [|[q idx] ps IH]; intros b; cbn [sexec_or]; [now apply ends_ret|].
  eapply ends_bind; [apply execute_okp; auto|]. intros [[|] [i' b']] H.
  - apply ends_ret. destruct H as [H1 H2]. split; auto. intros Hl. exists q. cbn. auto.
  - subst i'. eapply ends_mono; [apply IH|]. intros [[|] [i' b2]]; auto. intros [H1 H2]. split; auto.
    intros Hl. destruct (H2 Hl) as (r & Hr & Hc). exists r. cbn. auto.
Qed.
Lemma and_okp u ps : forall x b, valid x -> ends (sexec_and rec u ps (x, b))
  (fun '(ok, (i', _)) => if ok : bool then suffix x i' /\ (sp_len i' = sp_len x -> Forall ce (map fst ps)) else True).
Proof.
  induction ps as [|[q idx] ps IH]; intros x b Hv; cbn [sexec_and].
  - apply ends_ret. split; [apply suffix_refl|constructor].
  - eapply ends_bind; [apply execute_okp; auto|]. intros [[|] [i' b']] H; [|now apply ends_ret].
    destruct H as [H1 H2]. eapply ends_mono; [apply IH; eauto using suffix_valid|]. intros [[|] [i2 b2]]; auto. intros [H3 H4].
    assert (L1 := slen _ _ H1). assert (L2 := slen _ _ H3). split; [eauto using suffix_trans|].
    intros Hl. cbn. constructor; [apply H2; lia|apply H4; lia].
Qed.

Lemma combine_fst {A B} (l : list A) : forall (l' : list B), List.length l = List.length l' -> map fst (combine l l') = l.
Proof. induction l; intros [|b l'] H; cbn in *; try discriminate; auto. f_equal. auto. Qed.

Lemma step_okp p i : valid i -> ends (sstep E sfn sct rec n Parse p i) (okp p i).
Proof.
  intros Hv. pose proof (fun m q => any_okp m q i Hv) as Hq.
  destruct p as [arr|arr|arr| | |q qs|q qs|q|q n0|q|q|q d|q|q|q|q f|q f|q s|c]; cbn [sstep].
  - eapply (lift_okp 1 Parse); auto; reflexivity.
  - eapply (lift_okp 1 Parse); auto; reflexivity.
  - eapply (lift_okp 1 Parse); auto; reflexivity.
  - eapply (lift_okp 1 Parse); auto; reflexivity.
  - eapply (lift_okp 1 Parse); auto; reflexivity.
  - unfold schoice_parse. destruct (result_fors E (q :: qs)) as [tys|] eqn:Ht; [|apply ends_ill].
    destruct (_ || _); [|apply ends_ill]. eapply ends_bind; [apply or_okp; auto|].
    intros [[|] [i' b]] H; apply ends_ret; [|reflexivity]. destruct H as [H1 H2]. split; auto. intros Hl.
    destruct (H2 Hl) as (r & Hr & Hc). apply in_map_iff in Hr as ([r' idx] & <- & Hr). apply in_combine_l in Hr.
    econstructor; eauto.
  - unfold ssequence_parse. destruct (result_fors E (q :: qs)) as [tys|] eqn:Ht; [|apply ends_ill].
    eapply ends_bind; [apply and_okp; auto|].
    intros [[|] [i' b]] H; apply ends_ret; [|reflexivity]. destruct H as [H1 H2]. split; auto. intros Hl.
    constructor. apply all_ce_forall. rewrite combine_fst in H2; auto.
    rewrite filter_out_void_spec. cbn [snd]. rewrite seq_from_length. now apply result_fors_length in Ht.
  - destruct (result_for E q) as [t|]; [|apply ends_ill]. unfold smaybe_parse.
    eapply ends_bind; [apply Hq|]. intros [[v|] rem] Hr; cbn [r_ok r_rem].
    + apply ends_lift_bind. intros b'. apply ends_ret. destruct Hr. split; auto. constructor.
    + unfold okp in Hr. cbn in Hr. subst rem. apply ends_ret. split; [apply suffix_refl|constructor].
  - destruct (n0 =? 0) eqn:H0; [apply ends_ill|]. apply Nat.eqb_neq in H0. destruct (result_for E q) as [t|]; [|apply ends_ill].
    unfold sexactly_parse. eapply ends_bind; [apply (exactly_okp q); auto using any_okp|].
    intros [[i' b]|] H; apply ends_ret; [|reflexivity]. destruct H. split; auto. constructor; auto.
  - destruct (result_for E q) as [t|]; [|apply ends_ill].
    unfold sone_or_more_parse. eapply ends_bind; [apply (rep_okp q); auto using any_okp|].
    intros [[i' b] [|]] (H1 & H2 & H3); apply ends_ret.
    + split; auto. intros Hl. constructor. auto.
    + destruct (H2 eq_refl) as [_ ->]. reflexivity.
  - destruct (result_for E q) as [t|]; [|apply ends_ill].
    unfold szero_or_more_parse. eapply ends_bind; [apply (rep_okp q); auto using any_okp|].
    intros [[i' b] s] (H1 & H2 & H3); apply ends_ret. split; auto. constructor.
  - destruct (result_for E q) as [tp|]; [|apply ends_ill]. destruct (result_for E d) as [td|]; [|apply ends_ill].
    unfold sdelimit_parse. eapply ends_bind; [apply Hq|]. intros [[v|] rem] Hr; cbn [has_value r_ok]; [|now apply ends_ret].
    destruct Hr as [Hs He]. cbn in Hs, He.
    eapply ends_bind; [apply (delim_okp q d); auto using any_okp; cbn; eauto using suffix_valid|].
    intros [i' b] H. cbn in H. apply ends_ret. split; [cbn; eauto using suffix_trans|]. cbn. intros Hl. constructor. apply He.
    assert (L1 := slen _ _ Hs). assert (L2 := slen _ _ H). lia.
  - eapply ends_mono; [apply Hq|]. intros r. unfold okp. destruct (r_ok r); auto. intros []. split; auto. now constructor; auto.
  - unfold scomplete_run. eapply ends_bind; [apply Hq|]. intros res Hr. destruct (_ || _); apply ends_ret; [reflexivity|].
    revert Hr. unfold okp. destruct (r_ok res); auto. intros []. split; auto. now constructor; auto.
  - destruct (join_special E q n) as [f|] eqn:Hj.
    + apply (lift_okp (S n) Parse); auto. cbn [run step]. now rewrite Hj.
    + unfold sjoin_generic. destruct (result_for E q) as [t|]; [|apply ends_ill]. destruct (joinable t); [|apply ends_ill].
      unfold sjoin_parse. eapply ends_bind; [apply Hq|]. intros [[[|v]|] rem] Hr; cbn [r_ok r_rem]; [apply ends_ill| |now apply ends_ret].
      destruct Hr. apply ends_lift_bind. intros [s|]; apply ends_ret; [|reflexivity]. split; auto. now constructor; auto.
  - destruct (result_for E (PMap q f)); [|apply ends_ill]. unfold smap_parse. eapply ends_bind; [apply Hq|].
    intros [[v|] rem] Hr; cbn [r_ok r_rem]; [|now apply ends_ret]. destruct Hr.
    eapply ends_bind; [apply ends_any|]. intros w _. apply ends_ret. split; auto. now constructor; auto.
  - destruct (result_for E (PFilter q f)); [|apply ends_ill]. unfold sfilter_parse. eapply ends_bind; [apply Hq|].
    intros [[v|] rem] Hr; cbn [r_ok r_rem]; [|now apply ends_ret]. destruct Hr.
    eapply ends_bind; [apply ends_any|]. intros [|c] _; [apply ends_ill|]. destruct (as_bool E c); apply ends_ret; [|reflexivity].
    split; auto. now constructor; auto.
  - eapply ends_mono; [apply Hq|]. intros r. unfold okp. destruct (r_ok r); auto. intros []. split; auto. now constructor; auto.
  - unfold scustom_parse. eapply ends_bind; [apply Hq|]. intros res Hr.
    destruct (cust_conv E c) as [|t|t] eqn:Hcv.
    + apply ends_ret. revert Hr. unfold okp. destruct (r_ok res); auto. intros []. split; auto. now constructor; auto.
    + destruct res as [[[|v]|] rem]; cbn [r_ok r_rem]; [apply ends_ill| |apply ends_ret; exact Hr].
      destruct Hr. eapply ends_bind; [apply ends_any|]. intros w _. apply ends_ret. split; auto. now constructor; auto.
    + destruct res as [[[|v]|] rem]; cbn [r_ok r_rem]; [apply ends_ill| |].
      * destruct Hr. eapply ends_bind; [apply ends_any|]. intros w _. apply ends_ret. split; auto. intros _. eapply ce_whole; eauto.
      * unfold okp in Hr. cbn in Hr. subst rem. eapply ends_bind; [apply ends_any|]. intros w _. apply ends_ret.
        split; [apply suffix_refl|]. intros _. eapply ce_whole; eauto.
Qed.
End Rec.

Lemma srun_okp n : forall m p i, valid i -> ends (srun n m p i) (okp p i).
Proof.
  assert (H : forall p i, valid i -> ends (srun n Parse p i) (okp p i)).
  { induction n as [|n' IH]; intros p i Hv; [apply ends_oof|]. cbn [Stateful.srun]. apply step_okp; auto.
    intros [|] q j Hj; auto using look_okp. }
  intros [|] p i Hv; auto using look_okp.
Qed.

(** ** Computations that do not run out of fuel once they have enough, in any world *)
Definition ssettles {A} (f : nat -> nat -> eff A) : Prop :=
  forall w, exists o w' N, o <> OOF /\ forall n k, N <= n -> N <= k -> f n k w = (o, w').

Lemma ss_lift {A} (f : nat -> nat -> outcome A) : settles f -> ssettles (fun n k => lift (f n k)).
Proof. intros (o & N & Ho & H) w. exists o, w, N. split; auto. intros. unfold lift. now rewrite H. Qed.
Lemma ss_const {A} (x : outcome A) : fin x -> ssettles (fun _ _ => lift x).
Proof. intros H. apply (ss_lift (fun _ _ => x)). now apply settles_const. Qed.
Lemma ss_ext {A} (f g : nat -> nat -> eff A) : (forall n k, f n k = g n k) -> ssettles f -> ssettles g.
Proof. intros He H w. destruct (H w) as (o & w' & N & Ho & Hf). exists o, w', N. split; auto. intros. rewrite <- He. auto. Qed.
Lemma ss_bind {A B} (f : nat -> nat -> eff A) (g : nat -> nat -> A -> eff B) :
  ssettles f -> (forall a, (exists n k w tr w', f n k w = (Done a tr, w')) -> ssettles (fun n k => g n k a)) ->
  ssettles (fun n k => sbind (f n k) (g n k)).
Proof.
  intros Hf Hg w. destruct (Hf w) as (o & w1 & N & Ho & Hf').
  destruct o as [a tr| |e| |]; try congruence.
  2:{ exists UB, w1, N. split; [discriminate|]. intros n k Hn Hk. unfold sbind. now rewrite Hf'. }
  2:{ exists (Exn e), w1, N. split; [discriminate|]. intros n k Hn Hk. unfold sbind. now rewrite Hf'. }
  2:{ exists Ill, w1, N. split; [discriminate|]. intros n k Hn Hk. unfold sbind. now rewrite Hf'. }
  destruct (Hg a) with (w := w1) as (o' & w2 & N' & Ho' & Hg').
  { exists N, N, w, tr, w1. auto. }
  exists (bind (Done a tr) (fun _ => o')), w2, (N + N'). split.
  - cbn. destruct o'; congruence.
  - intros n k Hn Hk. unfold sbind. rewrite Hf' by lia. rewrite Hg' by lia. cbn. destruct o'; reflexivity.
Qed.
Lemma ss_pre {A} (f : nat -> nat -> eff A) : ssettles f -> ssettles (fun n k => match k with O => lift OOF | S k' => f n k' end).
Proof.
  intros H w. destruct (H w) as (o & w' & N & Ho & Hf). exists o, w', (S N). split; auto.
  intros n [|k] Hn Hk; [lia|]. apply Hf; lia.
Qed.
Definition sfin {A} (x : eff A) : Prop := forall w, fst (x w) <> OOF.
Lemma ss_fin {A} (x : eff A) : sfin x -> ssettles (fun _ _ => x).
Proof. intros H w. specialize (H w). destruct (x w) as [o w'] eqn:He. exists o, w', 0. split; auto. Qed.
Lemma sfin_bind {A B} (x : eff A) (f : A -> eff B) : sfin x -> (forall a, sfin (f a)) -> sfin (sbind x f).
Proof.
  intros Hx Hf w. unfold sbind. specialize (Hx w). destruct (x w) as [[a tr| | | |] w1]; cbn in *; try congruence.
  specialize (Hf a w1). destruct (f a w1) as [[b tr'| | | |] w2]; cbn in *; congruence.
Qed.
Lemma sfin_lift {A} (o : outcome A) : fin o -> sfin (lift o).
Proof. intros H w. exact H. Qed.
Lemma sfin_ret {A} (a : A) : sfin (sret a).
Proof. intros w. discriminate. Qed.
Lemma sfin_call f args : sfin (scall E sfn sct f args).
Proof. intros w. unfold scall. destruct (sinvoke E sfn sct f args w) as [[| |] ?]; discriminate. Qed.
Hint Resolve sfin_ret sfin_call : core.
Ltac sft := repeat first
  [ apply sfin_bind; [|intros ?]
  | match goal with
    | |- sfin (match ?x with _ => _ end) => destruct x
    | |- sfin (if ?x then _ else _) => destruct x
    end
  | progress intros
  | solve [auto]
  | (apply sfin_lift; solve [auto using fin_store, fin_insert, fin_insert1, fin_insert2, fin_array, fin_opt, fin_ret, fin_join|discriminate]) ].
Ltac ssc := apply ss_fin; sft.

(** Of a family of runs, one for each amount of fuel, in which what is left over is as above *)
Section Family.
Variable R : nat -> mode -> parser T -> @sfun W.
Hypothesis R_okp : forall n m p i, valid i -> ends (R n m p i) (okp p i).
Definition scalm (m : mode) (q : parser T) (i : span) : Prop := ssettles (fun n _ => R n m q i).
Definition scalled (L : Prop) m q i : Prop := forall j, suffix i j -> sp_len j < sp_len i \/ L -> scalm m q j.

Lemma R_at n k m q i w r tr w' : valid i -> (fun n (_ : nat) => R n m q i) n k w = (Done r tr, w') -> okp q i r.
Proof. intros Hv H. exact (R_okp n m q i Hv w r tr w' H). Qed.

Lemma srep_settles m q : ~ ce q -> forall len i, sp_len i <= len -> valid i -> (forall j, suffix i j -> scalm m q j) ->
  forall b s, ssettles (fun n k => srep_loop (R n m q) k i b s).
Proof.
  intros Hq. induction len as [len IH] using lt_wf_ind. intros i Hl Hv Hc b s.
  pose (body := fun n k' => sbind (R n m q i) (fun res => match r_ok res with
       | None => sret (r_rem res, b, s)
       | Some v => sbind (lift (b_insert_back b v)) (fun b' => srep_loop (R n m q) k' (r_rem res) b' true) end)).
  apply (ss_ext (fun n k => match k with O => lift OOF | S k' => body n k' end)); [intros n [|k]; reflexivity|].
  apply ss_pre. unfold body. clear body.
  apply ss_bind; [exact (Hc i (suffix_refl i))|].
  intros [[v|] rem] (n & k & w & tr & w' & Hr); cbn [r_ok r_rem]; [|ssc].
  apply R_at in Hr; auto. destruct Hr as [Hs He]. cbn in Hs, He.
  apply ss_bind; [apply ss_const, fin_insert|]. intros b' _.
  assert (L := slen _ _ Hs). assert (Hlt : sp_len rem < sp_len i) by (destruct (Nat.eq_dec (sp_len rem) (sp_len i)); [tauto|lia]).
  apply (IH (sp_len rem)); [lia|lia|eauto using suffix_valid|]. intros j Hj. apply Hc. eauto using suffix_trans.
Qed.

Lemma sexactly_settles m q i : valid i -> (forall j, suffix i j -> scalm m q j) ->
  forall k0 j x b, suffix i x -> ssettles (fun n _ => sexactly_loop (R n m q) k0 j x b).
Proof.
  intros Hv Hc. induction k0 as [|k0 IH]; intros j x b Hx; cbn [sexactly_loop]; [ssc|].
  assert (Hvx : valid x) by eauto using suffix_valid.
  apply ss_bind; [apply Hc; auto|].
  intros [[v|] rem] (n & k & w & tr & w' & Hr); cbn [r_ok r_rem]; [|ssc].
  apply R_at in Hr; auto. destruct Hr as [Hs _]. cbn in Hs.
  apply ss_bind; [apply ss_const, fin_array|]. intros b' _. apply IH. eauto using suffix_trans.
Qed.

Lemma sexecute_settles q idx i b ct u : scalm (idx_m idx) q i -> ssettles (fun n _ => sexecute (R n) ct u q idx (i, b)).
Proof.
  intros Hc. unfold sexecute. destruct idx as [k0|]; (apply ss_bind; [exact Hc|]); intros [[v|] rem] _; cbn [r_ok]; ssc.
Qed.

Lemma sor_settles u ps i : valid i -> (forall q idx, In (q, idx) ps -> scalm (idx_m idx) q i) ->
  forall b, ssettles (fun n _ => sexec_or (R n) u ps (i, b)).
Proof.
  intros Hv. induction ps as [|[q idx] ps IH]; intros Hc b; cbn [sexec_or]; [ssc|].
  apply ss_bind; [apply sexecute_settles; exact (Hc q idx (or_introl eq_refl))|].
  intros [[|] [i' b']] (n & k & w & tr & w' & Hr); [ssc|].
  pose proof (execute_okp (R n) (fun m p i => R_okp n m p i) CChoice u q idx i b Hv w _ tr w' Hr) as H. cbn in H. subst i'.
  apply IH. intros; apply Hc; now right.
Qed.

Lemma sand_settles u ps i0 : forall pre, valid i0 ->
  (forall l1 q l2, map fst ps = l1 ++ q :: l2 -> forall m, scalled (Forall ce (pre ++ l1)) m q i0) ->
  forall i b, suffix i0 i -> sp_len i < sp_len i0 \/ Forall ce pre ->
  ssettles (fun n _ => sexec_and (R n) u ps (i, b)).
Proof.
  induction ps as [|[q idx] ps IH]; intros pre Hv Hc i b Hi Hpre; cbn [sexec_and]; [ssc|].
  assert (Hvi : valid i) by eauto using suffix_valid.
  apply ss_bind.
  { apply sexecute_settles. apply (Hc [] q (map fst ps) eq_refl); auto. now rewrite app_nil_r. }
  intros [[|] [i' b']] (n & k & w & tr & w' & Hr); [|ssc].
  pose proof (execute_okp (R n) (fun m p i => R_okp n m p i) CSequence u q idx i b Hvi w _ tr w' Hr) as [Hs He].
  apply (IH (pre ++ [q])); auto.
  - intros l1 q' l2 Hl m. rewrite <- app_assoc. apply (Hc (q :: l1) q' l2). cbn. now rewrite Hl.
  - eauto using suffix_trans.
  - assert (Hl := slen _ _ Hs). assert (Hl0 := slen _ _ Hi).
    destruct (Nat.eq_dec (sp_len i') (sp_len i)) as [He'|]; [|left; lia].
    destruct Hpre as [|Hpre]; [left; lia|right]. apply Forall_app. split; auto.
Qed.

Lemma sdelim_settles m q d pv dv i0 : valid i0 -> ~ (ce q /\ ce d) ->
  (forall j, suffix i0 j -> scalm m q j) -> (forall m, scalled (ce q) m d i0) ->
  forall len x i b res, sp_len x <= len -> suffix i0 x -> r_rem res = x ->
  (r_ok res <> None -> sp_len x < sp_len i0 \/ ce q) ->
  ssettles (fun n k => sdelim_loop (R n m q) (R n m d) pv dv k res i b).
Proof.
  intros Hv Hne Hq Hd. induction len as [len IH] using lt_wf_ind. intros x i b res Hlen Hx Hrem Hlt.
  destruct res as [[v|] x0]; cbn [r_rem r_ok] in *; subst x0.
  2:{ apply (ss_ext (fun n k => match k with O => lift OOF | S _ => sret (i, b) end)); [intros n [|]; reflexivity|].
      apply (ss_pre (fun _ _ => sret (i, b))). ssc. }
  assert (Hlt' := Hlt ltac:(discriminate)). clear Hlt.
  assert (Hvx : valid x) by eauto using suffix_valid.
  pose (body := fun n k' =>
    sbind (lift (if pv then ret b else if dv then b_insert_back b v else b_insert_back_first b v)) (fun b1 =>
    sbind (R n m d x) (fun d0 => match r_ok d0 with
      | None => sret (x, b1)
      | Some w => sbind (R n m q (r_rem d0)) (fun res' =>
          sbind (lift (if dv then ret b1 else if has_value res'
                          then (if pv then b_insert_back b1 w else b_insert_back_second b1 w)
                          else ret b1)) (fun b2 => sdelim_loop (R n m q) (R n m d) pv dv k' res' x b2))
      end))).
  apply (ss_ext (fun n k => match k with O => lift OOF | S k' => body n k' end)); [intros n [|]; reflexivity|].
  apply ss_pre. unfold body. clear body.
  apply ss_bind; [apply ss_const; destruct pv, dv; auto using fin_ret, fin_insert, fin_insert1|]. intros b1 _.
  apply ss_bind; [apply Hd; auto|].
  intros [[w|] remd] (n & k & w0 & tr & w' & Hr); cbn [r_ok r_rem]; [|ssc].
  apply R_at in Hr; auto. destruct Hr as [Hsd Hed]. cbn in Hsd, Hed.
  assert (Hvd : valid remd) by eauto using suffix_valid.
  apply ss_bind; [apply Hq; eauto using suffix_trans|].
  intros [ok' remq] (n' & k' & w1 & tr' & w1' & Hr').
  apply R_at in Hr'; auto. unfold okp in Hr'.
  apply ss_bind; [apply ss_const; destruct dv, pv, ok'; cbn [has_value r_ok]; auto using fin_ret, fin_insert, fin_insert2|]. intros b2 _.
  destruct ok' as [v'|]; cbn [r_ok r_rem] in *.
  - destruct Hr' as [Hsq Heq]. assert (Hld := slen _ _ Hsd). assert (Hlq := slen _ _ Hsq). assert (Hlx := slen _ _ Hx).
    assert (sp_len remq < sp_len x).
    { destruct (Nat.eq_dec (sp_len remq) (sp_len x)) as [He|]; [|lia]. exfalso. apply Hne. split; [apply Heq|apply Hed]; lia. }
    apply (IH (sp_len remq)) with (x := remq); cbn; auto; try lia; eauto using suffix_trans.
  - apply (ss_ext (fun n k => match k with O => lift OOF | S _ => sret (x, b2) end)); [intros ? [|]; reflexivity|].
    apply (ss_pre (fun _ _ => sret (x, b2))). ssc.
Qed.

(** ** One layer *)
Lemma sstep_settles m p i : valid i -> repeats_well ce p -> (forall r, p = PJoin r -> repeats_well ce r) ->
  (forall m q j, In q (components E p) -> suffix i j -> sp_len j < sp_len i \/ left E ce p q -> scalm m q j) ->
  ssettles (fun n k => sstep E sfn sct (R n) k m p i).
Proof.
  intros Hv Hrw Hrj Hc.
  assert (Hs : forall m q, In q (components E p) -> left E ce p q -> scalm m q i) by (intros; apply Hc; auto using suffix_refl).
  assert (Hsj : forall m q, In q (components E p) -> left E ce p q -> forall j, suffix i j -> scalm m q j) by (intros; apply Hc; auto).
  destruct p as [arr|arr|arr| | |q qs|q qs|q|q n0|q|q|q d|q|q|q|q f|q f|q s|c]; cbn [sstep].
  - apply ss_const. exact (fin_basic E (PAnyOf arr) _ _ i m eq_refl).
  - apply ss_const. exact (fin_basic E (PNoneOf arr) _ _ i m eq_refl).
  - apply ss_const. exact (fin_basic E (PAllOf arr) _ _ i m eq_refl).
  - apply ss_const. exact (fin_basic E PAnything _ _ i m eq_refl).
  - apply ss_const. discriminate.
  - assert (Ha : forall m q', In q' (q :: qs) -> scalm m q' i) by (intros; apply Hs; auto; now constructor).
    destruct m; unfold schoice_parse, schoice_look; (destruct (result_fors E (q :: qs)) as [tys|]; [|ssc]).
    + destruct (_ || _); [|ssc].
      apply ss_bind; [apply sor_settles; auto; intros q' idx Hi; apply in_combine_l in Hi; auto|].
      intros [ok [i' b]] _. ssc.
    + apply ss_bind; [apply sor_settles; auto; intros q' idx Hi; apply in_map_iff in Hi as (? & [= <- <-] & ?); auto|].
      intros [ok [i' b]] _. ssc.
  - assert (Ha : forall l1 q' l2, q :: qs = l1 ++ q' :: l2 -> forall m, scalled (Forall ce ([] ++ l1)) m q' i).
    { intros l1 q' l2 Hl m' j Hj HL. apply Hc; auto; [cbn [components]; rewrite Hl; apply in_elt|].
      destruct HL; auto. right. eapply left_seq; eauto. }
    destruct m; unfold ssequence_parse, ssequence_look; (destruct (result_fors E (q :: qs)) as [tys|] eqn:Ht; [|ssc]).
    + apply ss_bind; [|intros [ok [i' b]] _; ssc].
      apply (sand_settles _ _ i []); auto using suffix_refl. rewrite combine_fst; auto.
      rewrite filter_out_void_spec. cbn [snd]. rewrite seq_from_length. now apply result_fors_length in Ht.
    + apply ss_bind; [|intros [ok [i' b]] _; ssc].
      apply (sand_settles _ _ i []); auto using suffix_refl. rewrite map_map. cbn [fst]. now rewrite map_id.
  - assert (H := fun m => Hs m q (or_introl eq_refl) (left_maybe E ce q)). destruct m.
    + destruct (result_for E q) as [t|]; [|ssc]. unfold smaybe_parse. apply ss_bind; [apply H|]. intros res _. ssc.
    + unfold smaybe_look. apply ss_bind; [apply H|]. intros res _. ssc.
  - destruct (n0 =? 0); [ssc|].
    assert (H : forall m j, suffix i j -> scalm m q j) by (intros m' j Hj; apply Hsj; auto; [now left|constructor]). destruct m.
    + destruct (result_for E q) as [t|]; [|ssc]. unfold sexactly_parse.
      apply ss_bind; [apply (sexactly_settles Parse q i); auto using suffix_refl|]. intros res _. ssc.
    + unfold sexactly_look. apply ss_bind; [apply (sexactly_settles Look q i); auto using suffix_refl|]. intros res _. ssc.
  - assert (H : forall m b s, ssettles (fun n k => srep_loop (R n m q) k i b s)).
    { intros m' b s. eapply srep_settles; eauto. apply Hsj; [now left|constructor]. }
    destruct m.
    + destruct (result_for E q) as [t|]; [|ssc]. unfold sone_or_more_parse. apply ss_bind; [apply H|]. intros [[? ?] ?] _. ssc.
    + unfold sone_or_more_look. apply ss_bind; [apply H|]. intros [[? ?] ?] _. ssc.
  - assert (H : forall m b s, ssettles (fun n k => srep_loop (R n m q) k i b s)).
    { intros m' b s. eapply srep_settles; eauto. apply Hsj; [now left|constructor]. }
    destruct m.
    + destruct (result_for E q) as [t|]; [|ssc]. unfold szero_or_more_parse. apply ss_bind; [apply H|]. intros [[? ?] ?] _. ssc.
    + unfold szero_or_more_look. apply ss_bind; [apply H|]. intros [[? ?] ?] _. ssc.
  - assert (Hq : forall m j, suffix i j -> scalm m q j) by (intros; apply Hsj; auto; [now left|constructor]).
    assert (Hd : forall m, scalled (ce q) m d i).
    { intros m' j Hj HL. apply Hc; auto; [right; now left|]. destruct HL; auto. right. now constructor. }
    assert (H : forall m pv dv b n w res tr w', R n m q i w = (Done res tr, w') -> has_value res = true ->
      ssettles (fun n k => sdelim_loop (R n m q) (R n m d) pv dv k res i b)).
    { intros m' pv dv b n w res tr w' Hr Hok. destruct res as [[v|] rem]; [|discriminate].
      apply (R_okp n m' q i Hv) in Hr. destruct Hr as [Hsr He]. cbn in Hsr, He.
      eapply (sdelim_settles m' q d pv dv i) with (x := rem); eauto.
      intros _. destruct (Nat.eq_dec (sp_len rem) (sp_len i)); auto. left. apply slen in Hsr. lia. }
    destruct m.
    + destruct (result_for E q) as [tp|]; [|ssc]. destruct (result_for E d) as [td|]; [|ssc]. unfold sdelimit_parse.
      apply ss_bind; [apply Hq, suffix_refl|]. intros res (n & k & w & tr & w' & Hr).
      destruct (has_value res) eqn:Hok; [|ssc]. apply ss_bind; [eapply H; eauto|]. intros [? ?] _. ssc.
    + unfold sdelimit_look. apply ss_bind; [apply Hq, suffix_refl|]. intros res (n & k & w & tr & w' & Hr).
      destruct (has_value res) eqn:Hok; [|ssc]. apply ss_bind; [eapply H; eauto|]. intros [? ?] _. ssc.
  - exact (Hs Look q (or_introl eq_refl) (left_ignore E ce q)).
  - unfold scomplete_run. apply ss_bind; [exact (Hs m q (or_introl eq_refl) (left_complete E ce q))|]. intros res _. ssc.
  - assert (H := fun m => Hs m q (or_introl eq_refl) (left_join E ce q)).
    assert (Hg : ssettles (fun n _ => sjoin_generic E (R n) m q i)).
    { unfold sjoin_generic. destruct m; [|apply H]. destruct (result_for E q) as [t|]; [|ssc].
      destruct (joinable t); [|ssc]. unfold sjoin_parse. apply ss_bind; [apply H|]. intros [[[|v]|] rem] _; cbn [r_ok]; ssc. }
    specialize (Hrj q eq_refl).
    assert (Hjr : forall q' fc len, as_basic E q' = Some (fc, len) -> ~ ce q' ->
      forall res x, settles (fun _ k => jr_loop fc len k res x)).
    { intros q' fc len Hb He res x. apply as_basic_elementary in Hb.
      eapply jr_settles; eauto. eapply (elementary_consumes E ce (can_be_empty_sound E)); eauto. }
    assert (Hjf : forall q' fc len, as_basic E q' = Some (fc, len) -> forall x, fin (fc x)).
    { intros q' fc len Hb x. apply as_basic_elementary in Hb. eapply fin_fc; eauto. }
    assert (Hjx : forall q' fc len, as_basic E q' = Some (fc, len) -> forall k res x, fin (jx_loop fc len k res x)).
    { intros q' fc len Hb. induction k; intros res x; cbn [jx_loop]; [discriminate|].
      apply fin_bind; [eapply Hjf; eauto|]. intros [|]; [discriminate|]. apply fin_bind; [apply fin_advance|]. auto. }
    destruct q as [| | | | | | |q'|q' n0|q'|q'| | | | | | | |]; cbn [join_special]; auto;
      (destruct (as_basic E q') as [[fc len]|] eqn:Hb; [|exact Hg]).
    + destruct m; apply ss_const; unfold jm_parse, jm_look; (apply fin_bind; [eapply Hjf; eauto|]); intros [|];
        repeat first [apply fin_bind; [solve [auto using fin_first, fin_advance]|intros ?]|discriminate].
    + destruct (n0 =? 0); [exact Hg|].
      destruct m; apply ss_const; unfold jx_parse, jx_look; (apply fin_bind; [eapply Hjx; eauto|]); intros [[? ?]|]; discriminate.
    + apply ss_lift. destruct m; unfold jo_parse, jo_look.
      * apply settles_bind; [apply settles_const; eapply Hjf; eauto|]. intros [|] _; [apply settles_const; discriminate|].
        apply settles_bind; [apply settles_const; apply fin_first|]. intros v _.
        apply settles_bind; [apply settles_const; apply fin_advance|]. intros i1 _.
        apply settles_bind; [eapply Hjr; eauto|]. intros [? ?] _. apply settles_const. discriminate.
      * apply settles_bind; [apply settles_const; eapply Hjf; eauto|]. intros [|] _; [apply settles_const; discriminate|].
        apply settles_bind; [apply settles_const; apply fin_advance|]. intros i1 _.
        apply settles_bind; [eapply Hjr; eauto|]. intros [? ?] _. apply settles_const. discriminate.
    + apply ss_lift. destruct m; unfold jz_parse, jz_look; (apply settles_bind; [eapply Hjr; eauto|]); intros [? ?] _; apply settles_const; discriminate.
  - assert (H := fun m => Hs m q (or_introl eq_refl) (left_map E ce q f)). destruct m; [|apply H].
    destruct (result_for E (PMap q f)); [|ssc]. unfold smap_parse. apply ss_bind; [apply H|]. intros res _. ssc.
  - assert (H := fun m => Hs m q (or_introl eq_refl) (left_filter E ce q f)). destruct m; [|apply H].
    destruct (result_for E (PFilter q f)); [|ssc]. unfold sfilter_parse. apply ss_bind; [apply H|]. intros res _. ssc.
  - exact (Hs m q (or_introl eq_refl) (left_named E ce q s)).
  - assert (H := fun m => Hs m _ (or_introl eq_refl) (left_custom E ce c)). destruct m; [|apply H].
    unfold scustom_parse. apply ss_bind; [apply H|]. intros res _. ssc.
Qed.

End Family.

Lemma sterm_settles m q i : (forall w, sterminates E sfn sct m q i w) -> scalm srun m q i.
Proof.
  intros H w. destruct (H w) as [N HN]. destruct (srun N m q i w) as [o w'] eqn:He. exists o, w', N. split; auto.
  intros n k Hn _. rewrite <- He. apply (m_run E sfn sct N n m q i Hn w). now rewrite He.
Qed.
Lemma ssettles_term m p i : ssettles (fun n k => sstep E sfn sct (srun n) k m p i) -> forall w, sterminates E sfn sct m p i w.
Proof. intros H w. destruct (H w) as (o & w' & N & Ho & Hf). exists (S N). cbn [Stateful.srun]. rewrite Hf; auto. Qed.

Lemma ssettles_all p : (forall q, reach E p q -> repeats_well ce q) ->
  (forall q, reach E p q -> Acc (fun b a => left E ce a b) q) ->
  forall len q, reach E p q -> forall i, sp_len i <= len -> valid i -> forall m, scalm srun m q i.
Proof.
  intros Hr Ha. induction len as [len IHl] using lt_wf_ind. intros q Hq.
  specialize (Ha q Hq). induction Ha as [q _ IHa]. intros i Hi Hv m.
  apply sterm_settles, ssettles_term. apply sstep_settles; auto.
  - exact (srun_okp).
  - intros r ->. apply Hr. eapply reach_trans; eauto. eapply reach_step; [now left|apply reach_refl].
  - intros m' r j Hin Hj Hlt.
    assert (Hreach : reach E p r) by (eapply reach_trans; eauto; eapply reach_step; [eauto|apply reach_refl]).
    assert (Hvj : valid j) by eauto using suffix_valid.
    destruct (Nat.eq_dec (sp_len j) (sp_len i)) as [He|Hn].
    + destruct Hlt as [?|HL]; [lia|]. apply IHa; auto. lia.
    + apply slen in Hj. apply (IHl (sp_len j)); auto. lia.
Qed.
End Term.
