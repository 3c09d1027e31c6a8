(** * The functions on objects compute what the functions on values compute *)
From Coq Require Import String List Arith ZArith Bool Lia.
From Verif Require Import Types Compound Parser Outcome Exec Objects.
Import ListNotations.

(** An object holding the value of a [presult], nothing moved out *)
Definition whole (q : presult) : robj := RObj (option_map Holds (r_ok q)) (r_rem q).

Definition clean (u : use) : Prop := u <> Stale /\ u <> NoValue.

(** Two outcomes that are the same up to a relation between the results *)
Definition agree {A B} (R : A -> B -> Prop) (x : outcome A) (y : outcome B) : Prop :=
  match x, y with
  | Done a tr, Done b tr' => R a b /\ tr = tr'
  | UB, UB | OOF, OOF | Ill, Ill => True
  | Exn e, Exn e' => e = e'
  | _, _ => False
  end.

Definition sim {A B} (R : A -> B -> Prop) (x : om A) (y : outcome B) : Prop :=
  Forall clean (fst x) /\ agree R (snd x) y.

Lemma sim_ret {A B} (R : A -> B -> Prop) a b : R a b -> sim R (oret a) (ret b).
Proof. intros H. split; [constructor | cbn; auto]. Qed.

Lemma sim_lift {A} (o : outcome A) : sim eq (lift o) o.
Proof. split; [constructor | destruct o; cbn; auto]. Qed.

Lemma sim_lift' {A B} (R : A -> B -> Prop) (o : outcome A) (o' : outcome B) : agree R o o' -> sim R (lift o) o'.
Proof. intros H. split; [constructor | exact H]. Qed.

Lemma sim_bind {A B A' B'} (R : A -> B -> Prop) (R' : A' -> B' -> Prop) x y f g :
  sim R x y -> (forall a b, R a b -> sim R' (f a) (g b)) -> sim R' (obind x f) (bind y g).
Proof.
  intros [L H] K. destruct x as [l o]. cbn in L, H. unfold sim, obind. cbn.
  destruct o as [a tr| | | |], y as [b tr'| | | |]; cbn in *; try tauto; try now rewrite app_nil_r.
  destruct H as [H <-]. destruct (K a b H) as [L' H']. split; [now apply Forall_app|].
  destruct (snd (f a)), (g b); cbn in *; try tauto. destruct H' as [H' ->]. auto.
Qed.

Lemma sim_say {A B} (R : A -> B -> Prop) u (k : unit -> om A) y :
  clean u -> sim R (k tt) y -> sim R (obind (say u) k) y.
Proof.
  intros Hu [L H]. unfold sim, obind. cbn. split; [now constructor|].
  destruct (snd (k tt)); cbn in *; auto.
Qed.

(** [obind] with a function that changes nothing but the shape of the result *)
Lemma sim_bind_l {A B A'} (R : A -> B -> Prop) (R' : A' -> B -> Prop) x y f :
  sim R x y -> (forall a b, R a b -> sim R' (f a) (ret b)) -> sim R' (obind x f) y.
Proof.
  intros H K. assert (E : y = bind y ret) by (destruct y as [b tr| | | |]; cbn; rewrite ?app_nil_r; reflexivity).
  rewrite E. eapply sim_bind; [exact H | exact K].
Qed.

Lemma sim_eq {A B} (R : A -> B -> Prop) x y y' : sim R x y -> y = y' -> sim R x y'.
Proof. now intros H <-. Qed.

Lemma sim_oret {A B A'} (R : A' -> B -> Prop) (a : A) (k : A -> om A') y :
  sim R (k a) y -> sim R (obind (oret a) k) y.
Proof. intros [L H]. split; [exact L|]. cbn. destruct (snd (k a)), y; cbn in *; auto. Qed.

Definition same (r : robj) (q : presult) : Prop := r = whole q.
Definition held (c : cell) (b : rv) : Prop := c = Holds b.

Section Facts.
Context {T V : Type} (E : env T V) (C : traits).

Lemma engaged_whole q : engaged (whole q) = has_value q.
Proof. unfold engaged, whole, has_value. cbn. now destruct (r_ok q). Qed.
Lemma rem_whole q : o_rem (whole q) = r_rem q.
Proof. reflexivity. Qed.

Lemma init_clean t : clean (init C t).
Proof. unfold init. destruct (from_rvalue C t); split; discriminate. Qed.

Lemma sim_fail i : sim same (oret (ofail i)) (ret (failure i)).
Proof. now apply sim_ret. Qed.
Lemma sim_succeed i : sim same (oret (osucceed i)) (ret (success RVoid i)).
Proof. now apply sim_ret. Qed.

Lemma sim_make t v rem : sim same (omake C t v rem) (ret (success v rem)).
Proof.
  destruct v; [now apply sim_ret|]. cbn. apply sim_say; [apply init_clean|]. now apply sim_ret.
Qed.

Lemma sim_return t q : sim same (oreturn C t (whole q)) (ret q).
Proof.
  destruct q as [[[|v]|] rem]; cbn; try now apply sim_ret.
  unfold oreturn. cbn. apply sim_say; [apply init_clean|]. now apply sim_ret.
Qed.

Lemma sim_builder t : sim held (obuilder t) (ret (builder_init t)).
Proof.
  unfold obuilder, builder_init. destruct (is_void t); [now apply sim_ret|].
  apply sim_say; [split; discriminate|]. now apply sim_ret.
Qed.

(** the builder's operations, by the operation on values they perform *)
Definition skips (f : rv -> rv -> outcome rv) : Prop := forall v, f RVoid v = ret RVoid.

Definition put_rel (rem : span) (x : cell * robj) (b : rv) : Prop := fst x = Holds b /\ engaged (snd x) = true /\ o_rem (snd x) = rem.

Lemma sim_put f u b v rem : skips f -> clean u ->
  sim (put_rel rem) (oput f u (Holds b) (whole (Res (Some v) rem))) (f b v).
Proof.
  intros Hf Hu. destruct b as [|old].
  - rewrite Hf. now apply sim_ret.
  - unfold oput, take. unfold obind at 2. cbn [deref whole r_ok r_rem option_map o_val fst snd oret bind ret app o_rem].
    unfold obind at 1. cbn [fst snd]. 
    assert (sim (put_rel rem) (obind (say u) (fun _ => obind (lift (f (RVal old) v)) (fun new => oret (Holds new, RObj (Some MovedFrom) rem)))) (f (RVal old) v)) as [L H].
    { apply sim_say; [exact Hu|]. eapply sim_bind_l; [apply sim_lift|]. intros a ? <-. now apply sim_ret. }
    split; [exact L|]. cbn in *. destruct (f (RVal old) v); cbn in *; auto.
Qed.

Lemma sim_assign_copy t b v rem :
  sim (put_rel rem) (oassign_copy t (Holds b) (whole (Res (Some v) rem))) (b_assign b v).
Proof.
  destruct b as [|old].
  - now apply sim_ret.
  - unfold oassign_copy, deref. cbn [whole r_ok r_rem option_map o_val].
    assert (sim (put_rel rem) (obind (say (CopyAssign t)) (fun _ => obind (lift (b_assign (RVal old) v)) (fun new => oret (Holds new, whole (Res (Some v) rem))))) (b_assign (RVal old) v)) as [L H].
    { apply sim_say; [split; discriminate|]. eapply sim_bind_l; [apply sim_lift|]. intros a ? <-. now apply sim_ret. }
    split; [exact L|]. cbn in *. destruct v; cbn in *; auto.
Qed.

Definition built_rel (x : robj * cell) (q : presult) : Prop := fst x = whole q.

Lemma sim_build t b i : sim built_rel (obuild C t (Holds b) i) (ret (success b i)).
Proof.
  unfold obuild. eapply sim_bind_l; [apply sim_make|]. intros a q H. apply sim_ret. exact H.
Qed.

Lemma sim_build' t b i : sim same (obind (obuild C t (Holds b) i) (fun x => let (r, _) := x in oret r)) (ret (success b i)).
Proof. eapply sim_bind_l; [apply sim_build|]. intros [r c] q H. apply sim_ret. exact H. Qed.

Lemma skips_assign : skips b_assign. Proof. now intros []. Qed.
Lemma skips_emplace k : skips (b_emplace k). Proof. now intros []. Qed.
Lemma skips_get k : skips (b_get_assign k). Proof. now intros []. Qed.
Lemma skips_arr k : skips (b_array_assign k). Proof. now intros []. Qed.
Lemma skips_opt : skips b_emplace_opt. Proof. now intros []. Qed.
Lemma skips_back : skips b_insert_back. Proof. now intros []. Qed.
Lemma skips_first : skips b_insert_back_first. Proof. now intros []. Qed.
Lemma skips_second : skips b_insert_back_second. Proof. now intros []. Qed.

Hint Resolve skips_assign skips_emplace skips_get skips_arr skips_opt skips_back skips_first skips_second : obj.
Hint Extern 1 (clean _) => (split; discriminate) : obj.

Lemma sim_basic_parse fc len i : sim same (obasic_parse C fc len i) (basic_parse fc len i).
Proof.
  unfold obasic_parse, basic_parse. eapply sim_bind; [apply sim_lift|]. intros b ? <-.
  destruct b; [apply sim_fail|].
  eapply sim_bind; [apply sim_lift|]. intros v ? <-.
  eapply sim_bind; [apply sim_lift|]. intros r ? <-. apply sim_make.
Qed.

Lemma sim_basic_look fc len i : sim same (obasic_look fc len i) (basic_look fc len i).
Proof.
  unfold obasic_look, basic_look. eapply sim_bind; [apply sim_lift|]. intros b ? <-.
  destruct b; [apply sim_fail|].
  eapply sim_bind; [apply sim_lift|]. intros v ? <-. apply sim_succeed.
Qed.

Lemma fn_uses_clean f : Forall clean (fn_uses E f).
Proof. induction f; cbn; auto; repeat constructor; discriminate. Qed.

Lemma sim_call f args : sim eq (ocall E f args) (call E f args).
Proof. split; [apply fn_uses_clean|]. unfold ocall. cbn. destruct (call E f args); cbn; auto. Qed.

Definition call_rel (rem : span) (x : rv * robj) (w : rv) : Prop := fst x = w /\ o_rem (snd x) = rem.

Lemma sim_invoke_move f v rem :
  sim (call_rel rem) (oinvoke_move E f (whole (Res (Some v) rem))) (call E f (args_of v)).
Proof.
  destruct v as [|v]; cbn.
  - eapply sim_bind_l; [apply sim_call|]. intros a ? <-. now apply sim_ret.
  - unfold oinvoke_move, take. cbn [whole r_ok option_map o_val deref].
    assert (sim (call_rel rem) (obind (say Hand) (fun _ => obind (ocall E f [v]) (fun w => oret (w, RObj (Some MovedFrom) rem)))) (call E f [v])) as [L H].
    { apply sim_say; [split; discriminate|]. eapply sim_bind_l; [apply sim_call|]. intros a ? <-. now apply sim_ret. }
    split; [exact L|]. cbn in *. destruct (call E f [v]); cbn in *; auto.
Qed.

Lemma sim_invoke_const f v rem : sim eq (oinvoke_const E f (whole (Res (Some v) rem))) (call E f (args_of v)).
Proof.
  destruct v as [|v]; cbn.
  - apply sim_call.
  - unfold oinvoke_const. cbn [whole r_ok option_map o_val deref].
    assert (sim eq (obind (say Show) (fun _ => ocall E f [v])) (call E f [v])) as [L H].
    { apply sim_say; [split; discriminate|]. apply sim_call. }
    split; [exact L|]. cbn in *. destruct (call E f [v]); cbn in *; auto.
Qed.

Section Rec.
Variable orec : mode -> parser T -> span -> om robj.
Variable rec : mode -> parser T -> pfun.
Hypothesis Hrec : forall m p i, sim same (orec m p i) (rec m p i).

(** a void builder stays void *)
Definition exec_rel (b : rv) (x : bool * (span * cell)) (y : bool * (span * rv)) : Prop :=
  x = (fst y, (fst (snd y), Holds (snd (snd y)))) /\ (b = RVoid -> snd (snd y) = RVoid).

Lemma put_void f u b v rem : skips f -> clean u ->
  sim (fun x b' => put_rel rem x b' /\ (b = RVoid -> b' = RVoid)) (oput f u (Holds b) (whole (Res (Some v) rem))) (f b v).
Proof.
  intros Hf Hu. destruct (sim_put f u b v rem Hf Hu) as [L H]. split; [exact L|].
  destruct b as [|old].
  - rewrite Hf in *. cbn in *. intuition.
  - destruct (snd (oput f u (Holds (RVal old)) (whole (Res (Some v) rem)))), (f (RVal old) v); cbn in *; try tauto.
    intuition discriminate.
Qed.

Lemma copy_void t b v rem :
  sim (fun x b' => put_rel rem x b' /\ (b = RVoid -> b' = RVoid)) (oassign_copy t (Holds b) (whole (Res (Some v) rem))) (b_assign b v).
Proof.
  destruct (sim_assign_copy t b v rem) as [L H]. split; [exact L|].
  destruct b as [|old].
  - cbn in *. intuition.
  - destruct (snd (oassign_copy t (Holds (RVal old)) (whole (Res (Some v) rem)))), (b_assign (RVal old) v); cbn in *; try tauto.
    intuition discriminate.
Qed.

Lemma sim_execute ct unw p idx i b :
  sim (exec_rel b) (oexecute E C orec ct unw p idx (i, Holds b)) (execute rec ct unw p idx (i, b)).
Proof.
  destruct idx as [k|]; cbn [oexecute execute].
  - eapply sim_bind; [apply Hrec|]. intros r q Hq; red in Hq; subst r. rewrite engaged_whole. unfold has_value.
    destruct q as [[v|] rem]; cbn [r_ok r_rem negb]; [|now apply sim_ret].
    unfold store. destruct unw.
    + destruct (move_assignable C (ty_of E p));
        (eapply sim_bind; [first [apply put_void; auto with obj | apply copy_void] |]);
        intros [c r] b' ((Hc & _) & Hb); cbn in Hc; subst c; now apply sim_ret.
    + destruct ct; (eapply sim_bind; [apply put_void; auto with obj|]); intros [c r] b' ((Hc & _) & Hb); cbn in Hc; subst c; now apply sim_ret.
  - eapply sim_bind; [apply Hrec|]. intros r q Hq; red in Hq; subst r. rewrite engaged_whole. now apply sim_ret.
Qed.

Lemma sim_or unw ps : forall i b,
  sim (exec_rel b) (oexec_or E C orec unw ps (i, Holds b)) (exec_or rec unw ps (i, b)).
Proof.
  induction ps as [|[p idx] ps IH]; intros i b; cbn [oexec_or exec_or]; [now apply sim_ret|].
  eapply sim_bind; [apply sim_execute|]. intros [ok st] [ok' [i' b']] [Hx Hb]. cbn in Hx, Hb. inversion Hx. subst ok st.
  destruct ok'; [now apply sim_ret|].
  destruct (IH i' b') as [L H]. split; [exact L|].
  destruct (snd (oexec_or E C orec unw ps (i', Holds b'))), (exec_or rec unw ps (i', b')); cbn in *; try tauto.
  unfold exec_rel in *. intuition.
Qed.

Lemma sim_and unw ps : forall i b,
  sim (exec_rel b) (oexec_and E C orec unw ps (i, Holds b)) (exec_and rec unw ps (i, b)).
Proof.
  induction ps as [|[p idx] ps IH]; intros i b; cbn [oexec_and exec_and]; [now apply sim_ret|].
  eapply sim_bind; [apply sim_execute|]. intros [ok st] [ok' [i' b']] [Hx Hb]. cbn in Hx, Hb. inversion Hx. subst ok st.
  destruct ok'; [|now apply sim_ret].
  destruct (IH i' b') as [L H]. split; [exact L|].
  destruct (snd (oexec_and E C orec unw ps (i', Holds b'))), (exec_and rec unw ps (i', b')); cbn in *; try tauto.
  unfold exec_rel in *. intuition.
Qed.

Lemma sim_finish t i x y : exec_rel (builder_init t) x y ->
  sim same (ofinish C t i x) (let '(ok, (i', b)) := y in if ok : bool then ret (success b i') else ret (failure i)).
Proof.
  destruct y as [ok [i' b]]. intros [-> Hb]. cbn in *. destruct ok; [|apply sim_fail].
  unfold builder_init in Hb. destruct (is_void t).
  - rewrite (Hb eq_refl). apply sim_succeed.
  - apply sim_build'.
Qed.

Lemma sim_builder_bind {A B} (R : A -> B -> Prop) t k y :
  sim R (k (Holds (builder_init t))) y -> sim R (obind (obuilder t) k) y.
Proof.
  intros H. unfold obuilder. unfold builder_init in H. destruct (is_void t).
  - destruct H as [L H]. split; [exact L|]. cbn. destruct (snd (k (Holds RVoid))), y; cbn in *; auto.
  - destruct H as [L H]. split; cbn; [constructor; [split; discriminate | exact L]|].
    destruct (snd (k (Holds (RVal (default_val t))))), y; cbn in *; auto.
Qed.

Lemma sim_choice_parse ps i : sim same (ochoice_parse E C orec ps i) (choice_parse E rec ps i).
Proof.
  unfold ochoice_parse, choice_parse. destruct (result_fors E ps) as [tys|]; [|now apply sim_lift'].
  destruct (_ || _); [|now apply sim_lift'].
  apply sim_builder_bind. eapply sim_bind; [apply sim_or|].
  intros x y Hx. apply sim_finish. exact Hx.
Qed.

Lemma sim_choice_look ps i : sim same (ochoice_look E C orec ps i) (choice_look E rec ps i).
Proof.
  unfold ochoice_look, choice_look. destruct (result_fors E ps) as [tys|]; [|now apply sim_lift'].
  apply sim_builder_bind. eapply sim_bind; [apply sim_or|].
  intros x [ok [i' b]] Hx. pose proof (sim_finish TVoid i x (ok, (i', b)) Hx) as S. destruct Hx as [_ Hb]. cbn in Hb.
  rewrite (Hb eq_refl) in S. exact S.
Qed.

Lemma sim_sequence_parse ps i : sim same (osequence_parse E C orec ps i) (sequence_parse E rec ps i).
Proof.
  unfold osequence_parse, sequence_parse. destruct (result_fors E ps) as [tys|]; [|now apply sim_lift'].
  apply sim_builder_bind. eapply sim_bind; [apply sim_and|].
  intros x y Hx. apply sim_finish. exact Hx.
Qed.

Lemma sim_sequence_look ps i : sim same (osequence_look E C orec ps i) (sequence_look E rec ps i).
Proof.
  unfold osequence_look, sequence_look. destruct (result_fors E ps) as [tys|]; [|now apply sim_lift'].
  apply sim_builder_bind. eapply sim_bind; [apply sim_and|].
  intros x [ok [i' b]] Hx. pose proof (sim_finish TVoid i x (ok, (i', b)) Hx) as S. destruct Hx as [_ Hb]. cbn in Hb.
  rewrite (Hb eq_refl) in S. exact S.
Qed.
End Rec.

Section Fun.
Variables (f : ofun) (g : pfun).
Hypothesis Hf : forall i, sim same (f i) (g i).

Lemma sim_maybe_parse t i : sim same (omaybe_parse C t f i) (maybe_parse t g i).
Proof.
  unfold omaybe_parse, maybe_parse. apply sim_builder_bind. eapply sim_bind; [apply Hf|]. intros r q Hq; red in Hq; subst r.
  rewrite engaged_whole. destruct q as [[v|] rem]; cbn [has_value r_ok r_rem].
  - eapply sim_bind; [apply sim_put; auto with obj|]. intros [c r] b' (Hc & _ & Hr). cbn in Hc, Hr. subst c. rewrite Hr. apply sim_build'.
  - apply sim_oret. apply sim_build'.
Qed.

Lemma sim_maybe_look i : sim same (omaybe_look f i) (maybe_look g i).
Proof.
  unfold omaybe_look, maybe_look. eapply sim_bind; [apply Hf|]. intros r q Hq; red in Hq; subst r.
  rewrite engaged_whole. destruct (has_value q); apply sim_succeed.
Qed.

Definition loop_rel (x : option (span * cell)) (y : option (span * rv)) : Prop :=
  x = option_map (fun p => (fst p, Holds (snd p))) y.

Lemma sim_exactly_loop t k : forall j i b,
  sim loop_rel (oexactly_loop t f k j i (Holds b)) (exactly_loop g k j i b).
Proof.
  induction k as [|k IH]; intros j i b; cbn [oexactly_loop exactly_loop]; [now apply sim_ret|].
  eapply sim_bind; [apply Hf|]. intros r q Hq; red in Hq; subst r.
  rewrite engaged_whole. destruct q as [[v|] rem]; cbn [has_value r_ok r_rem negb]; [|now apply sim_ret].
  eapply sim_bind; [apply sim_put; auto with obj|]. intros [c r] b' (Hc & _). cbn in Hc. subst c. apply IH.
Qed.

Lemma sim_exactly_parse t n i : sim same (oexactly_parse C t f n i) (exactly_parse t g n i).
Proof.
  unfold oexactly_parse, exactly_parse. apply sim_builder_bind.
  eapply sim_bind; [apply sim_exactly_loop|]. intros x [[i' b]|] Hx; red in Hx; subst x; cbn; [apply sim_build' | apply sim_fail].
Qed.

Lemma sim_exactly_look_loop k : forall j i,
  sim (fun x y => y = option_map (fun i => (i, RVoid)) x) (oexactly_look_loop f k i) (exactly_loop g k j i RVoid).
Proof.
  induction k as [|k IH]; intros j i; cbn [oexactly_look_loop exactly_loop]; [now apply sim_ret|].
  eapply sim_bind; [apply Hf|]. intros r q Hq; red in Hq; subst r.
  rewrite engaged_whole. destruct q as [[v|] rem]; cbn [has_value r_ok r_rem negb]; [|now apply sim_ret].
  eapply sim_eq; [apply (IH (S j))|]. cbn. destruct (exactly_loop g k (S j) rem RVoid); reflexivity.
Qed.

Lemma sim_exactly_look n i : sim same (oexactly_look f n i) (exactly_look g n i).
Proof.
  unfold oexactly_look, exactly_look. eapply sim_bind; [apply sim_exactly_look_loop|].
  intros [i'|] y ->; cbn; [apply sim_succeed | apply sim_fail].
Qed.

Definition rep_rel (x : span * cell * bool) (y : span * rv * bool) : Prop :=
  x = (fst (fst y), Holds (snd (fst y)), snd y).

Lemma sim_rep_loop t k : forall i b ok,
  sim rep_rel (orep_loop t f k i (Holds b) ok) (rep_loop g k i b ok).
Proof.
  induction k as [|k IH]; intros i b ok; cbn [orep_loop rep_loop]; [now apply sim_lift'|].
  eapply sim_bind; [apply Hf|]. intros r q Hq; red in Hq; subst r.
  rewrite engaged_whole. destruct q as [[v|] rem]; cbn [has_value r_ok r_rem negb]; [|now apply sim_ret].
  eapply sim_bind; [apply sim_put; auto with obj|]. intros [c r] b' (Hc & _). cbn in Hc. subst c. apply IH.
Qed.

Lemma sim_rep_look_loop k : forall i ok,
  sim (fun x y => y = (fst x, RVoid, snd x)) (orep_look_loop f k i ok) (rep_loop g k i RVoid ok).
Proof.
  induction k as [|k IH]; intros i ok; cbn [orep_look_loop rep_loop]; [now apply sim_lift'|].
  eapply sim_bind; [apply Hf|]. intros r q Hq; red in Hq; subst r.
  rewrite engaged_whole. destruct q as [[v|] rem]; cbn [has_value r_ok r_rem negb]; [|now apply sim_ret].
  eapply sim_eq; [apply IH|]. cbn. destruct (rep_loop g k rem RVoid true); reflexivity.
Qed.

Lemma sim_one_or_more_parse t k i : sim same (oone_or_more_parse C t f k i) (one_or_more_parse t g k i).
Proof.
  unfold oone_or_more_parse, one_or_more_parse. apply sim_builder_bind.
  eapply sim_bind; [apply sim_rep_loop|]. intros x [[i' b] ok] Hx; red in Hx; subst x; cbn.
  destruct ok; [apply sim_build' | apply sim_fail].
Qed.

Lemma sim_one_or_more_look k i : sim same (oone_or_more_look f k i) (one_or_more_look g k i).
Proof.
  unfold oone_or_more_look, one_or_more_look.
  eapply sim_bind; [apply sim_rep_look_loop|]. intros [i' ok] y ->; cbn.
  destruct ok; [apply sim_succeed | apply sim_fail].
Qed.

Lemma sim_zero_or_more_parse t k i : sim same (ozero_or_more_parse C t f k i) (zero_or_more_parse t g k i).
Proof.
  unfold ozero_or_more_parse, zero_or_more_parse. apply sim_builder_bind.
  eapply sim_bind; [apply sim_rep_loop|]. intros x [[i' b] ok] Hx; red in Hx; subst x; cbn. apply sim_build'.
Qed.

Lemma sim_zero_or_more_look k i : sim same (ozero_or_more_look f k i) (zero_or_more_look g k i).
Proof.
  unfold ozero_or_more_look, zero_or_more_look.
  eapply sim_bind; [apply sim_rep_look_loop|]. intros [i' ok] y ->; cbn. apply sim_succeed.
Qed.

Lemma sim_complete_run t i : sim same (ocomplete_run C t f i) (complete_run g i).
Proof.
  unfold ocomplete_run, complete_run. eapply sim_bind; [apply Hf|]. intros r q Hq; red in Hq; subst r.
  rewrite engaged_whole. cbn [o_rem whole]. destruct (_ || _); [apply sim_fail | apply sim_return].
Qed.

Lemma sim_map_parse t fn i : sim same (omap_parse E C t fn f i) (map_parse E fn g i).
Proof.
  unfold omap_parse, map_parse. eapply sim_bind; [apply Hf|]. intros r q Hq; red in Hq; subst r.
  rewrite engaged_whole. destruct q as [[v|] rem]; cbn [has_value r_ok r_rem negb]; [|apply sim_fail].
  eapply sim_bind; [apply sim_invoke_move|]. intros [w r] w' [Hw Hr]. cbn in Hw, Hr. subst w. rewrite Hr. apply sim_make.
Qed.

Lemma sim_filter_parse t fn i : sim same (ofilter_parse E C t fn f i) (filter_parse E fn g i).
Proof.
  unfold ofilter_parse, filter_parse. eapply sim_bind; [apply Hf|]. intros r q Hq; red in Hq; subst r.
  rewrite engaged_whole. destruct q as [[v|] rem]; cbn [has_value r_ok r_rem negb]; [|apply sim_fail].
  eapply sim_bind; [apply sim_invoke_const|]. intros w ? <-. destruct w as [|c]; [now apply sim_lift'|].
  destruct (as_bool E c); [apply sim_return | apply sim_fail].
Qed.

Lemma sim_take {A B} (R : A -> B -> Prop) v rem k y :
  sim R (k (v, RObj (Some MovedFrom) rem)) y -> sim R (obind (take (whole (Res (Some v) rem))) k) y.
Proof.
  intros [L H]. split; [exact L|]. cbn. destruct (snd (k (v, RObj (Some MovedFrom) rem))), y; cbn in *; auto.
Qed.

Lemma sim_deref {A B} (R : A -> B -> Prop) v rem k y :
  sim R (k v) y -> sim R (obind (deref (whole (Res (Some v) rem))) k) y.
Proof. intros [L H]. split; [exact L|]. cbn. destruct (snd (k v)), y; cbn in *; auto. Qed.

Lemma sim_construct t args rem :
  sim same (obind (say Hand) (fun _ => obind (ocall E (FConstruct t) args) (fun w => oret (RObj (Some (Holds w)) rem))))
    (bind (call E (FConstruct t) args) (fun w => ret (success w rem))).
Proof.
  apply sim_say; [split; discriminate|]. eapply sim_bind; [apply sim_call|]. intros w ? <-. now apply sim_ret.
Qed.

Lemma sim_custom_parse cv i : sim same (ocustom_parse E cv f i) (custom_parse E cv g i).
Proof.
  unfold ocustom_parse, custom_parse. eapply sim_bind; [apply Hf|]. intros r q Hq; red in Hq; subst r.
  rewrite engaged_whole. destruct q as [[v|] rem]; destruct cv; cbn [has_value r_ok r_rem negb];
    try (now apply sim_ret); try apply sim_construct;
    apply sim_take; (destruct v; [now apply sim_lift'|]); apply sim_construct.
Qed.

Lemma sim_join_parse i : sim same (ojoin_parse C f i) (join_parse g i).
Proof.
  unfold ojoin_parse, join_parse. eapply sim_bind; [apply Hf|]. intros r q Hq; red in Hq; subst r.
  rewrite engaged_whole. destruct q as [[v|] rem]; cbn [has_value r_ok r_rem negb]; [|apply sim_fail].
  apply sim_deref. destruct v as [|v]; [now apply sim_lift'|]. apply sim_say; [split; discriminate|].
  eapply sim_bind; [apply sim_lift|]. intros j ? <-. destruct j; [apply sim_make | apply sim_fail].
Qed.
End Fun.

Section Fun2.
Variables (f h : ofun) (g e : pfun).
Hypotheses (Hf : forall i, sim same (f i) (g i)) (Hh : forall i, sim same (h i) (e i)).

Lemma sim_assign_result {A B} (R : A -> B -> Prop) t old q k y :
  sim R (k (whole q)) y -> sim R (obind (oassign_result C t old (whole q)) k) y.
Proof.
  intros [L H]. unfold oassign_result. destruct q as [[[|v]|] rem]; cbn [whole r_ok r_rem option_map o_val].
  1, 3: now apply sim_oret.
  assert (Cl : clean (if engaged old then MoveAssign t else init C t)) by (destruct (engaged old); [split; discriminate | apply init_clean]).
  split; cbn; [constructor; assumption|]. cbn in H. destruct (snd (k _)), y; cbn in *; auto.
Qed.

Definition delim_rel (x : span * cell) (y : span * rv) : Prop := x = (fst y, Holds (snd y)).

Lemma sim_delim_loop tp td k : forall q i b,
  sim delim_rel (odelim_loop C tp td f h k (whole q) i (Holds b))
    (delim_loop g e (is_void tp) (is_void td) k q i b).
Proof.
  induction k as [|k IH]; intros q i b; cbn [odelim_loop delim_loop]; [now apply sim_lift'|].
  rewrite engaged_whole. destruct q as [[v|] rem]; cbn [has_value r_ok r_rem negb]; [|now apply sim_ret].
  set (Q := fun (x : cell * robj) (b' : rv) => fst x = Holds b' /\ engaged (snd x) = true).
  eapply sim_bind with (R := Q).
  { destruct (is_void tp); [now apply sim_ret|].
    destruct (is_void td);
      match goal with |- sim _ (oput ?F ?U _ _) _ => destruct (sim_put F U b v rem) as [L H]; auto with obj; split; [exact L|]; clear L end;
      match goal with H : agree _ ?X ?Y |- agree _ ?X ?Y => destruct X, Y; cbn in *; try tauto; unfold put_rel in H; unfold Q; tauto end. }
  intros [c r] b1 [Hc Hr]. cbn in Hc, Hr. subst c.
  change (o_rem (whole {| r_ok := Some v; r_rem := rem |})) with rem.
  eapply sim_bind; [apply Hh|]. intros d dq Hq; red in Hq; subst d.
  rewrite engaged_whole. destruct dq as [[w|] drem]; cbn [has_value r_ok r_rem negb]; [|now apply sim_ret].
  change (o_rem (whole {| r_ok := Some w; r_rem := drem |})) with drem.
  eapply sim_bind; [apply Hf|]. intros nw nq Hq; red in Hq; subst nw.
  apply sim_assign_result. rewrite engaged_whole.
  eapply sim_bind with (R := fun (x : cell * robj) (b' : rv) => fst x = Holds b').
  { destruct (is_void td); [now apply sim_ret|]. destruct (has_value nq); [|now apply sim_ret].
    destruct (is_void tp);
      match goal with |- sim _ (oput ?F ?U _ _) _ => destruct (sim_put F U b1 w drem) as [L H]; auto with obj; split; [exact L|]; clear L end;
      match goal with H : agree _ ?X ?Y |- agree _ ?X ?Y => destruct X, Y; cbn in *; try tauto; unfold put_rel in H; tauto end. }
  intros [c' r'] b2 Hc. cbn in Hc. subst c'. apply IH.
Qed.

Lemma sim_delimit_parse tp td k i : sim same (odelimit_parse C tp td f h k i) (delimit_parse tp td g e k i).
Proof.
  unfold odelimit_parse, delimit_parse. apply sim_builder_bind.
  eapply sim_bind; [apply Hf|]. intros r q Hq; red in Hq; subst r. rewrite engaged_whole.
  destruct (has_value q); cbn [negb]; [|apply sim_fail].
  eapply sim_bind; [apply sim_delim_loop|]. intros x [i' b] Hx; red in Hx; subst x; cbn. apply sim_build'.
Qed.

Lemma sim_delim_look_loop k : forall q i,
  sim (fun x y => y = (x, RVoid)) (odelim_look_loop C f h k (whole q) i) (delim_loop g e true true k q i RVoid).
Proof.
  induction k as [|k IH]; intros q i; cbn [odelim_look_loop delim_loop]; [now apply sim_lift'|].
  rewrite engaged_whole. destruct q as [[v|] rem]; cbn [has_value r_ok r_rem negb]; [|now apply sim_ret].
  change (o_rem (whole {| r_ok := Some v; r_rem := rem |})) with rem. cbn [bind ret].
  match goal with |- sim _ _ match ?X with _ => _ end => eapply sim_eq with (y := X); [|destruct X; reflexivity] end.
  eapply sim_bind; [apply Hh|]. intros d dq Hq; red in Hq; subst d.
  rewrite engaged_whole. destruct dq as [[w|] drem]; cbn [has_value r_ok r_rem negb]; [|now apply sim_ret].
  change (o_rem (whole {| r_ok := Some w; r_rem := drem |})) with drem.
  eapply sim_bind; [apply Hf|]. intros nw nq Hq; red in Hq; subst nw.
  apply sim_assign_result. cbn [bind ret].
  match goal with |- sim _ _ match ?X with _ => _ end => eapply sim_eq with (y := X); [|destruct X; reflexivity] end.
  apply IH.
Qed.

Lemma sim_delimit_look k i : sim same (odelimit_look C f h k i) (delimit_look g e k i).
Proof.
  unfold odelimit_look, delimit_look.
  eapply sim_bind; [apply Hf|]. intros r q Hq; red in Hq; subst r. rewrite engaged_whole.
  destruct (has_value q); cbn [negb]; [|apply sim_fail].
  eapply sim_bind; [apply sim_delim_look_loop|]. intros x y ->. apply sim_succeed.
Qed.
End Fun2.

Lemma sim_join_special (f : mode -> pfun) m i : sim same (ojoin_special C f m i) (f m i).
Proof.
  unfold ojoin_special. eapply sim_bind_l; [apply sim_lift|]. intros r ? <-.
  destruct r as [[v|] rem]; cbn [r_ok r_rem]; [apply sim_make | apply sim_fail].
Qed.

Lemma sim_join_generic orec rec m q i : (forall m p i, sim same (orec m p i) (rec m p i)) ->
  sim same (ojoin_generic E C orec m q i) (join_generic E rec m q i).
Proof.
  intros H. destruct m; cbn; [|apply H].
  destruct (result_for E q) as [t|]; [|now apply sim_lift']. destruct (joinable t); [|now apply sim_lift'].
  apply sim_join_parse. intros; apply H.
Qed.

Lemma sim_step orec rec k m p i : (forall m p i, sim same (orec m p i) (rec m p i)) ->
  sim same (ostep E C orec k m p i) (step E rec k m p i).
Proof.
  intros H. destruct p; cbn [ostep step].
  1, 2, 3, 4: destruct m; [apply sim_basic_parse | apply sim_basic_look].
  - apply sim_succeed.
  - destruct m; [apply sim_choice_parse | apply sim_choice_look]; exact H.
  - destruct m; [apply sim_sequence_parse | apply sim_sequence_look]; exact H.
  - destruct m; [destruct (result_for E p); [|now apply sim_lift'] |]; [apply sim_maybe_parse | apply sim_maybe_look]; intros; apply H.
  - destruct (n =? 0); [now apply sim_lift'|].
    destruct m; [destruct (result_for E p); [|now apply sim_lift'] |]; [apply sim_exactly_parse | apply sim_exactly_look]; intros; apply H.
  - destruct m; [destruct (result_for E p); [|now apply sim_lift'] |]; [apply sim_one_or_more_parse | apply sim_one_or_more_look]; intros; apply H.
  - destruct m; [destruct (result_for E p); [|now apply sim_lift'] |]; [apply sim_zero_or_more_parse | apply sim_zero_or_more_look]; intros; apply H.
  - destruct m; [destruct (result_for E p1), (result_for E p2); try now apply sim_lift' |];
      [apply sim_delimit_parse | apply sim_delimit_look]; intros; apply H.
  - apply H.
  - apply sim_complete_run. intros; apply H.
  - destruct (join_special E p k); [apply sim_join_special | now apply sim_join_generic].
  - destruct m; [|apply H]. destruct (result_for E (PMap p f)); [|now apply sim_lift']. apply sim_map_parse. intros; apply H.
  - destruct m; [|apply H]. destruct (result_for E (PFilter p f)); [|now apply sim_lift']. apply sim_filter_parse. intros; apply H.
  - apply H.
  - destruct m; [|apply H]. apply sim_custom_parse. intros; apply H.
Qed.

Theorem sim_run n : forall m p i, sim same (orun E C n m p i) (run E n m p i).
Proof. induction n as [|n IH]; intros m p i; cbn [orun run]; [now apply sim_lift' | now apply sim_step]. Qed.
End Facts.
