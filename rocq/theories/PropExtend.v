(** * Property C79: an answer that did not look at the end of the input is final *)
From Coq Require Import String List Arith ZArith Bool Lia.
From Verif Require Import Types Compound Parser Outcome CompoundFacts Exec Mono Derive Typing Join Leaves Sound
  BigStep BigSound BigComplete Runs Elems Samples PropCore Reloc PropReloc Extend Raises.
Import ListNotations.

Section C79.
Context {T V : Type} (E : env T V) (mm : nat -> list V).
Notation E' := (with_mem E mm).

Lemma with_mem_alike : alike eq E E'.
Proof.
  constructor; cbn; auto.
  - intros n args args' H. apply vrel_eq_list in H as <-. destruct (fn_app E n args); constructor. now apply rvrel_eq.
  - intros t args args' H. apply vrel_eq_list in H as <-. destruct (ct_app E t args); constructor. now apply rvrel_eq.
  - intros k. now apply vrel_eq.
  - intros v v' H. now apply vrel_eq in H as <-.
Qed.

Lemma same_input_suffix i j : same_input E mm i -> suffix i j -> same_input E mm j.
Proof. intros H (c & Hc & ->) k Hk. cbn in *. apply H. lia. Qed.

Lemma gives_same m p i v mid tr : same_input E mm i -> gives E' m p i v mid tr -> gives E m p i v mid tr.
Proof. intros Hs Hg. now apply (proj1 (C03_only_the_input_is_read E mm m p i _ Hs)). Qed.

Lemma gives_suffix m p i v mid tr : valid E i -> gives E m p i v mid tr -> suffix i mid.
Proof. intros Hv H. apply gives_big in H; auto. exact (proj1 (proj1 (big_suffix E) _ _ _ _ _ H)). Qed.

Lemma after_same l i j : after E' l i j -> same_input E mm i -> valid E i -> after E l i j /\ suffix i j.
Proof.
  induction 1 as [i|m p l i v mid j tr Hg Ha IH]; intros Hs Hv.
  - split; [constructor|apply suffix_refl].
  - pose proof (gives_same _ _ _ _ _ _ Hs Hg) as Hg'. pose proof (gives_suffix _ _ _ _ _ _ Hv Hg') as Hx.
    destruct IH as [IHa IHs]; [eapply same_input_suffix; eauto|eapply suffix_valid; eauto|].
    split; [econstructor; eauto|eapply suffix_trans; eauto].
Qed.

Lemma fails_same i l : same_input E mm i -> Forall (fails E' i) l -> Forall (fails E i) l.
Proof.
  intros Hs. apply Forall_impl. intros [m p] [tr Ht]. exists tr. now apply (proj1 (C03_only_the_input_is_read E mm m p i _ Hs)).
Qed.

Lemma asks_same m p i m' q j : asks E' m p i m' q j -> same_input E mm i -> valid E i -> asks E m p i m' q j /\ suffix i j.
Proof.
  intros Ha Hs Hv. pose proof (result_fors_same E (with_mem E mm) eq with_mem_alike) as Hr.
  inversion Ha; subst;
    try match goal with H : after _ _ _ _ |- _ => apply after_same in H as [H ?]; auto end;
    try match goal with H : Forall _ _ |- _ => apply fails_same in H; auto end;
    try (rewrite <- Hr in *);
    try (split; [first [eapply ask_choice; eassumption|eapply ask_choice_look; eassumption|eapply ask_sequence; eassumption|eapply ask_sequence_look; eassumption|
      eapply ask_exactly; eassumption|eapply ask_one_or_more; eassumption|eapply ask_zero_or_more; eassumption|
      eapply ask_delimiter; eassumption|eapply ask_delimited; eassumption|constructor]|first [assumption|apply suffix_refl]]).
  split; [exact (ask_custom E m' c j)|apply suffix_refl].
Qed.

Lemma matches_same b : forall arr lo, (forall k, lo <= k < lo + List.length arr -> nth_error (mm b) k = nth_error (mem E b) k) ->
  matches_at E' b arr lo -> matches_at E b arr lo.
Proof.
  induction arr as [|t arr IH]; intros lo Hm H; cbn in *; auto. destruct H as [(c & Hc & He) H].
  split; [exists c; split; auto; rewrite <- Hm by lia; exact Hc|]. apply IH; auto. intros k Hk. apply Hm. lia.
Qed.

Lemma sees_same m p i : sees_end E' m p i -> same_input E mm i -> valid E i -> sees_end E m p i.
Proof.
  induction 1 as [| | | |m q i v rem tr Hg|m p i m' q j Ha Hs IH]; intros Hi Hv; try (constructor; assumption).
  - constructor; auto. eapply matches_same; [|exact H0]. intros k Hk. apply Hi. rewrite firstn_length in Hk. lia.
  - econstructor. eapply gives_same; eauto.
  - apply asks_same in Ha as [Ha Hx]; auto. eapply see_inside; eauto.
    apply IH; [eapply same_input_suffix; eauto|eapply suffix_valid; eauto].
Qed.
End C79.

(** Either the run looked at the end of its input, or with more elements after the same
    elements - whatever else is in memory now - the answer is the same: same value, same
    calls of user code in the same order, and what remains is what remained with the new
    elements after it. *)
Theorem C79_final {T V} (E : env T V) mm m p i r tr k : valid E i -> evals E m p i (Done r tr) ->
  same_input E mm i -> valid (with_mem E mm) (grow k i) ->
  sees_end E m p i \/ evals (with_mem E mm) m p (grow k i) (Done (grow_result k r) tr).
Proof.
  intros Hv He Hs Hg. assert (Hv' : valid (with_mem E mm) i) by (unfold valid in *; cbn in *; lia).
  apply (proj1 (C03_only_the_input_is_read E mm m p i _ Hs)) in He. apply evals_big in He; auto.
  destruct (proj1 (extend (with_mem E mm) k) _ _ _ _ _ He Hv') as [H|H].
  - left. eapply sees_same; eauto.
  - right. apply evals_big; auto.
Qed.

Lemma same_input_self {T V} (E : env T V) i : same_input E (mem E) i.
Proof. intros k Hk. reflexivity. Qed.

(** Without changing the memory: the input was a prefix of a longer one. *)
Corollary C79_prefix {T V} (E : env T V) m p i r tr k : valid E (grow k i) -> evals E m p i (Done r tr) ->
  sees_end E m p i \/ evals E m p (grow k i) (Done (grow_result k r) tr).
Proof.
  intros Hg He. assert (Hv : valid E i) by (unfold valid in *; cbn in *; lia).
  assert (HE : with_mem E (mem E) = E) by (destruct E; reflexivity).
  pose proof (C79_final E (mem E) m p i r tr k Hv He (same_input_self E i)) as H. rewrite HE in H. auto.
Qed.

(** So if a prefix and the whole input are answered differently, the run on the prefix
    looked at its end. *)
Corollary C79_differs {T V} (E : env T V) m p i r tr k o : valid E (grow k i) -> evals E m p i (Done r tr) ->
  evals E m p (grow k i) o -> o <> Done (grow_result k r) tr -> sees_end E m p i.
Proof.
  intros Hg He Ho Hn. destruct (C79_prefix E m p i r tr k Hg He) as [H|H]; auto.
  destruct Hn. eapply evals_det; eauto.
Qed.

(** The same of a run that ends by an exception of user code or by a join of spans of
    different arrays ([halted h] is [Exn e] or [UB]). *)
Lemma with_mem_typed {T V} (E : env T V) mm : env_typed E -> env_typed (with_mem E mm).
Proof. intros []. now constructor. Qed.
Lemma with_mem_compiles {T V} (E : env T V) mm m p : compiles (with_mem E mm) m p = compiles E m p.
Proof. reflexivity. Qed.
Lemma with_mem_customs {T V} (E : env T V) mm : env_customs E -> env_customs (with_mem E mm).
Proof. intros []. now constructor. Qed.

Theorem C79_halts {T V} (E : env T V) mm p i h k : program E -> compiles E Parse p = true -> valid E i ->
  evals E Parse p i (halted h) -> same_input E mm i -> valid (with_mem E mm) (grow k i) ->
  sees_end E Parse p i \/ evals (with_mem E mm) Parse p (grow k i) (halted h).
Proof.
  intros [Ht Hc] Hp Hv He Hs Hg. assert (Hv' : valid (with_mem E mm) i) by (unfold valid in *; cbn in *; lia).
  apply (proj1 (C03_only_the_input_is_read E mm Parse p i _ Hs)) in He. apply halts_any in He; auto.
  destruct (halts_grow (with_mem E mm) k p i h He Hg) as [H|H].
  - left. eapply sees_same; eauto.
  - right. apply halts_evals; auto; [now apply with_mem_typed|now apply with_mem_customs].
Qed.

(** So every outcome of a program is final unless the run looked at the end of its input. *)
Definition grow_outcome k (o : outcome presult) : outcome presult :=
  match o with Done r tr => Done (grow_result k r) tr | _ => o end.

Theorem C79_every_outcome {T V} (E : env T V) mm m p i o k : program E -> compiles E m p = true -> valid E i ->
  evals E m p i o -> same_input E mm i -> valid (with_mem E mm) (grow k i) ->
  sees_end E m p i \/ evals (with_mem E mm) m p (grow k i) (grow_outcome k o).
Proof.
  intros HP Hp Hv He Hs Hg. destruct o as [r tr| |e| |].
  - now apply C79_final.
  - destruct m; [now apply (C79_halts E mm p i Undefined k)|]. exfalso. destruct He as [_ [n Hn]]. exact (look_not E Undefined n p i Hv Hn).
  - destruct m; [now apply (C79_halts E mm p i (Threw e) k)|]. exfalso. destruct He as [_ [n Hn]]. exact (look_not E (Threw e) n p i Hv Hn).
  - destruct He as [He _]. now destruct He.
  - exfalso. destruct HP as [Ht Hc]. destruct He as [_ [n Hn]]. exact (run_compiled E n m p i Hv Hp Ht Hc Hn).
Qed.

(** Case: a list followed by a text whose filter throws, in a repetition, at the end of the
    input: the exception comes whatever is added. *)
Example C79_halts_case : let p := PZeroOrMore (PChoice (PFilter (PAllOf (codes "+")) (FUser 3)) [PMap (PCustom 0) (FConstruct (TUser 2))]) in
  let i := Span 1 0 7 in
  program sx /\ compiles sx Parse p = true /\ valid sx i /\ evals sx Parse p i (Exn 42) /\ ~ sees_end sx Parse p i.
Proof.
  cbv zeta. split; [exact (conj sx_typed sx_customs)|]. split; [reflexivity|]. split; [unfold valid; cbn; lia|]. split; [runs 20|].
  apply (may_see_ok sx 20). vm_compute. reflexivity.
Qed.

(** A computed check that a run did not look at the end. *)
Theorem C79_check {T V} (E : env T V) n m p i : may_see E n m p i = false -> ~ sees_end E m p i.
Proof. apply may_see_ok. Qed.

(** Case: the nested list [((a)b)] that ends where the input ends.  Nothing that may come
    after it changes the answer. *)
Example C79_case : let i := Span 1 0 6 in
  ~ sees_end sx Parse (PCustom 0) i /\
  exists v tr, evals sx Parse (PCustom 0) i (Done (Res (Some v) (Span 1 6 0)) tr) /\ tr <> [] /\
  forall more, evals (with_mem sx (fun b => if b =? 1 then codes "((a)b)" ++ more else [])) Parse (PCustom 0)
    (Span 1 0 (6 + List.length more)) (Done (Res (Some v) (Span 1 6 (List.length more))) tr).
Proof.
  cbv zeta. assert (Hn : ~ sees_end sx Parse (PCustom 0) (Span 1 0 6)) by (apply (may_see_ok sx 20); vm_compute; reflexivity).
  split; [exact Hn|].
  assert (He : exists v tr, evals sx Parse (PCustom 0) (Span 1 0 6) (Done (Res (Some v) (Span 1 6 0)) tr) /\ tr <> []).
  { eexists _, _. split; [runs 20|discriminate]. }
  destruct He as (v & tr & He & Ht). exists v, tr. split; [exact He|]. split; [exact Ht|]. intros more.
  edestruct (C79_final sx (fun b => if b =? 1 then codes "((a)b)" ++ more else []) Parse (PCustom 0) (Span 1 0 6) (Res (Some v) (Span 1 6 0)) tr (List.length more)) as [H|H];
    [|exact He| | |contradiction|exact H].
  - unfold valid. cbn. lia.
  - intros k Hk. cbn in Hk. do 6 (destruct k; [reflexivity|]). lia.
  - unfold valid. cbn. lia.
Qed.

(** Case: a failure that is final: [aab] starts with no parenthesis. *)
Example C79_case_failure : let i := Span 1 14 1 in
  evals sx Parse (PCustom 0) i (Done (Res None i) []) /\ ~ sees_end sx Parse (PCustom 0) i.
Proof. split; [runs 20|]. apply (may_see_ok sx 20); vm_compute; reflexivity. Qed.

(** Case: [all_of] with more elements than are left, of which the first is another: that is
    no look at the end. *)
Example C79_case_all : let p := PChoice (PAllOf (codes "bbb")) [PAllOf (codes "aa")] in let i := Span 3 0 2 in
  gives sx Parse p i (RVal (VSpan (Span 3 0 2))) (Span 3 2 0) [] /\ ~ sees_end sx Parse p i.
Proof. split; [runs 20|]. apply (may_see_ok sx 20); vm_compute; reflexivity. Qed.

(** Looking at the end matters: a repetition takes more, complete changes its mind, and an
    alternative that was cut off comes first. *)
Definition C79_as : parser nat := PZeroOrMore (PAnyOf (codes "a")).
Definition C79_alt : parser nat := PChoice (PAllOf (codes "aaa")) [PAllOf (codes "a")].
Theorem C79_end_matters :
  (exists v tr, evals sx Parse C79_as (Span 3 0 2) (Done (Res (Some v) (Span 3 2 0)) tr) /\
     sees_end sx Parse C79_as (Span 3 0 2) /\ ~ evals sx Parse C79_as (grow 1 (Span 3 0 2)) (Done (Res (Some v) (Span 3 2 1)) tr)) /\
  (exists v, gives sx Parse (PComplete PAnything) (Span 3 0 1) v (Span 3 1 0) [] /\
     refuses sx Parse (PComplete PAnything) (grow 1 (Span 3 0 1)) []) /\
  gives sx Parse C79_alt (Span 3 0 2) (RVal (VSpan (Span 3 0 1))) (Span 3 1 1) [] /\
  gives sx Parse C79_alt (grow 1 (Span 3 0 2)) (RVal (VSpan (Span 3 0 3))) (Span 3 3 0) [].
Proof.
  split; [|split; [|split; runs 20]].
  - assert (H1 : evals sx Parse C79_as (Span 3 0 2) (Done (Res (Some (RVal (VVec [VSpan (Span 3 0 1); VSpan (Span 3 1 1)]))) (Span 3 2 0)) [])) by runs 20.
    assert (H2 : evals sx Parse C79_as (Span 3 0 3) (Done (Res (Some (RVal (VVec [VSpan (Span 3 0 1); VSpan (Span 3 1 1); VSpan (Span 3 2 1)]))) (Span 3 3 0)) [])) by runs 20.
    eexists _, _. split; [exact H1|]. assert (Hd : ~ evals sx Parse C79_as (grow 1 (Span 3 0 2)) (Done (Res (Some (RVal (VVec [VSpan (Span 3 0 1); VSpan (Span 3 1 1)]))) (Span 3 2 1)) [])).
    { intros H. pose proof (evals_det sx _ _ _ _ _ H H2). discriminate. }
    split; [|exact Hd]. refine (C79_differs sx _ _ _ _ _ 1 _ _ H1 H2 _); [unfold valid; cbn; lia|discriminate].
  - eexists. split; runs 20.
Qed.

Print Assumptions C79_final.
Print Assumptions C79_prefix.
Print Assumptions C79_differs.
Print Assumptions C79_halts.
Print Assumptions C79_every_outcome.
Print Assumptions C79_check.
Print Assumptions C79_case.
Print Assumptions C79_end_matters.
