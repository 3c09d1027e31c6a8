(** * Choices whose [emplace<I>] converts

    helpers.h:62-67, :190: the value of an alternative is given to [std::variant::emplace<I>], which
    constructs alternative [I] of the variant from it.  [Exec.v] asks for the same type
    ([emplace_ok]); here [I] may have another type that can be constructed from the value.  All
    other parsers are those of [Exec.v]. *)
From Coq Require Import String List Arith ZArith Bool Lia.
From Verif Require Import Types Compound Parser Outcome CompoundFacts Exec.
Import ListNotations.
Local Open Scope outcome_scope.

Section Conv.
Context {T V : Type} (E : env T V).

(** [std::is_constructible_v<to, from&&>].  Of the library's types: an optional from its value
    ([optional.ctor]), a variant from one of its alternatives ([variant.ctor], the exact type
    is the best match); of the user's: their constructors.  Not modelled: conversions that
    combine two of these, tuples and pairs element by element. *)
Definition constructible (to from : ty) : bool :=
  ty_eqb to from || ct_ok E to [from] ||
  match to with
  | TOpt t => ty_eqb t from
  | TVar ts => occurs ts from
  | _ => false
  end.

(** The position of a type in a list *)
Fixpoint position (t : ty) (ts : list ty) : nat :=
  match ts with [] => 0 | a :: ts' => if ty_eqb a t then 0 else S (position t ts') end.

(** the conversion of the value; the user's constructors are user code *)
Definition convert (to from : ty) (v : val) : outcome val :=
  if ty_eqb to from then ret v
  else if ct_ok E to [from] then
    w <- call E (FConstruct to) [v] ;; match w with RVal w => ret w | RVoid => Ill end
  else match to with
       | TOpt t => if ty_eqb t from then ret (VOpt (Some v)) else Ill
       | TVar ts => if occurs ts from then ret (VVar (position from ts) v) else Ill
       | _ => Ill
       end.

(** helpers.h:190: every alternative can be given to its [emplace<I>] *)
Fixpoint convertible_all (done tys : list ty) (seq : list index) : bool :=
  match tys, seq with
  | t :: tys', i :: seq' =>
      (match i with
       | None => true
       | Some k => match nth_error done k with Some a => constructible a t | None => false end
       end) && convertible_all done tys' seq'
  | _, _ => true
  end.

Section Rec.
Variable rec : mode -> parser T -> pfun.
Variable done : list ty.

(** helpers.h:145-199 for a choice; [t] is the type of the alternative *)
Definition cexecute (p : parser T) (t : ty) (idx : index) (st : span * rv) : outcome (bool * (span * rv)) :=
  let (i, b) := st in
  match idx with
  | None => execute rec CChoice (unwrapped done) p None st
  | Some k =>
      if unwrapped done then execute rec CChoice true p (Some k) st
      else
        res <- rec Parse p i ;;
        match r_ok res with
        | None => ret (false, (i, b))
        | Some (RVal v) =>
            match nth_error done k with
            | Some a => w <- convert a t v ;; b' <- b_emplace k b (RVal w) ;; ret (true, (r_rem res, b'))
            | None => Ill
            end
        | Some RVoid => b' <- b_emplace k b RVoid ;; ret (true, (r_rem res, b'))
        end
  end.

(** choice.h:38-41 *)
Fixpoint cexec_or (ps : list (parser T * (ty * index))) (st : span * rv) : outcome (bool * (span * rv)) :=
  match ps with
  | [] => ret (false, st)
  | (p, (t, idx)) :: ps' =>
      '(b, st') <- cexecute p t idx st ;;
      if b : bool then ret (true, st') else cexec_or ps' st'
  end.
End Rec.

(** choice.h:29-50 *)
Definition cchoice_parse (rec : mode -> parser T -> pfun) (ps : list (parser T)) (i : span) : outcome presult :=
  match result_fors E ps with
  | None => Ill
  | Some tys =>
      let done := fst (filter_out_void_deduplicate tys) in
      let seq := snd (filter_out_void_deduplicate tys) in
      if unwrapped done || convertible_all done tys seq then
        '(ok, (i', b)) <- cexec_or rec done (combine ps (combine tys seq))
                            (i, builder_init (compound_result TVar done)) ;;
        if ok : bool then ret (success b i') else ret (failure i)
      else Ill
  end.

Definition cstep (rec : mode -> parser T -> pfun) (k : nat) (m : mode) (p : parser T) (i : span) : outcome presult :=
  match p, m with
  | PChoice q qs, Parse => cchoice_parse rec (q :: qs) i
  | _, _ => step E rec k m p i
  end.

Fixpoint crun (n : nat) (m : mode) (p : parser T) (i : span) {struct n} : outcome presult :=
  match n with
  | O => OOF
  | S n' => cstep (crun n') n' m p i
  end.
End Conv.

(** ** Agreement with [Exec.v] *)

(** [a] would not compile, or is [b] *)
Definition le_ill {A} (a b : outcome A) : Prop := a = Ill \/ a = b.

Lemma le_ill_refl {A} (a : outcome A) : le_ill a a.
Proof. now right. Qed.
Lemma le_ill_Ill {A} (b : outcome A) : le_ill Ill b.
Proof. now left. Qed.

Lemma bind_ill {A B} (x y : outcome A) (f g : A -> outcome B) :
  le_ill x y -> (forall a, le_ill (f a) (g a)) -> le_ill (bind x f) (bind y g).
Proof.
  intros [-> | ->] H; [now left|].
  destruct y as [a tr| | | |]; cbn; try apply le_ill_refl.
  destruct (H a) as [-> | ->]; [now left | apply le_ill_refl].
Qed.

#[global] Hint Resolve le_ill_refl le_ill_Ill : ill.

Section Agree.
Context {T V : Type} (E : env T V).

Ltac ill_step :=
  match goal with
  | |- le_ill ?a ?a => apply le_ill_refl
  | |- le_ill (bind _ _) (bind _ _) => apply bind_ill
  | |- forall _, _ => intro
  | |- le_ill (match ?x with _ => _ end) (match ?x with _ => _ end) => destruct x
  | |- le_ill (if ?x then _ else _) (if ?x then _ else _) => destruct x
  | |- le_ill (let (_, _) := ?x in _) (let (_, _) := ?x in _) => destruct x
  | |- le_ill Ill _ => apply le_ill_Ill
  end.

Section Funs.
Variables f g : pfun.
Hypothesis Hfg : forall i, le_ill (f i) (g i).

Lemma exactly_loop_ill k : forall j i b, le_ill (exactly_loop f k j i b) (exactly_loop g k j i b).
Proof.
  induction k; intros; cbn; auto with ill. apply bind_ill; [apply Hfg|].
  intros r; destruct (r_ok r); auto with ill. apply bind_ill; auto with ill.
Qed.

Lemma rep_loop_ill k : forall i b s, le_ill (rep_loop f k i b s) (rep_loop g k i b s).
Proof.
  induction k; intros i b s; cbn; auto with ill. apply bind_ill; [apply Hfg|].
  intros r; destruct (r_ok r); auto with ill. apply bind_ill; auto with ill.
Qed.

Lemma delim_loop_ill f' g' pv dv k : (forall i, le_ill (f' i) (g' i)) -> forall r i b,
  le_ill (delim_loop f f' pv dv k r i b) (delim_loop g g' pv dv k r i b).
Proof.
  intros Hd. induction k; intros r i b; cbn; auto with ill. destruct (r_ok r); auto with ill.
  apply bind_ill; auto with ill. intros b1. apply bind_ill; [apply Hd|]. intros d.
  destruct (r_ok d); auto with ill. apply bind_ill; [apply Hfg|]. intros r'.
  apply bind_ill; auto with ill.
Qed.
End Funs.

Section Rec.
Variables r1 r2 : mode -> parser T -> pfun.
Hypothesis Hr : forall m p i, le_ill (r1 m p i) (r2 m p i).

Lemma execute_ill ct u p idx st : le_ill (execute r1 ct u p idx st) (execute r2 ct u p idx st).
Proof. destruct st; cbn. destruct idx; (apply bind_ill; [apply Hr|auto with ill]). Qed.

Lemma exec_or_ill u ps : forall st, le_ill (exec_or r1 u ps st) (exec_or r2 u ps st).
Proof.
  induction ps as [|[p idx] ps IH]; intros; cbn; auto with ill.
  apply bind_ill; [apply execute_ill|]. intros [[|] st']; auto with ill.
Qed.

Lemma exec_and_ill u ps : forall st, le_ill (exec_and r1 u ps st) (exec_and r2 u ps st).
Proof.
  induction ps as [|[p idx] ps IH]; intros; cbn; auto with ill.
  apply bind_ill; [apply execute_ill|]. intros [[|] st']; auto with ill.
Qed.

Lemma step_ill k m p i : le_ill (step E r1 k m p i) (step E r2 k m p i).
Proof.
  destruct p; destruct m; cbn [step];
    unfold choice_parse, choice_look, sequence_parse, sequence_look,
      maybe_parse, maybe_look, exactly_parse, exactly_look, one_or_more_parse, one_or_more_look,
      zero_or_more_parse, zero_or_more_look, delimit_parse, delimit_look, complete_run,
      map_parse, filter_parse, custom_parse, join_generic, join_parse;
    try apply Hr;
    solve [repeat first [apply exec_or_ill | apply exec_and_ill
      | apply (Hr _ _ _)
      | apply exactly_loop_ill; solve [auto with ill]
      | apply rep_loop_ill; solve [auto with ill]
      | apply delim_loop_ill; solve [auto with ill]
      | ill_step ]].
Qed.

(** no conversion is needed *)
Definition same_types (done : list ty) (x : parser T * (ty * index)) : Prop :=
  match snd (snd x) with None => True | Some k => unwrapped done = true \/ nth_error done k = Some (fst (snd x)) end.

Lemma cexec_ill done l : Forall (same_types done) l -> forall st,
  le_ill (exec_or r1 (unwrapped done) (map (fun x => (fst x, snd (snd x))) l) st) (cexec_or E r2 done l st).
Proof.
  induction 1 as [|[p [t idx]] l Hx Hl IH]; intros st; cbn [map exec_or cexec_or fst snd]; [apply le_ill_refl|].
  apply bind_ill; [|intros [[|] st']; [apply le_ill_refl | apply IH]].
  destruct st as [i b], idx as [k|]; [|apply execute_ill]. unfold cexecute.
  destruct (unwrapped done) eqn:Hu; [apply execute_ill|]. destruct Hx as [Hx|Hx]; [cbn in Hx; congruence|]. cbn in Hx.
  unfold execute. apply bind_ill; [apply Hr|]. intros res. destruct (r_ok res) as [[|v]|]; try apply le_ill_refl.
  rewrite Hx. unfold convert. rewrite ty_eqb_refl. unfold ret, bind at 2. cbn [store].
  destruct (b_emplace k b (RVal v)); apply le_ill_refl.
Qed.
End Rec.

Lemma combine_map {A B C} (l : list A) : forall (ys : list B) (zs : list C), List.length ys = List.length l ->
  combine l zs = map (fun x => (fst x, snd (snd x))) (combine l (combine ys zs)).
Proof.
  induction l as [|a l IH]; intros [|y ys] [|z zs] H; try discriminate; try reflexivity; cbn. f_equal. apply IH. cbn in H. lia.
Qed.

Lemma emplace_same done tys : forall seq (ps : list (parser T)), unwrapped done || emplace_ok done tys seq = true ->
  Forall (same_types done) (combine ps (combine tys seq)).
Proof.
  intros seq ps H. destruct (unwrapped done) eqn:Hu.
  - apply Forall_forall. intros [p [t [k|]]] _; [now left | exact Logic.I].
  - cbn [orb] in H. revert seq ps H. induction tys as [|t tys IH]; intros [|i seq] [|p ps] H; cbn; try constructor.
    + cbn in H. apply andb_prop in H as [H _]. unfold same_types. cbn. destruct i as [k|]; [|exact Logic.I]. right.
      destruct (nth_error done k) as [a|]; [|discriminate]. apply ty_eqb_spec in H. congruence.
    + cbn in H. apply andb_prop in H as [_ H]. now apply IH.
Qed.

Lemma emplace_convertible done tys : forall seq, emplace_ok done tys seq = true -> convertible_all E done tys seq = true.
Proof.
  induction tys as [|t tys IH]; intros [|i seq] H; try reflexivity. cbn in *. apply andb_prop in H as [H1 H2].
  rewrite (IH _ H2), andb_true_r. destruct i as [k|]; [|reflexivity]. destruct (nth_error done k); [|discriminate].
  unfold constructible. now rewrite H1.
Qed.

(** A program that compiles without conversions runs as in [Exec.v]. *)
Lemma crun_agrees n : forall m p i, le_ill (run E n m p i) (crun E n m p i).
Proof.
  induction n as [|n IH]; intros m p i; [apply le_ill_refl|]. cbn [run crun]. unfold cstep.
  destruct p; try (apply step_ill; exact IH). destruct m; [|apply step_ill; exact IH].
  cbn [step]. unfold choice_parse, cchoice_parse. destruct (result_fors E (p :: ps)) as [tys|] eqn:R; [|apply le_ill_refl].
  set (done := fst (filter_out_void_deduplicate tys)). set (seq := snd (filter_out_void_deduplicate tys)).
  destruct (unwrapped done || emplace_ok done tys seq) eqn:H; [|apply le_ill_Ill].
  assert (unwrapped done || convertible_all E done tys seq = true) as ->.
  { destruct (unwrapped done); [reflexivity|]. now apply emplace_convertible. }
  apply bind_ill; [|intros [[|] [i' b]]; apply le_ill_refl].
  rewrite (combine_map (p :: ps) tys seq).
  - apply cexec_ill; [exact IH | now apply emplace_same].
  - clear - R. unfold result_fors in R. apply all_some_spec in R. apply (f_equal (@List.length _)) in R. now rewrite !map_length in R.
Qed.
End Agree.
