(** * parse and lookahead when user functions read and change state

    [Exec.v] takes the user's functions and constructors as functions of their arguments.  In C++ they can also depend on
    and change variables of the program (a symbol table, a counter, a log).  Here they take the state of the
    program's variables, the world, and give a new one; everything else is as in [Exec.v], with the same lines.  The parts of
    the library that call no user code are [Exec.v]'s own.

    Simplified: [==] of elements, the conversion of a predicate's result to bool, and constants do not depend on the world. *)
From Coq Require Import List Arith ZArith Bool String.
From Verif Require Import Types Compound Parser Outcome Exec.
Import ListNotations.

Section Stateful.
Context {T V W : Type} (E : env T V).
(** The user's callables and constructors.  [E] gives their types; its [fn_app] and [ct_app] are not used. *)
Variable sfn : nat -> list val -> W -> fnres * W.
Variable sct : ty -> list val -> W -> fnres * W.

(** Effects stay when an exception is thrown. *)
Definition eff (A : Type) : Type := W -> outcome A * W.
Definition lift {A} (o : outcome A) : eff A := fun w => (o, w).
Definition sret {A} (a : A) : eff A := lift (ret a).
Definition sbind {A B} (x : eff A) (f : A -> eff B) : eff B := fun w =>
  match x w with
  | (Done a tr, w') =>
      match f a w' with
      | (Done b tr', w'') => (Done b (tr ++ tr'), w'')
      | (UB, w'') => (UB, w'')
      | (Exn e, w'') => (Exn e, w'')
      | (OOF, w'') => (OOF, w'')
      | (Ill, w'') => (Ill, w'')
      end
  | (UB, w') => (UB, w')
  | (Exn e, w') => (Exn e, w')
  | (OOF, w') => (OOF, w')
  | (Ill, w') => (Ill, w')
  end.
Notation "x <- e ;; k" := (sbind e (fun x => k)) (at level 61, e at next level, right associativity).
Notation "' pat <- e ;; k" := (sbind e (fun x => match x with pat => k end))
  (at level 61, pat pattern, e at next level, right associativity).

Definition sfun : Type := span -> eff presult.

(** functions.h:11-22 *)
Fixpoint sinvoke (f : func) (args : list val) (w : W) : fnres * W :=
  match f with
  | FUser n => sfn n args w
  | FApply g =>
      match args with
      | [v] => match tuple_vals v with Some vs => sinvoke g vs w | None => (FIll, w) end
      | _ => (FIll, w)
      end
  | FConstant k => (FRet (RVal (k_val E k)), w)
  | FConstruct t => sct t args w
  | FDefault t => (FRet (RVal (default_val t)), w)
  end.

(** [std::invoke(f, args...)], recorded in the trace *)
Definition scall (f : func) (args : list val) : eff rv := fun w =>
  match sinvoke f args w with
  | (FRet r, w') => (Done r [EInvoke f args], w')
  | (FThrow e, w') => (Exn e, w')
  | (FIll, w') => (Ill, w')
  end.

Section Rec.
Variable rec : mode -> parser T -> sfun.

(** helpers.h:145-199 *)
Definition sexecute (ct : compound_type) (unw : bool) (p : parser T) (idx : index) (st : span * rv) : eff (bool * (span * rv)) :=
  let (i, b) := st in
  match idx with
  | None =>
      res <- rec Look p i ;;
      sret (has_value res, (r_rem res, b))
  | Some k =>
      res <- rec Parse p i ;;
      match r_ok res with
      | None => sret (false, (i, b))
      | Some v => b' <- lift (store ct unw k b v) ;;
                  sret (true, (r_rem res, b'))
      end
  end.

(** choice.h:38-41, :61 *)
Fixpoint sexec_or (unw : bool) (ps : list (parser T * index)) (st : span * rv) : eff (bool * (span * rv)) :=
  match ps with
  | [] => sret (false, st)
  | (p, idx) :: ps' =>
      '(b, st') <- sexecute CChoice unw p idx st ;;
      if b : bool then sret (true, st') else sexec_or unw ps' st'
  end.

(** sequence.h:39-42, :62 *)
Fixpoint sexec_and (unw : bool) (ps : list (parser T * index)) (st : span * rv) : eff (bool * (span * rv)) :=
  match ps with
  | [] => sret (true, st)
  | (p, idx) :: ps' =>
      '(b, st') <- sexecute CSequence unw p idx st ;;
      if b : bool then sexec_and unw ps' st' else sret (false, st')
  end.

(** choice.h:29-50 *)
Definition schoice_parse (ps : list (parser T)) : sfun := fun i =>
  match result_fors E ps with
  | None => lift Ill
  | Some tys =>
      let done := fst (filter_out_void_deduplicate tys) in
      let seq := snd (filter_out_void_deduplicate tys) in
      if unwrapped done || emplace_ok done tys seq then
        '(ok, (i', b)) <- sexec_or (unwrapped done) (combine ps seq) (i, builder_init (compound_result TVar done)) ;;
        if ok : bool then sret (success b i') else sret (failure i)
      else lift Ill
  end.

(** choice.h:52-67 *)
Definition schoice_look (ps : list (parser T)) : sfun := fun i =>
  match result_fors E ps with
  | None => lift Ill
  | Some tys =>
      '(ok, (i', _)) <- sexec_or (unwrapped (fst (filter_out_void_deduplicate tys))) (map (fun p => (p, None)) ps) (i, RVoid) ;;
      if ok : bool then sret (success RVoid i') else sret (failure i)
  end.

(** sequence.h:29-51 *)
Definition ssequence_parse (ps : list (parser T)) : sfun := fun i =>
  match result_fors E ps with
  | None => lift Ill
  | Some tys =>
      let done := fst (filter_out_void tys) in
      let seq := snd (filter_out_void tys) in
      '(ok, (i', b)) <- sexec_and (unwrapped done) (combine ps seq) (i, builder_init (compound_result TTup done)) ;;
      if ok : bool then sret (success b i') else sret (failure i)
  end.

(** sequence.h:53-68 *)
Definition ssequence_look (ps : list (parser T)) : sfun := fun i =>
  match result_fors E ps with
  | None => lift Ill
  | Some tys =>
      '(ok, (i', _)) <- sexec_and (unwrapped (fst (filter_out_void tys))) (map (fun p => (p, None)) ps) (i, RVoid) ;;
      if ok : bool then sret (success RVoid i') else sret (failure i)
  end.
End Rec.

(** maybe.h:27-40 *)
Definition smaybe_parse (t : ty) (f : sfun) : sfun := fun i =>
  let b := builder_init (if is_void t then TVoid else TOpt t) in
  res <- f i ;;
  match r_ok res with
  | Some v => b' <- lift (b_emplace_opt b v) ;; sret (success b' (r_rem res))
  | None => sret (success b (r_rem res))
  end.

(** maybe.h:42-53 *)
Definition smaybe_look (f : sfun) : sfun := fun i =>
  res <- f i ;;
  if has_value res then sret (success RVoid (r_rem res)) else sret (success RVoid i).

(** exactly.h:37-45, :58-65 *)
Fixpoint sexactly_loop (f : sfun) (k j : nat) (i : span) (b : rv) : eff (option (span * rv)) :=
  match k with
  | O => sret (Some (i, b))
  | S k' =>
      res <- f i ;;
      match r_ok res with
      | None => sret None
      | Some v => b' <- lift (b_array_assign j b v) ;;
                  sexactly_loop f k' (S j) (r_rem res) b'
      end
  end.

(** exactly.h:28-48 *)
Definition sexactly_parse (t : ty) (f : sfun) (n : nat) : sfun := fun i =>
  r <- sexactly_loop f n 0 i (builder_init (if is_void t then TVoid else TArr t n)) ;;
  match r with
  | Some (i', b) => sret (success b i')
  | None => sret (failure i)
  end.

(** exactly.h:50-68 *)
Definition sexactly_look (f : sfun) (n : nat) : sfun := fun i =>
  r <- sexactly_loop f n 0 i RVoid ;;
  match r with
  | Some (i', _) => sret (success RVoid i')
  | None => sret (failure i)
  end.

(** one_or_more.h:36-44, :60-67, zero_or_more.h:35-42, :53-59 *)
Fixpoint srep_loop (f : sfun) (k : nat) (i : span) (b : rv) (successful : bool) : eff (span * rv * bool) :=
  match k with
  | O => lift OOF
  | S k' =>
      res <- f i ;;
      match r_ok res with
      | None => sret (r_rem res, b, successful)
      | Some v => b' <- lift (b_insert_back b v) ;;
                  srep_loop f k' (r_rem res) b' true
      end
  end.

(** one_or_more.h:27-50 *)
Definition sone_or_more_parse (t : ty) (f : sfun) (k : nat) : sfun := fun i =>
  '(i', b, ok) <- srep_loop f k i (builder_init (if is_void t then TVoid else TVec t)) false ;;
  if ok : bool then sret (success b i') else sret (failure i').

(** one_or_more.h:52-73 *)
Definition sone_or_more_look (f : sfun) (k : nat) : sfun := fun i =>
  '(i', _, ok) <- srep_loop f k i RVoid false ;;
  if ok : bool then sret (success RVoid i') else sret (failure i').

(** zero_or_more.h:27-45 *)
Definition szero_or_more_parse (t : ty) (f : sfun) (k : nat) : sfun := fun i =>
  '(i', b, _) <- srep_loop f k i (builder_init (if is_void t then TVoid else TVec t)) false ;;
  sret (success b i').

(** zero_or_more.h:47-62 *)
Definition szero_or_more_look (f : sfun) (k : nat) : sfun := fun i =>
  '(i', _, _) <- srep_loop f k i RVoid false ;;
  sret (success RVoid i').

(** delimit.h:50-76, :91-100 *)
Fixpoint sdelim_loop (fp fd : sfun) (pv dv : bool) (k : nat) (res : presult) (i : span) (b : rv) : eff (span * rv) :=
  match k with
  | O => lift OOF
  | S k' =>
      match r_ok res with
      | None => sret (i, b)
      | Some v =>
          let i := r_rem res in
          b1 <- lift (if pv then ret b else if dv then b_insert_back b v else b_insert_back_first b v) ;;
          d <- fd i ;;
          match r_ok d with
          | None => sret (i, b1)
          | Some w =>
              res' <- fp (r_rem d) ;;
              b2 <- lift (if dv then ret b1
                     else if has_value res'
                          then (if pv then b_insert_back b1 w else b_insert_back_second b1 w)
                          else ret b1) ;;
              sdelim_loop fp fd pv dv k' res' i b2
          end
      end
  end.

(** delimit.h:36-79 *)
Definition sdelimit_parse (tp td : ty) (fp fd : sfun) (k : nat) : sfun := fun i =>
  res <- fp i ;;
  if has_value res then
    '(i', b) <- sdelim_loop fp fd (is_void tp) (is_void td) k res i (builder_init (delimit_type tp td)) ;;
    sret (success b i')
  else sret (failure i).

(** delimit.h:81-103 *)
Definition sdelimit_look (fp fd : sfun) (k : nat) : sfun := fun i =>
  res <- fp i ;;
  if has_value res then
    '(i', _) <- sdelim_loop fp fd true true k res i RVoid ;;
    sret (success RVoid i')
  else sret (failure i).

(** complete.h:21-45 *)
Definition scomplete_run (f : sfun) : sfun := fun i =>
  res <- f i ;;
  if negb (has_value res) || negb (sp_len (r_rem res) =? 0)
  then sret (failure i) else sret res.

(** map.h:27-60 *)
Definition smap_parse (fn : func) (f : sfun) : sfun := fun i =>
  res <- f i ;;
  match r_ok res with
  | None => sret (failure i)
  | Some v => w <- scall fn (args_of v) ;;
              sret (success w (r_rem res))
  end.

(** filter.h:29-55 *)
Definition sfilter_parse (fn : func) (f : sfun) : sfun := fun i =>
  res <- f i ;;
  match r_ok res with
  | None => sret (failure i)
  | Some v => w <- scall fn (args_of v) ;;
              match w with
              | RVal c => if as_bool E c then sret res else sret (failure i)
              | RVoid => lift Ill
              end
  end.

(** custom.h:41-47 *)
Definition scustom_parse (cv : conv) (f : sfun) : sfun := fun i =>
  res <- f i ;;
  match cv, r_ok res with
  | ConvSame, _ => sret res
  | ConvElem _, None => sret res
  | ConvElem t, Some (RVal v) => w <- scall (FConstruct t) [v] ;; sret (success w (r_rem res))
  | ConvWhole t, None => w <- scall (FConstruct t) [VOpt None] ;; sret (success w (r_rem res))
  | ConvWhole t, Some (RVal v) =>
      w <- scall (FConstruct t) [VOpt (Some v)] ;; sret (success w (r_rem res))
  | _, Some RVoid => lift Ill
  end.

(** join.h:130-145 *)
Definition sjoin_parse (f : sfun) : sfun := fun i =>
  res <- f i ;;
  match r_ok res with
  | None => sret (failure i)
  | Some (RVal v) =>
      j <- lift (join_executor v (r_rem res)) ;;
      match j with
      | Some s => sret (success (RVal (VSpan s)) (r_rem res))
      | None => sret (failure i)
      end
  | Some RVoid => lift Ill
  end.

(** join.h:120-152 *)
Definition sjoin_generic (rec : mode -> parser T -> sfun) (m : mode) (q : parser T) : sfun := fun i =>
  match m with
  | Look => rec Look q i
  | Parse => match result_for E q with
             | Some t => if joinable t then sjoin_parse (rec Parse q) i else lift Ill
             | None => lift Ill
             end
  end.

(** As [step] of Exec.v. *)
Definition sstep (rec : mode -> parser T -> sfun) (k : nat) (m : mode) (p : parser T) : sfun := fun i =>
  match p with
  | PAnyOf arr => lift match m with Parse => basic_parse (any_of_fc E arr) 1 i | Look => basic_look (any_of_fc E arr) 1 i end
  | PNoneOf arr => lift match m with Parse => basic_parse (none_of_fc E arr) 1 i | Look => basic_look (none_of_fc E arr) 1 i end
  | PAllOf arr => lift match m with Parse => basic_parse (all_of_fc E arr) (List.length arr) i
                                  | Look => basic_look (all_of_fc E arr) (List.length arr) i end
  | PAnything => lift match m with Parse => basic_parse anything_fc 1 i | Look => basic_look anything_fc 1 i end
  | PEpsilon => lift (epsilon_run i)
  | PChoice q qs => match m with Parse => schoice_parse rec (q :: qs) i | Look => schoice_look rec (q :: qs) i end
  | PSequence q qs => match m with Parse => ssequence_parse rec (q :: qs) i | Look => ssequence_look rec (q :: qs) i end
  | PMaybe q => match m with
                | Parse => match result_for E q with Some t => smaybe_parse t (rec Parse q) i | None => lift Ill end
                | Look => smaybe_look (rec Look q) i
                end
  | PExactly q n => if n =? 0 then lift Ill
                    else match m with
                    | Parse => match result_for E q with Some t => sexactly_parse t (rec Parse q) n i | None => lift Ill end
                    | Look => sexactly_look (rec Look q) n i
                    end
  | POneOrMore q => match m with
                    | Parse => match result_for E q with Some t => sone_or_more_parse t (rec Parse q) k i | None => lift Ill end
                    | Look => sone_or_more_look (rec Look q) k i
                    end
  | PZeroOrMore q => match m with
                     | Parse => match result_for E q with Some t => szero_or_more_parse t (rec Parse q) k i | None => lift Ill end
                     | Look => szero_or_more_look (rec Look q) k i
                     end
  | PDelimit q d => match m with
                    | Parse => match result_for E q, result_for E d with
                               | Some tp, Some td => sdelimit_parse tp td (rec Parse q) (rec Parse d) k i
                               | _, _ => lift Ill end
                    | Look => sdelimit_look (rec Look q) (rec Look d) k i
                    end
  | PIgnore q => rec Look q i
  | PComplete q => scomplete_run (rec m q) i
  | PJoin q => match join_special E q k with
               | Some f => lift (f m i)
               | None => sjoin_generic rec m q i
               end
  | PMap q fn => match m with
                 | Look => rec Look q i
                 | Parse => match result_for E p with Some _ => smap_parse fn (rec Parse q) i | None => lift Ill end
                 end
  | PFilter q fn => match m with
                    | Look => rec Look q i
                    | Parse => match result_for E p with Some _ => sfilter_parse fn (rec Parse q) i | None => lift Ill end
                    end
  | PNamed q _ => rec m q i
  | PCustom c => match m with
                 | Look => rec Look (cust_body E c) i
                 | Parse => scustom_parse (cust_conv E c) (rec Parse (cust_body E c)) i
                 end
  end.

Fixpoint srun (n : nat) (m : mode) (p : parser T) (i : span) {struct n} : eff presult :=
  match n with
  | O => lift OOF
  | S n' => sstep (srun n') n' m p i
  end.

(** The call, begun in world [w], ends with [o] in world [w']. *)
Definition sevals (m : mode) (p : parser T) (i : span) (w : W) (o : outcome presult) (w' : W) : Prop :=
  o <> OOF /\ exists n, srun n m p i w = (o, w').
Definition sterminates (m : mode) (p : parser T) (i : span) (w : W) : Prop :=
  exists n, fst (srun n m p i w) <> OOF.
End Stateful.
