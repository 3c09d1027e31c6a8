(** * Objects, moves and copies

    Exec.v computes with values.  Here the same functions are transcribed with the objects
    they work on: a [result] and a [result_builder] own a value that may be moved out of
    them, after which the value may no longer be used.  Each operation on the owned values is
    recorded, in order, whether or not the call finishes.

    Not recorded: the destruction of objects, and what a standard container does with its
    elements on its own account (reallocation of a vector). *)
From Coq Require Import String List Arith ZArith Bool.
From Verif Require Import Types Compound Parser Outcome Exec.
Import ListNotations.

(** What is done with a value of type [t] *)
Inductive use : Type :=
| Default (t : ty)         (* [T{}] *)
| Move (t : ty)            (* initialisation from an rvalue *)
| Insert (t : ty)          (* the same, as a new element of a vector, which may allocate *)
| MoveAssign (t : ty)      (* assignment from an rvalue *)
| Copy (t : ty)            (* initialisation from an lvalue *)
| CopyAssign (t : ty)      (* assignment from an lvalue *)
| Hand                     (* a [T&&] given to a user's function *)
| Show                     (* a [const T&] given to a user's function or to join *)
| Stale                    (* error: the value of a moved-from object is used *)
| NoValue.                 (* error: [operator*] of a result without a value *)

(** A computation: the record of uses and the outcome *)
Definition om (A : Type) : Type := (list use * outcome A)%type.
Definition oret {A} (a : A) : om A := ([], ret a).
Definition lift {A} (o : outcome A) : om A := ([], o).
Definition say (u : use) : om unit := ([u], ret tt).
Definition fault {A} (u : use) : om A := ([u], UB).
Definition obind {A B} (x : om A) (f : A -> om B) : om B :=
  (fst x ++ match snd x with Done a _ => fst (f a) | _ => [] end,
   bind (snd x) (fun a => snd (f a))).

Declare Scope object_scope.
Delimit Scope object_scope with object.
Notation "x <- e ;; k" := (obind e (fun x => k))
  (at level 61, e at next level, right associativity) : object_scope.
Notation "' pat <- e ;; k" := (obind e (fun x => match x with pat => k end))
  (at level 61, pat pattern, e at next level, right associativity) : object_scope.
Local Open Scope object_scope.

(** A member of type [T]; for void the member does not exist ([Holds RVoid]) *)
Inductive cell : Type := Holds (v : rv) | MovedFrom.

(** result.h:56-58, :85-87: the members [_result], an optional, and [_remaining] *)
Record robj : Type := RObj { o_val : option cell; o_rem : span }.

(** result.h:41-42, :80-81: whether the optional is engaged; not changed by moving the value
    out of it *)
Definition engaged (r : robj) : bool := match o_val r with Some _ => true | None => false end.

(** result.h:24-25, :74-75 *)
Definition ofail (rem : span) : robj := RObj None rem.
(** result.h:77-78 *)
Definition osucceed (rem : span) : robj := RObj (Some (Holds RVoid)) rem.

(** result.h:50-53, reading [*res] *)
Definition deref (r : robj) : om rv :=
  match o_val r with
  | None => fault NoValue
  | Some MovedFrom => fault Stale
  | Some (Holds v) => oret v
  end.

(** The use of [*std::move(res)] as an initialiser, right-hand side or argument: the value
    leaves the object, which stays engaged and keeps its [_remaining]. *)
Definition take (r : robj) : om (rv * robj) :=
  v <- deref r ;; oret (v, RObj (Some MovedFrom) (o_rem r)).

(** Properties of types the library asks for.
    - [move_assignable]: [std::is_move_assignable_v<T>], helpers.h:183
    - [from_rvalue]: [std::constructible_from<T, T&&>], result.h:30 *)
Record traits : Type := Traits { move_assignable : ty -> bool; from_rvalue : ty -> bool }.

Section Objects.
Context {T V : Type} (E : env T V) (C : traits).

(** Initialisation of an optional's value from an rvalue: result.h:30-31, or, when that
    constructor's constraint fails, :27-28, which copies *)
Definition init (t : ty) : use := if from_rvalue C t then Move t else Copy t.

(** [result{ success_tag, v, remaining }], result.h:27-31, :77-78.  [t] is the type of [v]. *)
Definition omake (t : ty) (v : rv) (rem : span) : om robj :=
  match v with
  | RVoid => oret (osucceed rem)
  | RVal _ => _ <- say (init t) ;; oret (RObj (Some (Holds v)) rem)
  end.

(** [return std::move(res);], [return res;]: a [result] is constructed from [res]; a value,
    if there is one, is moved.  (The second form may be elided: then there is no move.) *)
Definition oreturn (t : ty) (r : robj) : om robj :=
  match o_val r with
  | Some (Holds (RVal v)) => _ <- say (init t) ;; oret r
  | Some MovedFrom => fault Stale
  | _ => oret r
  end.

(** ** result_builder *)

(** helpers.h:11-17, :25 *)
Definition obuilder (t : ty) : om cell :=
  if is_void t then oret (Holds RVoid)
  else _ <- say (Default t) ;; oret (Holds (RVal (default_val t))).

(** The operations of helpers.h:27-88 that take a [result&&]: nothing for a void builder, else
    [f] puts the value of [res] into the builder's value, as described by [u]. *)
Definition oput (f : rv -> rv -> outcome rv) (u : use) (b : cell) (r : robj) : om (cell * robj) :=
  match b with
  | MovedFrom => fault Stale
  | Holds RVoid => oret (b, r)
  | Holds old =>
      '(v, r') <- take r ;;
      _ <- say u ;;
      new <- lift (f old v) ;;
      oret (Holds new, r')
  end.

(** helpers.h:34-39 [assign(const result&)] *)
Definition oassign_copy (t : ty) (b : cell) (r : robj) : om (cell * robj) :=
  match b with
  | MovedFrom => fault Stale
  | Holds RVoid => oret (b, r)
  | Holds old =>
      v <- deref r ;;
      _ <- say (CopyAssign t) ;;
      new <- lift (b_assign old v) ;;
      oret (Holds new, r)
  end.

(** helpers.h:90-97 [build]; [t] is the type of the builder's value *)
Definition obuild (t : ty) (b : cell) (input : span) : om (robj * cell) :=
  match b with
  | MovedFrom => fault Stale
  | Holds v => r <- omake t v input ;; oret (r, MovedFrom)
  end.

(** ** basic parsers, basic_base.h:29-53; epsilon.h:21-35 *)
Definition obasic_parse (fc : span -> outcome bool) (len : nat) (i : span) : om robj :=
  b <- lift (fc i) ;;
  if b : bool then oret (ofail i)
  else v <- lift (first i len) ;;
       r <- lift (advance i len) ;;
       omake TSpan (RVal (VSpan v)) r.

Definition obasic_look (fc : span -> outcome bool) (len : nat) (i : span) : om robj :=
  b <- lift (fc i) ;;
  if b : bool then oret (ofail i)
  else r <- lift (advance i len) ;; oret (osucceed r).

(** ** user functions *)

(** What the library's own function objects do, functions.h:11-22: [constant_function]
    returns a copy of its value, [default_construct_function] a new object *)
Fixpoint fn_uses (f : func) : list use :=
  match f with
  | FApply g => fn_uses g
  | FConstant k => [Copy (k_ty E k)]
  | FDefault t => [Default t]
  | _ => []
  end.

Definition ocall (f : func) (args : list val) : om rv := (fn_uses f, call E f args).

(** [std::invoke(f)], [std::invoke(f, std::move( *res))], map.h:40-59 *)
Definition oinvoke_move (f : func) (r : robj) : om (rv * robj) :=
  match o_val r with
  | Some (Holds RVoid) => w <- ocall f [] ;; oret (w, r)
  | _ => '(v, r') <- take r ;; _ <- say Hand ;; w <- ocall f (args_of v) ;; oret (w, r')
  end.

(** [std::invoke(f)], [std::invoke(f, std::as_const( *res))], filter.h:39-54 *)
Definition oinvoke_const (f : func) (r : robj) : om rv :=
  match o_val r with
  | Some (Holds RVoid) => ocall f []
  | _ => v <- deref r ;; _ <- say Show ;; ocall f (args_of v)
  end.

Section Rec.
Variable orec : mode -> parser T -> span -> om robj.

(** the type of a component's value *)
Definition ty_of (p : parser T) : ty := match result_for E p with Some t => t | None => TVoid end.

(** helpers.h:145-199 *)
Definition oexecute (ct : compound_type) (unw : bool) (p : parser T) (idx : index) (st : span * cell)
  : om (bool * (span * cell)) :=
  let (i, b) := st in
  match idx with
  | None =>                                                        (* :165-171 *)
      res <- orec Look p i ;;
      oret (engaged res, (o_rem res, b))
  | Some k =>                                                      (* :173-198 *)
      res <- orec Parse p i ;;
      if negb (engaged res) then oret (false, (i, b))
      else
        let i := o_rem res in
        '(b, _) <- (if unw
                    then if move_assignable C (ty_of p)            (* :183-186 *)
                         then oput b_assign (MoveAssign (ty_of p)) b res
                         else oassign_copy (ty_of p) b res
                    else match ct with
                         | CChoice => oput (b_emplace k) (Move (ty_of p)) b res
                         | CSequence => oput (b_get_assign k) (MoveAssign (ty_of p)) b res
                         end) ;;
        oret (true, (i, b))
  end.

(** choice.h:38-41, :61; sequence.h:39-42, :62 *)
Fixpoint oexec_or (unw : bool) (ps : list (parser T * index)) (st : span * cell) : om (bool * (span * cell)) :=
  match ps with
  | [] => oret (false, st)
  | (p, idx) :: ps' =>
      '(ok, st') <- oexecute CChoice unw p idx st ;;
      if ok : bool then oret (true, st') else oexec_or unw ps' st'
  end.

Fixpoint oexec_and (unw : bool) (ps : list (parser T * index)) (st : span * cell) : om (bool * (span * cell)) :=
  match ps with
  | [] => oret (true, st)
  | (p, idx) :: ps' =>
      '(ok, st') <- oexecute CSequence unw p idx st ;;
      if ok : bool then oexec_and unw ps' st' else oret (false, st')
  end.

(** choice.h:43-50, sequence.h:44-51 *)
Definition ofinish (t : ty) (i : span) (r : bool * (span * cell)) : om robj :=
  let '(ok, (i', b)) := r in
  if ok : bool then
    if is_void t then oret (osucceed i')
    else '(r, _) <- obuild t b i' ;; oret r
  else oret (ofail i).

(** choice.h:29-50 *)
Definition ochoice_parse (ps : list (parser T)) (i : span) : om robj :=
  match result_fors E ps with
  | None => lift Ill
  | Some tys =>
      let done := fst (filter_out_void_deduplicate tys) in
      let seq := snd (filter_out_void_deduplicate tys) in
      let t := compound_result TVar done in
      if unwrapped done || emplace_ok done tys seq then
        b <- obuilder t ;;
        r <- oexec_or (unwrapped done) (combine ps seq) (i, b) ;;
        ofinish t i r
      else lift Ill
  end.

(** choice.h:52-67 *)
Definition ochoice_look (ps : list (parser T)) (i : span) : om robj :=
  match result_fors E ps with
  | None => lift Ill
  | Some tys =>
      b <- obuilder TVoid ;;
      r <- oexec_or (unwrapped (fst (filter_out_void_deduplicate tys))) (map (fun p => (p, None)) ps) (i, b) ;;
      ofinish TVoid i r
  end.

(** sequence.h:29-51 *)
Definition osequence_parse (ps : list (parser T)) (i : span) : om robj :=
  match result_fors E ps with
  | None => lift Ill
  | Some tys =>
      let done := fst (filter_out_void tys) in
      let seq := snd (filter_out_void tys) in
      let t := compound_result TTup done in
      b <- obuilder t ;;
      r <- oexec_and (unwrapped done) (combine ps seq) (i, b) ;;
      ofinish t i r
  end.

(** sequence.h:53-68 *)
Definition osequence_look (ps : list (parser T)) (i : span) : om robj :=
  match result_fors E ps with
  | None => lift Ill
  | Some tys =>
      b <- obuilder TVoid ;;
      r <- oexec_and (unwrapped (fst (filter_out_void tys))) (map (fun p => (p, None)) ps) (i, b) ;;
      ofinish TVoid i r
  end.
End Rec.

Definition ofun : Type := span -> om robj.

(** maybe.h:27-40.  [res.remaining()] is read after the value has been moved out of [res]. *)
Definition omaybe_parse (t : ty) (f : ofun) (i : span) : om robj :=
  let tb := if is_void t then TVoid else TOpt t in
  b <- obuilder tb ;;
  res <- f i ;;
  '(b, res) <- (if engaged res then oput b_emplace_opt (Move t) b res else oret (b, res)) ;;
  '(r, _) <- obuild tb b (o_rem res) ;;
  oret r.

(** maybe.h:42-53 *)
Definition omaybe_look (f : ofun) (i : span) : om robj :=
  res <- f i ;;
  if engaged res then oret (osucceed (o_rem res)) else oret (osucceed i).

(** exactly.h:37-45 *)
Fixpoint oexactly_loop (t : ty) (f : ofun) (k j : nat) (i : span) (b : cell) : om (option (span * cell)) :=
  match k with
  | O => oret (Some (i, b))
  | S k' =>
      res <- f i ;;
      if negb (engaged res) then oret None
      else
        let i := o_rem res in
        '(b, _) <- oput (b_array_assign j) (MoveAssign t) b res ;;
        oexactly_loop t f k' (S j) i b
  end.

(** exactly.h:28-48 *)
Definition oexactly_parse (t : ty) (f : ofun) (n : nat) (i : span) : om robj :=
  let tb := if is_void t then TVoid else TArr t n in
  b <- obuilder tb ;;
  r <- oexactly_loop t f n 0 i b ;;
  match r with
  | Some (i', b) => '(r, _) <- obuild tb b i' ;; oret r
  | None => oret (ofail i)
  end.

(** exactly.h:58-65; no builder *)
Fixpoint oexactly_look_loop (f : ofun) (k : nat) (i : span) : om (option span) :=
  match k with
  | O => oret (Some i)
  | S k' => res <- f i ;;
            if negb (engaged res) then oret None else oexactly_look_loop f k' (o_rem res)
  end.

(** exactly.h:50-68 *)
Definition oexactly_look (f : ofun) (n : nat) (i : span) : om robj :=
  r <- oexactly_look_loop f n i ;;
  match r with
  | Some i' => oret (osucceed i')
  | None => oret (ofail i)
  end.

(** one_or_more.h:36-44, zero_or_more.h:35-42 *)
Fixpoint orep_loop (t : ty) (f : ofun) (k : nat) (i : span) (b : cell) (successful : bool) : om (span * cell * bool) :=
  match k with
  | O => lift OOF
  | S k' =>
      res <- f i ;;
      let i := o_rem res in
      if negb (engaged res) then oret (i, b, successful)
      else '(b, _) <- oput b_insert_back (Insert t) b res ;;
           orep_loop t f k' i b true
  end.

(** one_or_more.h:60-67, zero_or_more.h:53-59; no builder *)
Fixpoint orep_look_loop (f : ofun) (k : nat) (i : span) (successful : bool) : om (span * bool) :=
  match k with
  | O => lift OOF
  | S k' =>
      res <- f i ;;
      let i := o_rem res in
      if negb (engaged res) then oret (i, successful) else orep_look_loop f k' i true
  end.

(** one_or_more.h:27-50 *)
Definition oone_or_more_parse (t : ty) (f : ofun) (k : nat) (i : span) : om robj :=
  let tb := if is_void t then TVoid else TVec t in
  b <- obuilder tb ;;
  '(i', b, ok) <- orep_loop t f k i b false ;;
  if ok : bool then '(r, _) <- obuild tb b i' ;; oret r
  else oret (ofail i').

(** one_or_more.h:52-73 *)
Definition oone_or_more_look (f : ofun) (k : nat) (i : span) : om robj :=
  '(i', ok) <- orep_look_loop f k i false ;;
  if ok : bool then oret (osucceed i') else oret (ofail i').

(** zero_or_more.h:27-45 *)
Definition ozero_or_more_parse (t : ty) (f : ofun) (k : nat) (i : span) : om robj :=
  let tb := if is_void t then TVoid else TVec t in
  b <- obuilder tb ;;
  '(i', b, _) <- orep_loop t f k i b false ;;
  '(r, _) <- obuild tb b i' ;; oret r.

(** zero_or_more.h:47-62 *)
Definition ozero_or_more_look (f : ofun) (k : nat) (i : span) : om robj :=
  '(i', _) <- orep_look_loop f k i false ;;
  oret (osucceed i').

(** [res = P::parse(...)], delimit.h:64: assignment of a [result]; an engaged optional on both
    sides assigns the value, whatever has become of the old one *)
Definition oassign_result (t : ty) (old new : robj) : om robj :=
  match o_val new with
  | Some (Holds (RVal _)) => _ <- say (if engaged old then MoveAssign t else init t) ;; oret new
  | Some MovedFrom => fault Stale
  | _ => oret new
  end.

(** delimit.h:50-76 *)
Fixpoint odelim_loop (tp td : ty) (fp fd : ofun) (k : nat) (res : robj) (i : span) (b : cell) : om (span * cell) :=
  match k with
  | O => lift OOF
  | S k' =>
      if negb (engaged res) then oret (i, b)
      else
        let i := o_rem res in
        '(b, res) <- (if is_void tp then oret (b, res)
                      else if is_void td then oput b_insert_back (Insert tp) b res
                           else oput b_insert_back_first (Insert tp) b res) ;;
        dres <- fd i ;;
        if negb (engaged dres) then oret (i, b)
        else
          new <- fp (o_rem dres) ;;
          res <- oassign_result tp res new ;;
          '(b, _) <- (if is_void td then oret (b, dres)
                      else if engaged res
                           then if is_void tp then oput b_insert_back (Insert td) b dres
                                else oput b_insert_back_second (Insert td) b dres
                           else oret (b, dres)) ;;
          odelim_loop tp td fp fd k' res i b
  end.

(** delimit.h:36-79 *)
Definition odelimit_parse (tp td : ty) (fp fd : ofun) (k : nat) (i : span) : om robj :=
  let tb := delimit_type tp td in
  b <- obuilder tb ;;
  res <- fp i ;;
  if negb (engaged res) then oret (ofail i)
  else
    '(i', b) <- odelim_loop tp td fp fd k res i b ;;
    '(r, _) <- obuild tb b i' ;; oret r.

(** delimit.h:91-100 *)
Fixpoint odelim_look_loop (fp fd : ofun) (k : nat) (res : robj) (i : span) : om span :=
  match k with
  | O => lift OOF
  | S k' =>
      if negb (engaged res) then oret i
      else
        let i := o_rem res in
        dres <- fd i ;;
        if negb (engaged dres) then oret i
        else
          new <- fp (o_rem dres) ;;
          res <- oassign_result TVoid res new ;;
          odelim_look_loop fp fd k' res i
  end.

(** delimit.h:81-103 *)
Definition odelimit_look (fp fd : ofun) (k : nat) (i : span) : om robj :=
  res <- fp i ;;
  if negb (engaged res) then oret (ofail i)
  else i' <- odelim_look_loop fp fd k res i ;; oret (osucceed i').

(** complete.h:21-45 *)
Definition ocomplete_run (t : ty) (f : ofun) (i : span) : om robj :=
  res <- f i ;;
  if negb (engaged res) || negb (sp_len (o_rem res) =? 0) then oret (ofail i)
  else oreturn t res.

(** map.h:27-60; [t] is [after_type] *)
Definition omap_parse (t : ty) (fn : func) (f : ofun) (i : span) : om robj :=
  res <- f i ;;
  if negb (engaged res) then oret (ofail i)
  else '(w, res) <- oinvoke_move fn res ;;
       omake t w (o_rem res).

(** filter.h:29-55 *)
Definition ofilter_parse (t : ty) (fn : func) (f : ofun) (i : span) : om robj :=
  res <- f i ;;
  if negb (engaged res) then oret (ofail i)
  else w <- oinvoke_const fn res ;;
       match w with
       | RVal c => if as_bool E c then oreturn t res else oret (ofail i)
       | RVoid => lift Ill
       end.

(** custom.h:41-47.  Without conversion the returned object is the one [get_parser()]'s parse
    made; else result.h:37-39 makes the new value from the old one. *)
Definition ocustom_parse (cv : conv) (f : ofun) (i : span) : om robj :=
  res <- f i ;;
  match cv with
  | ConvSame => oret res
  | ConvElem t =>
      if negb (engaged res) then oret res
      else '(v, res) <- take res ;;
           match v with
           | RVal v => _ <- say Hand ;; w <- ocall (FConstruct t) [v] ;; oret (RObj (Some (Holds w)) (o_rem res))
           | RVoid => lift Ill
           end
  | ConvWhole t =>
      if negb (engaged res) then
        _ <- say Hand ;; w <- ocall (FConstruct t) [VOpt None] ;; oret (RObj (Some (Holds w)) (o_rem res))
      else '(v, res) <- take res ;;
           match v with
           | RVal v => _ <- say Hand ;; w <- ocall (FConstruct t) [VOpt (Some v)] ;; oret (RObj (Some (Holds w)) (o_rem res))
           | RVoid => lift Ill
           end
  end.

(** join.h:130-145; [Executor(res)] takes the result by [const&] (:24) *)
Definition ojoin_parse (f : ofun) (i : span) : om robj :=
  res <- f i ;;
  if engaged res then
    v <- deref res ;;
    match v with
    | RVal v =>
        _ <- say Show ;;
        j <- lift (join_executor v (o_rem res)) ;;
        match j with
        | Some s => omake TSpan (RVal (VSpan s)) (o_rem res)
        | None => oret (ofail i)
        end
    | RVoid => lift Ill
    end
  else oret (ofail i).

(** optimizations/*.h: only spans *)
Definition ojoin_special (f : mode -> pfun) (m : mode) (i : span) : om robj :=
  r <- lift (f m i) ;;
  match r_ok r with
  | Some v => omake TSpan v (r_rem r)
  | None => oret (ofail (r_rem r))
  end.

Definition ojoin_generic (orec : mode -> parser T -> ofun) (m : mode) (q : parser T) (i : span) : om robj :=
  match m with
  | Look => orec Look q i
  | Parse => match result_for E q with
             | Some t => if joinable t then ojoin_parse (orec Parse q) i else lift Ill
             | None => lift Ill
             end
  end.

(** Parse and lookahead of every parser, as [Exec.step] *)
Definition ostep (orec : mode -> parser T -> ofun) (k : nat) (m : mode) (p : parser T) (i : span) : om robj :=
  match p with
  | PAnyOf arr => match m with Parse => obasic_parse (any_of_fc E arr) 1 i
                             | Look => obasic_look (any_of_fc E arr) 1 i end
  | PNoneOf arr => match m with Parse => obasic_parse (none_of_fc E arr) 1 i
                              | Look => obasic_look (none_of_fc E arr) 1 i end
  | PAllOf arr => match m with Parse => obasic_parse (all_of_fc E arr) (List.length arr) i
                             | Look => obasic_look (all_of_fc E arr) (List.length arr) i end
  | PAnything => match m with Parse => obasic_parse anything_fc 1 i
                            | Look => obasic_look anything_fc 1 i end
  | PEpsilon => oret (osucceed i)
  | PChoice q qs => match m with Parse => ochoice_parse orec (q :: qs) i
                               | Look => ochoice_look orec (q :: qs) i end
  | PSequence q qs => match m with Parse => osequence_parse orec (q :: qs) i
                                 | Look => osequence_look orec (q :: qs) i end
  | PMaybe q => match m with
                | Parse => match result_for E q with
                           | Some t => omaybe_parse t (orec Parse q) i
                           | None => lift Ill end
                | Look => omaybe_look (orec Look q) i
                end
  | PExactly q n => if n =? 0 then lift Ill
                    else match m with
                    | Parse => match result_for E q with
                               | Some t => oexactly_parse t (orec Parse q) n i
                               | None => lift Ill end
                    | Look => oexactly_look (orec Look q) n i
                    end
  | POneOrMore q => match m with
                    | Parse => match result_for E q with
                               | Some t => oone_or_more_parse t (orec Parse q) k i
                               | None => lift Ill end
                    | Look => oone_or_more_look (orec Look q) k i
                    end
  | PZeroOrMore q => match m with
                     | Parse => match result_for E q with
                                | Some t => ozero_or_more_parse t (orec Parse q) k i
                                | None => lift Ill end
                     | Look => ozero_or_more_look (orec Look q) k i
                     end
  | PDelimit q d => match m with
                    | Parse => match result_for E q, result_for E d with
                               | Some tp, Some td => odelimit_parse tp td (orec Parse q) (orec Parse d) k i
                               | _, _ => lift Ill end
                    | Look => odelimit_look (orec Look q) (orec Look d) k i
                    end
  | PIgnore q => orec Look q i
  | PComplete q => ocomplete_run (match m with Parse => ty_of q | Look => TVoid end) (orec m q) i
  | PJoin q => match join_special E q k with
               | Some f => ojoin_special f m i
               | None => ojoin_generic orec m q i
               end
  | PMap q fn => match m with
                 | Look => orec Look q i
                 | Parse => match result_for E p with
                            | Some t => omap_parse t fn (orec Parse q) i
                            | None => lift Ill end
                 end
  | PFilter q fn => match m with
                    | Look => orec Look q i
                    | Parse => match result_for E p with
                               | Some t => ofilter_parse t fn (orec Parse q) i
                               | None => lift Ill end
                    end
  | PNamed q _ => orec m q i
  | PCustom c => match m with
                 | Look => orec Look (cust_body E c) i
                 | Parse => ocustom_parse (cust_conv E c) (orec Parse (cust_body E c)) i
                 end
  end.

Fixpoint orun (n : nat) (m : mode) (p : parser T) (i : span) {struct n} : om robj :=
  match n with
  | O => lift OOF
  | S n' => ostep (orun n') n' m p i
  end.
End Objects.
