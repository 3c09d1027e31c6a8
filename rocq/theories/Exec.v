(** * parse and lookahead of every parser *)
From Coq Require Import List Arith ZArith Bool String.
From Verif Require Import Types Compound Parser Outcome.
Import ListNotations.
Local Open Scope outcome_scope.

(** detail/result.h:14-88 [result<T, U>]: engaged or not, value if T is not void, remaining
    input.  [Some RVoid] is a successful [result<void, U>]. *)
Record presult : Type := Res { r_ok : option rv; r_rem : span }.

(** result.h:24-25, :74-75 [result(failure_tag, remaining)] *)
Definition failure (rem : span) : presult := Res None rem.
(** result.h:27-31, :77-78 [result(success_tag, ...)] *)
Definition success (v : rv) (rem : span) : presult := Res (Some v) rem.
(** result.h:42, :81 [has_value] *)
Definition has_value (r : presult) : bool := match r_ok r with Some _ => true | None => false end.

(** A [parse] or [lookahead] static member function. *)
Definition pfun : Type := span -> outcome presult.

(** ** result_builder, detail/helpers.h:19-98.  The builder of a void result has no member
    and all its operations do nothing ([if constexpr (not is_void)]). *)

(** helpers.h:11-17, :25: value-initialised member, none for void *)
Definition builder_init (t : ty) : rv := if is_void t then RVoid else RVal (default_val t).

(** helpers.h:27-39 [assign] *)
Definition b_assign (b v : rv) : outcome rv :=
  match b, v with
  | RVoid, _ => ret RVoid
  | RVal _, RVal v => ret (RVal v)
  | RVal _, RVoid => Ill
  end.

(** Replace the [n]-th element. *)
Fixpoint upd {A} (l : list A) (n : nat) (a : A) : list A :=
  match l, n with
  | [], _ => []
  | _ :: l', O => a :: l'
  | x :: l', S n' => x :: upd l' n' a
  end.

(** helpers.h:41-46 [array_assign]; indexing a std::array out of range is undefined *)
Definition b_array_assign (n : nat) (b v : rv) : outcome rv :=
  match b, v with
  | RVoid, _ => ret RVoid
  | RVal (VArr l), RVal v => if n <? List.length l then ret (RVal (VArr (upd l n v))) else UB
  | _, _ => Ill
  end.

(** helpers.h:48-53 [get_assign<I>]: [std::get<I>] of a tuple, ill-formed out of range *)
Definition b_get_assign (n : nat) (b v : rv) : outcome rv :=
  match b, v with
  | RVoid, _ => ret RVoid
  | RVal (VTup l), RVal v => if n <? List.length l then ret (RVal (VTup (upd l n v))) else Ill
  | _, _ => Ill
  end.

(** helpers.h:55-60 [emplace] on an optional *)
Definition b_emplace_opt (b v : rv) : outcome rv :=
  match b, v with
  | RVoid, _ => ret RVoid
  | RVal (VOpt _), RVal v => ret (RVal (VOpt (Some v)))
  | _, _ => Ill
  end.

(** helpers.h:62-67 [emplace<I>] on a variant (the type check is [emplace_ok]) *)
Definition b_emplace (n : nat) (b v : rv) : outcome rv :=
  match b, v with
  | RVoid, _ => ret RVoid
  | RVal (VVar _ _), RVal v => ret (RVal (VVar n v))
  | _, _ => Ill
  end.

(** helpers.h:69-74 [insert_back] on a vector *)
Definition b_insert_back (b v : rv) : outcome rv :=
  match b, v with
  | RVoid, _ => ret RVoid
  | RVal (VVec l), RVal v => ret (RVal (VVec (l ++ [v])))
  | _, _ => Ill
  end.

(** helpers.h:76-81 [insert_back_first] *)
Definition b_insert_back_first (b v : rv) : outcome rv :=
  match b, v with
  | RVoid, _ => ret RVoid
  | RVal (VPair (VVec l) y), RVal v => ret (RVal (VPair (VVec (l ++ [v])) y))
  | _, _ => Ill
  end.

(** helpers.h:83-88 [insert_back_second] *)
Definition b_insert_back_second (b v : rv) : outcome rv :=
  match b, v with
  | RVoid, _ => ret RVoid
  | RVal (VPair x (VVec l)), RVal v => ret (RVal (VPair x (VVec (l ++ [v]))))
  | _, _ => Ill
  end.

Section Exec.
Context {T V : Type} (E : env T V).

(** ** span operations, detail/span.h *)

(** dereferencing a pointer *)
Definition read (b o : nat) : outcome V :=
  match nth_error (mem E b) o with Some c => ret c | None => UB end.

(** span.h:41, :98 [front()]: undefined on an empty span *)
Definition front (s : span) : outcome V :=
  if sp_len s =? 0 then UB else read (sp_blk s) (sp_off s).

(** span.h:45, :102 [first(count)], also the braced [{ data(), count }] of
    basic_base.h:39: undefined when count > size *)
Definition first (s : span) (n : nat) : outcome span :=
  if n <=? sp_len s then ret (Span (sp_blk s) (sp_off s) n) else UB.

(** span.h:46, :103 [subspan(offset)], also the braced
    [{ data() + n, size() - n }] of basic_base.h:39, :52: undefined when n > size *)
Definition advance (s : span) (n : nat) : outcome span :=
  if n <=? sp_len s then ret (Span (sp_blk s) (sp_off s + n) (sp_len s - n)) else UB.

(** span.h:130-137: the comparison loop of [span_equal_to] *)
Fixpoint eq_loop (arr : list T) (b o : nat) : outcome bool :=
  match arr with
  | [] => ret true
  | t :: arr' => c <- read b o ;;
                 if eqv E t c then eq_loop arr' b (S o) else ret false
  end.

(** span.h:122-138 [span_equal_to] between the literal's elements and a span *)
Definition span_equal (arr : list T) (s : span) : outcome bool :=
  if List.length arr =? sp_len s then eq_loop arr (sp_blk s) (sp_off s) else ret false.

(** static_array.h:50-57 [contains] *)
Definition contains (arr : list T) (c : V) : bool := existsb (fun t => eqv E t c) arr.

(** ** basic parsers *)

(** any_of.h:29-32 *)
Definition any_of_fc (arr : list T) (i : span) : outcome bool :=
  if sp_len i =? 0 then ret true
  else c <- front i ;; ret (negb (contains arr c)).

(** none_of.h:29-32 *)
Definition none_of_fc (arr : list T) (i : span) : outcome bool :=
  if sp_len i =? 0 then ret true
  else c <- front i ;; ret (contains arr c).

(** all_of.h:27-30 *)
Definition all_of_fc (arr : list T) (i : span) : outcome bool :=
  if sp_len i <? List.length arr then ret true
  else f <- first i (List.length arr) ;;
       b <- span_equal arr f ;; ret (negb b).

(** anything.h:26-29 *)
Definition anything_fc (i : span) : outcome bool := ret (sp_len i =? 0).

(** basic_base.h:29-40 *)
Definition basic_parse (fc : span -> outcome bool) (len : nat) (i : span) : outcome presult :=
  b <- fc i ;;
  if b then ret (failure i)
  else v <- first i len ;;
       r <- advance i len ;;
       ret (success (RVal (VSpan v)) r).

(** basic_base.h:42-53 *)
Definition basic_look (fc : span -> outcome bool) (len : nat) (i : span) : outcome presult :=
  b <- fc i ;;
  if b then ret (failure i)
  else r <- advance i len ;;
       ret (success RVoid r).

(** epsilon.h:21-35 *)
Definition epsilon_run (i : span) : outcome presult := ret (success RVoid i).

(** ** user functions *)

(** apply.h:15-32: the elements that [std::get<Is>] yields *)
Definition tuple_vals (v : val) : option (list val) :=
  match v with
  | VTup l => Some l
  | VArr l => Some l
  | VPair a b => Some [a; b]
  | _ => None
  end.

(** functions.h:11-22 *)
Fixpoint invoke (f : func) (args : list val) : fnres :=
  match f with
  | FUser n => fn_app E n args
  | FApply g =>
      match args with
      | [v] => match tuple_vals v with Some vs => invoke g vs | None => FIll end
      | _ => FIll
      end
  | FConstant k => FRet (RVal (k_val E k))
  | FConstruct t => ct_app E t args
  | FDefault t => FRet (RVal (default_val t))
  end.

(** [std::invoke(f, args...)], recorded in the trace *)
Definition call (f : func) (args : list val) : outcome rv :=
  match invoke f args with
  | FRet r => Done r [EInvoke f args]
  | FThrow e => Exn e
  | FIll => Ill
  end.

(** the argument pack: nothing for a void value, else the value (map.h:40-59, filter.h:39-54) *)
Definition args_of (v : rv) : list val := match v with RVoid => [] | RVal v => [v] end.

(** ** Compound parsers *)

Inductive compound_type : Type := CChoice | CSequence.

(** helpers.h:181-196: where [execute_element] stores the value *)
Definition store (ct : compound_type) (unw : bool) (k : nat) (b v : rv) : outcome rv :=
  if unw then b_assign b v
  else match ct with
       | CChoice => b_emplace k b v
       | CSequence => b_get_assign k b v
       end.

Section Rec.
(** [P::parse] / [P::lookahead] of the component parsers *)
Variable rec : mode -> parser T -> pfun.

(** helpers.h:145-199 [compound_executor::execute]; the state is (input, builder) *)
Definition execute (ct : compound_type) (unw : bool) (p : parser T) (idx : index)
    (st : span * rv) : outcome (bool * (span * rv)) :=
  let (i, b) := st in
  match idx with
  | None =>                                   (* helpers.h:165-171 execute_lookahead *)
      res <- rec Look p i ;;
      ret (has_value res, (r_rem res, b))
  | Some k =>                                 (* helpers.h:173-198 execute_element *)
      res <- rec Parse p i ;;
      match r_ok res with
      | None => ret (false, (i, b))
      | Some v => b' <- store ct unw k b v ;;
                  ret (true, (r_rem res, b'))
      end
  end.

(** choice.h:38-41, :61: the fold over [or] *)
Fixpoint exec_or (unw : bool) (ps : list (parser T * index)) (st : span * rv)
  : outcome (bool * (span * rv)) :=
  match ps with
  | [] => ret (false, st)
  | (p, idx) :: ps' =>
      '(b, st') <- execute CChoice unw p idx st ;;
      if b : bool then ret (true, st') else exec_or unw ps' st'
  end.

(** sequence.h:39-42, :62: the fold over [and] *)
Fixpoint exec_and (unw : bool) (ps : list (parser T * index)) (st : span * rv)
  : outcome (bool * (span * rv)) :=
  match ps with
  | [] => ret (true, st)
  | (p, idx) :: ps' =>
      '(b, st') <- execute CSequence unw p idx st ;;
      if b : bool then exec_and unw ps' st' else ret (false, st')
  end.

(** choice.h:29-50 *)
Definition choice_parse (ps : list (parser T)) (i : span) : outcome presult :=
  match result_fors E ps with
  | None => Ill
  | Some tys =>
      let done := fst (filter_out_void_deduplicate tys) in
      let seq := snd (filter_out_void_deduplicate tys) in
      if unwrapped done || emplace_ok done tys seq then
        '(ok, (i', b)) <- exec_or (unwrapped done) (combine ps seq)
                            (i, builder_init (compound_result TVar done)) ;;
        if ok : bool then ret (success b i') else ret (failure i)
      else Ill
  end.

(** choice.h:52-67 *)
Definition choice_look (ps : list (parser T)) (i : span) : outcome presult :=
  match result_fors E ps with
  | None => Ill
  | Some tys =>
      '(ok, (i', _)) <- exec_or (unwrapped (fst (filter_out_void_deduplicate tys)))
                          (map (fun p => (p, None)) ps) (i, RVoid) ;;
      if ok : bool then ret (success RVoid i') else ret (failure i)
  end.

(** sequence.h:29-51 *)
Definition sequence_parse (ps : list (parser T)) (i : span) : outcome presult :=
  match result_fors E ps with
  | None => Ill
  | Some tys =>
      let done := fst (filter_out_void tys) in
      let seq := snd (filter_out_void tys) in
      '(ok, (i', b)) <- exec_and (unwrapped done) (combine ps seq)
                          (i, builder_init (compound_result TTup done)) ;;
      if ok : bool then ret (success b i') else ret (failure i)
  end.

(** sequence.h:53-68 *)
Definition sequence_look (ps : list (parser T)) (i : span) : outcome presult :=
  match result_fors E ps with
  | None => Ill
  | Some tys =>
      '(ok, (i', _)) <- exec_and (unwrapped (fst (filter_out_void tys)))
                          (map (fun p => (p, None)) ps) (i, RVoid) ;;
      if ok : bool then ret (success RVoid i') else ret (failure i)
  end.

End Rec.

(** ** Adaptors and repetitions *)

(** maybe.h:27-40; [t] is the inner result type.  Like the code, it returns the inner
    result's [remaining()] whether or not the inner parse succeeded. *)
Definition maybe_parse (t : ty) (f : pfun) (i : span) : outcome presult :=
  let b := builder_init (if is_void t then TVoid else TOpt t) in
  res <- f i ;;
  match r_ok res with
  | Some v => b' <- b_emplace_opt b v ;; ret (success b' (r_rem res))
  | None => ret (success b (r_rem res))
  end.

(** maybe.h:42-53 *)
Definition maybe_look (f : pfun) (i : span) : outcome presult :=
  res <- f i ;;
  if has_value res then ret (success RVoid (r_rem res)) else ret (success RVoid i).

(** exactly.h:37-45, :58-65: the loop, [k] iterations to go, [j] the loop variable.
    [None] = left through the failing return. *)
Fixpoint exactly_loop (f : pfun) (k j : nat) (i : span) (b : rv)
  : outcome (option (span * rv)) :=
  match k with
  | O => ret (Some (i, b))
  | S k' =>
      res <- f i ;;
      match r_ok res with
      | None => ret None
      | Some v => b' <- b_array_assign j b v ;;
                  exactly_loop f k' (S j) (r_rem res) b'
      end
  end.

(** exactly.h:28-48 *)
Definition exactly_parse (t : ty) (f : pfun) (n : nat) (i : span) : outcome presult :=
  r <- exactly_loop f n 0 i (builder_init (if is_void t then TVoid else TArr t n)) ;;
  match r with
  | Some (i', b) => ret (success b i')
  | None => ret (failure i)
  end.

(** exactly.h:50-68 *)
Definition exactly_look (f : pfun) (n : nat) (i : span) : outcome presult :=
  r <- exactly_loop f n 0 i RVoid ;;
  match r with
  | Some (i', _) => ret (success RVoid i')
  | None => ret (failure i)
  end.

(** The [while (true)] loops of one_or_more.h:36-44, :60-67 and zero_or_more.h:35-42,
    :53-59; [k] bounds the iterations (fuel), the flag is [successful]. *)
Fixpoint rep_loop (f : pfun) (k : nat) (i : span) (b : rv) (successful : bool)
  : outcome (span * rv * bool) :=
  match k with
  | O => OOF
  | S k' =>
      res <- f i ;;
      match r_ok res with
      | None => ret (r_rem res, b, successful)
      | Some v => b' <- b_insert_back b v ;;
                  rep_loop f k' (r_rem res) b' true
      end
  end.

(** one_or_more.h:27-50 *)
Definition one_or_more_parse (t : ty) (f : pfun) (k : nat) (i : span) : outcome presult :=
  '(i', b, ok) <- rep_loop f k i (builder_init (if is_void t then TVoid else TVec t)) false ;;
  if ok : bool then ret (success b i') else ret (failure i').

(** one_or_more.h:52-73 *)
Definition one_or_more_look (f : pfun) (k : nat) (i : span) : outcome presult :=
  '(i', _, ok) <- rep_loop f k i RVoid false ;;
  if ok : bool then ret (success RVoid i') else ret (failure i').

(** zero_or_more.h:27-45 *)
Definition zero_or_more_parse (t : ty) (f : pfun) (k : nat) (i : span) : outcome presult :=
  '(i', b, _) <- rep_loop f k i (builder_init (if is_void t then TVoid else TVec t)) false ;;
  ret (success b i').

(** zero_or_more.h:47-62 *)
Definition zero_or_more_look (f : pfun) (k : nat) (i : span) : outcome presult :=
  '(i', _, _) <- rep_loop f k i RVoid false ;;
  ret (success RVoid i').

(** delimit.h:19-32 *)
Definition delimit_type (tp td : ty) : ty :=
  if is_void td
  then (if is_void tp then TVoid else TVec tp)
  else (if is_void tp then TVec td else TPair (TVec tp) (TVec td)).

(** delimit.h:50-76, :91-100: the loop; [res] is the P result tested by the loop condition,
    [pv]/[dv] are is_p_void/is_d_void *)
Fixpoint delim_loop (fp fd : pfun) (pv dv : bool) (k : nat) (res : presult) (i : span) (b : rv)
  : outcome (span * rv) :=
  match k with
  | O => OOF
  | S k' =>
      match r_ok res with
      | None => ret (i, b)
      | Some v =>
          let i := r_rem res in
          b1 <- (if pv then ret b
                 else if dv then b_insert_back b v else b_insert_back_first b v) ;;
          d <- fd i ;;
          match r_ok d with
          | None => ret (i, b1)
          | Some w =>
              res' <- fp (r_rem d) ;;
              b2 <- (if dv then ret b1
                     else if has_value res'
                          then (if pv then b_insert_back b1 w else b_insert_back_second b1 w)
                          else ret b1) ;;
              delim_loop fp fd pv dv k' res' i b2
          end
      end
  end.

(** delimit.h:36-79 *)
Definition delimit_parse (tp td : ty) (fp fd : pfun) (k : nat) (i : span) : outcome presult :=
  res <- fp i ;;
  if has_value res then
    '(i', b) <- delim_loop fp fd (is_void tp) (is_void td) k res i
                  (builder_init (delimit_type tp td)) ;;
    ret (success b i')
  else ret (failure i).

(** delimit.h:81-103 *)
Definition delimit_look (fp fd : pfun) (k : nat) (i : span) : outcome presult :=
  res <- fp i ;;
  if has_value res then
    '(i', _) <- delim_loop fp fd true true k res i RVoid ;;
    ret (success RVoid i')
  else ret (failure i).

(** complete.h:21-45 (parse and lookahead have the same body) *)
Definition complete_run (f : pfun) (i : span) : outcome presult :=
  res <- f i ;;
  if negb (has_value res) || negb (sp_len (r_rem res) =? 0)
  then ret (failure i) else ret res.

(** map.h:27-60 *)
Definition map_parse (fn : func) (f : pfun) (i : span) : outcome presult :=
  res <- f i ;;
  match r_ok res with
  | None => ret (failure i)
  | Some v => w <- call fn (args_of v) ;;
              ret (success w (r_rem res))
  end.

(** filter.h:29-55 *)
Definition filter_parse (fn : func) (f : pfun) (i : span) : outcome presult :=
  res <- f i ;;
  match r_ok res with
  | None => ret (failure i)
  | Some v => w <- call fn (args_of v) ;;
              match w with
              | RVal c => if as_bool E c then ret res else ret (failure i)
              | RVoid => Ill
              end
  end.

(** custom.h:41-47: parse with get_parser(), then convert the result (result.h:33-39).
    [result<void>] takes part in no conversion. *)
Definition custom_parse (cv : conv) (f : pfun) (i : span) : outcome presult :=
  res <- f i ;;
  match cv, r_ok res with
  | ConvSame, _ => ret res
  | ConvElem _, None => ret res
  | ConvElem t, Some (RVal v) => w <- call (FConstruct t) [v] ;; ret (success w (r_rem res))
  | ConvWhole t, None => w <- call (FConstruct t) [VOpt None] ;; ret (success w (r_rem res))
  | ConvWhole t, Some (RVal v) =>
      w <- call (FConstruct t) [VOpt (Some v)] ;; ret (success w (r_rem res))
  | _, Some RVoid => Ill
  end.

(** ** join, detail/parsers/join.h *)

(** join.h:41-76 [try_join(output_span)], GCC/Clang run-time branch.  The subtraction of
    pointers into different blocks is undefined.  The result is (return value, joined). *)
Definition try_join_span (s : span) (joined : option span) : outcome (bool * option span) :=
  if sp_len s =? 0 then ret (true, joined)
  else match joined with
       | None => ret (true, Some s)
       | Some j =>
           if negb (sp_blk s =? sp_blk j) then UB
           else if (Z.of_nat (sp_len j) =? Z.of_nat (sp_off s) - Z.of_nat (sp_off j))%Z
                then ret (true, Some (Span (sp_blk j) (sp_off j) (sp_len j + sp_len s)))
                else ret (false, None)
       end.

(** join.h:78-113 [try_join] on vector, array, optional, tuple; other types have no
    overload. *)
Fixpoint try_join (v : val) (joined : option span) {struct v} : outcome (bool * option span) :=
  let many := fix go (l : list val) (joined : option span) {struct l} :=
    match l with
    | [] => ret (true, joined)
    | x :: l' => '(b, j) <- try_join x joined ;;
                 if b : bool then go l' j else ret (false, j)
    end in
  match v with
  | VSpan s => try_join_span s joined
  | VVec l => many l joined
  | VArr l => many l joined
  | VOpt None => ret (true, joined)
  | VOpt (Some x) => try_join x joined
  | VTup l => many l joined
  | _ => Ill
  end.

(** join.h:23-36: the constructor of [join_executor] and [get_joined] *)
Definition join_executor (v : val) (rem : span) : outcome (option span) :=
  '(b, j) <- try_join v None ;;
  match b, j with
  | true, None => ret (Some (Span (sp_blk rem) (sp_off rem) 0))
  | _, _ => ret j
  end.

(** join.h:130-145 *)
Definition join_parse (f : pfun) (i : span) : outcome presult :=
  res <- f i ;;
  match r_ok res with
  | None => ret (failure i)
  | Some (RVal v) =>
      j <- join_executor v (r_rem res) ;;
      match j with
      | Some s => ret (success (RVal (VSpan s)) (r_rem res))
      | None => ret (failure i)
      end
  | Some RVoid => Ill
  end.

(** ** The specialisations of join_parser, detail/optimizations/*.h *)

(** The parameter [template <static_array> class Basic, static_array arr] matches
    any_of_parser, none_of_parser and all_of_parser; the pair is
    ([basic_parser_traits::failure_condition], [length]) (any_of.h:26-32, none_of.h:26-32,
    all_of.h:24-30). *)
Definition as_basic (p : parser T) : option ((span -> outcome bool) * nat) :=
  match p with
  | PAnyOf arr => Some (any_of_fc arr, 1)
  | PNoneOf arr => Some (none_of_fc arr, 1)
  | PAllOf arr => Some (all_of_fc arr, List.length arr)
  | _ => None
  end.

(** join_exactly_basic.h:33-39, :54-59 *)
Fixpoint jx_loop (fc : span -> outcome bool) (len k : nat) (res i : span)
  : outcome (option (span * span)) :=
  match k with
  | O => ret (Some (res, i))
  | S k' =>
      b <- fc i ;;
      if b : bool then ret None
      else i' <- advance i len ;;
           jx_loop fc len k' (Span (sp_blk res) (sp_off res) (sp_len res + len)) i'
  end.

(** join_exactly_basic.h:22-42 *)
Definition jx_parse (fc : span -> outcome bool) (len n : nat) (i : span) : outcome presult :=
  r <- jx_loop fc len n (Span (sp_blk i) (sp_off i) 0) i ;;
  match r with
  | Some (res, i') => ret (success (RVal (VSpan res)) i')
  | None => ret (failure i)
  end.

(** join_exactly_basic.h:44-62 *)
Definition jx_look (fc : span -> outcome bool) (len n : nat) (i : span) : outcome presult :=
  r <- jx_loop fc len n (Span (sp_blk i) (sp_off i) 0) i ;;
  match r with
  | Some (_, i') => ret (success RVoid i')
  | None => ret (failure i)
  end.

(** join_maybe_basic.h:22-34 *)
Definition jm_parse (fc : span -> outcome bool) (len : nat) (i : span) : outcome presult :=
  b <- fc i ;;
  if b : bool then ret (success (RVal (VSpan (Span (sp_blk i) (sp_off i) 0))) i)
  else v <- first i len ;;
       r <- advance i len ;;
       ret (success (RVal (VSpan v)) r).

(** join_maybe_basic.h:36-48 *)
Definition jm_look (fc : span -> outcome bool) (len : nat) (i : span) : outcome presult :=
  b <- fc i ;;
  if b : bool then ret (success RVoid i)
  else r <- advance i len ;; ret (success RVoid r).

(** join_one_or_more_basic.h:36-40, :58-61, join_zero_or_more_basic.h:32-36, :49-52:
    the [while (not failure_condition)] loops, [k] is fuel *)
Fixpoint jr_loop (fc : span -> outcome bool) (len k : nat) (res i : span)
  : outcome (span * span) :=
  match k with
  | O => OOF
  | S k' =>
      b <- fc i ;;
      if b : bool then ret (res, i)
      else i' <- advance i len ;;
           jr_loop fc len k' (Span (sp_blk res) (sp_off res) (sp_len res + len)) i'
  end.

(** join_one_or_more_basic.h:22-43 *)
Definition jo_parse (fc : span -> outcome bool) (len k : nat) (i : span) : outcome presult :=
  b <- fc i ;;
  if b : bool then ret (failure i)
  else v <- first i len ;;
       i1 <- advance i len ;;
       '(res, i') <- jr_loop fc len k v i1 ;;
       ret (success (RVal (VSpan res)) i').

(** join_one_or_more_basic.h:45-64 *)
Definition jo_look (fc : span -> outcome bool) (len k : nat) (i : span) : outcome presult :=
  b <- fc i ;;
  if b : bool then ret (failure i)
  else i1 <- advance i len ;;
       '(_, i') <- jr_loop fc len k (Span (sp_blk i) (sp_off i) len) i1 ;;
       ret (success RVoid i').

(** join_zero_or_more_basic.h:22-39 *)
Definition jz_parse (fc : span -> outcome bool) (len k : nat) (i : span) : outcome presult :=
  '(res, i') <- jr_loop fc len k (Span (sp_blk i) (sp_off i) 0) i ;;
  ret (success (RVal (VSpan res)) i').

(** join_zero_or_more_basic.h:41-55 *)
Definition jz_look (fc : span -> outcome bool) (len k : nat) (i : span) : outcome presult :=
  '(_, i') <- jr_loop fc len k (Span (sp_blk i) (sp_off i) 0) i ;;
  ret (success RVoid i').

(** Which specialisation of [join_parser<P>] is selected (optimizations/*.h:12-13);
    [None] = the primary template. *)
Definition join_special (p : parser T) (k : nat) : option (mode -> pfun) :=
  match p with
  | PExactly q n =>
      match as_basic q with
      | Some (fc, len) =>
          if n =? 0 then None
          else Some (fun m => match m with Parse => jx_parse fc len n | Look => jx_look fc len n end)
      | None => None
      end
  | PMaybe q =>
      match as_basic q with
      | Some (fc, len) =>
          Some (fun m => match m with Parse => jm_parse fc len | Look => jm_look fc len end)
      | None => None
      end
  | POneOrMore q =>
      match as_basic q with
      | Some (fc, len) =>
          Some (fun m => match m with Parse => jo_parse fc len k | Look => jo_look fc len k end)
      | None => None
      end
  | PZeroOrMore q =>
      match as_basic q with
      | Some (fc, len) =>
          Some (fun m => match m with Parse => jz_parse fc len k | Look => jz_look fc len k end)
      | None => None
      end
  | _ => None
  end.

(** ** Tying the knot *)

(** The general [join_parser<P>] (join.h:120-152), used when no specialisation matches. *)
Definition join_generic (rec : mode -> parser T -> pfun) (m : mode) (q : parser T) (i : span)
  : outcome presult :=
  match m with
  | Look => rec Look q i                                        (* join.h:147-151 *)
  | Parse => match result_for E q with
             | Some t => if joinable t then join_parse (rec Parse q) i else Ill
             | None => Ill
             end
  end.

(** One layer of [parse]/[lookahead] of parser [p], given those of its components ([rec])
    and the fuel [k] for its own loop.  [result_for] failing means the instantiation does
    not compile. *)
Definition step (rec : mode -> parser T -> pfun) (k : nat) (m : mode) (p : parser T) (i : span)
  : outcome presult :=
  match p with
  | PAnyOf arr => match m with Parse => basic_parse (any_of_fc arr) 1 i
                             | Look => basic_look (any_of_fc arr) 1 i end
  | PNoneOf arr => match m with Parse => basic_parse (none_of_fc arr) 1 i
                              | Look => basic_look (none_of_fc arr) 1 i end
  | PAllOf arr => match m with Parse => basic_parse (all_of_fc arr) (List.length arr) i
                             | Look => basic_look (all_of_fc arr) (List.length arr) i end
  | PAnything => match m with Parse => basic_parse anything_fc 1 i
                            | Look => basic_look anything_fc 1 i end
  | PEpsilon => epsilon_run i
  | PChoice q qs => match m with Parse => choice_parse rec (q :: qs) i
                               | Look => choice_look rec (q :: qs) i end
  | PSequence q qs => match m with Parse => sequence_parse rec (q :: qs) i
                                 | Look => sequence_look rec (q :: qs) i end
  | PMaybe q => match m with
                | Parse => match result_for E q with
                           | Some t => maybe_parse t (rec Parse q) i
                           | None => Ill end
                | Look => maybe_look (rec Look q) i
                end
  | PExactly q n => if n =? 0 then Ill     (* exactly.h:14 requires (N != 0) *)
                    else match m with
                    | Parse => match result_for E q with
                               | Some t => exactly_parse t (rec Parse q) n i
                               | None => Ill end
                    | Look => exactly_look (rec Look q) n i
                    end
  | POneOrMore q => match m with
                    | Parse => match result_for E q with
                               | Some t => one_or_more_parse t (rec Parse q) k i
                               | None => Ill end
                    | Look => one_or_more_look (rec Look q) k i
                    end
  | PZeroOrMore q => match m with
                     | Parse => match result_for E q with
                                | Some t => zero_or_more_parse t (rec Parse q) k i
                                | None => Ill end
                     | Look => zero_or_more_look (rec Look q) k i
                     end
  | PDelimit q d => match m with
                    | Parse => match result_for E q, result_for E d with
                               | Some tp, Some td =>
                                   delimit_parse tp td (rec Parse q) (rec Parse d) k i
                               | _, _ => Ill end
                    | Look => delimit_look (rec Look q) (rec Look d) k i
                    end
  | PIgnore q => rec Look q i                                   (* ignore.h:21-31 *)
  | PComplete q => complete_run (rec m q) i
  | PJoin q => match join_special q k with
               | Some f => f m i
               | None => join_generic rec m q i
               end
  | PMap q fn => match m with
                 | Look => rec Look q i                         (* map.h:62-66 *)
                 | Parse => match result_for E p with
                            | Some _ => map_parse fn (rec Parse q) i
                            | None => Ill end
                 end
  | PFilter q fn => match m with
                    | Look => rec Look q i                      (* filter.h:57-61 *)
                    | Parse => match result_for E p with
                               | Some _ => filter_parse fn (rec Parse q) i
                               | None => Ill end
                    end
  | PNamed q _ => rec m q i                                     (* named.h:21-31 *)
  | PCustom c => match m with
                 | Look => rec Look (cust_body E c) i           (* custom.h:49-55 *)
                 | Parse => custom_parse (cust_conv E c) (rec Parse (cust_body E c)) i
                 end
  end.

(** The evaluator: every nested call costs one unit of fuel and every loop may do as many
    iterations as there is fuel. *)
Fixpoint run (n : nat) (m : mode) (p : parser T) (i : span) {struct n} : outcome presult :=
  match n with
  | O => OOF
  | S n' => step (run n') n' m p i
  end.

(** The C++ function returns: fuel-free big-step semantics. *)
Definition evals (m : mode) (p : parser T) (i : span) (o : outcome presult) : Prop :=
  o <> OOF /\ exists n, run n m p i = o.

(** The call returns, throws or is undefined after finitely many steps. *)
Definition terminates (m : mode) (p : parser T) (i : span) : Prop :=
  exists n, run n m p i <> OOF.

Definition diverges (m : mode) (p : parser T) (i : span) : Prop :=
  forall n, run n m p i = OOF.

End Exec.

Arguments evals {T V} E m p i o.
