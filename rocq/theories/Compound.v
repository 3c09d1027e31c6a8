(** * Compile-time index computations for choice and sequence

    detail/filter.h and detail/helpers.h [compound_trait]. *)
From Coq Require Import List Arith Bool.
From Verif Require Import Types.
Import ListNotations.

(** An element of the emitted [std::index_sequence]: [None] is
    [static_cast<std::size_t>(-1)], which [compound_executor::execute] tests for
    (helpers.h:158). *)
Definition index : Type := option nat.

(** detail/filter.h:27-55 [filter_with_index] with the predicate [is_not_void]
    (filter.h:15-19).  [done]/[is]/[next] are the template parameters ListOfDone, Seq, Next.
    The C++ recursion ends on a one-element list, this one on the empty list; the last
    C++ step (lines 30-41) equals one more step here. *)
Fixpoint filter_with_index (done : list ty) (is : list index) (next : nat) (ts : list ty)
  : list ty * list index :=
  match ts with
  | [] => (done, is)
  | head :: tail =>
      if negb (is_void head)
      then filter_with_index (done ++ [head]) (is ++ [Some next]) (S next) tail
      else filter_with_index done (is ++ [None]) next tail
  end.

(** detail/filter.h:59-60 *)
Definition filter_out_void (ts : list ty) : list ty * list index :=
  filter_with_index [] [] 0 ts.

(** detail/filter.h:66-79 [index_lookup]: walks the list of types done so far and the
    index sequence emitted so far in lockstep.  The two missing-argument cases are
    unreachable instantiations (the sequence is never shorter than the list, the lookup is
    only instantiated when the type is present). *)
Fixpoint index_lookup (done : list ty) (is : list index) (t : ty) : index :=
  match done, is with
  | head :: tail, i :: is' =>
      if ty_eqb t head then i
      else match tail with
           | [] => Some 0
           | _ :: _ => index_lookup tail is' t
           end
  | _, _ => Some 0
  end.

(** [(... or std::is_same_v<Done, Head>)], filter.h:89, :97, :109, :117 *)
Definition occurs (done : list ty) (t : ty) : bool := existsb (fun d => ty_eqb d t) done.

(** detail/filter.h:88-94 and :108-114 [next_index] *)
Definition next_index (done : list ty) (is : list index) (next : nat) (head : ty) : index :=
  if negb (is_void head)
  then if occurs done head then index_lookup done is head else Some next
  else None.

(** detail/filter.h:81-125 [filter_deduplicate_with_index] *)
Fixpoint filter_deduplicate_with_index
    (done : list ty) (is : list index) (next : nat) (ts : list ty)
  : list ty * list index :=
  match ts with
  | [] => (done, is)
  | head :: tail =>
      let is' := is ++ [next_index done is next head] in
      if negb (is_void head) && negb (occurs done head)
      then filter_deduplicate_with_index (done ++ [head]) is' (S next) tail
      else filter_deduplicate_with_index done is' next tail
  end.

(** detail/filter.h:129-130 *)
Definition filter_out_void_deduplicate (ts : list ty) : list ty * list index :=
  filter_deduplicate_with_index [] [] 0 ts.

(** detail/type_traits.h:61-82 [unwrap_if_single]: the [unwrapped] flag *)
Definition unwrapped (ts : list ty) : bool :=
  match ts with [] | [_] => true | _ => false end.

(** detail/helpers.h:115-133 [compound_trait::result_for] *)
Definition compound_result (container : list ty -> ty) (ts : list ty) : ty :=
  match ts with
  | [] => TVoid
  | [t] => t
  | _ => container ts
  end.

(** Well-formedness of the [emplace<I>] calls in [execute_element] (helpers.h:190-191):
    the variant alternative [I] must be constructible from the alternative's own result
    type.  Simplified: "constructible" is "same type" (no implicit conversions). *)
Fixpoint emplace_ok (done : list ty) (tys : list ty) (seq : list index) : bool :=
  match tys, seq with
  | t :: tys', i :: seq' =>
      (match i with
       | None => true
       | Some k => match nth_error done k with
                   | Some a => ty_eqb a t
                   | None => false
                   end
       end) && emplace_ok done tys' seq'
  | _, _ => true
  end.

(** Lists of optional results *)
Fixpoint all_some {A : Type} (l : list (option A)) : option (list A) :=
  match l with
  | [] => Some []
  | None :: _ => None
  | Some a :: l' => match all_some l' with Some r => Some (a :: r) | None => None end
  end.
