(** * detail/filter.h, template by template

    Compound.v gives filter.h as functions on lists that end on the empty list and write
    [static_cast<std::size_t>(-1)] as [None].  Here the class templates are transcribed as they
    stand: with the specialisations for one type and for more, indices that are numbers below
    2^64, and instantiations that may fail because no specialisation matches.  [None] is such
    a failure (the primary templates are not defined, filter.h:27-28, :66-67, :81-82).

    [std::conditional_t<b, A, B>::member] instantiates the chosen one of A and B only, so it is
    an [if].  Which specialisation is used when both match (one type: the pack [Tail] may be
    empty) is not derived: the one without the pack, as compilers do (cf. DESIGN.md, section 3). *)
From Coq Require Import List Arith NArith Bool Lia.
From Verif Require Import Types Compound.
Import ListNotations.

(** [std::size_t] with 64 bits *)
Definition size_max : N := 2 ^ 64 - 1.
(** [static_cast<std::size_t>(-1)], filter.h:39, :49, :93, :113; helpers.h:158 *)
Definition minus_one : N := size_max.
(** [Next + 1], filter.h:48, :118 *)
Definition next_of (n : N) : N := ((n + 1) mod 2 ^ 64)%N.

(** The members of an instantiation: [type] as the list's arguments, [sequence] as the index
    sequence's; and the number of nested instantiations it took. *)
Record members : Type := Members { m_type : list ty; m_sequence : list N; m_depth : nat }.
Definition deeper (x : option members) : option members :=
  match x with Some m => Some (Members (m_type m) (m_sequence m) (S (m_depth m))) | None => None end.

(** filter.h:30-55; the pack [ts] is [Head, Tail...] *)
Fixpoint filter_with_index_t (pred : ty -> bool) (done : list ty) (is : list N) (next : N) (ts : list ty)
  : option members :=
  match ts with
  | [] => None
  | head :: tail =>
      match tail with
      | [] =>                                                                    (* :30-41 *)
          Some (Members (if pred head then done ++ [head] else done)
                        (if pred head then is ++ [next] else is ++ [minus_one]) 1)
      | _ :: _ =>                                                                (* :43-55 *)
          if pred head
          then deeper (filter_with_index_t pred (done ++ [head]) (is ++ [next]) (next_of next) tail)
          else deeper (filter_with_index_t pred done (is ++ [minus_one]) next tail)
      end
  end.

(** filter.h:69-79 *)
Fixpoint index_lookup_t (done : list ty) (is : list N) (t : ty) : option N :=
  match done, is with
  | head :: tail, i :: is' =>
      if ty_eqb t head then Some i
      else if List.length tail =? 0 then Some 0%N
      else index_lookup_t tail is' t
  | _, _ => None
  end.

(** filter.h:88-94, :108-114 *)
Definition next_index_t (pred : ty -> bool) (done : list ty) (is : list N) (next : N) (head : ty) : option N :=
  if pred head then
    if existsb (fun d => ty_eqb d head) done then index_lookup_t done is head else Some next
  else Some minus_one.

(** filter.h:84-125 *)
Fixpoint filter_deduplicate_t (pred : ty -> bool) (done : list ty) (is : list N) (next : N) (ts : list ty)
  : option members :=
  match ts with
  | [] => None
  | head :: tail =>
      match next_index_t pred done is next head with
      | None => None
      | Some i =>
          let add := pred head && negb (existsb (fun d => ty_eqb d head) done) in
          match tail with
          | [] => Some (Members (if add then done ++ [head] else done) (is ++ [i]) 1)   (* :84-102 *)
          | _ :: _ =>                                                                  (* :104-125 *)
              if add
              then deeper (filter_deduplicate_t pred (done ++ [head]) (is ++ [i]) (next_of next) tail)
              else deeper (filter_deduplicate_t pred done (is ++ [i]) next tail)
          end
      end
  end.

(** filter.h:15-19 *)
Definition is_not_void (t : ty) : bool := negb (is_void t).
(** filter.h:59-60, :129-130 *)
Definition filter_out_void_t (ts : list ty) : option members := filter_with_index_t is_not_void [] [] 0 ts.
Definition filter_out_void_deduplicate_t (ts : list ty) : option members := filter_deduplicate_t is_not_void [] [] 0 ts.

(** helpers.h:158: how an index is read *)
Definition read_index (n : N) : index := if (n =? minus_one)%N then None else Some (N.to_nat n).
