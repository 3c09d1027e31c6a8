(** * Spans from ranges, and comparing spans: detail/span.h, detail/type_traits.h

    How [input_span input{ r }] (basic_base.h:32, :45 and the same line in every parser)
    turns its argument into a span, and [span_equal_to].  The evaluator (Exec.v) starts from
    the span built here. *)
From Coq Require Import String List Arith ZArith Bool Lia.
From Verif Require Import Types Compound Parser Outcome Exec Sound.
Import ListNotations.
Local Open Scope outcome_scope.

Section SpanModel.
(** Element values [V]; [mem b] the objects in block [b]; [nul] the value [V{}] that ends a
    C string; [character] is the concept of type_traits.h:11-19. *)
Context {V : Type} (mem : nat -> list V) (nul : V -> bool) (character : bool).

(** The arguments of parse, by how the compiler sees them. *)
Inductive source : Type :=
| SContainer (s : span)            (* std::vector, std::array, std::string, ...: a contiguous range *)
| SView (s : span)                 (* std::basic_string_view<V> *)
| SStdSpan (s : span)              (* std::span<const V> *)
| SSpan (s : span)                 (* span<V>, input_span<V>, output_span<V> *)
| SPointer (b o : nat)             (* const V* *)
| SArray (b o n : nat)             (* V[n], an lvalue that is not const *)
| SConstArray (b o n : nat).       (* const V[n], for instance a string literal *)

(** The constructors, span.h:21-35 and :60-87. *)
Inductive ctor : Type :=
| CStdSpan    (* span(std::span<const T>), :21-23, :60-62 *)
| CRange      (* template <contiguous_range R> span(R&&), :25-29, :64-68 *)
| CArgs       (* template <class... Args> span(Args&&...), :31-35, :70-74 *)
| CView       (* span(std::basic_string_view<T>), :76-78 *)
| CPointer    (* span(const T* ), :80-82 *)
| CLiteral    (* template <size_t N> span(const T(&)[N]), :84-87 *)
| CCopy.      (* the implicit copy and move constructors *)

(** The implicit conversion sequence each constructor needs for the argument
    ([over.best.ics], [over.ics.rank]): 0 identity - an array-to-pointer conversion does not
    count -, 1 adds const, 2 user-defined, [None] not viable. *)
Definition conversion (a : source) (c : ctor) : option nat :=
  match a, c with
  | _, (CView | CPointer | CLiteral) =>
      if negb character then None                    (* only in span<character T> *)
      else match a, c with
      | SView _, CView => Some 0
      | (SPointer _ _ | SArray _ _ _ | SConstArray _ _ _ | SContainer _ | SSpan _), CView => Some 2
      | SPointer _ _, CPointer => Some 0
      | SConstArray _ _ _, CPointer => Some 0
      | SArray _ _ _, CPointer => Some 1
      | SConstArray _ _ _, CLiteral => Some 0
      | SArray _ _ _, CLiteral => Some 1
      | _, _ => None
      end
  | SPointer _ _, _ => None
  | SStdSpan _, CStdSpan => Some 0
  | _, CStdSpan => Some 2
  | _, (CRange | CArgs) => Some 0
  | SSpan _, CCopy => Some 0
  | _, CCopy => Some 2
  end.

(** [over.match.best]: after the conversions, a function that is not a template wins, then
    the more specialised template ([temp.func.order]). *)
Definition generality (c : ctor) : nat :=
  match c with
  | CStdSpan | CView | CPointer | CCopy => 0
  | CLiteral => 1
  | CRange => 2
  | CArgs => 3
  end.

Definition better (x y : nat * ctor) : bool :=
  (fst x <? fst y) || ((fst x =? fst y) && (generality (snd x) <? generality (snd y))).

Definition candidates (a : source) : list (nat * ctor) :=
  flat_map (fun c => match conversion a c with Some k => [(k, c)] | None => [] end)
    [CStdSpan; CRange; CArgs; CView; CPointer; CLiteral; CCopy].

(** The candidate no other one beats; [None]: no viable one, or ambiguous. *)
Definition overload (a : source) : option ctor :=
  match filter (fun x => forallb (fun y => negb (better y x)) (candidates a)) (candidates a) with
  | [x] => Some (snd x)
  | _ => None
  end.

(** [std::char_traits<T>::length], as used by [std::basic_string_view<T>(const T* )]: counts
    up to the first null element, undefined if there is none in the array. *)
Fixpoint nul_length (l : list V) : outcome nat :=
  match l with
  | [] => UB
  | c :: l' => if nul c then ret 0 else n <- nul_length l' ;; ret (S n)
  end.

(** The elements a pointer may walk over: to the end of the array it points into. *)
Definition walk (a : source) : option (nat * nat * list V) :=
  match a with
  | SPointer b o => Some (b, o, skipn o (mem b))
  | SArray b o n | SConstArray b o n => Some (b, o, firstn n (skipn o (mem b)))
  | _ => None
  end.
Definition c_string (a : source) : outcome span :=
  match walk a with
  | Some (b, o, l) => n <- nul_length l ;; ret (Span b o n)
  | None => Ill
  end.

(** What the constructors put in [_value]. *)
Definition whole (a : source) : option span :=
  match a with
  | SContainer s | SView s | SStdSpan s | SSpan s => Some s
  | SArray b o n | SConstArray b o n => Some (Span b o n)
  | SPointer _ _ => None
  end.
Definition construct (c : ctor) (a : source) : outcome span :=
  match c with
  | CStdSpan | CRange | CArgs | CView | CCopy => match whole a with Some s => ret s | None => Ill end
  | CPointer => c_string a                                                        (* :81 *)
  | CLiteral => match a with
                | SArray b o n | SConstArray b o n => ret (Span b o (n - 1))       (* :86 *)
                | _ => Ill
                end
  end.

(** [input_span input{ std::forward<R>(r) }] *)
Definition make_span (a : source) : outcome span :=
  match overload a with Some c => construct c a | None => Ill end.
End SpanModel.

(** ** Comparisons, span.h:118-171.  The two spans may have different element types; the
    blocks of both are in their own memory. *)
Section Compare.
Context {V W : Type} (memV : nat -> list V) (memW : nat -> list W) (eqVW : V -> W -> bool).

Definition rd {X} (mem : nat -> list X) (b o : nat) : outcome X :=
  match nth_error (mem b) o with Some c => ret c | None => UB end.

(** :130-137, [k] iterations to go, [it1] and [it2] *)
Fixpoint equal_loop (k b1 o1 b2 o2 : nat) : outcome bool :=
  match k with
  | 0 => ret true
  | S k' =>
      x <- rd memV b1 o1 ;; y <- rd memW b2 o2 ;;
      if negb (eqVW x y) then ret false else equal_loop k' b1 (S o1) b2 (S o2)
  end.

(** :122-138 *)
Definition equal_spans (l r : span) : outcome bool :=
  if negb (sp_len l =? sp_len r) then ret false
  else equal_loop (sp_len l) (sp_blk l) (sp_off l) (sp_blk r) (sp_off r).
End Compare.

Section CompareOther.
Context {V : Type} (mem : nat -> list V) (nul : V -> bool) (character : bool) (same : V -> V -> bool).

(** [std::basic_string_view<T>::operator==]: sizes, then [traits::compare], which for the
    character types is element by element. *)
Definition equal_views (l r : span) : outcome bool := equal_spans mem mem same l r.

(** :140-157 with a right-hand side that is not a span.  [Ill]: the member or the branch does
    not exist. *)
Definition equal_other (l : span) (r : source) : outcome bool :=
  match r with
  | SSpan s => equal_spans mem mem same l s                                 (* :122 *)
  | SPointer _ _ | SArray _ _ _ | SConstArray _ _ _ =>                      (* :144-147 *)
      if character then v <- c_string mem nul r ;; equal_views l v else Ill
  | SContainer _ | SView _ | SStdSpan _ =>                                  (* :148-151 *)
      s <- make_span mem nul character r ;; equal_spans mem mem same l s
  end.
End CompareOther.
