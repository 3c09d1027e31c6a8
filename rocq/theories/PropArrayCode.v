(** * C52: the compile-time arrays behind the literals *)
From Coq Require Import List Arith Bool Permutation Lia.
From Verif Require Import Types Outcome StaticArray Samples PropSets ArrayCode.
Import ListNotations.

Section C52.
Context {T : Type} (O : order T) (HO : lawful O) (zero : T).

(** A literal of the source, [t] being its terminator: all its characters are kept (also
    zeros among them), the terminator is not. *)
Theorem C52_literal w t fuel : length w <= fuel -> from_literal zero fuel (w ++ [t]) = Done w [].
Proof. apply from_literal_ok. Qed.

(** static_array's operator+ *)
Theorem C52_concatenation a b fuel : length a <= fuel -> length b <= fuel -> plus_code zero fuel a b = Done (a ++ b) [].
Proof. apply plus_ok. Qed.

(** static_array's operator==, also of arrays of different sizes *)
Theorem C52_equality a b fuel : length a <= fuel -> exists r, equal_code O fuel a b = Done r [] /\ (r = true <-> a = b).
Proof.
  intros Hf. destruct (equal_ok O a b fuel Hf (eq_spec O HO)) as [[-> H]|[-> H]]; eexists; (split; [reflexivity|]); split; intros; (discriminate || contradiction || auto).
Qed.

(** contains, whatever the comparison with the input element *)
Theorem C52_contains (eq : T -> bool) a fuel : length a <= fuel ->
  exists r, contains_loop eq fuel 0 a = Done r [] /\ (r = true <-> exists x, In x a /\ eq x = true).
Proof.
  intros Hf. exists (existsb eq a). split; [exact (contains_ok eq a [] fuel Hf)|apply existsb_exists].
Qed.

(** is_sorted_and_uniqued *)
Theorem C52_is_sorted a fuel : length a <= fuel -> exists r, sorted_code O fuel a = Done r [] /\ (r = true <-> increasing O a).
Proof.
  intros Hf. exists (is_sorted_and_uniqued O a). split; [now apply sorted_ok|now apply sorted_spec].
Qed.

(** sort_and_unique, for whatever sort and unique do beyond what is guaranteed *)
Theorem C52_normalised sort uniq a fuel : sorts O sort -> uniques O uniq -> length a <= fuel ->
  exists c, sort_and_unique_code O zero sort uniq fuel a = Done c [] /\ increasing O c /\ forall x, In x c <-> In x a.
Proof.
  intros Hs Hu Hf. exists (sort_and_unique O sort a). split; [now apply sort_and_unique_ok|now apply sort_and_unique_spec].
Qed.

(** The set operations: the array made for the result has the right size. *)
Theorem C52_merged op a b fuel : length a + length b <= fuel -> increasing O a -> increasing O b ->
  exists c, merged_code O zero op fuel a b = Done c [] /\ increasing O c /\
    forall x, In x c <-> match op with
                         | set_union => In x a \/ In x b
                         | set_intersection => In x a /\ In x b
                         | set_difference_left => In x a /\ ~ In x b
                         | set_difference_right => In x b /\ ~ In x a
                         end.
Proof.
  intros Hf Ha Hb. exists (set_operation O op a b). split; [now apply merged_ok|].
  destruct (set_operation_spec O HO op a b Ha Hb) as [Hi Hin]. split; [exact Hi|exact Hin].
Qed.

(** Whatever the arrays, sorted or not, and whatever [<] does: nothing is accessed outside. *)
Theorem C52_in_bounds O' op a b : exists k, forall fuel, k <= fuel -> exists c, merged_code O' zero op fuel a b = Done c [].
Proof. exists (length a + length b). intros fuel Hf. eexists. now apply merged_ok. Qed.

(** The operators on parsers use just these. *)
Theorem C52_refines sort uniq op a b fuel : sorts O sort -> uniques O uniq -> length a + length b <= fuel ->
  sort_and_unique_code O zero sort uniq fuel a = Done (sort_and_unique O sort a) [] /\
  merged_code O zero op fuel a b = Done (set_operation O op a b) [].
Proof. intros Hs Hu Hf. split; [apply sort_and_unique_ok; auto; lia|now apply merged_ok]. Qed.
End C52.

(** Case: a unique as in the standard libraries, which leaves the old elements at the end;
    the literals "b\0ab" and "abc". *)
Definition std_unique {T} (O : order T) (l : list T) : list T * nat := (unique O l ++ skipn (length (unique O l)) l, length (unique O l)).
Example C52_case : lawful nat_order /\ sorts nat_order (isort nat_order) /\ uniques nat_order (std_unique nat_order) /\
  from_literal 0 9 [98; 0; 97; 98; 0] = Done [98; 0; 97; 98] [] /\
  sort_and_unique_code nat_order 0 (isort nat_order) (std_unique nat_order) 9 [98; 0; 97; 98] = Done [0; 97; 98] [] /\
  merged_code nat_order 0 set_difference_right 9 [0; 97; 98] [97; 98; 99] = Done [99] [] /\
  equal_code nat_order 9 [0; 97] [0; 97; 98] = Done false [].
Proof.
  split; [apply nat_lawful|]. split; [apply isort_sorts, nat_lawful|]. split; [intros l; eexists; reflexivity|].
  repeat split.
Qed.

Print Assumptions C52_literal.
Print Assumptions C52_concatenation.
Print Assumptions C52_equality.
Print Assumptions C52_contains.
Print Assumptions C52_is_sorted.
Print Assumptions C52_normalised.
Print Assumptions C52_merged.
Print Assumptions C52_in_bounds.
Print Assumptions C52_refines.
