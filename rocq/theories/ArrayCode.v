(** * static_array.h and set_operations.h, statement by statement

    StaticArray.v has these functions on lists.  Here they are on arrays of a fixed size, with
    indices, iterators and loops.  An access outside an array is [UB] (in a constant
    expression: does not compile); loops run on fuel. *)
From Coq Require Import List Arith Bool Lia.
From Verif Require Import Types Outcome StaticArray.
Import ListNotations.
Local Open Scope outcome_scope.

Section Code.
Context {T : Type} (O : order T).
(** [T{}], static_array.h:19 *)
Variable zero : T.

(** A [static_array<T, N>], or a built-in array of N elements, is a list of N elements.
    static_array.h:64, :65 (std::array::operator[]) *)
Definition get (a : list T) (i : nat) : outcome T :=
  match nth_error a i with Some x => ret x | None => UB end.
Definition put (a : list T) (i : nat) (x : T) : outcome (list T) :=
  if i <? length a then ret (firstn i a ++ x :: skipn (S i) a) else UB.
(** static_array.h:19, :21, :72 *)
Definition empty_array (n : nat) : list T := repeat zero n.

(** [for (size_t i = from; i != to; ++i) body] *)
Fixpoint for_loop {S} (fuel i to : nat) (body : nat -> S -> outcome S) (s : S) : outcome S :=
  if i =? to then ret s
  else match fuel with
       | 0 => OOF
       | S fuel' => s' <- body i s ;; for_loop fuel' (i + 1) to body s'
       end.

(** static_array.h:29-33 with the deduction guide :79-80: [input] has N + 1 elements *)
Definition from_literal (fuel : nat) (input : list T) : outcome (list T) :=
  let N := length input - 1 in
  for_loop fuel 0 N (fun i data => x <- get input i ;; put data i x) (empty_array N).

(** static_array.h:23-27 with :75-77: [data{{t, ts...}}] *)
Definition from_elements (t : T) (ts : list T) : list T := t :: ts.

(** static_array.h:50-57; [eq] compares with an element of the input *)
Fixpoint contains_loop (eq : T -> bool) (fuel i : nat) (data : list T) : outcome bool :=
  if i =? length data then ret false
  else match fuel with
       | 0 => OOF
       | S fuel' => x <- get data i ;; if eq x then ret true else contains_loop eq fuel' (i + 1) data
       end.

(** static_array.h:92-103 *)
Fixpoint sorted_loop (fuel i : nat) (span : list T) : outcome bool :=
  if i =? length span - 1 then ret true
  else match fuel with
       | 0 => OOF
       | S fuel' =>
           y <- get span (i + 1) ;; x <- get span i ;;
           if leb O y x then ret false else sorted_loop fuel' (i + 1) span
       end.
Definition sorted_code (fuel : nat) (span : list T) : outcome bool :=
  if length span =? 0 then ret true else sorted_loop fuel 0 span.

(** static_array.h:105-131.  [sort] is [std::ranges::sort] and [uniq] [std::ranges::unique]
    with what is left in the array and the new size; :127 [copy_n] is the loop. *)
Definition sort_and_unique_code (sort : list T -> list T) (uniq : list T -> list T * nat) (fuel : nat) (str : list T) : outcome (list T) :=
  b <- sorted_code fuel str ;;
  if b then ret str
  else
    let '(copy, new_size) := uniq (sort str) in
    for_loop fuel 0 new_size (fun i out => x <- get copy i ;; put out i x) (empty_array new_size).

(** static_array.h:135-142; std::array's [==] compares from the front *)
Fixpoint equal_loop (fuel i : nat) (lhs rhs : list T) : outcome bool :=
  if i =? length lhs then ret true
  else match fuel with
       | 0 => OOF
       | S fuel' => x <- get lhs i ;; y <- get rhs i ;; if eqb O x y then equal_loop fuel' (i + 1) lhs rhs else ret false
       end.
Definition equal_code (fuel : nat) (lhs rhs : list T) : outcome bool :=
  if length lhs =? length rhs then equal_loop fuel 0 lhs rhs else ret false.

(** static_array.h:144-153 *)
Definition plus_code (fuel : nat) (lhs rhs : list T) : outcome (list T) :=
  let M := length lhs in
  let N := length rhs in
  str <- for_loop fuel 0 M (fun i str => x <- get lhs i ;; put str i x) (empty_array (M + N)) ;;
  for_loop fuel 0 N (fun i str => x <- get rhs i ;; put str (i + M) x) str.

(** set_operations.h:43-74: the loop over the two iterators, [out] is [*it++ = u] *)
Fixpoint set_loop {S} (op : set_operation_type) (out : S -> T -> outcome S) (fuel l r : nat) (lhs rhs : list T) (s : S) : outcome S :=
  if (l =? length lhs) && (r =? length rhs) then ret s
  else match fuel with
       | 0 => OOF
       | S fuel' =>
           let do_if (x : T) (cond : bool) := if cond then out s x else ret s in
           if l =? length lhs then y <- get rhs r ;; s' <- do_if y (keep_right op) ;; set_loop op out fuel' l (r + 1) lhs rhs s'
           else if r =? length rhs then x <- get lhs l ;; s' <- do_if x (keep_left op) ;; set_loop op out fuel' (l + 1) r lhs rhs s'
           else
             x <- get lhs l ;; y <- get rhs r ;;
             if ltb O x y then s' <- do_if x (keep_left op) ;; set_loop op out fuel' (l + 1) r lhs rhs s'
             else if ltb O y x then s' <- do_if y (keep_right op) ;; set_loop op out fuel' l (r + 1) lhs rhs s'
             else s' <- do_if x (keep_both op) ;; set_loop op out fuel' (l + 1) (r + 1) lhs rhs s'
       end.

(** set_operations.h:12-30: assigning counts *)
Definition count (n : nat) (_ : T) : outcome nat := ret (n + 1).
(** an iterator into the array: array and position *)
Definition write (s : list T * nat) (x : T) : outcome (list T * nat) :=
  a <- put (fst s) (snd s) x ;; ret (a, snd s + 1).
(** set_operations.h:77-91 *)
Definition merged_code (op : set_operation_type) (fuel : nat) (str1 str2 : list T) : outcome (list T) :=
  size <- set_loop op count fuel 0 0 str1 str2 0 ;;
  s <- set_loop op write fuel 0 0 str1 str2 (empty_array size, 0) ;;
  ret (fst s).

(** ** What they compute *)

Lemma get_ok (l : list T) x r : get (l ++ x :: r) (length l) = ret x.
Proof. unfold get. now rewrite nth_error_app2, Nat.sub_diag by lia. Qed.

Lemma put_ok (l : list T) y r x : put (l ++ y :: r) (length l) x = ret (l ++ x :: r).
Proof.
  unfold put. rewrite app_length. cbn [length]. destruct (Nat.ltb_spec (length l) (length l + S (length r))); [|lia].
  rewrite firstn_app, firstn_all, Nat.sub_diag, skipn_app. cbn [firstn]. rewrite app_nil_r.
  rewrite skipn_all2 by lia. replace (S (length l) - length l) with 1 by lia. reflexivity.
Qed.

Lemma bind_ret {A B} (a : A) (f : A -> outcome B) : bind (ret a) f = f a.
Proof. unfold bind, ret. destruct (f a); reflexivity. Qed.
Lemma bind_ret' {A B} (a : A) (f : A -> outcome B) : bind (Done a []) f = f a.
Proof. exact (bind_ret a f). Qed.

(** A copying loop: from [src], starting after [done], into [dst] after [pre]. *)
Lemma copy_loop off : forall todo done fuel pre mid post rest, length mid = length todo -> length todo <= fuel -> length pre = length done + off ->
  for_loop fuel (length done) (length done + length todo) (fun i d => x <- get (done ++ todo ++ rest) i ;; put d (i + off) x) (pre ++ mid ++ post)
  = ret (pre ++ todo ++ post).
Proof.
  induction todo as [|x todo IH]; intros done fuel pre mid post rest Hm Hf Hp.
  - destruct mid; [|discriminate]. destruct fuel; cbn [for_loop length]; rewrite Nat.add_0_r, Nat.eqb_refl; reflexivity.
  - destruct mid as [|y mid]; [discriminate|]. cbn [length] in *. destruct fuel as [|fuel]; [lia|]. cbn [for_loop].
    destruct (Nat.eqb_spec (length done) (length done + S (length todo))); [lia|].
    rewrite <- app_comm_cons, get_ok, bind_ret, <- Hp. cbn [app]. rewrite put_ok, bind_ret.
    specialize (IH (done ++ [x]) fuel (pre ++ [x]) mid post rest). rewrite !app_length in IH. cbn [length] in IH.
    rewrite <- !app_assoc in IH. cbn [app] in IH. replace (length done + S (length todo)) with (length done + 1 + length todo) by lia. apply IH; lia.
Qed.

Lemma for_loop_ext {S} (f g : nat -> S -> outcome S) : (forall i s, f i s = g i s) -> forall fuel i to s, for_loop fuel i to f s = for_loop fuel i to g s.
Proof.
  intros H fuel. induction fuel as [|fuel IH]; intros i to s; cbn [for_loop]; destruct (i =? to); auto. rewrite H.
  destruct (g i s); cbn; auto. now rewrite IH.
Qed.

(** The whole of [l ++ rest] up to [l] into a new array. *)
Lemma copy_new l rest fuel : length l <= fuel ->
  for_loop fuel 0 (length l) (fun i d => x <- get (l ++ rest) i ;; put d i x) (empty_array (length l)) = ret l.
Proof.
  intros H. pose proof (copy_loop 0 l [] fuel [] (empty_array (length l)) [] rest) as K. cbn in K. rewrite !app_nil_r in K.
  rewrite <- K by (try apply repeat_length; auto). apply for_loop_ext. intros i s. now rewrite Nat.add_0_r.
Qed.

Lemma from_literal_ok w t fuel : length w <= fuel -> from_literal fuel (w ++ [t]) = ret w.
Proof. intros H. unfold from_literal. rewrite app_length. cbn [length]. rewrite Nat.add_sub. now apply copy_new. Qed.

Lemma plus_ok a b fuel : length a <= fuel -> length b <= fuel -> plus_code fuel a b = ret (a ++ b).
Proof.
  intros Ha Hb. unfold plus_code, empty_array. rewrite repeat_app.
  pose proof (copy_loop 0 a [] fuel [] (repeat zero (length a)) (repeat zero (length b)) []) as K. cbn in K. rewrite !app_nil_r in K.
  rewrite (for_loop_ext _ (fun i d => x <- get a i;; put d (i + 0) x)) by (intros; now rewrite Nat.add_0_r).
  rewrite K, bind_ret; auto; [|now rewrite repeat_length].
  pose proof (copy_loop (length a) b [] fuel a (repeat zero (length b)) [] []) as K'. cbn in K'. rewrite !app_nil_r in K'. apply K'; auto. now rewrite repeat_length.
Qed.

Lemma contains_ok eq : forall l pre fuel, length l <= fuel -> contains_loop eq fuel (length pre) (pre ++ l) = ret (existsb eq l).
Proof.
  induction l as [|x l IH]; intros pre fuel Hf.
  - rewrite app_nil_r. destruct fuel; cbn [contains_loop]; now rewrite Nat.eqb_refl.
  - cbn [length] in Hf. destruct fuel as [|fuel]; [lia|]. cbn [contains_loop]. rewrite app_length. cbn [length].
    destruct (Nat.eqb_spec (length pre) (length pre + S (length l))); [lia|]. rewrite get_ok, bind_ret. cbn [existsb].
    destruct (eq x); [reflexivity|]. specialize (IH (pre ++ [x]) fuel). rewrite app_length, <- app_assoc in IH. cbn in IH. apply IH. lia.
Qed.

Lemma sorted_ok l fuel : length l <= fuel -> sorted_code fuel l = ret (is_sorted_and_uniqued O l).
Proof.
  intros Hf. unfold sorted_code. destruct l as [|x l]; [reflexivity|]. cbn [length Nat.eqb].
  enough (K : forall l x pre fuel, length l <= fuel -> sorted_loop fuel (length pre) (pre ++ x :: l) = ret (is_sorted_and_uniqued O (x :: l))).
  { apply (K l x [] fuel). cbn [length] in Hf. lia. }
  clear. induction l as [|y l IH]; intros x pre fuel Hf.
  - destruct fuel; cbn [sorted_loop]; rewrite app_length; cbn [length]; rewrite Nat.add_sub, Nat.eqb_refl; reflexivity.
  - cbn [length] in Hf. destruct fuel as [|fuel]; [lia|]. cbn [sorted_loop]. rewrite app_length. cbn [length].
    destruct (Nat.eqb_spec (length pre) (length pre + S (S (length l)) - 1)); [lia|].
    specialize (IH y (pre ++ [x]) fuel). rewrite app_length, <- app_assoc in IH. cbn [length app] in IH.
    assert (E : get (pre ++ x :: y :: l) (length pre + 1) = ret y).
    { unfold get. rewrite nth_error_app2 by lia. now replace (length pre + 1 - length pre) with 1 by lia. }
    rewrite E, bind_ret, get_ok, bind_ret. cbn [is_sorted_and_uniqued]. destruct (leb O y x); [reflexivity|]. apply IH. lia.
Qed.

(** What [std::ranges::unique] guarantees: the array keeps its size, and starts with the
    elements without those equal to their predecessor. *)
Definition uniques (uniq : list T -> list T * nat) : Prop := forall l,
  exists rest, uniq l = (unique O l ++ rest, length (unique O l)).

Lemma unique_length l : length (unique O l) <= length l.
Proof.
  assert (K : forall l a, length (unique_from O a l) <= S (length l)).
  { clear. induction l as [|b l IH]; intros a; cbn; [lia|]. destruct (eqb O a b); [specialize (IH a); lia|]. cbn. specialize (IH b). lia. }
  destruct l; cbn; [lia|apply K].
Qed.

Lemma sort_and_unique_ok sort uniq l fuel : sorts O sort -> uniques uniq -> length l <= fuel ->
  sort_and_unique_code sort uniq fuel l = ret (sort_and_unique O sort l).
Proof.
  intros Hs Hu Hf. unfold sort_and_unique_code, sort_and_unique. rewrite sorted_ok, bind_ret by auto.
  destruct (is_sorted_and_uniqued O l); [reflexivity|]. destruct (Hu (sort l)) as [rest ->]. apply copy_new.
  pose proof (unique_length (sort l)) as K. rewrite <- (Permutation.Permutation_length (proj1 (Hs l))) in K. lia.
Qed.

Lemma equal_ok a b fuel : length a <= fuel -> (forall x y, eqb O x y = true <-> x = y) ->
  equal_code fuel a b = ret true /\ a = b \/ equal_code fuel a b = ret false /\ a <> b.
Proof.
  intros Hf He. unfold equal_code. destruct (Nat.eqb_spec (length a) (length b)) as [E|E]; [|right; split; [reflexivity|congruence]].
  enough (K : forall a b pre fuel, length a = length b -> length a <= fuel ->
    equal_loop fuel (length pre) (pre ++ a) (pre ++ b) = ret true /\ a = b \/ equal_loop fuel (length pre) (pre ++ a) (pre ++ b) = ret false /\ a <> b).
  { exact (K a b [] fuel E Hf). }
  clear -He. induction a as [|x a IH]; intros [|y b] pre fuel E Hf; try discriminate.
  - left. rewrite app_nil_r. destruct fuel; cbn [equal_loop]; rewrite Nat.eqb_refl; auto.
  - cbn [length] in *. destruct fuel as [|fuel]; [lia|]. cbn [equal_loop]. rewrite app_length. cbn [length].
    destruct (Nat.eqb_spec (length pre) (length pre + S (length a))); [lia|]. rewrite !get_ok, !bind_ret.
    destruct (eqb O x y) eqn:Exy.
    + apply He in Exy as <-. specialize (IH b (pre ++ [x]) fuel ltac:(lia) ltac:(lia)). rewrite app_length, <- !app_assoc in IH. cbn [app length] in IH.
      destruct IH as [[-> ->]|[-> H]]; [left; auto|right]. split; auto. congruence.
    + right. split; auto. intros H. injection H as -> ->. rewrite (proj2 (He y y) eq_refl) in Exy. discriminate.
Qed.

(** The loop hands exactly the elements of the list function to the output iterator. *)
Fixpoint feed {S} (out : S -> T -> outcome S) (s : S) (l : list T) : outcome S :=
  match l with [] => ret s | x :: l' => s' <- out s x ;; feed out s' l' end.

Lemma set_loop_ok {S} op (out : S -> T -> outcome S) : forall fuel lhs rhs pl pr s, length lhs + length rhs <= fuel ->
  set_loop op out fuel (length pl) (length pr) (pl ++ lhs) (pr ++ rhs) s = feed out s (set_operation O op lhs rhs).
Proof.
  assert (Eb : forall (p q : list T), (length p =? length (p ++ q)) = match q with [] => true | _ => false end).
  { intros p q. rewrite app_length. destruct q; cbn [length]; [rewrite Nat.add_0_r; apply Nat.eqb_refl|apply Nat.eqb_neq; lia]. }
  assert (Ef : forall x c l s, feed out s (do_if x c l) = (s' <- (if c then out s x else ret s) ;; feed out s' l)).
  { intros x c l s. unfold do_if. destruct c; [reflexivity|now rewrite bind_ret]. }
  assert (Eq : forall A B (x : outcome A) (f g : A -> outcome B), (forall a, f a = g a) -> bind x f = bind x g).
  { intros A B x f g H. destruct x; cbn; auto. now rewrite H. }
  induction fuel as [|fuel IH]; intros lhs rhs pl pr s Hf.
  - destruct lhs; [|cbn in Hf; lia]. destruct rhs; [|cbn in Hf; lia]. cbn [set_loop]. now rewrite !Eb.
  - assert (Sl : forall x lhs rhs s', length lhs + length rhs <= fuel ->
       set_loop op out fuel (length pl + 1) (length pr) (pl ++ x :: lhs) (pr ++ rhs) s' = feed out s' (set_operation O op lhs rhs)).
    { intros x l r s' Hl. specialize (IH l r (pl ++ [x]) pr s' Hl). now rewrite app_length, <- app_assoc in IH. }
    assert (Sr : forall y lhs rhs s', length lhs + length rhs <= fuel ->
       set_loop op out fuel (length pl) (length pr + 1) (pl ++ lhs) (pr ++ y :: rhs) s' = feed out s' (set_operation O op lhs rhs)).
    { intros y l r s' Hl. specialize (IH l r pl (pr ++ [y]) s' Hl). now rewrite app_length, <- app_assoc in IH. }
    assert (Sb : forall x y lhs rhs s', length lhs + length rhs <= fuel ->
       set_loop op out fuel (length pl + 1) (length pr + 1) (pl ++ x :: lhs) (pr ++ y :: rhs) s' = feed out s' (set_operation O op lhs rhs)).
    { intros x y l r s' Hl. specialize (IH l r (pl ++ [x]) (pr ++ [y]) s' Hl). now rewrite !app_length, <- !app_assoc in IH. }
    cbn [set_loop]. rewrite !Eb. destruct lhs as [|x lhs], rhs as [|y rhs]; cbn [andb length] in *.
    + reflexivity.
    + rewrite get_ok, bind_ret. change (set_operation O op [] (y :: rhs)) with (do_if y (keep_right op) (set_operation O op [] rhs)).
      rewrite Ef. apply Eq. intros s'. apply Sr. cbn. lia.
    + rewrite get_ok, bind_ret, set_operation_cons_nil, Ef. apply Eq. intros s'. apply Sl. cbn. lia.
    + rewrite !get_ok, !bind_ret, set_operation_cons. destruct (ltb O x y); [|destruct (ltb O y x)]; rewrite Ef; apply Eq; intros s'.
      * apply Sl. cbn. lia.
      * apply Sr. cbn. lia.
      * apply Sb. lia.
Qed.

Lemma feed_count l : forall n, feed count n l = ret (n + length l).
Proof. induction l as [|x l IH]; intros n; cbn [feed length]; [now rewrite Nat.add_0_r|]. unfold count. rewrite bind_ret, IH. f_equal. lia. Qed.

Lemma feed_write l : forall pre mid, length mid = length l -> feed write (pre ++ mid, length pre) l = ret (pre ++ l, length pre + length l).
Proof.
  induction l as [|x l IH]; intros pre mid Hm; cbn [feed length] in *.
  - destruct mid; [|discriminate]. now rewrite Nat.add_0_r.
  - destruct mid as [|y mid]; [discriminate|]. unfold write at 1. cbn [fst snd]. rewrite put_ok, !bind_ret.
    specialize (IH (pre ++ [x]) mid). rewrite app_length, <- !app_assoc in IH. cbn [app length] in IH. rewrite IH by (cbn in Hm; lia).
    f_equal. f_equal. lia.
Qed.

Lemma merged_ok op a b fuel : length a + length b <= fuel -> merged_code op fuel a b = ret (set_operation O op a b).
Proof.
  intros Hf. unfold merged_code.
  pose proof (set_loop_ok op count fuel a b [] [] 0 Hf) as H1. cbn [length app] in H1. rewrite H1, feed_count, bind_ret. cbn [Nat.add].
  set (e := empty_array _). pose proof (set_loop_ok op write fuel a b [] [] (e, 0) Hf) as H2. cbn [length app] in H2. rewrite H2.
  pose proof (feed_write (set_operation O op a b) [] e (repeat_length _ _)) as H3. cbn [length app] in H3. rewrite H3, bind_ret. reflexivity.
Qed.
End Code.
