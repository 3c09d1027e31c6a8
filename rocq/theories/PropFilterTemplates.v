(** * Property C60: the templates of filter.h compute what the model uses *)
From Coq Require Import List Arith NArith Bool Lia.
From Verif Require Import Types Compound FilterTemplates.
Import ListNotations.

(** Specification: fewer types than [size_t] has values *)
Definition countable (ts : list ty) : Prop := (N.of_nat (List.length ts) < size_max)%N.

Lemma read_small k : (N.of_nat k < size_max)%N -> read_index (N.of_nat k) = Some k.
Proof.
  unfold read_index, minus_one. intros H. destruct (N.eqb_spec (N.of_nat k) size_max); [lia|].
  now rewrite Nat2N.id.
Qed.
Lemma read_minus_one : read_index minus_one = None.
Proof. reflexivity. Qed.
Lemma next_small k : (N.of_nat k < size_max)%N -> next_of (N.of_nat k) = N.of_nat (S k).
Proof. unfold next_of, size_max. intros H. rewrite N.mod_small; lia. Qed.

Lemma plain : forall ts done is next, ts <> [] -> (N.of_nat (next + List.length ts) < size_max)%N ->
  exists m, filter_with_index_t is_not_void done is (N.of_nat next) ts = Some m /\
    (m_type m, map read_index (m_sequence m)) = filter_with_index done (map read_index is) next ts /\
    m_depth m = List.length ts.
Proof.
  induction ts as [|h tl IH]; intros done is next Hne Hb; [congruence|]. cbn [filter_with_index_t filter_with_index List.length] in *.
  unfold is_not_void at 1 2 3. destruct tl as [|h2 tl].
  - eexists. split; [reflexivity|]. cbn [m_type m_sequence m_depth]. split; [|reflexivity].
    destruct (is_void h); cbn; rewrite map_app; cbn; [reflexivity|]. rewrite read_small by lia. reflexivity.
  - destruct (is_void h) eqn:V; cbn [negb].
    + destruct (IH done (is ++ [minus_one]) next) as (m & -> & Hm & Hd); [discriminate | cbn in *; lia |].
      eexists. split; [reflexivity|]. cbn [m_type m_sequence m_depth]. rewrite map_app in Hm. split; [exact Hm | cbn in *; lia].
    + rewrite next_small by lia.
      destruct (IH (done ++ [h]) (is ++ [N.of_nat next]) (S next)) as (m & -> & Hm & Hd); [discriminate | cbn in *; lia |].
      eexists. split; [reflexivity|]. cbn [m_type m_sequence m_depth]. rewrite map_app in Hm. cbn [map] in Hm.
      rewrite read_small in Hm by lia. split; [exact Hm | cbn in *; lia].
Qed.

(** The lookup never runs out of indices. *)
Lemma lookup : forall done is t, done <> [] -> List.length done <= List.length is ->
  exists n, index_lookup_t done is t = Some n /\ read_index n = index_lookup done (map read_index is) t.
Proof.
  induction done as [|h tl IH]; intros is t Hne Hl; [congruence|]. destruct is as [|i is]; [cbn in Hl; lia|].
  cbn [index_lookup_t index_lookup map]. destruct (ty_eqb t h); [eauto|].
  destruct tl as [|h2 tl]; [exists 0%N; split; reflexivity|]. cbn [List.length Nat.eqb].
  apply IH; [discriminate | cbn in *; lia].
Qed.

Lemma dedup : forall ts done is next, ts <> [] -> (N.of_nat (next + List.length ts) < size_max)%N ->
  List.length done <= List.length is ->
  exists m, filter_deduplicate_t is_not_void done is (N.of_nat next) ts = Some m /\
    (m_type m, map read_index (m_sequence m)) = filter_deduplicate_with_index done (map read_index is) next ts /\
    m_depth m = List.length ts.
Proof.
  induction ts as [|h tl IH]; intros done is next Hne Hb Hl; [congruence|].
  cbn [filter_deduplicate_t filter_deduplicate_with_index List.length] in *.
  assert (HI : exists n, next_index_t is_not_void done is (N.of_nat next) h = Some n /\
                         read_index n = next_index done (map read_index is) next h).
  { unfold next_index_t, next_index, is_not_void, occurs. destruct (is_void h); cbn [negb].
    - eexists. split; reflexivity.
    - destruct (existsb (fun d => ty_eqb d h) done) eqn:X.
      + apply lookup; [|exact Hl]. intros ->. discriminate.
      + eexists. split; [reflexivity|]. apply read_small. lia. }
  destruct HI as (n & -> & Hn). change (is_not_void h) with (negb (is_void h)). fold (occurs done h). rewrite <- Hn.
  change [read_index n] with (map read_index [n]). rewrite <- map_app.
  destruct (negb (is_void h) && negb (occurs done h)) eqn:A.
  - destruct tl as [|h2 tl].
    + eexists. split; [reflexivity|]. cbn. auto.
    + rewrite next_small by lia.
      destruct (IH (done ++ [h]) (is ++ [n]) (S next)) as (m & -> & Hm & Hd);
        [discriminate | cbn in *; lia | rewrite !app_length; cbn; lia |].
      eexists. split; [reflexivity|]. cbn [m_type m_sequence m_depth]. split; [exact Hm | cbn in *; lia].
  - destruct tl as [|h2 tl].
    + eexists. split; [reflexivity|]. cbn. auto.
    + destruct (IH done (is ++ [n]) next) as (m & -> & Hm & Hd);
        [discriminate | cbn in *; lia | rewrite !app_length; cbn; lia |].
      eexists. split; [reflexivity|]. cbn [m_type m_sequence m_depth]. split; [exact Hm | cbn in *; lia].
Qed.

(** For every non-empty list of types the instantiations exist, their members are what
    Compound.v computes once -1 is read as "no index", and they nest as deep as the list is
    long. *)
Theorem C60_sequence ts : ts <> [] -> countable ts ->
  exists m, filter_out_void_t ts = Some m /\
    m_type m = fst (filter_out_void ts) /\ map read_index (m_sequence m) = snd (filter_out_void ts) /\
    m_depth m = List.length ts.
Proof.
  intros Hne Hc. destruct (plain ts [] [] 0 Hne Hc) as (m & H & Hm & Hd). exists m.
  cbn [map] in Hm. fold (filter_out_void ts) in Hm. rewrite <- Hm. auto.
Qed.

Theorem C60_choice ts : ts <> [] -> countable ts ->
  exists m, filter_out_void_deduplicate_t ts = Some m /\
    m_type m = fst (filter_out_void_deduplicate ts) /\
    map read_index (m_sequence m) = snd (filter_out_void_deduplicate ts) /\
    m_depth m = List.length ts.
Proof.
  intros Hne Hc. destruct (dedup ts [] [] 0 Hne Hc (le_n _)) as (m & H & Hm & Hd). exists m.
  cbn [map] in Hm. fold (filter_out_void_deduplicate ts) in Hm. rewrite <- Hm. auto.
Qed.

(** Without any type there is no instantiation. *)
Theorem C60_empty : filter_out_void_t [] = None /\ filter_out_void_deduplicate_t [] = None.
Proof. split; reflexivity. Qed.

Lemma countable_small ts : List.length ts < 1000 -> countable ts.
Proof. unfold countable, size_max. intros H. lia. Qed.

(** A list with void and repeated types.  In the last one the lookup finds -1, the index of a
    void part (the defect of index_lookup): the part would be skipped. *)
Example C60_case :
  let ts := [TSpan; TVoid; TOpt TSpan; TSpan; TVec TSpan] in
  countable ts /\
  filter_out_void_t ts = Some (Members [TSpan; TOpt TSpan; TSpan; TVec TSpan] [0; minus_one; 1; 2; 3]%N 5) /\
  filter_out_void_deduplicate_t ts = Some (Members [TSpan; TOpt TSpan; TVec TSpan] [0; minus_one; 1; 0; 2]%N 5) /\
  filter_out_void_deduplicate_t [TVoid; TSpan; TSpan] = Some (Members [TSpan] [minus_one; 0; minus_one]%N 3).
Proof. split; [apply countable_small; cbn; lia|]. repeat split; vm_compute; reflexivity. Qed.

Print Assumptions C60_sequence.
Print Assumptions C60_choice.
Print Assumptions C60_empty.
