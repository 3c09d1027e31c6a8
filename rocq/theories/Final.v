(** * A test for parsers whose successes never look at the end of the input

    With first sets and what follows: computable, sufficient conditions for runs that do not
    look at the end (Extend.v).  None of this is code of the library. *)
From Coq Require Import String List Arith ZArith Bool Lia.
From Verif Require Import Types Compound Parser Outcome CompoundFacts Exec Mono Derive Typing Join Leaves Sound
  BigStep BigSound BigComplete Runs Extend Peg Throws Term Lang LL1 Elems Lossless Agree PropTerm.
Import ListNotations.

Section Final.
Context {T V : Type} (E : env T V).
Variable teq sep : T -> T -> bool.
Hypothesis teq_ok : forall t t', teq t t' = true -> t = t'.
Hypothesis sep_ok : forall t t' c, sep t t' = true -> eqv E t c = true -> eqv E t' c = false.
Notation cls := (bool * list T)%type.
Notation meet := (disjoint teq sep).

(** ** What is known about the input: nothing, or that it begins with any number of elements
    of some classes and then one of others *)
Notation pre_ := (list cls * list cls)%type.
Definition ctx : Type := option pre_.
Definition at_ (i : span) (l : nat) (P : V -> Prop) : Prop :=
  exists c, nth_error (mem E (sp_blk i)) (sp_off i + l) = Some c /\ P c.
Definition holds (k : ctx) (i : span) : Prop :=
  match k with
  | None => True
  | Some (A, B) => exists j, j < sp_len i /\ (forall l, l < j -> at_ i l (fun c => fits_some E A c = true)) /\
                             at_ i j (fun c => fits_some E B c = true)
  end.
Definition begins_ (B : list cls) : ctx := Some ([], B).
Definition either (k k' : ctx) : ctx :=
  match k, k' with Some (A, B), Some (A', B') => Some (A ++ A', B ++ B') | _, _ => None end.
Definition skip (c : cls) (k : ctx) : ctx := match k with Some (A, B) => Some (c :: A, B) | None => None end.
Definition within (k k' : ctx) : bool :=
  match k' with
  | None => true
  | Some (A', B') => match k with Some (A, B) => covers teq sep A' A && covers teq sep B' B | None => false end
  end.

(** Parsers that take one element. *)
Fixpoint one_of (p : parser T) : option cls :=
  match p with
  | PAnyOf arr => Some (false, arr)
  | PNoneOf arr => Some (true, arr)
  | PAnything => Some (true, [])
  | PIgnore q | PNamed q _ => one_of q
  | _ => None
  end.

(** ** How inputs begin on which [p] succeeds, if the rest begins as [k] says *)
Section Firsts.
Variable cu : nat -> ctx -> ctx.
Fixpoint firsts_ (p : parser T) (k : ctx) {struct p} : ctx :=
  match p with
  | PAnyOf arr => begins_ [(false, arr)]
  | PNoneOf arr => begins_ [(true, arr)]
  | PAllOf arr => match arr with [] => k | t :: _ => begins_ [(false, [t])] end
  | PAnything => begins_ [(true, [])]
  | PEpsilon => k
  | PChoice q qs => fold_right (fun r a => either (firsts_ r k) a) (firsts_ q k) qs
  | PSequence q qs => firsts_ q (fold_right firsts_ k qs)
  | PMaybe q => either (firsts_ q k) k
  | PZeroOrMore q => match one_of q with Some c => skip c k | None => either (firsts_ q None) k end
  | PExactly q n => Nat.iter n (firsts_ q) k
  | POneOrMore q | PDelimit q _ | PComplete q => firsts_ q None
  | PIgnore q | PJoin q | PMap q _ | PFilter q _ | PNamed q _ => firsts_ q k
  | PCustom c => cu c k
  end.
End Firsts.
Definition whole (c : nat) : bool := match cust_conv E c with ConvWhole _ => true | _ => false end.
Fixpoint cust_firsts (n : nat) (c : nat) (k : ctx) : ctx :=
  match n with
  | 0 => None
  | S n' => let f := firsts_ (cust_firsts n') (cust_body E c) k in if whole c then either f k else f
  end.
Notation firsts n := (firsts_ (cust_firsts n)).

(** ** Parsers on an input that begins with elements of [A] and then one of [B]: [Some true]
    if they fail, [Some false] if they fail or take elements of [A] only, in both cases without
    looking at the end *)
Section Quiet.
Variable K : pre_.
Variable cu : nat -> option bool.
Fixpoint quiet_ (p : parser T) : option bool :=
  match p with
  | PAnyOf arr => if meet (snd K) [(false, arr)] then Some (meet (fst K) [(false, arr)]) else None
  | PNoneOf arr => if meet (snd K) [(true, arr)] then Some (meet (fst K) [(true, arr)]) else None
  | PAllOf arr =>
      match arr with
      | [] => Some false
      | t :: _ => if meet (snd K) [(false, [t])] && meet (fst K) [(false, [t])] then Some true
                  else if forallb (fun t => meet (snd K) [(false, [t])]) arr then Some false else None
      end
  | PAnything => None
  | PEpsilon => Some false
  | PChoice q qs =>
      fold_right (fun r a => match quiet_ r, a with Some x, Some y => Some (x && y) | _, _ => None end) (quiet_ q) qs
  | PSequence q qs =>
      match quiet_ q with
      | Some false => fold_right (fun r a => match quiet_ r with Some false => a | x => x end) (Some false) qs
      | x => x
      end
  | PMaybe q => match quiet_ q with Some _ => Some false | None => None end
  | PZeroOrMore q => match quiet_ q with Some _ => Some false | None => None end
  | POneOrMore q => quiet_ q
  | PDelimit q d => match quiet_ q with
      | Some false => match quiet_ d with Some _ => Some false | None => None end
      | x => x
      end
  | PComplete q => match quiet_ q with Some true => Some true | _ => None end
  | PExactly q n => match n with 0 => None | _ => quiet_ q end
  | PIgnore q | PJoin q | PMap q _ | PFilter q _ | PNamed q _ => quiet_ q
  | PCustom c => cu c
  end.
End Quiet.
Fixpoint cust_quiet (n : nat) (K : pre_) (c : nat) : option bool :=
  match n with
  | 0 => None
  | S n' => match quiet_ K (cust_quiet n' K) (cust_body E c) with
            | Some b => Some (b && negb (whole c))
            | None => None
            end
  end.
Notation quiet n K := (quiet_ K (cust_quiet n K)).

(** ** Parsers that look at the end of empty inputs at most *)
Fixpoint quick (p : parser T) : bool :=
  match p with
  | PAnyOf _ | PNoneOf _ | PAnything | PEpsilon => true
  | PAllOf arr => List.length arr <=? 1
  | PChoice q qs => quick q && forallb quick qs
  | PMaybe q | PIgnore q | PJoin q | PMap q _ | PFilter q _ | PNamed q _ => quick q
  | _ => false
  end.

(** ** The test.  [tab c]: what is known to follow the custom parser [c], if it is tested *)
Variable n : nat.
Variable tab : nat -> option ctx.

Definition harmless (e : parser T) (k : ctx) : bool :=
  match k with
  | None => false
  | Some K => quick e || match quiet n K e with Some _ => true | None => false end
  end.

Fixpoint final (p : parser T) (k : ctx) {struct p} : bool :=
  match p with
  | PAnyOf _ | PNoneOf _ | PAllOf _ | PAnything | PEpsilon => true
  | PChoice q qs => final q k && forallb (fun r => harmless q (firsts n r k)) qs &&
      (fix go l := match l with
         | [] => true
         | e :: l' => final e k && forallb (fun r => harmless e (firsts n r k)) l' && go l'
         end) qs
  | PSequence q qs => final q (fold_right (firsts n) k qs) &&
      (fix go l := match l with [] => true | r :: l' => final r (fold_right (firsts n) k l') && go l' end) qs
  | PMaybe q => final q k && harmless q k
  | PZeroOrMore q | POneOrMore q => final q (either (firsts n q None) k) && harmless q k
  | PExactly q m => forallb (fun j => final q (Nat.iter j (firsts n q) k)) (seq 0 m)
  | PDelimit q d =>
      match k with
      | None => false
      | Some K => match quiet n K d with Some true => true | _ => false end &&
          final q (either (firsts n d None) k) && final d (firsts n q None)
      end
  | PComplete _ => false
  | PIgnore q | PJoin q | PMap q _ | PFilter q _ | PNamed q _ => final q k
  | PCustom c => match tab c with Some k' => within k k' | None => false end
  end.
Definition final_custom (c : nat) : bool :=
  match tab c with
  | Some k => final (cust_body E c) k && (negb (whole c) || harmless (cust_body E c) k)
  | None => true
  end.

(** ** Facts *)
Lemma at_weaken i l (P Q : V -> Prop) : (forall c, P c -> Q c) -> at_ i l P -> at_ i l Q.
Proof. intros H (c & Hc & HP). exists c. auto. Qed.
Lemma holds_either k k' i : holds k i \/ holds k' i -> holds (either k k') i.
Proof.
  destruct k as [[A B]|], k' as [[A' B']|]; cbn; auto.
  intros [(j & Hj & HA & HB)|(j & Hj & HA & HB)]; (exists j; split; [auto|split]);
    [intros l Hl; eapply at_weaken; [|exact (HA l Hl)]|eapply at_weaken; [|exact HB]
    |intros l Hl; eapply at_weaken; [|exact (HA l Hl)]|eapply at_weaken; [|exact HB]];
    intros c Hf; rewrite fits_app, Hf; auto using orb_true_r.
Qed.
Lemma holds_within k k' i : within k k' = true -> holds k i -> holds k' i.
Proof.
  destruct k' as [[A' B']|]; cbn; auto. destruct k as [[A B]|]; [|discriminate]. cbn. intros Hc (j & Hj & HA & HB).
  apply andb_true_iff in Hc as [Hc Hc']. exists j. split; [auto|split].
  - intros l Hl. eapply at_weaken; [|exact (HA l Hl)]. intros c Hf. eapply covers_ok; eauto.
  - eapply at_weaken; [|exact HB]. intros c Hf. eapply covers_ok; eauto.
Qed.
Lemma holds_head B i : head_is E i (fun c => fits_some E B c = true) -> holds (begins_ B) i.
Proof.
  intros [Hl (c & Hc & Hf)]. exists 0. split; [exact Hl|split; [intros l Hl'; lia|]]. exists c. rewrite Nat.add_0_r. auto.
Qed.
Lemma holds_len K i : holds (Some K) i -> sp_len i <> 0.
Proof. destruct K. intros (j & Hj & _). lia. Qed.
Lemma meet_no K k c : meet K [k] = true -> fits_some E K c = true -> fits E k c = true -> False.
Proof.
  intros Hm Hf Hf'. eapply (disjoint_ok E teq sep teq_ok sep_ok K [k]); eauto. unfold fits_some. cbn. now rewrite Hf'.
Qed.
(** A first element of a class that neither the elements before nor the one after them are of. *)
Lemma holds_meet A B k i : holds (Some (A, B)) i -> meet B [k] = true -> meet A [k] = true -> ~ at_ i 0 (fun c => fits E k c = true).
Proof.
  intros (j & Hj & HA & (c & Hc & HB)) Hm Hm' (c' & Hc' & Hf). destruct j as [|j].
  - rewrite Hc in Hc'. injection Hc' as <-. exact (meet_no _ _ _ Hm HB Hf).
  - destruct (HA 0 ltac:(lia)) as (c0 & Hc0 & HA0). rewrite Hc0 in Hc'. injection Hc' as <-. exact (meet_no _ _ _ Hm' HA0 Hf).
Qed.
(** The elements before [B] may be taken. *)
Lemma holds_adv A B m i : holds (Some (A, B)) i -> (forall l, l < m -> at_ i l (fun c => fits_some E B c <> true)) -> m <= sp_len i ->
  holds (Some (A, B)) (adv i m).
Proof.
  intros (j & Hj & HA & HB) Hm Hl. assert (m <= j).
  { destruct (le_lt_dec m j) as [|Hlt]; auto. destruct (Hm j Hlt) as (c & Hc & Hn). destruct HB as (c' & Hc' & Hf). congruence. }
  exists (j - m). cbn [adv sp_len sp_off sp_blk]. split; [lia|]. unfold at_ in *. cbn [adv sp_blk sp_off]. split.
  - intros l Hl'. replace (sp_off i + m + l) with (sp_off i + (m + l)) by lia. apply HA. lia.
  - now replace (sp_off i + m + (j - m)) with (sp_off i + j) by lia.
Qed.
Lemma holds_skip c k i : valid E i -> head_is E i (fun x => fits E c x = true) -> holds (skip c k) (adv i 1) -> holds (skip c k) i.
Proof.
  intros Hv [Hl (x & Hx & Hf)] Hk. destruct k as [[A B]|]; [|exact Logic.I]. destruct Hk as (j & Hj & HA & HB). unfold at_ in *.
  cbn [adv sp_len sp_off sp_blk] in *. exists (S j). split; [lia|]. split.
  - intros [|l] Hl'; unfold at_.
    + exists x. rewrite Nat.add_0_r. split; auto. unfold fits_some. cbn [existsb]. now rewrite Hf.
    + destruct (HA l ltac:(lia)) as (y & Hy & Hfy). exists y. replace (sp_off i + S l) with (sp_off i + 1 + l) by lia. auto.
  - unfold at_. replace (sp_off i + S j) with (sp_off i + 1 + j) by lia. exact HB.
Qed.
Lemma holds_skip_0 c k i : holds k i -> holds (skip c k) i.
Proof.
  destruct k as [[A B]|]; cbn; auto. intros (j & Hj & HA & HB). exists j. split; [auto|split; auto].
  intros l Hl. eapply at_weaken; [|exact (HA l Hl)]. intros x Hf. unfold fits_some in *. cbn [existsb]. now rewrite Hf, orb_true_r.
Qed.
Lemma matches_in b : forall arr lo l, matches_at E b arr lo -> l < List.length arr ->
  exists t c, In t arr /\ nth_error (mem E b) (lo + l) = Some c /\ eqv E t c = true.
Proof.
  induction arr as [|t arr IH]; intros lo l H Hl; cbn in Hl; [lia|]. destruct H as [(c & Hc & He) H]. destruct l as [|l].
  - exists t, c. rewrite Nat.add_0_r. split; [now left|auto].
  - destruct (IH (S lo) l H ltac:(lia)) as (t' & c' & Ht & Hc' & He'). exists t', c'. replace (lo + S l) with (S lo + l) by lia.
    split; [now right|auto].
Qed.
Lemma in_set_fits arr c : in_set E arr c <-> fits E (false, arr) c = true.
Proof. now rewrite fits_pos. Qed.
Lemma not_in_set_fits arr c : ~ in_set E arr c <-> fits E (true, arr) c = true.
Proof.
  rewrite fits_neg. unfold in_set. split.
  - intros H t Ht. destruct (eqv E t c) eqn:He; auto. exfalso. eauto.
  - intros H (t & Ht & He). rewrite (H t Ht) in He. discriminate.
Qed.
Lemma head_impl i (P Q : V -> Prop) : (forall c, P c -> Q c) -> head_is E i P -> head_is E i Q.
Proof. intros H [Hl (c & Hc & HP)]. split; auto. eauto. Qed.
Lemma prefix_head i t arr : prefix_is E i (t :: arr) -> head_is E i (fun c => fits E (false, [t]) c = true).
Proof.
  intros [Hl [(c & Hc & He) _]]. split; [cbn in Hl; lia|].
  exists c. split; auto. apply in_set_fits. exists t. split; [now left|auto].
Qed.

(** ** What looking at the end means for each parser *)
Definition sees_parts (m : mode) (p : parser T) (i : span) : Prop :=
  match p with
  | PAnyOf _ | PNoneOf _ | PAnything => sp_len i = 0
  | PAllOf arr => sp_len i < List.length arr /\ matches_at E (sp_blk i) (firstn (sp_len i) arr) (sp_off i)
  | PEpsilon => False
  | PChoice q qs => match m with
      | Parse => exists tys, result_fors E (q :: qs) = Some tys /\ sees_first E (alts tys (q :: qs)) i
      | Look => sees_first E (map (pair Look) (q :: qs)) i end
  | PSequence q qs => match m with
      | Parse => exists tys, result_fors E (q :: qs) = Some tys /\ sees_chain E (parts tys (q :: qs)) i
      | Look => sees_chain E (map (pair Look) (q :: qs)) i end
  | PMaybe q | PJoin q | PMap q _ | PFilter q _ | PNamed q _ => sees_end E m q i
  | PExactly q n => sees_chain E (repeat (m, q) n) i
  | POneOrMore q | PZeroOrMore q => sees_iter E m q i
  | PDelimit q d => sees_end E m q i \/ exists v mid tr, gives E m q i v mid tr /\ sees_tail E m q d mid
  | PIgnore q => sees_end E Look q i
  | PComplete q => sees_end E m q i \/ exists v mid tr, gives E m q i v mid tr
  | PCustom c => sees_end E m (cust_body E c) i
  end.

Lemma sees_end_parts m p i : sees_end E m p i -> sees_parts m p i.
Proof.
  intros Hs. inversion Hs as [| | | |? ? ? ? ? ? Hg|? ? ? ? ? ? Ha Hq]; subst; cbn; auto; [right; eauto|].
  inversion Ha; subst; cbn; auto.
  - eexists. split; [eassumption|]. repeat eexists; eauto.
  - match goal with H : map _ _ = _ |- _ => cbn in H; rewrite H end. repeat eexists; eauto.
  - eexists. split; [eassumption|]. repeat eexists; eauto.
  - match goal with H : map _ _ = _ |- _ => cbn in H; rewrite H end. repeat eexists; eauto.
  - match goal with H : k < ?N |- _ => replace N with (k + S (N - S k)) by lia end. rewrite repeat_app. cbn [repeat].
    repeat eexists; eauto.
  - repeat eexists; eauto.
  - repeat eexists; eauto.
  - right. match goal with H : after _ (_ :: _) _ _ |- _ => inversion H; subst end. do 3 eexists. split; [eassumption|]. left. eauto.
  - right. match goal with H : after _ (_ :: _) _ _ |- _ => inversion H; subst end. do 3 eexists. split; [eassumption|]. right. eauto.
Qed.

Lemma sees_first_cons m q l i : sees_first E ((m, q) :: l) i -> sees_end E m q i \/ fails E i (m, q) /\ sees_first E l i.
Proof.
  intros ([|[m0 q0] pre] & m1 & q1 & post & Hl & Hf & Hs); cbn in Hl; injection Hl as <- <- Hl; auto. right.
  inversion Hf; subst. split; auto. exists pre, m1, q1, post. auto.
Qed.
Lemma sees_chain_cons m q l i : sees_chain E ((m, q) :: l) i ->
  sees_end E m q i \/ exists v mid tr, gives E m q i v mid tr /\ sees_chain E l mid.
Proof.
  intros ([|[m0 q0] pre] & m1 & q1 & post & j & Hl & Hf & Hs); cbn in Hl; injection Hl as <- <- Hl.
  - inversion Hf; subst. auto.
  - right. inversion Hf; subst. do 3 eexists. split; [eassumption|]. exists pre, m1, q1, post, j. auto.
Qed.
Lemma sees_iter_step m q i : sees_iter E m q i ->
  sees_end E m q i \/ exists v mid tr, gives E m q i v mid tr /\ sees_iter E m q mid.
Proof.
  intros ([|c] & j & Ha & Hs); cbn in Ha; inversion Ha; subst; auto. right. do 3 eexists. split; [eassumption|]. exists c, j. auto.
Qed.
Lemma sees_tail_step m q d i : sees_tail E m q d i -> sees_end E m d i \/
  exists w mid tr, gives E m d i w mid tr /\ (sees_end E m q mid \/
    exists v mid' tr', gives E m q mid v mid' tr' /\ sees_tail E m q d mid').
Proof.
  intros [([|c] & j & Ha & Hs)|([|c] & j & Ha & Hs)]; cbn in Ha; inversion Ha; subst; auto.
  - match goal with H : after _ (_ :: _) _ _ |- _ => inversion H; subst end. right. do 3 eexists. split; [eassumption|].
    right. do 3 eexists. split; [eassumption|]. left. exists c, j. auto.
  - match goal with H : after _ [] _ _ |- _ => inversion H; subst end. right. do 3 eexists. split; [eassumption|]. auto.
  - match goal with H : after _ (_ :: _) _ _ |- _ => inversion H; subst end. right. do 3 eexists. split; [eassumption|].
    right. do 3 eexists. split; [eassumption|]. right. exists c, j. auto.
Qed.

Lemma quick_ok p : forall m i, quick p = true -> sees_end E m p i -> sp_len i = 0.
Proof.
  assert (Hl : forall l i, Forall (fun p => forall m i, quick p = true -> sees_end E m p i -> sp_len i = 0) (map snd l) ->
    forallb quick (map snd l) = true -> sees_first E l i -> sp_len i = 0).
  { intros l i HF Hq (pre & m & q & post & -> & _ & Hs). rewrite Forall_forall in HF. rewrite forallb_forall in Hq.
    assert (Hin : In q (map snd (pre ++ (m, q) :: post))) by (rewrite map_app; apply in_or_app; right; now left). eauto. }
  assert (Hsub : forall A B (ms : list A) (ps : list B) x, In x (map snd (combine ms ps)) -> In x ps).
  { intros A B ms ps x Hx. apply in_map_iff in Hx as ([y z] & <- & Hx). now apply in_combine_r in Hx. }
  induction p using parser_ind'; intros m i Hq Hs; cbn [quick] in Hq; try discriminate; apply sees_end_parts in Hs; cbn [sees_parts] in Hs; eauto.
  - apply Nat.leb_le in Hq. lia.
  - contradiction.
  - assert (HF : Forall (fun p => forall m i, quick p = true -> sees_end E m p i -> sp_len i = 0) (p :: qs)) by auto.
    change (quick p && forallb quick qs) with (forallb quick (p :: qs)) in Hq. rewrite Forall_forall in HF. rewrite forallb_forall in Hq.
    destruct m; [destruct Hs as (tys & _ & Hs)|]; (eapply Hl; [| |exact Hs]).
    + apply Forall_forall. intros x Hx. apply HF. eapply Hsub. exact Hx.
    + apply forallb_forall. intros x Hx. apply Hq. eapply Hsub. exact Hx.
    + rewrite map_map, map_id. now apply Forall_forall.
    + rewrite map_map, map_id. now apply forallb_forall.
Qed.

Lemma combine_snd {A B} (ms : list A) : forall ps : list B, List.length ps = List.length ms -> map snd (combine ms ps) = ps.
Proof. induction ms as [|m ms IH]; intros [|p ps] H; cbn in *; try discriminate; auto. now rewrite IH by lia. Qed.
Lemma alts_snd tys ps : result_fors E ps = Some tys -> map snd (alts tys ps) = ps.
Proof. intros H. apply combine_snd. rewrite map_length, len_dedup. now apply result_fors_length in H. Qed.
Lemma parts_snd' tys ps : result_fors E ps = Some tys -> map snd (parts tys ps) = ps.
Proof. intros H. apply parts_snd. now apply result_fors_length in H. Qed.
Lemma look_snd (ps : list (parser T)) : map snd (map (pair Look) ps) = ps.
Proof. rewrite map_map. apply map_id. Qed.
Lemma repeat_snd (m : mode) (q : parser T) j : map snd (repeat (m, q) j) = repeat q j.
Proof. induction j; cbn; congruence. Qed.

(** ** Beginnings *)
Lemma fold_either (f : parser T -> ctx) i q r : forall qs, In r (q :: qs) -> holds (f r) i ->
  holds (fold_right (fun r a => either (f r) a) (f q) qs) i.
Proof.
  induction qs as [|x qs IH]; intros Hr Hh; cbn.
  - now destruct Hr as [<- |[]].
  - destruct Hr as [<- |[<- |Hr]]; apply holds_either; auto; right; apply IH; cbn; auto.
Qed.
Lemma fold_repeat (f : parser T -> ctx -> ctx) q k j : fold_right f k (repeat q j) = Nat.iter j (f q) k.
Proof. induction j as [|j IH]; [reflexivity|]. cbn [repeat fold_right]. rewrite IH. reflexivity. Qed.

Lemma gives_mid m q i v mid tr v' mid' tr' : valid E i -> gives E m q i v mid tr -> big E m q i (Res (Some v') mid') tr' -> mid' = mid.
Proof. intros Hv H H'. apply gives_big in H; auto. pose proof (proj1 (big_det E _ _ _ _ _ _ _ Hv H H')). congruence. Qed.
Lemma gives_no m q i v mid tr tr' : valid E i -> gives E m q i v mid tr -> big E m q i (Res None i) tr' -> False.
Proof. intros Hv H H'. apply gives_big in H; auto. pose proof (proj1 (big_det E _ _ _ _ _ _ _ Hv H H')). congruence. Qed.
Lemma fails_no m q i v mid tr : valid E i -> fails E i (m, q) -> big E m q i (Res (Some v) mid) tr -> False.
Proof. intros Hv [tr' H] H'. apply refuses_big in H; auto. pose proof (proj1 (big_det E _ _ _ _ _ _ _ Hv H H')). congruence. Qed.

Lemma anything_head i : valid E i -> 0 < sp_len i -> head_is E i (fun c => fits_some E [(true, [])] c = true).
Proof.
  intros Hv Hl. split; auto. destruct (nth_error (mem E (sp_blk i)) (sp_off i)) as [c|] eqn:Hc; [exists c; split; auto|].
  apply nth_error_None in Hc. unfold valid in Hv. lia.
Qed.
Lemma one_of_ok q : forall m i v rem tr c, valid E i -> one_of q = Some c -> big E m q i (Res (Some v) rem) tr ->
  head_is E i (fun x => fits E c x = true) /\ rem = adv i 1.
Proof.
  induction q; intros m i v rem tr k Hv Hc Hb; cbn [one_of] in Hc; try discriminate; try injection Hc as <-; inversion Hb; subst; eauto.
  - split; auto. eapply head_impl; [|eassumption]. intros x Hx. now apply in_set_fits.
  - split; auto. eapply head_impl; [|eassumption]. intros x Hx. now apply not_in_set_fits.
  - split; auto. eapply head_impl; [|apply anything_head; auto; lia]. intros x. unfold fits_some. cbn [existsb]. now rewrite orb_false_r.
Qed.

Theorem firsts_ok :
  (forall m p i r tr, big E m p i r tr -> valid E i ->
    forall v, r_ok r = Some v -> forall N k, holds k (r_rem r) -> holds (firsts N p k) i) /\
  (forall l i o tr, bfirst E l i o tr -> valid E i -> forall j v rem, o = Some (j, v, rem) -> forall N k, holds k rem ->
    exists q, In q (map snd l) /\ holds (firsts N q k) i) /\
  (forall l i o tr, bchain E l i o tr -> valid E i -> forall vs rem, o = Some (vs, rem) -> forall N k, holds k rem ->
    holds (fold_right (firsts N) k (map snd l)) i) /\
  (forall m q i vs rem tr, biter E m q i vs rem tr -> valid E i ->
    forall N k, (holds k rem -> holds (either (firsts N q None) k) i) /\ (vs <> [] -> holds (firsts N q None) i) /\
      (forall c, one_of q = Some c -> holds k rem -> holds (skip c k) i)) /\
  (forall m q d i prs rem tr, btail E m q d i prs rem tr -> valid E i ->
    forall N k, holds k rem -> holds (either (firsts N d None) k) i).
Proof.
  assert (HN : forall i, holds None i) by (intros; exact Logic.I).
  apply big_mut; intros; cbn [r_ok r_rem ok1 firsts_] in *; try discriminate; eauto.
  - apply holds_head. eapply head_impl; [|eassumption]. intros c Hc. unfold fits_some. cbn [existsb]. apply in_set_fits in Hc. now rewrite Hc.
  - apply holds_head. eapply head_impl; [|eassumption]. intros c Hc. unfold fits_some. cbn [existsb]. apply not_in_set_fits in Hc. now rewrite Hc.
  - destruct arr as [|t arr]; [|apply holds_head; eapply head_impl; [|eapply prefix_head; eassumption]].
    + replace i with (adv i (List.length (@nil T))); auto. unfold adv. cbn. rewrite Nat.add_0_r, Nat.sub_0_r. now destruct i.
    + intros c Hc. unfold fits_some. cbn [existsb]. now rewrite Hc.
  - apply holds_head. now apply anything_head.
  - destruct (H H0 _ _ _ eq_refl N k H2) as (r & Hr & Hh). rewrite alts_snd in Hr by assumption. exact (fold_either (fun r => firsts N r k) i q r _ Hr Hh).
  - destruct (H H0 _ _ _ eq_refl N k H2) as (r & Hr & Hh). rewrite look_snd in Hr. exact (fold_either (fun r => firsts N r k) i q r _ Hr Hh).
  - specialize (H H0 _ _ eq_refl N _ H2). rewrite parts_snd' in H by assumption. exact H.
  - specialize (H H0 _ _ eq_refl N _ H2). rewrite look_snd in H. exact H.
  - apply holds_either. left. eauto.
  - apply holds_either. auto.
  - apply holds_either. left. eauto.
  - apply holds_either. auto.
  - specialize (H H0 _ _ eq_refl N _ H2). rewrite repeat_snd, fold_repeat in H. exact H.
  - specialize (H H0 _ _ eq_refl N _ H2). rewrite repeat_snd, fold_repeat in H. exact H.
  - apply (proj1 (proj2 (H H0 N k))). discriminate.
  - apply (proj1 (proj2 (H H0 N k))). discriminate.
  - destruct (one_of q) as [c0|] eqn:Ho; [now apply (proj2 (proj2 (H H0 N k)))|now apply (proj1 (H H0 N k))].
  - destruct (one_of q) as [c0|] eqn:Ho; [now apply (proj2 (proj2 (H H0 N k)))|now apply (proj1 (H H0 N k))].
  - destruct N as [|N]; [apply HN|]. cbn [cust_firsts]. cbv zeta. unfold whole. rewrite e. eauto.
  - destruct N as [|N]; [apply HN|]. cbn [cust_firsts]. cbv zeta. unfold whole. rewrite e. eauto.
  - destruct N as [|N]; [apply HN|]. cbn [cust_firsts]. cbv zeta. unfold whole. rewrite e. apply holds_either. left. eauto.
  - destruct N as [|N]; [apply HN|]. cbn [cust_firsts]. cbv zeta. unfold whole. rewrite e. apply holds_either. auto.
  - destruct N as [|N]; [apply HN|]. cbn [cust_firsts]. cbv zeta. destruct (whole c); [apply holds_either; left|]; eauto.
  - injection H1 as <- <- <-. exists p. split; [now left|eauto].
  - destruct o as [[[j0 v0] rem0]|]; [|discriminate]. injection H2 as <- <- <-.
    destruct (H0 H1 _ _ _ eq_refl N k H3) as (r & Hr & Hh). exists r. split; [now right|auto].
  - injection H0 as <- <-. auto.
  - destruct o as [[vs0 rem0]|]; [|discriminate]. injection H2 as <- <-. cbn [map snd fold_right].
    eapply H; eauto. cbn. eapply H0; eauto. eapply big_succ_valid; eauto.
  - split; [intros Hk; apply holds_either; auto|split; [congruence|intros c0 _; apply holds_skip_0]].
  - assert (Hf : holds (firsts N q None) i) by (eapply H; eauto). split; [intros _; apply holds_either; auto|split; [auto|]].
    intros c0 Hc Hk. destruct (one_of_ok _ _ _ _ _ _ _ H1 Hc b) as [Hh ->]. apply holds_skip; auto.
    apply (H0 ltac:(eapply big_succ_valid; eauto) N k); auto.
  - apply holds_either. auto.
  - apply holds_either. auto.
  - apply holds_either. left. eauto.
Qed.

(** ** Parsers that do not get anywhere *)
Definition quiet_first N K (l : list (parser T)) : Prop := forall q, In q l -> quiet N K q <> None.
Definition quiet_chain N K (l : list (parser T)) : option bool :=
  fold_right (fun r a => match quiet N K r with Some false => a | x => x end) (Some false) l.

Lemma quiet_choice N K q qs b :
  fold_right (fun r a => match quiet N K r, a with Some x, Some y => Some (x && y) | _, _ => None end) (quiet N K q) qs = Some b ->
  quiet_first N K (q :: qs) /\ (forall r, In r (q :: qs) -> quiet N K r = Some false -> b = false).
Proof.
  revert b. induction qs as [|x qs IH]; intros b H; cbn in H.
  - split; [intros r [<- |[]]; congruence|intros r [<- |[]]; congruence].
  - destruct (quiet N K x) as [bx|] eqn:Hx; [|discriminate].
    destruct (fold_right _ _ qs) as [by_|] eqn:Hy; [|discriminate]. injection H as <-.
    destruct (IH by_ eq_refl) as [H1 H2]. split.
    + intros r [<- |[<- |Hr]]; [apply H1; now left|congruence|apply H1; now right].
    + intros r [<- |[<- |Hr]] He; [rewrite (H2 q); auto using andb_false_r; now left| |rewrite (H2 r); auto using andb_false_r; now right].
      rewrite Hx in He. injection He as ->. reflexivity.
Qed.

Lemma quiet_repeat N K q j : quiet_chain N K (repeat q (S j)) = quiet N K q.
Proof.
  unfold quiet_chain. cbn [repeat fold_right]. destruct (quiet N K q) as [[]|] eqn:Hq; auto.
  induction j as [|j IH]; cbn [repeat fold_right]; auto. now rewrite Hq.
Qed.
Lemma quiet_all K i arr b : holds (Some K) i -> quiet_ K (fun _ => None) (PAllOf arr) = Some b ->
  ~ (sp_len i < List.length arr /\ matches_at E (sp_blk i) (firstn (sp_len i) arr) (sp_off i)) /\
  (prefix_is E i arr -> b = false /\ holds (Some K) (adv i (List.length arr))).
Proof.
  destruct K as [A B]. intros Hh Hq. assert (Hl := holds_len _ _ Hh). cbn [quiet_ fst snd] in Hq. destruct arr as [|t arr].
  { injection Hq as <-. split; [cbn; lia|]. intros _. split; auto. unfold adv. cbn [List.length]. rewrite Nat.add_0_r, Nat.sub_0_r. now destruct i. }
  destruct (meet B [(false, [t])] && meet A [(false, [t])]) eqn:Hm.
  { apply andb_true_iff in Hm as [HB HA]. assert (Hno := holds_meet _ _ _ _ Hh HB HA).
    assert (Hat : forall arr' l, l <> 0 -> matches_at E (sp_blk i) (firstn l (t :: arr')) (sp_off i) -> False).
    { intros arr' [|l] Hl0 H; [congruence|]. destruct H as [(c & Hc & He) _]. apply Hno. exists c. rewrite Nat.add_0_r. split; auto.
      apply in_set_fits. exists t. split; [now left|auto]. }
    split; [intros [_ H]; eauto|]. intros [_ H]. exfalso. eapply (Hat arr 1); [discriminate|]. cbn in *. tauto. }
  destruct (forallb _ (t :: arr)) eqn:HF; [|discriminate]. injection Hq as <-. rewrite forallb_forall in HF.
  assert (Hat : forall x c, In x (t :: arr) -> eqv E x c = true -> fits_some E B c <> true).
  { intros x c Hx He Hf. eapply meet_no; [exact (HF _ Hx)|exact Hf|]. apply in_set_fits. exists x. split; [now left|auto]. }
  split.
  - intros [Hlt H]. destruct Hh as (j & Hj & _ & (c & Hc & Hf)).
    destruct (matches_in _ _ _ j H) as (x & c' & Hx & Hc' & He). { rewrite firstn_length. lia. }
    rewrite Hc in Hc'. injection Hc' as <-. eapply Hat; eauto. rewrite <- (firstn_skipn (sp_len i) (t :: arr)). apply in_or_app. now left.
  - intros [Hlt H]. split; auto. apply holds_adv; auto. intros l Hl'.
    destruct (matches_in _ _ _ l H Hl') as (x & c & Hx & Hc & He). exists c. split; auto. eauto.
Qed.
Lemma quiet_one A B i k : holds (Some (A, B)) i -> meet B [k] = true -> head_is E i (fun c => fits E k c = true) ->
  meet A [k] = false /\ holds (Some (A, B)) (adv i 1).
Proof.
  intros Hh HB [Hl (c & Hc & Hf)]. destruct (meet A [k]) eqn:HA.
  - exfalso. apply (holds_meet _ _ _ _ Hh HB HA). exists c. rewrite Nat.add_0_r. auto.
  - split; auto. apply holds_adv; auto. intros [|l] Hl0; [|lia]. exists c. rewrite Nat.add_0_r. split; auto. intros Hf'. eapply meet_no; eauto.
Qed.

Theorem quiet_ok :
  (forall m p i r tr, big E m p i r tr -> valid E i -> forall N K b, quiet N K p = Some b -> holds (Some K) i ->
    ~ sees_end E m p i /\ (forall v, r_ok r = Some v -> b = false /\ holds (Some K) (r_rem r))) /\
  (forall l i o tr, bfirst E l i o tr -> valid E i -> forall N K, quiet_first N K (map snd l) -> holds (Some K) i ->
    ~ sees_first E l i /\ (forall j v rem, o = Some (j, v, rem) -> holds (Some K) rem /\ exists q, In q (map snd l) /\ quiet N K q = Some false)) /\
  (forall l i o tr, bchain E l i o tr -> valid E i -> forall N K b, quiet_chain N K (map snd l) = Some b -> holds (Some K) i ->
    ~ sees_chain E l i /\ (forall vs rem, o = Some (vs, rem) -> b = false /\ holds (Some K) rem)) /\
  (forall m q i vs rem tr, biter E m q i vs rem tr -> valid E i -> forall N K b, quiet N K q = Some b -> holds (Some K) i ->
    ~ sees_iter E m q i /\ holds (Some K) rem /\ (vs <> [] -> b = false)) /\
  (forall m q d i prs rem tr, btail E m q d i prs rem tr -> valid E i -> forall N K b b', quiet N K q = Some b -> quiet N K d = Some b' ->
    holds (Some K) i -> ~ sees_tail E m q d i /\ holds (Some K) rem).
Proof.
  apply big_mut; intros; auto; cbn [quiet_] in *; cbn [r_ok r_rem ok1] in *;
    repeat match goal with Hv : valid E ?i, IH : valid E ?i -> _ |- _ => specialize (IH Hv) end.
  (* leaves *)
  - destruct K as [A B]. cbn [fst snd] in *. destruct (meet B _) eqn:HM; [|discriminate]. injection H0 as <-. split.
    + intros Hs. apply sees_end_parts in Hs. eapply holds_len; eauto.
    + intros v _. apply quiet_one; auto. exact (head_impl _ _ _ (fun c => proj1 (in_set_fits arr c)) h).
  - split; [|discriminate]. intros Hs. apply sees_end_parts in Hs. eapply holds_len; eauto.
  - destruct K as [A B]. cbn [fst snd] in *. destruct (meet B _) eqn:HM; [|discriminate]. injection H0 as <-. split.
    + intros Hs. apply sees_end_parts in Hs. eapply holds_len; eauto.
    + intros v _. apply quiet_one; auto. exact (head_impl _ _ _ (fun c => proj1 (not_in_set_fits arr c)) h).
  - split; [|discriminate]. intros Hs. apply sees_end_parts in Hs. eapply holds_len; eauto.
  - destruct (quiet_all K i arr b H1 H0) as [Hn Hr]. split; [intros Hs; apply sees_end_parts in Hs; exact (Hn Hs)|auto].
  - destruct (quiet_all K i arr b H1 H0) as [Hn Hr]. split; [intros Hs; apply sees_end_parts in Hs; exact (Hn Hs)|discriminate].
  - discriminate.
  - discriminate.
  - split; [intros Hs; apply sees_end_parts in Hs; exact Hs|]. intros v _. now injection H0 as <-.
  (* choice *)
  - apply quiet_choice in H1 as [HF Hb]. specialize (H N K). rewrite alts_snd in H by assumption. destruct (H HF H2) as [Hn Hr]. split.
    + intros Hs. apply sees_end_parts in Hs as (tys' & He & Hs). rewrite e in He. injection He as <-. auto.
    + intros v0 _. destruct (Hr _ _ _ eq_refl) as (Hk & r & Hi & Hf). split; eauto.
  - apply quiet_choice in H1 as [HF Hb]. specialize (H N K). rewrite alts_snd in H by assumption. destruct (H HF H2) as [Hn Hr]. split; [|discriminate].
    intros Hs. apply sees_end_parts in Hs as (tys' & He & Hs). rewrite e in He. injection He as <-. auto.
  - apply quiet_choice in H1 as [HF Hb]. specialize (H N K). rewrite look_snd in H. destruct (H HF H2) as [Hn Hr]. split.
    + intros Hs. apply sees_end_parts in Hs. exact (Hn Hs).
    + intros v0 _. destruct (Hr _ _ _ eq_refl) as (Hk & r & Hi & Hf). split; eauto.
  - apply quiet_choice in H1 as [HF Hb]. specialize (H N K). rewrite look_snd in H. destruct (H HF H2) as [Hn Hr]. split; [|discriminate].
    intros Hs. apply sees_end_parts in Hs. exact (Hn Hs).
  (* sequence *)
  - specialize (H N K b0). rewrite parts_snd' in H by assumption. destruct (H H1 H2) as [Hn Hr]. split.
    + intros Hs. apply sees_end_parts in Hs as (tys' & He & Hs). rewrite e in He. injection He as <-. auto.
    + intros v0 _. eauto.
  - specialize (H N K b0). rewrite parts_snd' in H by assumption. destruct (H H1 H2) as [Hn Hr]. split; [|discriminate].
    intros Hs. apply sees_end_parts in Hs as (tys' & He & Hs). rewrite e in He. injection He as <-. auto.
  - specialize (H N K b0). rewrite look_snd in H. destruct (H H1 H2) as [Hn Hr]. split; [|intros v0 _; eauto].
    intros Hs. apply sees_end_parts in Hs. exact (Hn Hs).
  - specialize (H N K b0). rewrite look_snd in H. destruct (H H1 H2) as [Hn Hr]. split; [|discriminate].
    intros Hs. apply sees_end_parts in Hs. exact (Hn Hs).
  (* maybe *)
  - destruct (quiet N K q) as [b2|] eqn:Hq; [|discriminate]. injection H1 as <-. destruct (H _ _ _ Hq H2) as [Hn Hr].
    split; [intros Hs; apply sees_end_parts in Hs; auto|]. intros v0 _. split; auto. eapply Hr; reflexivity.
  - destruct (quiet N K q) as [b2|] eqn:Hq; [|discriminate]. injection H1 as <-. destruct (H _ _ _ Hq H2) as [Hn Hr].
    split; [intros Hs; apply sees_end_parts in Hs; auto|]. auto.
  - destruct (quiet N K q) as [b2|] eqn:Hq; [|discriminate]. injection H1 as <-. destruct (H _ _ _ Hq H2) as [Hn Hr].
    split; [intros Hs; apply sees_end_parts in Hs; auto|]. intros v0 _. split; auto. eapply Hr; reflexivity.
  - destruct (quiet N K q) as [b2|] eqn:Hq; [|discriminate]. injection H1 as <-. destruct (H _ _ _ Hq H2) as [Hn Hr].
    split; [intros Hs; apply sees_end_parts in Hs; auto|]. auto.
  (* exactly *)
  - destruct n0 as [|j]; [discriminate|]. specialize (H N K b0). rewrite repeat_snd, quiet_repeat in H. destruct (H H1 H2) as [Hn Hr].
    split; [intros Hs; apply sees_end_parts in Hs; exact (Hn Hs)|first [discriminate|intros v0 _; eauto]].
  - destruct n0 as [|j]; [discriminate|]. specialize (H N K b0). rewrite repeat_snd, quiet_repeat in H. destruct (H H1 H2) as [Hn Hr].
    split; [intros Hs; apply sees_end_parts in Hs; exact (Hn Hs)|first [discriminate|intros v0 _; eauto]].
  - destruct n0 as [|j]; [discriminate|]. specialize (H N K b0). rewrite repeat_snd, quiet_repeat in H. destruct (H H1 H2) as [Hn Hr].
    split; [intros Hs; apply sees_end_parts in Hs; exact (Hn Hs)|first [discriminate|intros v0 _; eauto]].
  - destruct n0 as [|j]; [discriminate|]. specialize (H N K b0). rewrite repeat_snd, quiet_repeat in H. destruct (H H1 H2) as [Hn Hr].
    split; [intros Hs; apply sees_end_parts in Hs; exact (Hn Hs)|first [discriminate|intros v0 _; eauto]].
  Ltac sub := match goal with
    | Hq : quiet_ ?K (cust_quiet ?N ?K) _ = Some _, Hh : holds (Some ?K) _, IH : _ |- _ =>
        let Hn := fresh "Hn" in let Hr := fresh "Hr" in first [destruct (IH N K _ Hq Hh) as [Hn Hr]|destruct (IH N K Hq Hh) as [Hn Hr]]
    end.
  (* one or more *)
  - sub. split; [intros Hs; apply sees_end_parts in Hs; auto|]. intros v0 _. split; [apply (proj2 Hr); discriminate|apply Hr].
  - sub. split; [|discriminate].
    intros Hs. apply sees_end_parts in Hs. apply sees_iter_step in Hs as [Hs|(v & mid & tr0 & Hg & _)]; [auto|eapply gives_no; eauto].
  - sub. split; [intros Hs; apply sees_end_parts in Hs; auto|]. intros v0 _. split; [apply (proj2 Hr); discriminate|apply Hr].
  - sub. split; [|discriminate].
    intros Hs. apply sees_end_parts in Hs. apply sees_iter_step in Hs as [Hs|(v & mid & tr0 & Hg & _)]; [auto|eapply gives_no; eauto].
  (* zero or more *)
  - destruct (quiet N K q) as [bq|] eqn:Hq; try discriminate. injection H1 as <-. sub. destruct Hr as [Hk _].
    split; [intros Hs; apply sees_end_parts in Hs; auto|auto].
  - destruct (quiet N K q) as [bq|] eqn:Hq; try discriminate. injection H1 as <-. sub. destruct Hr as [Hk _].
    split; [intros Hs; apply sees_end_parts in Hs; auto|auto].
  (* delimit *)
  - destruct (quiet N K q) as [bq|] eqn:Hq; try discriminate. destruct (H _ _ _ Hq H3) as [Hn Hr]. destruct (Hr _ eq_refl) as [-> Hk].
    destruct (quiet N K d) as [bd|] eqn:Hd; try discriminate. injection H2 as <-.
    assert (HM : valid E mid) by (eapply big_succ_valid; eauto). destruct (H0 HM _ _ _ _ Hq Hd Hk) as [Hn' Hr'].
    split; [|auto]. intros Hs. apply sees_end_parts in Hs. destruct Hs as [Hs|(v1 & mid1 & tr1 & Hg & Hs)]; [auto|].
    pose proof (gives_mid _ _ _ _ _ _ _ _ _ H1 Hg b). subst. auto.
  - assert (Hq : exists bq, quiet N K q = Some bq) by (destruct (quiet N K q); eauto; discriminate). destruct Hq as [bq Hq]. clear H1. sub.
    split; [|discriminate].
    intros Hs. apply sees_end_parts in Hs. destruct Hs as [Hs|(v & mid & tr0 & Hg & _)]; [auto|eapply gives_no; eauto].
  - destruct (quiet N K q) as [bq|] eqn:Hq; try discriminate. destruct (H _ _ _ Hq H3) as [Hn Hr]. destruct (Hr _ eq_refl) as [-> Hk].
    destruct (quiet N K d) as [bd|] eqn:Hd; try discriminate. injection H2 as <-.
    assert (HM : valid E mid) by (eapply big_succ_valid; eauto). destruct (H0 HM _ _ _ _ Hq Hd Hk) as [Hn' Hr'].
    split; [|auto]. intros Hs. apply sees_end_parts in Hs. destruct Hs as [Hs|(v1 & mid1 & tr1 & Hg & Hs)]; [auto|].
    pose proof (gives_mid _ _ _ _ _ _ _ _ _ H1 Hg b). subst. auto.
  - assert (Hq : exists bq, quiet N K q = Some bq) by (destruct (quiet N K q); eauto; discriminate). destruct Hq as [bq Hq]. clear H1. sub.
    split; [|discriminate].
    intros Hs. apply sees_end_parts in Hs. destruct Hs as [Hs|(v & mid & tr0 & Hg & _)]; [auto|eapply gives_no; eauto].
  (* ignore, complete *)
  - sub. split; auto. intros Hs. apply sees_end_parts in Hs. auto.
  - destruct (quiet N K q) as [[]|] eqn:Hq; try discriminate. sub. destruct (Hr _ eq_refl). discriminate.
  - destruct (quiet N K q) as [[]|] eqn:Hq; try discriminate. sub. destruct (Hr _ eq_refl). discriminate.
  - destruct (quiet N K q) as [[]|] eqn:Hq; try discriminate. sub. split; [|discriminate].
    intros Hs. apply sees_end_parts in Hs. destruct Hs as [Hs|(v & mid & tr0 & Hg)]; [auto|eapply gives_no; eauto].
  (* join, map, filter, named *)
  - sub. split; [intros Hs; apply sees_end_parts in Hs; auto|first [discriminate|exact Hr|intros v9 _; eapply Hr; reflexivity]].
  - sub. split; [intros Hs; apply sees_end_parts in Hs; auto|first [discriminate|exact Hr|intros v9 _; eapply Hr; reflexivity]].
  - sub. split; [intros Hs; apply sees_end_parts in Hs; auto|first [discriminate|exact Hr|intros v9 _; eapply Hr; reflexivity]].
  - sub. split; [intros Hs; apply sees_end_parts in Hs; auto|first [discriminate|exact Hr|intros v9 _; eapply Hr; reflexivity]].
  - sub. split; [intros Hs; apply sees_end_parts in Hs; auto|first [discriminate|exact Hr|intros v9 _; eapply Hr; reflexivity]].
  - sub. split; [intros Hs; apply sees_end_parts in Hs; auto|first [discriminate|exact Hr|intros v9 _; eapply Hr; reflexivity]].
  - sub. split; [intros Hs; apply sees_end_parts in Hs; auto|first [discriminate|exact Hr|intros v9 _; eapply Hr; reflexivity]].
  - sub. split; [intros Hs; apply sees_end_parts in Hs; auto|first [discriminate|exact Hr|intros v9 _; eapply Hr; reflexivity]].
  - sub. split; [intros Hs; apply sees_end_parts in Hs; auto|first [discriminate|exact Hr|intros v9 _; eapply Hr; reflexivity]].
  - sub. split; [intros Hs; apply sees_end_parts in Hs; auto|first [discriminate|exact Hr|intros v9 _; eapply Hr; reflexivity]].
  - sub. split; [intros Hs; apply sees_end_parts in Hs; auto|first [discriminate|exact Hr|intros v9 _; eapply Hr; reflexivity]].
  - sub. split; [intros Hs; apply sees_end_parts in Hs; auto|first [discriminate|exact Hr|intros v9 _; eapply Hr; reflexivity]].
  (* custom *)
  - destruct N as [|N]; [discriminate|]. cbn [cust_quiet] in H1. destruct (quiet_ K _ _) as [bq|] eqn:Hq; [|discriminate]. injection H1 as <-. sub.
    split; [intros Hs; apply sees_end_parts in Hs; auto|]. unfold whole. rewrite e, andb_true_r. exact Hr.
  - destruct N as [|N]; [discriminate|]. cbn [cust_quiet] in H1. destruct (quiet_ K _ _) as [bq|] eqn:Hq; [|discriminate]. injection H1 as <-. sub.
    split; [intros Hs; apply sees_end_parts in Hs; auto|]. unfold whole. rewrite e, andb_true_r. intros v0 _. eapply Hr; reflexivity.
  - destruct N as [|N]; [discriminate|]. cbn [cust_quiet] in H1. destruct (quiet_ K _ _) as [bq|] eqn:Hq; [|discriminate]. injection H1 as <-. sub.
    split; [intros Hs; apply sees_end_parts in Hs; auto|]. unfold whole. discriminate.
  - destruct N as [|N]; [discriminate|]. cbn [cust_quiet] in H1. destruct (quiet_ K _ _) as [bq|] eqn:Hq; [|discriminate]. injection H1 as <-. sub.
    split; [intros Hs; apply sees_end_parts in Hs; auto|]. unfold whole. rewrite e. intros v0 _. split; [apply andb_false_r|eapply Hr; reflexivity].
  - destruct N as [|N]; [discriminate|]. cbn [cust_quiet] in H1. destruct (quiet_ K _ _) as [bq|] eqn:Hq; [|discriminate]. injection H1 as <-. sub.
    split; [intros Hs; apply sees_end_parts in Hs; auto|]. unfold whole. rewrite e. intros v0 _. split; [apply andb_false_r|assumption].
  - destruct N as [|N]; [discriminate|]. cbn [cust_quiet] in H1. destruct (quiet_ K _ _) as [bq|] eqn:Hq; [|discriminate]. injection H1 as <-. sub.
    split; [intros Hs; apply sees_end_parts in Hs; auto|]. unfold whole. intros v0 Hv0. destruct (Hr _ Hv0) as [-> Hk]. auto.
  (* lists *)
  - split; [|discriminate]. intros (pre & m & q & post & Hl & _). destruct pre; discriminate.
  - destruct (quiet N K p) as [bp|] eqn:Hp; [|exfalso; eapply H1; [now left|exact Hp]]. sub. split.
    + intros Hs. apply sees_first_cons in Hs as [Hs|[Hf _]]; [auto|eapply fails_no; eauto].
    + intros j v0 rem0 Ho. injection Ho as <- <- <-. destruct (Hr _ eq_refl) as [-> Hk]. split; auto. exists p. split; [now left|auto].
  - destruct (quiet N K p) as [bp|] eqn:Hp; [|exfalso; eapply H2; [now left|exact Hp]]. sub. destruct (H0 N K) as [Hn' Hr']; auto.
    { intros q Hi. apply H2. now right. }
    split.
    + intros Hs. apply sees_first_cons in Hs as [Hs|[_ Hs]]; auto.
    + intros j v0 rem0 Ho. destruct o as [[[j0 w0] rem1]|]; [|discriminate]. injection Ho as <- <- <-.
      destruct (Hr' _ _ _ eq_refl) as (Hk & q & Hi & Hf). split; auto. exists q. split; [now right|auto].
  - split; [|]. { intros (pre & m & q & post & j & Hl & _). destruct pre; discriminate. }
    intros vs rem Ho. injection Ho as <- <-. cbn in H0. now injection H0 as <-.
  - unfold quiet_chain in H1. cbn [map snd fold_right] in H1. destruct (quiet N K p) as [bp|] eqn:Hp; [|discriminate]. sub. split; [|discriminate].
    intros Hs. apply sees_chain_cons in Hs as [Hs|(v & mid & tr0 & Hg & _)]; [auto|eapply gives_no; eauto].
  - unfold quiet_chain in H2. cbn [map snd fold_right] in H2. destruct (quiet N K p) as [bp|] eqn:Hp; [|discriminate]. sub.
    destruct (Hr _ eq_refl) as [-> Hk]. assert (HM : valid E mid) by (eapply big_succ_valid; eauto). destruct (H0 HM N K b1 H2 Hk) as [Hn' Hr']. split.
    + intros Hs. apply sees_chain_cons in Hs as [Hs|(v0 & mid0 & tr0 & Hg & Hs)]; [auto|].
      pose proof (gives_mid _ _ _ _ _ _ _ _ _ H1 Hg b). subst. auto.
    + intros vs rem0 Ho. destruct o as [[vs0 rem1]|]; [|discriminate]. injection Ho as <- <-. eauto.
  - sub. split; [|split; [auto|congruence]].
    intros Hs. apply sees_iter_step in Hs as [Hs|(v & mid & tr0 & Hg & _)]; [auto|eapply gives_no; eauto].
  - destruct (H _ _ _ H2 H3) as [Hn Hr]. destruct (Hr _ eq_refl) as [-> Hk]. assert (HM : valid E mid) by (eapply big_succ_valid; eauto).
    destruct (H0 HM _ _ _ H2 Hk) as [Hn' Hr']. split; [|split; [apply Hr'|auto]].
    intros Hs. apply sees_iter_step in Hs as [Hs|(v0 & mid0 & tr0 & Hg & Hs)]; [auto|].
    pose proof (gives_mid _ _ _ _ _ _ _ _ _ H1 Hg b). subst. auto.
  - destruct (H _ _ _ H2 H3) as [Hn _]. split; auto. intros Hs. apply sees_tail_step in Hs as [Hs|(w & mid & tr0 & Hg & _)]; [auto|eapply gives_no; eauto].
  - destruct (H _ _ _ H3 H4) as [Hn Hr]. destruct (Hr _ eq_refl) as [_ Hk]. assert (HM : valid E mid) by (eapply big_succ_valid; eauto).
    destruct (H0 HM _ _ _ H2 Hk) as [Hn' _]. split; auto.
    intros Hs. apply sees_tail_step in Hs as [Hs|(w0 & mid0 & tr0 & Hg & Hs)]; [auto|].
    pose proof (gives_mid _ _ _ _ _ _ _ _ _ H1 Hg b). subst mid0. destruct Hs as [Hs|(v & mid' & tr1 & Hg' & _)]; [auto|eapply gives_no; eauto].
  - destruct (H _ _ _ H4 H5) as [Hn Hr]. destruct (Hr _ eq_refl) as [_ Hk]. assert (HM : valid E mid) by (eapply big_succ_valid; eauto).
    destruct (H0 HM _ _ _ H3 Hk) as [Hn' Hr']. destruct (Hr' _ eq_refl) as [_ Hk']. assert (HM' : valid E mid') by (eapply big_succ_valid; eauto).
    destruct (H1 HM' _ _ _ _ H3 H4 Hk') as [Hn'' Hr'']. split; auto.
    intros Hs. apply sees_tail_step in Hs as [Hs|(w0 & mid0 & tr0 & Hg & Hs)]; [auto|].
    pose proof (gives_mid _ _ _ _ _ _ _ _ _ H2 Hg b). subst mid0. destruct Hs as [Hs|(v1 & mid1 & tr1 & Hg' & Hs)]; [auto|].
    pose proof (gives_mid _ _ _ _ _ _ _ _ _ HM Hg' b0). subst mid1. auto.
Qed.

(** ** The test is right *)
Lemma harmless_ok e k m i r tr : harmless e k = true -> holds k i -> valid E i -> big E m e i r tr -> ~ sees_end E m e i.
Proof.
  intros Hh Hk Hv Hb. destruct k as [K|]; [|discriminate]. cbn [harmless] in Hh. destruct (quick e) eqn:Hq.
  - intros Hs. apply quick_ok in Hs; auto. exact (holds_len _ _ Hk Hs).
  - destruct (quiet n K e) as [b|] eqn:He; [|discriminate]. exact (proj1 (proj1 quiet_ok _ _ _ _ _ Hb Hv _ _ _ He Hk)).
Qed.

Fixpoint final_alts (k : ctx) (l : list (parser T)) : bool :=
  match l with
  | [] => true
  | e :: l' => final e k && forallb (fun r => harmless e (firsts n r k)) l' && final_alts k l'
  end.
Fixpoint final_parts (k : ctx) (l : list (parser T)) : bool :=
  match l with [] => true | r :: l' => final r (fold_right (firsts n) k l') && final_parts k l' end.
Lemma final_choice q qs k : final (PChoice q qs) k = final_alts k (q :: qs).
Proof.
  cbn [final final_alts]. f_equal. induction qs as [|e l IH]; [reflexivity|]. cbn [final_alts]. now rewrite IH.
Qed.
Lemma final_sequence q qs k : final (PSequence q qs) k = final_parts k (q :: qs).
Proof.
  cbn [final final_parts]. f_equal. induction qs as [|e l IH]; [reflexivity|]. cbn [final_parts]. now rewrite IH.
Qed.
Lemma final_repeat q k j : final (PExactly q j) k = true -> final_parts k (repeat q j) = true.
Proof.
  cbn [final]. induction j as [|j IH]; [reflexivity|]. rewrite seq_S, forallb_app. intros H. apply andb_true_iff in H as [H1 H2].
  cbn [repeat final_parts]. rewrite fold_repeat, IH by exact H1. cbn [forallb] in H2. rewrite Nat.add_0_l, andb_true_r in H2.
  now rewrite H2.
Qed.

Theorem final_ok : (forall c, final_custom c = true) ->
  (forall m p i r tr, big E m p i r tr -> valid E i -> forall k v, final p k = true -> r_ok r = Some v -> holds k (r_rem r) ->
    ~ sees_end E m p i) /\
  (forall l i o tr, bfirst E l i o tr -> valid E i -> forall k j v rem, final_alts k (map snd l) = true -> o = Some (j, v, rem) ->
    holds k rem -> ~ sees_first E l i) /\
  (forall l i o tr, bchain E l i o tr -> valid E i -> forall k vs rem, final_parts k (map snd l) = true -> o = Some (vs, rem) ->
    holds k rem -> ~ sees_chain E l i) /\
  (forall m q i vs rem tr, biter E m q i vs rem tr -> valid E i -> forall k, final q (either (firsts n q None) k) = true ->
    harmless q k = true -> holds k rem -> ~ sees_iter E m q i) /\
  (forall m q d i prs rem tr, btail E m q d i prs rem tr -> valid E i -> forall K : pre_, quiet n K d = Some true ->
    final q (either (firsts n d None) (Some K)) = true -> final d (firsts n q None) = true -> holds (Some K) rem ->
    ~ sees_tail E m q d i).
Proof.
  intros Htab. destruct firsts_ok as (F1 & F2 & F3 & F4 & F5).
  apply big_mut; intros;
    try (rewrite final_choice in * ); try (rewrite final_sequence in * );
    cbn [r_ok r_rem ok1] in *; try discriminate;
    repeat match goal with Hv : valid E ?i, IH : valid E ?i -> _ |- _ => specialize (IH Hv) end.
  all: try (intros Hs; apply sees_end_parts in Hs; cbn [sees_parts] in Hs).
  - destruct h; lia.
  - destruct h; lia.
  - destruct p, Hs. lia.
  - lia.
  - exact Hs.
  - destruct Hs as (tys' & He & Hs). rewrite e in He. injection He as <-.
    specialize (H k). rewrite alts_snd in H by assumption. eapply H; eauto.
  - specialize (H k). rewrite look_snd in H. eapply H; eauto.
  - destruct Hs as (tys' & He & Hs). rewrite e in He. injection He as <-.
    specialize (H k0). rewrite parts_snd' in H by assumption. eapply H; eauto.
  - specialize (H k). rewrite look_snd in H. eapply H; eauto.
  (* maybe *)
  - apply andb_true_iff in H1 as [H1 _]. eapply H; eauto.
  - apply andb_true_iff in H1 as [_ H1]. eapply harmless_ok; eauto.
  - apply andb_true_iff in H1 as [H1 _]. eapply H; eauto.
  - apply andb_true_iff in H1 as [_ H1]. eapply harmless_ok; eauto.
  (* exactly *)
  - apply final_repeat in H1. specialize (H k). rewrite repeat_snd in H. eapply H; eauto.
  - apply final_repeat in H1. specialize (H k). rewrite repeat_snd in H. eapply H; eauto.
  (* repetitions *)
  - apply andb_true_iff in H1 as [H1 H1']. eapply H; eauto.
  - apply andb_true_iff in H1 as [H1 H1']. eapply H; eauto.
  - apply andb_true_iff in H1 as [H1 H1']. eapply H; eauto.
  - apply andb_true_iff in H1 as [H1 H1']. eapply H; eauto.
  (* delimit *)
  - cbn [final] in H2. destruct k as [K|]; [|discriminate]. apply andb_true_iff in H2 as [H2 Hd]. apply andb_true_iff in H2 as [H2 Hp].
    destruct (quiet n K d) as [[]|] eqn:Hq; try discriminate. assert (HM : valid E mid) by (eapply big_succ_valid; eauto).
    destruct Hs as [Hs|(v1 & mid' & tr1 & Hg & Hs)].
    + eapply H; eauto; cbn [r_rem]; eapply F5; eauto.
    + pose proof (gives_mid _ _ _ _ _ _ _ _ _ H1 Hg b). subst. eapply H0; eauto.
  - cbn [final] in H2. destruct k as [K|]; [|discriminate]. apply andb_true_iff in H2 as [H2 Hd]. apply andb_true_iff in H2 as [H2 Hp].
    destruct (quiet n K d) as [[]|] eqn:Hq; try discriminate. assert (HM : valid E mid) by (eapply big_succ_valid; eauto).
    destruct Hs as [Hs|(v1 & mid' & tr1 & Hg & Hs)].
    + eapply H; eauto; cbn [r_rem]; eapply F5; eauto.
    + pose proof (gives_mid _ _ _ _ _ _ _ _ _ H1 Hg b). subst. eapply H0; eauto.
  (* ignore, join, map, filter, named *)
  - eapply H; eauto.
  - eapply H; eauto.
  - eapply H; eauto.
  - eapply H; eauto.
  - eapply H; eauto.
  - eapply H; eauto.
  - eapply H; eauto.
  - eapply H; eauto.
  (* custom *)
  - specialize (Htab c). unfold final_custom in Htab. cbn [final] in H1. destruct (tab c) as [kc|]; [|discriminate].
    apply andb_true_iff in Htab as [Ht _]. eapply H; eauto. eapply holds_within; eauto.
  - specialize (Htab c). unfold final_custom in Htab. cbn [final] in H1. destruct (tab c) as [kc|]; [|discriminate].
    apply andb_true_iff in Htab as [Ht _]. eapply H; eauto. eapply holds_within; eauto.
  - specialize (Htab c). unfold final_custom in Htab. cbn [final] in H1. destruct (tab c) as [kc|]; [|discriminate].
    apply andb_true_iff in Htab as [Ht _]. eapply H; eauto. eapply holds_within; eauto.
  - specialize (Htab c). unfold final_custom in Htab. cbn [final] in H1. destruct (tab c) as [kc|]; [|discriminate].
    apply andb_true_iff in Htab as [_ Ht]. unfold whole in Ht. rewrite e in Ht. cbn [negb orb] in Ht.
    eapply harmless_ok; eauto. eapply holds_within; eauto.
  - specialize (Htab c). unfold final_custom in Htab. cbn [final] in H1. destruct (tab c) as [kc|]; [|discriminate].
    apply andb_true_iff in Htab as [Ht _]. eapply H; eauto. eapply holds_within; eauto.
  (* lists *)
  - injection H2 as <- <- <-. cbn [map snd final_alts] in H1. apply andb_true_iff in H1 as [H1 _]. apply andb_true_iff in H1 as [H1 _].
    intros Hs. apply sees_first_cons in Hs as [Hs|[Hf _]]; [|eapply fails_no; eauto]. eapply H; eauto.
  - destruct o as [[[j0 w0] rem1]|]; [|discriminate]. injection H3 as <- <- <-. cbn [map snd final_alts] in H2.
    apply andb_true_iff in H2 as [H2 H2c]. apply andb_true_iff in H2 as [_ H2b].
    intros Hs. apply sees_first_cons in Hs as [Hs|[_ Hs]]; [|eapply H0; eauto].
    destruct (F2 _ _ _ _ b0 H1 _ _ _ eq_refl n k H4) as (r & Hi & Hr). rewrite forallb_forall in H2b.
    exact (harmless_ok _ _ _ _ _ _ (H2b _ Hi) Hr H1 b Hs).
  - intros (pre & m & q & post & j & Hl & _). destruct pre; discriminate.
  - destruct o as [[vs0 rem1]|]; [|discriminate]. injection H3 as <- <-. cbn [map snd final_parts] in H2. apply andb_true_iff in H2 as [H2 H2b].
    assert (HM : valid E mid) by (eapply big_succ_valid; eauto).
    intros Hs. apply sees_chain_cons in Hs as [Hs|(v0 & mid' & tr0 & Hg & Hs)].
    + eapply H; eauto; cbn [r_rem]; eapply F3; eauto.
    + pose proof (gives_mid _ _ _ _ _ _ _ _ _ H1 Hg b). subst. eapply H0; eauto.
  - intros Hs. apply sees_iter_step in Hs as [Hs|(v & mid & tr0 & Hg & _)]; [|eapply gives_no; eauto]. eapply harmless_ok; eauto.
  - assert (HM : valid E mid) by (eapply big_succ_valid; eauto).
    intros Hs. apply sees_iter_step in Hs as [Hs|(v0 & mid' & tr0 & Hg & Hs)].
    + eapply H; eauto; cbn [r_rem]; eapply F4; eauto.
    + pose proof (gives_mid _ _ _ _ _ _ _ _ _ H1 Hg b). subst. eapply H0; eauto.
  - destruct (proj1 quiet_ok _ _ _ _ _ b H0 _ _ _ H1 H4) as [Hn _]. intros Hs. apply sees_tail_step in Hs as [Hs|(w & mid & tr0 & Hg & _)]; [auto|].
    eapply gives_no; eauto.
  - destruct (proj1 quiet_ok _ _ _ _ _ b H1 _ _ _ H2 H5) as [_ Hn]. destruct (Hn _ eq_refl). discriminate.
  - assert (HM : valid E mid) by (eapply big_succ_valid; eauto). assert (HM' : valid E mid') by (eapply big_succ_valid; eauto).
    intros Hs. apply sees_tail_step in Hs as [Hs|(w0 & mid0 & tr0 & Hg & Hs)].
    + eapply (H _ _ H5 eq_refl); eauto. eapply (F1 _ _ _ _ _ b0 HM _ eq_refl). exact Logic.I.
    + pose proof (gives_mid _ _ _ _ _ _ _ _ _ H2 Hg b). subst mid0. destruct Hs as [Hs|(v1 & mid1 & tr1 & Hg' & Hs)].
      * eapply (H0 HM _ _ H4 eq_refl); eauto.
      * pose proof (gives_mid _ _ _ _ _ _ _ _ _ HM Hg' b0). subst mid1. eapply (H1 HM'); eauto.
Qed.
End Final.
