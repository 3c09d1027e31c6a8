(** * Where exceptions and undefined behaviour come from, exactly

    [halts E p i h]: parsing [i] with [p] reaches a call of user code that throws, or a join
    of spans of different arrays.  The call is made by a map, a filter or a custom parser on
    the result of its component, the join by a [join], or either happens in a component that
    the run of [p] asks for. *)
From Coq Require Import String List Arith ZArith Bool Lia.
From Verif Require Import Types Compound Parser Outcome CompoundFacts ChoiceIndex Exec Mono Derive Typing Join Leaves Sound Peg
  Throws BigStep BigSound BigComplete Runs Extend Agree PropExchange Blame.
Import ListNotations.
Local Open Scope outcome_scope.

Inductive halt : Type := Threw (e : nat) | Undefined.
Definition halted {A} (h : halt) : outcome A := match h with Threw e => Exn e | Undefined => UB end.

(** Some non-empty spans side by side in one array, then one in another array. *)
Definition scattered (ls : list span) : Prop := exists pre s post b lo hi,
  nonempty ls = pre ++ s :: post /\ pre <> [] /\ tiles b lo hi pre /\ sp_blk s <> b.

Lemma join_more ls : forall b lo n, n <> 0 ->
  (exists pre s post hi, nonempty ls = pre ++ s :: post /\ tiles b (lo + n) hi pre /\ sp_blk s <> b /\
     join_list ls (Some (Span b lo n)) = UB) \/
  ((~ exists pre s post hi, nonempty ls = pre ++ s :: post /\ tiles b (lo + n) hi pre /\ sp_blk s <> b) /\
   exists r, join_list ls (Some (Span b lo n)) = Done r []).
Proof.
  induction ls as [|[bs os k] ls IH]; intros b lo n Hn.
  - right. split; [intros (pre & s & post & hi & H & _); destruct pre; discriminate|]. eexists. reflexivity.
  - cbn [nonempty filter sp_len]. fold (nonempty ls). cbn [join_list]. unfold try_join_span. cbn [sp_len sp_blk sp_off].
    destruct (Nat.eqb_spec k 0) as [-> |Hk]; cbn [negb]; [rewrite bind_ret; auto|].
    destruct (Nat.eqb_spec bs b) as [-> |Hb]; cbn [negb].
    + destruct (Z.eqb_spec (Z.of_nat n) (Z.of_nat os - Z.of_nat lo)) as [Hz|Hz].
      * assert (os = lo + n) as -> by lia. rewrite bind_ret.
        destruct (IH b lo (n + k) ltac:(lia)) as [(pre & s & post & hi & H1 & H2 & H3 & H4)|[H1 H2]]; [left|right].
        -- exists (Span b (lo + n) k :: pre), s, post, hi. split; [now rewrite H1|]. split; [|auto]. constructor. now rewrite <- Nat.add_assoc.
        -- split; [|exact H2]. intros (pre & s & post & hi & H3 & H4 & H5). apply H1.
           destruct pre as [|x pre]; cbn in H3; [injection H3 as <- _; now destruct H5|].
           injection H3 as <- H3. inversion H4; subst. exists pre, s, post, hi. rewrite Nat.add_assoc. auto.
      * rewrite bind_ret. right. split; [|eexists; reflexivity]. intros (pre & s & post & hi & H3 & H4 & H5).
        destruct pre as [|x pre]; cbn in H3; [injection H3 as <- _; now destruct H5|].
        injection H3 as <- H3. inversion H4; subst. lia.
    + left. exists [], (Span bs os k), (nonempty ls), (lo + n). split; [reflexivity|]. split; [constructor|]. auto.
Qed.

Lemma join_all ls : (scattered ls /\ join_list ls None = UB) \/ (~ scattered ls /\ exists r, join_list ls None = Done r []).
Proof.
  induction ls as [|[bs os k] ls IH].
  - right. split; [|eexists; reflexivity]. intros (pre & s & post & b & lo & hi & H & Hp & _); destruct pre; discriminate.
  - unfold scattered in *. cbn [nonempty filter sp_len]. fold (nonempty ls). cbn [join_list]. unfold try_join_span. cbn [sp_len].
    destruct (Nat.eqb_spec k 0) as [-> |Hk]; cbn [negb]; [rewrite bind_ret; exact IH|]. rewrite bind_ret. clear IH.
    destruct (join_more ls bs os k Hk) as [(pre & s & post & hi & H1 & H2 & H3 & H4)|[H1 H2]]; [left|right].
    + split; [|exact H4]. exists (Span bs os k :: pre), s, post, bs, os, hi. split; [now rewrite H1|]. split; [discriminate|]. split; auto. now constructor.
    + split; [|exact H2]. intros (pre & s & post & b & lo & hi & H3 & H4 & H5 & H6). apply H1.
      destruct pre as [|x pre]; [now destruct H4|]. cbn in H3. injection H3 as <- H3. inversion H5; subst. exists pre, s, post, hi. auto.
Qed.

(** What join does with the spans, unless it has no overload for the value. *)
Lemma try_join_or v : forall j, try_join v j = join_list (leaves v) j \/ try_join v j = Ill.
Proof.
  assert (HM : forall l, Forall (fun v => forall j, try_join v j = join_list (leaves v) j \/ try_join v j = Ill) l ->
    forall j, try_join_many l j = join_list (flat_map leaves l) j \/ try_join_many l j = Ill).
  { clear v; induction 1 as [|v l H _ IH]; intros j; [now left|]. cbn [try_join_many flat_map]. rewrite join_list_app.
    destruct (H j) as [-> | ->]; [|now right].
    destruct (join_list (leaves v) j) as [[[|] j'] tr| | | |]; cbn; auto. destruct (IH j') as [-> | ->]; auto. }
  induction v using val_ind'; intros j; cbn [try_join leaves]; fold try_join_many; auto; try (now right); try exact (HM _ H j).
  cbn [join_list]. destruct (try_join_span s j) as [[[|] j'] tr| | | |]; cbn; rewrite ?app_nil_r; auto.
Qed.

Lemma executor_scattered x rem : scattered (leaves x) -> join_executor x rem = UB \/ join_executor x rem = Ill.
Proof.
  intros H. unfold join_executor. destruct (try_join_or x None) as [-> | ->]; [|now right].
  destruct (join_all (leaves x)) as [[_ ->]|[Hn _]]; [now left|contradiction].
Qed.
Lemma executor_undefined x rem : join_executor x rem = UB -> scattered (leaves x).
Proof.
  unfold join_executor. destruct (try_join_or x None) as [-> | ->]; [|discriminate].
  destruct (join_all (leaves x)) as [[H _]|[_ [[[] []] ->]]]; auto; discriminate.
Qed.

Section Raises.
Context {T V : Type} (E : env T V).
Notation valid := (valid E).

Inductive halts : parser T -> span -> halt -> Prop :=
| halt_map q f i v rem tr e :
    gives E Parse q i v rem tr -> invoke E f (args_of v) = FThrow e -> halts (PMap q f) i (Threw e)
| halt_filter q f i v rem tr e :
    gives E Parse q i v rem tr -> invoke E f (args_of v) = FThrow e -> halts (PFilter q f) i (Threw e)
| halt_elem c t i x rem tr e :
    cust_conv E c = ConvElem t -> gives E Parse (cust_body E c) i (RVal x) rem tr ->
    invoke E (FConstruct t) [x] = FThrow e -> halts (PCustom c) i (Threw e)
| halt_whole c t i x rem tr e :
    cust_conv E c = ConvWhole t -> gives E Parse (cust_body E c) i (RVal x) rem tr ->
    invoke E (FConstruct t) [VOpt (Some x)] = FThrow e -> halts (PCustom c) i (Threw e)
| halt_whole_no c t i tr e :
    cust_conv E c = ConvWhole t -> refuses E Parse (cust_body E c) i tr ->
    invoke E (FConstruct t) [VOpt None] = FThrow e -> halts (PCustom c) i (Threw e)
| halt_join q i x rem tr :
    gives E Parse q i (RVal x) rem tr -> scattered (leaves x) -> halts (PJoin q) i Undefined
| halt_inside p i q j h : asks E Parse p i Parse q j -> halts q j h -> halts p i h.

(** ** From the code to the relation *)

Lemma bind_halted {A B} h (x : outcome A) (f : A -> outcome B) : bind x f = halted h ->
  x = halted h \/ exists a tr, x = Done a tr /\ f a = halted h.
Proof.
  destruct x, h; cbn; intros H; try discriminate; try (left; congruence);
    right; exists a, tr; split; auto; destruct (f a); try discriminate; congruence.
Qed.

Lemma halted_done {A} h (a : A) tr : Done a tr <> halted h.
Proof. now destruct h. Qed.
Lemma halted_ret {A} h (a : A) : ret a <> halted h.
Proof. now destruct h. Qed.
Lemma halted_ill {A} h : @Ill A <> halted h.
Proof. now destruct h. Qed.
Lemma halted_oof {A} h : @OOF A <> halted h.
Proof. now destruct h. Qed.
Lemma halted_cast {A B} h (x : outcome A) : x = halted h -> forall f : A -> outcome B, bind x f = halted h.
Proof. intros -> f. now destruct h. Qed.

Lemma upd_len {A} (l : list A) n a : List.length (upd l n a) = List.length l.
Proof. revert n. induction l; intros [|n]; cbn; auto. Qed.

Definition pure_op {A} (x : outcome A) : Prop := match x with Exn _ | OOF | UB => False | Done _ tr => tr = [] | _ => True end.

Lemma op_store ct u k b v : pure_op (store ct u k b v).
Proof. unfold store, b_assign, b_emplace, b_get_assign. destruct u, ct, b as [|[]], v; cbn; auto; match goal with |- context [if ?c then _ else _] => destruct c end; cbn; auto. Qed.
Lemma op_insert b v : pure_op (b_insert_back b v).
Proof. destruct b as [|[]], v; cbn; auto. Qed.
Lemma op_insert1 b v : pure_op (b_insert_back_first b v).
Proof. unfold b_insert_back_first. destruct b as [|w]; [exact eq_refl|]. destruct w; try exact Logic.I. destruct w1, v; exact Logic.I || exact eq_refl. Qed.
Lemma op_insert2 b v : pure_op (b_insert_back_second b v).
Proof. unfold b_insert_back_second. destruct b as [|w]; [exact eq_refl|]. destruct w; try exact Logic.I. destruct w2, v; exact Logic.I || exact eq_refl. Qed.
Lemma op_opt b v : pure_op (b_emplace_opt b v).
Proof. destruct b as [|[]], v; cbn; auto. Qed.
Lemma op_ret {A} (a : A) : pure_op (ret a).
Proof. reflexivity. Qed.

Lemma bind_op {A B} h (x : outcome A) (f : A -> outcome B) : pure_op x -> bind x f = halted h -> exists a, f a = halted h.
Proof. intros Hx H. apply bind_halted in H as [-> |(a & tr & _ & H)]; [destruct h; contradiction|eauto]. Qed.

Lemma run_gives_ n m q i v rem tr : run E n m q i = Done (Res (Some v) rem) tr -> gives E m q i v rem tr.
Proof. intros H. split; [discriminate|eauto]. Qed.
Lemma run_refuses_ n m q i rem tr : valid i -> run E n m q i = Done (Res None rem) tr -> rem = i /\ refuses E m q i tr.
Proof.
  intros Hv H. assert (rem = i) as -> by exact (run_sound E n m q i _ tr Hv H). split; auto. split; [discriminate|eauto].
Qed.
Lemma run_valid n m q i v rem tr : valid i -> run E n m q i = Done (Res (Some v) rem) tr -> valid rem.
Proof. intros Hv H. eapply gives_valid; [exact Hv|]. eapply run_gives_; eauto. Qed.

Section From.
Variable n : nat.
Variable h : halt.

Definition modes (pl : list (parser T * index)) : list (mode * parser T) := map (fun '(p, idx) => (idx_mode idx, p)) pl.

Lemma or_halts u : forall pl i b, valid i -> exec_or (run E n) u pl (i, b) = halted h ->
  exists pre m q post, modes pl = pre ++ (m, q) :: post /\ Forall (fails E i) pre /\ run E n m q i = halted h.
Proof.
  induction pl as [|[p idx] pl IH]; intros i b Hv H; cbn [exec_or] in H; [now apply halted_ret in H|].
  assert (Hrec : forall tr, refuses E (idx_mode idx) p i tr -> exec_or (run E n) u pl (i, b) = halted h ->
    exists pre m q post, modes ((p, idx) :: pl) = pre ++ (m, q) :: post /\ Forall (fails E i) pre /\ run E n m q i = halted h).
  { intros tr Hf He. destruct (IH i b Hv He) as (pre & m & q & post & Hm & Hfs & Hr).
    exists ((idx_mode idx, p) :: pre), m, q, post. split; [cbn [modes map app]; f_equal; exact Hm|]. split; auto. constructor; auto. now exists tr. }
  apply bind_halted in H as [H|(a & tr & H & Ha)].
  - exists [], (idx_mode idx), p, (modes pl). split; [reflexivity|]. split; [constructor|].
    destruct idx; cbn [execute idx_mode] in *; apply bind_halted in H as [H|(r & tr & H & Hr)]; auto.
    + destruct (r_ok r); [|now apply halted_ret in Hr]. apply bind_op in Hr as [? Hr]; [now apply halted_ret in Hr|apply op_store].
    + now apply halted_ret in Hr.
  - destruct a as [okb st']. destruct okb; [now apply halted_ret in Ha|].
    destruct idx as [k|]; cbn [execute idx_mode] in *.
    + destruct (run E n Parse p i) as [[[v|] rem] tr0| | | |] eqn:Hr; cbn [bind r_ok r_rem] in H; try discriminate.
      * destruct (store CChoice u k b v); cbn in H; discriminate.
      * cbn in H. injection H as <- <-. apply run_refuses_ in Hr as [-> Hr]; auto. eapply Hrec; eauto.
    + destruct (run E n Look p i) as [[[v|] rem] tr0| | | |] eqn:Hr; cbn [bind r_ok r_rem has_value] in H; try discriminate.
      cbn in H. injection H as <- <-. apply run_refuses_ in Hr as [-> Hr]; auto. eapply Hrec; eauto.
Qed.

Lemma and_halts u : forall pl i b, valid i -> exec_and (run E n) u pl (i, b) = halted h ->
  exists pre m q post j, modes pl = pre ++ (m, q) :: post /\ after E pre i j /\ valid j /\ run E n m q j = halted h.
Proof.
  induction pl as [|[p idx] pl IH]; intros i b Hv H; cbn [exec_and] in H; [now apply halted_ret in H|].
  assert (Hrec : forall v mid tr b', run E n (idx_mode idx) p i = Done (Res (Some v) mid) tr -> exec_and (run E n) u pl (mid, b') = halted h ->
    exists pre m q post j, modes ((p, idx) :: pl) = pre ++ (m, q) :: post /\ after E pre i j /\ valid j /\ run E n m q j = halted h).
  { intros v mid tr b' Hf He. destruct (IH mid b' (run_valid _ _ _ _ _ _ _ Hv Hf) He) as (pre & m & q & post & j & Hm & Ha & Hj & Hr).
    exists ((idx_mode idx, p) :: pre), m, q, post, j. split; [cbn [modes map app]; f_equal; exact Hm|]. split; auto. econstructor; eauto. eapply run_gives_; eauto. }
  apply bind_halted in H as [H|(a & tr & H & Ha)].
  - exists [], (idx_mode idx), p, (modes pl), i. split; [reflexivity|]. split; [constructor|]. split; auto.
    destruct idx; cbn [execute idx_mode] in *; apply bind_halted in H as [H|(r & tr & H & Hr)]; auto.
    + destruct (r_ok r); [|now apply halted_ret in Hr]. apply bind_op in Hr as [? Hr]; [now apply halted_ret in Hr|apply op_store].
    + now apply halted_ret in Hr.
  - destruct a as [okb st']. destruct okb; [|now apply halted_ret in Ha].
    destruct idx as [k|]; cbn [execute idx_mode] in *.
    + destruct (run E n Parse p i) as [[[v|] rem] tr0| | | |] eqn:Hr; cbn [bind r_ok r_rem] in H; try discriminate.
      destruct (store CSequence u k b v); cbn in H; try discriminate. injection H as <- <-. eapply Hrec; eauto.
    + destruct (run E n Look p i) as [[[v|] rem] tr0| | | |] eqn:Hr; cbn [bind r_ok r_rem has_value] in H; try discriminate.
      cbn in H. injection H as <- <-. eapply Hrec; eauto.
Qed.

Lemma exactly_halts m q : forall k j i b, valid i -> (b = RVoid \/ exists l, b = RVal (VArr l) /\ List.length l = j + k) ->
  exactly_loop (run E n m q) k j i b = halted h ->
  exists c i', c < k /\ after E (repeat (m, q) c) i i' /\ valid i' /\ run E n m q i' = halted h.
Proof.
  induction k as [|k IH]; intros j i b Hv Hb H; cbn [exactly_loop] in H; [now apply halted_ret in H|].
  apply bind_halted in H as [H|([[v|] mid] & tr & Hr & H)].
  - exists 0, i. split; [lia|]. split; [constructor|]. split; auto.
  - cbn [r_ok r_rem] in H. apply bind_halted in H as [H|(b' & tr' & Hb' & H)].
    + exfalso. destruct Hb as [-> |(l & -> & Hl)]; [now apply halted_ret in H|]. destruct v; cbn [b_array_assign] in H; [now apply halted_ill in H|].
      destruct (Nat.ltb_spec j (List.length l)); [now apply halted_ret in H|lia].
    + apply IH in H as (c & i' & Hc & Ha & Hv' & H).
      * exists (S c), i'. split; [lia|]. split; auto. cbn. econstructor; eauto. eapply run_gives_; eauto.
      * eapply run_valid; eauto.
      * destruct Hb as [-> |(l & -> & Hl)]; [injection Hb' as <- _; now left|]. destruct v; cbn [b_array_assign] in Hb'; [discriminate|].
        destruct (Nat.ltb_spec j (List.length l)); [|discriminate]. injection Hb' as <- _. right. eexists. split; [reflexivity|].
        rewrite upd_len. lia.
  - now apply halted_ret in H.
Qed.

Lemma rep_halts m q : forall k i b s, valid i -> rep_loop (run E n m q) k i b s = halted h ->
  exists c i', after E (repeat (m, q) c) i i' /\ valid i' /\ run E n m q i' = halted h.
Proof.
  induction k as [|k IH]; intros i b s Hv H; cbn [rep_loop] in H; [now apply halted_oof in H|].
  apply bind_halted in H as [H|([[v|] mid] & tr & Hr & H)].
  - exists 0, i. split; [constructor|]. auto.
  - cbn [r_ok r_rem] in H. apply bind_op in H as [b' H]; [|apply op_insert].
    apply IH in H as (c & i' & Ha & Hv' & H); [|eapply run_valid; eauto].
    exists (S c), i'. split; auto. cbn. econstructor; eauto. eapply run_gives_; eauto.
  - now apply halted_ret in H.
Qed.

Lemma delim_halts m q d pv dv : forall k v mid i b, valid mid ->
  delim_loop (run E n m q) (run E n m d) pv dv k (Res (Some v) mid) i b = halted h ->
  (exists c i', after E (concat (repeat [(m, d); (m, q)] c)) mid i' /\ valid i' /\ run E n m d i' = halted h) \/
  (exists c i', after E (concat (repeat [(m, d); (m, q)] c) ++ [(m, d)]) mid i' /\ valid i' /\ run E n m q i' = halted h).
Proof.
  induction k as [|k IH]; intros v mid i b Hv H; cbn [delim_loop] in H; [now apply halted_oof in H|].
  cbn [r_ok r_rem] in H. apply bind_op in H as [b1 H].
  2:{ destruct pv; [apply op_ret|]. destruct dv; [apply op_insert|apply op_insert1]. }
  apply bind_halted in H as [H|([[w|] mid1] & tr & Hr & H)].
  - left. exists 0, mid. split; [constructor|]. auto.
  - cbn [r_ok r_rem] in H. pose proof (run_valid _ _ _ _ _ _ _ Hv Hr) as Hv1.
    apply bind_halted in H as [H|(res & tr1 & Hr1 & H)].
    + right. exists 0, mid1. split; [|auto]. cbn. econstructor; [eapply run_gives_; eauto|constructor].
    + apply bind_op in H as [b2 H].
      2:{ destruct dv; [apply op_ret|]. destruct (has_value res); [|apply op_ret]. destruct pv; [apply op_insert|apply op_insert2]. }
      destruct res as [[v'|] mid2].
      * pose proof (run_valid _ _ _ _ _ _ _ Hv1 Hr1) as Hv2. apply IH in H as [(c & i' & Ha & H)|(c & i' & Ha & H)]; auto.
        -- left. exists (S c), i'. split; auto. cbn. econstructor; [eapply run_gives_; eauto|]. econstructor; [eapply run_gives_; eauto|exact Ha].
        -- right. exists (S c), i'. split; auto. cbn. econstructor; [eapply run_gives_; eauto|]. econstructor; [eapply run_gives_; eauto|exact Ha].
      * exfalso. destruct k; cbn [delim_loop r_ok] in H; [now apply halted_oof in H|now apply halted_ret in H].
  - now apply halted_ret in H.
Qed.
End From.

Lemma modes_look ps : modes (map (fun p => (p, None)) ps) = map (pair Look) ps.
Proof. unfold modes. rewrite map_map. reflexivity. Qed.
Lemma modes_combine (ps : list (parser T)) : forall seq, modes (combine ps seq) = combine (map idx_mode seq) ps.
Proof. induction ps as [|p ps IH]; intros [|x seq]; cbn; auto. f_equal. apply IH. Qed.
Lemma modes_seq tys (ps : list (parser T)) : modes (combine ps (snd (filter_out_void tys))) = parts tys ps.
Proof. rewrite modes_combine, filter_out_void_spec. cbn [snd]. now rewrite seq_modes. Qed.

Lemma basic_not h p fc len m i : elementary E p = Some (fc, len) -> valid i ->
  match m with Parse => basic_parse fc len i | Look => basic_look fc len i end <> halted h.
Proof.
  intros He Hv H. destruct h; cbn [halted] in H.
  - destruct m; [|pose proof (quiet_basic_look E p fc len i He) as Hq; rewrite H in Hq; exact Hq].
    pose proof (exn_basic E (fun _ => False) p fc len i He) as Hx. rewrite H in Hx. exact Hx.
  - pose proof (basic_ok E False False p fc len m i He Hv) as Hx. rewrite H in Hx. exact Hx.
Qed.

Lemma special_not h q k f m i : join_special E q k = Some f -> valid i -> f m i <> halted h.
Proof.
  intros Hs Hv H. destruct h; cbn [halted] in H.
  - pose proof (quiet_join_special E q k f m Hs i) as Hq. rewrite H in Hq. exact Hq.
  - pose proof (join_special_ok E False False q k f m Hs i Hv) as Hx. rewrite H in Hx. exact Hx.
Qed.

Lemma in_looks pre m q post (ps : list (parser T)) : map (pair Look) ps = pre ++ (m, q) :: post -> m = Look.
Proof.
  intros H. assert (Hin : In (m, q) (map (pair Look) ps)) by (rewrite H; apply in_or_app; right; now left).
  apply in_map_iff in Hin as (x & Hx & _). congruence.
Qed.

(** Looking at the input neither throws nor is undefined. *)
Lemma look_not h n : forall q i, valid i -> run E n Look q i <> halted h.
Proof.
  induction n as [|n IH]; intros p i Hv H; cbn [run] in H; [now apply halted_oof in H|].
  destruct p; cbn [step] in H.
  - now apply (basic_not h (PAnyOf arr) _ _ Look i eq_refl Hv).
  - now apply (basic_not h (PNoneOf arr) _ _ Look i eq_refl Hv).
  - now apply (basic_not h (PAllOf arr) _ _ Look i eq_refl Hv).
  - now apply (basic_not h PAnything _ _ Look i eq_refl Hv).
  - now apply halted_ret in H.
  - unfold choice_look in H. destruct (result_fors E (p :: ps)); [|now apply halted_ill in H].
    apply bind_halted in H as [H|([[] []] & tr & _ & H)]; try now apply halted_ret in H.
    apply or_halts in H as (pre & m & q & post & Hm & _ & H); auto. rewrite modes_look in Hm. apply in_looks in Hm as ->. eapply IH; eauto.
  - unfold sequence_look in H. destruct (result_fors E (p :: ps)); [|now apply halted_ill in H].
    apply bind_halted in H as [H|([[] []] & tr & _ & H)]; try now apply halted_ret in H.
    apply and_halts in H as (pre & m & q & post & j & Hm & _ & Hj & H); auto. rewrite modes_look in Hm. apply in_looks in Hm as ->. eapply IH; eauto.
  - unfold maybe_look in H. apply bind_halted in H as [H|(r & tr & _ & H)]; [eapply IH; eauto|]. destruct (has_value r); now apply halted_ret in H.
  - destruct (n0 =? 0); [now apply halted_ill in H|]. unfold exactly_look in H.
    apply bind_halted in H as [H|([[]|] & tr & _ & H)]; try now apply halted_ret in H.
    apply exactly_halts in H as (c & j & _ & _ & Hj & H); auto. eapply IH; eauto.
  - unfold one_or_more_look in H. apply bind_halted in H as [H|([[] []] & tr & _ & H)]; try now apply halted_ret in H.
    apply rep_halts in H as (c & j & _ & Hj & H); auto. eapply IH; eauto.
  - unfold zero_or_more_look in H. apply bind_halted in H as [H|([[] ?] & tr & _ & H)]; try now apply halted_ret in H.
    apply rep_halts in H as (c & j & _ & Hj & H); auto. eapply IH; eauto.
  - unfold delimit_look in H. apply bind_halted in H as [H|([[v|] mid] & tr & Hr & H)]; [eapply IH; eauto| |now apply halted_ret in H].
    cbn [has_value r_ok] in H. apply bind_halted in H as [H|([] & ? & _ & H)]; [|now apply halted_ret in H].
    apply delim_halts in H as [(c & j & _ & Hj & H)|(c & j & _ & Hj & H)]; [| |eapply run_valid; eauto]; eapply IH; eauto.
  - eapply IH; eauto.
  - unfold complete_run in H. apply bind_halted in H as [H|(r & tr & _ & H)]; [eapply IH; eauto|]. destruct (_ || _); now apply halted_ret in H.
  - destruct (join_special E p n) eqn:Hs; [now apply (special_not h _ _ _ Look i Hs Hv)|]. eapply IH; eauto.
  - eapply IH; eauto.
  - eapply IH; eauto.
  - eapply IH; eauto.
  - eapply IH; eauto.
Qed.

Lemma call_halted h f args : call E f args = halted h -> exists e, h = Threw e /\ invoke E f args = FThrow e.
Proof. unfold call. destruct (invoke E f args) eqn:Hi, h; cbn; intros H; try discriminate. injection H as ->. eauto. Qed.

Lemma join_no_throw x rem e : join_executor x rem <> Exn e.
Proof. intros H. pose proof (exn_join (fun _ => False) x rem) as Hx. rewrite H in Hx. exact Hx. Qed.

Theorem run_halts h n : forall p i, valid i -> run E n Parse p i = halted h -> halts p i h.
Proof.
  induction n as [|n IH]; intros p i Hv H; cbn [run] in H; [now apply halted_oof in H|].
  assert (Hin : forall m q j, valid j -> asks E Parse p i m q j -> run E n m q j = halted h -> halts p i h).
  { intros [] q j Hj Ha Hr; [|exfalso; eapply look_not; eauto]. eapply halt_inside; eauto. }
  destruct p; cbn [step] in H.
  - exfalso. now apply (basic_not h (PAnyOf arr) _ _ Parse i eq_refl Hv).
  - exfalso. now apply (basic_not h (PNoneOf arr) _ _ Parse i eq_refl Hv).
  - exfalso. now apply (basic_not h (PAllOf arr) _ _ Parse i eq_refl Hv).
  - exfalso. now apply (basic_not h PAnything _ _ Parse i eq_refl Hv).
  - now apply halted_ret in H.
  - unfold choice_parse in H. destruct (result_fors E (p :: ps)) as [tys|] eqn:Ht; [|now apply halted_ill in H].
    cbv zeta in H. destruct (_ || _); [|now apply halted_ill in H].
    apply bind_halted in H as [H|([[] []] & tr & _ & H)]; try now apply halted_ret in H.
    apply or_halts in H as (pre & m & q & post & Hm & Hf & H); auto. rewrite modes_combine in Hm.
    eapply Hin; [exact Hv| |exact H]. eapply ask_choice; eauto.
  - unfold sequence_parse in H. destruct (result_fors E (p :: ps)) as [tys|] eqn:Ht; [|now apply halted_ill in H].
    cbv zeta in H. apply bind_halted in H as [H|([[] []] & tr & _ & H)]; try now apply halted_ret in H.
    apply and_halts in H as (pre & m & q & post & j & Hm & Ha & Hj & H); auto. rewrite modes_seq in Hm.
    eapply Hin; [exact Hj| |exact H]. eapply ask_sequence; eauto.
  - destruct (result_for E p); [|now apply halted_ill in H]. unfold maybe_parse in H.
    apply bind_halted in H as [H|([[v|] mid] & tr & _ & H)]; [eapply Hin; eauto; constructor| |now apply halted_ret in H].
    cbn [r_ok] in H. apply bind_op in H as [? H]; [now apply halted_ret in H|apply op_opt].
  - destruct (n0 =? 0); [now apply halted_ill in H|]. destruct (result_for E p); [|now apply halted_ill in H]. unfold exactly_parse in H.
    apply bind_halted in H as [H|([[]|] & tr & _ & H)]; try now apply halted_ret in H.
    apply exactly_halts in H as (c & j & Hc & Ha & Hj & H); auto.
    + eapply Hin; [exact Hj| |exact H]. econstructor; eauto.
    + destruct (is_void t); cbn; [now left|right]. eexists. split; [reflexivity|]. now rewrite repeat_length.
  - destruct (result_for E p); [|now apply halted_ill in H]. unfold one_or_more_parse in H.
    apply bind_halted in H as [H|([[] []] & tr & _ & H)]; try now apply halted_ret in H.
    apply rep_halts in H as (c & j & Ha & Hj & H); auto. eapply Hin; [exact Hj| |exact H]. econstructor; eauto.
  - destruct (result_for E p); [|now apply halted_ill in H]. unfold zero_or_more_parse in H.
    apply bind_halted in H as [H|([[] ?] & tr & _ & H)]; try now apply halted_ret in H.
    apply rep_halts in H as (c & j & Ha & Hj & H); auto. eapply Hin; [exact Hj| |exact H]. econstructor; eauto.
  - destruct (result_for E p1), (result_for E p2); try now apply halted_ill in H. unfold delimit_parse in H.
    apply bind_halted in H as [H|([[v|] mid] & tr & Hr & H)]; [eapply Hin; eauto; constructor| |now apply halted_ret in H].
    cbn [has_value r_ok] in H. apply bind_halted in H as [H|([] & ? & _ & H)]; [|now apply halted_ret in H].
    apply delim_halts in H as [(c & j & Ha & Hj & H)|(c & j & Ha & Hj & H)]; [| |eapply run_valid; eauto].
    + eapply Hin; [exact Hj| |exact H]. eapply ask_delimiter. econstructor; [eapply run_gives_; eauto|exact Ha].
    + eapply Hin; [exact Hj| |exact H]. eapply ask_delimited. cbn. econstructor; [eapply run_gives_; eauto|exact Ha].
  - eapply Hin; eauto. constructor.
  - unfold complete_run in H. apply bind_halted in H as [H|(r & tr & _ & H)]; [eapply Hin; eauto; constructor|]. destruct (_ || _); now apply halted_ret in H.
  - destruct (join_special E p n) eqn:Hs; [exfalso; now apply (special_not h _ _ _ Parse i Hs Hv)|].
    unfold join_generic in H. destruct (result_for E p); [|now apply halted_ill in H]. destruct (joinable t); [|now apply halted_ill in H].
    unfold join_parse in H. apply bind_halted in H as [H|([[[|x]|] mid] & tr & Hr & H)]; [eapply Hin; eauto; constructor|now apply halted_ill in H| |now apply halted_ret in H].
    cbn [r_ok r_rem] in H. apply bind_halted in H as [H|([] & ? & _ & H)]; try now apply halted_ret in H.
    destruct h; [now apply join_no_throw in H|]. eapply halt_join; [eapply run_gives_; eauto|eapply executor_undefined; eauto].
  - destruct (result_for E (PMap p f)); [|now apply halted_ill in H]. unfold map_parse in H.
    apply bind_halted in H as [H|([[v|] mid] & tr & Hr & H)]; [eapply Hin; eauto; constructor| |now apply halted_ret in H].
    cbn [r_ok r_rem] in H. apply bind_halted in H as [H|(? & ? & _ & H)]; [|now apply halted_ret in H].
    apply call_halted in H as (e & -> & H). eapply halt_map; [eapply run_gives_; eauto|exact H].
  - destruct (result_for E (PFilter p f)); [|now apply halted_ill in H]. unfold filter_parse in H.
    apply bind_halted in H as [H|([[v|] mid] & tr & Hr & H)]; [eapply Hin; eauto; constructor| |now apply halted_ret in H].
    cbn [r_ok r_rem] in H. apply bind_halted in H as [H|([|w] & ? & _ & H)].
    + apply call_halted in H as (e & -> & H). eapply halt_filter; [eapply run_gives_; eauto|exact H].
    + now apply halted_ill in H.
    + destruct (as_bool E w); now apply halted_ret in H.
  - eapply Hin; eauto. constructor.
  - unfold custom_parse in H. apply bind_halted in H as [H|([o mid] & tr & Hr & H)]; [eapply Hin; eauto; exact (ask_custom E Parse c i)|].
    cbn [r_ok r_rem] in H.
    destruct (cust_conv E c) as [|t|t] eqn:Hc, o as [[|v]|]; try (now apply halted_ret in H); try (now apply halted_ill in H).
    + apply bind_halted in H as [H|(? & ? & _ & H)]; [|now apply halted_ret in H].
      apply call_halted in H as (e & -> & H). eapply halt_elem; eauto. eapply run_gives_; eauto.
    + apply bind_halted in H as [H|(? & ? & _ & H)]; [|now apply halted_ret in H].
      apply call_halted in H as (e & -> & H). eapply halt_whole; eauto. eapply run_gives_; eauto.
    + apply bind_halted in H as [H|(? & ? & _ & H)]; [|now apply halted_ret in H].
      apply call_halted in H as (e & -> & H). apply run_refuses_ in Hr as [_ Hr]; auto. eapply halt_whole_no; eauto.
Qed.

(** ** From the relation to the code *)

Definition near {A} h (x : outcome A) : Prop := x = halted h \/ x = Ill.

Lemma near_bind {A B} h (x : outcome A) (f : A -> outcome B) : near h x -> near h (bind x f).
Proof. intros [-> | ->]; [left; now destruct h|now right]. Qed.
Lemma near_done {A B} h (x : outcome A) (f : A -> outcome B) a tr : x = Done a tr -> near h (f a) -> near h (bind x f).
Proof. intros -> [Hf|Hf]; cbn; rewrite Hf; [left; now destruct h|now right]. Qed.
Lemma near_op {A B} h (x : outcome A) (f : A -> outcome B) : pure_op x -> (forall a, x = ret a -> near h (f a)) -> near h (bind x f).
Proof.
  intros Hx Hf. destruct x; cbn in Hx; try contradiction; [|now right]. subst tr. destruct (Hf a eq_refl) as [H|H]; cbn; rewrite H; [left; now destruct h|now right].
Qed.

Section To.
Variable n : nat.
Variable h : halt.

Fixpoint after_n (l : list (mode * parser T)) (i j : span) : Prop :=
  match l with
  | [] => i = j
  | (m, p) :: l' => exists v mid tr, run E n m p i = Done (Res (Some v) mid) tr /\ after_n l' mid j
  end.
Definition fails_n (i : span) (a : mode * parser T) : Prop := exists tr, run E n (fst a) (snd a) i = Done (Res None i) tr.

Lemma or_near u : forall pl pre m q post i b, modes pl = pre ++ (m, q) :: post -> Forall (fails_n i) pre ->
  near h (run E n m q i) -> near h (exec_or (run E n) u pl (i, b)).
Proof.
  induction pl as [|[p idx] pl IH]; intros pre m q post i b Hm Hf Hr; [destruct pre; discriminate|].
  cbn [modes map] in Hm. cbn [exec_or]. destruct pre as [|[m0 q0] pre]; cbn in Hm.
  - injection Hm as <- <- _. apply near_bind. destruct idx; cbn [execute idx_mode] in *; now apply near_bind.
  - injection Hm as <- <- Hm. inversion Hf as [|? ? [tr Ht] Hf']; subst. cbn [fst snd] in Ht.
    assert (He : execute (run E n) CChoice u p idx (i, b) = Done (false, (i, b)) (tr ++ []))
      by (destruct idx; cbn [execute idx_mode] in *; rewrite Ht; reflexivity).
    eapply near_done; [exact He|]. eapply IH; eauto.
Qed.

Lemma and_near u : forall pl pre m q post i j b, modes pl = pre ++ (m, q) :: post -> after_n pre i j ->
  near h (run E n m q j) -> near h (exec_and (run E n) u pl (i, b)).
Proof.
  induction pl as [|[p idx] pl IH]; intros pre m q post i j b Hm Hf Hr; [destruct pre; discriminate|].
  cbn [modes map] in Hm. cbn [exec_and]. destruct pre as [|[m0 q0] pre]; cbn in Hm.
  - injection Hm as <- <- _. cbn in Hf. subst j. apply near_bind. destruct idx; cbn [execute idx_mode] in *; now apply near_bind.
  - injection Hm as <- <- Hm. destruct Hf as (v & mid & tr & Ht & Ha).
    assert (He : (exists b' tr', execute (run E n) CSequence u p idx (i, b) = Done (true, (mid, b')) tr') \/
      execute (run E n) CSequence u p idx (i, b) = Ill).
    { destruct idx; cbn [execute idx_mode] in *; rewrite Ht; cbn [bind r_ok r_rem has_value ret].
      - pose proof (op_store CSequence u n0 b v) as Hop. destruct (store CSequence u n0 b v); cbn in Hop; try contradiction; [|now right].
        left. cbn. eauto.
      - left. eauto. }
    destruct He as [(b' & tr' & He)|He]; [|rewrite He; now right]. eapply near_done; [exact He|]. eapply IH; eauto.
Qed.

Lemma exactly_near m q : forall c k j i i' b, (b = RVoid \/ exists l, b = RVal (VArr l) /\ List.length l = j + k) ->
  c < k -> after_n (repeat (m, q) c) i i' -> near h (run E n m q i') -> near h (exactly_loop (run E n m q) k j i b).
Proof.
  induction c as [|c IH]; intros [|k] j i i' b Hb Hc Ha Hr; try lia; cbn [exactly_loop].
  - cbn in Ha. subst i'. now apply near_bind.
  - destruct Ha as (v & mid & tr & Ht & Ha). eapply near_done; [exact Ht|]. cbn [r_ok r_rem].
    apply near_op.
    + destruct Hb as [-> |(l & -> & Hl)]; [reflexivity|]. destruct v; cbn [b_array_assign]; [exact Logic.I|].
      destruct (Nat.ltb_spec j (List.length l)); [reflexivity|lia].
    + intros b' Hb'. eapply IH; eauto; [|lia]. destruct Hb as [-> |(l & -> & Hl)]; [injection Hb' as <-; now left|].
      destruct v; cbn [b_array_assign] in Hb'; [discriminate|]. destruct (Nat.ltb_spec j (List.length l)); [|discriminate].
      injection Hb' as <-. right. eexists. split; [reflexivity|]. rewrite upd_len. lia.
Qed.

Lemma rep_near m q : forall c k i i' b s, c < k -> after_n (repeat (m, q) c) i i' -> near h (run E n m q i') ->
  near h (rep_loop (run E n m q) k i b s).
Proof.
  induction c as [|c IH]; intros [|k] i i' b s Hc Ha Hr; try lia; cbn [rep_loop].
  - cbn in Ha. subst i'. now apply near_bind.
  - destruct Ha as (v & mid & tr & Ht & Ha). eapply near_done; [exact Ht|]. cbn [r_ok r_rem].
    apply near_op; [apply op_insert|]. intros b' _. eapply IH; eauto. lia.
Qed.

Lemma delim_near m q d pv dv : forall c k v mid i j b, c < k ->
  (after_n (concat (repeat [(m, d); (m, q)] c)) mid j /\ near h (run E n m d j) \/
   after_n (concat (repeat [(m, d); (m, q)] c) ++ [(m, d)]) mid j /\ near h (run E n m q j)) ->
  near h (delim_loop (run E n m q) (run E n m d) pv dv k (Res (Some v) mid) i b).
Proof.
  induction c as [|c IH]; intros [|k] v mid i j b Hc H; try lia; cbn [delim_loop r_ok r_rem];
    (apply near_op; [destruct pv; [apply op_ret|]; destruct dv; [apply op_insert|apply op_insert1]|]; intros b1 _).
  - cbn in H. destruct H as [[<- H]|[(w & mid1 & tr & Ht & <-) H]]; [now apply near_bind|].
    eapply near_done; [exact Ht|]. cbn [r_ok r_rem]. now apply near_bind.
  - assert (H' : exists w mid1 tr v' mid2 tr', run E n m d mid = Done (Res (Some w) mid1) tr /\ run E n m q mid1 = Done (Res (Some v') mid2) tr' /\
      (after_n (concat (repeat [(m, d); (m, q)] c)) mid2 j /\ near h (run E n m d j) \/
       after_n (concat (repeat [(m, d); (m, q)] c) ++ [(m, d)]) mid2 j /\ near h (run E n m q j))).
    { destruct H as [[(w & mid1 & tr & Ht & v' & mid2 & tr' & Ht' & Ha) H]|[(w & mid1 & tr & Ht & v' & mid2 & tr' & Ht' & Ha) H]];
        exists w, mid1, tr, v', mid2, tr'; auto. }
    destruct H' as (w & mid1 & tr & v' & mid2 & tr' & Ht & Ht' & H').
    eapply near_done; [exact Ht|]. cbn [r_ok r_rem]. eapply near_done; [exact Ht'|]. cbn [has_value r_ok].
    apply near_op; [destruct dv; [apply op_ret|]; destruct pv; [apply op_insert|apply op_insert2]|]. intros b2 _.
    eapply IH; eauto. lia.
Qed.
End To.

Lemma after_n_later l i j : after E l i j -> exists N, forall n, N <= n -> after_n n l i j.
Proof.
  induction 1 as [i|m p l i v mid j tr Hg _ [N IH]]; [exists 0; reflexivity|].
  apply evals_ge in Hg as [N' HN']. exists (N + N'). intros n Hn. exists v, mid, tr. split; [apply HN'; lia|apply IH; lia].
Qed.
Lemma fails_n_later l i : Forall (fails E i) l -> exists N, forall n, N <= n -> Forall (fails_n n i) l.
Proof.
  induction 1 as [|[m p] l [tr Ht] _ [N IH]]; [exists 0; constructor|].
  apply evals_ge in Ht as [N' HN']. exists (N + N'). intros n Hn. constructor; [exists tr; apply HN'; lia|apply IH; lia].
Qed.

Lemma basic_halts p fc len i h : elementary E p = Some (fc, len) -> ~ halts p i h.
Proof. intros He H. destruct p; try discriminate; inversion H; subst; match goal with Ha : asks _ _ _ _ _ _ _ |- _ => inversion Ha end. Qed.

Lemma special_halts q k f i h : join_special E q k = Some f -> ~ halts q i h.
Proof.
  intros Hs H. destruct q; try discriminate; cbn [join_special] in Hs;
    (destruct (as_basic E q) as [[fc len]|] eqn:Hb; [|discriminate]); apply as_basic_elementary in Hb;
    inversion H; subst; match goal with Ha : asks _ _ _ _ _ _ _ |- _ => inversion Ha; subst end; eapply basic_halts; eauto.
Qed.

Lemma step_near h p i m q j : asks E Parse p i m q j -> (forall k f, p = PJoin q -> join_special E q k <> Some f) ->
  (exists N, forall n, N <= n -> near h (run E n m q j)) -> exists N, forall n, N <= n -> near h (run E n Parse p i).
Proof.
  intros Ha Hs [N HN].
  inversion Ha; subst.
  - destruct (fails_n_later _ _ H1) as [N' HN']. exists (S (N + N')). intros [|n] Hn; [lia|]. cbn [run step]. unfold choice_parse.
    rewrite H. cbv zeta. destruct (_ || _); [|now right]. apply near_bind. eapply or_near; [rewrite modes_combine; exact H0|apply HN'; lia|apply HN; lia].
  - destruct (after_n_later _ _ _ H1) as [N' HN']. exists (S (N + N')). intros [|n] Hn; [lia|]. cbn [run step]. unfold sequence_parse.
    rewrite H. cbv zeta. apply near_bind. eapply and_near; [rewrite modes_seq; exact H0|apply HN'; lia|apply HN; lia].
  - destruct (after_n_later _ _ _ H0) as [N' HN']. exists (S (N + N')). intros [|n'] Hn; [lia|]. cbn [run step].
    destruct (n =? 0); [now right|]. destruct (result_for E q); [|now right]. unfold exactly_parse. apply near_bind.
    eapply exactly_near; [|exact H|apply HN'; lia|apply HN; lia].
    destruct (is_void t); cbn; [now left|right]. eexists. split; [reflexivity|]. now rewrite repeat_length.
  - destruct (after_n_later _ _ _ H) as [N' HN']. exists (S (N + N' + S k)). intros [|n'] Hn; [lia|]. cbn [run step].
    destruct (result_for E q); [|now right]. unfold one_or_more_parse. apply near_bind.
    eapply rep_near with (c := k); [lia|apply HN'; lia|apply HN; lia].
  - destruct (after_n_later _ _ _ H) as [N' HN']. exists (S (N + N' + S k)). intros [|n'] Hn; [lia|]. cbn [run step].
    destruct (result_for E q); [|now right]. unfold zero_or_more_parse. apply near_bind.
    eapply rep_near with (c := k); [lia|apply HN'; lia|apply HN; lia].
  - exists (S N). intros [|n'] Hn; [lia|]. cbn [run step]. destruct (result_for E q), (result_for E d); try now right.
    unfold delimit_parse. apply near_bind. apply HN. lia.
  - destruct (after_n_later _ _ _ H) as [N' HN']. exists (S (N + N' + S k)). intros [|n'] Hn; [lia|]. cbn [run step].
    destruct (HN' n' ltac:(lia)) as (v & mid & tr & Hr & Hk).
    destruct (result_for E q0), (result_for E q); try now right.
    unfold delimit_parse. eapply near_done; [exact Hr|]. cbn [has_value r_ok]. apply near_bind.
    eapply delim_near with (c := k); [lia|]. left. split; [exact Hk|apply HN; lia].
  - destruct (after_n_later _ _ _ H) as [N' HN']. exists (S (N + N' + S k)). intros [|n'] Hn; [lia|]. cbn [run step].
    destruct (HN' n' ltac:(lia)) as (v & mid & tr & Hr & Hk).
    destruct (result_for E q), (result_for E d); try now right.
    unfold delimit_parse. eapply near_done; [exact Hr|]. cbn [has_value r_ok]. apply near_bind.
    eapply delim_near with (c := k); [lia|]. right. split; [exact Hk|apply HN; lia].
  - exists (S N). intros [|n'] Hn; [lia|]. cbn [run step]. destruct (result_for E q); [|now right]. unfold maybe_parse. apply near_bind. apply HN. lia.
  - exists (S N). intros [|n'] Hn; [lia|]. cbn [run step]. apply HN. lia.
  - exists (S N). intros [|n'] Hn; [lia|]. cbn [run step]. unfold complete_run. apply near_bind. apply HN. lia.
  - exists (S N). intros [|n'] Hn; [lia|]. cbn [run step]. destruct (join_special E q n') eqn:Hj; [now apply Hs in Hj|].
    unfold join_generic. destruct (result_for E q); [|now right]. destruct (joinable t); [|now right]. unfold join_parse. apply near_bind. apply HN. lia.
  - exists (S N). intros [|n'] Hn; [lia|]. cbn [run step]. destruct (result_for E (PMap q f)); [|now right]. unfold map_parse. apply near_bind. apply HN. lia.
  - exists (S N). intros [|n'] Hn; [lia|]. cbn [run step]. destruct (result_for E (PFilter q f)); [|now right]. unfold filter_parse. apply near_bind. apply HN. lia.
  - exists (S N). intros [|n'] Hn; [lia|]. cbn [run step]. apply HN. lia.
  - exists (S N). intros [|n'] Hn; [lia|]. cbn [run step]. unfold custom_parse. apply near_bind. apply HN. lia.
Qed.

Lemma near_call h f args e : invoke E f args = FThrow e -> h = Threw e -> near h (call E f args).
Proof. intros H ->. left. unfold call. now rewrite H. Qed.

Lemma special_local q k f : join_special E q k = Some f -> local_parser E q.
Proof.
  intros Hs r Hr. destruct q; try discriminate; cbn [join_special] in Hs;
    (destruct (as_basic E q) as [[fc len]|] eqn:Hb; [|discriminate]); apply as_basic_elementary in Hb;
    (inversion Hr as [|? q1 ? Hin Hr']; subst; [exact Logic.I|]; cbn in Hin; destruct Hin as [<-|[]];
     destruct q; try discriminate; inversion Hr'; subst; try exact Logic.I; contradiction).
Qed.

Lemma local_together q i x rem tr : local_parser E q -> valid i -> gives E Parse q i (RVal x) rem tr -> ~ scattered (leaves x).
Proof.
  intros Hl Hv Hg (pre & s & post & b & lo & hi & H1 & H2 & H3 & H4).
  apply evals_sound in Hg as [_ Hd]; auto. destruct (derives_region E _ _ _ _ _ _ Hl Hd) as [_ Hreg].
  cbn [rv_leaves] in Hreg. rewrite H1, Forall_forall in Hreg.
  assert (Hb : b = sp_blk i).
  { inversion H3; subst; [now destruct H2|]. apply (Hreg (Span b lo n)). apply in_or_app. left. now left. }
  apply H4. rewrite Hb. apply Hreg. apply in_or_app. right. now left.
Qed.

Lemma after_valid l i j : after E l i j -> valid i -> valid j.
Proof. induction 1; auto. intros Hv. apply IHafter. eapply gives_valid; eauto. Qed.
Lemma asks_valid m p i m' q j : asks E m p i m' q j -> valid i -> valid j.
Proof. intros H Hv. inversion H; subst; auto; eapply after_valid; eauto. Qed.

Theorem halts_near p i h : halts p i h -> valid i -> exists N, forall n, N <= n -> near h (run E n Parse p i).
Proof.
  induction 1; intros Hv.
  - apply evals_ge in H as [N HN]. exists (S N). intros [|n] Hn; [lia|]. cbn [run step].
    destruct (result_for E (PMap q f)); [|now right]. unfold map_parse. eapply near_done; [apply HN; lia|]. cbn [r_ok].
    apply near_bind. eapply near_call; eauto.
  - apply evals_ge in H as [N HN]. exists (S N). intros [|n] Hn; [lia|]. cbn [run step].
    destruct (result_for E (PFilter q f)); [|now right]. unfold filter_parse. eapply near_done; [apply HN; lia|]. cbn [r_ok].
    apply near_bind. eapply near_call; eauto.
  - apply evals_ge in H0 as [N HN]. exists (S N). intros [|n] Hn; [lia|]. cbn [run step]. unfold custom_parse.
    eapply near_done; [apply HN; lia|]. rewrite H. cbn [r_ok]. apply near_bind. eapply near_call; eauto.
  - apply evals_ge in H0 as [N HN]. exists (S N). intros [|n] Hn; [lia|]. cbn [run step]. unfold custom_parse.
    eapply near_done; [apply HN; lia|]. rewrite H. cbn [r_ok]. apply near_bind. eapply near_call; eauto.
  - apply evals_ge in H0 as [N HN]. exists (S N). intros [|n] Hn; [lia|]. cbn [run step]. unfold custom_parse.
    eapply near_done; [apply HN; lia|]. rewrite H. cbn [r_ok]. apply near_bind. eapply near_call; eauto.
  - pose proof H as Hg. apply evals_ge in H as [N HN]. exists (S N). intros [|n] Hn; [lia|]. cbn [run step].
    destruct (join_special E q n) eqn:Hs; [exfalso; apply special_local in Hs; eapply local_together; eauto|].
    unfold join_generic. destruct (result_for E q); [|now right]. destruct (joinable t); [|now right]. unfold join_parse.
    eapply near_done; [apply HN; lia|]. cbn [r_ok r_rem]. apply near_bind. now apply executor_scattered.
  - eapply step_near; [exact H| |apply IHhalts; eapply asks_valid; eauto]. intros k f -> Hs. inversion H; subst. eapply special_halts; eauto.
Qed.
End Raises.

(** ** Longer inputs *)
Section Grow.
Context {T V : Type} (E : env T V) (k : nat).
Notation valid := (valid E).

Lemma gives_grow m p i v rem tr : valid (grow k i) -> gives E m p i v rem tr ->
  sees_end E m p i \/ gives E m p (grow k i) v (grow k rem) tr.
Proof.
  intros Hg H. assert (Hv : valid i) by (unfold Sound.valid in *; cbn in *; lia). apply gives_big in H; auto.
  destruct (proj1 (extend E k) _ _ _ _ _ H Hv) as [Hs|Hb]; [now left|right]. now apply gives_big.
Qed.
Lemma refuses_grow m p i tr : valid (grow k i) -> refuses E m p i tr -> sees_end E m p i \/ refuses E m p (grow k i) tr.
Proof.
  intros Hg H. assert (Hv : valid i) by (unfold Sound.valid in *; cbn in *; lia). apply refuses_big in H; auto.
  destruct (proj1 (extend E k) _ _ _ _ _ H Hv) as [Hs|Hb]; [now left|right]. now apply refuses_big.
Qed.

Lemma gives_grow_valid m p i v rem tr : valid (grow k i) -> gives E m p i v rem tr -> valid (grow k rem).
Proof.
  intros Hg H. assert (Hv : valid i) by (unfold Sound.valid in *; cbn in *; lia). apply gives_big in H; auto.
  destruct (proj1 (proj1 (big_suffix E) _ _ _ _ _ H)) as (c & Hc & Hr). cbn in Hr. subst rem. unfold Sound.valid in *. cbn in *. lia.
Qed.

Lemma fails_grow l i : valid (grow k i) -> Forall (fails E i) l -> sees_first E l i \/ Forall (fails E (grow k i)) l.
Proof.
  intros Hg. induction 1 as [|[m p] l [tr Ht] Hl IH]; [right; constructor|]. cbn in Ht.
  destruct (refuses_grow _ _ _ _ Hg Ht) as [Hs|Hr].
  - left. exists [], m, p, l. split; [reflexivity|]. split; [constructor|exact Hs].
  - destruct IH as [(pre & m' & q & post & -> & Hp & Hs)|Hr']; [left|right; constructor; auto; now exists tr].
    exists ((m, p) :: pre), m', q, post. split; [reflexivity|]. split; auto. constructor; auto. now exists tr.
Qed.

Lemma after_grow l i j : after E l i j -> valid (grow k i) ->
  sees_chain E l i \/ after E l (grow k i) (grow k j).
Proof.
  induction 1 as [i|m p l i v mid j tr Hg Ha IH]; intros Hv; [right; constructor|].
  destruct (gives_grow _ _ _ _ _ _ Hv Hg) as [Hs|Hr].
  - left. exists [], m, p, l, i. split; [reflexivity|]. split; [constructor|exact Hs].
  - destruct (IH (gives_grow_valid _ _ _ _ _ _ Hv Hg)) as [(pre & m' & q & post & j' & -> & Hp & Hs)|Hr'];
      [left|right; econstructor; eauto].
    exists ((m, p) :: pre), m', q, post, j'. split; [reflexivity|]. split; auto. econstructor; eauto.
Qed.

Lemma delim_pos (m : mode) (q d : parser T) c : forall pre m' r post,
  concat (repeat [(m, d); (m, q)] c) = pre ++ (m', r) :: post -> m' = m /\
  (r = d /\ (exists c', pre = concat (repeat [(m, d); (m, q)] c')) \/
   r = q /\ (exists c', pre = concat (repeat [(m, d); (m, q)] c') ++ [(m, d)])).
Proof.
  induction c as [|c IH]; intros pre m' r post H; [destruct pre; discriminate|]. cbn in H.
  destruct pre as [|x pre]; cbn in H.
  - injection H as <- <- _. split; auto. left. split; auto. now exists 0.
  - injection H as <- H. destruct pre as [|y pre]; cbn in H.
    + injection H as <- <- _. split; auto. right. split; auto. now exists 0.
    + injection H as <- H. destruct (IH _ _ _ _ H) as [-> [[-> [c' ->]]|[-> [c' ->]]]]; split; auto.
      * left. split; auto. now exists (S c').
      * right. split; auto. now exists (S c').
Qed.

Lemma delim_asks (m : mode) q d c i m' r j pre post :
  ((m, q) :: concat (repeat [(m, d); (m, q)] c) = pre ++ (m', r) :: post \/
   (m, q) :: concat (repeat [(m, d); (m, q)] c) ++ [(m, d)] = pre ++ (m', r) :: post) ->
  after E pre i j -> asks E m (PDelimit q d) i m' r j.
Proof.
  intros H Ha. destruct pre as [|x pre].
  - assert (m' = m /\ r = q) as [-> ->] by (destruct H as [H|H]; cbn in H; injection H; auto).
    inversion Ha; subst. constructor.
  - assert (H' : x = (m, q) /\ (concat (repeat [(m, d); (m, q)] c) = pre ++ (m', r) :: post \/
       concat (repeat [(m, d); (m, q)] c) ++ [(m, d)] = pre ++ (m', r) :: post)).
    { destruct H as [H|H]; cbn in H; injection H as <- H; auto. }
    destruct H' as [-> H'].
    assert (H2 : exists post', concat (repeat [(m, d); (m, q)] (S c)) = pre ++ (m', r) :: post').
    { cbn [repeat concat]. replace ([(m, d); (m, q)] ++ concat (repeat [(m, d); (m, q)] c)) with ((concat (repeat [(m, d); (m, q)] c) ++ [(m, d)]) ++ [(m, q)]).
      - destruct H' as [H'|H']; rewrite H'; [|exists (post ++ [(m, q)]); now rewrite <- app_assoc].
        exists ((post ++ [(m, d)]) ++ [(m, q)]). now rewrite <- !app_assoc.
      - clear. induction c as [|c IH]; [reflexivity|]. cbn [repeat concat]. rewrite <- IH at 2. cbn. now rewrite <- !app_assoc. }
    destruct H2 as [post' H2]. destruct (delim_pos _ _ _ _ _ _ _ _ H2) as [-> [[-> [c' ->]]|[-> [c' ->]]]].
    + eapply ask_delimiter; eauto.
    + eapply ask_delimited; eauto.
Qed.

Lemma asks_grow m p i m' q j : asks E m p i m' q j -> valid (grow k i) ->
  sees_end E m p i \/ asks E m p (grow k i) m' q (grow k j) /\ valid (grow k j).
Proof.
  intros Ha Hv. assert (HA : forall l j', after E l i j' -> valid (grow k j')).
  { intros l j' H. clear -H Hv. induction H; auto. apply IHafter. eapply gives_grow_valid; eauto. }
  inversion Ha; subst; try (right; split; [constructor|assumption]).
  - destruct (fails_grow _ _ Hv H1) as [(pre' & m0 & q1 & post' & -> & Hp & Hs)|Hr].
    + left. eapply see_inside; [|exact Hs]. eapply ask_choice; eauto. rewrite H0, <- app_assoc. reflexivity.
    + right. split; [eapply ask_choice; eauto|auto].
  - destruct (fails_grow _ _ Hv H0) as [(pre' & m0 & q1 & post' & -> & Hp & Hs)|Hr].
    + left. eapply see_inside; [|exact Hs]. eapply ask_choice_look; eauto. rewrite H, <- app_assoc. reflexivity.
    + right. split; [eapply ask_choice_look; eauto|auto].
  - destruct (after_grow _ _ _ H1 Hv) as [(pre' & m0 & q1 & post' & j' & -> & Hp & Hs)|Hr].
    + left. eapply see_inside; [|exact Hs]. eapply ask_sequence; eauto. rewrite H0, <- app_assoc. reflexivity.
    + right. split; [eapply ask_sequence; eauto|eauto].
  - destruct (after_grow _ _ _ H0 Hv) as [(pre' & m0 & q1 & post' & j' & -> & Hp & Hs)|Hr].
    + left. eapply see_inside; [|exact Hs]. eapply ask_sequence_look; eauto. rewrite H, <- app_assoc. reflexivity.
    + right. split; [eapply ask_sequence_look; eauto|eauto].
  - destruct (after_grow _ _ _ H0 Hv) as [(pre' & m0 & q1 & post' & j' & Hl & Hp & Hs)|Hr].
    + left. destruct (repeat_split _ _ _ _ _ Hl) as ([= -> ->] & Hr & Hn). rewrite Hr in Hp. eapply see_inside; [|exact Hs]. eapply ask_exactly; [|exact Hp]. lia.
    + right. split; [eapply ask_exactly; eauto|eauto].
  - destruct (after_grow _ _ _ H Hv) as [(pre' & m0 & q1 & post' & j' & Hl & Hp & Hs)|Hr].
    + left. destruct (repeat_split _ _ _ _ _ Hl) as ([= -> ->] & Hr & Hn). rewrite Hr in Hp. eapply see_inside; [|exact Hs]. eapply ask_one_or_more; exact Hp.
    + right. split; [eapply ask_one_or_more; eauto|eauto].
  - destruct (after_grow _ _ _ H Hv) as [(pre' & m0 & q1 & post' & j' & Hl & Hp & Hs)|Hr].
    + left. destruct (repeat_split _ _ _ _ _ Hl) as ([= -> ->] & Hr & Hn). rewrite Hr in Hp. eapply see_inside; [|exact Hs]. eapply ask_zero_or_more; exact Hp.
    + right. split; [eapply ask_zero_or_more; eauto|eauto].
  - destruct (after_grow _ _ _ H Hv) as [(pre' & m0 & q1 & post' & j' & Hl & Hp & Hs)|Hr].
    + left. eapply see_inside; [|exact Hs]. eapply delim_asks; [left; exact Hl|exact Hp].
    + right. split; [eapply ask_delimiter; eauto|eauto].
  - destruct (after_grow _ _ _ H Hv) as [(pre' & m0 & q1 & post' & j' & Hl & Hp & Hs)|Hr].
    + left. eapply see_inside; [|exact Hs]. eapply delim_asks; [right; exact Hl|exact Hp].
    + right. split; [eapply ask_delimited; eauto|eauto].
Qed.

Theorem halts_grow p i h : halts E p i h -> valid (grow k i) -> sees_end E Parse p i \/ halts E p (grow k i) h.
Proof.
  induction 1; intros Hv.
  - destruct (gives_grow _ _ _ _ _ _ Hv H) as [Hs|Hg]; [left; eapply see_inside; [constructor|exact Hs]|right; eapply halt_map; eauto].
  - destruct (gives_grow _ _ _ _ _ _ Hv H) as [Hs|Hg]; [left; eapply see_inside; [constructor|exact Hs]|right; eapply halt_filter; eauto].
  - destruct (gives_grow _ _ _ _ _ _ Hv H0) as [Hs|Hg]; [left; eapply see_inside; [apply ask_custom|exact Hs]|right; eapply halt_elem; eauto].
  - destruct (gives_grow _ _ _ _ _ _ Hv H0) as [Hs|Hg]; [left; eapply see_inside; [apply ask_custom|exact Hs]|right; eapply halt_whole; eauto].
  - destruct (refuses_grow _ _ _ _ Hv H0) as [Hs|Hg]; [left; eapply see_inside; [apply ask_custom|exact Hs]|right; eapply halt_whole_no; eauto].
  - destruct (gives_grow _ _ _ _ _ _ Hv H) as [Hs|Hg]; [left; eapply see_inside; [constructor|exact Hs]|right; eapply halt_join; eauto].
  - destruct (asks_grow _ _ _ _ _ _ H Hv) as [Hs|[Ha Hj]]; [now left|]. destruct (IHhalts Hj) as [Hs|Hh].
    + left. eapply see_inside; eauto.
    + right. eapply halt_inside; eauto.
Qed.
End Grow.

(** ** Programs that compile *)
Section Programs.
Context {T V : Type} (E : env T V).

Lemma halted_run {A} h : (@halted A h) <> OOF.
Proof. now destruct h. Qed.

Lemma halts_evals p i h : env_typed E -> env_customs E -> valid E i -> compiles E Parse p = true ->
  (evals E Parse p i (halted h) <-> halts E p i h).
Proof.
  intros Ht Hc Hv Hp. split.
  - intros [_ [n Hn]]. eapply run_halts; eauto.
  - intros H. destruct (halts_near E p i h H Hv) as [N HN]. split; [apply halted_run|]. exists N.
    destruct (HN N (le_n N)) as [Hr|Hr]; auto. exfalso. eapply run_compiled; eauto.
Qed.

Lemma halts_any p i h : valid E i -> evals E Parse p i (halted h) -> halts E p i h.
Proof. intros Hv [_ [n Hn]]. eapply run_halts; eauto. Qed.
End Programs.
