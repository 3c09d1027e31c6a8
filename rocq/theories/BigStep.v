(** * Natural semantics: what each combinator does, in terms of its components only

    [big E m p i r tr]: parser [p] in mode [m] on input [i] returns [r] having made the user
    calls [tr].  No fuel, no builders, no loops: one rule per way a combinator can end.
    [evals_big] at the end shows that the model of the code does exactly this. *)
From Coq Require Import String List Arith ZArith Bool Lia.
From Verif Require Import Types Compound Parser Outcome CompoundFacts Exec Mono Derive Typing Join Leaves Sound.
Import ListNotations.
Local Open Scope outcome_scope.

(** A part with index -1 is only looked at (helpers.h:156-162). *)
Definition idx_mode (x : index) : mode := match x with None => Look | Some _ => Parse end.

(** Alternatives / parts with the mode they are run in. *)
Definition alts {T} (tys : list ty) (ps : list (parser T)) : list (mode * parser T) :=
  combine (map idx_mode (snd (filter_out_void_deduplicate tys))) ps.

(** What the choice returns when its [j]-th alternative returned [v]. *)
Inductive delivered (tys : list ty) : nat -> rv -> rv -> Prop :=
| del_val j k w :
    nth_error (snd (filter_out_void_deduplicate tys)) j = Some (Some k) ->
    delivered tys j (RVal w)
      (RVal (if unwrapped (fst (filter_out_void_deduplicate tys)) then w else VVar k w))
| del_lost j v :
    nth_error (snd (filter_out_void_deduplicate tys)) j = Some None ->
    delivered tys j v (builder_init (compound_result TVar (fst (filter_out_void_deduplicate tys)))).

Definition choice_wf (tys : list ty) : Prop :=
  unwrapped (fst (filter_out_void_deduplicate tys))
  || emplace_ok (fst (filter_out_void_deduplicate tys)) tys (snd (filter_out_void_deduplicate tys)) = true.

Section Big.
Context {T V : Type} (E : env T V).

(** A parsed value of non-void type is a value. *)
Definition shaped (m : mode) (p : parser T) (v : rv) : Prop :=
  m = Parse -> forall t, result_for E p = Some t -> t <> TVoid -> exists w, v = RVal w.

(** The first element of the input. *)
Definition head_is (i : span) (P : V -> Prop) : Prop :=
  0 < sp_len i /\ exists c, nth_error (mem E (sp_blk i)) (sp_off i) = Some c /\ P c.
Definition in_set (arr : list T) (c : V) : Prop := exists t, In t arr /\ eqv E t c = true.
Definition prefix_is (i : span) (arr : list T) : Prop :=
  List.length arr <= sp_len i /\ matches_at E (sp_blk i) arr (sp_off i).

Definition ok1 (m : mode) (i : span) (n : nat) : presult :=
  Res (Some (in_mode m (VSpan (Span (sp_blk i) (sp_off i) n)))) (adv i n).

Definition bump (o : option (nat * rv * span)) : option (nat * rv * span) :=
  match o with Some (j, v, r) => Some (S j, v, r) | None => None end.
Definition push (v : rv) (o : option (list rv * span)) : option (list rv * span) :=
  match o with Some (vs, r) => Some (v :: vs, r) | None => None end.

Inductive big : mode -> parser T -> span -> presult -> list event -> Prop :=
| B_any_ok m arr i : head_is i (in_set arr) -> big m (PAnyOf arr) i (ok1 m i 1) []
| B_any_no m arr i : ~ head_is i (in_set arr) -> big m (PAnyOf arr) i (Res None i) []
| B_none_ok m arr i : head_is i (fun c => ~ in_set arr c) -> big m (PNoneOf arr) i (ok1 m i 1) []
| B_none_no m arr i : ~ head_is i (fun c => ~ in_set arr c) -> big m (PNoneOf arr) i (Res None i) []
| B_all_ok m arr i : prefix_is i arr -> big m (PAllOf arr) i (ok1 m i (List.length arr)) []
| B_all_no m arr i : ~ prefix_is i arr -> big m (PAllOf arr) i (Res None i) []
| B_anything_ok m i : 0 < sp_len i -> big m PAnything i (ok1 m i 1) []
| B_anything_no m i : sp_len i = 0 -> big m PAnything i (Res None i) []
| B_eps m i : big m PEpsilon i (Res (Some RVoid) i) []
| B_choice_ok q qs tys i j v w rem tr :
    result_fors E (q :: qs) = Some tys -> choice_wf tys ->
    bfirst (alts tys (q :: qs)) i (Some (j, v, rem)) tr -> delivered tys j v w ->
    big Parse (PChoice q qs) i (Res (Some w) rem) tr
| B_choice_no q qs tys i tr :
    result_fors E (q :: qs) = Some tys -> choice_wf tys ->
    bfirst (alts tys (q :: qs)) i None tr ->
    big Parse (PChoice q qs) i (Res None i) tr
| B_choice_look_ok q qs tys i j v rem tr :
    result_fors E (q :: qs) = Some tys ->
    bfirst (map (pair Look) (q :: qs)) i (Some (j, v, rem)) tr ->
    big Look (PChoice q qs) i (Res (Some RVoid) rem) tr
| B_choice_look_no q qs tys i tr :
    result_fors E (q :: qs) = Some tys ->
    bfirst (map (pair Look) (q :: qs)) i None tr ->
    big Look (PChoice q qs) i (Res None i) tr
| B_seq_ok q qs tys i vs ws rem tr :
    result_fors E (q :: qs) = Some tys ->
    bchain (parts tys (q :: qs)) i (Some (vs, rem)) tr -> kept tys vs ws ->
    big Parse (PSequence q qs) i (Res (Some (tuple_of ws)) rem) tr
| B_seq_no q qs tys i tr :
    result_fors E (q :: qs) = Some tys ->
    bchain (parts tys (q :: qs)) i None tr ->
    big Parse (PSequence q qs) i (Res None i) tr
| B_seq_look_ok q qs tys i vs rem tr :
    result_fors E (q :: qs) = Some tys ->
    bchain (map (pair Look) (q :: qs)) i (Some (vs, rem)) tr ->
    big Look (PSequence q qs) i (Res (Some RVoid) rem) tr
| B_seq_look_no q qs tys i tr :
    result_fors E (q :: qs) = Some tys ->
    bchain (map (pair Look) (q :: qs)) i None tr ->
    big Look (PSequence q qs) i (Res None i) tr
| B_maybe_some q t i v w rem tr :
    result_for E q = Some t -> big Parse q i (Res (Some v) rem) tr ->
    (t = TVoid /\ w = RVoid \/ t <> TVoid /\ exists x, v = RVal x /\ w = RVal (VOpt (Some x))) ->
    big Parse (PMaybe q) i (Res (Some w) rem) tr
| B_maybe_none q t i tr :
    result_for E q = Some t -> big Parse q i (Res None i) tr ->
    big Parse (PMaybe q) i (Res (Some (if is_void t then RVoid else RVal (VOpt None))) i) tr
| B_maybe_look_some q i v rem tr :
    big Look q i (Res (Some v) rem) tr -> big Look (PMaybe q) i (Res (Some RVoid) rem) tr
| B_maybe_look_none q i tr :
    big Look q i (Res None i) tr -> big Look (PMaybe q) i (Res (Some RVoid) i) tr
| B_exactly_ok q t n i vs v rem tr :
    result_for E q = Some t -> n <> 0 ->
    bchain (repeat (Parse, q) n) i (Some (vs, rem)) tr -> collect t VArr vs v ->
    big Parse (PExactly q n) i (Res (Some v) rem) tr
| B_exactly_no q t n i tr :
    result_for E q = Some t -> n <> 0 ->
    bchain (repeat (Parse, q) n) i None tr ->
    big Parse (PExactly q n) i (Res None i) tr
| B_exactly_look_ok q n i vs rem tr :
    n <> 0 -> bchain (repeat (Look, q) n) i (Some (vs, rem)) tr ->
    big Look (PExactly q n) i (Res (Some RVoid) rem) tr
| B_exactly_look_no q n i tr :
    n <> 0 -> bchain (repeat (Look, q) n) i None tr ->
    big Look (PExactly q n) i (Res None i) tr
| B_oom_ok q t i v vs w rem tr :
    result_for E q = Some t -> biter Parse q i (v :: vs) rem tr -> collect t VVec (v :: vs) w ->
    big Parse (POneOrMore q) i (Res (Some w) rem) tr
| B_oom_no q t i tr :
    result_for E q = Some t -> big Parse q i (Res None i) tr ->
    big Parse (POneOrMore q) i (Res None i) tr
| B_oom_look_ok q i v vs rem tr :
    biter Look q i (v :: vs) rem tr -> big Look (POneOrMore q) i (Res (Some RVoid) rem) tr
| B_oom_look_no q i tr :
    big Look q i (Res None i) tr -> big Look (POneOrMore q) i (Res None i) tr
| B_zom q t i vs w rem tr :
    result_for E q = Some t -> biter Parse q i vs rem tr -> collect t VVec vs w ->
    big Parse (PZeroOrMore q) i (Res (Some w) rem) tr
| B_zom_look q i vs rem tr :
    biter Look q i vs rem tr -> big Look (PZeroOrMore q) i (Res (Some RVoid) rem) tr
| B_delim_ok q d tp td i v0 mid prs w rem tr tr' :
    result_for E q = Some tp -> result_for E d = Some td ->
    big Parse q i (Res (Some v0) mid) tr -> shaped Parse q v0 ->
    btail Parse q d mid prs rem tr' ->
    delim_value tp td (v0 :: map snd prs) (map fst prs) w ->
    big Parse (PDelimit q d) i (Res (Some w) rem) (tr ++ tr')
| B_delim_no q d tp td i tr :
    result_for E q = Some tp -> result_for E d = Some td ->
    big Parse q i (Res None i) tr -> big Parse (PDelimit q d) i (Res None i) tr
| B_delim_look_ok q d i v0 mid prs rem tr tr' :
    big Look q i (Res (Some v0) mid) tr -> btail Look q d mid prs rem tr' ->
    big Look (PDelimit q d) i (Res (Some RVoid) rem) (tr ++ tr')
| B_delim_look_no q d i tr :
    big Look q i (Res None i) tr -> big Look (PDelimit q d) i (Res None i) tr
| B_ignore m q i r tr : big Look q i r tr -> big m (PIgnore q) i r tr
| B_complete_ok m q i v rem tr :
    big m q i (Res (Some v) rem) tr -> sp_len rem = 0 -> big m (PComplete q) i (Res (Some v) rem) tr
| B_complete_rest m q i v rem tr :
    big m q i (Res (Some v) rem) tr -> sp_len rem <> 0 -> big m (PComplete q) i (Res None i) tr
| B_complete_no m q i tr : big m q i (Res None i) tr -> big m (PComplete q) i (Res None i) tr
| B_join_ok q t i x s rem tr :
    result_for E q = Some t -> joinable t = true -> big Parse q i (Res (Some (RVal x)) rem) tr ->
    join_executor x rem = Done (Some s) [] ->
    big Parse (PJoin q) i (Res (Some (RVal (VSpan s))) rem) tr
| B_join_gap q t i x rem tr :
    result_for E q = Some t -> joinable t = true -> big Parse q i (Res (Some (RVal x)) rem) tr ->
    join_executor x rem = Done None [] ->
    big Parse (PJoin q) i (Res None i) tr
| B_join_no q t i tr :
    result_for E q = Some t -> joinable t = true -> big Parse q i (Res None i) tr ->
    big Parse (PJoin q) i (Res None i) tr
| B_join_look q i r tr : big Look q i r tr -> big Look (PJoin q) i r tr
| B_map_ok q f t i v w rem tr :
    result_for E (PMap q f) = Some t -> big Parse q i (Res (Some v) rem) tr ->
    invoke E f (args_of v) = FRet w ->
    big Parse (PMap q f) i (Res (Some w) rem) (tr ++ [EInvoke f (args_of v)])
| B_map_no q f t i tr :
    result_for E (PMap q f) = Some t -> big Parse q i (Res None i) tr ->
    big Parse (PMap q f) i (Res None i) tr
| B_map_look q f i r tr : big Look q i r tr -> big Look (PMap q f) i r tr
| B_filter_ok q f t i v c rem tr :
    result_for E (PFilter q f) = Some t -> big Parse q i (Res (Some v) rem) tr ->
    invoke E f (args_of v) = FRet (RVal c) -> as_bool E c = true ->
    big Parse (PFilter q f) i (Res (Some v) rem) (tr ++ [EInvoke f (args_of v)])
| B_filter_reject q f t i v c rem tr :
    result_for E (PFilter q f) = Some t -> big Parse q i (Res (Some v) rem) tr ->
    invoke E f (args_of v) = FRet (RVal c) -> as_bool E c = false ->
    big Parse (PFilter q f) i (Res None i) (tr ++ [EInvoke f (args_of v)])
| B_filter_no q f t i tr :
    result_for E (PFilter q f) = Some t -> big Parse q i (Res None i) tr ->
    big Parse (PFilter q f) i (Res None i) tr
| B_filter_look q f i r tr : big Look q i r tr -> big Look (PFilter q f) i r tr
| B_named m q s i r tr : big m q i r tr -> big m (PNamed q s) i r tr
| B_custom_same c i r tr :
    cust_conv E c = ConvSame -> big Parse (cust_body E c) i r tr -> big Parse (PCustom c) i r tr
| B_custom_elem c t i x w rem tr :
    cust_conv E c = ConvElem t -> big Parse (cust_body E c) i (Res (Some (RVal x)) rem) tr ->
    invoke E (FConstruct t) [x] = FRet w ->
    big Parse (PCustom c) i (Res (Some w) rem) (tr ++ [EInvoke (FConstruct t) [x]])
| B_custom_elem_no c t i tr :
    cust_conv E c = ConvElem t -> big Parse (cust_body E c) i (Res None i) tr ->
    big Parse (PCustom c) i (Res None i) tr
| B_custom_whole c t i x w rem tr :
    cust_conv E c = ConvWhole t -> big Parse (cust_body E c) i (Res (Some (RVal x)) rem) tr ->
    invoke E (FConstruct t) [VOpt (Some x)] = FRet w ->
    big Parse (PCustom c) i (Res (Some w) rem) (tr ++ [EInvoke (FConstruct t) [VOpt (Some x)]])
| B_custom_whole_no c t i w tr :
    cust_conv E c = ConvWhole t -> big Parse (cust_body E c) i (Res None i) tr ->
    invoke E (FConstruct t) [VOpt None] = FRet w ->
    big Parse (PCustom c) i (Res (Some w) i) (tr ++ [EInvoke (FConstruct t) [VOpt None]])
| B_custom_look c i r tr : big Look (cust_body E c) i r tr -> big Look (PCustom c) i r tr
(* run from the left on the same input until one succeeds *)
with bfirst : list (mode * parser T) -> span -> option (nat * rv * span) -> list event -> Prop :=
| BF_nil i : bfirst [] i None []
| BF_here m p l i v rem tr :
    big m p i (Res (Some v) rem) tr -> bfirst ((m, p) :: l) i (Some (0, v, rem)) tr
| BF_next m p l i o tr tr' :
    big m p i (Res None i) tr -> bfirst l i o tr' -> bfirst ((m, p) :: l) i (bump o) (tr ++ tr')
(* run one after the other until one fails *)
with bchain : list (mode * parser T) -> span -> option (list rv * span) -> list event -> Prop :=
| BC_nil i : bchain [] i (Some ([], i)) []
| BC_fail m p l i tr : big m p i (Res None i) tr -> bchain ((m, p) :: l) i None tr
| BC_next m p l i v mid o tr tr' :
    big m p i (Res (Some v) mid) tr -> shaped m p v -> bchain l mid o tr' ->
    bchain ((m, p) :: l) i (push v o) (tr ++ tr')
(* run again and again until it fails *)
with biter : mode -> parser T -> span -> list rv -> span -> list event -> Prop :=
| BI_end m q i tr : big m q i (Res None i) tr -> biter m q i [] i tr
| BI_next m q i v mid vs rem tr tr' :
    big m q i (Res (Some v) mid) tr -> shaped m q v -> biter m q mid vs rem tr' ->
    biter m q i (v :: vs) rem (tr ++ tr')
(* delimiter and value again and again; a delimiter without value after it is given back *)
with btail : mode -> parser T -> parser T -> span -> list (rv * rv) -> span -> list event -> Prop :=
| BT_end m q d i tr : big m d i (Res None i) tr -> btail m q d i [] i tr
| BT_back m q d i w mid tr tr' :
    big m d i (Res (Some w) mid) tr -> big m q mid (Res None mid) tr' ->
    btail m q d i [] i (tr ++ tr')
| BT_next m q d i w mid v mid' prs rem tr tr' tr'' :
    big m d i (Res (Some w) mid) tr -> shaped m d w ->
    big m q mid (Res (Some v) mid') tr' -> shaped m q v ->
    btail m q d mid' prs rem tr'' ->
    btail m q d i ((w, v) :: prs) rem (tr ++ tr' ++ tr'').

Scheme big_ind2 := Induction for big Sort Prop
  with bfirst_ind2 := Induction for bfirst Sort Prop
  with bchain_ind2 := Induction for bchain Sort Prop
  with biter_ind2 := Induction for biter Sort Prop
  with btail_ind2 := Induction for btail Sort Prop.
Combined Scheme big_mut from big_ind2, bfirst_ind2, bchain_ind2, biter_ind2, btail_ind2.

(** ** What remains is a suffix, a failure gives back the input *)
Lemma big_suffix :
  (forall m p i r tr, big m p i r tr -> suffix i (r_rem r) /\ (r_ok r = None -> r_rem r = i)) /\
  (forall l i o tr, bfirst l i o tr -> forall j v rem, o = Some (j, v, rem) -> suffix i rem) /\
  (forall l i o tr, bchain l i o tr -> forall vs rem, o = Some (vs, rem) -> suffix i rem) /\
  (forall m q i vs rem tr, biter m q i vs rem tr -> suffix i rem) /\
  (forall m q d i prs rem tr, btail m q d i prs rem tr -> suffix i rem).
Proof.
  apply big_mut; intros; cbn [r_ok r_rem ok1] in *;
    repeat match goal with H : _ /\ _ |- _ => destruct H end;
    try (match goal with
         | H : forall j v rem, Some ?x = Some (j, v, rem) -> _ |- _ => specialize (H _ _ _ eq_refl)
         | H : forall vs rem, Some ?x = Some (vs, rem) -> _ |- _ => specialize (H _ _ eq_refl)
         end);
    try (split; [solve [eauto]|intros; discriminate]);
    try (split; solve [auto]); try solve [eauto];
    try (split; [apply adv_suffix|intros; discriminate]);
    try discriminate.
  - destruct h; lia.
  - destruct h; lia.
  - destruct p; lia.
  - injection H0 as <- <- <-. auto.
  - destruct o as [[[j0 v0] r0]|]; [|discriminate]. injection H1 as <- <- <-. eauto.
  - injection H as <- <-. auto.
  - destruct o as [[vs0 r0]|]; [|discriminate]. injection H1 as <- <-. eauto.
Qed.
End Big.
