(** * Derivations: what a successful parse says about the input

    [derives E b m p lo hi v]: read as a context-free grammar, parser [p] (in mode [m])
    matches elements [lo..hi) of block [b] with value [v].  This is a specification: it
    knows nothing about remaining input, backtracking, builders, fuel or traces. *)
From Coq Require Import List Arith ZArith Bool String Lia.
From Verif Require Import Types Compound Parser Outcome Exec.
Import ListNotations.

(** What lookahead instead of parse does to a value. *)
Definition in_mode (m : mode) (v : val) : rv := match m with Parse => RVal v | Look => RVoid end.

(** The tuple rule: nothing, the bare value, or the tuple. *)
Definition tuple_of (ws : list val) : rv :=
  match ws with [] => RVoid | [w] => RVal w | _ => RVal (VTup ws) end.

(** The values of the non-void parts of a sequence. *)
Inductive kept : list ty -> list rv -> list val -> Prop :=
| kept_nil : kept [] [] []
| kept_void tys vs ws v : kept tys vs ws -> kept (TVoid :: tys) (v :: vs) ws
| kept_val t tys vs ws w : t <> TVoid -> kept tys vs ws -> kept (t :: tys) (RVal w :: vs) (w :: ws).

(** A container of the values, or nothing if the element type is void. *)
Definition collect (t : ty) (C : list val -> val) (vs : list rv) (v : rv) : Prop :=
  (t = TVoid /\ v = RVoid) \/
  (t <> TVoid /\ exists ws, vs = map RVal ws /\ v = RVal (C ws)).

(** The four shapes of a delimit result. *)
Inductive delim_value : ty -> ty -> list rv -> list rv -> rv -> Prop :=
| dv_none pvs dvs : delim_value TVoid TVoid pvs dvs RVoid
| dv_p tp ps dvs : tp <> TVoid -> delim_value tp TVoid (map RVal ps) dvs (RVal (VVec ps))
| dv_d td pvs ds : td <> TVoid -> delim_value TVoid td pvs (map RVal ds) (RVal (VVec ds))
| dv_both tp td ps ds : tp <> TVoid -> td <> TVoid ->
    delim_value tp td (map RVal ps) (map RVal ds) (RVal (VPair (VVec ps) (VVec ds))).

(** p d p d ... p *)
Fixpoint interleave {A} (x : A) (l : list (A * A)) : list A :=
  x :: match l with [] => [] | (d, y) :: l' => d :: interleave y l' end.

Definition delim_parts {T} (m : mode) (q d : parser T) (n : nat) : list (mode * parser T) :=
  interleave (m, q) (repeat ((m, d), (m, q)) n).

(** Void parts are only recognised, the others are parsed. *)
Definition part_mode (t : ty) : mode := if is_void t then Look else Parse.
Definition parts {T} (tys : list ty) (ps : list (parser T)) : list (mode * parser T) :=
  combine (map part_mode tys) ps.

Section Derive.
Context {T V : Type} (E : env T V) (b : nat).

(** The elements of block [b] from [lo] on start with [arr]. *)
Fixpoint matches_at (arr : list T) (lo : nat) : Prop :=
  match arr with
  | [] => True
  | t :: arr' => (exists c, nth_error (mem E b) lo = Some c /\ eqv E t c = true)
                 /\ matches_at arr' (S lo)
  end.

Inductive derives : mode -> parser T -> nat -> nat -> rv -> Prop :=
| D_any m arr lo c :
    nth_error (mem E b) lo = Some c -> (exists t, In t arr /\ eqv E t c = true) ->
    derives m (PAnyOf arr) lo (S lo) (in_mode m (VSpan (Span b lo 1)))
| D_none m arr lo c :
    nth_error (mem E b) lo = Some c -> (forall t, In t arr -> eqv E t c = false) ->
    derives m (PNoneOf arr) lo (S lo) (in_mode m (VSpan (Span b lo 1)))
| D_all m arr lo :
    matches_at arr lo ->
    derives m (PAllOf arr) lo (lo + List.length arr)
            (in_mode m (VSpan (Span b lo (List.length arr))))
| D_anything m lo c :
    nth_error (mem E b) lo = Some c ->
    derives m PAnything lo (S lo) (in_mode m (VSpan (Span b lo 1)))
| D_eps m lo : derives m PEpsilon lo lo RVoid
(* the j-th alternative matched, and its value is delivered at the index of the trait *)
| D_choice_parse q qs tys j p k lo hi w :
    result_fors E (q :: qs) = Some tys ->
    nth_error (q :: qs) j = Some p ->
    nth_error (snd (filter_out_void_deduplicate tys)) j = Some (Some k) ->
    derives Parse p lo hi (RVal w) ->
    derives Parse (PChoice q qs) lo hi
      (RVal (if unwrapped (fst (filter_out_void_deduplicate tys)) then w else VVar k w))
(* the j-th alternative matched, but its index is -1: the builder's initial value *)
| D_choice_lost q qs tys j p lo hi v :
    result_fors E (q :: qs) = Some tys ->
    nth_error (q :: qs) j = Some p ->
    nth_error (snd (filter_out_void_deduplicate tys)) j = Some None ->
    derives Look p lo hi v ->
    derives Parse (PChoice q qs) lo hi
      (builder_init (compound_result TVar (fst (filter_out_void_deduplicate tys))))
| D_choice_look q qs p lo hi v :
    In p (q :: qs) -> derives Look p lo hi v -> derives Look (PChoice q qs) lo hi RVoid
| D_seq_parse q qs tys lo hi vs ws :
    result_fors E (q :: qs) = Some tys ->
    dchain (parts tys (q :: qs)) lo hi vs -> kept tys vs ws ->
    derives Parse (PSequence q qs) lo hi (tuple_of ws)
| D_seq_look q qs lo hi vs :
    dchain (map (pair Look) (q :: qs)) lo hi vs -> derives Look (PSequence q qs) lo hi RVoid
| D_maybe_some q t lo hi v w :
    result_for E q = Some t -> derives Parse q lo hi v ->
    (t = TVoid /\ w = RVoid \/ t <> TVoid /\ exists x, v = RVal x /\ w = RVal (VOpt (Some x))) ->
    derives Parse (PMaybe q) lo hi w
| D_maybe_none q t lo :
    result_for E q = Some t ->
    derives Parse (PMaybe q) lo lo (if is_void t then RVoid else RVal (VOpt None))
| D_maybe_look_some q lo hi v : derives Look q lo hi v -> derives Look (PMaybe q) lo hi RVoid
| D_maybe_look_none q lo : derives Look (PMaybe q) lo lo RVoid
| D_exactly q t n lo hi vs v :
    result_for E q = Some t -> n <> 0 ->
    dchain (repeat (Parse, q) n) lo hi vs -> collect t VArr vs v ->
    derives Parse (PExactly q n) lo hi v
| D_exactly_look q n lo hi vs :
    n <> 0 -> dchain (repeat (Look, q) n) lo hi vs -> derives Look (PExactly q n) lo hi RVoid
| D_oom q t n lo hi vs v :
    result_for E q = Some t -> n <> 0 ->
    dchain (repeat (Parse, q) n) lo hi vs -> collect t VVec vs v ->
    derives Parse (POneOrMore q) lo hi v
| D_oom_look q n lo hi vs :
    n <> 0 -> dchain (repeat (Look, q) n) lo hi vs -> derives Look (POneOrMore q) lo hi RVoid
| D_zom q t n lo hi vs v :
    result_for E q = Some t ->
    dchain (repeat (Parse, q) n) lo hi vs -> collect t VVec vs v ->
    derives Parse (PZeroOrMore q) lo hi v
| D_zom_look q n lo hi vs :
    dchain (repeat (Look, q) n) lo hi vs -> derives Look (PZeroOrMore q) lo hi RVoid
| D_delim q d tp td lo hi v0 prs v :
    result_for E q = Some tp -> result_for E d = Some td ->
    dchain (delim_parts Parse q d (List.length prs)) lo hi (interleave v0 prs) ->
    delim_value tp td (v0 :: map snd prs) (map fst prs) v ->
    derives Parse (PDelimit q d) lo hi v
| D_delim_look q d n lo hi vs :
    dchain (delim_parts Look q d n) lo hi vs -> derives Look (PDelimit q d) lo hi RVoid
| D_ignore m q lo hi v : derives Look q lo hi v -> derives m (PIgnore q) lo hi RVoid
| D_complete m q lo hi v : derives m q lo hi v -> derives m (PComplete q) lo hi v
| D_join q t lo hi x s :
    result_for E q = Some t -> derives Parse q lo hi (RVal x) ->
    join_executor x (Span b hi 0) = Done (Some s) [] ->
    derives Parse (PJoin q) lo hi (RVal (VSpan s))
| D_join_look q lo hi v : derives Look q lo hi v -> derives Look (PJoin q) lo hi RVoid
| D_map q f lo hi v w :
    derives Parse q lo hi v -> invoke E f (args_of v) = FRet w -> derives Parse (PMap q f) lo hi w
| D_map_look q f lo hi v : derives Look q lo hi v -> derives Look (PMap q f) lo hi RVoid
| D_filter q f lo hi v c :
    derives Parse q lo hi v -> invoke E f (args_of v) = FRet (RVal c) -> as_bool E c = true ->
    derives Parse (PFilter q f) lo hi v
| D_filter_look q f lo hi v : derives Look q lo hi v -> derives Look (PFilter q f) lo hi RVoid
| D_named m q s lo hi v : derives m q lo hi v -> derives m (PNamed q s) lo hi v
| D_custom c lo hi v :
    cust_conv E c = ConvSame -> derives Parse (cust_body E c) lo hi v ->
    derives Parse (PCustom c) lo hi v
| D_custom_elem c t lo hi x w :
    cust_conv E c = ConvElem t -> derives Parse (cust_body E c) lo hi (RVal x) ->
    invoke E (FConstruct t) [x] = FRet w -> derives Parse (PCustom c) lo hi w
| D_custom_whole c t lo hi x w :
    cust_conv E c = ConvWhole t -> derives Parse (cust_body E c) lo hi (RVal x) ->
    invoke E (FConstruct t) [VOpt (Some x)] = FRet w -> derives Parse (PCustom c) lo hi w
(* the whole-optional conversion turns a failure into a success *)
| D_custom_whole_fail c t lo w :
    cust_conv E c = ConvWhole t ->
    invoke E (FConstruct t) [VOpt None] = FRet w -> derives Parse (PCustom c) lo lo w
| D_custom_look c lo hi v :
    derives Look (cust_body E c) lo hi v -> derives Look (PCustom c) lo hi RVoid
with dchain : list (mode * parser T) -> nat -> nat -> list rv -> Prop :=
| dchain_nil lo : dchain [] lo lo []
| dchain_cons m p l lo mid hi v vs :
    derives m p lo mid v -> dchain l mid hi vs -> dchain ((m, p) :: l) lo hi (v :: vs).

Scheme derives_ind2 := Induction for derives Sort Prop
  with dchain_ind2 := Induction for dchain Sort Prop.
Combined Scheme derives_mut from derives_ind2, dchain_ind2.

Lemma dchain_app l1 l2 lo mid hi vs1 vs2 :
  dchain l1 lo mid vs1 -> dchain l2 mid hi vs2 -> dchain (l1 ++ l2) lo hi (vs1 ++ vs2).
Proof. induction 1; cbn; intros; auto. econstructor; eauto. Qed.

Lemma dchain_length l lo hi vs : dchain l lo hi vs -> List.length l = List.length vs.
Proof. induction 1; cbn; auto. Qed.

Lemma derives_le :
  (forall m p lo hi v, derives m p lo hi v -> lo <= hi) /\
  (forall l lo hi vs, dchain l lo hi vs -> lo <= hi).
Proof.
  apply derives_mut; intros; try lia.
Qed.

Lemma derives_look_void m p lo hi v : derives m p lo hi v -> m = Look -> v = RVoid.
Proof. induction 1; intros Hm; try discriminate; subst; auto. Qed.
End Derive.
