(** * What the classes of a program must offer so that [parse] can be instantiated

    A template that names an operation of a class needs it, whether or not a run gets there.
    [needs] lists, for every parser template, the operations its [parse] names; a class offers
    some of the five special operations; the library templates around it (optional, vector,
    array, tuple, variant, pair) offer what the C++20 standard says they do. *)
From Coq Require Import String List Arith ZArith Bool Lia.
From Verif Require Import Types Compound Parser Outcome CompoundFacts Exec Leaves Typing Join Sound Agree
  Objects ObjectLog.
Import ListNotations.

(** ** Classes *)

(** What a class offers: [std::is_default_constructible], [is_move_constructible],
    [is_copy_constructible], [is_move_assignable], [is_copy_assignable].  A class may be copyable
    and not movable (its move operations are deleted), as helpers.h:183-186 and result.h:27-31
    provide for.  All classes are destructible. *)
Record cls : Type := Cls { c_default : bool; c_move : bool; c_copy : bool; c_massign : bool; c_cassign : bool }.

(** The same for any type.  [t_] is what the type trait says, [u_] whether a use compiles: the two
    differ for a vector, whose copy operations are declared for any element type
    ([vector.cons] does not constrain them). *)
Record ops : Type := Ops {
  dflt : bool;
  t_move : bool; t_copy : bool; t_massign : bool; t_cassign : bool;
  u_move : bool; u_copy : bool; u_massign : bool; u_cassign : bool }.

Definition of_cls (c : cls) : ops :=
  Ops (c_default c) (c_move c) (c_copy c) (c_massign c) (c_cassign c)
      (c_move c) (c_copy c) (c_massign c) (c_cassign c).

(** spans (span.h, output_span of input.h) are trivially copyable; no object of type void exists,
    so nothing is asked of it *)
Definition all_ops : ops := Ops true true true true true true true true true.

(** [std::vector<T>]: created, moved and move-assigned without touching an element *)
Definition vec_ops (o : ops) : ops :=
  Ops true true true true true true (u_copy o) true (u_copy o && u_cassign o).

(** [std::tuple], [std::pair], [std::array]: member by member.  If some member cannot be moved,
    the defaulted move operation is deleted, overload resolution ignores it
    ([over.match.funcs.general]) and takes the copy operation. *)
Definition prod_ops (l : list ops) : ops :=
  let tm := forallb t_move l in let tc := forallb t_copy l in
  let tma := forallb t_massign l in let tca := forallb t_cassign l in
  Ops (forallb dflt l)
      (tm || tc) tc (tma || tca) tca
      (if tm then forallb u_move l else tc && forallb u_copy l) (forallb u_copy l)
      (if tma then forallb u_massign l else tca && forallb u_cassign l) (forallb u_cassign l).

(** [std::variant]: a default-constructed variant holds its first alternative
    ([variant.ctor]); an assignment may construct or assign ([variant.assign]) *)
Definition var_ops (l : list ops) : ops :=
  let tm := forallb t_move l in let tc := forallb t_copy l in
  let tma := tm && forallb t_massign l in let tca := tc && forallb t_cassign l in
  Ops (match l with [] => true | o :: _ => dflt o end)
      (tm || tc) tc (tma || tca) tca
      (if tm then forallb u_move l else tc && forallb u_copy l) (forallb u_copy l)
      (if tma then forallb u_move l && forallb u_massign l else tca && forallb u_copy l && forallb u_cassign l)
      (forallb u_copy l && forallb u_cassign l).

(** [std::optional]: as a variant with an empty first alternative *)
Definition opt_ops (o : ops) : ops := var_ops [all_ops; o].

Section Classes.
Context (K : nat -> cls).

Fixpoint ops_of (t : ty) : ops :=
  match t with
  | TVoid | TSpan => all_ops
  | TVec t => vec_ops (ops_of t)
  | TArr t n => prod_ops [ops_of t]            (* N is not 0, exactly.h:13 *)
  | TOpt t => opt_ops (ops_of t)
  | TTup ts => prod_ops (map ops_of ts)
  | TVar ts => var_ops (map ops_of ts)
  | TPair a b => prod_ops [ops_of a; ops_of b]
  | TUser n => of_cls (K n)
  end.

(** the two traits the library itself asks for: helpers.h:183, result.h:30 *)
Definition traits_of : traits :=
  {| move_assignable := fun t => t_massign (ops_of t); from_rvalue := fun t => t_move (ops_of t) |}.

(** whether a use of an object compiles *)
Definition offers (u : use) : bool :=
  match u with
  | Default t => dflt (ops_of t)
  | Move t | Insert t => u_move (ops_of t)
  | Copy t => t_copy (ops_of t) && u_copy (ops_of t)      (* the constraint of result.h:27 *)
  | MoveAssign t => u_massign (ops_of t)
  | CopyAssign t => t_cassign (ops_of t) && u_cassign (ops_of t)
  | Hand | Show => true
  | Stale | NoValue => false
  end.
End Classes.

(** ** Parsers *)
Section Needs.
Context {T V : Type} (E : env T V) (K : nat -> cls).
Notation C := (traits_of K).

(** helpers.h:181-193: how a compound parser stores the value of a part *)
Definition part_need (ct : compound_type) (unw : bool) (p : parser T) : use :=
  if unw then if move_assignable C (ty_of E p) then MoveAssign (ty_of E p) else CopyAssign (ty_of E p)
  else match ct with CChoice => Move (ty_of E p) | CSequence => MoveAssign (ty_of E p) end.

(** [std::vector::insert(const_iterator, T&&)], helpers.h:70-88: the element must be move-insertable
    and, for the positions that are not the end, move-assignable ([sequence.reqmts]) *)
Definition insert_needs (t : ty) : list use := if is_void t then [] else [Insert t; MoveAssign t].

Definition builder_needs (t : ty) (l : list use) : list use :=
  if is_void t then [] else Default t :: init C t :: l.       (* helpers.h:11-15, :90-97 *)

(** What the body of [parse] names itself, apart from the bodies of the parsers it calls *)
Definition needs (p : parser T) : list use :=
  match p with
  | PAnyOf _ | PNoneOf _ | PAllOf _ | PAnything => [init C TSpan]           (* basic_base.h:40 *)
  | PEpsilon | PIgnore _ | PNamed _ _ => []
  | PChoice q qs =>                                                          (* choice.h:29-50 *)
      match result_fors E (q :: qs) with
      | Some tys =>
          let done := fst (filter_out_void_deduplicate tys) in
          builder_needs (compound_result TVar done)
            (map (part_need CChoice (unwrapped done)) (indexed (q :: qs) (snd (filter_out_void_deduplicate tys))))
      | None => []
      end
  | PSequence q qs =>                                                        (* sequence.h:29-51 *)
      match result_fors E (q :: qs) with
      | Some tys =>
          let done := fst (filter_out_void tys) in
          builder_needs (compound_result TTup done)
            (map (part_need CSequence (unwrapped done)) (indexed (q :: qs) (snd (filter_out_void tys))))
      | None => []
      end
  | PMaybe q => let t := ty_of E q in                                        (* maybe.h:27-40, helpers.h:55-60 *)
      if is_void t then [] else builder_needs (TOpt t) [Move t]
  | PExactly q n => let t := ty_of E q in                                    (* exactly.h:28-48, helpers.h:41-46 *)
      if is_void t then [] else builder_needs (TArr t n) [MoveAssign t]
  | POneOrMore q | PZeroOrMore q => let t := ty_of E q in                    (* one_or_more.h:27-50 *)
      if is_void t then [] else builder_needs (TVec t) (insert_needs t)
  | PDelimit q d => let tp := ty_of E q in let td := ty_of E d in            (* delimit.h:36-79 *)
      builder_needs (delimit_type tp td) (insert_needs tp ++ insert_needs td) ++
      [init C tp; MoveAssign tp; MoveAssign (TOpt tp)]                       (* delimit.h:64, result.h:56 *)
  | PComplete q => [init C (ty_of E q)]                                      (* complete.h:30 *)
  | PJoin _ => [init C TSpan]
  | PMap q f => init C (ty_of E p) :: fn_uses E f                            (* map.h:36-59 *)
  | PFilter q f => init C (ty_of E p) :: fn_uses E f                         (* filter.h:43, :51 *)
  | PCustom c => []                                                          (* custom.h:41-47 *)
  end.

(** The parsers whose [parse] is called by the [parse] of [p]: the specializations of join
    (join/optimizations) call none, ignore.h:22-26 and helpers.h:165-171 call [lookahead] *)
Definition called_parts (p : parser T) : list (parser T) :=
  match p with
  | PJoin q => match join_special E q 0 with Some _ => [] | None => [q] end
  | _ => parsed_parts E p
  end.
Inductive called : parser T -> parser T -> Prop :=
| called_self p : called p p
| called_part p q r : In q (called_parts p) -> called q r -> called p r.

(** [P::parse] can be instantiated: every operation it names is offered *)
Definition instantiable (p : parser T) : Prop := forall q u, called p q -> In u (needs q) -> offers K u = true.

(** ** Every use recorded by a run is named by some parser that is called *)

Definition benign (u : use) : Prop := match u with Hand | Show | Stale | NoValue => True | _ => False end.

Section Log.
Variable Q : use -> Prop.
Hypothesis HB : forall u, benign u -> Q u.
Notation ok := (logs Q any).

(** a void builder stays one *)
Definition blank (t : ty) (b : cell) : Prop := is_void t = true -> b = Holds RVoid.

Lemma nd_make t v rem : (v <> RVoid -> Q (init C t)) -> ok (omake C t v rem).
Proof. intros H. destruct v; cbn; [now apply logs_ret|]. apply logs_say; [apply H; discriminate | now apply logs_ret]. Qed.

Lemma nd_return t r : Q (init C t) -> ok (oreturn C t r).
Proof.
  intros H. unfold oreturn. destruct (o_val r) as [[[|v]|]|]; try now apply logs_ret.
  - apply logs_say; [exact H | now apply logs_ret].
  - apply logs_fault, HB; exact Logic.I.
Qed.

Lemma nd_deref r : ok (deref r).
Proof. unfold deref. destruct (o_val r) as [[|]|]; [now apply logs_ret | apply logs_fault, HB; exact Logic.I ..]. Qed.

Lemma nd_take r : ok (take r).
Proof. eapply logs_bind; [apply nd_deref|]. intros; now apply logs_ret. Qed.

Lemma nd_put t f u b r : blank t b -> (is_void t = false -> Q u) -> logs Q (fun x => blank t (fst x)) (oput f u b r).
Proof.
  intros Hb Hu. destruct b as [[|old]|]; cbn; [apply logs_ret; exact Hb | | apply logs_fault, HB; exact Logic.I].
  eapply logs_bind; [apply nd_take|]. intros [v r'] _.
  assert (Hv : is_void t = false) by (destruct (is_void t) eqn:Hv; [discriminate (Hb Hv) | auto]).
  apply logs_say; [auto|]. eapply logs_bind with (P := any); [now apply logs_lift|]. intros; apply logs_ret. cbn. intros G; congruence.
Qed.

Lemma nd_copy t t' b r : blank t b -> (is_void t = false -> Q (CopyAssign t')) -> logs Q (fun x => blank t (fst x)) (oassign_copy t' b r).
Proof.
  intros Hb Hu. destruct b as [[|old]|]; cbn; [apply logs_ret; exact Hb | | apply logs_fault, HB; exact Logic.I].
  eapply logs_bind; [apply nd_deref|]. intros v _.
  assert (Hv : is_void t = false) by (destruct (is_void t) eqn:Hv; [discriminate (Hb Hv) | auto]).
  apply logs_say; [auto|]. eapply logs_bind with (P := any); [now apply logs_lift|]. intros; apply logs_ret. cbn. intros G; congruence.
Qed.

Lemma nd_build t b i : blank t b -> (is_void t = false -> Q (init C t)) -> ok (obind (obuild C t b i) (fun x => let (r, _) := x in oret r)).
Proof.
  intros Hb Hu. eapply logs_bind with (P := any); [|intros [r c] _; now apply logs_ret].
  destruct b as [v|]; cbn; [|apply logs_fault, HB; exact Logic.I].
  eapply logs_bind; [apply nd_make|intros; now apply logs_ret].
  intros Hv. apply Hu. destruct (is_void t) eqn:G; auto. injection (Hb G) as ->. congruence.
Qed.

Lemma nd_builder t : (is_void t = false -> Q (Default t)) -> logs Q (blank t) (obuilder t).
Proof.
  intros H. unfold obuilder. destruct (is_void t) eqn:Hv; [now apply logs_ret|].
  apply logs_say; [auto|]. apply logs_ret. intros G; congruence.
Qed.

Lemma nd_call f args : Forall Q (fn_uses E f) -> ok (ocall E f args).
Proof. intros H. split; [exact H | exact (fun _ _ _ => Logic.I)]. Qed.

Lemma nd_invoke_move f r : Forall Q (fn_uses E f) -> ok (oinvoke_move E f r).
Proof.
  intros H. unfold oinvoke_move. destruct (o_val r) as [[[|v]|]|];
    try (eapply logs_bind; [apply nd_take|]; intros [w r'] _; apply logs_say; [apply HB; exact Logic.I|]);
    (eapply logs_bind; [now apply nd_call|]); intros; now apply logs_ret.
Qed.

Lemma nd_invoke_const f r : Forall Q (fn_uses E f) -> ok (oinvoke_const E f r).
Proof.
  intros H. unfold oinvoke_const. destruct (o_val r) as [[[|v]|]|];
    try (eapply logs_bind; [apply nd_deref|]; intros w _; apply logs_say; [apply HB; exact Logic.I|]); now apply nd_call.
Qed.

Lemma nd_basic fc len i : Q (init C TSpan) -> ok (obasic_parse C fc len i).
Proof.
  intros H. unfold obasic_parse. eapply logs_bind with (P := any); [now apply logs_lift|]. intros [|] _; [now apply logs_ret|].
  eapply logs_bind with (P := any); [now apply logs_lift|]. intros v _.
  eapply logs_bind with (P := any); [now apply logs_lift|]. intros; now apply nd_make.
Qed.

Section Rec.
Variable n : nat.
Notation orec := (orun E C n).
Variable (t : ty) (ct : compound_type) (unw : bool).

Definition ready (x : parser T * index) : Prop :=
  match snd x with
  | None => True
  | Some _ => (forall i, ok (orec Parse (fst x) i)) /\ (is_void t = false -> Q (part_need ct unw (fst x)))
  end.

Lemma nd_look p i : ok (orec Look p i).
Proof. apply ok_look. Qed.

Lemma nd_execute p idx st : ready (p, idx) -> blank t (snd st) -> logs Q (fun x => blank t (snd (snd x))) (oexecute E C orec ct unw p idx st).
Proof.
  intros Hr Hb. destruct st as [i b], idx as [k|]; cbn [oexecute].
  - destruct Hr as [Hr Hn]. unfold part_need in Hn. cbn [fst] in *.
    eapply logs_bind; [apply Hr|]. intros r _. destruct (engaged r); cbn [negb]; [|apply logs_ret; exact Hb].
    eapply logs_bind with (P := fun x => blank t (fst x)).
    + destruct unw; [destruct (move_assignable C (ty_of E p)); [now apply nd_put | now apply nd_copy]|].
      destruct ct; now apply nd_put.
    + intros [c r'] Hc. now apply logs_ret.
  - eapply logs_bind; [apply nd_look|]. intros r _. now apply logs_ret.
Qed.
End Rec.

Lemma nd_or n t unw l : Forall (ready n t CChoice unw) l -> forall st, blank t (snd st) ->
  logs Q (fun x => blank t (snd (snd x))) (oexec_or E C (orun E C n) unw l st).
Proof.
  induction 1 as [|[p idx] l Hx Hl IH]; intros st Hb; cbn [oexec_or]; [now apply logs_ret|].
  eapply logs_bind; [eapply nd_execute; eauto|]. intros [[|] st'] Hb'; [now apply logs_ret | now apply IH].
Qed.

Lemma nd_and n t unw l : Forall (ready n t CSequence unw) l -> forall st, blank t (snd st) ->
  logs Q (fun x => blank t (snd (snd x))) (oexec_and E C (orun E C n) unw l st).
Proof.
  induction 1 as [|[p idx] l Hx Hl IH]; intros st Hb; cbn [oexec_and]; [now apply logs_ret|].
  eapply logs_bind; [eapply nd_execute; eauto|]. intros [[|] st'] Hb'; [now apply IH | now apply logs_ret].
Qed.

Lemma nd_finish t i x : blank t (snd (snd x)) -> (is_void t = false -> Q (init C t)) -> ok (ofinish C t i x).
Proof.
  intros Hb Hq. destruct x as [[|] [i' b]]; cbn; [|now apply logs_ret]. destruct (is_void t) eqn:G; [now apply logs_ret|].
  apply nd_build; auto.
Qed.

Lemma builder_in t l : (forall u, In u (builder_needs t l) -> Q u) ->
  (is_void t = false -> Q (Default t)) /\ (is_void t = false -> Q (init C t)) /\ (is_void t = false -> forall u, In u l -> Q u).
Proof.
  unfold builder_needs. intros H. destruct (is_void t); [repeat split; discriminate|]. cbn in H.
  split; [|split]; intros _; auto.
Qed.

Lemma ready_all n t ct unw (ps : list (parser T)) : forall seq,
  (forall p, In p (indexed ps seq) -> (forall i, ok (orun E C n Parse p i)) /\ (is_void t = false -> Q (part_need ct unw p))) ->
  Forall (ready n t ct unw) (combine ps seq).
Proof.
  induction ps as [|p ps IH]; intros seq H; cbn [combine]; [constructor|]. destruct seq as [|[k|] seq]; [constructor| |];
    constructor; try exact Logic.I.
  - apply H. now left.
  - apply IH. intros q Hq. apply H. now right.
  - apply IH. intros q Hq. now apply H.
Qed.

Section Fun.
Variables (f h : ofun).
Hypotheses (Hf : forall i, ok (f i)) (Hh : forall i, ok (h i)).

Lemma nd_maybe t i : (forall u, is_void t = false -> In u (builder_needs (TOpt t) [Move t]) -> Q u) -> ok (omaybe_parse C t f i).
Proof.
  intros H. unfold omaybe_parse. set (tb := if is_void t then TVoid else TOpt t).
  assert (Hu : is_void tb = false -> Q (Default tb) /\ Q (init C tb) /\ Q (Move t)).
  { unfold tb. destruct (is_void t) eqn:G; [discriminate|]. intros _. cbn in H. auto 10. }
  eapply logs_bind; [apply nd_builder; intros; now apply Hu|]. intros b Hb.
  eapply logs_bind; [apply Hf|]. intros r _. eapply logs_bind with (P := fun x => blank tb (fst x)).
  - destruct (engaged r); [apply nd_put; auto; intros; now apply Hu | now apply logs_ret].
  - intros [c r'] Hc. apply nd_build; auto. intros; now apply Hu.
Qed.

Lemma nd_exactly_loop tb t k : (is_void tb = false -> Q (MoveAssign t)) -> forall j i b, blank tb b ->
  logs Q (fun x => match x with Some (_, b) => blank tb b | None => True end) (oexactly_loop t f k j i b).
Proof.
  intros Hu. induction k as [|k IH]; intros j i b Hb; cbn [oexactly_loop]; [now apply logs_ret|].
  eapply logs_bind; [apply Hf|]. intros r _. destruct (engaged r); cbn [negb]; [|now apply logs_ret].
  eapply logs_bind; [apply nd_put; eauto|]. intros [c r'] Hc. now apply IH.
Qed.

Lemma nd_exactly t n i : (forall u, is_void t = false -> In u (builder_needs (TArr t n) [MoveAssign t]) -> Q u) -> ok (oexactly_parse C t f n i).
Proof.
  intros H. unfold oexactly_parse. set (tb := if is_void t then TVoid else TArr t n).
  assert (Hu : is_void tb = false -> Q (Default tb) /\ Q (init C tb) /\ Q (MoveAssign t)).
  { unfold tb. destruct (is_void t) eqn:G; [discriminate|]. intros _. cbn in H. auto 10. }
  eapply logs_bind; [apply nd_builder; intros; now apply Hu|]. intros b Hb.
  eapply logs_bind; [apply (nd_exactly_loop tb); auto; intros; now apply Hu|].
  intros [[i' c]|] Hc; [apply nd_build; auto; intros; now apply Hu | now apply logs_ret].
Qed.

Lemma nd_rep tb t k : (is_void tb = false -> Q (Insert t)) -> forall i b s, blank tb b ->
  logs Q (fun x => blank tb (snd (fst x))) (orep_loop t f k i b s).
Proof.
  intros Hu. induction k as [|k IH]; intros i b s Hb; cbn [orep_loop]; [now apply logs_lift|].
  eapply logs_bind; [apply Hf|]. intros r _. destruct (engaged r); cbn [negb]; [|now apply logs_ret].
  eapply logs_bind; [apply nd_put; eauto|]. intros [c r'] Hc. now apply IH.
Qed.

Lemma nd_repeat t k i (one : bool) : (forall u, is_void t = false -> In u (builder_needs (TVec t) (insert_needs t)) -> Q u) ->
  ok (if one then oone_or_more_parse C t f k i else ozero_or_more_parse C t f k i).
Proof.
  intros H. unfold oone_or_more_parse, ozero_or_more_parse. set (tb := if is_void t then TVoid else TVec t).
  assert (Hu : is_void tb = false -> Q (Default tb) /\ Q (init C tb) /\ Q (Insert t)).
  { unfold tb. destruct (is_void t) eqn:G; [discriminate|]. intros _. unfold insert_needs in H. rewrite G in H. cbn in H. auto 10. }
  destruct one.
  all: eapply logs_bind; [apply nd_builder; intros; now apply Hu|]; intros b Hb.
  all: eapply logs_bind; [apply (nd_rep tb); auto; intros; now apply Hu|]; intros [[i' c] s] Hc.
  - destruct s; [apply nd_build; auto; intros; now apply Hu | now apply logs_ret].
  - apply nd_build; auto. intros; now apply Hu.
Qed.

Lemma nd_assign_result t old new : Q (init C t) -> Q (MoveAssign t) -> ok (oassign_result C t old new).
Proof.
  intros H1 H2. unfold oassign_result. destruct (o_val new) as [[[|v]|]|]; try now apply logs_ret.
  - apply logs_say; [destruct (engaged old); assumption | now apply logs_ret].
  - apply logs_fault, HB; exact Logic.I.
Qed.

Lemma nd_delim_loop tb tp td k : (is_void tb = true -> is_void tp = true /\ is_void td = true) ->
  (is_void tb = false -> forall u, In u (insert_needs tp ++ insert_needs td) -> Q u) -> Q (init C tp) -> Q (MoveAssign tp) ->
  forall r i b, blank tb b -> logs Q (fun x => blank tb (snd x)) (odelim_loop C tp td f h k r i b).
Proof.
  intros Htb Hu Hi Ha. induction k as [|k IH]; intros r i b Hb; cbn [odelim_loop]; [now apply logs_lift|].
  destruct (engaged r); cbn [negb]; [|now apply logs_ret].
  eapply logs_bind with (P := fun x => blank tb (fst x)).
  { destruct (is_void tp) eqn:Vp; [now apply logs_ret|].
    assert (Hm : is_void tb = false -> Q (Insert tp)).
    { intros G. apply Hu; auto. apply in_or_app. left. unfold insert_needs. rewrite Vp. now left. }
    destruct (is_void td); now apply nd_put. }
  intros [c r'] Hc. eapply logs_bind; [apply Hh|]. intros d _. destruct (engaged d); cbn [negb]; [|now apply logs_ret].
  eapply logs_bind; [apply Hf|]. intros new _. eapply logs_bind; [now apply nd_assign_result|]. intros r2 _.
  eapply logs_bind with (P := fun x => blank tb (fst x)).
  { destruct (is_void td) eqn:Vd; [now apply logs_ret|]. destruct (engaged r2); [|now apply logs_ret].
    assert (Hm : is_void tb = false -> Q (Insert td)).
    { intros G. apply Hu; auto. apply in_or_app. right. unfold insert_needs. rewrite Vd. now left. }
    destruct (is_void tp); now apply nd_put. }
  intros [c2 r3] Hc2. now apply IH.
Qed.

Lemma nd_delimit tp td k i :
  (forall u, In u (builder_needs (delimit_type tp td) (insert_needs tp ++ insert_needs td)) -> Q u) ->
  Q (init C tp) -> Q (MoveAssign tp) -> ok (odelimit_parse C tp td f h k i).
Proof.
  intros H Hi Ha. apply builder_in in H as (H1 & H2 & H3). unfold odelimit_parse.
  eapply logs_bind; [now apply nd_builder|]. intros b Hb.
  eapply logs_bind; [apply Hf|]. intros r _. destruct (engaged r); cbn [negb]; [|now apply logs_ret].
  eapply logs_bind; [apply (nd_delim_loop (delimit_type tp td)); auto|].
  - unfold delimit_type. destruct (is_void tp), (is_void td); auto; discriminate.
  - intros [i' c] Hc. now apply nd_build.
Qed.

Lemma nd_complete t i : Q (init C t) -> ok (ocomplete_run C t f i).
Proof. intros H. eapply logs_bind; [apply Hf|]. intros r _. destruct (_ || _); [now apply logs_ret | now apply nd_return]. Qed.

Lemma nd_map t fn i : Q (init C t) -> Forall Q (fn_uses E fn) -> ok (omap_parse E C t fn f i).
Proof.
  intros Hi H. eapply logs_bind; [apply Hf|]. intros r _. destruct (engaged r); cbn [negb]; [|now apply logs_ret].
  eapply logs_bind; [now apply nd_invoke_move|]. intros [w r'] _. now apply nd_make.
Qed.

Lemma nd_filter t fn i : Q (init C t) -> Forall Q (fn_uses E fn) -> ok (ofilter_parse E C t fn f i).
Proof.
  intros Hi H. eapply logs_bind; [apply Hf|]. intros r _. destruct (engaged r); cbn [negb]; [|now apply logs_ret].
  eapply logs_bind; [now apply nd_invoke_const|]. intros [|c] _; [now apply logs_lift|].
  destruct (as_bool E c); [now apply nd_return | now apply logs_ret].
Qed.

Lemma nd_construct t args rem :
  ok (obind (say Hand) (fun _ => obind (ocall E (FConstruct t) args) (fun w => oret (RObj (Some (Holds w)) rem)))).
Proof.
  apply logs_say; [apply HB; exact Logic.I|]. eapply logs_bind; [apply nd_call; constructor|]. intros; now apply logs_ret.
Qed.

Lemma nd_custom cv i : ok (ocustom_parse E cv f i).
Proof.
  eapply logs_bind; [apply Hf|]. intros r _. destruct cv; [now apply logs_ret| |];
    (destruct (engaged r); cbn [negb]; [|first [now apply logs_ret | apply nd_construct]]);
    (eapply logs_bind; [apply nd_take|]); intros [[|v] r'] _; first [now apply logs_lift | apply nd_construct].
Qed.

Lemma nd_join i : Q (init C TSpan) -> ok (ojoin_parse C f i).
Proof.
  intros Hi. eapply logs_bind; [apply Hf|]. intros r _. destruct (engaged r); [|now apply logs_ret].
  eapply logs_bind; [apply nd_deref|]. intros [|v] _; [now apply logs_lift|]. apply logs_say; [apply HB; exact Logic.I|].
  eapply logs_bind with (P := any); [now apply logs_lift|]. intros [s|] _; [now apply nd_make | now apply logs_ret].
Qed.
End Fun.

Lemma special_any q k k' : join_special E q k = None -> join_special E q k' = None.
Proof.
  destruct q; cbn; auto; destruct (as_basic E q) as [[]|]; try discriminate; auto.
Qed.

Lemma ty_of_eq p t : result_for E p = Some t -> ty_of E p = t.
Proof. unfold ty_of. now intros ->. Qed.

Lemma nd_step n p i : (forall u, In u (needs p) -> Q u) -> (forall q i, In q (called_parts p) -> ok (orun E C n Parse q i)) ->
  ok (ostep E C (orun E C n) n Parse p i).
Proof.
  intros HN H. destruct p; cbn [ostep].
  1, 2, 3, 4: apply nd_basic, HN; now left.
  - now apply logs_ret.
  - cbn [called_parts parsed_parts] in H. cbn [needs] in HN. unfold ochoice_parse.
    destruct (result_fors E (p :: ps)) as [tys|] eqn:R; [|now apply logs_lift].
    destruct (_ || _); [|now apply logs_lift]. apply builder_in in HN as (H1 & H2 & H3).
    eapply logs_bind; [now apply nd_builder|]. intros b Hb.
    eapply logs_bind; [apply (nd_or _ (compound_result TVar (fst (filter_out_void_deduplicate tys)))); [|exact Hb]|].
    + apply ready_all. intros q Hq. split; [intros; now apply H|]. intros G. apply (H3 G). now apply in_map.
    + intros x Hx. now apply nd_finish.
  - cbn [called_parts parsed_parts] in H. cbn [needs] in HN. unfold osequence_parse.
    destruct (result_fors E (p :: ps)) as [tys|] eqn:R; [|now apply logs_lift].
    apply builder_in in HN as (H1 & H2 & H3).
    eapply logs_bind; [now apply nd_builder|]. intros b Hb.
    eapply logs_bind; [apply (nd_and _ (compound_result TTup (fst (filter_out_void tys)))); [|exact Hb]|].
    + apply ready_all. intros q Hq. split; [intros; now apply H|]. intros G. apply (H3 G). now apply in_map.
    + intros x Hx. now apply nd_finish.
  - destruct (result_for E p) as [t|] eqn:R; [|now apply logs_lift]. apply nd_maybe; [intros; apply H; now left|].
    cbn [needs] in HN. rewrite (ty_of_eq _ _ R) in HN. intros u Hv Hu. apply HN. now rewrite Hv.
  - destruct (n0 =? 0); [now apply logs_lift|].
    destruct (result_for E p) as [t|] eqn:R; [|now apply logs_lift]. apply nd_exactly; [intros; apply H; now left|].
    cbn [needs] in HN. rewrite (ty_of_eq _ _ R) in HN. intros u Hv Hu. apply HN. now rewrite Hv.
  - destruct (result_for E p) as [t|] eqn:R; [|now apply logs_lift].
    apply (nd_repeat (orun E C n Parse p)) with (one := true); [intros; apply H; now left|].
    cbn [needs] in HN. rewrite (ty_of_eq _ _ R) in HN. intros u Hv Hu. apply HN. now rewrite Hv.
  - destruct (result_for E p) as [t|] eqn:R; [|now apply logs_lift].
    apply (nd_repeat (orun E C n Parse p)) with (one := false); [intros; apply H; now left|].
    cbn [needs] in HN. rewrite (ty_of_eq _ _ R) in HN. intros u Hv Hu. apply HN. now rewrite Hv.
  - destruct (result_for E p1) as [tp|] eqn:R1; [|now apply logs_lift]. destruct (result_for E p2) as [td|] eqn:R2; [|now apply logs_lift].
    cbn [needs] in HN. rewrite (ty_of_eq _ _ R1), (ty_of_eq _ _ R2) in HN.
    apply nd_delimit; [intros; apply H; cbn; auto | intros; apply H; cbn; auto | | | ].
    + intros u Hu. apply HN, in_or_app. now left.
    + apply HN, in_or_app. right. now left.
    + apply HN, in_or_app. right. right. now left.
  - apply nd_look.
  - apply nd_complete; [intros; apply H; now left|]. apply HN. now left.
  - cbn [called_parts] in H. destruct (join_special E p n) as [f|] eqn:J.
    + unfold ojoin_special. eapply logs_bind with (P := any); [now apply logs_lift|]. intros r _.
      destruct (r_ok r); [apply nd_make; intros; apply HN; now left | now apply logs_ret].
    + cbn. rewrite (special_any _ _ 0 J) in H. destruct (result_for E p) as [t|]; [|now apply logs_lift]. destruct (joinable t); [|now apply logs_lift].
      apply nd_join; [intros; apply H; now left|]. apply HN. now left.
  - destruct (result_for E (PMap p f)) as [t|] eqn:R; [|now apply logs_lift]. cbn [needs] in HN. rewrite (ty_of_eq _ _ R) in HN.
    apply nd_map; [intros; apply H; now left | apply HN; now left |]. apply Forall_forall. intros u Hu. apply HN. now right.
  - destruct (result_for E (PFilter p f)) as [t|] eqn:R; [|now apply logs_lift]. cbn [needs] in HN. rewrite (ty_of_eq _ _ R) in HN.
    apply nd_filter; [intros; apply H; now left | apply HN; now left |]. apply Forall_forall. intros u Hu. apply HN. now right.
  - apply H; now left.
  - apply nd_custom. intros; apply H; now left.
Qed.

Theorem nd_run n : forall p i, (forall q u, called p q -> In u (needs q) -> Q u) -> ok (orun E C n Parse p i).
Proof.
  induction n as [|n IH]; intros p i Hp; cbn [orun]; [now apply logs_lift|].
  apply nd_step; [intros u; apply Hp; constructor|]. intros q i' Hq. apply IH. intros r u Hr. apply Hp. econstructor; eauto.
Qed.
End Log.
End Needs.
