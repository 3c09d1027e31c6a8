(** * Which arguments [parse] takes, and what their elements are

    C74.  The model is InputTypes.v; the specification here says it without specialisations or guides: what the
    elements of an object are, whatever references and consts there are around it. *)
From Coq Require Import List Arith Bool Lia.
From Verif Require Import Overload InputTypes.
Import ListNotations.

Section Spec.
Context {B : Type} (character : B -> bool) (class_range : bool -> B -> option (@obj B)).

Definition object (t : @ty B) : obj := match t with Plain _ o | LRef _ o | RRef _ o => o end.
(** The elements of an object that is const ([c]) or not: a range has elements; a pointer to constant characters stands
    for the characters. *)
Inductive has_elements (c : bool) : @obj B -> @obj B -> Prop :=
| E_array t n : has_elements c (Array t n) t
| E_span t : has_elements c (InputSpan t) t
| E_class b v : class_range c b = Some v -> has_elements c (Base b) v
| E_string b : character b = true -> has_elements c (Pointer true (Base b)) (Base b).
(** Neither const nor a reference *)
Definition bare (t : @ty B) : Prop := match t with Plain false _ => True | _ => False end.
(** Not a class whose const objects are ranges of something else, or no ranges *)
Definition even_handed (o : @obj B) : Prop := match o with Base b => class_range true b = class_range false b | _ => True end.
Definition expr_object (e : @expression B) : obj := match e with Lvalue _ o | Rvalue _ o => o end.
Definition expr_const (e : @expression B) : bool := match e with Lvalue c _ | Rvalue c _ => c end.
End Spec.

Section Facts.
Context {B : Type} (b_eqb : B -> B -> bool) (character : B -> bool) (class_range : bool -> B -> option (@obj B)).
Variable comparable : @obj B -> @obj B -> bool.
Notation elems := (has_elements character class_range false).
Notation elems_as := (has_elements character class_range).
Notation ivt := (input_value_t b_eqb character class_range).
Notation iv := (input_value b_eqb character class_range).
Notation ded := (deduced b_eqb character class_range).

Lemma obj_term_not_const (o : @obj B) : term_qual (obj_term o) = option_map (pair false) (term_obj (obj_term o)).
Proof. now destruct o. Qed.
Lemma pointer_term (c : bool) (t : term head (B + nat)) : (forall u, t <> Inst (Named HConst) u) ->
  term_obj (Inst (Named HPointer) [const_term c t]) = option_map (Pointer c) (term_obj t).
Proof.
  intros H. destruct c; cbn [const_term]; [reflexivity|]. cbn. destruct t as [x|[f|v k] l|v]; try reflexivity.
  destruct f; try reflexivity. exfalso. now apply (H l).
Qed.
Lemma obj_term_head (o : @obj B) u : obj_term o <> Inst (Named HConst) u.
Proof. destruct o; discriminate. Qed.
Lemma term_obj_term (o : @obj B) : term_obj (obj_term o) = Some o.
Proof.
  induction o as [b|c t IH|t IH n|t IH].
  - reflexivity.
  - cbn [obj_term]. rewrite pointer_term by apply obj_term_head. now rewrite IH.
  - cbn. now rewrite IH.
  - cbn. now rewrite IH.
Qed.
Lemma term_qual_term c (o : @obj B) : term_qual (const_term c (obj_term o)) = Some (c, o).
Proof.
  destruct c; cbn [const_term].
  - cbn. now rewrite term_obj_term.
  - rewrite obj_term_not_const, term_obj_term. reflexivity.
Qed.
Lemma term_ty_qual c (o : @obj B) : term_ty (const_term c (obj_term o)) = Some (Plain c o).
Proof.
  replace (term_ty (const_term c (obj_term o))) with (option_map (fun q => Plain (fst q) (snd q)) (term_qual (const_term c (obj_term o)))).
  - now rewrite term_qual_term.
  - destruct c; [reflexivity|]. now destruct o.
Qed.
Lemma term_ty_obj (o : @obj B) : term_ty (obj_term o) = Some (Plain false o).
Proof. exact (term_ty_qual false o). Qed.
Lemma term_ty_lref c (o : @obj B) : term_ty (ty_term (LRef c o)) = Some (LRef c o).
Proof. cbn [ty_term]. change (option_map (fun q : bool * obj => LRef (fst q) (snd q)) (term_qual (const_term c (obj_term o))) = Some (LRef c o)). now rewrite term_qual_term. Qed.

Lemma type_of_0 (t : term head (B + nat)) : type_of [(0, [t])] 0 = term_ty t.
Proof. reflexivity. Qed.

Lemma ded_V (o : @obj B) : deduce head_eqb head_kind (atom_eqb b_eqb) (V 0) (obj_term o) [] = Some [(0, [obj_term o])].
Proof. now destruct o. Qed.

(** The element type, computed *)
Definition element (o : @obj B) : option (@obj B) :=
  match o with
  | Array t _ | InputSpan t => Some t
  | Base b => class_range false b
  | Pointer true (Base b) => if character b then Some (Base b) else None
  | Pointer _ _ => None
  end.
Lemma element_spec o v : element o = Some v <-> elems o v.
Proof.
  split.
  - destruct o as [b|[] [b| | |]|t n|t]; cbn; intros H; try discriminate.
    + now constructor.
    + destruct (character b) eqn:Hb; [|discriminate]. injection H as <-. now constructor.
    + injection H as <-. constructor.
    + injection H as <-. constructor.
  - intros []; cbn; auto. now rewrite H.
Qed.

Lemma iv_bare n o : iv (S n) (Plain false o) = match element o with Some v => Value v | None => Missing end.
Proof.
  assert (Ho : type_of [(0, [obj_term o])] 0 = Some (Plain false o)) by apply term_ty_obj.
  cbn [input_value]. cbn [ty_term const_term]. unfold select, viables, viable, specializations. cbn [flat_map c_requires c_params].
  destruct o as [b|c t|t m|t].
  - cbn. destruct (class_range false b) eqn:H; cbn; rewrite ?H; reflexivity.
  - destruct c.
    + assert (Ht : type_of [(0, [obj_term t])] 0 = Some (Plain false t)) by apply term_ty_obj.
      pose proof (ded_V t) as Hd. cbn [obj_term const_term] in Ho |- *. cbn -[type_of obj_term]. cbn in Hd. rewrite Hd.
      cbn -[type_of obj_term]. rewrite Ho, Ht. cbn -[type_of].
      destruct t as [b| | |]; try reflexivity. cbn. destruct (character b); reflexivity.
    + cbn [obj_term const_term] in Ho |- *. cbn -[type_of obj_term]. rewrite Ho. destruct t; reflexivity.
  - cbn -[type_of] in Ho |- *. rewrite Ho. cbn -[type_of]. now rewrite Ho.
  - cbn -[type_of] in Ho |- *. rewrite Ho. cbn -[type_of]. now rewrite Ho.
Qed.

(** A const or a reference: the specialisation for it is the most special one. *)
Definition wrapper (h : head) : Prop := h = HConst \/ h = HLRef \/ h = HRRef.
Lemma select_wrapped h c o : wrapper h ->
  select head_eqb head_kind (atom_eqb b_eqb) (specializations character class_range) [Inst (Named h) [const_term c (obj_term o)]]
  = Selected IsThatOf [(0, [const_term c (obj_term o)])].
Proof.
  intros Hh. unfold select, viables, viable, specializations. cbn [flat_map c_requires c_params].
  cbn [deduces].
  assert (H0 : deduce head_eqb head_kind (atom_eqb b_eqb) (V 0) (Inst (Named h) [const_term c (obj_term o)]) [] =
    Some [(0, [Inst (Named h) [const_term c (obj_term o)]])]) by reflexivity.
  rewrite H0.
  assert (H1 : forall g, deduce head_eqb head_kind (atom_eqb b_eqb) (I g [V 0] None) (Inst (Named h) [const_term c (obj_term o)]) [] =
    if head_eqb g h then Some [(0, [const_term c (obj_term o)])] else None).
  { intros g. cbn [deduce tmpl_eqb]. destruct (head_eqb g h); [|reflexivity]. destruct c, o; reflexivity. }
  rewrite !H1.
  replace (deduce head_eqb head_kind (atom_eqb b_eqb) (I HPointer [I HConst [V 0] None] None) (Inst (Named h) [const_term c (obj_term o)]) [])
    with (@None (subst head (B + nat))) by (destruct Hh as [-> |[-> | ->]]; reflexivity).
  match goal with |- context [if ?b then _ else _] => match b with context [type_of] => destruct b end end;
  destruct Hh as [-> |[-> | ->]]; reflexivity.
Qed.
Lemma iv_wrapped n t h c o : wrapper h -> ty_term t = Inst (Named h) [const_term c (obj_term o)] ->
  iv (S n) t = match iv n (Plain c o) with Missing => Error | r => r end.
Proof.
  intros Hh Ht. cbn [input_value]. rewrite Ht, select_wrapped by auto. now rewrite type_of_0, term_ty_qual.
Qed.
Lemma iv_const n o : iv (S (S n)) (Plain true o) = match element o with Some v => Value v | None => Error end.
Proof.
  rewrite (iv_wrapped _ (Plain true o) HConst false o) by (unfold wrapper; auto). rewrite iv_bare. now destruct (element o).
Qed.
Lemma iv_qual n c o : iv (S (S n)) (Plain c o) = match element o with Some v => Value v | None => if c then Error else Missing end.
Proof. destruct c; [apply iv_const|apply iv_bare]. Qed.
Lemma iv_lref n c o : iv (S (S (S n))) (LRef c o) = match element o with Some v => Value v | None => Error end.
Proof.
  rewrite (iv_wrapped _ (LRef c o) HLRef c o) by (unfold wrapper; auto). rewrite iv_qual. destruct (element o), c; reflexivity.
Qed.
Lemma iv_rref n c o : iv (S (S (S n))) (RRef c o) = match element o with Some v => Value v | None => Error end.
Proof.
  rewrite (iv_wrapped _ (RRef c o) HRRef c o) by (unfold wrapper; auto). rewrite iv_qual. destruct (element o), c; reflexivity.
Qed.

Lemma ivt_is t : ivt t = match element (object t) with Some v => Value v | None => match t with Plain false _ => Missing | _ => Error end end.
Proof.
  unfold input_value_t. destruct t as [[] o|c o|c o].
  - now rewrite iv_const.
  - now rewrite iv_bare.
  - now rewrite iv_lref.
  - now rewrite iv_rref.
Qed.

(** ** The guides *)
Notation ddc := (deduce head_eqb head_kind (atom_eqb b_eqb)).
Lemma ddc_range e : exists x, ddc (V 0) (snd (by_reference e)) [] = Some [(0, [x])] /\ term_ty x = Some (forwarding e).
Proof.
  destruct e as [c o|c o]; cbn [by_reference snd].
  - exists (ty_term (LRef c o)). split; [reflexivity|]. cbn [forwarding]. apply term_ty_lref.
  - exists (const_term c (obj_term o)). split; [destruct c; [reflexivity|now destruct o]|]. apply term_ty_qual.
Qed.
Lemma ddc_pointer e : ddc (I HPointer [I HConst [V 0] None] None) (snd (by_pointer e)) [] =
  match decayed e with Pointer _ t => Some [(0, [obj_term t])] | _ => None end.
Proof.
  unfold by_pointer. destruct (decayed e) as [b|[] t|t m|t]; cbn [snd obj_term const_term]; try reflexivity; destruct t; reflexivity.
Qed.
Lemma ddc_copy e : ddc (I HSpan [V 0] None) (snd (by_value e)) [] =
  match decayed e with InputSpan t => Some [(0, [obj_term t])] | _ => None end.
Proof.
  unfold by_value. destruct (decayed e) as [b|c t|t m|t]; cbn [snd obj_term]; try reflexivity. destruct t; reflexivity.
Qed.

(** What the guides say the elements are, computed *)
Definition guided (e : @expression B) : option (@obj B) :=
  match expr_object e with
  | Array t _ | InputSpan t => Some t
  | Base b => class_range (expr_const e) b
  | Pointer _ (Base b) => if character b then Some (Base b) else None
  | Pointer _ _ => None
  end.
Lemma ded_is e : ded e = option_map InputSpan (guided e).
Proof.
  unfold deduced, applicable, guides. cbn [flat_map].
  destruct (ddc_range e) as (x & Hx & Hr). pose proof (ddc_pointer e) as Hp. pose proof (ddc_copy e) as Hc.
  unfold guide_range at 1 2, guide_pointer at 1 2, guide_copy at 1 2. cbn [g_argument g_param].
  destruct (by_reference e) as [k1 t1] eqn:E1. destruct (by_pointer e) as [k2 t2] eqn:E2. destruct (by_value e) as [k3 t3] eqn:E3.
  cbn [snd] in Hx, Hp, Hc. rewrite Hx, Hp, Hc. clear Hx Hp Hc.
  assert (K1 : k1 = 0) by (now injection E1). assert (K3 : k3 = 0) by (now injection E3). subst k1 k3.
  assert (Hx : forall g : guide, g = guide_range class_range -> g_requires g [(0, [x])] = match range_value class_range (forwarding e) with Some _ => true | None => false end
    /\ g_type g [(0, [x])] = option_map InputSpan (range_value class_range (forwarding e))).
  { intros g ->. cbn [guide_range g_requires g_type]. rewrite type_of_0, Hr. auto. }
  destruct (Hx _ eq_refl) as [-> Gt]. clear Hx.
  assert (Ht : forall t : @obj B, type_of [(0, [obj_term t])] 0 = Some (Plain false t)) by (intros; apply term_ty_obj).
  destruct e as [c o|c o]; destruct o as [b|c' t|t m|t]; cbn [decayed forwarding range_value guided expr_object expr_const] in *;
    unfold guided; cbn [expr_object expr_const].
  all: try (destruct (class_range c b); cbn -[g_type guide_range]; rewrite ?Gt; reflexivity).
  all: try (cbn [g_requires guide_pointer guide_copy app]; rewrite Ht; cbn -[g_type];
            destruct t as [b| | |]; try reflexivity; destruct (character b); try reflexivity;
            cbn -[type_of obj_term]; now rewrite Ht).
  2,4: change (match type_of [(0, [obj_term t])] 0 with Some (Plain _ u) => Some (InputSpan u) | _ => None end = Some (InputSpan t));
       now rewrite Ht.
  all: cbn [g_requires guide_pointer guide_copy app]; rewrite ?Ht.
  all: destruct c, t as [b| | |]; cbn in E2; injection E2 as <- _; cbn -[g_type guide_range guide_pointer guide_copy more_specialized];
       try destruct (character b); cbn -[g_type guide_range guide_pointer guide_copy]; rewrite ?Gt; try reflexivity.
Qed.

Lemma guided_spec e w : guided e = Some w <->
  elems_as (expr_const e) (expr_object e) w \/ exists b, character b = true /\ expr_object e = Pointer false (Base b) /\ w = Base b.
Proof.
  unfold guided. split.
  - destruct (expr_object e) as [b|[] [b| | |]|t n|t]; intros H; try discriminate.
    + left. now constructor.
    + destruct (character b) eqn:Hb; [|discriminate]. injection H as <-. left. now constructor.
    + destruct (character b) eqn:Hb; [|discriminate]. injection H as <-. right. eauto.
    + injection H as <-. left. constructor.
    + injection H as <-. left. constructor.
  - intros [H|(b & Hb & -> & ->)]; [|now rewrite Hb]. destruct H as [| | |b Hb]; auto. now rewrite Hb.
Qed.
Lemma no_element o : element o = None <-> ~ exists v, elems o v.
Proof.
  split.
  - intros H (v & Hv). apply element_spec in Hv. congruence.
  - intros H. destruct (element o) eqn:E; auto. exfalso. apply H. exists o0. now apply element_spec.
Qed.

(** ** C74 *)

(** What the elements of an argument are does not depend on the references and consts around it. *)
Theorem C74_value t v : ivt t = Value v <-> elems (object t) v.
Proof.
  rewrite ivt_is, <- element_spec. destruct (element (object t)) eqn:E; split; intros H; try congruence.
  now destruct t as [[]| |].
Qed.

(** An argument without elements: the constraint is not satisfied if its type is neither const nor a reference; for any
    other type the program does not compile, whatever other functions could be called. *)
Theorem C74_missing t : ivt t = Missing <-> bare t /\ ~ exists v, elems (object t) v.
Proof.
  rewrite ivt_is, <- no_element. destruct (element (object t)) eqn:E.
  - split; [discriminate|]. intros [_ H]. discriminate.
  - destruct t as [[]| |]; cbn; split; try discriminate; tauto.
Qed.
Theorem C74_error t : ivt t = Error <-> ~ bare t /\ ~ exists v, elems (object t) v.
Proof.
  rewrite ivt_is, <- no_element. destruct (element (object t)) eqn:E.
  - split; [discriminate|]. intros [_ H]. discriminate.
  - destruct t as [[]| |]; cbn; split; try discriminate; tauto.
Qed.

(** A call: [u] is the element type of the results, [w] that of the input. *)
Theorem C74_call v e u w : parse_call b_eqb character class_range comparable v e = Sees u w <->
  elems (expr_object e) u /\ comparable u v = true /\ elems_as (expr_const e) (expr_object e) w.
Proof.
  unfold parse_call, input_constructible_for. rewrite ivt_is, ded_is, <- element_spec.
  replace (object (forwarding e)) with (expr_object e) by now destruct e.
  replace (forwarded (forwarding e)) with e by now destruct e.
  split.
  - destruct (element (expr_object e)) as [u'|] eqn:E; [|now destruct e as [|[]]].
    destruct (comparable u' v) eqn:C; [|discriminate].
    destruct (guided e) as [w'|] eqn:G; cbn; [|discriminate]. intros H. injection H as -> ->.
    split; [auto|split; [auto|]]. apply guided_spec in G as [G|(b & Hb & Ho & ->)]; auto. rewrite Ho in E. discriminate.
  - intros (-> & -> & H). cbn. assert (G : guided e = Some w) by (apply guided_spec; auto). now rewrite G.
Qed.

(** A part of a parser is called with the [input_span] made of the argument: it sees the same elements. *)
Theorem C74_inner v c u : comparable u v = true ->
  parse_call b_eqb character class_range comparable v (Lvalue c (InputSpan u)) = Sees u u.
Proof. intros H. apply C74_call. cbn. repeat split; auto; constructor. Qed.

(** For everything but a class that is another range when const: the constraint decides, and the results have the
    element type of the input. *)
Theorem C74_accepted v e u : even_handed class_range (expr_object e) ->
  elems (expr_object e) u -> comparable u v = true -> parse_call b_eqb character class_range comparable v e = Sees u u.
Proof.
  intros He Hu Hc. apply C74_call. split; [auto|split; [auto|]].
  inversion Hu; subst; try constructor; auto. rewrite <- H in He. cbn in He. destruct (expr_const e); congruence.
Qed.
Theorem C74_same v e u w : even_handed class_range (expr_object e) ->
  parse_call b_eqb character class_range comparable v e = Sees u w -> u = w.
Proof.
  intros He H. apply C74_call in H as (Hu & Hc & Hw). apply element_spec in Hu.
  revert He Hu. destruct Hw as [t n|t|b w Hb|b Hb]; cbn; intros He Hu; try congruence.
  - destruct (expr_const e); congruence.
  - rewrite Hb in Hu. congruence.
Qed.

(** When the call is no candidate, and when the program does not compile. *)
Theorem C74_refused v e : parse_call b_eqb character class_range comparable v e = Refused <->
  (exists u, elems (expr_object e) u /\ comparable u v = false) \/
  ((exists o, e = Rvalue false o) /\ ~ exists u, elems (expr_object e) u).
Proof.
  unfold parse_call, input_constructible_for. rewrite ivt_is, ded_is, <- no_element.
  replace (object (forwarding e)) with (expr_object e) by now destruct e.
  replace (forwarded (forwarding e)) with e by now destruct e.
  destruct (element (expr_object e)) as [u|] eqn:E.
  - split.
    + destruct (comparable u v) eqn:C; [destruct (guided e); discriminate|]. intros _. left. exists u.
      split; auto. now apply element_spec.
    + intros [(u' & Hu & Hc)|[_ H]]; [|discriminate]. apply element_spec in Hu. rewrite E in Hu. injection Hu as <-. now rewrite Hc.
  - split.
    + intros H. right. destruct e as [c o|[] o]; cbn in H; try discriminate. split; eauto.
    + intros [(u' & Hu & Hc)|[(o & ->) _]]; [|reflexivity]. apply element_spec in Hu. congruence.
Qed.
Theorem C74_fails v e : even_handed class_range (expr_object e) ->
  (parse_call b_eqb character class_range comparable v e = Fails <->
   ~ (exists o, e = Rvalue false o) /\ ~ exists u, elems (expr_object e) u).
Proof.
  intros He. split.
  - intros H. assert (N : ~ exists u, elems (expr_object e) u).
    { intros (u & Hu). destruct (comparable u v) eqn:C.
      - rewrite (C74_accepted v e u He Hu C) in H. discriminate.
      - assert (R : parse_call b_eqb character class_range comparable v e = Refused) by (apply C74_refused; left; eauto). congruence. }
    split; auto. intros Hr. assert (R : parse_call b_eqb character class_range comparable v e = Refused) by (apply C74_refused; right; auto).
    congruence.
  - intros [Hr Hn]. destruct (parse_call b_eqb character class_range comparable v e) eqn:E; auto.
    + apply C74_refused in E as [(u & Hu & _)|[E _]]; exfalso; [apply Hn; eauto|auto].
    + apply C74_call in E as (Hu & _). exfalso. eauto.
Qed.
End Facts.

(** ** Cases *)
Inductive nm := Nchar | Nint | Nstring | Nreader.
Definition nm_eqb (a b : nm) : bool :=
  match a, b with Nchar, Nchar | Nint, Nint | Nstring, Nstring | Nreader, Nreader => true | _, _ => false end.
Definition nm_character (b : nm) : bool := match b with Nchar => true | _ => false end.
(** std::string; and a class whose [begin()] is not a const function *)
Definition nm_range (c : bool) (b : nm) : option (@obj nm) :=
  match b, c with Nstring, _ => Some (Base Nchar) | Nreader, false => Some (Base Nchar) | _, _ => None end.
Definition nm_comparable (s t : @obj nm) : bool :=
  match s, t with Base a, Base b => (nm_eqb a Nchar || nm_eqb a Nint) && (nm_eqb b Nchar || nm_eqb b Nint) | _, _ => false end.
Notation nm_call := (parse_call nm_eqb nm_character nm_range nm_comparable).

(** [any_of<"abc">.parse] of a literal, a string, a [const char*], a vector-like array of int, and of 5. *)
Example call_literal : nm_call (Base Nchar) (Lvalue true (Array (Base Nchar) 4)) = Sees (Base Nchar) (Base Nchar).
Proof. reflexivity. Qed.
Example call_string : nm_call (Base Nchar) (Lvalue true (Base Nstring)) = Sees (Base Nchar) (Base Nchar).
Proof. reflexivity. Qed.
Example call_pointer : nm_call (Base Nchar) (Lvalue false (Pointer true (Base Nchar))) = Sees (Base Nchar) (Base Nchar).
Proof. reflexivity. Qed.
Example call_ints : nm_call (Base Nchar) (Lvalue false (Array (Base Nint) 3)) = Sees (Base Nint) (Base Nint).
Proof. reflexivity. Qed.
Example call_five : nm_call (Base Nchar) (Rvalue false (Base Nint)) = Refused.
Proof. reflexivity. Qed.
(** The hypotheses of C74_accepted, C74_fails and C74_refused *)
Example accepted_case : even_handed nm_range (expr_object (Lvalue true (Base Nstring))) /\
  has_elements nm_character nm_range false (Base Nstring) (Base Nchar) /\ nm_comparable (Base Nchar) (Base Nint) = true.
Proof. repeat split. now constructor. Qed.
Example refused_case : has_elements nm_character nm_range false (Array (Base Nstring) 2) (Base Nstring) /\ nm_comparable (Base Nstring) (Base Nchar) = false.
Proof. split; [constructor|reflexivity]. Qed.
Example fails_case : even_handed nm_range (expr_object (Lvalue false (Base Nint))) /\
  ~ (exists o, Lvalue false (Base Nint) = Rvalue false o) /\ ~ exists u, has_elements nm_character nm_range false (Base Nint) u.
Proof. repeat split; [now intros (? & ?)|]. intros (u & H). inversion H. discriminate. Qed.

(** An argument parse cannot take is not always just refused: 5 is ([call_five]), but a variable of type int ends the
    compilation - also where the call stands in a requires-expression or beside another candidate. *)
Theorem C74_refusal_refuted : exists e : @expression nm, (~ exists u, has_elements nm_character nm_range false (expr_object e) u) /\
  nm_call (Base Nchar) e = Fails.
Proof. exists (Lvalue false (Base Nint)). split; [exact (proj2 (proj2 fails_case))|reflexivity]. Qed.

(** A pointer to characters that are not constant: the guide makes an [input_span] of it, the constraint does not. *)
Theorem C74_pointer_refuted : exists e : @expression nm, deduced nm_eqb nm_character nm_range e = Some (InputSpan (Base Nchar)) /\
  nm_call (Base Nchar) e = Fails /\ (exists o, e = Lvalue false o /\ nm_call (Base Nchar) (Rvalue false o) = Refused).
Proof.
  exists (Lvalue false (Pointer false (Base Nchar))). repeat split. exists (Pointer false (Base Nchar)). split; reflexivity.
Qed.

(** A const object of a class that is a range only when not const: the constraint is satisfied and the body does not compile. *)
Theorem C74_const_range_refuted : exists e : @expression nm,
  input_constructible_for nm_eqb nm_character nm_range nm_comparable (forwarding e) (Base Nchar) = True_ /\ nm_call (Base Nchar) e = Fails.
Proof. exists (Lvalue true (Base Nreader)). split; reflexivity. Qed.

Print Assumptions C74_value.
Print Assumptions C74_missing.
Print Assumptions C74_error.
Print Assumptions C74_call.
Print Assumptions C74_inner.
Print Assumptions C74_accepted.
Print Assumptions C74_same.
Print Assumptions C74_refused.
Print Assumptions C74_fails.
Print Assumptions C74_refusal_refuted.
Print Assumptions C74_pointer_refuted.
Print Assumptions C74_const_range_refuted.
