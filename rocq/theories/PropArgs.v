(** * Property C72: what the arguments of static_array denote *)
From Coq Require Import List Arith ZArith Bool Lia.
From Verif Require Import Overload ArrayArgs.
Import ListNotations.

Section Args.
Context {B : Type} (b_eqb : B -> B -> bool).
Hypothesis b_eqb_spec : forall a b, b_eqb a b = true <-> a = b.
Variable character : B -> bool.
Variable range : B -> option (Z * Z).
Variable user : B -> B -> bool.
Notation aty := (@aty B). Notation aval := (@aval B). Notation arg := (@arg B).
Notation make := (make b_eqb character range user).
Notation deduced := (deduced b_eqb character range user).

(** ** The specification *)

(** Arrays have as many elements as their type says, and at least one. *)
Definition proper (a : arg) : Prop :=
  match fst a with
  | Array _ n => n <> 0 /\ exists l, snd a = Elems l /\ List.length l = n
  | Static _ n => exists l, snd a = Elems l /\ List.length l = n
  | _ => True
  end.

(** An argument passed by value: an array becomes the address of its first element. *)
Inductive by_value : arg -> aty -> aval -> Prop :=
| bv_array t n l : by_value (Array t n, Elems l) (Pointer t) (Address l)
| bv_other t v : (forall u n, t <> Array u n) -> by_value (t, v) t v.

(** [a] fits, unchanged or converted, into an element of type [t]. *)
Inductive fits (t : aty) (a : arg) : aval -> Prop :=
| fit_same v : by_value a t v -> fits t a v
| fit_wider s b v l h l' h' : a = (Base s, v) -> t = Base b -> s <> b -> range s = Some (l, h) -> range b = Some (l', h') ->
    (l' <= l)%Z -> (h <= h')%Z -> fits t a v
| fit_user s b v : a = (Base s, v) -> t = Base b -> s <> b -> (range s = None \/ range b = None) -> user s b = true ->
    fits t a (Converted b v).

Inductive denotes : list arg -> aty -> list aval -> Prop :=
| den_literal b l x : character b = true -> denotes [(Array (Base b) (S (List.length l)), Elems (l ++ [x]))] (Base b) l
| den_array t l : l <> [] -> (forall b, t = Base b -> character b = false) ->
    denotes [(Array t (List.length l), Elems l)] (Pointer t) [Address l]
| den_copy t l : denotes [(Static t (List.length l), Elems l)] t l
| den_value t v : (forall u n, t <> Array u n) -> (forall u n, t <> Static u n) -> denotes [(t, v)] t [v]
| den_values a b rest t v vs : by_value a t v -> Forall2 (fits t) (b :: rest) vs -> denotes (a :: b :: rest) t (v :: vs).

(** ** Proof *)

Lemma aty_eqb_spec (s : aty) : forall t, aty_eqb b_eqb s t = true <-> s = t.
Proof.
  induction s as [a|s IH|s IH m|s IH m]; intros [b|t|t n|t n]; cbn; try (split; discriminate).
  - rewrite b_eqb_spec. split; congruence.
  - rewrite IH. split; congruence.
  - rewrite andb_true_iff, IH, Nat.eqb_eq. split; [intros [-> ->]; auto|intros [= -> ->]; auto].
  - rewrite andb_true_iff, IH, Nat.eqb_eq. split; [intros [-> ->]; auto|intros [= -> ->]; auto].
Qed.
Lemma aty_eqb_refl (s : aty) : aty_eqb b_eqb s s = true.
Proof. now apply aty_eqb_spec. Qed.
Lemma aty_eqb_neq (s t : aty) : s <> t -> aty_eqb b_eqb s t = false.
Proof. intros H. destruct (aty_eqb b_eqb s t) eqn:He; auto. now apply aty_eqb_spec in He. Qed.

Lemma as_type_term (t : aty) : as_type (as_term t) = Some t.
Proof. induction t as [a|t IH|t IH n|t IH n]; cbn; auto; now rewrite IH. Qed.
Lemma as_types (l : list aty) :
  fold_right (fun t acc => match as_type t, acc with Some t, Some l => Some (t :: l) | _, _ => None end) (Some []) (map as_term l) = Some l.
Proof. induction l as [|t l IH]; cbn; [reflexivity|]. now rewrite as_type_term, IH. Qed.

Lemma term_not_expand (t : aty) v : as_term t <> Expand v.
Proof. now destruct t. Qed.
Lemma deduce_var (t : aty) v s : deduce head_eqb head_kind (atom_eqb b_eqb) (V v) (as_term t) s = bind head_eqb (atom_eqb b_eqb) s v [as_term t].
Proof. now destruct t. Qed.

(** *** Which guide *)
Lemma applies_values a rest : applies b_eqb (a :: rest) (guide_values b_eqb range user) =
  if forallb (fun b => convertible b_eqb range user (decay (fst b)) (decay (fst a))) rest
  then Some (guide_values b_eqb range user, [(1, map (fun b => as_term (decay (fst b))) rest); (0, [as_term (decay (fst a))])])
  else None.
Proof.
  unfold applies, arguments, guide_values. cbn [g_params g_ref map].
  match goal with |- context [deduce ?x1 ?x2 ?x3 ?x4 ?x5 ?x6] => assert (Hd : deduce x1 x2 x3 x4 x5 x6 =
    Some [(1, map (fun b => as_term (decay (fst b))) rest); (0, [as_term (decay (fst a))])]) end.
  { pose proof (term_not_expand (decay (fst a))) as Hn. destruct (as_term (decay (fst a))) as [x|f l|v]; [reflexivity..|now destruct (Hn v)]. }
  rewrite Hd. cbn [g_requires]. unfold type_of, types_of. cbn [lookup Nat.eqb]. rewrite as_type_term.
  rewrite <- (map_map (fun b : arg => decay (fst b)) as_term), as_types.
  assert (Hf : forall (f : aty -> bool) l, forallb f (map (fun b : arg => decay (fst b)) l) = forallb (fun b => f (decay (fst b))) l).
  { intros f l. induction l as [|x l IH]; cbn; [reflexivity|]. now rewrite IH. }
  now rewrite Hf.
Qed.

Lemma applies_single a : applies b_eqb [a] guide_single = Some (guide_single, [(0, [as_term (decay (fst a))])]).
Proof.
  unfold applies, arguments, guide_single. cbn [g_params g_ref map]. pose proof (term_not_expand (decay (fst a))) as Hn.
  destruct (as_term (decay (fst a))) as [x|f l|v]; [reflexivity..|now destruct (Hn v)].
Qed.
Lemma applies_copy a : applies b_eqb [a] guide_copy =
  match fst a with Static t n => Some (guide_copy, [(1, [Atom (inr n)]); (0, [as_term t])]) | _ => None end.
Proof.
  unfold applies, arguments, guide_copy. cbn [g_params g_ref map]. destruct (fst a) as [b|t|t n|t n]; try reflexivity.
  cbn [decay as_term]. pose proof (term_not_expand t) as Hn. destruct (as_term t) as [x|f l|v]; [reflexivity..|now destruct (Hn v)].
Qed.
Lemma applies_literal a : applies b_eqb [a] (guide_literal character) =
  match fst a with Array (Base b) n => if character b then Some (guide_literal character, [(1, [Atom (inr n)]); (0, [Atom (inl b)])]) else None | _ => None end.
Proof.
  unfold applies, arguments, guide_literal. cbn [g_params g_ref map]. destruct (fst a) as [b|t|t n|t n]; try reflexivity.
  destruct t as [b|t|t m|t m]; [reflexivity|..]; cbn; unfold type_of; cbn; now rewrite as_type_term.
Qed.
Lemma applies_more a b rest : applies b_eqb (a :: b :: rest) (guide_literal character) = None /\
  applies b_eqb (a :: b :: rest) guide_single = None /\ applies b_eqb (a :: b :: rest) guide_copy = None.
Proof.
  unfold applies, arguments. cbn [g_params g_ref map guide_literal guide_single guide_copy].
  assert (Hx : forall t v, match @as_term B t with Expand _ => true | _ => false end = false -> as_term t <> Expand v) by (intros; apply term_not_expand).
  pose proof (term_not_expand (fst b)) as H1. pose proof (term_not_expand (decay (fst b))) as H2. pose proof (term_not_expand (decay (fst a))) as H3.
  repeat split.
  - destruct (fst a) as [c|t|t n|t n]; try reflexivity. cbn [as_term]. pose proof (term_not_expand t) as H4.
    destruct (as_term t) as [?|? ?|v]; [..|now destruct (H4 v)]; destruct (as_term (fst b)) as [?|? ?|v]; try reflexivity; now destruct (H1 v).
  - destruct (as_term (decay (fst a))) as [?|? ?|v]; [..|now destruct (H3 v)]; destruct (as_term (decay (fst b))) as [?|? ?|v]; try reflexivity; now destruct (H2 v).
  - destruct (fst a) as [c|t|t n|t n]; try reflexivity. cbn [decay as_term]. pose proof (term_not_expand t) as H4.
    destruct (as_term t) as [?|? ?|v]; [..|now destruct (H4 v)]; destruct (as_term (decay (fst b))) as [?|? ?|v]; try reflexivity; now destruct (H2 v).
Qed.

(** *** The type deduced *)
Lemma deduced_none : deduced [] = None.
Proof. reflexivity. Qed.

Lemma deduced_one a : deduced [a] =
  match fst a with
  | Array (Base b) n => if character b then match n with 0 => None | S n => Some (Static (Base b) n) end else Some (Static (Pointer (Base b)) 1)
  | Array t _ => Some (Static (Pointer t) 1)
  | Static t n => Some (Static t n)
  | t => Some (Static t 1)
  end.
Proof.
  unfold ArrayArgs.deduced, applicable, guides. cbn [flat_map]. rewrite applies_values, applies_literal, applies_single, applies_copy. cbn [forallb].
  destruct (fst a) as [b|t|t n|t n] eqn:Ha; cbn [decay app].
  - reflexivity.
  - cbn. unfold type_of. cbn. now rewrite as_type_term.
  - destruct t as [b|t|t m|t m]; cbn [app]; try (cbn; unfold type_of; cbn; now rewrite ?as_type_term).
    destruct (character b); [now destruct n|reflexivity].
  - cbn. unfold type_of, size_of. cbn. now rewrite as_type_term.
Qed.

Lemma deduced_more a b rest : deduced (a :: b :: rest) =
  if forallb (fun x => convertible b_eqb range user (decay (fst x)) (decay (fst a))) (b :: rest)
  then Some (Static (decay (fst a)) (S (S (List.length rest)))) else None.
Proof.
  unfold ArrayArgs.deduced, applicable, guides. cbn [flat_map]. destruct (applies_more a b rest) as (-> & -> & ->). rewrite applies_values.
  match goal with |- context [if ?c then _ else _] => destruct c end; [|reflexivity]. cbn [app best_guide forallb guide_values g_type]. unfold type_of, types_of. cbn [lookup Nat.eqb].
  rewrite as_type_term, <- (map_map (fun b : arg => decay (fst b)) as_term), as_types. cbn [map List.length]. rewrite map_length. do 2 f_equal. lia.
Qed.

(** *** The elements *)
Lemma pass_same a t v : proper a -> by_value a t v -> decay (fst a) = t /\ pass b_eqb range user t a = Some v.
Proof.
  intros Hp H. destruct H as [t n l|t v Hn].
  - split; [reflexivity|]. unfold pass. cbn. now rewrite aty_eqb_refl.
  - assert (Hd : decay t = t) by (destruct t as [| |u n|]; auto; now destruct (Hn u n)).
    cbn. split; auto. unfold pass. cbn [fst snd]. rewrite Hd, aty_eqb_refl. destruct t as [| |u n|]; auto. now destruct (Hn u n).
Qed.
Lemma pass_decay a : proper a -> exists v, by_value a (decay (fst a)) v.
Proof.
  destruct a as [[b|t|t n|t n] v]; intros Hp; cbn; try (exists v; now constructor).
  destruct Hp as (_ & l & Hl & _). cbn in Hl. subst v. eexists. constructor.
Qed.

Lemma element_fits t a v : proper a -> element b_eqb range user t a = Some v <-> fits t a v.
Proof.
  intros Hp. destruct (pass_decay a Hp) as [w Hw]. split.
  - unfold element. destruct (aty_eqb b_eqb (decay (fst a)) t) eqn:He.
    + apply aty_eqb_spec in He. subst t. cbn [negb andb]. destruct (pass_same a _ w Hp Hw) as [_ ->]. intros [= <-]. now constructor.
    + cbn [negb andb]. destruct (narrows range (decay (fst a)) t) eqn:Hn; [discriminate|]. unfold pass. rewrite He.
      destruct a as [u x]. cbn [fst snd] in *. destruct (decay u) as [s| | |] eqn:Hd; try discriminate. destruct t as [b| | |]; try discriminate.
      assert (Hu : u = Base s) by (destruct u; cbn in Hd; congruence). subst u.
      assert (Hsb : s <> b) by (intros ->; cbn in He; rewrite (proj2 (b_eqb_spec b b) eq_refl) in He; discriminate).
      unfold integer_type. cbn in Hn. destruct (range s) as [[l h]|] eqn:Hs, (range b) as [[l' h']|] eqn:Hb; cbn [andb].
      * intros [= <-]. apply negb_false_iff, andb_true_iff in Hn as [H1 H2]. eapply fit_wider; eauto; [now apply Z.leb_le | now apply Z.leb_le].
      * destruct (user s b) eqn:Hus; [|discriminate]. intros [= <-]. eapply fit_user; eauto.
      * destruct (user s b) eqn:Hus; [|discriminate]. intros [= <-]. eapply fit_user; eauto.
      * destruct (user s b) eqn:Hus; [|discriminate]. intros [= <-]. eapply fit_user; eauto.
  - intros H. destruct H as [v H|s b v l h l' h' -> -> Hsb Hs Hb H1 H2|s b v -> -> Hsb Hr Hu].
    + destruct (pass_same a t v Hp H) as [Hd Hv]. unfold element. rewrite Hd, aty_eqb_refl. exact Hv.
    + unfold element, pass. cbn [fst snd decay narrows]. rewrite aty_eqb_neq by congruence. unfold integer_type. rewrite Hs, Hb.
      rewrite (proj2 (Z.leb_le _ _) H1), (proj2 (Z.leb_le _ _) H2). reflexivity.
    + unfold element, pass. cbn [fst snd decay narrows]. rewrite aty_eqb_neq by congruence. unfold integer_type. rewrite Hu.
      destruct Hr as [-> | ->]; [reflexivity|]. now destruct (range s) as [[? ?]|].
Qed.

Lemma fits_convertible t a v : proper a -> fits t a v -> convertible b_eqb range user (decay (fst a)) t = true.
Proof.
  intros Hp H. unfold convertible. destruct H as [v H|s b v l h l' h' -> -> Hsb Hs Hb H1 H2|s b v -> -> Hsb Hr Hu].
  - destruct (pass_same a t v Hp H) as [-> _]. now rewrite aty_eqb_refl.
  - cbn. unfold integer_type. rewrite Hs, Hb. apply orb_true_r.
  - cbn. rewrite Hu. now rewrite !orb_true_r.
Qed.

Lemma all_fits t l : Forall proper l -> forall vs, all (map (element b_eqb range user t) l) = Some vs <-> Forall2 (fits t) l vs.
Proof.
  induction 1 as [|a l Ha Hl IH]; intros vs; cbn [map all].
  - split; [intros [= <-]; constructor | now inversion 1].
  - split.
    + destruct (element b_eqb range user t a) as [v|] eqn:He; [|discriminate]. destruct (all _) as [ws|] eqn:Hw; [|discriminate]. cbn. intros [= <-].
      constructor; [now apply element_fits | now apply IH].
    + inversion 1 as [|? v ? ws Hv Hw]; subst. apply element_fits in Hv; auto. apply IH in Hw. now rewrite Hv, Hw.
Qed.

Lemma all_convertible t l vs : Forall proper l -> Forall2 (fits t) l vs ->
  forallb (fun x : arg => convertible b_eqb range user (decay (fst x)) t) l = true.
Proof.
  intros Hp H. revert Hp. induction H as [|x v l vs Hx _ IH]; intros Hp; [reflexivity|]. inversion Hp; subst. cbn.
  rewrite (fits_convertible t x v) by auto. now apply IH.
Qed.

(** *** The result *)
Lemma not_own (t : aty) n : Static t n <> t.
Proof. revert n. induction t as [|t IH|t IH m|t IH m]; intros n; try discriminate. intros [= H _]. now apply IH in H. Qed.

Theorem C72_exact args t l : Forall proper args -> (make args = Some (t, l) <-> denotes args t l).
Proof.
  intros Hp. unfold ArrayArgs.make. unfold ArrayArgs.arg in *. destruct args as [|a [|b rest]].
  - split; [discriminate|inversion 1].
  - inversion Hp as [|? ? Ha _]; subst. rewrite deduced_one. destruct a as [u v]. cbn [fst]. destruct u as [b|u|u n|u n].
    + unfold chosen, ctors. cbn [flat_map callable]. unfold can_pass. cbn [fst decay]. rewrite aty_eqb_refl. cbn. unfold pass. cbn [fst snd decay].
      rewrite aty_eqb_refl. cbn. split.
      * intros [= <- <-]. constructor; discriminate.
      * inversion 1; subst. reflexivity.
    + unfold chosen, ctors. cbn [flat_map callable]. unfold can_pass. cbn [fst decay]. rewrite aty_eqb_refl. cbn. unfold pass. cbn [fst snd decay].
      rewrite aty_eqb_refl. cbn. split.
      * intros [= <- <-]. constructor; discriminate.
      * inversion 1; subst. reflexivity.
    + destruct Ha as (Hn & es & He & Hl). cbn [fst snd] in *. subst v.
      assert (Hptr : (forall b, u = Base b -> character b = false) ->
        match chosen b_eqb character range user (Pointer u) 1 [(Array u n, Elems es)] with
        | Some k => option_map (pair (Pointer u)) (construct b_eqb range user (Pointer u) [(Array u n, Elems es)] k)
        | None => None end = Some (Pointer u, [Address es])).
      { intros Hc. assert (Hlit : callable b_eqb character range user (Pointer u) 1 [(Array u n, Elems es)] KLiteral = None).
        { cbn [callable]. destruct u as [b| | |]; auto. now rewrite Hc. }
        unfold chosen, ctors. cbn [flat_map]. rewrite Hlit. cbn [callable]. unfold can_pass. cbn [fst decay]. rewrite aty_eqb_refl. cbn. unfold pass. cbn [fst snd decay].
        now rewrite aty_eqb_refl. }
      assert (Hden : (forall b, u = Base b -> character b = false) -> (Some (Pointer u, [Address es]) = Some (t, l) <->
        denotes [(Array u n, Elems es)] t l)).
      { intros Hc. split.
        - intros [= <- <-]. subst n. constructor; auto. now intros ->.
        - inversion 1; subst; try reflexivity; [specialize (Hc _ eq_refl); congruence|exfalso; eauto; congruence]. }
      destruct u as [b|u|u m|u m]; [|rewrite <- (Hden ltac:(discriminate)), <- (Hptr ltac:(discriminate)); reflexivity ..].
      destruct (character b) eqn:Hc; [|rewrite <- (Hden ltac:(congruence)), <- (Hptr ltac:(congruence)); reflexivity].
      destruct n as [|n]; [congruence|]. destruct (exists_last (l := es)) as (es' & x & ->); [intros ->; discriminate|].
      assert (Hl' : List.length es' = n) by (rewrite app_length in Hl; cbn in Hl; lia). clear Hptr Hden Hn Hl.
      assert (Hch : chosen b_eqb character range user (Base b) n [(Array (Base b) (S n), Elems (es' ++ [x]))] = Some KLiteral).
      { unfold chosen, ctors. cbn [flat_map callable]. rewrite Hc, aty_eqb_refl, Nat.add_1_r, Nat.eqb_refl. cbn [andb].
        unfold can_pass. cbn [fst decay aty_eqb]. destruct (negb (n =? 0) && _ && _), (n =? 1); reflexivity. }
      rewrite Hch. cbn [construct option_map]. replace (firstn (S n - 1) (es' ++ [x])) with es'.
      2: { rewrite firstn_app, firstn_all2 by lia. replace (S n - 1 - List.length es') with 0 by lia. cbn. now rewrite app_nil_r. }
      split.
      * intros [= <- <-]. subst n. now constructor.
      * inversion 1 as [b' l' x' Hb' He| | | |]; subst.
        -- match goal with H : _ ++ _ = _ ++ _ |- _ => apply app_inj_tail in H as [-> _] end. reflexivity.
        -- match goal with H : forall b, _ -> character b = false |- _ => specialize (H _ eq_refl) end. congruence.
        -- exfalso. match goal with H : forall u n, Array _ _ <> Array u n |- _ => eapply H; reflexivity end.
    + destruct Ha as (es & He & Hl). cbn [fst snd] in *. subst v.
      assert (Hch : chosen b_eqb character range user u n [(Static u n, Elems es)] = Some KCopy).
      { unfold chosen, ctors. cbn [flat_map callable]. rewrite aty_eqb_refl, Nat.eqb_refl. cbn [andb]. unfold can_pass. cbn [fst decay].
        rewrite aty_eqb_neq by apply not_own. destruct (negb (n =? 0) && _ && _), (n =? 1); reflexivity. }
      rewrite Hch. cbn [construct option_map]. split.
      * intros [= <- <-]. subst n. constructor.
      * inversion 1; subst; [reflexivity|]. exfalso. match goal with H : forall u n, Static _ _ <> Static u n |- _ => eapply H; reflexivity end.
  - change (ArrayArgs.aty * ArrayArgs.aval)%type with arg in *. rewrite deduced_more. inversion Hp as [|? ? Ha Hr]; subst. destruct (pass_decay a Ha) as [w Hw].
    destruct (pass_same a _ w Ha Hw) as [_ Hpw].
    match goal with |- context [forallb ?f (b :: rest)] => destruct (forallb f (b :: rest)) eqn:Hcv end.
    + assert (Hch : chosen b_eqb character range user (decay (fst a)) (S (S (List.length rest))) (a :: b :: rest) = Some KValues).
      { unfold chosen, ctors. cbn [flat_map]. cbn [callable].
        match goal with |- context [forallb ?f (b :: rest)] => replace (forallb f (b :: rest)) with true by (symmetry; exact Hcv) end.
        cbn [List.length Nat.sub Nat.eqb negb andb]. rewrite Nat.eqb_refl.
        unfold can_pass. rewrite aty_eqb_refl.
        destruct a as [[| | |] ?]; reflexivity. }
      rewrite Hch. cbn [construct all]. rewrite Hpw. split.
      * destruct (all (map (element b_eqb range user (decay (fst a))) (b :: rest))) as [vs|] eqn:Hvs; [|discriminate].
        cbn [option_map]. intros [= <- <-]. apply all_fits in Hvs; auto. now constructor.
      * inversion 1; subst. destruct (pass_same a t v Ha) as [Ht Hv]; auto. rewrite Ht in *.
        match goal with H : Forall2 _ _ _ |- _ => apply all_fits in H; auto; rewrite H end. cbn. congruence.
    + split; [discriminate|]. inversion 1; subst. exfalso. destruct (pass_same a t v Ha) as [Ht Hv]; auto. rewrite Ht in *.
      assert (Hall : forallb (fun x : arg => convertible b_eqb range user (decay (fst x)) t) (b :: rest) = true); [|exact (Bool.diff_true_false (eq_trans (eq_sym Hall) Hcv))].
      match goal with H : Forall2 _ _ _ |- _ => now apply (all_convertible _ _ _ Hr H) end.
Qed.

(** ** Consequences *)

(** A literal denotes its characters, whatever they are (zeros included), without the terminator. *)
Theorem C72_literal b l x : character b = true -> make [(Array (Base b) (S (List.length l)), Elems (l ++ [x]))] = Some (Base b, l).
Proof.
  intros H. apply C72_exact; [|now constructor]. repeat constructor; cbn; [discriminate|]. exists (l ++ [x]).
  split; auto. rewrite app_length. cbn. lia.
Qed.

(** Values of one type denote themselves, in their order. *)
Theorem C72_values b v vs : make (map (pair (Base b)) (v :: vs)) = Some (Base b, v :: vs).
Proof.
  apply C72_exact.
  - apply Forall_forall. intros x Hx. apply in_map_iff in Hx as (y & <- & _). exact Logic.I.
  - destruct vs as [|w ws]; cbn [map]; [constructor; discriminate|]. constructor; [constructor; discriminate|].
    change (Forall2 (fits (Base b)) (map (pair (Base b)) (w :: ws)) (w :: ws)). induction (w :: ws) as [|y ys IH]; cbn; constructor; auto.
    apply fit_same. constructor. discriminate.
Qed.

(** A literal and the same characters written one by one denote the same. *)
Theorem C72_spelled b v vs x : character b = true ->
  make [(Array (Base b) (S (List.length (v :: vs))), Elems ((v :: vs) ++ [x]))] = make (map (pair (Base b)) (v :: vs)).
Proof. intros H. now rewrite C72_values, C72_literal. Qed.

(** An array that is given denotes itself. *)
Theorem C72_copied t l : make [(Static t (List.length l), Elems l)] = Some (t, l).
Proof. apply C72_exact; [|constructor]. repeat constructor. cbn. eauto. Qed.

(** As many elements as arguments, unless a single one is an array. *)
Theorem C72_count args t l : Forall proper args -> make args = Some (t, l) -> 2 <= List.length args -> List.length l = List.length args.
Proof.
  intros Hp H Hn. apply C72_exact in H; auto. destruct H as [| | | |a b rest t v vs Hv Hf]; cbn in Hn; try lia. cbn. f_equal.
  change (List.length vs = List.length (b :: rest)). clear - Hf. induction Hf as [|x w l ws _ _ IH]; cbn; auto.
Qed.

(** The first argument alone decides the element type, unless a single one is an array. *)
Theorem C72_first a b rest t l : Forall proper (a :: b :: rest) -> make (a :: b :: rest) = Some (t, l) -> exists v, by_value a t v /\ hd_error l = Some v.
Proof. intros Hp H. apply C72_exact in H; auto. inversion H; subst. eauto. Qed.

(** An array of anything but characters denotes one pointer. *)
Theorem C72_array t v vs : (forall b, t = Base b -> character b = false) ->
  make [(Array t (List.length (v :: vs)), Elems (v :: vs))] = Some (Pointer t, [Address (v :: vs)]).
Proof. intros H. apply C72_exact; [|constructor; [discriminate|auto]]. repeat constructor; cbn; [discriminate|]. eauto. Qed.

(** Several arguments of which one does not convert to the type of the first: no guide applies (so the failure can be tested
    in a constraint); if all convert, the type is known, though the initialisation can still fail. *)
Inductive converts : aty -> aty -> Prop :=
| conv_same t : converts t t
| conv_integer s b : range s <> None -> range b <> None -> converts (Base s) (Base b)
| conv_user s b : user s b = true -> converts (Base s) (Base b).
Theorem C72_deduced a b rest T : deduced (a :: b :: rest) = Some T <->
  T = Static (decay (fst a)) (List.length (a :: b :: rest)) /\ Forall (fun x => converts (decay (fst x)) (decay (fst a))) (b :: rest).
Proof.
  assert (Hc : forall s t, convertible b_eqb range user s t = true <-> converts s t).
  { intros s t. unfold convertible. rewrite orb_true_iff, aty_eqb_spec. split.
    - intros [->|H]; [constructor|]. destruct s, t; try discriminate. apply orb_true_iff in H as [H|H]; [|now constructor 3].
      unfold integer_type in H. constructor 2; intros He; rewrite He in H; [|rewrite andb_false_r in H]; discriminate.
    - inversion 1 as [|s' b' H1 H2|s' b' H1]; subst; [now left|right|right; rewrite H1; apply orb_true_r].
      unfold integer_type. destruct (range s'); [|congruence]. destruct (range b'); [|congruence]. reflexivity. }
  rewrite deduced_more. match goal with |- context [forallb ?f (b :: rest)] => destruct (forallb f (b :: rest)) eqn:H end.
  - rewrite forallb_forall in H. split.
    + intros [= <-]. split; [reflexivity|]. apply Forall_forall. intros x Hx. now apply Hc, H.
    + intros [-> _]. reflexivity.
  - split; [discriminate|]. intros [_ HF]. exfalso. apply Bool.not_true_iff_false in H. apply H, forallb_forall. intros x Hx. rewrite Forall_forall in HF.
    now apply Hc, HF.
Qed.
End Args.

(** ** Types of an implementation, and a class with a conversion to int *)
Inductive bty := Char | Int | Long | Token.
Definition bty_eqb (a b : bty) : bool :=
  match a, b with Char, Char => true | Int, Int => true | Long, Long => true | Token, Token => true | _, _ => false end.
Lemma bty_eqb_spec a b : bty_eqb a b = true <-> a = b.
Proof. destruct a, b; cbn; split; congruence. Qed.
Definition is_char (b : bty) : bool := match b with Char => true | _ => false end.
Definition bty_range (b : bty) : option (Z * Z) :=
  match b with
  | Char => Some (-128, 127)%Z
  | Int => Some (-2147483648, 2147483647)%Z
  | Long => Some (-9223372036854775808, 9223372036854775807)%Z
  | Token => None
  end.
Definition bty_user (a b : bty) : bool := match a, b with Token, Int => true | _, _ => false end.
Notation mk := (make bty_eqb is_char bty_range bty_user).
Notation chr c := (Base Char, Num c%Z).
Notation int c := (Base Int, Num c%Z).

(** "abc" with a zero in it; as written out; the copy; 1, 'a' and an object; two literals: two pointers. *)
Example C72_literal_example :
  mk [(Array (Base Char) 4, Elems [Num 97; Num 0; Num 99; Num 0]%Z)] = Some (Base Char, [Num 97; Num 0; Num 99]%Z).
Proof. reflexivity. Qed.
Example C72_values_example : mk [chr 97; chr 0; chr 99] = Some (Base Char, [Num 97; Num 0; Num 99]%Z).
Proof. reflexivity. Qed.
Example C72_copied_example : mk [(Static (Base Char) 2, Elems [Num 97; Num 0]%Z)] = Some (Base Char, [Num 97; Num 0]%Z).
Proof. reflexivity. Qed.
Example C72_exact_example :
  Forall proper [int 1; chr 97; (Base Token, Obj 7)] /\
  denotes is_char bty_range bty_user [int 1; chr 97; (Base Token, Obj 7)] (Base Int) [Num 1; Num 97; Converted Int (Obj 7)]%Z /\
  mk [int 1; chr 97; (Base Token, Obj 7)] = Some (Base Int, [Num 1; Num 97; Converted Int (Obj 7)]%Z).
Proof.
  split; [repeat constructor|]. split; [|reflexivity]. constructor; [constructor; discriminate|]. constructor; [|constructor; [|constructor]].
  - eapply fit_wider; try reflexivity; [discriminate|lia..].
  - eapply fit_user; try reflexivity; auto. discriminate.
Qed.
Example C72_array_example : mk [(Array (Base Int) 2, Elems [Num 5; Num 6]%Z)] = Some (Pointer (Base Int), [Address [Num 5; Num 6]%Z]).
Proof. reflexivity. Qed.
Example C72_two_literals_example :
  mk [(Array (Base Char) 2, Elems [Num 97; Num 0]%Z); (Array (Base Char) 2, Elems [Num 98; Num 0]%Z)] =
  Some (Pointer (Base Char), [Address [Num 97; Num 0]%Z; Address [Num 98; Num 0]%Z]).
Proof. reflexivity. Qed.

(** *** What one would expect and is not so *)

(** An array of characters does not denote its elements: without a terminator the last one is lost. *)
Theorem C72_characters_refuted : exists l : list aval, l <> [] /\
  mk [(Array (Base Char) (List.length l), Elems l)] <> Some (Base Char, l) /\
  mk [(Array (Base Char) (List.length l), Elems l)] <> mk (map (pair (Base Char)) l).
Proof. exists [Num 97; Num 98]%Z. repeat split; cbn; discriminate. Qed.

(** [static_array('a', 98)]: a guide applies, one constructor is left whose constraint holds, the value is one of
    the element type, yet the initialisation does not compile. *)
Theorem C72_mixed_refuted : exists args : list arg, Forall proper args /\
  deduced bty_eqb is_char bty_range bty_user args = Some (Static (Base Char) 2) /\
  chosen bty_eqb is_char bty_range bty_user (Base Char) 2 args = Some KValues /\
  Forall (fun a => exists z, snd a = Num z /\ (-128 <= z <= 127)%Z) args /\
  mk args = None.
Proof.
  exists [chr 97; int 98]. repeat split; try (repeat constructor); cbn; eexists; (split; [reflexivity|lia]).
Qed.

(** The order of the arguments decides whether they compile. *)
Theorem C72_order_refuted : exists a b : @arg bty, proper a /\ proper b /\ mk [a; b] <> None /\ mk [b; a] = None.
Proof. exists (int 98), (chr 97). repeat split; cbn; discriminate. Qed.

Print Assumptions C72_exact.
Print Assumptions C72_literal.
Print Assumptions C72_values.
Print Assumptions C72_spelled.
Print Assumptions C72_copied.
Print Assumptions C72_count.
Print Assumptions C72_first.
Print Assumptions C72_array.
Print Assumptions C72_deduced.
Print Assumptions C72_characters_refuted.
Print Assumptions C72_mixed_refuted.
Print Assumptions C72_order_refuted.
