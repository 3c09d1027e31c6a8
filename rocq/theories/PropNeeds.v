(** * Property C68: what [parse] asks of the classes of values *)
From Coq Require Import String List Arith ZArith Bool Lia.
From Verif Require Import Types Compound Parser Outcome CompoundFacts Exec Mono Derive Typing Join Leaves Sound Agree
  Objects ObjectFacts ObjectLog PropObjects Needs Samples.
Import ListNotations.

(** Specification: the type of object an operation is about *)
Definition object_of (u : use) : option ty :=
  match u with
  | Default t | Move t | Insert t | MoveAssign t | Copy t | CopyAssign t => Some t
  | Hand | Show | Stale | NoValue => None
  end.

Section C68.
Context {T V : Type} (E : env T V) (K : nat -> cls).

(** Every operation on an object in any run is named in the body of the [parse] of some parser
    that is called; a lookahead does none. *)
Theorem C68_named n m p i u : In u (fst (orun E (traits_of K) n m p i)) -> object_of u <> None ->
  m = Parse /\ exists q, called E p q /\ In u (needs E K q).
Proof.
  intros Hu Ho. destruct m; [|rewrite C59_lookahead in Hu; destruct Hu]. split; [reflexivity|].
  destruct (nd_run E K (fun u => benign u \/ exists q, called E p q /\ In u (needs E K q)) (fun u H => or_introl H) n p i) as [L _].
  - intros q v Hq Hv. right. eauto.
  - rewrite Forall_forall in L. destruct (L _ Hu) as [B|]; auto. destruct u; cbn in *; tauto.
Qed.

(** So if [parse] can be instantiated, no run asks an object for anything that its type does
    not offer. *)
Theorem C68_sound n m p i u : (m = Parse -> instantiable E K p) ->
  In u (fst (orun E (traits_of K) n m p i)) -> offers K u = true.
Proof.
  intros H Hu. destruct (object_of u) as [t|] eqn:Ho.
  - destruct (C68_named n m p i u Hu) as (-> & q & Hq & Hn); [congruence|]. now apply (H eq_refl q).
  - destruct (C59_no_use_after_move E (traits_of K) n m p i) as [H1 H2].
    destruct u; try discriminate; cbn; auto; contradiction.
Qed.

(** ** Classes that are default-constructible, movable and move-assignable suffice *)

Lemma movable_types : (forall k, c_default (K k) = true /\ c_move (K k) = true /\ c_massign (K k) = true) ->
  forall t, dflt (ops_of K t) = true /\ t_move (ops_of K t) = true /\ u_move (ops_of K t) = true /\
            t_massign (ops_of K t) = true /\ u_massign (ops_of K t) = true.
Proof.
  intros H. assert (A : forall (f : ops -> bool) ts, Forall (fun t => f (ops_of K t) = true) ts -> forallb f (map (ops_of K) ts) = true).
  { intros f ts F. rewrite forallb_forall. intros o Ho. apply in_map_iff in Ho as (t & <- & Ht). rewrite Forall_forall in F. auto. }
  induction t using ty_ind'; cbn [ops_of].
  - repeat split.
  - repeat split.
  - repeat split.
  - destruct IHt as (H1 & H2 & H3 & H4 & H5). cbn. rewrite H1, H2, H3, H4, H5. repeat split.
  - destruct IHt as (H1 & H2 & H3 & H4 & H5). cbn. rewrite H2, H3, H4, H5. repeat split.
  - unfold prod_ops. cbn [dflt t_move u_move t_massign u_massign].
    rewrite (A dflt), (A t_move), (A t_massign), (A u_move), (A u_massign) by (eapply Forall_impl; [|eassumption]; cbn; intros; tauto).
    repeat split.
  - unfold var_ops. cbn [dflt t_move u_move t_massign u_massign].
    rewrite (A t_move), (A t_massign), (A u_move), (A u_massign) by (eapply Forall_impl; [|eassumption]; cbn; intros; tauto).
    repeat split. match goal with F : Forall _ ts |- _ => destruct F as [|x l Hx Hl] end; cbn; tauto.
  - destruct IHt1 as (H1 & H2 & H3 & H4 & H5), IHt2 as (G1 & G2 & G3 & G4 & G5).
    cbn. rewrite H1, H2, H3, H4, H5, G1, G2, G3, G4, G5. repeat split.
  - cbn. destruct (H n) as (-> & -> & ->). repeat split.
Qed.

Lemma fn_offered f : (forall t, dflt (ops_of K t) = true) ->
  (forall k, t_copy (ops_of K (k_ty E k)) = true /\ u_copy (ops_of K (k_ty E k)) = true) ->
  Forall (fun u => offers K u = true) (fn_uses E f).
Proof.
  intros Hd Hc. induction f; cbn; auto.
  - constructor; [|constructor]. cbn. destruct (Hc k) as [-> ->]. reflexivity.
  - constructor; [|constructor]. cbn. apply Hd.
Qed.

Theorem C68_movable_classes p :
  (forall k, c_default (K k) = true /\ c_move (K k) = true /\ c_massign (K k) = true) ->
  (forall k, offers K (Copy (k_ty E k)) = true) ->
  instantiable E K p.
Proof.
  intros H Hc q u _. pose proof (movable_types H) as M.
  assert (Hi : forall t, offers K (init (traits_of K) t) = true).
  { intros t. destruct (M t) as (_ & M2 & M3 & _). unfold init. cbn. rewrite M2. exact M3. }
  assert (Hp : forall ct unw a, offers K (part_need E K ct unw a) = true).
  { intros ct unw a. destruct (M (ty_of E a)) as (_ & _ & M3 & M4 & M5). unfold part_need. cbn. rewrite M4.
    destruct unw, ct; cbn; assumption. }
  assert (Hm : forall t, offers K (Move t) = true) by (intros t; apply (M t)).
  assert (Ha : forall t, offers K (MoveAssign t) = true) by (intros t; apply (M t)).
  assert (Hd : forall t, offers K (Default t) = true) by (intros t; apply (M t)).
  assert (Hb : forall t l, (forall u, In u l -> offers K u = true) -> forall u, In u (builder_needs K t l) -> offers K u = true).
  { intros t l Hl v. unfold builder_needs. destruct (is_void t); [intros []|]. intros [<-|[<-|Hv]]; auto. }
  assert (Ht : forall t, offers K (Insert t) = true) by (intros t; apply (M t)).
  assert (Hn : forall t u, In u (insert_needs t) -> offers K u = true).
  { intros t v. unfold insert_needs. destruct (is_void t); [intros []|]. intros [<-|[<-|[]]]; auto. }
  assert (Hf : forall f u, In u (fn_uses E f) -> offers K u = true).
  { intros f. apply Forall_forall. apply fn_offered; [intros t; apply (M t)|]. intros k. specialize (Hc k). cbn in Hc. now apply andb_prop in Hc. }
  clear H M Hc. destruct q; cbn [needs].
  1, 2, 3, 4: intros [<-|[]]; auto.
  - intros [].
  - destruct (result_fors E (q :: ps)); [|intros []]. cbn zeta. apply Hb. intros v Hv. apply in_map_iff in Hv as (x & <- & _). auto.
  - destruct (result_fors E (q :: ps)); [|intros []]. cbn zeta. apply Hb. intros v Hv. apply in_map_iff in Hv as (x & <- & _). auto.
  - destruct (is_void (ty_of E q)); [intros []|]. apply Hb. intros v [<-|[]]; auto.
  - destruct (is_void (ty_of E q)); [intros []|]. apply Hb. intros v [<-|[]]; auto.
  - destruct (is_void (ty_of E q)); [intros []|]. apply Hb. eauto.
  - destruct (is_void (ty_of E q)); [intros []|]. apply Hb. eauto.
  - intros Hu. apply in_app_or in Hu as [Hu|Hu].
    + revert Hu. apply Hb. intros v Hv. apply in_app_or in Hv as [Hv|Hv]; eauto.
    + destruct Hu as [<-|[<-|[<-|[]]]]; auto.
  - intros [].
  - intros [<-|[]]; auto.
  - intros [<-|[]]; auto.
  - intros [<-|Hu]; eauto.
  - intros [<-|Hu]; eauto.
  - intros [].
  - intros [].
Qed.

(** ** What is possible with classes that can only be moved *)

(** Specification: parsers that do not create or assign the value of another parser *)
Definition narrow (p : parser T) : Prop :=
  match p with
  | PSequence _ _ | PExactly _ _ | POneOrMore _ | PZeroOrMore _ | PDelimit _ _ => False
  | PChoice _ _ => result_for E p = Some TVoid \/
      exists t ts, result_for E p = Some (TVar (t :: ts)) /\ dflt (ops_of K t) = true /\
                   forall tys, result_fors E (components E p) = Some tys -> unwrapped (fst (filter_out_void_deduplicate tys)) = false
  | PMap _ f | PFilter _ f => match innermost f with FDefault _ | FConstant _ => False | _ => True end
  | _ => True
  end.

Lemma moving_types : (forall k, c_move (K k) = true) ->
  forall t, t_move (ops_of K t) = true /\ u_move (ops_of K t) = true.
Proof.
  intros H. assert (A : forall (f : ops -> bool) ts, Forall (fun t => f (ops_of K t) = true) ts -> forallb f (map (ops_of K) ts) = true).
  { intros f ts F. rewrite forallb_forall. intros o Ho. apply in_map_iff in Ho as (t & <- & Ht). rewrite Forall_forall in F. auto. }
  induction t using ty_ind'; cbn [ops_of].
  - split; reflexivity.
  - split; reflexivity.
  - split; reflexivity.
  - destruct IHt as (H2 & H3). cbn. rewrite H2, H3. split; reflexivity.
  - destruct IHt as (H2 & H3). cbn. rewrite H2, H3. split; reflexivity.
  - unfold prod_ops. cbn [t_move u_move].
    rewrite (A t_move), (A u_move) by (eapply Forall_impl; [|eassumption]; cbn; intros; tauto). split; reflexivity.
  - unfold var_ops. cbn [t_move u_move].
    rewrite (A t_move), (A u_move) by (eapply Forall_impl; [|eassumption]; cbn; intros; tauto). split; reflexivity.
  - destruct IHt1 as (H2 & H3), IHt2 as (G2 & G3).
    cbn. rewrite H2, H3, G2, G3. split; reflexivity.
  - cbn. rewrite H. split; reflexivity.
Qed.

(** Without default constructors and assignments, [parse] of optionals, choices between several
    types of which the first can be created by default, maps, filters, joins and customs can be
    instantiated. *)
Theorem C68_only_moved p : (forall k, c_move (K k) = true) -> (forall q, called E p q -> narrow q) -> instantiable E K p.
Proof.
  intros H Hp q u Hq. specialize (Hp q Hq). pose proof (moving_types H) as M.
  assert (Hi : forall t, offers K (init (traits_of K) t) = true).
  { intros t. destruct (M t) as (M2 & M3). unfold init. cbn. rewrite M2. exact M3. }
  assert (Hf : forall f u, match innermost f with FDefault _ | FConstant _ => False | _ => True end -> In u (fn_uses E f) -> offers K u = true).
  { intros f v. induction f; cbn; tauto. }
  destruct q; cbn [needs narrow] in *; try contradiction.
  1, 2, 3, 4: intros [<-|[]]; auto.
  - rewrite result_for_choice in Hp. cbn [components] in Hp. destruct (result_fors E (q :: ps)) as [tys|]; [|intros []]. cbn zeta in *.
    destruct Hp as [Hp|(t & ts & Hp & Hd & Hu)].
    + injection Hp as ->. unfold builder_needs. cbn [is_void]. intros [].
    + injection Hp as ->. rewrite (Hu _ eq_refl). unfold builder_needs. cbn [is_void]. intros [<-|[<-|Hin]]; auto.
      apply in_map_iff in Hin as (x & <- & _). cbn. apply M.
  - destruct (is_void (ty_of E q)); [intros []|]. intros [<-|[<-|[<-|[]]]]; auto. apply (M (ty_of E q)).
  - intros [<-|[]]; auto.
  - intros [<-|[]]; auto.
  - intros [<-|Hu]; eauto.
  - intros [<-|Hu]; eauto.
Qed.

(** ** The default constructor is used by every call *)
Theorem C68_default_always n q i t : result_for E q = Some t -> t <> TVoid -> has_builder q = true ->
  run E (S n) Parse q i <> Ill -> exists l, fst (orun E (traits_of K) (S n) Parse q i) = Default t :: l.
Proof.
  intros Hr Hv Hb Hc. assert (Hv' : is_void t = false) by now destruct t.
  pose proof (C59_same E (traits_of K) (S n) Parse q i) as Hs.
  assert (Hs' : snd (orun E (traits_of K) (S n) Parse q i) <> Ill) by (rewrite Hs; destruct (run E (S n) Parse q i); congruence).
  clear Hs Hc. cbn [orun] in *. destruct q; try discriminate; cbn [ostep] in *.
  - rewrite result_for_choice in Hr. unfold ochoice_parse in *. destruct (result_fors E (q :: ps)) as [tys|]; [|discriminate].
    injection Hr as Hr. rewrite Hr in *. destruct (_ || _); [|cbn in Hs'; congruence]. unfold obuilder. rewrite Hv'. cbn. eauto.
  - rewrite result_for_seq in Hr. unfold osequence_parse in *. destruct (result_fors E (q :: ps)) as [tys|]; [|discriminate].
    injection Hr as Hr. rewrite Hr in *. unfold obuilder. rewrite Hv'. cbn. eauto.
  - cbn in Hr. destruct (result_for E q) as [u|]; [|discriminate]. injection Hr as Hr. unfold omaybe_parse. rewrite Hr. unfold obuilder. rewrite Hv'. cbn. eauto.
  - destruct (n0 =? 0); [cbn in Hs'; congruence|].
    cbn in Hr. destruct (result_for E q) as [u|]; [|discriminate]. injection Hr as Hr. unfold oexactly_parse. rewrite Hr. unfold obuilder. rewrite Hv'. cbn. eauto.
  - cbn in Hr. destruct (result_for E q) as [u|]; [|discriminate]. injection Hr as Hr. unfold oone_or_more_parse. rewrite Hr. unfold obuilder. rewrite Hv'. cbn. eauto.
  - cbn in Hr. destruct (result_for E q) as [u|]; [|discriminate]. injection Hr as Hr. unfold ozero_or_more_parse. rewrite Hr. unfold obuilder. rewrite Hv'. cbn. eauto.
  - cbn in Hr. destruct (result_for E q1) as [u|]; [|discriminate]. destruct (result_for E q2) as [w|]; [|discriminate].
    injection Hr as Hr. unfold odelimit_parse, delimit_type. rewrite Hr. unfold obuilder. rewrite Hv'. cbn. eauto.
Qed.
End C68.

(** ** Where a class that could be used is turned down *)

(** Class 2 of the sample environment, built from anything, given other members. *)
Definition only (d m a : bool) (k : nat) : cls := if k =? 2 then Cls d m false a false else Cls true true true true true.
Definition sx_thing : parser nat := PMap (PAnyOf (codes "a")) (FConstruct (TUser 2)).
Definition sx_text : parser nat := PAnyOf (codes "b").

(** The order of the alternatives decides: [text | thing] can be instantiated for a class without
    default constructor, [thing | text] cannot, although both have a result type. *)
Theorem C68_choice_order_refuted : exists (K : nat -> cls) (p q : parser nat),
  instantiable sx K (PChoice p [q]) /\ ~ instantiable sx K (PChoice q [p]) /\
  result_for sx (PChoice p [q]) <> None /\ result_for sx (PChoice q [p]) <> None.
Proof.
  exists (only false true true), sx_text, sx_thing. split; [|split; [|split; discriminate]].
  - intros q u Hq Hu. inversion Hq as [|? b ? I1 H1]; subst.
    + cbn in Hu. repeat (destruct Hu as [<-|Hu]; [reflexivity|]). destruct Hu.
    + destruct I1 as [<-|[<-|[]]].
      * inversion H1 as [|? c ? I2 H2]; subst; [|destruct I2]. destruct Hu as [<-|[]]. reflexivity.
      * inversion H1 as [|? c ? I2 H2]; subst; [destruct Hu as [<-|[]]; reflexivity|]. destruct I2 as [<-|[]].
        inversion H2 as [|? d ? I3 H3]; subst; [|destruct I3]. destruct Hu as [<-|[]]. reflexivity.
  - intros H. discriminate (H _ (Default (TVar [TUser 2; TSpan])) (called_self _ _)). left. reflexivity.
Qed.

(** A repetition asks for assignment (it calls [vector::insert]), although no run assigns. *)
Theorem C68_assignment_refuted : exists (K : nat -> cls) (p : parser nat),
  ~ instantiable sx K p /\ result_for sx p <> None /\
  forall n m i u, In u (fst (orun sx (traits_of K) n m p i)) -> offers K u = true.
Proof.
  set (K := only false true false). exists K, (PZeroOrMore sx_thing). split; [|split; [discriminate|]].
  - intros H. discriminate (H _ (MoveAssign (TUser 2)) (called_self _ _)). cbn. tauto.
  - intros n m i u Hu. destruct m; [|rewrite C59_lookahead in Hu; destruct Hu].
    set (Q := fun u => benign u \/ u = Move TSpan \/ u = Move (TUser 2) \/ u = Default (TVec (TUser 2)) \/ u = Move (TVec (TUser 2)) \/ u = Insert (TUser 2)).
    assert (HB : forall u, benign u -> Q u) by (intros; now left).
    assert (Hp : forall n i, logs Q any (orun sx (traits_of K) n Parse sx_thing i)).
    { intros k j. apply (nd_run sx K Q HB). intros q v Hq Hv.
      inversion Hq as [|? b ? I1 H1]; subst.
      - destruct Hv as [<-|[]]. right. right. left. reflexivity.
      - destruct I1 as [<-|[]]. inversion H1 as [|? d ? I3 H3]; subst; [|destruct I3]. destruct Hv as [<-|[]]. right. left. reflexivity. }
    assert (L : logs Q any (orun sx (traits_of K) n Parse (PZeroOrMore sx_thing) i)).
    { destruct n as [|n]; [now apply logs_lift|].
      change (orun sx (traits_of K) (S n) Parse (PZeroOrMore sx_thing) i) with
        (ozero_or_more_parse (traits_of K) (TUser 2) (orun sx (traits_of K) n Parse sx_thing) n i).
      unfold ozero_or_more_parse. cbn [is_void].
      eapply logs_bind with (P := blank (TVec (TUser 2))); [apply nd_builder; intros; right; right; right; left; reflexivity|]. intros b Hb.
      eapply logs_bind; [apply (nd_rep Q HB (orun sx (traits_of K) n Parse sx_thing) (Hp n) (TVec (TUser 2))); auto; intros; do 5 right; reflexivity|].
      intros [[i' c] s] Hc. apply (nd_build K Q HB); auto. intros; do 4 right; left; reflexivity. }
    destruct L as [L _]. rewrite Forall_forall in L. pose proof (C59_no_use_after_move sx (traits_of K) n Parse (PZeroOrMore sx_thing) i) as [N1 N2].
    destruct (L _ Hu) as [B | [-> | [-> | [-> | [-> | ->]]]]]; try reflexivity. destruct u; cbn in B; try contradiction; reflexivity.
Qed.

(** Cases of the theorems: with a full set of members the sample parsers that build class 2 can be
    instantiated; with moves only, [maybe(text | thing)] can, and a run uses what is offered. *)
Example C68_case_movable : (forall k, let c := only true true true k in c_default c = true /\ c_move c = true /\ c_massign c = true) /\
  (forall k, offers (only true true true) (Copy (k_ty sx k)) = true) /\
  instantiable sx (only true true true) (PSequence (PExactly sx_thing 2) [PDelimit sx_thing sx_text]).
Proof.
  assert (H1 : forall k, let c := only true true true k in c_default c = true /\ c_move c = true /\ c_massign c = true).
  { intros k. unfold only. destruct (k =? 2); cbn; auto. }
  assert (H2 : forall k, offers (only true true true) (Copy (k_ty sx k)) = true) by (intros k; reflexivity).
  split; [exact H1|]. split; [exact H2|]. now apply C68_movable_classes.
Qed.

Definition sx_choosy : parser nat := PMaybe (PChoice sx_text [sx_thing]).
Example C68_case_only_moved : (forall k, c_move (only false true false k) = true) /\
  (forall q, called sx sx_choosy q -> narrow sx (only false true false) q) /\
  fst (orun sx (traits_of (only false true false)) 9 Parse sx_choosy (Span 3 0 2)) =
    [Default (TOpt (TVar [TSpan; TUser 2])); Default (TVar [TSpan; TUser 2]);
     Move TSpan; Hand; Move (TUser 2); Move (TUser 2); Move (TVar [TSpan; TUser 2]);
     Move (TVar [TSpan; TUser 2]); Move (TOpt (TVar [TSpan; TUser 2]))].
Proof.
  split; [intros k; unfold only; destruct (k =? 2); reflexivity|]. split; [|reflexivity].
  intros q Hq. inversion Hq as [|? b ? I0 H0]; subst; [exact Logic.I|]. destruct I0 as [<-|[]].
  inversion H0 as [|? b ? I1 H1]; subst.
  - right. exists TSpan, [TUser 2]. split; [reflexivity|]. split; [reflexivity|]. intros tys [= <-]. reflexivity.
  - destruct I1 as [<-|[<-|[]]].
    + inversion H1 as [|? c ? I2 H2]; subst; [exact Logic.I | destruct I2].
    + inversion H1 as [|? c ? I2 H2]; subst; [exact Logic.I|]. destruct I2 as [<-|[]].
      inversion H2 as [|? d ? I3 H3]; subst; [exact Logic.I | destruct I3].
Qed.

(** A class whose moves are deleted but that can be copied: alone behind an ignored part it is
    copy-assigned (helpers.h:186) and copied into the result (result.h:27), and both are offered. *)
Definition copied (k : nat) : cls := if k =? 2 then Cls true false true false true else Cls true true true true true.
Example C68_case_copied :
  fst (orun sx (traits_of copied) 9 Parse (PSequence sx_thing [PIgnore sx_text]) (Span 1 15 2)) =
    [Default (TUser 2); Move TSpan; Hand; Copy (TUser 2); CopyAssign (TUser 2); Copy (TUser 2)] /\
  offers copied (Copy (TUser 2)) = true /\ offers copied (CopyAssign (TUser 2)) = true /\
  offers copied (Move (TUser 2)) = false /\
  offers copied (Move (TTup [TUser 2; TSpan])) = true /\ offers copied (Move (TTup [TUser 2; TVec (TUser 3)])) = true.
Proof. vm_compute. repeat split. Qed.

Example C68_case_default : result_for sx (PChoice sx_thing [sx_text]) = Some (TVar [TUser 2; TSpan]) /\
  run sx 5 Parse (PChoice sx_thing [sx_text]) (Span 3 4 0) = Done (Res None (Span 3 4 0)) [] /\
  fst (orun sx (traits_of copied) 5 Parse (PChoice sx_thing [sx_text]) (Span 3 4 0)) = [Default (TVar [TUser 2; TSpan])].
Proof. vm_compute. repeat split. Qed.

(** ** Exactly what one parser adds for a class *)

Section Exact.
Context {T V : Type} (E : env T V) (K : nat -> cls).

Lemma instantiable_step p : instantiable E K p <->
  (forall u, In u (needs E K p) -> offers K u = true) /\ (forall q, In q (called_parts E p) -> instantiable E K q).
Proof.
  split.
  - intros H. split; [intros u; apply H; constructor|]. intros q Hq r u Hr. apply H. econstructor; eauto.
  - intros [H1 H2] r u Hr. inversion Hr; subst; auto. now apply (H2 q).
Qed.

(** [q] has a value of class [k], and [parse] of [q] can be instantiated *)
Context (q : parser T) (k : nat) (Hq : result_for E q = Some (TUser k)) (Hi : instantiable E K q).

Lemma ty_of_q : ty_of E q = TUser k.
Proof. unfold ty_of. now rewrite Hq. Qed.

Ltac decide_ops := unfold init; destruct (K k) as [[|] [|] [|] [|] [|]] eqn:EK; cbn; rewrite ?EK in *; cbn in *; rewrite ?EK in *; cbn in *; intuition (try discriminate; try congruence).

(** [maybe] asks for a move constructor. *)
Theorem C68_exact_maybe : instantiable E K (PMaybe q) <-> c_move (K k) = true.
Proof.
  rewrite instantiable_step. cbn [needs called_parts parsed_parts components]. rewrite ty_of_q. cbn [is_void].
  split.
  - intros [H _]. apply (H (Move (TUser k))). right. right. now left.
  - intros H. split; [|intros ? [<-|[]]; exact Hi]. intros u [<-|[<-|[<-|[]]]]; decide_ops.
Qed.

(** [exactly] asks for a default constructor, an assignment from rvalues, and a move or copy constructor. *)
Theorem C68_exact_exactly n : instantiable E K (PExactly q n) <->
  c_default (K k) = true /\ c_massign (K k) = true /\ (c_move (K k) = true \/ c_copy (K k) = true).
Proof.
  rewrite instantiable_step. cbn [needs called_parts parsed_parts components]. rewrite ty_of_q. cbn [is_void].
  split.
  - intros [H _]. pose proof (H _ (or_introl eq_refl)) as H1. pose proof (H _ (or_intror (or_introl eq_refl))) as H2.
    pose proof (H _ (or_intror (or_intror (or_introl eq_refl)))) as H3. revert H1 H2 H3. decide_ops.
  - intros H. split; [|intros ? [<-|[]]; exact Hi]. intros u [<-|[<-|[<-|[]]]]; revert H; decide_ops.
Qed.

(** The repetitions ask for a move constructor and an assignment from rvalues. *)
Theorem C68_exact_repetition p : p = PZeroOrMore q \/ p = POneOrMore q ->
  instantiable E K p <-> c_move (K k) = true /\ c_massign (K k) = true.
Proof.
  intros Hp. rewrite instantiable_step.
  assert (Hn : needs E K p = builder_needs K (TVec (TUser k)) (insert_needs (TUser k))) by (destruct Hp as [-> | ->]; cbn [needs]; now rewrite ty_of_q).
  assert (Hc : called_parts E p = [q]) by (destruct Hp as [-> | ->]; reflexivity). rewrite Hn, Hc.
  split.
  - intros [H _]. split; [apply (H (Insert (TUser k))) | apply (H (MoveAssign (TUser k)))]; cbn; auto.
  - intros H. split; [|intros ? [<-|[]]; exact Hi]. intros u [<-|[<-|[<-|[<-|[]]]]]; revert H; decide_ops.
Qed.

(** [delimit] asks for the same: of its parts, to put them into the vector, and to assign results to each other. *)
Theorem C68_exact_delimit d : result_for E d = Some TVoid -> instantiable E K d ->
  instantiable E K (PDelimit q d) <-> c_move (K k) = true /\ c_massign (K k) = true.
Proof.
  intros Hd Hdi. rewrite instantiable_step. cbn [needs called_parts parsed_parts components].
  assert (Hv : ty_of E d = TVoid) by (unfold ty_of; now rewrite Hd). rewrite ty_of_q, Hv. split.
  - intros [H _]. split; [apply (H (Insert (TUser k))) | apply (H (MoveAssign (TUser k)))]; cbn; auto 10.
  - intros H. split; [|intros ? [<-|[<-|[]]]; assumption]. intros u [<-|[<-|[<-|[<-|[<-|[<-|[<-|[]]]]]]]]; revert H; decide_ops.
Qed.

(** Even if only the delimiters have a value: the results of a part that is not stored are assigned.  Here the
    class is that of the delimiters' value, and a void part asks for nothing. *)
Theorem C68_exact_delimiter p : result_for E p = Some TVoid -> instantiable E K p ->
  instantiable E K (PDelimit p q) <-> c_move (K k) = true /\ c_massign (K k) = true.
Proof.
  intros Hd Hdi. rewrite instantiable_step. cbn [needs called_parts parsed_parts components].
  assert (Hv : ty_of E p = TVoid) by (unfold ty_of; now rewrite Hd). rewrite ty_of_q, Hv. split.
  - intros [H _]. split; [apply (H (Insert (TUser k))) | apply (H (MoveAssign (TUser k)))]; cbn; auto 10.
  - intros H. split; [|intros ? [<-|[<-|[]]]; assumption]. intros u [<-|[<-|[<-|[<-|[<-|[<-|[<-|[]]]]]]]]; revert H; decide_ops.
Qed.

(** [complete] asks for a move or a copy constructor. *)
Theorem C68_exact_complete : instantiable E K (PComplete q) <-> c_move (K k) = true \/ c_copy (K k) = true.
Proof.
  rewrite instantiable_step. cbn [needs called_parts parsed_parts components]. rewrite ty_of_q. split.
  - intros [H _]. pose proof (H _ (or_introl eq_refl)) as H1. revert H1. decide_ops.
  - intros H. split; [|intros ? [<-|[]]; exact Hi]. intros u [<-|[]]; revert H; decide_ops.
Qed.

(** A sequence in which [q] has the only value assigns it; beside a span it is a member of a tuple, which is
    created by default and taken over. *)
Theorem C68_exact_sequence r : result_for E r = Some TVoid ->
  instantiable E K (PSequence q [r]) <->
  c_default (K k) = true /\ (c_massign (K k) = true \/ c_cassign (K k) = true) /\ (c_move (K k) = true \/ c_copy (K k) = true).
Proof.
  intros Hr. rewrite instantiable_step. cbn [needs called_parts parsed_parts]. unfold result_fors. cbn [map all_some].
  rewrite Hq, Hr. cbn [all_some filter_out_void filter_with_index is_void negb fst snd app compound_result unwrapped].
  change (indexed [q; r] [Some 0; None]) with [q]. cbn [map builder_needs is_void]. unfold part_need. rewrite ty_of_q.
  split.
  - intros [H _]. pose proof (H _ (or_introl eq_refl)) as H1. pose proof (H _ (or_intror (or_introl eq_refl))) as H2.
    pose proof (H _ (or_intror (or_intror (or_introl eq_refl)))) as H3. revert H1 H2 H3. decide_ops.
  - intros H. split; [|intros ? [<-|[]]; exact Hi]. intros u [<-|[<-|[<-|[]]]]; revert H; decide_ops.
Qed.

Theorem C68_exact_tuple r : result_for E r = Some TSpan -> instantiable E K r ->
  instantiable E K (PSequence q [r]) <->
  c_default (K k) = true /\ c_massign (K k) = true /\ (c_move (K k) = true \/ c_copy (K k) = true).
Proof.
  intros Hr Hri. rewrite instantiable_step. cbn [needs called_parts parsed_parts]. unfold result_fors. cbn [map all_some].
  rewrite Hq, Hr. cbn [all_some filter_out_void filter_with_index is_void negb fst snd app compound_result unwrapped].
  change (indexed [q; r] [Some 0; Some 1]) with [q; r]. cbn [map builder_needs is_void]. unfold part_need.
  assert (Hv : ty_of E r = TSpan) by (unfold ty_of; now rewrite Hr). rewrite ty_of_q, Hv.
  split.
  - intros [H _]. pose proof (H _ (or_introl eq_refl)) as H1. pose proof (H _ (or_intror (or_introl eq_refl))) as H2.
    pose proof (H _ (or_intror (or_intror (or_introl eq_refl)))) as H3. revert H1 H2 H3. decide_ops.
  - intros H. split; [|intros ? [<-|[<-|[]]]; assumption]. intros u [<-|[<-|[<-|[<-|[]]]]]; revert H; decide_ops.
Qed.

(** A choice between [q] and a span: if [q] comes first, a default constructor and a move constructor; if it comes
    second, the move constructor only. *)
Theorem C68_exact_choice r : result_for E r = Some TSpan -> instantiable E K r ->
  (instantiable E K (PChoice q [r]) <-> c_default (K k) = true /\ c_move (K k) = true) /\
  (instantiable E K (PChoice r [q]) <-> c_move (K k) = true).
Proof.
  intros Hr Hri. assert (Hv : ty_of E r = TSpan) by (unfold ty_of; now rewrite Hr).
  split; rewrite instantiable_step; cbn [needs called_parts parsed_parts]; unfold result_fors; cbn [map all_some];
    rewrite Hq, Hr;
    cbn [all_some filter_out_void_deduplicate filter_deduplicate_with_index next_index occurs existsb ty_eqb orb andb is_void negb fst snd app compound_result unwrapped].
  - change (indexed [q; r] [Some 0; Some 1]) with [q; r]. cbn [map builder_needs is_void]. unfold part_need. rewrite ty_of_q, Hv.
    split.
    + intros [H _]. pose proof (H _ (or_introl eq_refl)) as H1. pose proof (H _ (or_intror (or_intror (or_introl eq_refl)))) as H3.
      revert H1 H3. decide_ops.
    + intros H. split; [|intros ? [<-|[<-|[]]]; assumption]. intros u [<-|[<-|[<-|[<-|[]]]]]; revert H; decide_ops.
  - change (indexed [r; q] [Some 0; Some 1]) with [r; q]. cbn [map builder_needs is_void]. unfold part_need. rewrite ty_of_q, Hv.
    split.
    + intros [H _]. pose proof (H _ (or_intror (or_intror (or_intror (or_introl eq_refl))))) as H3. revert H3. decide_ops.
    + intros H. split; [|intros ? [<-|[<-|[]]]; assumption]. intros u [<-|[<-|[<-|[<-|[]]]]]; revert H; decide_ops.
Qed.
(** [filter] with a function of the program asks for a move or a copy constructor, [map] for one of the class it
    returns, whatever the class of its argument. *)
Theorem C68_exact_filter f : fn_uses E f = [] -> result_for E (PFilter q f) = Some (TUser k) ->
  instantiable E K (PFilter q f) <-> c_move (K k) = true \/ c_copy (K k) = true.
Proof.
  intros Hf Hr. rewrite instantiable_step. cbn [needs called_parts parsed_parts components].
  assert (Hv : ty_of E (PFilter q f) = TUser k) by (unfold ty_of; now rewrite Hr). rewrite Hv, Hf. split.
  - intros [H _]. pose proof (H _ (or_introl eq_refl)) as H1. revert H1. decide_ops.
  - intros H. split; [|intros ? [<-|[]]; exact Hi]. intros u [<-|[]]; revert H; decide_ops.
Qed.

Theorem C68_exact_map p f : instantiable E K p -> fn_uses E f = [] -> result_for E (PMap p f) = Some (TUser k) ->
  instantiable E K (PMap p f) <-> c_move (K k) = true \/ c_copy (K k) = true.
Proof.
  intros Hp Hf Hr. rewrite instantiable_step. cbn [needs called_parts parsed_parts components].
  assert (Hv : ty_of E (PMap p f) = TUser k) by (unfold ty_of; now rewrite Hr). rewrite Hv, Hf. split.
  - intros [H _]. pose proof (H _ (or_introl eq_refl)) as H1. revert H1. decide_ops.
  - intros H. split; [|intros ? [<-|[]]; exact Hp]. intros u [<-|[]]; revert H; decide_ops.
Qed.
End Exact.

(** The parser of things meets the hypotheses, for a class that can only be moved: [maybe] and
    [complete] of it can be instantiated, [exactly] and the repetitions cannot. *)
Example C68_case_exact : let K := only false true false in
  result_for sx sx_thing = Some (TUser 2) /\ instantiable sx K sx_thing /\ result_for sx sx_text = Some TSpan /\
  instantiable sx K sx_text /\ instantiable sx K (PMaybe sx_thing) /\ instantiable sx K (PComplete sx_thing) /\
  ~ instantiable sx K (PExactly sx_thing 2) /\ ~ instantiable sx K (PZeroOrMore sx_thing) /\
  ~ instantiable sx K (PDelimit sx_thing PEpsilon).
Proof.
  intros K. assert (Hr : result_for sx sx_thing = Some (TUser 2)) by reflexivity.
  assert (Ht : instantiable sx K sx_text).
  { intros q u Hc Hu. inversion Hc as [|? b ? I0 H0]; subst; [|destruct I0]. destruct Hu as [<-|[]]. reflexivity. }
  assert (Hi : instantiable sx K sx_thing).
  { apply instantiable_step. split.
    - intros u Hu. vm_compute in Hu. destruct Hu as [<-|[]]. reflexivity.
    - intros q [<-|[]]. intros r u Hc Hu. inversion Hc as [|? b ? I0 H0]; subst; [|destruct I0]. destruct Hu as [<-|[]]. reflexivity. }
  assert (He : instantiable sx K PEpsilon).
  { intros q u Hc Hu. inversion Hc as [|? b ? I0 H0]; subst; [destruct Hu | destruct I0]. }
  split; [exact Hr|]. split; [exact Hi|]. split; [reflexivity|]. split; [exact Ht|].
  split; [now apply (C68_exact_maybe sx K sx_thing 2)|]. split; [apply (C68_exact_complete sx K sx_thing 2); auto|].
  split; [intros H; apply (C68_exact_exactly sx K sx_thing 2) in H as [H _]; auto; discriminate|].
  split; [intros H; apply (C68_exact_repetition sx K sx_thing 2 Hr Hi) in H as [_ H]; auto; discriminate|].
  intros H. destruct (proj1 (C68_exact_delimit sx K sx_thing 2 Hr Hi PEpsilon eq_refl He) H) as [_ G]. discriminate.
Qed.

Print Assumptions C68_named.
Print Assumptions C68_sound.
Print Assumptions C68_movable_classes.
Print Assumptions C68_only_moved.
Print Assumptions C68_default_always.
Print Assumptions C68_choice_order_refuted.
Print Assumptions C68_assignment_refuted.
Print Assumptions C68_exact_maybe.
Print Assumptions C68_exact_exactly.
Print Assumptions C68_exact_repetition.
Print Assumptions C68_exact_delimit.
Print Assumptions C68_exact_delimiter.
Print Assumptions C68_exact_complete.
Print Assumptions C68_exact_sequence.
Print Assumptions C68_exact_tuple.
Print Assumptions C68_exact_choice.
Print Assumptions C68_exact_filter.
Print Assumptions C68_exact_map.
