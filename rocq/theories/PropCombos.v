(** * Properties C16, C17, C18, C19, C22, C23, C35 *)
From Coq Require Import String List Arith ZArith Bool Lia.
From Verif Require Import Types Compound Parser Outcome CompoundFacts Exec Mono Derive Typing Join Leaves Sound
  BigStep BigSound BigComplete Peg Throws Elems Runs Samples PropBasic.
Import ListNotations.
Local Open Scope outcome_scope.

Section Combos.
Context {T V : Type} (E : env T V).

Ltac inj_ty := repeat match goal with
  | H : result_for ?E ?p = Some _, H' : result_for ?E ?p = Some _ |- _ => rewrite H in H'; injection H' as <-
  | H : result_fors ?E ?p = Some _, H' : result_fors ?E ?p = Some _ |- _ => rewrite H in H'; injection H' as <-
  end.

(** ** C16: delimit(d) is p >> *(ignore(d) >> p) *)

(** one round: ignore(d) >> p *)
Definition round (p d : parser T) : parser T := PSequence (PIgnore d) [p].

Lemma round_types p d t : result_for E p = Some t ->
  result_fors E [PIgnore d; p] = Some [TVoid; t].
Proof. intros H1. unfold result_fors. cbn. now rewrite H1. Qed.

Lemma round_type p d t : result_for E p = Some t -> result_for E (round p d) = Some t.
Proof.
  intros H1. unfold round. rewrite result_for_seq, (round_types _ _ _ H1), filter_out_void_spec. cbn.
  destruct t; reflexivity.
Qed.

Lemma part_parse t : t <> TVoid -> part_mode t = Parse.
Proof. intros H. apply is_void_false in H. unfold part_mode. now rewrite H. Qed.

(** A round in parse mode. *)
Lemma round_parse p d t i r tr : result_for E p = Some t -> t <> TVoid ->
  big E Parse (round p d) i r tr <->
  (big E Look d i (Res None i) tr /\ r = Res None i) \/
  (exists w mid tr1 tr2, big E Look d i (Res (Some w) mid) tr1 /\ big E Parse p mid (Res None mid) tr2 /\
     tr = tr1 ++ tr2 /\ r = Res None i) \/
  (exists w mid x rem tr1 tr2, big E Look d i (Res (Some w) mid) tr1 /\ big E Parse p mid (Res (Some (RVal x)) rem) tr2 /\
     tr = tr1 ++ tr2 /\ r = Res (Some (RVal x)) rem).
Proof.
  intros Hp Ht. pose proof (round_types p d _ Hp) as Hr. unfold round.
  assert (Hparts : parts [TVoid; t] [PIgnore d; p] = [(Look, PIgnore d); (Parse, p)]).
  { unfold parts. cbn. now rewrite (part_parse t Ht). }
  split.
  - intros H. apply (big_seq_parse E _ _ _ _ _ _ Hr) in H as [(vs & ws & rem & Hb & Hk & ->)|[Hb ->]]; rewrite Hparts in Hb;
      apply chain2 in Hb as [[H1 Ho]|[(v & mid & tr1 & tr2 & H1 & _ & H2 & -> & Ho)|(v & mid & v' & rem' & tr1 & tr2 & H1 & _ & H2 & _ & -> & Ho)]]; try discriminate; inversion H1; subst.
    + injection Ho as -> ->. inversion Hk as [|? ? ? ? Hk'|]; subst; [|congruence]. inversion Hk' as [| |? ? ? ? w ? Hk'']; subst; [congruence|].
      inversion Hk''; subst. right. right. do 6 eexists. eauto.
    + left. auto.
    + right. left. do 4 eexists. eauto.
  - intros [[H ->]|[(w & mid & tr1 & tr2 & H1 & H2 & -> & ->)|(w & mid & x & rem & tr1 & tr2 & H1 & H2 & -> & ->)]].
    + eapply B_seq_no; eauto. rewrite Hparts. apply chain2. left. split; auto. now constructor.
    + eapply B_seq_no; eauto. rewrite Hparts. apply chain2. right. left. exists w, mid, tr1, tr2.
      split; [now constructor|]. split; [intros ?; discriminate|auto].
    + change (RVal x) with (tuple_of [x]). eapply (B_seq_ok E _ _ _ _ [w; RVal x]); eauto.
      * rewrite Hparts. apply chain2. right. right. exists w, mid, (RVal x), rem, tr1, tr2.
        split; [now constructor|]. split; [intros ?; discriminate|]. split; auto. split; auto. intros _ ? _ _. eauto.
      * constructor. constructor; auto. constructor.
Qed.

(** A round in lookahead. *)
Lemma round_look p d t i r tr : result_for E p = Some t ->
  big E Look (round p d) i r tr <->
  (big E Look d i (Res None i) tr /\ r = Res None i) \/
  (exists w mid tr1 tr2, big E Look d i (Res (Some w) mid) tr1 /\ big E Look p mid (Res None mid) tr2 /\
     tr = tr1 ++ tr2 /\ r = Res None i) \/
  (exists w mid v rem tr1 tr2, big E Look d i (Res (Some w) mid) tr1 /\ big E Look p mid (Res (Some v) rem) tr2 /\
     tr = tr1 ++ tr2 /\ r = Res (Some RVoid) rem).
Proof.
  intros Hp. pose proof (round_types p d _ Hp) as Hr. unfold round.
  rewrite (big_seq_look E _ _ _ _ _ _ Hr). cbn [map]. split.
  - intros [(vs & rem & Hb & ->)|[Hb ->]];
      apply chain2 in Hb as [[H1 Ho]|[(v & mid & tr1 & tr2 & H1 & _ & H2 & -> & Ho)|(v & mid & v' & rem' & tr1 & tr2 & H1 & _ & H2 & _ & -> & Ho)]]; try discriminate; inversion H1; subst.
    + injection Ho as -> ->. right. right. do 6 eexists. eauto.
    + left. auto.
    + right. left. do 4 eexists. eauto.
  - intros [[H ->]|[(w & mid & tr1 & tr2 & H1 & H2 & -> & ->)|(w & mid & v & rem & tr1 & tr2 & H1 & H2 & -> & ->)]].
    + right. split; auto. apply chain2. left. split; auto. now constructor.
    + right. split; auto. apply chain2. right. left. exists w, mid, tr1, tr2.
      split; [now constructor|]. split; [intros ?; discriminate|auto].
    + left. exists [w; v], rem. split; auto. apply chain2. right. right. exists w, mid, v, rem, tr1, tr2.
      split; [now constructor|]. split; [intros ?; discriminate|]. split; auto. split; auto. intros ?; discriminate.
Qed.

(** The loop of delimit is the repetition of rounds. *)
Lemma tail_rounds_parse p d t i prs rem tr :
  result_for E p = Some t -> t <> TVoid ->
  btail E Parse p (PIgnore d) i prs rem tr -> biter E Parse (round p d) i (map snd prs) rem tr.
Proof.
  intros Hp Ht H. remember (PIgnore d) as d' eqn:Hd'. remember Parse as m eqn:Hm. induction H; subst.
  - constructor. apply (round_parse _ _ _ _ _ _ Hp Ht). left. inversion H; subst. auto.
  - constructor. apply (round_parse _ _ _ _ _ _ Hp Ht). right. left. inversion H; subst. do 4 eexists. eauto.
  - destruct (H2 eq_refl t Hp Ht) as [x ->]. cbn [map snd]. rewrite app_assoc. eapply BI_next; [|intros _ ? _ _; eauto|eauto].
    apply (round_parse _ _ _ _ _ _ Hp Ht). right. right. inversion H; subst. do 6 eexists. eauto.
Qed.

Lemma rounds_tail_parse p d t i vs rem tr :
  result_for E p = Some t -> t <> TVoid ->
  biter E Parse (round p d) i vs rem tr -> exists prs, vs = map snd prs /\ btail E Parse p (PIgnore d) i prs rem tr.
Proof.
  intros Hp Ht H. remember (round p d) as s eqn:Hs. remember Parse as m eqn:Hm. induction H; subst.
  - exists []. split; auto. apply (round_parse _ _ _ _ _ _ Hp Ht) in H as [[H _]|[(w & mid & tr1 & tr2 & H1 & H2 & -> & _)|(w & mid & x & rem & tr1 & tr2 & _ & _ & _ & ?)]]; [| |discriminate].
    + constructor. now constructor.
    + eapply BT_back; [constructor; eassumption|eassumption].
  - destruct (IHbiter eq_refl eq_refl) as (prs & -> & IH).
    apply (round_parse _ _ _ _ _ _ Hp Ht) in H as [[_ ?]|[(w & mid' & tr1 & tr2 & _ & _ & _ & ?)|(w & mid' & x & rem' & tr1 & tr2 & Hx1 & Hx2 & -> & [= -> ->])]]; try discriminate.
    exists ((w, RVal x) :: prs). split; auto. rewrite <- app_assoc. eapply BT_next; eauto.
    + constructor. eassumption.
    + intros _ td' [= <-]. congruence.
    + intros _ ? _ _. eauto.
Qed.

(** The unfolding of delimit. *)
Definition unfolded (p d : parser T) : parser T := PSequence p [PZeroOrMore (round p d)].

Lemma unfolded_types p d t : result_for E p = Some t ->
  result_fors E [p; PZeroOrMore (round p d)] = Some [t; if is_void t then TVoid else TVec t].
Proof.
  intros Hp. unfold result_fors. cbn [map all_some]. rewrite Hp. cbn [result_for]. now rewrite (round_type p d t Hp).
Qed.

Theorem C16_delimit_parse_partial p d t i :
  valid E i -> result_for E p = Some t -> t <> TVoid ->
  (* the vector of delimit is the first value followed by the repeated ones *)
  (forall w0 ws rem tr,
     gives E Parse (PDelimit p (PIgnore d)) i (RVal (VVec (w0 :: ws))) rem tr <->
     gives E Parse (PSequence p [PZeroOrMore (PSequence (PIgnore d) [p])]) i (RVal (VTup [w0; VVec ws])) rem tr) /\
  (forall tr, refuses E Parse (PDelimit p (PIgnore d)) i tr <->
              refuses E Parse (PSequence p [PZeroOrMore (PSequence (PIgnore d) [p])]) i tr) /\
  (* these are the only results *)
  (forall v rem tr, gives E Parse (PDelimit p (PIgnore d)) i v rem tr -> exists w0 ws, v = RVal (VVec (w0 :: ws))) /\
  (forall v rem tr, gives E Parse (PSequence p [PZeroOrMore (PSequence (PIgnore d) [p])]) i v rem tr ->
     exists w0 ws, v = RVal (VTup [w0; VVec ws])).
Proof.
  intros Hv Hp Ht. fold (round p d). fold (unfolded p d).
  assert (Hd' : result_for E (PIgnore d) = Some TVoid) by reflexivity.
  pose proof (unfolded_types p d t Hp) as Hu. apply is_void_false in Ht as Hf. rewrite Hf in Hu.
  assert (Hparts : parts [t; TVec t] [p; PZeroOrMore (round p d)] = [(Parse, p); (Parse, PZeroOrMore (round p d))]).
  { unfold parts. cbn. now rewrite (part_parse t Ht). }
  (* results of the unfolding *)
  assert (Hinv : forall v rem tr, big E Parse (unfolded p d) i (Res (Some v) rem) tr <->
    exists x ws mid tr1 tr2, v = RVal (VTup [x; VVec ws]) /\ big E Parse p i (Res (Some (RVal x)) mid) tr1 /\
      biter E Parse (round p d) mid (map RVal ws) rem tr2 /\ tr = tr1 ++ tr2).
  { intros v rem tr. split.
    - intros H. apply (big_seq_parse E _ _ _ _ _ _ Hu) in H as [(vs & ws & rem0 & Hb & Hk & [= -> ->])|[_ ?]]; [|discriminate]. rewrite Hparts in Hb.
      apply chain2 in Hb as [[H1 Ho]|[(v & mid & tr1 & tr2 & H1 & _ & H2 & -> & Ho)|(v & mid & v' & rem' & tr1 & tr2 & H1 & _ & H2 & _ & -> & Ho)]]; try discriminate.
      injection Ho as -> ->. inversion H2; subst.
      match goal with H : result_for E (round p d) = Some _ |- _ => rewrite (round_type p d t Hp) in H; injection H as <- end.
      match goal with H : collect _ _ _ _ |- _ => destruct H as [[? _]|(_ & ws' & -> & ->)]; [contradiction|] end.
      inversion Hk as [| |? ? ? ? w ? Hk']; subst; [contradiction|]. inversion Hk' as [| |? ? ? ? w' ? Hk'']; subst.
      inversion Hk''; subst. do 5 eexists. split; [reflexivity|]. eauto.
    - intros (x & ws & mid & tr1 & tr2 & -> & H1 & H2 & ->). apply (big_seq_parse E _ _ _ _ _ _ Hu). left.
      exists [RVal x; RVal (VVec ws)], [x; VVec ws], rem. split; [|split; [|reflexivity]].
      + rewrite Hparts. apply chain2. right. right. do 6 eexists. split; [eassumption|]. split; [intros _ ? _ _; eauto|].
        split; [|split; [intros _ ? _ _; eauto|auto]].
        eapply B_zom; [eapply round_type; eauto|eassumption|]. right. split; auto. exists ws. auto.
      + constructor; auto. constructor; [discriminate|]. constructor. }
  (* results of delimit *)
  assert (Hdel : forall v rem tr, big E Parse (PDelimit p (PIgnore d)) i (Res (Some v) rem) tr <->
    exists x ws mid tr1 tr2, v = RVal (VVec (x :: ws)) /\ big E Parse p i (Res (Some (RVal x)) mid) tr1 /\
      biter E Parse (round p d) mid (map RVal ws) rem tr2 /\ tr = tr1 ++ tr2).
  { intros v rem tr. split.
    - intros H. inversion H; subst; inj_ty.
      match goal with H : delim_value _ _ _ _ _ |- _ => inversion H; subst end; try congruence.
      destruct ps as [|x ps]; [discriminate|]. match goal with H : map RVal _ = _ |- _ => injection H as <- Hps end.
      match goal with H : btail _ _ _ _ _ _ _ _ |- _ => apply (tail_rounds_parse _ _ _ _ _ _ _ Hp Ht) in H; rewrite <- Hps in H end.
      do 5 eexists. eauto.
    - intros (x & ws & mid & tr1 & tr2 & -> & H1 & H2 & ->).
      destruct (rounds_tail_parse _ _ _ _ _ _ _ Hp Ht H2) as (prs & Hprs & H3).
      eapply B_delim_ok; eauto; [intros _ ? _ _; eauto|]. rewrite <- Hprs.
      change (RVal x :: map RVal ws) with (map RVal (x :: ws)). now constructor. }
  split; [|split; [|split]].
  - intros w0 ws rem tr. rewrite !gives_big by auto. rewrite Hdel, Hinv. split.
    + intros (x & ws' & mid & tr1 & tr2 & [= <- <-] & H). do 5 eexists. split; [reflexivity|]. exact H.
    + intros (x & ws' & mid & tr1 & tr2 & [= <- <-] & H). do 5 eexists. split; [reflexivity|]. exact H.
  - intros tr. rewrite !refuses_big by auto. split.
    + intros H. inversion H; subst. eapply B_seq_no; eauto. rewrite Hparts. now constructor.
    + intros H. apply (big_seq_parse E _ _ _ _ _ _ Hu) in H as [(vs & ws & rem0 & _ & _ & ?)|[Hb _]]; [discriminate|]. rewrite Hparts in Hb.
      apply chain2 in Hb as [[H1 Ho]|[(v & mid & tr1 & tr2 & H1 & _ & H2 & -> & Ho)|(v & mid & v' & rem' & tr1 & tr2 & H1 & _ & H2 & _ & -> & Ho)]]; try discriminate.
      * eapply B_delim_no; eauto.
      * inversion H2.
  - intros v rem tr H. apply gives_big in H; auto. apply Hdel in H as (x & ws & ? & ? & ? & -> & _). eauto.
  - intros v rem tr H. apply gives_big in H; auto. apply Hinv in H as (x & ws & ? & ? & ? & -> & _). eauto.
Qed.

Lemma tail_rounds_look p d t i prs rem tr :
  result_for E p = Some t ->
  btail E Look p (PIgnore d) i prs rem tr -> exists vs, biter E Look (round p d) i vs rem tr.
Proof.
  intros Hp H. remember (PIgnore d) as d' eqn:Hd'. remember Look as m eqn:Hm. induction H; subst.
  - exists []. constructor. apply (round_look _ _ _ _ _ _ Hp). left. inversion H; subst. auto.
  - exists []. constructor. apply (round_look _ _ _ _ _ _ Hp). right. left. inversion H; subst. do 4 eexists. eauto.
  - destruct (IHbtail Hp eq_refl eq_refl) as [vs IH].
    exists (RVoid :: vs). rewrite app_assoc. eapply BI_next; [|intros ?; discriminate|eauto].
    apply (round_look _ _ _ _ _ _ Hp). right. right. inversion H; subst. do 6 eexists. eauto.
Qed.

Lemma rounds_tail_look p d t i vs rem tr :
  result_for E p = Some t ->
  biter E Look (round p d) i vs rem tr -> exists prs, btail E Look p (PIgnore d) i prs rem tr.
Proof.
  intros Hp H. remember (round p d) as s eqn:Hs. remember Look as m eqn:Hm. induction H; subst.
  - exists []. apply (round_look _ _ _ _ _ _ Hp) in H as [[H _]|[(w & mid & tr1 & tr2 & H1 & H2 & -> & _)|(w & mid & x & rem & tr1 & tr2 & _ & _ & _ & ?)]]; [| |discriminate].
    + constructor. now constructor.
    + eapply BT_back; [constructor; eassumption|eassumption].
  - destruct (IHbiter eq_refl eq_refl) as (prs & IH).
    apply (round_look _ _ _ _ _ _ Hp) in H as [[_ ?]|[(w & mid' & tr1 & tr2 & _ & _ & _ & ?)|(w & mid' & x & rem' & tr1 & tr2 & Hx1 & Hx2 & -> & [= -> ->])]]; try discriminate.
    exists ((w, x) :: prs). rewrite <- app_assoc. eapply BT_next; eauto; try (intros ?; discriminate). constructor. eassumption.
Qed.

Theorem C16_delimit_look p d t i r tr :
  valid E i -> result_for E p = Some t ->
  evals E Look (PDelimit p (PIgnore d)) i (Done r tr) <->
  evals E Look (PSequence p [PZeroOrMore (PSequence (PIgnore d) [p])]) i (Done r tr).
Proof.
  intros Hv Hp. rewrite !evals_big by auto. fold (round p d).
  pose proof (unfolded_types p d t Hp) as Hu. split.
  - intros H. apply (big_seq_look E _ _ _ _ _ _ Hu). cbn [map]. inversion H; subst.
    + match goal with H : btail _ _ _ _ _ _ _ _ |- _ => destruct (tail_rounds_look _ _ _ _ _ _ _ Hp H) as [vs Hb] end.
      left. exists [v0; RVoid], rem. split; auto. apply chain2. right. right. do 6 eexists.
      split; [eassumption|]. split; [intros ?; discriminate|]. split; [eapply B_zom_look; eauto|]. split; [intros ?; discriminate|auto].
    + right. split; auto. apply chain2. left. auto.
  - intros H. apply (big_seq_look E _ _ _ _ _ _ Hu) in H. cbn [map] in H.
    destruct H as [(vs & rem & Hb & ->)|[Hb ->]];
      apply chain2 in Hb as [[H1 Ho]|[(v & mid & tr1 & tr2 & H1 & _ & H2 & -> & Ho)|(v & mid & v' & rem' & tr1 & tr2 & H1 & _ & H2 & _ & -> & Ho)]]; try discriminate.
    + inversion H2; subst. injection Ho as -> ->.
      match goal with H : biter _ _ _ _ _ _ _ |- _ => destruct (rounds_tail_look _ _ _ _ _ _ _ Hp H) as [prs Hb] end.
      eapply B_delim_look_ok; eauto.
    + now constructor.
    + inversion H2.
Qed.

(** ** C17: delimit, keeping the delimiters or not *)

(** Here the repetition ends: no delimiter, or one that is not followed by a value (and is
    therefore not consumed). *)
Definition no_further m p d rem tr : Prop :=
  refuses E m d rem tr \/
  exists w mid tr1 tr2, gives E m d rem w mid tr1 /\ refuses E m p mid tr2 /\ tr = tr1 ++ tr2.

Lemma btail_each m p d i prs rem tr : btail E m p d i prs rem tr -> valid E i ->
  exists tr1 tr2, each E (concat (repeat [(m, d); (m, p)] (List.length prs))) i
      (concat (map (fun wv => [fst wv; snd wv]) prs)) rem tr1 /\ no_further m p d rem tr2 /\ tr = tr1 ++ tr2.
Proof.
  induction 1; intros Hv.
  - exists [], tr. split; [constructor|]. split; auto. left. now apply refuses_big.
  - exists [], (tr ++ tr'). split; [constructor|]. split; auto. right. exists w, mid, tr, tr'.
    apply gives_big in H; auto. split; [exact H|]. split; [|reflexivity]. apply refuses_big; eauto using gives_valid.
  - apply gives_big in H; auto. pose proof (gives_valid E _ _ _ _ _ _ Hv H) as Hv1.
    apply gives_big in H1; auto. pose proof (gives_valid E _ _ _ _ _ _ Hv1 H1) as Hv2.
    destruct (IHbtail Hv2) as (tr1 & tr2 & IH1 & IH2 & ->).
    exists (tr ++ tr' ++ tr1), tr2. split; [|split; auto; now rewrite <- !app_assoc].
    cbn. econstructor; eauto. econstructor; eauto.
Qed.

Lemma each_btail m p d : program E -> compiles E m p = true -> compiles E m d = true ->
  forall prs i rem tr1 tr2, valid E i ->
  each E (concat (repeat [(m, d); (m, p)] (List.length prs))) i
      (concat (map (fun wv => [fst wv; snd wv]) prs)) rem tr1 -> no_further m p d rem tr2 ->
  btail E m p d i prs rem (tr1 ++ tr2).
Proof.
  intros HP Hcp Hcd. induction prs as [|[w v] prs IH]; intros i rem tr1 tr2 Hv He Hn; cbn in He.
  - inversion He; subst. cbn. destruct Hn as [H|(w & mid & tr1 & tr3 & H1 & H2 & ->)].
    + constructor. now apply refuses_big.
    + eapply BT_back; [apply gives_big; eauto|]. apply refuses_big; eauto using gives_valid.
  - inversion He; subst. match goal with H : each E ((m, p) :: _) _ _ _ _ |- _ => inversion H; subst end.
    match goal with Hd : gives E m d _ _ ?mid ?a, Hp : gives E m p _ _ ?mid' ?b |- _ =>
      pose proof (gives_valid E _ _ _ _ _ _ Hv Hd) as Hv1; pose proof (gives_valid E _ _ _ _ _ _ Hv1 Hp) as Hv2;
      rewrite <- !app_assoc; eapply (BT_next E m p d i w mid v mid'); 
        [now apply gives_big|exact (shaped_typed E _ _ _ _ _ _ HP Hv Hcd Hd)|now apply gives_big|exact (shaped_typed E _ _ _ _ _ _ HP Hv1 Hcp Hp)|] end.
    eapply IH; eauto.
Qed.

Theorem C17_delimit_parse p d tp td i r tr :
  program E -> valid E i -> compiles E Parse p = true -> compiles E Parse d = true ->
  result_for E p = Some tp -> result_for E d = Some td ->
  evals E Parse (PDelimit p d) i (Done r tr) <->
  (* p, then rounds of (d, p) one after the other, then no further round *)
  (exists v0 prs w rem tr1 tr2,
     each E ((Parse, p) :: concat (repeat [(Parse, d); (Parse, p)] (List.length prs))) i
            (v0 :: concat (map (fun wv => [fst wv; snd wv]) prs)) rem tr1 /\
     no_further Parse p d rem tr2 /\ tr = tr1 ++ tr2 /\
     delim_value tp td (v0 :: map snd prs) (map fst prs) w /\ r = Res (Some w) rem) \/
  (refuses E Parse p i tr /\ r = Res None i).
Proof.
  intros HP Hv Hcp Hcd Hp Hd. rewrite evals_big by auto. split.
  - intros H. inversion H; subst; inj_ty.
    + left. match goal with H : big E Parse p _ _ _ |- _ => apply gives_big in H; auto; rename H into Hg end.
      match goal with H : btail _ _ _ _ _ _ _ _ |- _ => apply btail_each in H as (tr1 & tr2 & He & Hn & ->); eauto using gives_valid end.
      exists v0, prs, w, rem, (tr0 ++ tr1), tr2. split; [econstructor; eauto|]. split; auto. split; auto. now rewrite app_assoc.
    + right. split; auto. now apply refuses_big.
  - intros [(v0 & prs & w & rem & tr1 & tr2 & He & Hn & -> & Hw & ->)|[Hf ->]].
    + inversion He; subst. rewrite <- app_assoc. eapply B_delim_ok; eauto.
      * apply gives_big; eauto.
      * eapply shaped_typed; eauto.
      * eapply each_btail; eauto using gives_valid.
    + eapply B_delim_no; eauto. now apply refuses_big.
Qed.

Theorem C17_delimit_look p d i r tr :
  program E -> valid E i -> compiles E Look p = true -> compiles E Look d = true ->
  evals E Look (PDelimit p d) i (Done r tr) <->
  (exists v0 prs rem tr1 tr2,
     each E ((Look, p) :: concat (repeat [(Look, d); (Look, p)] (List.length prs))) i
            (v0 :: concat (map (fun wv => [fst wv; snd wv]) prs)) rem tr1 /\
     no_further Look p d rem tr2 /\ tr = tr1 ++ tr2 /\ r = Res (Some RVoid) rem) \/
  (refuses E Look p i tr /\ r = Res None i).
Proof.
  intros HP Hv Hcp Hcd. rewrite evals_big by auto. split.
  - intros H. inversion H; subst.
    + left. match goal with H : big E Look p _ _ _ |- _ => apply gives_big in H; auto; rename H into Hg end.
      match goal with H : btail _ _ _ _ _ _ _ _ |- _ => apply btail_each in H as (tr1 & tr2 & He & Hn & ->); eauto using gives_valid end.
      exists v0, prs, rem, (tr0 ++ tr1), tr2. split; [econstructor; eauto|]. split; auto. split; auto. now rewrite app_assoc.
    + right. split; auto. now apply refuses_big.
  - intros [(v0 & prs & rem & tr1 & tr2 & He & Hn & -> & ->)|[Hf ->]].
    + inversion He; subst. rewrite <- app_assoc. eapply B_delim_look_ok; eauto.
      * apply gives_big; eauto.
      * eapply each_btail; eauto using gives_valid.
    + eapply B_delim_look_no; eauto. now apply refuses_big.
Qed.

(** One delimiter less than values. *)
Corollary C17_one_delimiter_less p d tp td i w rem tr :
  program E -> valid E i -> compiles E Parse p = true -> compiles E Parse d = true ->
  result_for E p = Some tp -> result_for E d = Some td -> tp <> TVoid -> td <> TVoid ->
  evals E Parse (PDelimit p d) i (Done (Res (Some w) rem) tr) ->
  exists ps ds, w = RVal (VPair (VVec ps) (VVec ds)) /\ List.length ps = S (List.length ds).
Proof.
  intros HP Hv Hcp Hcd Hp Hd Htp Htd H. eapply C17_delimit_parse in H; eauto.
  destruct H as [(v0 & prs & w' & rem' & tr1 & tr2 & He & Hn & -> & Hw & [= <- <-])|[_ ?]]; [|discriminate].
  inversion Hw; subst; try congruence. exists ps, ds. split; auto.
  match goal with H1 : map RVal ps = _, H2 : map RVal ds = _ |- _ =>
    apply (f_equal (@List.length rv)) in H1, H2; cbn [List.length] in H1; rewrite !map_length in * end. lia.
Qed.

(** ** C18: ignore *)

(** One step that only delegates. *)
Lemma evals_delegate m p m' p' i o : (forall n, run E (S n) m p i = run E n m' p' i) ->
  evals E m p i o <-> evals E m' p' i o.
Proof.
  intros H. split; intros [Ho [n Hn]]; (split; [exact Ho|]).
  - destruct n as [|n]; [cbn in Hn; congruence|]. exists n. now rewrite <- H.
  - exists (S n). now rewrite H.
Qed.

(** Whatever happens, parse and lookahead of ignore(p) are lookahead of p. *)
Theorem C18_ignore m p i o : evals E m (PIgnore p) i o <-> evals E Look p i o.
Proof. apply evals_delegate. reflexivity. Qed.

Theorem C18_ignore_has_no_value m p i v rem tr : valid E i ->
  evals E m (PIgnore p) i (Done (Res (Some v) rem) tr) -> v = RVoid.
Proof.
  intros Hv H. apply C18_ignore in H. apply evals_sound in H as [_ H]; auto. eapply derives_look_void; eauto.
Qed.

(** It adds nothing to the result type of a sequence or choice, and repetitions of it and
    with it as delimiter have no / the other's values. *)
Theorem C18_ignore_adds_nothing q l1 l2 p :
  result_for E (PSequence q (l1 ++ PIgnore p :: l2)) = result_for E (PSequence q (l1 ++ l2)) /\
  result_for E (PChoice q (l1 ++ PIgnore p :: l2)) = result_for E (PChoice q (l1 ++ l2)) /\
  result_for E (PSequence (PIgnore p) (q :: l2)) = result_for E (PSequence q l2) /\
  result_for E (PChoice (PIgnore p) (q :: l2)) = result_for E (PChoice q l2) /\
  result_for E (PZeroOrMore (PIgnore p)) = Some TVoid /\ result_for E (POneOrMore (PIgnore p)) = Some TVoid /\
  (forall t, result_for E q = Some t -> result_for E (PDelimit q (PIgnore p)) = Some (if is_void t then TVoid else TVec t)).
Proof.
  assert (Hi : result_for E (PIgnore p) = Some TVoid) by reflexivity.
  assert (Hfs : forall l, result_fors E (l ++ l2) = match result_fors E l, result_fors E l2 with Some a, Some b => Some (a ++ b) | _, _ => None end).
  { unfold result_fors. induction l as [|a l IH]; cbn; [now destruct (all_some (map (result_for E) l2))|].
    destruct (result_for E a); auto. rewrite IH. destruct (all_some (map (result_for E) l)); auto. now destruct (all_some (map (result_for E) l2)). }
  assert (Hfs' : forall l, result_fors E (l ++ PIgnore p :: l2) = match result_fors E l, result_fors E l2 with Some a, Some b => Some (a ++ TVoid :: b) | _, _ => None end).
  { unfold result_fors. induction l as [|a l IH]; cbn [app map all_some]; [rewrite Hi; now destruct (all_some (map (result_for E) l2))|].
    destruct (result_for E a); auto. rewrite IH. destruct (all_some (map (result_for E) l)); auto. now destruct (all_some (map (result_for E) l2)). }
  split; [|split; [|split; [|split; [|split; [|split]]]]].
  - rewrite !result_for_seq. change (q :: l1 ++ PIgnore p :: l2) with ((q :: l1) ++ PIgnore p :: l2).
    change (q :: l1 ++ l2) with ((q :: l1) ++ l2). rewrite Hfs, Hfs'.
    destruct (result_fors E (q :: l1)) as [a|], (result_fors E l2) as [b|]; auto.
    rewrite !filter_out_void_spec. cbn [fst]. unfold nonvoid. rewrite !filter_app. reflexivity.
  - rewrite !result_for_choice. change (q :: l1 ++ PIgnore p :: l2) with ((q :: l1) ++ PIgnore p :: l2).
    change (q :: l1 ++ l2) with ((q :: l1) ++ l2). rewrite Hfs, Hfs'.
    destruct (result_fors E (q :: l1)) as [a|], (result_fors E l2) as [b|]; auto.
    rewrite !filter_out_void_deduplicate_spec. cbn [fst].
    assert (Hdf : forall a done, distinct_from done (a ++ TVoid :: b) = distinct_from done (a ++ b)).
    { clear. induction a as [|x a IH]; intros done; cbn; auto. destruct (_ || _); auto. now rewrite IH. }
    now rewrite Hdf.
  - rewrite !result_for_seq. unfold result_fors. cbn [map all_some]. rewrite Hi.
    destruct (result_for E q); auto. destruct (all_some (map (result_for E) l2)) as [b|]; auto.
    rewrite !filter_out_void_spec. reflexivity.
  - rewrite !result_for_choice. unfold result_fors. cbn [map all_some]. rewrite Hi.
    destruct (result_for E q); auto. destruct (all_some (map (result_for E) l2)) as [b|]; auto.
    rewrite !filter_out_void_deduplicate_spec. reflexivity.
  - reflexivity.
  - reflexivity.
  - intros t Ht. cbn. rewrite Ht. unfold delimit_type. cbn. destruct (is_void t); reflexivity.
Qed.

(** ** C19: complete *)
Theorem C19_complete m p i r tr : valid E i ->
  evals E m (PComplete p) i (Done r tr) <->
  (exists v, gives E m p i v (Span (sp_blk i) (sp_off i + sp_len i) 0) tr /\
     r = Res (Some v) (Span (sp_blk i) (sp_off i + sp_len i) 0)) \/
  (exists v rem, gives E m p i v rem tr /\ elems E rem <> [] /\ r = Res None i) \/
  (refuses E m p i tr /\ r = Res None i).
Proof.
  intros Hv. rewrite evals_big by auto. split.
  - intros H. inversion H; subst.
    + left. exists v. assert (Hrem : rem = Span (sp_blk i) (sp_off i + sp_len i) 0).
      { match goal with H : big E m p _ _ _ |- _ => apply (proj1 (big_suffix E)) in H as [(c & Hc & Hr) _] end.
        cbn in Hr. subst rem. cbn in *. unfold adv. f_equal; lia. }
      rewrite Hrem in *. split; auto. now apply gives_big.
    + right. left. exists v, rem.
      match goal with H : big E m p _ _ _ |- _ => apply gives_big in H; auto; rename H into Hg end.
      split; auto. split; auto. intros He. pose proof (elems_length E rem (gives_valid E _ _ _ _ _ _ Hv Hg)) as Hl.
      rewrite He in Hl. cbn in Hl. congruence.
    + right. right. split; auto. now apply refuses_big.
  - intros [(v & Hg & ->)|[(v & rem & Hg & Hne & ->)|[Hf ->]]].
    + apply B_complete_ok; [now apply gives_big|reflexivity].
    + eapply B_complete_rest; [apply gives_big; eauto|]. intros Hl. apply Hne. unfold elems. now rewrite Hl.
    + apply B_complete_no. now apply refuses_big.
Qed.

(** ** C22: specialised joins *)

(** [q] is one of the forms for which detail/optimizations has a specialised join. *)
Definition has_fast_path (q : parser T) : Prop :=
  exists b, (exists arr, b = PAnyOf arr \/ b = PNoneOf arr \/ b = PAllOf arr) /\
    (q = PMaybe b \/ q = POneOrMore b \/ q = PZeroOrMore b \/ exists n, n <> 0 /\ q = PExactly b n).

(** The general join: run q, then join its value. *)
Definition general_join (m : mode) (q : parser T) (i : span) (o : outcome presult) : Prop :=
  o <> OOF /\ exists n, join_generic E (run E n) m q i = o.

Lemma join_done m q i r tr : valid E i ->
  evals E m (PJoin q) i (Done r tr) <-> general_join m q i (Done r tr).
Proof.
  intros Hv. rewrite evals_big by auto. unfold general_join. split.
  - intros H. split; [discriminate|]. inversion H; subst; unfold join_generic.
    + match goal with H : big E Parse q _ _ _ |- _ => apply evals_big in H as [_ [n Hn]]; auto end.
      exists n. match goal with H : result_for E q = _, H' : joinable _ = _ |- _ => rewrite H, H' end.
      unfold join_parse. rewrite Hn. cbn [bind r_ok r_rem].
      match goal with H : join_executor _ _ = _ |- _ => rewrite H end. cbn. now rewrite app_nil_r.
    + match goal with H : big E Parse q _ _ _ |- _ => apply evals_big in H as [_ [n Hn]]; auto end.
      exists n. match goal with H : result_for E q = _, H' : joinable _ = _ |- _ => rewrite H, H' end.
      unfold join_parse. rewrite Hn. cbn [bind r_ok r_rem].
      match goal with H : join_executor _ _ = _ |- _ => rewrite H end. cbn. now rewrite app_nil_r.
    + match goal with H : big E Parse q _ _ _ |- _ => apply evals_big in H as [_ [n Hn]]; auto end.
      exists n. match goal with H : result_for E q = _, H' : joinable _ = _ |- _ => rewrite H, H' end.
      unfold join_parse. rewrite Hn. cbn. now rewrite app_nil_r.
    + match goal with H : big E Look q _ _ _ |- _ => apply evals_big in H as [_ [n Hn]]; auto end. eauto.
  - intros [_ [n Hn]]. destruct m; unfold join_generic in Hn.
    + destruct (result_for E q) as [t|] eqn:Ht; [|discriminate]. destruct (joinable t) eqn:Hj; [|discriminate].
      unfold join_parse in Hn. destruct (run E n Parse q i) as [[[v|] rem] tr0| | | |] eqn:Hr; try discriminate; cbn [bind r_ok r_rem] in Hn.
      * assert (Hb : evals E Parse q i (Done (Res (Some v) rem) tr0)) by (split; [discriminate|eauto]).
        apply evals_big in Hb; auto. destruct v as [|x]; [discriminate|].
        destruct (join_executor x rem) as [[s|] trj| | | |] eqn:Hx; try discriminate; cbn in Hn; injection Hn as <- <-.
        -- assert (trj = []) as -> by (apply (join_executor_trace x rem _ _ Hx)). rewrite !app_nil_r. eapply B_join_ok; eauto.
        -- assert (trj = []) as -> by (apply (join_executor_trace x rem _ _ Hx)). rewrite !app_nil_r. eapply B_join_gap; eauto.
      * assert (Hb : evals E Parse q i (Done (Res None rem) tr0)) by (split; [discriminate|eauto]).
        assert (rem = i) by exact (evals_sound E Parse q i _ tr0 Hv Hb). subst.
        apply evals_big in Hb; auto. injection Hn as <- <-. rewrite app_nil_r. eapply B_join_no; eauto.
    + apply B_join_look. apply evals_big; auto. split; [discriminate|eauto].
Qed.

(** [E] with no user code. *)
Definition bare : env T V :=
  {| eqv := eqv E; mem := mem E; fn_ret := fun _ _ => None; fn_app := fun _ _ => FIll; ct_ok := fun _ _ => false;
     ct_app := fun _ _ => FIll; k_ty := fun _ => TUser 0; k_val := fun _ => VUser 0 []; bool_ok := fun _ => false;
     as_bool := fun _ => false; cust_body := fun _ => PEpsilon; cust_ty := fun _ => TVoid; cust_conv := fun _ => ConvSame |}.

Lemma bare_typed : env_typed bare /\ env_customs bare.
Proof.
  split; constructor; cbn; auto; try discriminate.
Qed.

Lemma bare_no_throw f : forall args e, invoke bare f args <> FThrow e.
Proof.
  induction f; intros args e; cbn; try discriminate. destruct args as [|v [|? ?]]; try discriminate.
  destruct (tuple_vals v); [apply IHf|discriminate].
Qed.

Lemma fast_path_bare n m q i : has_fast_path q -> join_generic E (run E n) m q i = join_generic bare (run bare n) m q i.
Proof.
  intros (b & (arr & Hb) & Hq). destruct n as [|[|n]].
  - destruct Hb as [-> | [-> | ->]], Hq as [-> | [-> | [-> | (k & Hk & ->)]]], m; reflexivity.
  - destruct Hb as [-> | [-> | ->]], Hq as [-> | [-> | [-> | (k & Hk & ->)]]], m; reflexivity.
  - destruct Hb as [-> | [-> | ->]], Hq as [-> | [-> | [-> | (k & Hk & ->)]]], m; reflexivity.
Qed.

Lemma fast_path_total n m q i : has_fast_path q -> valid E i ->
  (exists r tr, join_generic E (run E n) m q i = Done r tr) \/ join_generic E (run E n) m q i = OOF.
Proof.
  intros Hq Hv. rewrite fast_path_bare by auto. destruct bare_typed as [HT HC].
  assert (H : wp False (join_generic bare (run bare n) m q i) (okres bare m (PJoin q) i)).
  { apply join_generic_ok; [auto|intros m' p Hp i' Hv'; now apply run_ok| |exact Hv].
    assert (Hr : forall r, reach bare (PJoin q) r -> match r with PMap _ _ | PCustom _ => False | _ => True end).
    { destruct Hq as (b & (arr & Hb) & Hq). intros r Hr.
      inversion Hr as [|? q1 ? Hin1 Hr1]; subst; auto. cbn [components] in Hin1. destruct Hin1 as [<-|[]].
      inversion Hr1 as [|? q2 ? Hin2 Hr2]; subst; [now destruct Hq as [-> | [-> | [-> | (k & Hk & ->)]]]|].
      assert (q2 = b) as -> by (destruct Hq as [-> | [-> | [-> | (k & Hk & ->)]]]; cbn [components] in Hin2; now destruct Hin2 as [<-|[]]).
      inversion Hr2 as [|? q3 ? Hin3 Hr3]; subst; [now destruct Hb as [-> | [-> | ->]]|].
      destruct Hb as [-> | [-> | ->]]; contradiction. }
    right. split; [|split; [|auto]].
    - destruct Hq as (b & (arr & Hb) & Hq).
      destruct Hb as [-> | [-> | ->]], Hq as [-> | [-> | [-> | ([|k] & Hk & ->)]]], m; try reflexivity; congruence.
    - intros _. right. intros q' Hq' r Hr'. specialize (Hr r). destruct r; try exact I; destruct Hr; (eapply reach_trans; [exact Hq'|]);
        (eapply reach_step; [now left|exact Hr']). }
  destruct (join_generic bare (run bare n) m q i) eqn:Hj; cbn in H; try contradiction; eauto.
  assert (He : forall m', exn (fun _ => False) (run bare n m' q i)).
  { intros m'. pose proof (run_exn bare n m' q i) as He. destruct (run bare n m' q i); cbn in *; auto.
    destruct He as (r & f & args & _ & _ & He). destruct (bare_no_throw f args e0 He). }
  assert (Hx : exn (fun _ => False) (join_generic bare (run bare n) m q i)).
  { unfold join_generic. destruct m; [|apply He]. destruct (result_for bare q); [|exact I]. destruct (joinable t); [|exact I].
    unfold join_parse. apply exn_bind; [apply He|]. intros [[[|v]|] rem]; cbn [r_ok r_rem]; try exact I.
    apply exn_bind; [apply exn_join|]. intros [s|]; exact I. }
  rewrite Hj in Hx. destruct Hx.
Qed.

Lemma join_special_0 q k : (join_special E q 0 = None <-> join_special E q k = None).
Proof.
  destruct q; cbn [join_special]; try tauto; destruct (as_basic E q) as [[fc len]|]; try tauto; try (split; discriminate).
Qed.

Lemma special_fast q k f : join_special E q k = Some f -> has_fast_path q.
Proof.
  intros Hs. destruct q; try discriminate; cbn [join_special] in Hs;
    (destruct (as_basic E q) as [[fc len]|] eqn:Hb; [|discriminate]); exists q;
    (split; [destruct q; try discriminate; eauto|]); auto.
  destruct (Nat.eqb_spec n 0); [discriminate|]. do 3 right. eauto.
Qed.

(** Whatever the outcome (or none, when the evaluation diverges). *)
Theorem C22_fast_path_is_general_join m q i : valid E i ->
  (forall o, evals E m (PJoin q) i o <-> general_join m q i o) /\
  (diverges E m (PJoin q) i <-> forall n, join_generic E (run E n) m q i = OOF).
Proof.
  intros Hv.
  assert (H : forall o, evals E m (PJoin q) i o <-> general_join m q i o).
  { intros o. destruct (join_special E q 0) as [f|] eqn:Hs.
    - assert (Hq : has_fast_path q) by (eapply special_fast; eauto).
      split.
      + intros [Ho [n Hn]]. destruct n as [|n]; [cbn in Hn; congruence|]. cbn [run step] in Hn.
        destruct (join_special E q n) as [g|] eqn:Hg; [|apply join_special_0 in Hg; congruence].
        pose proof (join_special_ok E False False q n g m Hg i Hv) as Hok.
        pose proof (quiet_join_special E q n g m Hg i) as Hqu. rewrite Hn in Hok, Hqu.
        destruct o; try contradiction. apply join_done; auto. split; [discriminate|]. exists (S n). cbn [run step]. now rewrite Hg.
      + intros [Ho [n Hn]]. destruct (fast_path_total n m q i Hq Hv) as [(r & tr & Hr)|Hr]; [|congruence].
        rewrite Hr in Hn. subst o. apply join_done; auto. split; [discriminate|eauto].
    - assert (Hs' : forall k, join_special E q k = None).
      { intros k. now apply join_special_0. }
      split.
      + intros [Ho [n Hn]]. split; auto. destruct n as [|n]; [cbn in Hn; congruence|]. cbn [run step] in Hn.
        rewrite Hs' in Hn. eauto.
      + intros [Ho [n Hn]]. split; auto. exists (S n). cbn [run step]. now rewrite Hs'. }
  split; auto. split.
  - intros Hd n. destruct (join_generic E (run E n) m q i) eqn:Hj; auto; exfalso;
      (assert (Ho : general_join m q i (join_generic E (run E n) m q i)) by (split; [rewrite Hj; discriminate|eauto]));
      apply H in Ho as [Ho [k Hk]]; rewrite Hd in Hk; congruence.
  - intros Hd n. destruct (run E n m (PJoin q) i) eqn:Hj; auto; exfalso;
      (assert (Ho : evals E m (PJoin q) i (run E n m (PJoin q) i)) by (split; [rewrite Hj; discriminate|eauto]));
      apply H in Ho as [Ho [k Hk]]; rewrite Hd in Hk; congruence.
Qed.

(** ** C23: map and filter *)

(** What calling [f] on arguments means. *)
Inductive applied : func -> list val -> fnres -> Prop :=
| ap_user n args : applied (FUser n) args (fn_app E n args)
| ap_apply_tuple g l o : applied g l o -> applied (FApply g) [VTup l] o
| ap_apply_array g l o : applied g l o -> applied (FApply g) [VArr l] o
| ap_apply_pair g a b o : applied g [a; b] o -> applied (FApply g) [VPair a b] o
| ap_constant k args : applied (FConstant k) args (FRet (RVal (k_val E k)))
| ap_construct t args : applied (FConstruct t) args (ct_app E t args)
| ap_default t args : applied (FDefault t) args (FRet (RVal (default_val t))).

Lemma applied_invoke f : forall args o, o <> FIll -> applied f args o <-> invoke E f args = o.
Proof.
  induction f; intros args o Ho; split; cbn; intros H;
    try (inversion H; subst; reflexivity); try (subst; constructor; fail).
  - inversion H; subst; cbn; now apply IHf.
  - destruct args as [|v [|? ?]]; try congruence. destruct v; cbn in H; try congruence; constructor; now apply IHf.
Qed.

(** The arguments of the call: none for a void parser, else the value. *)
Definition arguments (v : rv) : list val := match v with RVoid => [] | RVal x => [x] end.

Lemma evals_inner m q i : forall n, (exists o, evals E m q i o /\ run E n m q i = o) \/ run E n m q i = OOF.
Proof.
  intros n. destruct (run E n m q i) eqn:H; auto; left; eexists; (split; [|reflexivity]); (split; [discriminate|eauto]).
Qed.

Theorem C23_map p f t i o : result_for E (PMap p f) = Some t -> valid E i ->
  (forall v rem tr, gives E Parse p i v rem tr -> invoke E f (arguments v) <> FIll) ->
  evals E Parse (PMap p f) i o <->
  (* p fails: nothing is called *)
  (exists tr, refuses E Parse p i tr /\ o = Done (Res None i) tr) \/
  (* p succeeds: f is called once, on p's value, and returns *)
  (exists v rem tr w, gives E Parse p i v rem tr /\ applied f (arguments v) (FRet w) /\
     o = Done (Res (Some w) rem) (tr ++ [EInvoke f (arguments v)])) \/
  (* ... or throws *)
  (exists v rem tr e, gives E Parse p i v rem tr /\ applied f (arguments v) (FThrow e) /\ o = Exn e) \/
  (* p itself throws, or is undefined *)
  (evals E Parse p i o /\ forall r tr, o <> Done r tr).
Proof.
  intros Ht Hv Hill. split.
  - intros [Ho [n Hn]]. destruct n as [|n]; [cbn in Hn; congruence|]. cbn [run step] in Hn. rewrite Ht in Hn.
    unfold map_parse in Hn. destruct (run E n Parse p i) as [[[v|] rem] tr| | | |] eqn:Hr; cbn [bind r_ok r_rem] in Hn.
    + assert (Hg : gives E Parse p i v rem tr) by (split; [discriminate|eauto]). pose proof (Hill _ _ _ Hg) as Hi.
      change (args_of v) with (arguments v) in Hn. unfold call in Hn.
      destruct (invoke E f (arguments v)) as [w|e|] eqn:Hf; cbn in Hn; subst o; [| |congruence].
      * right. left. exists v, rem, tr, w. split; auto. split; [now apply applied_invoke|]. reflexivity.
      * right. right. left. exists v, rem, tr, e. split; auto. split; auto. now apply applied_invoke.
    + left. exists tr. assert (Hb : evals E Parse p i (Done (Res None rem) tr)) by (split; [discriminate|eauto]).
      assert (rem = i) by exact (evals_sound E Parse p i _ tr Hv Hb). subst. cbn. rewrite app_nil_r. auto.
    + right. right. right. subst. split; [split; [discriminate|eauto]|discriminate].
    + right. right. right. subst. split; [split; [discriminate|eauto]|discriminate].
    + congruence.
    + right. right. right. subst. split; [split; [discriminate|eauto]|discriminate].
  - intros [(tr & [_ [n Hn]] & ->)|[(v & rem & tr & w & [_ [n Hn]] & Hf & ->)|[(v & rem & tr & e & [_ [n Hn]] & Hf & ->)|([Ho [n Hn]] & Hnd)]]].
    + split; [discriminate|]. exists (S n). cbn [run step]. rewrite Ht. unfold map_parse. rewrite Hn. cbn. now rewrite app_nil_r.
    + split; [discriminate|]. exists (S n). cbn [run step]. rewrite Ht. unfold map_parse. rewrite Hn. cbn [bind r_ok r_rem].
      apply applied_invoke in Hf; [|discriminate]. change (args_of v) with (arguments v). unfold call. now rewrite Hf.
    + split; [discriminate|]. exists (S n). cbn [run step]. rewrite Ht. unfold map_parse. rewrite Hn. cbn [bind r_ok r_rem].
      apply applied_invoke in Hf; [|discriminate]. change (args_of v) with (arguments v). unfold call. now rewrite Hf.
    + split; auto. exists (S n). cbn [run step]. rewrite Ht. unfold map_parse. rewrite Hn.
      destruct o; auto. exfalso. eapply Hnd. reflexivity.
Qed.

Theorem C23_filter p f t i o : result_for E (PFilter p f) = Some t -> valid E i ->
  (forall v rem tr, gives E Parse p i v rem tr ->
     invoke E f (arguments v) <> FIll /\ invoke E f (arguments v) <> FRet RVoid) ->
  evals E Parse (PFilter p f) i o <->
  (exists tr, refuses E Parse p i tr /\ o = Done (Res None i) tr) \/
  (* f is called once and says yes (the value passes unchanged) or no (the input is given back) *)
  (exists v rem tr c, gives E Parse p i v rem tr /\ applied f (arguments v) (FRet (RVal c)) /\
     o = Done (if as_bool E c then Res (Some v) rem else Res None i) (tr ++ [EInvoke f (arguments v)])) \/
  (exists v rem tr e, gives E Parse p i v rem tr /\ applied f (arguments v) (FThrow e) /\ o = Exn e) \/
  (evals E Parse p i o /\ forall r tr, o <> Done r tr).
Proof.
  intros Ht Hv Hill. split.
  - intros [Ho [n Hn]]. destruct n as [|n]; [cbn in Hn; congruence|]. cbn [run step] in Hn. rewrite Ht in Hn.
    unfold filter_parse in Hn. destruct (run E n Parse p i) as [[[v|] rem] tr| | | |] eqn:Hr; cbn [bind r_ok r_rem] in Hn.
    + assert (Hg : gives E Parse p i v rem tr) by (split; [discriminate|eauto]). destruct (Hill _ _ _ Hg) as [Hi Hi'].
      change (args_of v) with (arguments v) in Hn. unfold call in Hn.
      destruct (invoke E f (arguments v)) as [[|c]|e|] eqn:Hf; cbn [bind] in Hn; try congruence.
      * right. left. exists v, rem, tr, c. split; auto. split; [now apply applied_invoke|].
        subst o. destruct (as_bool E c); reflexivity.
      * right. right. left. exists v, rem, tr, e. split; auto. split; auto. now apply applied_invoke.
    + left. exists tr. assert (Hb : evals E Parse p i (Done (Res None rem) tr)) by (split; [discriminate|eauto]).
      assert (rem = i) by exact (evals_sound E Parse p i _ tr Hv Hb). subst. cbn. rewrite app_nil_r. auto.
    + right. right. right. subst. split; [split; [discriminate|eauto]|discriminate].
    + right. right. right. subst. split; [split; [discriminate|eauto]|discriminate].
    + congruence.
    + right. right. right. subst. split; [split; [discriminate|eauto]|discriminate].
  - intros [(tr & [_ [n Hn]] & ->)|[(v & rem & tr & c & [_ [n Hn]] & Hf & ->)|[(v & rem & tr & e & [_ [n Hn]] & Hf & ->)|([Ho [n Hn]] & Hnd)]]].
    + split; [discriminate|]. exists (S n). cbn [run step]. rewrite Ht. unfold filter_parse. rewrite Hn. cbn. now rewrite app_nil_r.
    + split; [discriminate|]. exists (S n). cbn [run step]. rewrite Ht. unfold filter_parse. rewrite Hn. cbn [bind r_ok r_rem].
      apply applied_invoke in Hf; [|discriminate]. change (args_of v) with (arguments v). unfold call. rewrite Hf. cbn [bind].
      destruct (as_bool E c); reflexivity.
    + split; [discriminate|]. exists (S n). cbn [run step]. rewrite Ht. unfold filter_parse. rewrite Hn. cbn [bind r_ok r_rem].
      apply applied_invoke in Hf; [|discriminate]. change (args_of v) with (arguments v). unfold call. now rewrite Hf.
    + split; auto. exists (S n). cbn [run step]. rewrite Ht. unfold filter_parse. rewrite Hn.
      destruct o; auto. exfalso. eapply Hnd. reflexivity.
Qed.

(** ** C35: custom parsers *)
Theorem C35_custom_same_partial c i o : cust_conv E c = ConvSame -> valid E i ->
  evals E Parse (PCustom c) i o <-> evals E Parse (cust_body E c) i o.
Proof.
  intros Hc Hv. split; intros [Ho [n Hn]]; (split; [exact Ho|]).
  - destruct n as [|n]; [cbn in Hn; congruence|]. cbn [run step] in Hn. rewrite Hc in Hn. unfold custom_parse in Hn.
    exists n. destruct (run E n Parse (cust_body E c) i) as [[[v|] rem] tr| | | |] eqn:Hr; cbn in Hn; rewrite ?app_nil_r in Hn; auto.
  - exists (S n). cbn [run step]. rewrite Hc. unfold custom_parse. rewrite Hn.
    destruct o as [[[v|] rem] tr| | | |]; cbn; rewrite ?app_nil_r; auto.
Qed.

Theorem C35_custom_look c i o : evals E Look (PCustom c) i o <-> evals E Look (cust_body E c) i o.
Proof. apply evals_delegate. reflexivity. Qed.

(** A result_type constructed from the value of get_parser()'s result. *)
Theorem C35_custom_elem_partial c t i r tr : cust_conv E c = ConvElem t -> valid E i ->
  evals E Parse (PCustom c) i (Done r tr) <->
  (exists x w rem tr', gives E Parse (cust_body E c) i (RVal x) rem tr' /\ ct_app E t [x] = FRet w /\
     r = Res (Some w) rem /\ tr = tr' ++ [EInvoke (FConstruct t) [x]]) \/
  (refuses E Parse (cust_body E c) i tr /\ r = Res None i).
Proof.
  intros Hc Hv. rewrite evals_big by auto. split.
  - intros H. inversion H; subst; try congruence; match goal with H1 : cust_conv E c = ConvElem _, H2 : cust_conv E c = _ |- _ => rewrite H1 in H2; injection H2 as <- end.
    + left. exists x, w, rem, tr0. split; [now apply gives_big|auto].
    + right. split; auto. now apply refuses_big.
  - intros [(x & w & rem & tr' & Hg & Hw & -> & ->)|[Hf ->]].
    + eapply B_custom_elem; eauto. now apply gives_big.
    + eapply B_custom_elem_no; eauto. now apply refuses_big.
Qed.

(** A result_type constructed from the optional itself: there is always a value, built from the
    optional that get_parser()'s result holds; what remains is as with get_parser(). *)
Theorem C35_custom_whole c t i r tr : cust_conv E c = ConvWhole t -> valid E i ->
  evals E Parse (PCustom c) i (Done r tr) <->
  exists x w rem tr', r = Res (Some w) rem /\ ct_app E t [VOpt x] = FRet w /\ tr = tr' ++ [EInvoke (FConstruct t) [VOpt x]] /\
    match x with
    | Some y => gives E Parse (cust_body E c) i (RVal y) rem tr'
    | None => refuses E Parse (cust_body E c) i tr' /\ rem = i
    end.
Proof.
  intros Hc Hv. rewrite evals_big by auto. split.
  - intros H. inversion H; subst; try congruence; match goal with H1 : cust_conv E c = ConvWhole _, H2 : cust_conv E c = _ |- _ => rewrite H1 in H2; injection H2 as <- end.
    + exists (Some x), w, rem, tr0. split; [auto|]. split; [auto|]. split; [auto|]. now apply gives_big.
    + exists None, w, i, tr0. split; [auto|]. split; [auto|]. split; [auto|]. split; [now apply refuses_big|auto].
  - intros ([x|] & w & rem & tr' & -> & Hw & -> & Hx).
    + eapply B_custom_whole; eauto. now apply gives_big.
    + destruct Hx as [Hx ->]. eapply B_custom_whole_no; eauto. now apply refuses_big.
Qed.
End Combos.

(** A result_type that is constructible from std::optional itself: the failed result of
    get_parser() is converted into a success (custom.h:38-46, result.h converting
    constructor): the statement is false there. *)
Theorem C35_custom_refuted :
  exists (c : nat) i w tr, program sx /\ valid sx i /\ compiles sx Parse (PCustom c) = true /\
    refuses sx Parse (cust_body sx c) i [] /\ gives sx Parse (PCustom c) i w i tr.
Proof.
  exists 2, in1. do 2 eexists. split; [apply sx_program|]. split; [apply in1_valid|]. split; [reflexivity|].
  split; runs 5.
Qed.

(** With a void element type delimit parses the elements, the unfolding only looks at them:
    filters make a difference. *)
Theorem C16_delimit_void_refuted :
  exists p d v rem, program sx /\ valid sx in1 /\
    compiles sx Parse (PDelimit p (PIgnore d)) = true /\
    compiles sx Parse (PSequence p [PZeroOrMore (PSequence (PIgnore d) [p])]) = true /\
    refuses sx Parse (PDelimit p (PIgnore d)) in1 [EInvoke (FUser 4) []] /\
    gives sx Parse (PSequence p [PZeroOrMore (PSequence (PIgnore d) [p])]) in1 v rem [].
Proof.
  exists (PFilter (PIgnore (PAllOf (codes "("))) (FUser 4)), (PAllOf (codes ",")). do 2 eexists.
  split; [apply sx_program|]. split; [apply in1_valid|]. split; [reflexivity|]. split; [reflexivity|].
  split; runs 8.
Qed.

(** ** Cases *)

(** ["12,345;"] with the delimiters kept, and a trailing delimiter not consumed *)
Example C17_case :
  evals sx Parse (PDelimit digits (PAnyOf (codes ",;"))) (at1 7)
    (Done (Res (Some (RVal (VPair
        (VVec [VVec [VSpan (Span 1 7 1); VSpan (Span 1 8 1)]; VVec [VSpan (Span 1 10 1); VSpan (Span 1 11 1); VSpan (Span 1 12 1)]])
        (VVec [VSpan (Span 1 9 1)])))) (at1 13)) []).
Proof. runs 9. Qed.

Example C16_case :
  gives sx Parse (PDelimit digits (PIgnore (PAnyOf (codes ",;")))) (at1 7)
    (RVal (VVec [VVec [VSpan (Span 1 7 1); VSpan (Span 1 8 1)]; VVec [VSpan (Span 1 10 1); VSpan (Span 1 11 1); VSpan (Span 1 12 1)]]))
    (at1 13) [].
Proof. runs 9. Qed.

Example C19_case :
  evals sx Parse (PComplete digits) (Span 1 7 2) (Done (Res (Some (RVal (VVec [VSpan (Span 1 7 1); VSpan (Span 1 8 1)]))) (Span 1 9 0)) []) /\
  evals sx Parse (PComplete digits) (Span 1 7 3) (Done (Res None (Span 1 7 3)) []).
Proof. split; runs 7. Qed.

Example C22_case : has_fast_path digits /\
  evals sx Parse (PJoin digits) (at1 10) (Done (Res (Some (RVal (VSpan (Span 1 10 3)))) (at1 13)) []).
Proof. split; [exists (PAnyOf (codes "0123456789")); split; [exists (codes "0123456789")|]; auto|runs 9]. Qed.

(** map with apply over a pair of spans; filter that throws *)
Example C23_case :
  evals sx Parse (PMap (PSequence (PAllOf (codes "(")) [PAllOf (codes "(a")]) (FApply (FUser 2))) in1
    (Done (Res (Some (RVal (VUser 1 [VSpan (Span 1 0 1); VSpan (Span 1 1 2)]))) (at1 3))
       [EInvoke (FApply (FUser 2)) [VTup [VSpan (Span 1 0 1); VSpan (Span 1 1 2)]]]) /\
  evals sx Parse (PFilter (PAllOf (codes "(")) (FUser 3)) in1 (Exn 42).
Proof. split; runs 7. Qed.

Example C35_case : cust_conv sx 0 = ConvElem (TUser 2) /\ cust_conv sx 1 = ConvSame /\ cust_conv sx 2 = ConvWhole (TUser 2).
Proof. repeat split. Qed.

Print Assumptions C16_delimit_parse_partial.
Print Assumptions C16_delimit_look.
Print Assumptions C16_delimit_void_refuted.
Print Assumptions C17_delimit_parse.
Print Assumptions C17_delimit_look.
Print Assumptions C17_one_delimiter_less.
Print Assumptions C18_ignore.
Print Assumptions C18_ignore_has_no_value.
Print Assumptions C18_ignore_adds_nothing.
Print Assumptions C19_complete.
Print Assumptions C22_fast_path_is_general_join.
Print Assumptions C23_map.
Print Assumptions C23_filter.
Print Assumptions C35_custom_same_partial.
Print Assumptions C35_custom_look.
Print Assumptions C35_custom_elem_partial.
Print Assumptions C35_custom_whole.
Print Assumptions C35_custom_refuted.
