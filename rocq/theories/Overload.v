(** * Template argument deduction, partial ordering, overload resolution

    The part of the C++20 rules that decides which function template of an overload set,
    or which partial specialisation of a class template, is used.  Nothing here is tok3n's;
    the overload sets of the library are in OverloadSets.v.

    - [deduce]: [temp.deduct.type] on the forms that occur: a template parameter, an instance
      of a named template, an instance of a template template parameter, each with an
      optional trailing pack
    - [at_least_as_specialized]: [temp.func.order]/3-4, [temp.deduct.partial]: every template
      parameter is replaced by a unique type (value, template, pack) and the other template
      is deduced from the outcome; also used for partial specialisations,
      [temp.spec.partial.order]
    - [resolve]: [over.match.viable], [over.match.best].  All arguments are passed by value
      and of exactly the parameter's type, so that partial ordering is all there is to rank.

    Simplified: the constraints of two templates are never compared ([temp.constr.order]):
    two viable templates that are equally specialised count as ambiguous. *)
From Coq Require Import List Arith Bool.
Import ListNotations.

(** What the parameters of a template are: types only ([template <class...>]), one value
    ([template <static_array>]), something else; or no template at all. *)
Inductive kind := KTypes | KValue | KMixed | KClass.
Definition kind_eqb (a b : kind) : bool :=
  match a, b with KTypes, KTypes | KValue, KValue | KMixed, KMixed | KClass, KClass => true | _, _ => false end.

Section Overload.
(** [F]: the templates of the program *)
Context {F : Type} (f_eqb : F -> F -> bool) (kind_of : F -> kind).

(** A template: one of the program, or the one invented for a template template parameter *)
Inductive tmpl := Named (f : F) | Unique (v : nat) (k : kind).
Definition tmpl_eqb (a b : tmpl) : bool :=
  match a, b with
  | Named f, Named g => f_eqb f g
  | Unique v k, Unique w l => (v =? w) && kind_eqb k l
  | _, _ => false
  end.
Definition tmpl_kind (t : tmpl) : kind := match t with Named f => kind_of f | Unique _ k => k end.

(** Template arguments: types and values.  [Expand]: a pack expansion, only in the types
    invented for partial ordering. *)
Inductive term (X : Type) :=
| Atom (x : X)
| Inst (f : tmpl) (args : list (term X))
| Expand (v : nat).
Arguments Atom {X}. Arguments Inst {X}. Arguments Expand {X}.

(** The types of function parameters and the arguments of partial specialisations.
    - [V v]: the template parameter [v]
    - [I f ps pack]: [f<ps..., Pack...>]
    - [J v k ps pack]: the same for the template template parameter [v] of kind [k] *)
Inductive pat :=
| V (v : nat)
| I (f : F) (ps : list pat) (pack : option nat)
| J (v : nat) (k : kind) (ps : list pat) (pack : option nat).

Section Deduce.
Context {X : Type} (x_eqb : X -> X -> bool).

Fixpoint term_eqb (a b : term X) : bool :=
  match a, b with
  | Atom x, Atom y => x_eqb x y
  | Inst f l, Inst g r =>
      tmpl_eqb f g &&
      (fix go l r := match l, r with [], [] => true | a :: l, b :: r => term_eqb a b && go l r | _, _ => false end) l r
  | Expand v, Expand w => v =? w
  | _, _ => false
  end.
Fixpoint terms_eqb (l r : list (term X)) : bool :=
  match l, r with [], [] => true | a :: l, b :: r => term_eqb a b && terms_eqb l r | _, _ => false end.

(** Deduced arguments; a pack has a list of them, a template is kept as the instance
    without arguments *)
Definition subst := list (nat * list (term X)).
Fixpoint lookup (s : subst) (v : nat) : option (list (term X)) :=
  match s with [] => None | (w, ts) :: s => if v =? w then Some ts else lookup s v end.

(** A parameter deduced twice must get the same argument *)
Definition bind (s : subst) (v : nat) (ts : list (term X)) : option subst :=
  match lookup s v with
  | None => Some ((v, ts) :: s)
  | Some us => if terms_eqb us ts then Some s else None
  end.

(** [temp.deduct.type]/9.  A pack expansion among the arguments can only be matched by a
    pack; one that nothing corresponds to is ignored. *)
Fixpoint deduce (p : pat) (t : term X) (s : subst) {struct p} : option subst :=
  let args := fun ps pack => (fix go ps ts s :=
    match ps, ts with
    | [], _ => match pack with
               | Some v => bind s v ts
               | None => if forallb (fun t => match t with Expand _ => true | _ => false end) ts then Some s else None
               end
    | p :: ps, t :: ts => match deduce p t s with Some s => go ps ts s | None => None end
    | _ :: _, [] => None
    end) ps in
  match p, t with
  | _, Expand _ => None
  | V v, _ => bind s v [t]
  | I f ps pack, Inst g ts => if tmpl_eqb (Named f) g then args ps pack ts s else None
  | J v k ps pack, Inst g ts =>
      if kind_eqb k (tmpl_kind g)
      then match bind s v [Inst g []] with Some s => args ps pack ts s | None => None end
      else None
  | _, Atom _ => None
  end.

Fixpoint deduces (ps : list pat) (ts : list (term X)) (s : subst) : option subst :=
  match ps, ts with
  | [], [] => Some s
  | p :: ps, t :: ts => match deduce p t s with Some s => deduces ps ts s | None => None end
  | _, _ => None
  end.
End Deduce.

(** ** Partial ordering *)
Fixpoint invent (p : pat) : term nat :=
  match p with
  | V v => Atom v
  | I f ps pack => Inst (Named f) (map invent ps ++ match pack with Some v => [Expand v] | None => [] end)
  | J v k ps pack => Inst (Unique v k) (map invent ps ++ match pack with Some v => [Expand v] | None => [] end)
  end.

Definition at_least_as_specialized (a b : list pat) : bool :=
  match deduces Nat.eqb b (map invent a) [] with Some _ => true | None => false end.
Definition more_specialized (a b : list pat) : bool :=
  at_least_as_specialized a b && negb (at_least_as_specialized b a).

(** ** Resolution *)
Section Resolve.
Context {X : Type} (x_eqb : X -> X -> bool).

(** A function template or partial specialisation: parameter types (arguments), associated
    constraints, and what it is, [R] *)
Context {R : Type}.
Record candidate := Candidate {
  c_params : list pat;
  c_requires : @subst X -> bool;
  c_is : R
}.

Definition viable (args : list (term X)) (c : candidate) : option (candidate * @subst X) :=
  match deduces x_eqb (c_params c) args [] with
  | Some s => if c_requires c s then Some (c, s) else None
  | None => None
  end.

Definition viables (args : list (term X)) (cs : list candidate) : list (candidate * @subst X) :=
  flat_map (fun c => match viable args c with Some v => [v] | None => [] end) cs.

(** The one that is more specialised than every other; [before], [after]: the viable
    candidates beside the one looked at *)
Fixpoint best (before after : list (candidate * @subst X)) : option (candidate * @subst X) :=
  match after with
  | [] => None
  | v :: after =>
      if forallb (fun w => more_specialized (c_params (fst v)) (c_params (fst w))) (before ++ after)
      then Some v else best (before ++ [v]) after
  end.

(** What the rules select, with the template arguments deduced for it *)
Inductive selection := NoneViable | Tie | Selected (r : R) (s : @subst X).
Definition select (cs : list candidate) (args : list (term X)) : selection :=
  match viables args cs with
  | [] => NoneViable
  | vs => match best [] vs with
          | None => Tie
          | Some (c, s) => Selected (c_is c) s
          end
  end.
End Resolve.

(** ** Calls: of a function template one knows the type returned; [None]: deleted *)
Section Calls.
Context {X : Type} (x_eqb : X -> X -> bool).
Inductive resolution := NoViable | Ambiguous | Deleted | Calls (t : term X).
Definition resolve (cs : list (@candidate X (@subst X -> option (term X)))) (args : list (term X)) : resolution :=
  match select x_eqb cs args with
  | NoneViable => NoViable
  | Tie => Ambiguous
  | Selected r s => match r s with Some t => Calls t | None => Deleted end
  end.
End Calls.
End Overload.
Arguments term F X : clear implicits. Arguments pat F : clear implicits. Arguments tmpl F : clear implicits.
Arguments subst F X : clear implicits. Arguments candidate F X R : clear implicits. Arguments resolution F X : clear implicits.
Arguments Candidate {F X R}. Arguments selection F X R : clear implicits.
Arguments NoneViable {F X R}. Arguments Tie {F X R}. Arguments Selected {F X R}.
Arguments NoViable {F X}. Arguments Ambiguous {F X}. Arguments Deleted {F X}. Arguments Calls {F X}.
Arguments Atom {F X}. Arguments Inst {F X}. Arguments Expand {F X}.
Arguments Named {F}. Arguments Unique {F}.
Arguments V {F}. Arguments I {F}. Arguments J {F}.
