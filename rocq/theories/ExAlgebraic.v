(** * examples/algebraic: parser.h, evaluate.h, print.h *)
From Coq Require Import String List Arith ZArith Bool Lia.
From Verif Require Import Types Compound Parser Outcome CompoundFacts Exec Derive Typing Leaves Samples StaticArray Operators PropSets Modifiers ExJson.
Import ListNotations.

(** ** parser.h

    Written with the operators and modifiers as there.  [%] binds tighter than [>>].
    Custom parsers: 0 number, 1 powterm, 2 factor, 3 term, 4 expr, 5 input.
    Types: [TUser] 0 std::string_view, 1 number::result_type (:34-39),
    2 bracketed_expr (:79), 3 negated_expr (:80), 4 powterm::result_type (:77-83). *)
Local Notation P := (parser nat).
Definition a_view := TUser 0.
Definition a_number := TUser 1.
Definition a_bracketed := TUser 2.
Definition a_negated := TUser 3.
Definition a_powterm := TUser 4.
Definition a_factor := TVec a_powterm.                           (* :61 *)
Definition a_term := TPair (TVec a_factor) (TVec a_view).        (* :67 *)
Definition a_expr := TPair (TVec a_term) (TVec a_view).          (* :73 *)

(** :29, :30 *)
Definition ws : P := with_modifier (zero_or_more_operator (anyl [9; 10; 13; 32])) MIgnore.
Definition dgt : P := anyl (codes "0123456789").

(** :41-48 *)
Definition number_integer : P := with_modifier (one_or_more_operator dgt) MJoin.
Definition number_fraction : P := with_modifier (seqp (ign (codes ".")) (one_or_more_operator dgt)) MJoin.
Definition number_exponent : P :=
  with_modifier (seqp (seqp (with_modifier (anyl (codes "Ee")) MIgnore) (maybe_operator (all (codes "-")))) (one_or_more_operator dgt)) MJoin.
Definition number_body : P :=
  with_modifier (seqp (seqp number_integer (maybe_operator number_fraction)) (maybe_operator number_exponent)) (MApplyInto a_number).

Definition alg_number : P := PCustom 0.
Definition alg_powterm : P := PCustom 1.
Definition alg_factor : P := PCustom 2.
Definition alg_term : P := PCustom 3.
Definition alg_expr : P := PCustom 4.
Definition alg_input : P := PCustom 5.

(** :89, :94, :99: [ws >> "^"_any % into<std::string_view>] and the like *)
Definition delimiter (cs : list nat) : P := seqp ws (with_modifier (anyl cs) (MInto a_view)).

(** :87-90, :92-95, :97-100 *)
Definition factor_body : P := with_modifier (seqp ws alg_powterm) (MDelimitBy (delimiter (codes "^"))).
Definition term_body : P := with_modifier (seqp ws alg_factor) (MDelimitKeepBy (delimiter (codes "*/"))).
Definition expr_body : P := with_modifier (seqp ws alg_term) (MDelimitKeepBy (delimiter (codes "+-"))).

(** :102-112 *)
Definition bracketed : P := seqp (seqp (seqp (seqp (ign (codes "(")) ws) alg_expr) ws) (ign (codes ")")).
Definition negated : P := seqp (seqp (ign (codes "-")) ws) alg_expr.
Definition powterm_body : P :=
  with_modifier (orp (orp (with_modifier bracketed (MInto a_bracketed)) (with_modifier negated (MInto a_negated))) alg_number)
                (MInto a_powterm).

(** :118 *)
Definition input_body : P := with_modifier (seqp (seqp ws alg_expr) ws) MComplete.

Definition alg_body (c : nat) : P :=
  match c with 0 => number_body | 1 => powterm_body | 2 => factor_body | 3 => term_body | 4 => expr_body | 5 => input_body | _ => PEpsilon end.
(** :34-39, :77-83, :61, :67, :73; input has no result_type (custom.h:14-19) *)
Definition alg_ty (c : nat) : ty :=
  match c with 0 => a_number | 1 => a_powterm | 2 => a_factor | 3 => a_term | 4 | 5 => a_expr | _ => TVoid end.

(** Which constructions [into] and [apply_into] compile: std::string_view from a span, the
    aggregates from their members. *)
Definition alg_ct (t : ty) (args : list ty) : bool :=
  match t with
  | TUser 0 => ty_eqb (TTup args) (TTup [TSpan])
  | TUser 1 => ty_eqb (TTup args) (TTup [TSpan; TOpt TSpan; TOpt TSpan])
  | TUser 2 | TUser 3 => ty_eqb (TTup args) (TTup [a_expr])
  | TUser 4 => ty_eqb (TTup args) (TTup [TVar [a_bracketed; a_negated; a_number]])
  | _ => false
  end.
(** They store what they are given; views and optional views are represented by the
    (optional) span they view. *)
Definition alg_cons (t : ty) (args : list val) : fnres :=
  match t with TUser k => FRet (RVal (VUser k args)) | _ => FIll end.

Definition alg_env (memory : nat -> list nat) : env nat nat := {|
  eqv := Nat.eqb;
  mem := memory;
  fn_ret := fun _ _ => None;
  fn_app := fun _ _ => FIll;
  ct_ok := alg_ct;
  ct_app := alg_cons;
  k_ty := fun _ => a_view;
  k_val := fun _ => VUser 0 [];
  bool_ok := fun _ => false;
  as_bool := fun _ => false;
  cust_body := alg_body;
  cust_ty := alg_ty;
  cust_conv := fun _ => ConvSame
|}.

(** ** evaluate.h

    Doubles are left open: any type with these operations.  [d_from]: the function template
    from_chars on a string, :105-117, [None] = it throws; [d_int]: conversion from int. *)
Record doubles : Type := {
  dbl : Type;
  d_add : dbl -> dbl -> dbl; d_sub : dbl -> dbl -> dbl; d_mul : dbl -> dbl -> dbl; d_div : dbl -> dbl -> dbl;
  d_neg : dbl -> dbl;
  d_pow : dbl -> dbl -> dbl;
  d_from : list nat -> option dbl;
  d_int : Z -> dbl
}.

(** What a call of evaluate ends with. *)
Inductive eres (D : Type) : Type :=
| EVal (d : D)
| ENull                       (* dereferences the end iterator of a vector: undefined behaviour *)
| EFront                      (* front() of an empty view: undefined behaviour *)
| ESwitch                     (* the default branch of the operator switch, [throw;]: std::terminate *)
| EInvalid                    (* from_chars throws std::invalid_argument, :111 *)
| EAbort                      (* [throw;] without an exception, :136: std::terminate *)
| EType.                      (* not an object of the parameter type *)
Arguments EVal {D}. Arguments ENull {D}. Arguments EFront {D}. Arguments ESwitch {D}.
Arguments EInvalid {D}. Arguments EAbort {D}. Arguments EType {D}.

(** Which overload, :11-17. *)
Inductive kind : Type := KExpr | KTerm | KFactor | KPowterm | KBracketed | KNegated | KNumber.

(** std::from_chars(first, last, int&), base 10: an optional minus sign, then the longest
    sequence of digits; [None] = ec is set (no digits, or the number is not an int). *)
Fixpoint digits_value (acc : Z) (l : list nat) : Z * list nat :=
  match l with
  | c :: l' => if (48 <=? c) && (c <=? 57) then digits_value (10 * acc + Z.of_nat (c - 48))%Z l' else (acc, l)
  | [] => (acc, [])
  end.
Definition unsigned_from_chars (l : list nat) : option Z :=
  match l with c :: _ => if (48 <=? c) && (c <=? 57) then Some (fst (digits_value 0 l)) else None | [] => None end.
Definition int_from_chars (l : list nat) : option Z :=
  let r := match l with
           | 45 :: l' => option_map Z.opp (unsigned_from_chars l')
           | _ => unsigned_from_chars l
           end in
  match r with
  | Some z => if (-2147483648 <=? z)%Z && (z <=? 2147483647)%Z then Some z else None
  | None => None
  end.

Section Evaluate.
Context (memory : nat -> list nat) (F : doubles).
Notation D := (dbl F).

(** The characters a view shows. *)
Definition view (s : span) : list nat := firstn (sp_len s) (skipn (sp_off s) (memory (sp_blk s))).

(** The two loops :33-41 and :60-68, over the values of the remaining operands. *)
Fixpoint operator_loop (op : nat -> option (D -> D -> D)) (output : D) (vals : list (eres D)) (delims : list val) : eres D :=
  match vals, delims with
  | v :: vals', VUser 0 [VSpan s] :: delims' =>
      match view s with
      | [] => EFront                                     (* :35, :62 *)
      | c :: _ =>
          match op c with
          | None => ESwitch                              (* :39, :66 *)
          | Some f =>
              match v with
              | EVal d => operator_loop op (f output d) vals' delims'
              | _ => v
              end
          end
      end
  | _ :: _, _ :: _ => EType
  | _, _ => EVal output
  end.

(** :19-44, :46-71 *)
Definition left_chain (op : nat -> option (D -> D -> D)) (vals : list (eres D)) (delims : list val) : eres D :=
  match vals with
  | [] => ENull                                          (* :29, :56 *)
  | EVal d :: vals' => operator_loop op d vals' delims
  | v :: _ => v
  end.

(** :82-85, over the values in the order of evaluation *)
Fixpoint power_loop (output : D) (vals : list (eres D)) : eres D :=
  match vals with
  | [] => EVal output
  | EVal d :: vals' => power_loop (d_pow F d output) vals'
  | v :: _ => v
  end.
(** :73-88 *)
Definition right_chain (vals : list (eres D)) : eres D :=
  match rev vals with
  | [] => ENull                                          (* :78 *)
  | EVal d :: vals' => power_loop d vals'
  | v :: _ => v
  end.

(** :37-38, :64-65 *)
Definition expr_switch (c : nat) : option (D -> D -> D) :=
  match c with 43 => Some (d_add F) | 45 => Some (d_sub F) | _ => None end.
Definition term_switch (c : nat) : option (D -> D -> D) :=
  match c with 42 => Some (d_mul F) | 47 => Some (d_div F) | _ => None end.

(** :119-139 *)
Definition evaluate_number (integer : span) (decimal exponent : option span) : eres D :=
  let real := view integer ++ match decimal with Some s => 46 :: view s | None => [] end in
  match d_from F real with
  | None => EInvalid
  | Some value =>
      match exponent with
      | None => EVal value                               (* :131-132 *)
      | Some s =>
          match int_from_chars (view s) with
          | None => EAbort                               (* :135-136 *)
          | Some exp => EVal (d_pow F value (d_int F exp))   (* :138 *)
          end
      end
  end.

Definition as_view (o : option val) : option (option span) :=
  match o with None => Some None | Some (VSpan s) => Some (Some s) | _ => None end.

(** The values of operands that the loops do not reach are computed here, too; it makes no
    difference, evaluate has no effect but its result. *)
Fixpoint evaluate (k : kind) (v : val) {struct v} : eres D :=
  match k, v with
  | KExpr, VPair (VVec values) (VVec delimiters) => left_chain expr_switch (map (evaluate KTerm) values) delimiters
  | KTerm, VPair (VVec values) (VVec delimiters) => left_chain term_switch (map (evaluate KFactor) values) delimiters
  | KFactor, VVec values => right_chain (map (evaluate KPowterm) values)
  (* :90-93 *)
  | KPowterm, VUser 4 [VVar 0 x] => evaluate KBracketed x
  | KPowterm, VUser 4 [VVar 1 x] => evaluate KNegated x
  | KPowterm, VUser 4 [VVar 2 x] => evaluate KNumber x
  (* :95-103 *)
  | KBracketed, VUser 2 [x] => evaluate KExpr x
  | KNegated, VUser 3 [x] => match evaluate KExpr x with EVal d => EVal (d_neg F d) | r => r end
  | KNumber, VUser 1 [VSpan i; VOpt d; VOpt e] =>
      match as_view d, as_view e with Some d, Some e => evaluate_number i d e | _, _ => EType end
  | _, _ => EType
  end.
End Evaluate.

(** ** print.h *)

(** A text with a newline at its end. *)
Definition ln (s : string) : string := append s (String (Ascii.ascii_of_nat 10) EmptyString).

(** What is written to std::cout, in pieces. *)
Inductive piece : Type :=
| Tabs (n : nat)
| Text (s : string)
| View (s : span).

(** What a call of print ends with. *)
Inductive pres : Type :=
| POut (l : list piece)
| PTabs                       (* reads past the end of the tab buffer: undefined behaviour *)
| PIndex                      (* delimiters[i] outside the vector: undefined behaviour *)
| PFront                      (* front() of an empty view: undefined behaviour *)
| PSwitch                     (* [throw;]: std::terminate *)
| PType.                      (* not an object of the parameter type *)

Definition then_ (a b : pres) : pres :=
  match a with POut l => match b with POut l' => POut (l ++ l') | _ => b end | _ => a end.

(** :9-13 with the output of the view, :17.  all_tabs has 1024 characters and a terminator
    that may be read. *)
Definition get_tabs (n : nat) : pres := if n <=? 1025 then POut [Tabs n] else PTabs.
(** :15-18 *)
Definition print_text (s : string) (tabs : nat) : pres := then_ (get_tabs tabs) (POut [Text s]).
(** :20-42: the constructor, what happens in the block, the destructor *)
Definition autoprint (s : string) (tabs : nat) (body : pres) : pres :=
  then_ (print_text s tabs) (then_ (POut [Text (ln " :")]) (then_ (print_text (ln "{") tabs)
    (then_ body (then_ (POut [Text (ln "")]) (print_text "}" tabs))))).

Section Print.
Context (memory : nat -> list nat).

(** :88-102, :110-124: [i] is the loop counter, [size] values.size(), [l] what printing
    the values from [i] on does. *)
Fixpoint print_loop (op : nat -> option string) (tabs size i : nat) (delims : list val) (l : list pres) : pres :=
  match l with
  | [] => POut []
  | p :: l' =>
      then_ p (then_
        (if i =? size - 1 then POut []
         else then_ (POut [Text (ln ",")])
               (match nth_error delims i with
                | None => PIndex
                | Some (VUser 0 [VSpan s]) =>
                    match view memory s with
                    | [] => PFront
                    | c :: _ => match op c with
                                | Some name => then_ (print_text name (tabs + 1)) (POut [Text (ln "")])
                                | None => PSwitch
                                end
                    end
                | Some _ => PType
                end))
        (print_loop op tabs size (S i) delims l'))
  end.
(** :130-135 *)
Fixpoint print_list (size i : nat) (l : list pres) : pres :=
  match l with
  | [] => POut []
  | p :: l' => then_ p (then_ (if i =? size - 1 then POut [] else POut [Text (ln ",")]) (print_list size (S i) l'))
  end.

(** :94-99, :116-121 *)
Definition expr_names (c : nat) : option string := match c with 43 => Some "<plus>"%string | 45 => Some "<minus>"%string | _ => None end.
Definition term_names (c : nat) : option string :=
  match c with 42 => Some "<multiplied by>"%string | 47 => Some "<divided by>"%string | _ => None end.

Fixpoint print (k : kind) (v : val) (tabs : nat) {struct v} : pres :=
  match k, v with
  (* :82-103 *)
  | KExpr, VPair (VVec values) (VVec delimiters) =>
      autoprint "Expr" tabs (print_loop expr_names tabs (List.length values) 0 delimiters (map (fun x => print KTerm x (tabs + 1)) values))
  (* :104-125 *)
  | KTerm, VPair (VVec values) (VVec delimiters) =>
      autoprint "Term" tabs (print_loop term_names tabs (List.length values) 0 delimiters (map (fun x => print KFactor x (tabs + 1)) values))
  (* :126-136 *)
  | KFactor, VVec values => autoprint "Factor" tabs (print_list (List.length values) 0 (map (fun x => print KPowterm x (tabs + 1)) values))
  (* :52-61 *)
  | KPowterm, VUser 4 [VVar 0 x] => autoprint "Powterm" tabs (print KBracketed x (tabs + 1))
  | KPowterm, VUser 4 [VVar 1 x] => autoprint "Powterm" tabs (print KNegated x (tabs + 1))
  | KPowterm, VUser 4 [VVar 2 x] => autoprint "Powterm" tabs (print KNumber x (tabs + 1))
  (* :62-71 *)
  | KBracketed, VUser 2 [x] => autoprint "Bracketed Expr" tabs (print KExpr x (tabs + 1))
  | KNegated, VUser 3 [x] => autoprint "Negated Expr" tabs (print KExpr x (tabs + 1))
  (* :72-81 *)
  | KNumber, VUser 1 [VSpan i; VOpt d; VOpt e] =>
      match as_view d, as_view e with
      | Some d, Some e =>
          then_ (print_text "Number : " tabs)
            (POut (View i :: match d with Some s => [Text "."; View s] | None => [] end
                          ++ match e with Some s => [Text "e"; View s] | None => [] end))
      | _, _ => PType
      end
  | _, _ => PType
  end.
End Print.
