(** * The library's own tests, run on the model

    Made from /repo/tests/char-tests/{parsers,aliases,optimizations,operators,modifiers}/*.cpp
    and /repo/tests/common/include/samples/*.ipp: the assertions for the value type [char].  See
    Conform.v for the vocabulary and DESIGN.md for what is left out.  The number before each
    assertion is its line in the file that the comment above the Example names.

    [t_join_parser_252] is the one Example in which something is broken: see there. *)
From Coq Require Import String List Arith ZArith Bool.
From Verif Require Import Types Parser Outcome Exec Builds Modifiers Samples Conform.
Import ListNotations.
Open Scope string_scope.

(** ** Samples, common/include/samples/*.ipp *)
(** basic-char.ipp *)
Definition s_Any1 : parser nat := (PAnyOf (codes "abc")). (* :5 *)
Definition s_Any2 : parser nat := (PAnyOf (codes "bcd")). (* :6 *)
Definition s_Any3 : parser nat := (PAnyOf (codes "xyz")). (* :7 *)
Definition s_Any4 : parser nat := (PAnyOf (codes "cd")). (* :8 *)
Definition s_Non1 : parser nat := (PNoneOf (codes "abc")). (* :10 *)
Definition s_Non2 : parser nat := (PNoneOf (codes "bcd")). (* :11 *)
Definition s_Non3 : parser nat := (PNoneOf (codes "xyz")). (* :12 *)
Definition s_Non4 : parser nat := (PNoneOf (codes "cd")). (* :13 *)
Definition s_Non5 : parser nat := (PNoneOf (codes "z")). (* :14 *)
Definition s_All1 : parser nat := (PAllOf (codes "literal")). (* :16 *)
Definition s_All2 : parser nat := (PAllOf (codes "ly")). (* :17 *)
Definition s_All3 : parser nat := (PAllOf (codes "test")). (* :18 *)
Definition s_All4 : parser nat := (PAllOf (codes "ab")). (* :19 *)
Definition s_Eps1 : parser nat := PEpsilon. (* :21 *)
Definition s_Ant1 : parser nat := PAnything. (* :22 *)
Definition s_QQ : parser nat := (PAllOf (codes "??")). (* :24 *)
Definition s_ABC : parser nat := (PAllOf (codes "abc")). (* :25 *)
Definition s_Comma : parser nat := (PAnyOf (codes ",")). (* :26 *)
Definition s_SpaceDot : parser nat := (PAnyOf (codes " .")). (* :27 *)
(** sub_parsers.ipp *)
Definition s_11 : parser nat := s_All1. (* :5 *)
Definition s_12 : parser nat := s_Any1. (* :6 *)
Definition s_13 : parser nat := (PChoice s_All1 [s_Any1]). (* :7 *)
Definition s_14 : parser nat := (PSequence s_All1 [s_Any1]). (* :8 *)
Definition s_21 : parser nat := s_ABC. (* :10 *)
Definition s_22 : parser nat := (POneOrMore s_ABC). (* :11 *)
Definition s_23 : parser nat := (PMaybe (PChoice s_ABC [s_QQ])). (* :12 *)
Definition s_24 : parser nat := (PSequence s_ABC [(PZeroOrMore s_QQ)]). (* :13 *)
Definition s_25 : parser nat := (PSequence (POneOrMore s_ABC) [(PMaybe (PChoice s_ABC [s_QQ]))]). (* :14 *)
(** adaptor.ipp *)
Definition s_Ign1 : parser nat := (PIgnore s_21). (* :5 *)
Definition s_Ign2 : parser nat := (PIgnore s_22). (* :6 *)
Definition s_Ign3 : parser nat := (PIgnore s_23). (* :7 *)
Definition s_Ign4 : parser nat := (PIgnore s_24). (* :8 *)
Definition s_Ign5 : parser nat := (PIgnore s_25). (* :9 *)
Definition s_Com1 : parser nat := (PComplete s_11). (* :11 *)
Definition s_Com2 : parser nat := (PComplete s_12). (* :12 *)
Definition s_Com3 : parser nat := (PComplete s_13). (* :13 *)
Definition s_Com4 : parser nat := (PComplete s_14). (* :14 *)
Definition s_Com5 : parser nat := (PComplete (PMaybe s_14)). (* :15 *)
Definition s_Com6 : parser nat := (PComplete (POneOrMore s_14)). (* :16 *)
Definition s_Com7 : parser nat := (PComplete (PZeroOrMore s_14)). (* :17 *)
Definition s_Nam1 : parser nat := (PNamed s_21 "nam1"). (* :19 *)
Definition s_Nam2 : parser nat := (PNamed s_22 "nam2"). (* :20 *)
Definition s_Nam3 : parser nat := (PNamed s_23 "nam3"). (* :21 *)
Definition s_Nam4 : parser nat := (PNamed s_24 "nam4"). (* :22 *)
(** compound.ipp *)
Definition s_Cho1 : parser nat := (PChoice s_All4 [s_Non4]). (* :5 *)
Definition s_Cho2 : parser nat := (PChoice s_Non4 [s_All4]). (* :6 *)
Definition s_Cho3 : parser nat := (PChoice s_All4 [s_Any4; s_Non5]). (* :7 *)
Definition s_Cho4 : parser nat := (PChoice s_Non5 [s_All4; s_Any4]). (* :8 *)
Definition s_Cho5 : parser nat := (PChoice s_Ign1 [s_Ign2]). (* :9 *)
Definition s_Seq1 : parser nat := (PSequence s_All4 [s_Non4]). (* :11 *)
Definition s_Seq2 : parser nat := (PSequence s_Non4 [s_All4]). (* :12 *)
Definition s_Seq3 : parser nat := (PSequence s_All4 [s_Any4; s_Non5]). (* :13 *)
Definition s_Seq4 : parser nat := (PSequence s_Non5 [s_All4; s_Any4]). (* :14 *)
Definition s_Seq5 : parser nat := (PSequence s_Ign1 [s_Ign2]). (* :15 *)
(** divergent.ipp *)
Definition s_Joi1 : parser nat := (PJoin s_21). (* :5 *)
Definition s_Joi2 : parser nat := (PJoin s_22). (* :6 *)
Definition s_Joi3 : parser nat := (PJoin s_23). (* :7 *)
Definition s_Joi4 : parser nat := (PJoin s_24). (* :8 *)
Definition s_Joi5 : parser nat := (PJoin s_25). (* :9 *)
Definition s_Map1 : parser nat := (PMap s_22 (FUser 0)). (* :11 *)
Definition s_Map2 : parser nat := (PMap s_23 (FUser 1)). (* :12 *)
Definition s_Map3 : parser nat := (PMap s_24 (FUser 2)). (* :13 *)
Definition s_Map4 : parser nat := (PMap s_25 (FUser 13)). (* :14 *)
Definition s_Fil1 : parser nat := (PFilter s_22 (FUser 4)). (* :16 *)
Definition s_Fil2 : parser nat := (PFilter s_23 (FUser 5)). (* :17 *)
Definition s_Fil3 : parser nat := (PFilter s_24 (FUser 6)). (* :18 *)
Definition s_Apm1 : parser nat := (PMap s_24 (FApply (FUser 3))). (* :20 *)
Definition s_Apm2 : parser nat := (PMap s_25 (FApply (FUser 23))). (* :21 *)
Definition s_Apf1 : parser nat := (PFilter s_24 (FApply (FUser 7))). (* :23 *)
Definition s_Int1 : parser nat := (PMap s_SpaceDot (FConstruct t_Class1)). (* :25 *)
Definition s_Int2 : parser nat := (PMap (PSequence s_ABC [s_SpaceDot]) (FConstruct t_Class2)). (* :26 *)
Definition s_Int3 : parser nat := (PMap (PMap (PSequence s_ABC [s_SpaceDot]) (FConstruct t_Class4)) (FConstruct t_Class2)). (* :27 *)
Definition s_Api1 : parser nat := (PMap (PSequence s_ABC [s_SpaceDot]) (FApply (FConstruct t_Class2))). (* :29 *)
Definition s_Api2 : parser nat := (PMap (PSequence s_SpaceDot [s_ABC]) (FApply (FConstruct t_Class5))). (* :30 *)
Definition s_Con1 : parser nat := (PMap s_22 (FConstant 1)). (* :32 *)
Definition s_Con2 : parser nat := (PMap s_23 (FConstant 2)). (* :33 *)
Definition s_Con3 : parser nat := (PMap s_24 (FConstant 3)). (* :34 *)
Definition s_Con4 : parser nat := (PMap s_25 (FConstant 4)). (* :35 *)
Definition s_Def1 : parser nat := (PMap s_22 (FDefault t_int)). (* :37 *)
Definition s_Def2 : parser nat := (PMap s_23 (FDefault t_Class3)). (* :38 *)
Definition s_Cus1 : parser nat := (PCustom 0). (* :40 *)
Definition s_Cus2 : parser nat := (PCustom 1). (* :85 *)
(** repeat.ipp *)
Definition s_May1 : parser nat := (PMaybe s_11). (* :5 *)
Definition s_May2 : parser nat := (PMaybe s_12). (* :6 *)
Definition s_May3 : parser nat := (PMaybe s_13). (* :7 *)
Definition s_May4 : parser nat := (PMaybe s_14). (* :8 *)
Definition s_Exa1 : parser nat := (PExactly s_11 3). (* :10 *)
Definition s_Exa2 : parser nat := (PExactly s_12 5). (* :11 *)
Definition s_Exa3 : parser nat := (PExactly s_13 4). (* :12 *)
Definition s_Exa4 : parser nat := (PExactly s_14 2). (* :13 *)
Definition s_Oom1 : parser nat := (POneOrMore s_11). (* :15 *)
Definition s_Oom2 : parser nat := (POneOrMore s_12). (* :16 *)
Definition s_Oom3 : parser nat := (POneOrMore s_13). (* :17 *)
Definition s_Oom4 : parser nat := (POneOrMore s_14). (* :18 *)
Definition s_Zom1 : parser nat := (PZeroOrMore s_11). (* :20 *)
Definition s_Zom2 : parser nat := (PZeroOrMore s_12). (* :21 *)
Definition s_Zom3 : parser nat := (PZeroOrMore s_13). (* :22 *)
Definition s_Zom4 : parser nat := (PZeroOrMore s_14). (* :23 *)
Definition s_Del1 : parser nat := (PDelimit s_ABC (PIgnore s_Comma)). (* :25 *)
Definition s_Del2 : parser nat := (PDelimit s_ABC (PIgnore s_SpaceDot)). (* :26 *)
Definition s_Del3 : parser nat := (PDelimit s_QQ (PIgnore s_Comma)). (* :27 *)
Definition s_Del4 : parser nat := (PDelimit s_QQ (PIgnore s_SpaceDot)). (* :28 *)
Definition s_Del5 : parser nat := (PDelimit s_Comma (PIgnore s_ABC)). (* :29 *)
Definition s_Del6 : parser nat := (PDelimit s_SpaceDot (PIgnore s_ABC)). (* :30 *)
Definition s_Del7 : parser nat := (PDelimit s_Comma (PIgnore s_QQ)). (* :31 *)
Definition s_Del8 : parser nat := (PDelimit s_SpaceDot (PIgnore s_QQ)). (* :32 *)
Definition s_Dek1 : parser nat := (PDelimit s_ABC s_Comma). (* :34 *)
Definition s_Dek2 : parser nat := (PDelimit s_ABC s_SpaceDot). (* :35 *)
Definition s_Dek3 : parser nat := (PDelimit s_QQ s_Comma). (* :36 *)
Definition s_Dek4 : parser nat := (PDelimit s_QQ s_SpaceDot). (* :37 *)
Definition s_Dek5 : parser nat := (PDelimit s_Comma s_ABC). (* :38 *)
Definition s_Dek6 : parser nat := (PDelimit s_SpaceDot s_ABC). (* :39 *)
Definition s_Dek7 : parser nat := (PDelimit s_Comma s_QQ). (* :40 *)
Definition s_Dek8 : parser nat := (PDelimit s_SpaceDot s_QQ). (* :41 *)
Definition basic_samples : list (parser nat) := [s_Any1; s_Any2; s_Any3; s_Any4; s_Non1; s_Non2; s_Non3; s_Non4; s_Non5; s_All1; s_All2; s_All3; s_All4; s_Eps1; s_Ant1; s_QQ; s_ABC; s_Comma; s_SpaceDot].
Definition adaptor_samples : list (parser nat) := [s_Ign1; s_Ign2; s_Ign3; s_Ign4; s_Ign5; s_Com1; s_Com2; s_Com3; s_Com4; s_Com5; s_Com6; s_Com7; s_Nam1; s_Nam2; s_Nam3; s_Nam4].
Definition compound_samples : list (parser nat) := [s_Cho1; s_Cho2; s_Cho3; s_Cho4; s_Cho5; s_Seq1; s_Seq2; s_Seq3; s_Seq4; s_Seq5].
Definition divergent_samples : list (parser nat) := [s_Joi1; s_Joi2; s_Joi3; s_Joi4; s_Joi5; s_Map1; s_Map2; s_Map3; s_Map4; s_Fil1; s_Fil2; s_Fil3; s_Apm1; s_Apm2; s_Apf1; s_Int1; s_Int2; s_Int3; s_Api1; s_Api2; s_Con1; s_Con2; s_Con3; s_Con4; s_Def1; s_Def2; s_Cus1; s_Cus2].
Definition repeat_samples : list (parser nat) := [s_May1; s_May2; s_May3; s_May4; s_Exa1; s_Exa2; s_Exa3; s_Exa4; s_Oom1; s_Oom2; s_Oom3; s_Oom4; s_Zom1; s_Zom2; s_Zom3; s_Zom4; s_Del1; s_Del2; s_Del3; s_Del4; s_Del5; s_Del6; s_Del7; s_Del8; s_Dek1; s_Dek2; s_Dek3; s_Dek4; s_Dek5; s_Dek6; s_Dek7; s_Dek8].
(** macros-char.ipp:7-8 *)
Definition all_samples : list (parser nat) := adaptor_samples ++ basic_samples ++ compound_samples ++ divergent_samples ++ repeat_samples.

(** ** parsers/all_of_parser.cpp *)
(** :14 Requirements *)
Example t_all_of_parser_14 : broken [
  (17, IsParser (PAllOf (codes "literal")) all_of_family TSpan)] = none_broken.
Proof. vm_compute. reflexivity. Qed.
(** :22 Parse 'literal' *)
Example t_all_of_parser_22 : broken [
  (24, Success (PAllOf (codes "literal")) "literal" (XText "literal") "");
  (25, Success (PAllOf (codes "literal")) "literally" (XText "literal") "ly");
  (26, Failure (PAllOf (codes "literal")) "litera");
  (27, Failure (PAllOf (codes "literal")) " literal");
  (28, Failure (PAllOf (codes "literal")) "LITERAL");
  (29, Failure (PAllOf (codes "literal")) "LITERALLY")] = none_broken.
Proof. vm_compute. reflexivity. Qed.
(** :48 Parse empty *)
Example t_all_of_parser_48 : broken [
  (50, Constructible (PAllOf (codes "")));
  (52, Success (PAllOf (codes "")) "anything" (XText "") "anything");
  (53, Success (PAllOf (codes "")) "" (XText "") "")] = none_broken.
Proof. vm_compute. reflexivity. Qed.

(** ** parsers/any_of_parser.cpp *)
(** :15 Requirements *)
Example t_any_of_parser_15 : broken [
  (20, IsParser (PAnyOf (codes "a")) any_of_family TSpan);
  (21, IsParser (PAnyOf (codes "abc")) any_of_family TSpan)] = none_broken.
Proof. vm_compute. reflexivity. Qed.
(** :30 Parse single *)
Example t_any_of_parser_30 : broken [
  (32, Success (PAnyOf (codes "a")) "ab" (XText "a") "b");
  (33, Failure (PAnyOf (codes "a")) "ba");
  (34, Success (PAnyOf (codes "a")) "abc" (XText "a") "bc");
  (35, Failure (PAnyOf (codes "a")) "Ab");
  (36, Failure (PAnyOf (codes "a")) "Abc");
  (37, Failure (PAnyOf (codes "a")) " abc")] = none_broken.
Proof. vm_compute. reflexivity. Qed.
(** :54 Parse multi *)
Example t_any_of_parser_54 : broken [
  (56, Success (PAnyOf (codes "abc")) "abc" (XText "a") "bc");
  (57, Success (PAnyOf (codes "abc")) "acb" (XText "a") "cb");
  (58, Success (PAnyOf (codes "abc")) "bac" (XText "b") "ac");
  (59, Success (PAnyOf (codes "abc")) "bca" (XText "b") "ca");
  (60, Success (PAnyOf (codes "abc")) "cab" (XText "c") "ab");
  (61, Success (PAnyOf (codes "abc")) "cba" (XText "c") "ba");
  (62, Failure (PAnyOf (codes "abc")) "ABC");
  (63, Failure (PAnyOf (codes "abc")) "ACB");
  (64, Failure (PAnyOf (codes "abc")) "BAC");
  (65, Failure (PAnyOf (codes "abc")) "BCA");
  (66, Failure (PAnyOf (codes "abc")) "CAB");
  (67, Failure (PAnyOf (codes "abc")) "CBA");
  (68, Failure (PAnyOf (codes "abc")) "dcba");
  (69, Failure (PAnyOf (codes "abc")) " cba")] = none_broken.
Proof. vm_compute. reflexivity. Qed.
(** :104 Constructible from lexicographically sorted only *)
Example t_any_of_parser_104 : broken [
  (106, Constructible (PAnyOf (codes "abc")));
  (107, NotConstructible (PAnyOf (codes "acb")));
  (108, NotConstructible (PAnyOf (codes "bac")));
  (109, NotConstructible (PAnyOf (codes "bca")));
  (110, NotConstructible (PAnyOf (codes "cab")));
  (111, NotConstructible (PAnyOf (codes "cba")))] = none_broken.
Proof. vm_compute. reflexivity. Qed.
(** :114 Parse empty *)
Example t_any_of_parser_114 : broken [
  (116, Constructible (PAnyOf (codes "")));
  (118, Failure (PAnyOf (codes "")) "anything");
  (119, Failure (PAnyOf (codes "")) "")] = none_broken.
Proof. vm_compute. reflexivity. Qed.

(** ** parsers/anything_parser.cpp *)
(** :12 Requirements *)
Example t_anything_parser_12 : broken [
  (16, IsParser s_Ant1 anything_family TSpan)] = none_broken.
Proof. vm_compute. reflexivity. Qed.
(** :21 Parse *)
Example t_anything_parser_21 : broken [
  (23, Success s_Ant1 "ab" (XText "a") "b");
  (24, Success s_Ant1 "ba" (XText "b") "a");
  (25, Success s_Ant1 "abc" (XText "a") "bc");
  (26, Success s_Ant1 "Ab" (XText "A") "b");
  (27, Success s_Ant1 "Abc" (XText "A") "bc");
  (28, Success s_Ant1 " abc" (XText " ") "abc");
  (29, Failure s_Ant1 "")] = none_broken.
Proof. vm_compute. reflexivity. Qed.

(** ** parsers/choice_parser.cpp *)
(** :18 Requirements *)
Example t_choice_parser_18 : broken [
  (26, IsParser s_Cho1 choice_family TSpan);
  (27, IsParser s_Cho2 choice_family TSpan);
  (28, IsParser s_Cho3 choice_family TSpan);
  (29, IsParser s_Cho4 choice_family TSpan);
  (30, IsParser s_Cho5 choice_family TVoid)] = none_broken.
Proof. vm_compute. reflexivity. Qed.
(** :45 Parse two-way choice_parser *)
Example t_choice_parser_45 : broken [
  (47, Success s_Cho1 "abc" (XText "ab") "c");
  (48, Success s_Cho1 "ba" (XText "b") "a");
  (49, Failure s_Cho1 "cba");
  (50, Failure s_Cho1 "dcba");
  (51, Success s_Cho1 "edcba" (XText "e") "dcba");
  (53, Success s_Cho2 "abc" (XText "a") "bc");
  (54, Success s_Cho2 "ba" (XText "b") "a");
  (55, Failure s_Cho2 "cba");
  (56, Failure s_Cho2 "dcba");
  (57, Success s_Cho2 "edcba" (XText "e") "dcba")] = none_broken.
Proof. vm_compute. reflexivity. Qed.
(** :84 Parse three-way choice_parser *)
Example t_choice_parser_84 : broken [
  (86, Success s_Cho3 "abc" (XText "ab") "c");
  (87, Success s_Cho3 "ba" (XText "b") "a");
  (88, Success s_Cho3 "cba" (XText "c") "ba");
  (89, Success s_Cho3 "dcba" (XText "d") "cba");
  (90, Success s_Cho3 "edcba" (XText "e") "dcba");
  (92, Success s_Cho4 "abc" (XText "a") "bc");
  (93, Success s_Cho4 "ba" (XText "b") "a");
  (94, Success s_Cho4 "cba" (XText "c") "ba");
  (95, Success s_Cho4 "dcba" (XText "d") "cba");
  (96, Success s_Cho4 "edcba" (XText "e") "dcba");
  (98, Failure s_Cho3 "zyx");
  (99, Success s_Cho3 "xyz" (XText "x") "yz");
  (100, Failure s_Cho4 "zyx");
  (101, Success s_Cho4 "xyz" (XText "x") "yz")] = none_broken.
Proof. vm_compute. reflexivity. Qed.
(** :138 Parse void result_type *)
Example t_choice_parser_138 : broken [
  (140, Failure s_Cho5 "ab");
  (141, SuccessVoid s_Cho5 "abca" "a");
  (142, SuccessVoid s_Cho5 "abcabcabc" "abcabc")] = none_broken.
Proof. vm_compute. reflexivity. Qed.
(** :155 Constructible not only from parsers with the same result_type *)
Example t_choice_parser_155 : broken [
  (157, Constructible (PChoice s_Any1 [s_Any3; s_Non2; s_Non1; s_All2]));
  (158, Constructible (PChoice s_Any1 [(PSequence s_Any2 [s_Any3])]))] = none_broken.
Proof. vm_compute. reflexivity. Qed.
(** :168 Move only *)
Example t_choice_parser_168 : broken [
  (173, Success (PChoice (PMap s_Any3 (FConstruct (t_MoveOnly TSpan))) [(PMap s_ABC (FConstruct (t_MoveOnly TSpan)))]) "xyz" (XObj 20 [(XText "x")]) "yz");
  (174, Failure (PChoice (PMap s_Any3 (FConstruct (t_MoveOnly TSpan))) [(PMap s_ABC (FConstruct (t_MoveOnly TSpan)))]) "abxyz");
  (175, Success (PChoice (PMap s_Any3 (FConstruct (t_MoveOnly TSpan))) [(PMap s_ABC (FConstruct (t_MoveOnly TSpan)))]) "abcxyz" (XObj 20 [(XText "abc")]) "xyz");
  (176, Success (PChoice (PMap s_Any3 (FConstruct (t_MoveOnly TSpan))) [(PMap s_ABC (FConstruct (t_MoveOnly TSpan)))]) "zabcxyz" (XObj 20 [(XText "z")]) "abcxyz")] = none_broken.
Proof. vm_compute. reflexivity. Qed.
(** :198 Copy only *)
Example t_choice_parser_198 : broken [
  (203, Success (PChoice (PMap s_Any3 (FConstruct (t_CopyOnly TSpan))) [(PMap s_ABC (FConstruct (t_CopyOnly TSpan)))]) "xyz" (XObj 22 [(XText "x")]) "yz");
  (204, Failure (PChoice (PMap s_Any3 (FConstruct (t_CopyOnly TSpan))) [(PMap s_ABC (FConstruct (t_CopyOnly TSpan)))]) "abxyz");
  (205, Success (PChoice (PMap s_Any3 (FConstruct (t_CopyOnly TSpan))) [(PMap s_ABC (FConstruct (t_CopyOnly TSpan)))]) "abcxyz" (XObj 22 [(XText "abc")]) "xyz");
  (206, Success (PChoice (PMap s_Any3 (FConstruct (t_CopyOnly TSpan))) [(PMap s_ABC (FConstruct (t_CopyOnly TSpan)))]) "zabcxyz" (XObj 22 [(XText "z")]) "abcxyz")] = none_broken.
Proof. vm_compute. reflexivity. Qed.
(** :228 Result type *)
Example t_choice_parser_228 : broken [
  (234, IsParser (PChoice s_ABC [s_QQ; s_SpaceDot]) choice_family TSpan);
  (239, IsParser (PChoice s_ABC [(PMap s_SpaceDot (FConstant 0)); s_QQ]) choice_family (TVar [TSpan; t_int]));
  (244, IsParser (PChoice s_ABC [s_QQ; (PMap s_SpaceDot (FConstant 0))]) choice_family (TVar [TSpan; t_int]));
  (249, IsParser (PChoice (PMap s_SpaceDot (FConstant 0)) [s_ABC; s_QQ]) choice_family (TVar [t_int; TSpan]));
  (254, IsParser (PChoice (PMap s_SpaceDot (FConstant 0)) [s_ABC; s_QQ; (PMap s_SpaceDot (FConstant 1))]) choice_family (TVar [t_int; TSpan]));
  (259, IsParser (PChoice (PMap s_SpaceDot (FConstant 0)) [s_ABC; (PMap s_SpaceDot (FConstant 1)); s_QQ]) choice_family (TVar [t_int; TSpan]))] = none_broken.
Proof. vm_compute. reflexivity. Qed.

(** ** parsers/complete_parser.cpp *)
(** :12 Requirements *)
Example t_complete_parser_12 : broken [
  (22, IsParser s_Com1 complete_family TSpan);
  (23, IsParser s_Com2 complete_family TSpan);
  (24, IsParser s_Com3 complete_family TSpan);
  (25, IsParser s_Com4 complete_family (TTup [TSpan; TSpan]));
  (26, IsParser s_Com5 complete_family (TOpt (TTup [TSpan; TSpan])));
  (27, IsParser s_Com6 complete_family (TVec (TTup [TSpan; TSpan])));
  (28, IsParser s_Com7 complete_family (TVec (TTup [TSpan; TSpan])))] = none_broken.
Proof. vm_compute. reflexivity. Qed.
(** :47 complete_parser<all_of_parser> *)
Example t_complete_parser_47 : broken [
  (49, Failure s_Com1 "litera");
  (50, Success s_Com1 "literal" (XText "literal") "");
  (51, Failure s_Com1 "literally");
  (52, Failure s_Com1 "literallitera");
  (53, Failure s_Com1 "literalliterallitera");
  (54, Failure s_Com1 " literalliterallitera");
  (55, Failure s_Com1 "")] = none_broken.
Proof. vm_compute. reflexivity. Qed.
(** :73 complete_parser<any_of_parser> *)
Example t_complete_parser_73 : broken [
  (75, Success s_Com2 "a" (XText "a") "");
  (76, Success s_Com2 "b" (XText "b") "");
  (77, Failure s_Com2 "abcdef");
  (78, Failure s_Com2 "fedcba");
  (79, Failure s_Com2 "cbabcccbjklmnop");
  (80, Failure s_Com2 "")] = none_broken.
Proof. vm_compute. reflexivity. Qed.
(** :96 complete_parser<choice_parser> *)
Example t_complete_parser_96 : broken [
  (98, Failure s_Com3 "abliteralcbliteralcf");
  (99, Failure s_Com3 "abliteralcblitralcf");
  (100, Failure s_Com3 "literalabacliteral");
  (101, Success s_Com3 "literal" (XText "literal") "");
  (102, Success s_Com3 "a" (XText "a") "");
  (103, Success s_Com3 "b" (XText "b") "");
  (104, Failure s_Com3 "")] = none_broken.
Proof. vm_compute. reflexivity. Qed.
(** :122 complete_parser<sequence_parser> *)
Example t_complete_parser_122 : broken [
  (124, Failure s_Com4 "literalaliteralcliteralcliteralb");
  (125, Failure s_Com4 "literalaliteralcliteralcliteralbliteral");
  (126, Success s_Com4 "literala" (XList [(XText "literal"); (XText "a")]) "");
  (127, Success s_Com4 "literalb" (XList [(XText "literal"); (XText "b")]) "");
  (128, Failure s_Com4 "literald");
  (129, Failure s_Com4 "aliteralaliteralcliteralbliteral");
  (130, Failure s_Com4 "")] = none_broken.
Proof. vm_compute. reflexivity. Qed.
(** :148 complete_parser<maybe_parser> *)
Example t_complete_parser_148 : broken [
  (150, Failure s_Com5 "literalaliteralcliteralcliteralb");
  (151, Failure s_Com5 "literalaliteralcliteralcliteralbliteral");
  (152, Success s_Com5 "literala" (XSome (XList [(XText "literal"); (XText "a")])) "");
  (153, Success s_Com5 "literalb" (XSome (XList [(XText "literal"); (XText "b")])) "");
  (154, Failure s_Com5 "literald");
  (155, Failure s_Com5 "aliteralaliteralcliteralbliteral");
  (156, Success s_Com5 "" XNone "")] = none_broken.
Proof. vm_compute. reflexivity. Qed.
(** :174 complete_parser<one_or_more_parser> *)
Example t_complete_parser_174 : broken [
  (176, Success s_Com6 "literalaliteralcliteralcliteralb" (XList [(XList [(XText "literal"); (XText "a")]); (XList [(XText "literal"); (XText "c")]); (XList [(XText "literal"); (XText "c")]); (XList [(XText "literal"); (XText "b")])]) "");
  (177, Failure s_Com6 "literalaliteralcliteralcliteralbliteral");
  (178, Success s_Com6 "literala" (XList [(XList [(XText "literal"); (XText "a")])]) "");
  (179, Success s_Com6 "literalb" (XList [(XList [(XText "literal"); (XText "b")])]) "");
  (180, Failure s_Com6 "literald");
  (181, Failure s_Com6 "aliteralaliteralcliteralbliteral");
  (182, Failure s_Com6 "")] = none_broken.
Proof. vm_compute. reflexivity. Qed.
(** :200 complete_parser<zero_or_more_parser> *)
Example t_complete_parser_200 : broken [
  (202, Success s_Com7 "literalaliteralcliteralcliteralb" (XList [(XList [(XText "literal"); (XText "a")]); (XList [(XText "literal"); (XText "c")]); (XList [(XText "literal"); (XText "c")]); (XList [(XText "literal"); (XText "b")])]) "");
  (203, Failure s_Com7 "literalaliteralcliteralcliteralbliteral");
  (204, Success s_Com7 "literala" (XList [(XList [(XText "literal"); (XText "a")])]) "");
  (205, Success s_Com7 "literalb" (XList [(XList [(XText "literal"); (XText "b")])]) "");
  (206, Failure s_Com7 "literald");
  (207, Failure s_Com7 "aliteralaliteralcliteralbliteral");
  (208, Success s_Com7 "" (XList []) "")] = none_broken.
Proof. vm_compute. reflexivity. Qed.

(** ** parsers/custom_parser.cpp *)
(** :12 Requirements *)
Example t_custom_parser_12 : broken [
  (17, IsParser s_Cus1 custom_family t_size);
  (18, IsParser s_Cus2 custom_family t_size)] = none_broken.
Proof. vm_compute. reflexivity. Qed.
(** :27 Parse Cus1 *)
Example t_custom_parser_27 : broken [
  (29, Success s_Cus1 "abcabcabcabc??" (XNum 36) "");
  (30, Success s_Cus1 "abcabcabcabc" (XNum 12) "");
  (31, Success s_Cus1 "abcabcabcabc ??" (XNum 12) " ??");
  (32, Success s_Cus1 "abc" (XNum 3) "");
  (33, Failure s_Cus1 " abc");
  (34, Failure s_Cus1 "")] = none_broken.
Proof. vm_compute. reflexivity. Qed.
(** :51 Parse Cus2 *)
Example t_custom_parser_51 : broken [
  (53, Success s_Cus2 "abc" (XNum 0) "bc");
  (54, Success s_Cus2 "bca" (XNum 0) "ca");
  (55, Success s_Cus2 "cab" (XNum 0) "ab");
  (56, Failure s_Cus2 "xyz");
  (57, Failure s_Cus2 "")] = none_broken.
Proof. vm_compute. reflexivity. Qed.

(** ** parsers/delimit_parser.cpp *)
(** :19 Requirements *)
Example t_delimit_parser_19 : broken [
  (30, IsParser s_Del1 delimit_family (TVec TSpan));
  (31, IsParser s_Del2 delimit_family (TVec TSpan));
  (32, IsParser s_Del3 delimit_family (TVec TSpan));
  (33, IsParser s_Del4 delimit_family (TVec TSpan));
  (34, IsParser s_Del5 delimit_family (TVec TSpan));
  (35, IsParser s_Del6 delimit_family (TVec TSpan));
  (36, IsParser s_Del7 delimit_family (TVec TSpan));
  (37, IsParser s_Del8 delimit_family (TVec TSpan))] = none_broken.
Proof. vm_compute. reflexivity. Qed.
(** :58 Requirements *)
Example t_delimit_parser_58 : broken [
  (69, IsParser s_Dek1 delimit_family (TPair (TVec TSpan) (TVec TSpan)));
  (70, IsParser s_Dek2 delimit_family (TPair (TVec TSpan) (TVec TSpan)));
  (71, IsParser s_Dek3 delimit_family (TPair (TVec TSpan) (TVec TSpan)));
  (72, IsParser s_Dek4 delimit_family (TPair (TVec TSpan) (TVec TSpan)));
  (73, IsParser s_Dek5 delimit_family (TPair (TVec TSpan) (TVec TSpan)));
  (74, IsParser s_Dek6 delimit_family (TPair (TVec TSpan) (TVec TSpan)));
  (75, IsParser s_Dek7 delimit_family (TPair (TVec TSpan) (TVec TSpan)));
  (76, IsParser s_Dek8 delimit_family (TPair (TVec TSpan) (TVec TSpan)))] = none_broken.
Proof. vm_compute. reflexivity. Qed.
(** :97 Parse all *)
Example t_delimit_parser_97 : broken [
  (99, Success s_Del1 "abc,abc,abc,,abc,abc,abc" (XList [(XText "abc"); (XText "abc"); (XText "abc")]) ",,abc,abc,abc");
  (100, Failure s_Del1 ",abc,abc,abc,,abc,abc,abc");
  (101, Success s_Del1 "abc ,abc,abc,abc,,abc,abc,abc" (XList [(XText "abc")]) " ,abc,abc,abc,,abc,abc,abc");
  (102, Failure s_Del1 "");
  (103, Success s_Del2 "abc.abc abc .abc.abc abc" (XList [(XText "abc"); (XText "abc"); (XText "abc")]) " .abc.abc abc");
  (104, Success s_Del2 "abc abc.abc .abc.abc abc" (XList [(XText "abc"); (XText "abc"); (XText "abc")]) " .abc.abc abc");
  (105, Failure s_Del2 ".abc abc.abc .abc.abc abc");
  (106, Failure s_Del2 " abc abc.abc .abc.abc abc");
  (107, Failure s_Del2 "");
  (108, Success s_Del3 "??,??,??,,??,??,??" (XList [(XText "??"); (XText "??"); (XText "??")]) ",,??,??,??");
  (109, Failure s_Del3 ",??,??,??,,??,??,??");
  (110, Success s_Del3 "?? ,??,??,??,,??,??,??" (XList [(XText "??")]) " ,??,??,??,,??,??,??");
  (111, Failure s_Del3 "");
  (112, Success s_Del4 "??.?? ?? .??.?? ??" (XList [(XText "??"); (XText "??"); (XText "??")]) " .??.?? ??");
  (113, Success s_Del4 "?? ??.?? .??.?? ??" (XList [(XText "??"); (XText "??"); (XText "??")]) " .??.?? ??");
  (114, Failure s_Del4 ".?? ??.?? .??.?? ??");
  (115, Failure s_Del4 " ?? ??.?? .??.?? ??");
  (116, Failure s_Del4 "")] = none_broken.
Proof. vm_compute. reflexivity. Qed.
(** :157 Parse all inverted *)
Example t_delimit_parser_157 : broken [
  (159, Failure s_Del5 "abc,abc,abc,,abc,abc,abc");
  (160, Success s_Del5 ",abc,abc,abc,,abc,abc,abc" (XList [(XText ","); (XText ","); (XText ","); (XText ",")]) ",abc,abc,abc");
  (161, Failure s_Del5 "abc ,abc,abc,abc,,abc,abc,abc");
  (162, Failure s_Del5 "");
  (163, Failure s_Del6 "abc.abc abc .abc.abc abc");
  (164, Failure s_Del6 "abc abc.abc .abc.abc abc");
  (165, Success s_Del6 ".abc abc.abc .abc.abc abc" (XList [(XText "."); (XText " "); (XText "."); (XText " ")]) ".abc.abc abc");
  (166, Success s_Del6 " abc abc.abc .abc.abc abc" (XList [(XText " "); (XText " "); (XText "."); (XText " ")]) ".abc.abc abc");
  (167, Failure s_Del6 "");
  (168, Failure s_Del7 "??,??,??,,??,??,??");
  (169, Success s_Del7 ",??,??,??,,??,??,??" (XList [(XText ","); (XText ","); (XText ","); (XText ",")]) ",??,??,??");
  (170, Failure s_Del7 "?? ,??,??,??,,??,??,??");
  (171, Failure s_Del7 "");
  (172, Failure s_Del8 "??.?? ?? .??.?? ??");
  (173, Failure s_Del8 "?? ??.?? .??.?? ??");
  (174, Success s_Del8 ".?? ??.?? .??.?? ??" (XList [(XText "."); (XText " "); (XText "."); (XText " ")]) ".??.?? ??");
  (175, Success s_Del8 " ?? ??.?? .??.?? ??" (XList [(XText " "); (XText " "); (XText "."); (XText " ")]) ".??.?? ??");
  (176, Failure s_Del8 "")] = none_broken.
Proof. vm_compute. reflexivity. Qed.
(** :217 Parse all *)
Example t_delimit_parser_217 : broken [
  (219, Success s_Dek1 "abc,abc,abc,,abc,abc,abc" (XList [(XList [(XText "abc"); (XText "abc"); (XText "abc")]); (XList [(XText ","); (XText ",")])]) ",,abc,abc,abc");
  (220, Failure s_Dek1 ",abc,abc,abc,,abc,abc,abc");
  (221, Success s_Dek1 "abc ,abc,abc,abc,,abc,abc,abc" (XList [(XList [(XText "abc")]); (XList [])]) " ,abc,abc,abc,,abc,abc,abc");
  (222, Failure s_Dek1 "");
  (223, Success s_Dek2 "abc.abc abc .abc.abc abc" (XList [(XList [(XText "abc"); (XText "abc"); (XText "abc")]); (XList [(XText "."); (XText " ")])]) " .abc.abc abc");
  (224, Success s_Dek2 "abc abc.abc .abc.abc abc" (XList [(XList [(XText "abc"); (XText "abc"); (XText "abc")]); (XList [(XText " "); (XText ".")])]) " .abc.abc abc");
  (225, Failure s_Dek2 ".abc abc.abc .abc.abc abc");
  (226, Failure s_Dek2 " abc abc.abc .abc.abc abc");
  (227, Failure s_Dek2 "");
  (228, Success s_Dek3 "??,??,??,,??,??,??" (XList [(XList [(XText "??"); (XText "??"); (XText "??")]); (XList [(XText ","); (XText ",")])]) ",,??,??,??");
  (229, Failure s_Dek3 ",??,??,??,,??,??,??");
  (230, Success s_Dek3 "?? ,??,??,??,,??,??,??" (XList [(XList [(XText "??")]); (XList [])]) " ,??,??,??,,??,??,??");
  (231, Failure s_Dek3 "");
  (232, Success s_Dek4 "??.?? ?? .??.?? ??" (XList [(XList [(XText "??"); (XText "??"); (XText "??")]); (XList [(XText "."); (XText " ")])]) " .??.?? ??");
  (233, Success s_Dek4 "?? ??.?? .??.?? ??" (XList [(XList [(XText "??"); (XText "??"); (XText "??")]); (XList [(XText " "); (XText ".")])]) " .??.?? ??");
  (234, Failure s_Dek4 ".?? ??.?? .??.?? ??");
  (235, Failure s_Dek4 " ?? ??.?? .??.?? ??");
  (236, Failure s_Dek4 "")] = none_broken.
Proof. vm_compute. reflexivity. Qed.
(** :277 Parse all inverted *)
Example t_delimit_parser_277 : broken [
  (279, Failure s_Dek5 "abc,abc,abc,,abc,abc,abc");
  (280, Success s_Dek5 ",abc,abc,abc,,abc,abc,abc" (XList [(XList [(XText ","); (XText ","); (XText ","); (XText ",")]); (XList [(XText "abc"); (XText "abc"); (XText "abc")])]) ",abc,abc,abc");
  (281, Failure s_Dek5 "abc ,abc,abc,abc,,abc,abc,abc");
  (282, Failure s_Dek5 "");
  (283, Failure s_Dek6 "abc.abc abc .abc.abc abc");
  (284, Failure s_Dek6 "abc abc.abc .abc.abc abc");
  (285, Success s_Dek6 ".abc abc.abc .abc.abc abc" (XList [(XList [(XText "."); (XText " "); (XText "."); (XText " ")]); (XList [(XText "abc"); (XText "abc"); (XText "abc")])]) ".abc.abc abc");
  (286, Success s_Dek6 " abc abc.abc .abc.abc abc" (XList [(XList [(XText " "); (XText " "); (XText "."); (XText " ")]); (XList [(XText "abc"); (XText "abc"); (XText "abc")])]) ".abc.abc abc");
  (287, Failure s_Dek6 "");
  (288, Failure s_Dek7 "??,??,??,,??,??,??");
  (289, Success s_Dek7 ",??,??,??,,??,??,??" (XList [(XList [(XText ","); (XText ","); (XText ","); (XText ",")]); (XList [(XText "??"); (XText "??"); (XText "??")])]) ",??,??,??");
  (290, Failure s_Dek7 "?? ,??,??,??,,??,??,??");
  (291, Failure s_Dek7 "");
  (292, Failure s_Dek8 "??.?? ?? .??.?? ??");
  (293, Failure s_Dek8 "?? ??.?? .??.?? ??");
  (294, Success s_Dek8 ".?? ??.?? .??.?? ??" (XList [(XList [(XText "."); (XText " "); (XText "."); (XText " ")]); (XList [(XText "??"); (XText "??"); (XText "??")])]) ".??.?? ??");
  (295, Success s_Dek8 " ?? ??.?? .??.?? ??" (XList [(XList [(XText " "); (XText " "); (XText "."); (XText " ")]); (XList [(XText "??"); (XText "??"); (XText "??")])]) ".??.?? ??");
  (296, Failure s_Dek8 "")] = none_broken.
Proof. vm_compute. reflexivity. Qed.
(** :337 Parse delimit_parser<void-parser> *)
Example t_delimit_parser_337 : broken [
  (341, SuccessVoid (PDelimit (PIgnore s_ABC) (PIgnore s_Comma)) "abcabcabca" "abcabca");
  (342, SuccessVoid (PDelimit (PIgnore s_ABC) (PIgnore s_Comma)) "abc,abcabca" "abca");
  (343, SuccessVoid (PDelimit (PIgnore s_ABC) (PIgnore s_Comma)) "abc,abc,abca" "a");
  (344, Failure (PDelimit (PIgnore s_ABC) (PIgnore s_Comma)) ",abc,abc,abca");
  (345, Failure (PDelimit (PIgnore s_ABC) (PIgnore s_Comma)) " abcabc");
  (346, SuccessVoid (PDelimit (PIgnore s_ABC) (PIgnore s_Comma)) "abcab" "ab");
  (347, SuccessVoid (PDelimit (PIgnore s_ABC) (PIgnore s_Comma)) "abc" "");
  (348, Failure (PDelimit (PIgnore s_ABC) (PIgnore s_Comma)) "")] = none_broken.
Proof. vm_compute. reflexivity. Qed.
(** :369 Parse delimit_parser<void-parser> *)
Example t_delimit_parser_369 : broken [
  (373, Success (PDelimit (PIgnore s_ABC) s_Comma) "abcabcabca" (XList []) "abcabca");
  (374, Success (PDelimit (PIgnore s_ABC) s_Comma) "abc,abcabca" (XList [(XText ",")]) "abca");
  (375, Success (PDelimit (PIgnore s_ABC) s_Comma) "abc,abc,abca" (XList [(XText ","); (XText ",")]) "a");
  (376, Failure (PDelimit (PIgnore s_ABC) s_Comma) ",abc,abc,abca");
  (377, Failure (PDelimit (PIgnore s_ABC) s_Comma) " abcabc");
  (378, Success (PDelimit (PIgnore s_ABC) s_Comma) "abcab" (XList []) "ab");
  (379, Success (PDelimit (PIgnore s_ABC) s_Comma) "abc" (XList []) "");
  (380, Failure (PDelimit (PIgnore s_ABC) s_Comma) "")] = none_broken.
Proof. vm_compute. reflexivity. Qed.

(** ** parsers/epsilon_parser.cpp *)
(** :12 Requirements *)
Example t_epsilon_parser_12 : broken [
  (16, IsParser s_Eps1 epsilon_family TVoid)] = none_broken.
Proof. vm_compute. reflexivity. Qed.
(** :21 Parse *)
Example t_epsilon_parser_21 : broken [
  (23, SuccessVoid s_Eps1 "ab" "ab");
  (24, SuccessVoid s_Eps1 "ba" "ba");
  (25, SuccessVoid s_Eps1 "abc" "abc");
  (26, SuccessVoid s_Eps1 "Ab" "Ab");
  (27, SuccessVoid s_Eps1 "Abc" "Abc");
  (28, SuccessVoid s_Eps1 " abc" " abc");
  (29, SuccessVoid s_Eps1 "" "")] = none_broken.
Proof. vm_compute. reflexivity. Qed.
(** :48 choice_parser<P, epsilon_parser> *)
Example t_epsilon_parser_48 : broken [
  (53, IsParser (the (e_or_eps (e_any "+-"))) choice_family TSpan);
  (54, Success (the (e_or_eps (e_any "+-"))) "+abc" (XText "+") "abc");
  (55, Success (the (e_or_eps (e_any "+-"))) "++abc" (XText "+") "+abc");
  (56, Success (the (e_or_eps (e_any "+-"))) "-abc" (XText "-") "abc");
  (57, Success (the (e_or_eps (e_any "+-"))) "--abc" (XText "-") "-abc");
  (58, Success (the (e_or_eps (e_any "+-"))) "abc" (XText "") "abc")] = none_broken.
Proof. vm_compute. reflexivity. Qed.

(** ** parsers/exactly_parser.cpp *)
(** :12 Requirements *)
Example t_exactly_parser_12 : broken [
  (19, IsParser s_Exa1 exactly_family (TArr TSpan 3));
  (20, IsParser s_Exa2 exactly_family (TArr TSpan 5));
  (21, IsParser s_Exa3 exactly_family (TArr TSpan 4));
  (22, IsParser s_Exa4 exactly_family (TArr (TTup [TSpan; TSpan]) 2))] = none_broken.
Proof. vm_compute. reflexivity. Qed.
(** :35 Constructibility *)
Example t_exactly_parser_35 : broken [
  (37, NotConstructible (PExactly s_Any1 0));
  (38, Constructible (PExactly s_Any1 1));
  (39, Constructible (PExactly s_Any1 2))] = none_broken.
Proof. vm_compute. reflexivity. Qed.
(** :46 Parse exactly_parser<all_of_parser> *)
Example t_exactly_parser_46 : broken [
  (50, Failure s_Exa1 "litera");
  (51, Failure s_Exa1 "literal");
  (52, Failure s_Exa1 "literalliteral");
  (53, Success s_Exa1 "literalliteralliteral" (XList [(XText "literal"); (XText "literal"); (XText "literal")]) "");
  (54, Failure s_Exa1 " literalliteralliteral");
  (55, Success s_Exa1 "literalliteralliteralliteral" (XList [(XText "literal"); (XText "literal"); (XText "literal")]) "literal");
  (56, Success s_Exa1 "literalliteralliterallyliteral" (XList [(XText "literal"); (XText "literal"); (XText "literal")]) "lyliteral");
  (57, Failure s_Exa1 "")] = none_broken.
Proof. vm_compute. reflexivity. Qed.
(** :84 Parse exactly_parser<any_of_parser> *)
Example t_exactly_parser_84 : broken [
  (88, Success s_Exa2 "abcbaa" (XList [(XText "a"); (XText "b"); (XText "c"); (XText "b"); (XText "a")]) "a");
  (89, Failure s_Exa2 "fedcba");
  (90, Success s_Exa2 "cbabcccbjklmnop" (XList [(XText "c"); (XText "b"); (XText "a"); (XText "b"); (XText "c")]) "ccbjklmnop");
  (91, Failure s_Exa2 "")] = none_broken.
Proof. vm_compute. reflexivity. Qed.
(** :110 Parse exactly_parser<choice_parser> *)
Example t_exactly_parser_110 : broken [
  (114, Success s_Exa3 "abliteralcbliteralcf" (XList [(XText "a"); (XText "b"); (XText "literal"); (XText "c")]) "bliteralcf");
  (115, Success s_Exa3 "abliteralcblitralcf" (XList [(XText "a"); (XText "b"); (XText "literal"); (XText "c")]) "blitralcf");
  (116, Success s_Exa3 "literalabacliteral" (XList [(XText "literal"); (XText "a"); (XText "b"); (XText "a")]) "cliteral");
  (117, Failure s_Exa3 "")] = none_broken.
Proof. vm_compute. reflexivity. Qed.
(** :136 Parse exactly_parser<sequence_parser> *)
Example t_exactly_parser_136 : broken [
  (140, Success s_Exa4 "literalaliteralcliteralcliteralb" (XList [(XList [(XText "literal"); (XText "a")]); (XList [(XText "literal"); (XText "c")])]) "literalcliteralb");
  (141, Success s_Exa4 "literalaliteralcliteralcliteralbliteral" (XList [(XList [(XText "literal"); (XText "a")]); (XList [(XText "literal"); (XText "c")])]) "literalcliteralbliteral");
  (142, Failure s_Exa4 "aliteralaliteralcliteralbliteral");
  (143, Failure s_Exa4 "")] = none_broken.
Proof. vm_compute. reflexivity. Qed.
(** :163 Parse exactly_parser<void-parser> *)
Example t_exactly_parser_163 : broken [
  (167, SuccessVoid (PExactly (PIgnore s_ABC) 2) "abcabcabca" "abca");
  (168, SuccessVoid (PExactly (PIgnore s_ABC) 2) "abcabca" "a");
  (169, SuccessVoid (PExactly (PIgnore s_ABC) 2) "abcabc" "");
  (170, Failure (PExactly (PIgnore s_ABC) 2) " abcabc");
  (171, Failure (PExactly (PIgnore s_ABC) 2) "abcab");
  (172, Failure (PExactly (PIgnore s_ABC) 2) "abc");
  (173, Failure (PExactly (PIgnore s_ABC) 2) "")] = none_broken.
Proof. vm_compute. reflexivity. Qed.

(** ** parsers/filter_parser.cpp *)
(** :12 Requirements *)
Example t_filter_parser_12 : broken [
  (19, IsParser s_Fil1 filter_family (TVec TSpan));
  (25, IsParser s_Fil2 filter_family (TOpt TSpan));
  (26, IsParser s_Fil3 filter_family (TTup [TSpan; (TVec TSpan)]))] = none_broken.
Proof. vm_compute. reflexivity. Qed.
(** :43 Parse all *)
Example t_filter_parser_43 : broken [
  (47, LookaheadOnly s_Fil1 "abcabcabcabcabcab" "ab");
  (48, Success s_Fil1 "abcabcabcabcab" (XList [(XText "abc"); (XText "abc"); (XText "abc"); (XText "abc")]) "ab");
  (49, LookaheadOnly s_Fil1 "abcabcabcab" "ab");
  (50, Success s_Fil1 "abcabcab" (XList [(XText "abc"); (XText "abc")]) "ab");
  (51, LookaheadOnly s_Fil1 "abc" "");
  (52, Failure s_Fil1 "ab");
  (53, Failure s_Fil1 "");
  (58, Success s_Fil2 "abcabc" (XSome (XText "abc")) "abc");
  (59, LookaheadOnly s_Fil2 "a??bcabc" "a??bcabc");
  (60, LookaheadOnly s_Fil2 "" "");
  (61, Success s_Fil2 "??abcabc" (XSome (XText "??")) "abcabc");
  (62, LookaheadOnly s_Fil2 " ??abcabc" " ??abcabc");
  (68, Success s_Fil3 "abcabc" (XList [(XText "abc"); (XList [])]) "abc");
  (69, Success s_Fil3 "abc" (XList [(XText "abc"); (XList [])]) "");
  (70, Success s_Fil3 "abc?" (XList [(XText "abc"); (XList [])]) "?");
  (71, LookaheadOnly s_Fil3 "abc??" "");
  (72, LookaheadOnly s_Fil3 "abc???" "?");
  (73, Success s_Fil3 "abc????" (XList [(XText "abc"); (XList [(XText "??"); (XText "??")])]) "");
  (74, Success s_Fil3 "abc?????" (XList [(XText "abc"); (XList [(XText "??"); (XText "??")])]) "?");
  (75, LookaheadOnly s_Fil3 "abc??????" "");
  (76, LookaheadOnly s_Fil3 "abc???????" "?");
  (77, Success s_Fil3 "abc????????" (XList [(XText "abc"); (XList [(XText "??"); (XText "??"); (XText "??"); (XText "??")])]) "");
  (78, Success s_Fil3 "abc?????????" (XList [(XText "abc"); (XList [(XText "??"); (XText "??"); (XText "??"); (XText "??")])]) "?");
  (79, Failure s_Fil3 "??abc???????");
  (80, Failure s_Fil3 "")] = none_broken.
Proof. vm_compute. reflexivity. Qed.
(** :138 void input *)
Example t_filter_parser_138 : broken [
  (144, IsParser (PFilter (PIgnore s_ABC) (FUser 52)) filter_family TVoid);
  (145, SuccessVoid (PFilter (PIgnore s_ABC) (FUser 52)) "abcd" "d");
  (146, Failure (PFilter (PIgnore s_ABC) (FUser 52)) " abcd");
  (150, IsNotParser (PFilter (PIgnore s_ABC) (FUser 53)) filter_family)] = none_broken.
Proof. vm_compute. reflexivity. Qed.

(** ** parsers/ignore_parser.cpp *)
(** :12 Requirements *)
Example t_ignore_parser_12 : broken [
  (20, IsParser s_Ign1 ignore_family TVoid);
  (21, IsParser s_Ign2 ignore_family TVoid);
  (22, IsParser s_Ign3 ignore_family TVoid);
  (23, IsParser s_Ign4 ignore_family TVoid);
  (24, IsParser s_Ign5 ignore_family TVoid)] = none_broken.
Proof. vm_compute. reflexivity. Qed.
(** :39 Parse all *)
Example t_ignore_parser_39 : broken [
  (41, SuccessVoid s_Ign1 "abcabc" "abc");
  (42, Failure s_Ign1 "Abcabc");
  (43, Failure s_Ign1 " abcabc");
  (45, SuccessVoid s_Ign2 "abcabcabcab" "ab");
  (46, Failure s_Ign2 "");
  (47, Failure s_Ign2 "ab");
  (48, SuccessVoid s_Ign2 "abc" "");
  (50, SuccessVoid s_Ign3 "abcabc" "abc");
  (51, SuccessVoid s_Ign3 "a??bcabc" "a??bcabc");
  (52, SuccessVoid s_Ign3 "" "");
  (53, SuccessVoid s_Ign3 "??abcabc" "abcabc");
  (54, SuccessVoid s_Ign3 " ??abcabc" " ??abcabc");
  (56, SuccessVoid s_Ign4 "abc???????" "?");
  (57, Failure s_Ign4 "??abc???????");
  (58, SuccessVoid s_Ign4 "abc??abc???????" "abc???????");
  (59, SuccessVoid s_Ign4 "abc ??abc???????" " ??abc???????");
  (60, Failure s_Ign4 "");
  (62, SuccessVoid s_Ign5 "abcabcabcabc??" "");
  (63, SuccessVoid s_Ign5 "abcabcabcabc" "");
  (64, SuccessVoid s_Ign5 "abcabcabcabc ??" " ??");
  (65, SuccessVoid s_Ign5 "abc" "");
  (66, Failure s_Ign5 " abc");
  (67, Failure s_Ign5 "")] = none_broken.
Proof. vm_compute. reflexivity. Qed.

(** ** parsers/join_parser.cpp *)
(** :12 Requirements *)
Example t_join_parser_12 : broken [
  (20, IsParser s_Joi1 join_family TSpan);
  (21, IsParser s_Joi2 join_family TSpan);
  (22, IsParser s_Joi3 join_family TSpan);
  (23, IsParser s_Joi4 join_family TSpan);
  (24, IsParser s_Joi5 join_family TSpan)] = none_broken.
Proof. vm_compute. reflexivity. Qed.
(** :39 Parse all *)
Example t_join_parser_39 : broken [
  (41, Success s_Joi1 "abcabc" (XText "abc") "abc");
  (42, Failure s_Joi1 "Abcabc");
  (43, Failure s_Joi1 " abcabc");
  (45, Success s_Joi2 "abcabcabcab" (XText "abcabcabc") "ab");
  (46, Failure s_Joi2 "");
  (47, Failure s_Joi2 "ab");
  (48, Success s_Joi2 "abc" (XText "abc") "");
  (50, Success s_Joi3 "abcabc" (XText "abc") "abc");
  (51, Success s_Joi3 "a??bcabc" (XText "") "a??bcabc");
  (52, Success s_Joi3 "" (XText "") "");
  (53, Success s_Joi3 "??abcabc" (XText "??") "abcabc");
  (54, Success s_Joi3 " ??abcabc" (XText "") " ??abcabc");
  (56, Success s_Joi4 "abc???????" (XText "abc??????") "?");
  (57, Failure s_Joi4 "??abc???????");
  (58, Success s_Joi4 "abc??abc???????" (XText "abc??") "abc???????");
  (59, Success s_Joi4 "abc ??abc???????" (XText "abc") " ??abc???????");
  (60, Failure s_Joi4 "");
  (62, Success s_Joi5 "abcabcabcabc??" (XText "abcabcabcabc??") "");
  (63, Success s_Joi5 "abcabcabcabc" (XText "abcabcabcabc") "");
  (64, Success s_Joi5 "abcabcabcabc ??" (XText "abcabcabcabc") " ??");
  (65, Success s_Joi5 "abc" (XText "abc") "");
  (66, Failure s_Joi5 " abc");
  (67, Failure s_Joi5 "")] = none_broken.
Proof. vm_compute. reflexivity. Qed.
(** :126 Contiguous empty strings *)
Example t_join_parser_126 : broken [
  (133, Success (PJoin (PSequence (PAllOf (codes "**start**")) [(PJoin (PMaybe (PChoice s_ABC [s_QQ]))); (PJoin (PZeroOrMore (PSequence s_All1 [s_Any2]))); (PAllOf (codes "__end__"))])) "**start**__end__" (XText "**start**__end__") "")] = none_broken.
Proof. vm_compute. reflexivity. Qed.
(** :142 join_parser<delimit_parser> *)
Example t_join_parser_142 : broken [
  (149, Success (PDelimit s_ABC (PIgnore s_QQ)) "abc" (XList [(XText "abc")]) "");
  (150, Success (PDelimit s_ABC (PIgnore s_QQ)) "abc??abc??a" (XList [(XText "abc"); (XText "abc")]) "??a");
  (151, Success (PDelimit s_ABC (PIgnore s_QQ)) "abc??abc??abc" (XList [(XText "abc"); (XText "abc"); (XText "abc")]) "");
  (152, Success (PJoin (PDelimit s_ABC (PIgnore s_QQ))) "abc" (XText "abc") "");
  (153, LookaheadOnly (PJoin (PDelimit s_ABC (PIgnore s_QQ))) "abc??abc??a" "??a");
  (154, LookaheadOnly (PJoin (PDelimit s_ABC (PIgnore s_QQ))) "abc??abc??abc" "")] = none_broken.
Proof. vm_compute. reflexivity. Qed.
(** :178 join_parser<ignore_parser> *)
Example t_join_parser_178 : broken [
  (191, Success (PSequence s_ABC [(PIgnore s_QQ)]) "abc??abc" (XText "abc") "abc");
  (192, Success (PSequence s_ABC [(PIgnore s_QQ)]) "abc??abc??a" (XText "abc") "abc??a");
  (193, Success (PJoin (PSequence s_ABC [(PIgnore s_QQ)])) "abc??abc" (XText "abc") "abc");
  (194, Success (PJoin (PSequence s_ABC [(PIgnore s_QQ)])) "abc??abc??a" (XText "abc") "abc??a");
  (196, Success (PSequence s_ABC [(PIgnore s_QQ); s_ABC]) "abc??abc" (XList [(XText "abc"); (XText "abc")]) "");
  (197, Success (PSequence s_ABC [(PIgnore s_QQ); s_ABC]) "abc??abc??a" (XList [(XText "abc"); (XText "abc")]) "??a");
  (198, LookaheadOnly (PJoin (PSequence s_ABC [(PIgnore s_QQ); s_ABC])) "abc??abc" "");
  (199, LookaheadOnly (PJoin (PSequence s_ABC [(PIgnore s_QQ); s_ABC])) "abc??abc??a" "??a");
  (201, Success (PSequence s_ABC [s_QQ; s_ABC]) "abc??abc" (XList [(XText "abc"); (XText "??"); (XText "abc")]) "");
  (202, Success (PSequence s_ABC [s_QQ; s_ABC]) "abc??abc??a" (XList [(XText "abc"); (XText "??"); (XText "abc")]) "??a");
  (203, Success (PJoin (PSequence s_ABC [s_QQ; s_ABC])) "abc??abc" (XText "abc??abc") "");
  (204, Success (PJoin (PSequence s_ABC [s_QQ; s_ABC])) "abc??abc??a" (XText "abc??abc") "??a");
  (206, Success (PSequence s_ABC [(PAnyOf (codes "?")); (PAnyOf (codes "?")); s_ABC]) "abc??abc" (XList [(XText "abc"); (XText "?"); (XText "?"); (XText "abc")]) "");
  (207, Success (PSequence s_ABC [(PAnyOf (codes "?")); (PAnyOf (codes "?")); s_ABC]) "abc??abc??a" (XList [(XText "abc"); (XText "?"); (XText "?"); (XText "abc")]) "??a");
  (208, Success (PJoin (PSequence s_ABC [(PAnyOf (codes "?")); (PAnyOf (codes "?")); s_ABC])) "abc??abc" (XText "abc??abc") "");
  (209, Success (PJoin (PSequence s_ABC [(PAnyOf (codes "?")); (PAnyOf (codes "?")); s_ABC])) "abc??abc??a" (XText "abc??abc") "??a")] = none_broken.
Proof. vm_compute. reflexivity. Qed.
(** :252 join_parser<map_parser> *)
(** In the four lines listed, join subtracts pointers into different string literals, which is
    undefined at run time with GCC and Clang (C58); the tests expect a failure there, as in the
    [static_assert], where the subtraction is guarded. *)
Example t_join_parser_252 : broken [
  (279, Success (PMap s_ABC (FUser 60)) "abcabc" (XText "b") "abc");
  (280, Success (PMap s_ABC (FUser 60)) "abc" (XText "b") "");
  (281, Failure (PMap s_ABC (FUser 60)) "");
  (282, Success (PJoin (PMap s_ABC (FUser 60))) "abcabc" (XText "b") "abc");
  (283, Success (PJoin (PMap s_ABC (FUser 60))) "abc" (XText "b") "");
  (284, Failure (PJoin (PMap s_ABC (FUser 60))) "");
  (286, Success (PSequence (PMap s_ABC (FUser 60)) [s_QQ]) "abc??abc" (XList [(XText "b"); (XText "??")]) "abc");
  (287, Success (PSequence (PMap s_ABC (FUser 60)) [s_QQ]) "abc??" (XList [(XText "b"); (XText "??")]) "");
  (288, LookaheadOnly (PJoin (PSequence (PMap s_ABC (FUser 60)) [s_QQ])) "abc??abc" "abc");
  (289, LookaheadOnly (PJoin (PSequence (PMap s_ABC (FUser 60)) [s_QQ])) "abc??" "");
  (292, Success (PZeroOrMore (PSequence (PMap (POneOrMore s_ABC) (FUser 60)) [s_QQ])) "abcabc??abc??ab" (XList [(XList [(XText "a"); (XText "??")]); (XList [(XText "b"); (XText "??")])]) "ab");
  (293, Success (PZeroOrMore (PSequence (PMap (POneOrMore s_ABC) (FUser 60)) [s_QQ])) "abc??abcabcabcabc??" (XList [(XList [(XText "b"); (XText "??")]); (XList [(XText "a"); (XText "??")])]) "");
  (294, LookaheadOnly (PJoin (PZeroOrMore (PSequence (PMap (POneOrMore s_ABC) (FUser 60)) [s_QQ]))) "abcabc??abc??ab" "ab");
  (295, LookaheadOnly (PJoin (PZeroOrMore (PSequence (PMap (POneOrMore s_ABC) (FUser 60)) [s_QQ]))) "abc??abcabcabcabc??" "")] = ([], [288; 289; 294; 295], []).
Proof. vm_compute. reflexivity. Qed.
(** :340 join_parser<sequence_parser<choice_parser<non-eps,eps>, anything>> *)
Example t_join_parser_340 : broken [
  (344, IsParser (the (e_seq (e_or_eps (e_any "+-")) (e_all "abc"))) sequence_family (TTup [TSpan; TSpan]));
  (350, Success (PJoin (the (e_seq (e_or_eps (e_any "+-")) (e_all "abc")))) "+abcd" (XText "+abc") "d");
  (351, Success (PJoin (the (e_seq (e_or_eps (e_any "+-")) (e_all "abc")))) "-abcd" (XText "-abc") "d");
  (352, Success (PJoin (the (e_seq (e_or_eps (e_any "+-")) (e_all "abc")))) "abcd" (XText "abc") "d");
  (353, Failure (PJoin (the (e_seq (e_or_eps (e_any "+-")) (e_all "abc")))) " abcd")] = none_broken.
Proof. vm_compute. reflexivity. Qed.

(** ** parsers/map_parser.cpp *)
(** :12 Requirements *)
Example t_map_parser_12 : broken [
  (20, IsParser s_Map1 map_family t_size);
  (26, IsParser s_Map2 map_family (TVec t_char));
  (27, IsParser s_Map3 map_family t_bool);
  (28, IsParser s_Map4 map_family t_size)] = none_broken.
Proof. vm_compute. reflexivity. Qed.
(** :47 Parse all *)
Example t_map_parser_47 : broken [
  (49, Success s_Map1 "abcabcabcab" (XNum 3) "ab");
  (50, Failure s_Map1 "");
  (51, Failure s_Map1 "ab");
  (52, Success s_Map1 "abc" (XNum 1) "");
  (54, Success s_Map2 "abcabc" (XList [(XNum 97); (XNum 98); (XNum 99)]) "abc");
  (55, Success s_Map2 "a??bcabc" (XList []) "a??bcabc");
  (56, Success s_Map2 "" (XList []) "");
  (57, Success s_Map2 "??abcabc" (XList [(XNum 63); (XNum 63)]) "abcabc");
  (58, Success s_Map2 " ??abcabc" (XList []) " ??abcabc");
  (60, Success s_Map3 "abc???????" (XNum 0) "?");
  (61, Failure s_Map3 "??abc???????");
  (62, Success s_Map3 "abc??abc???????" (XNum 0) "abc???????");
  (63, Success s_Map3 "abc ??abc???????" (XNum 1) " ??abc???????");
  (64, Failure s_Map3 "");
  (66, Success s_Map4 "abcabcabcabc??" (XNum 36) "");
  (67, Success s_Map4 "abcabcabcabc" (XNum 12) "");
  (68, Success s_Map4 "abcabcabcabc ??" (XNum 12) " ??");
  (69, Success s_Map4 "abc" (XNum 3) "");
  (70, Failure s_Map4 " abc");
  (71, Failure s_Map4 "")] = none_broken.
Proof. vm_compute. reflexivity. Qed.
(** :112 Move only *)
Example t_map_parser_112 : broken [
  (117, Success (PMap s_ABC (FUser 40)) "abcd" (XObj 20 [(XText "abc")]) "d");
  (118, Failure (PMap s_ABC (FUser 40)) "dcba");
  (119, Success (PMap s_ABC (FUser 40)) "abcabcd" (XObj 20 [(XText "abc")]) "abcd")] = none_broken.
Proof. vm_compute. reflexivity. Qed.
(** :139 Copy only *)
Example t_map_parser_139 : broken [
  (144, Success (PMap s_ABC (FUser 42)) "abcd" (XObj 22 [(XText "abc")]) "d");
  (145, Failure (PMap s_ABC (FUser 42)) "dcba");
  (146, Success (PMap s_ABC (FUser 42)) "abcabcd" (XObj 22 [(XText "abc")]) "abcd")] = none_broken.
Proof. vm_compute. reflexivity. Qed.
(** :166 void input *)
Example t_map_parser_166 : broken [
  (172, IsParser (PMap (PIgnore s_ABC) (FUser 50)) map_family t_int);
  (173, Success (PMap (PIgnore s_ABC) (FUser 50)) "abcd" (XNum 0) "d");
  (174, Failure (PMap (PIgnore s_ABC) (FUser 50)) " abcd");
  (178, IsNotParser (PMap (PIgnore s_ABC) (FUser 51)) map_family)] = none_broken.
Proof. vm_compute. reflexivity. Qed.
(** :181 void output *)
Example t_map_parser_181 : broken [
  (187, IsParser (PMap s_ABC (FUser 55)) map_family TVoid);
  (188, SuccessVoid (PMap s_ABC (FUser 55)) "abcd" "d");
  (189, Failure (PMap s_ABC (FUser 55)) " abcd");
  (193, IsNotParser (PMap s_ABC (FUser 54)) map_family)] = none_broken.
Proof. vm_compute. reflexivity. Qed.
(** :196 void input and void output *)
Example t_map_parser_196 : broken [
  (202, IsParser (PMap (PIgnore s_ABC) (FUser 54)) map_family TVoid);
  (203, SuccessVoid (PMap (PIgnore s_ABC) (FUser 54)) "abcd" "d");
  (204, Failure (PMap (PIgnore s_ABC) (FUser 54)) " abcd");
  (208, IsNotParser (PMap (PIgnore s_ABC) (FUser 55)) map_family)] = none_broken.
Proof. vm_compute. reflexivity. Qed.

(** ** parsers/maybe_parser.cpp *)
(** :12 Requirements *)
Example t_maybe_parser_12 : broken [
  (19, IsParser s_May1 maybe_family (TOpt TSpan));
  (20, IsParser s_May2 maybe_family (TOpt TSpan));
  (21, IsParser s_May3 maybe_family (TOpt TSpan));
  (22, IsParser s_May4 maybe_family (TOpt (TTup [TSpan; TSpan])))] = none_broken.
Proof. vm_compute. reflexivity. Qed.
(** :35 Parse maybe_parser<all_of_parser> *)
Example t_maybe_parser_35 : broken [
  (37, Success s_May1 "litera" XNone "litera");
  (38, Success s_May1 "literal" (XSome (XText "literal")) "");
  (39, Success s_May1 "literally" (XSome (XText "literal")) "ly");
  (40, Success s_May1 "literallitera" (XSome (XText "literal")) "litera");
  (41, Success s_May1 "literalliterallitera" (XSome (XText "literal")) "literallitera");
  (42, Success s_May1 " literalliterallitera" XNone " literalliterallitera");
  (43, Success s_May1 "" XNone "")] = none_broken.
Proof. vm_compute. reflexivity. Qed.
(** :61 Parse maybe_parser<any_of_parser> *)
Example t_maybe_parser_61 : broken [
  (63, Success s_May2 "abcdef" (XSome (XText "a")) "bcdef");
  (64, Success s_May2 "fedcba" XNone "fedcba");
  (65, Success s_May2 "cbabcccbjklmnop" (XSome (XText "c")) "babcccbjklmnop");
  (66, Success s_May2 "" XNone "")] = none_broken.
Proof. vm_compute. reflexivity. Qed.
(** :78 Parse maybe_parser<choice_parser> *)
Example t_maybe_parser_78 : broken [
  (80, Success s_May3 "abliteralcbliteralcf" (XSome (XText "a")) "bliteralcbliteralcf");
  (81, Success s_May3 "abliteralcblitralcf" (XSome (XText "a")) "bliteralcblitralcf");
  (82, Success s_May3 "literalabacliteral" (XSome (XText "literal")) "abacliteral");
  (83, Success s_May3 "" XNone "")] = none_broken.
Proof. vm_compute. reflexivity. Qed.
(** :95 Parse maybe_parser<sequence_parser> *)
Example t_maybe_parser_95 : broken [
  (97, Success s_May4 "literalaliteralcliteralcliteralb" (XSome (XList [(XText "literal"); (XText "a")])) "literalcliteralcliteralb");
  (98, Success s_May4 "literalaliteralcliteralcliteralbliteral" (XSome (XList [(XText "literal"); (XText "a")])) "literalcliteralcliteralbliteral");
  (99, Success s_May4 "aliteralaliteralcliteralbliteral" XNone "aliteralaliteralcliteralbliteral");
  (100, Success s_May4 "" XNone "")] = none_broken.
Proof. vm_compute. reflexivity. Qed.
(** :113 Parse maybe_parser<void-parser> *)
Example t_maybe_parser_113 : broken [
  (117, SuccessVoid (PMaybe (PIgnore s_ABC)) "abcabcabca" "abcabca");
  (118, SuccessVoid (PMaybe (PIgnore s_ABC)) "abcabca" "abca");
  (119, SuccessVoid (PMaybe (PIgnore s_ABC)) "abcabc" "abc");
  (120, SuccessVoid (PMaybe (PIgnore s_ABC)) " abcabc" " abcabc");
  (121, SuccessVoid (PMaybe (PIgnore s_ABC)) "abcab" "ab");
  (122, SuccessVoid (PMaybe (PIgnore s_ABC)) "abc" "");
  (123, SuccessVoid (PMaybe (PIgnore s_ABC)) "" "")] = none_broken.
Proof. vm_compute. reflexivity. Qed.

(** ** parsers/named_parser.cpp *)
(** :12 Requirements *)
Example t_named_parser_12 : broken [
  (19, IsParser s_Nam1 named_family TSpan);
  (20, IsParser s_Nam2 named_family (TVec TSpan));
  (21, IsParser s_Nam3 named_family (TOpt TSpan));
  (22, IsParser s_Nam4 named_family (TTup [TSpan; (TVec TSpan)]))] = none_broken.
Proof. vm_compute. reflexivity. Qed.
(** :35 named_parser<all_of_parser> *)
Example t_named_parser_35 : broken [
  (37, Success s_Nam1 "abc" (XText "abc") "");
  (38, Success s_Nam1 "abcd" (XText "abc") "d");
  (39, Failure s_Nam1 " abc")] = none_broken.
Proof. vm_compute. reflexivity. Qed.
(** :50 named_parser<one_or_more_parser> *)
Example t_named_parser_50 : broken [
  (54, Success s_Nam2 "abcabcab" (XList [(XText "abc"); (XText "abc")]) "ab");
  (55, Success s_Nam2 "abcd" (XList [(XText "abc")]) "d");
  (56, Success s_Nam2 "abc abc" (XList [(XText "abc")]) " abc");
  (57, Failure s_Nam2 "ab abc");
  (58, Failure s_Nam2 " ab abc")] = none_broken.
Proof. vm_compute. reflexivity. Qed.
(** :80 named_parser<maybe_parser> *)
Example t_named_parser_80 : broken [
  (82, Success s_Nam3 "abcabcab" (XText "abc") "abcab");
  (83, Success s_Nam3 "abcd" (XText "abc") "d");
  (84, Success s_Nam3 "abc abc" (XText "abc") " abc");
  (85, Success s_Nam3 "ab abc" XNone "ab abc");
  (86, Success s_Nam3 " ab abc" XNone " ab abc");
  (87, Success s_Nam3 "?? ab abc" (XText "??") " ab abc");
  (88, Success s_Nam3 "??? ab abc" (XText "??") "? ab abc")] = none_broken.
Proof. vm_compute. reflexivity. Qed.
(** :107 named_parser<sequence_parser> *)
Example t_named_parser_107 : broken [
  (111, Success s_Nam4 "abcabcab" (XList [(XText "abc"); (XList [])]) "abcab");
  (112, Success s_Nam4 "abc?d" (XList [(XText "abc"); (XList [])]) "?d");
  (113, Success s_Nam4 "abc???? abc" (XList [(XText "abc"); (XList [(XText "??"); (XText "??")])]) " abc");
  (114, Failure s_Nam4 "ab???? abc");
  (115, Success s_Nam4 "abc?? ?? abc" (XList [(XText "abc"); (XList [(XText "??")])]) " ?? abc")] = none_broken.
Proof. vm_compute. reflexivity. Qed.

(** ** parsers/none_of_parser.cpp *)
(** :15 Requirements *)
Example t_none_of_parser_15 : broken [
  (20, IsParser (PNoneOf (codes "a")) none_of_family TSpan);
  (21, IsParser (PNoneOf (codes "abc")) none_of_family TSpan)] = none_broken.
Proof. vm_compute. reflexivity. Qed.
(** :30 Parse single *)
Example t_none_of_parser_30 : broken [
  (32, Failure (PNoneOf (codes "a")) "ab");
  (33, Success (PNoneOf (codes "a")) "ba" (XText "b") "a");
  (34, Failure (PNoneOf (codes "a")) "abc");
  (35, Success (PNoneOf (codes "a")) "Ab" (XText "A") "b");
  (36, Success (PNoneOf (codes "a")) "Abc" (XText "A") "bc");
  (37, Success (PNoneOf (codes "a")) " abc" (XText " ") "abc")] = none_broken.
Proof. vm_compute. reflexivity. Qed.
(** :54 Parse multi *)
Example t_none_of_parser_54 : broken [
  (56, Failure (PNoneOf (codes "abc")) "abc");
  (57, Failure (PNoneOf (codes "abc")) "acb");
  (58, Failure (PNoneOf (codes "abc")) "bac");
  (59, Failure (PNoneOf (codes "abc")) "bca");
  (60, Failure (PNoneOf (codes "abc")) "cab");
  (61, Failure (PNoneOf (codes "abc")) "cba");
  (62, Success (PNoneOf (codes "abc")) "ABC" (XText "A") "BC");
  (63, Success (PNoneOf (codes "abc")) "ACB" (XText "A") "CB");
  (64, Success (PNoneOf (codes "abc")) "BAC" (XText "B") "AC");
  (65, Success (PNoneOf (codes "abc")) "BCA" (XText "B") "CA");
  (66, Success (PNoneOf (codes "abc")) "CAB" (XText "C") "AB");
  (67, Success (PNoneOf (codes "abc")) "CBA" (XText "C") "BA");
  (68, Success (PNoneOf (codes "abc")) "dcba" (XText "d") "cba");
  (69, Success (PNoneOf (codes "abc")) "edcba" (XText "e") "dcba");
  (70, Success (PNoneOf (codes "abc")) " cba" (XText " ") "cba")] = none_broken.
Proof. vm_compute. reflexivity. Qed.
(** :107 Constructible from lexicographically sorted only *)
Example t_none_of_parser_107 : broken [
  (109, Constructible (PNoneOf (codes "abc")));
  (110, NotConstructible (PNoneOf (codes "acb")));
  (111, NotConstructible (PNoneOf (codes "bac")));
  (112, NotConstructible (PNoneOf (codes "bca")));
  (113, NotConstructible (PNoneOf (codes "cab")));
  (114, NotConstructible (PNoneOf (codes "cba")))] = none_broken.
Proof. vm_compute. reflexivity. Qed.
(** :117 Parse empty *)
Example t_none_of_parser_117 : broken [
  (119, Constructible (PNoneOf (codes "")));
  (121, Success (PNoneOf (codes "")) "anything" (XText "a") "nything");
  (122, Failure (PNoneOf (codes "")) "")] = none_broken.
Proof. vm_compute. reflexivity. Qed.

(** ** parsers/one_or_more_parser.cpp *)
(** :12 Requirements *)
Example t_one_or_more_parser_12 : broken [
  (19, IsParser s_Oom1 one_or_more_family (TVec TSpan));
  (20, IsParser s_Oom2 one_or_more_family (TVec TSpan));
  (21, IsParser s_Oom3 one_or_more_family (TVec TSpan));
  (22, IsParser s_Oom4 one_or_more_family (TVec (TTup [TSpan; TSpan])))] = none_broken.
Proof. vm_compute. reflexivity. Qed.
(** :35 Parse one_or_more_parser<all_of_parser> *)
Example t_one_or_more_parser_35 : broken [
  (39, Failure s_Oom1 "litera");
  (40, Success s_Oom1 "literal" (XList [(XText "literal")]) "");
  (41, Success s_Oom1 "literally" (XList [(XText "literal")]) "ly");
  (42, Success s_Oom1 "literallitera" (XList [(XText "literal")]) "litera");
  (43, Success s_Oom1 "literalliterallitera" (XList [(XText "literal"); (XText "literal")]) "litera");
  (44, Failure s_Oom1 " literalliterallitera");
  (45, Failure s_Oom1 "")] = none_broken.
Proof. vm_compute. reflexivity. Qed.
(** :70 Parse one_or_more_parser<any_of_parser> *)
Example t_one_or_more_parser_70 : broken [
  (74, Success s_Oom2 "abcdef" (XList [(XText "a"); (XText "b"); (XText "c")]) "def");
  (75, Failure s_Oom2 "fedcba");
  (76, Success s_Oom2 "cbabcccbjklmnop" (XList [(XText "c"); (XText "b"); (XText "a"); (XText "b"); (XText "c"); (XText "c"); (XText "c"); (XText "b")]) "jklmnop");
  (77, Failure s_Oom2 "")] = none_broken.
Proof. vm_compute. reflexivity. Qed.
(** :96 Parse one_or_more_parser<choice_parser> *)
Example t_one_or_more_parser_96 : broken [
  (101, Success s_Oom3 "abliteralcblitralcf" (XList [(XText "a"); (XText "b"); (XText "literal"); (XText "c"); (XText "b")]) "litralcf");
  (103, Failure s_Oom3 "")] = none_broken.
Proof. vm_compute. reflexivity. Qed.
(** :122 Parse one_or_more_parser<sequence_parser> *)
Example t_one_or_more_parser_122 : broken [
  (126, Success s_Oom4 "literalaliteralcliteralcliteralb" (XList [(XList [(XText "literal"); (XText "a")]); (XList [(XText "literal"); (XText "c")]); (XList [(XText "literal"); (XText "c")]); (XList [(XText "literal"); (XText "b")])]) "");
  (127, Success s_Oom4 "literalaliteralcliteralcliteralbliteral" (XList [(XList [(XText "literal"); (XText "a")]); (XList [(XText "literal"); (XText "c")]); (XList [(XText "literal"); (XText "c")]); (XList [(XText "literal"); (XText "b")])]) "literal");
  (128, Failure s_Oom4 "aliteralaliteralcliteralbliteral");
  (129, Failure s_Oom4 "")] = none_broken.
Proof. vm_compute. reflexivity. Qed.
(** :149 Parse one_or_more_parser<void-parser> *)
Example t_one_or_more_parser_149 : broken [
  (153, SuccessVoid (POneOrMore (PIgnore s_ABC)) "abcabcabca" "a");
  (154, SuccessVoid (POneOrMore (PIgnore s_ABC)) "abcabca" "a");
  (155, SuccessVoid (POneOrMore (PIgnore s_ABC)) "abcabc" "");
  (156, Failure (POneOrMore (PIgnore s_ABC)) " abcabc");
  (157, SuccessVoid (POneOrMore (PIgnore s_ABC)) "abcab" "ab");
  (158, SuccessVoid (POneOrMore (PIgnore s_ABC)) "abc" "");
  (159, Failure (POneOrMore (PIgnore s_ABC)) "")] = none_broken.
Proof. vm_compute. reflexivity. Qed.

(** ** parsers/sequence_parser.cpp *)
(** :15 Requirements *)
Example t_sequence_parser_15 : broken [
  (21, IsParser s_Seq1 sequence_family (TTup [TSpan; TSpan]));
  (22, IsParser s_Seq3 sequence_family (TTup [TSpan; TSpan; TSpan]));
  (23, IsParser s_Seq5 sequence_family TVoid)] = none_broken.
Proof. vm_compute. reflexivity. Qed.
(** :34 Parse two-way sequence_parser *)
Example t_sequence_parser_34 : broken [
  (36, Failure s_Seq1 "abc");
  (37, Failure s_Seq1 "abcd");
  (38, Success s_Seq1 "abef" (XList [(XText "ab"); (XText "e")]) "f");
  (39, Success s_Seq1 "ab ef" (XList [(XText "ab"); (XText " ")]) "ef")] = none_broken.
Proof. vm_compute. reflexivity. Qed.
(** :52 Parse three-way sequence_parser *)
Example t_sequence_parser_52 : broken [
  (54, Success s_Seq3 "abcde" (XList [(XText "ab"); (XText "c"); (XText "d")]) "e");
  (55, Success s_Seq3 "abdc" (XList [(XText "ab"); (XText "d"); (XText "c")]) "");
  (56, Failure s_Seq3 "abcz")] = none_broken.
Proof. vm_compute. reflexivity. Qed.
(** :67 Parse void result_type *)
Example t_sequence_parser_67 : broken [
  (69, Failure s_Seq5 "ab");
  (70, Failure s_Seq5 "abca");
  (71, SuccessVoid s_Seq5 "abcabcabcdabcd" "dabcd")] = none_broken.
Proof. vm_compute. reflexivity. Qed.
(** :91 sequence_parser<ignore_parser> *)
Example t_sequence_parser_91 : broken [
  (95, Success (PSequence s_ABC [(PIgnore s_QQ); s_ABC]) "abc??abc??" (XList [(XText "abc"); (XText "abc")]) "??");
  (96, Failure (PSequence s_ABC [(PIgnore s_QQ); s_ABC]) "abcabc??")] = none_broken.
Proof. vm_compute. reflexivity. Qed.

(** ** parsers/zero_or_more_parser.cpp *)
(** :12 Requirements *)
Example t_zero_or_more_parser_12 : broken [
  (19, IsParser s_Zom1 zero_or_more_family (TVec TSpan));
  (20, IsParser s_Zom2 zero_or_more_family (TVec TSpan));
  (21, IsParser s_Zom3 zero_or_more_family (TVec TSpan));
  (22, IsParser s_Zom4 zero_or_more_family (TVec (TTup [TSpan; TSpan])))] = none_broken.
Proof. vm_compute. reflexivity. Qed.
(** :35 Parse zero_or_more_parser<all_of_parser> *)
Example t_zero_or_more_parser_35 : broken [
  (39, Success s_Zom1 "litera" (XList []) "litera");
  (40, Success s_Zom1 "literal" (XList [(XText "literal")]) "");
  (41, Success s_Zom1 "literally" (XList [(XText "literal")]) "ly");
  (42, Success s_Zom1 "literallitera" (XList [(XText "literal")]) "litera");
  (43, Success s_Zom1 "literalliterallitera" (XList [(XText "literal"); (XText "literal")]) "litera");
  (44, Success s_Zom1 " literalliterallitera" (XList []) " literalliterallitera");
  (45, Success s_Zom1 "" (XList []) "")] = none_broken.
Proof. vm_compute. reflexivity. Qed.
(** :70 Parse zero_or_more_parser<any_of_parser> *)
Example t_zero_or_more_parser_70 : broken [
  (74, Success s_Zom2 "abcdef" (XList [(XText "a"); (XText "b"); (XText "c")]) "def");
  (75, Success s_Zom2 "fedcba" (XList []) "fedcba");
  (76, Success s_Zom2 "cbabcccbjklmnop" (XList [(XText "c"); (XText "b"); (XText "a"); (XText "b"); (XText "c"); (XText "c"); (XText "c"); (XText "b")]) "jklmnop");
  (77, Success s_Zom2 "" (XList []) "")] = none_broken.
Proof. vm_compute. reflexivity. Qed.
(** :96 Parse zero_or_more_parser<choice_parser> *)
Example t_zero_or_more_parser_96 : broken [
  (101, Success s_Zom3 "abliteralcblitralcf" (XList [(XText "a"); (XText "b"); (XText "literal"); (XText "c"); (XText "b")]) "litralcf");
  (103, Success s_Zom3 "" (XList []) "")] = none_broken.
Proof. vm_compute. reflexivity. Qed.
(** :122 Parse zero_or_more_parser<sequence_parser> *)
Example t_zero_or_more_parser_122 : broken [
  (126, Success s_Zom4 "literalaliteralcliteralcliteralb" (XList [(XList [(XText "literal"); (XText "a")]); (XList [(XText "literal"); (XText "c")]); (XList [(XText "literal"); (XText "c")]); (XList [(XText "literal"); (XText "b")])]) "");
  (127, Success s_Zom4 "literalaliteralcliteralcliteralbliteral" (XList [(XList [(XText "literal"); (XText "a")]); (XList [(XText "literal"); (XText "c")]); (XList [(XText "literal"); (XText "c")]); (XList [(XText "literal"); (XText "b")])]) "literal");
  (128, Success s_Zom4 "aliteralaliteralcliteralbliteral" (XList []) "aliteralaliteralcliteralbliteral");
  (129, Success s_Zom4 "" (XList []) "")] = none_broken.
Proof. vm_compute. reflexivity. Qed.
(** :149 Parse zero_or_more_parser<void-parser> *)
Example t_zero_or_more_parser_149 : broken [
  (153, SuccessVoid (PZeroOrMore (PIgnore s_ABC)) "abcabcabca" "a");
  (154, SuccessVoid (PZeroOrMore (PIgnore s_ABC)) "abcabca" "a");
  (155, SuccessVoid (PZeroOrMore (PIgnore s_ABC)) "abcabc" "");
  (156, SuccessVoid (PZeroOrMore (PIgnore s_ABC)) " abcabc" " abcabc");
  (157, SuccessVoid (PZeroOrMore (PIgnore s_ABC)) "abcab" "ab");
  (158, SuccessVoid (PZeroOrMore (PIgnore s_ABC)) "abc" "");
  (159, SuccessVoid (PZeroOrMore (PIgnore s_ABC)) "" "")] = none_broken.
Proof. vm_compute. reflexivity. Qed.

(** ** aliases/apply_filter.cpp *)
(** :12 Requirements *)
Example t_apply_filter_a_12 : broken [
  (16, IsParser s_Apf1 filter_family (TTup [TSpan; (TVec TSpan)]))] = none_broken.
Proof. vm_compute. reflexivity. Qed.
(** :23 Parse all *)
Example t_apply_filter_a_23 : broken [
  (28, Success s_Apf1 "abcabc" (XList [(XText "abc"); (XList [])]) "abc");
  (29, Success s_Apf1 "abc" (XList [(XText "abc"); (XList [])]) "");
  (30, Success s_Apf1 "abc?" (XList [(XText "abc"); (XList [])]) "?");
  (31, LookaheadOnly s_Apf1 "abc??" "");
  (32, LookaheadOnly s_Apf1 "abc???" "?");
  (33, Success s_Apf1 "abc????" (XList [(XText "abc"); (XList [(XText "??"); (XText "??")])]) "");
  (34, Success s_Apf1 "abc?????" (XList [(XText "abc"); (XList [(XText "??"); (XText "??")])]) "?");
  (35, LookaheadOnly s_Apf1 "abc??????" "");
  (36, LookaheadOnly s_Apf1 "abc???????" "?");
  (37, Success s_Apf1 "abc????????" (XList [(XText "abc"); (XList [(XText "??"); (XText "??"); (XText "??"); (XText "??")])]) "");
  (38, Success s_Apf1 "abc?????????" (XList [(XText "abc"); (XList [(XText "??"); (XText "??"); (XText "??"); (XText "??")])]) "?");
  (39, Failure s_Apf1 "??abc???????");
  (40, Failure s_Apf1 "")] = none_broken.
Proof. vm_compute. reflexivity. Qed.

(** ** aliases/apply_into.cpp *)
(** :12 Requirements *)
Example t_apply_into_a_12 : broken [
  (17, IsParser s_Api1 map_family t_Class2);
  (18, IsParser s_Api2 map_family t_Class5)] = none_broken.
Proof. vm_compute. reflexivity. Qed.
(** :27 Parse all *)
Example t_apply_into_a_27 : broken [
  (29, Success s_Api1 "abc." (XObj 12 [(XText "abc"); (XText ".")]) "");
  (30, Success s_Api1 "abc . " (XObj 12 [(XText "abc"); (XText " ")]) ". ");
  (31, Failure s_Api1 "");
  (32, Failure s_Api1 "abc");
  (34, Success s_Api2 ".abc" (XObj 15 [(XText "."); (XText "abc")]) "");
  (35, Success s_Api2 " abc. " (XObj 15 [(XText " "); (XText "abc")]) ". ");
  (36, Failure s_Api2 ".");
  (37, Failure s_Api2 "abc")] = none_broken.
Proof. vm_compute. reflexivity. Qed.
(** :60 Move only *)
Example t_apply_into_a_60 : broken [
  (66, Success (PMap (PSequence s_Any3 [s_ABC]) (FApply (FConstruct (t_MoveOnly (TTup [TSpan; TSpan]))))) "xabcd" (XObj 21 [(XList [(XText "x"); (XText "abc")])]) "d");
  (67, Failure (PMap (PSequence s_Any3 [s_ABC]) (FApply (FConstruct (t_MoveOnly (TTup [TSpan; TSpan]))))) "ydcba");
  (68, Success (PMap (PSequence s_Any3 [s_ABC]) (FApply (FConstruct (t_MoveOnly (TTup [TSpan; TSpan]))))) "zabcabcd" (XObj 21 [(XList [(XText "z"); (XText "abc")])]) "abcd")] = none_broken.
Proof. vm_compute. reflexivity. Qed.
(** :90 Copy only *)
Example t_apply_into_a_90 : broken [
  (96, Success (PMap (PSequence s_Any3 [s_ABC]) (FApply (FConstruct (t_CopyOnly (TTup [TSpan; TSpan]))))) "xabcd" (XObj 23 [(XList [(XText "x"); (XText "abc")])]) "d");
  (97, Failure (PMap (PSequence s_Any3 [s_ABC]) (FApply (FConstruct (t_CopyOnly (TTup [TSpan; TSpan]))))) "ydcba");
  (98, Success (PMap (PSequence s_Any3 [s_ABC]) (FApply (FConstruct (t_CopyOnly (TTup [TSpan; TSpan]))))) "zabcabcd" (XObj 23 [(XList [(XText "z"); (XText "abc")])]) "abcd")] = none_broken.
Proof. vm_compute. reflexivity. Qed.

(** ** aliases/apply_map.cpp *)
(** :12 Requirements *)
Example t_apply_map_a_12 : broken [
  (17, IsParser s_Apm1 map_family t_bool);
  (18, IsParser s_Apm2 map_family t_size)] = none_broken.
Proof. vm_compute. reflexivity. Qed.
(** :27 Parse all *)
Example t_apply_map_a_27 : broken [
  (29, Success s_Apm1 "abc???????" (XNum 0) "?");
  (30, Failure s_Apm1 "??abc???????");
  (31, Success s_Apm1 "abc??abc???????" (XNum 0) "abc???????");
  (32, Success s_Apm1 "abc ??abc???????" (XNum 1) " ??abc???????");
  (33, Failure s_Apm1 "");
  (35, Success s_Apm2 "abcabcabcabc??" (XNum 36) "");
  (36, Success s_Apm2 "abcabcabcabc" (XNum 12) "");
  (37, Success s_Apm2 "abcabcabcabc ??" (XNum 12) " ??");
  (38, Success s_Apm2 "abc" (XNum 3) "");
  (39, Failure s_Apm2 " abc");
  (40, Failure s_Apm2 "")] = none_broken.
Proof. vm_compute. reflexivity. Qed.
(** :69 Move only *)
Example t_apply_map_a_69 : broken [
  (75, Success (PMap (PSequence s_Any3 [s_ABC]) (FApply (FUser 41))) "xabcd" (XObj 21 [(XList [(XText "x"); (XText "abc")])]) "d");
  (76, Failure (PMap (PSequence s_Any3 [s_ABC]) (FApply (FUser 41))) "ydcba");
  (77, Success (PMap (PSequence s_Any3 [s_ABC]) (FApply (FUser 41))) "zabcabcd" (XObj 21 [(XList [(XText "z"); (XText "abc")])]) "abcd")] = none_broken.
Proof. vm_compute. reflexivity. Qed.
(** :99 Copy only *)
Example t_apply_map_a_99 : broken [
  (105, Success (PMap (PSequence s_Any3 [s_ABC]) (FApply (FUser 43))) "xabcd" (XObj 23 [(XList [(XText "x"); (XText "abc")])]) "d");
  (106, Failure (PMap (PSequence s_Any3 [s_ABC]) (FApply (FUser 43))) "ydcba");
  (107, Success (PMap (PSequence s_Any3 [s_ABC]) (FApply (FUser 43))) "zabcabcd" (XObj 23 [(XList [(XText "z"); (XText "abc")])]) "abcd")] = none_broken.
Proof. vm_compute. reflexivity. Qed.

(** ** aliases/constant.cpp *)
(** :12 Requirements *)
Example t_constant_a_12 : broken [
  (19, IsParser s_Con1 map_family t_int);
  (20, IsParser s_Con2 map_family t_char);
  (21, IsParser s_Con3 map_family t_bool);
  (22, IsParser s_Con4 map_family t_nullptr)] = none_broken.
Proof. vm_compute. reflexivity. Qed.
(** :35 Parse all *)
Example t_constant_a_35 : broken [
  (37, Success s_Con1 "abcabcabcab" (XNum 1) "ab");
  (38, Failure s_Con1 "");
  (39, Failure s_Con1 "ab");
  (40, Success s_Con1 "abc" (XNum 1) "");
  (42, Success s_Con2 "abcabc" (XNum 116) "abc");
  (43, Success s_Con2 "a??bcabc" (XNum 116) "a??bcabc");
  (44, Success s_Con2 "" (XNum 116) "");
  (45, Success s_Con2 "??abcabc" (XNum 116) "abcabc");
  (46, Success s_Con2 " ??abcabc" (XNum 116) " ??abcabc");
  (48, Success s_Con3 "abc???????" (XNum 1) "?");
  (49, Failure s_Con3 "??abc???????");
  (50, Success s_Con3 "abc??abc???????" (XNum 1) "abc???????");
  (51, Success s_Con3 "abc ??abc???????" (XNum 1) " ??abc???????");
  (52, Failure s_Con3 "");
  (54, Success s_Con4 "abcabcabcabc??" (XNum 0) "");
  (55, Success s_Con4 "abcabcabcabc" (XNum 0) "");
  (56, Success s_Con4 "abcabcabcabc ??" (XNum 0) " ??");
  (57, Success s_Con4 "abc" (XNum 0) "");
  (58, Failure s_Con4 " abc");
  (59, Failure s_Con4 "")] = none_broken.
Proof. vm_compute. reflexivity. Qed.

(** ** aliases/defaulted.cpp *)
(** :12 Requirements *)
Example t_defaulted_a_12 : broken [
  (17, IsParser s_Def1 map_family t_int);
  (18, IsParser s_Def2 map_family t_Class3)] = none_broken.
Proof. vm_compute. reflexivity. Qed.
(** :27 Parse all *)
Example t_defaulted_a_27 : broken [
  (29, Success s_Def1 "abcabcabcab" (XNum 0) "ab");
  (30, Failure s_Def1 "");
  (31, Failure s_Def1 "ab");
  (32, Success s_Def1 "abc" (XNum 0) "");
  (34, Success s_Def2 "abcabc" (XObj 13 []) "abc");
  (35, Success s_Def2 "a??bcabc" (XObj 13 []) "a??bcabc");
  (36, Success s_Def2 "" (XObj 13 []) "");
  (37, Success s_Def2 "??abcabc" (XObj 13 []) "abcabc");
  (38, Success s_Def2 " ??abcabc" (XObj 13 []) " ??abcabc")] = none_broken.
Proof. vm_compute. reflexivity. Qed.

(** ** aliases/into.cpp *)
(** :12 Requirements *)
Example t_into_a_12 : broken [
  (18, IsParser s_Int1 map_family t_Class1);
  (19, IsParser s_Int2 map_family t_Class2);
  (20, IsParser s_Int3 map_family t_Class2)] = none_broken.
Proof. vm_compute. reflexivity. Qed.
(** :31 Parse all *)
Example t_into_a_31 : broken [
  (33, Success s_Int1 " " (XObj 11 [(XNum 0)]) "");
  (34, Failure s_Int1 "a");
  (35, Success s_Int1 "." (XObj 11 [(XNum 1)]) "");
  (36, Failure s_Int1 "");
  (38, Success s_Int2 "abc." (XObj 12 [(XText "abc"); (XText ".")]) "");
  (39, Success s_Int2 "abc . " (XObj 12 [(XText "abc"); (XText " ")]) ". ");
  (40, Failure s_Int2 "");
  (41, Failure s_Int2 "abc");
  (43, Success s_Int3 "abc." (XObj 12 [(XText "abc"); (XText ".")]) "");
  (44, Success s_Int3 "abc . " (XObj 12 [(XText "abc"); (XText " ")]) ". ");
  (45, Failure s_Int3 "");
  (46, Failure s_Int3 "abc")] = none_broken.
Proof. vm_compute. reflexivity. Qed.
(** :79 Move only *)
Example t_into_a_79 : broken [
  (84, Success (PMap s_ABC (FConstruct (t_MoveOnly TSpan))) "abcd" (XObj 20 [(XText "abc")]) "d");
  (85, Failure (PMap s_ABC (FConstruct (t_MoveOnly TSpan))) "dcba");
  (86, Success (PMap s_ABC (FConstruct (t_MoveOnly TSpan))) "abcabcd" (XObj 20 [(XText "abc")]) "abcd")] = none_broken.
Proof. vm_compute. reflexivity. Qed.
(** :106 Copy only *)
Example t_into_a_106 : broken [
  (111, Success (PMap s_ABC (FConstruct (t_CopyOnly TSpan))) "abcd" (XObj 22 [(XText "abc")]) "d");
  (112, Failure (PMap s_ABC (FConstruct (t_CopyOnly TSpan))) "dcba");
  (113, Success (PMap s_ABC (FConstruct (t_CopyOnly TSpan))) "abcabcd" (XObj 22 [(XText "abc")]) "abcd")] = none_broken.
Proof. vm_compute. reflexivity. Qed.

(** ** optimizations/join_exactly_basic_optimization.cpp *)
(** :16 Requirements *)
Example t_join_exactly_basic_optimization_o_16 : broken [
  (22, IsParser (PJoin (PExactly (PAnyOf (codes "123")) 2)) join_family TSpan);
  (23, IsParser (PJoin (PExactly (PNoneOf (codes "123")) 2)) join_family TSpan);
  (24, IsParser (PJoin (PExactly (PAllOf (codes "123")) 2)) join_family TSpan)] = none_broken.
Proof. vm_compute. reflexivity. Qed.
(** :35 exactly_parser<any_of_parser, 2> *)
Example t_join_exactly_basic_optimization_o_35 : broken [
  (37, Success (PJoin (PExactly (PAnyOf (codes "123")) 2)) "12321321" (XText "12") "321321");
  (38, Success (PJoin (PExactly (PAnyOf (codes "123")) 2)) "1232 1321" (XText "12") "32 1321");
  (39, Failure (PJoin (PExactly (PAnyOf (codes "123")) 2)) " 12321321");
  (40, Success (PJoin (PExactly (PAnyOf (codes "123")) 2)) "12341321" (XText "12") "341321");
  (41, Failure (PJoin (PExactly (PAnyOf (codes "123")) 2)) "012341321");
  (42, Failure (PJoin (PExactly (PAnyOf (codes "123")) 2)) "0012341321");
  (43, Failure (PJoin (PExactly (PAnyOf (codes "123")) 2)) "1012341321")] = none_broken.
Proof. vm_compute. reflexivity. Qed.
(** :62 exactly_parser<none_of_parser, 2> *)
Example t_join_exactly_basic_optimization_o_62 : broken [
  (64, Failure (PJoin (PExactly (PNoneOf (codes "123")) 2)) "12321321");
  (65, Failure (PJoin (PExactly (PNoneOf (codes "123")) 2)) "1232 1321");
  (66, Failure (PJoin (PExactly (PNoneOf (codes "123")) 2)) " 12321321");
  (67, Failure (PJoin (PExactly (PNoneOf (codes "123")) 2)) "12341321");
  (68, Failure (PJoin (PExactly (PNoneOf (codes "123")) 2)) "012341321");
  (69, Success (PJoin (PExactly (PNoneOf (codes "123")) 2)) "0012341321" (XText "00") "12341321");
  (70, Failure (PJoin (PExactly (PNoneOf (codes "123")) 2)) "1012341321")] = none_broken.
Proof. vm_compute. reflexivity. Qed.
(** :89 exactly_parser<all_of_parser, 2> *)
Example t_join_exactly_basic_optimization_o_89 : broken [
  (91, Failure (PJoin (PExactly (PAllOf (codes "123")) 2)) "12321321");
  (92, Success (PJoin (PExactly (PAllOf (codes "123")) 2)) "12312321321" (XText "123123") "21321");
  (93, Failure (PJoin (PExactly (PAllOf (codes "123")) 2)) "1232 1321");
  (94, Failure (PJoin (PExactly (PAllOf (codes "123")) 2)) " 12321321");
  (95, Failure (PJoin (PExactly (PAllOf (codes "123")) 2)) "12341321");
  (96, Failure (PJoin (PExactly (PAllOf (codes "123")) 2)) "012341321")] = none_broken.
Proof. vm_compute. reflexivity. Qed.

(** ** optimizations/join_maybe_basic_optimization.cpp *)
(** :16 Requirements *)
Example t_join_maybe_basic_optimization_o_16 : broken [
  (22, IsParser (PJoin (PMaybe (PAnyOf (codes "123")))) join_family TSpan);
  (23, IsParser (PJoin (PMaybe (PNoneOf (codes "123")))) join_family TSpan);
  (24, IsParser (PJoin (PMaybe (PAllOf (codes "123")))) join_family TSpan)] = none_broken.
Proof. vm_compute. reflexivity. Qed.
(** :35 maybe_parser<any_of_parser> *)
Example t_join_maybe_basic_optimization_o_35 : broken [
  (37, Success (PJoin (PMaybe (PAnyOf (codes "123")))) "12321321" (XText "1") "2321321");
  (38, Success (PJoin (PMaybe (PAnyOf (codes "123")))) "1232 1321" (XText "1") "232 1321");
  (39, Success (PJoin (PMaybe (PAnyOf (codes "123")))) " 12321321" (XText "") " 12321321");
  (40, Success (PJoin (PMaybe (PAnyOf (codes "123")))) "12341321" (XText "1") "2341321");
  (41, Success (PJoin (PMaybe (PAnyOf (codes "123")))) "012341321" (XText "") "012341321")] = none_broken.
Proof. vm_compute. reflexivity. Qed.
(** :56 maybe_parser<none_of_parser> *)
Example t_join_maybe_basic_optimization_o_56 : broken [
  (58, Success (PJoin (PMaybe (PNoneOf (codes "123")))) "12321321" (XText "") "12321321");
  (59, Success (PJoin (PMaybe (PNoneOf (codes "123")))) "1232 1321" (XText "") "1232 1321");
  (60, Success (PJoin (PMaybe (PNoneOf (codes "123")))) " 12321321" (XText " ") "12321321");
  (61, Success (PJoin (PMaybe (PNoneOf (codes "123")))) "12341321" (XText "") "12341321");
  (62, Success (PJoin (PMaybe (PNoneOf (codes "123")))) "012341321" (XText "0") "12341321")] = none_broken.
Proof. vm_compute. reflexivity. Qed.
(** :77 maybe_parser<all_of_parser> *)
Example t_join_maybe_basic_optimization_o_77 : broken [
  (79, Success (PJoin (PMaybe (PAllOf (codes "123")))) "12321321" (XText "123") "21321");
  (80, Success (PJoin (PMaybe (PAllOf (codes "123")))) "12312321321" (XText "123") "12321321");
  (81, Success (PJoin (PMaybe (PAllOf (codes "123")))) "1232 1321" (XText "123") "2 1321");
  (82, Success (PJoin (PMaybe (PAllOf (codes "123")))) " 12321321" (XText "") " 12321321");
  (83, Success (PJoin (PMaybe (PAllOf (codes "123")))) "12341321" (XText "123") "41321");
  (84, Success (PJoin (PMaybe (PAllOf (codes "123")))) "012341321" (XText "") "012341321")] = none_broken.
Proof. vm_compute. reflexivity. Qed.

(** ** optimizations/join_one_or_more_basic_optimization.cpp *)
(** :16 Requirements *)
Example t_join_one_or_more_basic_optimization_o_16 : broken [
  (22, IsParser (PJoin (POneOrMore (PAnyOf (codes "123")))) join_family TSpan);
  (23, IsParser (PJoin (POneOrMore (PNoneOf (codes "123")))) join_family TSpan);
  (24, IsParser (PJoin (POneOrMore (PAllOf (codes "123")))) join_family TSpan)] = none_broken.
Proof. vm_compute. reflexivity. Qed.
(** :35 one_or_more_parser<any_of_parser> *)
Example t_join_one_or_more_basic_optimization_o_35 : broken [
  (37, Success (PJoin (POneOrMore (PAnyOf (codes "123")))) "12321321" (XText "12321321") "");
  (38, Success (PJoin (POneOrMore (PAnyOf (codes "123")))) "1232 1321" (XText "1232") " 1321");
  (39, Failure (PJoin (POneOrMore (PAnyOf (codes "123")))) " 12321321");
  (40, Success (PJoin (POneOrMore (PAnyOf (codes "123")))) "12341321" (XText "123") "41321");
  (41, Failure (PJoin (POneOrMore (PAnyOf (codes "123")))) "012341321")] = none_broken.
Proof. vm_compute. reflexivity. Qed.
(** :56 one_or_more_parser<none_of_parser> *)
Example t_join_one_or_more_basic_optimization_o_56 : broken [
  (58, Failure (PJoin (POneOrMore (PNoneOf (codes "123")))) "12321321");
  (59, Failure (PJoin (POneOrMore (PNoneOf (codes "123")))) "1232 1321");
  (60, Success (PJoin (POneOrMore (PNoneOf (codes "123")))) " 12321321" (XText " ") "12321321");
  (61, Failure (PJoin (POneOrMore (PNoneOf (codes "123")))) "12341321");
  (62, Success (PJoin (POneOrMore (PNoneOf (codes "123")))) "012341321" (XText "0") "12341321")] = none_broken.
Proof. vm_compute. reflexivity. Qed.
(** :77 one_or_more_parser<all_of_parser> *)
Example t_join_one_or_more_basic_optimization_o_77 : broken [
  (79, Success (PJoin (POneOrMore (PAllOf (codes "123")))) "12321321" (XText "123") "21321");
  (80, Success (PJoin (POneOrMore (PAllOf (codes "123")))) "12312321321" (XText "123123") "21321");
  (81, Success (PJoin (POneOrMore (PAllOf (codes "123")))) "1232 1321" (XText "123") "2 1321");
  (82, Failure (PJoin (POneOrMore (PAllOf (codes "123")))) " 12321321");
  (83, Success (PJoin (POneOrMore (PAllOf (codes "123")))) "12341321" (XText "123") "41321");
  (84, Failure (PJoin (POneOrMore (PAllOf (codes "123")))) "012341321")] = none_broken.
Proof. vm_compute. reflexivity. Qed.

(** ** optimizations/join_zero_or_more_basic_optimization.cpp *)
(** :16 Requirements *)
Example t_join_zero_or_more_basic_optimization_o_16 : broken [
  (22, IsParser (PJoin (PZeroOrMore (PAnyOf (codes "123")))) join_family TSpan);
  (23, IsParser (PJoin (PZeroOrMore (PNoneOf (codes "123")))) join_family TSpan);
  (24, IsParser (PJoin (PZeroOrMore (PAllOf (codes "123")))) join_family TSpan)] = none_broken.
Proof. vm_compute. reflexivity. Qed.
(** :35 zero_or_more_parser<any_of_parser> *)
Example t_join_zero_or_more_basic_optimization_o_35 : broken [
  (37, Success (PJoin (PZeroOrMore (PAnyOf (codes "123")))) "12321321" (XText "12321321") "");
  (38, Success (PJoin (PZeroOrMore (PAnyOf (codes "123")))) "1232 1321" (XText "1232") " 1321");
  (39, Success (PJoin (PZeroOrMore (PAnyOf (codes "123")))) " 12321321" (XText "") " 12321321");
  (40, Success (PJoin (PZeroOrMore (PAnyOf (codes "123")))) "12341321" (XText "123") "41321");
  (41, Success (PJoin (PZeroOrMore (PAnyOf (codes "123")))) "012341321" (XText "") "012341321")] = none_broken.
Proof. vm_compute. reflexivity. Qed.
(** :56 zero_or_more_parser<none_of_parser> *)
Example t_join_zero_or_more_basic_optimization_o_56 : broken [
  (58, Success (PJoin (PZeroOrMore (PNoneOf (codes "123")))) "12321321" (XText "") "12321321");
  (59, Success (PJoin (PZeroOrMore (PNoneOf (codes "123")))) "1232 1321" (XText "") "1232 1321");
  (60, Success (PJoin (PZeroOrMore (PNoneOf (codes "123")))) " 12321321" (XText " ") "12321321");
  (61, Success (PJoin (PZeroOrMore (PNoneOf (codes "123")))) "12341321" (XText "") "12341321");
  (62, Success (PJoin (PZeroOrMore (PNoneOf (codes "123")))) "012341321" (XText "0") "12341321")] = none_broken.
Proof. vm_compute. reflexivity. Qed.
(** :77 zero_or_more_parser<all_of_parser> *)
Example t_join_zero_or_more_basic_optimization_o_77 : broken [
  (79, Success (PJoin (PZeroOrMore (PAllOf (codes "123")))) "12321321" (XText "123") "21321");
  (80, Success (PJoin (PZeroOrMore (PAllOf (codes "123")))) "12312321321" (XText "123123") "21321");
  (81, Success (PJoin (PZeroOrMore (PAllOf (codes "123")))) "1232 1321" (XText "123") "2 1321");
  (82, Success (PJoin (PZeroOrMore (PAllOf (codes "123")))) " 12321321" (XText "") " 12321321");
  (83, Success (PJoin (PZeroOrMore (PAllOf (codes "123")))) "12341321" (XText "123") "41321");
  (84, Success (PJoin (PZeroOrMore (PAllOf (codes "123")))) "012341321" (XText "") "012341321")] = none_broken.
Proof. vm_compute. reflexivity. Qed.

(** ** operators/basic.cpp *)
(** :12 UDL _any *)
Example t_basic_o_12 : broken [
  (14, ValuesEq (e_any "abc") (opar s_Any1));
  (15, ValuesEq (e_any "bcd") (opar s_Any2));
  (16, ValuesEq (e_any "xyz") (opar s_Any3));
  (17, ValuesEq (e_any "cd") (opar s_Any4));
  (18, ValuesEq (e_any ",") (opar s_Comma));
  (19, ValuesEq (e_any " .") (opar s_SpaceDot));
  (20, ValuesEq (e_any "") (opar (PAnyOf (codes ""))))] = none_broken.
Proof. vm_compute. reflexivity. Qed.
(** :23 UDL _any_of *)
Example t_basic_o_23 : broken [
  (25, ValuesEq (e_any "abc") (opar s_Any1));
  (26, ValuesEq (e_any "bcd") (opar s_Any2));
  (27, ValuesEq (e_any "xyz") (opar s_Any3));
  (28, ValuesEq (e_any "cd") (opar s_Any4));
  (29, ValuesEq (e_any ",") (opar s_Comma));
  (30, ValuesEq (e_any " .") (opar s_SpaceDot));
  (31, ValuesEq (e_any "") (opar (PAnyOf (codes ""))))] = none_broken.
Proof. vm_compute. reflexivity. Qed.
(** :34 any<> *)
Example t_basic_o_34 : broken [
  (36, ValuesEq (e_any "abc") (opar s_Any1));
  (37, ValuesEq (e_any "bcd") (opar s_Any2));
  (38, ValuesEq (e_any "xyz") (opar s_Any3));
  (39, ValuesEq (e_any "cd") (opar s_Any4));
  (40, ValuesEq (e_any ",") (opar s_Comma));
  (41, ValuesEq (e_any " .") (opar s_SpaceDot));
  (42, ValuesEq (e_any "") (opar (PAnyOf (codes ""))))] = none_broken.
Proof. vm_compute. reflexivity. Qed.
(** :45 any_of<> *)
Example t_basic_o_45 : broken [
  (47, ValuesEq (e_any "abc") (opar s_Any1));
  (48, ValuesEq (e_any "bcd") (opar s_Any2));
  (49, ValuesEq (e_any "xyz") (opar s_Any3));
  (50, ValuesEq (e_any "cd") (opar s_Any4));
  (51, ValuesEq (e_any ",") (opar s_Comma));
  (52, ValuesEq (e_any " .") (opar s_SpaceDot))] = none_broken.
Proof. vm_compute. reflexivity. Qed.
(** :55 UDL _none *)
Example t_basic_o_55 : broken [
  (57, ValuesEq (e_none "abc") (opar s_Non1));
  (58, ValuesEq (e_none "bcd") (opar s_Non2));
  (59, ValuesEq (e_none "xyz") (opar s_Non3));
  (60, ValuesEq (e_none "cd") (opar s_Non4));
  (61, ValuesEq (e_none "z") (opar s_Non5));
  (62, ValuesEq (e_none "") (opar (PNoneOf (codes ""))))] = none_broken.
Proof. vm_compute. reflexivity. Qed.
(** :65 UDL _none_of *)
Example t_basic_o_65 : broken [
  (67, ValuesEq (e_none "abc") (opar s_Non1));
  (68, ValuesEq (e_none "bcd") (opar s_Non2));
  (69, ValuesEq (e_none "xyz") (opar s_Non3));
  (70, ValuesEq (e_none "cd") (opar s_Non4));
  (71, ValuesEq (e_none "z") (opar s_Non5));
  (72, ValuesEq (e_none "") (opar (PNoneOf (codes ""))))] = none_broken.
Proof. vm_compute. reflexivity. Qed.
(** :75 none<> *)
Example t_basic_o_75 : broken [
  (77, ValuesEq (e_none "abc") (opar s_Non1));
  (78, ValuesEq (e_none "bcd") (opar s_Non2));
  (79, ValuesEq (e_none "xyz") (opar s_Non3));
  (80, ValuesEq (e_none "cd") (opar s_Non4));
  (81, ValuesEq (e_none "z") (opar s_Non5));
  (82, ValuesEq (e_none "") (opar (PNoneOf (codes ""))))] = none_broken.
Proof. vm_compute. reflexivity. Qed.
(** :85 none_of<> *)
Example t_basic_o_85 : broken [
  (87, ValuesEq (e_none "abc") (opar s_Non1));
  (88, ValuesEq (e_none "bcd") (opar s_Non2));
  (89, ValuesEq (e_none "xyz") (opar s_Non3));
  (90, ValuesEq (e_none "cd") (opar s_Non4));
  (91, ValuesEq (e_none "z") (opar s_Non5))] = none_broken.
Proof. vm_compute. reflexivity. Qed.
(** :94 UDL _all *)
Example t_basic_o_94 : broken [
  (96, ValuesEq (e_all "literal") (opar s_All1));
  (97, ValuesEq (e_all "ly") (opar s_All2));
  (98, ValuesEq (e_all "test") (opar s_All3));
  (99, ValuesEq (e_all "ab") (opar s_All4));
  (100, ValuesEq (e_all "??") (opar s_QQ));
  (101, ValuesEq (e_all "abc") (opar s_ABC));
  (102, ValuesEq (e_all "") (opar (PAllOf (codes ""))))] = none_broken.
Proof. vm_compute. reflexivity. Qed.
(** :105 UDL _all_of *)
Example t_basic_o_105 : broken [
  (107, ValuesEq (e_all "literal") (opar s_All1));
  (108, ValuesEq (e_all "ly") (opar s_All2));
  (109, ValuesEq (e_all "test") (opar s_All3));
  (110, ValuesEq (e_all "ab") (opar s_All4));
  (111, ValuesEq (e_all "??") (opar s_QQ));
  (112, ValuesEq (e_all "abc") (opar s_ABC));
  (113, ValuesEq (e_all "") (opar (PAllOf (codes ""))))] = none_broken.
Proof. vm_compute. reflexivity. Qed.
(** :116 all<> *)
Example t_basic_o_116 : broken [
  (118, ValuesEq (e_all "literal") (opar s_All1));
  (119, ValuesEq (e_all "ly") (opar s_All2));
  (120, ValuesEq (e_all "test") (opar s_All3));
  (121, ValuesEq (e_all "ab") (opar s_All4));
  (122, ValuesEq (e_all "??") (opar s_QQ));
  (123, ValuesEq (e_all "abc") (opar s_ABC));
  (124, ValuesEq (e_all "") (opar (PAllOf (codes ""))))] = none_broken.
Proof. vm_compute. reflexivity. Qed.
(** :127 all_of<> *)
Example t_basic_o_127 : broken [
  (129, ValuesEq (e_all "literal") (opar s_All1));
  (130, ValuesEq (e_all "ly") (opar s_All2));
  (131, ValuesEq (e_all "test") (opar s_All3));
  (132, ValuesEq (e_all "ab") (opar s_All4));
  (133, ValuesEq (e_all "??") (opar s_QQ));
  (134, ValuesEq (e_all "abc") (opar s_ABC))] = none_broken.
Proof. vm_compute. reflexivity. Qed.
(** :137 UDL _ign *)
Example t_basic_o_137 : broken [
  (139, ValuesEq (e_ign "literal") (opar (PIgnore s_All1)));
  (140, ValuesEq (e_ign "ly") (opar (PIgnore s_All2)));
  (141, ValuesEq (e_ign "test") (opar (PIgnore s_All3)));
  (142, ValuesEq (e_ign "ab") (opar (PIgnore s_All4)));
  (143, ValuesEq (e_ign "??") (opar (PIgnore s_QQ)));
  (144, ValuesEq (e_ign "abc") (opar (PIgnore s_ABC)));
  (145, ValuesEq (e_ign "") (opar (PIgnore (PAllOf (codes "")))))] = none_broken.
Proof. vm_compute. reflexivity. Qed.
(** :148 ign<> *)
Example t_basic_o_148 : broken [
  (150, ValuesEq (e_ign "literal") (opar (PIgnore s_All1)));
  (151, ValuesEq (e_ign "ly") (opar (PIgnore s_All2)));
  (152, ValuesEq (e_ign "test") (opar (PIgnore s_All3)));
  (153, ValuesEq (e_ign "ab") (opar (PIgnore s_All4)));
  (154, ValuesEq (e_ign "??") (opar (PIgnore s_QQ)));
  (155, ValuesEq (e_ign "abc") (opar (PIgnore s_ABC)));
  (156, ValuesEq (e_ign "") (opar (PIgnore (PAllOf (codes "")))))] = none_broken.
Proof. vm_compute. reflexivity. Qed.
(** :159 Non sorted_and_uniqued *)
Example t_basic_o_159 : broken [
  (161, ValuesEq (e_any "212312323321212311") (opar (PAnyOf (codes "123"))));
  (162, ValuesEq (e_none "212312323321212311") (opar (PNoneOf (codes "123"))));
  (163, ValuesEq (e_any "123abc") (opar (PAnyOf (codes "123abc"))));
  (164, ValuesEq (e_none "123abc") (opar (PNoneOf (codes "123abc"))));
  (165, ValuesEq (e_any "abc123") (opar (PAnyOf (codes "123abc"))));
  (166, ValuesEq (e_none "abc123") (opar (PNoneOf (codes "123abc"))));
  (167, ValuesEq (e_any "a1b2c3") (opar (PAnyOf (codes "123abc"))));
  (168, ValuesEq (e_none "a1b2c3") (opar (PNoneOf (codes "123abc"))));
  (169, ValuesEq (e_any "Aa") (opar (PAnyOf (codes "Aa"))));
  (170, ValuesEq (e_none "Aa") (opar (PNoneOf (codes "Aa"))));
  (171, ValuesEq (e_any "aA") (opar (PAnyOf (codes "Aa"))));
  (172, ValuesEq (e_none "aA") (opar (PNoneOf (codes "Aa"))));
  (173, ValuesEq (e_any "A") (opar (PAnyOf (codes "A"))));
  (174, ValuesEq (e_none "A") (opar (PNoneOf (codes "A"))));
  (175, ValuesEq (e_any "") (opar (PAnyOf (codes ""))));
  (176, ValuesEq (e_none "") (opar (PNoneOf (codes ""))));
  (178, ValuesEq (e_any "212312323321212311") (opar (PAnyOf (codes "123"))));
  (179, ValuesEq (e_none "212312323321212311") (opar (PNoneOf (codes "123"))));
  (180, ValuesEq (e_any "123abc") (opar (PAnyOf (codes "123abc"))));
  (181, ValuesEq (e_none "123abc") (opar (PNoneOf (codes "123abc"))));
  (182, ValuesEq (e_any "abc123") (opar (PAnyOf (codes "123abc"))));
  (183, ValuesEq (e_none "abc123") (opar (PNoneOf (codes "123abc"))));
  (184, ValuesEq (e_any "a1b2c3") (opar (PAnyOf (codes "123abc"))));
  (185, ValuesEq (e_none "a1b2c3") (opar (PNoneOf (codes "123abc"))));
  (186, ValuesEq (e_any "Aa") (opar (PAnyOf (codes "Aa"))));
  (187, ValuesEq (e_none "Aa") (opar (PNoneOf (codes "Aa"))));
  (188, ValuesEq (e_any "aA") (opar (PAnyOf (codes "Aa"))));
  (189, ValuesEq (e_none "aA") (opar (PNoneOf (codes "Aa"))));
  (190, ValuesEq (e_any "A") (opar (PAnyOf (codes "A"))));
  (191, ValuesEq (e_none "A") (opar (PNoneOf (codes "A"))));
  (192, ValuesEq (e_any "") (opar (PAnyOf (codes ""))));
  (193, ValuesEq (e_none "") (opar (PNoneOf (codes ""))))] = none_broken.
Proof. vm_compute. reflexivity. Qed.

(** ** operators/choice.cpp *)
(** :12 any_of_parser | any_of_parser *)
Example t_choice_o_12 : broken [
  (14, ValuesEq (e_or (opar s_Any1) (opar s_Any2)) (e_or (opar s_Any2) (opar s_Any1)));
  (15, ValuesEq (e_or (opar s_Any1) (opar s_Any3)) (e_or (opar s_Any3) (opar s_Any1)));
  (16, ValuesEq (e_or (opar s_Any2) (opar s_Any3)) (e_or (opar s_Any3) (opar s_Any2)));
  (17, ValuesEq (e_or (opar s_Any1) (opar s_Any2)) (opar (PAnyOf (codes "abcd"))));
  (18, ValuesEq (e_or (opar s_Any1) (opar s_Any3)) (opar (PAnyOf (codes "abcxyz"))));
  (19, ValuesEq (e_or (opar s_Any2) (opar s_Any3)) (opar (PAnyOf (codes "bcdxyz"))));
  (20, ValuesEq (e_or (opar s_Any1) (opar s_Any1)) (opar s_Any1));
  (21, ValuesEq (e_or (opar s_Any2) (opar s_Any2)) (opar s_Any2));
  (22, ValuesEq (e_or (opar s_Any3) (opar s_Any3)) (opar s_Any3))] = none_broken.
Proof. vm_compute. reflexivity. Qed.
(** :25 none_of_parser | none_of_parser *)
Example t_choice_o_25 : broken [
  (27, ValuesEq (e_or (opar s_Non1) (opar s_Non2)) (e_or (opar s_Non2) (opar s_Non1)));
  (28, ValuesEq (e_or (opar s_Non1) (opar s_Non3)) (e_or (opar s_Non3) (opar s_Non1)));
  (29, ValuesEq (e_or (opar s_Non2) (opar s_Non3)) (e_or (opar s_Non3) (opar s_Non2)));
  (30, ValuesEq (e_or (opar s_Non1) (opar s_Non2)) (opar (PNoneOf (codes "bc"))));
  (31, ValuesEq (e_or (opar s_Non1) (opar s_Non3)) (opar (PNoneOf (codes ""))));
  (32, ValuesEq (e_or (opar s_Non2) (opar s_Non3)) (opar (PNoneOf (codes ""))));
  (33, ValuesEq (e_or (opar s_Non1) (opar s_Non1)) (opar s_Non1));
  (34, ValuesEq (e_or (opar s_Non2) (opar s_Non2)) (opar s_Non2));
  (35, ValuesEq (e_or (opar s_Non3) (opar s_Non3)) (opar s_Non3))] = none_broken.
Proof. vm_compute. reflexivity. Qed.
(** :38 any_of_parser | none_of_parser, and none_of_parser | any_of_parser *)
Example t_choice_o_38 : broken [
  (40, ValuesEq (e_or (opar s_Any1) (opar s_Non1)) (e_or (opar s_Non1) (opar s_Any1)));
  (41, ValuesEq (e_or (opar s_Any1) (opar s_Non2)) (e_or (opar s_Non2) (opar s_Any1)));
  (42, ValuesEq (e_or (opar s_Any1) (opar s_Non3)) (e_or (opar s_Non3) (opar s_Any1)));
  (43, ValuesEq (e_or (opar s_Any2) (opar s_Non1)) (e_or (opar s_Non1) (opar s_Any2)));
  (44, ValuesEq (e_or (opar s_Any2) (opar s_Non2)) (e_or (opar s_Non2) (opar s_Any2)));
  (45, ValuesEq (e_or (opar s_Any2) (opar s_Non3)) (e_or (opar s_Non3) (opar s_Any2)));
  (46, ValuesEq (e_or (opar s_Any3) (opar s_Non1)) (e_or (opar s_Non1) (opar s_Any3)));
  (47, ValuesEq (e_or (opar s_Any3) (opar s_Non2)) (e_or (opar s_Non2) (opar s_Any3)));
  (48, ValuesEq (e_or (opar s_Any3) (opar s_Non3)) (e_or (opar s_Non3) (opar s_Any3)));
  (49, ValuesEq (e_or (opar s_Any1) (opar s_Non1)) (opar (PNoneOf (codes ""))));
  (50, ValuesEq (e_or (opar s_Any1) (opar s_Non2)) (opar (PNoneOf (codes "d"))));
  (51, ValuesEq (e_or (opar s_Any1) (opar s_Non3)) (opar (PNoneOf (codes "xyz"))));
  (52, ValuesEq (e_or (opar s_Any2) (opar s_Non1)) (opar (PNoneOf (codes "a"))));
  (53, ValuesEq (e_or (opar s_Any2) (opar s_Non2)) (opar (PNoneOf (codes ""))));
  (54, ValuesEq (e_or (opar s_Any2) (opar s_Non3)) (opar (PNoneOf (codes "xyz"))));
  (55, ValuesEq (e_or (opar s_Any3) (opar s_Non1)) (opar (PNoneOf (codes "abc"))));
  (56, ValuesEq (e_or (opar s_Any3) (opar s_Non2)) (opar (PNoneOf (codes "bcd"))));
  (57, ValuesEq (e_or (opar s_Any3) (opar s_Non3)) (opar (PNoneOf (codes ""))))] = none_broken.
Proof. vm_compute. reflexivity. Qed.
(** :62 choice_parser | choice_parser *)
Example t_choice_o_62 : broken [
  (64, ValuesEq (e_or (opar s_Cho1) (opar s_Cho1)) (opar s_Cho1));
  (65, ValuesEq (e_or (opar s_Cho2) (opar s_Cho2)) (opar s_Cho2));
  (66, ValuesEq (e_or (opar s_Cho3) (opar s_Cho3)) (opar s_Cho3));
  (67, ValuesEq (e_or (opar s_Cho4) (opar s_Cho4)) (opar s_Cho4));
  (68, ValuesEq (e_or (opar s_Cho1) (opar s_Cho2)) (opar (PChoice s_All4 [s_Non4; s_Non4; s_All4])));
  (69, ValuesEq (e_or (opar s_Cho2) (opar s_Cho1)) (opar (PChoice s_Non4 [s_All4; s_All4; s_Non4])));
  (70, ValuesEq (e_or (opar s_Cho1) (opar s_Cho3)) (opar (PChoice s_All4 [s_Non4; s_All4; s_Any4; s_Non5])));
  (71, ValuesEq (e_or (opar s_Cho3) (opar s_Cho1)) (opar (PChoice s_All4 [s_Any4; s_Non5; s_All4; s_Non4])));
  (72, ValuesEq (e_or (opar s_Cho1) (opar s_Cho4)) (opar (PChoice s_All4 [s_Non4; s_Non5; s_All4; s_Any4])));
  (73, ValuesEq (e_or (opar s_Cho4) (opar s_Cho1)) (opar (PChoice s_Non5 [s_All4; s_Any4; s_All4; s_Non4])));
  (74, ValuesEq (e_or (opar s_Cho2) (opar s_Cho3)) (opar (PChoice s_Non4 [s_All4; s_All4; s_Any4; s_Non5])));
  (75, ValuesEq (e_or (opar s_Cho3) (opar s_Cho2)) (opar (PChoice s_All4 [s_Any4; s_Non5; s_Non4; s_All4])));
  (76, ValuesEq (e_or (opar s_Cho2) (opar s_Cho4)) (opar (PChoice s_Non4 [s_All4; s_Non5; s_All4; s_Any4])));
  (77, ValuesEq (e_or (opar s_Cho4) (opar s_Cho2)) (opar (PChoice s_Non5 [s_All4; s_Any4; s_Non4; s_All4])));
  (78, ValuesEq (e_or (opar s_Cho3) (opar s_Cho4)) (opar (PChoice s_All4 [s_Any4; s_Non5; s_Non5; s_All4; s_Any4])));
  (79, ValuesEq (e_or (opar s_Cho4) (opar s_Cho3)) (opar (PChoice s_Non5 [s_All4; s_Any4; s_All4; s_Any4; s_Non5])));
  (80, ValuesEq (e_or (opar s_Cho5) (opar s_Cho5)) (opar s_Cho5))] = none_broken.
Proof. vm_compute. reflexivity. Qed.
(** :83 choice_parser | {anything}, and {anything} | choice_parser *)
Example t_choice_o_83 : broken [
  (85, ValuesEq (e_or (opar s_Cho1) (opar s_Any1)) (opar (PChoice s_All4 [s_Non4; s_Any1])));
  (86, ValuesEq (e_or (opar s_Any1) (opar s_Cho1)) (opar (PChoice s_Any1 [s_All4; s_Non4])));
  (87, ValuesEq (e_or (opar s_Cho2) (opar s_Any4)) (opar (PChoice s_Non4 [s_All4; s_Any4])));
  (88, ValuesEq (e_or (opar s_Any4) (opar s_Cho2)) (opar (PChoice s_Any4 [s_Non4; s_All4])));
  (89, ValuesEq (e_or (opar s_Cho3) (opar s_Any3)) (opar (PChoice s_All4 [s_Any4; s_Non5; s_Any3])));
  (90, ValuesEq (e_or (opar s_Any3) (opar s_Cho3)) (opar (PChoice s_Any3 [s_All4; s_Any4; s_Non5])));
  (91, ValuesEq (e_or (opar s_Cho4) (opar s_Any2)) (opar (PChoice s_Non5 [s_All4; s_Any4; s_Any2])));
  (92, ValuesEq (e_or (opar s_Any2) (opar s_Cho4)) (opar (PChoice s_Any2 [s_Non5; s_All4; s_Any4])))] = none_broken.
Proof. vm_compute. reflexivity. Qed.
(** :95 void result_type *)
Example t_choice_o_95 : broken [
  (97, ValuesEq (e_or (opar s_Ign1) (opar s_Ign2)) (opar s_Cho5));
  (98, ValuesNe (e_or (opar s_Ign2) (opar s_Ign1)) (opar s_Cho5))] = none_broken.
Proof. vm_compute. reflexivity. Qed.
(** :172 {anything} | {anything} *)
Example t_choice_o_172_s182 : forallb holds (pairs choice_asserter basic_samples basic_samples) = true.
Proof. vm_compute. reflexivity. Qed.

(** ** operators/epsilon.cpp *)
(** :24 P | eps *)
Example t_epsilon_o_24 : broken [
  (26, ValuesEq (e_or_eps (opar s_Any1)) (opar (PChoice s_Any1 [PEpsilon])));
  (27, ValuesEq (e_or_eps (opar s_Any2)) (opar (PChoice s_Any2 [PEpsilon])));
  (28, ValuesEq (e_or_eps (opar s_Any3)) (opar (PChoice s_Any3 [PEpsilon])))] = none_broken.
Proof. vm_compute. reflexivity. Qed.
(** :50 eps anything *)
Example t_epsilon_o_50_s52 : forallb holds (flat_map epsilon_asserter all_samples) = true.
Proof. vm_compute. reflexivity. Qed.

(** ** operators/maybe.cpp *)
(** :12 ~maybe_parser *)
Example t_maybe_o_12 : broken [
  (14, ValuesEq (e_maybe (opar s_May1)) (opar s_May1));
  (15, ValuesEq (e_maybe (e_maybe (opar s_May1))) (opar s_May1));
  (16, ValuesEq (e_maybe (e_maybe (e_maybe (opar s_May1)))) (opar s_May1));
  (17, ValuesEq (e_maybe (opar s_May2)) (opar s_May2));
  (18, ValuesEq (e_maybe (e_maybe (opar s_May2))) (opar s_May2));
  (19, ValuesEq (e_maybe (e_maybe (e_maybe (opar s_May2)))) (opar s_May2));
  (20, ValuesEq (e_maybe (opar s_May3)) (opar s_May3));
  (21, ValuesEq (e_maybe (e_maybe (opar s_May3))) (opar s_May3));
  (22, ValuesEq (e_maybe (e_maybe (e_maybe (opar s_May3)))) (opar s_May3));
  (23, ValuesEq (e_maybe (opar s_May4)) (opar s_May4));
  (24, ValuesEq (e_maybe (e_maybe (opar s_May4))) (opar s_May4));
  (25, ValuesEq (e_maybe (e_maybe (e_maybe (opar s_May4)))) (opar s_May4))] = none_broken.
Proof. vm_compute. reflexivity. Qed.
(** :28 ~one_or_more_parser *)
Example t_maybe_o_28 : broken [
  (30, ValuesEq (e_maybe (opar s_Oom1)) (opar s_Zom1));
  (31, ValuesEq (e_maybe (e_maybe (opar s_Oom1))) (opar s_Zom1));
  (32, ValuesEq (e_maybe (e_maybe (e_maybe (opar s_Oom1)))) (opar s_Zom1));
  (33, ValuesEq (e_maybe (opar s_Oom2)) (opar s_Zom2));
  (34, ValuesEq (e_maybe (e_maybe (opar s_Oom2))) (opar s_Zom2));
  (35, ValuesEq (e_maybe (e_maybe (e_maybe (opar s_Oom2)))) (opar s_Zom2));
  (36, ValuesEq (e_maybe (opar s_Oom3)) (opar s_Zom3));
  (37, ValuesEq (e_maybe (e_maybe (opar s_Oom3))) (opar s_Zom3));
  (38, ValuesEq (e_maybe (e_maybe (e_maybe (opar s_Oom3)))) (opar s_Zom3));
  (39, ValuesEq (e_maybe (opar s_Oom4)) (opar s_Zom4));
  (40, ValuesEq (e_maybe (e_maybe (opar s_Oom4))) (opar s_Zom4));
  (41, ValuesEq (e_maybe (e_maybe (e_maybe (opar s_Oom4)))) (opar s_Zom4))] = none_broken.
Proof. vm_compute. reflexivity. Qed.
(** :44 ~zero_or_more_parser *)
Example t_maybe_o_44 : broken [
  (46, ValuesEq (e_maybe (opar s_Zom1)) (opar s_Zom1));
  (47, ValuesEq (e_maybe (e_maybe (opar s_Zom1))) (opar s_Zom1));
  (48, ValuesEq (e_maybe (e_maybe (e_maybe (opar s_Zom1)))) (opar s_Zom1));
  (49, ValuesEq (e_maybe (opar s_Zom2)) (opar s_Zom2));
  (50, ValuesEq (e_maybe (e_maybe (opar s_Zom2))) (opar s_Zom2));
  (51, ValuesEq (e_maybe (e_maybe (e_maybe (opar s_Zom2)))) (opar s_Zom2));
  (52, ValuesEq (e_maybe (opar s_Zom3)) (opar s_Zom3));
  (53, ValuesEq (e_maybe (e_maybe (opar s_Zom3))) (opar s_Zom3));
  (54, ValuesEq (e_maybe (e_maybe (e_maybe (opar s_Zom3)))) (opar s_Zom3));
  (55, ValuesEq (e_maybe (opar s_Zom4)) (opar s_Zom4));
  (56, ValuesEq (e_maybe (e_maybe (opar s_Zom4))) (opar s_Zom4));
  (57, ValuesEq (e_maybe (e_maybe (e_maybe (opar s_Zom4)))) (opar s_Zom4))] = none_broken.
Proof. vm_compute. reflexivity. Qed.
(** :92 ~{anything} *)
Example t_maybe_o_92_s94 : forallb holds (flat_map maybe_asserter all_samples) = true.
Proof. vm_compute. reflexivity. Qed.

(** ** operators/not.cpp *)
(** :12 !any_of_parser *)
Example t_not_o_12 : broken [
  (14, ValuesEq (e_not (opar s_Any1)) (opar s_Non1));
  (15, ValuesEq (e_not (opar s_Any2)) (opar s_Non2));
  (16, ValuesEq (e_not (opar s_Any3)) (opar s_Non3));
  (17, ValuesEq (e_not (e_not (opar s_Any1))) (opar s_Any1));
  (18, ValuesEq (e_not (e_not (opar s_Any2))) (opar s_Any2));
  (19, ValuesEq (e_not (e_not (opar s_Any3))) (opar s_Any3))] = none_broken.
Proof. vm_compute. reflexivity. Qed.
(** :22 !none_of_parser *)
Example t_not_o_22 : broken [
  (24, ValuesEq (e_not (opar s_Non1)) (opar s_Any1));
  (25, ValuesEq (e_not (opar s_Non2)) (opar s_Any2));
  (26, ValuesEq (e_not (opar s_Non3)) (opar s_Any3));
  (27, ValuesEq (e_not (e_not (opar s_Non1))) (opar s_Non1));
  (28, ValuesEq (e_not (e_not (opar s_Non2))) (opar s_Non2));
  (29, ValuesEq (e_not (e_not (opar s_Non3))) (opar s_Non3))] = none_broken.
Proof. vm_compute. reflexivity. Qed.
(** :59 !{anything} *)
Example t_not_o_59_s61 : forallb holds (flat_map not_asserter all_samples) = true.
Proof. vm_compute. reflexivity. Qed.

(** ** operators/one_or_more.cpp *)
(** :12 +maybe_parser *)
Example t_one_or_more_o_12 : broken [
  (14, ValuesEq (e_plus (opar s_May1)) (opar s_Zom1));
  (15, ValuesEq (e_plus (e_plus (opar s_May1))) (opar s_Zom1));
  (16, ValuesEq (e_plus (e_plus (e_plus (opar s_May1)))) (opar s_Zom1));
  (17, ValuesEq (e_plus (opar s_May2)) (opar s_Zom2));
  (18, ValuesEq (e_plus (e_plus (opar s_May2))) (opar s_Zom2));
  (19, ValuesEq (e_plus (e_plus (e_plus (opar s_May2)))) (opar s_Zom2));
  (20, ValuesEq (e_plus (opar s_May3)) (opar s_Zom3));
  (21, ValuesEq (e_plus (e_plus (opar s_May3))) (opar s_Zom3));
  (22, ValuesEq (e_plus (e_plus (e_plus (opar s_May3)))) (opar s_Zom3));
  (23, ValuesEq (e_plus (opar s_May4)) (opar s_Zom4));
  (24, ValuesEq (e_plus (e_plus (opar s_May4))) (opar s_Zom4));
  (25, ValuesEq (e_plus (e_plus (e_plus (opar s_May4)))) (opar s_Zom4))] = none_broken.
Proof. vm_compute. reflexivity. Qed.
(** :28 +one_or_more_parser *)
Example t_one_or_more_o_28 : broken [
  (30, ValuesEq (e_plus (opar s_Oom1)) (opar s_Oom1));
  (31, ValuesEq (e_plus (e_plus (opar s_Oom1))) (opar s_Oom1));
  (32, ValuesEq (e_plus (e_plus (e_plus (opar s_Oom1)))) (opar s_Oom1));
  (33, ValuesEq (e_plus (opar s_Oom2)) (opar s_Oom2));
  (34, ValuesEq (e_plus (e_plus (opar s_Oom2))) (opar s_Oom2));
  (35, ValuesEq (e_plus (e_plus (e_plus (opar s_Oom2)))) (opar s_Oom2));
  (36, ValuesEq (e_plus (opar s_Oom3)) (opar s_Oom3));
  (37, ValuesEq (e_plus (e_plus (opar s_Oom3))) (opar s_Oom3));
  (38, ValuesEq (e_plus (e_plus (e_plus (opar s_Oom3)))) (opar s_Oom3));
  (39, ValuesEq (e_plus (opar s_Oom4)) (opar s_Oom4));
  (40, ValuesEq (e_plus (e_plus (opar s_Oom4))) (opar s_Oom4));
  (41, ValuesEq (e_plus (e_plus (e_plus (opar s_Oom4)))) (opar s_Oom4))] = none_broken.
Proof. vm_compute. reflexivity. Qed.
(** :44 +zero_or_more_parser *)
Example t_one_or_more_o_44 : broken [
  (46, ValuesEq (e_plus (opar s_Zom1)) (opar s_Zom1));
  (47, ValuesEq (e_plus (e_plus (opar s_Zom1))) (opar s_Zom1));
  (48, ValuesEq (e_plus (e_plus (e_plus (opar s_Zom1)))) (opar s_Zom1));
  (49, ValuesEq (e_plus (opar s_Zom2)) (opar s_Zom2));
  (50, ValuesEq (e_plus (e_plus (opar s_Zom2))) (opar s_Zom2));
  (51, ValuesEq (e_plus (e_plus (e_plus (opar s_Zom2)))) (opar s_Zom2));
  (52, ValuesEq (e_plus (opar s_Zom3)) (opar s_Zom3));
  (53, ValuesEq (e_plus (e_plus (opar s_Zom3))) (opar s_Zom3));
  (54, ValuesEq (e_plus (e_plus (e_plus (opar s_Zom3)))) (opar s_Zom3));
  (55, ValuesEq (e_plus (opar s_Zom4)) (opar s_Zom4));
  (56, ValuesEq (e_plus (e_plus (opar s_Zom4))) (opar s_Zom4));
  (57, ValuesEq (e_plus (e_plus (e_plus (opar s_Zom4)))) (opar s_Zom4))] = none_broken.
Proof. vm_compute. reflexivity. Qed.
(** :92 +{anything} *)
Example t_one_or_more_o_92_s94 : forallb holds (flat_map one_or_more_asserter all_samples) = true.
Proof. vm_compute. reflexivity. Qed.

(** ** operators/sequence.cpp *)
(** :12 all_of_parser >> all_of_parser *)
Example t_sequence_o_12 : broken [
  (14, ValuesEq (e_seq (opar s_All1) (opar s_All1)) (opar (PAllOf (codes "literalliteral"))));
  (15, ValuesEq (e_seq (opar s_All1) (opar s_All2)) (opar (PAllOf (codes "literally"))));
  (16, ValuesEq (e_seq (opar s_All1) (opar s_All3)) (opar (PAllOf (codes "literaltest"))));
  (17, ValuesEq (e_seq (opar s_All2) (opar s_All1)) (opar (PAllOf (codes "lyliteral"))));
  (18, ValuesEq (e_seq (opar s_All2) (opar s_All2)) (opar (PAllOf (codes "lyly"))));
  (19, ValuesEq (e_seq (opar s_All2) (opar s_All3)) (opar (PAllOf (codes "lytest"))));
  (20, ValuesEq (e_seq (opar s_All3) (opar s_All1)) (opar (PAllOf (codes "testliteral"))));
  (21, ValuesEq (e_seq (opar s_All3) (opar s_All2)) (opar (PAllOf (codes "testly"))));
  (22, ValuesEq (e_seq (opar s_All3) (opar s_All3)) (opar (PAllOf (codes "testtest"))))] = none_broken.
Proof. vm_compute. reflexivity. Qed.
(** :27 sequence_parser >> sequence_parser *)
Example t_sequence_o_27 : broken [
  (29, ValuesEq (e_seq (opar s_Seq1) (opar s_Seq1)) (opar (PSequence s_All4 [s_Non4; s_All4; s_Non4])));
  (30, ValuesEq (e_seq (opar s_Seq2) (opar s_Seq2)) (opar (PSequence s_Non4 [s_All4; s_Non4; s_All4])));
  (31, ValuesEq (e_seq (opar s_Seq3) (opar s_Seq3)) (opar (PSequence s_All4 [s_Any4; s_Non5; s_All4; s_Any4; s_Non5])));
  (32, ValuesEq (e_seq (opar s_Seq4) (opar s_Seq4)) (opar (PSequence s_Non5 [s_All4; s_Any4; s_Non5; s_All4; s_Any4])));
  (33, ValuesEq (e_seq (opar s_Seq5) (opar s_Seq5)) (opar (PSequence s_Ign1 [s_Ign2; s_Ign1; s_Ign2])));
  (34, ValuesEq (e_seq (opar s_Seq1) (opar s_Seq2)) (opar (PSequence s_All4 [s_Non4; s_Non4; s_All4])));
  (35, ValuesEq (e_seq (opar s_Seq2) (opar s_Seq1)) (opar (PSequence s_Non4 [s_All4; s_All4; s_Non4])));
  (36, ValuesEq (e_seq (opar s_Seq1) (opar s_Seq3)) (opar (PSequence s_All4 [s_Non4; s_All4; s_Any4; s_Non5])));
  (37, ValuesEq (e_seq (opar s_Seq3) (opar s_Seq1)) (opar (PSequence s_All4 [s_Any4; s_Non5; s_All4; s_Non4])));
  (38, ValuesEq (e_seq (opar s_Seq1) (opar s_Seq4)) (opar (PSequence s_All4 [s_Non4; s_Non5; s_All4; s_Any4])));
  (39, ValuesEq (e_seq (opar s_Seq4) (opar s_Seq1)) (opar (PSequence s_Non5 [s_All4; s_Any4; s_All4; s_Non4])));
  (40, ValuesEq (e_seq (opar s_Seq1) (opar s_Seq5)) (opar (PSequence s_All4 [s_Non4; s_Ign1; s_Ign2])));
  (41, ValuesEq (e_seq (opar s_Seq5) (opar s_Seq1)) (opar (PSequence s_Ign1 [s_Ign2; s_All4; s_Non4])));
  (42, ValuesEq (e_seq (opar s_Seq2) (opar s_Seq3)) (opar (PSequence s_Non4 [s_All4; s_All4; s_Any4; s_Non5])));
  (43, ValuesEq (e_seq (opar s_Seq3) (opar s_Seq2)) (opar (PSequence s_All4 [s_Any4; s_Non5; s_Non4; s_All4])));
  (44, ValuesEq (e_seq (opar s_Seq2) (opar s_Seq4)) (opar (PSequence s_Non4 [s_All4; s_Non5; s_All4; s_Any4])));
  (45, ValuesEq (e_seq (opar s_Seq4) (opar s_Seq2)) (opar (PSequence s_Non5 [s_All4; s_Any4; s_Non4; s_All4])));
  (46, ValuesEq (e_seq (opar s_Seq2) (opar s_Seq5)) (opar (PSequence s_Non4 [s_All4; s_Ign1; s_Ign2])));
  (47, ValuesEq (e_seq (opar s_Seq5) (opar s_Seq2)) (opar (PSequence s_Ign1 [s_Ign2; s_Non4; s_All4])));
  (48, ValuesEq (e_seq (opar s_Seq3) (opar s_Seq4)) (opar (PSequence s_All4 [s_Any4; s_Non5; s_Non5; s_All4; s_Any4])));
  (49, ValuesEq (e_seq (opar s_Seq4) (opar s_Seq3)) (opar (PSequence s_Non5 [s_All4; s_Any4; s_All4; s_Any4; s_Non5])));
  (50, ValuesEq (e_seq (opar s_Seq3) (opar s_Seq5)) (opar (PSequence s_All4 [s_Any4; s_Non5; s_Ign1; s_Ign2])));
  (51, ValuesEq (e_seq (opar s_Seq5) (opar s_Seq3)) (opar (PSequence s_Ign1 [s_Ign2; s_All4; s_Any4; s_Non5])));
  (52, ValuesEq (e_seq (opar s_Seq4) (opar s_Seq5)) (opar (PSequence s_Non5 [s_All4; s_Any4; s_Ign1; s_Ign2])));
  (53, ValuesEq (e_seq (opar s_Seq5) (opar s_Seq4)) (opar (PSequence s_Ign1 [s_Ign2; s_Non5; s_All4; s_Any4])))] = none_broken.
Proof. vm_compute. reflexivity. Qed.
(** :56 sequence_parser >> {anything} *)
Example t_sequence_o_56 : broken [
  (58, ValuesEq (e_seq (opar s_Seq1) (opar s_Any1)) (opar (PSequence s_All4 [s_Non4; s_Any1])));
  (59, ValuesEq (e_seq (opar s_Any1) (opar s_Seq1)) (opar (PSequence s_Any1 [s_All4; s_Non4])));
  (60, ValuesEq (e_seq (opar s_Seq2) (opar s_Any4)) (opar (PSequence s_Non4 [s_All4; s_Any4])));
  (61, ValuesEq (e_seq (opar s_Any4) (opar s_Seq2)) (opar (PSequence s_Any4 [s_Non4; s_All4])));
  (62, ValuesEq (e_seq (opar s_Seq3) (opar s_Any3)) (opar (PSequence s_All4 [s_Any4; s_Non5; s_Any3])));
  (63, ValuesEq (e_seq (opar s_Any3) (opar s_Seq3)) (opar (PSequence s_Any3 [s_All4; s_Any4; s_Non5])));
  (64, ValuesEq (e_seq (opar s_Seq4) (opar s_Any2)) (opar (PSequence s_Non5 [s_All4; s_Any4; s_Any2])));
  (65, ValuesEq (e_seq (opar s_Any2) (opar s_Seq4)) (opar (PSequence s_Any2 [s_Non5; s_All4; s_Any4])))] = none_broken.
Proof. vm_compute. reflexivity. Qed.
(** :68 void result_type *)
Example t_sequence_o_68 : broken [
  (70, ValuesEq (e_seq (opar s_Ign1) (opar s_Ign2)) (opar s_Seq5));
  (71, ValuesNe (e_seq (opar s_Ign2) (opar s_Ign1)) (opar s_Seq5))] = none_broken.
Proof. vm_compute. reflexivity. Qed.
(** :162 {anything} >> {anything} *)
Example t_sequence_o_162_s172 : forallb holds (pairs sequence_asserter basic_samples basic_samples) = true.
Proof. vm_compute. reflexivity. Qed.

(** ** operators/zero_or_more.cpp *)
(** :12 *maybe_parser *)
Example t_zero_or_more_o_12 : broken [
  (14, ValuesEq (e_star (opar s_May1)) (opar s_Zom1));
  (15, ValuesEq (e_star (e_star (opar s_May1))) (opar s_Zom1));
  (16, ValuesEq (e_star (e_star (e_star (opar s_May1)))) (opar s_Zom1));
  (17, ValuesEq (e_star (opar s_May2)) (opar s_Zom2));
  (18, ValuesEq (e_star (e_star (opar s_May2))) (opar s_Zom2));
  (19, ValuesEq (e_star (e_star (e_star (opar s_May2)))) (opar s_Zom2));
  (20, ValuesEq (e_star (opar s_May3)) (opar s_Zom3));
  (21, ValuesEq (e_star (e_star (opar s_May3))) (opar s_Zom3));
  (22, ValuesEq (e_star (e_star (e_star (opar s_May3)))) (opar s_Zom3));
  (23, ValuesEq (e_star (opar s_May4)) (opar s_Zom4));
  (24, ValuesEq (e_star (e_star (opar s_May4))) (opar s_Zom4));
  (25, ValuesEq (e_star (e_star (e_star (opar s_May4)))) (opar s_Zom4))] = none_broken.
Proof. vm_compute. reflexivity. Qed.
(** :28 *one_or_more_parser *)
Example t_zero_or_more_o_28 : broken [
  (30, ValuesEq (e_star (opar s_Oom1)) (opar s_Zom1));
  (31, ValuesEq (e_star (e_star (opar s_Oom1))) (opar s_Zom1));
  (32, ValuesEq (e_star (e_star (e_star (opar s_Oom1)))) (opar s_Zom1));
  (33, ValuesEq (e_star (opar s_Oom2)) (opar s_Zom2));
  (34, ValuesEq (e_star (e_star (opar s_Oom2))) (opar s_Zom2));
  (35, ValuesEq (e_star (e_star (e_star (opar s_Oom2)))) (opar s_Zom2));
  (36, ValuesEq (e_star (opar s_Oom3)) (opar s_Zom3));
  (37, ValuesEq (e_star (e_star (opar s_Oom3))) (opar s_Zom3));
  (38, ValuesEq (e_star (e_star (e_star (opar s_Oom3)))) (opar s_Zom3));
  (39, ValuesEq (e_star (opar s_Oom4)) (opar s_Zom4));
  (40, ValuesEq (e_star (e_star (opar s_Oom4))) (opar s_Zom4));
  (41, ValuesEq (e_star (e_star (e_star (opar s_Oom4)))) (opar s_Zom4))] = none_broken.
Proof. vm_compute. reflexivity. Qed.
(** :44 *zero_or_more_parser *)
Example t_zero_or_more_o_44 : broken [
  (46, ValuesEq (e_star (opar s_Zom1)) (opar s_Zom1));
  (47, ValuesEq (e_star (e_star (opar s_Zom1))) (opar s_Zom1));
  (48, ValuesEq (e_star (e_star (e_star (opar s_Zom1)))) (opar s_Zom1));
  (49, ValuesEq (e_star (opar s_Zom2)) (opar s_Zom2));
  (50, ValuesEq (e_star (e_star (opar s_Zom2))) (opar s_Zom2));
  (51, ValuesEq (e_star (e_star (e_star (opar s_Zom2)))) (opar s_Zom2));
  (52, ValuesEq (e_star (opar s_Zom3)) (opar s_Zom3));
  (53, ValuesEq (e_star (e_star (opar s_Zom3))) (opar s_Zom3));
  (54, ValuesEq (e_star (e_star (e_star (opar s_Zom3)))) (opar s_Zom3));
  (55, ValuesEq (e_star (opar s_Zom4)) (opar s_Zom4));
  (56, ValuesEq (e_star (e_star (opar s_Zom4))) (opar s_Zom4));
  (57, ValuesEq (e_star (e_star (e_star (opar s_Zom4)))) (opar s_Zom4))] = none_broken.
Proof. vm_compute. reflexivity. Qed.
(** :92 *{anything} *)
Example t_zero_or_more_o_92_s94 : forallb holds (flat_map zero_or_more_asserter all_samples) = true.
Proof. vm_compute. reflexivity. Qed.

(** ** modifiers/apply.cpp *)
(** :12 prefix *)
Example t_apply_m_12 : broken [
  (14, ValuesEq (opar s_Apm1) (e_call (omod (MApply (FUser 3))) (e_seq (opar s_ABC) (e_star (opar s_QQ)))));
  (15, ValuesEq (opar s_Apm2) (e_call (omod (MApply (FUser 23))) (e_seq (e_plus (opar s_ABC)) (e_maybe (e_or (opar s_ABC) (opar s_QQ))))));
  (16, ValuesNe (opar s_Apm2) (e_call (omod (MApply (FUser 22))) (e_seq (e_plus (opar s_ABC)) (e_maybe (e_or (opar s_ABC) (opar s_QQ))))))] = none_broken.
Proof. vm_compute. reflexivity. Qed.
(** :19 infix *)
Example t_apply_m_19 : broken [
  (21, ValuesEq (opar s_Apm1) (e_mod (e_seq (opar s_ABC) (e_star (opar s_QQ))) (omod (MApply (FUser 3)))));
  (22, ValuesEq (opar s_Apm2) (e_mod (e_seq (e_plus (opar s_ABC)) (e_maybe (e_or (opar s_ABC) (opar s_QQ)))) (omod (MApply (FUser 23)))));
  (23, ValuesNe (opar s_Apm2) (e_mod (e_seq (e_plus (opar s_ABC)) (e_maybe (e_or (opar s_ABC) (opar s_QQ)))) (omod (MApply (FUser 22)))))] = none_broken.
Proof. vm_compute. reflexivity. Qed.
(** :42 modify anything *)
Example t_apply_m_42_s44 : forallb holds (flat_map apply_asserter all_samples) = true.
Proof. vm_compute. reflexivity. Qed.

(** ** modifiers/apply_filter.cpp *)
(** :12 prefix *)
Example t_apply_filter_m_12 : broken [
  (14, ValuesEq (opar s_Apf1) (e_call (omod (MApplyFilter (FUser 7))) (e_seq (opar s_ABC) (e_star (opar s_QQ)))))] = none_broken.
Proof. vm_compute. reflexivity. Qed.
(** :17 infix *)
Example t_apply_filter_m_17 : broken [
  (19, ValuesEq (opar s_Apf1) (e_mod (e_seq (opar s_ABC) (e_star (opar s_QQ))) (omod (MApplyFilter (FUser 7)))))] = none_broken.
Proof. vm_compute. reflexivity. Qed.
(** :38 modify anything *)
Example t_apply_filter_m_38_s40 : forallb holds (flat_map apply_filter_asserter all_samples) = true.
Proof. vm_compute. reflexivity. Qed.

(** ** modifiers/apply_into.cpp *)
(** :12 prefix *)
Example t_apply_into_m_12 : broken [
  (14, ValuesEq (opar s_Api1) (e_call (omod (MApplyInto t_Class2)) (e_seq (opar s_ABC) (opar s_SpaceDot))));
  (15, ValuesEq (opar s_Api2) (e_call (omod (MApplyInto t_Class5)) (e_seq (opar s_SpaceDot) (opar s_ABC))))] = none_broken.
Proof. vm_compute. reflexivity. Qed.
(** :18 infix *)
Example t_apply_into_m_18 : broken [
  (20, ValuesEq (opar s_Api1) (e_mod (e_seq (opar s_ABC) (opar s_SpaceDot)) (omod (MApplyInto t_Class2))));
  (21, ValuesEq (opar s_Api2) (e_mod (e_seq (opar s_SpaceDot) (opar s_ABC)) (omod (MApplyInto t_Class5))))] = none_broken.
Proof. vm_compute. reflexivity. Qed.
(** :40 modify anything *)
Example t_apply_into_m_40_s42 : forallb holds (flat_map apply_into_asserter all_samples) = true.
Proof. vm_compute. reflexivity. Qed.

(** ** modifiers/complete.cpp *)
(** :12 prefix *)
Example t_complete_m_12 : broken [
  (14, ValuesEq (opar s_Com1) (e_call (omod MComplete) (opar s_All1)));
  (15, ValuesEq (opar s_Com2) (e_call (omod MComplete) (opar s_Any1)));
  (16, ValuesEq (opar s_Com3) (e_call (omod MComplete) (e_or (opar s_All1) (opar s_Any1))));
  (17, ValuesEq (opar s_Com4) (e_call (omod MComplete) (e_seq (opar s_All1) (opar s_Any1))));
  (18, ValuesEq (opar s_Com5) (e_call (omod MComplete) (e_maybe (e_seq (opar s_All1) (opar s_Any1)))));
  (19, ValuesEq (opar s_Com6) (e_call (omod MComplete) (e_plus (e_seq (opar s_All1) (opar s_Any1)))));
  (20, ValuesEq (opar s_Com7) (e_call (omod MComplete) (e_star (e_seq (opar s_All1) (opar s_Any1)))))] = none_broken.
Proof. vm_compute. reflexivity. Qed.
(** :23 infix *)
Example t_complete_m_23 : broken [
  (25, ValuesEq (opar s_Com1) (e_mod (opar s_All1) (omod MComplete)));
  (26, ValuesEq (opar s_Com2) (e_mod (opar s_Any1) (omod MComplete)));
  (27, ValuesEq (opar s_Com3) (e_mod (e_or (opar s_All1) (opar s_Any1)) (omod MComplete)));
  (28, ValuesEq (opar s_Com4) (e_mod (e_seq (opar s_All1) (opar s_Any1)) (omod MComplete)));
  (29, ValuesEq (opar s_Com5) (e_mod (e_maybe (e_seq (opar s_All1) (opar s_Any1))) (omod MComplete)));
  (30, ValuesEq (opar s_Com6) (e_mod (e_plus (e_seq (opar s_All1) (opar s_Any1))) (omod MComplete)));
  (31, ValuesEq (opar s_Com7) (e_mod (e_star (e_seq (opar s_All1) (opar s_Any1))) (omod MComplete)))] = none_broken.
Proof. vm_compute. reflexivity. Qed.
(** :34 idempotent *)
Example t_complete_m_34 : broken [
  (36, ValuesEq (opar s_Com1) (e_call (omod MComplete) (opar s_Com1)));
  (37, ValuesEq (opar s_Com2) (e_call (omod MComplete) (opar s_Com2)));
  (38, ValuesEq (opar s_Com3) (e_call (omod MComplete) (opar s_Com3)));
  (39, ValuesEq (opar s_Com4) (e_call (omod MComplete) (opar s_Com4)));
  (40, ValuesEq (opar s_Com5) (e_call (omod MComplete) (opar s_Com5)));
  (41, ValuesEq (opar s_Com6) (e_call (omod MComplete) (opar s_Com6)));
  (42, ValuesEq (opar s_Com7) (e_call (omod MComplete) (opar s_Com7)));
  (43, ValuesEq (opar s_Com1) (e_mod (opar s_Com1) (omod MComplete)));
  (44, ValuesEq (opar s_Com2) (e_mod (opar s_Com2) (omod MComplete)));
  (45, ValuesEq (opar s_Com3) (e_mod (opar s_Com3) (omod MComplete)));
  (46, ValuesEq (opar s_Com4) (e_mod (opar s_Com4) (omod MComplete)));
  (47, ValuesEq (opar s_Com5) (e_mod (opar s_Com5) (omod MComplete)));
  (48, ValuesEq (opar s_Com6) (e_mod (opar s_Com6) (omod MComplete)));
  (49, ValuesEq (opar s_Com7) (e_mod (opar s_Com7) (omod MComplete)))] = none_broken.
Proof. vm_compute. reflexivity. Qed.
(** :78 modify anything *)
Example t_complete_m_78_s80 : forallb holds (flat_map complete_asserter all_samples) = true.
Proof. vm_compute. reflexivity. Qed.

(** ** modifiers/constant.cpp *)
(** :12 prefix *)
Example t_constant_m_12 : broken [
  (14, ValuesEq (opar s_Con1) (e_call (omod (MConstant 1)) (e_plus (opar s_ABC))));
  (15, ValuesEq (opar s_Con2) (e_call (omod (MConstant 2)) (e_maybe (e_or (opar s_ABC) (opar s_QQ)))));
  (16, ValuesEq (opar s_Con3) (e_call (omod (MConstant 3)) (e_seq (opar s_ABC) (e_star (opar s_QQ)))));
  (17, ValuesEq (opar s_Con4) (e_call (omod (MConstant 4)) (e_seq (e_plus (opar s_ABC)) (e_maybe (e_or (opar s_ABC) (opar s_QQ))))))] = none_broken.
Proof. vm_compute. reflexivity. Qed.
(** :20 infix *)
Example t_constant_m_20 : broken [
  (22, ValuesEq (opar s_Con1) (e_mod (e_plus (opar s_ABC)) (omod (MConstant 1))));
  (23, ValuesEq (opar s_Con2) (e_mod (e_maybe (e_or (opar s_ABC) (opar s_QQ))) (omod (MConstant 2))));
  (24, ValuesEq (opar s_Con3) (e_mod (e_seq (opar s_ABC) (e_star (opar s_QQ))) (omod (MConstant 3))));
  (25, ValuesEq (opar s_Con4) (e_mod (e_seq (e_plus (opar s_ABC)) (e_maybe (e_or (opar s_ABC) (opar s_QQ)))) (omod (MConstant 4))))] = none_broken.
Proof. vm_compute. reflexivity. Qed.
(** :40 modify anything *)
Example t_constant_m_40_s42 : forallb holds (flat_map constant_asserter all_samples) = true.
Proof. vm_compute. reflexivity. Qed.

(** ** modifiers/defaulted.cpp *)
(** :12 prefix *)
Example t_defaulted_m_12 : broken [
  (14, ValuesEq (opar s_Def1) (e_call (omod (MDefaulted t_int)) (e_plus (opar s_ABC))));
  (15, ValuesEq (opar s_Def2) (e_call (omod (MDefaulted t_Class3)) (e_maybe (e_or (opar s_ABC) (opar s_QQ)))))] = none_broken.
Proof. vm_compute. reflexivity. Qed.
(** :18 infix *)
Example t_defaulted_m_18 : broken [
  (20, ValuesEq (opar s_Def1) (e_mod (e_plus (opar s_ABC)) (omod (MDefaulted t_int))));
  (21, ValuesEq (opar s_Def2) (e_mod (e_maybe (e_or (opar s_ABC) (opar s_QQ))) (omod (MDefaulted t_Class3))))] = none_broken.
Proof. vm_compute. reflexivity. Qed.
(** :36 modify anything *)
Example t_defaulted_m_36_s38 : forallb holds (flat_map defaulted_asserter all_samples) = true.
Proof. vm_compute. reflexivity. Qed.

(** ** modifiers/delimit.cpp *)
(** :12 prefix *)
Example t_delimit_m_12 : broken [
  (14, ValuesEq (opar s_Del1) (e_delimit (opar s_ABC) (opar s_Comma)));
  (15, ValuesEq (opar s_Del2) (e_delimit (opar s_ABC) (opar s_SpaceDot)));
  (16, ValuesEq (opar s_Del3) (e_delimit (opar s_QQ) (opar s_Comma)));
  (17, ValuesEq (opar s_Del4) (e_delimit (opar s_QQ) (opar s_SpaceDot)));
  (18, ValuesEq (opar s_Del5) (e_delimit (opar s_Comma) (opar s_ABC)));
  (19, ValuesEq (opar s_Del6) (e_delimit (opar s_SpaceDot) (opar s_ABC)));
  (20, ValuesEq (opar s_Del7) (e_delimit (opar s_Comma) (opar s_QQ)));
  (21, ValuesEq (opar s_Del8) (e_delimit (opar s_SpaceDot) (opar s_QQ)))] = none_broken.
Proof. vm_compute. reflexivity. Qed.
(** :24 infix *)
Example t_delimit_m_24 : broken [
  (26, ValuesEq (opar s_Del1) (e_mod (opar s_ABC) (e_call (omod MDelimit) (opar s_Comma))));
  (27, ValuesEq (opar s_Del2) (e_mod (opar s_ABC) (e_call (omod MDelimit) (opar s_SpaceDot))));
  (28, ValuesEq (opar s_Del3) (e_mod (opar s_QQ) (e_call (omod MDelimit) (opar s_Comma))));
  (29, ValuesEq (opar s_Del4) (e_mod (opar s_QQ) (e_call (omod MDelimit) (opar s_SpaceDot))));
  (30, ValuesEq (opar s_Del5) (e_mod (opar s_Comma) (e_call (omod MDelimit) (opar s_ABC))));
  (31, ValuesEq (opar s_Del6) (e_mod (opar s_SpaceDot) (e_call (omod MDelimit) (opar s_ABC))));
  (32, ValuesEq (opar s_Del7) (e_mod (opar s_Comma) (e_call (omod MDelimit) (opar s_QQ))));
  (33, ValuesEq (opar s_Del8) (e_mod (opar s_SpaceDot) (e_call (omod MDelimit) (opar s_QQ))))] = none_broken.
Proof. vm_compute. reflexivity. Qed.
(** :73 modify anything *)
Example t_delimit_m_73_s75 : forallb holds (flat_map delimit_asserter all_samples) = true.
Proof. vm_compute. reflexivity. Qed.

(** ** modifiers/delimit_keep.cpp *)
(** :12 prefix *)
Example t_delimit_keep_m_12 : broken [
  (14, ValuesEq (opar s_Dek1) (e_delimit_keep (opar s_ABC) (opar s_Comma)));
  (15, ValuesEq (opar s_Dek2) (e_delimit_keep (opar s_ABC) (opar s_SpaceDot)));
  (16, ValuesEq (opar s_Dek3) (e_delimit_keep (opar s_QQ) (opar s_Comma)));
  (17, ValuesEq (opar s_Dek4) (e_delimit_keep (opar s_QQ) (opar s_SpaceDot)));
  (18, ValuesEq (opar s_Dek5) (e_delimit_keep (opar s_Comma) (opar s_ABC)));
  (19, ValuesEq (opar s_Dek6) (e_delimit_keep (opar s_SpaceDot) (opar s_ABC)));
  (20, ValuesEq (opar s_Dek7) (e_delimit_keep (opar s_Comma) (opar s_QQ)));
  (21, ValuesEq (opar s_Dek8) (e_delimit_keep (opar s_SpaceDot) (opar s_QQ)))] = none_broken.
Proof. vm_compute. reflexivity. Qed.
(** :24 infix *)
Example t_delimit_keep_m_24 : broken [
  (26, ValuesEq (opar s_Dek1) (e_mod (opar s_ABC) (e_call (omod MDelimitKeep) (opar s_Comma))));
  (27, ValuesEq (opar s_Dek2) (e_mod (opar s_ABC) (e_call (omod MDelimitKeep) (opar s_SpaceDot))));
  (28, ValuesEq (opar s_Dek3) (e_mod (opar s_QQ) (e_call (omod MDelimitKeep) (opar s_Comma))));
  (29, ValuesEq (opar s_Dek4) (e_mod (opar s_QQ) (e_call (omod MDelimitKeep) (opar s_SpaceDot))));
  (30, ValuesEq (opar s_Dek5) (e_mod (opar s_Comma) (e_call (omod MDelimitKeep) (opar s_ABC))));
  (31, ValuesEq (opar s_Dek6) (e_mod (opar s_SpaceDot) (e_call (omod MDelimitKeep) (opar s_ABC))));
  (32, ValuesEq (opar s_Dek7) (e_mod (opar s_Comma) (e_call (omod MDelimitKeep) (opar s_QQ))));
  (33, ValuesEq (opar s_Dek8) (e_mod (opar s_SpaceDot) (e_call (omod MDelimitKeep) (opar s_QQ))))] = none_broken.
Proof. vm_compute. reflexivity. Qed.
(** :73 modify anything *)
Example t_delimit_keep_m_73_s75 : forallb holds (flat_map delimit_keep_asserter all_samples) = true.
Proof. vm_compute. reflexivity. Qed.

(** ** modifiers/exactly.cpp *)
(** :12 prefix *)
Example t_exactly_m_12 : broken [
  (14, ValuesEq (opar s_Exa1) (e_call (omod (MExactly 3)) (opar s_All1)));
  (15, ValuesEq (opar s_Exa2) (e_call (omod (MExactly 5)) (opar s_Any1)));
  (16, ValuesEq (opar s_Exa3) (e_call (omod (MExactly 4)) (e_or (opar s_All1) (opar s_Any1))));
  (17, ValuesEq (opar s_Exa4) (e_call (omod (MExactly 2)) (e_seq (opar s_All1) (opar s_Any1))))] = none_broken.
Proof. vm_compute. reflexivity. Qed.
(** :20 infix *)
Example t_exactly_m_20 : broken [
  (22, ValuesEq (opar s_Exa1) (e_mod (opar s_All1) (omod (MExactly 3))));
  (23, ValuesEq (opar s_Exa2) (e_mod (opar s_Any1) (omod (MExactly 5))));
  (24, ValuesEq (opar s_Exa3) (e_mod (e_or (opar s_All1) (opar s_Any1)) (omod (MExactly 4))));
  (25, ValuesEq (opar s_Exa4) (e_mod (e_seq (opar s_All1) (opar s_Any1)) (omod (MExactly 2))))] = none_broken.
Proof. vm_compute. reflexivity. Qed.
(** :44 modify anything *)
Example t_exactly_m_44_s46 : forallb holds (flat_map exactly_asserter all_samples) = true.
Proof. vm_compute. reflexivity. Qed.

(** ** modifiers/filter.cpp *)
(** :12 prefix *)
Example t_filter_m_12 : broken [
  (14, ValuesEq (opar s_Fil1) (e_call (omod (MFilter (FUser 4))) (e_plus (opar s_ABC))));
  (15, ValuesEq (opar s_Fil2) (e_call (omod (MFilter (FUser 5))) (e_maybe (e_or (opar s_ABC) (opar s_QQ)))));
  (16, ValuesEq (opar s_Fil3) (e_call (omod (MFilter (FUser 6))) (e_seq (opar s_ABC) (e_star (opar s_QQ)))))] = none_broken.
Proof. vm_compute. reflexivity. Qed.
(** :19 infix *)
Example t_filter_m_19 : broken [
  (21, ValuesEq (opar s_Fil1) (e_mod (e_plus (opar s_ABC)) (omod (MFilter (FUser 4)))));
  (22, ValuesEq (opar s_Fil2) (e_mod (e_maybe (e_or (opar s_ABC) (opar s_QQ))) (omod (MFilter (FUser 5)))));
  (23, ValuesEq (opar s_Fil3) (e_mod (e_seq (opar s_ABC) (e_star (opar s_QQ))) (omod (MFilter (FUser 6)))))] = none_broken.
Proof. vm_compute. reflexivity. Qed.
(** :42 modify anything *)
Example t_filter_m_42_s44 : forallb holds (flat_map filter_asserter all_samples) = true.
Proof. vm_compute. reflexivity. Qed.

(** ** modifiers/ignore.cpp *)
(** :12 prefix *)
Example t_ignore_m_12 : broken [
  (14, ValuesEq (opar s_Ign1) (e_call (omod MIgnore) (opar s_ABC)));
  (15, ValuesEq (opar s_Ign2) (e_call (omod MIgnore) (e_plus (opar s_ABC))));
  (16, ValuesEq (opar s_Ign3) (e_call (omod MIgnore) (e_maybe (e_or (opar s_ABC) (opar s_QQ)))));
  (17, ValuesEq (opar s_Ign4) (e_call (omod MIgnore) (e_seq (opar s_ABC) (e_star (opar s_QQ)))));
  (18, ValuesEq (opar s_Ign5) (e_call (omod MIgnore) (e_seq (e_plus (opar s_ABC)) (e_maybe (e_or (opar s_ABC) (opar s_QQ))))))] = none_broken.
Proof. vm_compute. reflexivity. Qed.
(** :21 infix *)
Example t_ignore_m_21 : broken [
  (23, ValuesEq (opar s_Ign1) (e_mod (opar s_ABC) (omod MIgnore)));
  (24, ValuesEq (opar s_Ign2) (e_mod (e_plus (opar s_ABC)) (omod MIgnore)));
  (25, ValuesEq (opar s_Ign3) (e_mod (e_maybe (e_or (opar s_ABC) (opar s_QQ))) (omod MIgnore)));
  (26, ValuesEq (opar s_Ign4) (e_mod (e_seq (opar s_ABC) (e_star (opar s_QQ))) (omod MIgnore)));
  (27, ValuesEq (opar s_Ign5) (e_mod (e_seq (e_plus (opar s_ABC)) (e_maybe (e_or (opar s_ABC) (opar s_QQ)))) (omod MIgnore)))] = none_broken.
Proof. vm_compute. reflexivity. Qed.
(** :30 idempotent *)
Example t_ignore_m_30 : broken [
  (32, ValuesEq (opar s_Ign1) (e_call (omod MIgnore) (opar s_Ign1)));
  (33, ValuesEq (opar s_Ign2) (e_call (omod MIgnore) (opar s_Ign2)));
  (34, ValuesEq (opar s_Ign3) (e_call (omod MIgnore) (opar s_Ign3)));
  (35, ValuesEq (opar s_Ign4) (e_call (omod MIgnore) (opar s_Ign4)));
  (36, ValuesEq (opar s_Ign5) (e_call (omod MIgnore) (opar s_Ign5)));
  (37, ValuesEq (opar s_Ign1) (e_mod (opar s_Ign1) (omod MIgnore)));
  (38, ValuesEq (opar s_Ign2) (e_mod (opar s_Ign2) (omod MIgnore)));
  (39, ValuesEq (opar s_Ign3) (e_mod (opar s_Ign3) (omod MIgnore)));
  (40, ValuesEq (opar s_Ign4) (e_mod (opar s_Ign4) (omod MIgnore)));
  (41, ValuesEq (opar s_Ign5) (e_mod (opar s_Ign5) (omod MIgnore)))] = none_broken.
Proof. vm_compute. reflexivity. Qed.
(** :70 modify anything *)
Example t_ignore_m_70_s72 : forallb holds (flat_map ignore_asserter all_samples) = true.
Proof. vm_compute. reflexivity. Qed.

(** ** modifiers/into.cpp *)
(** :12 prefix *)
Example t_into_m_12 : broken [
  (14, ValuesEq (opar s_Int1) (e_call (omod (MInto t_Class1)) (opar s_SpaceDot)));
  (15, ValuesEq (opar s_Int2) (e_call (omod (MInto t_Class2)) (e_seq (opar s_ABC) (opar s_SpaceDot))))] = none_broken.
Proof. vm_compute. reflexivity. Qed.
(** :18 infix *)
Example t_into_m_18 : broken [
  (20, ValuesEq (opar s_Int1) (e_mod (opar s_SpaceDot) (omod (MInto t_Class1))));
  (21, ValuesEq (opar s_Int2) (e_mod (e_seq (opar s_ABC) (opar s_SpaceDot)) (omod (MInto t_Class2))))] = none_broken.
Proof. vm_compute. reflexivity. Qed.
(** :40 modify anything *)
Example t_into_m_40_s42 : forallb holds (flat_map into_asserter all_samples) = true.
Proof. vm_compute. reflexivity. Qed.

(** ** modifiers/join.cpp *)
(** :12 prefix *)
Example t_join_m_12 : broken [
  (14, ValuesEq (opar s_Joi1) (e_call (omod MJoin) (opar s_ABC)));
  (15, ValuesNe (opar s_ABC) (e_call (omod MJoin) (opar s_ABC)));
  (16, ValuesEq (opar s_Joi2) (e_call (omod MJoin) (e_plus (opar s_ABC))));
  (17, ValuesEq (opar s_Joi3) (e_call (omod MJoin) (e_maybe (e_or (opar s_ABC) (opar s_QQ)))));
  (18, ValuesEq (opar s_Joi4) (e_call (omod MJoin) (e_seq (opar s_ABC) (e_star (opar s_QQ)))));
  (19, ValuesEq (opar s_Joi5) (e_call (omod MJoin) (e_seq (e_plus (opar s_ABC)) (e_maybe (e_or (opar s_ABC) (opar s_QQ))))))] = none_broken.
Proof. vm_compute. reflexivity. Qed.
(** :22 infix *)
Example t_join_m_22 : broken [
  (24, ValuesEq (opar s_Joi1) (e_mod (opar s_ABC) (omod MJoin)));
  (25, ValuesNe (opar s_ABC) (e_mod (opar s_ABC) (omod MJoin)));
  (26, ValuesEq (opar s_Joi2) (e_mod (e_plus (opar s_ABC)) (omod MJoin)));
  (27, ValuesEq (opar s_Joi3) (e_mod (e_maybe (e_or (opar s_ABC) (opar s_QQ))) (omod MJoin)));
  (28, ValuesEq (opar s_Joi4) (e_mod (e_seq (opar s_ABC) (e_star (opar s_QQ))) (omod MJoin)));
  (29, ValuesEq (opar s_Joi5) (e_mod (e_seq (e_plus (opar s_ABC)) (e_maybe (e_or (opar s_ABC) (opar s_QQ)))) (omod MJoin)))] = none_broken.
Proof. vm_compute. reflexivity. Qed.
(** :32 idempotent *)
Example t_join_m_32 : broken [
  (34, ValuesEq (opar s_Joi1) (e_call (omod MJoin) (opar s_Joi1)));
  (35, ValuesEq (opar s_Joi2) (e_call (omod MJoin) (opar s_Joi2)));
  (36, ValuesEq (opar s_Joi3) (e_call (omod MJoin) (opar s_Joi3)));
  (37, ValuesEq (opar s_Joi4) (e_call (omod MJoin) (opar s_Joi4)));
  (38, ValuesEq (opar s_Joi5) (e_call (omod MJoin) (opar s_Joi5)));
  (39, ValuesEq (opar s_Joi1) (e_mod (opar s_Joi1) (omod MJoin)));
  (40, ValuesEq (opar s_Joi2) (e_mod (opar s_Joi2) (omod MJoin)));
  (41, ValuesEq (opar s_Joi3) (e_mod (opar s_Joi3) (omod MJoin)));
  (42, ValuesEq (opar s_Joi4) (e_mod (opar s_Joi4) (omod MJoin)));
  (43, ValuesEq (opar s_Joi5) (e_mod (opar s_Joi5) (omod MJoin)))] = none_broken.
Proof. vm_compute. reflexivity. Qed.
(** :72 modify anything *)
Example t_join_m_72_s74 : forallb holds (flat_map join_asserter all_samples) = true.
Proof. vm_compute. reflexivity. Qed.

(** ** modifiers/map.cpp *)
(** :12 prefix *)
Example t_map_m_12 : broken [
  (14, ValuesEq (opar s_Map1) (e_call (omod (MMap (FUser 0))) (e_plus (opar s_ABC))));
  (15, ValuesEq (opar s_Map2) (e_call (omod (MMap (FUser 1))) (e_maybe (e_or (opar s_ABC) (opar s_QQ)))));
  (16, ValuesEq (opar s_Map3) (e_call (omod (MMap (FUser 2))) (e_seq (opar s_ABC) (e_star (opar s_QQ)))));
  (17, ValuesEq (opar s_Map4) (e_call (omod (MMap (FUser 13))) (e_seq (e_plus (opar s_ABC)) (e_maybe (e_or (opar s_ABC) (opar s_QQ))))));
  (18, ValuesNe (opar s_Map4) (e_call (omod (MMap (FUser 12))) (e_seq (e_plus (opar s_ABC)) (e_maybe (e_or (opar s_ABC) (opar s_QQ))))))] = none_broken.
Proof. vm_compute. reflexivity. Qed.
(** :21 infix *)
Example t_map_m_21 : broken [
  (23, ValuesEq (opar s_Map1) (e_mod (e_plus (opar s_ABC)) (omod (MMap (FUser 0)))));
  (24, ValuesEq (opar s_Map2) (e_mod (e_maybe (e_or (opar s_ABC) (opar s_QQ))) (omod (MMap (FUser 1)))));
  (25, ValuesEq (opar s_Map3) (e_mod (e_seq (opar s_ABC) (e_star (opar s_QQ))) (omod (MMap (FUser 2)))));
  (26, ValuesEq (opar s_Map4) (e_mod (e_seq (e_plus (opar s_ABC)) (e_maybe (e_or (opar s_ABC) (opar s_QQ)))) (omod (MMap (FUser 13)))));
  (27, ValuesNe (opar s_Map4) (e_mod (e_seq (e_plus (opar s_ABC)) (e_maybe (e_or (opar s_ABC) (opar s_QQ)))) (omod (MMap (FUser 12)))))] = none_broken.
Proof. vm_compute. reflexivity. Qed.
(** :46 modify anything *)
Example t_map_m_46_s48 : forallb holds (flat_map map_asserter all_samples) = true.
Proof. vm_compute. reflexivity. Qed.

(** ** modifiers/multi.cpp *)
(** :12 creation *)
Example t_multi_m_12 : broken [
  (14, ModsEq (e_mod (omod MIgnore) (omod MJoin)) (omod (MMulti [MIgnore; MJoin])));
  (15, ModsEq (e_mod (omod MJoin) (omod MIgnore)) (omod (MMulti [MJoin; MIgnore])));
  (16, ModsEq (e_mod (omod MComplete) (omod MJoin)) (omod (MMulti [MComplete; MJoin])));
  (17, ModsEq (e_mod (omod MJoin) (omod MComplete)) (omod (MMulti [MJoin; MComplete])));
  (18, ModsEq (e_mod (omod MIgnore) (omod MComplete)) (omod (MMulti [MIgnore; MComplete])));
  (19, ModsEq (e_mod (omod MComplete) (omod MIgnore)) (omod (MMulti [MComplete; MIgnore])))] = none_broken.
Proof. vm_compute. reflexivity. Qed.
(** :22 not commutative *)
Example t_multi_m_22 : broken [
  (24, ModsNe (e_mod (omod MIgnore) (omod MJoin)) (e_mod (omod MJoin) (omod MIgnore)));
  (25, ModsNe (e_mod (omod MComplete) (omod MJoin)) (e_mod (omod MJoin) (omod MComplete)));
  (26, ModsNe (e_mod (omod MIgnore) (omod MComplete)) (e_mod (omod MComplete) (omod MIgnore)))] = none_broken.
Proof. vm_compute. reflexivity. Qed.
(** :29 associative *)
Example t_multi_m_29 : broken [
  (31, ModsEq (e_mod (e_mod (e_mod (omod MIgnore) (omod MJoin)) (omod MComplete)) (omod (MInto t_Sink))) (e_mod (e_mod (omod MIgnore) (e_mod (omod MJoin) (omod MComplete))) (omod (MInto t_Sink))));
  (32, ModsEq (e_mod (e_mod (e_mod (omod MIgnore) (omod MJoin)) (omod MComplete)) (omod (MInto t_Sink))) (e_mod (e_mod (omod MIgnore) (omod MJoin)) (e_mod (omod MComplete) (omod (MInto t_Sink)))));
  (33, ModsEq (e_mod (e_mod (e_mod (omod MIgnore) (omod MJoin)) (omod MComplete)) (omod (MInto t_Sink))) (e_mod (omod MIgnore) (e_mod (e_mod (omod MJoin) (omod MComplete)) (omod (MInto t_Sink)))));
  (34, ModsEq (e_mod (e_mod (e_mod (omod MIgnore) (omod MJoin)) (omod MComplete)) (omod (MInto t_Sink))) (e_mod (omod MIgnore) (e_mod (omod MJoin) (e_mod (omod MComplete) (omod (MInto t_Sink))))))] = none_broken.
Proof. vm_compute. reflexivity. Qed.
(** :37 applying the modifier *)
Example t_multi_m_37 : broken [
  (39, ValuesEq (e_mod (opar s_Oom1) (e_mod (e_mod (omod MJoin) (omod MIgnore)) (omod MComplete))) (opar (PComplete (PIgnore (PJoin s_Oom1)))));
  (40, ValuesEq (e_mod (opar s_Oom1) (e_mod (e_mod (omod MJoin) (omod MComplete)) (omod MIgnore))) (opar (PIgnore (PComplete (PJoin s_Oom1)))))] = none_broken.
Proof. vm_compute. reflexivity. Qed.

(** ** modifiers/name.cpp *)
(** :12 prefix *)
Example t_name_m_12 : broken [
  (14, ValuesEq (opar s_Nam1) (e_call (omod (MName "nam1")) (opar s_ABC)));
  (15, ValuesEq (opar s_Nam2) (e_call (omod (MName "nam2")) (e_plus (opar s_ABC))));
  (16, ValuesEq (opar s_Nam3) (e_call (omod (MName "nam3")) (e_maybe (e_or (opar s_ABC) (opar s_QQ)))));
  (17, ValuesEq (opar s_Nam4) (e_call (omod (MName "nam4")) (e_seq (opar s_ABC) (e_star (opar s_QQ)))))] = none_broken.
Proof. vm_compute. reflexivity. Qed.
(** :20 infix *)
Example t_name_m_20 : broken [
  (22, ValuesEq (opar s_Nam1) (e_mod (opar s_ABC) (omod (MName "nam1"))));
  (23, ValuesEq (opar s_Nam2) (e_mod (e_plus (opar s_ABC)) (omod (MName "nam2"))));
  (24, ValuesEq (opar s_Nam3) (e_mod (e_maybe (e_or (opar s_ABC) (opar s_QQ))) (omod (MName "nam3"))));
  (25, ValuesEq (opar s_Nam4) (e_mod (e_seq (opar s_ABC) (e_star (opar s_QQ))) (omod (MName "nam4"))))] = none_broken.
Proof. vm_compute. reflexivity. Qed.
(** :42 modify anything *)
Example t_name_m_42_s44 : forallb holds (flat_map name_asserter all_samples) = true.
Proof. vm_compute. reflexivity. Qed.

(** ** modifiers/sub.cpp *)
(** :55 prefix *)
Example t_sub_m_55 : broken [
  (57, ValuesEq (e_sub (opar s_Nam1) [("nam1", MIgnore)]) (opar (PIgnore s_21)));
  (58, ValuesEq (e_sub (opar s_Nam1) [("nam2", MJoin)]) (opar s_Nam1));
  (59, ValuesEq (e_sub (opar s_Nam1) [("nam3", (MName "nam2"))]) (opar s_Nam1));
  (60, ValuesEq (e_sub (opar s_Nam1) [("nam4", (MExactly 2))]) (opar s_Nam1));
  (61, ValuesEq (e_sub (opar s_Nam1) [("nam1", MJoin)]) (opar (PJoin s_21)));
  (62, ValuesEq (e_sub (opar s_Nam1) [("nam2", MIgnore)]) (opar s_Nam1));
  (63, ValuesEq (e_sub (opar s_Nam1) [("nam3", (MExactly 2))]) (opar s_Nam1));
  (64, ValuesEq (e_sub (opar s_Nam1) [("nam4", (MName "nam2"))]) (opar s_Nam1));
  (66, ValuesEq (e_sub (opar s_Nam2) [("nam1", MIgnore)]) (opar s_Nam2));
  (67, ValuesEq (e_sub (opar s_Nam2) [("nam2", MJoin)]) (opar (PJoin s_22)));
  (68, ValuesEq (e_sub (opar s_Nam2) [("nam3", (MName "nam2"))]) (opar s_Nam2));
  (69, ValuesEq (e_sub (opar s_Nam2) [("nam4", (MExactly 2))]) (opar s_Nam2));
  (70, ValuesEq (e_sub (opar s_Nam2) [("nam1", MJoin)]) (opar s_Nam2));
  (71, ValuesEq (e_sub (opar s_Nam2) [("nam2", MIgnore)]) (opar (PIgnore s_22)));
  (72, ValuesEq (e_sub (opar s_Nam2) [("nam3", (MExactly 2))]) (opar s_Nam2));
  (73, ValuesEq (e_sub (opar s_Nam2) [("nam4", (MName "nam2"))]) (opar s_Nam2));
  (75, ValuesEq (e_sub (opar s_Nam3) [("nam1", MIgnore)]) (opar s_Nam3));
  (76, ValuesEq (e_sub (opar s_Nam3) [("nam2", MJoin)]) (opar s_Nam3));
  (77, ValuesEq (e_sub (opar s_Nam3) [("nam3", (MName "nam2"))]) (opar (PNamed s_23 "nam2")));
  (78, ValuesEq (e_sub (opar s_Nam3) [("nam4", (MExactly 2))]) (opar s_Nam3));
  (79, ValuesEq (e_sub (opar s_Nam3) [("nam1", MJoin)]) (opar s_Nam3));
  (80, ValuesEq (e_sub (opar s_Nam3) [("nam2", MIgnore)]) (opar s_Nam3));
  (81, ValuesEq (e_sub (opar s_Nam3) [("nam3", (MExactly 2))]) (opar (PExactly s_23 2)));
  (82, ValuesEq (e_sub (opar s_Nam3) [("nam4", (MName "nam2"))]) (opar s_Nam3));
  (84, ValuesEq (e_sub (opar s_Nam4) [("nam1", MIgnore)]) (opar s_Nam4));
  (85, ValuesEq (e_sub (opar s_Nam4) [("nam2", MJoin)]) (opar s_Nam4));
  (86, ValuesEq (e_sub (opar s_Nam4) [("nam3", (MName "nam2"))]) (opar s_Nam4));
  (87, ValuesEq (e_sub (opar s_Nam4) [("nam4", (MExactly 2))]) (opar (PExactly s_24 2)));
  (88, ValuesEq (e_sub (opar s_Nam4) [("nam1", MJoin)]) (opar s_Nam4));
  (89, ValuesEq (e_sub (opar s_Nam4) [("nam2", MIgnore)]) (opar s_Nam4));
  (90, ValuesEq (e_sub (opar s_Nam4) [("nam3", (MExactly 2))]) (opar s_Nam4));
  (91, ValuesEq (e_sub (opar s_Nam4) [("nam4", (MName "nam2"))]) (opar (PNamed s_24 "nam2")))] = none_broken.
Proof. vm_compute. reflexivity. Qed.
(** :94 infix *)
Example t_sub_m_94 : broken [
  (96, ValuesEq (e_mod (opar s_Nam1) (omod (MSubBy [("nam1", MIgnore)]))) (opar (PIgnore s_21)));
  (97, ValuesEq (e_mod (opar s_Nam1) (omod (MSubBy [("nam2", MJoin)]))) (opar s_Nam1));
  (98, ValuesEq (e_mod (opar s_Nam1) (omod (MSubBy [("nam3", (MName "nam2"))]))) (opar s_Nam1));
  (99, ValuesEq (e_mod (opar s_Nam1) (omod (MSubBy [("nam4", (MExactly 2))]))) (opar s_Nam1));
  (100, ValuesEq (e_mod (opar s_Nam1) (omod (MSubBy [("nam1", MJoin)]))) (opar (PJoin s_21)));
  (101, ValuesEq (e_mod (opar s_Nam1) (omod (MSubBy [("nam2", MIgnore)]))) (opar s_Nam1));
  (102, ValuesEq (e_mod (opar s_Nam1) (omod (MSubBy [("nam3", (MExactly 2))]))) (opar s_Nam1));
  (103, ValuesEq (e_mod (opar s_Nam1) (omod (MSubBy [("nam4", (MName "nam2"))]))) (opar s_Nam1));
  (105, ValuesEq (e_mod (opar s_Nam2) (omod (MSubBy [("nam1", MIgnore)]))) (opar s_Nam2));
  (106, ValuesEq (e_mod (opar s_Nam2) (omod (MSubBy [("nam2", MJoin)]))) (opar (PJoin s_22)));
  (107, ValuesEq (e_mod (opar s_Nam2) (omod (MSubBy [("nam3", (MName "nam2"))]))) (opar s_Nam2));
  (108, ValuesEq (e_mod (opar s_Nam2) (omod (MSubBy [("nam4", (MExactly 2))]))) (opar s_Nam2));
  (109, ValuesEq (e_mod (opar s_Nam2) (omod (MSubBy [("nam1", MJoin)]))) (opar s_Nam2));
  (110, ValuesEq (e_mod (opar s_Nam2) (omod (MSubBy [("nam2", MIgnore)]))) (opar (PIgnore s_22)));
  (111, ValuesEq (e_mod (opar s_Nam2) (omod (MSubBy [("nam3", (MExactly 2))]))) (opar s_Nam2));
  (112, ValuesEq (e_mod (opar s_Nam2) (omod (MSubBy [("nam4", (MName "nam2"))]))) (opar s_Nam2));
  (114, ValuesEq (e_mod (opar s_Nam3) (omod (MSubBy [("nam1", MIgnore)]))) (opar s_Nam3));
  (115, ValuesEq (e_mod (opar s_Nam3) (omod (MSubBy [("nam2", MJoin)]))) (opar s_Nam3));
  (116, ValuesEq (e_mod (opar s_Nam3) (omod (MSubBy [("nam3", (MName "nam2"))]))) (opar (PNamed s_23 "nam2")));
  (117, ValuesEq (e_mod (opar s_Nam3) (omod (MSubBy [("nam4", (MExactly 2))]))) (opar s_Nam3));
  (118, ValuesEq (e_mod (opar s_Nam3) (omod (MSubBy [("nam1", MJoin)]))) (opar s_Nam3));
  (119, ValuesEq (e_mod (opar s_Nam3) (omod (MSubBy [("nam2", MIgnore)]))) (opar s_Nam3));
  (120, ValuesEq (e_mod (opar s_Nam3) (omod (MSubBy [("nam3", (MExactly 2))]))) (opar (PExactly s_23 2)));
  (121, ValuesEq (e_mod (opar s_Nam3) (omod (MSubBy [("nam4", (MName "nam2"))]))) (opar s_Nam3));
  (123, ValuesEq (e_mod (opar s_Nam4) (omod (MSubBy [("nam1", MIgnore)]))) (opar s_Nam4));
  (124, ValuesEq (e_mod (opar s_Nam4) (omod (MSubBy [("nam2", MJoin)]))) (opar s_Nam4));
  (125, ValuesEq (e_mod (opar s_Nam4) (omod (MSubBy [("nam3", (MName "nam2"))]))) (opar s_Nam4));
  (126, ValuesEq (e_mod (opar s_Nam4) (omod (MSubBy [("nam4", (MExactly 2))]))) (opar (PExactly s_24 2)));
  (127, ValuesEq (e_mod (opar s_Nam4) (omod (MSubBy [("nam1", MJoin)]))) (opar s_Nam4));
  (128, ValuesEq (e_mod (opar s_Nam4) (omod (MSubBy [("nam2", MIgnore)]))) (opar s_Nam4));
  (129, ValuesEq (e_mod (opar s_Nam4) (omod (MSubBy [("nam3", (MExactly 2))]))) (opar s_Nam4));
  (130, ValuesEq (e_mod (opar s_Nam4) (omod (MSubBy [("nam4", (MName "nam2"))]))) (opar (PNamed s_24 "nam2")))] = none_broken.
Proof. vm_compute. reflexivity. Qed.
(** :133 order-dependent *)
Example t_sub_m_133 : broken [
  (135, ValuesEq (e_mod (opar s_Nam3) (omod (MSubBy [("nam2", MJoin); ("nam3", (MName "nam2"))]))) (opar (PNamed s_23 "nam2")));
  (136, ValuesEq (e_mod (opar s_Nam3) (omod (MSubBy [("nam3", (MName "nam2")); ("nam2", MJoin)]))) (opar (PJoin s_23)))] = none_broken.
Proof. vm_compute. reflexivity. Qed.
(** :139 chainable *)
Example t_sub_m_139 : broken [
  (141, ValuesEq (e_mod (opar s_Nam3) (omod (MSubBy [("nam2", MJoin); ("nam3", (MName "nam2"))]))) (e_mod (e_mod (opar s_Nam3) (omod (MSubBy [("nam2", MJoin)]))) (omod (MSubBy [("nam3", (MName "nam2"))]))));
  (142, ValuesEq (e_mod (opar s_Nam3) (omod (MSubBy [("nam3", (MName "nam2")); ("nam2", MJoin)]))) (e_mod (e_mod (opar s_Nam3) (omod (MSubBy [("nam3", (MName "nam2"))]))) (omod (MSubBy [("nam2", MJoin)]))))] = none_broken.
Proof. vm_compute. reflexivity. Qed.

(** The four lines of [t_join_parser_252] are undefined, not wrong in another way. *)
Example t_join_parser_undefined :
  map (fun x => fuelled GccRun Parse (PJoin (fst x)) (snd x))
    [(PSequence (PMap s_ABC (FUser 60)) [s_QQ], "abc??abc"); (PSequence (PMap s_ABC (FUser 60)) [s_QQ], "abc??");
     (PZeroOrMore (PSequence (PMap (POneOrMore s_ABC) (FUser 60)) [s_QQ]), "abcabc??abc??ab");
     (PZeroOrMore (PSequence (PMap (POneOrMore s_ABC) (FUser 60)) [s_QQ]), "abc??abcabcabcabc??")]
  = [UB; UB; UB; UB].
Proof. vm_compute. reflexivity. Qed.
(** operators/choice.cpp:178 and sequence.cpp:168: commented out there as taking too long
    to compile. *)
Example t_choice_all : forallb holds (pairs choice_asserter all_samples all_samples) = true.
Proof. vm_compute. reflexivity. Qed.
Example t_sequence_all : forallb holds (pairs sequence_asserter all_samples all_samples) = true.
Proof. vm_compute. reflexivity. Qed.
