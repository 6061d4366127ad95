(** The tests of /repo/src/yaml/deserializer.rs 560-1231 that use no serde attributes, run
    on the model; the equalities are checked by the kernel. *)
From Coq Require Import ZArith.
From Verif Require Import Base Ast Strings Format Num Pretty Peg YamlGrammar Consume Ser De FromStr.
Import ListNotations.

(** [round_trip]: deserializer.rs 567-573. *)
Definition round_trip (t : ty) (v : sval) : option sval :=
  match ser v with Some y => from_yaml t (pretty y) | None => None end.

(** Primitives: 583-654. *)
Example bool_true : round_trip TBool (SBool true) = Some (SBool true). Proof. vm_compute. reflexivity. Qed.
Example bool_false : round_trip TBool (SBool false) = Some (SBool false). Proof. vm_compute. reflexivity. Qed.
Example integers :
  forallb (fun z => match round_trip (TInt I64) (SInt I64 z) with Some (SInt I64 z') => (z =? z')%Z | _ => false end)
    [42; -7; 0]%Z = true.
Proof. vm_compute. reflexivity. Qed.
Example unsigned :
  round_trip (TInt U64) (SInt U64 18446744073709551615) = Some (SInt U64 18446744073709551615).
Proof. vm_compute. reflexivity. Qed.
Example float : round_trip TFloat (SFloat (lit "3.14")) = Some (SFloat (lit "3.14")).
Proof. vm_compute. reflexivity. Qed.
Example strings :
  forallb (fun s => match round_trip TStr (SStr s) with Some (SStr s') => seqb s s' | _ => false end)
    [lit "hello"; lit "say ""hello"""; lit "path\to\file";
     lit "line one" ++ [NL] ++ lit "line two" ++ [NL] ++ lit "line three" ++ [NL];
     concat (repeat (lit "word ") 37) ++ lit "word" ++ [NL]] = true.
Proof. vm_compute. reflexivity. Qed.
Example option_some : round_trip (TOption (TInt I64)) (SSome (SInt I64 42)) = Some (SSome (SInt I64 42)).
Proof. vm_compute. reflexivity. Qed.
Example option_none : round_trip (TOption (TInt I64)) SNone = Some SNone.
Proof. vm_compute. reflexivity. Qed.
Example unit : round_trip TUnit SUnit = Some SUnit. Proof. vm_compute. reflexivity. Qed.

(** Collections: 658-698. *)
Definition i64s (l : list Z) : list sval := map (SInt I64) l.
Example vec_of_ints : round_trip (TSeq (TInt I64)) (SSeq (i64s [1; 2; 3; 4; 5]%Z)) = Some (SSeq (i64s [1; 2; 3; 4; 5]%Z)).
Proof. vm_compute. reflexivity. Qed.
Example vec_of_strings :
  round_trip (TSeq TStr) (SSeq [SStr (lit "alpha"); SStr (lit "beta")]) = Some (SSeq [SStr (lit "alpha"); SStr (lit "beta")]).
Proof. vm_compute. reflexivity. Qed.
Example empty_vec : round_trip (TSeq (TInt I64)) (SSeq []) = Some (SSeq []).
Proof. vm_compute. reflexivity. Qed.
Example vec_stays_block_as_top_level_value :
  option_map pretty (ser (SSeq (i64s [1; 2; 3]%Z))) =
  Some (Array [AElem (mkA None (Unquoted (lit "1"))); AElem (mkA None (Unquoted (lit "2")));
               AElem (mkA None (Unquoted (lit "3")))]).
Proof. vm_compute. reflexivity. Qed.
Example vec_stays_block_when_long :
  match option_map pretty (ser (SSeq [SStr (repeat (chr "a") 30); SStr (repeat (chr "b") 30); SStr (repeat (chr "c") 30)])) with
  | Some (Array _) => True | _ => False end.
Proof. vm_compute. exact I. Qed.

(** Tuples: 702-743. *)
Example tuple_is_always_inline :
  ser (STuple [SStr (lit "hello"); SInt I64 42]) = Some (InlineArray [Unquoted (lit "hello"); Unquoted (lit "42")]).
Proof. vm_compute. reflexivity. Qed.
Example tuple_round_trip :
  round_trip (TTuple [TStr; TInt I64; TBool]) (STuple [SStr (lit "hello"); SInt I64 42; SBool true]) =
  Some (STuple [SStr (lit "hello"); SInt I64 42; SBool true]).
Proof. vm_compute. reflexivity. Qed.
Example tuple_with_vec_arg :
  let v := STuple [SStr (lit "is_even"); SSeq (i64s [6]%Z); SBool true] in
  option_map pretty (ser v) =
    Some (InlineArray [Unquoted (lit "is_even"); InlineArray [Unquoted (lit "6")]; Unquoted (lit "true")]) /\
  round_trip (TTuple [TStr; TSeq (TInt I64); TBool]) v = Some v.
Proof. vm_compute. split; reflexivity. Qed.

(** Structs: 747-799. *)
Definition t_point : ty := TStruct [(lit "x", TInt I64); (lit "y", TInt I64)].
Definition point (x y : Z) : sval := SStruct [(lit "x", SInt I64 x); (lit "y", SInt I64 y)].
Example struct_round_trip : round_trip t_point (point 3 (-1)) = Some (point 3 (-1)).
Proof. vm_compute. reflexivity. Qed.
Example nested_struct_round_trip :
  let v := SStruct [(lit "name", SStr (lit "origin")); (lit "point", point 0 0);
                    (lit "tags", SSeq [SStr (lit "a"); SStr (lit "b")])] in
  round_trip (TStruct [(lit "name", TStr); (lit "point", t_point); (lit "tags", TSeq TStr)]) v = Some v.
Proof. vm_compute. reflexivity. Qed.
Definition t_option : ty := TStruct [(lit "value", TOption (TInt I64)); (lit "label", TOption TStr)].
Example struct_with_option_some :
  let v := SStruct [(lit "value", SSome (SInt I64 7)); (lit "label", SSome (SStr (lit "hello")))] in
  round_trip t_option v = Some v.
Proof. vm_compute. reflexivity. Qed.
Example struct_with_option_none :
  let v := SStruct [(lit "value", SNone); (lit "label", SNone)] in round_trip t_option v = Some v.
Proof. vm_compute. reflexivity. Qed.

(** Enums: 803-862. *)
Definition t_color : ty := TEnum [(lit "Red", VaUnit); (lit "Green", VaUnit); (lit "Blue", VaUnit)].
Example unit_enum_round_trip :
  map (fun n => round_trip t_color (SUnitV n)) [lit "Red"; lit "Green"; lit "Blue"] =
  map (fun n => Some (SUnitV n)) [lit "Red"; lit "Green"; lit "Blue"].
Proof. vm_compute. reflexivity. Qed.
Definition t_pybool : ty := TEnum [(lit "True", VaUnit); (lit "False", VaUnit)].
Example python_bool_round_trip :
  map (fun n => round_trip t_pybool (SUnitV n)) [lit "True"; lit "False"] =
  map (fun n => Some (SUnitV n)) [lit "True"; lit "False"].
Proof. vm_compute. reflexivity. Qed.
Example python_bool_from_unquoted : from_yaml t_pybool (Unquoted (lit "True")) = Some (SUnitV (lit "True")).
Proof. vm_compute. reflexivity. Qed.

(** Anchors: 909-941. *)
Definition t_choose : ty := TStruct [(lit "options", TSeq TStr); (lit "solution", TStr)].
Example anchor_in_array_resolved_by_alias ut :
  from_yaml_str ut t_choose (lit "---
options:
  - &correct answer_a
  - answer_b
solution: *correct
") = CVal (SStruct [(lit "options", SSeq [SStr (lit "answer_a"); SStr (lit "answer_b")]);
                    (lit "solution", SStr (lit "answer_a"))]).
Proof. vm_compute. reflexivity. Qed.
Example undefined_anchor_returns_err ut :
  from_yaml_str ut t_choose (lit "---
solution: *missing
options: []") = CErr.
Proof. vm_compute. reflexivity. Qed.

(** Literals: 966-1005. *)
Example literal_block_preserves_inner_indent ut :
  from_yaml_str ut (TStruct [(lit "solution", TStr)]) (lit "---
solution: |
  for i in range(5,21):
    print(i)
") = CVal (SStruct [(lit "solution", SStr (lit "for i in range(5,21):
  print(i)
"))]).
Proof. vm_compute. reflexivity. Qed.
Example literal_block_keep_preserves_trailing_newlines ut :
  from_yaml_str ut (TStruct [(lit "value", TStr)]) (lit "---
value: |+
  hello

") = CVal (SStruct [(lit "value", SStr (lit "hello

"))]).
Proof. vm_compute. reflexivity. Qed.
Example literal_block_keep_multiple_trailing_blank_lines ut :
  from_yaml_str ut (TStruct [(lit "value", TStr); (lit "next", TStr)]) (lit "---
value: |+
  hello


next: done
") = CVal (SStruct [(lit "value", SStr (lit "hello


")); (lit "next", SStr (lit "done"))]).
Proof. vm_compute. reflexivity. Qed.
Example key_with_trailing_space_is_trimmed ut :
  from_yaml_str ut (TStruct [(lit "type", TStr); (lit "x", TInt U32)]) (lit "---
type : foo
x: 7
") = CVal (SStruct [(lit "type", SStr (lit "foo")); (lit "x", SInt U32 7)]).
Proof. vm_compute. reflexivity. Qed.

(** Literals with an indentation indicator: 1115-1144. *)
Definition t_output : ty := TStruct [(lit "expected_output", TStr); (lit "points", TInt I64)].
Example literal_block_with_leading_spaces_round_trips :
  let v := SStruct [(lit "expected_output", SStr (lit "   September 2021
 Mo Tu We Th Fr Sa Su
")); (lit "points", SInt I64 5)] in
  round_trip t_output v = Some v.
Proof. vm_compute. reflexivity. Qed.
Example literal_block_sibling_field_not_stolen_by_block_value ut :
  from_yaml_str ut t_output (lit "---
expected_output: |2
     leading spaces here
points: 42
") = CVal (SStruct [(lit "expected_output", SStr (lit "   leading spaces here
")); (lit "points", SInt I64 42)]).
Proof. vm_compute. reflexivity. Qed.

(** Sequences of mappings: 1198-1226. *)
Example multi_key_list_item_still_works ut :
  from_yaml_str ut (TStruct [(lit "items", TSeq (TStruct [(lit "a", TInt I64); (lit "b", TInt I64)]))]) (lit "---
items:
  - a: 1
    b: 2
  - a: 3
    b: 4
") = CVal (SStruct [(lit "items", SSeq
  [SStruct [(lit "a", SInt I64 1); (lit "b", SInt I64 2)];
   SStruct [(lit "a", SInt I64 3); (lit "b", SInt I64 4)]])]).
Proof. vm_compute. reflexivity. Qed.
