(** The tests of /repo/src/yaml/deserializer.rs that use serde attributes, run on the
    model; the equalities are checked by the kernel. *)
From Coq Require Import ZArith.
From Verif Require Import Base Ast Strings Format Num Pretty Peg YamlGrammar Consume Ser De FromStr Attr.
Import ListNotations.

(** [round_trip]: deserializer.rs 567-573. *)
Definition x_round_trip (t : xty) (v : sval) : outcome sval :=
  match emit t v with
  | Some s => match ser s with Some y => read_yaml 20 t (pretty y) | None => Failed end
  | None => Failed
  end.
Definition x_from_str (ut : unitab) (t : xty) (s : str) : outcome sval :=
  match read_str ut 20 t s with CVal r => r | _ => Failed end.

(** 797-812. *)
Definition t_untagged : xty :=
  XUntagged [(lit "Int", XVNew (XInt I64)); (lit "Text", XVNew XStr); (lit "List", XVNew (XSeq (XInt I64)))].
Example untagged_int :
  x_round_trip t_untagged (SNewV (lit "Int") (SInt I64 42)) = Done (SNewV (lit "Int") (SInt I64 42)) [].
Proof. vm_compute. reflexivity. Qed.
Example untagged_list :
  let v := SNewV (lit "List") (SSeq [SInt I64 1; SInt I64 2; SInt I64 3]) in
  x_round_trip t_untagged v = Done v [].
Proof. vm_compute. reflexivity. Qed.

(** 845-890. *)
Definition t_py : xty := XEnum [(lit "True", XVUnit); (lit "False", XVUnit)].
Definition t_call : xty :=
  XUntagged [(lit "WithSeed", XVTup [XStr; XSeq (XInt I64); t_py; XOption (XInt U64)]);
             (lit "Normal", XVTup [XStr; XSeq (XInt I64); t_py])].
Definition call_normal : sval :=
  STupV (lit "Normal") [SStr (lit "is_even"); SSeq [SInt I64 6]; SUnitV (lit "True")].
Definition call_seed : sval :=
  STupV (lit "WithSeed") [SStr (lit "double"); SSeq [SInt I64 3]; SUnitV (lit "False"); SSome (SInt U64 42)].
Example function_call_normal_round_trip : x_round_trip t_call call_normal = Done call_normal [].
Proof. vm_compute. reflexivity. Qed.
Example function_call_with_seed_round_trip : x_round_trip t_call call_seed = Done call_seed [].
Proof. vm_compute. reflexivity. Qed.
Example function_call_normal_is_inline :
  match emit t_call call_normal with Some s => option_map pretty (ser s) | None => None end =
  Some (InlineArray [Unquoted (lit "is_even"); InlineArray [Unquoted (lit "6")]; Unquoted (lit "True")]).
Proof. vm_compute. reflexivity. Qed.

(** 918-946, 1008-1020. *)
Definition t_flat_inner : xty :=
  XTagged (lit "type") [(lit "foo", XVNew (XStruct [(lit "x", (false, XInt U32))]));
                        (lit "bar", XVNew (XStruct [(lit "y", (false, XStr))]))].
Definition t_flat_outer : xty :=
  XUntagged [(lit "A", XVNew t_flat_inner); (lit "B", XVNew (XStruct [(lit "name", (false, XStr))]))].
Definition t_flat_item : xty :=
  XStruct [(lit "metadata", (false, XStruct [(lit "id", (false, XInt U32))])); (lit "content", (true, t_flat_outer))].
Definition flat_item : sval :=
  SStruct [(lit "metadata", SStruct [(lit "id", SInt U32 42)]);
           (lit "content", SNewV (lit "A") (SNewV (lit "foo") (SStruct [(lit "x", SInt U32 7)])))].
Example flatten_untagged_internally_tagged ut :
  x_from_str ut t_flat_item (lit "---
metadata:
  id: 42
type: foo
x: 7
") = Done flat_item [].
Proof. vm_compute. reflexivity. Qed.

(** 1023-1112. *)
Definition t_nested : xty :=
  XStruct [(lit "meta", (false, XInt U32));
           (lit "content", (true, XTagged (lit "type")
             [(lit "input", XVNew (XStruct
                [(lit "kind", (true, XTagged (lit "kind")
                   [(lit "expr", XVNew (XStruct [(lit "solution", (false, XInt I64)); (lit "feedback", (false, XOption XStr))]))]));
                 (lit "points", (false, XInt I16))]))]))].
Definition nested_item : sval :=
  SStruct [(lit "meta", SInt U32 1);
           (lit "content", SNewV (lit "input") (SStruct
              [(lit "kind", SNewV (lit "expr") (SStruct [(lit "solution", SInt I64 42); (lit "feedback", SNone)]));
               (lit "points", SInt I16 100)]))].
Example nested_flatten_with_extra_fields ut :
  x_from_str ut t_nested (lit "---
meta: 1
type: input
kind: expr
solution: 42
points: 100
") = Done nested_item [].
Proof. vm_compute. reflexivity. Qed.
Example nested_flatten_with_explicit_none_and_extra_fields ut :
  x_from_str ut t_nested (lit "---
meta: 1
type: input
kind: expr
solution: 42
feedback: ~
points: 100
") = Done nested_item [].
Proof. vm_compute. reflexivity. Qed.
Example nested_round_trip : x_round_trip t_nested nested_item = Done nested_item [] /\
  x_round_trip t_flat_item flat_item = Done flat_item [].
Proof. vm_compute. split; reflexivity. Qed.

(** 1150-1192: the recursive type is unrolled twice. *)
Definition t_items (t : xty) : xty := XStruct [(lit "tuple_items", (false, XSeq t))].
Definition t_item (n : nat) : xty :=
  Nat.iter n (fun t => XUntagged [(lit "Nested", XVNew (t_items t)); (lit "Int", XVNew (XInt I64))])
    (XUntagged [(lit "Int", XVNew (XInt I64))]).
Definition item (z : Z) : sval := SNewV (lit "Int") (SInt I64 z).
Example single_key_list_item_does_not_steal_outer_sibling ut :
  x_from_str ut (XStruct [(lit "solution", (false, t_items (t_item 2))); (lit "points", (false, XInt I64))]) (lit "---
solution:
  tuple_items:
    - 10
    - tuple_items:
        - 8
        - 5
points: 99
") = Done (SStruct [(lit "solution", SStruct [(lit "tuple_items", SSeq
             [item 10; SNewV (lit "Nested") (SStruct [(lit "tuple_items", SSeq [item 8; item 5])])])]);
           (lit "points", SInt I64 99)]) [].
Proof. vm_compute. reflexivity. Qed.
