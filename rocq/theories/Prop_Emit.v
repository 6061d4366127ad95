(** C88: which node a value of a type with serde attributes is written as. *)
From Coq Require Import ZArith.
From Verif Require Import Base Ast Format Num Strings Ser De Attr Spec_Ser Spec_Emit EmitFacts.
Import ListNotations.

(** Exactly the nodes of [node_for]; no node if serializing fails. *)
Theorem C88_node : forall t v y, (exists s, emit t v = Some s /\ ser s = Some y) <-> node_for t v y.
Proof. exact emit_exact. Qed.
Print Assumptions C88_node.

(** One node at most. *)
Theorem C88_one : forall t v y z, node_for t v y -> node_for t v z -> y = z.
Proof. exact node_unique. Qed.
Print Assumptions C88_one.

(** The tag and the name of the variant come first. *)
Theorem C88_tag : forall tag vs v y, node_for (XTagged tag vs) v y -> exists m es, text_node (variant_name v) m /\ y = Hash (row (tag, m) :: map row es).
Proof. exact tag_first. Qed.
Print Assumptions C88_tag.

(** An enum in a tagged enum, an option and an enum that are flattened, a tag, an untagged sequence. *)
Definition shape_ty : xty := XEnum [(lit "dot", XVUnit); (lit "line", XVStruct [(lit "x", XInt U8)]); (lit "path", XVTup [XInt U8; XStr])].
Definition page_ty : xty :=
  XStruct [ (lit "name", (false, XStr)); (lit "shape", (true, shape_ty)); (lit "extra", (true, XOption (XMap XStr XBool)))
          ; (lit "parts", (false, XSeq (XTagged (lit "type") [(lit "S", XVNew shape_ty); (lit "N", XVUnit); (lit "M", XVNew (XMap (XInt I64) XUnit))])))
          ; (lit "any", (false, XUntagged [(lit "A", XVNew (XSeq XBool)); (lit "B", XVUnit)])) ].
Definition page : sval :=
  SStruct [ (lit "name", SStr (lit "a: b")); (lit "shape", SStructV (lit "line") [(lit "x", SInt U8 3)]); (lit "extra", SSome (SMap [(SStr (lit "k"), SBool true)]))
          ; (lit "parts", SSeq [SNewV (lit "S") (STupV (lit "path") [SInt U8 1; SStr (lit "7")]); SUnitV (lit "N"); SNewV (lit "M") (SMap [(SInt I64 (-1), SUnit)])])
          ; (lit "any", SNewV (lit "A") (SSeq [SBool false])) ].
Example C88_example : exists y, node_for page_ty page y /\ format_doc (mkDoc [] [DYaml y]) = lit "---
name: 'a: b'
line:
  x: 3
k: true
parts:
  - type: S
    path: [ 1, '7' ]
  - type: N
  - type: M
    -1: ~
any:
  - false".
Proof.
  let s := eval vm_compute in (emit page_ty page) in
  match s with Some ?s =>
    let y := eval vm_compute in (ser s) in
    match y with Some ?y => exists y; split; [apply C88_node; exists s; split; vm_compute; reflexivity|vm_compute; reflexivity] end
  end.
Qed.

(** Without a tag and without flattening the name of a variant with data is lost. *)
Theorem C88_name_refuted : exists t v w y, v <> w /\ node_for t v y /\ node_for t w y.
Proof.
  exists (XEnum [(lit "A", XVNew XBool); (lit "B", XVNew XBool)]), (SNewV (lit "A") (SBool true)), (SNewV (lit "B") (SBool true)), (Unquoted (lit "true")).
  split; [discriminate|]. split; apply C88_node; eexists; split; reflexivity.
Qed.
Print Assumptions C88_name_refuted.
(** A struct with a name in quotes is written, but not if one of its fields is flattened. *)
Theorem C88_flat_refuted : exists n y, node_for (XStruct [(n, (false, XBool)); (lit "r", (false, XUnit))]) (SStruct [(n, SBool true); (lit "r", SUnit)]) y /\
  forall z, ~ node_for (XStruct [(n, (false, XBool)); (lit "r", (true, XUnit))]) (SStruct [(n, SBool true); (lit "r", SUnit)]) z.
Proof.
  exists (lit "a, b"). eexists. split; [apply C88_node; eexists; split; reflexivity|].
  intros z H. apply C88_node in H as (s & E & S). injection E as <-. discriminate S.
Qed.
Print Assumptions C88_flat_refuted.
