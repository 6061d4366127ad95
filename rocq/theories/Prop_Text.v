(** C43: values through text. *)
From Coq Require Import ZArith.
From Verif Require Import Base Ast Format Pretty Peg YamlGrammar Consume Ser De FromStr
  Spec_Strings Spec_Pretty Spec_Serde Spec_Parse Spec_Format Spec_Text FormatExample TextFacts TextFacts2 TextExample.
Import ListNotations.

(** C43: serialize, pretty print, format, parse and deserialize. *)
Theorem C43_text_roundtrip : forall ut t v y,
  has_ty t v -> faithful v -> ser v = Some y -> root_fits ut v ->
  from_yaml_str ut t (format_doc (mkDoc [] [DYaml (pretty y)])) = CVal v.
Proof. exact text_roundtrip. Qed.
Print Assumptions C43_text_roundtrip.

(** The same without pretty printing, for values whose tree is canonical. *)
Theorem C43_text_roundtrip_canonical : forall ut t v y,
  has_ty t v -> faithful v -> ser v = Some y -> canon_doc ut (mkDoc [] [DYaml y]) ->
  from_yaml_str ut t (format_doc (mkDoc [] [DYaml y])) = CVal v.
Proof. exact text_roundtrip_canonical. Qed.
Print Assumptions C43_text_roundtrip_canonical.

Example C43_example ut :
  has_ty text_type text_value /\ faithful text_value /\ root_fits ut text_value /\
  match ser text_value with
  | Some y => format_doc (mkDoc [] [DYaml (pretty y)]) = lit "---
note: |+
  two
  lines: here
points:
  - x: -5
    label: '42, or so'
  - x: 7
    label: ~
rows:
  - [ 1 ]
  - []
  - [ 2, -3 ]
pair: [ ""it's [x]"", [ true, false ] ]
map:
  empty: []
  k:
    - ''
    - a:b"
  | None => False
  end.
Proof.
  split; [|split; [|split]].
  - unfold text_type, text_value, point. typed.
  - cbn. intuition discriminate.
  - split; [discriminate|].
    cbn [block_fits inline_fits fold_right first_place key_fits text_value].
    repeat match goal with
           | |- plain_key _ _ => key_ok
           | |- _ /\ _ => split
           | |- true = true -> _ => intros _
           | |- false = true -> _ => discriminate
           | |- _ :: _ = [] -> _ => discriminate
           | |- [] = [] -> _ => intros _
           | |- text_fits _ _ [] => split; [left; left; reflexivity|left; row]
           | |- text_fits _ _ _ => first [split; [first [by_char|plain_text]|left; row]
                                         |split; [by_char|right; split; [discriminate|]]]
           | |- readable _ _ => first [by_char|plain_text]
           | |- True => exact I
           | |- narrow _ => reflexivity
           | |- width _ <= _ => vm_compute; lia
           end.
    split; [not_in|]. split; [do 2 eexists; split; reflexivity|left; vm_compute; tauto].
  - vm_compute. reflexivity.
Qed.


(** ---- not without the side conditions ([read_as]: TextExample) ---- *)

(** Text that is read as an alias loses its first word, silently. *)
Theorem C43_alias_text_refuted : exists t v w, read_as t v (CVal w) /\ v <> w.
Proof. exists (TSeq TStr), (SSeq [SStr (lit "&a b"); SStr (lit "z")]), (SSeq [SStr (lit "b"); SStr (lit "z")]). split; [read_as|discriminate]. Qed.
Print Assumptions C43_alias_text_refuted.

(** A space separator other than the space is not quoted and lost. *)
Theorem C43_space_text_refuted : exists t v w, read_as t v (CVal w) /\ v <> w.
Proof. exists (TSeq TStr), (SSeq [SStr (160%N :: lit "b"); SStr (lit "z")]), (SSeq [SStr (lit "b"); SStr (lit "z")]). split; [read_as|discriminate]. Qed.
Print Assumptions C43_space_text_refuted.

(** A block scalar loses a leading empty line. *)
Theorem C43_empty_line_refuted : exists t v w, read_as t v (CVal w) /\ v <> w.
Proof. exists (TSeq TStr), (SSeq [SStr (NL :: lit "b"); SStr (lit "z")]), (SSeq [SStr (lit "b"); SStr (lit "z")]). split; [read_as|discriminate]. Qed.
Print Assumptions C43_empty_line_refuted.

(** A block scalar that starts with a tab loses the tab and the lines after the first. *)
Theorem C43_tab_line_refuted : exists t v w, read_as t v (CVal w) /\ v <> w.
Proof. exists (TStruct [(lit "k", TStr)]), (SStruct [(lit "k", SStr (TAB :: lit "a" ++ NL :: lit "b"))]), (SStruct [(lit "k", SStr (lit "a"))]). split; [read_as|discriminate]. Qed.
Print Assumptions C43_tab_line_refuted.

(** Text that is read as a reference. *)
Theorem C43_reference_text_refuted : exists t v, read_as t v CErr.
Proof. exists (TSeq TStr), (SSeq [SStr (lit "*a"); SStr (lit "z")]). read_as. Qed.
Print Assumptions C43_reference_text_refuted.

(** Text that is read as a sequence. *)
Theorem C43_dash_text_refuted : exists t v, read_as t v CErr.
Proof. exists (TSeq TStr), (SSeq [SStr (lit "- a"); SStr (lit "z")]). read_as. Qed.
Print Assumptions C43_dash_text_refuted.

(** Text with a colon at the end. *)
Theorem C43_final_colon_refuted : exists t v, read_as t v CErr.
Proof. exists (TSeq TStr), (SSeq [SStr (lit "a:"); SStr (lit "z")]). read_as. Qed.
Print Assumptions C43_final_colon_refuted.

(** Text with a carriage return. *)
Theorem C43_carriage_return_refuted : exists t v, read_as t v CErr.
Proof. exists (TSeq TStr), (SSeq [SStr (lit "a" ++ CR :: lit "b"); SStr (lit "z")]). read_as. Qed.
Print Assumptions C43_carriage_return_refuted.

(** A block scalar as the first of several fields of a struct in a sequence. *)
Theorem C43_first_field_refuted : exists t v, read_as t v CErr.
Proof. exists (TSeq (TStruct [(lit "a", TStr); (lit "b", TBool)])), (SSeq [SStruct [(lit "a", SStr (lit "x" ++ NL :: lit "y")); (lit "b", SBool true)]]). read_as. Qed.
Print Assumptions C43_first_field_refuted.

(** A sequence of one element that is not on one line, in a sequence. *)
Theorem C43_one_element_refuted : exists t v, read_as t v CErr.
Proof. exists (TSeq (TSeq (TStruct [(lit "a", TBool)]))), (SSeq [SSeq [SStruct [(lit "a", SBool true)]]; SSeq []]). read_as. Qed.
Print Assumptions C43_one_element_refuted.

(** A scalar as the root. *)
Theorem C43_root_scalar_refuted : exists t v, read_as t v CErr.
Proof. exists (TBool), (SBool true). read_as. Qed.
Print Assumptions C43_root_scalar_refuted.

(** A tuple as the root. *)
Theorem C43_root_tuple_refuted : exists t v, read_as t v CErr.
Proof. exists (TTuple [TBool]), (STuple [SBool true]). read_as. Qed.
Print Assumptions C43_root_tuple_refuted.

(** An empty sequence as the root. *)
Theorem C43_root_empty_refuted : exists t v, read_as t v CErr.
Proof. exists (TSeq TBool), (SSeq []). read_as. Qed.
Print Assumptions C43_root_empty_refuted.

(** A mapping key with a dot. *)
Theorem C43_dotted_key_refuted : exists t v, read_as t v CErr.
Proof. exists (TMap TStr TBool), (SMap [(SStr (lit "a.b"), SBool true)]). read_as. Qed.
Print Assumptions C43_dotted_key_refuted.

(** A negative number as a mapping key. *)
Theorem C43_negative_key_refuted : exists t v, read_as t v CErr.
Proof. exists (TMap (TInt I8) TBool), (SMap [(SInt I8 (-1), SBool true)]). read_as. Qed.
Print Assumptions C43_negative_key_refuted.

(** Without pretty printing: a sequence in a tuple. *)
Theorem C43_not_pretty_refuted : exists t v y, has_ty t v /\ faithful v /\ ser v = Some y /\
  forall ut, from_yaml_str ut t (format_doc (mkDoc [] [DYaml y])) = CErr /\
             from_yaml_str ut t (format_doc (mkDoc [] [DYaml (pretty y)])) = CVal v.
Proof.
  exists (TSeq (TTuple [TSeq TBool])), (SSeq [STuple [SSeq [SBool true]]]),
    (seq_yaml [InlineArray [seq_yaml [Unquoted (lit "true")]]]).
  split; [typed|]. split; [vm_compute; tauto|]. split; [reflexivity|]. intros ut. split; vm_compute; reflexivity.
Qed.
Print Assumptions C43_not_pretty_refuted.
