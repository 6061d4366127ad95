(** Property theorems C53 (what a reader can see). *)
From Coq Require Import ZArith.
From Verif Require Import Base Ast Strings Format Num Pretty Ser De Peg YamlGrammar Consume FromStr Spec_Pretty Spec_Serde
  Spec_Parse Spec_Format Spec_Stable Spec_Polish Spec_Look LookFacts LookFacts2 LookFacts3 FormatExample PolishExample.
Import ListNotations.

(** C53: a type reads two nodes alike when they look alike: comments, quotes (except around
    the words for bools and null) and block or inline style do not matter. *)
Theorem C53_typed_reader : forall t y z,
  look typed_word y = look typed_word z -> from_yaml t y = from_yaml t z.
Proof. exact from_yaml_look. Qed.
Print Assumptions C53_typed_reader.

(** For nodes without references and aliases and with distinct keys, this is all: nodes
    that do not look alike are read differently by some type. *)
Theorem C53_reader_sees_the_rest : forall y z,
  simple (look typed_word y) -> simple (look typed_word z) ->
  ((forall t, from_yaml t y = from_yaml t z) <-> look typed_word y = look typed_word z).
Proof. exact full_abstraction. Qed.
Print Assumptions C53_reader_sees_the_rest.

(** The untyped reader also sees whether a number is quoted. *)
Theorem C53_untyped_reader : forall fuel y z,
  look untyped_word y = look untyped_word z ->
  any_result (de_any fuel y []) = any_result (de_any fuel z []).
Proof. exact any_look. Qed.
Print Assumptions C53_untyped_reader.

Example C53_example :
  let y := Hash [HComment (lit " c"); HElem (mkHE (lit "a") (mkA None (Array [AElem (mkA None (SingleQ [SQ_Str (lit "1")])); AInlineC (lit "d");
                                                                              AElem (mkA None (Unquoted (lit "yes")))])))] in
  let z := InlineHash [(lit "a", InlineArray [Unquoted (lit "1"); Unquoted (lit "yes")])] in
  look typed_word y = look typed_word z /\ simple (look typed_word y) /\ look untyped_word y <> look untyped_word z /\
  from_yaml (TMap TStr (TTuple [TInt I8; TBool])) y = Some (SMap [(SStr (lit "a"), STuple [SInt I8 1; SBool true])]).
Proof.
  cbv zeta. split; [vm_compute; reflexivity|]. split; [|split; [vm_compute; discriminate|vm_compute; reflexivity]].
  vm_compute. repeat split. repeat constructor. intros [].
Qed.

(** Pretty printing does not change what is read. *)
Theorem C53_pretty_typed : forall t y, long_ok false y -> inline_no_block false y = true ->
  no_quoted typed_loose y -> from_yaml t (pretty y) = from_yaml t y.
Proof. exact typed_pretty. Qed.
Print Assumptions C53_pretty_typed.

Theorem C53_pretty_untyped : forall fuel y, long_ok false y -> inline_no_block false y = true ->
  no_quoted untyped_loose y -> any_result (de_any fuel (pretty y) []) = any_result (de_any fuel y []).
Proof. exact any_pretty. Qed.
Print Assumptions C53_pretty_untyped.

Example C53_pretty_example :
  let y := Array [AElem (mkA None (Array [AElem (mkA None (SingleQ [SQ_Str (lit "true")])); AElem (mkA None (Unquoted (lit "a|b")))]));
                  AElem (mkA (Some (lit "n")) (SingleQ [SQ_Str (lit "x")])); AElem (mkA None (Anchor (lit "n")))] in
  long_ok false y /\ inline_no_block false y = true /\ no_quoted typed_loose y /\ no_quoted untyped_loose y /\
  pretty y = Array [AElem (mkA None (InlineArray [SingleQ [SQ_Str (lit "true")]; Unquoted (lit "a|b")]));
                  AElem (mkA (Some (lit "n")) (Unquoted (lit "x"))); AElem (mkA None (Anchor (lit "n")))].
Proof.
  cbv zeta. split; [|split; [vm_compute; reflexivity|split; [|split; [|vm_compute; reflexivity]]]].
  - cbn [long_ok fold_right]. repeat split; intros _ _ H; vm_compute in H; exfalso; lia.
  - vm_compute. repeat split.
  - vm_compute. repeat split.
Qed.

(** Nor does rewriting a file, with or without pretty printing. *)
Theorem C53_pretty_file : forall ut t s d, parse_yaml ut s = CVal d -> calm_doc ut d -> polish_doc ut d ->
  doc_all (no_quoted typed_loose) d ->
  from_yaml_str ut t (format_doc (pretty_doc d)) = from_yaml_str ut t s.
Proof. exact read_pretty_file. Qed.
Print Assumptions C53_pretty_file.

Theorem C53_format_file : forall ut t s d, parse_yaml ut s = CVal d -> calm_doc ut d ->
  from_yaml_str ut t (format_doc d) = from_yaml_str ut t s.
Proof. exact read_format_file. Qed.
Print Assumptions C53_format_file.

Example C53_file_example : forall ut,
  parse_yaml ut quoted_file = CVal quoted_doc /\ calm_doc ut quoted_doc /\ polish_doc ut quoted_doc /\
  doc_all (no_quoted typed_loose) quoted_doc /\
  from_yaml_str ut (TStruct [(lit "b", TStr); (lit "d", TSeq TStr)]) quoted_file =
    CVal (SStruct [(lit "b", SStr (lit "x" ++ [TAB] ++ lit "y")); (lit "d", SSeq [SStr (lit "u, v")])]).
Proof.
  intros ut. split; [vm_compute; reflexivity|]. split; [exact (quoted_calm ut)|]. split; [exact (quoted_polish ut)|].
  split; [|vm_compute; reflexivity]. intros y [H|[]]; inversion H; subst. vm_compute. repeat split.
Qed.

(** Pretty printing removes the quotes around words that mean something without them: *)
Theorem C53_bool_word_refuted : exists t y, long_ok false y /\ inline_no_block false y = true /\
  from_yaml t y = None /\ from_yaml t (pretty y) = Some (SBool true).
Proof.
  exists TBool, (SingleQ [SQ_Str (lit "yes")]).
  split; [intros _ _ H; vm_compute in H; exfalso; lia|]. vm_compute. repeat split.
Qed.
Print Assumptions C53_bool_word_refuted.

Theorem C53_null_word_refuted : exists t y, long_ok false y /\ inline_no_block false y = true /\
  from_yaml t y = Some (SSome (SStr (lit "Null"))) /\ from_yaml t (pretty y) = Some SNone /\
  any_result (de_any 1 y []) = Done (AnStr (lit "Null")) [] /\ any_result (de_any 1 (pretty y) []) = Done AnUnit [].
Proof.
  exists (TOption TStr), (SingleQ [SQ_Str (lit "Null")]).
  split; [intros _ _ H; vm_compute in H; exfalso; lia|]. vm_compute. repeat split.
Qed.
Print Assumptions C53_null_word_refuted.

(** The same in a file. *)
Theorem C53_null_word_file_refuted : exists s t, forall ut, exists d,
  parse_yaml ut s = CVal d /\
  from_yaml_str ut t s = CVal (SStruct [(lit "a", SSome (SStr (lit "Null")))]) /\
  from_yaml_str ut t (format_doc (pretty_doc d)) = CVal (SStruct [(lit "a", SNone)]).
Proof.
  exists (lit "---
a: 'Null'
"), (TStruct [(lit "a", TOption TStr)]). intros ut. eexists. split; [vm_compute; reflexivity|]. split; vm_compute; reflexivity.
Qed.
Print Assumptions C53_null_word_file_refuted.
