(** Property theorems C51 (pretty printing a file). *)
From Verif Require Import Base Ast Peg YamlGrammar Consume Format Pretty Spec_Pretty Spec_Parse Spec_Format
  Spec_Stable Spec_Polish PolishFacts FormatExample PolishExample.
Import ListNotations.

(** C51: a parsed document in the class can be pretty printed and written; the text parses,
    to a document with the same data, and with the same keys, comments and aliases in the
    same order; that document is pretty already. *)
Theorem C51_pretty_file :
  forall ut s d, parse_yaml ut s = CVal d -> calm_doc ut d -> polish_doc ut d -> exists d',
    parse_yaml ut (format_doc (pretty_doc d)) = CVal d' /\
    doc_views d' = doc_views d /\ doc_marks d' = doc_marks d /\ pretty_doc d' = d'.
Proof. exact pretty_file. Qed.
Print Assumptions C51_pretty_file.

(** The same for canonical documents, however they were made; the text parses to the
    pretty document itself. *)
Theorem C51_pretty_parses :
  forall ut d, canon_doc ut d -> polish_doc ut d ->
    parse_yaml ut (format_doc (pretty_doc d)) = CVal (pretty_doc d).
Proof. exact pretty_parse. Qed.
Print Assumptions C51_pretty_parses.

Theorem C51_pretty_canonical :
  forall ut d, canon_doc ut d -> polish_doc ut d -> canon_doc ut (pretty_doc d).
Proof. exact pretty_canon. Qed.
Print Assumptions C51_pretty_canonical.

Example C51_example : forall ut,
  parse_yaml ut quoted_file = CVal quoted_doc /\ calm_doc ut quoted_doc /\ polish_doc ut quoted_doc.
Proof. intros ut. split; [vm_compute; reflexivity|]. split; [exact (quoted_calm ut)|exact (quoted_polish ut)]. Qed.
Example C51_example_text : format_doc (pretty_doc quoted_doc) =
  lit "---" ++ [NL] ++
  lit "a: plain # c" ++ [NL] ++
  lit "b: |-" ++ [NL] ++
  lit "  x" ++ [TAB] ++ lit "y" ++ [NL] ++
  lit "# list" ++ [NL] ++
  lit "c:" ++ [NL] ++
  lit "  - [ 1, p q ]" ++ [NL] ++
  lit "  - k: >-" ++ [NL] ++
  lit "      aaaaaaaaa aaaaaaaaa aaaaaaaaa aaaaaaaaa aaaaaaaaa aaaaaaaaa aaaaaaaaa aaaaaaaaa aaaaaaaaa" ++ [NL] ++
  lit "      aaaaaaaaa" ++ [NL] ++
  lit "      " ++ [NL] ++
  lit "d: &z [ 'u, v' ]".
Proof. vm_compute. reflexivity. Qed.

(** Outside the class pretty printing a file changes its data.  In each case the text
    parses, the document is calm, and the pretty text parses to a document with other
    data. *)
Notation root y := (mkDoc [] [DYaml y]).

(** A comment behind a quoted scalar becomes part of the text: *)
Theorem C51_comment_refuted : exists s d, changes s d.
Proof.
  exists (lit "---" ++ [NL] ++ lit "a: ""x\n"" # c"),
    (root (Hash [HElem (mkHE (lit "a") (mkA None (DoubleQ [DQ_Str (lit "x"); DQ_Esc E_Newline]))); HInlineC (lit " c")])).
  intros ut. split; [vm_compute; reflexivity|]. split; [calm_t|].
  exists (root (Hash [HElem (mkHE (lit "a") (mkA None (Literal [lit "x # c"] Keep)))])).
  split; [vm_compute; reflexivity|vm_compute; discriminate].
Qed.
Print Assumptions C51_comment_refuted.

(** The second entry of a sequence element becomes part of the text of the first: *)
Theorem C51_first_value_refuted : exists s d, changes s d.
Proof.
  exists (lit "---" ++ [NL] ++ lit "- a: ""x\ty""" ++ [NL] ++ lit "  b: 1"),
    (root (Array [AElem (mkA None (Hash [HElem (mkHE (lit "a") (mkA None (DoubleQ [DQ_Str (lit "x"); DQ_Esc E_Tab; DQ_Str (lit "y")])));
                                         scalar "b" "1"]))])).
  intros ut. split; [vm_compute; reflexivity|]. split; [calm_t|].
  exists (root (Array [AElem (mkA None (Hash [HElem (mkHE (lit "a") (mkA None (Literal [lit "x" ++ [TAB] ++ lit "y"; lit " 1"] Strip)))]))])).
  split; [vm_compute; reflexivity|vm_compute; discriminate].
Qed.
Print Assumptions C51_first_value_refuted.

(** Quotes that were needed are removed: around what looks like an alias, a sequence or a
    key: *)
Theorem C51_alias_text_refuted : exists s d, changes s d.
Proof.
  exists (lit "---" ++ [NL] ++ lit "a: '&n'" ++ [NL] ++ lit "b: 1"),
    (root (Hash [HElem (mkHE (lit "a") (mkA None (SingleQ [SQ_Str (lit "&n")]))); scalar "b" "1"])).
  intros ut. split; [vm_compute; reflexivity|]. split; [calm_t|].
  exists (root (Hash [HElem (mkHE (lit "a") (mkA (Some (lit "n")) (Hash [scalar "b" "1"])))])).
  split; [vm_compute; reflexivity|vm_compute; discriminate].
Qed.
Print Assumptions C51_alias_text_refuted.

Theorem C51_dash_text_refuted : exists s d, changes s d.
Proof.
  exists (lit "---" ++ [NL] ++ lit "a: '- x'"),
    (root (Hash [HElem (mkHE (lit "a") (mkA None (SingleQ [SQ_Str (lit "- x")])))])).
  intros ut. split; [vm_compute; reflexivity|]. split; [calm_t|].
  exists (root (Hash [HElem (mkHE (lit "a") (mkA None (Array [AElem (mkA None (Unquoted (lit "x")))])))])).
  split; [vm_compute; reflexivity|vm_compute; discriminate].
Qed.
Print Assumptions C51_dash_text_refuted.

Theorem C51_colon_text_refuted : exists s d, changes s d.
Proof.
  exists (lit "---" ++ [NL] ++ lit "a: 'x:'" ++ [NL] ++ lit "b: 1"),
    (root (Hash [HElem (mkHE (lit "a") (mkA None (SingleQ [SQ_Str (lit "x:")]))); scalar "b" "1"])).
  intros ut. split; [vm_compute; reflexivity|]. split; [calm_t|].
  exists (root (Hash [HElem (mkHE (lit "a") (mkA None (Hash [HElem (mkHE (lit "x") (mkA None (Hash [scalar "b" "1"])))])))])).
  split; [vm_compute; reflexivity|vm_compute; discriminate].
Qed.
Print Assumptions C51_colon_text_refuted.

(** The pretty text of a calm document can be rejected: a quoted scalar that starts with a
    line break; an unquoted scalar with ">" that is moved into an inline sequence. *)
Theorem C51_rejected_refuted : exists s1 s2, forall ut s, In s [s1; s2] ->
  exists d, parse_yaml ut s = CVal d /\ calm_doc ut d /\ parse_yaml ut (format_doc (pretty_doc d)) = CErr.
Proof.
  exists (lit "---" ++ [NL] ++ lit "a: ""\n""" ++ [NL] ++ lit "b: 1"),
    (lit "---" ++ [NL] ++ lit "- - x>" ++ [NL] ++ lit "  - y").
  intros ut s [<-|[<-|[]]].
  - exists (root (Hash [HElem (mkHE (lit "a") (mkA None (DoubleQ [DQ_Esc E_Newline]))); scalar "b" "1"])).
    split; [vm_compute; reflexivity|]. split; [calm_t|vm_compute; reflexivity].
  - exists (root (Array [AElem (mkA None (Array [AElem (mkA None (Unquoted (lit "x>"))); AElem (mkA None (Unquoted (lit "y")))]))])).
    split; [vm_compute; reflexivity|]. split; [calm_t|vm_compute; reflexivity].
Qed.
Print Assumptions C51_rejected_refuted.
