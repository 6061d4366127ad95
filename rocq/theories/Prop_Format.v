(** Property theorem C35 (format, then parse). *)
From Verif Require Import Base Ast Num Strings Peg YamlGrammar Consume Format Spec_Parse Spec_Format
  Reads FormatTree FormatExample.
Import ListNotations.

(** C35: the text of a canonical document is parsed back to exactly that document. *)
Theorem C35_format_parse :
  forall ut d, canon_doc ut d -> parse_yaml ut (format_doc d) = CVal d.
Proof. exact format_parse. Qed.
Print Assumptions C35_format_parse.

Example C35_example : forall ut, canon_doc ut big_doc.
Proof. exact big_doc_canon. Qed.
Example C35_example_text :
  format_doc big_doc =
  lit "# before" ++ [NL] ++
  lit "---" ++ [NL] ++
  lit "# top" ++ [NL] ++
  lit "# two" ++ [NL] ++
  lit "title: see http://x.org:80, -really # inline" ++ [NL] ++
  lit "# a comment" ++ [NL] ++
  lit "text: &t1 |+" ++ [NL] ++
  lit "  one" ++ [NL] ++
  lit "    two" ++ [NL] ++
  lit "  " ++ [NL] ++
  lit "  # three" ++ [NL] ++
  lit "folded key: >-2" ++ [NL] ++
  lit "   one" ++ [NL] ++
  lit "  two" ++ [NL] ++
  lit "map:" ++ [NL] ++
  lit "  #first" ++ [NL] ++
  lit "  a: 1" ++ [NL] ++
  lit "  b: &here" ++ [NL] ++
  lit "    c: 2" ++ [NL] ++
  lit "    d: 3" ++ [NL] ++
  lit "list:" ++ [NL] ++
  lit "  #start" ++ [NL] ++
  lit "  - x: 1" ++ [NL] ++
  lit "    y:" ++ [NL] ++
  lit "      - deep" ++ [NL] ++
  lit "      - *here" ++ [NL] ++
  lit "  - - 'it''s'" ++ [NL] ++
  lit "    - " ++ [DQUOTE] ++ lit "tab\t" ++ [DQUOTE] ++ lit " #c" ++ [NL] ++
  lit "  - { p: [ q, * ], r: {} }" ++ [NL] ++
  lit "  - &z" ++ [NL] ++
  lit "    - m" ++ [NL] ++
  lit "    - n" ++ [NL] ++
  lit "#end".
Proof. vm_compute. reflexivity. Qed.

(** A line break at the end of the text changes nothing. *)
Theorem C35_final_newline :
  forall ut d, canon_doc ut d -> parse_yaml ut (format_doc d ++ [NL]) = CVal d.
Proof. exact format_newline_parse. Qed.
Print Assumptions C35_final_newline.

(** Two canonical documents with the same text are equal. *)
Theorem C35_format_injective :
  forall ut d e, canon_doc ut d -> canon_doc ut e -> format_doc d = format_doc e -> d = e.
Proof. exact format_injective. Qed.
Print Assumptions C35_format_injective.

(** Outside the class documents do change.  In each case the text is parsed to another
    document. *)
Notation plain s := (mkA None (Unquoted (lit s))).
Notation root y := (mkDoc [] [DYaml y]).

(** A one-element sequence inside a sequence takes over the elements after it. *)
Theorem C35_one_element_sequence_refuted : exists d e, d <> e /\
  forall ut, parse_yaml ut (format_doc d) = CVal e.
Proof.
  exists (root (Array [AElem (mkA None (Array [AElem (plain "a")])); AElem (plain "b")])),
         (root (Array [AElem (mkA None (Array [AElem (plain "a"); AElem (plain "b")]))])).
  split; [discriminate|]. intros ut. vm_compute. reflexivity.
Qed.
Print Assumptions C35_one_element_sequence_refuted.

(** An aliased one-entry mapping as first value of a mapping in a sequence takes over the
    entries after it. *)
Theorem C35_aliased_first_value_refuted : exists d e, d <> e /\
  forall ut, parse_yaml ut (format_doc d) = CVal e.
Proof.
  exists (root (Array [AElem (mkA None (Hash
            [ HElem (mkHE (lit "a") (mkA (Some (lit "z")) (Hash [scalar "x" "1"]))); scalar "b" "2"]))])),
         (root (Array [AElem (mkA None (Hash
            [ HElem (mkHE (lit "a") (mkA (Some (lit "z")) (Hash [scalar "x" "1"; scalar "b" "2"])))]))])).
  split; [discriminate|]. intros ut. vm_compute. reflexivity.
Qed.
Print Assumptions C35_aliased_first_value_refuted.

(** So does a block scalar. *)
Theorem C35_block_scalar_first_value_refuted : exists d e, d <> e /\
  forall ut, parse_yaml ut (format_doc d) = CVal e.
Proof.
  exists (root (Array [AElem (mkA None (Hash
            [ HElem (mkHE (lit "a") (mkA None (Literal [lit "text"] Clip))); scalar "bcd" "2"]))])),
         (root (Array [AElem (mkA None (Hash
            [ HElem (mkHE (lit "a") (mkA None (Literal [lit "text"; lit "d: 2"] Clip)))]))])).
  split; [discriminate|]. intros ut. vm_compute. reflexivity.
Qed.
Print Assumptions C35_block_scalar_first_value_refuted.

(** Empty block collections come back as inline ones. *)
Theorem C35_empty_collection_refuted : exists d e, d <> e /\
  forall ut, parse_yaml ut (format_doc d) = CVal e.
Proof.
  exists (root (Hash [HElem (mkHE (lit "a") (mkA None (Hash []))); HElem (mkHE (lit "b") (mkA None (Array [])))])),
         (root (Hash [HElem (mkHE (lit "a") (mkA None (InlineHash []))); HElem (mkHE (lit "b") (mkA None (InlineArray [])))])).
  split; [discriminate|]. intros ut. vm_compute. reflexivity.
Qed.
Print Assumptions C35_empty_collection_refuted.

(** Unquoted text that ends with a colon becomes the key of a mapping. *)
Theorem C35_final_colon_refuted : exists d e, d <> e /\
  forall ut, parse_yaml ut (format_doc d) = CVal e.
Proof.
  exists (root (Hash [scalar "a" "b:"; scalar "c" "d"])),
         (root (Hash [HElem (mkHE (lit "a") (mkA None (Hash
            [HElem (mkHE (lit "b") (mkA None (Hash [scalar "c" "d"])))])))])).
  split; [discriminate|]. intros ut. vm_compute. reflexivity.
Qed.
Print Assumptions C35_final_colon_refuted.

(** Text like "&x" is read as an alias. *)
Theorem C35_alias_text_refuted : exists d e, d <> e /\
  forall ut, parse_yaml ut (format_doc d) = CVal e.
Proof.
  exists (root (Hash [scalar "a" "&x"; scalar "b" "- y"])),
         (root (Hash [HElem (mkHE (lit "a") (mkA (Some (lit "x")) (Hash
            [HElem (mkHE (lit "b") (mkA None (Array [AElem (plain "y")])))])))])).
  split; [discriminate|]. intros ut. vm_compute. reflexivity.
Qed.
Print Assumptions C35_alias_text_refuted.

(** A first line that is blank, or starts with a tabulator, is lost or changed. *)
Theorem C35_first_line_refuted : exists d e, d <> e /\
  forall ut, parse_yaml ut (format_doc d) = CVal e.
Proof.
  exists (root (Hash [HElem (mkHE (lit "a") (mkA None (Literal [[]; TAB :: lit "x"; TAB :: lit "y"] Clip)))])),
         (root (Hash [HElem (mkHE (lit "a") (mkA None (Literal [lit "x"; lit "y"] Clip)))])).
  split; [discriminate|]. intros ut. vm_compute. reflexivity.
Qed.
Print Assumptions C35_first_line_refuted.

(** The text of a mapping that starts with a comment inside a sequence is rejected, and so
    is that of an inline root. *)
Theorem C35_rejected_text_refuted : exists d e,
  forall ut, parse_yaml ut (format_doc d) = CErr /\ parse_yaml ut (format_doc e) = CErr.
Proof.
  exists (root (Array [AElem (mkA None (Hash [HComment (lit "c"); scalar "b" "2"]))])),
         (root (InlineArray [])).
  intros ut. split; vm_compute; reflexivity.
Qed.
Print Assumptions C35_rejected_text_refuted.
