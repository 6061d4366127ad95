(** Property theorems C48 (meaning of scalars). *)
From Verif Require Import Base Ast Num Strings Peg YamlGrammar Consume Spec_Parse Spec_Format Spec_Scalar
  ScalarFacts FormatExample.
Import ListNotations.

(** C48: between double quotes the escapes and line breaks mean what [dq_means] says. *)
Theorem C48_double_quoted :
  forall ut k s v, plain_key ut k -> dq_means s v ->
  exists y, parse_yaml ut (entry_file k ([SP; DQUOTE] ++ s ++ [DQUOTE])) = CVal (entry_doc k y)
    /\ as_string y = Some v.
Proof. exact double_quoted_meaning. Qed.
Print Assumptions C48_double_quoted.

Example C48_double_quoted_example :
  dq_means (lit "a\t\" ++ [DQUOTE; NL; NL; NL] ++ lit "b'\\n")
           (lit "a" ++ [TAB; DQUOTE; NL; NL] ++ lit "b'\n").
Proof.
  apply dm_char; [discriminate..|]. apply dm_escape; [constructor|]. apply dm_escape; [constructor|].
  apply (dm_breaks 2); [intros r E; discriminate|].
  apply dm_char; [discriminate..|]. apply dm_char; [discriminate..|]. apply dm_escape; [constructor|].
  apply dm_char; [discriminate..|]. constructor.
Qed.

(** The same for single quotes. *)
Theorem C48_single_quoted :
  forall ut k s v, plain_key ut k -> sq_means s v ->
  exists y, parse_yaml ut (entry_file k ([SP; QUOTE] ++ s ++ [QUOTE])) = CVal (entry_doc k y)
    /\ as_string y = Some v.
Proof. exact single_quoted_meaning. Qed.
Print Assumptions C48_single_quoted.

Example C48_single_quoted_example :
  sq_means (lit "it''s\n" ++ [NL; NL] ++ lit "#") (lit "it's\n" ++ [NL] ++ lit "#").
Proof.
  do 2 (apply sm_char; [discriminate..|]). apply sm_quote. do 3 (apply sm_char; [discriminate..|]).
  apply (sm_breaks 1); [intros r E; discriminate|]. apply sm_char; [discriminate..|]. constructor.
Qed.

(** Text without quotes means itself. *)
Theorem C48_unquoted :
  forall ut k s, plain_key ut k -> block_text ut s ->
  parse_yaml ut (entry_file k (SP :: s)) = CVal (entry_doc k (Unquoted s)).
Proof. exact unquoted_meaning. Qed.
Print Assumptions C48_unquoted.

Example C48_unquoted_example : forall ut, plain_key ut (lit "a-key 1") /\ block_text ut (lit "10:30, 'q' - a/b").
Proof. intros ut. split; [key_ok|text_ok]. Qed.

(** The lines of a literal scalar, followed by [n] empty ones: each ends with a line break,
    the chomping sign decides about the last ones. *)
Theorem C48_literal :
  forall ut k body n c,
  plain_key ut k -> block_lines body -> (forall l ls, body <> (SP :: l) :: ls) -> (forall l, body <> l ++ [[]]) ->
  exists y, parse_yaml ut (entry_file k (block_source "|" c (body ++ repeat [] n))) = CVal (entry_doc k y)
    /\ as_string y = Some (literal_means body n c).
Proof. exact literal_meaning. Qed.
Print Assumptions C48_literal.

(** The lines of a folded scalar. *)
Theorem C48_folded :
  forall ut k body v n c,
  plain_key ut k -> block_lines body -> folds body v ->
  exists y, parse_yaml ut (entry_file k (block_source ">" c (body ++ repeat [] n))) = CVal (entry_doc k y)
    /\ as_string y = Some (folded_means v n c).
Proof. exact folded_meaning. Qed.
Print Assumptions C48_folded.

Example C48_block_example :
  let body := [lit "a # b"; lit "c"; []; []; lit "d: "] in
  block_lines body /\ (forall l ls, body <> (SP :: l) :: ls) /\ (forall l, body <> l ++ [[]])
  /\ folds body (lit "a # b c" ++ [NL; NL] ++ lit "d: ")
  /\ literal_means body 1 Keep = lit "a # b" ++ [NL] ++ lit "c" ++ [NL; NL; NL] ++ lit "d: " ++ [NL; NL]
  /\ block_source ">" Strip body =
     lit " >-" ++ [NL] ++ lit "  a # b" ++ [NL] ++ lit "  c" ++ [NL] ++ lit "  " ++ [NL] ++ lit "  " ++ [NL] ++ lit "  d: ".
Proof.
  cbv zeta.
  split; [split; [lines_ok|do 3 eexists; split; [reflexivity|split; [now right|exists (chr "a"); split; [now left|reflexivity]]]]|]. split; [intros l ls E; discriminate|].
  split; [intros l E; apply (f_equal (@rev _)) in E; rewrite rev_app_distr in E; discriminate|].
  split; [|split; reflexivity].
  apply (fo_space (chr "a") (lit " # b") _ (lit "c" ++ [NL; NL] ++ lit "d: ")); [discriminate|].
  apply (fo_breaks (chr "c") [] 1 [lit "d: "] (lit "d: ")); [discriminate|]. now constructor.
Qed.

(** ---- where the values differ from YAML, or LF and CRLF files from each other ---- *)

(** A line break in a quoted scalar is dropped; YAML reads "a b". *)
Theorem C48_line_break_refuted :
  exists src y, (forall ut, parse_yaml ut (entry_file (lit "k") src) = CVal (entry_doc (lit "k") y))
    /\ src = lit " 'a" ++ [NL] ++ lit "b'" /\ as_string y = Some (lit "ab").
Proof. exact line_break_dropped. Qed.
Print Assumptions C48_line_break_refuted.

(** The indentation of a continuation line is kept; YAML reads "a", a line break, "b". *)
Theorem C48_quoted_indentation_refuted :
  exists src y, (forall ut, parse_yaml ut (entry_file (lit "k") src) = CVal (entry_doc (lit "k") y))
    /\ src = lit " 'a" ++ [NL; NL] ++ lit "  b'" /\ as_string y = Some (lit "a" ++ [NL] ++ lit "  b").
Proof. exact indentation_kept. Qed.
Print Assumptions C48_quoted_indentation_refuted.

(** An escaped line break is kept; YAML reads "ab". *)
Theorem C48_escaped_break_refuted :
  exists src y, (forall ut, parse_yaml ut (entry_file (lit "k") src) = CVal (entry_doc (lit "k") y))
    /\ src = [SP; DQUOTE] ++ lit "a\" ++ [NL] ++ lit "b" ++ [DQUOTE] /\ as_string y = Some (lit "a" ++ [NL] ++ lit "b").
Proof. exact escaped_break_kept. Qed.
Print Assumptions C48_escaped_break_refuted.

(** An empty line before the text of a block scalar is lost; YAML keeps it. *)
Theorem C48_leading_line_refuted :
  exists src y, (forall ut, parse_yaml ut (entry_file (lit "k") src) = CVal (entry_doc (lit "k") y))
    /\ src = lit " |" ++ [NL; NL] ++ lit "  a" /\ as_string y = Some (lit "a" ++ [NL]).
Proof. exact leading_line_lost. Qed.
Print Assumptions C48_leading_line_refuted.

(** Two indented lines of a folded scalar get an empty line between them; not so in YAML. *)
Theorem C48_indented_lines_refuted :
  exists src y, (forall ut, parse_yaml ut (entry_file (lit "k") src) = CVal (entry_doc (lit "k") y))
    /\ src = lit " >" ++ [NL] ++ lit "  a" ++ [NL] ++ lit "    b" ++ [NL] ++ lit "    c"
    /\ as_string y = Some (lit "a" ++ [NL] ++ lit "  b" ++ [NL; NL] ++ lit "  c" ++ [NL]).
Proof. exact indented_lines_spread. Qed.
Print Assumptions C48_indented_lines_refuted.

(** The text of a line that is indented less than the first one is lost; YAML rejects it. *)
Theorem C48_short_line_refuted :
  exists src y, (forall ut, parse_yaml ut (entry_file (lit "k") src) = CVal (entry_doc (lit "k") y))
    /\ src = lit " |" ++ [NL] ++ lit "    a" ++ [NL] ++ lit "   b" /\ as_string y = Some (lit "a" ++ [NL]).
Proof. exact short_line_lost. Qed.
Print Assumptions C48_short_line_refuted.

(** In a file with CRLF an empty line of a block scalar counts twice. *)
Theorem C48_crlf_block_refuted :
  exists src y z, (forall ut, parse_yaml ut (entry_file (lit "k") src) = CVal (entry_doc (lit "k") y)
                           /\ parse_yaml ut (crlf (entry_file (lit "k") src)) = CVal (entry_doc (lit "k") z))
    /\ src = lit " |" ++ [NL] ++ lit "  a" ++ [NL; NL] ++ lit "  b"
    /\ as_string y = Some (lit "a" ++ [NL; NL] ++ lit "b" ++ [NL])
    /\ as_string z = Some (lit "a" ++ [NL; NL; NL] ++ lit "b" ++ [NL]).
Proof. exact crlf_block. Qed.
Print Assumptions C48_crlf_block_refuted.

(** In a file with CRLF a quoted scalar keeps the CR and loses the empty line. *)
Theorem C48_crlf_quoted_refuted :
  exists src y z, (forall ut, parse_yaml ut (entry_file (lit "k") src) = CVal (entry_doc (lit "k") y)
                           /\ parse_yaml ut (crlf (entry_file (lit "k") src)) = CVal (entry_doc (lit "k") z))
    /\ src = lit " 'a" ++ [NL; NL] ++ lit "b'"
    /\ as_string y = Some (lit "a" ++ [NL] ++ lit "b")
    /\ as_string z = Some (lit "a" ++ [CR; CR] ++ lit "b").
Proof. exact crlf_quoted. Qed.
Print Assumptions C48_crlf_quoted_refuted.
