(** Property theorems C58 (files with Windows line endings). *)
From Verif Require Import Base Ast Strings Format Peg YamlGrammar Consume Spec_Crlf CrlfFacts6.
Import ListNotations.

(** C58: a file with CR LF line endings is accepted, rejected or panics exactly as the same
    file with LF line endings, and the two documents differ at most in the number of empty lines
    of block scalars and in CRs inside quoted scalars that span lines. *)
Theorem C58_crlf : forall ut s, ~ In CR s -> no_continuation s ->
  match parse_yaml ut s with
  | CVal d => exists d', parse_yaml ut (crlf s) = CVal d' /\ blur_doc d' = blur_doc d
  | CErr => parse_yaml ut (crlf s) = CErr
  | CPanic => parse_yaml ut (crlf s) = CPanic
  end.
Proof. exact crlf_alike. Qed.
Print Assumptions C58_crlf.

Definition crlf_text : str := lit "# top
---
# c
a: &x 'it''s'
b:
  - ""q\n\"" \\"" # d
  - {k: [1, *x]}

  - - |-2
       l1
      l2
c: >+
  f1

  f2

" .
Definition crlf_doc (ls : list str) : document :=
  mkDoc [lit " top"] [DComment (lit " c"); DYaml (Hash [
    HElem (mkHE (lit "a") (mkA (Some (lit "x")) (SingleQ [SQ_Str (lit "it"); SQ_Quote; SQ_Str (lit "s")])));
    HElem (mkHE (lit "b") (mkA None (Array [
      AElem (mkA None (DoubleQ [DQ_Str (lit "q"); DQ_Esc E_Newline; DQ_Esc E_Quote; DQ_Str (lit " "); DQ_Esc E_Backslash]));
      AInlineC (lit " d");
      AElem (mkA None (InlineHash [(lit "k", InlineArray [Unquoted (lit "1"); Anchor (lit "x")])]));
      AElem (mkA None (Array [AElem (mkA None (Literal [lit "     l1"; lit "    l2"] Strip))]))])));
    HElem (mkHE (lit "c") (mkA None (Folded ls Keep)))])].
Example C58_crlf_example : forall ut, ~ In CR crlf_text /\ no_continuation crlf_text /\
  parse_yaml ut crlf_text = CVal (crlf_doc [lit "f1"; []; lit "f2"; []]) /\
  parse_yaml ut (crlf crlf_text) = CVal (crlf_doc [lit "f1"; []; []; lit "f2"; []]).
Proof. intros ut. split; [apply no_cr_check; vm_compute; reflexivity|]. split; [apply no_continuation_check; vm_compute; reflexivity|]. split; vm_compute; reflexivity. Qed.

(** With no quoted scalar spanning lines and no empty line in a block scalar, both are read as
    the same document. *)
Theorem C58_same : forall ut s d, ~ In CR s -> no_continuation s -> parse_yaml ut s = CVal d -> crisp_doc d = true ->
  parse_yaml ut (crlf s) = CVal d.
Proof. exact crlf_same. Qed.
Print Assumptions C58_same.

Definition crisp_text : str := lit "---
a: 'it''s' # c
b:
    - ""q\"" \n""

    - |
       l1
         l2
".
Definition crisp_document : document :=
  mkDoc [] [DYaml (Hash [
    HElem (mkHE (lit "a") (mkA None (SingleQ [SQ_Str (lit "it"); SQ_Quote; SQ_Str (lit "s")]))); HInlineC (lit " c");
    HElem (mkHE (lit "b") (mkA None (Array [
      AElem (mkA None (DoubleQ [DQ_Str (lit "q"); DQ_Esc E_Quote; DQ_Str (lit " "); DQ_Esc E_Newline]));
      AElem (mkA None (Literal [lit "l1"; lit "  l2"] Clip))])))])].
Example C58_same_example : forall ut, ~ In CR crisp_text /\ no_continuation crisp_text /\ crisp_doc crisp_document = true /\
  parse_yaml ut crisp_text = CVal crisp_document /\ crlf crisp_text <> crisp_text.
Proof.
  intros ut. split; [apply no_cr_check; vm_compute; reflexivity|]. split; [apply no_continuation_check; vm_compute; reflexivity|].
  split; [reflexivity|]. split; [vm_compute; reflexivity|]. vm_compute. discriminate.
Qed.

(** Then formatting the file gives the same text, with LF line endings. *)
Theorem C58_format : forall ut s d d', ~ In CR s -> no_continuation s -> parse_yaml ut s = CVal d -> crisp_doc d = true ->
  parse_yaml ut (crlf s) = CVal d' -> format_doc d' = format_doc d.
Proof. exact crlf_format. Qed.
Print Assumptions C58_format.

(** Without the conditions: an empty line of a block scalar is read twice. *)
Theorem C58_empty_line_refuted : exists s d d', forall ut, ~ In CR s /\ no_continuation s /\
  parse_yaml ut s = CVal d /\ parse_yaml ut (crlf s) = CVal d' /\ d' <> d /\ format_doc d' <> format_doc d.
Proof.
  exists (lit "---
a: |
  x

  y
"), (mkDoc [] [DYaml (Hash [HElem (mkHE (lit "a") (mkA None (Literal [lit "x"; []; lit "y"] Clip)))])]),
     (mkDoc [] [DYaml (Hash [HElem (mkHE (lit "a") (mkA None (Literal [lit "x"; []; []; lit "y"] Clip)))])]).
  intros ut. split; [apply no_cr_check; vm_compute; reflexivity|]. split; [apply no_continuation_check; vm_compute; reflexivity|].
  split; [vm_compute; reflexivity|]. split; [vm_compute; reflexivity|]. split; [discriminate|]. vm_compute. discriminate.
Qed.
Print Assumptions C58_empty_line_refuted.

(** A quoted scalar over two lines keeps the CR in its text. *)
Theorem C58_quoted_refuted : exists s d d', forall ut, ~ In CR s /\ no_continuation s /\
  parse_yaml ut s = CVal d /\ parse_yaml ut (crlf s) = CVal d' /\ d' <> d.
Proof.
  exists (lit "---
a: 'p
 q'
"), (mkDoc [] [DYaml (Hash [HElem (mkHE (lit "a") (mkA None (SingleQ [SQ_Str (lit "p"); SQ_RemNl; SQ_Str (lit " q")])))])]),
     (mkDoc [] [DYaml (Hash [HElem (mkHE (lit "a") (mkA None (SingleQ [SQ_Str (lit "p" ++ [CR]); SQ_RemNl; SQ_Str (lit " q")])))])]).
  intros ut. split; [apply no_cr_check; vm_compute; reflexivity|]. split; [apply no_continuation_check; vm_compute; reflexivity|].
  split; [vm_compute; reflexivity|]. split; [vm_compute; reflexivity|]. discriminate.
Qed.
Print Assumptions C58_quoted_refuted.

(** An escaped line break is an error. *)
Theorem C58_continuation_refuted : exists s d, forall ut, ~ In CR s /\
  parse_yaml ut s = CVal d /\ parse_yaml ut (crlf s) = CErr.
Proof.
  exists (lit "---
a: ""p\
 q""
"), (mkDoc [] [DYaml (Hash [HElem (mkHE (lit "a") (mkA None (DoubleQ [DQ_Str (lit "p"); DQ_Esc E_RealNewline; DQ_Str (lit " q")])))])]).
  intros ut. split; [apply no_cr_check; vm_compute; reflexivity|]. split; vm_compute; reflexivity.
Qed.
Print Assumptions C58_continuation_refuted.
