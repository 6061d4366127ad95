(** Property theorem C61 (hand-written layouts). *)
From Verif Require Import Base Ast Num Strings Peg YamlGrammar Consume Format Spec_Parse Spec_Format
  Reads FormatExample Spec_Layout LayoutTree LayoutExample.
Import ListNotations.

(** C61: every text that lays out a document is parsed to exactly that document, whatever
    indentation widths, spaces, blank lines, line breaks and comment lines it uses. *)
Theorem C61_layout :
  forall ut d s, layout ut d s -> parse_yaml ut s = CVal d.
Proof. exact layout_parse. Qed.
Print Assumptions C61_layout.

Example C61_example : forall ut, layout ut hand_doc hand_text.
Proof. exact hand_layout. Qed.

(** So no text lays out two documents. *)
Theorem C61_unambiguous :
  forall ut d e s, layout ut d s -> layout ut e s -> d = e.
Proof. exact layout_unique. Qed.
Print Assumptions C61_unambiguous.

Example C61_unambiguous_example : forall ut e, layout ut e hand_text -> e = hand_doc.
Proof. intros ut e H. exact (layout_unique ut _ _ _ H (hand_layout ut)). Qed.

(** The conditions of the layouts are needed.  In each case a text that only breaks the
    named condition is read as another document or rejected. *)

(** A blank line after a block scalar is read as a line of it. *)
Theorem C61_blank_after_scalar_refuted : exists d e s1 s2, d <> e /\
  (forall ut, layout ut d (s1 ++ s2)) /\ forall ut, parse_yaml ut (s1 ++ [NL] ++ s2) = CVal e.
Proof. exact blank_after_scalar. Qed.
Print Assumptions C61_blank_after_scalar_refuted.

(** A comment after a block scalar that is indented deeper than its key is read as a line of it. *)
Theorem C61_comment_after_scalar_refuted : exists d e s1 s2, d <> e /\
  (forall ut, layout ut d (s1 ++ s2)) /\ forall ut, parse_yaml ut (s1 ++ lit "  " ++ s2) = CVal e.
Proof. exact comment_after_scalar. Qed.
Print Assumptions C61_comment_after_scalar_refuted.

(** With a space after the colon, a blank line and a comment before a nested mapping
    together are rejected. *)
Theorem C61_space_blank_comment_refuted : exists d s1 s2,
  (forall ut, layout ut d (s1 ++ s2)) /\ forall ut, parse_yaml ut (s1 ++ lit " " ++ s2) = CErr.
Proof. exact space_blank_comment. Qed.
Print Assumptions C61_space_blank_comment_refuted.
