(** C86: files in a common layout are read alike by this crate and by YAML 1.2. *)
From Verif Require Import Base Ast Num Peg YamlGrammar Consume Spec_Yaml12 Spec_Portable Spec_Common CommonFacts CommonExample.
Import ListNotations.

(** The crate reads the file as the document that it lays out, and YAML 1.2.2 finds the data of
    the same document in it. *)
Theorem C86_both : forall ut d y s, common ut d y s ->
  parse_yaml ut s = CVal d /\ yaml_file (Node None (content_of y)) s.
Proof. exact common_both. Qed.
Print Assumptions C86_both.

Example C86_example : forall ut, common ut shared_doc shared_root shared_text.
Proof. exact shared_common. Qed.

(** Restrictions that are needed: in each case both read the file, and the data is not the
    same. *)

(** A name before a key, on the line of a dash: for the crate it names the mapping, for YAML the
    key. *)
Theorem C86_name_at_dash_refuted : exists d y x s,
  s = lit "---" ++ [NL] ++ lit "- &a k: 1" ++ [NL] /\
  items d = [DYaml y] /\ x <> Node None (content_of y) /\ (forall ut, parse_yaml ut s = CVal d) /\ yaml_file x s.
Proof. exact name_at_dash. Qed.
Print Assumptions C86_name_at_dash_refuted.

(** A block scalar in the first of several entries at a dash: the crate reads the line of the
    next entry as a line of the scalar, without its first characters. *)
Theorem C86_scalar_at_dash_refuted : exists d y x s,
  s = lit "---" ++ [NL] ++ lit "- a: |" ++ [NL] ++ lit "   x" ++ [NL] ++ lit "  b: 1" ++ [NL] /\
  items d = [DYaml y] /\ x <> Node None (content_of y) /\ (forall ut, parse_yaml ut s = CVal d) /\ yaml_file x s.
Proof. exact scalar_at_dash. Qed.
Print Assumptions C86_scalar_at_dash_refuted.

(** A digit after the sign of a block scalar at a dash: the crate counts from the dash, YAML
    from the key. *)
Theorem C86_digit_at_dash_refuted : exists d y x s,
  s = lit "---" ++ [NL] ++ lit "- a: |2" ++ [NL] ++ lit "     x" ++ [NL] /\
  items d = [DYaml y] /\ x <> Node None (content_of y) /\ (forall ut, parse_yaml ut s = CVal d) /\ yaml_file x s.
Proof. exact digit_at_dash. Qed.
Print Assumptions C86_digit_at_dash_refuted.
