(** C90: readers of YAML 1.2 cannot find anything else in what is written. *)
From Verif Require Import Base Ast Num Format Pretty Ser Peg YamlGrammar Consume Spec_Serde Spec_Yaml12 Spec_Core Spec_Portable
  Spec_Export Spec_Tidy Spec_Common CommonExample UniqueBlock ReadingFacts.
From Verif Require Import PlainFacts Prop_Portable Prop_Export Prop_Tidy Prop_Common.
Import ListNotations.

(** The grammar of YAML 1.2 in [Spec_Yaml12] gives a text at most one node. *)
Theorem C90_one : forall x y s, yaml_file x s -> yaml_file y s -> x = y.
Proof. exact file_one. Qed.
Print Assumptions C90_one.
Example C90_one_ex : exists x, yaml_file x shared_text /\ forall y, yaml_file y shared_text -> y = x.
Proof.
  destruct (C86_both (mkUni (fun _ => false) (fun _ => false)) _ _ _ (C86_example _)) as [_ H]. eexists. split; [exact H|]. intros y K. exact (C90_one _ _ _ K H).
Qed.

(** Every reading of a written document is the data of its tree. *)
Theorem C90_written : forall d y x, portable_doc d y -> yaml_file x (format_doc d ++ [NL]) -> x = Node None (content_of y).
Proof. exact written_reading. Qed.
Print Assumptions C90_written.
Example C90_written_ex : portable_doc web_doc (Hash web_hash) /\ yaml_file (Node None (content_of (Hash web_hash))) (format_doc web_doc ++ [NL]).
Proof. exact (conj C83_example C83_example_file). Qed.

(** Documents with different data are written differently. *)
Theorem C90_apart : forall d y d' y', portable_doc d y -> portable_doc d' y' -> format_doc d = format_doc d' -> content_of y = content_of y'.
Proof. exact written_apart. Qed.
Print Assumptions C90_apart.
Definition parts (l : list sq_part) : list hashdata := [HElem (mkHE (lit "k") (mkA None (SingleQ l)))].
Example C90_apart_ex :
  let a := [SQ_Str (lit "one "); SQ_Quote; SQ_Str (lit "two")] in let b := [SQ_Str (lit "one "); SQ_Quote; SQ_Str (lit "t"); SQ_Str (lit "wo")] in
  portable_doc (mkDoc [] [DYaml (Hash (parts a))]) (Hash (parts a)) /\ portable_doc (mkDoc [] [DYaml (Hash (parts b))]) (Hash (parts b)) /\
  Hash (parts a) <> Hash (parts b) /\ format_doc (mkDoc [] [DYaml (Hash (parts a))]) = format_doc (mkDoc [] [DYaml (Hash (parts b))]).
Proof.
  cbv zeta. split; [apply (PDoc [] [] _ []); try apply Forall_nil; [|exact I]; unfold parts; value_t|].
  split; [apply (PDoc [] [] _ []); try apply Forall_nil; [|exact I]; unfold parts; value_t|]. split; [discriminate|reflexivity].
Qed.

(** A file in the common layout: the crate reads the only data that is in it for YAML. *)
Theorem C90_common : forall ut d y s x, common ut d y s -> yaml_file x s -> parse_yaml ut s = CVal d /\ x = Node None (content_of y).
Proof. exact common_reading. Qed.
Print Assumptions C90_common.
Example C90_common_ex : forall ut, common ut shared_doc shared_root shared_text /\ yaml_file (Node None (content_of shared_root)) shared_text.
Proof. intros ut. split; [apply C86_example|]. exact (proj2 (C86_both ut _ _ _ (C86_example ut))). Qed.

(** Whatever a reader makes of a serialized value, it is the value; pretty printed or not. *)
Theorem C90_export : forall v y n x, ser v = Some y -> exports v ->
  yaml_file n (format_doc (mkDoc [] [DYaml y]) ++ [NL]) -> resolved n x -> intends v x.
Proof. exact export_reading. Qed.
Print Assumptions C90_export.
Theorem C90_pretty_export : forall v y n x, ser v = Some y -> exports v -> tidy v -> stays y ->
  yaml_file n (format_doc (mkDoc [] [DYaml (pretty y)]) ++ [NL]) -> resolved n x -> intends v x.
Proof. exact pretty_export_reading. Qed.
Print Assumptions C90_pretty_export.
Example C90_export_ex : exports order /\ exists y n x, ser order = Some y /\ yaml_file n (format_doc (mkDoc [] [DYaml y]) ++ [NL]) /\ resolved n x.
Proof. split; [exact C85_example|]. destruct C85_example_read as (y & n & x & S & F & R & _). now exists y, n, x. Qed.
Example C90_pretty_export_ex : exports tidy_value /\ tidy tidy_value /\ exists y n x, ser tidy_value = Some y /\ stays y /\
  yaml_file n (format_doc (mkDoc [] [DYaml (pretty y)]) ++ [NL]) /\ resolved n x.
Proof.
  destruct C87_export_ex as (E & T & y & S & St & _). split; [exact E|]. split; [exact T|].
  destruct (C87_export _ _ S E T St) as (n & x & F & R & _). now exists y, n, x.
Qed.

(** Two values with the same text have a meaning in common. *)
Theorem C90_shared : forall v w y z, ser v = Some y -> ser w = Some z -> exports v -> exports w ->
  format_doc (mkDoc [] [DYaml y]) = format_doc (mkDoc [] [DYaml z]) -> exists x, intends v x /\ intends w x.
Proof. exact export_shared. Qed.
Print Assumptions C90_shared.
Example C90_shared_ex : exports order /\ exports (SNewtype order) /\ exists y, ser order = Some y /\ ser (SNewtype order) = Some y.
Proof. split; [exact C85_example|]. split; [exact C85_example|]. eexists. split; vm_compute; reflexivity. Qed.

(** Every reading of the pretty printed text has the meanings of every reading of the text
    before. *)
Theorem C90_pretty : forall d y n m, portable_doc d y -> gentle false y -> stays y ->
  yaml_file n (format_doc d ++ [NL]) -> yaml_file m (format_doc (pretty_doc d) ++ [NL]) -> forall x, resolved n x <-> resolved m x.
Proof. exact pretty_reading. Qed.
Print Assumptions C90_pretty.
Example C90_pretty_ex : portable_doc tidy_doc (Hash tidy_hash) /\ gentle false (Hash tidy_hash) /\ stays (Hash tidy_hash) /\ exists n m,
  yaml_file n (format_doc tidy_doc ++ [NL]) /\ yaml_file m (format_doc (pretty_doc tidy_doc) ++ [NL]).
Proof.
  split; [exact C87_example|]. split; [exact C87_example_gentle|]. split; [exact I|]. destruct C87_example_files as (_ & c & _ & F & G). eauto.
Qed.

(** Outside of the common layout, the crate reads data that is not in the file for YAML. *)
Theorem C90_misread_refuted : exists d y s, Ast.items d = [DYaml y] /\ (forall ut, parse_yaml ut s = CVal d) /\
  (exists x, yaml_file x s) /\ ~ yaml_file (Node None (content_of y)) s.
Proof. exact misread. Qed.
Print Assumptions C90_misread_refuted.
