(** C90: what the single reading of a text says about what is written and read. *)
From Verif Require Import Base Ast Num Format Pretty Ser Peg YamlGrammar Consume Spec_Serde Spec_Yaml12 Spec_Core Spec_Portable PortableFacts
  Spec_Export ExportFacts Spec_Tidy TidyFacts Spec_Common CommonFacts CommonExample UniqueFlow UniqueBlock.
Import ListNotations.

Lemma written_reading d y x : portable_doc d y -> yaml_file x (format_doc d ++ [NL]) -> x = Node None (content_of y).
Proof. intros P H. exact (file_one _ _ _ H (doc_wrote d y P)). Qed.
Lemma written_apart d y d' y' : portable_doc d y -> portable_doc d' y' -> format_doc d = format_doc d' -> content_of y = content_of y'.
Proof. intros P P' E. pose proof (doc_wrote d y P) as H. rewrite E in H. pose proof (written_reading d' y' _ P' H) as K. now injection K. Qed.
Lemma common_reading ut d y s x : common ut d y s -> yaml_file x s -> parse_yaml ut s = CVal d /\ x = Node None (content_of y).
Proof. intros C H. destruct (common_both ut d y s C) as [P K]. split; [exact P|exact (file_one _ _ _ H K)]. Qed.
Lemma export_reading v y n x : ser v = Some y -> exports v -> yaml_file n (format_doc (mkDoc [] [DYaml y]) ++ [NL]) -> resolved n x -> intends v x.
Proof.
  intros S E H R. destruct (export_file v y S E) as (m & z & H' & R' & I). rewrite (file_one _ _ _ H H') in R. now rewrite (resolved_one _ _ _ R R').
Qed.
Lemma export_shared v w y z : ser v = Some y -> ser w = Some z -> exports v -> exports w ->
  format_doc (mkDoc [] [DYaml y]) = format_doc (mkDoc [] [DYaml z]) -> exists x, intends v x /\ intends w x.
Proof.
  intros S S' E E' F. destruct (export_file v y S E) as (m & x & H & R & I). exists x. split; [exact I|]. rewrite F in H. exact (export_reading w z m x S' E' H R).
Qed.
Lemma pretty_reading d y n m : portable_doc d y -> gentle false y -> stays y -> yaml_file n (format_doc d ++ [NL]) -> yaml_file m (format_doc (pretty_doc d) ++ [NL]) ->
  forall x, resolved n x <-> resolved m x.
Proof.
  intros P G T H K x. destruct (tidy_file d y P G T) as (c & A & H' & K'). rewrite (file_one _ _ _ H H'), (file_one _ _ _ K K'). now apply alike_same.
Qed.
Lemma pretty_export_reading v y n x : ser v = Some y -> exports v -> tidy v -> stays y -> yaml_file n (format_doc (mkDoc [] [DYaml (pretty y)]) ++ [NL]) -> resolved n x -> intends v x.
Proof.
  intros S E T St H R. destruct (tidy_export v y S E T St) as (m & z & H' & R' & I). rewrite (file_one _ _ _ H H') in R. now rewrite (resolved_one _ _ _ R R').
Qed.
Lemma misread : exists d y s, items d = [DYaml y] /\ (forall ut, parse_yaml ut s = CVal d) /\ (exists x, yaml_file x s) /\ ~ yaml_file (Node None (content_of y)) s.
Proof.
  destruct name_at_dash as (d & y & x & s & _ & I & N & P & H). exists d, y, s. split; [exact I|]. split; [exact P|]. split; [now exists x|].
  intros K. exact (N (file_one _ _ _ H K)).
Qed.
