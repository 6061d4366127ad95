(** Consequences for C63, and the example. *)
From Coq Require Import ZArith Lia.
From Verif Require Import Base Ast Num Peg YamlGrammar Consume Ser De FromStr Attr Spec_Serde Spec_Look Spec_Typed Spec_Attr Spec_Buffer
  AttrExample BufferFacts2 BufferFacts3 NodeFacts2.
Import ListNotations.

Lemma source_plain : plain_type source.
Proof. cbn. repeat split; names. Qed.
Lemma config_plain : plain_type config.
Proof.
  split; [names|]. split. { cbn. repeat split; names. }
  split. { exact source_plain. }
  split; [cbn; auto|exact I].
Qed.
Lemma one_meaning t own c v w : plain_type t -> bmeans own t c v -> bmeans own t c w -> v = w.
Proof. intros P A B. apply (buffer_means 0 t P) in A, B. congruence. Qed.
Lemma flat_means fuel t es v : plain_type t -> (fst (r_flat (read fuel t) (map Some es)) = Some v <-> fmeans t es v).
Proof. intros P. destruct (proj2 (buffer_both fuel t P) (map Some es)) as [F _]. rewrite remaining_some in F. apply F. Qed.
Lemma flat_leaves fuel t es es' : plain_type t -> (leaves t es es' <-> es' = remaining (snd (r_flat (read fuel t) (map Some es)))).
Proof. intros P. destruct (proj2 (buffer_both fuel t P) (map Some es)) as [_ L]. rewrite remaining_some in L. apply L. Qed.
Lemma first_node cs y rest : first_yaml (map DComment cs ++ DYaml y :: rest) = Some y.
Proof. induction cs; auto. Qed.
Lemma str_means ut fuel t s d cs y rest v : plain_type t -> parse_yaml ut s = CVal d ->
  items d = map DComment cs ++ DYaml y :: rest -> no_refs y -> depth y <= fuel ->
  ((exists a, read_str ut fuel t s = CVal (Done v a)) <-> xmeans t (look any_word y) v).
Proof.
  intros P E I N D. unfold read_str. rewrite E, I, first_node. rewrite <- (read_means fuel t y v P N D).
  split; intros [a H]; exists a; congruence.
Qed.
