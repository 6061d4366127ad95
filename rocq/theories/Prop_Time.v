(** Property theorem C59 (the work of reading a file). *)
From Verif Require Import Base Ast Strings Format Num Peg YamlGrammar Consume Spec_Time TimeFacts3.
Import ListNotations.

(** C59: reading a text calls a definite number of grammar rules, at most exponential in
    the length of the text. *)
Theorem C59_calls :
  forall ut s, exists r c,
    calls (yaml_grammar ut) true (PRule y_yaml) s [] r c /\ c < 2 ^ (369 * (length s + 1)) /\
    forall r' c', calls (yaml_grammar ut) true (PRule y_yaml) s [] r' c' -> r' = r /\ c' = c.
Proof. exact one_count. Qed.
Print Assumptions C59_calls.

(** The file the crate writes for [n] + 1 nested sequences is read back, but every level
    doubles the number of calls. *)
Theorem C59_nested :
  forall ut n, let y := nested (S n) (Unquoted (lit "x")) in
    parse_yaml ut (format_doc (rooted y)) = CVal (rooted y) /\
    length (format_doc (rooted y)) = 2 * n + 7 /\
    forall r c, calls (yaml_grammar ut) true (PRule y_yaml) (format_doc (rooted y)) [] r c -> 2 ^ n <= c.
Proof. exact nested_work. Qed.
Print Assumptions C59_nested.

Example C59_nested_example :
  format_doc (rooted (nested 5 (Unquoted (lit "x")))) = lit "---" ++ [NL] ++ lit "- - - - - x".
Proof. vm_compute. reflexivity. Qed.

(** So no polynomial bounds the work for accepted texts. *)
Theorem C59_polynomial_refuted :
  forall ut a k, exists s d r c,
    parse_yaml ut s = CVal d /\ calls (yaml_grammar ut) true (PRule y_yaml) s [] r c /\ a * length s ^ k < c.
Proof. exact no_polynomial. Qed.
Print Assumptions C59_polynomial_refuted.

Example C59_polynomial_example : forall ut, exists s d,
  parse_yaml ut s = CVal d /\
  forall r c, calls (yaml_grammar ut) true (PRule y_yaml) s [] r c -> length s = 87 /\ 2 ^ 40 <= c.
Proof.
  intros ut. destruct (nested_work ut 40) as [P [L W]]. eexists _, _. split; [exact P|].
  intros r c C. split; [exact L|exact (W r c C)].
Qed.
