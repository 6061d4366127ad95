(** Types with serde attributes: files. *)
From Coq Require Import ZArith.
From Verif Require Import Base Ast Strings Format Num Pretty Peg YamlGrammar Consume Ser De FromStr Attr Spec_Pretty Spec_Parse Spec_Format
  Spec_Stable StableFacts Spec_Polish PolishFacts Spec_Serde Spec_Text TextFacts2 FormatTree Spec_Look LookFacts LookFacts2 LookFacts3
  Spec_Typed Spec_Attr AttrFacts AttrFacts2 AttrFacts3 AttrFacts6.
Import ListNotations.

Lemma str_pretty ut fuel t s d : parse_yaml ut s = CVal d -> calm_doc ut d -> polish_doc ut d -> doc_all (no_quoted any_loose) d ->
  outcome_str (read_str ut fuel t (format_doc (pretty_doc d))) = outcome_str (read_str ut fuel t s).
Proof.
  intros E C P Q. pose proof (calm_canon ut s d E C) as K. destruct (doc_side ut d K P) as (H1 & H2 & H3).
  unfold read_str. rewrite (pretty_parse ut d K P), E. unfold pretty_doc. cbn [items]. rewrite first_pretty.
  destruct (first_yaml (items d)) as [y|] eqn:F; [|reflexivity]. apply first_in in F. cbn [option_map outcome_str].
  f_equal. apply read_pretty; [now apply H1|now apply H3|now apply Q].
Qed.
Lemma str_format ut fuel t s d : parse_yaml ut s = CVal d -> calm_doc ut d ->
  read_str ut fuel t (format_doc d) = read_str ut fuel t s.
Proof. intros E C. unfold read_str. now rewrite (calm_stable ut s d E C), E. Qed.
Lemma str_round_trip ut fuel t v s y : carried t v -> emit t v = Some s -> ser s = Some y -> root_fits ut s -> depth y <= fuel ->
  outcome_str (read_str ut fuel t (format_doc (mkDoc [] [DYaml (pretty y)]))) = CVal (Done v []).
Proof.
  intros C E S R D. destruct (root_canon ut s y R S) as [K L].
  unfold read_str. rewrite (format_parse ut _ K). cbn [items first_yaml outcome_str]. f_equal. now apply (read_back_pretty t v s).
Qed.
