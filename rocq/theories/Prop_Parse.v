(** Property theorems C36-C40 and C47 (parsing). *)
From Verif Require Import Base Ast Path Peg YamlGrammar Consume PathGrammar Spec_Parse ParseFacts.
Import ListNotations.

(** C36: the grammar gives every text exactly one result, after finitely many steps, and
    [parse_yaml] reports that result: an error exactly for the rejected texts. *)
Theorem C36_parse_terminates :
  forall ut s, exists x, runs (yaml_grammar ut) true (PRule y_yaml) s [] x /\
    (forall x', runs (yaml_grammar ut) true (PRule y_yaml) s [] x' -> x' = x) /\
    (exists fuel, eval (yaml_grammar ut) fuel true (PRule y_yaml) s [] = Some x).
Proof. exact parse_decides. Qed.
Print Assumptions C36_parse_terminates.

Theorem C36_error_iff_rejected :
  forall ut s, parse_yaml ut s = CErr <-> runs (yaml_grammar ut) true (PRule y_yaml) s [] Fail.
Proof. exact parse_rejected. Qed.
Print Assumptions C36_error_iff_rejected.

Example C36_example : forall ut,
  parse_yaml ut (lit "---" ++ [NL] ++ lit "a: [b") = CErr /\
  match parse_yaml ut (lit "---" ++ [NL] ++ lit "a: [b]") with
  | CVal d => items d = [DYaml (Hash [HElem (mkHE (lit "a") (mkA None (InlineArray [Unquoted (lit "b")])))])]
  | _ => False
  end.
Proof. intros ut. split; vm_compute; reflexivity. Qed.

(** C37: no text makes the grammar read an empty indentation stack, and an accepted text
    leaves it empty and is matched to its end. *)
Theorem C37_stack_safe :
  forall ut s x, runs (yaml_grammar ut) true (PRule y_yaml) s [] x ->
    x <> Crash /\ forall t ns rest k, x = Ok t ns rest k -> k = [].
Proof. exact stack_safe. Qed.
Print Assumptions C37_stack_safe.

Theorem C37_whole_text :
  forall ut s t ns rest k, runs (yaml_grammar ut) true (PRule y_yaml) s [] (Ok t ns rest k) ->
    t = s /\ rest = [].
Proof. exact accepted_whole. Qed.
Print Assumptions C37_whole_text.

Example C37_example : forall ut, exists t ns rest k,
  runs (yaml_grammar ut) true (PRule y_yaml)
    (lit "---" ++ [NL] ++ lit "a:" ++ [NL] ++ lit "  - b: |" ++ [NL] ++ lit "      c") [] (Ok t ns rest k).
Proof.
  intros ut.
  assert (E : exists t ns rest k,
    eval (yaml_grammar ut) 400 true (PRule y_yaml)
      (lit "---" ++ [NL] ++ lit "a:" ++ [NL] ++ lit "  - b: |" ++ [NL] ++ lit "      c") [] = Some (Ok t ns rest k))
    by (do 4 eexists; reflexivity).
  destruct E as (t & ns & rest & k & E). exists t, ns, rest, k. exact (eval_sound _ _ _ _ _ _ _ E).
Qed.

(** C38: an accepted text is converted to a document, or it has a `|` or `>` and the
    parser panics. *)
Theorem C38_accepted_converts :
  forall ut s t ns rest k, runs (yaml_grammar ut) true (PRule y_yaml) s [] (Ok t ns rest k) ->
    (exists d, parse_yaml ut s = CVal d) \/ (parse_yaml ut s = CPanic /\ has_block_sign s).
Proof. exact parse_accepted. Qed.
Print Assumptions C38_accepted_converts.

(** Without the exception it is false, for three reasons: an indentation indicator 0, a
    line indented less than the first, a number that does not fit in a usize. *)
Theorem C38_zero_indent_refuted : forall ut,
  exists s, s = lit "---" ++ [NL] ++ lit "k: |0" ++ [NL] ++ lit "  a" /\ parse_yaml ut s = CPanic.
Proof. intros ut. eexists. split; [reflexivity|]. vm_compute. reflexivity. Qed.
Print Assumptions C38_zero_indent_refuted.
Theorem C38_less_indented_refuted : forall ut,
  exists s, s = lit "---" ++ [NL] ++ lit "k: |" ++ [NL] ++ lit "      a" ++ [NL] ++ lit " b" /\
    parse_yaml ut s = CPanic.
Proof. intros ut. eexists. split; [reflexivity|]. vm_compute. reflexivity. Qed.
Print Assumptions C38_less_indented_refuted.
Theorem C38_huge_indent_refuted : forall ut,
  exists s, s = lit "---" ++ [NL] ++ lit "k: |99999999999999999999" ++ [NL] ++ lit "  a" /\
    parse_yaml ut s = CPanic.
Proof. intros ut. eexists. split; [reflexivity|]. vm_compute. reflexivity. Qed.
Print Assumptions C38_huge_indent_refuted.

Example C38_example : forall ut,
  match parse_yaml ut (lit "---" ++ [NL] ++ lit "k: |" ++ [NL] ++ lit "  a" ++ [NL] ++ lit "  b") with
  | CVal d => items d = [DYaml (Hash [HElem (mkHE (lit "k") (mkA None (Literal [lit "a"; lit "b"] Clip)))])]
  | _ => False
  end.
Proof. intros ut. vm_compute. reflexivity. Qed.

(** C39: keys of parsed mappings are plain, and a plain key is a one-key path. *)
Theorem C39_parsed_keys_plain :
  forall ut s d, parse_yaml ut s = CVal d -> doc_everywhere (keys_plain ut) d.
Proof. exact parsed_keys. Qed.
Print Assumptions C39_parsed_keys_plain.

Theorem C39_plain_key_is_path :
  forall ut k, plain_key ut k -> parse_path k = Some (PKey k [] None).
Proof. exact plain_key_path. Qed.
Print Assumptions C39_plain_key_is_path.

Example C39_example : forall ut,
  match parse_yaml ut (lit "---" ++ [NL] ++ lit "my key-2 : { _x: 1 }") with
  | CVal d => items d = [DYaml (Hash [HElem (mkHE (lit "my key-2")
                (mkA None (InlineHash [(lit "_x", Unquoted (lit "1"))])))])]
  | _ => False
  end.
Proof. intros ut. vm_compute. reflexivity. Qed.

(** C40: inline collections hold inline nodes and unquoted scalars are one line without
    `#`, without `: ` and without a final space. *)
Theorem C40_parsed_inline :
  forall ut s d, parse_yaml ut s = CVal d -> doc_everywhere inline_ok d.
Proof. exact parsed_inline. Qed.
Print Assumptions C40_parsed_inline.

Example C40_example : forall ut,
  match parse_yaml ut (lit "---" ++ [NL] ++ lit "k: [ {a: [b c ]}, *d, 'e' ]") with
  | CVal d => items d = [DYaml (Hash [HElem (mkHE (lit "k") (mkA None
                (InlineArray [InlineHash [(lit "a", InlineArray [Unquoted (lit "b c")])];
                              Anchor (lit "d"); SingleQ [SQ_Str (lit "e")]])))])]
  | _ => False
  end.
Proof. intros ut. vm_compute. reflexivity. Qed.

(** They are not always non-empty: a value of spaces only is read as the empty text. *)
Theorem C40_nonempty_refuted : forall ut, exists s,
  match parse_yaml ut s with
  | CVal d => items d = [DYaml (Hash [HElem (mkHE (lit "k") (mkA None (Unquoted [])))])]
  | _ => False
  end.
Proof. intros ut. exists (lit "---" ++ [NL] ++ lit "k:" ++ [NL] ++ lit "  "). vm_compute. reflexivity. Qed.
Print Assumptions C40_nonempty_refuted.

(** Nor do they have no leading space. *)
Theorem C40_leading_space_refuted : forall ut, exists s,
  match parse_yaml ut s with
  | CVal d => items d = [DYaml (Hash [HElem (mkHE (lit "k") (mkA None (Unquoted (lit "  v"))))])]
  | _ => False
  end.
Proof. intros ut. exists (lit "---" ++ [NL] ++ lit "k:" ++ [NL] ++ lit "  v"). vm_compute. reflexivity. Qed.
Print Assumptions C40_leading_space_refuted.

(** C47: a parsed document is one root mapping or sequence between comments, and every
    node of it can be written down. *)
Theorem C47_parsed_shape :
  forall ut s d, parse_yaml ut s = CVal d ->
  Forall one_line (leading d) /\
  exists a y b, items d = map DComment a ++ DYaml y :: map DComment b
    /\ Forall one_line a /\ Forall one_line b
    /\ match y with Hash _ | Array _ | InlineArray _ => True | _ => False end.
Proof. exact parsed_shape. Qed.
Print Assumptions C47_parsed_shape.

Theorem C47_parsed_writable :
  forall ut s d, parse_yaml ut s = CVal d -> doc_everywhere (writable ut) d.
Proof. exact parsed_writable. Qed.
Print Assumptions C47_parsed_writable.

Example C47_example : forall ut,
  match parse_yaml ut (lit "# l" ++ [NL] ++ lit "---" ++ [NL] ++ lit "- &x 'it''s'" ++ [NL] ++
                       lit "- *x # c") with
  | CVal d => d = mkDoc [lit " l"]
      [DYaml (Array [AElem (mkA (Some (lit "x")) (SingleQ [SQ_Str (lit "it"); SQ_Quote; SQ_Str (lit "s")]));
                     AElem (mkA None (Anchor (lit "x"))); AInlineC (lit " c")])]
  | _ => False
  end.
Proof. intros ut. vm_compute. reflexivity. Qed.
