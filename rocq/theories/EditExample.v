(** A file in which entries can be added anywhere. *)
From Verif Require Import Base Ast Strings YamlGrammar Spec_Parse Spec_Format FormatExample Spec_Stable PolishExample Spec_Edit.
Import ListNotations.

Definition steps_file : str :=
  lit "---" ++ [NL] ++
  lit "name:  demo # c" ++ [NL] ++
  lit "# list" ++ [NL] ++
  lit "steps:" ++ [NL] ++
  lit "- use: a" ++ [NL] ++
  lit "  run: |" ++ [NL] ++
  lit "     x" ++ [NL] ++
  lit "- use: b" ++ [NL] ++
  lit "env: &e" ++ [NL] ++
  lit "  k: 'v'" ++ [NL] ++
  lit "  l: w" ++ [NL].

Definition steps_doc : document := mkDoc []
  [ DYaml (Hash
      [ scalar "name" "demo"
      ; HInlineC (lit " c")
      ; HComment (lit " list")
      ; HElem (mkHE (lit "steps") (mkA None (Array
          [ AElem (mkA None (Hash [scalar "use" "a"; HElem (mkHE (lit "run") (mkA None (Literal [lit "x"] Clip)))]))
          ; AElem (mkA None (Hash [scalar "use" "b"])) ])))
      ; HElem (mkHE (lit "env") (mkA (Some (lit "e"))
          (Hash [HElem (mkHE (lit "k") (mkA None (SingleQ [SQ_Str (lit "v")]))); scalar "l" "w"]))) ]) ].

Lemma steps_calm ut : calm_doc ut steps_doc.
Proof.
  calm_t.
  - do 3 eexists. split; [reflexivity|]. split; [now right|]. exists (chr "x"). split; [now left|reflexivity].
  - now left.
Qed.

Ltac firm_t :=
  let y := fresh in let H := fresh in
  intros y H; repeat (destruct H as [H|H]; [inversion H; subst; clear H|]); try (destruct H; fail);
  cbn [firm on_line]; repeat match goal with |- _ /\ _ => split end; try exact I; try reflexivity; try discriminate;
  try (intros _ N; now destruct N).

Lemma steps_firm : firm_doc steps_doc.
Proof. firm_t. Qed.

(** The same without comments. *)
Definition bare_file : str :=
  lit "---" ++ [NL] ++
  lit "steps:" ++ [NL] ++
  lit "- use: a" ++ [NL] ++
  lit "  run: |" ++ [NL] ++
  lit "     x" ++ [NL] ++
  lit "- use: b" ++ [NL] ++
  lit "  id: 7" ++ [NL].
Definition bare_doc : document := mkDoc []
  [ DYaml (Hash
      [ HElem (mkHE (lit "steps") (mkA None (Array
          [ AElem (mkA None (Hash [scalar "use" "a"; HElem (mkHE (lit "run") (mkA None (Literal [lit "x"] Clip)))]))
          ; AElem (mkA None (Hash [scalar "use" "b"; scalar "id" "7"])) ]))) ]) ].
Lemma bare_calm ut : calm_doc ut bare_doc.
Proof.
  calm_t.
  - do 3 eexists. split; [reflexivity|]. split; [now right|]. exists (chr "x"). split; [now left|reflexivity].
  - now left.
Qed.
Ltac in_cases H := repeat (destruct H as [H|H]; [subst; try reflexivity; try (eexists; reflexivity); try discriminate|]); try (destruct H; fail).
Lemma bare_no_comment : doc_everywhere no_comment bare_doc.
Proof.
  intros y H. in_cases H. injection H as <-. cbn [everywhere fold_right].
  repeat match goal with |- _ /\ _ => split end; try exact I; intros d H; in_cases H.
Qed.
Lemma bare_quiet : doc_everywhere no_inline_comment bare_doc.
Proof.
  intros y H. in_cases H. injection H as <-. cbn [everywhere fold_right].
  repeat match goal with |- _ /\ _ => split end; try exact I; intros c H; cbn in H; intuition discriminate.
Qed.
