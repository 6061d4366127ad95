(** A text with uneven spacing whose document formatting keeps. *)
From Verif Require Import Base Ast YamlGrammar Spec_Parse Spec_Format FormatExample Spec_Stable.
Import ListNotations.

Definition uneven_text : str :=
  lit "# l" ++ [NL] ++
  lit "---" ++ [NL] ++
  lit "# h" ++ [NL] ++
  lit "a:   &x  'it''s' # c" ++ [NL] ++
  lit "b:" ++ [NL] ++
  lit " - - 1" ++ [NL] ++
  lit "   - [ p,{q: r} ] #d" ++ [NL] ++
  lit " -  k: |-" ++ [NL] ++
  lit "      t" ++ [NL] ++ [NL] ++
  lit "      u" ++ [NL] ++ [NL] ++
  lit "c: &y" ++ [NL] ++
  lit "     f: g" ++ [NL] ++
  lit "     h: i" ++ [NL] ++
  lit "# z" ++ [NL].

Definition uneven_doc : document := mkDoc [lit " l"]
  [ DComment (lit " h")
  ; DYaml (Hash
      [ HElem (mkHE (lit "a") (mkA (Some (lit "x")) (SingleQ [SQ_Str (lit "it"); SQ_Quote; SQ_Str (lit "s")])))
      ; HInlineC (lit " c")
      ; HElem (mkHE (lit "b") (mkA None (Array
          [ AElem (mkA None (Array
              [ AElem (mkA None (Unquoted (lit "1")))
              ; AElem (mkA None (InlineArray [Unquoted (lit "p"); InlineHash [(lit "q", Unquoted (lit "r"))]]))
              ; AInlineC (lit "d") ]))
          ; AElem (mkA None (Hash [HElem (mkHE (lit "k") (mkA None (Literal [lit "t"; []; lit "u"; []] Strip)))])) ])))
      ; HElem (mkHE (lit "c") (mkA (Some (lit "y")) (Hash [scalar "f" "g"; scalar "h" "i"]))) ])
  ; DComment (lit " z") ].

Lemma uneven_doc_calm ut : calm_doc ut uneven_doc.
Proof.
  intros y [H|[H|[H|[]]]]; inversion H; subst; clear H. split; [exact I|].
  cbn [calm inline_calm fold_right starts_plain head_of is_last one_entry filter is_entry length Nat.eqb andb two_elements].
  repeat match goal with |- _ /\ _ => split end;
    try exact I; try text_ok; try itext_ok; try discriminate.
  - intros N. now destruct N.
  - do 3 eexists. split; [reflexivity|]. split; [now right|]. exists (chr "t"). split; [now left|reflexivity].
  - right. split; [reflexivity|]. intros l ls'. discriminate.
Qed.
