(** A file that changes its styles when it is pretty printed. *)
From Verif Require Import Base Ast Strings YamlGrammar Spec_Strings Spec_Pretty Spec_Parse Spec_Format Spec_Text
  FormatExample Spec_Stable Spec_Polish.
Import ListNotations.

Definition long_words : str := sep_concat SP (repeat (lit "aaaaaaaaa") 10).

Definition quoted_file : str :=
  lit "---" ++ [NL] ++
  lit "a:  'plain' # c" ++ [NL] ++
  lit "b: ""x\ty""" ++ [NL] ++
  lit "# list" ++ [NL] ++
  lit "c:" ++ [NL] ++
  lit "- - 1" ++ [NL] ++
  lit "  - 'p q'" ++ [NL] ++
  lit "- k: '" ++ long_words ++ lit "'" ++ [NL] ++
  lit "d: &z [ 'u, v' ]".

Definition quoted_doc : document := mkDoc []
  [ DYaml (Hash
      [ HElem (mkHE (lit "a") (mkA None (SingleQ [SQ_Str (lit "plain")])))
      ; HInlineC (lit " c")
      ; HElem (mkHE (lit "b") (mkA None (DoubleQ [DQ_Str (lit "x"); DQ_Esc E_Tab; DQ_Str (lit "y")])))
      ; HComment (lit " list")
      ; HElem (mkHE (lit "c") (mkA None (Array
          [ AElem (mkA None (Array
              [ AElem (mkA None (Unquoted (lit "1")))
              ; AElem (mkA None (SingleQ [SQ_Str (lit "p q")])) ]))
          ; AElem (mkA None (Hash [HElem (mkHE (lit "k") (mkA None (SingleQ [SQ_Str long_words])))])) ])))
      ; HElem (mkHE (lit "d") (mkA (Some (lit "z")) (InlineArray [SingleQ [SQ_Str (lit "u, v")]]))) ]) ].

Lemma quoted_calm ut : calm_doc ut quoted_doc.
Proof.
  intros y [H|[]]; inversion H; subst; clear H. split; [exact I|].
  cbn [calm inline_calm fold_right starts_plain head_of is_last one_entry filter is_entry length Nat.eqb andb two_elements].
  repeat match goal with |- _ /\ _ => split end; try exact I; try text_ok; try itext_ok; try discriminate.
  intros N. now destruct N.
Qed.

Ltac marker :=
  let a := fresh in let b := fresh in let r := fresh in let E := fresh in
  split; [discriminate|intros a b r E; vm_compute in E;
  first [discriminate E|inversion E; subst; split; [intros [[?|?] ?]; discriminate|intros [? ?]; discriminate]]].
Ltac readable_t :=
  right; split; [let c := fresh in let r := fresh in let E := fresh in
                 intros c r E; vm_compute in E; inversion E; reflexivity|];
  split; [apply colons_ok_inside; reflexivity|marker].

Lemma long_words_foldable : foldable_text 90 long_words.
Proof.
  exists false, (repeat (lit "aaaaaaaaa") 10), []. split; [discriminate|]. split; [|reflexivity].
  repeat constructor; try discriminate; not_in.
Qed.

Lemma may_block p com s c r : com = false -> p <> Head false -> s = c :: r -> ~ In CR s -> is_ws c = false -> may_be_block p com s.
Proof. intros C P E N W. split; [exact C|]. split; [exact P|]. split; [exact N|]. exists c, r. now split. Qed.

Lemma quoted_polish ut : polish_doc ut quoted_doc.
Proof.
  intros y [H|[]]; inversion H; subst; clear H.
  cbn [polish inline_polish fold_right head_of is_last one_entry filter is_entry length Nat.eqb andb].
  split; [|split; [|split; [split; [split; [|split; [|exact I]]|split; [split; [|exact I]|exact I]]|split; [split; [reflexivity|exact I]|exact I]]]].
  - split; [discriminate|]. intros _. split; [readable_t|]. intros L. vm_compute in L. exfalso. lia.
  - split; [|discriminate]. intros _. eapply may_block; [reflexivity|discriminate|reflexivity|not_in|reflexivity].
  - intros _. itext_ok.
  - split; [discriminate|]. intros _. split; [readable_t|]. intros L. vm_compute in L. exfalso. lia.
  - split; [discriminate|]. intros _. split; [readable_t|]. intros _. split; [|exact long_words_foldable].
    eapply may_block; [reflexivity|discriminate|reflexivity|not_in|reflexivity].
Qed.

Ltac calm_t :=
  let y := fresh in let H := fresh in
  intros y H; repeat (destruct H as [H|H]; [inversion H; subst; clear H|]); try (destruct H; fail);
  split; [exact I|];
  cbn [calm inline_calm fold_right starts_plain head_of is_last one_entry filter is_entry length Nat.eqb andb two_elements];
  repeat match goal with |- _ /\ _ => split end; try exact I; try text_ok; try itext_ok; try discriminate;
  try (intros N; now destruct N).
