(** C87: pretty printing keeps the data that readers of YAML 1.2 find. *)
From Coq Require Import ZArith.
From Verif Require Import Base Ast Format Strings Ser Pretty Spec_Strings Spec_Ser ExactSerFacts Spec_Core CoreFacts Spec_Portable PortableFacts PlainFacts Spec_Export ExportFacts
  Spec_Yaml12 Spec_Tidy TidyFacts Prop_Portable Prop_Export.
Import ListNotations.

(** Both files follow the grammar of YAML 1.2.2, and they hold the same data. *)
Theorem C87_pretty : forall d y, portable_doc d y -> gentle false y -> stays y ->
  exists c, alike (content_of y) c /\ yaml_file (Node None (content_of y)) (format_doc d ++ [NL]) /\
    yaml_file (Node None c) (format_doc (pretty_doc d) ++ [NL]).
Proof. exact tidy_file. Qed.
Print Assumptions C87_pretty.

(** The same data has the same meaning. *)
Theorem C87_meaning : forall c d al x, alike c d -> (resolved (Node al c) x <-> resolved (Node al d) x).
Proof. exact alike_same. Qed.
Print Assumptions C87_meaning.

(** A serialized value that is pretty printed means the value. *)
Theorem C87_export : forall v y, ser v = Some y -> exports v -> tidy v -> stays y ->
  exists n x, yaml_file n (format_doc (mkDoc [] [DYaml (pretty y)]) ++ [NL]) /\ resolved n x /\ intends v x.
Proof. exact tidy_export. Qed.
Print Assumptions C87_export.

Definition tidy_hash : list hashdata :=
  [ HElem (mkHE (lit "word") (mkA None (SingleQ [SQ_Str (lit "plain words")])))
  ; HInlineC (lit " inline")
  ; HElem (mkHE (lit "number") (mkA None (SingleQ [SQ_Str (lit "12")])))
  ; HElem (mkHE (lit "lines") (mkA None (DoubleQ [DQ_Str (lit "one"); DQ_Esc E_Newline; DQ_Str (lit " two"); DQ_Esc E_Newline])))
  ; HElem (mkHE (lit "long") (mkA None (SingleQ [SQ_Str (lit "a text of more than ninety bytes, "); SQ_Quote; SQ_Str (lit "quoted"); SQ_Quote;
      SQ_Str (lit " and with: a colon, so that it has to be folded over lines")])))
  ; HElem (mkHE (lit "list") (mkA None (Array
      [ AElem (mkA None (Array [AElem (mkA None (Unquoted (lit "a"))); AElem (mkA None (SingleQ [SQ_Str (lit "x, y")]))]))
      ; AComment (lit "next")
      ; AElem (mkA None (Hash [HElem (mkHE (lit "k") (mkA None (DoubleQ [DQ_Str (lit "v")])))])) ])))
  ].
Definition tidy_doc : document := mkDoc [] [DYaml (Hash tidy_hash)].
Definition tidy_value : sval :=
  SStruct [ (lit "name", SStr (lit "a: b")); (lit "note", SStr (lit "first" ++ NL :: lit "second"))
          ; (lit "list", SSeq [SSeq [SStr (lit "x"); SStr (lit "it's \ here")]; SSeq [SInt I64 5%Z]; STuple [SStr (lit "[")] ]) ].

Ltac split_t := match goal with |- (_ /\ _)%type => split | |- True => exact I end.
Ltac no_inline_t := intros p; intros;
  repeat match goal with
  | H : [] = ?p ++ _ |- _ => destruct p; discriminate H
  | H : _ :: _ = ?p ++ _ |- _ => destruct p as [|? p]; cbn [app] in H; [try discriminate H|injection H as _ H]
  end.
Ltac lines_t := split; [repeat (apply Forall_cons; [first [left; apply nb_charb_spec; reflexivity|right; reflexivity]|]); apply Forall_nil|
  split; [discriminate|intros ? ?; discriminate]].

Example C87_example : portable_doc tidy_doc (Hash tidy_hash).
Proof. unfold tidy_doc. apply (PDoc [] [] _ []); try apply Forall_nil; [|exact I]. value_t. Qed.
Ltac short_t := exfalso; match goal with H : 90 < _ |- _ => apply Nat.ltb_lt in H; discriminate H end.
Ltac single_t :=
  match goal with
  | |- if ?b then _ else _ =>
      replace b with true by reflexivity; cbn iota; intros H;
      first [exfalso; apply plain_b in H; discriminate H|split; [apply plainb_spec; reflexivity|word_t]]
  | |- (escaped _ -> _) /\ _ =>
      split; [first [intros _; lines_t|intros (e & [H|[]]); discriminate H]|intros _ ?; short_t]
  | |- true = true -> _ => intros _; first [exact I|apply plainb_spec; reflexivity]
  | |- false = true -> _ => discriminate
  end.
Example C87_example_gentle : gentle false (Hash tidy_hash).
Proof.
  cbn [gentle tidy_hash fold_right]. repeat split_t; cbn [gentle_scalar]; try exact I; try single_t; try (solve [no_inline_t]).
  - replace (utf8_len _ <=? 90) with false by reflexivity. cbn iota.
    exists [lit "a"; lit "text"; lit "of"; lit "more"; lit "than"; lit "ninety"; lit "bytes,"; lit "'quoted'"; lit "and"; lit "with:"; lit "a"; lit "colon,"; lit "so"; lit "that"; lit "it"; lit "has"; lit "to"; lit "be"; lit "folded"; lit "over"; lit "lines"].
    split; [discriminate|]. split.
    + cbn. repeat (apply Forall_cons; [repeat split; try discriminate; try (cbn; intuition discriminate); apply Nat.ltb_lt; reflexivity|]). apply Forall_nil.
    + split; [reflexivity|]. cbn. repeat (apply Forall_cons; [split; [apply nb_charb_spec; reflexivity|discriminate]|]). apply Forall_nil.
  - unfold tidy_hash. no_inline_t. injection H as _ _ <- _ _. apply Nat.leb_le. reflexivity.
Qed.
Example C87_example_files : pretty_doc tidy_doc <> tidy_doc /\ exists c, alike (content_of (Hash tidy_hash)) c /\
  yaml_file (Node None (content_of (Hash tidy_hash))) (format_doc tidy_doc ++ [NL]) /\
  yaml_file (Node None c) (format_doc (pretty_doc tidy_doc) ++ [NL]).
Proof. split; [vm_compute; discriminate|]. exact (C87_pretty _ _ C87_example C87_example_gentle I). Qed.
Example C87_export_ex : exports tidy_value /\ tidy tidy_value /\ exists y, ser tidy_value = Some y /\ stays y /\ pretty y <> y.
Proof.
  split; [cbn [tidy_value exports flat fold_right key_exports]; export_t|]. split.
  - cbn [tidy_value tidy fold_right]. repeat split_t; intros _; (split; [intros _; lines_t|intros _ ?; short_t]).
  - eexists. split; [vm_compute; reflexivity|]. split; [exact I|]. vm_compute. discriminate.
Qed.

Example C87_export_text : exports (SStr (lit "it's 5: #")) /\ tidy (SStr (lit "it's 5: #")) /\ exists y, ser (SStr (lit "it's 5: #")) = Some y /\ stays y.
Proof.
  split; [cbn [exports]; export_t|]. split; [cbn [tidy]; intros _; split; [intros [H|[H|[_ H]]]; cbn in H; intuition discriminate|intros _ ?; short_t]|].
  eexists. split; [vm_compute; reflexivity|]. split; [|apply Nat.leb_le; reflexivity]. intros (e & H). cbn in H. intuition discriminate.
Qed.

(** Without [gentle] data changes.  A quoted text loses the quotes that kept it a text. *)
Definition items (l : list arraydata) : document := mkDoc [] [DYaml (Array l)].
Ltac items_t := eapply (PDoc [] [] _ []); try apply Forall_nil; [|exact I]; value_t.
Ltac means_t := repeat first [apply RSeq|apply RNil|apply RCons|apply RQuoted|apply RPlain; first [word_t|apply KNull; cbn; auto]].
Theorem C87_null_refuted : exists d, d = items [AElem (mkA None (SingleQ [SQ_Str (lit "Null")]))] /\ differs (format_doc d) (format_doc (pretty_doc d)).
Proof.
  eexists. split; [reflexivity|].
  eapply (other_data _ (items [AElem (mkA None (Unquoted (lit "Null")))]) _ _ (VList [VScalar (MText (lit "Null"))]) (VList [VScalar MNull]));
    [items_t|items_t|reflexivity|means_t|means_t|discriminate].
Qed.
Print Assumptions C87_null_refuted.
(** A sequence in a sequence is written on one line, and the comma of a text becomes a separator. *)
Theorem C87_comma_refuted : exists d, d = items [AElem (mkA None (Array [AElem (mkA None (Unquoted (lit "a, b")))]))] /\
  differs (format_doc d) (format_doc (pretty_doc d)).
Proof.
  eexists. split; [reflexivity|].
  eapply (other_data _ (items [AElem (mkA None (InlineArray [Unquoted (lit "a"); Unquoted (lit "b")]))]) _ _
    (VList [VList [VScalar (MText (lit "a, b"))]]) (VList [VList [VScalar (MText (lit "a")); VScalar (MText (lit "b"))]]));
    [items_t|items_t|reflexivity|means_t|means_t|discriminate].
Qed.
Print Assumptions C87_comma_refuted.
(** A text that is written as lines takes the comment after it as part of its last line. *)
Theorem C87_comment_refuted : exists d, d = items [AElem (mkA None (DoubleQ [DQ_Str (lit "a"); DQ_Esc E_Tab; DQ_Str (lit "b")])); AInlineC (lit " c")] /\
  differs (format_doc d) (format_doc (pretty_doc d)).
Proof.
  eexists. split; [reflexivity|].
  eapply (other_data _ (items [AElem (mkA None (Literal [lit "a" ++ TAB :: lit "b # c"] Strip))]) _ _
    (VList [VScalar (MText (lit "a" ++ TAB :: lit "b"))]) (VList [VScalar (MText (lit "a" ++ TAB :: lit "b # c"))]));
    [items_t|items_t|reflexivity|means_t|means_t|discriminate].
Qed.
Print Assumptions C87_comment_refuted.
