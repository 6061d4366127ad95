(** C83: what is written is YAML 1.2 and means the same there. *)
From Verif Require Import Base Ast Format Strings Ser Pretty Spec_Yaml12 Spec_Portable PortableFacts PlainFacts.
Import ListNotations.

(** The text of the file, with a line feed after it, follows the grammar of YAML 1.2.2, and the
    data that YAML finds in it is the data of the tree. *)
Theorem C83_yaml : forall d y, portable_doc d y -> yaml_file (Node None (content_of y)) (format_doc d ++ [NL]).
Proof. exact doc_wrote. Qed.
Print Assumptions C83_yaml.

Definition web_hash : list hashdata :=
  [ HElem (mkHE (lit "title") (mkA None (Unquoted (lit "see http://x.org:80, -really#1"))))
  ; HInlineC (lit " inline")
  ; HComment (lit " a comment")
  ; HElem (mkHE (lit "text") (mkA (Some (lit "t1")) (Literal [lit "  one"; lit "two"; []; lit "# three"; []] Keep)))
  ; HElem (mkHE (lit "folded key") (mkA None (Folded [lit "one"; lit "two"; []; lit "three"] Strip)))
  ; HElem (mkHE (lit "map") (mkA None (Hash
      [ HComment (lit "first")
      ; HElem (mkHE (lit "-a") (mkA None (Unquoted (lit "1"))))
      ; HElem (mkHE (lit "b") (mkA (Some (lit "here")) (Hash
          [HElem (mkHE (lit "c") (mkA None (Hash []))); HElem (mkHE (lit "d") (mkA None (Unquoted (lit "~"))))]))) ])))
  ; HElem (mkHE (lit "list") (mkA None (Array
      [ AComment (lit "start")
      ; AElem (mkA None (Hash [HElem (mkHE (lit "x") (mkA None (Unquoted (lit "?1")))); HElem (mkHE (lit "y") (mkA None
            (Array [AElem (mkA None (Unquoted (lit "deep"))); AElem (mkA None (Anchor (lit "here")))])))]))
      ; AElem (mkA None (Array [AElem (mkA None (SingleQ [SQ_Str (lit "it"); SQ_Quote; SQ_Str (lit "s")]))
                               ; AElem (mkA None (DoubleQ [DQ_Str (lit "tab"); DQ_Esc E_Tab])); AInlineC (lit "c")]))
      ; AElem (mkA None (InlineHash [(lit "p", InlineArray [Unquoted (lit "q"); Anchor (lit "t1")]); (lit "r", InlineHash [])]))
      ; AElem (mkA (Some (lit "z")) (Array [AElem (mkA None (Unquoted (lit "m")))]))
      ])))
  ].
Definition web_doc : document :=
  mkDoc [lit " before"] (map DComment [lit " top"; lit " two"] ++ DYaml (Hash web_hash) :: map DComment [lit "end"]).

Ltac chars_t := repeat (apply Forall_cons; [cbn; repeat split; try discriminate; try (apply nb_jsonb_spec; reflexivity)|]); apply Forall_nil.
Ltac inline_t := cbn [inline_portable fold_right]; repeat split;
  try (apply plainb_spec; reflexivity); try (apply anchor_nameb_spec; reflexivity);
  try (repeat (apply Forall_cons; [first [chars_t|exact I|discriminate]|]); apply Forall_nil).
Ltac line_t := split; [inline_t|split; [first [exact I|apply anchor_nameb_spec; reflexivity]|first [solve [intros []]|intros _; reflexivity]]].
Ltac key_t := split; [apply plainb_spec; reflexivity|split; [apply Nat.leb_le; reflexivity|intros ? ? ? [->| ->] [->| ->]; discriminate]].
Ltac names_t := first [exact I|apply anchor_nameb_spec; reflexivity].
Ltac note_t := apply nb_lineb; reflexivity.
Ltac value_t :=
  first [ solve [apply PLine; line_t]
        | solve [apply PLiteral; [names_t|discriminate|apply nb_linesb; reflexivity]]
        | solve [apply PFolded; [names_t|discriminate|apply nb_linesb; reflexivity|
            repeat (apply Forall_cons; [first [exact I|intros [?|?]; discriminate]|]); apply Forall_nil]]
        | apply PHash; [names_t|map_t|eexists; cbn; eauto 12]
        | apply PArray; [names_t|seq_t|eexists; cbn; eauto 12] ]
with map_t :=
  first [ apply MR0
        | apply MRComment; [note_t|map_t]
        | apply MREntryC; [key_t|line_t|note_t|map_t]
        | apply MREntry; [key_t|value_t|map_t] ]
with seq_t :=
  first [ apply SR0
        | apply SRComment; [note_t|seq_t]
        | apply SRElemC; [line_t|note_t|seq_t]
        | apply SRElem; [value_t|seq_t] ].
Example C83_example : portable_doc web_doc (Hash web_hash).
Proof. unfold web_doc. constructor; try (repeat (apply Forall_cons; [note_t|]); apply Forall_nil); [|exact I]. value_t. Qed.
Example C83_example_file : yaml_file (Node None (content_of (Hash web_hash))) (format_doc web_doc ++ [NL]).
Proof. exact (C83_yaml _ _ C83_example). Qed.
Example C83_example_root : portable_doc (mkDoc [lit " a note"] [DYaml (InlineArray [Unquoted (lit "a"); SingleQ [SQ_Str (lit "b, c")]]); DComment (lit " the end")])
  (InlineArray [Unquoted (lit "a"); SingleQ [SQ_Str (lit "b, c")]]).
Proof. apply (PRoot _ _ [lit " the end"]); [apply Forall_cons; [note_t|apply Forall_nil]|apply Forall_cons; [note_t|apply Forall_nil]|line_t]. Qed.

(** Some texts are written without quotes although they cannot be plain scalars of YAML. *)
Theorem C83_reserved_refuted : exists s, str_to_yaml s = Unquoted s /\ ~ plain FlowOut s.
Proof.
  exists (lit "@home"). split; [reflexivity|]. intros H. apply plainb_spec in H. discriminate H.
Qed.
Print Assumptions C83_reserved_refuted.
(** The same for a text that YAML takes for a reference, for a named value, and for a key. *)
Theorem C83_taken_refuted : exists s t u, str_to_yaml s = Unquoted s /\ flow_node FlowOut (Node None (Alias (lit "b"))) s /\
  str_to_yaml t = Unquoted t /\ flow_node FlowOut (Node (Some (lit "b")) (Scalar true (lit "c"))) t /\
  str_to_yaml u = Unquoted u /\ map_entry 0 (Node None (Scalar true (lit "a")), Node None (Scalar true (lit "1"))) (u ++ lit " 1" ++ [NL]).
Proof.
  exists (lit "*b"), (lit "&b c"), (lit "a:"). split; [reflexivity|]. split.
  { apply FAlias. apply anchor_nameb_spec. reflexivity. }
  split; [reflexivity|]. split.
  { apply (FProperties FlowOut (lit "b") [SP] _ (lit "c")); [apply anchor_nameb_spec; reflexivity|repeat constructor|discriminate|].
    apply FPlain. apply plainb_spec. reflexivity. }
  split; [reflexivity|].
  apply (BPair 0 (lit "a") [] _ (lit " 1" ++ [NL])); [apply plainb_spec; reflexivity|constructor|apply Nat.leb_le; reflexivity|].
  apply (BFlow 1 true [SP] _ (lit "1") [NL]); [repeat constructor|discriminate| |].
  - apply FContent, FPlain. apply plainb_spec. reflexivity.
  - apply (SL [NL] []); [apply (SB0 [])|]; constructor.
Qed.
Print Assumptions C83_taken_refuted.
(** A key that starts with a document marker is written as a document marker. *)
Theorem C83_marker_refuted : exists k, plain FlowOut k /\ forall a, forbidden (format_doc (mkDoc [] [DYaml (Hash [HElem (mkHE k a)])])).
Proof.
  exists (lit "--- a"). split; [apply plainb_spec; reflexivity|]. intros a.
  exists (lit "---"), (lit "---"), (lit " a:" ++ format_aliased a 0 (Some ParHash)). split; [|split; [now left|]].
  - destruct a as [al x]. unfold format_doc. cbn. now rewrite !app_nil_r.
  - right. do 2 eexists. split; [reflexivity|]. left. now left.
Qed.
Print Assumptions C83_marker_refuted.
(** A reference with a name of its own, which the crate's grammar has, is not YAML. *)
Theorem C83_named_reference_refuted : exists a i par, (forall x, ~ flow_node FlowOut x (tl (format_aliased a i par))).
Proof.
  exists (mkA (Some (lit "a")) (Anchor (lit "b"))), 0, None. intros x.
  exact (named_reference (lit "a") (lit "b") x (anchor_nameb_spec (lit "a") eq_refl) (anchor_nameb_spec (lit "b") eq_refl)).
Qed.
Print Assumptions C83_named_reference_refuted.
