(** C71: nothing in an accepted file is ignored: its text is spelled out by the document. *)
From Verif Require Import Base Ast Peg YamlGrammar Consume Spec_Parse Spec_Format Spec_Layout Spec_Flow Spec_Spell
  SpellDoc SpellInk.
Import ListNotations.

(** Every accepted text is, from its first character to its last, the document it is read
    as: names, keys, values and comments of the document in their order, the signs of the
    syntax, and white space.  Only white space, and in block scalars the cut margins, are
    not in the document. *)
Theorem C71_accepted : forall ut s d, parse_yaml ut s = CVal d -> spelled ut d s.
Proof. exact accepted_spelled. Qed.
Print Assumptions C71_accepted.

(** Without block scalars, the letters of an accepted file (all characters but white space
    and the signs of the syntax) are those of the document, in the same order. *)
Theorem C71_letters : forall ut d s, parse_yaml ut s = CVal d -> doc_everywhere unblocked d ->
  filter ink s = filter ink (doc_texts d).
Proof. exact accepted_ink. Qed.
Print Assumptions C71_letters.

(** So two files that are read as the same document have the same letters. *)
Theorem C71_same_letters : forall ut d s t, parse_yaml ut s = CVal d -> parse_yaml ut t = CVal d ->
  doc_everywhere unblocked d -> filter ink s = filter ink t.
Proof. exact same_ink. Qed.
Print Assumptions C71_same_letters.

Definition plain_tables : unitab := mkUni (fun _ => false) (fun _ => false).
Notation ln x := (lit x ++ [NL]).

(** With block scalars it is false: letters in the margin of a line after the first, left
    of where the first line starts, are dropped without an error. *)
Theorem C71_block_letters_refuted : exists ut d s t, parse_yaml ut s = CVal d /\ parse_yaml ut t = CVal d
  /\ filter ink s <> filter ink t.
Proof.
  exists plain_tables, (mkDoc [] [DYaml (Hash [HElem (mkHE (lit "a") (mkA None (Literal [lit "x"; []] Clip)))])]),
    (ln "---" ++ ln "a: |" ++ ln "     x" ++ ln "   yz"), (ln "---" ++ ln "a: |" ++ ln "     x" ++ ln "   or").
  split; [vm_compute; reflexivity|]. split; [vm_compute; reflexivity|]. vm_compute. discriminate.
Qed.
Print Assumptions C71_block_letters_refuted.

(** An element of a sequence does not need a line of its own: one line can be two elements. *)
Theorem C71_own_line_refuted : exists ut x a b, ~ In NL x /\
  parse_yaml ut (ln "---" ++ x ++ [NL]) = CVal (mkDoc [] [DYaml (Array [AElem a; AElem b])]).
Proof.
  exists plain_tables, (lit "- [a] - b"), (mkA None (InlineArray [Unquoted (lit "a")])), (mkA None (Unquoted (lit "b"))).
  split; [vm_compute; intuition discriminate|vm_compute; reflexivity].
Qed.
Print Assumptions C71_own_line_refuted.

(** The converse of the first theorem is false: a text can be spelled by two documents, of
    which the parser takes the one whose rule it tries first. *)
Definition dash : document :=
  mkDoc [] (map DComment [] ++ DYaml (Hash ((HElem (mkHE (lit "a") (mkA None (Unquoted (lit "- b")))) :: entry_comment None) ++ []))
    :: map DComment []).
Lemma one_end : blanks [NL].
Proof. apply (BLine [] NL []); [intros c []|now left|constructor]. Qed.
Theorem C71_converse_refuted : exists ut d s, spelled ut d s /\ parse_yaml ut s <> CVal d.
Proof.
  exists plain_tables, dash, ((lit "---" ++ [NL] ++ []) ++ ([] ++ (lit "a" ++ spaces 0 ++ lit ":" ++ [SP] ++ ([] ++ lit "- b" ++ spaces 0) ++ []) ++ [])
    ++ [NL] ++ spaces 0). split; [|vm_compute; discriminate].
  apply Spelled.
  - apply HPlain; [exact one_end|discriminate|constructor].
  - apply RootMap; [intros c []| |constructor]. apply Entry.
    + split; [exists (chr "a"), []; split; [reflexivity|left; reflexivity]|]. split.
      * intros c [<-|[]]. left. left. reflexivity.
      * intros [|c r] E; [discriminate|]. destruct r; discriminate E.
    + split; [discriminate|]. left. intros c [<-|[]]. reflexivity.
    + apply VBlock; [constructor|]. apply BlockBit, BitText. split.
      { exists (chr "-"), (lit " b"). split; [reflexivity|]. vm_compute. intuition discriminate. }
      split; [split; vm_compute; intuition discriminate|].
      split; [vm_compute; intuition discriminate|]. split.
      * intros (u & v & E). cbn in E. destruct u as [|? [|? [|? [|? u]]]]; discriminate E.
      * intros r E. destruct r as [|? [|? [|? [|? r]]]]; discriminate E.
    + reflexivity.
  - apply FEnd. exact one_end.
Qed.
Print Assumptions C71_converse_refuted.

(** A file with every kind of collection, comments in all places, names and references. *)
Definition mixed : str :=
  ln "# top" ++ ln "---" ++ ln "a: &n [x, {k: 'v'}] # one" ++ ln "b:" ++ ln "  # two" ++ ln "  - c: d" ++ ln "    e: f" ++ ln "  - *n"
  ++ lit "# end".
Definition mixed_doc : document :=
  mkDoc [lit " top"] [DYaml (Hash
    [HElem (mkHE (lit "a") (mkA (Some (lit "n")) (InlineArray [Unquoted (lit "x"); InlineHash [(lit "k", SingleQ [SQ_Str (lit "v")])]])));
     HInlineC (lit " one");
     HElem (mkHE (lit "b") (mkA None (Array [AComment (lit " two");
       AElem (mkA None (Hash [HElem (mkHE (lit "c") (mkA None (Unquoted (lit "d")))); HElem (mkHE (lit "e") (mkA None (Unquoted (lit "f"))))]));
       AElem (mkA None (Anchor (lit "n")))])))]); DComment (lit " end")].
Lemma mixed_read : parse_yaml plain_tables mixed = CVal mixed_doc.
Proof. vm_compute. reflexivity. Qed.
Example C71_accepted_ex : spelled plain_tables mixed_doc mixed.
Proof. apply C71_accepted. exact mixed_read. Qed.
Lemma mixed_unblocked : doc_everywhere unblocked mixed_doc.
Proof. intros y Hy. cbn in Hy. repeat destruct Hy as [E|Hy]; try discriminate; try contradiction. inversion E; subst. cbn. tauto. Qed.
Example C71_letters_ex : filter ink mixed = lit "topanxkvonebtwocdefnend".
Proof. rewrite (C71_letters plain_tables mixed_doc mixed mixed_read mixed_unblocked). vm_compute. reflexivity. Qed.
(** The same document with other white space and the collections in other places. *)
Definition mixed2 : str :=
  ln "" ++ ln "# top" ++ ln "" ++ ln "--- " ++ ln " a :  &n  [x,{k : 'v' }  ]# one" ++ ln "" ++ ln " b: # two" ++ ln "    - c:   d" ++ ln "       e: f"
  ++ ln "    -   *n" ++ ln "" ++ ln " # end".
Example C71_same_letters_ex : filter ink mixed = filter ink mixed2 /\ mixed <> mixed2.
Proof.
  split; [|discriminate]. apply (C71_same_letters plain_tables mixed_doc); [exact mixed_read|vm_compute; reflexivity|exact mixed_unblocked].
Qed.
