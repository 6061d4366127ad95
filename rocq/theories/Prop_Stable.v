(** Property theorems C47 (places in parsed trees), C49 (stability of formatting) and C50
    (siblings). *)
From Verif Require Import Base Ast Peg YamlGrammar Consume Format Spec_Parse Spec_Format Spec_Stable
  ParsedNeat2 FormatTree StableFacts FormatExample StableExample SiblingFacts.
Import ListNotations.

(** C47: in a parsed document comments stand before an entry or behind a one-line value,
    no two texts or runs of line breaks of a quoted scalar are neighbours, and the root
    collection does not start with a comment. *)
Theorem C47_parsed_places :
  forall ut s d, parse_yaml ut s = CVal d -> doc_everywhere neat_node d.
Proof. intros ut s d H. exact (proj1 (parsed_neat ut s d H)). Qed.
Print Assumptions C47_parsed_places.

Theorem C47_root_starts_plain :
  forall ut s d y, parse_yaml ut s = CVal d -> In (DYaml y) (items d) -> starts_plain y.
Proof. intros ut s d y H. exact (proj2 (parsed_neat ut s d H) y). Qed.
Print Assumptions C47_root_starts_plain.

Example C47_places_example : forall ut, parse_yaml ut uneven_text = CVal uneven_doc.
Proof. intros ut. vm_compute. reflexivity. Qed.

(** C49: a parsed document in the calm class is parsed back from its formatted text, with
    or without a final line break. *)
Theorem C49_parsed_stable :
  forall ut s d, parse_yaml ut s = CVal d -> calm_doc ut d -> parse_yaml ut (format_doc d) = CVal d.
Proof. exact calm_stable. Qed.
Print Assumptions C49_parsed_stable.

Theorem C49_parsed_stable_newline :
  forall ut s d, parse_yaml ut s = CVal d -> calm_doc ut d -> parse_yaml ut (format_doc d ++ [NL]) = CVal d.
Proof. intros ut s d H C. exact (format_newline_parse ut d (calm_canon ut s d H C)). Qed.
Print Assumptions C49_parsed_stable_newline.

Example C49_example : forall ut,
  parse_yaml ut uneven_text = CVal uneven_doc /\ calm_doc ut uneven_doc.
Proof. intros ut. split; [vm_compute; reflexivity|exact (uneven_doc_calm ut)]. Qed.
Example C49_example_text : format_doc uneven_doc =
  lit "# l" ++ [NL] ++
  lit "---" ++ [NL] ++
  lit "# h" ++ [NL] ++
  lit "a: &x 'it''s' # c" ++ [NL] ++
  lit "b:" ++ [NL] ++
  lit "  - - 1" ++ [NL] ++
  lit "    - [ p, { q: r } ] #d" ++ [NL] ++
  lit "  - k: |-" ++ [NL] ++
  lit "      t" ++ [NL] ++
  lit "      " ++ [NL] ++
  lit "      u" ++ [NL] ++
  lit "      " ++ [NL] ++
  lit "c: &y" ++ [NL] ++
  lit "  f: g" ++ [NL] ++
  lit "  h: i" ++ [NL] ++
  lit "# z".
Proof. vm_compute. reflexivity. Qed.

(** Formatting an accepted text can give a text with another meaning.  Elements after a
    one-element sequence move into it: *)
Notation plain s := (mkA None (Unquoted (lit s))).
Notation root y := (mkDoc [] [DYaml y]).

Theorem C49_one_element_sequence_refuted : exists s d e, d <> e /\ forall ut,
  parse_yaml ut s = CVal d /\ parse_yaml ut (format_doc d) = CVal e.
Proof.
  exists (lit "---" ++ [NL] ++ lit "- " ++ [NL] ++ lit "  - x" ++ [NL] ++ lit "- y"),
    (root (Array [AElem (mkA None (Array [AElem (plain "x")])); AElem (plain "y")])),
    (root (Array [AElem (mkA None (Array [AElem (plain "x"); AElem (plain "y")]))])).
  split; [discriminate|]. intros ut. split; vm_compute; reflexivity.
Qed.
Print Assumptions C49_one_element_sequence_refuted.

(** A block scalar takes over the next entry, without the start of its key: *)
Theorem C49_block_scalar_refuted : exists s d e, d <> e /\ forall ut,
  parse_yaml ut s = CVal d /\ parse_yaml ut (format_doc d) = CVal e.
Proof.
  exists (lit "---" ++ [NL] ++ lit "- " ++ [NL] ++ lit "  a: |" ++ [NL] ++ lit "    x" ++ [NL] ++ lit "  b: 1"),
    (root (Array [AElem (mkA None (Hash [HElem (mkHE (lit "a") (mkA None (Literal [lit "x"] Clip))); scalar "b" "1"]))])),
    (root (Array [AElem (mkA None (Hash [HElem (mkHE (lit "a") (mkA None (Literal [lit "x"; lit " 1"] Clip)))]))])).
  split; [discriminate|]. intros ut. split; vm_compute; reflexivity.
Qed.
Print Assumptions C49_block_scalar_refuted.

(** Entries after an aliased one-entry mapping move into it: *)
Theorem C49_aliased_mapping_refuted : exists s d e, d <> e /\ forall ut,
  parse_yaml ut s = CVal d /\ parse_yaml ut (format_doc d) = CVal e.
Proof.
  exists (lit "---" ++ [NL] ++ lit "- " ++ [NL] ++ lit "  a: &x" ++ [NL] ++ lit "    b: 1" ++ [NL] ++ lit "  c: 2"),
    (root (Array [AElem (mkA None (Hash [HElem (mkHE (lit "a") (mkA (Some (lit "x")) (Hash [scalar "b" "1"]))); scalar "c" "2"]))])),
    (root (Array [AElem (mkA None (Hash [HElem (mkHE (lit "a") (mkA (Some (lit "x")) (Hash [scalar "b" "1"; scalar "c" "2"])))]))])).
  split; [discriminate|]. intros ut. split; vm_compute; reflexivity.
Qed.
Print Assumptions C49_aliased_mapping_refuted.

(** Formatting an accepted text can give a text that is rejected: an unquoted scalar with
    a final colon, in front of a comment or in an inline sequence; a comment in front of
    the first element of an element, or between the first two; an inline root. *)
Theorem C49_rejected_refuted : exists s1 s2 s3 s4 s5, forall ut s, In s [s1; s2; s3; s4; s5] ->
  exists d, parse_yaml ut s = CVal d /\ parse_yaml ut (format_doc d) = CErr.
Proof.
  exists (lit "---" ++ [NL] ++ lit "k: a:#d"),
    (lit "---" ++ [NL] ++ lit "k: [a b:]"),
    (lit "---" ++ [NL] ++ lit "- #d" ++ [NL] ++ lit "- 1"),
    (lit "---" ++ [NL] ++ lit "- " ++ [NL] ++ lit "    - a" ++ [NL] ++ lit "    # c" ++ [NL] ++ lit "    - b"),
    (lit "---" ++ [NL] ++ lit "[a, b]").
  intros ut s [<-|[<-|[<-|[<-|[<-|[]]]]]].
  - exists (root (Hash [scalar "k" "a:"; HInlineC (lit "d")])). split; vm_compute; reflexivity.
  - exists (root (Hash [HElem (mkHE (lit "k") (mkA None (InlineArray [Unquoted (lit "a b:")])))])).
    split; vm_compute; reflexivity.
  - exists (root (Array [AElem (mkA None (Array [AComment (lit "d"); AElem (plain "1")]))])).
    split; vm_compute; reflexivity.
  - exists (root (Array [AElem (mkA None (Array [AElem (plain "a"); AComment (lit " c"); AElem (plain "b")]))])).
    split; vm_compute; reflexivity.
  - exists (root (InlineArray [Unquoted (lit "a"); Unquoted (lit "b")])). split; vm_compute; reflexivity.
Qed.
Print Assumptions C49_rejected_refuted.

(** C50: lines "key: text", or "- text", one below the other, are the entries or elements
    of one collection, in that order. *)
Theorem C50_entries_are_siblings :
  forall ut (kvs : list (str * str)), kvs <> [] ->
    Forall (fun kv => plain_key ut (fst kv) /\ block_text ut (snd kv)) kvs ->
    parse_yaml ut (lit "---" ++ flat_map (fun kv => [NL] ++ fst kv ++ lit ": " ++ snd kv) kvs) =
    CVal (root (Hash (map (fun kv => HElem (mkHE (fst kv) (mkA None (Unquoted (snd kv))))) kvs))).
Proof. exact entry_lines. Qed.
Print Assumptions C50_entries_are_siblings.

Theorem C50_elements_are_siblings :
  forall ut (l : list str), l <> [] -> Forall (block_text ut) l ->
    parse_yaml ut (lit "---" ++ flat_map (fun s => [NL] ++ lit "- " ++ s) l) =
    CVal (root (Array (map (fun s => AElem (mkA None (Unquoted s))) l))).
Proof. exact element_lines. Qed.
Print Assumptions C50_elements_are_siblings.

Example C50_example : forall ut,
  Forall (fun kv => plain_key ut (fst kv) /\ block_text ut (snd kv))
    [(lit "first key", lit "see http://x.org:80, -really"); (lit "b", lit "?")] /\
  Forall (block_text ut) [lit "-x"; lit "a, b"].
Proof.
  intros ut. split.
  - apply Forall_cons; [split; [key_ok|text_ok]|]. apply Forall_cons; [split; [key_ok|text_ok]|apply Forall_nil].
  - apply Forall_cons; [text_ok|]. apply Forall_cons; [text_ok|apply Forall_nil].
Qed.

(** Without a value the line below becomes the value: *)
Theorem C50_missing_value_refuted : exists s d, s = lit "---" ++ [NL] ++ lit "k:" ++ [NL] ++ lit "b: 1" /\
  d = root (Hash [HElem (mkHE (lit "k") (mkA None (Hash [scalar "b" "1"])))]) /\
  forall ut, parse_yaml ut s = CVal d.
Proof. do 2 eexists. split; [reflexivity|]. split; [reflexivity|]. intros ut. vm_compute. reflexivity. Qed.
Print Assumptions C50_missing_value_refuted.

Theorem C50_missing_element_refuted : exists s d, s = lit "---" ++ [NL] ++ lit "- " ++ [NL] ++ lit "- x" /\
  d = root (Array [AElem (mkA None (Array [AElem (plain "x")]))]) /\
  forall ut, parse_yaml ut s = CVal d.
Proof. do 2 eexists. split; [reflexivity|]. split; [reflexivity|]. intros ut. vm_compute. reflexivity. Qed.
Print Assumptions C50_missing_element_refuted.

(** An element of an outer sequence becomes one of the inner sequence: *)
Theorem C50_outer_element_refuted : exists s d, s = lit "---" ++ [NL] ++ lit "- - x" ++ [NL] ++ lit "- y" /\
  d = root (Array [AElem (mkA None (Array [AElem (plain "x"); AElem (plain "y")]))]) /\
  forall ut, parse_yaml ut s = CVal d.
Proof. do 2 eexists. split; [reflexivity|]. split; [reflexivity|]. intros ut. vm_compute. reflexivity. Qed.
Print Assumptions C50_outer_element_refuted.

(** A less indented entry becomes an entry of the aliased mapping above it: *)
Theorem C50_aliased_mapping_refuted : exists s d, s = lit "---" ++ [NL] ++ lit "- a: &x" ++ [NL] ++ lit "    b: 1" ++ [NL] ++ lit "  c: 2" /\
  d = root (Array [AElem (mkA None (Hash
        [HElem (mkHE (lit "a") (mkA (Some (lit "x")) (Hash [scalar "b" "1"; scalar "c" "2"])))]))]) /\
  forall ut, parse_yaml ut s = CVal d.
Proof. do 2 eexists. split; [reflexivity|]. split; [reflexivity|]. intros ut. vm_compute. reflexivity. Qed.
Print Assumptions C50_aliased_mapping_refuted.
