(** Property theorems C52: edits of files, from text to text. *)
From Verif Require Import Base Ast Path Strings Peg YamlGrammar Consume Format Insert Spec_Insert
  Spec_Parse Spec_Format FormatTree FormatExample Spec_Stable StableFacts PolishExample Spec_Edit EditFacts2 EditExample.
Import ListNotations.

(** Insertion of a one-line value: the file that is written is read as the edited document. *)
Theorem C52_insert_file : forall ut s d p k h ow,
  parse_yaml ut s = CVal d -> calm_doc ut d -> firm_doc d ->
  last_key p = Some k -> plain_key ut k -> flow_canon ut (a_value h) -> alias_canon ut (a_alias h) ->
  let d' := snd (insert_into_hash_doc p h ow d) in
  parse_yaml ut (format_doc d') = CVal d'.
Proof.
  exact (fun ut s d p k h ow E C F L K V A =>
    format_parse ut _ (insert_canon ut d p k h ow (calm_canon ut s d E C) F L K V A)).
Qed.
Print Assumptions C52_insert_file.

(** The same for values on several lines, if nothing is overwritten. *)
Theorem C52_insert_block_file : forall ut s d p k h,
  parse_yaml ut s = CVal d -> calm_doc ut d -> firm_doc d ->
  last_key p = Some k -> plain_key ut k ->
  canon ut Own false (a_alias h) (a_value h) -> firm false false (a_alias h) (a_value h) ->
  let d' := snd (insert_into_hash_doc p h false d) in
  parse_yaml ut (format_doc d') = CVal d'.
Proof.
  exact (fun ut s d p k h E C F L K V A =>
    format_parse ut _ (insert_block_canon ut d p k h (calm_canon ut s d E C) F L K V A)).
Qed.
Print Assumptions C52_insert_block_file.

(** A lookup in the file that was written finds the inserted value, as often as it was
    inserted. *)
Theorem C52_insert_found : forall ut s d steps k h,
  parse_yaml ut s = CVal d -> calm_doc ut d -> firm_doc d ->
  cond_free steps -> plain_key ut k -> flow_canon ut (a_value h) -> alias_canon ut (a_alias h) ->
  let p := path_of (steps ++ [SKey k []]) in
  let '(n, d') := insert_into_hash_doc p h true d in
  exists e, parse_yaml ut (format_doc d') = CVal e /\ fst (find_values_doc p e) = repeat (a_value h) n.
Proof. exact insert_found_file. Qed.
Print Assumptions C52_insert_found.

Definition id_path : path := path_of [SKey (lit "steps") []; SAll []; SKey (lit "id") []].
Example C52_insert_example : forall ut,
  parse_yaml ut steps_file = CVal steps_doc /\ calm_doc ut steps_doc /\ firm_doc steps_doc
  /\ last_key id_path = Some (lit "id") /\ plain_key ut (lit "id").
Proof.
  intros ut. split; [vm_compute; reflexivity|]. split; [exact (steps_calm ut)|]. split; [exact steps_firm|].
  split; [reflexivity|key_ok].
Qed.
Example C52_insert_example_text :
  insert_into_hash_doc id_path (mkA (Some (lit "i")) (Unquoted (lit "7"))) false steps_doc =
    (2, snd (insert_into_hash_doc id_path (mkA (Some (lit "i")) (Unquoted (lit "7"))) false steps_doc))
  /\ format_doc (snd (insert_into_hash_doc id_path (mkA (Some (lit "i")) (Unquoted (lit "7"))) false steps_doc)) =
  lit "---" ++ [NL] ++
  lit "name: demo # c" ++ [NL] ++
  lit "# list" ++ [NL] ++
  lit "steps:" ++ [NL] ++
  lit "  - use: a" ++ [NL] ++
  lit "    run: |" ++ [NL] ++
  lit "      x" ++ [NL] ++
  lit "    id: &i 7" ++ [NL] ++
  lit "  - use: b" ++ [NL] ++
  lit "    id: &i 7" ++ [NL] ++
  lit "env: &e" ++ [NL] ++
  lit "  k: 'v'" ++ [NL] ++
  lit "  l: w".
Proof. split; vm_compute; reflexivity. Qed.

(** Renaming: every calm document. *)
Theorem C52_rename_file : forall ut s d p n,
  parse_yaml ut s = CVal d -> calm_doc ut d -> plain_key ut n ->
  let d' := snd (rename_field_doc p n d) in
  parse_yaml ut (format_doc d') = CVal d'.
Proof. exact (fun ut s d p n E C K => format_parse ut _ (rename_canon ut d p n (calm_canon ut s d E C) K)). Qed.
Print Assumptions C52_rename_file.
Example C52_rename_example : forall ut,
  parse_yaml ut steps_file = CVal steps_doc /\ calm_doc ut steps_doc /\ plain_key ut (lit "uses")
  /\ fst (rename_field_doc (path_of [SKey (lit "steps") []; SAll []; SKey (lit "use") []]) (lit "uses") steps_doc) = 2.
Proof. intros ut. split; [vm_compute; reflexivity|]. split; [exact (steps_calm ut)|]. split; [key_ok|vm_compute; reflexivity]. Qed.

(** Wrapping values in objects: documents without inline comments. *)
Theorem C52_to_object_file : forall ut s d p k,
  parse_yaml ut s = CVal d -> calm_doc ut d -> doc_everywhere no_inline_comment d -> plain_key ut k ->
  let d' := snd (to_object_doc p k d) in
  parse_yaml ut (format_doc d') = CVal d'.
Proof. exact (fun ut s d p k E C Q K => format_parse ut _ (to_object_canon ut d p k (calm_canon ut s d E C) Q K)). Qed.
Print Assumptions C52_to_object_file.
Example C52_to_object_example : forall ut,
  parse_yaml ut bare_file = CVal bare_doc /\ calm_doc ut bare_doc /\ doc_everywhere no_inline_comment bare_doc
  /\ plain_key ut (lit "cmd")
  /\ fst (to_object_doc (path_of [SKey (lit "steps") []; SAll []; SKey (lit "run") []]) (lit "cmd") bare_doc) = 1.
Proof.
  intros ut. split; [vm_compute; reflexivity|]. split; [exact (bare_calm ut)|]. split; [exact bare_quiet|].
  split; [key_ok|vm_compute; reflexivity].
Qed.

(** Removal: documents without comments, if no mapping becomes empty and the result is firm. *)
Theorem C52_remove_file : forall ut s d p,
  parse_yaml ut s = CVal d -> calm_doc ut d -> doc_everywhere no_comment d ->
  let d' := snd (remove_from_hash_doc p d) in
  firm_doc d' -> doc_everywhere filled d' ->
  parse_yaml ut (format_doc d') = CVal d'.
Proof.
  exact (fun ut s d p E C Q F W => format_parse ut _ (remove_canon ut d p (calm_canon ut s d E C) Q F W)).
Qed.
Print Assumptions C52_remove_file.
Example C52_remove_example : forall ut,
  parse_yaml ut bare_file = CVal bare_doc /\ calm_doc ut bare_doc /\ doc_everywhere no_comment bare_doc
  /\ let d' := snd (remove_from_hash_doc (path_of [SKey (lit "steps") []; SAll []; SKey (lit "run") []]) bare_doc) in
     d' <> bare_doc /\ firm_doc d' /\ doc_everywhere filled d'.
Proof.
  intros ut. split; [vm_compute; reflexivity|]. split; [exact (bare_calm ut)|]. split; [exact bare_no_comment|].
  split; [discriminate|]. split; [vm_compute; firm_t|]. vm_compute. intros y H. in_cases H. injection H as <-.
  repeat match goal with |- _ /\ _ => split end; try exact I; discriminate.
Qed.

(** Without these conditions the file that is written can have another meaning.  An entry
    that is added after a block scalar on the line of a dash becomes a part of the scalar: *)
Notation plain s := (mkA None (Unquoted (lit s))).
Notation root y := (mkDoc [] [DYaml y]).

Theorem C52_insert_after_block_scalar_refuted : exists s d p h d' e, d' <> e
  /\ insert_into_hash_doc p h false d = (1, d')
  /\ forall ut, parse_yaml ut s = CVal d /\ calm_doc ut d /\ parse_yaml ut (format_doc d') = CVal e.
Proof.
  exists (lit "---" ++ [NL] ++ lit "- a: |" ++ [NL] ++ lit "    x"),
    (root (Array [AElem (mkA None (Hash [HElem (mkHE (lit "a") (mkA None (Literal [lit "x"] Clip)))]))])),
    (path_of [SAll []; SKey (lit "b") []]), (plain "1"),
    (root (Array [AElem (mkA None (Hash [HElem (mkHE (lit "a") (mkA None (Literal [lit "x"] Clip))); scalar "b" "1"]))])),
    (root (Array [AElem (mkA None (Hash [HElem (mkHE (lit "a") (mkA None (Literal [lit "x"; lit " 1"] Clip)))]))])).
  split; [discriminate|]. split; [vm_compute; reflexivity|]. intros ut. split; [vm_compute; reflexivity|].
  split; [|vm_compute; reflexivity]. calm_t.
  - do 3 eexists. split; [reflexivity|]. split; [now right|]. exists (chr "x"). split; [now left|reflexivity].
  - right. split; [reflexivity|]. intros l ls'. discriminate.
Qed.
Print Assumptions C52_insert_after_block_scalar_refuted.

(** A comment stays behind when its entry is removed, and moves the next entry of the
    outer mapping into the inner one: *)
Theorem C52_remove_nests_next_entry_refuted : exists s d p d' e, d' <> e
  /\ remove_from_hash_doc p d = (1, d')
  /\ forall ut, parse_yaml ut s = CVal d /\ calm_doc ut d /\ parse_yaml ut (format_doc d') = CVal e
     /\ fst (find_values_doc (path_of [SKey (lit "d") []]) d') = [Unquoted (lit "2")]
     /\ fst (find_values_doc (path_of [SKey (lit "d") []]) e) = [].
Proof.
  exists (lit "---" ++ [NL] ++ lit "a:" ++ [NL] ++ lit "  # c" ++ [NL] ++ lit "  b: 1" ++ [NL] ++ lit "d: 2"),
    (root (Hash [HElem (mkHE (lit "a") (mkA None (Hash [HComment (lit " c"); scalar "b" "1"]))); scalar "d" "2"])),
    (path_of [SKey (lit "a") []; SKey (lit "b") []]),
    (root (Hash [HElem (mkHE (lit "a") (mkA None (Hash [HComment (lit " c")]))); scalar "d" "2"])),
    (root (Hash [HElem (mkHE (lit "a") (mkA None (Hash [HComment (lit " c"); scalar "d" "2"])))])).
  split; [discriminate|]. split; [vm_compute; reflexivity|]. intros ut. split; [vm_compute; reflexivity|].
  split; [calm_t|]. split; [vm_compute; reflexivity|]. split; vm_compute; reflexivity.
Qed.
Print Assumptions C52_remove_nests_next_entry_refuted.

(** An inline comment of a removed entry is read as a comment of the entry before: *)
Theorem C52_remove_moves_comment_refuted : exists s d p e,
  (forall ut, parse_yaml ut s = CVal d /\ calm_doc ut d
     /\ parse_yaml ut (format_doc (snd (remove_from_hash_doc p d))) = CVal e)
  /\ (exists l, items d = [DYaml (Hash (l ++ [scalar "b" "2"; HInlineC (lit " of b")]))]
        /\ items e = [DYaml (Hash (l ++ [HInlineC (lit " of b")]))]).
Proof.
  exists (lit "---" ++ [NL] ++ lit "a: 1" ++ [NL] ++ lit "b: 2 # of b"),
    (root (Hash [scalar "a" "1"; scalar "b" "2"; HInlineC (lit " of b")])),
    (path_of [SKey (lit "b") []]),
    (root (Hash [scalar "a" "1"; HInlineC (lit " of b")])).
  split.
  - intros ut. split; [vm_compute; reflexivity|]. split; [calm_t|vm_compute; reflexivity].
  - exists [scalar "a" "1"]. split; reflexivity.
Qed.
Print Assumptions C52_remove_moves_comment_refuted.

(** The first entry of a mapping on the line of a dash is removed, and a block scalar that
    comes next takes over the rest: *)
Theorem C52_remove_before_block_scalar_refuted : exists s d p d' e, d' <> e
  /\ remove_from_hash_doc p d = (1, d')
  /\ forall ut, parse_yaml ut s = CVal d /\ calm_doc ut d /\ doc_everywhere no_comment d
     /\ doc_everywhere filled d' /\ parse_yaml ut (format_doc d') = CVal e.
Proof.
  exists (lit "---" ++ [NL] ++ lit "- a: 1" ++ [NL] ++ lit "  b: |" ++ [NL] ++ lit "    x" ++ [NL] ++ lit "  c: 2"),
    (root (Array [AElem (mkA None (Hash [scalar "a" "1"; HElem (mkHE (lit "b") (mkA None (Literal [lit "x"] Clip))); scalar "c" "2"]))])),
    (path_of [SAll []; SKey (lit "a") []]),
    (root (Array [AElem (mkA None (Hash [HElem (mkHE (lit "b") (mkA None (Literal [lit "x"] Clip))); scalar "c" "2"]))])),
    (root (Array [AElem (mkA None (Hash [HElem (mkHE (lit "b") (mkA None (Literal [lit "x"; lit " 2"] Clip)))]))])).
  split; [discriminate|]. split; [vm_compute; reflexivity|]. intros ut. split; [vm_compute; reflexivity|].
  split; [|split; [|split; [|vm_compute; reflexivity]]].
  - calm_t.
    + do 3 eexists. split; [reflexivity|]. split; [now right|]. exists (chr "x"). split; [now left|reflexivity].
    + now left.
  - intros y H. in_cases H. injection H as <-. cbn [everywhere fold_right].
    repeat match goal with |- _ /\ _ => split end; try exact I; intros d H; in_cases H.
  - intros y H. in_cases H. injection H as <-. cbn [everywhere fold_right].
    repeat match goal with |- _ /\ _ => split end; try exact I; discriminate.
Qed.
Print Assumptions C52_remove_before_block_scalar_refuted.

(** An inline comment moves into the new object: *)
Theorem C52_to_object_moves_comment_refuted : exists s d p k d' e, d' <> e
  /\ to_object_doc p k d = (1, d')
  /\ forall ut, parse_yaml ut s = CVal d /\ calm_doc ut d /\ plain_key ut k /\ parse_yaml ut (format_doc d') = CVal e.
Proof.
  exists (lit "---" ++ [NL] ++ lit "a: 1 # c" ++ [NL] ++ lit "b: 2"),
    (root (Hash [scalar "a" "1"; HInlineC (lit " c"); scalar "b" "2"])),
    (path_of [SKey (lit "a") []]), (lit "k"),
    (root (Hash [HElem (mkHE (lit "a") (mkA None (Hash [scalar "k" "1"]))); HInlineC (lit " c"); scalar "b" "2"])),
    (root (Hash [HElem (mkHE (lit "a") (mkA None (Hash [scalar "k" "1"; HInlineC (lit " c")]))); scalar "b" "2"])).
  split; [discriminate|]. split; [vm_compute; reflexivity|]. intros ut. split; [vm_compute; reflexivity|].
  split; [calm_t|]. split; [key_ok|vm_compute; reflexivity].
Qed.
Print Assumptions C52_to_object_moves_comment_refuted.
