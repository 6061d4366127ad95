(** Property theorems C54: entries removed from and moved around in files, from text to text. *)
From Verif Require Import Base Ast Path Strings Peg YamlGrammar PathGrammar Consume Format Insert MoveDoc Spec_Insert Spec_Move
  Spec_Path PathFacts Spec_Parse Spec_Format FormatTree FormatExample Spec_Stable StableFacts PolishExample Spec_Edit EditFacts2 EditExample
  Spec_Rearrange EditFacts4 EditFacts5 EditFacts6.
Import ListNotations.

(** Removal from a document without comments.  A mapping that has become empty is written
    [{}] and read as an empty inline mapping. *)
Theorem C54_remove_file : forall ut s d p,
  parse_yaml ut s = CVal d -> calm_doc ut d -> doc_everywhere no_comment d ->
  let d' := snd (remove_from_hash_doc p d) in
  firm_doc d' -> rooted d' ->
  parse_yaml ut (format_doc d') = CVal (closed_doc d').
Proof. exact (fun ut s d p E C Q => remove_closed ut d p (calm_canon ut s d E C) Q). Qed.
Print Assumptions C54_remove_file.

Definition only_file : str :=
  lit "---" ++ [NL] ++
  lit "env:" ++ [NL] ++
  lit "  k: v" ++ [NL] ++
  lit "run: x".
Definition only_doc : document :=
  mkDoc [] [DYaml (Hash [HElem (mkHE (lit "env") (mkA None (Hash [scalar "k" "v"]))); scalar "run" "x"])].
Example C54_remove_example : forall ut,
  parse_yaml ut only_file = CVal only_doc /\ calm_doc ut only_doc /\ doc_everywhere no_comment only_doc
  /\ let d' := snd (remove_from_hash_doc (path_of [SKey (lit "env") []; SKey (lit "k") []]) only_doc) in
     firm_doc d' /\ rooted d' /\ format_doc d' = lit "---" ++ [NL] ++ lit "env: {}" ++ [NL] ++ lit "run: x"
     /\ closed_doc d' = mkDoc [] [DYaml (Hash [HElem (mkHE (lit "env") (mkA None (InlineHash []))); scalar "run" "x"])].
Proof.
  intros ut. split; [vm_compute; reflexivity|]. split; [calm_t|]. split.
  - intros y H. in_cases H. injection H as <-. cbn [everywhere fold_right].
    repeat match goal with |- _ /\ _ => split end; try exact I; intros d H; in_cases H.
  - cbv zeta. split; [vm_compute; firm_t|]. split; [|split; vm_compute; reflexivity]. vm_compute. intros [H|[]]. discriminate.
Qed.

(** Moving fields into a subfield, below any path: it does not panic, and the file that is
    written is read as the edited document. *)
Theorem C54_subfield_file : forall ut s d p sub names,
  parse_yaml ut s = CVal d -> calm_doc ut d -> doc_everywhere no_comment d -> plain_key ut sub ->
  exists n d', move_to_subfield_doc parse_path p sub names d = (Some n, d')
    /\ (firm_doc d' -> rooted d' -> parse_yaml ut (format_doc d') = CVal (closed_doc d')).
Proof. exact (fun ut s d p sub names E C Q K => subfield_closed ut d p sub names (calm_canon ut s d E C) Q K). Qed.
Print Assumptions C54_subfield_file.

Definition run_path : path := path_of [SKey (lit "steps") []; SAll []].
Example C54_subfield_example : forall ut,
  parse_yaml ut bare_file = CVal bare_doc /\ calm_doc ut bare_doc /\ doc_everywhere no_comment bare_doc
  /\ plain_key ut (lit "with")
  /\ exists d', move_to_subfield_doc parse_path run_path (lit "with") [lit "run"; lit "id"; lit "other"] bare_doc = (Some 2, d')
     /\ firm_doc d' /\ rooted d' /\ closed_doc d' = d'
     /\ format_doc d' =
        lit "---" ++ [NL] ++
        lit "steps:" ++ [NL] ++
        lit "  - use: a" ++ [NL] ++
        lit "    with:" ++ [NL] ++
        lit "      run: |" ++ [NL] ++
        lit "        x" ++ [NL] ++
        lit "  - use: b" ++ [NL] ++
        lit "    with:" ++ [NL] ++
        lit "      id: 7".
Proof.
  intros ut. split; [vm_compute; reflexivity|]. split; [exact (bare_calm ut)|]. split; [exact bare_no_comment|]. split; [key_ok|].
  eexists. split; [vm_compute; reflexivity|]. split; [firm_t|]. split; [intros [H|[]]; discriminate|]. split; vm_compute; reflexivity.
Qed.

(** At the top of the document only the mappings concerned have to be free of comments, and
    the file that is written holds the same data, moved. *)
Theorem C54_subfield_root : forall ut s d l sub names,
  parse_yaml ut s = CVal d -> calm_doc ut d -> root_of d (Hash l) ->
  no_comment (Hash l) -> plain_key ut sub -> Forall (plain (lit "[].|")) names -> NoDup names -> ~ In sub names -> chosen names l <> [] ->
  (first_value sub l = None \/ exists old, first_value sub l = Some (mkA None (Hash old)) /\ no_comment (Hash old)) ->
  exists d' after, move_to_subfield_doc parse_path (PRoot []) sub names d = (Some 1, d')
    /\ root_of d' (Hash after) /\ moved_under sub names l after /\ parse_yaml ut (format_doc d') = CVal d'.
Proof. exact subfield_root. Qed.
Print Assumptions C54_subfield_root.

Definition top_file : str :=
  lit "---" ++ [NL] ++
  lit "name: n" ++ [NL] ++
  lit "on:" ++ [NL] ++
  lit "  # c" ++ [NL] ++
  lit "  push: p" ++ [NL] ++
  lit "more:" ++ [NL] ++
  lit "  k: v" ++ [NL].
Definition top_list : list hashdata :=
  [ scalar "name" "n"
  ; HElem (mkHE (lit "on") (mkA None (Hash [HComment (lit " c"); scalar "push" "p"])))
  ; HElem (mkHE (lit "more") (mkA None (Hash [scalar "k" "v"]))) ].
Definition top_doc : document := mkDoc [] [DYaml (Hash top_list)].
Example C54_subfield_root_example : forall ut,
  parse_yaml ut top_file = CVal top_doc /\ calm_doc ut top_doc /\ root_of top_doc (Hash top_list)
  /\ no_comment (Hash top_list) /\ plain_key ut (lit "more")
  /\ Forall (plain (lit "[].|")) [lit "on"; lit "none"] /\ NoDup [lit "on"; lit "none"] /\ ~ In (lit "more") [lit "on"; lit "none"]
  /\ chosen [lit "on"; lit "none"] top_list <> []
  /\ exists old, first_value (lit "more") top_list = Some (mkA None (Hash old)) /\ no_comment (Hash old).
Proof.
  intros ut. split; [vm_compute; reflexivity|]. split; [unfold top_doc, top_list; calm_t|]. split; [exists (@nil str), (@nil str); reflexivity|].
  split; [intros d H; in_cases H|]. split; [key_ok|].
  split; [repeat (apply Forall_cons; [apply plain_b; vm_compute; congruence|]); apply Forall_nil|].
  split; [repeat constructor; cbn; intuition discriminate|]. split; [cbn; intuition discriminate|]. split; [discriminate|].
  eexists. split; [reflexivity|]. intros d H; in_cases H.
Qed.

(** Grouping entries by a field, below any path: the texts of that field become keys. *)
Theorem C54_map_file : forall ut s d p old sel new keeps,
  parse_yaml ut s = CVal d -> calm_doc ut d -> doc_everywhere no_comment d ->
  doc_everywhere (names_under ut sel) d -> plain_key ut new ->
  exists n d', move_to_map_doc parse_path p old sel new keeps d = (Some n, d')
    /\ (firm_doc d' -> rooted d' -> parse_yaml ut (format_doc d') = CVal (closed_doc d')).
Proof. exact (fun ut s d p old sel new keeps E C => map_closed ut d p old sel new keeps (calm_canon ut s d E C)). Qed.
Print Assumptions C54_map_file.

Definition group_file (t : str) : str :=
  lit "---" ++ [NL] ++
  lit "old:" ++ [NL] ++
  lit "  e1:" ++ [NL] ++
  lit "    type: " ++ t ++ [NL] ++
  lit "    v: 1".
Definition group_doc (t : yaml) : document :=
  mkDoc [] [DYaml (Hash [HElem (mkHE (lit "old") (mkA None (Hash [HElem (mkHE (lit "e1") (mkA None
    (Hash [HElem (mkHE (lit "type") (mkA None t)); scalar "v" "1"])))])))])].
Definition grouped (t : str) : document :=
  mkDoc [] [DYaml (Hash [HElem (mkHE (lit "old") (mkA None (Hash [])));
    HElem (mkHE (lit "new") (mkA None (Hash [HElem (mkHE t (mkA None (Hash [HElem (mkHE (lit "e1") (mkA None
      (Hash [scalar "v" "1"])))])))])))])].
Example C54_map_example : forall ut,
  parse_yaml ut (group_file (lit "t1")) = CVal (group_doc (Unquoted (lit "t1"))) /\ calm_doc ut (group_doc (Unquoted (lit "t1")))
  /\ doc_everywhere no_comment (group_doc (Unquoted (lit "t1")))
  /\ doc_everywhere (names_under ut (lit "type")) (group_doc (Unquoted (lit "t1"))) /\ plain_key ut (lit "new")
  /\ move_to_map_doc parse_path (PRoot []) (lit "old") (lit "type") (lit "new") [] (group_doc (Unquoted (lit "t1"))) = (Some 1, grouped (lit "t1"))
  /\ firm_doc (grouped (lit "t1")) /\ rooted (grouped (lit "t1"))
  /\ format_doc (grouped (lit "t1")) =
     lit "---" ++ [NL] ++
     lit "old: {}" ++ [NL] ++
     lit "new:" ++ [NL] ++
     lit "  t1:" ++ [NL] ++
     lit "    e1:" ++ [NL] ++
     lit "      v: 1".
Proof.
  intros ut. split; [vm_compute; reflexivity|]. split; [calm_t|]. split.
  { intros y H. in_cases H. injection H as <-. cbn [everywhere fold_right].
    repeat match goal with |- _ /\ _ => split end; try exact I; intros d H; in_cases H. }
  split.
  { intros y H. in_cases H. injection H as <-. cbn [everywhere fold_right].
    repeat match goal with |- _ /\ _ => split end; try exact I; intros a s H E N; cbn in H; repeat (destruct H as [H|H]; [try discriminate H|]); try contradiction.
    injection H as <-. injection E as <-. key_ok. }
  split; [key_ok|]. split; [vm_compute; reflexivity|]. split; [firm_t|]. split; [intros [H|[]]; discriminate|vm_compute; reflexivity].
Qed.

(** When a text of that field is no key, the file that is written cannot be read, although
    nothing was reported: *)
Theorem C54_group_name_unreadable_refuted : exists s d p old sel new d', forall ut,
  parse_yaml ut s = CVal d /\ calm_doc ut d /\ doc_everywhere no_comment d /\ plain_key ut new
  /\ move_to_map_doc parse_path p old sel new [] d = (Some 1, d') /\ firm_doc d' /\ rooted d'
  /\ parse_yaml ut (format_doc d') = CErr.
Proof.
  exists (group_file (lit "a.b")), (group_doc (Unquoted (lit "a.b"))), (PRoot []), (lit "old"), (lit "type"), (lit "new"), (grouped (lit "a.b")).
  intros ut. split; [vm_compute; reflexivity|]. split; [calm_t|]. split.
  { intros y H. in_cases H. injection H as <-. cbn [everywhere fold_right].
    repeat match goal with |- _ /\ _ => split end; try exact I; intros d H; in_cases H. }
  split; [key_ok|]. split; [vm_compute; reflexivity|]. split; [firm_t|]. split; [intros [H|[]]; discriminate|vm_compute; reflexivity].
Qed.
Print Assumptions C54_group_name_unreadable_refuted.

(** or is read as something else: *)
Theorem C54_group_name_meaning_refuted : exists s d p old sel new d' e,
  closed_doc d' <> e /\ forall ut,
  parse_yaml ut s = CVal d /\ calm_doc ut d /\ plain_key ut new
  /\ move_to_map_doc parse_path p old sel new [] d = (Some 1, d') /\ firm_doc d' /\ rooted d'
  /\ parse_yaml ut (format_doc d') = CVal e
  /\ fst (find_values_doc (path_of [SKey (lit "new") []; SKey (lit "e1") []; SKey (lit "v") []]) e) = [Unquoted (lit "1")].
Proof.
  exists (group_file (lit "'# b'")), (group_doc (SingleQ [SQ_Str (lit "# b")])), (PRoot []), (lit "old"), (lit "type"), (lit "new"), (grouped (lit "# b")).
  exists (mkDoc [] [DYaml (Hash [HElem (mkHE (lit "old") (mkA None (InlineHash [])));
    HElem (mkHE (lit "new") (mkA None (Hash [HComment (lit " b:"); HElem (mkHE (lit "e1") (mkA None (Hash [scalar "v" "1"])))])))])]).
  split; [discriminate|]. intros ut. split; [vm_compute; reflexivity|]. split; [calm_t|].
  split; [key_ok|]. split; [vm_compute; reflexivity|]. split; [firm_t|]. split; [intros [H|[]]; discriminate|]. split; vm_compute; reflexivity.
Qed.
Print Assumptions C54_group_name_meaning_refuted.

(** The alias of the mapping is written twice: *)
Theorem C54_map_doubles_alias_refuted : exists s d p old sel new l l' a,
  (forall ut, parse_yaml ut s = CVal d /\ calm_doc ut d)
  /\ root_of d (Hash l) /\ flat_map (fun x => match x with HElem e => [a_alias (he_value e)] | _ => [] end) l = [Some a]
  /\ root_of (snd (move_to_map_doc parse_path p old sel new [] d)) (Hash l')
  /\ flat_map (fun x => match x with HElem e => [a_alias (he_value e)] | _ => [] end) l' = [Some a; Some a].
Proof.
  exists (lit "---" ++ [NL] ++ lit "old: &m" ++ [NL] ++ lit "  e1:" ++ [NL] ++ lit "    type: t" ++ [NL] ++ lit "    v: 1"  ++ [NL] ++ lit "  e2:" ++ [NL] ++ lit "    v: 2").
  exists (mkDoc [] [DYaml (Hash [HElem (mkHE (lit "old") (mkA (Some (lit "m")) (Hash [HElem (mkHE (lit "e1") (mkA None
    (Hash [scalar "type" "t"; scalar "v" "1"]))); HElem (mkHE (lit "e2") (mkA None (Hash [scalar "v" "2"])))])))])]).
  do 6 eexists. exists (lit "m"). split.
  { intros ut. split; [vm_compute; reflexivity|calm_t]. }
  split; [exists (@nil str), (@nil str); reflexivity|]. split; [reflexivity|]. split; [|instantiate (1 := [HElem (mkHE (lit "old") (mkA (Some (lit "m")) (Hash [HElem (mkHE (lit "e2") (mkA None (Hash [scalar "v" "2"])))])));
    HElem (mkHE (lit "new") (mkA (Some (lit "m")) (Hash [HElem (mkHE (lit "t") (mkA None (Hash [HElem (mkHE (lit "e1") (mkA None
    (Hash [scalar "v" "1"])))])))])))]); reflexivity].
  instantiate (1 := lit "new"). instantiate (1 := lit "type"). instantiate (1 := lit "old"). instantiate (1 := PRoot []).
  exists (@nil str), (@nil str). vm_compute. reflexivity.
Qed.
Print Assumptions C54_map_doubles_alias_refuted.

(** A block scalar that becomes the first entry on the line of a dash takes over the rest: *)
Theorem C54_subfield_before_block_scalar_refuted : exists s d p sub names d' e, closed_doc d' <> e /\ forall ut,
  parse_yaml ut s = CVal d /\ calm_doc ut d /\ doc_everywhere no_comment d /\ plain_key ut sub
  /\ move_to_subfield_doc parse_path p sub names d = (Some 1, d') /\ rooted d'
  /\ parse_yaml ut (format_doc d') = CVal e.
Proof.
  exists (lit "---" ++ [NL] ++ lit "- a: 1" ++ [NL] ++ lit "  b: |" ++ [NL] ++ lit "    x" ++ [NL] ++ lit "  c: 2"),
    (mkDoc [] [DYaml (Array [AElem (mkA None (Hash [scalar "a" "1"; HElem (mkHE (lit "b") (mkA None (Literal [lit "x"] Clip))); scalar "c" "2"]))])]),
    (path_of [SAll []]), (lit "w"), [lit "a"],
    (mkDoc [] [DYaml (Array [AElem (mkA None (Hash [HElem (mkHE (lit "b") (mkA None (Literal [lit "x"] Clip))); scalar "c" "2";
       HElem (mkHE (lit "w") (mkA None (Hash [scalar "a" "1"])))]))])]).
  eexists. split; [|intros ut; split; [vm_compute; reflexivity|]; split; [|split; [|split; [|split; [vm_compute; reflexivity|split; [intros [H|[]]; discriminate|vm_compute; reflexivity]]]]]].
  - discriminate.
  - calm_t.
    + do 3 eexists. split; [reflexivity|]. split; [now right|]. exists (chr "x"). split; [now left|reflexivity].
    + now left.
  - intros y H. in_cases H. injection H as <-. cbn [everywhere fold_right].
    repeat match goal with |- _ /\ _ => split end; try exact I; intros d H; in_cases H.
  - key_ok.
Qed.
Print Assumptions C54_subfield_before_block_scalar_refuted.
