(** Property theorems C62: edits change the text of a file only where they apply. *)
From Verif Require Import Base Ast Path Strings Peg YamlGrammar Consume Format Insert Spec_Insert
  Spec_Parse Spec_Edit EditExample FormatExample Spec_Local LocalFacts2 LocalFacts3 Prop_Edit.
Import ListNotations.

(** Insertion without overwriting that reports [n]: [n] times an entry appears in the text. *)
Theorem C62_insert : forall d p k h n d', last_key p = Some k ->
  insert_into_hash_doc p h false d = (n, d') ->
  times (patch (entry_added k h)) n (format_doc d) (format_doc d').
Proof. exact insert_local. Qed.
Print Assumptions C62_insert.

(** With overwriting: [n] times an entry appears or the value of an entry is replaced. *)
Theorem C62_overwrite : forall d p k h ow n d', last_key p = Some k ->
  insert_into_hash_doc p h ow d = (n, d') ->
  times (patch (fun o o' b => entry_added k h o o' b \/ value_replaced k h o o' b)) n (format_doc d) (format_doc d').
Proof. exact overwrite_local. Qed.
Print Assumptions C62_overwrite.

(** Removal: [n] times an entry disappears. *)
Theorem C62_remove : forall d p k n d', last_key p = Some k ->
  remove_from_hash_doc p d = (n, d') ->
  times (patch (entry_removed k)) n (format_doc d) (format_doc d').
Proof. exact remove_local. Qed.
Print Assumptions C62_remove.

(** Renaming: [n] times a key is replaced; the values stay byte for byte. *)
Theorem C62_rename : forall d p k new n d', last_key p = Some k ->
  rename_field_doc p new d = (n, d') ->
  times (patch (key_replaced k new)) n (format_doc d) (format_doc d').
Proof. exact rename_local. Qed.
Print Assumptions C62_rename.

(** Nesting: [n] times a value moves under a new key. *)
Theorem C62_nest : forall d p k new n d', last_key p = Some k ->
  to_object_doc p new d = (n, d') ->
  times (patch (value_nested k new)) n (format_doc d) (format_doc d').
Proof. exact nest_local. Qed.
Print Assumptions C62_nest.

(** In a document that was read from a file, insertion puts whole lines between two lines. *)
Theorem C62_insert_lines : forall ut s d p k h n d', parse_yaml ut s = CVal d ->
  everywhere tidy (a_value h) -> last_key p = Some k ->
  insert_into_hash_doc p h false d = (n, d') ->
  times (patch (lines_added k h)) n (format_doc d) (format_doc d').
Proof. exact insert_file_lines. Qed.
Print Assumptions C62_insert_lines.

(** So every line stays as it is, and the lines stay in order. *)
Theorem C62_lines_kept : forall ut s d p k h n d', parse_yaml ut s = CVal d ->
  everywhere tidy (a_value h) -> last_key p = Some k ->
  insert_into_hash_doc p h false d = (n, d') ->
  sublist (split NL (format_doc d)) (split NL (format_doc d')).
Proof. exact (fun ut s d p k h n d' E T K I => kept_lines k h n _ _ (insert_file_lines ut s d p k h n d' E T K I)). Qed.
Print Assumptions C62_lines_kept.

(** A one-line entry inserted [n] times makes the file [n] lines longer. *)
Theorem C62_line_count : forall ut s d p k h n d', parse_yaml ut s = CVal d ->
  everywhere tidy (a_value h) -> last_key p = Some k -> (forall i, ~ In NL (entry_at i k h)) ->
  insert_into_hash_doc p h false d = (n, d') ->
  length (split NL (format_doc d')) = length (split NL (format_doc d)) + n.
Proof. exact (fun ut s d p k h n d' E T K L I => more_lines k h n _ _ L (insert_file_lines ut s d p k h n d' E T K I)). Qed.
Print Assumptions C62_line_count.

Definition seven : aliased := mkA (Some (lit "i")) (Unquoted (lit "7")).
Example C62_insert_example : forall ut,
  parse_yaml ut steps_file = CVal steps_doc /\ everywhere tidy (a_value seven) /\ last_key id_path = Some (lit "id")
  /\ fst (insert_into_hash_doc id_path seven false steps_doc) = 2
  /\ (forall i, ~ In NL (entry_at i (lit "id") seven)).
Proof.
  intros ut. split; [vm_compute; reflexivity|]. split; [cbn; auto|]. split; [reflexivity|]. split; [reflexivity|].
  intros i H. cbn in H. repeat (destruct H as [H|H]; [discriminate|]). destruct H.
Qed.
Example C62_lines_example :
  length (split NL (format_doc steps_doc)) = 11
  /\ length (split NL (format_doc (snd (insert_into_hash_doc id_path seven false steps_doc)))) = 13.
Proof. split; vm_compute; reflexivity. Qed.

(** The first entry of a sequence element is removed: the next one moves to the dash. *)
Definition use_path : path := path_of [SKey (lit "steps") []; SAll []; SKey (lit "use") []].
Example C62_remove_example :
  remove_from_hash_doc use_path steps_doc = (2, snd (remove_from_hash_doc use_path steps_doc))
  /\ format_doc (snd (remove_from_hash_doc use_path steps_doc)) =
  lit "---" ++ [NL] ++
  lit "name: demo # c" ++ [NL] ++
  lit "# list" ++ [NL] ++
  lit "steps:" ++ [NL] ++
  lit "  - run: |" ++ [NL] ++
  lit "      x" ++ [NL] ++
  lit "  - {}" ++ [NL] ++
  lit "env: &e" ++ [NL] ++
  lit "  k: 'v'" ++ [NL] ++
  lit "  l: w".
Proof. split; vm_compute; reflexivity. Qed.
Example C62_rename_example :
  fst (rename_field_doc use_path (lit "uses") steps_doc) = 2 /\ fst (to_object_doc use_path (lit "o") steps_doc) = 2
  /\ fst (insert_into_hash_doc use_path seven true steps_doc) = 2 /\ last_key use_path = Some (lit "use").
Proof. repeat split. Qed.

(** The new lines after a removal need not be some of the old lines: the next entry moves to
    the line of the dash. *)
Definition pair_file : str := lit "---" ++ [NL] ++ lit "- a: 1" ++ [NL] ++ lit "  b: 2" ++ [NL] ++ lit "- c" ++ [NL].
Definition pair_doc : document :=
  mkDoc [] [DYaml (Array [AElem (mkA None (Hash [scalar "a" "1"; scalar "b" "2"])); AElem (mkA None (Unquoted (lit "c")))])].
Definition a_path : path := path_of [SIdx 0 []; SKey (lit "a") []].
Theorem C62_remove_lines_refuted : forall ut, exists s d p k d',
  parse_yaml ut s = CVal d /\ last_key p = Some k /\ remove_from_hash_doc p d = (1, d')
  /\ ~ sublist (split NL (format_doc d')) (split NL (format_doc d)).
Proof.
  intros ut. exists pair_file, pair_doc, a_path, (lit "a"), (snd (remove_from_hash_doc a_path pair_doc)).
  split; [vm_compute; reflexivity|]. split; [reflexivity|]. split; [reflexivity|].
  intros H. vm_compute in H. repeat (inversion H; subst; clear H; match goal with X : sublist _ _ |- _ => rename X into H end);
  inversion H.
Qed.
Print Assumptions C62_remove_lines_refuted.
