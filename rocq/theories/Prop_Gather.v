(** C95: [find_values] gathers exactly the values that YAML 1.2 finds, for paths with conditions,
    positions and wildcards. *)
From Verif Require Import Base Ast Strings Path Insert Format Peg YamlGrammar Consume Spec_Parse Spec_Edit Spec_Local Spec_Insert Spec_Yaml12 Spec_Portable PortableFacts PlainFacts
  FormatExample Spec_Layout Spec_Common CommonExample Spec_Amend Spec_Seek Spec_Gather GatherFacts Prop_Portable Prop_Common Prop_Revise.
Import ListNotations.

Theorem C95_gather : forall d y r x vs d', portable_doc d y -> everywhere only_block y -> yaml_file x (format_doc d ++ [NL]) ->
  find_values_doc (path_of r) d = (vs, d') -> d' = d /\ map content_of vs = map body (gather r x).
Proof. exact gather_doc. Qed.
Print Assumptions C95_gather.
(** The strings that [as_string] takes from the values are the texts that YAML finds. *)
Theorem C95_strings : forall d y r x, portable_doc d y -> everywhere only_block y -> yaml_file x (format_doc d ++ [NL]) ->
  map as_string (fst (find_values_doc (path_of r) d)) = map (fun w => text (body w)) (gather r x).
Proof. exact gather_strings. Qed.
Print Assumptions C95_strings.
(** Files in the common layout that are read. *)
Theorem C95_file : forall ut d y s r x, common ut d y s -> everywhere only_block y -> yaml_file x s ->
  parse_yaml ut s = CVal d /\ forall vs d', find_values_doc (path_of r) d = (vs, d') -> d' = d /\ map content_of vs = map body (gather r x).
Proof. exact gather_file. Qed.
Print Assumptions C95_file.

Definition user (n r : string) : arraydata := AElem (mkA None (Hash
  [HElem (mkHE (lit "name") (mkA None (Unquoted (lit n)))); HElem (mkHE (lit "role") (mkA (Some (lit "r")) (SingleQ [SQ_Str (lit r)])))])).
Definition users : yaml := Hash [HElem (mkHE (lit "users") (mkA None (Array [user "ann" "admin"; AComment (lit " more"); user "bob" "guest"; user "cy" "admin"])))].
Definition users_doc : document := mkDoc [] [DYaml users].
Definition admins : list step := [SKey (lit "users") []; SAll [mkC (lit "role") (lit "admin")]; SKey (lit "name") []].
Definition second : list step := [SKey (lit "users") []; SIdx 1 [mkC (lit "name") (lit "bob")]; SKey (lit "role") []].
Example C95_users : portable_doc users_doc users /\ everywhere only_block users /\ yaml_file (Node None (content_of users)) (format_doc users_doc ++ [NL]).
Proof.
  assert (D : portable_doc users_doc users).
  { apply (PDoc [] [] _ []); try apply Forall_nil; [|exact I]. unfold users, user. value_t. }
  split; [exact D|]. split; [cbn; tauto|exact (doc_wrote _ _ D)].
Qed.
Example C95_admins : map (fun w => text (body w)) (gather admins (Node None (content_of users))) = [Some (lit "ann"); Some (lit "cy")] /\
  fst (find_values_doc (path_of admins) users_doc) = [Unquoted (lit "ann"); Unquoted (lit "cy")].
Proof. split; reflexivity. Qed.
Example C95_second : gather second (Node None (content_of users)) = [Node (Some (lit "r")) (Spec_Yaml12.Scalar false (lit "guest"))] /\
  map as_string (fst (find_values_doc (path_of second) users_doc)) = [Some (lit "guest")].
Proof. split; reflexivity. Qed.
Example C95_file_ex : forall ut, common ut small_doc small_root small_text /\ everywhere only_block small_root /\
  find_values_doc (path_of [SKey (lit "nested") [mkC (lit "name") (lit "app")]; SKey (lit "key") []]) small_doc = ([Unquoted (lit "one")], small_doc).
Proof. intros ut. split; [apply small_common|]. split; [cbn; tauto|reflexivity]. Qed.
