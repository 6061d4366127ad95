(** C96: edits with conditions, positions and wildcards change the data of YAML 1.2 at exactly the
    places that the path selects. *)
From Verif Require Import Base Ast Strings Path Insert Format Peg YamlGrammar Consume Spec_Parse Spec_Edit Spec_Local Spec_Insert Spec_Yaml12 Spec_Layout Spec_Common Spec_Portable PortableFacts PlainFacts
  Spec_Amend Spec_Seek Spec_Gather Spec_Change ChangeFacts Prop_Portable Prop_Revise Prop_Gather.
Import ListNotations.

(** The path ends with the key [k], which may have conditions [cs]. *)
Theorem C96_insert : forall d y r k cs, portable_doc d y -> everywhere only_block y -> forall h ow n d', everywhere filled y -> key_portable k -> portable h ->
  everywhere filled (a_value h) -> (ow = false \/ on_line h \/ everywhere no_inline_comment y /\ everywhere no_inline_comment (a_value h)) ->
  insert_into_hash_doc (path_of (r ++ [SKey k cs])) h ow d = (n, d') ->
  turns (change r cs (put k (node_of h) ow)) (format_doc d ++ [NL]) (format_doc d' ++ [NL]).
Proof. exact insert_turns. Qed.
Print Assumptions C96_insert.
Theorem C96_remove : forall d y r k cs, portable_doc d y -> everywhere only_block y -> forall n d', everywhere no_comment y ->
  remove_from_hash_doc (path_of (r ++ [SKey k cs])) d = (n, d') -> (In (DYaml (Hash [])) (items d') -> forall c q, items d <> DComment c :: q) ->
  turns (change r cs (drop k)) (format_doc d ++ [NL]) (format_doc d' ++ [NL]).
Proof. exact remove_turns. Qed.
Print Assumptions C96_remove.
Theorem C96_rename : forall d y r k cs, portable_doc d y -> everywhere only_block y -> forall new n d', key_portable new ->
  rename_field_doc (path_of (r ++ [SKey k cs])) new d = (n, d') ->
  turns (change r cs (rekey k new)) (format_doc d ++ [NL]) (format_doc d' ++ [NL]).
Proof. exact rename_turns. Qed.
Print Assumptions C96_rename.
Theorem C96_nest : forall d y r k cs, portable_doc d y -> everywhere only_block y -> forall new n d', everywhere no_inline_comment y -> key_portable new ->
  to_object_doc (path_of (r ++ [SKey k cs])) new d = (n, d') ->
  turns (change r cs (wrap k new)) (format_doc d ++ [NL]) (format_doc d' ++ [NL]).
Proof. exact nest_turns. Qed.
Print Assumptions C96_nest.
(** For a file in the common layout that is read, edited and written, the old text can be taken
    for the text of the document. *)
Theorem C96_file : forall ut d y s, common ut d y s -> portable_doc d y /\ everywhere filled y /\ parse_yaml ut s = CVal d /\
  forall f s', turns f (format_doc d ++ [NL]) s' -> turns f s s'.
Proof. exact read_turns. Qed.
Print Assumptions C96_file.
Example C96_file_ex : forall ut, common ut small_doc small_root small_text /\
  turns (change [SKey (lit "nested") []] [mkC (lit "other") (lit "two")] (rekey (lit "key") (lit "first"))) (format_doc small_doc ++ [NL])
    (format_doc (snd (rename_field_doc (path_of ([SKey (lit "nested") []] ++ [SKey (lit "key") [mkC (lit "other") (lit "two")]])) (lit "first") small_doc)) ++ [NL]).
Proof.
  intros ut. split; [apply small_common|]. eapply C96_rename; [exact (proj1 (C96_file ut _ _ _ (small_common ut)))|cbn; tauto|key_t|apply surjective_pairing].
Qed.

Definition all_users : list step := [SKey (lit "users") []; SAll []].
Definition is_admin : list condition := [mkC (lit "role") (lit "admin")].
Definition plain_users : yaml := Hash [HElem (mkHE (lit "users") (mkA None (Array [user "ann" "admin"; user "bob" "guest"; user "cy" "admin"])))].
Definition plain_doc : document := mkDoc [] [DComment (lit " top"); DYaml plain_users].
Example C96_plain : portable_doc plain_doc plain_users /\ everywhere only_block plain_users /\ everywhere filled plain_users /\ everywhere no_comment plain_users /\
  everywhere no_inline_comment plain_users.
Proof.
  split; [apply (PDoc [] [lit " top"] _ []); try (repeat (apply Forall_cons; [note_t|]); apply Forall_nil); [|exact I]; unfold plain_users, user; value_t|].
  repeat split; try discriminate; try (intros c; cbn; intuition (subst; try reflexivity; discriminate)).
  cbn. intros d H. repeat (destruct H as [<- |H]; [eexists; reflexivity|]). destruct H.
Qed.
Definition plain_node : node := Node None (content_of plain_users).
(** Two users are admins. *)
Example C96_insert_ex : key_portable (lit "active") /\ portable (mkA None (Unquoted (lit "yes"))) /\
  fst (insert_into_hash_doc (path_of (all_users ++ [SKey (lit "active") is_admin])) (mkA None (Unquoted (lit "yes"))) false plain_doc) = 2 /\
  map (fun w => text (body w)) (gather (all_users ++ [SKey (lit "active") []]) (change all_users is_admin (put (lit "active") (Node None (Spec_Yaml12.Scalar true (lit "yes"))) false) plain_node)) =
    [Some (lit "yes"); Some (lit "yes")].
Proof. split; [key_t|]. split; [value_t|]. split; reflexivity. Qed.
Example C96_remove_ex : fst (remove_from_hash_doc (path_of (all_users ++ [SKey (lit "role") is_admin])) plain_doc) = 2 /\
  ~ In (DYaml (Hash [])) (items (snd (remove_from_hash_doc (path_of (all_users ++ [SKey (lit "role") is_admin])) plain_doc))) /\
  map (fun w => text (body w)) (gather (all_users ++ [SKey (lit "role") []]) (change all_users is_admin (drop (lit "role")) plain_node)) = [Some (lit "guest")].
Proof. split; [reflexivity|]. split; [cbn; intuition discriminate|reflexivity]. Qed.
Example C96_rename_ex : key_portable (lit "login") /\ fst (rename_field_doc (path_of (all_users ++ [SKey (lit "name") []])) (lit "login") plain_doc) = 3 /\
  map (fun w => text (body w)) (gather (all_users ++ [SKey (lit "login") []]) (change all_users [] (rekey (lit "name") (lit "login")) plain_node)) =
    [Some (lit "ann"); Some (lit "bob"); Some (lit "cy")].
Proof. split; [key_t|]. split; reflexivity. Qed.
Example C96_nest_ex : fst (to_object_doc (path_of ([SKey (lit "users") []; SIdx 1 []] ++ [SKey (lit "role") []])) (lit "login") plain_doc) = 1 /\
  map (fun w => text (body w)) (gather (all_users ++ [SKey (lit "role") []; SKey (lit "login") []]) (change [SKey (lit "users") []; SIdx 1 []] [] (wrap (lit "role") (lit "login")) plain_node)) =
    [Some (lit "guest")].
Proof. split; reflexivity. Qed.
