(** C93: an edit with a path of keys changes exactly the place that YAML 1.2 finds under these
    keys. *)
From Verif Require Import Base Ast Path Insert Format Spec_Parse Spec_Edit Spec_Local Spec_Yaml12 Spec_Portable PortableFacts PlainFacts Spec_Amend AmendFacts
  Spec_Named NamedFacts Prop_Portable.
Import ListNotations.

(** The number that is returned is 0 and nothing has changed, or it is 1 and the mapping that the
    keys lead to has changed.  The conditions are those of C91. *)
Theorem C93_insert : forall d y ks k h ow n d', portable_doc d y -> everywhere filled y -> key_portable k -> portable h -> everywhere filled (a_value h) ->
  (ow = false \/ on_line h \/ everywhere no_inline_comment y /\ everywhere no_inline_comment (a_value h)) ->
  insert_into_hash_doc (keys_path ks k) h ow d = (n, d') ->
  n = 0 /\ d' = d \/ n = 1 /\ rewrites (fun l l' => gains k (node_of h) l l' \/ ow = true /\ sets k (node_of h) l l') ks d d'.
Proof. exact insert_named. Qed.
Print Assumptions C93_insert.
Theorem C93_remove : forall d y ks k n d', portable_doc d y -> everywhere no_comment y ->
  remove_from_hash_doc (keys_path ks k) d = (n, d') -> (In (DYaml (Hash [])) (items d') -> forall c r, items d <> DComment c :: r) ->
  n = 0 /\ d' = d \/ n = 1 /\ rewrites (loses k) ks d d'.
Proof. exact remove_named. Qed.
Print Assumptions C93_remove.
Theorem C93_rename : forall d y ks k new n d', portable_doc d y -> key_portable new ->
  rename_field_doc (keys_path ks k) new d = (n, d') -> n = 0 /\ d' = d \/ n = 1 /\ rewrites (rekeys k new) ks d d'.
Proof. exact rename_named. Qed.
Print Assumptions C93_rename.
Theorem C93_nest : forall d y ks k new n d', portable_doc d y -> everywhere no_inline_comment y -> key_portable new ->
  to_object_doc (keys_path ks k) new d = (n, d') -> n = 0 /\ d' = d \/ n = 1 /\ rewrites (nests k new) ks d d'.
Proof. exact nest_named. Qed.
Print Assumptions C93_nest.

(** If YAML finds a mapping under the keys, and there are no inline mappings, it is found: 1 is
    returned if the entry is there, or for inserting if it is not there or may be overwritten. *)
Theorem C93_insert_found : forall d y ks k x l, portable_doc d y -> everywhere not_inline y -> yaml_file x (format_doc d ++ [NL]) -> leads ks x l ->
  forall h ow, ow = true \/ lacks k l -> fst (insert_into_hash_doc (keys_path ks k) h ow d) = 1.
Proof. exact insert_found. Qed.
Print Assumptions C93_insert_found.
Theorem C93_remove_found : forall d y ks k x l, portable_doc d y -> everywhere not_inline y -> yaml_file x (format_doc d ++ [NL]) -> leads ks x l ->
  ~ lacks k l -> fst (remove_from_hash_doc (keys_path ks k) d) = 1.
Proof. exact remove_found. Qed.
Print Assumptions C93_remove_found.
Theorem C93_rename_found : forall d y ks k x l, portable_doc d y -> everywhere not_inline y -> yaml_file x (format_doc d ++ [NL]) -> leads ks x l ->
  forall new, ~ lacks k l -> fst (rename_field_doc (keys_path ks k) new d) = 1.
Proof. exact rename_found. Qed.
Print Assumptions C93_rename_found.
Theorem C93_nest_found : forall d y ks k x l, portable_doc d y -> everywhere not_inline y -> yaml_file x (format_doc d ++ [NL]) -> leads ks x l ->
  forall new, ~ lacks k l -> fst (to_object_doc (keys_path ks k) new d) = 1.
Proof. exact nest_found. Qed.
Print Assumptions C93_nest_found.

Definition server : yaml := Hash
  [ HElem (mkHE (lit "name") (mkA None (Unquoted (lit "one"))))
  ; HElem (mkHE (lit "server") (mkA (Some (lit "s")) (Hash
      [ HElem (mkHE (lit "tls") (mkA None (Hash [HElem (mkHE (lit "port") (mkA None (Unquoted (lit "443"))))])))
      ; HElem (mkHE (lit "port") (mkA None (Unquoted (lit "80")))) ]))) ].
Definition server_doc : document := mkDoc [] [DComment (lit " top"); DYaml server].
Example C93_portable : portable_doc server_doc server.
Proof. apply (PDoc [] [lit " top"] _ []); try (repeat (apply Forall_cons; [note_t|]); apply Forall_nil); [|exact I]. unfold server. value_t. Qed.
Example C93_server : everywhere filled server /\ everywhere no_comment server /\ everywhere no_inline_comment server /\ everywhere not_inline server.
Proof.
  repeat split; try discriminate; try (intros c; cbn; intuition (subst; try reflexivity; discriminate)).
Qed.
Definition tls : list str := [lit "server"; lit "tls"].
Definition server_node : node := Node None (content_of server).
Example C93_leads : yaml_file server_node (format_doc server_doc ++ [NL]) /\ leads tls server_node [(key_node (lit "port"), Node None (Scalar true (lit "443")))].
Proof.
  split; [exact (doc_wrote _ _ C93_portable)|]. unfold server_node. cbn.
  apply (le_in None [(key_node (lit "name"), Node None (Scalar true (lit "one")))] (lit "server") _ []); [cbn; intros [H|[]]; discriminate H|].
  apply (le_in (Some (lit "s")) [] (lit "tls") _ [_]); [intros []|]. apply le_here.
Qed.
Example C93_insert_ex : key_portable (lit "host") /\ portable (mkA None (Unquoted (lit "local"))) /\ fst (insert_into_hash_doc (keys_path tls (lit "host")) (mkA None (Unquoted (lit "local"))) false server_doc) = 1.
Proof.
  split; [key_t|]. split; [value_t|]. refine (C93_insert_found _ _ _ _ _ _ C93_portable (proj2 (proj2 (proj2 C93_server))) (proj1 C93_leads) (proj2 C93_leads) _ _ _).
  right. cbn. intros [H|[]]. discriminate H.
Qed.
Example C93_remove_ex : fst (remove_from_hash_doc (keys_path tls (lit "port")) server_doc) = 1 /\
  ~ In (DYaml (Hash [])) (items (snd (remove_from_hash_doc (keys_path tls (lit "port")) server_doc))).
Proof. split; [reflexivity|]. cbn. intuition discriminate. Qed.
Example C93_rename_ex : key_portable (lit "number") /\ fst (rename_field_doc (keys_path tls (lit "port")) (lit "number") server_doc) = 1 /\
  fst (to_object_doc (keys_path tls (lit "port")) (lit "number") server_doc) = 1.
Proof. split; [key_t|]. split; reflexivity. Qed.

(** Entries of inline mappings are data for YAML, but they are not found. *)
Theorem C93_inline_refuted : exists d y ks k x l h, portable_doc d y /\ yaml_file x (format_doc d ++ [NL]) /\ leads ks x l /\ ~ lacks k l /\
  fst (insert_into_hash_doc (keys_path ks k) h true d) = 0 /\ fst (remove_from_hash_doc (keys_path ks k) d) = 0.
Proof.
  set (y := Hash [HElem (mkHE (lit "a") (mkA None (InlineHash [(lit "b", Unquoted (lit "1"))])))]).
  assert (D : portable_doc (mkDoc [] [DYaml y]) y).
  { apply (PDoc [] [] _ []); try apply Forall_nil; [|exact I]. unfold y. value_t. }
  exists (mkDoc [] [DYaml y]), y, [lit "a"], (lit "b"), (Node None (content_of y)), [(key_node (lit "b"), Node None (Scalar true (lit "1")))], (mkA None (Unquoted (lit "2"))).
  split; [exact D|]. split; [exact (doc_wrote _ _ D)|]. split.
  - unfold y. cbn. apply (le_in None [] (lit "a") _ []); [intros []|]. apply le_here.
  - split; [|split; reflexivity]. intros H. apply H. now left.
Qed.
Print Assumptions C93_inline_refuted.
