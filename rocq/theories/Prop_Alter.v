(** C100: the four edits along every path, in terms of the data of YAML 1.2. *)
From Verif Require Import Base Ast Path Insert Format Peg YamlGrammar Consume Spec_Parse Spec_Edit Spec_Local Spec_Insert Spec_Yaml12 Spec_Portable PortableFacts PlainFacts
  FormatExample Spec_Layout Spec_Common Spec_Amend Spec_Seek Spec_Gather Spec_Change Spec_Alter AlterFacts Prop_Portable Prop_Gather.
Import ListNotations.

Theorem C100_insert : forall d y p k, portable_doc d y -> everywhere only_block y -> last_key p = Some k -> forall h ow n d', everywhere filled y -> key_portable k -> portable h ->
  everywhere filled (a_value h) -> everywhere only_block (a_value h) -> (ow = false \/ on_line h \/ everywhere no_inline_comment y /\ everywhere no_inline_comment (a_value h)) ->
  insert_into_hash_doc p h ow d = (n, d') -> turns (alter (put k (node_of h) ow) p) (format_doc d ++ [NL]) (format_doc d' ++ [NL]).
Proof. exact insert_alters. Qed.
Print Assumptions C100_insert.
Theorem C100_remove : forall d y p k, portable_doc d y -> everywhere only_block y -> last_key p = Some k -> forall n d', everywhere no_comment y ->
  remove_from_hash_doc p d = (n, d') -> (In (DYaml (Hash [])) (items d') -> forall c q, items d <> DComment c :: q) ->
  turns (alter (drop k) p) (format_doc d ++ [NL]) (format_doc d' ++ [NL]).
Proof. exact remove_alters. Qed.
Print Assumptions C100_remove.
Theorem C100_rename : forall d y p k, portable_doc d y -> everywhere only_block y -> last_key p = Some k -> forall new n d', key_portable new ->
  rename_field_doc p new d = (n, d') -> turns (alter (rekey k new) p) (format_doc d ++ [NL]) (format_doc d' ++ [NL]).
Proof. exact rename_alters. Qed.
Print Assumptions C100_rename.
Theorem C100_nest : forall d y p k, portable_doc d y -> everywhere only_block y -> last_key p = Some k -> forall new n d', everywhere no_inline_comment y -> key_portable new ->
  to_object_doc p new d = (n, d') -> turns (alter (wrap k new) p) (format_doc d ++ [NL]) (format_doc d' ++ [NL]).
Proof. exact nest_alters. Qed.
Print Assumptions C100_nest.

(** The third and the first user are administrators; the second is not, the eighth is not there. *)
Definition chosen_users (k : string) : path := PKey (lit "users") [] (Some (PIdx [2; 7; 1; 0] [mkC (lit "role") (lit "admin")] (Some (PKey (lit k) [] None)))).
Definition names_of : path := PKey (lit "users") [] (Some (PAll [] (Some (PKey (lit "id") [] None)))).
Example C100_rename_ex : portable_doc users_doc users /\ everywhere only_block users /\ last_key (chosen_users "name") = Some (lit "name") /\ key_portable (lit "id") /\
  fst (rename_field_doc (chosen_users "name") (lit "id") users_doc) = 2 /\
  map (fun w => text (body w)) (select names_of (alter (rekey (lit "name") (lit "id")) (chosen_users "name") (Node None (content_of users)))) = [Some (lit "ann"); Some (lit "cy")].
Proof. destruct C95_users as (A & B & _). split; [exact A|]. split; [exact B|]. split; [reflexivity|]. split; [key_t|]. split; reflexivity. Qed.
(** A position that is listed twice: the second visit finds the entry of the first one. *)
Definition twice : path := PKey (lit "users") [] (Some (PIdx [1; 1] [] (Some (PKey (lit "id") [] None)))).
Example C100_insert_ex : last_key twice = Some (lit "id") /\ everywhere filled users /\ key_portable (lit "id") /\ portable (mkA None (Unquoted (lit "x"))) /\
  fst (insert_into_hash_doc twice (mkA None (Unquoted (lit "x"))) false users_doc) = 1 /\
  map (fun w => text (body w)) (select names_of (alter (put (lit "id") (node_of (mkA None (Unquoted (lit "x")))) false) twice (Node None (content_of users)))) = [Some (lit "x")].
Proof.
  split; [reflexivity|]. split; [cbn; repeat split; discriminate|]. split; [key_t|]. split; [value_t|]. split; reflexivity.
Qed.
Definition bare_users : yaml := Hash [HElem (mkHE (lit "users") (mkA None (Array [user "ann" "admin"; user "bob" "guest"; user "cy" "admin"])))].
Definition bare_doc : document := mkDoc [] [DYaml bare_users].
Example C100_remove_ex : portable_doc bare_doc bare_users /\ everywhere only_block bare_users /\ everywhere no_comment bare_users /\ everywhere no_inline_comment bare_users /\
  fst (remove_from_hash_doc (chosen_users "name") bare_doc) = 2 /\ ~ In (DYaml (Hash [])) (items (snd (remove_from_hash_doc (chosen_users "name") bare_doc))) /\
  fst (to_object_doc (chosen_users "name") (lit "first") bare_doc) = 2.
Proof.
  split; [apply (PDoc [] [] _ []); try apply Forall_nil; [|exact I]; unfold bare_users, user; value_t|]. split; [cbn; tauto|].
  split; [cbn; repeat match goal with |- _ /\ _ => split | |- True => exact I end; intros d H; repeat (destruct H as [<- |H]; [first [reflexivity|eexists; reflexivity]|]); destruct H|]. split; [cbn; repeat split; intros c; intuition discriminate|].
  split; [reflexivity|]. split; [cbn; intuition discriminate|reflexivity].
Qed.
