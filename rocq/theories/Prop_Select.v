(** C98: [find_values] gathers exactly the values that YAML 1.2 finds, for every path. *)
From Verif Require Import Base Ast Strings Path Insert Format Peg YamlGrammar Consume Spec_Parse Spec_Edit Spec_Local Spec_Insert Spec_Yaml12 Spec_Portable
  FormatExample Spec_Layout Spec_Common CommonExample Spec_Amend Spec_Seek Spec_Gather GatherFacts Prop_Common Prop_Revise Prop_Gather.
Import ListNotations.

Theorem C98_select : forall d y p x vs d', portable_doc d y -> everywhere only_block y -> yaml_file x (format_doc d ++ [NL]) ->
  find_values_doc p d = (vs, d') -> d' = d /\ map content_of vs = map body (select p x).
Proof. exact select_doc. Qed.
Print Assumptions C98_select.
(** Files in the common layout that are read. *)
Theorem C98_file : forall ut d y s p x, common ut d y s -> everywhere only_block y -> yaml_file x s ->
  parse_yaml ut s = CVal d /\ forall vs d', find_values_doc p d = (vs, d') -> d' = d /\ map content_of vs = map body (select p x).
Proof. exact select_file. Qed.
Print Assumptions C98_file.

(** The third and the first user, in this order; position 7 does not exist, position 1 does not
    meet the condition. *)
Definition picked : path := PKey (lit "users") [] (Some (PIdx [2; 7; 1; 0] [mkC (lit "role") (lit "admin")] (Some (PKey (lit "name") [] None)))).
Example C98_picked : portable_doc users_doc users /\ everywhere only_block users /\ yaml_file (Node None (content_of users)) (format_doc users_doc ++ [NL]) /\
  map (fun w => text (body w)) (select picked (Node None (content_of users))) = [Some (lit "cy"); Some (lit "ann")] /\
  find_values_doc picked users_doc = ([Unquoted (lit "cy"); Unquoted (lit "ann")], users_doc).
Proof. destruct C95_users as (A & B & C). repeat split; assumption. Qed.
(** A condition on the whole file. *)
Example C98_file_ex : forall ut, common ut small_doc small_root small_text /\ everywhere only_block small_root /\
  select (Path.PRoot [mkC (lit "name") (lit "app")]) (Node None (content_of small_root)) = [Node None (content_of small_root)] /\
  select (Path.PRoot [mkC (lit "name") (lit "other")]) (Node None (content_of small_root)) = [].
Proof. intros ut. split; [apply small_common|]. split; [cbn; tauto|split; reflexivity]. Qed.
