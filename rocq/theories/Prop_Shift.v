(** C97: move_to_subfield at the top of a file, in terms of the data of YAML 1.2. *)
From Verif Require Import Base Ast Path Insert MoveDoc Format Peg PathGrammar Spec_Path PathFacts Spec_Parse Spec_Edit Spec_Local Spec_Insert Spec_Move Spec_Yaml12 Spec_Portable PortableFacts PlainFacts
  FormatExample Spec_Amend Spec_Gather Spec_Change Spec_Shift ShiftFacts Prop_Portable.
Import ListNotations.

(** There are no comments between the entries of the two mappings; the new names are plain (C33). *)
Theorem C97_move : forall d l sub names, portable_doc d (Hash l) -> no_comment (Hash l) -> key_portable sub -> Spec_Path.plain (lit "[].|") sub ->
  Forall (Spec_Path.plain (lit "[].|")) names -> ~ In sub names -> chosen names l <> [] ->
  (first_value sub l = None \/ exists al old, first_value sub l = Some (mkA al (Hash old)) /\ no_comment (Hash old)) ->
  exists d', move_to_subfield_doc parse_path (Path.PRoot []) sub names d = (Some 1, d') /\
    turns (shift_top sub names) (format_doc d ++ [NL]) (format_doc d' ++ [NL]).
Proof. exact shift_turns. Qed.
Print Assumptions C97_move.

Definition app_list : list hashdata :=
  [ scalar "name" "n"
  ; HElem (mkHE (lit "on") (mkA (Some (lit "o")) (Hash [HComment (lit " c"); scalar "push" "p"])))
  ; HElem (mkHE (lit "more") (mkA (Some (lit "m")) (Hash [scalar "k" "v"; scalar "on" "old"]))) ].
Definition app_doc : document := mkDoc [] [DComment (lit " top"); DYaml (Hash app_list)].
Definition app_names : list str := [lit "on"; lit "none"].
Example C97_ex : portable_doc app_doc (Hash app_list) /\ no_comment (Hash app_list) /\ Forall (Spec_Path.plain (lit "[].|")) app_names /\ chosen app_names app_list <> [].
Proof.
  split; [apply (PDoc [] [lit " top"] _ []); try (repeat (apply Forall_cons; [note_t|]); apply Forall_nil); [|exact I]; unfold app_list; value_t|].
  split; [cbn; intros d H; repeat (destruct H as [<- |H]; [reflexivity|]); destruct H|].
  split; [repeat (apply Forall_cons; [apply plain_b; vm_compute; congruence|]); apply Forall_nil|discriminate].
Qed.
(** Into a mapping that is there, with its anchor; the old entry with the name is overwritten. *)
Example C97_into : key_portable (lit "more") /\ Spec_Path.plain (lit "[].|") (lit "more") /\ ~ In (lit "more") app_names /\
  (exists al old, first_value (lit "more") app_list = Some (mkA al (Hash old)) /\ no_comment (Hash old)) /\
  shift_top (lit "more") app_names (Node None (content_of (Hash app_list))) = Node None (Mapping
    [ (key_node (lit "name"), Node None (Spec_Yaml12.Scalar true (lit "n")))
    ; (key_node (lit "more"), Node (Some (lit "m")) (Mapping
        [ (key_node (lit "k"), Node None (Spec_Yaml12.Scalar true (lit "v")))
        ; (key_node (lit "on"), Node (Some (lit "o")) (Mapping [(key_node (lit "push"), Node None (Spec_Yaml12.Scalar true (lit "p")))])) ])) ]).
Proof.
  split; [key_t|]. split; [apply plain_b; vm_compute; congruence|]. split; [cbn; intuition discriminate|].
  split; [|reflexivity]. do 2 eexists. split; [reflexivity|]. cbn. intros d H. repeat (destruct H as [<- |H]; [reflexivity|]). destruct H.
Qed.
(** Into a new mapping. *)
Example C97_new : key_portable (lit "sub") /\ Spec_Path.plain (lit "[].|") (lit "sub") /\ ~ In (lit "sub") app_names /\ first_value (lit "sub") app_list = None /\
  gather [SKey (lit "sub") []; SKey (lit "on") []; SKey (lit "push") []] (shift_top (lit "sub") app_names (Node None (content_of (Hash app_list)))) =
    [Node None (Spec_Yaml12.Scalar true (lit "p"))].
Proof.
  split; [key_t|]. split; [apply plain_b; vm_compute; congruence|]. split; [cbn; intuition discriminate|]. split; reflexivity.
Qed.
