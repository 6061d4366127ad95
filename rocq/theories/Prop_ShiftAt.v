(** C99: move_to_subfield below a path of keys, in terms of the data of YAML 1.2. *)
From Verif Require Import Base Ast Path Insert MoveDoc Format Peg PathGrammar YamlGrammar Consume Spec_Path PathFacts Spec_Parse Spec_Edit Spec_Local Spec_Insert Spec_Move Spec_Yaml12 Spec_Portable PortableFacts PlainFacts
  FormatExample Spec_Layout Spec_Common CommonExample Spec_Named Spec_Amend Spec_Gather Spec_Change Spec_Shift ShiftFacts Prop_Portable Prop_Common Prop_Revise Prop_Shift.
Import ListNotations.

(** There are no comments between the entries of the two mappings that change; the new names are
    plain (C33). *)
Theorem C99_move : forall d m ks k l sub names, portable_doc d (Hash m) -> reaches (ks ++ [k]) (Hash m) l -> no_comment (Hash l) -> key_portable sub -> Spec_Path.plain (lit "[].|") sub ->
  Forall (Spec_Path.plain (lit "[].|")) names -> ~ In sub names -> chosen names l <> [] ->
  (first_value sub l = None \/ exists al old, first_value sub l = Some (mkA al (Hash old)) /\ no_comment (Hash old)) ->
  exists d', move_to_subfield_doc parse_path (keys_path ks k) sub names d = (Some 1, d') /\
    turns (shift_at (ks ++ [k]) sub names) (format_doc d ++ [NL]) (format_doc d' ++ [NL]).
Proof. exact shift_below. Qed.
Print Assumptions C99_move.
(** Files in the common layout that are read. *)
Theorem C99_file : forall ut d m s ks k l sub names, common ut d (Hash m) s -> reaches (ks ++ [k]) (Hash m) l -> no_comment (Hash l) -> key_portable sub -> Spec_Path.plain (lit "[].|") sub ->
  Forall (Spec_Path.plain (lit "[].|")) names -> ~ In sub names -> chosen names l <> [] ->
  (first_value sub l = None \/ exists al old, first_value sub l = Some (mkA al (Hash old)) /\ no_comment (Hash old)) ->
  parse_yaml ut s = CVal d /\ exists d', move_to_subfield_doc parse_path (keys_path ks k) sub names d = (Some 1, d') /\
    turns (shift_at (ks ++ [k]) sub names) s (format_doc d' ++ [NL]).
Proof. exact shift_file. Qed.
Print Assumptions C99_file.

(** Below the keys [all] and [app]; the mappings above have comments and an anchor. *)
Definition deep_list : list hashdata :=
  [ HComment (lit " first"); scalar "top" "t"; HInlineC (lit " kept")
  ; HElem (mkHE (lit "all") (mkA (Some (lit "a")) (Hash [HComment (lit " in"); HElem (mkHE (lit "app") (mkA None (Hash app_list))); scalar "on" "here"]))) ].
Definition deep_doc : document := mkDoc [] [DYaml (Hash deep_list)].
Example C99_ex : portable_doc deep_doc (Hash deep_list) /\ reaches ([lit "all"] ++ [lit "app"]) (Hash deep_list) app_list.
Proof.
  split; [apply (PDoc [] [] _ []); try apply Forall_nil; [|exact I]; unfold deep_list, app_list; value_t|].
  eapply RKey; [reflexivity|]. eapply RKey; [reflexivity|]. constructor.
Qed.
Example C99_into : gather [SKey (lit "all") []; SKey (lit "app") []; SKey (lit "more") []; SKey (lit "on") []; SKey (lit "push") []]
    (shift_at [lit "all"; lit "app"] (lit "more") app_names (Node None (content_of (Hash deep_list)))) = [Node None (Spec_Yaml12.Scalar true (lit "p"))] /\
  gather [SKey (lit "all") []; SKey (lit "app") []; SKey (lit "on") []] (shift_at [lit "all"; lit "app"] (lit "more") app_names (Node None (content_of (Hash deep_list)))) = [] /\
  gather [SKey (lit "all") []; SKey (lit "on") []] (shift_at [lit "all"; lit "app"] (lit "more") app_names (Node None (content_of (Hash deep_list)))) =
    [Node None (Spec_Yaml12.Scalar true (lit "here"))].
Proof. repeat split. Qed.
Definition nested_list : list hashdata := [scalar "key" "one"; scalar "other" "two"].
Example C99_file_ex : forall ut, common ut small_doc small_root small_text /\ reaches ([] ++ [lit "nested"]) small_root nested_list /\ no_comment (Hash nested_list) /\
  key_portable (lit "sub") /\ Spec_Path.plain (lit "[].|") (lit "sub") /\ Forall (Spec_Path.plain (lit "[].|")) [lit "key"] /\ ~ In (lit "sub") [lit "key"] /\
  chosen [lit "key"] nested_list <> [] /\ first_value (lit "sub") nested_list = None.
Proof.
  intros ut. split; [apply small_common|]. split; [eapply RKey; [reflexivity|constructor]|].
  split; [cbn; intros d H; repeat (destruct H as [<- |H]; [reflexivity|]); destruct H|]. split; [key_t|]. split; [apply plain_b; vm_compute; congruence|].
  split; [repeat (apply Forall_cons; [apply plain_b; vm_compute; congruence|]); apply Forall_nil|]. split; [cbn; intuition discriminate|]. split; [discriminate|reflexivity].
Qed.
