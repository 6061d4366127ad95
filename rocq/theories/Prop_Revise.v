(** C92: a file is read, edited and written; what YAML 1.2 finds in it before and after. *)
From Coq Require Import Lia.
From Verif Require Import Base Ast Path Insert Format Peg YamlGrammar Consume Spec_Parse Spec_Edit Spec_Format FormatExample Spec_Yaml12 Spec_Portable
  Spec_Layout LayoutExample Spec_Common CommonExample Spec_Amend Pretty Spec_Core Spec_Export Spec_Tidy AmendFacts ReviseFacts PlainFacts.
Import ListNotations.

(** A file in the common layout is read and written: YAML finds the same data in both texts. *)
Theorem C92_kept : forall ut d y s, common ut d y s ->
  exists x, parse_yaml ut s = CVal d /\ yaml_file x s /\ yaml_file x (format_doc d ++ [NL]).
Proof. exact file_kept. Qed.
Print Assumptions C92_kept.
Example C92_kept_ex : forall ut, common ut shared_doc shared_root shared_text /\ shared_text <> format_doc shared_doc ++ [NL].
Proof. intros ut. split; [apply shared_common|]. vm_compute. discriminate. Qed.

(** The document that is read is edited before. *)
Theorem C92_insert : forall ut d y s, common ut d y s -> forall p k h ow,
  last_key p = Some k -> key_portable k -> portable h -> everywhere filled (a_value h) ->
  (ow = false \/ on_line h \/ everywhere no_inline_comment y /\ everywhere no_inline_comment (a_value h)) ->
  parse_yaml ut s = CVal d /\ forall n d', insert_into_hash_doc p h ow d = (n, d') ->
  revises (fun l l' => gains k (node_of h) l l' \/ ow = true /\ sets k (node_of h) l l') n s (format_doc d' ++ [NL]).
Proof. exact file_insert. Qed.
Print Assumptions C92_insert.
Theorem C92_rename : forall ut d y s, common ut d y s -> forall p k new, last_key p = Some k -> key_portable new ->
  parse_yaml ut s = CVal d /\ forall n d', rename_field_doc p new d = (n, d') -> revises (rekeys k new) n s (format_doc d' ++ [NL]).
Proof. exact file_rename. Qed.
Print Assumptions C92_rename.
Theorem C92_nest : forall ut d y s, common ut d y s -> forall p k new, everywhere no_inline_comment y -> last_key p = Some k -> key_portable new ->
  parse_yaml ut s = CVal d /\ forall n d', to_object_doc p new d = (n, d') -> revises (nests k new) n s (format_doc d' ++ [NL]).
Proof. exact file_nest. Qed.
Print Assumptions C92_nest.
Theorem C92_remove : forall ut d y s, common ut d y s -> forall p k, everywhere no_comment y -> last_key p = Some k ->
  parse_yaml ut s = CVal d /\ forall n d', remove_from_hash_doc p d = (n, d') ->
  (In (DYaml (Hash [])) (items d') -> forall c r, items d <> DComment c :: r) -> revises (loses k) n s (format_doc d' ++ [NL]).
Proof. exact file_remove. Qed.
Print Assumptions C92_remove.

(** The document that is read is pretty printed: the data means the same. *)
Theorem C92_pretty : forall ut d y s, common ut d y s -> gentle false y -> stays y -> parse_yaml ut s = CVal d /\
  exists n m, yaml_file n s /\ yaml_file m (format_doc (pretty_doc d) ++ [NL]) /\ forall x, resolved n x <-> resolved m x.
Proof. exact file_pretty. Qed.
Print Assumptions C92_pretty.
Ltac walk p E := destruct p as [|? p]; cbn [app] in E;
  [first [discriminate E|injection E; intros; subst; exact I]|first [discriminate E|injection E as _ E; walk p E]].
Ltac no_late := let p := fresh in intros p; intros; match goal with E : _ = p ++ _ |- _ => walk p E end.
Example C92_pretty_ex : forall ut, common ut shared_doc shared_root shared_text /\ gentle false shared_root /\ stays shared_root /\
  format_doc shared_doc <> format_doc (pretty_doc shared_doc).
Proof.
  intros ut. split; [apply shared_common|]. split; [|split; [exact I|vm_compute; discriminate]].
  cbn. repeat split; try discriminate; try (solve [no_late]); intros _; plain_t.
Qed.

Definition in_list (k : str) : path := PKey (lit "list") [] (Some (PAll [] (Some (PKey k [] None)))).
Example C92_insert_ex : forall ut, common ut shared_doc shared_root shared_text /\ key_portable (lit "d") /\ portable (mkA None (Literal [lit "x # y"] Clip)) /\
  fst (insert_into_hash_doc (in_list (lit "d")) (mkA None (Literal [lit "x # y"] Clip)) false shared_doc) = 1.
Proof.
  intros ut. split; [apply shared_common|]. split; [|split].
  - split; [plain_t|split; [apply Nat.leb_le; reflexivity|intros ? ? ? [->| ->] [->| ->]; discriminate]].
  - apply PLiteral; [exact I|discriminate|apply nb_linesb; reflexivity].
  - reflexivity.
Qed.
Example C92_rename_ex : forall ut, common ut shared_doc shared_root shared_text /\ fst (rename_field_doc (in_list (lit "b")) (lit "d") shared_doc) = 1.
Proof. intros ut. split; [apply shared_common|reflexivity]. Qed.

Definition small_text : str :=
  lit "---" ++ [NL] ++
  lit "name :  app" ++ [NL] ++
  [NL] ++
  lit "nested:" ++ [NL] ++
  lit "     key: one" ++ [NL] ++
  lit "     other:   two" ++ [NL].
Definition small_root : yaml := Hash [ scalar "name" "app"; HElem (mkHE (lit "nested") (mkA None (Hash [scalar "key" "one"; scalar "other" "two"]))) ].
Definition small_doc : document := mkDoc [] [DYaml small_root].
Example small_common : forall ut, common ut small_doc small_root small_text.
Proof.
  intros ut. eapply common_eq.
  - eapply Common with (cs0 := []) (i := 0) (ws := []) (cs := []) (n := 0) (b := Plain) (cs1 := []) (y := small_root); [apply Forall_nil|apply Forall_nil| |].
    2: { apply CZLine. }
    eapply CRMap.
    eapply (CECons ut 0 (lit "name") 1 _ None Plain _ [0] []); [both_key_t| |gap0|apply Forall_nil|].
    { both_line 1 0 (@None str) (lit "app"). }
    eapply (CELast ut 0 (lit "nested") 0 _ None); [both_key_t|].
    eapply (CMap ut 0 0 true false 0 [] [] 5); [lia|discriminate|now left|apply Forall_nil|].
    eapply (CECons ut 5 (lit "key") 0 _ None Plain _ [] []); [both_key_t| |gap0|apply Forall_nil|].
    { both_line 0 0 (@None str) (lit "one"). }
    eapply (CELast ut 5 (lit "other") 0 _ None); [both_key_t|]. both_line 2 0 (@None str) (lit "two").
  - reflexivity.
  - vm_compute. reflexivity.
Qed.
Definition in_nested (k : str) : path := PKey (lit "nested") [] (Some (PKey k [] None)).
Example C92_nest_ex : forall ut, common ut small_doc small_root small_text /\ everywhere no_inline_comment small_root /\
  fst (to_object_doc (in_nested (lit "other")) (lit "d") small_doc) = 1.
Proof. intros ut. split; [apply small_common|]. split; [|reflexivity]. cbn. repeat split; intros c; cbn; intuition discriminate. Qed.
Example C92_remove_ex : forall ut, common ut small_doc small_root small_text /\ everywhere no_comment small_root /\
  fst (remove_from_hash_doc (in_nested (lit "key")) small_doc) = 1 /\ ~ In (DYaml (Hash [])) (items (snd (remove_from_hash_doc (in_nested (lit "key")) small_doc))).
Proof.
  intros ut. split; [apply small_common|]. split; [|split; [reflexivity|cbn; intuition discriminate]].
  cbn. repeat split; intros c; cbn; intuition (subst; reflexivity).
Qed.
