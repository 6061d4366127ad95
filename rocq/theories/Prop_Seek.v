(** C94: [find_values] finds the value that YAML 1.2 finds at the end of a path of keys and
    positions. *)
From Verif Require Import Base Ast Path Insert Format Peg YamlGrammar Consume Spec_Parse Spec_Edit Spec_Local Spec_Yaml12 Spec_Portable PortableFacts PlainFacts FormatExample Spec_Layout Spec_Common
  CommonExample Spec_Amend Spec_Seek SeekFacts Prop_Portable Prop_Common Prop_Revise.
Import ListNotations.

(** There is at most one value at a place of the data. *)
Theorem C94_one : forall r x w w', value_at r x w -> value_at r x w' -> w = w'.
Proof. exact value_one. Qed.
Print Assumptions C94_one.

(** Nothing is found, or one value, and it is the one that YAML finds there in the written file. *)
Theorem C94_there : forall d y r p x vs d', portable_doc d y -> steps r = Some p -> yaml_file x (format_doc d ++ [NL]) ->
  find_values_doc p d = (vs, d') -> d' = d /\ (vs = [] \/ exists v al, vs = [v] /\ value_at r x (Node al (content_of v))).
Proof. exact seek_there. Qed.
Print Assumptions C94_there.
(** Without inline collections, what YAML finds there is found. *)
Theorem C94_found : forall d y r p x w, portable_doc d y -> everywhere only_block y -> steps r = Some p -> yaml_file x (format_doc d ++ [NL]) ->
  value_at r x w -> exists v al, w = Node al (content_of v) /\ find_values_doc p d = ([v], d).
Proof. exact seek_found. Qed.
Print Assumptions C94_found.

(** The same for files in the common layout that are read. *)
Theorem C94_file : forall ut d y s r p x vs d', common ut d y s -> steps r = Some p -> yaml_file x s -> parse_yaml ut s = CVal d /\
  (find_values_doc p d = (vs, d') -> d' = d /\ (vs = [] \/ exists v al, vs = [v] /\ value_at r x (Node al (content_of v)))).
Proof. exact seek_file. Qed.
Print Assumptions C94_file.
Theorem C94_file_found : forall ut d y s r p x w, common ut d y s -> everywhere only_block y -> steps r = Some p -> yaml_file x s -> value_at r x w ->
  parse_yaml ut s = CVal d /\ exists v al, w = Node al (content_of v) /\ find_values_doc p d = ([v], d).
Proof. exact seek_file_found. Qed.
Print Assumptions C94_file_found.

(** In the file of C86, list[0].b.c is a reference. *)
Definition deep : list place := [Key (lit "list"); Elt 0; Key (lit "b"); Key (lit "c")].
Example C94_file_ex : forall ut, common ut shared_doc shared_root shared_text /\ yaml_file (Node None (content_of shared_root)) shared_text /\
  value_at deep (Node None (content_of shared_root)) (Node None (Alias (lit "x"))) /\
  exists p, steps deep = Some p /\ find_values_doc p shared_doc = ([Anchor (lit "x")], shared_doc).
Proof.
  intros ut. split; [apply C86_example|]. split; [exact (proj2 (C86_both ut _ _ _ (C86_example ut)))|]. split; [|eexists; split; reflexivity].
  unfold deep, shared_root. cbn.
  apply (va_key None [_; _; _] (lit "list") _ []); [intros H; cbn in H; repeat (destruct H as [H|H]; [discriminate H|]); exact H|]. apply (va_elt None [] _ [_]).
  apply (va_key None [_] (lit "b") _ []); [intros H; cbn in H; repeat (destruct H as [H|H]; [discriminate H|]); exact H|]. apply (va_key None [] (lit "c") _ []); [intros []|]. constructor.
Qed.

Example C94_small : forall ut, common ut small_doc small_root small_text /\ everywhere only_block small_root /\
  value_at [Key (lit "nested"); Key (lit "other")] (Node None (content_of small_root)) (Node None (Spec_Yaml12.Scalar true (lit "two"))) /\
  exists p, steps [Key (lit "nested"); Key (lit "other")] = Some p /\ find_values_doc p small_doc = ([Unquoted (lit "two")], small_doc).
Proof.
  intros ut. split; [apply small_common|]. split; [cbn; tauto|]. split.
  - unfold small_root. cbn. apply (va_key None [_] (lit "nested") _ []); [cbn; intros [H|[]]; discriminate H|].
    apply (va_key None [_] (lit "other") _ []); [cbn; intros [H|[]]; discriminate H|]. constructor.
  - eexists. split; reflexivity.
Qed.

Definition jobs : yaml := Hash [HElem (mkHE (lit "jobs") (mkA None (Array
  [ AComment (lit " first"); AElem (mkA (Some (lit "j")) (Hash [HElem (mkHE (lit "name") (mkA None (Unquoted (lit "a"))))])); AElem (mkA None (Unquoted (lit "b"))) ])))].
Definition jobs_doc : document := mkDoc [] [DYaml jobs].
Example C94_jobs : portable_doc jobs_doc jobs /\ everywhere only_block jobs /\ yaml_file (Node None (content_of jobs)) (format_doc jobs_doc ++ [NL]) /\
  value_at [Key (lit "jobs"); Elt 1] (Node None (content_of jobs)) (Node None (Spec_Yaml12.Scalar true (lit "b"))) /\
  exists p, steps [Key (lit "jobs"); Elt 1] = Some p /\ find_values_doc p jobs_doc = ([Unquoted (lit "b")], jobs_doc).
Proof.
  assert (D : portable_doc jobs_doc jobs).
  { apply (PDoc [] [] _ []); try apply Forall_nil; [|exact I]. unfold jobs. value_t. }
  split; [exact D|]. split; [cbn; tauto|]. split; [exact (doc_wrote _ _ D)|]. split.
  - unfold jobs. cbn. apply (va_key None [] (lit "jobs") _ []); [intros []|]. apply (va_elt None [_] _ []). constructor.
  - eexists. split; reflexivity.
Qed.

(** Elements of inline sequences and entries of inline mappings are data for YAML, but they are
    not found. *)
Theorem C94_inline_refuted : exists d y x, portable_doc d y /\ yaml_file x (format_doc d ++ [NL]) /\
  (exists r p w, steps r = Some p /\ value_at r x w /\ find_values_doc p d = ([], d) /\ r = [Key (lit "a"); Elt 0]) /\
  (exists r p w, steps r = Some p /\ value_at r x w /\ find_values_doc p d = ([], d) /\ r = [Key (lit "b"); Key (lit "c")]).
Proof.
  set (y := Hash [HElem (mkHE (lit "a") (mkA None (InlineArray [Unquoted (lit "1")]))); HElem (mkHE (lit "b") (mkA None (InlineHash [(lit "c", Unquoted (lit "2"))])))]).
  assert (D : portable_doc (mkDoc [] [DYaml y]) y).
  { apply (PDoc [] [] _ []); try apply Forall_nil; [|exact I]. unfold y. value_t. }
  exists (mkDoc [] [DYaml y]), y, (Node None (content_of y)). split; [exact D|]. split; [exact (doc_wrote _ _ D)|]. split.
  - exists [Key (lit "a"); Elt 0]. do 2 eexists. split; [reflexivity|]. split; [|split; reflexivity].
    unfold y. cbn. apply (va_key None [] (lit "a") _ [_]); [intros []|]. apply (va_elt None [] _ []). constructor.
  - exists [Key (lit "b"); Key (lit "c")]. do 2 eexists. split; [reflexivity|]. split; [|split; reflexivity].
    unfold y. cbn. apply (va_key None [_] (lit "b") _ []); [cbn; intros [H|[]]; discriminate H|]. apply (va_key None [] (lit "c") _ []); [intros []|]. constructor.
Qed.
Print Assumptions C94_inline_refuted.
