(** C91: after an edit, readers of YAML 1.2 find the edited data. *)
From Verif Require Import Base Ast Path Insert Format Spec_Parse Spec_Edit Spec_Local Spec_Yaml12 Spec_Portable Spec_Amend PortableFacts PlainFacts AmendFacts Prop_Portable.
Import ListNotations.

(** Inserting: [n] times, the entry is added to a mapping, or (if it may overwrite) the value of
    such an entry is replaced, and [n] is the number that the operation returns.  No mapping is
    an empty block mapping; a value that may take the place of another one stands on one line,
    or there are no comments on lines. *)
Theorem C91_insert : forall d y p k h ow n d', portable_doc d y -> everywhere filled y -> last_key p = Some k ->
  key_portable k -> portable h -> everywhere filled (a_value h) ->
  (ow = false \/ on_line h \/ everywhere no_inline_comment y /\ everywhere no_inline_comment (a_value h)) ->
  insert_into_hash_doc p h ow d = (n, d') ->
  amends (fun l l' => gains k (node_of h) l l' \/ ow = true /\ sets k (node_of h) l l') n d d'.
Proof. exact insert_amends. Qed.
Print Assumptions C91_insert.

(** Renaming. *)
Theorem C91_rename : forall d y p k new n d', portable_doc d y -> last_key p = Some k -> key_portable new ->
  rename_field_doc p new d = (n, d') -> amends (rekeys k new) n d d'.
Proof. exact rename_amends. Qed.
Print Assumptions C91_rename.

(** Putting values into mappings of their own, without comments on lines. *)
Theorem C91_nest : forall d y p k new n d', portable_doc d y -> everywhere no_inline_comment y -> last_key p = Some k -> key_portable new ->
  to_object_doc p new d = (n, d') -> amends (nests k new) n d d'.
Proof. exact nest_amends. Qed.
Print Assumptions C91_nest.

(** Removing, without comments among the entries.  The last entry of the root is not removed
    below comments. *)
Theorem C91_remove : forall d y p k n d', portable_doc d y -> everywhere no_comment y -> last_key p = Some k ->
  remove_from_hash_doc p d = (n, d') -> (In (DYaml (Hash [])) (items d') -> forall c r, items d <> DComment c :: r) ->
  amends (loses k) n d d'.
Proof. exact remove_amends. Qed.
Print Assumptions C91_remove.

(** All readings are meant. *)
Theorem C91_every : forall G n d d' x x', amends G n d d' ->
  yaml_file x (format_doc d ++ [NL]) -> yaml_file x' (format_doc d' ++ [NL]) -> times (amended G) n x x'.
Proof. exact amends_every. Qed.
Print Assumptions C91_every.

Definition job (name : str) (more : list hashdata) : arraydata :=
  AElem (mkA None (Hash (HElem (mkHE (lit "name") (mkA None (Unquoted name))) :: more))).
Definition run (s : str) : hashdata := HElem (mkHE (lit "run") (mkA None (Literal [s; lit "exit"] Clip))).
Definition jobs (l : list arraydata) : yaml :=
  Hash [HComment (lit " all jobs"); HElem (mkHE (lit "version") (mkA None (Unquoted (lit "2")))); HElem (mkHE (lit "jobs") (mkA (Some (lit "j")) (Array l)))].
Definition ci : yaml := jobs [job (lit "build") [HInlineC (lit " first"); run (lit "make")]; AComment (lit " and then"); job (lit "test") [run (lit "make check")]].
Definition ci_doc : document := mkDoc [lit " ci"] [DComment (lit " top"); DYaml ci; DComment (lit " end")].
Definition in_jobs (k : str) : path := PKey (lit "jobs") [] (Some (PAll [] (Some (PKey k [] None)))).
Example C91_portable : portable_doc ci_doc ci.
Proof. apply (PDoc [lit " ci"] [lit " top"] _ [lit " end"]); try (repeat (apply Forall_cons; [note_t|]); apply Forall_nil); [|exact I]. unfold ci, jobs, job, run. value_t. Qed.
Definition image : aliased := mkA None (Hash [HElem (mkHE (lit "os") (mkA None (Unquoted (lit "linux"))))]).
Ltac no_t := cbn; repeat split; try discriminate.

Example C91_insert_ex : portable_doc ci_doc ci /\ everywhere filled ci /\ key_portable (lit "image") /\ portable image /\ everywhere filled (a_value image) /\
  fst (insert_into_hash_doc (in_jobs (lit "image")) image false ci_doc) = 2.
Proof. split; [exact C91_portable|]. split; [no_t|]. split; [key_t|]. split; [unfold image; value_t|]. split; [no_t|reflexivity]. Qed.
Example C91_overwrite_ex : on_line (mkA None (Unquoted (lit "none"))) /\
  fst (insert_into_hash_doc (in_jobs (lit "name")) (mkA None (Unquoted (lit "none"))) true ci_doc) = 2.
Proof. split; [line_t|reflexivity]. Qed.
Example C91_rename_ex : key_portable (lit "script") /\ fst (rename_field_doc (in_jobs (lit "run")) (lit "script") ci_doc) = 2.
Proof. split; [key_t|reflexivity]. Qed.

Definition bare : yaml := Hash [HElem (mkHE (lit "jobs") (mkA None (Array [job (lit "build") [run (lit "make")]; job (lit "test") []])))].
Definition bare_doc : document := mkDoc [] [DComment (lit " top"); DYaml bare].
Example C91_bare_portable : portable_doc bare_doc bare.
Proof. apply (PDoc [] [lit " top"] _ []); try (repeat (apply Forall_cons; [note_t|]); apply Forall_nil); [|exact I]. unfold bare, job, run. value_t. Qed.
Example C91_nest_ex : portable_doc bare_doc bare /\ everywhere no_inline_comment bare /\ fst (to_object_doc (in_jobs (lit "run")) (lit "linux") bare_doc) = 1.
Proof. split; [exact C91_bare_portable|]. split; [|reflexivity]. cbn. repeat split; intros c; cbn; intuition discriminate. Qed.
Example C91_remove_ex : portable_doc bare_doc bare /\ everywhere no_comment bare /\
  exists d', remove_from_hash_doc (in_jobs (lit "name")) bare_doc = (2, d') /\ ~ In (DYaml (Hash [])) (items d').
Proof.
  split; [exact C91_bare_portable|]. split.
  - cbn [everywhere fold_right bare job run lit app]. repeat split; intros c; cbn; intuition (subst; unfold job; eauto).
  - eexists. split; [reflexivity|]. cbn. intuition discriminate.
Qed.
Example C91_every_ex : forall x, yaml_file x (format_doc ci_doc ++ [NL]) -> exists x',
  yaml_file x' (format_doc (snd (rename_field_doc (in_jobs (lit "run")) (lit "script") ci_doc)) ++ [NL]) /\
  times (amended (rekeys (lit "run") (lit "script"))) 2 x x'.
Proof.
  intros x H. destruct (rename_field_doc (in_jobs (lit "run")) (lit "script") ci_doc) as [n d'] eqn:E.
  assert (N : n = 2) by (apply (f_equal fst) in E; vm_compute in E; congruence). subst n.
  pose proof (C91_rename ci_doc ci (in_jobs (lit "run")) (lit "run") (lit "script") 2 d' C91_portable eq_refl (proj1 C91_rename_ex) E) as A.
  destruct A as (x0 & x' & A & B & T). exists x'. split; [exact B|].
  apply (C91_every _ _ ci_doc d'); [now exists x0, x'|exact H|exact B].
Qed.

(** Overwriting with a literal where there is a comment on the line: the comment becomes text. *)
Theorem C91_comment_refuted : exists d y p k h d' x, portable_doc d y /\ everywhere filled y /\ last_key p = Some k /\
  key_portable k /\ portable h /\ insert_into_hash_doc p h true d = (1, d') /\
  node_of h = Node None (Scalar false (lit "text" ++ [NL])) /\
  yaml_file x (format_doc d' ++ [NL]) /\ x = Node None (Mapping [(key_node k, Node None (Scalar false (lit "text # note" ++ [NL])))]).
Proof.
  set (k := lit "a"). set (h := mkA None (Literal [lit "text"] Clip)).
  set (y := Hash [HElem (mkHE k (mkA None (Unquoted (lit "1")))); HInlineC (lit " note")]).
  exists (mkDoc [] [DYaml y]), y, (PKey k [] None), k, h. eexists. eexists. split; [|split; [|split; [|split; [|split; [|split; [|split; [|split]]]]]]].
  - apply (PDoc [] [] _ []); try apply Forall_nil; [|exact I]. unfold y, k. value_t.
  - no_t.
  - reflexivity.
  - unfold k. key_t.
  - unfold h. value_t.
  - reflexivity.
  - reflexivity.
  - assert (D : portable_doc (mkDoc [] [DYaml (Hash [HElem (mkHE k (mkA None (Literal [lit "text # note"] Clip)))])]) (Hash [HElem (mkHE k (mkA None (Literal [lit "text # note"] Clip)))])).
    { apply (PDoc [] [] _ []); try apply Forall_nil; [|exact I]. unfold k. value_t. }
    exact (doc_wrote _ _ D).
  - reflexivity.
Qed.
Print Assumptions C91_comment_refuted.
