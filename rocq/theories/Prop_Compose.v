(** Property C64: edits that follow each other.  Specification vocabulary: Spec_Compose.v
    (and [last_key] of Spec_Edit.v, [indexes_distinct], [inline_ok] of Spec_Insert.v). *)
From Verif Require Import Base Ast Strings Path Insert Spec_Edit Spec_Insert Spec_Compose ComposeFacts2 ComposeFacts3 ComposeFacts4.
Import ListNotations.

(** Sample: [b] holds two mappings [{n: x, c: 2}] and [{n: y}]; the path changes [c] in those
    where [n] is [x], or in all of them. *)
Definition u (s : string) : aliased := mkA None (Unquoted (lit s)).
Definition ent (k : string) (v : aliased) : hashdata := HElem (mkHE (lit k) v).
Definition sample : yaml :=
  Hash [ent "a" (u "1"); HComment (lit "note");
        ent "b" (mkA None (Array [AElem (mkA None (Hash [ent "n" (u "x"); ent "c" (u "2")]));
                                  AComment (lit "x");
                                  AElem (mkA (Some (lit "al")) (Hash [ent "n" (u "y")]))]))].
Definition c_where_n : path := PKey (lit "b") [] (Some (PAll [mkC (lit "n") (lit "x")] (Some (PKey (lit "c") [] None)))).
Definition c_everywhere : path := PKey (lit "b") [] (Some (PAll [] (Some (PKey (lit "c") [] None)))).
Definition c_first : path := PKey (lit "b") [] (Some (PIdx [0; 1] [] (Some (PKey (lit "c") [] None)))).

(** Inserting without overwriting a second time does nothing. *)
Theorem C64_insert_again : forall p h h2 ow y, indexes_distinct p -> ow = false \/ avoids p ->
  insert_into_hash p h2 false (snd (insert_into_hash p h ow y)) = (0, snd (insert_into_hash p h ow y)).
Proof. exact insert_again. Qed.
Print Assumptions C64_insert_again.

(** Of two insertions at the same path, the second one, if it overwrites, decides alone. *)
Theorem C64_overwrite_wins : forall p h h2 ow y, indexes_distinct p -> ow = false \/ avoids p ->
  insert_into_hash p h2 true (snd (insert_into_hash p h ow y)) = insert_into_hash p h2 true y.
Proof. exact overwrite_wins. Qed.
Print Assumptions C64_overwrite_wins.

(** Inserting and then removing is the same as removing. *)
Theorem C64_insert_then_remove : forall p h ow y, indexes_distinct p -> ow = false \/ avoids p ->
  remove_from_hash p (snd (insert_into_hash p h ow y))
  = (fst (insert_into_hash p h true y), snd (remove_from_hash p y)).
Proof. exact insert_then_remove. Qed.
Print Assumptions C64_insert_then_remove.
Example C64_insert_example :
  indexes_distinct c_where_n /\ avoids c_where_n /\ avoids c_everywhere /\ indexes_distinct c_first
  /\ fst (insert_into_hash c_where_n (u "9") true sample) = 1
  /\ fst (insert_into_hash c_everywhere (u "9") false sample) = 1
  /\ fst (insert_into_hash c_first (u "9") true sample) = 2
  /\ snd (insert_into_hash c_everywhere (u "9") true sample) =
     Hash [ent "a" (u "1"); HComment (lit "note");
        ent "b" (mkA None (Array [AElem (mkA None (Hash [ent "n" (u "x"); ent "c" (u "9")]));
                                  AComment (lit "x");
                                  AElem (mkA (Some (lit "al")) (Hash [ent "n" (u "y"); ent "c" (u "9")]))]))]
  /\ fst (remove_from_hash c_everywhere (snd (insert_into_hash c_everywhere (u "9") true sample))) = 2
  /\ fst (remove_from_hash c_everywhere sample) = 1.
Proof.
  repeat split; try (vm_compute; reflexivity).
  - intros k [= <-] [H|[]]. discriminate.
  - intros k [= <-] [].
  - repeat constructor; cbn; intuition discriminate.
Qed.
(** If the path asks for the old value of the key, the second insertion no longer applies. *)
Theorem C64_overwrite_wins_refuted : exists p h h2 y, indexes_distinct p
  /\ insert_into_hash p h2 true (snd (insert_into_hash p h true y)) <> insert_into_hash p h2 true y.
Proof.
  exists (PKey (lit "c") [mkC (lit "c") (lit "1")] None), (u "2"), (u "3"), (Hash [ent "c" (u "1")]).
  split; [exact I|]. vm_compute. discriminate.
Qed.
Print Assumptions C64_overwrite_wins_refuted.

(** Removing a second time does nothing, if no mapping repeats a key. *)
Theorem C64_remove_again : forall p y, indexes_distinct p -> unique_keys y ->
  remove_from_hash p (snd (remove_from_hash p y)) = (0, snd (remove_from_hash p y)).
Proof. exact remove_again. Qed.
Print Assumptions C64_remove_again.
Example C64_remove_example : unique_keys sample
  /\ fst (remove_from_hash c_where_n sample) = 1
  /\ fst (remove_from_hash (with_key (lit "n") c_everywhere) sample) = 2.
Proof. repeat split; cbn; repeat constructor; cbn; intuition discriminate. Qed.
Theorem C64_remove_again_refuted : exists p y, indexes_distinct p
  /\ fst (remove_from_hash p (snd (remove_from_hash p y))) = 1.
Proof. exists (PKey (lit "c") [] None), (Hash [ent "c" (u "1"); ent "c" (u "2")]). split; [exact I|vm_compute; reflexivity]. Qed.
Print Assumptions C64_remove_again_refuted.

(** Edits of different keys of the same mappings do not disturb each other. *)
Theorem C64_removes_swap : forall p k1 k2 y, last_key p = Some k1 -> k1 <> k2 -> indexes_distinct p ->
  unconditional p k1 -> unconditional p k2 ->
  let q := with_key k2 p in
  remove_from_hash q (snd (remove_from_hash p y))
  = (fst (remove_from_hash q y), snd (remove_from_hash p (snd (remove_from_hash q y)))).
Proof. exact removes_swap. Qed.
Print Assumptions C64_removes_swap.
Theorem C64_insert_remove_swap : forall p k1 k2 h ow y, last_key p = Some k1 -> k1 <> k2 -> indexes_distinct p ->
  unconditional p k1 -> unconditional p k2 ->
  let q := with_key k2 p in
  remove_from_hash q (snd (insert_into_hash p h ow y))
  = (fst (remove_from_hash q y), snd (insert_into_hash p h ow (snd (remove_from_hash q y))))
  /\ fst (insert_into_hash p h ow (snd (remove_from_hash q y))) = fst (insert_into_hash p h ow y).
Proof. exact insert_remove_swap. Qed.
Print Assumptions C64_insert_remove_swap.
Theorem C64_inserts_count : forall p k1 k2 h1 h2 o1 o2 y, last_key p = Some k1 -> k1 <> k2 -> indexes_distinct p ->
  unconditional p k1 ->
  fst (insert_into_hash (with_key k2 p) h2 o2 (snd (insert_into_hash p h1 o1 y)))
  = fst (insert_into_hash (with_key k2 p) h2 o2 y).
Proof. exact inserts_count. Qed.
Print Assumptions C64_inserts_count.
Example C64_swap_example :
  last_key c_everywhere = Some (lit "c") /\ with_key (lit "n") c_everywhere = PKey (lit "b") [] (Some (PAll [] (Some (PKey (lit "n") [] None))))
  /\ unconditional c_everywhere (lit "c") /\ unconditional c_everywhere (lit "n")
  /\ snd (remove_from_hash (with_key (lit "n") c_everywhere) (snd (insert_into_hash c_everywhere (u "9") true sample))) =
     Hash [ent "a" (u "1"); HComment (lit "note");
        ent "b" (mkA None (Array [AElem (mkA None (Hash [ent "c" (u "9")]));
                                  AComment (lit "x");
                                  AElem (mkA (Some (lit "al")) (Hash [ent "c" (u "9")]))]))].
Proof. repeat split; try (vm_compute; reflexivity); intros []. Qed.
(** Two insertions leave their entries in the order in which they were made. *)
Theorem C64_inserts_swap_refuted : exists p k2 h1 h2 y, last_key p <> Some k2 /\ indexes_distinct p
  /\ last_conditions p = []
  /\ snd (insert_into_hash (with_key k2 p) h2 true (snd (insert_into_hash p h1 true y)))
     <> snd (insert_into_hash p h1 true (snd (insert_into_hash (with_key k2 p) h2 true y))).
Proof.
  exists (PKey (lit "c") [] None), (lit "d"), (u "1"), (u "2"), (Hash []). repeat split; vm_compute; discriminate.
Qed.
Print Assumptions C64_inserts_swap_refuted.

(** A key renamed to a name that was not there can be renamed back. *)
Theorem C64_rename_back : forall p k n y, last_key p = Some k -> indexes_distinct p ->
  unconditional p k -> unconditional p n -> inline_ok y = true -> find_values (with_key n p) y = [] ->
  rename_field (with_key n p) k (snd (rename_field p n y)) = (fst (rename_field p n y), y).
Proof. exact rename_back. Qed.
Print Assumptions C64_rename_back.
Example C64_rename_example : inline_ok sample = true
  /\ find_values (with_key (lit "m") (with_key (lit "n") c_everywhere)) sample = []
  /\ fst (rename_field (with_key (lit "n") c_everywhere) (lit "m") sample) = 2
  /\ find_values (with_key (lit "m") c_everywhere) (snd (rename_field (with_key (lit "n") c_everywhere) (lit "m") sample))
     = [Unquoted (lit "x"); Unquoted (lit "y")].
Proof. repeat split; vm_compute; reflexivity. Qed.
Theorem C64_rename_back_refuted : exists p k n y, last_key p = Some k /\ indexes_distinct p /\ last_conditions p = []
  /\ inline_ok y = true /\ unique_keys y
  /\ snd (rename_field (with_key n p) k (snd (rename_field p n y))) <> y.
Proof.
  exists (PKey (lit "c") [] None), (lit "c"), (lit "d"), (Hash [ent "d" (u "1"); ent "c" (u "2")]).
  repeat split; cbn; try (repeat constructor; cbn; intuition discriminate).
Qed.
Print Assumptions C64_rename_back_refuted.

(** The same for whole documents. *)
Theorem C64_documents : forall p d, indexes_distinct p ->
  (forall h h2 ow, ow = false \/ avoids p ->
     let d1 := snd (insert_into_hash_doc p h ow d) in
     insert_into_hash_doc p h2 false d1 = (0, d1)
     /\ insert_into_hash_doc p h2 true d1 = insert_into_hash_doc p h2 true d
     /\ remove_from_hash_doc p d1 = (fst (insert_into_hash_doc p h true d), snd (remove_from_hash_doc p d)))
  /\ ((forall y, In (DYaml y) (items d) -> unique_keys y) ->
      let d1 := snd (remove_from_hash_doc p d) in remove_from_hash_doc p d1 = (0, d1))
  /\ (forall k n, last_key p = Some k -> unconditional p k -> unconditional p n ->
      (forall y, In (DYaml y) (items d) -> inline_ok y = true /\ find_values (with_key n p) y = []) ->
      rename_field_doc (with_key n p) k (snd (rename_field_doc p n d)) = (fst (rename_field_doc p n d), d))
  /\ (forall k1 k2, last_key p = Some k1 -> k1 <> k2 -> unconditional p k1 -> unconditional p k2 ->
      let q := with_key k2 p in
      snd (remove_from_hash_doc q (snd (remove_from_hash_doc p d))) = snd (remove_from_hash_doc p (snd (remove_from_hash_doc q d)))
      /\ forall h ow, snd (remove_from_hash_doc q (snd (insert_into_hash_doc p h ow d)))
                      = snd (insert_into_hash_doc p h ow (snd (remove_from_hash_doc q d)))).
Proof. exact documents. Qed.
Print Assumptions C64_documents.
Example C64_documents_example : let d := mkDoc [lit " top"] [DComment (lit " c"); DYaml sample] in
  fst (insert_into_hash_doc c_everywhere (u "9") true d) = 2
  /\ fst (remove_from_hash_doc c_everywhere d) = 1
  /\ fst (rename_field_doc (with_key (lit "n") c_everywhere) (lit "m") d) = 2.
Proof. repeat split; vm_compute; reflexivity. Qed.
