(** Properties C15-C28: path lookups and edits.  Specification vocabulary:
    Spec_Insert.v. *)
From Verif Require Import Base Ast Strings Path Insert Spec_Insert
  InsertFacts2 InsertFacts3 InsertFacts4 InsertFacts5.
Import ListNotations.

(** Sample tree used by the examples: [a: 1], a comment, [b: [{c: 2, d: 3}, {c: 4}]]. *)
Definition u (s : string) : aliased := mkA None (Unquoted (lit s)).
Definition ent (k : string) (v : aliased) : hashdata := HElem (mkHE (lit k) v).
Definition sample : yaml :=
  Hash [ent "a" (u "1"); HComment (lit "note");
        ent "b" (mkA None (Array [AElem (mkA None (Hash [ent "c" (u "2"); ent "d" (u "3")]));
                                  AComment (lit "x");
                                  AElem (mkA (Some (lit "al")) (Hash [ent "c" (u "4")]))]))].
Definition b_all_c : list step := [SKey (lit "b") []; SAll []; SKey (lit "c") []].

(** *** C15 *)
Theorem C15_find_is_read_only : forall p y, snd (find_values_st p y) = y.
Proof. exact find_values_pure. Qed.
Print Assumptions C15_find_is_read_only.
Example C15_ex :
  find_values (path_of b_all_c) sample = [Unquoted (lit "2"); Unquoted (lit "4")]
  /\ snd (find_values_st (path_of b_all_c) sample) = sample.
Proof. split; vm_compute; reflexivity. Qed.

(** *** C16 *)
Theorem C16_zero_means_unchanged : forall p h ow n k y,
  (fst (insert_into_hash p h ow y) = 0 -> snd (insert_into_hash p h ow y) = y)
  /\ (fst (remove_from_hash p y) = 0 -> snd (remove_from_hash p y) = y)
  /\ (fst (rename_field p n y) = 0 -> snd (rename_field p n y) = y)
  /\ (fst (to_object p k y) = 0 -> snd (to_object p k y) = y).
Proof.
  exact (fun p h ow n k y => conj (insert_zero p h ow y)
          (conj (remove_zero p y) (conj (rename_zero p n y) (to_object_zero p k y)))).
Qed.
Print Assumptions C16_zero_means_unchanged.
Theorem C16_movers_zero_means_unchanged : forall parse p sub names old selector new keeps y,
  (fst (move_to_subfield parse p sub names y) = Some 0 -> snd (move_to_subfield parse p sub names y) = y)
  /\ (fst (move_to_map parse p old selector new keeps y) = Some 0 ->
      snd (move_to_map parse p old selector new keeps y) = y).
Proof.
  exact (fun parse p sub names old selector new keeps y =>
    conj (move_to_subfield_zero parse p sub names y) (move_to_map_zero parse p old selector new keeps y)).
Qed.
Print Assumptions C16_movers_zero_means_unchanged.
Example C16_ex :
  fst (insert_into_hash (path_of [SKey (lit "a") []]) (u "9") false sample) = 0
  /\ fst (remove_from_hash (path_of [SKey (lit "zz") []]) sample) = 0
  /\ fst (rename_field (path_of [SKey (lit "b") []; SIdx 7 []; SKey (lit "c") []]) (lit "k") sample) = 0
  /\ fst (to_object (path_of [SKey (lit "b") []; SAll []]) (lit "k") sample) = 0
  /\ fst (move_to_subfield (fun s => Some (PKey s [] None)) (PRoot []) (lit "s") [lit "zz"] sample) = Some 0
  /\ fst (move_to_map (fun s => Some (PKey s [] None)) (PRoot []) (lit "a") (lit "s") (lit "n") [] sample) = Some 0.
Proof. repeat split; vm_compute; reflexivity. Qed.

(** *** C17 *)
Theorem C17_only_appends : forall p h y,
  appends h (fst (insert_into_hash p h false y)) y (snd (insert_into_hash p h false y)).
Proof. exact insert_appends. Qed.
Print Assumptions C17_only_appends.
Theorem C17_lookups_survive : forall p h y steps v,
  single_steps steps -> nodes steps y = [v] ->
  exists v' m, nodes steps (snd (insert_into_hash p h false y)) = [v'] /\ appends h m v v'.
Proof. exact insert_keeps_lookups. Qed.
Print Assumptions C17_lookups_survive.
Theorem C17_scalars_survive : forall p h y steps v,
  single_steps steps -> nodes steps y = [v] -> is_scalar v = true ->
  nodes steps (snd (insert_into_hash p h false y)) = [v].
Proof. exact insert_keeps_scalars. Qed.
Print Assumptions C17_scalars_survive.
Example C17_ex :
  let p := path_of [SKey (lit "b") []; SAll []; SKey (lit "d") []] in
  fst (insert_into_hash p (u "9") false sample) = 1
  /\ single_steps [SKey (lit "b") []; SIdx 0 []; SKey (lit "d") []]
  /\ nodes [SKey (lit "b") []; SIdx 0 []; SKey (lit "d") []] sample = [Unquoted (lit "3")].
Proof. repeat split; repeat constructor. Qed.

(** *** The lookup function meets its specification (used by C18). *)
Theorem C18_find_spec : forall steps y,
  inline_ok y = true -> find_values (path_of steps) y = nodes steps y.
Proof. exact find_is_nodes. Qed.
Print Assumptions C18_find_spec.

(** *** C18 *)
Theorem C18_insert_count : forall steps k cs h y,
  inline_ok y = true ->
  fst (insert_into_hash (path_of (steps ++ [SKey k cs])) h true y)
  = length (filter (fun v => is_block_hash v && satisfies_b v cs) (nodes steps y)).
Proof. exact insert_count. Qed.
Print Assumptions C18_insert_count.
Theorem C18_insert_then_find : forall steps k h y,
  inline_ok y = true -> inline_ok (a_value h) = true -> cond_free steps ->
  let p := path_of (steps ++ [SKey k []]) in
  find_values p (snd (insert_into_hash p h true y))
  = repeat (a_value h) (fst (insert_into_hash p h true y)).
Proof. exact insert_then_find. Qed.
Print Assumptions C18_insert_then_find.
Example C18_ex :
  inline_ok sample = true /\ inline_ok (a_value (u "9")) = true
  /\ cond_free [SKey (lit "b") []; SAll []]
  /\ fst (insert_into_hash (path_of ([SKey (lit "b") []; SAll []] ++ [SKey (lit "d") []])) (u "9") true sample) = 2.
Proof. repeat split; repeat constructor. Qed.
(** A condition that the insertion itself falsifies: the condition-free hypothesis is needed. *)
Example C18_condition_needed :
  let p := path_of [SKey (lit "a") [mkC (lit "a") (lit "1")]] in
  fst (insert_into_hash p (u "9") true sample) = 1
  /\ find_values p (snd (insert_into_hash p (u "9") true sample)) = [].
Proof. split; vm_compute; reflexivity. Qed.

(** *** C19 *)
Theorem C19_overwrite_in_place : forall a k v b h,
  first_value k a = None ->
  insert_into_hash (PKey k [] None) h true (Hash (a ++ HElem (mkHE k v) :: b))
  = (1, Hash (a ++ HElem (mkHE k h) :: b)).
Proof. exact overwrite_in_place. Qed.
Print Assumptions C19_overwrite_in_place.
Theorem C19_absent_is_appended : forall a k h ow,
  first_value k a = None ->
  insert_into_hash (PKey k [] None) h ow (Hash a) = (1, Hash (a ++ [HElem (mkHE k h)])).
Proof. exact insert_absent. Qed.
Print Assumptions C19_absent_is_appended.
Theorem C19_no_overwrite_keeps : forall a k v b h,
  insert_into_hash (PKey k [] None) h false (Hash (a ++ HElem (mkHE k v) :: b))
  = (0, Hash (a ++ HElem (mkHE k v) :: b)).
Proof. exact insert_present_kept. Qed.
Print Assumptions C19_no_overwrite_keeps.
(** Longer paths: an edit below [k] touches only the value of the first entry [k]. *)
Theorem C19_edit_below_key : forall a k al v b o h ow,
  first_value k a = None ->
  insert_into_hash (PKey k [] (Some o)) h ow (Hash (a ++ HElem (mkHE k (mkA al v)) :: b))
  = (fst (insert_into_hash o h ow v),
     Hash (a ++ HElem (mkHE k (mkA al (snd (insert_into_hash o h ow v)))) :: b)).
Proof. exact (fun a k al v b o h ow => edit_under_key (insert_f h ow) a k al v b o). Qed.
Print Assumptions C19_edit_below_key.
Example C19_ex : first_value (lit "b") [ent "a" (u "1"); HComment (lit "note")] = None.
Proof. reflexivity. Qed.

(** *** C20 *)
Theorem C20_remove_first : forall a k v b,
  first_value k a = None ->
  remove_from_hash (PKey k [] None) (Hash (a ++ HElem (mkHE k v) :: b)) = (1, Hash (a ++ b)).
Proof. exact remove_first. Qed.
Print Assumptions C20_remove_first.
Theorem C20_remove_absent : forall l k,
  first_value k l = None -> remove_from_hash (PKey k [] None) (Hash l) = (0, Hash l).
Proof. exact remove_absent. Qed.
Print Assumptions C20_remove_absent.
Theorem C20_remove_below_key : forall a k al v b o,
  first_value k a = None ->
  remove_from_hash (PKey k [] (Some o)) (Hash (a ++ HElem (mkHE k (mkA al v)) :: b))
  = (fst (remove_from_hash o v),
     Hash (a ++ HElem (mkHE k (mkA al (snd (remove_from_hash o v)))) :: b)).
Proof. exact (edit_under_key remove_f). Qed.
Print Assumptions C20_remove_below_key.
Example C20_ex :
  remove_from_hash (path_of [SKey (lit "k") []]) (Hash [ent "k" (u "1"); HComment (lit "c"); ent "k" (u "2")])
  = (1, Hash [HComment (lit "c"); ent "k" (u "2")]).
Proof. vm_compute. reflexivity. Qed.

(** *** C21 *)
Theorem C21_insert_remove_restores : forall p h y,
  indexes_distinct p ->
  fst (remove_from_hash p y) = 0 ->
  remove_from_hash p (snd (insert_into_hash p h false y)) = (fst (insert_into_hash p h false y), y).
Proof. exact insert_remove. Qed.
Print Assumptions C21_insert_remove_restores.
Example C21_ex :
  let p := path_of [SKey (lit "b") []; SAll [mkC (lit "c") (lit "4")]; SKey (lit "new") []] in
  indexes_distinct p /\ fst (remove_from_hash p sample) = 0
  /\ fst (insert_into_hash p (u "9") false sample) = 1.
Proof. repeat split. Qed.

(** *** C22 *)
Theorem C22_rename_only_keys : forall p n y,
  erase_keys (snd (rename_field p n y)) = erase_keys y.
Proof. exact rename_keeps_everything_else. Qed.
Print Assumptions C22_rename_only_keys.
Theorem C22_rename_count : forall p n y,
  indexes_distinct p -> ends_in_key p = true ->
  fst (rename_field p n y) = length (find_values p y).
Proof. exact rename_count. Qed.
Print Assumptions C22_rename_count.
Theorem C22_rename_entry : forall a k v b n,
  first_value k a = None ->
  rename_field (PKey k [] None) n (Hash (a ++ HElem (mkHE k v) :: b))
  = (1, Hash (a ++ HElem (mkHE n v) :: b)).
Proof. exact rename_entry. Qed.
Print Assumptions C22_rename_entry.
Example C22_ex :
  let p := path_of b_all_c in
  indexes_distinct p /\ ends_in_key p = true /\ fst (rename_field p (lit "k") sample) = 2.
Proof. repeat split. Qed.

(** *** C23 *)
Theorem C23_to_object_count : forall p k y,
  indexes_distinct p -> ends_in_key p = true ->
  fst (to_object p k y) = length (find_values p y).
Proof. exact to_object_count. Qed.
Print Assumptions C23_to_object_count.
Theorem C23_to_object_find : forall p k y,
  indexes_distinct p -> no_conditions p -> ends_in_key p = true ->
  find_values (path_insert p (PKey k [] None)) (snd (to_object p k y)) = find_values p y.
Proof. exact to_object_find. Qed.
Print Assumptions C23_to_object_find.
Example C23_ex :
  let p := path_of b_all_c in
  indexes_distinct p /\ no_conditions p /\ ends_in_key p = true
  /\ find_values p sample = [Unquoted (lit "2"); Unquoted (lit "4")].
Proof. repeat split. Qed.

(** *** C24 *)
Theorem C24_conditions_exact : forall y cs, fits_conditions y cs = true <-> satisfies y cs.
Proof. exact conditions_exact. Qed.
Print Assumptions C24_conditions_exact.
Theorem C24_edits_filtered : forall p h ow n k cs rest els,
  p = PAll cs rest \/ (exists is_, p = PIdx is_ cs rest) ->
  filtering cs (fun y => snd (insert_into_hash p h ow y)) els
  /\ filtering cs (fun y => snd (remove_from_hash p y)) els
  /\ filtering cs (fun y => snd (rename_field p n y)) els
  /\ filtering cs (fun y => snd (to_object p k y)) els.
Proof. exact ops_filtered. Qed.
Print Assumptions C24_edits_filtered.
Example C24_ex :
  satisfies (Hash [ent "c" (u "2"); ent "d" (u "3")]) [mkC (lit "d") (lit "3"); mkC (lit "c") (lit "2")]
  /\ ~ satisfies (Hash [ent "c" (u "4")]) [mkC (lit "c") (lit "2")].
Proof.
  split.
  - apply C24_conditions_exact. reflexivity.
  - intros H. apply C24_conditions_exact in H. discriminate.
Qed.

(** *** C25 *)
Theorem C25_wildcard_finds_union : forall cs rest els,
  find_values (PAll cs rest) (Array els) =
  flat_map (fun i => find_values (PIdx [i] cs rest) (Array els)) (seq 0 (length (elements els))).
Proof. exact wildcard_find. Qed.
Print Assumptions C25_wildcard_finds_union.
(** The same for every edit: the wildcard behaves as the list of all indexes. *)
Theorem C25_wildcard_edits : forall h ow n k cs rest els,
  let p := PAll cs rest in
  let q := PIdx (seq 0 (length (elements els))) cs rest in
  insert_into_hash p h ow (Array els) = insert_into_hash q h ow (Array els)
  /\ remove_from_hash p (Array els) = remove_from_hash q (Array els)
  /\ rename_field p n (Array els) = rename_field q n (Array els)
  /\ to_object p k (Array els) = to_object q k (Array els).
Proof.
  exact (fun h ow n k cs rest els =>
      (conj (wildcard_edit (insert_f h ow) cs rest els)
        (conj (wildcard_edit remove_f cs rest els)
          (conj (wildcard_for_hash 0 Nat.add (rename_f n) zero_r cs rest els)
                (wildcard_for_hash 0 Nat.add (to_object_f k) zero_r cs rest els))))).
Qed.
Print Assumptions C25_wildcard_edits.
Theorem C25_out_of_range : forall i cs rest els,
  length (elements els) <= i ->
  find_values (PIdx [i] cs rest) (Array els) = []
  /\ forall f, edit_hash f (PIdx [i] cs rest) (Array els) = (0, Array els).
Proof. exact index_out_of_range. Qed.
Print Assumptions C25_out_of_range.
Example C25_ex :
  let els := [AElem (u "p"); AComment (lit "c"); AElem (u "q")] in
  length (elements els) = 2
  /\ find_values (PAll [] None) (Array els) = [Unquoted (lit "p"); Unquoted (lit "q")]
  /\ find_values (PIdx [1] [] None) (Array els) = [Unquoted (lit "q")].
Proof. repeat split. Qed.

(** *** C26 *)
Theorem C26_inline_index_refuted : exists els,
  els <> [] /\ find_values (PIdx [0] [] None) (InlineArray els) = []
  /\ find_values (PAll [] None) (InlineArray els) = [].
Proof. exact inline_index_refuted. Qed.
Print Assumptions C26_inline_index_refuted.
Theorem C26_inline_index_finds_nothing : forall p els,
  forallb flat_inline els = true ->
  (match p with PIdx _ _ _ | PAll _ _ => True | _ => False end) ->
  find_values p (InlineArray els) = [].
Proof. exact inline_index_finds_nothing. Qed.
Print Assumptions C26_inline_index_finds_nothing.
Example C26_ex : forallb flat_inline [Unquoted (lit "a"); InlineArray [Unquoted (lit "b")]] = true.
Proof. reflexivity. Qed.

(** *** C27 *)
Theorem C27_lookups_compose : forall p q y,
  root_free p -> find_values (path_insert p q) y = flat_map (find_values q) (find_values p y).
Proof. exact find_compose. Qed.
Print Assumptions C27_lookups_compose.
Example C27_ex :
  let p := path_of [SKey (lit "b") []; SAll []] in
  root_free p
  /\ find_values (path_insert p (PKey (lit "c") [] None)) sample = [Unquoted (lit "2"); Unquoted (lit "4")].
Proof. repeat split. Qed.
(** A conditioned root is dropped by [insert]: the hypothesis is needed. *)
Example C27_root_condition_lost :
  let p := PRoot [mkC (lit "a") (lit "no")] in
  let q := PKey (lit "a") [] None in
  find_values p sample = [] /\ find_values (path_insert p q) sample = [Unquoted (lit "1")].
Proof. split; vm_compute; reflexivity. Qed.

(** *** C28 *)
Theorem C28_document_edits : forall p h ow n k d,
  doc_result (insert_into_hash p h ow) d (insert_into_hash_doc p h ow d)
  /\ doc_result (remove_from_hash p) d (remove_from_hash_doc p d)
  /\ doc_result (rename_field p n) d (rename_field_doc p n d)
  /\ doc_result (to_object p k) d (to_object_doc p k d).
Proof. exact doc_edits. Qed.
Print Assumptions C28_document_edits.
Theorem C28_document_find : forall p d,
  snd (find_values_doc p d) = d
  /\ fst (find_values_doc p d)
     = flat_map (fun it => match it with DYaml y => find_values p y | DComment _ => [] end) (items d).
Proof. exact doc_find. Qed.
Print Assumptions C28_document_find.
Example C28_ex :
  let d := mkDoc [lit "head"] [DComment (lit "c"); DYaml sample; DYaml sample] in
  fst (rename_field_doc (path_of b_all_c) (lit "k") d) = 4.
Proof. vm_compute. reflexivity. Qed.
