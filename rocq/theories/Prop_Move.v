(** Property theorems C29-C31 (the movers). *)
From Coq Require Import Sorted Permutation.
From Verif Require Import Base Ast Strings Path Insert Spec_Insert Peg PathGrammar Spec_Path PathFacts
  Spec_Move MoveFacts.
Import ListNotations.

(** C29: move_to_subfield moves and loses nothing, when the subfield is absent or a
    mapping. *)
Theorem C29_move_conserves :
  forall sub names l, plain (lit "[].|") sub -> plain_names names -> NoDup names -> ~ In sub names ->
  chosen names l <> [] ->
  (first_value sub l = None \/ exists al old, first_value sub l = Some (mkA al (Hash old))) ->
  exists after, move_to_subfield parse_path (PRoot []) sub names (Hash l) = (Some 1, Hash after) /\
    moved_under sub names l after.
Proof. exact move_conserves. Qed.
Print Assumptions C29_move_conserves.

(** The exact result in both cases. *)
Theorem C29_move_new :
  forall sub names l, plain (lit "[].|") sub -> plain_names names ->
  first_value sub l = None -> chosen names l <> [] ->
  move_to_subfield parse_path (PRoot []) sub names (Hash l)
  = (Some 1, Hash (drop_all names l ++ [HElem (mkHE sub (mkA None (Hash (map entry_of (chosen names l)))))])).
Proof. exact move_new. Qed.
Print Assumptions C29_move_new.

Theorem C29_move_into :
  forall sub names l al old, plain (lit "[].|") sub -> plain_names names ->
  first_value sub l = Some (mkA al (Hash old)) -> chosen names l <> [] ->
  move_to_subfield parse_path (PRoot []) sub names (Hash l)
  = (Some 1, Hash (drop_all names (put sub (mkA al (Hash (put_all (chosen names l) old))) l))).
Proof. exact move_into. Qed.
Print Assumptions C29_move_into.

Theorem C29_move_nothing :
  forall sub names l, chosen names l = [] ->
  move_to_subfield parse_path (PRoot []) sub names (Hash l) = (Some 0, Hash l).
Proof. exact move_nothing. Qed.
Print Assumptions C29_move_nothing.

(** Under a path of keys the same happens to the value reached, in place. *)
Theorem C29_move_at_key :
  forall sub names a k al v b, first_value k a = None ->
  move_to_subfield parse_path (PKey k [] None) sub names (Hash (a ++ HElem (mkHE k (mkA al v)) :: b))
  = (fst (move_to_subfield parse_path (PRoot []) sub names v),
     Hash (a ++ HElem (mkHE k (mkA al (snd (move_to_subfield parse_path (PRoot []) sub names v)))) :: b)).
Proof. exact move_at_key. Qed.
Print Assumptions C29_move_at_key.

Theorem C29_move_below_key :
  forall sub names a k al v b o, first_value k a = None ->
  move_to_subfield parse_path (PKey k [] (Some o)) sub names (Hash (a ++ HElem (mkHE k (mkA al v)) :: b))
  = (fst (move_to_subfield parse_path o sub names v),
     Hash (a ++ HElem (mkHE k (mkA al (snd (move_to_subfield parse_path o sub names v)))) :: b)).
Proof. exact move_below_key. Qed.
Print Assumptions C29_move_below_key.

Example C29_example :
  let l := [HComment (lit " c"); kv (lit "a") (scal "1"); kv (lit "sub") (Hash [kv (lit "x") (scal "2")]);
            kv (lit "b") (scal "3"); kv (lit "a") (scal "4")] in
  let names := [lit "b"; lit "missing"; lit "a"] in
  chosen names l <> [] /\ NoDup names /\ plain_names names /\
  move_to_subfield parse_path (PRoot []) (lit "sub") names (Hash l) =
    (Some 1, Hash [HComment (lit " c");
       kv (lit "sub") (Hash [kv (lit "x") (scal "2"); kv (lit "b") (scal "3"); kv (lit "a") (scal "1")]);
       kv (lit "a") (scal "4")]).
Proof.
  cbn zeta. split; [discriminate|]. split.
  - repeat constructor; cbn; intuition discriminate.
  - split; [|vm_compute; reflexivity].
    repeat (apply Forall_cons; [apply plain_b; vm_compute; congruence|]). apply Forall_nil.
Qed.

(** When the subfield is not a mapping the fields are deleted although nothing was inserted. *)
Theorem C29_scalar_subfield_refuted :
  exists l sub name v after,
  first_value name l = Some v /\ plain (lit "[].|") sub /\ plain (lit "[].|") name /\ sub <> name /\
  move_to_subfield parse_path (PRoot []) sub [name] (Hash l) = (Some 1, Hash after) /\
  first_value name after = None /\ first_value sub after = first_value sub l.
Proof. exact move_loses_field. Qed.
Print Assumptions C29_scalar_subfield_refuted.

(** C30: move_to_map_with_field_as_key puts every entry in exactly one place, with only its
    selector removed, comments included. *)
Theorem C30_move_map_conserves :
  forall old sel new keeps l al entries,
  plain (lit "[].|") old -> plain (lit "[].|") sel -> plain (lit "[].|") new -> old <> new ->
  first_value old l = Some (mkA al (Hash entries)) -> first_value new l = None ->
  (exists e s, In (HElem e) entries /\ group_of sel keeps e = Some s) ->
  exists kept groups,
    move_to_map parse_path (PRoot []) old sel new keeps (Hash l) =
      (Some 1, Hash (put old (mkA al (Hash kept)) l
         ++ [HElem (mkHE new (mkA al (Hash (map (fun g => HElem (mkHE (fst g) (mkA None (Hash (snd g))))) groups))))])) /\
    Permutation (map (unselect sel) entries) (kept ++ flat_map snd groups) /\
    kept = members None (placed sel keeps None entries) /\
    (forall s es, In (s, es) groups -> es = members (Some s) (placed sel keeps None entries)).
Proof. exact move_map_conserves. Qed.
Print Assumptions C30_move_map_conserves.

Theorem C30_move_map_at_key :
  forall old sel new keeps a k al v b, first_value k a = None ->
  move_to_map parse_path (PKey k [] None) old sel new keeps (Hash (a ++ HElem (mkHE k (mkA al v)) :: b))
  = (fst (move_to_map parse_path (PRoot []) old sel new keeps v),
     Hash (a ++ HElem (mkHE k (mkA al (snd (move_to_map parse_path (PRoot []) old sel new keeps v)))) :: b)).
Proof. exact move_map_at_key. Qed.
Print Assumptions C30_move_map_at_key.

Theorem C30_move_map_below_key :
  forall old sel new keeps a k al v b o, first_value k a = None ->
  move_to_map parse_path (PKey k [] (Some o)) old sel new keeps (Hash (a ++ HElem (mkHE k (mkA al v)) :: b))
  = (fst (move_to_map parse_path o old sel new keeps v),
     Hash (a ++ HElem (mkHE k (mkA al (snd (move_to_map parse_path o old sel new keeps v)))) :: b)).
Proof. exact move_map_below_key. Qed.
Print Assumptions C30_move_map_below_key.

Example C30_example :
  let ent n t := kv (lit n) (Hash [kv (lit "type") (scal t); kv (lit "v") (scal n)]) in
  let stripped n := kv (lit n) (Hash [kv (lit "v") (scal n)]) in
  let entries := [HComment (lit "0"); ent "e1"%string "t2"%string; HComment (lit "1"); ent "e2"%string "keep"%string;
                  ent "e3"%string "t1"%string; kv (lit "e4") (scal "z"); ent "e5"%string "t2"%string; HComment (lit "2")] in
  move_to_map parse_path (PRoot []) (lit "old") (lit "type") (lit "new") [lit "keep"] (Hash [kv (lit "old") (Hash entries)]) =
  (Some 1, Hash [kv (lit "old") (Hash [HComment (lit "1"); stripped "e2"%string; kv (lit "e4") (scal "z")]);
     kv (lit "new") (Hash [kv (lit "t1") (Hash [stripped "e3"%string]);
                           kv (lit "t2") (Hash [HComment (lit "0"); stripped "e1"%string; stripped "e5"%string; HComment (lit "2")])])])
  /\ exists e s, In (HElem e) entries /\ group_of (lit "type") [lit "keep"] e = Some s.
Proof.
  cbn zeta. split; [vm_compute; reflexivity|]. do 2 eexists. split; [right; left; reflexivity|vm_compute; reflexivity].
Qed.

(** When the new map name already exists the moved entries are deleted. *)
Theorem C30_existing_target_refuted :
  exists l old sel new after,
  plain (lit "[].|") old /\ plain (lit "[].|") sel /\ plain (lit "[].|") new /\ old <> new /\
  move_to_map parse_path (PRoot []) old sel new [] (Hash l) = (Some 1, Hash after) /\
  (exists e, In (HElem e) (match first_value old l with Some (mkA _ (Hash es)) => es | _ => [] end)) /\
  first_value old after = Some (mkA None (Hash [])) /\ first_value new after = first_value new l.
Proof. exact move_map_loses. Qed.
Print Assumptions C30_existing_target_refuted.

(** C31: the groups are strictly sorted, non-empty names, never kept ones, each with an
    entry. *)
Theorem C31_groups_sorted :
  forall old sel new keeps l al entries,
  plain (lit "[].|") old -> plain (lit "[].|") sel -> plain (lit "[].|") new -> old <> new ->
  first_value old l = Some (mkA al (Hash entries)) -> first_value new l = None ->
  forall y', move_to_map parse_path (PRoot []) old sel new keeps (Hash l) = (Some 1, y') ->
  exists l' groups, y' = Hash l' /\
    first_value new l' = Some (mkA al (Hash (map (fun g => HElem (mkHE (fst g) (mkA None (Hash (snd g))))) groups))) /\
    groups <> [] /\
    StronglySorted lex_lt (map fst groups) /\
    Forall (fun g => fst g <> [] /\ ~ In (fst g) keeps /\ exists e, In (HElem e) (snd g)) groups.
Proof. exact move_map_groups. Qed.
Print Assumptions C31_groups_sorted.

Example C31_example :
  let ent n t := kv (lit n) (Hash [kv (lit "type") (scal t)]) in
  exists y', move_to_map parse_path (PRoot []) (lit "old") (lit "type") (lit "new") []
    (Hash [kv (lit "old") (Hash [ent "a"%string "b"%string; ent "b"%string "ab"%string; ent "c"%string "B"%string])]) = (Some 1, y') /\
  find_values (PKey (lit "new") [] (Some (PKey (lit "ab") [] None))) y' = [Hash [kv (lit "b") (Hash [])]].
Proof. cbn zeta. eexists. split; vm_compute; reflexivity. Qed.
