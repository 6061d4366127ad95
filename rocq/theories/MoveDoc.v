(** Model of the movers called on a document. *)
From Verif Require Import Base Ast Path Insert.
Import ListNotations.

(** [YamlInsert::move_to_subfield] (insert.rs 133-186) with the receiver [Document]
    (document.rs 61-71). *)
Definition move_to_subfield_doc (parse : str -> option path) (p : path) (subfield : str) (names : list str)
  (d : document) : option nat * document :=
  for_hash_doc (Some 0) opt_add (on_elem_value (mts_r parse subfield names)) (mts_r parse subfield names) p d.

(** [YamlInsert::move_to_map_with_field_as_key] (insert.rs 187-306) with the receiver
    [Document] (document.rs 61-71). *)
Definition move_to_map_doc (parse : str -> option path) (p : path) (old_map_name selector new_map_name : str)
  (keeps : list str) (d : document) : option nat * document :=
  for_hash_doc (Some 0) opt_add
    (on_elem_value (mtm_r parse old_map_name selector new_map_name keeps))
    (mtm_r parse old_map_name selector new_map_name keeps) p d.
