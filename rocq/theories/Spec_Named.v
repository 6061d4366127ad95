(** Specification vocabulary: the entry that a path of keys names. *)
From Verif Require Import Base Ast Path Format Spec_Yaml12 Spec_Amend.
Import ListNotations.

(** The path k1.k2. ... .k, without conditions. *)
Fixpoint keys_path (ks : list str) (k : str) : path :=
  match ks with
  | [] => PKey k [] None
  | a :: r => PKey a [] (Some (keys_path r k))
  end.

(** The entries of the mapping that the keys lead to change; of entries with the same key, the
    first one counts.  Everything else stays. *)
Inductive keyed (G : list (node * node) -> list (node * node) -> Prop) : list str -> node -> node -> Prop :=
| ky_here al l l' : G l l' -> keyed G [] (Node al (Mapping l)) (Node al (Mapping l'))
| ky_in al b k v v' c ks : lacks k b -> keyed G ks v v' ->
    keyed G (k :: ks) (Node al (Mapping (b ++ (key_node k, v) :: c))) (Node al (Mapping (b ++ (key_node k, v') :: c))).

(** The keys lead to a mapping with the entries [l]. *)
Inductive leads : list str -> node -> list (node * node) -> Prop :=
| le_here al l : leads [] (Node al (Mapping l)) l
| le_in al b k v c ks l : lacks k b -> leads ks v l -> leads (k :: ks) (Node al (Mapping (b ++ (key_node k, v) :: c))) l.

(** Both files have a reading, and they differ at that place. *)
Definition rewrites (G : list (node * node) -> list (node * node) -> Prop) (ks : list str) (d d' : document) : Prop :=
  exists x x', yaml_file x (format_doc d ++ [NL]) /\ yaml_file x' (format_doc d' ++ [NL]) /\ keyed G ks x x'.

(** No inline mapping. *)
Definition not_inline (y : yaml) : Prop := match y with InlineHash _ => False | _ => True end.
