(** Specification vocabulary: entries of a mapping are moved into a mapping below it, in terms of
    the data of YAML. *)
From Verif Require Import Base Ast Spec_Insert Spec_Yaml12 Spec_Amend Spec_Gather Spec_Change.
Import ListNotations.

(** The entries with these names that are there, in the order of the names. *)
Definition taken (names : list str) (es : list (node * node)) : list (str * node) :=
  flat_map (fun k => match entry k es with Some v => [(k, v)] | None => [] end) names.
(** The first entry of every name is left out. *)
Definition rest_of (names : list str) (es : list (node * node)) : list (node * node) := fold_left (fun l k => drop k l) names es.
(** The entries go into the mapping under [sub], which keeps its place and its anchor (entries with
    the same names are overwritten), or into a new mapping at the end. *)
Definition shift (sub : str) (names : list str) (es : list (node * node)) : list (node * node) :=
  match entry sub es with
  | Some (Node al (Mapping old)) =>
      rest_of names (put sub (Node al (Mapping (fold_left (fun l f => put (fst f) (snd f) true l) (taken names es) old))) true es)
  | _ => rest_of names es ++ [(key_node sub, Node None (Mapping (map (fun f => (key_node (fst f), snd f)) (taken names es))))]
  end.
(** At the top of a file. *)
Definition shift_top (sub : str) (names : list str) (x : node) : node :=
  match x with Node al (Mapping es) => Node al (Mapping (shift sub names es)) | _ => x end.
(** In the mapping below the keys [ks]. *)
Fixpoint shift_at (ks : list str) (sub : str) (names : list str) (x : node) : node :=
  match ks with
  | [] => shift_top sub names x
  | k :: r =>
      match x with
      | Node al (Mapping es) => Node al (Mapping (at_entry k (fun e => [(fst e, shift_at r sub names (snd e))]) es))
      | _ => x
      end
  end.
(** The keys lead from [y] to the mapping with the entries [l], by the first entry of each name. *)
Inductive reaches : list str -> yaml -> list hashdata -> Prop :=
| RHere l : reaches [] (Hash l) l
| RKey k r al v m l : first_value k m = Some (mkA al v) -> reaches r v l -> reaches (k :: r) (Hash m) l.
