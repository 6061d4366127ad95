(** Specification vocabulary: what edits do to the data of a file, in terms of YAML. *)
From Verif Require Import Base Ast Format Spec_Local Spec_Yaml12.
Import ListNotations.

(** A key without quotes and without an anchor. *)
Definition key_node (k : str) : node := Node None (Scalar true k).

(** The entries of one mapping change, somewhere below; everything else stays. *)
Inductive amended (G : list (node * node) -> list (node * node) -> Prop) : node -> node -> Prop :=
| am_here al l l' : G l l' -> amended G (Node al (Mapping l)) (Node al (Mapping l'))
| am_entry al b k v v' c : amended G v v' ->
    amended G (Node al (Mapping (b ++ (k, v) :: c))) (Node al (Mapping (b ++ (k, v') :: c)))
| am_element al b v v' c : amended G v v' ->
    amended G (Node al (Sequence (b ++ v :: c))) (Node al (Sequence (b ++ v' :: c))).

Definition lacks (k : str) (l : list (node * node)) : Prop := ~ In (key_node k) (map fst l).
(** An entry with a new key is added at the end. *)
Definition gains (k : str) (x : node) (l l' : list (node * node)) : Prop := lacks k l /\ l' = l ++ [(key_node k, x)].
(** The (first) entry with a key gets another value. *)
Definition sets (k : str) (x : node) (l l' : list (node * node)) : Prop :=
  exists b v c, lacks k b /\ l = b ++ (key_node k, v) :: c /\ l' = b ++ (key_node k, x) :: c.
(** The entry gets another key. *)
Definition rekeys (k new : str) (l l' : list (node * node)) : Prop :=
  exists b v c, lacks k b /\ l = b ++ (key_node k, v) :: c /\ l' = b ++ (key_node new, v) :: c.
(** The value of the entry is put into a mapping of its own. *)
Definition nests (k new : str) (l l' : list (node * node)) : Prop :=
  exists b v c, lacks k b /\ l = b ++ (key_node k, v) :: c /\ l' = b ++ (key_node k, Node None (Mapping [(key_node new, v)])) :: c.
(** The entry is removed. *)
Definition loses (k : str) (l l' : list (node * node)) : Prop :=
  exists b v c, lacks k b /\ l = b ++ (key_node k, v) :: c /\ l' = b ++ c.

(** Both files have a reading, and [n] changes lead from the one to the other. *)
Definition amends (G : list (node * node) -> list (node * node) -> Prop) (n : nat) (d d' : document) : Prop :=
  exists x x', yaml_file x (format_doc d ++ [NL]) /\ yaml_file x' (format_doc d' ++ [NL]) /\ times (amended G) n x x'.
(** The same for texts. *)
Definition revises (G : list (node * node) -> list (node * node) -> Prop) (n : nat) (s s' : str) : Prop :=
  exists x x', yaml_file x s /\ yaml_file x' s' /\ times (amended G) n x x'.
