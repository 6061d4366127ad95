(** Specification vocabulary: the value at the end of a path of keys and positions. *)
From Verif Require Import Base Ast Path Spec_Yaml12 Spec_Amend.
Import ListNotations.

Inductive place := Key (k : str) | Elt (i : nat).

(** The path with these steps, without conditions: a.b[0].c. *)
Fixpoint steps (l : list place) : option path :=
  match l with
  | [] => None
  | Key k :: r => Some (PKey k [] (steps r))
  | Elt i :: r => Some (PIdx [i] [] (steps r))
  end.

(** The value under a key of a mapping (the first one, if keys repeat), at a position of a
    sequence (from 0). *)
Inductive value_at : list place -> node -> node -> Prop :=
| va_here x : value_at [] x x
| va_key al b k v c r w : lacks k b -> value_at r v w -> value_at (Key k :: r) (Node al (Mapping (b ++ (key_node k, v) :: c))) w
| va_elt al b v c r w : value_at r v w -> value_at (Elt (length b) :: r) (Node al (Sequence (b ++ v :: c))) w.

(** No inline mapping and no inline sequence. *)
Definition only_block (y : yaml) : Prop := match y with InlineHash _ | InlineArray _ => False | _ => True end.
