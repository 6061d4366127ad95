(** Specification vocabulary: the data after an edit at all places that a path with conditions,
    positions and wildcards selects. *)
From Verif Require Import Base Ast Path Spec_Insert Spec_Yaml12 Spec_Amend Spec_Gather.
Import ListNotations.

(** A key without quotes. *)
Definition is_key (k : str) (x : node) : bool := match x with Node None (Scalar true k') => seqb k' k | _ => false end.
(** The first entry with the key is replaced. *)
Fixpoint at_entry (k : str) (f : node * node -> list (node * node)) (es : list (node * node)) : list (node * node) :=
  match es with
  | [] => []
  | e :: r => if is_key k (fst e) then f e ++ r else e :: at_entry k f r
  end.
(** The element at a position changes. *)
Fixpoint at_position (i : nat) (f : node -> node) (vs : list node) : list node :=
  match vs, i with
  | [], _ => []
  | v :: r, 0 => f v :: r
  | v :: r, S j => v :: at_position j f r
  end.

(** The entries change by [g] in every mapping that the steps lead to and that meets the
    conditions. *)
Fixpoint change (l : list step) (cs : list condition) (g : list (node * node) -> list (node * node)) (x : node) : node :=
  match l with
  | [] =>
      match x with
      | Node al (Mapping es) => if forallb (meets x) cs then Node al (Mapping (g es)) else x
      | _ => x
      end
  | SKey a ds :: r =>
      match x with
      | Node al (Mapping es) => if forallb (meets x) ds then Node al (Mapping (at_entry a (fun e => [(fst e, change r cs g (snd e))]) es)) else x
      | _ => x
      end
  | SIdx i ds :: r =>
      match x with
      | Node al (Sequence vs) => Node al (Sequence (at_position i (fun v => if forallb (meets v) ds then change r cs g v else v) vs))
      | _ => x
      end
  | SAll ds :: r =>
      match x with
      | Node al (Sequence vs) => Node al (Sequence (map (fun v => if forallb (meets v) ds then change r cs g v else v) vs))
      | _ => x
      end
  end.

(** Added at the end; or overwritten, if asked for. *)
Definition put (k : str) (v : node) (ow : bool) (es : list (node * node)) : list (node * node) :=
  match entry k es with
  | None => es ++ [(key_node k, v)]
  | Some _ => if ow then at_entry k (fun _ => [(key_node k, v)]) es else es
  end.
Definition drop (k : str) : list (node * node) -> list (node * node) := at_entry k (fun _ => []).
Definition rekey (k new : str) : list (node * node) -> list (node * node) := at_entry k (fun e => [(key_node new, snd e)]).
Definition wrap (k new : str) : list (node * node) -> list (node * node) :=
  at_entry k (fun e => [(key_node k, Node None (Mapping [(key_node new, snd e)]))]).

(** Whatever YAML finds in the file before, it finds the changed data in the file after. *)
Definition turns (f : node -> node) (s s' : str) : Prop := (exists x, yaml_file x s) /\ forall x, yaml_file x s -> yaml_file (f x) s'.
