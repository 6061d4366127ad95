(** Specification vocabulary for edits that follow each other. *)
From Verif Require Import Base Ast Path Spec_Edit.
Import ListNotations.

(** The path with another key at its end. *)
Fixpoint with_key (k : str) (p : path) : path :=
  match p with
  | PKey _ cs None => PKey k cs None
  | PKey a cs (Some o) => PKey a cs (Some (with_key k o))
  | PAll cs (Some o) => PAll cs (Some (with_key k o))
  | PIdx is_ cs (Some o) => PIdx is_ cs (Some (with_key k o))
  | _ => p
  end.
(** The conditions on the mappings that hold the last key: those of the last step, and those
    of the step before it if that is an index. *)
Fixpoint last_conditions (p : path) : list condition :=
  match p with
  | PKey _ cs None => cs
  | PKey _ _ (Some o) => last_conditions o
  | PAll cs (Some o) | PIdx _ cs (Some o) =>
      match o with PKey _ _ None => cs | _ => [] end ++ last_conditions o
  | _ => []
  end.
(** None of those conditions is about the field [k]. *)
Definition unconditional (p : path) (k : str) : Prop := ~ In k (map c_field (last_conditions p)).
(** None of them is about the last key itself. *)
Definition avoids (p : path) : Prop := forall k, last_key p = Some k -> unconditional p k.

(** No mapping has two entries with the same key. *)
Fixpoint unique_keys (y : yaml) : Prop :=
  match y with
  | Hash l =>
      NoDup (flat_map (fun d => match d with HElem e => [he_key e] | _ => [] end) l) /\
      fold_right (fun d P => (match d with HElem e => unique_keys (a_value (he_value e)) | _ => True end) /\ P) True l
  | Array l => fold_right (fun d P => (match d with AElem a => unique_keys (a_value a) | _ => True end) /\ P) True l
  | InlineArray l => fold_right (fun v P => unique_keys v /\ P) True l
  | _ => True
  end.
