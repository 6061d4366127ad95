(** Specification vocabulary: the values that a path with conditions, positions and wildcards
    selects from the data of a YAML file. *)
From Verif Require Import Base Ast Path Spec_Insert Spec_Yaml12 Spec_Amend.
Import ListNotations.

(** The value of the first entry with a key without quotes. *)
Fixpoint entry (k : str) (l : list (node * node)) : option node :=
  match l with
  | (Node None (Scalar true k'), v) :: r => if seqb k' k then Some v else entry k r
  | _ :: r => entry k r
  | [] => None
  end.
(** A mapping with this text (with or without quotes) under the field. *)
Definition meets (x : node) (c : condition) : bool :=
  match x with
  | Node _ (Mapping l) => match entry (c_field c) l with
      | Some (Node _ (Scalar _ s)) => seqb s (c_value c)
      | _ => false
      end
  | _ => false
  end.

(** Conditions of a key are about the mapping; conditions of positions and wildcards are about
    the elements.  Values are in the order of the file. *)
Fixpoint gather (l : list step) (x : node) : list node :=
  match l with
  | [] => [x]
  | SKey k cs :: r =>
      match x with
      | Node _ (Mapping es) => if forallb (meets x) cs then match entry k es with Some v => gather r v | None => [] end else []
      | _ => []
      end
  | SIdx i cs :: r =>
      match x with
      | Node _ (Sequence vs) => match nth_error vs i with Some v => if forallb (meets v) cs then gather r v else [] | None => [] end
      | _ => []
      end
  | SAll cs :: r =>
      match x with
      | Node _ (Sequence vs) => flat_map (fun v => if forallb (meets v) cs then gather r v else []) vs
      | _ => []
      end
  end.

Definition body (x : node) : content := match x with Node _ c => c end.
(** The text of a scalar. *)
Definition text (c : content) : option str := match c with Scalar _ s => Some s | _ => None end.

(** The same for all paths: with lists of positions, whose elements come in the order of the
    list, and with conditions on the whole file. *)
Fixpoint select (p : path) (x : node) : list node :=
  match p with
  | PRoot cs => if forallb (meets x) cs then [x] else []
  | PKey k cs rest =>
      match x with
      | Node _ (Mapping es) => if forallb (meets x) cs
          then match entry k es with Some v => match rest with Some q => select q v | None => [v] end | None => [] end else []
      | _ => []
      end
  | PIdx is_ cs rest =>
      match x with
      | Node _ (Sequence vs) => flat_map (fun i => match nth_error vs i with
          | Some v => if forallb (meets v) cs then match rest with Some q => select q v | None => [v] end else []
          | None => []
          end) is_
      | _ => []
      end
  | PAll cs rest =>
      match x with
      | Node _ (Sequence vs) => flat_map (fun v => if forallb (meets v) cs then match rest with Some q => select q v | None => [v] end else []) vs
      | _ => []
      end
  end.
