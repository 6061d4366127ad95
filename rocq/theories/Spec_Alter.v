(** Specification vocabulary: the data after an edit at all places that any path selects. *)
From Verif Require Import Base Ast Path Spec_Insert Spec_Yaml12 Spec_Amend Spec_Gather Spec_Change.
Import ListNotations.

(** The entries change by [g] in every mapping that the path leads to and that meets the conditions
    of its last key.  The positions of a list come one after the other. *)
Fixpoint alter (g : list (node * node) -> list (node * node)) (p : path) (x : node) : node :=
  match p with
  | PKey k cs rest =>
      match x with
      | Node al (Mapping es) =>
          if forallb (meets x) cs
          then Node al (Mapping (match rest with Some q => at_entry k (fun e => [(fst e, alter g q (snd e))]) es | None => g es end))
          else x
      | _ => x
      end
  | PIdx is_ cs (Some q) =>
      match x with
      | Node al (Sequence vs) =>
          Node al (Sequence (fold_left (fun vs i => at_position i (fun v => if forallb (meets v) cs then alter g q v else v) vs) is_ vs))
      | _ => x
      end
  | PAll cs (Some q) =>
      match x with
      | Node al (Sequence vs) => Node al (Sequence (map (fun v => if forallb (meets v) cs then alter g q v else v) vs))
      | _ => x
      end
  | _ => x
  end.
