(** Specification vocabulary for insertions whose value comes from a closure. *)
From Verif Require Import Base Ast Strings Path Spec_Insert.
Import ListNotations.

(** The values of [n] calls of the closure, one after the other, and the state afterwards. *)
Fixpoint answers {S} (h : S -> aliased * S) (n : nat) (s : S) : list aliased * S :=
  match n with
  | 0 => ([], s)
  | Datatypes.S n => let '(v, s1) := h s in let '(vs, s2) := answers h n s1 in (v :: vs, s2)
  end.

(** The mappings the steps lead to, in document order, that satisfy the conditions. *)
Definition targets (steps : list step) (cs : list condition) (y : yaml) : list yaml :=
  filter (fun v => is_block_hash v && satisfies_b v cs) (nodes steps y).

(** The value of key [k] of a mapping, if there is one. *)
Definition field (k : str) (y : yaml) : option aliased :=
  match y with Hash l => first_value k l | _ => None end.

(** What key [k] of each mapping holds after the insertion. *)
Definition filled (overwrite : bool) (k : str) (tv : yaml * aliased) : yaml :=
  match field k (fst tv) with
  | Some old => if overwrite then a_value (snd tv) else a_value old
  | None => a_value (snd tv)
  end.

(** The mappings in which something is inserted. *)
Definition inserted (overwrite : bool) (k : str) (ts : list yaml) : list yaml :=
  filter (fun t => overwrite || match field k t with Some _ => false | None => true end) ts.

(** The root nodes of a document. *)
Definition roots (d : document) : list yaml :=
  flat_map (fun x => match x with DYaml y => [y] | DComment _ => [] end) (items d).
