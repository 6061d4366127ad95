(** Model of the data types of /repo/src/path.rs. *)
From Verif Require Import Base.
Import ListNotations.

(** [Condition]: path.rs 86-90. *)
Record condition : Type := mkC { c_field : str; c_value : str }.

(** [YamlPath]: path.rs 92-98. *)
Inductive path : Type :=
| PRoot (cs : list condition)
| PKey (k : str) (cs : list condition) (rest : option path)
| PAll (cs : list condition) (rest : option path)
| PIdx (is_ : list nat) (cs : list condition) (rest : option path).

(** [YamlPath::insert]: path.rs 109-119. *)
Fixpoint path_insert (p q : path) : path :=
  match p with
  | PRoot _ => q
  | PKey k cs (Some o) => PKey k cs (Some (path_insert o q))
  | PAll cs (Some o) => PAll cs (Some (path_insert o q))
  | PIdx is_ cs (Some o) => PIdx is_ cs (Some (path_insert o q))
  | PKey k cs None => PKey k cs (Some q)
  | PAll cs None => PAll cs (Some q)
  | PIdx is_ cs None => PIdx is_ cs (Some q)
  end.

Definition opt_P (P : path -> Prop) (r : option path) : Prop :=
  match r with Some o => P o | None => True end.

Definition path_ind' (P : path -> Prop)
  (fR : forall cs, P (PRoot cs))
  (fK : forall k cs rest, opt_P P rest -> P (PKey k cs rest))
  (fA : forall cs rest, opt_P P rest -> P (PAll cs rest))
  (fI : forall is_ cs rest, opt_P P rest -> P (PIdx is_ cs rest))
  : forall p, P p :=
  fix rec (p : path) : P p :=
    match p with
    | PRoot cs => fR cs
    | PKey k cs rest =>
        fK k cs rest (match rest as r return opt_P P r with
                      | Some o => rec o | None => I end)
    | PAll cs rest =>
        fA cs rest (match rest as r return opt_P P r with
                    | Some o => rec o | None => I end)
    | PIdx is_ cs rest =>
        fI is_ cs rest (match rest as r return opt_P P r with
                        | Some o => rec o | None => I end)
    end.
