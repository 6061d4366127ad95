(** Specification vocabulary for what an edit does to the text of a file. *)
From Verif Require Import Base Ast Strings Format.
Import ListNotations.

(** [n] steps of a relation. *)
Inductive times {A} (R : A -> A -> Prop) : nat -> A -> A -> Prop :=
| t_none x : times R 0 x x
| t_step n x y z : R x y -> times R n y z -> times R (S n) x z.

(** One piece of a text is replaced by another and nothing else changes.  [E o o' b]: the
    piece [o], which is followed by [b], may become [o']. *)
Definition patch (E : str -> str -> str -> Prop) (s s' : str) : Prop :=
  exists a o o' b, s = a ++ o ++ b /\ s' = a ++ o' ++ b /\ E o o' b.

(** The text ends here, or the line does. *)
Definition line_end (b : str) : Prop := b = [] \/ exists r, b = NL :: r.

(** The text of an entry that starts in column [i]. *)
Definition entry_at (i : nat) (k : str) (a : aliased) : str := k ++ lit ":" ++ format_aliased a i (Some ParHash).

(** What precedes an entry that starts in column [i]: a line break and the indentation, or
    the space after a dash. *)
Definition lead (i : nat) (t : str) : Prop := t = NL :: indent i \/ t = [SP].

(** An entry is added, possibly in the place of the braces of an empty mapping. *)
Definition entry_added (k : str) (h : aliased) (o o' b : str) : Prop :=
  exists i t, lead i t /\ o' = t ++ entry_at i k h /\ (o = [] \/ o = lit " {}").

(** A whole line (or, if the value has several, whole lines) is added between two lines. *)
Definition lines_added (k : str) (h : aliased) (o o' b : str) : Prop :=
  o = [] /\ line_end b /\ exists i, o' = NL :: indent i ++ entry_at i k h.

(** The value of an entry is replaced. *)
Definition value_replaced (k : str) (h : aliased) (o o' b : str) : Prop :=
  exists i old, o = entry_at i k old /\ o' = entry_at i k h.

(** The key of an entry is replaced. *)
Definition key_replaced (k new : str) (o o' b : str) : Prop := o = k ++ lit ":" /\ o' = new ++ lit ":".

(** An entry is removed; the braces of an empty mapping may take its place; the next entry
    may take its place on the line of a dash. *)
Definition entry_removed (k : str) (o o' b : str) : Prop :=
  exists i v,
    (exists t, lead i t /\ o = t ++ entry_at i k v /\ (o' = [] \/ o' = lit " {}"))
    \/ o = entry_at i k v ++ NL :: indent i /\ o' = [].

(** The value of an entry moves under a new key, two columns to the right. *)
Definition value_nested (k new : str) (o o' b : str) : Prop :=
  exists i v, o = entry_at i k v /\ o' = k ++ lit ":" ++ NL :: indent (i + 2) ++ entry_at (i + 2) new v.

(** ---- lines ---- *)

(** [before] is [after] without some of its items. *)
Inductive sublist {A} : list A -> list A -> Prop :=
| sl_nil : sublist [] []
| sl_keep x l l' : sublist l l' -> sublist (x :: l) (x :: l')
| sl_new x l l' : sublist l l' -> sublist l (x :: l').

(** Block collections. *)
Definition block_kind (y : yaml) : Prop := match y with Hash _ | Array _ => True | _ => False end.

(** No comment stands on the last line of a block collection. *)
Fixpoint hash_tidy (l : list hashdata) : Prop :=
  match l with
  | HElem e :: l' => ((exists c r, l' = HInlineC c :: r) -> ~ block_kind (a_value (he_value e))) /\ hash_tidy l'
  | _ :: l' => hash_tidy l'
  | [] => True
  end.
Fixpoint array_tidy (l : list arraydata) : Prop :=
  match l with
  | AElem a :: l' => ((exists c r, l' = AInlineC c :: r) -> ~ block_kind (a_value a)) /\ array_tidy l'
  | _ :: l' => array_tidy l'
  | [] => True
  end.

(** Moreover mappings are not empty and no block collection is inside an inline one. *)
Definition tidy (y : yaml) : Prop :=
  match y with
  | Hash l => l <> [] /\ hash_tidy l
  | Array l => array_tidy l
  | InlineArray l => forall v, In v l -> ~ block_kind v
  | _ => True
  end.
