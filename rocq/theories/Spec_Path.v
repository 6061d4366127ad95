(** Specification vocabulary for the path syntax. *)
From Verif Require Import Base Path Spec_Insert.
Import ListNotations.

(** Text that does not begin or end with a space and has none of the characters in
    [bad]. *)
Definition plain (bad : str) (t : str) : Prop :=
  t <> [] /\ (forall c, In c t -> ~ In c bad) /\
  (forall r, t <> SP :: r) /\ (forall r, t <> r ++ [SP]).

(** A decimal number text and its value. *)
Definition digit_value (c : char) : N := (c - 48)%N.
Definition dec_value (ds : str) : N := fold_left (fun a c => (10 * a + digit_value c)%N) ds 0%N.
Definition is_dec (ds : str) : Prop := ds <> [] /\ forall c, In c ds -> (48 <= c <= 57)%N.

(** "|field=value" for each condition. *)
Definition cond_ok (c : condition) : Prop :=
  plain (lit "=") (c_field c) /\ plain (lit ".|") (c_value c).
Definition cond_text (c : condition) : str := lit "|" ++ c_field c ++ lit "=" ++ c_value c.
Definition conds_text (cs : list condition) : str := flat_map cond_text cs.

(** An index does not follow a condition: its bracket would be read as part of the value. *)
Definition no_index_next (cs : list condition) (rest : list step) : Prop :=
  match cs, rest with
  | _ :: _, (SIdx _ _ | SAll _) :: _ => False
  | _, _ => True
  end.

(** [writes_rest steps s]: [s] is a text for the steps after the first one. *)
Inductive writes_rest : list step -> str -> Prop :=
| wr_nil : writes_rest [] []
| wr_key k cs rest s :
    plain (lit "[].|") k -> Forall cond_ok cs -> no_index_next cs rest -> writes_rest rest s ->
    writes_rest (SKey k cs :: rest) (lit "." ++ k ++ conds_text cs ++ s)
| wr_idx ds cs rest s :
    is_dec ds -> (dec_value ds < 2 ^ 64)%N -> Forall cond_ok cs -> no_index_next cs rest ->
    writes_rest rest s ->
    writes_rest (SIdx (N.to_nat (dec_value ds)) cs :: rest) (lit "[" ++ ds ++ lit "]" ++ conds_text cs ++ s)
| wr_all cs rest s :
    Forall cond_ok cs -> no_index_next cs rest -> writes_rest rest s ->
    writes_rest (SAll cs :: rest) (lit "[*]" ++ conds_text cs ++ s).

(** A path starts with a key. *)
Inductive writes : list step -> str -> Prop :=
| w_path k cs rest s :
    plain (lit "[].|") k -> Forall cond_ok cs -> no_index_next cs rest -> writes_rest rest s ->
    writes (SKey k cs :: rest) (k ++ conds_text cs ++ s).
