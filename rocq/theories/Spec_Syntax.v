(** Specification vocabulary: the texts that are paths, and what happens to all others. *)
From Verif Require Import Base Path Spec_Insert Spec_Path.
Import ListNotations.

Definition spaces (s : str) : Prop := forall c, In c s -> c = SP.
Definition without (bad s : str) : Prop := forall c, In c s -> ~ In c bad.

(** After the first character of a name: only spaces, or no space at the end. *)
Definition tidy (s : str) : Prop := spaces s \/ forall r, s <> r ++ [SP].

(** A name, a field or a value: it does not start with a space. *)
Definition word (bad t : str) : Prop :=
  exists c rest, t = c :: rest /\ c <> SP /\ without bad t /\ tidy rest.
(** The first name of a path may start with spaces; they protect the character after them. *)
Definition first_word (bad t : str) : Prop :=
  exists g c rest, t = g ++ c :: rest /\ spaces g /\ c <> SP /\ (g = [] -> ~ In c bad) /\ without bad rest /\ tidy rest.

Definition cond_word (c : condition) : Prop := word (lit "=") (c_field c) /\ word (lit ".|") (c_value c).

(** The steps after the first one. *)
Inductive rest_text : list step -> str -> Prop :=
| rt_nil : rest_text [] []
| rt_key k cs rest s :
    word (lit "[].|") k -> Forall cond_word cs -> no_index_next cs rest -> rest_text rest s ->
    rest_text (SKey k cs :: rest) (lit "." ++ k ++ conds_text cs ++ s)
| rt_idx ds cs rest s :
    is_dec ds -> (dec_value ds < 2 ^ 64)%N -> Forall cond_word cs -> no_index_next cs rest -> rest_text rest s ->
    rest_text (SIdx (N.to_nat (dec_value ds)) cs :: rest) (lit "[" ++ ds ++ lit "]" ++ conds_text cs ++ s)
| rt_all cs rest s :
    Forall cond_word cs -> no_index_next cs rest -> rest_text rest s ->
    rest_text (SAll cs :: rest) (lit "[*]" ++ conds_text cs ++ s).

(** The text [s] is the path [p]. *)
Inductive path_text : str -> path -> Prop :=
| pt_root cs : Forall cond_word cs -> path_text (conds_text cs) (PRoot cs)
| pt_path k cs rest s :
    first_word (lit "[].|") k -> Forall cond_word cs -> no_index_next cs rest -> rest_text rest s ->
    path_text (k ++ conds_text cs ++ s) (path_of (SKey k cs :: rest)).

(** ---- texts that the grammar accepts: spaces may stand after every punctuation mark ---- *)
Definition some_word (bad t : str) : Prop := exists c rest, t = c :: rest /\ c <> SP /\ without bad t.
Definition digit_char (c : char) : Prop := (48 <= c <= 57)%N.
Definition index_body (b : str) : Prop :=
  (exists g, b = chr "*" :: g /\ spaces g) \/
  (exists c r, b = c :: r /\ digit_char c /\ forall x, In x r -> digit_char x \/ x = SP).

Inductive loose_conds : str -> Prop :=
| lc_nil : loose_conds []
| lc_cons g f g' v s :
    spaces g -> some_word (lit "=") f -> spaces g' -> some_word (lit ".|") v -> loose_conds s ->
    loose_conds (lit "|" ++ g ++ f ++ lit "=" ++ g' ++ v ++ s).

(** [index]: an index may come first. *)
Inductive loose_rest : bool -> str -> Prop :=
| lr_nil index : loose_rest index []
| lr_key index g k c s :
    spaces g -> some_word (lit "[].|") k -> loose_conds c -> loose_rest (is_nil c) s ->
    loose_rest index (lit "." ++ g ++ k ++ c ++ s)
| lr_idx g b g' c s :
    spaces g -> index_body b -> spaces g' -> loose_conds c -> loose_rest (is_nil c) s ->
    loose_rest true (lit "[" ++ g ++ b ++ lit "]" ++ g' ++ c ++ s).

Inductive loose_path : str -> Prop :=
| lp_blank s : spaces s -> loose_path s
| lp_conds s : loose_conds s -> loose_path s
| lp_path g c rest cs s :
    spaces g -> c <> SP -> (g = [] -> ~ In c (lit "[].|")) -> without (lit "[].|") rest ->
    loose_conds cs -> loose_rest (is_nil cs) s ->
    loose_path (g ++ (c :: rest) ++ cs ++ s).

(** A bracketed number of at least 2^64. *)
Definition big_index (s : str) : Prop :=
  exists a ds b, s = a ++ lit "[" ++ ds ++ lit "]" ++ b /\ is_dec ds /\ (2 ^ 64 <= dec_value ds)%N.
