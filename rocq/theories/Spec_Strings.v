(** Specification vocabulary for the string properties (C01-C06), written without
    the model's own helpers. *)
From Verif Require Import Base Ast.
Import ListNotations.

(** Words separated by one space, lines separated by one newline. *)
Fixpoint sep_concat (sep : char) (l : list str) : str :=
  match l with
  | [] => []
  | [w] => w
  | w :: l' => w ++ sep :: sep_concat sep l'
  end.

(** A word that fits on a line of [len] bytes together with a space. *)
Definition fits_word (len : nat) (w : str) : Prop :=
  w <> [] /\ ~ In SP w /\ ~ In NL w /\ utf8_len w < len.

(** Text that folding must keep: an optional leading space, a first line with at
    least one word, further lines with any number of words (none for an empty line);
    all words fit, and words are separated by exactly one space. *)
Definition foldable_text (len : nat) (s : str) : Prop :=
  exists (lead : bool) (first : list str) (rest : list (list str)),
    first <> [] /\ Forall (Forall (fits_word len)) (first :: rest) /\
    s = (if lead then [SP] else []) ++ sep_concat NL (map (sep_concat SP) (first :: rest)).

(** The chomping indicator the writer uses for a given text. *)
Definition chomp_for (s : str) (c : chomp) : Prop :=
  (c = Keep /\ exists t, s = t ++ [NL]) \/ (c = Strip /\ ~ exists t, s = t ++ [NL]).
