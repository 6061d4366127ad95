(** Specification vocabulary: what a typed reader can see of a node. *)
From Verif Require Import Base Ast Strings Format Num Spec_Pretty.
Import ListNotations.

(** What is left of a node without comments, styles and the difference between block and
    inline collections.  Alias definitions and references stay. *)
Inductive looks : Type :=
| LWord (s : str)                                    (* unquoted, and one of the special words *)
| LText (s : str)
| LMap (l : list (str * (option str * looks)))
| LSeq (l : list (option str * looks))
| LRef (n : str).

Section Look.
  Context (word : str -> bool).
  Fixpoint look (y : yaml) : looks :=
    match y with
    | Unquoted s => if word s then LWord s else LText s
    | SingleQ ps => LText (parse_single_quoted ps)
    | DoubleQ ps => LText (parse_double_quoted ps)
    | Folded ls c => LText (parse_folded ls c)
    | Literal ls c => LText (parse_literal ls c)
    | Anchor n => LRef n
    | InlineHash l => LMap (map (fun kv => match kv with (k, v) => (k, (None, look v)) end) l)
    | Hash l => LMap (flat_map (fun d => match d with HElem (mkHE k (mkA al v)) => [(k, (al, look v))] | _ => [] end) l)
    | InlineArray l => LSeq (map (fun v => (None, look v)) l)
    | Array l => LSeq (flat_map (fun d => match d with AElem (mkA al v) => [(al, look v)] | _ => [] end) l)
    end.
  (** No single-quoted scalar outside inline collections has one of the words as text. *)
  Fixpoint no_quoted (y : yaml) : Prop :=
    match y with
    | SingleQ ps => word (parse_single_quoted ps) = false
    | Hash l => fold_right (fun d P => (match d with HElem (mkHE _ (mkA _ v)) => no_quoted v | _ => True end) /\ P) True l
    | Array l => fold_right (fun d P => (match d with AElem (mkA _ v) => no_quoted v | _ => True end) /\ P) True l
    | _ => True
    end.
End Look.

(** The words a typed reader tells from the same text in quotes: the spellings of bools
    and of null. *)
Definition typed_word (s : str) : bool :=
  existsb (seqb s)
    (map lit ["true"; "True"; "TRUE"; "yes"; "Yes"; "YES"; "on"; "On"; "ON";
              "false"; "False"; "FALSE"; "no"; "No"; "NO"; "off"; "Off"; "OFF";
              "~"; "null"; "Null"; "NULL"]%string).

(** The words an untyped reader tells from the same text in quotes: null, [true], [false]
    and numbers. *)
Definition untyped_word (s : str) : bool :=
  existsb (seqb s) (map lit ["true"; "false"; "~"; "null"; "Null"; "NULL"]%string) || parse_f64_ok s.

(** The words among them that may lose their quotes. *)
Definition typed_loose (s : str) : bool :=
  existsb (seqb s)
    (map lit ["True"; "TRUE"; "yes"; "Yes"; "YES"; "on"; "On"; "ON";
              "False"; "FALSE"; "no"; "No"; "NO"; "off"; "Off"; "OFF"; "Null"; "NULL"]%string).
Definition untyped_loose (s : str) : bool :=
  existsb (seqb s) (map lit ["Null"; "NULL"]%string).

(** No references, no aliases, and mappings with distinct keys. *)
Fixpoint simple (l : looks) : Prop :=
  match l with
  | LWord _ | LText _ => True
  | LRef _ => False
  | LMap l =>
      NoDup (map fst l) /\
      fold_right (fun kv P => (match kv with (_, (al, v)) => al = None /\ simple v end) /\ P) True l
  | LSeq l => fold_right (fun v P => (match v with (al, v) => al = None /\ simple v end) /\ P) True l
  end.
