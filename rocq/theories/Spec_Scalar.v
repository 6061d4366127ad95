(** Specification vocabulary for the meaning of scalars: which text a YAML reader gets from
    the characters of the file.  Written from the YAML 1.2 rules, restricted to what the
    grammar accepts; where the crate deviates a comment says so. *)
From Verif Require Import Base Ast.
Import ListNotations.

(** ---- quoted scalars ---- *)

(** A run of line breaks of which one separates the lines and the others are text.  (YAML
    turns a single line break into a space; the crate drops it.) *)
Definition breaks (n : nat) : str := repeat NL (S n).

(** [sq_means src v]: between single quotes [src] stands for [v]. *)
Inductive sq_means : str -> str -> Prop :=
| sm_end : sq_means [] []
| sm_char c s v : c <> QUOTE -> c <> NL -> sq_means s v -> sq_means (c :: s) (c :: v)
| sm_quote s v : sq_means s v -> sq_means (QUOTE :: QUOTE :: s) (QUOTE :: v)
| sm_breaks n s v : (forall r, s <> NL :: r) -> sq_means s v -> sq_means (breaks n ++ s) (repeat NL n ++ v).

(** The escapes: the character after the backslash and its meaning.  (In YAML an escaped
    line break means nothing; the crate keeps it.) *)
Inductive escape : char -> char -> Prop :=
| esc_n : escape (chr "n") NL
| esc_r : escape (chr "r") CR
| esc_t : escape (chr "t") TAB
| esc_backslash : escape BACKSLASH BACKSLASH
| esc_quote : escape DQUOTE DQUOTE
| esc_break : escape NL NL.

(** [dq_means src v]: between double quotes [src] stands for [v]. *)
Inductive dq_means : str -> str -> Prop :=
| dm_end : dq_means [] []
| dm_char c s v : c <> DQUOTE -> c <> BACKSLASH -> c <> NL -> dq_means s v -> dq_means (c :: s) (c :: v)
| dm_escape e c s v : escape e c -> dq_means s v -> dq_means (BACKSLASH :: e :: s) (c :: v)
| dm_breaks n s v : (forall r, s <> NL :: r) -> dq_means s v -> dq_means (breaks n ++ s) (repeat NL n ++ v).

(** ---- block scalars ---- *)

(** Lines, each ended by a line break; lines with line breaks between them. *)
Definition ended (ls : list str) : str := flat_map (fun l => l ++ [NL]) ls.
Fixpoint separated (ls : list str) : str :=
  match ls with
  | [] => []
  | [l] => l
  | l :: ls' => l ++ [NL] ++ separated ls'
  end.

(** The value of a literal scalar with the lines [body], the last of which is not empty,
    followed by [n] empty lines. *)
Definition literal_means (body : list str) (n : nat) (c : chomp) : str :=
  match c with
  | Strip => separated body
  | Clip => ended body
  | Keep => ended body ++ repeat NL n
  end.

(** [folds ls v]: the lines [ls], none of which starts with a space and the first and last
    of which are not empty, fold to [v]: a single line break becomes a space, before [n]
    empty lines it becomes nothing and each empty line a line break. *)
Inductive folds : list str -> str -> Prop :=
| fo_one c l : c <> SP -> folds [c :: l] (c :: l)
| fo_space c l ls v : c <> SP -> folds ls v -> folds ((c :: l) :: ls) ((c :: l) ++ SP :: v)
| fo_breaks c l n ls v :
    c <> SP -> folds ls v -> folds ((c :: l) :: repeat [] (S n) ++ ls) ((c :: l) ++ repeat NL (S n) ++ v).

Definition folded_means (v : str) (n : nat) (c : chomp) : str :=
  match c with
  | Strip => v
  | Clip => v ++ [NL]
  | Keep => v ++ repeat NL (S n)
  end.

(** ---- files with one entry ---- *)

Definition entry_file (key value : str) : str :=
  lit "---" ++ [NL] ++ key ++ lit ":" ++ value ++ [NL].
Definition entry_doc (key : str) (y : yaml) : document :=
  mkDoc [] [DYaml (Hash [HElem (mkHE key (mkA None y))])].

(** A block scalar after its key: header, chomping, and the lines indented by two. *)
Definition chomping (c : chomp) : str :=
  match c with Strip => lit "-" | Clip => [] | Keep => lit "+" end.
Definition block_source (head : string) (c : chomp) (ls : list str) : str :=
  lit " " ++ lit head ++ chomping c ++ flat_map (fun l => [NL; SP; SP] ++ l) ls.

(** The two characters CR and LF instead of LF. *)
Definition crlf (s : str) : str := flat_map (fun c => if ceqb c NL then [CR; NL] else [c]) s.
