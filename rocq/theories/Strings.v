(** Model of /repo/src/yaml/string.rs and /repo/src/yaml/types.rs. *)
From Verif Require Import Base Ast.
Import ListNotations.

(** [handle_ending_newlines]: string.rs 4-18. *)
Definition handle_ending_newlines (s : str) (c : chomp) : str :=
  match c with
  | Keep => s ++ [NL]
  | Clip => trim_end NL s ++ [NL]
  | Strip => trim_end NL s
  end.

(** [parse_literal]: string.rs 21-24. *)
Definition parse_literal (lines : list str) (c : chomp) : str :=
  handle_ending_newlines (join [NL] lines) c.

(** The "pop the last line when it is empty" step used by [create_literal]
    (string.rs 32-34) and twice by [create_folded] (string.rs 113-114). *)
Fixpoint pop_if_empty (l : list str) : list str :=
  match l with
  | [] => []
  | [[]] => []
  | x :: l' => x :: pop_if_empty l'
  end.

(** [create_literal]: string.rs 29-37. *)
Definition create_literal (s : str) : list str :=
  let lines := split NL s in
  if ends_with NL s then pop_if_empty lines else lines.

(** Loop body of [parse_folded]: string.rs 49-71; state is the text so far and
    whether the previous line was empty (or indented). *)
Definition fold_step (st : str * bool) (el : str) : str * bool :=
  let '(s, prev_was_empty) := st in
  if is_nil el then (s ++ [NL], true)
  else if starts_with SP el then (s ++ [NL] ++ el ++ [NL], true)
  else ((if prev_was_empty then s else s ++ [SP]) ++ el, false).

(** [parse_folded]: string.rs 40-74. *)
Definition parse_folded (lines : list str) (c : chomp) : str :=
  match lines with
  | [] => []
  | start :: rest => handle_ending_newlines (fst (fold_left fold_step rest (start, false))) c
  end.

(** Loop of [split_on_length]: string.rs 80-91; state: pushed lines, current
    line, [first] flag.  Lengths are byte lengths. *)
Definition sol_step (len : nat) (st : list str * str * bool) (word : str)
  : list str * str * bool :=
  let '(result, s, first) := st in
  if len <? utf8_len s + utf8_len word + 1 then (result ++ [s], word, first)
  else (result, (if first then s else s ++ [SP]) ++ word, false).

(** [split_on_length]: string.rs 76-96. *)
Definition split_on_length (input : str) (len : nat) : list str :=
  let '(result, s, _) := fold_left (sol_step len) (split SP input) ([], [], true) in
  if is_nil s then result else result ++ [s].

(** [create_folded]: string.rs 102-117. *)
Definition create_folded (s : str) (len : nat) : list str :=
  let lines := flat_map (fun x => split_on_length x len ++ [[]]) (split NL s) in
  if ends_with NL s then pop_if_empty (pop_if_empty lines) else lines.

(** One part of [parse_single_quoted_string]: string.rs 143-152. *)
Definition sq_part_str (p : sq_part) : str :=
  match p with
  | SQ_Str s => s
  | SQ_Quote => [QUOTE]
  | SQ_Blank n => repeat_char NL n
  | SQ_RemNl => []
  end.

(** [parse_single_quoted_string]: string.rs 140-155. *)
Definition parse_single_quoted (ps : list sq_part) : str := flat_map sq_part_str ps.

(** [DoubleQuotedStringEscapedChar::char]: string.rs 176-185. *)
Definition esc_char (e : dq_esc) : char :=
  match e with
  | E_Quote => DQUOTE
  | E_Backslash => BACKSLASH
  | E_Tab => chr "t"
  | E_CR => chr "r"
  | E_Newline => chr "n"
  | E_RealNewline => NL
  end.

(** [DoubleQuotedStringEscapedChar::real_char]: string.rs 186-195. *)
Definition esc_real_char (e : dq_esc) : char :=
  match e with
  | E_Quote => DQUOTE
  | E_Backslash => BACKSLASH
  | E_Tab => TAB
  | E_CR => CR
  | E_Newline => NL
  | E_RealNewline => NL
  end.

(** One part of [parse_double_quoted_string]: string.rs 201-210. *)
Definition dq_part_str (p : dq_part) : str :=
  match p with
  | DQ_Str s => s
  | DQ_Esc e => [esc_real_char e]
  | DQ_Blank n => repeat_char NL n
  | DQ_RemNl => []
  end.

(** [parse_double_quoted_string]: string.rs 198-213. *)
Definition parse_double_quoted (ps : list dq_part) : str := flat_map dq_part_str ps.

(** [YamlTypes for Yaml]::as_string: types.rs 10-26 (and, through the value field,
    [YamlTypes for AliasedYaml], aliased.rs 22-26). *)
Definition as_string (y : yaml) : option str :=
  match y with
  | Unquoted s => Some s
  | SingleQ ps => Some (parse_single_quoted ps)
  | DoubleQ ps => Some (parse_double_quoted ps)
  | Folded ls c => Some (parse_folded ls c)
  | Literal ls c => Some (parse_literal ls c)
  | _ => None
  end.
