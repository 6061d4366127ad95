(** Model of the writers: [Yaml::format], [AliasedYaml::format], [Document::format]. *)
From Verif Require Import Base Ast Strings.
Import ListNotations.

(** [Parent]: /repo/src/yaml/aliased.rs 44-48. *)
Inductive parent : Type := ParHash | ParArray.

(** [indent]: /repo/src/utils.rs 1-3. *)
Definition indent (n : nat) : str := repeat_char SP n.

(** [BlockChomping::write]: /repo/src/yaml/mod.rs 750-758. *)
Definition chomp_str (c : chomp) : str :=
  match c with Clip => [] | Strip => lit "-" | Keep => lit "+" end.

(** "for (idx, x) in v.iter().enumerate()" writing into one string. *)
Section ConcatMapi.
  Context {A : Type} (f : nat -> A -> str).
  Fixpoint concat_mapi (idx : nat) (l : list A) : str :=
    match l with
    | [] => []
    | x :: l' => f idx x ++ concat_mapi (S idx) l'
    end.
End ConcatMapi.

(** Double quoted part, mod.rs 406-421. *)
Definition format_dq_part (p : dq_part) : str :=
  match p with
  | DQ_Str s => s
  | DQ_Esc e => [BACKSLASH; esc_char e]
  | DQ_Blank n => repeat_char NL (n + 1)
  | DQ_RemNl => [NL]
  end.

(** Single quoted part, mod.rs 428-443. *)
Definition format_sq_part (p : sq_part) : str :=
  match p with
  | SQ_Str s => s
  | SQ_Quote => [QUOTE; QUOTE]
  | SQ_Blank n => repeat_char NL (n + 1)
  | SQ_RemNl => [NL]
  end.

(** Block scalar lines, mod.rs 447-472 ([head] is " |" or " >").  The header is
    written with the first line, so a scalar without lines prints nothing. *)
Definition format_block_lines (head : str) (ls : list str) (c : chomp) (spaces : nat) : str :=
  concat_mapi (fun idx line =>
    (if idx =? 0 then head ++ chomp_str c ++ (if starts_with SP line then lit "2" else [])
     else [])
    ++ [NL] ++ indent spaces ++ line) 0 ls.

Definition same_line (p : option parent) (idx : nat) : bool :=
  match p with Some ParArray => idx =? 0 | _ => false end.

(** [Yaml::format]: mod.rs 308-475, together with [AliasedYaml::format]
    (aliased.rs 51-63), which is inlined at its two call sites (mod.rs 353 and 394).
    The Rust functions append to a buffer and cannot fail on a [String]; here they
    return the appended text. *)
Fixpoint format (y : yaml) (spaces : nat) (par : option parent) {struct y} : str :=
  match y with
  | InlineHash v =>
      lit " {" ++
      concat_mapi (fun idx kv =>
        match kv with
        | (k, x) => (if 0 <? idx then lit "," else []) ++ lit " " ++ k ++ lit ":" ++
                    format x 0 None
        end) 0 v
      ++ (if is_nil v then [] else lit " ") ++ lit "}"
  | Hash v =>
      if is_nil v then lit " {}"
      else concat_mapi (fun idx d =>
        match d with
        | HComment c => [NL] ++ indent spaces ++ lit "#" ++ c
        | HInlineC c => lit " #" ++ c
        | HElem e =>
            match e with
            | mkHE k a =>
                (if same_line par idx then lit " " ++ k ++ lit ":"
                 else [NL] ++ indent spaces ++ k ++ lit ":")
                ++ match a with
                   | mkA (Some al) x => lit " &" ++ al ++ format x (spaces + 2) None
                   | mkA None x => format x (spaces + 2) (Some ParHash)
                   end
            end
        end) 0 v
  | InlineArray v =>
      lit " [" ++
      concat_mapi (fun idx x => (if 0 <? idx then lit "," else []) ++ format x 0 None) 0 v
      ++ (if is_nil v then [] else lit " ") ++ lit "]"
  | Array v =>
      if is_nil v then lit " []"
      else concat_mapi (fun idx d =>
        match d with
        | AComment c => [NL] ++ indent spaces ++ lit "#" ++ c
        | AInlineC c => lit " #" ++ c
        | AElem a =>
            (if same_line par idx then lit " -" else [NL] ++ indent spaces ++ lit "-")
            ++ match a with
               | mkA (Some al) x => lit " &" ++ al ++ format x (spaces + 2) None
               | mkA None x => format x (spaces + 2) (Some ParArray)
               end
        end) 0 v
  | Unquoted s => lit " " ++ s
  | DoubleQ ps => [SP; DQUOTE] ++ flat_map format_dq_part ps ++ [DQUOTE]
  | SingleQ ps => [SP; QUOTE] ++ flat_map format_sq_part ps ++ [QUOTE]
  | Literal ls c => format_block_lines (lit " |") ls c spaces
  | Folded ls c => format_block_lines (lit " >") ls c spaces
  | Anchor a => lit " *" ++ a
  end.

(** [AliasedYaml::format]: aliased.rs 51-63. *)
Definition format_aliased (a : aliased) (spaces : nat) (par : option parent) : str :=
  match a with
  | mkA (Some al) x => lit " &" ++ al ++ format x (spaces + 2) None
  | mkA None x => format x (spaces + 2) par
  end.

(** One item of [Document::format]: document.rs 83-86. *)
Definition format_docdata (d : docdata) : str :=
  match d with
  | DComment c => [NL] ++ lit "#" ++ c
  | DYaml y => format y 0 None
  end.

(** [Document::format]: document.rs 75-89. *)
Definition format_doc (d : document) : str :=
  flat_map (fun c => lit "#" ++ c ++ [NL]) (leading d) ++ lit "---" ++
  flat_map format_docdata (items d).
