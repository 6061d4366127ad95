(** Specification vocabulary for files with Windows line endings. *)
From Verif Require Import Base Ast.
Import ListNotations.

(** The same text with CR LF at the end of every line. *)
Definition crlf (s : str) : str := flat_map (fun c => if ceqb c NL then [CR; NL] else [c]) s.
(** No double quote stands anywhere before a backslash at the end of a line. *)
Definition no_continuation (s : str) : Prop :=
  forall a b, s = a ++ BACKSLASH :: NL :: b -> ~ In DQUOTE a.

(** Parts of quoted scalars that are line breaks of the file. *)
Definition sq_break (p : sq_part) : bool := match p with SQ_Blank _ | SQ_RemNl => true | _ => false end.
Definition dq_break (p : dq_part) : bool :=
  match p with DQ_Blank _ | DQ_RemNl | DQ_Esc E_RealNewline => true | _ => false end.
(** The text of a quoted scalar as it stands in the file between the quotes. *)
Definition sq_raw (p : sq_part) : str :=
  match p with SQ_Quote => [QUOTE; QUOTE] | SQ_Str s => s | SQ_Blank n => repeat NL (S n) | SQ_RemNl => [NL] end.
Definition dq_raw (p : dq_part) : str :=
  match p with
  | DQ_Esc E_Newline => [BACKSLASH; chr "n"]
  | DQ_Esc E_RealNewline => [BACKSLASH; NL]
  | DQ_Esc E_CR => [BACKSLASH; chr "r"]
  | DQ_Esc E_Tab => [BACKSLASH; chr "t"]
  | DQ_Esc E_Backslash => [BACKSLASH; BACKSLASH]
  | DQ_Esc E_Quote => [BACKSLASH; DQUOTE]
  | DQ_Str s => s
  | DQ_Blank n => repeat NL (S n)
  | DQ_RemNl => [NL]
  end.
Definition drop_cr (s : str) : str := filter (fun c => negb (ceqb c CR)) s.
(** Consecutive empty lines count as one. *)
Definition onto (l : str) (r : list str) : list str := match l, r with [], [] :: _ => r | _, _ => l :: r end.
Definition squeeze (ls : list str) : list str := fold_right onto [] ls.

(** The tree with consecutive empty lines of block scalars counted as one, and quoted scalars
    that span lines replaced by their text without CR. *)
Fixpoint blur (y : yaml) : yaml :=
  match y with
  | InlineHash l => InlineHash (map (fun kv => match kv with (k, v) => (k, blur v) end) l)
  | Hash l => Hash (map (fun d => match d with
                                  | HElem (mkHE k (mkA a v)) => HElem (mkHE k (mkA a (blur v)))
                                  | d => d
                                  end) l)
  | InlineArray l => InlineArray (map blur l)
  | Array l => Array (map (fun d => match d with
                                    | AElem (mkA a v) => AElem (mkA a (blur v))
                                    | d => d
                                    end) l)
  | SingleQ ps => if existsb sq_break ps then SingleQ [SQ_RemNl; SQ_Str (drop_cr (concat (map sq_raw ps)))] else SingleQ ps
  | DoubleQ ps => if existsb dq_break ps then DoubleQ [DQ_RemNl; DQ_Str (drop_cr (concat (map dq_raw ps)))] else DoubleQ ps
  | Folded ls c => Folded (squeeze ls) c
  | Literal ls c => Literal (squeeze ls) c
  | y => y
  end.
Definition blur_doc (d : document) : document :=
  mkDoc (leading d) (map (fun i => match i with DYaml y => DYaml (blur y) | i => i end) (items d)).

(** No quoted scalar spans lines and no block scalar has an empty line. *)
Definition filled (l : str) : bool := match l with [] => false | _ => true end.
Fixpoint crisp (y : yaml) : bool :=
  match y with
  | InlineHash l => forallb (fun kv => match kv with (_, v) => crisp v end) l
  | Hash l => forallb (fun d => match d with HElem (mkHE _ (mkA _ v)) => crisp v | _ => true end) l
  | InlineArray l => forallb crisp l
  | Array l => forallb (fun d => match d with AElem (mkA _ v) => crisp v | _ => true end) l
  | SingleQ ps => negb (existsb sq_break ps)
  | DoubleQ ps => negb (existsb dq_break ps)
  | Folded ls _ | Literal ls _ => forallb filled ls
  | _ => true
  end.
Definition crisp_doc (d : document) : bool :=
  forallb (fun i => match i with DYaml y => crisp y | _ => true end) (items d).
