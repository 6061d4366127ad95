(** Specification vocabulary: files whose collections are indented with white space of any kind. *)
From Verif Require Import Base Ast Strings YamlGrammar Spec_Parse Spec_Format.
Import ListNotations.

(** The code points of Unicode's category Zs. *)
Definition space_separator (c : char) : Prop :=
  In c [32; 160; 5760; 8239; 8287; 12288]%N \/ (8192 <= c <= 8202)%N.

(** The value of a key: a block scalar ([>] or [|], the chomping sign, the lines), a text on the
    line of the key, or a mapping or sequence whose lines start with [v] after the indentation of
    the key. *)
Inductive wtree : Type :=
| WBlock (folded : bool) (c : chomp) (ls : list str)
| WWord (s : str)
| WMap (v : str) (l : list (str * wtree))
| WSeq (v : str) (l : list wtree).

(** The text after the colon or the dash; the line of the key starts with [w].  The lines of a block scalar
    have two spaces more. *)
Fixpoint wtext (w : str) (t : wtree) : str :=
  match t with
  | WBlock f c ls =>
      (if f then lit " >" else lit " |") ++ match c with Clip => [] | Strip => lit "-" | Keep => lit "+" end ++
      flat_map (fun l => NL :: w ++ lit "  " ++ l) ls
  | WWord s => SP :: s
  | WMap v l => flat_map (fun e => match e with (k, t) => NL :: (w ++ v) ++ k ++ lit ":" ++ wtext (w ++ v) t end) l
  | WSeq v l => flat_map (fun t => NL :: (w ++ v) ++ lit "-" ++ wtext (w ++ v) t) l
  end.
Definition white_file (t : wtree) : str := lit "---" ++ wtext [] t.

Fixpoint wnode (t : wtree) : yaml :=
  match t with
  | WBlock f c ls => (if f then Folded else Literal) ls c
  | WWord s => Unquoted s
  | WMap _ l => Hash (map (fun e => match e with (k, t) => HElem (mkHE k (mkA None (wnode t))) end) l)
  | WSeq _ l => Array (map (fun t => AElem (mkA None (wnode t))) l)
  end.

(** A collection below a key is indented further. *)
Definition deeper (t : wtree) : Prop := match t with WMap v _ | WSeq v _ => v <> [] | _ => True end.
Definition leaf (t : wtree) : Prop := match t with WBlock _ _ _ | WWord _ => True | _ => False end.
(** The lines of a block scalar have no line breaks, and the first one does not start with white
    space; the elements of a sequence are scalars. *)
Fixpoint white (ut : unitab) (t : wtree) : Prop :=
  match t with
  | WBlock _ _ ls => Forall one_line ls /\ exists c l ls', ls = (c :: l) :: ls' /\ is_ws c = false
  | WWord s => block_text ut s
  | WMap v l => (forall c, In c v -> space_separator c) /\ l <> [] /\
      fold_right (fun e Q => match e with (k, t) => plain_key ut k /\ deeper t /\ white ut t end /\ Q) True l
  | WSeq v l => (forall c, In c v -> space_separator c) /\ l <> [] /\
      fold_right (fun t Q => (leaf t /\ white ut t) /\ Q) True l
  end.
