(** Specification vocabulary for parsed documents. *)
From Verif Require Import Base Ast YamlGrammar.
Import ListNotations.

(** [P] holds at every node of the tree. *)
Fixpoint everywhere (P : yaml -> Prop) (y : yaml) : Prop :=
  P y /\
  match y with
  | InlineHash l => fold_right (fun kv Q => (match kv with (_, v) => everywhere P v end) /\ Q) True l
  | Hash l => fold_right (fun d Q => (match d with HElem (mkHE _ (mkA _ v)) => everywhere P v | _ => True end) /\ Q) True l
  | InlineArray l => fold_right (fun v Q => everywhere P v /\ Q) True l
  | Array l => fold_right (fun d Q => (match d with AElem (mkA _ v) => everywhere P v | _ => True end) /\ Q) True l
  | _ => True
  end.

Definition doc_everywhere (P : yaml -> Prop) (d : document) : Prop :=
  forall y, In (DYaml y) (items d) -> everywhere P y.

(** Characters of names: letters, numbers and the underscore. *)
Definition name_char (ut : unitab) (c : char) : Prop :=
  is_letter ut c = true \/ is_number ut c = true \/ c = chr "_".

(** A plain mapping key. *)
Definition plain_key (ut : unitab) (k : str) : Prop :=
  (exists c r, k = c :: r /\ name_char ut c)
  /\ (forall c, In c k -> name_char ut c \/ c = chr "-" \/ c = SP)
  /\ (forall r, k <> r ++ [SP]).

(** An alias or anchor name. *)
Definition alias_ok (ut : unitab) (s : str) : Prop := s <> [] /\ forall c, In c s -> name_char ut c.

(** Text on one line. *)
Definition one_line (s : str) : Prop := ~ In NL s /\ ~ In CR s.

(** The two characters follow each other in the text. *)
Definition has_pair (a b : char) (s : str) : Prop := exists u v, s = u ++ a :: b :: v.

(** Text of an unquoted scalar. *)
Definition unquoted_text (s : str) : Prop :=
  one_line s /\ ~ In (chr "#") s /\ ~ has_pair (chr ":") SP s /\ (forall r, s <> r ++ [SP]).

(** Nodes that can stand inside an inline collection. *)
Definition inline_kind (y : yaml) : Prop :=
  match y with Hash _ | Array _ | Folded _ _ | Literal _ _ => False | _ => True end.

(** Keys are plain (one node). *)
Definition keys_plain (ut : unitab) (y : yaml) : Prop :=
  match y with
  | Hash l => forall e, In (HElem e) l -> plain_key ut (he_key e)
  | InlineHash l => forall k v, In (k, v) l -> plain_key ut k
  | _ => True
  end.

(** Inline collections hold inline nodes; unquoted scalars are well formed (one node). *)
Definition inline_ok (y : yaml) : Prop :=
  match y with
  | InlineHash l => forall k v, In (k, v) l -> inline_kind v
  | InlineArray l => forall v, In v l -> inline_kind v
  | Unquoted s => unquoted_text s
  | _ => True
  end.

(** Parts of quoted scalars. *)
Definition sq_ok (p : sq_part) : Prop :=
  match p with
  | SQ_Str s => s <> [] /\ ~ In QUOTE s /\ ~ In NL s
  | SQ_Blank n => 1 <= n
  | _ => True
  end.
Definition dq_ok (p : dq_part) : Prop :=
  match p with
  | DQ_Str s => s <> [] /\ ~ In DQUOTE s /\ ~ In BACKSLASH s /\ ~ In NL s
  | DQ_Blank n => 1 <= n
  | _ => True
  end.

(** The node is one that can be written down as YAML (one node): collections have an
    element, aliases and references are names, comments and lines of block scalars are
    on one line, quoted scalars have their special characters escaped. *)
Definition writable (ut : unitab) (y : yaml) : Prop :=
  match y with
  | Hash l =>
      (exists e, In (HElem e) l)
      /\ (forall e a, In (HElem e) l -> a_alias (he_value e) = Some a -> alias_ok ut a)
      /\ (forall c, In (HComment c) l \/ In (HInlineC c) l -> one_line c)
  | Array l =>
      (exists x, In (AElem x) l)
      /\ (forall x a, In (AElem x) l -> a_alias x = Some a -> alias_ok ut a)
      /\ (forall c, In (AComment c) l \/ In (AInlineC c) l -> one_line c)
  | SingleQ ps => Forall sq_ok ps
  | DoubleQ ps => Forall dq_ok ps
  | Folded ls _ | Literal ls _ => ls <> [] /\ Forall one_line ls
  | Anchor s => alias_ok ut s
  | _ => True
  end.

(** The text has a character that can start a block scalar. *)
Definition has_block_sign (s : str) : Prop := In (chr "|") s \/ In (chr ">") s.
