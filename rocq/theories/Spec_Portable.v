(** Specification vocabulary: trees that say the same to this crate and to YAML. *)
From Verif Require Import Base Ast Strings Spec_Yaml12.
Import ListNotations.

(** What the crate holds, as a YAML node: scalars have the value that the crate's reader
    takes from them; comments are left out. *)
Fixpoint content_of (y : yaml) : content :=
  match y with
  | Unquoted s => Scalar true s
  | SingleQ ps => Scalar false (parse_single_quoted ps)
  | DoubleQ ps => Scalar false (parse_double_quoted ps)
  | Literal ls c => Scalar false (parse_literal ls c)
  | Folded ls c => Scalar false (parse_folded ls c)
  | Anchor a => Alias a
  | InlineArray l => Sequence (map (fun x => Node None (content_of x)) l)
  | InlineHash l => Mapping (map (fun kv => match kv with (k, x) => (Node None (Scalar true k), Node None (content_of x)) end) l)
  | Array l => Sequence (flat_map (fun d => match d with
      | AElem (mkA al x) => [Node al (content_of x)]
      | _ => []
      end) l)
  | Hash l => Mapping (flat_map (fun d => match d with
      | HElem (mkHE k (mkA al x)) => [(Node None (Scalar true k), Node al (content_of x))]
      | _ => []
      end) l)
  end.
Definition node_of (a : aliased) : node := match a with mkA al x => Node al (content_of x) end.

(** ---- scalars and inline collections ---- *)

(** Quoted scalars without line breaks. *)
Definition sq_portable (p : sq_part) : Prop :=
  match p with SQ_Str s => Forall (fun c => nb_json c /\ c <> QUOTE) s | SQ_Quote => True | _ => False end.
Definition dq_portable (p : dq_part) : Prop :=
  match p with
  | DQ_Str s => Forall (fun c => nb_json c /\ c <> DQUOTE /\ c <> BACKSLASH) s
  | DQ_Esc e => e <> E_RealNewline
  | _ => False
  end.
(** Text without quotes is a plain scalar of YAML. *)
Fixpoint inline_portable (c : context) (y : yaml) : Prop :=
  match y with
  | Unquoted s => plain c s
  | SingleQ ps => Forall sq_portable ps
  | DoubleQ ps => Forall dq_portable ps
  | Anchor a => anchor_name a
  | InlineArray l => fold_right (fun x Q => inline_portable FlowIn x /\ Q) True l
  | InlineHash l => fold_right (fun kv Q => (match kv with (k, x) => plain FlowIn k /\ inline_portable FlowIn x end) /\ Q) True l
  | Hash [] | Array [] => True
  | _ => False
  end.

(** ---- block collections ---- *)

Definition is_alias (y : yaml) : Prop := match y with Anchor _ => True | _ => False end.
Definition names (al : option str) : Prop := match al with Some a => anchor_name a | None => True end.
(** On the line of its key or dash; a reference has no name of its own. *)
Definition on_line (a : aliased) : Prop :=
  match a with mkA al y => inline_portable FlowOut y /\ names al /\ (is_alias y -> al = None) end.
Definition comment_text (c : str) : Prop := Forall nb_char c.

(** A key of YAML, that does not make its line a document marker. *)
Definition key_portable (k : str) : Prop :=
  plain FlowOut k /\ length k <= 1024 /\
  forall m c r, m = lit "---" \/ m = lit "..." -> white c -> k <> m ++ c :: r.

(** Trees on lines of their own.  The lines of a folded scalar do not start with white
    space.  A comment on the line of an entry follows a value on that line. *)
Inductive portable : aliased -> Prop :=
| PLine a : on_line a -> portable a
| PLiteral al l ls c : names al -> l <> [] -> Forall (Forall nb_char) (l :: ls) -> portable (mkA al (Literal (l :: ls) c))
| PFolded al l ls c : names al -> l <> [] -> Forall (Forall nb_char) (l :: ls) ->
    Forall (fun x => match x with [] => True | d :: _ => ~ white d end) (l :: ls) -> portable (mkA al (Folded (l :: ls) c))
| PHash al l : names al -> map_rows l -> (exists e, In (HElem e) l) -> portable (mkA al (Hash l))
| PArray al l : names al -> seq_rows l -> (exists x, In (AElem x) l) -> portable (mkA al (Array l))
with map_rows : list hashdata -> Prop :=
| MR0 : map_rows []
| MRComment c l : comment_text c -> map_rows l -> map_rows (HComment c :: l)
| MREntry k a l : key_portable k -> portable a -> map_rows l -> map_rows (HElem (mkHE k a) :: l)
| MREntryC k a c l : key_portable k -> on_line a -> comment_text c -> map_rows l ->
    map_rows (HElem (mkHE k a) :: HInlineC c :: l)
with seq_rows : list arraydata -> Prop :=
| SR0 : seq_rows []
| SRComment c l : comment_text c -> seq_rows l -> seq_rows (AComment c :: l)
| SRElem a l : portable a -> seq_rows l -> seq_rows (AElem a :: l)
| SRElemC a c l : on_line a -> comment_text c -> seq_rows l -> seq_rows (AElem a :: AInlineC c :: l).

(** A document with one root: a collection on lines of its own, or a value on the line of the
    marker. *)
Inductive portable_doc : document -> yaml -> Prop :=
| PDoc cs0 cs y cs1 : Forall comment_text cs0 -> Forall comment_text cs -> Forall comment_text cs1 ->
    portable (mkA None y) -> match y with Hash (_ :: _) | Array (_ :: _) => True | _ => False end ->
    portable_doc (mkDoc cs0 (map DComment cs ++ DYaml y :: map DComment cs1)) y
| PRoot cs0 y cs1 : Forall comment_text cs0 -> Forall comment_text cs1 -> on_line (mkA None y) ->
    portable_doc (mkDoc cs0 (DYaml y :: map DComment cs1)) y.
