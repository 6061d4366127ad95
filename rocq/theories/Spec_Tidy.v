(** Specification vocabulary: what pretty printing must leave alone for readers of YAML 1.2. *)
From Verif Require Import Base Ast Strings Ser Spec_Strings Spec_Ser Spec_Yaml12 Spec_Portable Spec_Core Spec_Export.
Import ListNotations.

(** The same data: a plain scalar can be quoted and a quoted one can become plain if the core
    schema takes it for text. *)
Inductive alike : content -> content -> Prop :=
| KScalar p q s : p = q \/ core s (MText s) -> alike (Scalar p s) (Scalar q s)
| KAlias a : alike (Alias a) (Alias a)
| KSequence l m : alikes l m -> alike (Sequence l) (Sequence m)
| KMapping l m : alike_pairs l m -> alike (Mapping l) (Mapping m)
with alikes : list node -> list node -> Prop :=
| KNil : alikes [] []
| KCons al c d l m : alike c d -> alikes l m -> alikes (Node al c :: l) (Node al d :: m)
with alike_pairs : list (node * node) -> list (node * node) -> Prop :=
| KNone : alike_pairs [] []
| KPair k al c d l m : alike c d -> alike_pairs l m -> alike_pairs ((k, Node al c) :: l) ((k, Node al d) :: m).

(** A long text that is folded: words with single spaces between them. *)
Definition folds (s : str) : Prop :=
  exists ws, ws <> [] /\ Forall (fits_word 90) ws /\ s = sep_concat SP ws /\ Forall (fun c => nb_char c /\ c <> TAB) s.
(** A text that is written as lines. *)
Definition in_lines (s : str) : Prop :=
  Forall (fun c => nb_char c \/ c = NL) s /\ s <> [] /\ forall r, s <> NL :: r.
Definition escaped (ps : list dq_part) : Prop := exists e, In (DQ_Esc e) ps.

(** Quoted scalars that lose their quotes are plain and text for YAML, those that become block
    scalars can be one. *)
Definition gentle_scalar (y : yaml) : Prop :=
  match y with
  | SingleQ ps =>
      let s := parse_single_quoted ps in
      if utf8_len s <=? 90 then plain_text s -> plain FlowOut s /\ core s (MText s) else folds s
  | DoubleQ ps =>
      let s := parse_double_quoted ps in
      (escaped ps -> in_lines s) /\ (~ escaped ps -> 90 < utf8_len s -> folds s)
  | _ => True
  end.
(** Not made a block scalar. *)
Definition stays (y : yaml) : Prop :=
  match y with
  | SingleQ ps => utf8_len (parse_single_quoted ps) <= 90
  | DoubleQ ps => ~ escaped ps /\ utf8_len (parse_double_quoted ps) <= 90
  | _ => True
  end.
Definition flow_ready (y : yaml) : Prop := match y with Unquoted s => plain FlowIn s | _ => True end.

(** [child]: an element of a sequence.  In a sequence that is one, texts without quotes are fine
    for inline collections.  A value with a comment on its line stays on the line. *)
Fixpoint gentle (child : bool) (y : yaml) : Prop :=
  match y with
  | Hash l =>
      fold_right (fun d Q => match d with HElem (mkHE _ (mkA _ x)) => gentle false x | _ => True end /\ Q) True l /\
      (forall p k al x c r, l = p ++ HElem (mkHE k (mkA al x)) :: HInlineC c :: r -> stays x)
  | Array l =>
      fold_right (fun d Q => match d with
                             | AElem (mkA _ x) => gentle true x /\ (child = true -> flow_ready x)
                             | _ => True
                             end /\ Q) True l /\
      (forall p al x c r, l = p ++ AElem (mkA al x) :: AInlineC c :: r -> stays x)
  | _ => gentle_scalar y
  end.

(** ---- serialized values ---- *)

(** A text that is written with quotes and becomes a block scalar can be one. *)
Definition broken (s : str) : Prop := In NL s \/ In CR s \/ (apostrophes s /\ In BACKSLASH s).
Definition tidy_text (s : str) : Prop :=
  ~ plain_text s -> (broken s -> in_lines s) /\ (~ broken s -> 90 < utf8_len s -> folds s).
Fixpoint tidy (v : sval) : Prop :=
  match v with
  | SChar c => tidy_text [c]
  | SStr s | SUnitV s => tidy_text s
  | SSome v | SNewtype v | SNewV _ v => tidy v
  | SSeq l => fold_right (fun v Q => tidy v /\ Q) True l
  | SMap l => fold_right (fun kv Q => match kv with (_, v) => tidy v end /\ Q) True l
  | SStruct l | SStructV _ l => fold_right (fun kv Q => match kv with (_, v) => tidy v end /\ Q) True l
  | _ => True
  end.

(** ---- data that is not left alone ---- *)

(** The file is YAML before and after, and the data differs. *)
Definition differs (before after : str) : Prop :=
  exists n x m z, yaml_file n (before ++ [NL]) /\ resolved n x /\ yaml_file m (after ++ [NL]) /\ resolved m z /\ x <> z.
