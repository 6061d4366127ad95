(** Specification vocabulary for the pretty printer, the mapper and the visitor. *)
From Verif Require Import Base Ast Strings Spec_Strings.
From Coq Require Import Sorted.
Import ListNotations.

(** The data of a tree: what a reader of the YAML sees, without styles, comments and
    alias definitions. *)
Inductive data : Type :=
| DMap (l : list (str * data))
| DSeq (l : list data)
| DStr (s : str)
| DRef (name : str).

Definition str_data (o : option str) : data := match o with Some s => DStr s | None => DStr [] end.

Fixpoint view (y : yaml) : data :=
  match y with
  | InlineHash l => DMap (map (fun kv => match kv with (k, v) => (k, view v) end) l)
  | Hash l => DMap (flat_map (fun d => match d with HElem (mkHE k (mkA _ v)) => [(k, view v)] | _ => [] end) l)
  | InlineArray l => DSeq (map view l)
  | Array l => DSeq (flat_map (fun d => match d with AElem (mkA _ v) => [view v] | _ => [] end) l)
  | Anchor s => DRef s
  | SingleQ _ | DoubleQ _ | Unquoted _ | Folded _ _ | Literal _ _ => str_data (as_string y)
  end.

Definition has_blank (ps : list sq_part) : bool :=
  existsb (fun p => match p with SQ_Blank _ => true | _ => false end) ps.
Definition has_escape (ps : list dq_part) : bool :=
  existsb (fun p => match p with DQ_Esc _ => true | _ => false end) ps.

(** Long quoted strings in block position that will be folded are foldable;
    [inl]: inside an inline collection. *)
Fixpoint long_ok (inl : bool) (y : yaml) : Prop :=
  match y with
  | InlineHash l => fold_right (fun kv P => (match kv with (_, v) => long_ok true v end) /\ P) True l
  | Hash l => fold_right (fun d P => (match d with HElem (mkHE _ (mkA _ v)) => long_ok inl v | _ => True end) /\ P) True l
  | InlineArray l => fold_right (fun v P => long_ok true v /\ P) True l
  | Array l => fold_right (fun d P => (match d with AElem (mkA _ v) => long_ok inl v | _ => True end) /\ P) True l
  | SingleQ ps => inl = false -> has_blank ps = false -> 90 < utf8_len (parse_single_quoted ps) ->
                  foldable_text 90 (parse_single_quoted ps)
  | DoubleQ ps => inl = false -> has_escape ps = false -> 90 < utf8_len (parse_double_quoted ps) ->
                  foldable_text 90 (parse_double_quoted ps)
  | _ => True
  end.

(** All comments, in document order. *)
Fixpoint comments (y : yaml) : list str :=
  match y with
  | InlineHash l => flat_map (fun kv => match kv with (_, v) => comments v end) l
  | Hash l => flat_map (fun d => match d with HElem (mkHE _ (mkA _ v)) => comments v | HComment c | HInlineC c => [c] end) l
  | InlineArray l => flat_map comments l
  | Array l => flat_map (fun d => match d with AElem (mkA _ v) => comments v | AComment c | AInlineC c => [c] end) l
  | _ => []
  end.

Definition opt_list {X} (o : option X) : list X := match o with Some x => [x] | None => [] end.

(** All alias definitions ([&name]), in document order. *)
Fixpoint alias_names (y : yaml) : list str :=
  match y with
  | InlineHash l => flat_map (fun kv => match kv with (_, v) => alias_names v end) l
  | Hash l => flat_map (fun d => match d with HElem (mkHE _ (mkA al v)) => opt_list al ++ alias_names v | _ => [] end) l
  | InlineArray l => flat_map alias_names l
  | Array l => flat_map (fun d => match d with AElem (mkA al v) => opt_list al ++ alias_names v | _ => [] end) l
  | _ => []
  end.

(** Everything but the scalars, in the order of the text: keys, dashes, aliases, comments
    on their own line, comments at the end of a line. *)
Inductive mark : Type :=
| MOpen | MClose
| MKey (k : str) | MDash
| MAlias (a : str)
| MOwnLine (c : str) | MEndOfLine (c : str)
| MScalar.
Fixpoint marks (y : yaml) : list mark :=
  match y with
  | InlineHash l =>
      MOpen :: flat_map (fun kv => match kv with (k, v) => MKey k :: marks v end) l ++ [MClose]
  | Hash l =>
      MOpen :: flat_map (fun d => match d with
                                  | HElem (mkHE k (mkA al v)) => MKey k :: map MAlias (opt_list al) ++ marks v
                                  | HComment c => [MOwnLine c]
                                  | HInlineC c => [MEndOfLine c]
                                  end) l ++ [MClose]
  | InlineArray l => MOpen :: flat_map (fun v => MDash :: marks v) l ++ [MClose]
  | Array l =>
      MOpen :: flat_map (fun d => match d with
                                  | AElem (mkA al v) => MDash :: map MAlias (opt_list al) ++ marks v
                                  | AComment c => [MOwnLine c]
                                  | AInlineC c => [MEndOfLine c]
                                  end) l ++ [MClose]
  | _ => [MScalar]
  end.

(** Inline collections hold no block collections; [inl]: inside an inline collection. *)
Fixpoint inline_no_block (inl : bool) (y : yaml) : bool :=
  match y with
  | InlineHash l => forallb (fun kv => match kv with (_, v) => inline_no_block true v end) l
  | Hash l => negb inl && forallb (fun d => match d with HElem (mkHE _ (mkA _ v)) => inline_no_block false v | _ => true end) l
  | InlineArray l => forallb (inline_no_block true) l
  | Array l => negb inl && forallb (fun d => match d with AElem (mkA _ v) => inline_no_block false v | _ => true end) l
  | _ => true
  end.

(** Characters that end or break a plain scalar inside an inline collection. *)
Definition breaking (s : str) : Prop :=
  exists c, In c s /\ In c (lit ",[]{}"">|").

(** No unquoted scalar with such a character is a direct element of a block sequence
    that is itself a direct element of a block sequence.
    [child]: direct element of a block sequence; [nested]: that sequence is one too. *)
Fixpoint stable (child nested : bool) (y : yaml) : Prop :=
  match y with
  | Unquoted s => nested = true -> ~ breaking s
  | Hash l => fold_right (fun d P => (match d with HElem (mkHE _ (mkA _ v)) => stable false false v | _ => True end) /\ P) True l
  | Array l => fold_right (fun d P => (match d with AElem (mkA _ v) => stable true child v | _ => True end) /\ P) True l
  | _ => True
  end.

(** Inside inline collections there is no block scalar and no single-quoted string
    with blank lines (block collections are allowed). *)
Fixpoint inline_scalars_ok (inl : bool) (y : yaml) : bool :=
  match y with
  | InlineHash l => forallb (fun kv => match kv with (_, v) => inline_scalars_ok true v end) l
  | Hash l => forallb (fun d => match d with HElem (mkHE _ (mkA _ v)) => inline_scalars_ok inl v | _ => true end) l
  | InlineArray l => forallb (inline_scalars_ok true) l
  | Array l => forallb (fun d => match d with AElem (mkA _ v) => inline_scalars_ok inl v | _ => true end) l
  | SingleQ ps => negb (inl && has_blank ps)
  | Folded _ _ | Literal _ _ => negb inl
  | _ => true
  end.

(** Inside inline collections there is nothing of block style. *)
Fixpoint inline_clean (inl : bool) (y : yaml) : bool :=
  match y with
  | InlineHash l => forallb (fun kv => match kv with (_, v) => inline_clean true v end) l
  | Hash l => negb inl && forallb (fun d => match d with HElem (mkHE _ (mkA _ v)) => inline_clean inl v | _ => true end) l
  | InlineArray l => forallb (inline_clean true) l
  | Array l => negb inl && forallb (fun d => match d with AElem (mkA _ v) => inline_clean inl v | _ => true end) l
  | Folded _ _ | Literal _ _ => negb inl
  | _ => true
  end.

(** Styles that can stand on one line inside an inline collection. *)
Inductive one_line_style : yaml -> Prop :=
| ols_unquoted s : one_line_style (Unquoted s)
| ols_single ps : one_line_style (SingleQ ps)
| ols_double ps : one_line_style (DoubleQ ps)
| ols_array l : one_line_style (InlineArray l)
| ols_hash l : one_line_style (InlineHash l).

(** ---- addresses: a node is found by following child positions ---- *)

(** The [i]-th child: its value, and the aliased value it sits in when the parent is a
    block collection. *)
Definition child (i : nat) (y : yaml) : option (option aliased * yaml) :=
  match y with
  | Hash l => match nth_error l i with
              | Some (HElem e) => Some (Some (he_value e), a_value (he_value e))
              | _ => None
              end
  | Array l => match nth_error l i with
               | Some (AElem a) => Some (Some a, a_value a)
               | _ => None
               end
  | InlineHash l => option_map (fun kv => (None, snd kv)) (nth_error l i)
  | InlineArray l => option_map (fun v => (None, v)) (nth_error l i)
  | _ => None
  end.

Fixpoint node_at (addr : list nat) (y : yaml) : option yaml :=
  match addr with
  | [] => Some y
  | i :: r => match child i y with Some (_, v) => node_at r v | None => None end
  end.

Fixpoint aliased_at (addr : list nat) (y : yaml) : option aliased :=
  match addr with
  | [] => None
  | [i] => match child i y with Some (Some a, _) => Some a | _ => None end
  | i :: r => match child i y with Some (_, v) => aliased_at r v | None => None end
  end.

(** Document order: parents before children, earlier siblings first. *)
Fixpoint before (a b : list nat) : Prop :=
  match a, b with
  | [], [] => False
  | [], _ :: _ => True
  | _ :: _, [] => False
  | i :: a', j :: b' => i < j \/ (i = j /\ before a' b')
  end.

(** Children before parents, earlier siblings first. *)
Fixpoint before_post (a b : list nat) : Prop :=
  match a, b with
  | [], _ => False
  | _ :: _, [] => True
  | i :: a', j :: b' => i < j \/ (i = j /\ before_post a' b')
  end.

(** [out] is the list of values [at] takes on its domain, in the order [lt] of addresses. *)
Definition enumerates {X} (lt : list nat -> list nat -> Prop) (f : list nat -> option X)
    (addrs : list (list nat)) (out : list X) : Prop :=
  StronglySorted lt addrs /\ (forall a, In a addrs <-> f a <> None) /\
  map f addrs = map Some out.

(** Map with positions. *)
Fixpoint imap {A B} (f : nat -> A -> B) (n : nat) (l : list A) : list B :=
  match l with [] => [] | x :: r => f n x :: imap f (S n) r end.

(** The node with its [i]-th child replaced by [r i]; keys, aliases and comments stay. *)
Definition with_children (r : nat -> yaml) (y : yaml) : yaml :=
  match y with
  | Hash l => Hash (imap (fun i d => match d with
                                  | HElem (mkHE k (mkA al _)) => HElem (mkHE k (mkA al (r i)))
                                  | d => d
                                  end) 0 l)
  | Array l => Array (imap (fun i d => match d with
                                    | AElem (mkA al _) => AElem (mkA al (r i))
                                    | d => d
                                    end) 0 l)
  | InlineHash l => InlineHash (imap (fun i kv => (fst kv, r i)) 0 l)
  | InlineArray l => InlineArray (imap (fun i _ => r i) 0 l)
  | y => y
  end.

(** Calls of a closure with state, one after the other: inputs and states to outputs. *)
Inductive calls {S A B} (f : A -> S -> B * S) : list A -> S -> list B -> S -> Prop :=
| calls_nil s : calls f [] s [] s
| calls_cons x xs s s1 s2 y ys :
    f x s = (y, s1) -> calls f xs s1 ys s2 -> calls f (x :: xs) s (y :: ys) s2.

(** The node the closure receives at an address, given the outputs at all addresses. *)
Definition input_at (y : yaml) (out : list nat -> yaml) (a : list nat) : yaml :=
  match node_at a y with
  | Some n => with_children (fun i => out (a ++ [i])) n
  | None => y
  end.

(** Data, comments and aliases of a document, in order. *)
Definition doc_views (d : document) : list data :=
  flat_map (fun i => match i with DYaml y => [view y] | DComment _ => [] end) (items d).
Definition doc_comments (d : document) : list str :=
  leading d ++ flat_map (fun i => match i with DYaml y => comments y | DComment c => [c] end) (items d).
Definition doc_aliases (d : document) : list str :=
  flat_map (fun i => match i with DYaml y => alias_names y | DComment _ => [] end) (items d).
Definition doc_marks (d : document) : list mark :=
  map MOwnLine (leading d)
  ++ flat_map (fun i => match i with DYaml y => marks y | DComment c => [MOwnLine c] end) (items d).
Definition doc_all (P : yaml -> Prop) (d : document) : Prop :=
  forall y, In (DYaml y) (items d) -> P y.
