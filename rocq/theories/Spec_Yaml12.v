(** Specification vocabulary: YAML 1.2.2, as far as it is needed for files that are written
    in the usual layout.  The rules are productions of the YAML specification (numbers in
    brackets), or special cases of them: separation and quoted and plain scalars stay on
    one line, keys are plain, line breaks are line feeds, there are no tags, directives or
    byte order marks, and nothing is empty.  A text that follows these rules therefore
    follows the rules of YAML.  Nothing here refers to the crate. *)
From Verif Require Import Base Ast Spec_Scalar.
Import ListNotations.

(** What a file holds: nodes with their anchors.  Scalars are plain or not, which decides
    whether they can be something else than text. *)
Inductive node : Type := Node (anchor : option str) (c : content)
with content : Type :=
| Scalar (plain : bool) (value : str)
| Sequence (l : list node)
| Mapping (l : list (node * node))
| Alias (name : str).

(** ---- characters ---- *)

Definition between (a b c : N) : Prop := (a <= c /\ c <= b)%N.
(** [1] c-printable, [2] nb-json, [27] nb-char, [33] s-white, [34] ns-char. *)
Definition printable (c : char) : Prop :=
  c = TAB \/ c = NL \/ c = CR \/ between 32 126 c \/ c = 133%N \/ between 160 55295 c \/ between 57344 65533 c \/
  between 65536 1114111 c.
Definition nb_json (c : char) : Prop := c = TAB \/ between 32 1114111 c.
Definition nb_char (c : char) : Prop := printable c /\ c <> NL /\ c <> CR /\ c <> 65279%N.
Definition white (c : char) : Prop := c = SP \/ c = TAB.
Definition ns_char (c : char) : Prop := nb_char c /\ ~ white c.
(** [22] c-indicator, [23] c-flow-indicator. *)
Definition indicator (c : char) : Prop := In c (lit "-?:,[]{}#&*!|>'%@`" ++ [DQUOTE]).
Definition flow_indicator (c : char) : Prop := In c (lit ",[]{}").

Definition whites (s : str) : Prop := Forall white s.
Definition spaces_ (n : nat) : str := repeat SP n.

(** ---- comments ---- *)

(** [75] c-nb-comment-text, [77] s-b-comment: the rest of a line. *)
Inductive sb_comment : str -> Prop :=
| SB0 w : whites w -> sb_comment (w ++ [NL])
| SBText w c : whites w -> w <> [] -> Forall nb_char c -> sb_comment (w ++ lit "#" ++ c ++ [NL]).
(** [78] l-comment, any number of them. *)
Inductive l_comments : str -> Prop :=
| LC0 : l_comments []
| LCBlank w s : whites w -> l_comments s -> l_comments (w ++ [NL] ++ s)
| LCText w c s : whites w -> Forall nb_char c -> l_comments s -> l_comments (w ++ lit "#" ++ c ++ [NL] ++ s).
(** [79] s-l-comments, after text on the line. *)
Inductive sl_comments : str -> Prop := SL a b : sb_comment a -> l_comments b -> sl_comments (a ++ b).

(** ---- scalars on one line ---- *)

(** Inside or outside of an inline collection. *)
Inductive context : Type := FlowOut | FlowIn.
(** [127] ns-plain-safe. *)
Definition plain_safe (c : context) (x : char) : Prop := ns_char x /\ (c = FlowIn -> ~ flow_indicator x).
(** [130] ns-plain-char, [132] nb-ns-plain-in-line; the first argument is the character
    before. *)
Inductive plain_tail (c : context) : char -> str -> Prop :=
| PEnd p : ~ white p -> plain_tail c p []
| PWhite p w s : white w -> plain_tail c w s -> plain_tail c p (w :: s)
| PChar p x s : plain_safe c x -> x <> chr ":" -> x <> chr "#" -> plain_tail c x s -> plain_tail c p (x :: s)
| PHash p s : ns_char p -> plain_tail c (chr "#") s -> plain_tail c p (chr "#" :: s)
| PColon p x s : plain_safe c x -> plain_tail c (chr ":") (x :: s) -> plain_tail c p (chr ":" :: x :: s).
(** [126] ns-plain-first, [133] ns-plain-one-line. *)
Inductive plain (c : context) : str -> Prop :=
| Plain1 x s : ns_char x -> ~ indicator x -> plain_tail c x s -> plain c (x :: s)
| Plain2 x y s : In x (lit "?:-") -> plain_safe c y -> plain_tail c x (y :: s) -> plain c (x :: y :: s).

(** [118] nb-single-char; the text between the quotes and its value. *)
Inductive single_text : str -> str -> Prop :=
| ST0 : single_text [] []
| STChar c s v : nb_json c -> c <> QUOTE -> single_text s v -> single_text (c :: s) (c :: v)
| STQuote s v : single_text s v -> single_text (QUOTE :: QUOTE :: s) (QUOTE :: v).
(** [41] to [58], the escapes of one character. *)
Definition escapes : list (char * char) :=
  [(chr "0", 0%N); (chr "a", 7%N); (chr "b", 8%N); (chr "t", 9%N); (TAB, 9%N); (chr "n", 10%N); (chr "v", 11%N);
   (chr "f", 12%N); (chr "r", 13%N); (chr "e", 27%N); (SP, 32%N); (DQUOTE, 34%N); (chr "/", 47%N);
   (BACKSLASH, 92%N); (chr "N", 133%N); (chr "_", 160%N); (chr "L", 8232%N); (chr "P", 8233%N)].
(** [107] nb-double-char. *)
Inductive double_text : str -> str -> Prop :=
| DT0 : double_text [] []
| DTChar c s v : nb_json c -> c <> DQUOTE -> c <> BACKSLASH -> double_text s v -> double_text (c :: s) (c :: v)
| DTEscape e c s v : In (e, c) escapes -> double_text s v -> double_text (BACKSLASH :: e :: s) (c :: v).

(** ---- inline nodes ---- *)

(** [102], [103] ns-anchor-name. *)
Definition anchor_name (a : str) : Prop := a <> [] /\ Forall (fun c => ns_char c /\ ~ flow_indicator c) a.

(** [161] ns-flow-node; [158] ns-flow-content; [138] ns-s-flow-seq-entries; [141]
    ns-s-flow-map-entries. *)
Inductive flow_node : context -> node -> str -> Prop :=
| FAlias c a : anchor_name a -> flow_node c (Node None (Alias a)) (lit "*" ++ a)
| FContent c y s : flow_content c y s -> flow_node c (Node None y) s
| FProperties c a w y s : anchor_name a -> whites w -> w <> [] -> flow_content c y s ->
    flow_node c (Node (Some a) y) (lit "&" ++ a ++ w ++ s)
with flow_content : context -> content -> str -> Prop :=
| FPlain c s : plain c s -> flow_content c (Scalar true s) s
| FSingle c s v : single_text s v -> flow_content c (Scalar false v) ([QUOTE] ++ s ++ [QUOTE])
| FDouble c s v : double_text s v -> flow_content c (Scalar false v) ([DQUOTE] ++ s ++ [DQUOTE])
| FSequence c w l s : whites w -> flow_seq l s -> flow_content c (Sequence l) (lit "[" ++ w ++ s ++ lit "]")
| FMapping c w l s : whites w -> flow_map l s -> flow_content c (Mapping l) (lit "{" ++ w ++ s ++ lit "}")
with flow_seq : list node -> str -> Prop :=
| FS0 : flow_seq [] []
| FS1 x s w : flow_node FlowIn x s -> whites w -> flow_seq [x] (s ++ w)
| FS2 x s w w' l t : flow_node FlowIn x s -> whites w -> whites w' -> flow_seq l t ->
    flow_seq (x :: l) (s ++ w ++ lit "," ++ w' ++ t)
with flow_map : list (node * node) -> str -> Prop :=
| FM0 : flow_map [] []
| FM1 e s w : flow_entry e s -> whites w -> flow_map [e] (s ++ w)
| FM2 e s w w' l t : flow_entry e s -> whites w -> whites w' -> flow_map l t ->
    flow_map (e :: l) (s ++ w ++ lit "," ++ w' ++ t)
(** [145] ns-flow-map-yaml-key-entry, [147] c-ns-flow-map-separate-value. *)
with flow_entry : node * node -> str -> Prop :=
| FEntry k v w w' s t : flow_node FlowIn k s -> whites w -> whites w' -> w' <> [] -> flow_node FlowIn v t ->
    flow_entry (k, v) (s ++ w ++ lit ":" ++ w' ++ t).

(** ---- block scalars ---- *)

(** [171] l-nb-literal-text, [70] l-empty: lines at the indentation [i]. *)
Inductive content_lines (i : nat) : list str -> str -> Prop :=
| CL0 : content_lines i [] []
| CLText l ls s : l <> [] -> Forall nb_char l -> content_lines i ls s ->
    content_lines i (l :: ls) (spaces_ i ++ l ++ [NL] ++ s)
| CLEmpty j ls s : j <= i -> content_lines i ls s -> content_lines i ([] :: ls) (spaces_ j ++ [NL] ++ s).
(** [167] l-strip-empty, [168] l-keep-empty: [e] empty lines at the end. *)
Definition empty_lines (i e : nat) (s : str) : Prop := content_lines i (repeat [] e) s.
(** [169] l-trail-comments, or nothing. *)
Inductive trail_comments (i : nat) : str -> Prop :=
| TC0 : trail_comments i []
| TC1 j c s : j < i -> Forall nb_char c -> l_comments s -> trail_comments i (spaces_ j ++ lit "#" ++ c ++ [NL] ++ s).

(** [163] c-indentation-indicator, [164] c-chomping-indicator: in either order. *)
Definition indicators (dg ch s : str) : Prop := s = dg ++ ch \/ s = ch ++ dg.
(** The indentation of the lines is given by a digit, counting from the node around
    (whose indentation is [k] - 1), or it is that of the first line. *)
Inductive lines_at (k i : nat) (first : str) : str -> Prop :=
| Given m : 1 <= m <= 9 -> i + 1 = k + m -> lines_at k i first [(48 + N.of_nat m)%N]
| Detected : k <= i -> (forall r, first <> SP :: r) -> lines_at k i first [].

(** [175] s-nb-folded-text, [176] l-nb-folded-lines, [73] b-l-folded: lines that do not start
    with white space. *)
Inductive folded_lines : list str -> str -> Prop :=
| FL1 c l : ns_char c -> folded_lines [c :: l] (c :: l)
| FLSpace c l ls v : ns_char c -> folded_lines ls v -> folded_lines ((c :: l) :: ls) ((c :: l) ++ [SP] ++ v)
| FLBreaks c l n ls v : ns_char c -> folded_lines ls v ->
    folded_lines ((c :: l) :: repeat [] (S n) ++ ls) ((c :: l) ++ repeat NL (S n) ++ v).

(** [170] c-l+literal, [174] c-l+folded.  The first and the last of the lines [ls] are not
    empty.  [165] b-chomped-last, [166] l-chomped-empty: see [literal_means] and
    [folded_means]. *)
Inductive block_scalar (k : nat) : content -> str -> Prop :=
| BLiteral i dg ch hd sb l ls s e se tr :
    lines_at k i l dg -> indicators dg (chomping ch) hd -> sb_comment sb ->
    content_lines i (l :: ls) s -> l <> [] -> (forall r, l :: ls <> r ++ [[]]) -> empty_lines i e se -> trail_comments i tr ->
    block_scalar k (Scalar false (literal_means (l :: ls) e ch)) (lit "|" ++ hd ++ sb ++ s ++ se ++ tr)
| BFolded i dg ch hd sb l ls s v e se tr :
    lines_at k i l dg -> indicators dg (chomping ch) hd -> sb_comment sb ->
    content_lines i (l :: ls) s -> folded_lines (l :: ls) v -> empty_lines i e se -> trail_comments i tr ->
    block_scalar k (Scalar false (folded_means v e ch)) (lit ">" ++ hd ++ sb ++ s ++ se ++ tr).

(** ---- block nodes ---- *)

(** An anchor before a node. *)
Inductive properties : option str -> str -> Prop :=
| Pr0 : properties None []
| Pr1 a w : anchor_name a -> whites w -> w <> [] -> properties (Some a) (w ++ lit "&" ++ a).

(** [block_node k out]: [196] s-l+block-node(n,c) with [k] = n+1 and c = block-out if [out],
    else block-in.
    [block_seq i], [block_map i]: [183] l+block-sequence and [187] l+block-mapping with their
    entries at the indentation [i].
    [seq_entries i], [map_entries i]: further entries on lines of their own.
    [seq_entry i]: [184] c-l-block-seq-entry(i); [indented i]: [185] s-l+block-indented(i,c);
    [map_entry i]: [192] ns-l-block-map-implicit-entry(i). *)
Inductive block_node : nat -> bool -> node -> str -> Prop :=
(* [197] s-l+flow-in-block *)
| BFlow k out w x s t : whites w -> w <> [] -> flow_node FlowOut x s -> sl_comments t -> block_node k out x (w ++ s ++ t)
(* [199] s-l+block-scalar *)
| BScalar k out al p w y s : properties al p -> whites w -> w <> [] -> block_scalar k y s ->
    block_node k out (Node al y) (p ++ w ++ s)
(* [200] s-l+block-collection, [201] seq-space *)
| BSeq k out al p t i l s : properties al p -> sl_comments t -> (if out : bool then k <= i + 1 else k <= i) -> l <> [] -> seq_entries i l s ->
    block_node k out (Node al (Sequence l)) (p ++ t ++ s)
| BMap k out al p t i l s : properties al p -> sl_comments t -> k <= i -> l <> [] -> map_entries i l s ->
    block_node k out (Node al (Mapping l)) (p ++ t ++ s)
with seq_entries : nat -> list node -> str -> Prop :=
| BS0 i : seq_entries i [] []
| BS1 i x s l t : seq_entry i x s -> seq_entries i l t -> seq_entries i (x :: l) (spaces_ i ++ s ++ t)
with map_entries : nat -> list (node * node) -> str -> Prop :=
| BM0 i : map_entries i [] []
| BM1 i e s l t : map_entry i e s -> map_entries i l t -> map_entries i (e :: l) (spaces_ i ++ s ++ t)
with seq_entry : nat -> node -> str -> Prop :=
| BEntry i x s : indented i x s -> (forall c r, s = c :: r -> ~ ns_char c) -> seq_entry i x (lit "-" ++ s)
with indented : nat -> node -> str -> Prop :=
(* [186] ns-l-compact-sequence, [195] ns-l-compact-mapping *)
| BCompactSeq i m x l s t : seq_entry (i + 1 + m) x s -> seq_entries (i + 1 + m) l t ->
    indented i (Node None (Sequence (x :: l))) (spaces_ m ++ s ++ t)
| BCompactMap i m e l s t : map_entry (i + 1 + m) e s -> map_entries (i + 1 + m) l t ->
    indented i (Node None (Mapping (e :: l))) (spaces_ m ++ s ++ t)
| BNode i x s : block_node (i + 1) false x s -> indented i x s
with map_entry : nat -> node * node -> str -> Prop :=
(* [193] ns-s-block-map-implicit-key: at most 1024 characters; [194] c-l-block-map-implicit-value *)
| BPair i k w v s : plain FlowOut k -> whites w -> length (k ++ w) <= 1024 -> block_node (i + 1) true v s ->
    map_entry i (Node None (Scalar true k), v) (k ++ w ++ lit ":" ++ s)
(* the same, with an anchor of the key *)
| BNamedPair i a w' k w v s : anchor_name a -> whites w' -> w' <> [] -> plain FlowOut k -> whites w ->
    length (lit "&" ++ a ++ w' ++ k ++ w) <= 1024 -> block_node (i + 1) true v s ->
    map_entry i (Node (Some a) (Scalar true k), v) (lit "&" ++ a ++ w' ++ k ++ w ++ lit ":" ++ s).

(** ---- files ---- *)

(** [206] c-forbidden: a line that starts with a document marker. *)
Definition forbidden (s : str) : Prop :=
  exists a m b, s = a ++ [NL] ++ m ++ b /\ (m = lit "---" \/ m = lit "...") /\
    (b = [] \/ exists c r, b = c :: r /\ (white c \/ c = NL \/ c = CR)).
(** [202] l-document-prefix, [203] c-directives-end, [207] l-bare-document, [208]
    l-explicit-document, [211] l-yaml-stream. *)
Inductive yaml_file : node -> str -> Prop :=
| File pre x s : l_comments pre -> block_node 0 false x s -> ~ forbidden s -> yaml_file x (pre ++ lit "---" ++ s).
