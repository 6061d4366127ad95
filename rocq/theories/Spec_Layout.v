(** Specification vocabulary for reading hand-written files: the texts that lay out a
    document.  Indentation widths, spaces around the signs, trailing spaces, blank lines,
    the place of comments and the line breaks inside inline collections are free. *)
From Verif Require Import Base Ast YamlGrammar Spec_Parse Spec_Format.
Import ListNotations.

Notation spaces n := (repeat_char SP n).

(** Lines with nothing but spaces. *)
Definition blank_lines (ws : list nat) : str := flat_map (fun i => spaces i ++ [NL]) ws.

(** A comment on a line of its own: its indentation, its text and the widths of the blank
    lines after it. *)
Record cline : Type := mkCL { cl_indent : nat; cl_text : str; cl_blank : list nat }.
Definition comment_lines (cs : list cline) : str :=
  flat_map (fun c => spaces (cl_indent c) ++ lit "#" ++ cl_text c ++ [NL] ++ blank_lines (cl_blank c)) cs.
Definition comments_ok (cs : list cline) : Prop := Forall (fun c => one_line (cl_text c)) cs.

(** Spaces and line breaks. *)
Definition white (w : str) : Prop := forall c, In c w -> c = SP \/ c = NL.

Definition sq_text (p : sq_part) : str :=
  match p with
  | SQ_Str s => s
  | SQ_Quote => [QUOTE; QUOTE]
  | SQ_Blank n => repeat_char NL (n + 1)
  | SQ_RemNl => [NL]
  end.
Definition dq_text (p : dq_part) : str :=
  match p with
  | DQ_Str s => s
  | DQ_Esc e =>
      [BACKSLASH; match e with
                  | E_Quote => DQUOTE | E_Backslash => BACKSLASH | E_Tab => chr "t"
                  | E_CR => chr "r" | E_Newline => chr "n" | E_RealNewline => NL
                  end]
  | DQ_Blank n => repeat_char NL (n + 1)
  | DQ_RemNl => [NL]
  end.

(** Inside inline collections.  [flow y s]: the value; [flow_items l s]: the items of a
    sequence with the white space around them; [flow_pairs l s]: the entries of a mapping. *)
Inductive flow (ut : unitab) : yaml -> str -> Prop :=
| FText s : inline_text ut s -> flow ut (Unquoted s) s
| FSingle ps : sq_canon ps -> flow ut (SingleQ ps) ([QUOTE] ++ flat_map sq_text ps ++ [QUOTE])
| FDouble ps : dq_canon ps -> flow ut (DoubleQ ps) ([DQUOTE] ++ flat_map dq_text ps ++ [DQUOTE])
| FRef a : alias_ok ut a -> flow ut (Anchor a) (lit "*" ++ a)
| FArray0 w : white w -> flow ut (InlineArray []) (lit "[" ++ w ++ lit "]")
| FArray l s : flow_items ut l s -> flow ut (InlineArray l) (lit "[" ++ s ++ lit "]")
| FHash0 w : white w -> flow ut (InlineHash []) (lit "{" ++ w ++ lit "}")
| FHash l s : flow_pairs ut l s -> flow ut (InlineHash l) (lit "{" ++ s ++ lit "}")
with flow_items (ut : unitab) : list yaml -> str -> Prop :=
| FItem y s w w' : white w -> flow ut y s -> white w' -> flow_items ut [y] (w ++ s ++ w')
| FItems y s w w' l r : white w -> flow ut y s -> white w' -> flow_items ut l r ->
    flow_items ut (y :: l) (w ++ s ++ w' ++ lit "," ++ r)
with flow_pairs (ut : unitab) : list (str * yaml) -> str -> Prop :=
| FPair k i v s w wv w' : white w -> plain_key ut k -> white wv -> wv <> [] -> flow ut v s -> white w' ->
    flow_pairs ut [(k, v)] (w ++ k ++ spaces i ++ lit ":" ++ wv ++ s ++ w')
| FPairs k i v s w wv w' l r : white w -> plain_key ut k -> white wv -> wv <> [] -> flow ut v s -> white w' ->
    flow_pairs ut l r ->
    flow_pairs ut ((k, v) :: l) (w ++ k ++ spaces i ++ lit ":" ++ wv ++ s ++ w' ++ lit "," ++ r).

(** A value on the line of its key or dash. *)
Definition line_value (ut : unitab) (y : yaml) (s : str) : Prop :=
  match y with
  | Unquoted u => block_text ut u /\ s = u
  | _ => flow ut y s
  end.

(** The rest of such a line: spaces, then perhaps a comment. *)
Definition line_end (i : nat) (oc : option str) : str :=
  spaces i ++ match oc with Some c => lit "#" ++ c | None => [] end.
Definition comment_ok (i : nat) (oc : option str) : Prop :=
  match oc with Some c => 1 <= i /\ one_line c | None => True end.

(** An alias and the spaces after it. *)
Definition alias_prefix (al : option str) (j : nat) : str :=
  match al with Some a => lit "&" ++ a ++ spaces (S j) | None => [] end.
(** The same before a collection: line breaks may follow. *)
Inductive lead (ut : unitab) : option str -> str -> Prop :=
| LNone : lead ut None []
| LSome a w : alias_ok ut a -> white w -> w <> [] -> lead ut (Some a) (lit "&" ++ a ++ w).

(** The lines of a block scalar after the first one, at indentation [m]: blank lines may
    be without indentation.  The flag says that blank lines end the scalar. *)
Inductive scalar_lines (m : nat) : list str -> bool -> str -> Prop :=
| SEnd e : scalar_lines m (repeat [] e) (negb (e =? 0)) (repeat_char NL e)
| SLine e l ls b s : one_line l -> scalar_lines m ls b s ->
    scalar_lines m (repeat [] e ++ l :: ls) b (repeat_char NL e ++ [NL] ++ spaces m ++ l ++ s).
Definition chomp_sign (c : chomp) : str := match c with Clip => [] | Strip => lit "-" | Keep => lit "+" end.

(** How a value ends: on an ordinary line, on a line of a block scalar, or on a blank line
    of one.  After a block scalar a blank line would be part of it. *)
Inductive ending : Type := Plain | Scalar (blank : bool).

(** Between the entries of a collection indented by [n]: blank lines and comments. *)
Definition gap_ok (n : nat) (b : ending) (ws : list nat) (cs : list cline) : Prop :=
  comments_ok cs /\
  match b with
  | Plain => True
  | Scalar _ => ws = [] /\ match cs with c :: _ => cl_indent c <= n | [] => True end
  end.
Definition gap (ws : list nat) (cs : list cline) : str := [NL] ++ blank_lines ws ++ comment_lines cs.

Definition entry_comment (oc : option str) : list hashdata :=
  match oc with Some c => [HInlineC c] | None => [] end.
Definition element_comment (oc : option str) : list arraydata :=
  match oc with Some c => [AInlineC c] | None => [] end.
Definition hcomments_of (cs : list cline) : list hashdata := map (fun c => HComment (cl_text c)) cs.
Definition acomments_of (cs : list cline) : list arraydata := map (fun c => AComment (cl_text c)) cs.

(** [value t n last q x oc b s]: the text [s] after the colon or (if [q]) the dash lays out the
    value [x] with the comment [oc] on its line; it ends as [b] says.  The key or dash stands at
    indentation [n].  [t <= n] is the indentation of the collection on lines of its own
    around it.  If [last], nothing at an indentation above [t] follows.
    [entries n l b s], [elements n l b s]: the text from the first key or dash on. *)
Inductive value (ut : unitab) : nat -> nat -> bool -> bool -> aliased -> option str -> ending -> str -> Prop :=
| VLine t n last q al ja y oc j i s :
    line_value ut y s -> alias_canon ut al -> comment_ok i oc ->
    value ut t n last q (mkA al y) oc Plain (spaces (S j) ++ alias_prefix al ja ++ s ++ line_end i oc)
| VScalar t n q al ja j m lit_ ch c l ls b s :
    let first := c :: l in
    one_line first -> (c = SP /\ m = t + 2 \/ is_ws c = false) -> (exists d, In d first /\ is_zs d = false) ->
    t + 2 <= m -> alias_canon ut al -> scalar_lines m ls b s ->
    value ut t n true q (mkA al ((if lit_ : bool then Literal else Folded) (first :: ls) ch)) None (Scalar b)
      (spaces (S j) ++ alias_prefix al ja ++ (if lit_ then lit "|" else lit ">") ++ chomp_sign ch
       ++ (if ceqb c SP then lit "2" else []) ++ [NL] ++ spaces m ++ first ++ s)
| VMap t n last q j ws cs m l b s :
    n < m -> (q = true -> 1 <= j) -> (j = 0 \/ ws = [] \/ cs = []) -> comments_ok cs ->
    entries ut m l b s ->
    value ut t n last q (mkA None (Hash (hcomments_of cs ++ l))) None b (spaces j ++ gap ws cs ++ spaces m ++ s)
| VSeq t n last q j ws cs m l b s :
    n <= m -> (q = true -> n < m /\ 1 <= j) -> (j = 0 \/ cs = []) -> comments_ok cs ->
    elements ut m l b s ->
    value ut t n last q (mkA None (Array (acomments_of cs ++ l))) None b (spaces j ++ gap ws cs ++ spaces m ++ s)
(* a mapping with one entry on the line of the dash or after an alias *)
| VOne t n last q al a j k i m x oc b s :
    lead ut al a -> (q = true \/ al <> None) -> (q = true \/ last = true) -> n < m -> plain_key ut k ->
    value ut t m last false x oc b s ->
    value ut t n last q (mkA al (Hash (HElem (mkHE k x) :: entry_comment oc))) None b
      (spaces (S j) ++ a ++ k ++ spaces i ++ lit ":" ++ s)
(* a mapping with more entries there *)
| VMore t n last q al a j k i m x oc b1 s1 ws cs l b s :
    lead ut al a -> (q = true \/ al <> None) -> n < m -> plain_key ut k ->
    value ut t m false false x oc b1 s1 -> gap_ok m b1 ws cs -> entries ut m l b s ->
    value ut t n last q (mkA al (Hash (HElem (mkHE k x) :: entry_comment oc ++ hcomments_of cs ++ l))) None b
      (spaces (S j) ++ a ++ k ++ spaces i ++ lit ":" ++ s1 ++ gap ws cs ++ spaces m ++ s)
(* a sequence with at least two elements there *)
| VSeqs t n last q al a j m x oc b1 s1 ws l b s :
    lead ut al a -> (q = true \/ al <> None) -> n < m ->
    value ut t m false true x oc b1 s1 -> gap_ok m b1 ws [] -> elements ut m l b s ->
    value ut t n last q (mkA al (Array (AElem x :: element_comment oc ++ l))) None b
      (spaces (S j) ++ a ++ lit "-" ++ s1 ++ gap ws [] ++ spaces m ++ s)
with entries (ut : unitab) : nat -> list hashdata -> ending -> str -> Prop :=
| ELast n k i x oc b s :
    plain_key ut k -> value ut n n true false x oc b s ->
    entries ut n (HElem (mkHE k x) :: entry_comment oc) b (k ++ spaces i ++ lit ":" ++ s)
| ECons n k i x oc b1 s1 ws cs l b s :
    plain_key ut k -> value ut n n true false x oc b1 s1 -> gap_ok n b1 ws cs -> entries ut n l b s ->
    entries ut n (HElem (mkHE k x) :: entry_comment oc ++ hcomments_of cs ++ l) b
      (k ++ spaces i ++ lit ":" ++ s1 ++ gap ws cs ++ spaces n ++ s)
with elements (ut : unitab) : nat -> list arraydata -> ending -> str -> Prop :=
| NLast n x oc b s :
    value ut n n true true x oc b s ->
    elements ut n (AElem x :: element_comment oc) b (lit "-" ++ s)
| NCons n x oc b1 s1 ws cs l b s :
    value ut n n true true x oc b1 s1 -> gap_ok n b1 ws cs -> elements ut n l b s ->
    elements ut n (AElem x :: element_comment oc ++ acomments_of cs ++ l) b
      (lit "-" ++ s1 ++ gap ws cs ++ spaces n ++ s).

(** The collection of a file, at indentation [n]. *)
Inductive root (ut : unitab) : nat -> yaml -> ending -> str -> Prop :=
| RMap n l b s : entries ut n l b s -> root ut n (Hash l) b s
| RSeq n l b s : elements ut n l b s -> root ut n (Array l) b s
| RFlow l s i : flow ut (InlineArray l) s -> root ut 0 (InlineArray l) Plain (s ++ spaces i).

(** The rest of the file: blank lines and comments. *)
Inductive closing (n : nat) : ending -> list str -> str -> Prop :=
| ZEnd b : b <> Scalar true -> closing n b [] []
| ZLine b : closing n b [] [NL]
| ZBlank ws i : closing n Plain [] ([NL] ++ blank_lines ws ++ spaces i)
| ZComment b ws m c cs z :
    (b <> Plain -> ws = [] /\ m <= n) -> one_line c -> closing n Plain cs z ->
    closing n b (c :: cs) ([NL] ++ blank_lines ws ++ spaces m ++ lit "#" ++ c ++ z).

(** The layouts of a document: comments, "---", comments, the collection, comments. *)
Inductive layout (ut : unitab) : document -> str -> Prop :=
| Layout cs0 i ws cs n y b s cs1 z :
    comments_ok cs0 -> comments_ok cs -> root ut n y b s -> closing n b cs1 z ->
    layout ut (mkDoc (map cl_text cs0)
                 (map (fun c => DComment (cl_text c)) cs ++ DYaml y :: map DComment cs1))
      (comment_lines cs0 ++ lit "---" ++ spaces i ++ gap ws cs ++ spaces n ++ s ++ z).
