(** Specification vocabulary: files in a layout that both this crate and YAML 1.2 read.  The
    indentation widths, the spaces, the blank lines and the comments are free as in
    [Spec_Layout.v]; what is narrower is said at each rule. *)
From Verif Require Import Base Ast YamlGrammar Spec_Parse Spec_Format Spec_Yaml12 Spec_Portable Spec_Layout.
Import ListNotations.

Definition note (c : str) : Prop := Forall nb_char c.
Definition notes (cs : list cline) : Prop := Forall (fun c => note (cl_text c)) cs.
(** A name of both. *)
Definition name (ut : unitab) (a : str) : Prop := alias_ok ut a /\ anchor_name a.
Definition opt_name (ut : unitab) (al : option str) : Prop := match al with Some a => name ut a | None => True end.
(** A key of both, and the spaces before the colon. *)
Definition both_key (ut : unitab) (k : str) (i : nat) : Prop :=
  plain_key ut k /\ plain FlowOut k /\ length (k ++ spaces i) <= 1024.

(** Inline collections, on one line: scalars are plain for YAML, quoted scalars are without line
    breaks. *)
Inductive cflow (ut : unitab) : yaml -> str -> Prop :=
| CFText s : inline_text ut s -> plain FlowIn s -> cflow ut (Unquoted s) s
| CFSingle ps : sq_canon ps -> Forall sq_portable ps -> cflow ut (SingleQ ps) ([QUOTE] ++ flat_map sq_text ps ++ [QUOTE])
| CFDouble ps : dq_canon ps -> Forall dq_portable ps -> cflow ut (DoubleQ ps) ([DQUOTE] ++ flat_map dq_text ps ++ [DQUOTE])
| CFRef a : name ut a -> cflow ut (Anchor a) (lit "*" ++ a)
| CFArray0 i : cflow ut (InlineArray []) (lit "[" ++ spaces i ++ lit "]")
| CFArray l s : citems ut l s -> cflow ut (InlineArray l) (lit "[" ++ s ++ lit "]")
| CFHash0 i : cflow ut (InlineHash []) (lit "{" ++ spaces i ++ lit "}")
| CFHash l s : cpairs ut l s -> cflow ut (InlineHash l) (lit "{" ++ s ++ lit "}")
with citems (ut : unitab) : list yaml -> str -> Prop :=
| CItem y s i j : cflow ut y s -> citems ut [y] (spaces i ++ s ++ spaces j)
| CItems y s i j l r : cflow ut y s -> citems ut l r -> citems ut (y :: l) (spaces i ++ s ++ spaces j ++ lit "," ++ r)
with cpairs (ut : unitab) : list (str * yaml) -> str -> Prop :=
| CPair k v s i j m n : plain_key ut k -> plain FlowIn k -> cflow ut v s ->
    cpairs ut [(k, v)] (spaces i ++ k ++ spaces j ++ lit ":" ++ spaces (S m) ++ s ++ spaces n)
| CPairs k v s i j m n l r : plain_key ut k -> plain FlowIn k -> cflow ut v s -> cpairs ut l r ->
    cpairs ut ((k, v) :: l) (spaces i ++ k ++ spaces j ++ lit ":" ++ spaces (S m) ++ s ++ spaces n ++ lit "," ++ r).

Definition cline_value (ut : unitab) (y : yaml) (s : str) : Prop :=
  match y with
  | Unquoted u => block_text ut u /\ plain FlowOut u /\ s = u
  | _ => cflow ut y s
  end.

(** Before the first entry of a collection that starts on the line of a dash, or that has a
    name: at a dash, the entries stand below the first one; a name stands at the end of its
    line. *)
Inductive head (ut : unitab) (n : nat) : bool -> nat -> option str -> str -> Prop :=
| OnDash j : head ut n true (n + 2 + j) None (spaces (S j))
| Named q a j i ws m : name ut a -> n < m ->
    head ut n q m (Some a) (spaces (S j) ++ lit "&" ++ a ++ spaces i ++ [NL] ++ blank_lines ws ++ spaces m).

(** As [value], [entries], [elements] of [Spec_Layout.v].  References have no names of their
    own.  The lines of a block scalar are indented by more than its key or dash; those of a
    folded one do not start with white space. *)
Inductive cvalue (ut : unitab) : nat -> nat -> bool -> bool -> aliased -> option str -> ending -> str -> Prop :=
| CLine t n last q al ja y oc j i s :
    cline_value ut y s -> opt_name ut al -> (is_alias y -> al = None) ->
    match oc with Some c => 1 <= i /\ note c | None => True end ->
    cvalue ut t n last q (mkA al y) oc Plain (spaces (S j) ++ alias_prefix al ja ++ s ++ line_end i oc)
| CScalar t n q al ja j m lit_ ch c l ls b s :
    let first := c :: l in
    (c = SP /\ m = t + 2 /\ n = t \/ is_ws c = false) -> (exists d, In d first /\ is_zs d = false) ->
    t + 2 <= m -> n < m -> opt_name ut al -> scalar_lines m ls b s ->
    Forall (Forall nb_char) (first :: ls) ->
    (lit_ = false -> Forall (fun x => match x with [] => True | d :: _ => ~ Spec_Yaml12.white d end) (first :: ls)) ->
    cvalue ut t n true q (mkA al ((if lit_ : bool then Literal else Folded) (first :: ls) ch)) None (Scalar b)
      (spaces (S j) ++ alias_prefix al ja ++ (if lit_ then lit "|" else lit ">") ++ chomp_sign ch
       ++ (if ceqb c SP then lit "2" else []) ++ [NL] ++ spaces m ++ first ++ s)
| CMap t n last q j ws cs m l b s :
    n < m -> (q = true -> 1 <= j) -> (j = 0 \/ ws = [] \/ cs = []) -> notes cs ->
    centries ut m l b s ->
    cvalue ut t n last q (mkA None (Hash (hcomments_of cs ++ l))) None b (spaces j ++ gap ws cs ++ spaces m ++ s)
| CSeq t n last q j ws cs m l b s :
    n <= m -> (q = true -> n < m /\ 1 <= j) -> (j = 0 \/ cs = []) -> notes cs ->
    celements ut m l b s ->
    cvalue ut t n last q (mkA None (Array (acomments_of cs ++ l))) None b (spaces j ++ gap ws cs ++ spaces m ++ s)
| COne t n last q al h k i m x oc b s :
    head ut n q m al h -> (q = true \/ last = true) -> both_key ut k i ->
    cvalue ut t m last false x oc b s ->
    cvalue ut t n last q (mkA al (Hash (HElem (mkHE k x) :: entry_comment oc))) None b
      (h ++ k ++ spaces i ++ lit ":" ++ s)
| CMore t n last q al h k i m x oc b1 s1 ws cs l b s :
    head ut n q m al h -> both_key ut k i ->
    cvalue ut t m false false x oc b1 s1 -> gap_ok m b1 ws cs -> notes cs -> centries ut m l b s ->
    cvalue ut t n last q (mkA al (Hash (HElem (mkHE k x) :: entry_comment oc ++ hcomments_of cs ++ l))) None b
      (h ++ k ++ spaces i ++ lit ":" ++ s1 ++ gap ws cs ++ spaces m ++ s)
| CSeqs t n last q al h m x oc b1 s1 ws l b s :
    head ut n q m al h ->
    cvalue ut t m false true x oc b1 s1 -> gap_ok m b1 ws [] -> celements ut m l b s ->
    cvalue ut t n last q (mkA al (Array (AElem x :: element_comment oc ++ l))) None b
      (h ++ lit "-" ++ s1 ++ gap ws [] ++ spaces m ++ s)
with centries (ut : unitab) : nat -> list hashdata -> ending -> str -> Prop :=
| CELast n k i x oc b s :
    both_key ut k i -> cvalue ut n n true false x oc b s ->
    centries ut n (HElem (mkHE k x) :: entry_comment oc) b (k ++ spaces i ++ lit ":" ++ s)
| CECons n k i x oc b1 s1 ws cs l b s :
    both_key ut k i -> cvalue ut n n true false x oc b1 s1 -> gap_ok n b1 ws cs -> notes cs -> centries ut n l b s ->
    centries ut n (HElem (mkHE k x) :: entry_comment oc ++ hcomments_of cs ++ l) b
      (k ++ spaces i ++ lit ":" ++ s1 ++ gap ws cs ++ spaces n ++ s)
with celements (ut : unitab) : nat -> list arraydata -> ending -> str -> Prop :=
| CNLast n x oc b s :
    cvalue ut n n true true x oc b s ->
    celements ut n (AElem x :: element_comment oc) b (lit "-" ++ s)
| CNCons n x oc b1 s1 ws cs l b s :
    cvalue ut n n true true x oc b1 s1 -> gap_ok n b1 ws cs -> notes cs -> celements ut n l b s ->
    celements ut n (AElem x :: element_comment oc ++ acomments_of cs ++ l) b
      (lit "-" ++ s1 ++ gap ws cs ++ spaces n ++ s).

(** The collection of the file. *)
Inductive croot (ut : unitab) : nat -> yaml -> ending -> str -> Prop :=
| CRMap n l b s : centries ut n l b s -> croot ut n (Hash l) b s
| CRSeq n l b s : celements ut n l b s -> croot ut n (Array l) b s.
(** The rest of the file, up to a line break. *)
Inductive cclosing (n : nat) : ending -> list str -> str -> Prop :=
| CZLine b : cclosing n b [] [NL]
| CZBlank ws : cclosing n Plain [] ([NL] ++ blank_lines ws)
| CZComment b ws m c cs z :
    (b <> Plain -> ws = [] /\ m <= n) -> note c -> cclosing n Plain cs z ->
    cclosing n b (c :: cs) ([NL] ++ blank_lines ws ++ spaces m ++ lit "#" ++ c ++ z).

(** [common ut d y s]: the file [s] lays out the document [d], with the collection [y]. *)
Inductive common (ut : unitab) : document -> yaml -> str -> Prop :=
| Common cs0 i ws cs n y b s cs1 z :
    notes cs0 -> notes cs -> croot ut n y b s -> cclosing n b cs1 z ->
    common ut (mkDoc (map cl_text cs0)
                (map (fun c => DComment (cl_text c)) cs ++ DYaml y :: map DComment cs1)) y
      (comment_lines cs0 ++ lit "---" ++ spaces i ++ gap ws cs ++ spaces n ++ s ++ z).
