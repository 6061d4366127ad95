(** Specification vocabulary for what an accepted text can be: how a document is spelled,
    character by character.  No condition on the order in which the parser tries its
    rules: a text may be spelled by more than one document, and is then read as one of
    them. *)
From Verif Require Import Base Ast YamlGrammar Spec_Parse Spec_Format Spec_Path Spec_Panic
  Spec_Layout Spec_Flow.
Import ListNotations.

(** One line break. *)
Definition line_break (b : str) : Prop := b = [NL] \/ b = [CR; NL] \/ b = [CR].

(** A comment at the end of a line, or nothing. *)
Definition remark (oc : option str) (s : str) : Prop :=
  match oc with
  | None => s = []
  | Some c => exists z, seps z /\ one_line c /\ s = z ++ lit "#" ++ c
  end.

(** The name before a value, with the white space after it, or nothing. *)
Inductive tag (ut : unitab) (fill : str -> Prop) : option str -> str -> Prop :=
| TNone : tag ut fill None []
| TSome a w : alias_ok ut a -> fill w -> tag ut fill (Some a) (lit "&" ++ a ++ w).

(** An unquoted scalar [u] in a block collection, followed by [i] spaces. *)
Definition bare (u : str) (i : nat) : Prop :=
  (exists c r, u ++ spaces i = c :: r /\ ~ In c (lit "[]{}'#>|" ++ [DQUOTE]))
  /\ one_line u /\ ~ In (chr "#") u /\ ~ has_pair (chr ":") SP (u ++ spaces i)
  /\ (forall r, u <> r ++ [SP]).

(** Scalars and inline collections on one line of a block collection. *)
Inductive bit (ut : unitab) : yaml -> str -> Prop :=
| BitText u i : bare u i -> bit ut (Unquoted u) (u ++ spaces i)
| BitSingle ps z : sq_canon ps -> seps z -> bit ut (SingleQ ps) ([QUOTE] ++ flat_map sq_text ps ++ [QUOTE] ++ z)
| BitDouble ps z : dq_canon ps -> seps z -> bit ut (DoubleQ ps) ([DQUOTE] ++ flat_map dq_text ps ++ [DQUOTE] ++ z)
| BitRef a : alias_ok ut a -> bit ut (Anchor a) (lit "*" ++ a)
| BitArray l s : row ut l s -> bit ut (InlineArray l) (lit "[" ++ s ++ lit "]")
| BitHash l s : pairs ut l s -> bit ut (InlineHash l) (lit "{" ++ s ++ lit "}").

(** The lines of a block scalar after the first, without the indentation [p] and the one
    space that the grammar takes from each.  A line break between lines counts as one
    blank line per character; a line break at the end as one if it has a line feed. *)
Inductive scalar_rest (p : str) : list str -> str -> Prop :=
| LEnd e : (forall c, In c e -> c = NL \/ c = CR) -> scalar_rest p (repeat [] (count_occ N.eq_dec e NL)) e
| LLine b e x ls s : line_break b -> (forall c, In c e -> c = NL \/ c = CR) -> one_line x -> scalar_rest p ls s ->
    scalar_rest p (repeat [] (length e) ++ x :: ls) (b ++ e ++ p ++ [SP] ++ x ++ s).
(** From the line [r] the first [w] bytes are cut, whatever they are; blank lines stay. *)
Definition cut_line (w : N) (r l : str) : Prop :=
  (r = [] /\ l = []) \/ (r <> [] /\ exists d, r = d ++ l /\ N.of_nat (utf8_len d) = w).
(** [w] as the digits [dg] say, or the white space at the start of the first line. *)
Definition width (dg first : str) (w : N) : Prop :=
  (dg <> [] /\ indicator dg w) \/ (dg = [] /\ margin first w).
Inductive scalar (p : str) : yaml -> str -> Prop :=
| Scalar_ (lit_ : bool) ch dg b x rs m w ls :
    blanks b -> b <> [] -> one_line x -> scalar_rest p rs m -> width dg x w -> Forall2 (cut_line w) (x :: rs) ls ->
    scalar p ((if lit_ then Literal else Folded) ls ch)
      ((if lit_ then lit "|" else lit ">") ++ chomp_sign ch ++ dg ++ b ++ p ++ [SP] ++ x ++ m).

(** [val p a s]: the text [s] after the key or dash and the white space there spells the
    value [a]; [p] is the indentation of the collection on lines of its own around it.
    [block p y s]: a value without name.
    [entry p l s], [element p l s]: one entry or element with the comment on its line.
    [entries k l s], [elements k close l s]: further entries or elements, each on a line
    of its own at the indentation [k], with the comments before it; if [close], an element
    may also follow on the same line, right after the indentation. *)
Inductive val (ut : unitab) : str -> aliased -> str -> Prop :=
| VBlock p al a y s : tag ut seps al a -> block ut p y s -> val ut p (mkA al y) (a ++ s)
(* a mapping that starts on the line: more than one entry only if deeper than [p] *)
| VMap1 p al a l s : tag ut loose al a -> entry ut p l s -> val ut p (mkA al (Hash l)) (a ++ s)
| VMap2 p al a l1 s1 b cs t z l2 s2 l3 s3 :
    tag ut loose al a -> entry ut p l1 s1 -> blanks b -> b <> [] -> remarks cs t -> seps z -> z <> [] ->
    entry ut (p ++ z) l2 s2 -> entries ut (p ++ z) l3 s3 ->
    val ut p (mkA al (Hash (l1 ++ map HComment cs ++ l2 ++ l3))) (a ++ s1 ++ b ++ t ++ p ++ z ++ s2 ++ s3)
(* a sequence that starts on the line: at least two elements *)
| VSeq2 p al a l1 s1 b k l2 s2 z l3 s3 :
    tag ut loose al a -> element ut p l1 s1 -> blanks b -> b <> [] -> seps k -> element ut k l2 s2 -> seps z ->
    elements ut k false l3 s3 ->
    val ut p (mkA al (Array (l1 ++ l2 ++ l3))) (a ++ s1 ++ b ++ k ++ s2 ++ z ++ s3)
with block (ut : unitab) : str -> yaml -> str -> Prop :=
| BlockMap p n cs t b k l1 s1 l2 s2 :
    (n = [] \/ line_break n) -> remarks cs t -> blanks b -> seps k -> entry ut k l1 s1 -> entries ut k l2 s2 ->
    block ut p (Hash (map HComment cs ++ l1 ++ l2)) (n ++ t ++ b ++ k ++ s1 ++ s2)
| BlockSeq p cs t b k l1 s1 z l2 s2 :
    remarks cs t -> blanks b -> seps k -> element ut k l1 s1 -> seps z -> elements ut k true l2 s2 ->
    block ut p (Array (map AComment cs ++ l1 ++ l2)) (t ++ b ++ k ++ s1 ++ z ++ s2)
| BlockScalar p y s : scalar p y s -> block ut p y s
| BlockBit p y s : bit ut y s -> block ut p y s
with entry (ut : unitab) : str -> list hashdata -> str -> Prop :=
| Entry p k i w a s oc r : plain_key ut k -> (w <> [] /\ (seps w \/ blanks w)) -> val ut p a s -> remark oc r ->
    entry ut p (HElem (mkHE k a) :: entry_comment oc) (k ++ spaces i ++ lit ":" ++ w ++ s ++ r)
with entries (ut : unitab) : str -> list hashdata -> str -> Prop :=
| Entries0 k : entries ut k [] []
| Entries1 k b cs t l1 s1 l2 s2 : blanks b -> b <> [] -> remarks cs t -> entry ut k l1 s1 -> entries ut k l2 s2 ->
    entries ut k (map HComment cs ++ l1 ++ l2) (b ++ t ++ k ++ s1 ++ s2)
with element (ut : unitab) : str -> list arraydata -> str -> Prop :=
| Element p w a s oc r : w <> [] -> seps w -> val ut p a s -> remark oc r ->
    element ut p (AElem a :: element_comment oc) (lit "-" ++ w ++ s ++ r)
with elements (ut : unitab) : str -> bool -> list arraydata -> str -> Prop :=
| Elements0 k close : elements ut k close [] []
| Elements1 k close b cs t l1 s1 l2 s2 : blanks b -> (b = [] -> close = true /\ cs = []) -> remarks cs t ->
    element ut k l1 s1 -> elements ut k close l2 s2 ->
    elements ut k close (map AComment cs ++ l1 ++ l2) (b ++ t ++ k ++ s1 ++ s2).

(** The collection of a file. *)
Inductive root (ut : unitab) : yaml -> str -> Prop :=
| RootMap k l1 s1 l2 s2 : seps k -> entry ut k l1 s1 -> entries ut k l2 s2 ->
    root ut (Hash (l1 ++ l2)) (k ++ s1 ++ s2)
| RootSeq k l1 s1 z l2 s2 : seps k -> element ut k l1 s1 -> seps z -> elements ut k true l2 s2 ->
    root ut (Array (l1 ++ l2)) (k ++ s1 ++ z ++ s2)
| RootRow l s : row ut l s -> root ut (InlineArray l) (lit "[" ++ s ++ lit "]").
Inductive spelled (ut : unitab) : document -> str -> Prop :=
| Spelled cs0 cs h y s cs1 e : heading cs0 cs h -> root ut y s -> finish cs1 e ->
    spelled ut (mkDoc cs0 (map DComment cs ++ DYaml y :: map DComment cs1)) (h ++ s ++ e).

(** ---- the letters of a file ---- *)

(** Characters that are neither white space nor signs of the syntax. *)
Definition ink (c : char) : bool := negb (is_ws c || existsb (ceqb c) (lit "-:[]{},'#&*" ++ [DQUOTE])).

(** All texts of a value in the order of the document: names, keys, scalars as written,
    and comments. *)
Fixpoint texts (y : yaml) : str :=
  match y with
  | Hash l => flat_map (fun d => match d with
      | HInlineC c | HComment c => c
      | HElem (mkHE k (mkA al v)) => k ++ match al with Some a => a | None => [] end ++ texts v
      end) l
  | Array l => flat_map (fun d => match d with
      | AInlineC c | AComment c => c
      | AElem (mkA al v) => match al with Some a => a | None => [] end ++ texts v
      end) l
  | InlineArray l => flat_map texts l
  | InlineHash l => flat_map (fun kv => match kv with (k, v) => k ++ texts v end) l
  | Unquoted u => u
  | SingleQ ps => flat_map sq_text ps
  | DoubleQ ps => flat_map dq_text ps
  | Anchor a => a
  | Literal ls _ | Folded ls _ => concat ls
  end.
Definition doc_texts (d : document) : str :=
  concat (leading d) ++ flat_map (fun i => match i with DComment c => c | DYaml y => texts y end) (items d).
(** No block scalar anywhere. *)
Definition unblocked (y : yaml) : Prop :=
  match y with Literal _ _ | Folded _ _ => False | _ => True end.
