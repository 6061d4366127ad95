(** Specification vocabulary for files whose collection is written inline: all texts, not
    only tidy ones. *)
From Verif Require Import Base Ast YamlGrammar Spec_Parse Spec_Format Spec_Layout.
Import ListNotations.

(** Spaces and line breaks of any kind; space separators. *)
Definition loose (w : str) : Prop := forall c, In c w -> c = SP \/ c = NL \/ c = CR.
Definition seps (z : str) : Prop := forall c, In c z -> is_zs c = true.

(** The text [u] of an unquoted item, followed by the white space [w]. *)
Definition plain_item (ut : unitab) (u w : str) : Prop :=
  (exists c r, u = c :: r /\ ~ In c (lit ",[]{}'# " ++ [DQUOTE])
     /\ forall d, In d r -> ~ In d (lit ",[]{}#>|" ++ [DQUOTE]))
  /\ one_line u /\ (forall r, u <> r ++ [SP]) /\ ~ has_pair (chr ":") SP (u ++ w)
  /\ (forall d r, u = chr "*" :: d :: r -> ~ name_char ut d).

(** [item y t]: the text [t] is the value [y] with the white space after it.
    [row l t]: values between commas; [pairs l t]: entries between commas. *)
Inductive item (ut : unitab) : yaml -> str -> Prop :=
| XText u w : plain_item ut u w -> loose w -> item ut (Unquoted u) (u ++ w)
| XSingle ps z w : sq_canon ps -> seps z -> loose w ->
    item ut (SingleQ ps) ([QUOTE] ++ flat_map sq_text ps ++ [QUOTE] ++ z ++ w)
| XDouble ps z w : dq_canon ps -> seps z -> loose w ->
    item ut (DoubleQ ps) ([DQUOTE] ++ flat_map dq_text ps ++ [DQUOTE] ++ z ++ w)
| XRef a w : alias_ok ut a -> loose w -> item ut (Anchor a) (lit "*" ++ a ++ w)
| XArray l s w : row ut l s -> loose w -> item ut (InlineArray l) (lit "[" ++ s ++ lit "]" ++ w)
| XHash l s w : pairs ut l s -> loose w -> item ut (InlineHash l) (lit "{" ++ s ++ lit "}" ++ w)
with row (ut : unitab) : list yaml -> str -> Prop :=
| XNone w : loose w -> row ut [] w
| XOne w y s : loose w -> item ut y s -> row ut [y] (w ++ s)
| XMore w y s l r : loose w -> item ut y s -> row ut l r -> l <> [] -> row ut (y :: l) (w ++ s ++ lit "," ++ r)
with pairs (ut : unitab) : list (str * yaml) -> str -> Prop :=
| XNoPair w : loose w -> pairs ut [] w
| XPair w k wk wv v s : loose w -> plain_key ut k -> loose wk -> loose wv -> item ut v s ->
    pairs ut [(k, v)] (w ++ k ++ wk ++ lit ":" ++ wv ++ s)
| XPairs w k wk wv v s l r : loose w -> plain_key ut k -> loose wk -> loose wv -> item ut v s ->
    pairs ut l r -> l <> [] ->
    pairs ut ((k, v) :: l) (w ++ k ++ wk ++ lit ":" ++ wv ++ s ++ lit "," ++ r).

(** Lines with nothing but space separators. *)
Inductive blanks : str -> Prop :=
| BNone : blanks []
| BLine z c b : seps z -> c = NL \/ c = CR -> blanks b -> blanks (z ++ c :: b).
Definition breaks (s : str) : Prop := exists c r, s = c :: r /\ (c = NL \/ c = CR).

(** Comments on lines of their own, with the blank lines after each. *)
Inductive remarks : list str -> str -> Prop :=
| MNone : remarks [] []
| MLine z c b cs t : seps z -> one_line c -> blanks b -> breaks b -> remarks cs t ->
    remarks (c :: cs) (z ++ lit "#" ++ c ++ b ++ t).

(** The file up to its collection: comments [cs0], the line "---", comments [cs]. *)
Inductive heading : list str -> list str -> str -> Prop :=
| HPlain b cs t : blanks b -> b <> [] -> remarks cs t -> heading [] cs (lit "---" ++ b ++ t)
| HLead b0 cs0 t0 b cs t : blanks b0 -> cs0 <> [] -> remarks cs0 t0 -> blanks b -> b <> [] -> remarks cs t ->
    heading cs0 cs (b0 ++ t0 ++ lit "---" ++ b ++ t).

(** The file after its collection. *)
Inductive finish : list str -> str -> Prop :=
| FEnd b n : blanks b -> finish [] (b ++ spaces n)
| FMore b z c cs e : blanks b -> seps z -> one_line c -> e = [] \/ breaks e -> finish cs e ->
    finish (c :: cs) (b ++ z ++ lit "#" ++ c ++ e).

(** A file with an inline sequence. *)
Inductive flow_file (ut : unitab) : document -> str -> Prop :=
| FlowFile cs0 cs l cs1 h s e : heading cs0 cs h -> row ut l s -> finish cs1 e ->
    flow_file ut (mkDoc cs0 (map DComment cs ++ DYaml (InlineArray l) :: map DComment cs1))
      (h ++ lit "[" ++ s ++ lit "]" ++ e).
