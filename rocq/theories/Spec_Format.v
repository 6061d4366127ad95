(** Specification vocabulary for the format/parse round trip: the trees and documents in
    canonical form. *)
From Verif Require Import Base Ast YamlGrammar Spec_Parse.
Import ListNotations.

(** ---- scalars ---- *)

(** A colon is never last and never before a space separator. *)
Definition colons_inside (s : str) : Prop :=
  (forall r, s <> r ++ [chr ":"]) /\ (forall c, is_zs c = true -> ~ has_pair (chr ":") c s).

(** "*" or "&" before a name would be read as a reference or an alias, "-" before a
    space as a sequence element. *)
Definition not_marker (ut : unitab) (s : str) : Prop :=
  s <> lit "-" /\
  forall a b r, s = a :: b :: r ->
    ~ ((a = chr "*" \/ a = chr "&") /\ name_char ut b) /\ ~ (a = chr "-" /\ is_zs b = true).

(** Text of an unquoted scalar in block position. *)
Definition block_text (ut : unitab) (s : str) : Prop :=
  (exists c r, s = c :: r /\ is_zs c = false /\ ~ In c (lit "[]{}'>|" ++ [DQUOTE]))
  /\ one_line s /\ ~ In (chr "#") s /\ (forall r, s <> r ++ [SP])
  /\ colons_inside s /\ not_marker ut s.

(** Text of an unquoted scalar in an inline collection. *)
Definition inline_text (ut : unitab) (s : str) : Prop :=
  (exists c r, s = c :: r /\ c <> SP /\ c <> QUOTE)
  /\ one_line s /\ (forall r, s <> r ++ [SP])
  /\ (forall c, In c (lit ",[]{}#>|" ++ [DQUOTE]) -> ~ In c s)
  /\ (forall r, s <> r ++ [chr ":"]) /\ ~ has_pair (chr ":") SP s
  /\ (forall b r, s = chr "*" :: b :: r -> ~ name_char ut b).

(** No two neighbours are related. *)
Fixpoint no_neighbours {A} (bad : A -> A -> Prop) (l : list A) : Prop :=
  match l with
  | a :: ((b :: _) as l') => ~ bad a b /\ no_neighbours bad l'
  | _ => True
  end.

(** Parts of quoted scalars that the parser keeps apart: no two texts and no two runs of
    line breaks next to each other. *)
Definition sq_merge (p q : sq_part) : Prop :=
  match p, q with
  | SQ_Str _, SQ_Str _ => True
  | (SQ_Blank _ | SQ_RemNl), (SQ_Blank _ | SQ_RemNl) => True
  | _, _ => False
  end.
Definition dq_merge (p q : dq_part) : Prop :=
  match p, q with
  | DQ_Str _, DQ_Str _ => True
  | (DQ_Blank _ | DQ_RemNl), (DQ_Blank _ | DQ_RemNl) => True
  | _, _ => False
  end.
Definition sq_canon (ps : list sq_part) : Prop := Forall sq_ok ps /\ no_neighbours sq_merge ps.
Definition dq_canon (ps : list dq_part) : Prop := Forall dq_ok ps /\ no_neighbours dq_merge ps.

(** Lines of a block scalar: the first one is not blank and does not start with white
    space other than the space. *)
Definition block_lines (ls : list str) : Prop :=
  Forall one_line ls /\
  exists c l ls', ls = (c :: l) :: ls' /\ (c = SP \/ is_ws c = false)
    /\ exists d, In d (c :: l) /\ is_zs d = false.

(** ---- inline collections ---- *)

Fixpoint inline_canon (ut : unitab) (y : yaml) : Prop :=
  match y with
  | Unquoted s => inline_text ut s
  | SingleQ ps => sq_canon ps
  | DoubleQ ps => dq_canon ps
  | Anchor s => alias_ok ut s
  | InlineArray l => fold_right (fun v Q => inline_canon ut v /\ Q) True l
  | InlineHash l =>
      fold_right (fun kv Q => (match kv with (k, v) => plain_key ut k /\ inline_canon ut v end) /\ Q) True l
  | _ => False
  end.

(** Nodes written on the line of their key or dash, in block position. *)
Definition flow_canon (ut : unitab) (y : yaml) : Prop :=
  match y with
  | Unquoted s => block_text ut s
  | _ => inline_canon ut y
  end.

(** ---- block collections ---- *)

(** Where a value stands.  [Own]: the parser knows the indentation of the collection it is
    in.  [Head last]: it is the first entry of a mapping, or the first element of a
    sequence, that starts on the line of a dash or after an alias; there the parser still
    uses the indentation of an outer collection.  [last]: no further entry or element
    of such a collection follows. *)
Inductive place : Type := Own | Head (last : bool).
Definition lastp (p : place) : Prop := match p with Own => True | Head b => b = true end.

Definition is_entry (d : hashdata) : bool := match d with HElem _ => true | _ => false end.
Definition one_entry (l : list hashdata) : Prop := length (filter is_entry l) = 1.
Definition alias_canon (ut : unitab) (al : option str) : Prop :=
  match al with Some a => alias_ok ut a | None => True end.

(** [canon p in_seq al y]: the value [y] with alias [al], of a mapping entry or (if
    [in_seq]) a sequence element.
    [entries lead p l]: the items of a mapping whose first value stands at [p]; if [lead],
    comments may come first.  An inline comment follows a value on one line.
    [elements lead l]: the same for sequences. *)
Inductive canon (ut : unitab) : place -> bool -> option str -> yaml -> Prop :=
| CFlow p q al y : flow_canon ut y -> alias_canon ut al -> canon ut p q al y
| CLiteral p q al ls c :
    block_lines ls -> alias_canon ut al ->
    (p = Own \/ p = Head true /\ (forall l ls', ls <> (SP :: l) :: ls')) ->
    canon ut p q al (Literal ls c)
| CFolded p q al ls c :
    block_lines ls -> alias_canon ut al ->
    (p = Own \/ p = Head true /\ (forall l ls', ls <> (SP :: l) :: ls')) ->
    canon ut p q al (Folded ls c)
| CHash p l : entries ut true Own l -> canon ut p false None (Hash l)
| CHashElem p l b :
    entries ut false (Head b) l -> (b = true -> lastp p) ->
    canon ut p true None (Hash l)
| CHashAlias p q a l b :
    entries ut false (Head b) l -> (b = true -> lastp p) ->
    (one_entry l -> lastp p) -> alias_ok ut a ->
    canon ut p q (Some a) (Hash l)
| CArray p l : elements ut true l -> canon ut p false None (Array l)
| CArrayElem p q al x l :
    canon ut (Head false) true (a_alias x) (a_value x) -> elements ut false l ->
    alias_canon ut al -> (q = true \/ al <> None) ->
    canon ut p q al (Array (AElem x :: l))
| CArrayElemC p q al x c l :
    flow_canon ut (a_value x) -> alias_canon ut (a_alias x) -> one_line c ->
    elements ut false l -> alias_canon ut al -> (q = true \/ al <> None) ->
    canon ut p q al (Array (AElem x :: AInlineC c :: l))
with entries (ut : unitab) : bool -> place -> list hashdata -> Prop :=
| EComment p c l : one_line c -> entries ut true p l -> entries ut true p (HComment c :: l)
| ELast lead p e :
    plain_key ut (he_key e) -> canon ut p false (a_alias (he_value e)) (a_value (he_value e)) ->
    entries ut lead p [HElem e]
| ELastC lead p e c :
    plain_key ut (he_key e) -> flow_canon ut (a_value (he_value e)) ->
    alias_canon ut (a_alias (he_value e)) -> one_line c ->
    entries ut lead p [HElem e; HInlineC c]
| ECons lead p e l :
    plain_key ut (he_key e) -> canon ut p false (a_alias (he_value e)) (a_value (he_value e)) ->
    p <> Head true -> entries ut true Own l -> entries ut lead p (HElem e :: l)
| EConsC lead p e c l :
    plain_key ut (he_key e) -> flow_canon ut (a_value (he_value e)) ->
    alias_canon ut (a_alias (he_value e)) -> one_line c ->
    p <> Head true -> entries ut true Own l -> entries ut lead p (HElem e :: HInlineC c :: l)
with elements (ut : unitab) : bool -> list arraydata -> Prop :=
| NComment c l : one_line c -> elements ut true l -> elements ut true (AComment c :: l)
| NLast lead x : canon ut Own true (a_alias x) (a_value x) -> elements ut lead [AElem x]
| NLastC lead x c :
    flow_canon ut (a_value x) -> alias_canon ut (a_alias x) -> one_line c ->
    elements ut lead [AElem x; AInlineC c]
| NCons lead x l :
    canon ut Own true (a_alias x) (a_value x) -> elements ut true l ->
    elements ut lead (AElem x :: l)
| NConsC lead x c l :
    flow_canon ut (a_value x) -> alias_canon ut (a_alias x) -> one_line c ->
    elements ut true l -> elements ut lead (AElem x :: AInlineC c :: l).

(** ---- documents ---- *)

(** One root collection, with comments around it. *)
Definition canon_doc (ut : unitab) (d : document) : Prop :=
  Forall one_line (leading d) /\
  exists a y b, items d = map DComment a ++ DYaml y :: map DComment b
    /\ Forall one_line a /\ Forall one_line b
    /\ match y with
       | Hash l => entries ut false Own l
       | Array l => elements ut false l
       | _ => False
       end.
