(** Specification vocabulary: the node for a value of a type with serde attributes. *)
From Coq Require Import ZArith.
From Verif Require Import Base Ast Num Strings Ser Attr Spec_Look Spec_Ser.
Import ListNotations.

Notation rows := (list (str * yaml)).
Definition item (y : yaml) : arraydata := AElem (mkA None y).
Definition row (e : str * yaml) : hashdata := HElem (mkHE (fst e) (mkA None (snd e))).
(** The key that a node is written as. *)
Definition as_key (y : yaml) (s : str) : Prop :=
  y = Unquoted s \/ exists ps, y = DoubleQ ps /\ text_node s y.
(** The variant of that name. *)
Definition variant (vs : list (str * xvariant)) (n : str) (va : xvariant) : Prop :=
  exists pre post, vs = pre ++ (n, va) :: post /\ ~ In n (map fst pre).

(** The entries of a value: on its own, beside a tag, or of a flattened field. *)
Inductive place := Whole | Beside | Flat.
Definition name_fits (n : str) : Prop := ~ single_quoted n.

(** [node_for t v y]: the value [v] of type [t] is written as [y].
    [rows_for how t v m es]: its entries are [es]; they are those of a map if [m], then the names
    of fields, tags and variants are written as the keys of maps are. *)
Inductive node_for : xty -> sval -> yaml -> Prop :=
| NBool b : node_for XBool (SBool b) (Unquoted (lit (if b then "true" else "false")))
| NInt k z s : shortest z s -> node_for (XInt k) (SInt k z) (Unquoted s)
| NFloat x : node_for XFloat (SFloat x) (Unquoted x)
| NChar c y : text_node [c] y -> node_for XChar (SChar c) y
| NStr s y : text_node s y -> node_for XStr (SStr s) y
| NUnit : node_for XUnit SUnit (Unquoted (lit "~"))
| NNone t : node_for (XOption t) SNone (Unquoted (lit "~"))
| NSome t v y : node_for t v y -> node_for (XOption t) (SSome v) y
| NNewtype t v y : node_for t v y -> node_for (XNewtype t) (SNewtype v) y
| NSeq t l ys : nodes_for (repeat t (length l)) l ys -> node_for (XSeq t) (SSeq l) (Array (map item ys))
| NTuple ts l ys : nodes_for ts l ys -> node_for (XTuple ts) (STuple l) (InlineArray ys)
| NRows t v m es : rows_for Whole t v m es -> node_for t v (Hash (map row es))
  (* the name of a variant is not written, unless it is all there is *)
| NUnitV vs n y : variant vs n XVUnit -> text_node n y -> node_for (XEnum vs) (SUnitV n) y
| NNewV vs n t v y : variant vs n (XVNew t) -> node_for t v y -> node_for (XEnum vs) (SNewV n v) y
| NTupV vs n ts l ys : variant vs n (XVTup ts) -> nodes_for ts l ys -> node_for (XEnum vs) (STupV n l) (InlineArray ys)
| NUUnit vs n : variant vs n XVUnit -> node_for (XUntagged vs) (SUnitV n) (Unquoted (lit "~"))
| NUNew vs n t v y : variant vs n (XVNew t) -> node_for t v y -> node_for (XUntagged vs) (SNewV n v) y
| NUTup vs n ts l ys : variant vs n (XVTup ts) -> nodes_for ts l ys -> node_for (XUntagged vs) (STupV n l) (InlineArray ys)
with rows_for : place -> xty -> sval -> bool -> rows -> Prop :=
| WFields how fs l es : (forall n f t, In (n, (f, t)) fs -> f = false) ->
    fields_for (map (fun f => (fst f, snd (snd f))) fs) l es -> rows_for how (XStruct fs) (SStruct l) false es
| WFlat how fs l es n t : In (n, (true, t)) fs -> flat_for fs l es -> rows_for how (XStruct fs) (SStruct l) true es
| WMap how k w l es : entries_for k w l es -> rows_for how (XMap k w) (SMap l) true es
| WNewtype how t v m es : rows_for how t v m es -> rows_for how (XNewtype t) (SNewtype v) m es
| WUnit how : how <> Whole -> rows_for how XUnit SUnit true []
| WNone t : rows_for Flat (XOption t) SNone true []
| WSome t v m es : rows_for Flat t v m es -> rows_for Flat (XOption t) (SSome v) m es
  (* variants are named *)
| WUnitV how vs n : how <> Whole -> variant vs n XVUnit -> name_fits n -> rows_for how (XEnum vs) (SUnitV n) true [(n, Unquoted (lit "~"))]
| WNewV how vs n t v y : how <> Whole -> variant vs n (XVNew t) -> name_fits n -> node_for t v y ->
    rows_for how (XEnum vs) (SNewV n v) true [(n, y)]
| WTupV how vs n ts l ys : how <> Whole -> variant vs n (XVTup ts) -> name_fits n -> nodes_for ts l ys ->
    rows_for how (XEnum vs) (STupV n l) true [(n, InlineArray ys)]
| WStructV how vs n fs l es : how <> Whole -> variant vs n (XVStruct fs) -> name_fits n -> fields_for fs l es ->
    rows_for how (XEnum vs) (SStructV n l) true [(n, Hash (map row es))]
| WStructW vs n fs l es : variant vs n (XVStruct fs) -> fields_for fs l es -> rows_for Whole (XEnum vs) (SStructV n l) false es
| WUUnit how vs n : how <> Whole -> variant vs n XVUnit -> rows_for how (XUntagged vs) (SUnitV n) true []
| WUNew how vs n t v m es : variant vs n (XVNew t) -> rows_for how t v m es -> rows_for how (XUntagged vs) (SNewV n v) m es
| WUStruct how vs n fs l es : variant vs n (XVStruct fs) -> fields_for fs l es -> rows_for how (XUntagged vs) (SStructV n l) false es
  (* the tag comes first *)
| WTUnit how tag vs n y : variant vs n XVUnit -> text_node n y -> rows_for how (XTagged tag vs) (SUnitV n) false [(tag, y)]
| WTNew how tag vs n t v m es y : variant vs n (XVNew t) -> text_node n y -> rows_for Beside t v m es -> (m = true -> name_fits tag) ->
    rows_for how (XTagged tag vs) (SNewV n v) m ((tag, y) :: es)
| WTStruct how tag vs n fs l es y : variant vs n (XVStruct fs) -> text_node n y -> fields_for fs l es ->
    rows_for how (XTagged tag vs) (SStructV n l) false ((tag, y) :: es)
with fields_for : list (str * xty) -> list (str * sval) -> rows -> Prop :=
| FNil : fields_for [] [] []
| FCons n t v y fs l es : node_for t v y -> fields_for fs l es -> fields_for ((n, t) :: fs) ((n, v) :: l) ((n, y) :: es)
with flat_for : list (str * (bool * xty)) -> list (str * sval) -> rows -> Prop :=
| LNil : flat_for [] [] []
| LField n t v y fs l es : node_for t v y -> name_fits n -> flat_for fs l es ->
    flat_for ((n, (false, t)) :: fs) ((n, v) :: l) ((n, y) :: es)
| LFlat n t v m fs l es' es : rows_for Flat t v m es' -> (m = false -> Forall (fun e => name_fits (fst e)) es') -> flat_for fs l es ->
    flat_for ((n, (true, t)) :: fs) ((n, v) :: l) (es' ++ es)
with nodes_for : list xty -> list sval -> list yaml -> Prop :=
| SNil : nodes_for [] [] []
| SCons t v y ts l ys : node_for t v y -> nodes_for ts l ys -> nodes_for (t :: ts) (v :: l) (y :: ys)
with entries_for : xty -> xty -> list (sval * sval) -> rows -> Prop :=
| ENil k w : entries_for k w [] []
| ECons k w x kx s v y l es : node_for k x kx -> as_key kx s -> node_for w v y -> entries_for k w l es ->
    entries_for k w ((x, v) :: l) ((s, y) :: es).
