(** Specification vocabulary: what a typed reader returns in the presence of references. *)
From Coq Require Import ZArith.
From Verif Require Import Base Ast Num Ser De Spec_Serde Spec_Look Spec_Typed Spec_Refs.
Import ListNotations.

(** [n] was labelled, most recently, [y]. *)
Definition newest (a : anchors) (n : str) (y : yaml) : Prop :=
  exists b c, a = b ++ (n, y) :: c /\ ~ In n (map fst b).
(** [y'] is [y], or what the reference [y] refers to. *)
Definition target (a : anchors) (y y' : yaml) : Prop :=
  (is_ref y = false /\ y' = y) \/ exists n, y = Anchor n /\ newest a n y'.

(** The labels known after entering a collection. *)
Definition labels_of (y : yaml) : anchors :=
  flat_map (fun e => match a_alias e with Some n => [(n, a_value e)] | None => [] end) (children y).
Definition entered (a : anchors) (y : yaml) : anchors := rev (labels_of y) ++ a.
Definition is_seq (y : yaml) : Prop := match y with Array _ | InlineArray _ => True | _ => False end.
Definition is_map (y : yaml) : Prop := match y with Hash _ | InlineHash _ => True | _ => False end.
Definition elements_of (y : yaml) : list yaml := map a_value (children y).
Definition entries_of (y : yaml) : list (str * yaml) :=
  match y with
  | Hash l => flat_map (fun d => match d with HElem e => [(he_key e, a_value (he_value e))] | _ => [] end) l
  | InlineHash l => l
  | _ => []
  end.

(** A scalar and its text. *)
Definition scalar (y : yaml) (s : str) : Prop := text (seen y) s.
Definition no_scalar (y : yaml) : Prop := match y with
  | Hash _ | InlineHash _ | Array _ | InlineArray _ | Anchor _ => True | _ => False end.
Definition null_node (y : yaml) : Prop := exists s, y = Unquoted s /\ In s null_words.

(** The fields among entries, with their types. *)
Definition known (fs : list (str * ty)) (es : list (str * yaml)) : list (str * (ty * yaml)) :=
  flat_map (fun e => match find (fun f => seqb (fst f) (fst e)) fs with
                     | Some (n, t) => [(n, (t, snd e))]
                     | None => []
                     end) es.

(** The variant a node names, its content, and the labels known there. *)
Definition picks (a : anchors) (y : yaml) (n : str) (c : yaml) (a1 : anchors) : Prop :=
  exists y', target a y y' /\
    ((scalar y' n /\ c = Unquoted (lit "~") /\ a1 = a) \/
     (is_map y' /\ entries_of y' = [(n, c)] /\ a1 = entered a y')).
(** The type of the content of a variant. *)
Definition content_type (v : variant) : option ty :=
  match v with VaUnit => None | VaNew t => Some t | VaTup ts => Some (TTuple ts) | VaStruct fs => Some (TStruct fs) end.

(** The variant holding this content. *)
Definition as_variant (n : str) (w : variant) (v v' : sval) : Prop :=
  match w, v with
  | VaNew _, v => v' = SNewV n v
  | VaTup _, STuple vs => v' = STupV n vs
  | VaStruct _, SStruct xs => v' = SStructV n xs
  | _, _ => False
  end.
(** The value of a field: what was read for its name, or nothing. *)
Definition field_of (got : list (str * sval)) (es : list (str * yaml)) (f : str * ty) (x : str * sval) : Prop :=
  fst x = fst f /\
  (In (fst f, snd x) got \/ (~ In (fst f) (map fst es) /\ is_option (snd f) = true /\ snd x = SNone)).

(** Reading a [t] from [y] with the labels [a] known yields the value; then the labels
    [a1] are known. *)
Inductive yields : ty -> yaml -> anchors -> sval -> anchors -> Prop :=
| YBool y s b a : target a y (Unquoted s) -> In s (bool_words b) -> yields TBool y a (SBool b) a
| YInt k y y' s z a : target a y y' -> scalar y' s -> k <> I128 -> k <> U128 -> decimal_text k s z -> fits k z ->
    yields (TInt k) y a (SInt k z) a
| YFloat y y' s a : target a y y' -> scalar y' s -> float_literal s -> yields TFloat y a (SFloat s) a
| YChar y y' c a : target a y y' -> scalar y' [c] -> yields TChar y a (SChar c) a
| YStr y y' s a : target a y y' -> scalar y' s -> yields TStr y a (SStr s) a
| YBytes y y' a bs a1 : target a y y' -> is_seq y' ->
    yields_all (map (pair (TInt U8)) (elements_of y')) (entered a y') (map (fun b => SInt U8 (Z.of_N b)) bs) a1 ->
    yields TBytes y a (SBytes bs) a1
| YNone t y y' a : target a y y' -> null_node y' -> yields (TOption t) y a SNone a
| YSome t y y' a v a1 : target a y y' -> ~ null_node y' -> yields t y' a v a1 -> yields (TOption t) y a (SSome v) a1
| YUnit y a : yields TUnit y a SUnit a
| YUnitStruct y a : yields TUnitStruct y a SUnitStruct a
| YNew t y a v a1 : yields t y a v a1 -> yields (TNewtype t) y a (SNewtype v) a1
| YSeq t y y' a vs a1 : target a y y' -> is_seq y' ->
    yields_all (map (pair t) (elements_of y')) (entered a y') vs a1 -> yields (TSeq t) y a (SSeq vs) a1
| YTuple ts y y' a vs a1 : target a y y' -> is_seq y' -> length ts <= length (elements_of y') ->
    yields_all (combine ts (elements_of y')) (entered a y') vs a1 -> yields (TTuple ts) y a (STuple vs) a1
| YMap k v y y' a xs a1 : target a y y' -> is_map y' ->
    yields_all (flat_map (fun e => [(k, Unquoted (fst e)); (v, snd e)]) (entries_of y')) (entered a y')
      (flat_map (fun x => [fst x; snd x]) xs) a1 ->
    yields (TMap k v) y a (SMap xs) a1
| YStruct fs y y' a vs a1 xs : target a y y' -> is_map y' -> NoDup (map fst (known fs (entries_of y'))) ->
    yields_all (map snd (known fs (entries_of y'))) (entered a y') vs a1 ->
    Forall2 (field_of (combine (map fst (known fs (entries_of y'))) vs) (entries_of y')) fs xs ->
    yields (TStruct fs) y a (SStruct xs) a1
| YUnitVariant vs y a n c a1 : picks a y n c a1 -> find (fun x => seqb (fst x) n) vs = Some (n, VaUnit) ->
    yields (TEnum vs) y a (SUnitV n) a1
| YVariant vs y a n c a0 w t v v' a1 : picks a y n c a0 -> find (fun x => seqb (fst x) n) vs = Some (n, w) ->
    content_type w = Some t -> yields t c a0 v a1 -> as_variant n w v v' -> yields (TEnum vs) y a v' a1
(** One after the other. *)
with yields_all : list (ty * yaml) -> anchors -> list sval -> anchors -> Prop :=
| YNil a : yields_all [] a [] a
| YCons t y l v vs a a1 a2 : yields t y a v a1 -> yields_all l a1 vs a2 -> yields_all ((t, y) :: l) a (v :: vs) a2.
