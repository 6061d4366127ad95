(** Specification vocabulary: which error a typed reader returns. *)
From Coq Require Import ZArith.
From Verif Require Import Base Ast Num Ser De DeErr Spec_Serde Spec_Look Spec_Typed Spec_Refs Spec_Reads.
Import ListNotations.

(** The types whose reader follows a reference. *)
Definition follows (t : ty) : Prop :=
  match t with TInt I128 | TInt U128 | TUnit | TUnitStruct | TNewtype _ => False | _ => True end.

(** To read a [t] from [y] the nodes in the list are read, in this order, with the labels
    [a1] known at the start. *)
Inductive asks : ty -> yaml -> anchors -> list (ty * yaml) -> anchors -> Prop :=
| AskSome t y y' a : target a y y' -> ~ null_node y' -> asks (TOption t) y a [(t, y')] a
| AskNew t y a : asks (TNewtype t) y a [(t, y)] a
| AskBytes y y' a : target a y y' -> is_seq y' ->
    asks TBytes y a (map (pair (TInt U8)) (elements_of y')) (entered a y')
| AskSeq t y y' a : target a y y' -> is_seq y' ->
    asks (TSeq t) y a (map (pair t) (elements_of y')) (entered a y')
| AskTuple ts y y' a : target a y y' -> is_seq y' ->
    asks (TTuple ts) y a (combine ts (elements_of y')) (entered a y')
| AskMap k v y y' a : target a y y' -> is_map y' ->
    asks (TMap k v) y a (flat_map (fun e => [(k, Unquoted (fst e)); (v, snd e)]) (entries_of y')) (entered a y')
| AskStruct fs y y' a es rest : target a y y' -> is_map y' -> entries_of y' = es ++ rest ->
    NoDup (map fst (known fs es)) ->
    asks (TStruct fs) y a (map snd (known fs es)) (entered a y')
| AskEnum vs y a n c a1 v t : picks a y n c a1 -> find (fun x => seqb (fst x) n) vs = Some (n, v) ->
    content_type v = Some t -> asks (TEnum vs) y a [(t, c)] a1.

Section Wrong.
  (** The nodes are all read; then these labels are known. *)
  Context (all_read : list (ty * yaml) -> anchors -> anchors -> Prop).

(** The complaints about a node itself. *)
Inductive complaint : ty -> yaml -> anchors -> de_err -> Prop :=
| CUndefined t n a : follows t -> ~ In n (map fst a) -> complaint t (Anchor n) a (Own (EUndefined n))
| CBoolGot y s a : target a y (Unquoted s) -> ~ In s (bool_words true) -> ~ In s (bool_words false) ->
    complaint TBool y a (Own (EBoolGot s))
| CBool y y' a : target a y y' -> (forall s, y' <> Unquoted s) -> complaint TBool y a (Own EBool)
| CInteger k y y' a : target a y y' -> no_scalar y' -> In k [I8; I16; I32; I64] -> complaint (TInt k) y a (Own EInteger)
| CUnsigned k y y' a : target a y y' -> no_scalar y' -> In k [U8; U16; U32; U64] -> complaint (TInt k) y a (Own EUnsigned)
| CNotInteger k y y' s a : target a y y' -> scalar y' s -> k <> I128 -> k <> U128 ->
    (forall z, decimal_text k s z -> In k [I8; I16; I32; I64] -> ~ fits I64 z) ->
    (forall z, decimal_text k s z -> In k [U8; U16; U32; U64] -> ~ fits U64 z) ->
    complaint (TInt k) y a (Foreign (FNotInteger s))
| CRange k y y' s z a : target a y y' -> scalar y' s -> k <> I128 -> k <> U128 -> decimal_text k s z ->
    (In k [I8; I16; I32; I64] -> fits I64 z) -> (In k [U8; U16; U32; U64] -> fits U64 z) -> ~ fits k z ->
    complaint (TInt k) y a (Foreign (FRange k z))
| CUnsupported k y a : k = I128 \/ k = U128 -> complaint (TInt k) y a (Foreign (FUnsupported k))
| CFloat y y' a : target a y y' -> no_scalar y' -> complaint TFloat y a (Own EFloat)
| CNotFloat y y' s a : target a y y' -> scalar y' s -> ~ float_literal s -> complaint TFloat y a (Foreign (FNotFloat s))
| CString t y y' a : t = TStr \/ t = TChar -> target a y y' -> no_scalar y' -> complaint t y a (Own EString)
| CChar y y' s a : target a y y' -> scalar y' s -> length s <> 1 -> complaint TChar y a (Foreign (FChar s))
| CSequence t y y' a : (match t with TBytes | TSeq _ | TTuple _ => True | _ => False end) ->
    target a y y' -> ~ is_seq y' -> complaint t y a (Own ESequence)
| CLength ts y y' a a1 : target a y y' -> is_seq y' -> length (elements_of y') < length ts ->
    all_read (combine ts (elements_of y')) (entered a y') a1 ->
    complaint (TTuple ts) y a (Foreign (FLength (length (elements_of y'))))
| CMap t y y' a : (match t with TMap _ _ | TStruct _ => True | _ => False end) ->
    target a y y' -> ~ is_map y' -> complaint t y a (Own EMap)
| CDuplicate fs y y' a es n c rest a1 : target a y y' -> is_map y' -> entries_of y' = es ++ (n, c) :: rest ->
    NoDup (map fst (known fs es)) -> In n (map fst (known fs es)) ->
    all_read (map snd (known fs es)) (entered a y') a1 ->
    complaint (TStruct fs) y a (Foreign (FDuplicate n))
| CMissing fs y y' a a1 f1 n t f2 : target a y y' -> is_map y' -> NoDup (map fst (known fs (entries_of y'))) ->
    all_read (map snd (known fs (entries_of y'))) (entered a y') a1 ->
    fs = f1 ++ (n, t) :: f2 -> is_option t = false -> ~ In n (map fst (entries_of y')) ->
    (forall m u, In (m, u) f1 -> is_option u = true \/ In m (map fst (entries_of y'))) ->
    complaint (TStruct fs) y a (Foreign (FMissing n))
| CSingleKey vs y l a : target a y (Hash l) -> length (entries_of (Hash l)) <> 1 -> complaint (TEnum vs) y a (Own ESingleKey)
| CSingleKeyInline vs y l a : target a y (InlineHash l) -> length l <> 1 -> complaint (TEnum vs) y a (Own ESingleKeyInline)
| CEnum vs y y' a : target a y y' -> is_seq y' \/ is_ref y' = true -> complaint (TEnum vs) y a (Own EEnum)
| CVariant vs y a n c a1 : picks a y n c a1 -> ~ In n (map fst vs) -> complaint (TEnum vs) y a (Foreign (FVariant n)).

(** The first node, in the order of reading, with a complaint. *)
Inductive first_wrong : ty -> yaml -> anchors -> de_err -> Prop :=
| Here t y a e : complaint t y a e -> first_wrong t y a e
| Inside t y a l1 t1 y1 l2 a0 a1 e :
    asks t y a (l1 ++ (t1, y1) :: l2) a0 -> all_read l1 a0 a1 ->
    first_wrong t1 y1 a1 e -> first_wrong t y a e.
End Wrong.

Definition all_read (l : list (ty * yaml)) (a a1 : anchors) : Prop := exists vs, yields_all l a vs a1.
(** The first node, in the order of reading, with a complaint. *)
Definition first_complaint : ty -> yaml -> anchors -> de_err -> Prop := first_wrong all_read.

(** The text of the message about a node, where the crate itself writes it: by the type
    asked for and what the node is ([debug]: the [Debug] form of a string). *)
Inductive says (debug : str -> str) : ty -> yaml -> anchors -> str -> Prop :=
| SayUndefined t n a : ~ In n (map fst a) -> says debug t (Anchor n) a (lit "undefined anchor: " ++ n)
| SayBoolGot y s a : target a y (Unquoted s) -> says debug TBool y a (lit "expected bool, got " ++ debug s)
| SayBool y y' a : target a y y' -> (forall s, y' <> Unquoted s) -> says debug TBool y a (lit "expected bool")
| SaySigned k y y' a : target a y y' -> In k [I8; I16; I32; I64] -> no_scalar y' -> says debug (TInt k) y a (lit "expected integer")
| SayUnsigned k y y' a : target a y y' -> In k [U8; U16; U32; U64] -> no_scalar y' -> says debug (TInt k) y a (lit "expected unsigned integer")
| SayFloat y y' a : target a y y' -> no_scalar y' -> says debug TFloat y a (lit "expected float")
| SayString t y y' a : t = TStr \/ t = TChar -> target a y y' -> no_scalar y' -> says debug t y a (lit "expected string")
| SaySequence t y y' a : (match t with TBytes | TSeq _ | TTuple _ => True | _ => False end) ->
    target a y y' -> ~ is_seq y' -> says debug t y a (lit "expected sequence")
| SayMap t y y' a : (match t with TMap _ _ | TStruct _ => True | _ => False end) ->
    target a y y' -> ~ is_map y' -> says debug t y a (lit "expected map")
| SayKeys vs y l a : target a y (Hash l) -> says debug (TEnum vs) y a (lit "expected single-key map for tagged enum variant")
| SayKeysInline vs y l a : target a y (InlineHash l) ->
    says debug (TEnum vs) y a (lit "expected single-key inline hash for tagged enum variant")
| SayEnum vs y y' a : target a y y' -> ~ is_map y' -> says debug (TEnum vs) y a (lit "expected string or map for enum").
