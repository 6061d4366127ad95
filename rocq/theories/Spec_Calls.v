(** Specification vocabulary: [Serialize] impls that call the methods of a map in any order. *)
From Verif Require Import Base Ast Ser Peg SerCalls Spec_Serde Spec_Look Spec_Typed Spec_Ser Spec_Refs Spec_Reads.
Import ListNotations.

(** After these calls a call of [serialize_value] has no key. *)
Definition keyless (l : list (bool * script)) : Prop := l = [] \/ exists l0 p, l = l0 ++ [(false, p)].
(** Every value comes directly after a key. *)
Definition in_turn (l : list (bool * script)) : Prop := forall l1 p l2, l = l1 ++ (false, p) :: l2 -> ~ keyless l1.
(** The entries that come of the calls: a key that no value follows is forgotten. *)
Inductive kept : list (bool * script) -> list (script * script) -> Prop :=
| KeptNil : kept [] []
| KeptPair k v l es : kept l es -> kept ((true, k) :: (false, v) :: l) ((k, v) :: es)
| KeptLast k : kept [(true, k)] []
| KeptAgain k k' l es : kept ((true, k') :: l) es -> kept ((true, k) :: (true, k') :: l) es.

(** The node serves as a key, with this text. *)
Definition as_key (y : yaml) (s : str) : Prop :=
  match y with Unquoted t => s = t | DoubleQ _ => scalar y s | _ => False end.

(** What the calls make. *)
Inductive makes : script -> yaml -> Prop :=
| MkOne v y : writes v y -> makes (QOne v) y
| MkSeq l ys : Forall2 makes l ys -> makes (QSeq l) (Array (map (fun y => AElem (mkA None y)) ys))
| MkTuple l ys : Forall2 makes l ys -> makes (QTuple l) (InlineArray ys)
| MkMap l es xs : kept l es ->
    Forall (fun c => exists y, makes (snd c) y /\ (fst c = true -> exists s, as_key y s)) l ->
    Forall2 (fun e x => (exists y, makes (fst e) y /\ as_key y (fst x)) /\ makes (snd e) (snd x)) es xs ->
    makes (QMap l) (Hash (map (fun x => HElem (mkHE (fst x) (mkA None (snd x)))) xs))
| MkStruct l xs : Forall2 (fun f x => fst x = fst f /\ makes (snd f) (snd x)) l xs ->
    makes (QStruct l) (Hash (map (fun x => HElem (mkHE (fst x) (mkA None (snd x)))) xs)).

(** The calls of a map all go well. *)
Definition all_well (l : list (bool * script)) : Prop :=
  in_turn l /\ Forall (fun c => exists y, makes (snd c) y /\ (fst c = true -> exists s, as_key y s)) l.

(** In the order of the calls, the first that does not go well is a value without a key. *)
Inductive misuses : script -> Prop :=
| MisHere l1 v l2 : all_well l1 -> keyless l1 -> misuses (QMap (l1 ++ (false, v) :: l2))
| MisKey l1 k l2 : all_well l1 -> misuses k -> misuses (QMap (l1 ++ (true, k) :: l2))
| MisValue l1 v l2 : all_well l1 -> ~ keyless l1 -> misuses v -> misuses (QMap (l1 ++ (false, v) :: l2))
| MisSeq l1 p l2 : Forall (fun q => exists y, makes q y) l1 -> misuses p -> misuses (QSeq (l1 ++ p :: l2))
| MisTuple l1 p l2 : Forall (fun q => exists y, makes q y) l1 -> misuses p -> misuses (QTuple (l1 ++ p :: l2))
| MisStruct l1 n p l2 : Forall (fun f => exists y, makes (snd f) y) l1 -> misuses p -> misuses (QStruct (l1 ++ (n, p) :: l2)).

(** In every map, at any depth, every value comes directly after a key. *)
Inductive orderly : script -> Prop :=
| OrdOne v : orderly (QOne v)
| OrdSeq l : Forall orderly l -> orderly (QSeq l)
| OrdTuple l : Forall orderly l -> orderly (QTuple l)
| OrdMap l : in_turn l -> Forall (fun c => orderly (snd c)) l -> orderly (QMap l)
| OrdStruct l : Forall (fun f => orderly (snd f)) l -> orderly (QStruct l).

(** The calls of a derived impl or one of std. *)
Fixpoint calls_of (v : sval) : script :=
  match v with
  | SSome v | SNewtype v | SNewV _ v => calls_of v
  | SSeq l => QSeq (map calls_of l)
  | STuple l | STupV _ l => QTuple (map calls_of l)
  | SMap l => QMap (flat_map (fun kv => match kv with (k, v) => [(true, calls_of k); (false, calls_of v)] end) l)
  | SStruct l | SStructV _ l => QStruct (map (fun f => match f with (n, v) => (n, calls_of v) end) l)
  | _ => QOne v
  end.
