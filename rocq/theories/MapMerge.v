(** Model of what a typed reader holds after reading mappings into std's maps.

    serde's visitor for [HashMap] and [BTreeMap] reads the entries that [VecMapAccess]
    gives it (/repo/src/yaml/deserializer.rs 460-503) and inserts them one after the other:
    an entry with a key seen before replaces the value and keeps the first key.  De.v lists
    the entries in the order of reading ([SMap]); this file makes the map of them.
    Simplifications: the map is a list of its entries in the order in which the keys were
    first seen (the order of [HashMap] is arbitrary and that of [BTreeMap] is that of the
    keys: no theorem is about it); keys are compared by their model values, which is what
    the derived [Eq] of the readable key types does (an f64 is no key in Rust). *)
From Coq Require Import ZArith.
From Verif Require Import Base Ast Num Ser De Peg YamlGrammar Consume FromStr.
Import ListNotations.

(** [==] of integer types (serializer.rs 173-310, the kinds of [sval]). *)
Definition ikind_eqb (a b : ikind) : bool :=
  match a, b with
  | I8, I8 | I16, I16 | I32, I32 | I64, I64 | I128, I128
  | U8, U8 | U16, U16 | U32, U32 | U64, U64 | U128, U128 => true
  | _, _ => false
  end.

Section Eqb.
  Context {A B : Type} (f : A -> B -> bool).
  (** Lists of the same length with equal elements (derived [PartialEq], used for the keys
      of deserializer.rs 460-503). *)
  Fixpoint eqb_all (l : list A) (m : list B) : bool :=
    match l, m with
    | [], [] => true
    | x :: l', y :: m' => f x y && eqb_all l' m'
    | _, _ => false
    end.
End Eqb.

(** [==] of keys, as derived for the types that serde reads (deserializer.rs 481-492 gives
    the key to the seed). *)
Fixpoint sval_eqb (v w : sval) {struct v} : bool :=
  match v, w with
  | SBool a, SBool b => Bool.eqb a b
  | SInt k a, SInt j b => ikind_eqb k j && (a =? b)%Z
  | SFloat a, SFloat b | SStr a, SStr b | SUnitV a, SUnitV b => seqb a b
  | SChar a, SChar b => ceqb a b
  | SBytes a, SBytes b => seqb a b
  | SNone, SNone | SUnit, SUnit | SUnitStruct, SUnitStruct => true
  | SSome a, SSome b | SNewtype a, SNewtype b => sval_eqb a b
  | SSeq a, SSeq b | STuple a, STuple b => eqb_all sval_eqb a b
  | SMap a, SMap b =>
      eqb_all (fun x y => match x, y with (k, v), (j, w) => sval_eqb k j && sval_eqb v w end) a b
  | SStruct a, SStruct b =>
      eqb_all (fun x y => match x, y with (k, v), (j, w) => seqb k j && sval_eqb v w end) a b
  | SNewV n a, SNewV m b => seqb n m && sval_eqb a b
  | STupV n a, STupV m b => seqb n m && eqb_all sval_eqb a b
  | SStructV n a, SStructV m b =>
      seqb n m && eqb_all (fun x y => match x, y with (k, v), (j, w) => seqb k j && sval_eqb v w end) a b
  | _, _ => false
  end.

(** [insert] of std's maps, called for every entry of deserializer.rs 481-503. *)
Fixpoint insert (k v : sval) (m : list (sval * sval)) : list (sval * sval) :=
  match m with
  | [] => [(k, v)]
  | (j, w) :: m' => if sval_eqb j k then (j, v) :: m' else (j, w) :: insert k v m'
  end.
(** The loop of serde's map visitor over deserializer.rs 481-503. *)
Definition collect (es : list (sval * sval)) : list (sval * sval) :=
  fold_left (fun m e => insert (fst e) (snd e) m) es [].

(** The value held for the entries read (deserializer.rs 460-503, at every level). *)
Fixpoint held (v : sval) : sval :=
  match v with
  | SSome v => SSome (held v)
  | SNewtype v => SNewtype (held v)
  | SSeq l => SSeq (map held l)
  | STuple l => STuple (map held l)
  | SMap l => SMap (collect (map (fun e => match e with (k, v) => (held k, held v) end) l))
  | SStruct l => SStruct (map (fun e => match e with (k, v) => (k, held v) end) l)
  | SNewV n v => SNewV n (held v)
  | STupV n l => STupV n (map held l)
  | SStructV n l => SStructV n (map (fun e => match e with (k, v) => (k, held v) end) l)
  | _ => v
  end.

(** [from_yaml] and [from_yaml_str] into types with std's maps: deserializer.rs 122-138. *)
Definition read_maps (t : ty) (y : yaml) : option sval := option_map held (from_yaml t y).
Definition read_maps_str (ut : unitab) (t : ty) (s : str) : cres sval :=
  match from_yaml_str ut t s with CVal v => CVal (held v) | CErr => CErr | CPanic => CPanic end.
