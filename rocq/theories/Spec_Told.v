(** Specification vocabulary: what a visitor is told by each method of the deserializer. *)
From Coq Require Import ZArith.
From Verif Require Import Base Ast Num Ser De DeCalls Hints Spec_Serde Spec_Look Spec_Typed Spec_Attr Spec_Refs Spec_Visit Spec_Reads.
Import ListNotations.

(** From [y] one gets to [z] by way of references with these names. *)
Inductive chain (a : anchors) : yaml -> list str -> yaml -> Prop :=
| CHere y : chain a y [] y
| CRef n y l z : newest a n y -> chain a y l z -> chain a (Anchor n) (n :: l) z.

(** The visitor's method for an untyped scalar. *)
Definition scalar_said (v : anyv) (m : said) : Prop :=
  match v with
  | AnUnit => m = SayUnit | AnBool b => m = SayBool b | AnI64 z => m = SayI64 z | AnU64 z => m = SayU64 z
  | AnF64 s => m = SayF64 s | AnStr s => m = SayString s | AnSeq _ | AnMap _ => False
  end.

Definition signed_hint (h : hint) : Prop := In h [HI8; HI16; HI32; HI64].
Definition unsigned_hint (h : hint) : Prop := In h [HU8; HU16; HU32; HU64].
Definition float_hint (h : hint) : Prop := In h [HF32; HF64].
Definition text_hint (h : hint) : Prop := In h [HChar; HStr; HString; HIdentifier].
Definition seq_hint (h : hint) : Prop := In h [HBytes; HByteBuf; HSeq] \/ exists n, h = HTuple n \/ h = HTupleStruct n.
Definition map_hint (h : hint) : Prop := In h [HMap; HStruct].
Definition unit_hint (h : hint) : Prop := In h [HUnit; HUnitStruct; HIgnored].

(** Asked by the method [h] for [y], with the labels [a] known, the deserializer tells the
    visitor [m]; then the labels [b] are known. *)
Inductive hears : hint -> yaml -> anchors -> said -> anchors -> Prop :=
| HeAnyWord y l s v m a : chain a y l (Unquoted s) -> key_means s v -> scalar_said v m -> hears HAny y a m a
| HeAnyText y l z s a : chain a y l z -> (forall w, z <> Unquoted w) -> scalar z s -> hears HAny y a (SayString s) a
| HeAnySeq y l z a : chain a y l z -> is_seq z -> hears HAny y a (SaySeq (elements_of z)) (entered a z)
| HeAnyMap y l z a : chain a y l z -> is_map z -> hears HAny y a (SayMap (entries_of z)) (entered a z)
| HeBool y s b a : target a y (Unquoted s) -> In s (bool_words b) -> hears HBool y a (SayBool b) a
| HeSigned h y z s i a : signed_hint h -> target a y z -> scalar z s -> decimal_text I64 s i -> fits I64 i -> hears h y a (SayI64 i) a
| HeUnsigned h y z s i a : unsigned_hint h -> target a y z -> scalar z s -> decimal_text U64 s i -> fits U64 i -> hears h y a (SayU64 i) a
| HeFloat h y z s a : float_hint h -> target a y z -> scalar z s -> float_literal s -> hears h y a (SayF64 s) a
| HeText h y z s a : text_hint h -> target a y z -> scalar z s -> hears h y a (SayString s) a
| HeNone y z a : target a y z -> null_node z -> hears HOption y a SayNone a
| HeSome y z a : target a y z -> ~ null_node z -> hears HOption y a (SaySome z) a
| HeUnit h y a : unit_hint h -> hears h y a SayUnit a
| HeNewtype y a : hears HNewtype y a (SayNewtype y) a
| HeSeq h y z a : seq_hint h -> target a y z -> is_seq z -> hears h y a (SaySeq (elements_of z)) (entered a z)
| HeMap h y z a : map_hint h -> target a y z -> is_map z -> hears h y a (SayMap (entries_of z)) (entered a z)
| HeEnum y n c a b : picks a y n c b -> hears HEnum y a (SayEnum n c) b.

(** The labels known after an error: those of a mapping that is no variant stay. *)
Definition left_behind (h : hint) (y : yaml) (a b : anchors) : Prop :=
  match h with
  | HEnum => (exists z, target a y z /\ is_map z /\ b = entered a z) \/ ((forall z, target a y z -> ~ is_map z) /\ b = a)
  | _ => b = a
  end.

(** The method that asks for what was said. *)
Definition asks_for (m : said) : hint :=
  match m with
  | SayBool _ => HBool | SayI64 _ => HI64 | SayU64 _ => HU64 | SayF64 _ => HF64 | SayString _ => HString
  | SaySeq _ => HSeq | SayMap _ => HMap | SayEnum _ _ => HEnum | SayNone | SaySome _ => HOption
  | SayNewtype _ => HNewtype | SayUnit => HUnit
  end.

(** ---- the visitors of std and of serde_derive ---- *)

(** Loops that return something made of what they have read. *)
Fixpoint wmap {V A B} (f : A -> B) (w : walk V A) : walk V B :=
  match w with WReturn x => WReturn (f x) | WRefuse => WRefuse | Element d g => Element d (fun o => wmap f (g o)) end.
Fixpoint vmap {V A B} (f : A -> B) (v : visit V A) : visit V B :=
  match v with
  | Return x => Return (f x) | Refuse => Refuse
  | Key d g => Key d (fun o => vmap f (g o)) | Value d g => Value d (fun o => vmap f (g o))
  end.

Definition bool_visitor : visitor sval :=
  mkV _ (fun b => Some (SBool b)) (fun _ => None) (fun _ => None) (fun _ => None) (fun _ => None) None None
    (fun _ a => GErr a) (fun _ a => GErr a) (fun _ => WRefuse) (fun _ => Refuse) (fun _ => ReadNothing).
(** Integers: both methods, with a check of the range. *)
Definition int_visitor (k : ikind) : visitor sval :=
  mkV _ (fun _ => None) (fun z => if in_kind k z then Some (SInt k z) else None)
    (fun z => if in_kind k z then Some (SInt k z) else None) (fun _ => None) (fun _ => None) None None
    (fun _ a => GErr a) (fun _ a => GErr a) (fun _ => WRefuse) (fun _ => Refuse) (fun _ => ReadNothing).
(** Floats (the conversions from integers are left out: they are not called). *)
Definition float_visitor : visitor sval :=
  mkV _ (fun _ => None) (fun _ => None) (fun _ => None) (fun s => Some (SFloat s)) (fun _ => None) None None
    (fun _ a => GErr a) (fun _ a => GErr a) (fun _ => WRefuse) (fun _ => Refuse) (fun _ => ReadNothing).
Definition text_visitor (f : str -> option sval) : visitor sval :=
  mkV _ (fun _ => None) (fun _ => None) (fun _ => None) (fun _ => None) f None None
    (fun _ a => GErr a) (fun _ a => GErr a) (fun _ => WRefuse) (fun _ => Refuse) (fun _ => ReadNothing).
Definition option_visitor (d : seed sval) : visitor sval :=
  mkV _ (fun _ => None) (fun _ => None) (fun _ => None) (fun _ => None) (fun _ => None) (Some SNone) (Some SNone)
    (fun y a => gmap SSome (d y a)) (fun _ a => GErr a) (fun _ => WRefuse) (fun _ => Refuse) (fun _ => ReadNothing).
Definition unit_visitor (v : sval) : visitor sval :=
  mkV _ (fun _ => None) (fun _ => None) (fun _ => None) (fun _ => None) (fun _ => None) (Some v) None
    (fun _ a => GErr a) (fun _ a => GErr a) (fun _ => WRefuse) (fun _ => Refuse) (fun _ => ReadNothing).
(** A newtype struct (its [visit_seq] is left out: it is not called). *)
Definition newtype_visitor (d : seed sval) : visitor sval :=
  mkV _ (fun _ => None) (fun _ => None) (fun _ => None) (fun _ => None) (fun _ => None) None None
    (fun _ a => GErr a) (fun y a => gmap SNewtype (d y a)) (fun _ => WRefuse) (fun _ => Refuse) (fun _ => ReadNothing).
Definition seq_visitor (w : nat -> walk sval sval) : visitor sval :=
  mkV _ (fun _ => None) (fun _ => None) (fun _ => None) (fun _ => None) (fun _ => None) None None
    (fun _ a => GErr a) (fun _ a => GErr a) w (fun _ => Refuse) (fun _ => ReadNothing).
(** Maps and structs (the [visit_seq] of structs is left out: it is not called). *)
Definition map_visitor (w : nat -> visit sval sval) : visitor sval :=
  mkV _ (fun _ => None) (fun _ => None) (fun _ => None) (fun _ => None) (fun _ => None) None None
    (fun _ a => GErr a) (fun _ a => GErr a) (fun _ => WRefuse) w (fun _ => ReadNothing).
Definition enum_visitor (f : str -> variant_read sval) : visitor sval :=
  mkV _ (fun _ => None) (fun _ => None) (fun _ => None) (fun _ => None) (fun _ => None) None None
    (fun _ a => GErr a) (fun _ a => GErr a) (fun _ => WRefuse) (fun _ => Refuse) f.

Definition int_hint (k : ikind) : hint :=
  match k with
  | I8 => HI8 | I16 => HI16 | I32 => HI32 | I64 => HI64 | I128 => HI128
  | U8 => HU8 | U16 => HU16 | U32 => HU32 | U64 => HU64 | U128 => HU128
  end.
Definition bytes_of (vs : list sval) : sval :=
  SBytes (map (fun v => match v with SInt _ z => Z.to_N z | _ => 0%N end) vs).
Fixpoint named (vs : list (str * variant_read sval)) (n : str) : variant_read sval :=
  match vs with [] => ReadNothing | (m, r) :: vs' => if seqb m n then r else named vs' n end.

(** [Deserialize::deserialize] of the type: the method it calls, and its visitor. *)
Fixpoint derived (t : ty) : seed sval :=
  match t with
  | TBool => ask HBool bool_visitor
  | TInt k => ask (int_hint k) (int_visitor k)
  | TFloat => ask HF64 float_visitor
  | TChar => ask HChar (text_visitor (fun s => match s with [c] => Some (SChar c) | _ => None end))
  | TStr => ask HString (text_visitor (fun s => Some (SStr s)))
  | TBytes => ask HByteBuf (seq_visitor (fun n => wmap bytes_of (vec_walk n (ask HU8 (int_visitor U8)) [])))
  | TOption t => ask HOption (option_visitor (derived t))
  | TUnit => ask HUnit (unit_visitor SUnit)
  | TUnitStruct => ask HUnitStruct (unit_visitor SUnitStruct)
  | TNewtype t => ask HNewtype (newtype_visitor (derived t))
  | TSeq t => ask HSeq (seq_visitor (fun n => wmap SSeq (vec_walk n (derived t) [])))
  | TTuple ts => ask (HTuple (length ts)) (seq_visitor (fun _ => wmap STuple (tuple_walk (map derived ts) [])))
  | TMap k v => ask HMap (map_visitor (fun n => vmap SMap (map_visit n (derived k) (derived v) [])))
  | TStruct fs => ask HStruct (map_visitor (fun n => vmap SStruct (struct_visit n
      (map (fun nt => match nt with (m, t) => mkSlot m (derived t) (is_option t) None end) fs))))
  | TEnum vs => ask HEnum (enum_visitor (named (map (fun nv => match nv with (n, v) =>
      (n, match v with
          | VaUnit => ReadUnit (SUnitV n)
          | VaNew t => ReadNewtype (fun y a => gmap (SNewV n) (derived t y a))
          | VaTup ts => ReadTuple (length ts) (fun _ => wmap (STupV n) (tuple_walk (map derived ts) []))
          | VaStruct fs => ReadStruct (fun k => vmap (SStructV n) (struct_visit k
              (map (fun nt => match nt with (m, t) => mkSlot m (derived t) (is_option t) None end) fs)))
          end) end) vs)))
  end.

(** What a visitor's method for a scalar returns ([None] for the other methods). *)
Definition returned {V} (v : visitor V) (m : said) : option (option V) :=
  match m with
  | SayBool b => Some (v_bool v b) | SayI64 z => Some (v_i64 v z) | SayU64 z => Some (v_u64 v z) | SayF64 s => Some (v_f64 v s)
  | SayString s => Some (v_string v s) | SayUnit => Some (v_unit v) | SayNone => Some (v_none v) | _ => None
  end.
