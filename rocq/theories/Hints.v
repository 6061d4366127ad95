(** Model of every method of [Deserializer] for [YamlDeserializer]
    (/repo/src/yaml/deserializer.rs 140-429): which method of the visitor it calls, and with
    what.  [De.v] and [DeCalls.v] put serde's visitors and these methods together; here the
    two sides are apart.
    Simplifications: a float is its text; names and lists of names given to the methods are
    left out because they are ignored; errors are one value. *)
From Coq Require Import ZArith.
From Verif Require Import Base Ast Strings Format Num Pretty Ser De DeCalls.
Import ListNotations.

(** The methods of [Deserializer]: 143, 203, 219-227, 238-246, 257-260, 270-289, 291, 301-328,
    332-349, 361, 370, 422, 426; [HI128] and [HU128] are serde's default methods. *)
Inductive hint : Type :=
| HAny | HBool | HI8 | HI16 | HI32 | HI64 | HI128 | HU8 | HU16 | HU32 | HU64 | HU128 | HF32 | HF64
| HChar | HStr | HString | HBytes | HByteBuf | HOption | HUnit | HUnitStruct | HNewtype
| HSeq | HTuple (n : nat) | HTupleStruct (n : nat) | HMap | HStruct | HEnum | HIdentifier | HIgnored.

(** The method of the visitor that is called, with its argument: nodes for the deserializers,
    the items for the accesses (433-443, 460-474, 507-511). *)
Inductive said : Type :=
| SayBool (b : bool) | SayI64 (z : Z) | SayU64 (z : Z) | SayF64 (s : str) | SayString (s : str)
| SayUnit | SayNone | SaySome (y : yaml) | SayNewtype (y : yaml)
| SaySeq (l : list yaml) | SayMap (l : list (str * yaml)) | SayEnum (n : str) (y : yaml).

(** A visitor method is called with the registrations [a], or there is an error, or the method
    calls itself without end. *)
Inductive reply : Type := Says (m : said) (a : anchors) | Fails (a : anchors) | Endless.

(** The node behind references that [deserialize_any] comes to (197-200): each call resolves
    one, with the same registrations, so that more steps than registrations mean a circle. *)
Fixpoint behind (fuel : nat) (y : yaml) (a : anchors) : option (option yaml) :=
  match y with
  | Anchor n =>
      match fuel with
      | 0 => None
      | S f => match resolve a n with Some z => behind f z a | None => Some None end
      end
  | _ => Some (Some y)
  end.

(** [deserialize_any]: 143-201. *)
Definition tell_any (y : yaml) (a : anchors) : reply :=
  match behind (S (length a)) y a with
  | None => Endless
  | Some None => Fails a
  | Some (Some (Unquoted s)) =>
      if is_null_word s then Says SayUnit a
      else if seqb s (lit "true") then Says (SayBool true) a
      else if seqb s (lit "false") then Says (SayBool false) a
      else match parse_i64 s with
           | Some i => Says (SayI64 i) a
           | None =>
               match parse_u64 s with
               | Some u => Says (SayU64 u) a
               | None => if parse_f64_ok s then Says (SayF64 s) a else Says (SayString s) a
               end
           end
  | Some (Some (DoubleQ ps)) => Says (SayString (parse_double_quoted ps)) a
  | Some (Some (Literal ls c)) => Says (SayString (parse_literal ls c)) a
  | Some (Some (Folded ls c)) => Says (SayString (parse_folded ls c)) a
  | Some (Some (SingleQ ps)) => Says (SayString (parse_single_quoted ps)) a
  | Some (Some (Array l)) => let '(vs, a1) := seq_values a l in Says (SaySeq vs) a1
  | Some (Some (InlineArray l)) => Says (SaySeq l) a
  | Some (Some (Hash l)) => let '(es, a1) := hash_entries a l in Says (SayMap es) a1
  | Some (Some (InlineHash l)) => Says (SayMap l) a
  | Some (Some (Anchor _)) => Fails a
  end.

(** [deserialize_bool]: 203-217. *)
Definition tell_bool (y : yaml) (a : anchors) : reply :=
  match into_resolved y a with
  | Some (Unquoted s) =>
      if one_of [lit "true"; lit "True"; lit "TRUE"; lit "yes"; lit "Yes"; lit "YES";
                 lit "on"; lit "On"; lit "ON"] s then Says (SayBool true) a
      else if one_of [lit "false"; lit "False"; lit "FALSE"; lit "no"; lit "No"; lit "NO";
                      lit "off"; lit "Off"; lit "OFF"] s then Says (SayBool false) a
      else Fails a
  | _ => Fails a
  end.

(** The text of a node, used by 228-237, 247-256, 260-269, 273-280. *)
Definition tell_text (f : str -> option said) (y : yaml) (a : anchors) : reply :=
  match into_resolved y a with
  | Some z => match yaml_to_string z with
              | Some s => match f s with Some m => Says m a | None => Fails a end
              | None => Fails a
              end
  | None => Fails a
  end.

(** [deserialize_option]: 291-299. *)
Definition tell_option (y : yaml) (a : anchors) : reply :=
  match into_resolved y a with
  | Some (Unquoted s) => if is_null_word s then Says SayNone a else Says (SaySome (Unquoted s)) a
  | Some z => Says (SaySome z) a
  | None => Fails a
  end.

(** [deserialize_seq]: 320-330. *)
Definition tell_seq (y : yaml) (a : anchors) : reply :=
  match into_resolved y a with
  | Some (Array l) => let '(vs, a1) := seq_values a l in Says (SaySeq vs) a1
  | Some (InlineArray l) => Says (SaySeq l) a
  | _ => Fails a
  end.

(** [deserialize_map]: 349-359. *)
Definition tell_map (y : yaml) (a : anchors) : reply :=
  match into_resolved y a with
  | Some (Hash l) => let '(es, a1) := hash_entries a l in Says (SayMap es) a1
  | Some (InlineHash l) => Says (SayMap l) a
  | _ => Fails a
  end.

(** [deserialize_enum]: 370-420; the labels of a mapping are registered before its entries
    are counted. *)
Definition tell_enum (y : yaml) (a : anchors) : reply :=
  match into_resolved y a with
  | Some (Hash l) =>
      match hash_entries a l with
      | ([(n, v)], a1) => Says (SayEnum n v) a1
      | (_, a1) => Fails a1
      end
  | Some (InlineHash [(n, v)]) => Says (SayEnum n v) a
  | Some (InlineHash _ | InlineArray _ | Array _ | Anchor _) | None => Fails a
  | Some z => match yaml_to_string z with
              | Some s => Says (SayEnum s (Unquoted (lit "~"))) a
              | None => Fails a
              end
  end.

(** All methods: 140-429. *)
Definition tell (h : hint) (y : yaml) (a : anchors) : reply :=
  match h with
  | HAny => tell_any y a
  | HBool => tell_bool y a
  | HI8 | HI16 | HI32 | HI64 => tell_text (fun s => option_map SayI64 (parse_i64 s)) y a
  | HU8 | HU16 | HU32 | HU64 => tell_text (fun s => option_map SayU64 (parse_u64 s)) y a
  | HI128 | HU128 => Fails a
  | HF32 | HF64 => tell_text (fun s => if parse_f64_ok s then Some (SayF64 s) else None) y a
  | HChar | HStr | HString | HIdentifier => tell_text (fun s => Some (SayString s)) y a
  | HBytes | HByteBuf | HSeq | HTuple _ | HTupleStruct _ => tell_seq y a
  | HOption => tell_option y a
  | HUnit | HUnitStruct | HIgnored => Says SayUnit a
  | HNewtype => Says (SayNewtype y) a
  | HMap | HStruct => tell_map y a
  | HEnum => tell_enum y a
  end.

(** A [Visitor] of an impl that makes a [V]: what it returns for each method ([None]: an
    error), what it reads from the deserializer or the access it is given; [v_variant]: what it
    reads from the content once it knows the name of the variant ([EnumAccess] and
    [VariantAccess], 513-558).  The number given to loops is more than the calls they can make. *)
Inductive variant_read (V : Type) : Type :=
| ReadUnit (v : V) | ReadNewtype (d : seed V) | ReadTuple (n : nat) (w : nat -> walk sval V) | ReadStruct (w : nat -> visit sval V)
| ReadNothing.
Arguments ReadUnit {V}. Arguments ReadNewtype {V}. Arguments ReadTuple {V}. Arguments ReadStruct {V}. Arguments ReadNothing {V}.
Record visitor (V : Type) : Type := mkV {
  v_bool : bool -> option V; v_i64 : Z -> option V; v_u64 : Z -> option V; v_f64 : str -> option V;
  v_string : str -> option V; v_unit : option V; v_none : option V; v_some : seed V; v_newtype : seed V;
  v_seq : nat -> walk sval V; v_map : nat -> visit sval V; v_variant : str -> variant_read V }.
Arguments v_bool {V}. Arguments v_i64 {V}. Arguments v_u64 {V}. Arguments v_f64 {V}. Arguments v_string {V}.
Arguments v_unit {V}. Arguments v_none {V}. Arguments v_some {V}. Arguments v_newtype {V}. Arguments v_seq {V}.
Arguments v_map {V}. Arguments v_variant {V}.

(** What the impl returns. *)
Definition give {V} (o : option V) (a : anchors) : got V := match o with Some v => Got v a | None => GErr a end.

(** [VariantAccess]: 529-558.  Only [visit_seq] and [visit_map] of the visitors of tuple and
    struct variants are called (320-359). *)
Definition serve_variant {V} (r : variant_read V) (y : yaml) (a : anchors) : got V :=
  match r with
  | ReadNothing => GErr a
  | ReadUnit v => Got v a
  | ReadNewtype d => d y a
  | ReadTuple n w =>
      match tell (HTuple n) y a with Says (SaySeq l) a1 => serve_seq (w (S (length l))) l a1 | Fails a1 => GErr a1 | _ => GPanic end
  | ReadStruct w =>
      match tell HStruct y a with Says (SayMap l) a1 => serve (w (S (length l))) l None a1 | Fails a1 => GErr a1 | _ => GPanic end
  end.

(** [EnumAccess::variant_seed] 517-526: the name is read as an identifier by the impl, from an
    unquoted scalar. *)
Definition serve_enum {V} (f : str -> variant_read V) (n : str) (y : yaml) (a : anchors) : got V :=
  match tell HIdentifier (Unquoted n) a with
  | Says (SayString s) a1 => serve_variant (f s) y a1
  | Fails a1 => GErr a1
  | _ => GPanic
  end.

(** [Deserialize::deserialize] of an impl that calls the method [h] with the visitor [v]
    (140-429); recursion without end overflows the stack, which is a crash like a panic. *)
Definition ask {V} (h : hint) (v : visitor V) : seed V := fun y a =>
  match tell h y a with
  | Fails a1 => GErr a1
  | Endless => GPanic
  | Says m a1 =>
      match m with
      | SayBool b => give (v_bool v b) a1
      | SayI64 z => give (v_i64 v z) a1
      | SayU64 z => give (v_u64 v z) a1
      | SayF64 s => give (v_f64 v s) a1
      | SayString s => give (v_string v s) a1
      | SayUnit => give (v_unit v) a1
      | SayNone => give (v_none v) a1
      | SaySome y => v_some v y a1
      | SayNewtype y => v_newtype v y a1
      | SaySeq l => serve_seq (v_seq v (S (length l))) l a1
      | SayMap l => serve (v_map v (S (length l))) l None a1
      | SayEnum n y => serve_enum (v_variant v) n y a1
      end
  end.
