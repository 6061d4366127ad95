(** Model of the serde attributes the tests of /repo/src/yaml/deserializer.rs use
    (797-812, 845-890, 916-946, 1008-1112, 1150-1192): [untagged], [tag = "..."] and
    [flatten].

    They run the crate's [deserialize_any] (deserializer.rs 143-201) into serde's buffer
    ([de_any] of De.v) and read the value from there.  The readers of the buffer
    ([ContentDeserializer], [ContentRefDeserializer], [FlatMapDeserializer] of serde) and
    the derived impls are written from serde 1.0; they are not code of the repository.
    Simplifications: as in De.v; byte arrays, unit structs, flattened fields of struct
    variants and the attributes beside these three are left out. *)
From Coq Require Import ZArith.
From Verif Require Import Base Ast Strings Format Num Pretty Peg YamlGrammar Consume Ser De FromStr.
Import ListNotations.

(** Rust types with attributes; a struct field is a name, whether it is flattened, a type. *)
Inductive xty : Type :=
| XBool
| XInt (k : ikind)
| XFloat
| XChar
| XStr
| XUnit
| XOption (t : xty)
| XNewtype (t : xty)
| XSeq (t : xty)
| XTuple (ts : list xty)
| XMap (k v : xty)
| XStruct (fs : list (str * (bool * xty)))
| XEnum (vs : list (str * xvariant))
| XUntagged (vs : list (str * xvariant))
| XTagged (tag : str) (vs : list (str * xvariant))
with xvariant : Type :=
| XVUnit
| XVNew (t : xty)
| XVTup (ts : list xty)
| XVStruct (fs : list (str * xty)).

(** ---- Writing: the [serialize_*] calls a value makes. ---- *)

(** serde's [TaggedSerializer]: the calls for the content of a newtype variant, with the tag. *)
Fixpoint tagged (tag n : str) (s : sval) : option sval :=
  match s with
  | SStruct l => Some (SStruct ((tag, SStr n) :: l))
  | SMap l => Some (SMap ((SStr tag, SStr n) :: l))
  | SNewtype s => tagged tag n s
  | SUnit => Some (SMap [(SStr tag, SStr n)])
  | SUnitV m => Some (SMap [(SStr tag, SStr n); (SStr m, SUnit)])
  | SNewV m v => Some (SMap [(SStr tag, SStr n); (SStr m, v)])
  | STupV m l => Some (SMap [(SStr tag, SStr n); (SStr m, STuple l)])
  | SStructV m l => Some (SMap [(SStr tag, SStr n); (SStr m, SStruct l)])
  | _ => None
  end.

(** serde's [FlatMapSerializer]: the entries a flattened field writes. *)
Fixpoint flat_entries (s : sval) : option (list (sval * sval)) :=
  match s with
  | SStruct l => Some (map (fun kv => (SStr (fst kv), snd kv)) l)
  | SMap l => Some l
  | SNewtype s | SSome s => flat_entries s
  | SNone | SUnit => Some []
  | SUnitV m => Some [(SStr m, SUnit)]
  | SNewV m v => Some [(SStr m, v)]
  | STupV m l => Some [(SStr m, STuple l)]
  | SStructV m l => Some [(SStr m, SStruct l)]
  | _ => None
  end.

(** Writes of the corresponding elements, and the field of that name. *)
Fixpoint write_list (ws : list (sval -> option sval)) (vs : list sval) : option (list sval) :=
  match ws, vs with
  | [], [] => Some []
  | w :: ws', v :: vs' =>
      match w v, write_list ws' vs' with Some s, Some l => Some (s :: l) | _, _ => None end
  | _, _ => None
  end.
(** The fields of a struct: [SerializeStruct], serializer.rs 431-448 receives them in order. *)
Fixpoint write_fields (ws : list (str * (sval -> option sval))) (vs : list (str * sval))
  : option (list (str * sval)) :=
  match ws, vs with
  | [], [] => Some []
  | (n, w) :: ws', (m, v) :: vs' =>
      if seqb n m then
        match w v, write_fields ws' vs' with Some s, Some l => Some ((n, s) :: l) | _, _ => None end
      else None
  | _, _ => None
  end.
(** A struct with flattened fields is written as a map. *)
Fixpoint write_flat (ws : list (str * (bool * (sval -> option sval)))) (vs : list (str * sval))
  : option (list (sval * sval)) :=
  match ws, vs with
  | [], [] => Some []
  | (n, (fl, w)) :: ws', (m, v) :: vs' =>
      if seqb n m then
        match w v, write_flat ws' vs' with
        | Some s, Some l =>
            if fl : bool then match flat_entries s with Some es => Some (es ++ l) | None => None end
            else Some ((SStr n, s) :: l)
        | _, _ => None
        end
      else None
  | _, _ => None
  end.
(** The write of the variant of that name (serde derive; enums of deserializer.rs 797-804). *)
Fixpoint write_variant (ws : list (str * (sval -> option sval))) (n : str) (v : sval) : option sval :=
  match ws with
  | [] => None
  | (m, w) :: ws' => if seqb m n then w v else write_variant ws' n v
  end.
(** The name of the variant of a value (serializer.rs 239-310 receives it). *)
Definition variant_name (v : sval) : str :=
  match v with SUnitV n | SNewV n _ | STupV n _ | SStructV n _ => n | _ => [] end.

(** The calls of the value [v] of type [t]; [None] if it is no value of that type or serde
    reports an error.  A value is written in the data model of De.v. *)
Fixpoint emit (t : xty) (v : sval) {struct t} : option sval :=
  match t, v with
  | XBool, SBool _ | XFloat, SFloat _ | XChar, SChar _ | XStr, SStr _ | XUnit, SUnit
  | XOption _, SNone => Some v
  | XInt k, SInt k' _ => match k, k' with
                         | I8, I8 | I16, I16 | I32, I32 | I64, I64 | I128, I128
                         | U8, U8 | U16, U16 | U32, U32 | U64, U64 | U128, U128 => Some v
                         | _, _ => None
                         end
  | XOption t, SSome v => option_map SSome (emit t v)
  | XNewtype t, SNewtype v => option_map SNewtype (emit t v)
  | XSeq t, SSeq l => option_map SSeq (opt_map (emit t) l)
  | XTuple ts, STuple l => option_map STuple (write_list (map emit ts) l)
  | XMap k w, SMap l =>
      option_map SMap (opt_map (fun kv => match kv with (x, y) =>
        match emit k x, emit w y with Some x, Some y => Some (x, y) | _, _ => None end end) l)
  | XStruct fs, SStruct l =>
      let ws := map (fun f => match f with (n, (fl, t)) => (n, (fl, emit t)) end) fs in
      if existsb (fun f => fst (snd f)) fs then option_map SMap (write_flat ws l)
      else option_map SStruct (write_fields (map (fun w => (fst w, snd (snd w))) ws) l)
  | XEnum vs, v =>
      write_variant (map (fun x => match x with (n, va) =>
        (n, fun v =>
          match va, v with
          | XVUnit, SUnitV _ => Some (SUnitV n)
          | XVNew t, SNewV _ v => option_map (SNewV n) (emit t v)
          | XVTup ts, STupV _ l => option_map (STupV n) (write_list (map emit ts) l)
          | XVStruct fs, SStructV _ l =>
              option_map (SStructV n)
                (write_fields (map (fun f => match f with (n, t) => (n, emit t) end) fs) l)
          | _, _ => None
          end) end) vs) (variant_name v) v
  | XUntagged vs, v =>
      write_variant (map (fun x => match x with (n, va) =>
        (n, fun v =>
          match va, v with
          | XVUnit, SUnitV _ => Some SUnit
          | XVNew t, SNewV _ v => emit t v
          | XVTup ts, STupV _ l => option_map STuple (write_list (map emit ts) l)
          | XVStruct fs, SStructV _ l =>
              option_map SStruct
                (write_fields (map (fun f => match f with (n, t) => (n, emit t) end) fs) l)
          | _, _ => None
          end) end) vs) (variant_name v) v
  | XTagged tag vs, v =>
      write_variant (map (fun x => match x with (n, va) =>
        (n, fun v =>
          match va, v with
          | XVUnit, SUnitV _ => Some (SStruct [(tag, SStr n)])
          | XVNew t, SNewV _ v => match emit t v with Some s => tagged tag n s | None => None end
          | XVStruct fs, SStructV _ l =>
              option_map (fun l => SStruct ((tag, SStr n) :: l))
                (write_fields (map (fun f => match f with (n, t) => (n, emit t) end) fs) l)
          | _, _ => None
          end) end) vs) (variant_name v) v
  | _, _ => None
  end.

(** ---- Reading. ---- *)

(** The entries left for flattened fields; a taken entry is [None]. *)
Notation entry := (anyv * anyv)%type.
Notation slots := (list (option entry)).

(** How a type is read: from a YAML node, from the buffer ([true]: an owned buffer,
    [ContentDeserializer]; [false]: [ContentRefDeserializer]) and as a flattened field. *)
Record reader : Type := mkR {
  r_node : yaml -> anchors -> outcome sval;
  r_buf : bool -> anyv -> option sval;
  r_flat : slots -> option sval * slots }.

(** A result of De.v (deserializer.rs 140-429), which always ends, as an outcome. *)
Definition of_opt {A} (r : dres A) : outcome A :=
  match r with Some (x, a) => Done x a | None => Failed end.
(** The [?] operator between two reads (deserializer.rs throughout). *)
Definition o_bind {A B} (o : outcome A) (f : A -> anchors -> outcome B) : outcome B :=
  match o with Done x a => f x a | Failed => Failed | More => More end.
(** The same with a result that can not fail. *)
Definition o_map {A B} (f : A -> B) (o : outcome A) : outcome B :=
  match o with Done x a => Done (f x) a | Failed => Failed | More => More end.

(** Sequences, tuples and maps from a node: as [de_elems], [de_tuple], [de_entries]. *)
Fixpoint n_elems (d : yaml -> anchors -> outcome sval) (l : list yaml) (a : anchors) : outcome (list sval) :=
  match l with
  | [] => Done [] a
  | y :: l' => o_bind (d y a) (fun v a1 => o_map (cons v) (n_elems d l' a1))
  end.
(** Tuples: deserializer.rs 332-347; missing elements are errors, further ones are left. *)
Fixpoint n_tuple (ds : list (yaml -> anchors -> outcome sval)) (l : list yaml) (a : anchors) : outcome (list sval) :=
  match ds, l with
  | [], _ => Done [] a
  | _ :: _, [] => Failed
  | d :: ds', y :: l' => o_bind (d y a) (fun v a1 => o_map (cons v) (n_tuple ds' l' a1))
  end.
(** Entries of a map, the key as an unquoted scalar: deserializer.rs 349-359. *)
Fixpoint n_entries (dk dv : yaml -> anchors -> outcome sval) (l : list (str * yaml)) (a : anchors)
  : outcome (list (sval * sval)) :=
  match l with
  | [] => Done [] a
  | (k, y) :: l' =>
      o_bind (dk (Unquoted k) a) (fun vk a1 => o_bind (dv y a1) (fun v a2 =>
        o_map (cons (vk, v)) (n_entries dk dv l' a2)))
  end.

(** A struct field: name, reader, whether it is an option, the value read so far. *)
Record xfield : Type := mkX { x_name : str; x_read : reader; x_opt : bool; x_val : option sval }.
(** A field that has been read (derived visitor; structs of deserializer.rs 940-946). *)
Definition x_set (f : xfield) (v : sval) : xfield := mkX (x_name f) (x_read f) (x_opt f) (Some v).
(** A missing field is an error unless it is an option (derived visitor). *)
Definition x_value (f : xfield) : option (str * sval) :=
  match x_val f with
  | Some v => Some (x_name f, v)
  | None => if x_opt f then Some (x_name f, SNone) else None
  end.
(** Whether a field has that name (derived [Field] visitor, fed by deserializer.rs 422-424). *)
Definition x_known (fs : list xfield) (n : str) : bool := existsb (fun f => seqb (x_name f) n) fs.

(** One entry of a struct, from a node and from the buffer. *)
Fixpoint n_field (fs : list xfield) (k : str) (y : yaml) (a : anchors) : outcome (list xfield) :=
  match fs with
  | [] => Done [] a
  | f :: fs' =>
      if seqb (x_name f) k then
        match x_val f with
        | Some _ => Failed
        | None => o_map (fun v => x_set f v :: fs') (r_node (x_read f) y a)
        end
      else o_map (cons f) (n_field fs' k y a)
  end.
(** The same from the buffer ([own]: see [reader]). *)
Fixpoint b_field (own : bool) (fs : list xfield) (k : str) (c : anyv) : option (list xfield) :=
  match fs with
  | [] => Some []
  | f :: fs' =>
      if seqb (x_name f) k then
        match x_val f with
        | Some _ => None
        | None => option_map (fun v => x_set f v :: fs') (r_buf (x_read f) own c)
        end
      else option_map (cons f) (b_field own fs' k c)
  end.
(** All entries of a struct from a node: deserializer.rs 361-368. *)
Fixpoint n_fields (fs : list xfield) (l : list (str * yaml)) (a : anchors) : outcome (list xfield) :=
  match l with
  | [] => Done fs a
  | (k, y) :: l' => o_bind (n_field fs k y a) (fun fs1 a1 => n_fields fs1 l' a1)
  end.

(** [deserialize_identifier] of the buffer: text, or an index, which (being at least 2^63,
    see [any_unquoted]) belongs to no field. *)
Fixpoint b_fields (own : bool) (fs : list xfield) (l : list entry) : option (list xfield) :=
  match l with
  | [] => Some fs
  | (k, c) :: l' =>
      match k with
      | AnStr n => match b_field own fs n c with Some fs1 => b_fields own fs1 l' | None => None end
      | AnU64 _ => b_fields own fs l'
      | _ => None
      end
  end.
(** [ContentDeserializer::deserialize_tuple]: exactly as many elements (unlike deserializer.rs 332-347). *)
Fixpoint b_tuple (own : bool) (rs : list reader) (l : list anyv) : option (list sval) :=
  match rs, l with
  | [], [] => Some []
  | r :: rs', c :: l' =>
      match r_buf r own c, b_tuple own rs' l' with Some v, Some vs => Some (v :: vs) | _, _ => None end
  | _, _ => None
  end.
(** The entries of a map from the buffer. *)
Definition b_entries (own : bool) (rk rv : reader) (l : list entry) : option (list (sval * sval)) :=
  opt_map (fun e => match r_buf rk own (fst e), r_buf rv own (snd e) with
                    | Some k, Some v => Some (k, v)
                    | _, _ => None
                    end) l.

(** A struct (or struct variant) from the buffer: a map, or a sequence of all fields. *)
Definition b_struct_map (own : bool) (fs : list xfield) (l : list entry) : option (list (str * sval)) :=
  match b_fields own fs l with Some fs1 => opt_map x_value fs1 | None => None end.
(** From a map or a sequence of the buffer (unlike deserializer.rs 361-368). *)
Definition b_struct (own : bool) (fs : list xfield) (c : anyv) : option (list (str * sval)) :=
  match c with
  | AnMap l => b_struct_map own fs l
  | AnSeq l => option_map (combine (map x_name fs)) (b_tuple own (map x_read fs) l)
  | _ => None
  end.

(** A flattened struct takes the entries named like its fields ([FlatStructAccess]). *)
Fixpoint f_fields (fs : list xfield) (l : slots) : option (list xfield) * slots :=
  match l with
  | [] => (Some fs, [])
  | Some (AnStr n, c) :: l' =>
      if x_known fs n then
        match b_field true fs n c with
        | Some fs1 => let '(r, l1) := f_fields fs1 l' in (r, None :: l1)
        | None => (None, None :: l')
        end
      else let '(r, l1) := f_fields fs l' in (r, Some (AnStr n, c) :: l1)
  | e :: l' => let '(r, l1) := f_fields fs l' in (r, e :: l1)
  end.
(** The remaining entries, as [FlatMapAccess] passes them. *)
Definition remaining (l : slots) : list entry :=
  flat_map (fun e => match e with Some x => [x] | None => [] end) l.
(** The first entry whose key is one of the names, taken out. *)
Fixpoint f_take (names : list str) (l : slots) : option (str * anyv) * slots :=
  match l with
  | [] => (None, [])
  | Some (AnStr n, c) :: l' =>
      if existsb (seqb n) names then (Some (n, c), None :: l')
      else let '(r, l1) := f_take names l' in (r, Some (AnStr n, c) :: l1)
  | e :: l' => let '(r, l1) := f_take names l' in (r, e :: l1)
  end.

(** The flattened fields in order, each reading what the ones before it left. *)
Fixpoint f_all (rs : list (str * reader)) (l : slots) : option (list (str * sval)) :=
  match rs with
  | [] => Some []
  | (n, r) :: rs' =>
      let '(v, l1) := r_flat r l in
      match v with
      | Some v => option_map (cons (n, v)) (f_all rs' l1)
      | None => None
      end
  end.

(** A struct with flattened fields collects the entries that are not its own.  From a node
    every key is text ([deserialize_identifier], deserializer.rs 422-424). *)
Fixpoint n_collect (any : yaml -> anchors -> outcome anyv) (fs : list xfield) (l : list (str * yaml)) (a : anchors)
  : outcome (list xfield * list entry) :=
  match l with
  | [] => Done (fs, []) a
  | (k, y) :: l' =>
      if x_known fs k then
        o_bind (n_field fs k y a) (fun fs1 a1 => n_collect any fs1 l' a1)
      else
        o_bind (any y a) (fun c a1 =>
          o_map (fun r => (fst r, (AnStr k, c) :: snd r)) (n_collect any fs l' a1))
  end.
(** The same from the buffer. *)
Fixpoint b_collect (own : bool) (fs : list xfield) (l : list entry) : option (list xfield * list entry) :=
  match l with
  | [] => Some (fs, [])
  | (k, c) :: l' =>
      match k with
      | AnStr n =>
          if x_known fs n then
            match b_field own fs n c with Some fs1 => b_collect own fs1 l' | None => None end
          else option_map (fun r => (fst r, (k, c) :: snd r)) (b_collect own fs l')
      | AnU64 _ => option_map (fun r => (fst r, (k, c) :: snd r)) (b_collect own fs l')
      | _ => None
      end
  end.
(** The values in declaration order, own fields and flattened fields. *)
Fixpoint merge (decl : list (str * bool)) (own flat : list (str * sval)) : list (str * sval) :=
  match decl with
  | [] => []
  | (_, true) :: decl' => match flat with x :: flat' => x :: merge decl' own flat' | [] => [] end
  | (_, false) :: decl' => match own with x :: own' => x :: merge decl' own' flat | [] => [] end
  end.
(** Own fields, then the flattened fields from what is left (as in deserializer.rs 1028-1046). *)
Definition finish (decl : list (str * bool)) (rs : list (str * reader)) (r : list xfield * list entry)
  : option sval :=
  match opt_map x_value (fst r), f_all rs (map Some (snd r)) with
  | Some own, Some flat => Some (SStruct (merge decl own flat))
  | _, _ => None
  end.

(** [TaggedContentVisitor::visit_map]: the tag and the other entries. *)
Fixpoint b_tag (tag : str) (l : list entry) : option (option anyv * list entry) :=
  match l with
  | [] => Some (None, [])
  | (k, c) :: l' =>
      match b_tag tag l' with
      | None => None
      | Some (t, es) =>
          match k with
          | AnStr n => if seqb n tag then match t with None => Some (Some c, es) | Some _ => None end
                       else Some (t, (k, c) :: es)
          | _ => Some (t, (k, c) :: es)
          end
      end
  end.
(** The tag and the content, from the buffer; in a sequence the tag is the first element. *)
Definition b_tagged (tag : str) (c : anyv) : option (str * anyv) :=
  match c with
  | AnMap l => match b_tag tag l with Some (Some (AnStr n), es) => Some (n, AnMap es) | _ => None end
  | AnSeq (AnStr n :: l) => Some (n, AnSeq l)
  | _ => None
  end.
(** The same from a node, through [deserialize_any]; the tag's value is read as text. *)
Fixpoint n_tag (any : yaml -> anchors -> outcome anyv) (tag : str) (seen : option str)
    (l : list (str * yaml)) (a : anchors) : outcome (option str * list entry) :=
  match l with
  | [] => Done (seen, []) a
  | (k, y) :: l' =>
      match any_unquoted k with
      | AnStr n =>
          if seqb n tag then
            match seen with
            | Some _ => Failed
            | None =>
                match de_text y a with
                | Some s => n_tag any tag (Some s) l' a
                | None => Failed
                end
            end
          else o_bind (any y a) (fun c a1 =>
                 o_map (fun r => (fst r, (AnStr n, c) :: snd r)) (n_tag any tag seen l' a1))
      | k' => o_bind (any y a) (fun c a1 =>
                o_map (fun r => (fst r, (k', c) :: snd r)) (n_tag any tag seen l' a1))
      end
  end.
(** The other elements, each through [deserialize_any] (deserializer.rs 143-201). *)
Fixpoint any_list (any : yaml -> anchors -> outcome anyv) (l : list yaml) (a : anchors) : outcome (list anyv) :=
  match l with
  | [] => Done [] a
  | y :: l' => o_bind (any y a) (fun c a1 => o_map (cons c) (any_list any l' a1))
  end.
(** The tag must be among the entries (enums of deserializer.rs 923-932). *)
Definition n_tagged_map (any : yaml -> anchors -> outcome anyv) (tag : str) (l : list (str * yaml)) (a : anchors)
  : outcome (str * anyv) :=
  o_bind (n_tag any tag None l a) (fun r a1 =>
    match r with (Some n, es) => Done (n, AnMap es) a1 | (None, _) => Failed end).
(** In a sequence the tag is the first element. *)
Definition n_tagged_seq (any : yaml -> anchors -> outcome anyv) (l : list yaml) (a : anchors)
  : outcome (str * anyv) :=
  match l with
  | [] => Failed
  | y :: l' =>
      match de_text y a with
      | Some n => o_map (fun cs => (n, AnSeq cs)) (any_list any l' a)
      | None => Failed
      end
  end.
(** [deserialize_any] (deserializer.rs 143-201) with this visitor; references are followed (196-199). *)
Fixpoint n_tagged (fuel : nat) (tag : str) (y : yaml) (a : anchors) : outcome (str * anyv) :=
  match fuel with
  | 0 => More
  | S n =>
      match y with
      | Hash l => let '(es, a1) := hash_entries a l in n_tagged_map (de_any n) tag es a1
      | InlineHash es => n_tagged_map (de_any n) tag es a
      | Array l => let '(vs, a1) := seq_values a l in n_tagged_seq (de_any n) vs a1
      | InlineArray vs => n_tagged_seq (de_any n) vs a
      | Anchor m => match resolve a m with Some y' => n_tagged n tag y' a | None => Failed end
      | _ => Failed
      end
  end.

(** An enum from the buffer: the variant's name and, if there is one, its content. *)
Definition b_enum (c : anyv) : option (str * option anyv) :=
  match c with
  | AnStr n => Some (n, None)
  | AnMap [(AnStr n, c)] => Some (n, Some c)
  | _ => None
  end.

(** The variant of that name (derived [Field] visitor; deserializer.rs 370-420 passes the name). *)
Fixpoint pick {A} (l : list (str * A)) (n : str) : option A :=
  match l with [] => None | (m, x) :: l' => if seqb m n then Some x else pick l' n end.
(** [untagged]: the first variant that reads (deserializer.rs 797-804). *)
Fixpoint first_of {A B} (f : A -> option B) (l : list A) : option B :=
  match l with [] => None | x :: l' => match f x with Some y => Some y | None => first_of f l' end end.

(** A scalar can not be flattened. *)
Definition no_flat (l : slots) : option sval * slots := (None, l).

(** An integer of the buffer; 128-bit integers are not read from it. *)
Definition b_int (k : ikind) (z : Z) : option sval :=
  match k with
  | I128 | U128 => None
  | _ => if in_kind k z then Some (SInt k z) else None
  end.
(** A unit from the buffer; an owned buffer also reads an empty map as one. *)
Definition b_unit (own : bool) (c : anyv) : bool :=
  match c with AnUnit => true | AnMap [] => own | _ => false end.
(** Whether a missing field of this type is [None]. *)
Definition is_xoption (t : xty) : bool := match t with XOption _ => true | _ => false end.

(** How the variants are read. *)
Inductive rvariant : Type :=
| RUnit
| RNew (r : reader)
| RTup (rs : list reader)
| RStruct (fs : list xfield).

(** Externally tagged, from a node ([VariantAccess], deserializer.rs 529-558). *)
Definition n_variant (n : str) (v : rvariant) (y : yaml) (a : anchors) : outcome sval :=
  match v with
  | RUnit => Done (SUnitV n) a
  | RNew r => o_map (SNewV n) (r_node r y a)
  | RTup rs => match de_seq_values y a with
               | Some (l, a1) => o_map (STupV n) (n_tuple (map r_node rs) l a1)
               | None => Failed
               end
  | RStruct fs => match de_map_entries y a with
                  | Some (l, a1) =>
                      o_bind (n_fields fs l a1) (fun fs1 a2 =>
                        match opt_map x_value fs1 with Some vs => Done (SStructV n vs) a2 | None => Failed end)
                  | None => Failed
                  end
  end.
(** Externally tagged, from the buffer. *)
Definition b_variant (own : bool) (n : str) (v : rvariant) (c : option anyv) : option sval :=
  match v, c with
  | RUnit, None => Some (SUnitV n)
  | RUnit, Some c => if b_unit own c then Some (SUnitV n) else None
  | RNew r, Some c => option_map (SNewV n) (r_buf r own c)
  | RTup rs, Some (AnSeq l) => option_map (STupV n) (b_tuple own rs l)
  | RStruct fs, Some c => option_map (SStructV n) (b_struct own fs c)
  | _, _ => None
  end.
(** Untagged: a struct variant only reads maps. *)
Definition u_variant (c : anyv) (x : str * rvariant) : option sval :=
  let n := fst x in
  match snd x, c with
  | RUnit, AnUnit => Some (SUnitV n)
  | RNew r, c => option_map (SNewV n) (r_buf r false c)
  | RTup rs, AnSeq l => option_map (STupV n) (b_tuple false rs l)
  | RStruct fs, AnMap l => option_map (SStructV n) (b_struct_map false fs l)
  | _, _ => None
  end.
(** Internally tagged, from the content without the tag; a unit variant skips the entries
    of a map. *)
Definition t_variant (vs : list (str * rvariant)) (r : str * anyv) : option sval :=
  let n := fst r in
  match pick vs n, snd r with
  | Some RUnit, AnMap _ | Some RUnit, AnSeq [] => Some (SUnitV n)
  | Some (RNew r), c => option_map (SNewV n) (r_buf r true c)
  | Some (RStruct fs), c => option_map (SStructV n) (b_struct true fs c)
  | _, _ => None
  end.

(** [T::deserialize] for the type [t]; [fuel] bounds the steps of [deserialize_any], which
    may not terminate (C45). *)
Fixpoint read (fuel : nat) (t : xty) {struct t} : reader :=
  let variant (v : xvariant) : rvariant :=
    match v with
    | XVUnit => RUnit
    | XVNew t => RNew (read fuel t)
    | XVTup ts => RTup (map (read fuel) ts)
    | XVStruct fs =>
        RStruct (map (fun f => match f with (n, t) => mkX n (read fuel t) (is_xoption t) None end) fs)
    end in
  match t with
  | XBool =>
      mkR (fun y a => of_opt (de_bool y a))
          (fun _ c => match c with AnBool b => Some (SBool b) | _ => None end) no_flat
  | XInt k =>
      mkR (fun y a => of_opt (de_int k y a))
          (fun _ c => match c with AnI64 z | AnU64 z => b_int k z | _ => None end) no_flat
  | XFloat =>
      mkR (fun y a => of_opt (de_float y a))
          (fun _ c => match c with
                      | AnF64 s => Some (SFloat s)
                      | AnI64 z | AnU64 z => Some (SFloat (show_Z z))
                      | _ => None
                      end) no_flat
  | XChar =>
      mkR (fun y a => match de_text y a with Some [c] => Done (SChar c) a | _ => Failed end)
          (fun _ c => match c with AnStr [x] => Some (SChar x) | _ => None end) no_flat
  | XStr =>
      mkR (fun y a => match de_text y a with Some s => Done (SStr s) a | None => Failed end)
          (fun _ c => match c with AnStr s => Some (SStr s) | _ => None end) no_flat
  | XUnit =>
      mkR (fun _ a => Done SUnit a)
          (fun own c => if b_unit own c then Some SUnit else None)
          (fun l => (Some SUnit, l))
  | XOption t =>
      let r := read fuel t in
      mkR (fun y a => match into_resolved y a with
                      | None => Failed
                      | Some (Unquoted s) =>
                          if is_null_word s then Done SNone a else o_map SSome (r_node r (Unquoted s) a)
                      | Some y => o_map SSome (r_node r y a)
                      end)
          (fun own c => match c with AnUnit => Some SNone | _ => option_map SSome (r_buf r own c) end)
          (fun l => let '(v, l1) := r_flat r l in
                    (Some (match v with Some v => SSome v | None => SNone end), l1))
  | XNewtype t =>
      let r := read fuel t in
      mkR (fun y a => o_map SNewtype (r_node r y a))
          (fun own c => option_map SNewtype (r_buf r own c))
          (fun l => let '(v, l1) := r_flat r l in (option_map SNewtype v, l1))
  | XSeq t =>
      let r := read fuel t in
      mkR (fun y a => match de_seq_values y a with
                      | Some (l, a1) => o_map SSeq (n_elems (r_node r) l a1)
                      | None => Failed
                      end)
          (fun own c => match c with AnSeq l => option_map SSeq (opt_map (r_buf r own) l) | _ => None end) no_flat
  | XTuple ts =>
      let rs := map (read fuel) ts in
      mkR (fun y a => match de_seq_values y a with
                      | Some (l, a1) => o_map STuple (n_tuple (map r_node rs) l a1)
                      | None => Failed
                      end)
          (fun own c => match c with AnSeq l => option_map STuple (b_tuple own rs l) | _ => None end) no_flat
  | XMap k v =>
      let rk := read fuel k in let rv := read fuel v in
      mkR (fun y a => match de_map_entries y a with
                      | Some (l, a1) => o_map SMap (n_entries (r_node rk) (r_node rv) l a1)
                      | None => Failed
                      end)
          (fun own c => match c with AnMap l => option_map SMap (b_entries own rk rv l) | _ => None end)
          (fun l => (option_map SMap (b_entries false rk rv (remaining l)), l))
  | XStruct fs =>
      let xs := map (fun f => match f with (n, (fl, t)) => (fl, mkX n (read fuel t) (is_xoption t) None) end) fs in
      let own := map snd (filter (fun x => negb (fst x)) xs) in
      let flat := map (fun x => (x_name (snd x), x_read (snd x))) (filter fst xs) in
      let decl := map (fun f => (fst f, fst (snd f))) fs in
      if existsb (fun f => fst (snd f)) fs then
        mkR (fun y a => match de_map_entries y a with
                        | Some (l, a1) =>
                            o_bind (n_collect (de_any fuel) own l a1) (fun r a2 =>
                              match finish decl flat r with Some v => Done v a2 | None => Failed end)
                        | None => Failed
                        end)
            (fun o c => match c with
                        | AnMap l => match b_collect o own l with Some r => finish decl flat r | None => None end
                        | _ => None
                        end)
            (fun l => (match b_collect false own (remaining l) with Some r => finish decl flat r | None => None end, l))
      else
        mkR (fun y a => match de_map_entries y a with
                        | Some (l, a1) =>
                            o_bind (n_fields own l a1) (fun fs1 a2 =>
                              match opt_map x_value fs1 with Some vs => Done (SStruct vs) a2 | None => Failed end)
                        | None => Failed
                        end)
            (fun o c => option_map SStruct (b_struct o own c))
            (fun l => let '(r, l1) := f_fields own l in
                      (match r with
                       | Some fs1 => option_map SStruct (opt_map x_value fs1)
                       | None => None
                       end, l1))
  | XEnum vs =>
      let rvs := map (fun x => match x with (n, v) => (n, variant v) end) vs in
      mkR (fun y a => match de_enum_content y a with
                      | Some (n, c, a1) =>
                          match pick rvs n with Some v => n_variant n v c a1 | None => Failed end
                      | None => Failed
                      end)
          (fun own c => match b_enum c with
                        | Some (n, c) =>
                            match pick rvs n with Some v => b_variant own n v c | None => None end
                        | None => None
                        end)
          (fun l => let '(r, l1) := f_take (map fst vs) l in
                    (match r with
                     | Some (n, c) =>
                         match pick rvs n with Some v => b_variant true n v (Some c) | None => None end
                     | None => None
                     end, l1))
  | XUntagged vs =>
      let rvs := map (fun x => match x with (n, v) => (n, variant v) end) vs in
      mkR (fun y a => o_bind (de_any fuel y a) (fun c a1 =>
                        match first_of (u_variant c) rvs with Some v => Done v a1 | None => Failed end))
          (fun _ c => first_of (u_variant c) rvs)
          (fun l => (first_of (u_variant (AnMap (remaining l))) rvs, l))
  | XTagged tag vs =>
      let rvs := map (fun x => match x with (n, v) => (n, variant v) end) vs in
      mkR (fun y a => o_bind (n_tagged fuel tag y a) (fun r a1 =>
                        match t_variant rvs r with Some v => Done v a1 | None => Failed end))
          (fun _ c => match b_tagged tag c with Some r => t_variant rvs r | None => None end)
          (fun l => (match b_tagged tag (AnMap (remaining l)) with Some r => t_variant rvs r | None => None end, l))
  end.

(** [from_yaml]: deserializer.rs 122-124. *)
Definition read_yaml (fuel : nat) (t : xty) (y : yaml) : outcome sval := r_node (read fuel t) y [].

(** [from_yaml_str]: deserializer.rs 126-138; a panic of the parser stays a panic. *)
Definition read_str (ut : unitab) (fuel : nat) (t : xty) (s : str) : cres (outcome sval) :=
  match parse_yaml ut s with
  | CVal d => match first_yaml (items d) with Some y => CVal (read_yaml fuel t y) | None => CErr end
  | CErr => CErr
  | CPanic => CPanic
  end.
