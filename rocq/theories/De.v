(** Model of /repo/src/yaml/deserializer.rs.

    [de t] is [T::deserialize] for the Rust type [t] stands for: serde's own impls for the
    std types and the visitors that serde_derive generates (no attributes), run against
    [YamlDeserializer].  Simplifications: an f64 is represented by its text; a map value is
    the list of its entries in document order (a Rust map keeps the last of equal keys);
    error messages are one value ([None]). *)
From Coq Require Import ZArith.
From Verif Require Import Base Ast Strings Format Num Pretty Ser.
Import ListNotations.

(** [yaml_to_string]: deserializer.rs 33-52. *)
Definition yaml_to_string (y : yaml) : option str :=
  match y with
  | Unquoted s => Some s
  | DoubleQ ps => Some (parse_double_quoted ps)
  | Literal ls c => Some (parse_literal ls c)
  | Folded ls c => Some (parse_folded ls c)
  | SingleQ ps => Some (parse_single_quoted ps)
  | InlineHash _ | Hash _ | InlineArray _ | Array _ | Anchor _ => None
  end.

(** [Anchors]: deserializer.rs 54; the newest registration first. *)
Definition anchors : Type := list (str * yaml).

(** [register]: deserializer.rs 56-60. *)
Definition register (a : anchors) (x : aliased) : anchors :=
  match a_alias x with Some n => (n, a_value x) :: a | None => a end.

(** [resolve]: deserializer.rs 62-68. *)
Fixpoint resolve (a : anchors) (n : str) : option yaml :=
  match a with
  | [] => None
  | (m, y) :: a' => if seqb m n then Some y else resolve a' n
  end.

(** [hash_entries]: deserializer.rs 70-80; registers in order. *)
Fixpoint hash_entries (a : anchors) (l : list hashdata) : list (str * yaml) * anchors :=
  match l with
  | [] => ([], a)
  | HElem e :: l' =>
      let '(es, a') := hash_entries (register a (he_value e)) l' in
      ((he_key e, a_value (he_value e)) :: es, a')
  | (HComment _ | HInlineC _) :: l' => hash_entries a l'
  end.

(** [seq_values]: deserializer.rs 82-93. *)
Fixpoint seq_values (a : anchors) (l : list arraydata) : list yaml * anchors :=
  match l with
  | [] => ([], a)
  | AElem e :: l' =>
      let '(es, a') := seq_values (register a e) l' in (a_value e :: es, a')
  | (AComment _ | AInlineC _) :: l' => seq_values a l'
  end.

(** [into_resolved]: deserializer.rs 95-103 (one step). *)
Definition into_resolved (y : yaml) (a : anchors) : option yaml :=
  match y with Anchor n => resolve a n | _ => Some y end.

(** Results: a value and the registrations made so far, or an error. *)
Notation dres A := (option (A * anchors)).
Notation decoder := (yaml -> anchors -> dres sval).

(** Rust types. *)
Inductive ty : Type :=
| TBool
| TInt (k : ikind)
| TFloat
| TChar
| TStr
| TBytes
| TOption (t : ty)
| TUnit
| TUnitStruct
| TNewtype (t : ty)
| TSeq (t : ty)
| TTuple (ts : list ty)
| TMap (k v : ty)
| TStruct (fs : list (str * ty))
| TEnum (vs : list (str * variant))
with variant : Type :=
| VaUnit
| VaNew (t : ty)
| VaTup (ts : list ty)
| VaStruct (fs : list (str * ty)).

Definition is_null_word (s : str) : bool :=
  seqb s (lit "~") || seqb s (lit "null") || seqb s (lit "Null") || seqb s (lit "NULL").

(** [deserialize_bool]: deserializer.rs 203-217. *)
Definition one_of (l : list str) (s : str) : bool := existsb (seqb s) l.
Definition de_bool (y : yaml) (a : anchors) : dres sval :=
  match into_resolved y a with
  | Some (Unquoted s) =>
      if one_of [lit "true"; lit "True"; lit "TRUE"; lit "yes"; lit "Yes"; lit "YES";
                 lit "on"; lit "On"; lit "ON"] s then Some (SBool true, a)
      else if one_of [lit "false"; lit "False"; lit "FALSE"; lit "no"; lit "No"; lit "NO";
                      lit "off"; lit "Off"; lit "OFF"] s then Some (SBool false, a)
      else None
  | _ => None
  end.

(** The ranges of the integer types. *)
Definition ikind_min (k : ikind) : Z :=
  match k with
  | I8 => - 2 ^ 7 | I16 => - 2 ^ 15 | I32 => - 2 ^ 31 | I64 => - 2 ^ 63 | I128 => - 2 ^ 127
  | _ => 0
  end%Z.
Definition ikind_max (k : ikind) : Z :=
  match k with
  | I8 => 2 ^ 7 - 1 | I16 => 2 ^ 15 - 1 | I32 => 2 ^ 31 - 1 | I64 => 2 ^ 63 - 1 | I128 => 2 ^ 127 - 1
  | U8 => 2 ^ 8 - 1 | U16 => 2 ^ 16 - 1 | U32 => 2 ^ 32 - 1 | U64 => 2 ^ 64 - 1 | U128 => 2 ^ 128 - 1
  end%Z.
Definition in_kind (k : ikind) (z : Z) : bool :=
  ((ikind_min k <=? z) && (z <=? ikind_max k))%Z.

(** [deserialize_i64] 228-237 and [deserialize_u64] 247-256, to which the smaller types
    forward (219-227, 238-246); the visitors check the range (serde).  The 128-bit types
    have serde's default, an error. *)
Definition de_int (k : ikind) (y : yaml) (a : anchors) : dres sval :=
  match into_resolved y a with
  | None => None
  | Some y =>
      match yaml_to_string y with
      | None => None
      | Some s =>
          match match k with
                | I8 | I16 | I32 | I64 => parse_i64 s
                | U8 | U16 | U32 | U64 => parse_u64 s
                | I128 | U128 => None
                end with
          | Some z => if in_kind k z then Some (SInt k z, a) else None
          | None => None
          end
      end
  end.

(** [deserialize_f64]: deserializer.rs 260-269. *)
Definition de_float (y : yaml) (a : anchors) : dres sval :=
  match into_resolved y a with
  | None => None
  | Some y =>
      match yaml_to_string y with
      | Some s => if parse_f64_ok s then Some (SFloat s, a) else None
      | None => None
      end
  end.

(** [deserialize_str]: deserializer.rs 273-280. *)
Definition de_text (y : yaml) (a : anchors) : option str :=
  match into_resolved y a with Some y => yaml_to_string y | None => None end.

(** [deserialize_seq]: deserializer.rs 320-330 (also bytes 284-289, tuples 332-347). *)
Definition de_seq_values (y : yaml) (a : anchors) : option (list yaml * anchors) :=
  match into_resolved y a with
  | Some (Array l) => Some (seq_values a l)
  | Some (InlineArray l) => Some (l, a)
  | _ => None
  end.

(** [deserialize_map]: deserializer.rs 349-359 (also structs 361-368). *)
Definition de_map_entries (y : yaml) (a : anchors) : option (list (str * yaml) * anchors) :=
  match into_resolved y a with
  | Some (Hash l) => Some (hash_entries a l)
  | Some (InlineHash l) => Some (l, a)
  | _ => None
  end.

(** serde's visitor for [Vec<T>] over [VecSeqAccess] (433-456): all elements in order. *)
Fixpoint de_elems (d : decoder) (l : list yaml) (a : anchors) : dres (list sval) :=
  match l with
  | [] => Some ([], a)
  | y :: l' =>
      match d y a with
      | Some (v, a1) =>
          match de_elems d l' a1 with
          | Some (vs, a2) => Some (v :: vs, a2)
          | None => None
          end
      | None => None
      end
  end.

(** serde's visitor for tuples: one element per component, the rest is not read. *)
Fixpoint de_tuple (ds : list decoder) (l : list yaml) (a : anchors) : dres (list sval) :=
  match ds with
  | [] => Some ([], a)
  | d :: ds' =>
      match l with
      | [] => None
      | y :: l' =>
          match d y a with
          | Some (v, a1) =>
              match de_tuple ds' l' a1 with
              | Some (vs, a2) => Some (v :: vs, a2)
              | None => None
              end
          | None => None
          end
      end
  end.

(** serde's visitor for maps over [VecMapAccess] (460-503): a key is read from an unquoted
    scalar. *)
Fixpoint de_entries (dk dv : decoder) (l : list (str * yaml)) (a : anchors)
  : dres (list (sval * sval)) :=
  match l with
  | [] => Some ([], a)
  | (k, y) :: l' =>
      match dk (Unquoted k) a with
      | Some (vk, a1) =>
          match dv y a1 with
          | Some (v, a2) =>
              match de_entries dk dv l' a2 with
              | Some (vs, a3) => Some ((vk, v) :: vs, a3)
              | None => None
              end
          | None => None
          end
      | None => None
      end
  end.

(** serde_derive's struct visitor.  A field has its name, its decoder, whether it is an
    [Option] (then it may be missing) and the value read so far. *)
Record field : Type := mkF { f_name : str; f_de : decoder; f_opt : bool; f_val : option sval }.

(** One entry: a field seen before is an error, an unknown one is skipped
    ([deserialize_ignored_any], 426-428). *)
Fixpoint de_field (fs : list field) (k : str) (y : yaml) (a : anchors) : dres (list field) :=
  match fs with
  | [] => Some ([], a)
  | f :: fs' =>
      if seqb (f_name f) k then
        match f_val f with
        | Some _ => None
        | None =>
            match f_de f y a with
            | Some (v, a1) => Some (mkF (f_name f) (f_de f) (f_opt f) (Some v) :: fs', a1)
            | None => None
            end
        end
      else
        match de_field fs' k y a with
        | Some (fs1, a1) => Some (f :: fs1, a1)
        | None => None
        end
  end.
Fixpoint de_fields (fs : list field) (l : list (str * yaml)) (a : anchors) : dres (list field) :=
  match l with
  | [] => Some (fs, a)
  | (k, y) :: l' =>
      match de_field fs k y a with
      | Some (fs1, a1) => de_fields fs1 l' a1
      | None => None
      end
  end.
(** The values in declaration order; a missing option is [None]. *)
Definition field_value (f : field) : option (str * sval) :=
  match f_val f with
  | Some v => Some (f_name f, v)
  | None => if f_opt f then Some (f_name f, SNone) else None
  end.
Definition de_struct (fs : list field) (y : yaml) (a : anchors) : dres (list (str * sval)) :=
  match de_map_entries y a with
  | None => None
  | Some (l, a1) =>
      match de_fields fs l a1 with
      | None => None
      | Some (fs1, a2) =>
          match opt_map field_value fs1 with
          | Some vs => Some (vs, a2)
          | None => None
          end
      end
  end.

(** [deserialize_enum]: deserializer.rs 370-420: variant name and content. *)
Definition de_enum_content (y : yaml) (a : anchors) : option (str * yaml * anchors) :=
  match into_resolved y a with
  | Some (Hash l) =>
      match hash_entries a l with
      | ([(n, v)], a1) => Some (n, v, a1)
      | _ => None
      end
  | Some (InlineHash [(n, v)]) => Some (n, v, a)
  | Some (InlineHash _ | InlineArray _ | Array _ | Anchor _) | None => None
  | Some y => match yaml_to_string y with
              | Some s => Some (s, Unquoted (lit "~"), a)
              | None => None
              end
  end.

(** serde_derive's enum visitor: the variant with that name reads the content
    ([VariantAccess], 529-558). *)
Fixpoint de_variant (vs : list (str * decoder)) (n : str) : decoder :=
  match vs with
  | [] => fun _ _ => None
  | (m, d) :: vs' => if seqb m n then d else de_variant vs' n
  end.

Definition is_option (t : ty) : bool := match t with TOption _ => true | _ => false end.

(** [T::deserialize(YamlDeserializer)] for the type [t]: deserializer.rs 140-429. *)
Fixpoint de (t : ty) (y : yaml) (a : anchors) {struct t} : dres sval :=
  match t with
  | TBool => de_bool y a
  | TInt k => de_int k y a
  | TFloat => de_float y a
  | TChar => match de_text y a with Some [c] => Some (SChar c, a) | _ => None end      (* 270-272 *)
  | TStr => match de_text y a with Some s => Some (SStr s, a) | None => None end       (* 281-283 *)
  | TBytes =>                                                                          (* 284-289 *)
      match de_seq_values y a with
      | Some (l, a1) =>
          match de_elems (de_int U8) l a1 with
          | Some (vs, a2) =>
              Some (SBytes (map (fun v => match v with SInt _ z => Z.to_N z | _ => 0%N end) vs), a2)
          | None => None
          end
      | None => None
      end
  | TOption t =>                                                                       (* 291-299 *)
      match into_resolved y a with
      | None => None
      | Some (Unquoted s) =>
          if is_null_word s then Some (SNone, a)
          else match de t (Unquoted s) a with Some (v, a1) => Some (SSome v, a1) | None => None end
      | Some y => match de t y a with Some (v, a1) => Some (SSome v, a1) | None => None end
      end
  | TUnit => Some (SUnit, a)                                                           (* 301-303 *)
  | TUnitStruct => Some (SUnitStruct, a)                                               (* 304-310 *)
  | TNewtype t => match de t y a with Some (v, a1) => Some (SNewtype v, a1) | None => None end  (* 312-318 *)
  | TSeq t =>
      match de_seq_values y a with
      | Some (l, a1) =>
          match de_elems (de t) l a1 with Some (vs, a2) => Some (SSeq vs, a2) | None => None end
      | None => None
      end
  | TTuple ts =>
      match de_seq_values y a with
      | Some (l, a1) =>
          match de_tuple (map de ts) l a1 with Some (vs, a2) => Some (STuple vs, a2) | None => None end
      | None => None
      end
  | TMap k v =>
      match de_map_entries y a with
      | Some (l, a1) =>
          match de_entries (de k) (de v) l a1 with Some (vs, a2) => Some (SMap vs, a2) | None => None end
      | None => None
      end
  | TStruct fs =>
      match de_struct (map (fun nt => match nt with (n, t) => mkF n (de t) (is_option t) None end) fs) y a with
      | Some (vs, a1) => Some (SStruct vs, a1)
      | None => None
      end
  | TEnum vs =>
      match de_enum_content y a with
      | None => None
      | Some (n, c, a1) =>
          de_variant (map (fun nv => match nv with (n, v) =>
            (n, match v with
                | VaUnit => fun _ a => Some (SUnitV n, a)                              (* 532-534 *)
                | VaNew t => fun y a =>                                                (* 536-541 *)
                    match de t y a with Some (v, a1) => Some (SNewV n v, a1) | None => None end
                | VaTup ts => fun y a =>                                               (* 543-549 *)
                    match de_seq_values y a with
                    | Some (l, a1) =>
                        match de_tuple (map de ts) l a1 with
                        | Some (vs, a2) => Some (STupV n vs, a2) | None => None end
                    | None => None
                    end
                | VaStruct fs => fun y a =>                                            (* 551-557 *)
                    match de_struct (map (fun nt => match nt with (n, t) => mkF n (de t) (is_option t) None end) fs) y a with
                    | Some (vs, a1) => Some (SStructV n vs, a1)
                    | None => None
                    end
                end) end) vs) n c a1
      end
  end.

(** [from_yaml]: deserializer.rs 122-124. *)
Definition from_yaml (t : ty) (y : yaml) : option sval := option_map fst (de t y []).

(** ---- untyped ---- *)

(** What a visitor that accepts anything is given. *)
Inductive anyv : Type :=
| AnUnit
| AnBool (b : bool)
| AnI64 (z : Z)
| AnU64 (z : Z)
| AnF64 (t : str)
| AnStr (s : str)
| AnSeq (l : list anyv)
| AnMap (l : list (anyv * anyv)).

(** The scalar cases of [deserialize_any]: deserializer.rs 146-171. *)
Definition any_unquoted (s : str) : anyv :=
  if is_null_word s then AnUnit
  else if seqb s (lit "true") then AnBool true
  else if seqb s (lit "false") then AnBool false
  else match parse_i64 s with
       | Some z => AnI64 z
       | None =>
           match parse_u64 s with
           | Some z => AnU64 z
           | None => if parse_f64_ok s then AnF64 s else AnStr s
           end
       end.

(** Outcome of the untyped deserializer; [More]: the given number of steps is not enough. *)
Inductive outcome (A : Type) : Type := Done (x : A) (a : anchors) | Failed | More.
Arguments Done {A}. Arguments Failed {A}. Arguments More {A}.

(** [deserialize_any]: deserializer.rs 143-201, with a visitor that reads every element
    with [deserialize_any] again (serde's buffered content); keys are read from unquoted
    scalars. *)
Fixpoint de_any (fuel : nat) (y : yaml) (a : anchors) {struct fuel} : outcome anyv :=
  match fuel with
  | 0 => More
  | S n =>
      let elems := fix elems (l : list yaml) (a : anchors) : outcome (list anyv) :=
        match l with
        | [] => Done [] a
        | y :: l' =>
            match de_any n y a with
            | Done v a1 => match elems l' a1 with
                           | Done vs a2 => Done (v :: vs) a2
                           | Failed => Failed | More => More end
            | Failed => Failed | More => More
            end
        end in
      let entries := fix entries (l : list (str * yaml)) (a : anchors) : outcome (list (anyv * anyv)) :=
        match l with
        | [] => Done [] a
        | (k, y) :: l' =>
            match de_any n y a with
            | Done v a1 => match entries l' a1 with
                           | Done vs a2 => Done ((any_unquoted k, v) :: vs) a2
                           | Failed => Failed | More => More end
            | Failed => Failed | More => More
            end
        end in
      match y with
      | Unquoted s => Done (any_unquoted s) a
      | DoubleQ ps => Done (AnStr (parse_double_quoted ps)) a
      | Literal ls c => Done (AnStr (parse_literal ls c)) a
      | Folded ls c => Done (AnStr (parse_folded ls c)) a
      | SingleQ ps => Done (AnStr (parse_single_quoted ps)) a
      | Array l =>
          let '(vs, a1) := seq_values a l in
          match elems vs a1 with Done xs a2 => Done (AnSeq xs) a2 | Failed => Failed | More => More end
      | InlineArray l =>
          match elems l a with Done xs a2 => Done (AnSeq xs) a2 | Failed => Failed | More => More end
      | Hash l =>
          let '(es, a1) := hash_entries a l in
          match entries es a1 with Done xs a2 => Done (AnMap xs) a2 | Failed => Failed | More => More end
      | InlineHash l =>
          match entries l a with Done xs a2 => Done (AnMap xs) a2 | Failed => Failed | More => More end
      | Anchor n' =>
          match resolve a n' with
          | Some y' => de_any n y' a
          | None => Failed
          end
      end
  end.
