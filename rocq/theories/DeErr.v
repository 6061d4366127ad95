(** Model of /repo/src/yaml/deserializer.rs with its errors: [de_e] is [De.de] with the
    error the Rust code returns in place of [None].  Errors of serde and std are values that
    say which of their errors it is; the crate's own have their text ([own_text]). *)
From Coq Require Import ZArith.
From Verif Require Import Base Ast Strings Format Num Pretty Ser De.
Import ListNotations.

(** The crate's own messages. *)
Inductive own_err : Type :=
| EUndefined (n : str)       (* 67 *)
| EBoolGot (s : str)         (* 213 *)
| EBool                      (* 215 *)
| EInteger                   (* 235 *)
| EUnsigned                  (* 254 *)
| EFloat                     (* 267 *)
| EString                    (* 278 *)
| ESequence                  (* 328 *)
| EMap                       (* 357 *)
| EVariantName               (* 386 *)
| ESingleKey                 (* 401-403 *)
| ESingleKeyInline           (* 411-413 *)
| EEnum.                     (* 417 *)
(** Errors made by std ([ParseIntError], [ParseFloatError]) and by serde: an integer out of
    range, a text that is not one character, too few elements, a missing field, a field
    given twice, an unknown variant, and the default of [deserialize_i128]. *)
Inductive foreign_err : Type :=
| FNotInteger (s : str)      (* 232, 251 *)
| FNotFloat (s : str)        (* 264 *)
| FRange (k : ikind) (z : Z)
| FChar (s : str)
| FLength (n : nat)
| FMissing (f : str)
| FDuplicate (f : str)
| FVariant (n : str)
| FUnsupported (k : ikind).
Inductive de_err : Type := Own (e : own_err) | Foreign (e : foreign_err).

(** The text of the crate's own messages; [debug] is the [Debug] form of a string. *)
Definition own_text (debug : str -> str) (e : own_err) : str :=
  match e with
  | EUndefined n => lit "undefined anchor: " ++ n
  | EBoolGot s => lit "expected bool, got " ++ debug s
  | EBool => lit "expected bool"
  | EInteger => lit "expected integer"
  | EUnsigned => lit "expected unsigned integer"
  | EFloat => lit "expected float"
  | EString => lit "expected string"
  | ESequence => lit "expected sequence"
  | EMap => lit "expected map"
  | EVariantName => lit "expected string for enum variant"
  | ESingleKey => lit "expected single-key map for tagged enum variant"
  | ESingleKeyInline => lit "expected single-key inline hash for tagged enum variant"
  | EEnum => lit "expected string or map for enum"
  end.

(** [Result]. *)
Notation eres A := (A + de_err)%type.
Definition ebind {A B} (x : eres A) (f : A -> eres B) : eres B :=
  match x with inl v => f v | inr e => inr e end.
Notation "'let!' p ':=' x 'in' k" := (ebind x (fun v => match v with p => k end))
  (at level 200, p pattern, x at level 100, k at level 200).
Notation edecoder := (yaml -> anchors -> eres (sval * anchors)).

(** [into_resolved]: deserializer.rs 95-103. *)
Definition resolved_e (y : yaml) (a : anchors) : eres yaml :=
  match y with
  | Anchor n => match resolve a n with Some v => inl v | None => inr (Own (EUndefined n)) end
  | _ => inl y
  end.

(** [deserialize_bool]: deserializer.rs 203-217. *)
Definition de_bool_e (y : yaml) (a : anchors) : eres (sval * anchors) :=
  let! y' := resolved_e y a in
  match y' with
  | Unquoted s =>
      if one_of [lit "true"; lit "True"; lit "TRUE"; lit "yes"; lit "Yes"; lit "YES";
                 lit "on"; lit "On"; lit "ON"] s then inl (SBool true, a)
      else if one_of [lit "false"; lit "False"; lit "FALSE"; lit "no"; lit "No"; lit "NO";
                      lit "off"; lit "Off"; lit "OFF"] s then inl (SBool false, a)
      else inr (Own (EBoolGot s))
  | _ => inr (Own EBool)
  end.

(** [deserialize_i64] 228-237, [deserialize_u64] 247-256 and the visitors of the integer
    types; serde's default for the 128-bit types. *)
Definition de_int_with (parse : str -> option Z) (e : own_err) (k : ikind) (y : yaml) (a : anchors)
  : eres (sval * anchors) :=
  let! y' := resolved_e y a in
  match yaml_to_string y' with
  | Some s =>
      match parse s with
      | Some z => if in_kind k z then inl (SInt k z, a) else inr (Foreign (FRange k z))
      | None => inr (Foreign (FNotInteger s))
      end
  | None => inr (Own e)
  end.
Definition de_int_e (k : ikind) (y : yaml) (a : anchors) : eres (sval * anchors) :=
  match k with
  | I8 | I16 | I32 | I64 => de_int_with parse_i64 EInteger k y a
  | U8 | U16 | U32 | U64 => de_int_with parse_u64 EUnsigned k y a
  | I128 | U128 => inr (Foreign (FUnsupported k))
  end.

(** [deserialize_f64]: deserializer.rs 260-269. *)
Definition de_float_e (y : yaml) (a : anchors) : eres (sval * anchors) :=
  let! y' := resolved_e y a in
  match yaml_to_string y' with
  | Some s => if parse_f64_ok s then inl (SFloat s, a) else inr (Foreign (FNotFloat s))
  | None => inr (Own EFloat)
  end.

(** [deserialize_str]: deserializer.rs 273-280. *)
Definition de_text_e (y : yaml) (a : anchors) : eres str :=
  let! y' := resolved_e y a in
  match yaml_to_string y' with Some s => inl s | None => inr (Own EString) end.

(** [deserialize_seq]: deserializer.rs 320-330. *)
Definition de_seq_e (y : yaml) (a : anchors) : eres (list yaml * anchors) :=
  let! y' := resolved_e y a in
  match y' with
  | Array l => inl (seq_values a l)
  | InlineArray l => inl (l, a)
  | _ => inr (Own ESequence)
  end.

(** [deserialize_map]: deserializer.rs 349-359. *)
Definition de_map_e (y : yaml) (a : anchors) : eres (list (str * yaml) * anchors) :=
  let! y' := resolved_e y a in
  match y' with
  | Hash l => inl (hash_entries a l)
  | InlineHash l => inl (l, a)
  | _ => inr (Own EMap)
  end.

(** serde's visitor for [Vec<T>] over [VecSeqAccess] (433-456). *)
Fixpoint de_elems_e (d : edecoder) (l : list yaml) (a : anchors) : eres (list sval * anchors) :=
  match l with
  | [] => inl ([], a)
  | y :: l' =>
      let! (v, a1) := d y a in
      let! (vs, a2) := de_elems_e d l' a1 in
      inl (v :: vs, a2)
  end.

(** serde's visitor for tuples; [i] elements have been read. *)
Fixpoint de_tuple_e (i : nat) (ds : list edecoder) (l : list yaml) (a : anchors)
  : eres (list sval * anchors) :=
  match ds with
  | [] => inl ([], a)
  | d :: ds' =>
      match l with
      | [] => inr (Foreign (FLength i))
      | y :: l' =>
          let! (v, a1) := d y a in
          let! (vs, a2) := de_tuple_e (S i) ds' l' a1 in
          inl (v :: vs, a2)
      end
  end.

(** serde's visitor for maps over [VecMapAccess] (460-503). *)
Fixpoint de_entries_e (dk dv : edecoder) (l : list (str * yaml)) (a : anchors)
  : eres (list (sval * sval) * anchors) :=
  match l with
  | [] => inl ([], a)
  | (k, y) :: l' =>
      let! (vk, a1) := dk (Unquoted k) a in
      let! (v, a2) := dv y a1 in
      let! (vs, a3) := de_entries_e dk dv l' a2 in
      inl ((vk, v) :: vs, a3)
  end.

(** serde_derive's struct visitor, as [De.de_field]. *)
Record efield : Type := mkEF { ef_name : str; ef_de : edecoder; ef_opt : bool; ef_val : option sval }.
Fixpoint de_field_e (fs : list efield) (k : str) (y : yaml) (a : anchors) : eres (list efield * anchors) :=
  match fs with
  | [] => inl ([], a)
  | f :: fs' =>
      if seqb (ef_name f) k then
        match ef_val f with
        | Some _ => inr (Foreign (FDuplicate (ef_name f)))
        | None =>
            let! (v, a1) := ef_de f y a in
            inl (mkEF (ef_name f) (ef_de f) (ef_opt f) (Some v) :: fs', a1)
        end
      else
        let! (fs1, a1) := de_field_e fs' k y a in
        inl (f :: fs1, a1)
  end.
Fixpoint de_fields_e (fs : list efield) (l : list (str * yaml)) (a : anchors) : eres (list efield * anchors) :=
  match l with
  | [] => inl (fs, a)
  | (k, y) :: l' => let! (fs1, a1) := de_field_e fs k y a in de_fields_e fs1 l' a1
  end.
(** The values in declaration order; the first missing field that is no option is an error. *)
Fixpoint field_values_e (fs : list efield) : eres (list (str * sval)) :=
  match fs with
  | [] => inl []
  | f :: fs' =>
      let! x := match ef_val f with
                | Some v => inl (ef_name f, v)
                | None => if ef_opt f then inl (ef_name f, SNone) else inr (Foreign (FMissing (ef_name f)))
                end in
      let! xs := field_values_e fs' in
      inl (x :: xs)
  end.
Definition de_struct_e (fs : list efield) (y : yaml) (a : anchors) : eres (list (str * sval) * anchors) :=
  let! (l, a1) := de_map_e y a in
  let! (fs1, a2) := de_fields_e fs l a1 in
  let! vs := field_values_e fs1 in
  inl (vs, a2).

(** [deserialize_enum]: deserializer.rs 370-420. *)
Definition de_enum_e (y : yaml) (a : anchors) : eres (str * yaml * anchors) :=
  let! y' := resolved_e y a in
  match y' with
  | Hash l =>
      match hash_entries a l with
      | ([(n, v)], a1) => inl (n, v, a1)
      | _ => inr (Own ESingleKey)
      end
  | InlineHash [(n, v)] => inl (n, v, a)
  | InlineHash _ => inr (Own ESingleKeyInline)
  | InlineArray _ | Array _ | Anchor _ => inr (Own EEnum)
  | _ => match yaml_to_string y' with
         | Some s => inl (s, Unquoted (lit "~"), a)
         | None => inr (Own EVariantName)
         end
  end.

(** serde_derive's enum visitor. *)
Fixpoint de_variant_e (vs : list (str * edecoder)) (n : str) : edecoder :=
  match vs with
  | [] => fun _ _ => inr (Foreign (FVariant n))
  | (m, d) :: vs' => if seqb m n then d else de_variant_e vs' n
  end.

(** [T::deserialize(YamlDeserializer)]: deserializer.rs 140-429. *)
Fixpoint de_e (t : ty) (y : yaml) (a : anchors) {struct t} : eres (sval * anchors) :=
  match t with
  | TBool => de_bool_e y a
  | TInt k => de_int_e k y a
  | TFloat => de_float_e y a
  | TChar =>
      let! s := de_text_e y a in
      match s with [c] => inl (SChar c, a) | _ => inr (Foreign (FChar s)) end
  | TStr => let! s := de_text_e y a in inl (SStr s, a)
  | TBytes =>
      let! (l, a1) := de_seq_e y a in
      let! (vs, a2) := de_elems_e (de_int_e U8) l a1 in
      inl (SBytes (map (fun v => match v with SInt _ z => Z.to_N z | _ => 0%N end) vs), a2)
  | TOption t =>
      let! y' := resolved_e y a in
      match y' with
      | Unquoted s =>
          if is_null_word s then inl (SNone, a)
          else let! (v, a1) := de_e t y' a in inl (SSome v, a1)
      | _ => let! (v, a1) := de_e t y' a in inl (SSome v, a1)
      end
  | TUnit => inl (SUnit, a)
  | TUnitStruct => inl (SUnitStruct, a)
  | TNewtype t => let! (v, a1) := de_e t y a in inl (SNewtype v, a1)
  | TSeq t =>
      let! (l, a1) := de_seq_e y a in
      let! (vs, a2) := de_elems_e (de_e t) l a1 in
      inl (SSeq vs, a2)
  | TTuple ts =>
      let! (l, a1) := de_seq_e y a in
      let! (vs, a2) := de_tuple_e 0 (map de_e ts) l a1 in
      inl (STuple vs, a2)
  | TMap k v =>
      let! (l, a1) := de_map_e y a in
      let! (vs, a2) := de_entries_e (de_e k) (de_e v) l a1 in
      inl (SMap vs, a2)
  | TStruct fs =>
      let! (vs, a1) := de_struct_e (map (fun nt => match nt with (n, t) => mkEF n (de_e t) (is_option t) None end) fs) y a in
      inl (SStruct vs, a1)
  | TEnum vs =>
      let! (n, c, a1) := de_enum_e y a in
      de_variant_e (map (fun nv => match nv with (n, v) =>
        (n, match v with
            | VaUnit => fun _ a => inl (SUnitV n, a)
            | VaNew t => fun y a => let! (v, a1) := de_e t y a in inl (SNewV n v, a1)
            | VaTup ts => fun y a =>
                let! (l, a1) := de_seq_e y a in
                let! (vs, a2) := de_tuple_e 0 (map de_e ts) l a1 in
                inl (STupV n vs, a2)
            | VaStruct fs => fun y a =>
                let! (vs, a1) := de_struct_e (map (fun nt => match nt with (n, t) => mkEF n (de_e t) (is_option t) None end) fs) y a in
                inl (SStructV n vs, a1)
            end) end) vs) n c a1
  end.

(** [from_yaml]: deserializer.rs 122-124. *)
Definition from_yaml_e (t : ty) (y : yaml) : eres sval := let! (v, _) := de_e t y [] in inl v.
