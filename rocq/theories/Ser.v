(** Model of /repo/src/yaml/serializer.rs.

    [sval] is serde's data model: what a [Serialize] impl (derived or std) passes to the
    serializer.  A value is the tree of its [serialize_*] calls.
    Simplifications: an f64 is represented by its [Display] text, f32 is left out; names
    of structs and enums are left out because the serializer ignores them; error messages
    are one value ([None]). *)
From Coq Require Import ZArith.
From Verif Require Import Base Ast Strings Format Num Pretty.
Import ListNotations.

Inductive ikind : Type :=
| I8 | I16 | I32 | I64 | I128 | U8 | U16 | U32 | U64 | U128.

(** serde's data model (serializer.rs 173-310, one constructor per method). *)
Inductive sval : Type :=
| SBool (b : bool)
| SInt (k : ikind) (z : Z)
| SFloat (t : str)
| SChar (c : char)
| SStr (s : str)
| SBytes (l : list N)
| SNone
| SSome (v : sval)
| SUnit
| SUnitStruct
| SNewtype (v : sval)
| SSeq (l : list sval)
| STuple (l : list sval)
| SMap (l : list (sval * sval))
| SStruct (l : list (str * sval))
| SUnitV (name : str)
| SNewV (name : str) (v : sval)
| STupV (name : str) (l : list sval)
| SStructV (name : str) (l : list (str * sval)).

(** [needs_quoting]: serializer.rs 39-41. *)
Definition needs_quoting (s : str) : bool :=
  negb (can_be_unquoted_in_block s) || inline_breaking_chars s.

(** The escaped character of the loops at serializer.rs 59-70 (only the backslash) and
    100-136. *)
Definition esc_backslash (c : char) : option dq_esc :=
  if ceqb c BACKSLASH then Some E_Backslash else None.
Definition esc_all (c : char) : option dq_esc :=
  if ceqb c NL then Some E_Newline
  else if ceqb c CR then Some E_CR
  else if ceqb c DQUOTE then Some E_Quote
  else if ceqb c BACKSLASH then Some E_Backslash
  else None.

(** The loops at serializer.rs 57-73 and 98-139; [buf] is the pending text. *)
Fixpoint dq_loop (esc : char -> option dq_esc) (s : str) (parts : list dq_part) (buf : str)
  : list dq_part * str :=
  match s with
  | [] => (parts, buf)
  | ch :: s' =>
      match esc ch with
      | Some e => dq_loop esc s' ((if is_nil buf then parts else parts ++ [DQ_Str buf]) ++ [DQ_Esc e]) []
      | None => dq_loop esc s' parts (buf ++ [ch])
      end
  end.
Definition dq_parts (esc : char -> option dq_esc) (s : str) : list dq_part :=
  let '(parts, buf) := dq_loop esc s [] [] in
  if is_nil buf then parts else parts ++ [DQ_Str buf].

(** [str_to_yaml]: serializer.rs 48-141 (the single-quote loop 77-93 is the one of
    mod.rs 602-619). *)
Definition str_to_yaml (s : str) : yaml :=
  if negb (needs_quoting s) then Unquoted s
  else if negb (has_char NL s) && negb (has_char CR s) then
    if has_char QUOTE s && negb (has_char DQUOTE s) then DoubleQ (dq_parts esc_backslash s)
    else SingleQ (str_to_single_quoted_parts s)
  else DoubleQ (dq_parts esc_all s).

(** [yaml_to_key_string]: serializer.rs 143-150. *)
Definition yaml_to_key_string (y : yaml) : option str :=
  match y with
  | Unquoted s => Some s
  | DoubleQ ps => Some (parse_double_quoted ps)
  | _ => None
  end.

(** [aliased]: serializer.rs 31-33. *)
Definition unaliased (y : yaml) : aliased := mkA None y.

(** [SeqSerializer::end] 330-337, [MapSerializer::end] 416-428. *)
Definition seq_yaml (l : list yaml) : yaml := Array (map (fun y => AElem (unaliased y)) l).
Definition map_yaml_of (l : list (str * yaml)) : yaml :=
  Hash (map (fun kv => HElem (mkHE (fst kv) (unaliased (snd kv)))) l).

Section Opts.
  Context {A B : Type} (f : A -> option B).
  (** The elements in order, an error as soon as one fails. *)
  Fixpoint opt_map (l : list A) : option (list B) :=
    match l with
    | [] => Some []
    | x :: l' => match f x with
                 | Some y => match opt_map l' with Some ys => Some (y :: ys) | None => None end
                 | None => None
                 end
    end.
End Opts.

(** The serializer: serializer.rs 162-465. *)
Fixpoint ser (v : sval) : option yaml :=
  match v with
  | SBool b => Some (Unquoted (if b then lit "true" else lit "false"))   (* 173-177 *)
  | SInt _ z => Some (Unquoted (show_Z z))                              (* 178-207 *)
  | SFloat t => Some (Unquoted t)                                       (* 208-213 *)
  | SChar c => Some (str_to_yaml [c])                                   (* 214-216 *)
  | SStr s => Some (str_to_yaml s)                                      (* 217-219 *)
  | SBytes l => Some (seq_yaml (map (fun b => Unquoted (show_N b)) l))  (* 220-226 *)
  | SNone | SUnit | SUnitStruct => Some (Unquoted (lit "~"))            (* 227-238 *)
  | SSome v | SNewtype v => ser v                                       (* 230-232, 247-253 *)
  | SUnitV n => Some (str_to_yaml n)                                    (* 239-246 *)
  | SNewV _ v => ser v                                                  (* 254-262 *)
  | SSeq l => option_map seq_yaml (opt_map ser l)                       (* 317-338 *)
  | STuple l | STupV _ l => option_map InlineArray (opt_map ser l)      (* 346-388 *)
  | SMap l =>                                                           (* 397-429 *)
      option_map map_yaml_of
        (opt_map (fun kv => match kv with
                            | (k, v) =>
                                match ser k with
                                | Some yk =>
                                    match yaml_to_key_string yk with
                                    | Some ks => option_map (fun y => (ks, y)) (ser v)
                                    | None => None
                                    end
                                | None => None
                                end
                            end) l)
  | SStruct l | SStructV _ l =>                                         (* 431-465 *)
      option_map map_yaml_of
        (opt_map (fun kv => match kv with (k, v) => option_map (fun y => (k, y)) (ser v) end) l)
  end.
