(** Specification vocabulary for the way of a value through text: the values that
    survive serialization, pretty printing, formatting, parsing and deserialization. *)
From Coq Require Import ZArith.
From Verif Require Import Base Ast YamlGrammar Ser Spec_Strings Spec_Parse Spec_Format Spec_Serde.
Import ListNotations.

(** ---- texts ---- *)

(** Text that is always written in quotes. *)
Definition quoted_text (s : str) : Prop :=
  s = [] \/ (exists c, In c s /\ In c (lit ",[]{}>|#" ++ [DQUOTE; NL; CR]))
  \/ (exists r, s = QUOTE :: r) \/ (exists r, s = SP :: r) \/ (exists r, s = r ++ [SP])
  \/ has_pair (chr ":") SP s.

(** Other text must not look like something else without the quotes: it does not start
    with a space separator, has no colon at the end or before a space separator and does
    not start like a reference, an alias or a sequence element. *)
Definition readable (ut : unitab) (s : str) : Prop :=
  quoted_text s \/
  ((forall c r, s = c :: r -> is_zs c = false) /\ colons_inside s /\ not_marker ut s).

(** Text that is never written as a block scalar. *)
Definition row_text (s : str) : Prop :=
  one_line s /\ (In BACKSLASH s -> In QUOTE s -> In DQUOTE s) /\ utf8_len s <= 90.

(** Text that can be written as a block scalar. *)
Definition block_writable (s : str) : Prop :=
  ~ In CR s /\ (exists c r, s = c :: r /\ is_ws c = false)
  /\ (In NL s \/ utf8_len s <= 90 \/ foldable_text 90 s).

(** Text at a place of a block collection ([place]: see Spec_Format). *)
Definition text_fits (ut : unitab) (p : place) (s : str) : Prop :=
  readable ut s /\ (row_text s \/ p <> Head false /\ block_writable s).

(** ---- values ---- *)

Fixpoint key_fits (ut : unitab) (v : sval) : Prop :=
  match v with
  | SBool _ => True
  | SInt _ z => (0 <= z)%Z
  | SFloat s | SStr s | SUnitV s => plain_key ut s
  | SChar c => plain_key ut [c]
  | SSome v | SNewtype v => key_fits ut v
  | _ => False
  end.

(** Values inside a tuple, which is written inline. *)
Fixpoint inline_fits (ut : unitab) (v : sval) : Prop :=
  match v with
  | SBool _ | SInt _ _ | SNone | SUnit | SUnitStruct | SBytes _ => True
  | SFloat t => float_text t
  | SChar c => readable ut [c]
  | SStr s | SUnitV s => readable ut s
  | SSome v | SNewtype v => inline_fits ut v
  | SSeq l | STuple l => fold_right (fun v P => inline_fits ut v /\ P) True l
  | SMap l => fold_right (fun kv P => (match kv with (k, v) => key_fits ut k /\ inline_fits ut v end) /\ P) True l
  | SStruct l => fold_right (fun kv P => (match kv with (k, v) => plain_key ut k /\ inline_fits ut v end) /\ P) True l
  | _ => False
  end.

(** A bound for the length of the value written on one line, in bytes. *)
Fixpoint width (v : sval) : nat :=
  match v with
  | SInt _ _ => 22
  | SFloat t => 1 + utf8_len t
  | SChar c => 3 + 2 * utf8_len [c]
  | SStr s | SUnitV s => 3 + 2 * utf8_len s
  | SSome v | SNewtype v => width v
  | SSeq l | STuple l => fold_right (fun v n => width v + 1 + n) 4 l
  | _ => 6
  end.

(** Values that are written on one line as elements of a sequence. *)
Fixpoint narrow (v : sval) : Prop :=
  match v with
  | SBool _ | SNone | SUnit | SUnitStruct | SFloat _ => True
  | SInt _ z => (Z.abs z < 10 ^ 20)%Z
  | SChar c => row_text [c]
  | SStr s | SUnitV s => row_text s
  | SSome v | SNewtype v => narrow v
  | SSeq l => width (SSeq l) <= 90 /\ fold_right (fun v P => narrow v /\ P) True l
  | STuple l => fold_right (fun v P => narrow v /\ P) True l
  | _ => False
  end.

(** The place of the first value of a mapping with [n] entries that stands at [p] and
    (if [in_seq]) is a sequence element. *)
Definition first_place (in_seq : bool) (p : place) (n : nat) : place :=
  if in_seq then
    match p with
    | Head false => Head false
    | _ => Head (n =? 1)
    end
  else Own.

(** Values of mapping entries or (if [in_seq]) sequence elements. *)
Fixpoint block_fits (ut : unitab) (p : place) (in_seq : bool) (v : sval) : Prop :=
  match v with
  | SBool _ | SInt _ _ | SNone | SUnit | SUnitStruct => True
  | SBytes l => forall b, In b l -> (b < 256)%N
  | SFloat t => float_text t
  | SChar c => text_fits ut p [c]
  | SStr s | SUnitV s => text_fits ut p s
  | SSome v | SNewtype v => block_fits ut p in_seq v
  | STuple l => fold_right (fun v P => inline_fits ut v /\ P) True l
  | SSeq l =>
      fold_right (fun v P => block_fits ut Own true v /\ P) True l /\
      (in_seq = true -> match l with
                        | [] => True
                        | x :: l' => block_fits ut (Head false) true x /\
                            (l' = [] -> narrow x /\ width (SSeq [x]) <= 90)
                        end)
  | SMap l =>
      match l with
      | [] => True
      | (k, v) :: l' =>
          key_fits ut k /\ block_fits ut (first_place in_seq p (length l)) false v /\
          fold_right (fun kv P => (match kv with
                                   | (k, v) => key_fits ut k /\ block_fits ut Own false v
                                   end) /\ P) True l'
      end
  | SStruct l =>
      match l with
      | [] => True
      | (k, v) :: l' =>
          plain_key ut k /\ block_fits ut (first_place in_seq p (length l)) false v /\
          fold_right (fun kv P => (match kv with
                                   | (k, v) => plain_key ut k /\ block_fits ut Own false v
                                   end) /\ P) True l'
      end
  | _ => False
  end.

(** The root is a nonempty sequence, mapping or struct. *)
Fixpoint root_fits (ut : unitab) (v : sval) : Prop :=
  match v with
  | SSome v | SNewtype v => root_fits ut v
  | SBytes l => l <> [] /\ block_fits ut Own false v
  | SSeq l => l <> [] /\ block_fits ut Own false v
  | SMap l => l <> [] /\ block_fits ut Own false v
  | SStruct l => l <> [] /\ block_fits ut Own false v
  | _ => False
  end.
