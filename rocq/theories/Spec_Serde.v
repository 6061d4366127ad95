(** Specification vocabulary for serialization: types, values of a type, and the values
    that survive. *)
From Coq Require Import ZArith.
From Verif Require Import Base Ast Ser De.
Import ListNotations.

Section All2.
  Context {A B : Type} (P : A -> B -> Prop).
  (** The lists have the same length and [P] holds for corresponding elements. *)
  Fixpoint all2 (l : list A) (m : list B) : Prop :=
    match l, m with
    | [], [] => True
    | x :: l', y :: m' => P x y /\ all2 l' m'
    | _, _ => False
    end.
End All2.
Section Any.
  Context {A : Type} (P : A -> Prop).
  Fixpoint any (l : list A) : Prop := match l with [] => False | x :: l' => P x \/ any l' end.
End Any.

(** The values of an integer type. *)
Definition fits (k : ikind) (z : Z) : Prop :=
  match k with
  | I8 => (-128 <= z < 128)
  | I16 => (-32768 <= z < 32768)
  | I32 => (-2147483648 <= z < 2147483648)
  | I64 => (-9223372036854775808 <= z < 9223372036854775808)
  | I128 => (- 2 ^ 127 <= z < 2 ^ 127)
  | U8 => (0 <= z < 256)
  | U16 => (0 <= z < 65536)
  | U32 => (0 <= z < 4294967296)
  | U64 => (0 <= z < 18446744073709551616)
  | U128 => (0 <= z < 2 ^ 128)
  end%Z.

(** Texts that [Display] gives for an f64. *)
Definition digits (s : str) : Prop := s <> [] /\ forall c, In c s -> (48 <= c <= 57)%N.
Definition float_text (t : str) : Prop :=
  t = lit "NaN" \/ t = lit "inf" \/ t = lit "-inf" \/
  exists sign ds frac, t = sign ++ ds ++ frac /\ (sign = [] \/ sign = lit "-") /\ digits ds /\
    (frac = [] \/ exists fs, frac = chr "." :: fs /\ digits fs).

(** [v] is a value of type [t]; field and variant names of a type are distinct. *)
Fixpoint has_ty (t : ty) (v : sval) {struct t} : Prop :=
  match t, v with
  | TBool, SBool _ | TChar, SChar _ | TStr, SStr _ | TUnit, SUnit
  | TUnitStruct, SUnitStruct | TOption _, SNone => True
  | TInt k, SInt k' z => k = k' /\ fits k z
  | TFloat, SFloat x => float_text x
  | TBytes, SBytes l => forall b, In b l -> (b < 256)%N
  | TOption t, SSome v => has_ty t v
  | TNewtype t, SNewtype v => has_ty t v
  | TSeq t, SSeq l => forall v, In v l -> has_ty t v
  | TTuple ts, STuple l => all2 has_ty ts l
  | TMap k w, SMap l => forall p, In p l -> has_ty k (fst p) /\ has_ty w (snd p)
  | TStruct fs, SStruct l =>
      NoDup (map fst fs) /\
      all2 (fun f x => match f with (n, t) => n = fst x /\ has_ty t (snd x) end) fs l
  | TEnum vs, SUnitV n => NoDup (map fst vs) /\ In (n, VaUnit) vs
  | TEnum vs, SNewV n v =>
      NoDup (map fst vs) /\
      any (fun x => match x with (m, VaNew t) => m = n /\ has_ty t v | _ => False end) vs
  | TEnum vs, STupV n l =>
      NoDup (map fst vs) /\
      any (fun x => match x with (m, VaTup ts) => m = n /\ all2 has_ty ts l | _ => False end) vs
  | TEnum vs, SStructV n l =>
      NoDup (map fst vs) /\
      any (fun x => match x with
                    | (m, VaStruct fs) => m = n /\ NoDup (map fst fs) /\
                        all2 (fun f x => match f with (n, t) => n = fst x /\ has_ty t (snd x) end) fs l
                    | _ => False
                    end) vs
  | _, _ => False
  end.

(** The value is written like a null: [~], or the words [Null] and [NULL]. *)
Fixpoint nullish (v : sval) : Prop :=
  match v with
  | SNone | SUnit | SUnitStruct => True
  | SStr s | SUnitV s => s = lit "Null" \/ s = lit "NULL"
  | SSome v | SNewtype v => nullish v
  | _ => False
  end.

(** Values the format can carry: no 128-bit integer, no variant with data, and nothing
    that is written like a null under [Some]. *)
Fixpoint faithful (v : sval) : Prop :=
  match v with
  | SInt (I128 | U128) _ => False
  | SNewV _ _ | STupV _ _ | SStructV _ _ => False
  | SSome v => ~ nullish v /\ faithful v
  | SNewtype v => faithful v
  | SSeq l | STuple l => fold_right (fun v P => faithful v /\ P) True l
  | SMap l => fold_right (fun kv P => (match kv with (k, v) => faithful k /\ faithful v end) /\ P) True l
  | SStruct l => fold_right (fun kv P => (match kv with (_, v) => faithful v end) /\ P) True l
  | _ => True
  end.

(** Mapping keys that are written without quotes: units, bools, numbers and text that
    starts with a letter, has only letters, digits, [_], [-] and is none of the words
    with another reading. *)
Definition is_letter (c : char) : bool :=
  ((65 <=? c)%N && (c <=? 90)%N) || ((97 <=? c)%N && (c <=? 122)%N).
Definition word_char (c : char) : bool :=
  is_letter c || ((48 <=? c)%N && (c <=? 57)%N) || (c =? 95)%N || (c =? 45)%N.
Definition lower_word (s : str) : str :=
  map (fun c => if (65 <=? c)%N && (c <=? 90)%N then (c + 32)%N else c) s.
Definition word (s : str) : Prop :=
  (exists c s', s = c :: s' /\ is_letter c = true) /\ (forall c, In c s -> word_char c = true) /\
  ~ In (lower_word s) [lit "true"; lit "false"; lit "null"; lit "nan"; lit "inf"; lit "infinity"].
Fixpoint word_key (v : sval) : Prop :=
  match v with
  | SBool _ | SInt _ _ | SFloat _ | SNone | SUnit | SUnitStruct => True
  | SStr s | SUnitV s => word s
  | SSome v | SNewtype v => word_key v
  | _ => False
  end.
(** All mapping keys in the value are of this kind. *)
Fixpoint word_keys (v : sval) : Prop :=
  match v with
  | SSome v | SNewtype v | SNewV _ v => word_keys v
  | SSeq l | STuple l | STupV _ l => fold_right (fun v P => word_keys v /\ P) True l
  | SMap l => fold_right (fun kv P => (match kv with (k, v) => word_key k /\ word_keys v end) /\ P) True l
  | SStruct l | SStructV _ l => fold_right (fun kv P => (match kv with (_, v) => word_keys v end) /\ P) True l
  | _ => True
  end.

(** [s] is decimal text for [z]; a minus sign only for the signed types. *)
Definition decimal_value (ds : str) : N := fold_left (fun a c => (10 * a + (c - 48))%N) ds 0%N.
Definition signed_kind (k : ikind) : Prop := In k [I8; I16; I32; I64; I128].
Definition decimal_text (k : ikind) (s : str) (z : Z) : Prop :=
  exists ds, digits ds /\
    (((s = ds \/ s = chr "+" :: ds) /\ z = Z.of_N (decimal_value ds)) \/
     (signed_kind k /\ s = chr "-" :: ds /\ z = (- Z.of_N (decimal_value ds))%Z)).

(** No [*name] in the tree. *)
Fixpoint no_refs (y : yaml) : Prop :=
  match y with
  | Anchor _ => False
  | InlineHash l => fold_right (fun kv P => (match kv with (_, v) => no_refs v end) /\ P) True l
  | Hash l => fold_right (fun d P => (match d with HElem (mkHE _ (mkA _ v)) => no_refs v | _ => True end) /\ P) True l
  | InlineArray l => fold_right (fun v P => no_refs v /\ P) True l
  | Array l => fold_right (fun d P => (match d with AElem (mkA _ v) => no_refs v | _ => True end) /\ P) True l
  | _ => True
  end.
Fixpoint depth (y : yaml) : nat :=
  match y with
  | InlineHash l => S (fold_right (fun kv n => Nat.max (match kv with (_, v) => depth v end) n) 0 l)
  | Hash l => S (fold_right (fun d n => Nat.max (match d with HElem (mkHE _ (mkA _ v)) => depth v | _ => 0 end) n) 0 l)
  | InlineArray l => S (fold_right (fun v n => Nat.max (depth v) n) 0 l)
  | Array l => S (fold_right (fun d n => Nat.max (match d with AElem (mkA _ v) => depth v | _ => 0 end) n) 0 l)
  | _ => 1
  end.

(** Types whose deserialization looks at the node. *)
Fixpoint reads (t : ty) : Prop :=
  match t with TUnit | TUnitStruct => False | TNewtype t => reads t | _ => True end.
