(** Specification vocabulary for serde attributes. *)
From Coq Require Import ZArith.
From Verif Require Import Base Ast Num Peg Ser De Attr Spec_Serde Spec_Look Spec_Typed.
Import ListNotations.

(** The type [t] without attributes, as a type that may have attributes. *)
Fixpoint bare (t : ty) : xty :=
  match t with
  | TBool => XBool
  | TInt k => XInt k
  | TFloat => XFloat
  | TChar => XChar
  | TStr | TBytes => XStr
  | TOption t => XOption (bare t)
  | TUnit | TUnitStruct => XUnit
  | TNewtype t => XNewtype (bare t)
  | TSeq t => XSeq (bare t)
  | TTuple ts => XTuple (map bare ts)
  | TMap k v => XMap (bare k) (bare v)
  | TStruct fs => XStruct (map (fun f => match f with (n, t) => (n, (false, bare t)) end) fs)
  | TEnum vs =>
      XEnum (map (fun x => match x with (n, v) =>
        (n, match v with
            | VaUnit => XVUnit
            | VaNew t => XVNew (bare t)
            | VaTup ts => XVTup (map bare ts)
            | VaStruct fs => XVStruct (map (fun f => match f with (n, t) => (n, bare t) end) fs)
            end) end) vs)
  end.
(** Neither byte arrays nor unit structs, which Attr.v leaves out. *)
Fixpoint no_bytes (t : ty) : Prop :=
  match t with
  | TBytes | TUnitStruct => False
  | TOption t | TNewtype t | TSeq t => no_bytes t
  | TTuple ts => fold_right (fun t P => no_bytes t /\ P) True ts
  | TMap k v => no_bytes k /\ no_bytes v
  | TStruct fs => fold_right (fun f P => (match f with (_, t) => no_bytes t end) /\ P) True fs
  | TEnum vs =>
      fold_right (fun x P => (match x with
                              | (_, VaUnit) => True
                              | (_, VaNew t) => no_bytes t
                              | (_, VaTup ts) => fold_right (fun t P => no_bytes t /\ P) True ts
                              | (_, VaStruct fs) => fold_right (fun f P => (match f with (_, t) => no_bytes t end) /\ P) True fs
                              end) /\ P) True vs
  | _ => True
  end.

(** The words that a reader with attributes tells from the same text in quotes. *)
Definition any_word (s : str) : bool := typed_word s || untyped_word s.
Definition any_loose (s : str) : bool := typed_loose s || untyped_loose s.
(** The outcome without the registrations. *)
Definition outcome_of {A} (o : outcome A) : outcome A :=
  match o with Done x _ => Done x [] | Failed => Failed | More => More end.
Definition outcome_str {A} (r : cres (outcome A)) : cres (outcome A) :=
  match r with CVal o => CVal (outcome_of o) | CErr => CErr | CPanic => CPanic end.

(** ---- the values that are written and read back ---- *)

(** A name that an untyped reader takes for text. *)
Definition plain_name (n : str) : Prop := untyped_word n = false.
Definition not_null_text (s : str) : Prop := s <> lit "Null" /\ s <> lit "NULL".
(** The names of the entries of a value that is written as a mapping with text keys. *)
Fixpoint entry_names (s : sval) : option (list str) :=
  match s with
  | SStruct l => Some (map fst l)
  | SMap l => opt_map (fun kv => match fst kv with SStr k => Some k | _ => None end) l
  | SNewtype s | SSome s => entry_names s
  | _ => None
  end.
(** [v] is written as a mapping with these conditions on the names of the entries. *)
Definition written_names (t : xty) (v : sval) (P : str -> Prop) : Prop :=
  exists s ks, emit t v = Some s /\ entry_names s = Some ks /\ forall k, In k ks -> P k.
(** The text of a float that is an integer is the one the integer has. *)
Definition plain_float (x : str) : Prop := forall z, decimal_text I64 x z -> x = show_Z z.
(** The variants before that of [v] can not be read from what [v] is written as. *)
Definition first_choice (vs : list (str * xvariant)) (v : sval) : Prop :=
  forall pre va post s y fuel w a, vs = pre ++ (variant_name v, va) :: post ->
    emit (XUntagged vs) v = Some s -> ser s = Some y -> read_yaml fuel (XUntagged pre) y <> Done w a.

Definition own_names (fs : list (str * (bool * xty))) : list str :=
  map fst (filter (fun f => negb (fst (snd f))) fs).

(** Values that survive in any position: names are plain, no 128-bit integer, no text
    [Null] or [NULL], nothing written like a null under [Some], no variant with data
    unless untagged or tagged; at most one flattened field, and it is written as a mapping
    with names of its own; a tag is not among the names it is written beside; an untagged
    variant is not mistaken for an earlier one. *)
Fixpoint carried (t : xty) (v : sval) {struct t} : Prop :=
  let fields (fs : list (str * xty)) (l : list (str * sval)) : Prop :=
    NoDup (map fst fs) /\ (forall n, In n (map fst fs) -> plain_name n) /\
    all2 (fun f x => match f with (_, t) => carried t (snd x) end) fs l in
  match t, v with
  | XBool, SBool _ | XChar, SChar _ | XUnit, SUnit | XOption _, SNone => True
  | XInt k, SInt _ z => k <> I128 /\ k <> U128 /\ fits k z
  | XFloat, SFloat x => float_text x /\ plain_float x
  | XStr, SStr s => not_null_text s
  | XOption t, SSome v => carried t v /\ forall s, emit t v = Some s -> ~ nullish s
  | XNewtype t, SNewtype v => carried t v
  | XSeq t, SSeq l => forall v, In v l -> carried t v
  | XTuple ts, STuple l => all2 carried ts l
  | XMap k w, SMap l => forall p, In p l -> carried k (fst p) /\ carried w (snd p)
  | XStruct fs, SStruct l =>
      NoDup (map fst fs) /\ (forall n, In n (map fst fs) -> plain_name n) /\
      length (filter (fun f => fst (snd f)) fs) <= 1 /\
      all2 (fun f x => match f with (_, (fl, t)) =>
              carried t (snd x) /\
              (fl = true -> written_names t (snd x) (fun k => plain_name k /\ ~ In k (own_names fs)))
            end) fs l
  | XEnum vs, SUnitV n => NoDup (map fst vs) /\ In (n, XVUnit) vs /\ not_null_text n
  | XUntagged vs, v =>
      NoDup (map fst vs) /\ first_choice vs v /\
      any (fun x => match x with (m, va) => m = variant_name v /\
                      match va, v with
                      | XVUnit, SUnitV _ => True
                      | XVNew t, SNewV _ v => carried t v
                      | XVTup ts, STupV _ l => all2 carried ts l
                      | XVStruct fs, SStructV _ l => fields fs l
                      | _, _ => False
                      end end) vs
  | XTagged tag vs, v =>
      NoDup (map fst vs) /\ plain_name tag /\ not_null_text (variant_name v) /\
      any (fun x => match x with (m, va) => m = variant_name v /\
                      match va, v with
                      | XVUnit, SUnitV _ => True
                      | XVNew t, SNewV _ v => carried t v /\ written_names t v (fun k => k <> tag)
                      | XVStruct fs, SStructV _ l => fields fs l /\ ~ In tag (map fst fs)
                      | _, _ => False
                      end end) vs
  | _, _ => False
  end.

(** ---- what an untyped reader returns ---- *)

(** The value of a special word: null, a bool, an integer of 64 bits or a float. *)
Definition word_means (s : str) (c : anyv) : Prop :=
  (In s [lit "~"; lit "null"; lit "Null"; lit "NULL"] /\ c = AnUnit) \/
  (s = lit "true" /\ c = AnBool true) \/ (s = lit "false" /\ c = AnBool false) \/
  (exists z, decimal_text I64 s z /\ fits I64 z /\ c = AnI64 z) \/
  (exists z, decimal_text U64 s z /\ fits U64 z /\ ~ fits I64 z /\ c = AnU64 z) \/
  (float_literal s /\ (forall z, decimal_text I64 s z -> ~ fits I64 z /\ ~ fits U64 z) /\ c = AnF64 s).
Definition key_means (k : str) (c : anyv) : Prop :=
  if untyped_word k then word_means k c else c = AnStr k.
Fixpoint any_means (l : looks) (c : anyv) : Prop :=
  match l with
  | LWord s => word_means s c
  | LText s => c = AnStr s
  | LMap es =>
      exists cs, c = AnMap cs /\
        all2 (fun e kc => match e with (k, (_, l)) => key_means k (fst kc) /\ any_means l (snd kc) end) es cs
  | LSeq es => exists cs, c = AnSeq cs /\ all2 (fun e c => match e with (_, l) => any_means l c end) es cs
  | LRef _ => False
  end.
