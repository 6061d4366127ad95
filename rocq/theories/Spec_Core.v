(** Specification vocabulary: the core schema of YAML 1.2.2 (section 10.3.2), which says what
    plain scalars are.  Nothing in [core] refers to the crate. *)
From Coq Require Import ZArith.
From Verif Require Import Base Ast Ser De Spec_Serde Spec_Look Spec_Typed.
Import ListNotations.

Inductive meaning : Type :=
| MNull
| MBool (b : bool)
| MInt (z : Z)
| MFloat (s : str)
| MInf (negative : bool)
| MNan
| MText (s : str).

(** null | Null | NULL | ~, and the empty text. *)
Definition nulls : list str := [[]; lit "null"; lit "Null"; lit "NULL"; lit "~"].
(** true | True | TRUE | false | False | FALSE *)
Definition trues : list str := [lit "true"; lit "True"; lit "TRUE"].
Definition falses : list str := [lit "false"; lit "False"; lit "FALSE"].
(** [-+]? [0-9]+ *)
Definition base10 (s : str) (z : Z) : Prop :=
  exists sg ds, s = sg ++ ds /\ sign sg /\ digits ds /\
    z = (if seqb sg (lit "-") then - Z.of_N (decimal_value ds) else Z.of_N (decimal_value ds))%Z.
(** 0o [0-7]+ and 0x [0-9a-fA-F]+ *)
Definition digit_of (base : N) (c : char) (d : N) : Prop :=
  ((48 <= c <= 57 /\ d = c - 48) \/ (97 <= c <= 102 /\ d = c - 87) \/ (65 <= c <= 70 /\ d = c - 55))%N /\ (d < base)%N.
Inductive number_in (base : N) : str -> N -> Prop :=
| NI1 c d : digit_of base c d -> number_in base [c] d
| NI2 s n c d : number_in base s n -> digit_of base c d -> number_in base (s ++ [c]) (base * n + d)%N.
Definition based (s : str) (z : Z) : Prop :=
  exists ds n, z = Z.of_N n /\ ((s = lit "0o" ++ ds /\ number_in 8 ds n) \/ (s = lit "0x" ++ ds /\ number_in 16 ds n)).
(** [-+]? ( \. [0-9]+ | [0-9]+ ( \. [0-9]* )? ) ( [eE] [-+]? [0-9]+ )? *)
Definition exponent (s : str) : Prop :=
  s = [] \/ exists e sg ds, s = e :: sg ++ ds /\ In e (lit "eE") /\ sign sg /\ digits ds.
Definition mantissa (s : str) : Prop :=
  (exists ds, s = chr "." :: ds /\ digits ds) \/ digits s \/
  (exists ds fs, s = ds ++ chr "." :: fs /\ digits ds /\ all_digits fs).
Definition core_float (s : str) : Prop :=
  exists sg m e, s = sg ++ m ++ e /\ sign sg /\ mantissa m /\ exponent e.
(** [-+]? ( \.inf | \.Inf | \.INF ) and \.nan | \.NaN | \.NAN *)
Definition infs : list str := [lit ".inf"; lit ".Inf"; lit ".INF"].
Definition nans : list str := [lit ".nan"; lit ".NaN"; lit ".NAN"].

(** The first row that matches. *)
Definition special (s : str) : Prop :=
  In s (nulls ++ trues ++ falses ++ nans) \/ (exists z, base10 s z \/ based s z) \/ core_float s \/
  (exists sg r, s = sg ++ r /\ sign sg /\ In r infs).
Inductive core : str -> meaning -> Prop :=
| KNull s : In s nulls -> core s MNull
| KTrue s : In s trues -> core s (MBool true)
| KFalse s : In s falses -> core s (MBool false)
| KInt s z : base10 s z \/ based s z -> core s (MInt z)
| KFloat s : core_float s -> (forall z, ~ base10 s z) -> core s (MFloat s)
| KInf sg r : sign sg -> In r infs -> core (sg ++ r) (MInf (seqb sg (lit "-")))
| KNan s : In s nans -> core s MNan
| KText s : ~ special s -> core s (MText s).

(** What the untyped reader of the crate makes of a word. *)
Definition taken (v : anyv) (m : meaning) : Prop :=
  match v, m with
  | AnUnit, MNull => True
  | AnBool b, MBool c => b = c
  | AnI64 z, MInt x | AnU64 z, MInt x => z = x
  | AnF64 s, MFloat t => s = t
  | AnStr s, MText t => s = t
  | _, _ => False
  end.

(** Texts that YAML takes for something else than text, and the crate's untyped reader
    for text. *)
Definition only_yaml (s : str) : Prop :=
  In s ([[]; lit "True"; lit "TRUE"; lit "False"; lit "FALSE"] ++ nans) \/ (exists z, based s z) \/
  (exists sg r, s = sg ++ r /\ sign sg /\ In r infs).
(** Texts that Rust takes for a float, and YAML for text. *)
Definition only_rust (s : str) : Prop :=
  exists sg r, s = sg ++ r /\ sign sg /\ In (lower_word r) [lit "inf"; lit "infinity"; lit "nan"].
(** Integers that do not fit in 64 bits: a float for the crate. *)
Definition too_long (s : str) : Prop := exists z, base10 s z /\ ~ fits I64 z /\ ~ fits U64 z.
(** The text of a finite float. *)
Definition finite (x : str) : Prop := float_text x /\ ~ In x [lit "NaN"; lit "inf"; lit "-inf"].
