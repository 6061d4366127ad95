(** Specification vocabulary: values that are serialized, and what a YAML 1.2 reader with the
    core schema makes of the text. *)
From Coq Require Import ZArith.
From Verif Require Import Base Ast Ser Spec_Serde Spec_Look Spec_Ser Spec_Yaml12 Spec_Portable Spec_Core.
Import ListNotations.

(** ---- what YAML says ---- *)

Inductive value : Type :=
| VScalar (m : meaning)
| VList (l : list value)
| VDict (l : list (value * value)).
(** Plain scalars have the meaning of the core schema, other scalars are text. *)
Inductive resolved : node -> value -> Prop :=
| RPlain al s m : core s m -> resolved (Node al (Scalar true s)) (VScalar m)
| RQuoted al s : resolved (Node al (Scalar false s)) (VScalar (MText s))
| RSeq al l xs : resolved_all l xs -> resolved (Node al (Sequence l)) (VList xs)
| RMap al l es : resolved_pairs l es -> resolved (Node al (Mapping l)) (VDict es)
with resolved_all : list node -> list value -> Prop :=
| RNil : resolved_all [] []
| RCons n x l xs : resolved n x -> resolved_all l xs -> resolved_all (n :: l) (x :: xs)
with resolved_pairs : list (node * node) -> list (value * value) -> Prop :=
| RNone : resolved_pairs [] []
| RPair k v x y l es : resolved k x -> resolved v y -> resolved_pairs l es -> resolved_pairs ((k, v) :: l) ((x, y) :: es).

(** ---- what the program means ---- *)

(** A float without a fraction has the text of an integer. *)
Fixpoint intends (v : sval) (x : value) {struct v} : Prop :=
  match v with
  | SBool b => x = VScalar (MBool b)
  | SInt _ z => x = VScalar (MInt z)
  | SFloat t => x = VScalar (MFloat t) \/ exists z, base10 t z /\ x = VScalar (MInt z)
  | SChar c => x = VScalar (MText [c])
  | SStr s | SUnitV s => x = VScalar (MText s)
  | SBytes l => x = VList (map (fun b => VScalar (MInt (Z.of_N b))) l)
  | SNone | SUnit | SUnitStruct => x = VScalar MNull
  | SSome v | SNewtype v | SNewV _ v => intends v x
  | SSeq l | STuple l | STupV _ l => exists xs, x = VList xs /\ all2 (fun v x => intends v x) l xs
  | SMap l => exists es, x = VDict es /\
      all2 (fun kv e => match kv with (k, v) => intends k (fst e) /\ intends v (snd e) end) l es
  | SStruct l | SStructV _ l => exists es, x = VDict es /\
      all2 (fun kv e => match kv with (k, v) => fst e = VScalar (MText k) /\ intends v (snd e) end) l es
  end.

(** ---- values that can be exchanged ---- *)

(** Without control characters, apart from tabs and line breaks; if it is written without
    quotes, then it is a plain scalar and text for YAML. *)
Definition text_exports (s : str) : Prop :=
  Forall (fun c => nb_json c \/ c = NL \/ c = CR) s /\ (plain_text s -> plain FlowOut s /\ core s (MText s)).
(** Keys are never quoted. *)
Definition name_exports (s : str) : Prop := key_portable s /\ core s (MText s).
Fixpoint key_exports (k : sval) : Prop :=
  match k with
  | SBool _ | SNone | SUnit | SUnitStruct => True
  | SInt _ z => forall s, shortest z s -> length s <= 1024
  | SFloat t => finite t /\ length t <= 1024
  | SChar c => name_exports [c]
  | SStr s | SUnitV s => name_exports s
  | SSome k | SNewtype k | SNewV _ k => key_exports k
  | _ => False
  end.
(** In a tuple there are only scalars, tuples and empty collections. *)
Fixpoint flat (v : sval) : Prop :=
  match v with
  | SSome v | SNewtype v | SNewV _ v => flat v
  | SBytes l => l = []
  | SSeq l => l = []
  | SMap l => l = []
  | SStruct l | SStructV _ l => l = []
  | STuple l | STupV _ l => fold_right (fun v Q => flat v /\ Q) True l
  | _ => True
  end.
Fixpoint exports (v : sval) : Prop :=
  match v with
  | SFloat t => finite t
  | SChar c => text_exports [c]
  | SStr s | SUnitV s => text_exports s
  | SSome v | SNewtype v | SNewV _ v => exports v
  | SSeq l => fold_right (fun v Q => exports v /\ Q) True l
  | STuple l | STupV _ l => fold_right (fun v Q => (flat v /\ exports v) /\ Q) True l
  | SMap l => fold_right (fun kv Q => match kv with (k, v) => key_exports k /\ exports v end /\ Q) True l
  | SStruct l | SStructV _ l => fold_right (fun kv Q => match kv with (k, v) => name_exports k /\ exports v end /\ Q) True l
  | _ => True
  end.
(** Texts that are written without quotes and are no plain scalars of YAML: with a character
    that YAML does not allow, with a reserved character or a tab at the start, with a tab or
    a colon at the end, with an indicator alone or before white space, with a colon before a
    tab. *)
Definition awkward (s : str) : Prop :=
  (exists c, In c s /\ ~ nb_char c) \/
  (exists c r, s = c :: r /\ In c (TAB :: lit "&*!%@`")) \/
  (exists c r, s = r ++ [c] /\ In c (TAB :: lit ":")) \/
  (exists c, In c (lit "-?:") /\ (s = [c] \/ exists w r, white w /\ s = c :: w :: r)) \/
  (exists a b, s = a ++ chr ":" :: TAB :: b).
