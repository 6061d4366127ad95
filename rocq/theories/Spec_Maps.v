(** Specification vocabulary: maps made of the entries of a mapping. *)
From Verif Require Import Base Ast Ser.
Import ListNotations.

(** The last entry with the key [k] has the value [v]. *)
Definition last_entry (es : list (sval * sval)) (k v : sval) : Prop :=
  exists before after, es = before ++ (k, v) :: after /\ ~ In k (map fst after).

(** [w] is [v] with a map, whose keys are different, in the place of each list of entries. *)
Inductive keeps : sval -> sval -> Prop :=
| KBool b : keeps (SBool b) (SBool b)
| KInt k z : keeps (SInt k z) (SInt k z)
| KFloat t : keeps (SFloat t) (SFloat t)
| KChar c : keeps (SChar c) (SChar c)
| KStr s : keeps (SStr s) (SStr s)
| KBytes l : keeps (SBytes l) (SBytes l)
| KNone : keeps SNone SNone
| KSome v w : keeps v w -> keeps (SSome v) (SSome w)
| KUnit : keeps SUnit SUnit
| KUnitStruct : keeps SUnitStruct SUnitStruct
| KNewtype v w : keeps v w -> keeps (SNewtype v) (SNewtype w)
| KSeq l m : Forall2 keeps l m -> keeps (SSeq l) (SSeq m)
| KTuple l m : Forall2 keeps l m -> keeps (STuple l) (STuple m)
| KMap l es m : Forall2 (fun x e => keeps (fst x) (fst e) /\ keeps (snd x) (snd e)) l es ->
    NoDup (map fst m) -> (forall k v, In (k, v) m <-> last_entry es k v) -> keeps (SMap l) (SMap m)
| KStruct l m : Forall2 (fun x e => fst x = fst e /\ keeps (snd x) (snd e)) l m -> keeps (SStruct l) (SStruct m)
| KUnitV n : keeps (SUnitV n) (SUnitV n)
| KNewV n v w : keeps v w -> keeps (SNewV n v) (SNewV n w)
| KTupV n l m : Forall2 keeps l m -> keeps (STupV n l) (STupV n m)
| KStructV n l m : Forall2 (fun x e => fst x = fst e /\ keeps (snd x) (snd e)) l m -> keeps (SStructV n l) (SStructV n m).

(** In every map of the value the keys are different: what std's maps can hold. *)
Fixpoint proper (v : sval) : Prop :=
  match v with
  | SSome v | SNewtype v | SNewV _ v => proper v
  | SSeq l | STuple l | STupV _ l => fold_right (fun v P => proper v /\ P) True l
  | SMap l => NoDup (map fst l) /\
      fold_right (fun e P => (match e with (k, v) => proper k /\ proper v end) /\ P) True l
  | SStruct l | SStructV _ l => fold_right (fun e P => (match e with (_, v) => proper v end) /\ P) True l
  | _ => True
  end.

(** In every mapping of the tree the keys are different. *)
Fixpoint unambiguous (y : yaml) : Prop :=
  match y with
  | Hash l => NoDup (flat_map (fun d => match d with HElem e => [he_key e] | _ => [] end) l) /\
      fold_right (fun d P => (match d with HElem (mkHE _ (mkA _ y)) => unambiguous y | _ => True end) /\ P) True l
  | InlineHash l => NoDup (map fst l) /\ fold_right (fun e P => (match e with (_, y) => unambiguous y end) /\ P) True l
  | Array l => fold_right (fun d P => (match d with AElem (mkA _ y) => unambiguous y | _ => True end) /\ P) True l
  | InlineArray l => fold_right (fun y P => unambiguous y /\ P) True l
  | _ => True
  end.
