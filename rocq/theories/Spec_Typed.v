(** Specification vocabulary: what a typed reader returns for a node. *)
From Coq Require Import ZArith Permutation.
From Verif Require Import Base Ast Ser De Spec_Serde Spec_Look.
Import ListNotations.

Section All3.
  Context {A B C : Type} (P : A -> B -> C -> Prop).
  Fixpoint all3 (l : list A) (m : list B) (n : list C) : Prop :=
    match l, m, n with
    | [], [], [] => True
    | x :: l', y :: m', z :: n' => P x y z /\ all3 l' m' n'
    | _, _, _ => False
    end.
End All3.

(** What the reader sees of a node, and of a mapping key. *)
Definition seen (y : yaml) : looks := look typed_word y.
Definition seen_key (k : str) : looks := if typed_word k then LWord k else LText k.

(** The node is a scalar with this text. *)
Definition text (l : looks) (s : str) : Prop := l = LWord s \/ l = LText s.

(** The spellings of bools and null. *)
Definition bool_words (b : bool) : list str :=
  if b then map lit ["true"; "True"; "TRUE"; "yes"; "Yes"; "YES"; "on"; "On"; "ON"]%string
  else map lit ["false"; "False"; "FALSE"; "no"; "No"; "NO"; "off"; "Off"; "OFF"]%string.
Definition null_words : list str := map lit ["~"; "null"; "Null"; "NULL"]%string.
Definition null (l : looks) : Prop := exists s, l = LWord s /\ In s null_words.

(** Text of a float. *)
Definition all_digits (s : str) : Prop := forall c, In c s -> (48 <= c <= 57)%N.
Definition sign (s : str) : Prop := s = [] \/ s = lit "+" \/ s = lit "-".
Definition float_literal (s : str) : Prop :=
  exists sg r, s = sg ++ r /\ sign sg /\
    (In (lower_word r) [lit "inf"; lit "infinity"; lit "nan"] \/
     exists whole frac ex, r = whole ++ frac ++ ex /\ all_digits whole /\
       ((frac = [] /\ whole <> []) \/
        exists fs, frac = chr "." :: fs /\ all_digits fs /\ (whole <> [] \/ fs <> [])) /\
       (ex = [] \/ exists e sg' ds, ex = e :: sg' ++ ds /\ (e = chr "e" \/ e = chr "E") /\ sign sg' /\ digits ds)).

(** The name occurs exactly once among the entries, with this value. *)
Definition only {A} (es : list (str * A)) (n : str) (x : A) : Prop :=
  exists b c, es = b ++ (n, x) :: c /\ ~ In n (map fst b) /\ ~ In n (map fst c).

(** The variant a node names, and its content. *)
Definition names (l : looks) (n : str) (c : looks) : Prop :=
  (text l n /\ c = LWord (lit "~")) \/ exists al, l = LMap [(n, (al, c))].

(** The node [l] is a [v] for the type [t].  Fields may come in any order, unknown fields
    are skipped and a missing field must be an option. *)
Fixpoint means (t : ty) (l : looks) (v : sval) {struct t} : Prop :=
  match t, v with
  | TBool, SBool b => exists s, l = LWord s /\ In s (bool_words b)
  | TInt k, SInt k' z =>
      k' = k /\ k <> I128 /\ k <> U128 /\ exists s, text l s /\ decimal_text k s z /\ fits k z
  | TFloat, SFloat x => text l x /\ float_literal x
  | TChar, SChar c => text l [c]
  | TStr, SStr s => text l s
  | TBytes, SBytes bs =>
      exists es, l = LSeq es /\
        all2 (fun e b => (b < 256)%N /\ exists s, text (snd e) s /\ decimal_text U8 s (Z.of_N b)) es bs
  | TOption _, SNone => null l
  | TOption t, SSome v => ~ null l /\ means t l v
  | TUnit, SUnit | TUnitStruct, SUnitStruct => True
  | TNewtype t, SNewtype v => means t l v
  | TSeq t, SSeq vs => exists es, l = LSeq es /\ all2 (fun e v => means t (snd e) v) es vs
  | TTuple ts, STuple vs =>
      exists es rest, l = LSeq (es ++ rest) /\ all3 (fun t e v => means t (snd e) v) ts es vs
  | TMap k w, SMap vs =>
      exists es, l = LMap es /\
        all2 (fun e x => means k (seen_key (fst e)) (fst x) /\ means w (snd (snd e)) (snd x)) es vs
  | TStruct fs, SStruct vs =>
      exists es, l = LMap es /\
        all2 (fun f x => match f with (n, t) => n = fst x /\
                ((exists al w, only es n (al, w) /\ means t w (snd x)) \/
                 (~ In n (map fst es) /\ is_option t = true /\ snd x = SNone)) end) fs vs
  | TEnum vs, SUnitV n => (exists c, names l n c) /\ In (n, VaUnit) vs
  | TEnum vs, SNewV n v =>
      exists c, names l n c /\
        any (fun x => match x with (m, VaNew t) => m = n /\ means t c v | _ => False end) vs
  | TEnum vs, STupV n us =>
      exists es rest, names l n (LSeq (es ++ rest)) /\
        any (fun x => match x with
                      | (m, VaTup ts) => m = n /\ all3 (fun t e v => means t (snd e) v) ts es us
                      | _ => False
                      end) vs
  | TEnum vs, SStructV n us =>
      exists es, names l n (LMap es) /\
        any (fun x => match x with
                      | (m, VaStruct fs) => m = n /\
                          all2 (fun f x => match f with (n, t) => n = fst x /\
                            ((exists al w, only es n (al, w) /\ means t w (snd x)) \/
                             (~ In n (map fst es) /\ is_option t = true /\ snd x = SNone)) end) fs us
                      | _ => False
                      end) vs
  | _, _ => False
  end.

(** Field names of a struct and variant names of an enum are distinct. *)
Fixpoint distinct (t : ty) : Prop :=
  match t with
  | TOption t | TNewtype t | TSeq t => distinct t
  | TTuple ts => fold_right (fun t P => distinct t /\ P) True ts
  | TMap k v => distinct k /\ distinct v
  | TStruct fs =>
      NoDup (map fst fs) /\ fold_right (fun f P => (match f with (_, t) => distinct t end) /\ P) True fs
  | TEnum vs =>
      NoDup (map fst vs) /\
      fold_right (fun x P => (match x with
                              | (_, VaUnit) => True
                              | (_, VaNew t) => distinct t
                              | (_, VaTup ts) => fold_right (fun t P => distinct t /\ P) True ts
                              | (_, VaStruct fs) =>
                                  NoDup (map fst fs) /\
                                  fold_right (fun f P => (match f with (_, t) => distinct t end) /\ P) True fs
                              end) /\ P) True vs
  | _ => True
  end.

(** [v] is a value of type [t]; floats may be in any notation. *)
Fixpoint of_ty (t : ty) (v : sval) {struct t} : Prop :=
  match t, v with
  | TBool, SBool _ | TChar, SChar _ | TStr, SStr _ | TUnit, SUnit
  | TUnitStruct, SUnitStruct | TOption _, SNone => True
  | TInt k, SInt k' z => k = k' /\ fits k z
  | TFloat, SFloat x => float_literal x
  | TBytes, SBytes l => forall b, In b l -> (b < 256)%N
  | TOption t, SSome v => of_ty t v
  | TNewtype t, SNewtype v => of_ty t v
  | TSeq t, SSeq l => forall v, In v l -> of_ty t v
  | TTuple ts, STuple l => all2 of_ty ts l
  | TMap k w, SMap l => forall p, In p l -> of_ty k (fst p) /\ of_ty w (snd p)
  | TStruct fs, SStruct l =>
      all2 (fun f x => match f with (n, t) => n = fst x /\ of_ty t (snd x) end) fs l
  | TEnum vs, SUnitV n => In (n, VaUnit) vs
  | TEnum vs, SNewV n v =>
      any (fun x => match x with (m, VaNew t) => m = n /\ of_ty t v | _ => False end) vs
  | TEnum vs, STupV n l =>
      any (fun x => match x with (m, VaTup ts) => m = n /\ all2 of_ty ts l | _ => False end) vs
  | TEnum vs, SStructV n l =>
      any (fun x => match x with
                    | (m, VaStruct fs) => m = n /\
                        all2 (fun f x => match f with (n, t) => n = fst x /\ of_ty t (snd x) end) fs l
                    | _ => False
                    end) vs
  | _, _ => False
  end.

(** The same data with the entries of mappings in another order, at any depth. *)
Inductive shuffled : looks -> looks -> Prop :=
| sh_word : forall s, shuffled (LWord s) (LWord s)
| sh_text : forall s, shuffled (LText s) (LText s)
| sh_seq : forall l m, Forall2 (fun x y => shuffled (snd x) (snd y)) l m -> shuffled (LSeq l) (LSeq m)
| sh_map : forall l l' m, Permutation l l' ->
    Forall2 (fun x y => fst x = fst y /\ shuffled (snd (snd x)) (snd (snd y))) l' m ->
    shuffled (LMap l) (LMap m).

(** Equal values, up to the order of the entries of maps. *)
Inductive same_value : sval -> sval -> Prop :=
| sv_refl : forall v, same_value v v
| sv_some : forall v w, same_value v w -> same_value (SSome v) (SSome w)
| sv_newtype : forall v w, same_value v w -> same_value (SNewtype v) (SNewtype w)
| sv_seq : forall l m, Forall2 same_value l m -> same_value (SSeq l) (SSeq m)
| sv_tuple : forall l m, Forall2 same_value l m -> same_value (STuple l) (STuple m)
| sv_map : forall l l' m, Permutation l l' ->
    Forall2 (fun x y => same_value (fst x) (fst y) /\ same_value (snd x) (snd y)) l' m ->
    same_value (SMap l) (SMap m)
| sv_struct : forall l m, Forall2 (fun x y => fst x = fst y /\ same_value (snd x) (snd y)) l m ->
    same_value (SStruct l) (SStruct m)
| sv_newv : forall n v w, same_value v w -> same_value (SNewV n v) (SNewV n w)
| sv_tupv : forall n l m, Forall2 same_value l m -> same_value (STupV n l) (STupV n m)
| sv_structv : forall n l m, Forall2 (fun x y => fst x = fst y /\ same_value (snd x) (snd y)) l m ->
    same_value (SStructV n l) (SStructV n m).
