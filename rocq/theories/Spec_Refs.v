(** Specification vocabulary: what references refer to, and the tree that is left when
    every reference is replaced by what it refers to. *)
From Verif Require Import Base Ast.
Import ListNotations.

(** The values of a collection with their labels ([&name]). *)
Definition children (y : yaml) : list aliased :=
  match y with
  | Hash l => flat_map (fun d => match d with HElem e => [he_value e] | _ => [] end) l
  | InlineHash l => map (fun kv => mkA None (snd kv)) l
  | Array l => flat_map (fun d => match d with AElem e => [e] | _ => [] end) l
  | InlineArray l => map (mkA None) l
  | _ => []
  end.

(** The tree [r] contains, at any depth, the value [y] labelled [n]. *)
Inductive defines : yaml -> str -> yaml -> Prop :=
| DHere r e n : In e (children r) -> a_alias e = Some n -> defines r n (a_value e)
| DDeep r e n y : In e (children r) -> defines (a_value e) n y -> defines r n y.

(** The tree [r] contains, at any depth or as its root, a reference to [n]. *)
Inductive refers : yaml -> str -> Prop :=
| RefHere n : refers (Anchor n) n
| RefDeep r e n : In e (children r) -> refers (a_value e) n -> refers r n.

(** No label is used for two different values. *)
Definition unique (r : yaml) : Prop := forall n y z, defines r n y -> defines r n z -> y = z.

Definition is_ref (y : yaml) : bool := match y with Anchor _ => true | _ => false end.
Definition is_scalar_node (y : yaml) : bool :=
  match y with
  | Hash _ | InlineHash _ | Array _ | InlineArray _ | Anchor _ => false
  | _ => true
  end.

(** [y'] is [y] without labels and with every reference replaced by what [D] says it refers
    to; a reference to a reference has no replacement.  Comments, styles and keys stay. *)
Section Unfolds.
  Context (D : str -> yaml -> Prop).
  Inductive unfolds : yaml -> yaml -> Prop :=
  | UScalar y : is_scalar_node y = true -> unfolds y y
  | URef n y y' : D n y -> is_ref y = false -> unfolds y y' -> unfolds (Anchor n) y'
  | UHash l l' : unfolds_hash l l' -> unfolds (Hash l) (Hash l')
  | UInlineHash l l' : unfolds_inline l l' -> unfolds (InlineHash l) (InlineHash l')
  | UArray l l' : unfolds_array l l' -> unfolds (Array l) (Array l')
  | UInlineArray l l' : unfolds_list l l' -> unfolds (InlineArray l) (InlineArray l')
  with unfolds_hash : list hashdata -> list hashdata -> Prop :=
  | UHNil : unfolds_hash [] []
  | UHComment c l l' : unfolds_hash l l' -> unfolds_hash (HComment c :: l) (HComment c :: l')
  | UHInlineC c l l' : unfolds_hash l l' -> unfolds_hash (HInlineC c :: l) (HInlineC c :: l')
  | UHElem k al y y' l l' : unfolds y y' -> unfolds_hash l l' ->
      unfolds_hash (HElem (mkHE k (mkA al y)) :: l) (HElem (mkHE k (mkA None y')) :: l')
  with unfolds_inline : list (str * yaml) -> list (str * yaml) -> Prop :=
  | UINil : unfolds_inline [] []
  | UIElem k y y' l l' : unfolds y y' -> unfolds_inline l l' -> unfolds_inline ((k, y) :: l) ((k, y') :: l')
  with unfolds_array : list arraydata -> list arraydata -> Prop :=
  | UANil : unfolds_array [] []
  | UAComment c l l' : unfolds_array l l' -> unfolds_array (AComment c :: l) (AComment c :: l')
  | UAInlineC c l l' : unfolds_array l l' -> unfolds_array (AInlineC c :: l) (AInlineC c :: l')
  | UAElem al y y' l l' : unfolds y y' -> unfolds_array l l' ->
      unfolds_array (AElem (mkA al y) :: l) (AElem (mkA None y') :: l')
  with unfolds_list : list yaml -> list yaml -> Prop :=
  | ULNil : unfolds_list [] []
  | ULElem y y' l l' : unfolds y y' -> unfolds_list l l' -> unfolds_list (y :: l) (y' :: l').
End Unfolds.

(** Every reference in [y] is to a label in [N], to a label of the collection it stands in,
    or to a label of a collection around that one (before or after the reference). *)
Inductive scoped : (str -> Prop) -> yaml -> Prop :=
| ScRef (N : str -> Prop) n : N n -> scoped N (Anchor n)
| ScNode (N : str -> Prop) y : is_ref y = false ->
    (forall e, In e (children y) ->
       scoped (fun m => N m \/ exists e', In e' (children y) /\ a_alias e' = Some m) (a_value e)) ->
    scoped N y.
Definition in_scope (y : yaml) : Prop := scoped (fun _ => False) y.

(** No value contains, directly or through references, a reference to itself: the labels
    can be numbered so that every value refers to smaller ones only. *)
Definition acyclic (r : yaml) : Prop :=
  exists rank : str -> nat, forall n y m, defines r n y -> refers y m -> rank m < rank n.
(** Every reference has a label, on something that is not itself a reference. *)
Definition defined (r : yaml) : Prop := forall n, refers r n -> exists y, defines r n y /\ is_ref y = false.

(** Every reference comes after the value it refers to: [backward N y N'] says this of [y]
    when the labels in [N] come before [y]; [N'] are the labels that come before what
    follows [y]. *)
Inductive backward : (str -> Prop) -> yaml -> (str -> Prop) -> Prop :=
| BRef (N : str -> Prop) n : N n -> backward N (Anchor n) N
| BNode (N N' : str -> Prop) y : is_ref y = false -> backward_all N (children y) N' -> backward N y N'
with backward_all : (str -> Prop) -> list aliased -> (str -> Prop) -> Prop :=
| BNil (N : str -> Prop) : backward_all N [] N
| BCons (N N1 N2 : str -> Prop) e es : backward N (a_value e) N1 ->
    backward_all (fun m => N1 m \/ a_alias e = Some m) es N2 -> backward_all N (e :: es) N2.
Definition backward_refs (r : yaml) : Prop := exists N, backward (fun _ => False) r N.
(** No label stands on a reference. *)
Definition no_chains (r : yaml) : Prop := forall n y, defines r n y -> is_ref y = false.
