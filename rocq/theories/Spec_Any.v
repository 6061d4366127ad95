(** Specification vocabulary: what an untyped reader does with any tree. *)
From Verif Require Import Base Ast Num Ser De Spec_Serde Spec_Look Spec_Typed Spec_Attr Spec_Refs Spec_Reads.
Import ListNotations.

(** Reading [y] with the labels [a] known gives the value; then the labels [a1] are known. *)
Inductive tells : yaml -> anchors -> anyv -> anchors -> Prop :=
| TeWord s v a : key_means s v -> tells (Unquoted s) a v a
| TeText y s a : (forall w, y <> Unquoted w) -> scalar y s -> tells y a (AnStr s) a
| TeRef n y a v a1 : newest a n y -> tells y a v a1 -> tells (Anchor n) a v a1
| TeSeq y a vs a1 : is_seq y -> tells_all (elements_of y) (entered a y) vs a1 -> tells y a (AnSeq vs) a1
| TeMap y a ks vs a1 : is_map y -> Forall2 key_means (map fst (entries_of y)) ks ->
    tells_all (elements_of y) (entered a y) vs a1 -> tells y a (AnMap (combine ks vs)) a1
(** One after the other. *)
with tells_all : list yaml -> anchors -> list anyv -> anchors -> Prop :=
| TeNil a : tells_all [] a [] a
| TeCons y l v vs a a1 a2 : tells y a v a1 -> tells_all l a1 vs a2 -> tells_all (y :: l) a (v :: vs) a2.

(** To read [y] with the labels [a] known, [x] is read with the labels [b] known: what a
    reference refers to, or an element after the ones before it were read. *)
Inductive needs : yaml -> anchors -> yaml -> anchors -> Prop :=
| NeRef n y a : newest a n y -> needs (Anchor n) a y a
| NeIn y a l x r vs a1 : elements_of y = l ++ x :: r -> tells_all l (entered a y) vs a1 -> needs y a x a1.
(** The same over [k] levels. *)
Inductive nested : nat -> yaml -> anchors -> yaml -> anchors -> Prop :=
| NeHere y a : nested 0 y a y a
| NeStep k y a x b z c : needs y a x b -> nested k x b z c -> nested (S k) y a z c.

(** A reference to [n] is reached while [n] is not known. *)
Definition lost (y : yaml) (a : anchors) (n : str) : Prop :=
  exists k b, nested k y a (Anchor n) b /\ ~ In n (map fst b).
(** There are as many levels as one likes. *)
Definition endless (y : yaml) (a : anchors) : Prop := forall k, exists x b, nested k y a x b.
(** While a reference is read, a reference with the same name is reached. *)
Definition comes_back (y : yaml) (a : anchors) : Prop :=
  exists n i j b c, nested i y a (Anchor n) b /\ nested (S j) (Anchor n) b (Anchor n) c.
