(** C74: exactly what the typed reader returns for a tree with labels and references. *)
From Coq Require Import ZArith.
From Verif Require Import Base Ast Num Ser De Peg YamlGrammar Consume FromStr Spec_Serde Spec_Look Spec_Typed Spec_Refs Spec_Reads ErrFacts7.
Import ListNotations.

(** The value, and the labels known afterwards. *)
Theorem C74_exact : forall t y a v a1, distinct t -> (de t y a = Some (v, a1) <-> yields t y a v a1).
Proof. exact de_yields. Qed.
Print Assumptions C74_exact.

Theorem C74_from_yaml : forall t y v, distinct t -> (from_yaml t y = Some v <-> exists a, yields t y [] v a).
Proof. exact from_yields. Qed.
Print Assumptions C74_from_yaml.

(** The first document of a file. *)
Theorem C74_file : forall ut t s d cs y rest, parse_yaml ut s = CVal d -> items d = map DComment cs ++ DYaml y :: rest -> distinct t ->
  forall v, from_yaml_str ut t s = CVal v <-> exists a, yields t y [] v a.
Proof. exact file_yields. Qed.
Print Assumptions C74_file.

(** At most one value. *)
Theorem C74_one : forall t y a v a1 w b1, distinct t -> yields t y a v a1 -> yields t y a w b1 -> v = w /\ a1 = b1.
Proof. exact yields_one. Qed.
Print Assumptions C74_one.

(** A label inside an earlier field, redefined in between: the first reference means 1, the
    second 2, and a label next to the reference is known before its value is read. *)
Definition pair_ty : ty := TStruct [(lit "a", TSeq (TInt U8)); (lit "b", TInt U8); (lit "c", TTuple [TInt U8; TInt U8])].
Definition labels_tree : yaml := Hash
  [HElem (mkHE (lit "a") (mkA None (Array [AElem (mkA (Some (lit "x")) (Unquoted (lit "1")))])));
   HElem (mkHE (lit "b") (mkA None (Anchor (lit "x"))));
   HElem (mkHE (lit "c") (mkA None (Array [AElem (mkA None (Anchor (lit "x"))); AElem (mkA (Some (lit "x")) (Unquoted (lit "2")))])))].
Definition labels_value : sval := SStruct
  [(lit "a", SSeq [SInt U8 1]); (lit "b", SInt U8 1); (lit "c", STuple [SInt U8 2; SInt U8 2])].
Example C74_example : distinct pair_ty /\ from_yaml pair_ty labels_tree = Some labels_value /\
  yields pair_ty labels_tree [] labels_value [(lit "x", Unquoted (lit "2")); (lit "x", Unquoted (lit "1"))].
Proof.
  assert (D : distinct pair_ty) by (cbn [distinct pair_ty]; repeat split; try exact I; repeat constructor; cbn; intuition discriminate).
  split; [exact D|]. split; [vm_compute; reflexivity|]. apply C74_exact; [exact D|]. vm_compute. reflexivity.
Qed.
