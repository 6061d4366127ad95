(** C80: what each method of the deserializer tells a visitor. *)
From Coq Require Import ZArith.
From Verif Require Import Base Ast Num Ser De DeCalls Hints ToldFacts Spec_Serde Spec_Look Spec_Typed Spec_Attr Spec_Refs Spec_Visit Spec_Reads Spec_Told.
Import ListNotations.

(** Which method of the visitor is called, with what, and which labels are known then. *)
Theorem C80_told : forall h y a m b, tell h y a = Says m b <-> hears h y a m b.
Proof. exact told_iff. Qed.
Print Assumptions C80_told.
(** When there is an error instead, and which labels it leaves behind. *)
Theorem C80_fails : forall h y a b, h <> HAny ->
  (tell h y a = Fails b <-> (forall m c, ~ hears h y a m c) /\ left_behind h y a b).
Proof. exact fails_iff. Qed.
Print Assumptions C80_fails.
Theorem C80_any_fails : forall y a b, tell HAny y a = Fails b <->
  b = a /\ exists l n, chain a y l (Anchor n) /\ ~ In n (map fst a).
Proof. exact any_fails_iff. Qed.
Print Assumptions C80_any_fails.
(** Only the untyped method may fail to end: when references lead on and on. *)
Theorem C80_endless : forall h y a, tell h y a = Endless <->
  h = HAny /\ forall k, exists l z, chain a y l z /\ length l = k.
Proof. exact endless_iff. Qed.
Print Assumptions C80_endless.
(** Where no reference leads to another, what the untyped method says the typed method for it
    says as well. *)
Theorem C80_any_typed : forall y a z m b, target a y z -> is_ref z = false ->
  tell HAny y a = Says m b -> tell (asks_for m) y a = Says m b.
Proof. exact any_typed. Qed.
Print Assumptions C80_any_typed.
Theorem C80_null : forall y a b z, target a y z -> is_ref z = false ->
  (tell HAny y a = Says SayUnit b <-> tell HOption y a = Says SayNone b).
Proof. exact null_any. Qed.
Print Assumptions C80_null.
(** A reference to a reference: the untyped method reads it, the typed method does not. *)
Theorem C80_any_typed_refuted : exists y a m b, tell HAny y a = Says m b /\ tell (asks_for m) y a = Fails a.
Proof.
  exists (Anchor (lit "p")), [(lit "p", Anchor (lit "q")); (lit "q", Unquoted (lit "5"))], (SayI64 5), [(lit "p", Anchor (lit "q")); (lit "q", Unquoted (lit "5"))].
  vm_compute. split; reflexivity.
Qed.
Print Assumptions C80_any_typed_refuted.
(** Nor does the typed method say only what the untyped one does: a number in quotes. *)
Theorem C80_typed_any_refuted : exists y a m b, tell (asks_for m) y a = Says m b /\ tell HAny y a <> Says m b.
Proof.
  exists (SingleQ [SQ_Str (lit "5")]), [], (SayI64 5), []. vm_compute. split; [reflexivity|discriminate].
Qed.
Print Assumptions C80_typed_any_refuted.

Definition labelled : anchors := [(lit "p", Unquoted (lit "0xA")); (lit "q", Unquoted (lit "-7"))].
Example C80_told_ex : hears HI16 (Anchor (lit "q")) labelled (SayI64 (-7)) labelled.
Proof. apply told_iff. vm_compute. reflexivity. Qed.
Example C80_told_ex2 : hears HAny (Hash [HComment (lit "c"); HElem (mkHE (lit "k") (mkA (Some (lit "r")) (Unquoted (lit "1"))))]) labelled
  (SayMap [(lit "k", Unquoted (lit "1"))]) ((lit "r", Unquoted (lit "1")) :: labelled).
Proof. apply told_iff. vm_compute. reflexivity. Qed.
Example C80_fails_ex : (forall m c, ~ hears HU8 (Unquoted (lit "-7")) labelled m c) /\ left_behind HU8 (Unquoted (lit "-7")) labelled labelled.
Proof. apply fails_iff; [discriminate|]. vm_compute. reflexivity. Qed.
Example C80_fails_ex2 : left_behind HEnum
  (Hash [HElem (mkHE (lit "k") (mkA (Some (lit "r")) (Unquoted (lit "1")))); HElem (mkHE (lit "m") (mkA None (Unquoted (lit "2"))))])
  labelled ((lit "r", Unquoted (lit "1")) :: labelled).
Proof. refine (proj2 (proj1 (fails_iff HEnum _ _ _ _) _)); [discriminate|]. vm_compute. reflexivity. Qed.
Example C80_any_fails_ex : exists l n, chain [(lit "p", Anchor (lit "x"))] (Anchor (lit "p")) l (Anchor n) /\ ~ In n (map fst [(lit "p", Anchor (lit "x"))]).
Proof. apply (any_fails_iff _ _ [(lit "p", Anchor (lit "x"))]). vm_compute. reflexivity. Qed.
Example C80_endless_ex : let a := [(lit "p", Anchor (lit "q")); (lit "q", Anchor (lit "p"))] in
  forall k, exists l z, chain a (Anchor (lit "p")) l z /\ length l = k.
Proof. apply (endless_iff HAny). vm_compute. reflexivity. Qed.
Example C80_any_typed_ex : target labelled (Anchor (lit "q")) (Unquoted (lit "-7")) /\ tell HAny (Anchor (lit "q")) labelled = Says (SayI64 (-7)) labelled.
Proof. split; [apply res_target|]; vm_compute; reflexivity. Qed.
Example C80_null_ex : target [(lit "n", Unquoted (lit "~"))] (Anchor (lit "n")) (Unquoted (lit "~")) /\
  tell HAny (Anchor (lit "n")) [(lit "n", Unquoted (lit "~"))] = Says SayUnit [(lit "n", Unquoted (lit "~"))].
Proof. split; [apply res_target|]; vm_compute; reflexivity. Qed.
