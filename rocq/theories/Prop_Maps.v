(** C79: what is held after reading into maps. *)
From Coq Require Import ZArith.
From Verif Require Import Base Ast Num Ser De Peg YamlGrammar Consume FromStr Format Pretty
  Spec_Strings Spec_Pretty Spec_Serde Spec_Parse Spec_Format Spec_Text MapMerge
  Spec_Look Spec_Typed Spec_Refs Spec_Reads Spec_Maps MergeFacts MergeFacts2.
Import ListNotations.

(** For each key of a mapping the value of its last entry is held, at every level. *)
Theorem C79_reads : forall t y w, distinct t -> read_maps t y = Some w -> exists v a, yields t y [] v a /\ keeps v w.
Proof. exact maps_read. Qed.
Print Assumptions C79_reads.

(** Repeated keys are no error: the same trees are readable. *)
Theorem C79_fails : forall t y, distinct t -> (read_maps t y = None <-> ~ exists v a, yields t y [] v a).
Proof. exact maps_fail. Qed.
Print Assumptions C79_fails.

(** What a map can hold and the format can carry comes back, through a tree and through text. *)
Theorem C79_roundtrip : forall t v y, has_ty t v -> faithful v -> proper v -> ser v = Some y -> read_maps t y = Some v.
Proof. exact maps_roundtrip. Qed.
Print Assumptions C79_roundtrip.

Theorem C79_text_roundtrip : forall ut t v y, has_ty t v -> faithful v -> proper v -> ser v = Some y -> root_fits ut v ->
  read_maps_str ut t (format_doc (mkDoc [] [DYaml (pretty y)])) = CVal v.
Proof. exact maps_text. Qed.
Print Assumptions C79_text_roundtrip.

(** A mapping that was read into a map is stable from then on. *)
Theorem C79_again : forall t y w y', read_maps t y = Some w -> has_ty t w -> faithful w -> ser w = Some y' ->
  read_maps t y' = Some w.
Proof. exact maps_again. Qed.
Print Assumptions C79_again.

(** Different keys are written as different texts: no mapping written has a key twice. *)
Theorem C79_written_keys : forall t v y, has_ty t v -> faithful v -> proper v -> ser v = Some y -> unambiguous y.
Proof. exact (fun t v y => written_keys v t y). Qed.
Print Assumptions C79_written_keys.

(** Three entries for two keys; the last one for 1 stays, in its own mapping too. *)
Definition twice : yaml := Hash
  [HElem (mkHE (lit "1") (mkA None (InlineHash [(lit "a", Unquoted (lit "x")); (lit "a", Unquoted (lit "y"))])));
   HElem (mkHE (lit "2") (mkA None (InlineHash [])));
   HElem (mkHE (lit "1") (mkA None (InlineHash [(lit "b", Unquoted (lit "u")); (lit "a", Unquoted (lit "v")); (lit "b", Unquoted (lit "w"))])))].
Definition twice_ty : ty := TMap (TInt U8) (TMap TStr TStr).
Example C79_example : distinct twice_ty /\ read_maps twice_ty twice =
  Some (SMap [(SInt U8 1, SMap [(SStr (lit "b"), SStr (lit "w")); (SStr (lit "a"), SStr (lit "v"))]); (SInt U8 2, SMap [])]).
Proof. split; [repeat split|vm_compute; reflexivity]. Qed.

Example C79_roundtrip_example : let v := SMap [(SInt U8 1, SMap [(SStr (lit "b"), SStr (lit "w"))]); (SInt U8 2, SMap [])] in
  has_ty twice_ty v /\ faithful v /\ proper v /\ exists y, ser v = Some y /\ read_maps twice_ty y = Some v /\ unambiguous y.
Proof.
  intro v.
  assert (T : has_ty twice_ty v).
  { cbn. intros p [<-|[<-|[]]]; cbn; (split; [split; [reflexivity|lia]|]); [intros q [<-|[]]; cbn; split; exact I|intros q []]. }
  assert (F : faithful v) by (cbn; tauto).
  assert (P : proper v) by (cbn; repeat split; try exact I; repeat constructor; cbn; intuition discriminate).
  split; [exact T|]. split; [exact F|]. split; [exact P|].
  destruct (ser v) as [y|] eqn:E; [|vm_compute in E; discriminate E]. exists y. split; [reflexivity|].
  split; [exact (C79_roundtrip _ _ _ T F P E)|exact (C79_written_keys _ _ _ T F P E)].
Qed.

(** Entries with different keys can be lost without an error: two texts of one number. *)
Theorem C79_lost_refuted : exists k1 k2 y1 y2 w, k1 <> k2 /\ y1 <> y2 /\
  read_maps (TMap (TInt U8) TStr) (Hash [HElem (mkHE k1 (mkA None y1)); HElem (mkHE k2 (mkA None y2))]) = Some (SMap [w]).
Proof.
  exists (lit "1"), (lit "+01"), (Unquoted (lit "x")), (Unquoted (lit "y")), (SInt U8 1, SStr (lit "y")).
  split; [discriminate|]. split; [discriminate|]. vm_compute. reflexivity.
Qed.
Print Assumptions C79_lost_refuted.

(** From a file: its first value is read; a panic of the parser is a panic, and everything else
    an error. *)
Theorem C79_file : forall ut t s,
  (read_maps_str ut t s = CPanic <-> parse_yaml ut s = CPanic) /\
  (forall v, read_maps_str ut t s = CVal v <->
     exists d cs y r, parse_yaml ut s = CVal d /\ items d = map DComment cs ++ DYaml y :: r /\ read_maps t y = Some v).
Proof. exact maps_file. Qed.
Print Assumptions C79_file.

Example C79_file_example ut : read_maps_str ut (TMap TStr (TInt U8)) (lit "---
a: 1
b: 2
a: 3") = CVal (SMap [(SStr (lit "a"), SInt U8 3); (SStr (lit "b"), SInt U8 2)]).
Proof. vm_compute. reflexivity. Qed.
