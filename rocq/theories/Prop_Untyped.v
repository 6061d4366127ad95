(** Property theorems C57 (the untyped reader, and the types that read through it). *)
From Coq Require Import ZArith.
From Verif Require Import Base Ast Strings Format Num Pretty Peg YamlGrammar Consume Ser De FromStr Attr Spec_Pretty Spec_Serde Spec_Format
  Spec_Stable Spec_Polish Spec_Look Spec_Typed Spec_Attr PolishExample AttrFacts2 AttrFacts7 AttrFacts8 AttrFacts9 AttrFacts10.
Import ListNotations.

(** C57: [deserialize_any] on a node without references returns exactly the value the node
    means: text unless it is an unquoted null, bool or number. *)
Theorem C57_reads_the_meaning : forall fuel y a c, no_refs y -> depth y <= fuel ->
  ((exists a', de_any fuel y a = Done c a') <-> any_means (look untyped_word y) c).
Proof. exact any_reads. Qed.
Print Assumptions C57_reads_the_meaning.

Definition any_node : yaml :=
  Hash [HComment (lit " c");
        HElem (mkHE (lit "a") (mkA None (InlineArray [Unquoted (lit "1"); SingleQ [SQ_Str (lit "1")]; Unquoted (lit "yes"); Unquoted (lit "true")])));
        HElem (mkHE (lit "2") (mkA (Some (lit "n")) (Array [AElem (mkA None (Unquoted (lit "-0"))); AElem (mkA None (Unquoted (lit "1.10")));
                                                            AElem (mkA None (Unquoted (lit "18446744073709551615")));
                                                            AElem (mkA None (Unquoted (lit "18446744073709551616")))])));
        HElem (mkHE (lit "~") (mkA None (Unquoted (lit "nan"))))].
Example C57_example : no_refs any_node /\ depth any_node = 3 /\
  (exists a, de_any 3 any_node [] =
  Done (AnMap [(AnStr (lit "a"), AnSeq [AnI64 1; AnStr (lit "1"); AnStr (lit "yes"); AnBool true]);
               (AnI64 2, AnSeq [AnI64 0; AnF64 (lit "1.10"); AnU64 18446744073709551615; AnF64 (lit "18446744073709551616")]);
               (AnUnit, AnF64 (lit "nan"))]) a).
Proof. split; [cbn; tauto|]. split; [vm_compute; reflexivity|]. eexists. cbv. reflexivity. Qed.

(** A type with attributes only reads the data of a node: no comments, styles or layout. *)
Theorem C57_data_only : forall fuel t y z, look any_word y = look any_word z ->
  outcome_of (read_yaml fuel t y) = outcome_of (read_yaml fuel t z).
Proof. exact read_look. Qed.
Print Assumptions C57_data_only.

Definition pet : xty :=
  XTagged (lit "kind") [(lit "Cat", XVStruct [(lit "name", XStr); (lit "age", XOption (XInt U8))]); (lit "Fish", XVUnit)].
Definition cat : sval := SStructV (lit "Cat") [(lit "name", SStr (lit "Tom")); (lit "age", SSome (SInt U8 3))].
Definition cat_block : yaml :=
  Hash [HElem (mkHE (lit "name") (mkA None (SingleQ [SQ_Str (lit "Tom")]))); HComment (lit " c");
        HElem (mkHE (lit "kind") (mkA None (Literal [lit "Cat"] Strip))); HElem (mkHE (lit "age") (mkA None (Unquoted (lit "3"))))].
Definition cat_inline : yaml :=
  InlineHash [(lit "name", Unquoted (lit "Tom")); (lit "kind", Unquoted (lit "Cat")); (lit "age", Unquoted (lit "3"))].
Example C57_data_only_example : look any_word cat_block = look any_word cat_inline /\
  read_yaml 2 pet cat_block = Done cat [] /\ read_yaml 2 pet cat_inline = Done cat [].
Proof. repeat split; vm_compute; reflexivity. Qed.

(** So pretty printing does not change what is read. *)
Theorem C57_pretty : forall fuel t y, long_ok false y -> inline_no_block false y = true -> no_quoted any_loose y ->
  outcome_of (read_yaml fuel t (pretty y)) = outcome_of (read_yaml fuel t y).
Proof. exact read_pretty. Qed.
Print Assumptions C57_pretty.

Theorem C57_pretty_file : forall ut fuel t s d, parse_yaml ut s = CVal d -> calm_doc ut d -> polish_doc ut d ->
  doc_all (no_quoted any_loose) d ->
  outcome_str (read_str ut fuel t (format_doc (pretty_doc d))) = outcome_str (read_str ut fuel t s).
Proof. exact str_pretty. Qed.
Print Assumptions C57_pretty_file.

Theorem C57_format_file : forall ut fuel t s d, parse_yaml ut s = CVal d -> calm_doc ut d ->
  read_str ut fuel t (format_doc d) = read_str ut fuel t s.
Proof. exact str_format. Qed.
Print Assumptions C57_format_file.

Example C57_pretty_example : long_ok false cat_block /\ inline_no_block false cat_block = true /\ no_quoted any_loose cat_block /\
  pretty cat_block <> cat_block /\ read_yaml 2 pet (pretty cat_block) = Done cat [].
Proof.
  split; [cbn; repeat split; intros _ _ H; apply (PeanoNat.Nat.leb_le 91) in H; vm_compute in H; discriminate|].
  split; [vm_compute; reflexivity|]. split; [vm_compute; tauto|]. split; [vm_compute; discriminate|vm_compute; reflexivity].
Qed.

Definition mixed : xty := XUntagged [(lit "L", XVNew (XSeq XStr)); (lit "S", XVNew XStr)].
Example C57_file_example : forall ut,
  parse_yaml ut quoted_file = CVal quoted_doc /\ calm_doc ut quoted_doc /\ polish_doc ut quoted_doc /\
  doc_all (no_quoted any_loose) quoted_doc /\
  outcome_str (read_str ut 5 (XStruct [(lit "b", (false, mixed)); (lit "rest", (true, XStruct [(lit "d", (false, mixed)); (lit "a", (false, XStr))]))]) quoted_file) =
    CVal (Done (SStruct [(lit "b", SNewV (lit "S") (SStr (lit "x" ++ [TAB] ++ lit "y")));
                         (lit "rest", SStruct [(lit "d", SNewV (lit "L") (SSeq [SStr (lit "u, v")])); (lit "a", SStr (lit "plain"))])]) []).
Proof.
  intros ut. split; [vm_compute; reflexivity|]. split; [exact (quoted_calm ut)|]. split; [exact (quoted_polish ut)|].
  split; [|vm_compute; reflexivity]. intros y [H|[]]; inversion H; subst. vm_compute. repeat split.
Qed.

(** Not if a quoted word loses its quotes: a text becomes null. *)
Theorem C57_pretty_refuted : exists t y v, long_ok false y /\ inline_no_block false y = true /\
  read_yaml 9 t y = Done v [] /\ read_yaml 9 t (pretty y) = Failed.
Proof.
  exists (XUntagged [(lit "A", XVNew XStr)]), (SingleQ [SQ_Str (lit "Null")]), (SNewV (lit "A") (SStr (lit "Null"))).
  split; [cbn; intros _ _ H; apply (PeanoNat.Nat.leb_le 91) in H; vm_compute in H; discriminate|].
  repeat split; vm_compute; reflexivity.
Qed.
Print Assumptions C57_pretty_refuted.

(** An untagged enum reads as the first of its variants that can. *)
Theorem C57_first_variant : forall fuel vs ws y,
  read_yaml fuel (XUntagged (vs ++ ws)) y =
  match read_yaml fuel (XUntagged vs) y with Failed => read_yaml fuel (XUntagged ws) y | r => r end.
Proof. exact untagged_app. Qed.
Print Assumptions C57_first_variant.

Example C57_first_variant_example :
  let n := [(lit "N", XVNew (XInt I8))] in let f := [(lit "F", XVNew XFloat)] in
  read_yaml 2 (XUntagged (n ++ f)) (Unquoted (lit "300")) = Done (SNewV (lit "F") (SFloat (lit "300"))) [] /\
  read_yaml 2 (XUntagged n) (Unquoted (lit "300")) = Failed /\
  read_yaml 2 (XUntagged (n ++ f)) (Unquoted (lit "3")) = Done (SNewV (lit "N") (SInt I8 3)) [].
Proof. repeat split; vm_compute; reflexivity. Qed.

(** The tag may stand anywhere among the entries. *)
Theorem C57_tag_anywhere : forall fuel tag vs y z l1 x l2, plain_name tag -> no_refs y -> no_refs z -> depth y <= fuel -> depth z <= fuel ->
  look any_word y = LMap (l1 ++ (tag, x) :: l2) -> look any_word z = LMap ((tag, x) :: l1 ++ l2) ->
  outcome_of (read_yaml fuel (XTagged tag vs) y) = outcome_of (read_yaml fuel (XTagged tag vs) z).
Proof. exact tag_anywhere. Qed.
Print Assumptions C57_tag_anywhere.

Example C57_tag_anywhere_example : plain_name (lit "kind") /\ no_refs cat_block /\ depth cat_block = 2 /\
  (exists l1 x l2, look any_word cat_block = LMap (l1 ++ (lit "kind", x) :: l2) /\ l1 <> [] /\ l2 <> []).
Proof.
  split; [vm_compute; reflexivity|]. split; [cbn; tauto|]. split; [vm_compute; reflexivity|].
  exists [(lit "name", (None, LText (lit "Tom")))], (None, LText (lit "Cat")), [(lit "age", (None, LWord (lit "3")))].
  split; [vm_compute; reflexivity|]. split; discriminate.
Qed.

(** Unlike the fields of a struct: which variant a flattened enum reads depends on the order
    of the entries. *)
Theorem C57_flattened_order_refuted : exists t a b v w, a <> b /\
  read_yaml 9 t (InlineHash [a; b]) = Done v [] /\ read_yaml 9 t (InlineHash [b; a]) = Done w [] /\ v <> w.
Proof.
  exists (XStruct [(lit "e", (true, XEnum [(lit "A", XVNew XStr); (lit "B", XVNew XStr)]))]), (lit "A", Unquoted (lit "x")), (lit "B", Unquoted (lit "x")),
    (SStruct [(lit "e", SNewV (lit "A") (SStr (lit "x")))]), (SStruct [(lit "e", SNewV (lit "B") (SStr (lit "x")))]).
  repeat split; [discriminate|vm_compute; reflexivity..|discriminate].
Qed.
Print Assumptions C57_flattened_order_refuted.

(** The bound on the steps is no restriction: more steps do not change the result, and
    without references as many steps as the node is deep are enough. *)
Theorem C57_more_steps : forall n m t y, n <= m -> read_yaml n t y <> More -> read_yaml m t y = read_yaml n t y.
Proof. exact read_steps. Qed.
Print Assumptions C57_more_steps.

Theorem C57_terminates : forall fuel t y, no_refs y -> depth y <= fuel -> read_yaml fuel t y <> More.
Proof. exact read_ends. Qed.
Print Assumptions C57_terminates.

Example C57_steps_example : read_yaml 2 pet cat_block <> More /\ read_yaml 1 pet cat_block = More /\ no_refs cat_block /\ depth cat_block = 2.
Proof. repeat split; vm_compute; try discriminate; tauto. Qed.

(** Through references a type with attributes may never be read to an end. *)
Theorem C57_terminates_refuted : exists t y, forall fuel, read_yaml fuel t y = More.
Proof.
  exists (XUntagged [(lit "A", XVNew XStr)]), (Hash [HElem (mkHE (lit "a") (mkA (Some (lit "a")) (Anchor (lit "a"))))]).
  intros fuel. unfold read_yaml. rewrite AttrFacts.read_untagged. cbn [r_node]. now rewrite SerdeFacts2.any_entry_self.
Qed.
Print Assumptions C57_terminates_refuted.
