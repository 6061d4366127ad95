(** Property theorems C55 (what a typed reader returns). *)
From Coq Require Import ZArith Permutation.
From Verif Require Import Base Ast Strings Format Num Pretty Ser De Peg YamlGrammar Consume FromStr Spec_Pretty Spec_Serde Spec_Look
  Spec_Typed TypedFacts TypedFacts2 TypedFacts3 TypedFacts4.
Import ListNotations.

(** C55: reading a node without references as a type gives exactly the value the node means
    for that type, and an error when there is none. *)
Theorem C55_reads_the_meaning : forall t y v, distinct t -> no_refs y ->
  (from_yaml t y = Some v <-> means t (seen y) v).
Proof. exact from_means. Qed.
Print Assumptions C55_reads_the_meaning.

Definition server : ty :=
  TStruct [(lit "name", TStr); (lit "port", TInt U16); (lit "tls", TOption TBool);
           (lit "size", TTuple [TInt I8; TFloat]); (lit "mode", TEnum [(lit "On", VaUnit); (lit "Limit", VaNew (TInt U8))])].
Definition server_node : yaml :=
  Hash [HElem (mkHE (lit "mode") (mkA None (InlineHash [(lit "Limit", Unquoted (lit "7"))])));
        HComment (lit " c");
        HElem (mkHE (lit "other") (mkA None (Array [])));
        HElem (mkHE (lit "size") (mkA None (InlineArray [Unquoted (lit "-3"); Unquoted (lit "1.5e-3"); Unquoted (lit "x")])));
        HElem (mkHE (lit "port") (mkA None (SingleQ [SQ_Str (lit "+080")])));
        HElem (mkHE (lit "name") (mkA (Some (lit "n")) (Unquoted (lit "yes"))))].
Definition server_value : sval :=
  SStruct [(lit "name", SStr (lit "yes")); (lit "port", SInt U16 80); (lit "tls", SNone);
           (lit "size", STuple [SInt I8 (-3); SFloat (lit "1.5e-3")]); (lit "mode", SNewV (lit "Limit") (SInt U8 7))].

Example C55_example : distinct server /\ no_refs server_node /\ from_yaml server server_node = Some server_value /\
  from_yaml server (Hash [HElem (mkHE (lit "name") (mkA None (Unquoted (lit "x"))))]) = None.
Proof.
  split; [|split; [|split; vm_compute; reflexivity]].
  - unfold server. cbn [distinct map fst fold_right]. repeat split; repeat (constructor; cbn; try (intuition discriminate)).
  - vm_compute. repeat split.
Qed.

(** The floats are the texts of Rust's grammar. *)
Theorem C55_floats : forall s, parse_f64_ok s = true <-> float_literal s.
Proof. exact float_spec. Qed.
Print Assumptions C55_floats.

Example C55_floats_example :
  map parse_f64_ok [lit "1."; lit "-.5E+07"; lit "+InFinity"; lit "."; lit "1e"; lit "1_0"; lit ""] =
  [true; true; true; false; false; false; false].
Proof. vm_compute. reflexivity. Qed.

(** Whatever is read, also through references, has the type. *)
Theorem C55_typed : forall t y v, from_yaml t y = Some v -> of_ty t v.
Proof. exact from_typed. Qed.
Print Assumptions C55_typed.

Example C55_typed_example :
  from_yaml (TMap TStr (TTuple [TInt U8; TOption TChar]))
    (Hash [HElem (mkHE (lit "a") (mkA (Some (lit "p")) (InlineArray [Unquoted (lit "1"); Unquoted (lit "null")])));
           HElem (mkHE (lit "b") (mkA None (Anchor (lit "p"))))]) =
  Some (SMap [(SStr (lit "a"), STuple [SInt U8 1; SNone]); (SStr (lit "b"), STuple [SInt U8 1; SNone])]).
Proof. vm_compute. reflexivity. Qed.

(** The order of the entries in mappings does not matter. *)
Theorem C55_order : forall t y z v, distinct t -> no_refs y -> no_refs z -> shuffled (seen y) (seen z) ->
  from_yaml t y = Some v -> exists w, from_yaml t z = Some w /\ same_value v w.
Proof. exact from_shuffled. Qed.
Print Assumptions C55_order.

Example C55_order_example :
  let y := InlineHash [(lit "a", InlineHash [(lit "x", Unquoted (lit "1")); (lit "y", Unquoted (lit "2"))]); (lit "b", Unquoted (lit "3"))] in
  let z := InlineHash [(lit "b", Unquoted (lit "3")); (lit "a", InlineHash [(lit "y", Unquoted (lit "2")); (lit "x", Unquoted (lit "1"))])] in
  let t := TStruct [(lit "a", TMap TStr (TInt I8)); (lit "b", TInt I8)] in
  shuffled (seen y) (seen z) /\
  from_yaml t y = Some (SStruct [(lit "a", SMap [(SStr (lit "x"), SInt I8 1); (SStr (lit "y"), SInt I8 2)]); (lit "b", SInt I8 3)]) /\
  from_yaml t z = Some (SStruct [(lit "a", SMap [(SStr (lit "y"), SInt I8 2); (SStr (lit "x"), SInt I8 1)]); (lit "b", SInt I8 3)]).
Proof.
  cbv zeta. split; [|split; vm_compute; reflexivity]. vm_compute.
  eapply sh_map; [apply perm_swap|]. constructor; [split; [reflexivity|apply sh_text]|].
  constructor; [|constructor]. split; [reflexivity|]. cbn.
  eapply sh_map; [apply perm_swap|]. repeat constructor.
Qed.

(** Entries with unknown names do not matter to a struct. *)
Theorem C55_unknown_fields : forall fs y z es keep, distinct (TStruct fs) -> no_refs y -> no_refs z ->
  (forall n, In n (map fst fs) -> keep n = true) ->
  seen y = LMap es -> seen z = LMap (filter (fun e => keep (fst e)) es) ->
  from_yaml (TStruct fs) z = from_yaml (TStruct fs) y.
Proof. exact from_unknown. Qed.
Print Assumptions C55_unknown_fields.

Example C55_unknown_example :
  let fs := [(lit "a", TInt I8); (lit "c", TOption TStr)] in
  let keep n := seqb n (lit "a") || seqb n (lit "c") in
  let y := InlineHash [(lit "b", Unquoted (lit "?")); (lit "a", Unquoted (lit "1")); (lit "b", Unquoted (lit "!"))] in
  let z := InlineHash [(lit "a", Unquoted (lit "1"))] in
  seen z = LMap (filter (fun e => keep (fst e)) [(lit "b", (None, LText (lit "?"))); (lit "a", (None, LText (lit "1"))); (lit "b", (None, LText (lit "!")))]) /\
  from_yaml (TStruct fs) y = Some (SStruct [(lit "a", SInt I8 1); (lit "c", SNone)]).
Proof. vm_compute. split; reflexivity. Qed.

(** A file is read as its first item that is not a comment. *)
Theorem C55_file : forall ut t s d cs y rest v, distinct t -> parse_yaml ut s = CVal d ->
  items d = map DComment cs ++ DYaml y :: rest -> no_refs y ->
  (from_yaml_str ut t s = CVal v <-> means t (seen y) v).
Proof. exact read_file. Qed.
Print Assumptions C55_file.

Example C55_file_example : forall ut,
  let s := (lit "---" ++ [NL] ++ lit "# c" ++ [NL] ++ lit "a: 1" ++ [NL])%list in
  (exists d, parse_yaml ut s = CVal d /\
    items d = map DComment [lit " c"] ++ [DYaml (Hash [HElem (mkHE (lit "a") (mkA None (Unquoted (lit "1"))))])]) /\
  from_yaml_str ut (TStruct [(lit "a", TInt U8)]) s = CVal (SStruct [(lit "a", SInt U8 1)]).
Proof. intros ut. cbv zeta. split; [eexists; split; vm_compute; reflexivity|vm_compute; reflexivity]. Qed.

(** Not every element is read: a tuple drops the elements beyond its length. *)
Theorem C55_extra_element_refuted : exists ts l v, from_yaml (TTuple ts) (InlineArray l) = Some v /\ length ts < length l.
Proof.
  exists [TInt I8; TInt I8], [Unquoted (lit "1"); Unquoted (lit "2"); Unquoted (lit "3")], (STuple [SInt I8 1; SInt I8 2]).
  split; [vm_compute; reflexivity|]. cbn. lia.
Qed.
Print Assumptions C55_extra_element_refuted.

(** The unit types read anything. *)
Theorem C55_unit_refuted : exists y, from_yaml TUnit y = Some SUnit /\ from_yaml TUnitStruct y = Some SUnitStruct /\
  from_yaml (TOption TStr) y <> Some SNone /\ y = InlineArray [Anchor (lit "nowhere")].
Proof. exists (InlineArray [Anchor (lit "nowhere")]). repeat split; try (vm_compute; reflexivity). vm_compute. discriminate. Qed.
Print Assumptions C55_unit_refuted.

(** YAML's own spellings of special numbers are not numbers here. *)
Theorem C55_yaml_numbers_refuted : exists f i,
  In f (map lit [".inf"; "-.inf"; ".nan"]%string) /\ In i (map lit ["0x1F"; "0o17"]%string) /\
  (forall g, In g (map lit [".inf"; "-.inf"; ".nan"]%string) -> from_yaml TFloat (Unquoted g) = None) /\
  (forall j k, In j (map lit ["0x1F"; "0o17"]%string) -> from_yaml (TInt k) (Unquoted j) = None) /\
  from_yaml TFloat (Unquoted f) = None /\ from_yaml (TInt U8) (Unquoted i) = None.
Proof.
  exists (lit ".inf"), (lit "0x1F"). split; [now left|]. split; [now left|]. split; [|split; [|split; vm_compute; reflexivity]].
  - intros g H. cbn [map In] in H. repeat (destruct H as [<-|H]; [vm_compute; reflexivity|]). destruct H.
  - intros j k H. cbn [map In] in H. repeat (destruct H as [<-|H]; [destruct k; vm_compute; reflexivity|]). destruct H.
Qed.
Print Assumptions C55_yaml_numbers_refuted.
