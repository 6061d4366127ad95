(** Property theorems C05, C06, C41, C42, C44-C46 (serialization and deserialization). *)
From Coq Require Import ZArith.
From Verif Require Import Base Ast Strings Format Num Pretty Spec_Strings Spec_Pretty
  Peg YamlGrammar Consume Ser De FromStr Spec_Serde SerdeFacts SerdeFacts2.
Import ListNotations.

(** C05: the scalar chosen for a string has that string as its value. *)
Theorem C05_string_scalar_value : forall s, as_string (str_to_yaml s) = Some s.
Proof. exact str_to_yaml_value. Qed.
Print Assumptions C05_string_scalar_value.

(** The three styles. *)
Example C05_example :
  str_to_yaml (lit "a b") = Unquoted (lit "a b") /\
  str_to_yaml (lit "42") = SingleQ [SQ_Str (lit "42")] /\
  str_to_yaml (lit "it's, a\") = DoubleQ [DQ_Str (lit "it's, a"); DQ_Esc E_Backslash] /\
  str_to_yaml (lit "a" ++ [NL] ++ lit "b") = DoubleQ [DQ_Str (lit "a"); DQ_Esc E_Newline; DQ_Str (lit "b")].
Proof. vm_compute. repeat split. Qed.

(** C06: a string written unquoted is read as that string, except [Null] and [NULL]. *)
Theorem C06_unquoted_not_special : forall s, str_to_yaml s = Unquoted s ->
  s <> lit "Null" -> s <> lit "NULL" -> any_unquoted s = AnStr s.
Proof. exact unquoted_not_special. Qed.
Print Assumptions C06_unquoted_not_special.

(** A quoted scalar is always read as a string. *)
Theorem C06_any_reads_string : forall s fuel a, s <> lit "Null" -> s <> lit "NULL" ->
  de_any (S fuel) (str_to_yaml s) a = Done (AnStr s) a.
Proof. exact any_str_to_yaml. Qed.
Print Assumptions C06_any_reads_string.

Example C06_example :
  str_to_yaml (lit "1.2.3") = Unquoted (lit "1.2.3") /\ any_unquoted (lit "1.2.3") = AnStr (lit "1.2.3") /\
  any_unquoted (lit "1.2") = AnF64 (lit "1.2") /\ str_to_yaml (lit "1.2") <> Unquoted (lit "1.2") /\
  str_to_yaml (lit "yes") = Unquoted (lit "yes").
Proof. vm_compute. repeat split. discriminate. Qed.

Theorem C06_null_words_refuted : exists s, str_to_yaml s = Unquoted s /\ any_unquoted s = AnUnit.
Proof. exists (lit "Null"). vm_compute. split; reflexivity. Qed.
Print Assumptions C06_null_words_refuted.

(** C41: deserializing a serialized value gives it back. *)
Theorem C41_deserialize_serialize : forall t v y,
  has_ty t v -> faithful v -> ser v = Some y -> from_yaml t y = Some v.
Proof. exact from_ser. Qed.
Print Assumptions C41_deserialize_serialize.

(** Values whose mapping keys are numbers, units, bools or plain words are serialized. *)
Theorem C41_serializes : forall v, word_keys v -> ser v <> None.
Proof. exact word_keys_ser. Qed.
Print Assumptions C41_serializes.

Definition ex_type : ty :=
  TStruct [(lit "name", TOption TStr); (lit "at", TTuple [TInt I8; TInt U64; TFloat]);
           (lit "tags", TMap (TInt U8) (TSeq TChar));
           (lit "mode", TEnum [(lit "Off", VaUnit); (lit "On", VaNew TBool)]);
           (lit "rest", TNewtype (TOption TUnitStruct)); (lit "raw", TBytes)].
Definition ex_value : sval :=
  SStruct [(lit "name", SSome (SStr (lit "it's, 42")));
           (lit "at", STuple [SInt I8 (-128); SInt U64 18446744073709551615; SFloat (lit "-0.5")]);
           (lit "tags", SMap [(SInt U8 7, SSeq [SChar NL; SChar (chr "x")])]);
           (lit "mode", SUnitV (lit "Off")); (lit "rest", SNewtype SNone); (lit "raw", SBytes [0; 255]%N)].

Example C41_example : has_ty ex_type ex_value /\ faithful ex_value /\ word_keys ex_value /\
  match ser ex_value with Some y => from_yaml ex_type y = Some ex_value | None => False end.
Proof.
  split; [|split; [|split]].
  - cbn [has_ty ex_type ex_value]. split.
    + repeat constructor; cbn; intuition discriminate.
    + cbn [all2 fst snd has_ty].
      refine (conj (conj eq_refl I) (conj (conj eq_refl (conj _ (conj _ (conj _ I))))
        (conj (conj eq_refl _) (conj (conj eq_refl (conj _ _)) (conj (conj eq_refl I) (conj (conj eq_refl _) I)))))).
      * split; [reflexivity|cbn; lia].
      * split; [reflexivity|cbn; lia].
      * right; right; right. exists (lit "-"), (lit "0"), (lit ".5"). split; [reflexivity|]. split; [now right|].
        split; [split; [discriminate|]|right; exists (lit "5"); split; [reflexivity|split; [discriminate|]]];
          intros c [<-|[]]; vm_compute; split; discriminate.
      * intros q [<-|[]]; cbn [fst snd has_ty]. split; [split; [reflexivity|cbn; lia]|].
        intros v [<-|[<-|[]]]; exact I.
      * repeat constructor; cbn; intuition discriminate.
      * now left.
      * intros b [<-|[<-|[]]]; reflexivity.
  - cbn. repeat split. intros [H|H]; discriminate.
  - cbn. tauto.
  - vm_compute. reflexivity.
Qed.

(** Not without the side conditions. *)
Theorem C41_null_word_refuted : exists t v y, has_ty t v /\ ser v = Some y /\ from_yaml t y = Some SNone /\ v <> SNone.
Proof. exists (TOption TStr), (SSome (SStr (lit "Null"))), (Unquoted (lit "Null")). vm_compute. repeat split. discriminate. Qed.
Print Assumptions C41_null_word_refuted.

Theorem C41_nested_option_refuted : exists t v y, has_ty t v /\ ser v = Some y /\ from_yaml t y = Some SNone /\ v <> SNone.
Proof. exists (TOption (TOption TBool)), (SSome SNone), (Unquoted (lit "~")). vm_compute. repeat split. discriminate. Qed.
Print Assumptions C41_nested_option_refuted.

Theorem C41_wide_integer_refuted : exists t v y, has_ty t v /\ ser v = Some y /\ from_yaml t y = None.
Proof. exists (TInt I128), (SInt I128 0), (Unquoted (lit "0")). vm_compute. repeat split; discriminate. Qed.
Print Assumptions C41_wide_integer_refuted.

Theorem C41_data_variant_refuted : exists t v y, has_ty t v /\ ser v = Some y /\ from_yaml t y = None.
Proof.
  exists (TEnum [(lit "A", VaNew TBool)]), (SNewV (lit "A") (SBool true)), (Unquoted (lit "true")).
  split; [|vm_compute; split; reflexivity]. cbn. split; [|left; auto]. repeat constructor. intros [].
Qed.
Print Assumptions C41_data_variant_refuted.

(** A variant with data can come back as another variant. *)
Theorem C41_variant_confusion_refuted : exists t v y w, has_ty t v /\ ser v = Some y /\
  from_yaml t y = Some w /\ w <> v.
Proof.
  exists (TEnum [(lit "A", VaNew TStr); (lit "B", VaUnit)]), (SNewV (lit "A") (SStr (lit "B"))),
    (Unquoted (lit "B")), (SUnitV (lit "B")).
  split; [|vm_compute; repeat split; discriminate]. cbn. split; [|left; auto].
  repeat constructor; cbn; intuition discriminate.
Qed.
Print Assumptions C41_variant_confusion_refuted.

Theorem C41_map_key_refuted : exists t v, has_ty t v /\ faithful v /\ ser v = None.
Proof.
  exists (TMap TStr TBool), (SMap [(SStr (lit "42"), SBool true)]).
  split; [|split; [cbn; tauto|vm_compute; reflexivity]]. cbn. intros p [<-|[]]. split; exact I.
Qed.
Print Assumptions C41_map_key_refuted.

(** C42: the same with pretty printing in between. *)
Theorem C42_deserialize_pretty_serialize : forall t v y,
  has_ty t v -> faithful v -> ser v = Some y -> long_ok false y -> from_yaml t (pretty y) = Some v.
Proof. exact from_pretty_ser. Qed.
Print Assumptions C42_deserialize_pretty_serialize.

(** Pretty printing changes the tree: a nested sequence becomes inline, the multi-line
    string a literal. *)
Example C42_example :
  let v := SSeq [SSeq [SStr (lit "a")]; SSeq [SStr (lit "b" ++ [NL] ++ lit "c")]] in
  let t := TSeq (TSeq TStr) in
  has_ty t v /\ faithful v /\
  match ser v with
  | Some y => long_ok false y /\ pretty y <> y /\ from_yaml t (pretty y) = Some v
  | None => False
  end.
Proof.
  cbn zeta. split; [|split].
  - cbn. intros v [<-|[<-|[]]] w [<-|[]]; exact I.
  - cbn. tauto.
  - vm_compute. repeat split; intros; discriminate.
Qed.

(** An over-long word is broken by folding. *)
Theorem C42_unfoldable_refuted : exists t v y, has_ty t v /\ faithful v /\ ser v = Some y /\
  from_yaml t (pretty y) <> Some v.
Proof.
  exists TStr, (SStr (repeat (chr "a") 91 ++ lit "  ,")),
    (SingleQ [SQ_Str (repeat (chr "a") 91 ++ lit "  ,")]). 
  split; [exact I|]. split; [exact I|]. split; [vm_compute; reflexivity|]. vm_compute. discriminate.
Qed.
Print Assumptions C42_unfoldable_refuted.

(** C44: a reference gives the value registered last under its name. *)
Theorem C44_resolve_last : forall h n y, resolve (fold_left register h []) n = Some y <->
  exists h1 x h2, h = h1 ++ x :: h2 /\ a_alias x = Some n /\ a_value x = y /\
    forall z, In z h2 -> a_alias z <> Some n.
Proof. exact resolve_history. Qed.
Print Assumptions C44_resolve_last.

Theorem C44_resolve_unknown : forall h n, resolve (fold_left register h []) n = None <->
  forall x, In x h -> a_alias x <> Some n.
Proof. exact resolve_none. Qed.
Print Assumptions C44_resolve_unknown.

(** Collections register all their elements' aliases, in order, before reading any. *)
Theorem C44_hash_registers : forall a l, snd (hash_entries a l) =
  fold_left register (flat_map (fun d => match d with HElem e => [he_value e] | _ => [] end) l) a.
Proof. exact hash_registers. Qed.
Print Assumptions C44_hash_registers.

Theorem C44_seq_registers : forall a l, snd (seq_values a l) =
  fold_left register (flat_map (fun d => match d with AElem e => [e] | _ => [] end) l) a.
Proof. exact seq_registers. Qed.
Print Assumptions C44_seq_registers.

(** Every type reads a reference like the value it stands for, and fails on an unknown
    one (the unit types do not look). *)
Theorem C44_reference_is_value : forall t n y a, resolve a n = Some y -> (forall m, y <> Anchor m) ->
  de t (Anchor n) a = de t y a.
Proof. exact de_anchor. Qed.
Print Assumptions C44_reference_is_value.

Theorem C44_unknown_is_error : forall t n a, reads t -> resolve a n = None -> de t (Anchor n) a = None.
Proof. exact de_anchor_undefined. Qed.
Print Assumptions C44_unknown_is_error.

Example C44_example ut :
  from_yaml_str ut (TTuple [TInt I64; TInt I64; TInt I64]) (lit "---
- &x 1
- &x 2
- *x
") = CVal (STuple [SInt I64 1; SInt I64 2; SInt I64 2]).
Proof. vm_compute. reflexivity. Qed.

(** A reference may come before the definition, in the same collection. *)
Theorem C44_forward_reference_refuted : exists s, forall ut,
  from_yaml_str ut (TTuple [TInt I64; TInt I64]) s = CVal (STuple [SInt I64 1; SInt I64 1]) /\
  prefixb (lit "---
- *x") s = true.
Proof. exists (lit "---
- *x
- &x 1
"). intros ut. split; vm_compute; reflexivity. Qed.
Print Assumptions C44_forward_reference_refuted.

(** A reference to a reference is not followed. *)
Theorem C44_chain_refuted : exists s, forall ut,
  from_yaml_str ut (TTuple [TInt I64; TInt I64; TInt I64]) s = CErr /\
  from_yaml_str ut (TTuple [TInt I64; TInt I64]) s = CVal (STuple [SInt I64 1; SInt I64 1]).
Proof. exists (lit "---
- &x 1
- &y *x
- *y
"). intros ut. split; vm_compute; reflexivity. Qed.
Print Assumptions C44_chain_refuted.

(** C45: untyped deserialization terminates without references ... *)
Theorem C45_terminates_without_references : forall fuel y a,
  no_refs y -> depth y <= fuel -> de_any fuel y a <> More.
Proof. exact any_terminates. Qed.
Print Assumptions C45_terminates_without_references.

Example C45_example :
  let y := Hash [HElem (mkHE (lit "k") (mkA (Some (lit "x")) (Array [AElem (mkA None (Unquoted (lit "1")))])))] in
  no_refs y /\ depth y = 3 /\ de_any 2 y [] = More /\
  match de_any 3 y [] with Done v _ => v = AnMap [(AnStr (lit "k"), AnSeq [AnI64 1])] | _ => False end.
Proof. vm_compute. repeat split. Qed.

(** ... but not with a reference to itself, or in a cycle. *)
Theorem C45_termination_refuted : exists s y, (forall ut, parse_yaml ut s = CVal (mkDoc [] [DYaml y])) /\
  forall fuel, de_any fuel y [] = More.
Proof.
  exists (lit "---
k: &a *a"), (Hash [HElem (mkHE (lit "k") (mkA (Some (lit "a")) (Anchor (lit "a"))))]).
  split; [intros ut; vm_compute; reflexivity|]. apply any_entry_self.
Qed.
Print Assumptions C45_termination_refuted.

Theorem C45_cycles_do_not_terminate : forall (a : anchors) (C : str -> Prop),
  (forall n, C n -> exists m, resolve a n = Some (Anchor m) /\ C m) ->
  forall fuel n, C n -> de_any fuel (Anchor n) a = More.
Proof. exact any_cycle. Qed.
Print Assumptions C45_cycles_do_not_terminate.

Example C45_cycle_example :
  let a := [(lit "x", Anchor (lit "y")); (lit "y", Anchor (lit "x"))] in
  forall n, (n = lit "x" \/ n = lit "y") ->
  exists m, resolve a n = Some (Anchor m) /\ (m = lit "x" \/ m = lit "y").
Proof. intros a n [->| ->]; eexists; split; try reflexivity; auto. Qed.

(** C46: an integer type reads exactly the decimal texts of its values. *)
Theorem C46_integer_text : forall k y s z a, k <> I128 -> k <> U128 -> as_string y = Some s ->
  (de (TInt k) y a = Some (SInt k z, a) <-> fits k z /\ decimal_text k s z).
Proof. exact de_int_spec. Qed.
Print Assumptions C46_integer_text.

Theorem C46_no_other_result : forall k y a v a', de (TInt k) y a = Some (v, a') ->
  exists z, v = SInt k z /\ fits k z /\ a' = a.
Proof. exact de_int_result. Qed.
Print Assumptions C46_no_other_result.

(** What the serializer writes is decimal text. *)
Theorem C46_written_text : forall k z, fits k z -> decimal_text k (show_Z z) z.
Proof. exact show_decimal. Qed.
Print Assumptions C46_written_text.

Example C46_example :
  de (TInt I8) (Unquoted (lit "-128")) [] = Some (SInt I8 (-128), []) /\
  de (TInt I8) (Unquoted (lit "128")) [] = None /\
  de (TInt U8) (SingleQ [SQ_Str (lit "+0255")]) [] = Some (SInt U8 255, []) /\
  de (TInt U8) (Unquoted (lit "-0")) [] = None /\
  de (TInt U64) (Unquoted (lit "18446744073709551616")) [] = None.
Proof. vm_compute. repeat split. Qed.
