(** Property theorems C56 (values of types with serde attributes are written and read back). *)
From Coq Require Import ZArith.
From Verif Require Import Base Ast Strings Format Num Pretty Peg YamlGrammar Consume Ser De FromStr Attr Spec_Pretty Spec_Serde Spec_Text
  Spec_Look Spec_Typed Spec_Attr AttrFacts AttrFacts6 AttrFacts8 AttrExample.
Import ListNotations.

(** C56: a value that is [carried] is read back from the node it is written to. *)
Theorem C56_round_trip : forall fuel t v s y, carried t v -> emit t v = Some s -> ser s = Some y -> depth y <= fuel ->
  read_yaml fuel t y = Done v [].
Proof. exact (fun fuel t v s y => read_back t v s y fuel). Qed.
Print Assumptions C56_round_trip.

(** The type [config] and the value: AttrExample. *)
Example C56_example : carried config config_value /\ emit config config_value = Some config_calls /\
  (exists y, ser config_calls = Some y /\ depth y = 4) /\ (forall ut, root_fits ut config_calls).
Proof. exact config_carried. Qed.

(** The same after pretty printing. *)
Theorem C56_pretty : forall fuel t v s y, carried t v -> emit t v = Some s -> ser s = Some y -> long_ok false y -> depth y <= fuel ->
  outcome_of (read_yaml fuel t (pretty y)) = Done v [].
Proof. exact (fun fuel t v s y => read_back_pretty t v s y fuel). Qed.
Print Assumptions C56_pretty.

Example C56_pretty_example (ut : unitab) : exists y, ser config_calls = Some y /\ long_ok false y /\
  read_yaml 4 config (pretty y) = Done config_value [].
Proof. eexists. split; [vm_compute; reflexivity|]. split; [exact (config_long ut)|]. vm_compute; reflexivity. Qed.

(** The same through a file. *)
Theorem C56_text : forall ut fuel t v s y, carried t v -> emit t v = Some s -> ser s = Some y -> root_fits ut s -> depth y <= fuel ->
  outcome_str (read_str ut fuel t (format_doc (mkDoc [] [DYaml (pretty y)]))) = CVal (Done v []).
Proof. exact (fun ut fuel t v s y => str_round_trip ut fuel t v s y). Qed.
Print Assumptions C56_text.

Example C56_text_example ut : 
  match ser config_calls with Some y => format_doc (mkDoc [] [DYaml (pretty y)]) = lit "---
words:
  - '12'
  - -12
  - [ x, 0.5 ]
from:
  - type: Dir
    path: a b
    deep: ~
  - type: Url
    host: h
    port: 80
x: 12.5
y: -2" | None => False end /\
  (* another order of the entries *)
  read_str ut 4 config (lit "---
y: -2
from:
  - path: a b
    type: Dir
    unknown: [ 1 ]
words: [ '12', -12 ]
x: 12.5
") = CVal (Done (SStruct [(lit "words", SSeq [SNewV (lit "T") (SStr (lit "12")); SNewV (lit "N") (SInt I64 (-12))]);
                          (lit "from", SSeq [SStructV (lit "Dir") [(lit "path", SStr (lit "a b")); (lit "deep", SNone)]]);
                          (lit "rest", SMap [(SStr (lit "y"), SFloat (lit "-2")); (SStr (lit "x"), SFloat (lit "12.5"))])]) []).
Proof. split; vm_compute; reflexivity. Qed.

(** A type without attributes is read as before. *)
Theorem C56_bare : forall fuel t y a, no_bytes t -> r_node (read fuel (bare t)) y a = of_opt (de t y a).
Proof. exact (fun fuel t y a H => bare_read fuel t H y a). Qed.
Print Assumptions C56_bare.

Example C56_bare_example : let t := TStruct [(lit "a", TSeq (TOption (TInt U8))); (lit "b", TEnum [(lit "X", VaUnit); (lit "Y", VaNew TStr)])] in
  no_bytes t /\
  read_yaml 0 (bare t) (InlineHash [(lit "b", InlineHash [(lit "Y", Unquoted (lit "7"))]); (lit "a", InlineArray [Unquoted (lit "7"); Unquoted (lit "~")])])
  = Done (SStruct [(lit "a", SSeq [SSome (SInt U8 7); SNone]); (lit "b", SNewV (lit "Y") (SStr (lit "7")))]) [].
Proof. split; [cbn; tauto|vm_compute; reflexivity]. Qed.

(** ---- not without the side conditions ([back]: AttrExample) ---- *)

(** The texts [Null] and [NULL] are written without quotes. *)
Theorem C56_null_text_refuted : exists t s, back t (SNewV (lit "T") (SStr s)) Failed /\ back XStr (SStr s) (Done (SStr s) []).
Proof. exists (XUntagged [(lit "T", XVNew XStr)]), (lit "Null"). split; back. Qed.
Print Assumptions C56_null_text_refuted.

(** A float that is an integer is buffered as one: [-0] loses its sign. *)
Theorem C56_negative_zero_refuted : exists t x z, back t (SNewV (lit "F") (SFloat x)) (Done (SNewV (lit "F") (SFloat z)) []) /\ x <> z /\
  back XFloat (SFloat x) (Done (SFloat x) []).
Proof. exists (XUntagged [(lit "F", XVNew XFloat)]), (lit "-0"), (lit "0"). split; [back|]. split; [discriminate|back]. Qed.
Print Assumptions C56_negative_zero_refuted.

(** A variant takes the value of a later one. *)
Theorem C56_order_refuted : exists t v w, back t v (Done w []) /\ v <> w.
Proof.
  exists (XUntagged [(lit "F", XVNew XFloat); (lit "I", XVNew (XInt I8))]), (SNewV (lit "I") (SInt I8 1)), (SNewV (lit "F") (SFloat (lit "1"))).
  split; [back|discriminate].
Qed.
Print Assumptions C56_order_refuted.

(** Two flattened maps both get all the entries. *)
Theorem C56_two_flattened_refuted : exists t v w, back t v (Done w []) /\ v <> w.
Proof.
  exists (XStruct [(lit "a", (true, XMap XStr (XInt I8))); (lit "b", (true, XMap XStr (XInt I8)))]),
    (SStruct [(lit "a", SMap [(SStr (lit "x"), SInt I8 1)]); (lit "b", SMap [])]),
    (SStruct [(lit "a", SMap [(SStr (lit "x"), SInt I8 1)]); (lit "b", SMap [(SStr (lit "x"), SInt I8 1)])]).
  split; [back|discriminate].
Qed.
Print Assumptions C56_two_flattened_refuted.

(** A flattened [None] comes back as an empty map. *)
Theorem C56_flattened_none_refuted : exists t, back t (SStruct [(lit "o", SNone)]) (Done (SStruct [(lit "o", SSome (SMap []))]) []).
Proof. exists (XStruct [(lit "o", (true, XOption (XMap XStr XStr)))]). back. Qed.
Print Assumptions C56_flattened_none_refuted.

(** A flattened map with integer keys can not be read back, an ordinary one can. *)
Theorem C56_flattened_keys_refuted : exists k v e, back (XStruct [(lit "m", (true, XMap k v))]) (SStruct [(lit "m", SMap e)]) Failed /\
  back (XMap k v) (SMap e) (Done (SMap e) []).
Proof. exists (XInt I8), (XInt I8), [(SInt I8 1, SInt I8 2)]. split; back. Qed.
Print Assumptions C56_flattened_keys_refuted.

(** An entry of the flattened map named like a field, or like the tag. *)
Theorem C56_collision_refuted : exists t u v w, back t v Failed /\ back u w Failed /\
  t = XStruct [(lit "x", (false, XStr)); (lit "m", (true, XMap XStr XStr))] /\ u = XTagged (lit "t") [(lit "A", XVNew (XMap XStr XStr))].
Proof.
  eexists _, _, (SStruct [(lit "x", SStr (lit "p")); (lit "m", SMap [(SStr (lit "x"), SStr (lit "q"))])]),
    (SNewV (lit "A") (SMap [(SStr (lit "t"), SStr (lit "q"))])).
  split; [|split; [|split; reflexivity]]; back.
Qed.
Print Assumptions C56_collision_refuted.

(** A field named like a number: the struct is written and read, but not as the content of
    an untagged variant. *)
Theorem C56_number_name_refuted : exists n t v, back (XUntagged [(lit "A", XVStruct [(n, t)])]) (SStructV (lit "A") [(n, v)]) Failed /\
  back (XStruct [(n, (false, t))]) (SStruct [(n, v)]) (Done (SStruct [(n, v)]) []).
Proof. exists (lit "inf"), XBool, (SBool true). split; back. Qed.
Print Assumptions C56_number_name_refuted.

(** A field named [true] makes a struct with a flattened field impossible to write. *)
Theorem C56_field_name_refuted : exists n v s, emit (XStruct [(n, (false, XBool)); (lit "m", (true, XMap XStr XBool))])
    (SStruct [(n, v); (lit "m", SMap [])]) = Some s /\ ser s = None /\
  back (XStruct [(n, (false, XBool))]) (SStruct [(n, v)]) (Done (SStruct [(n, v)]) []).
Proof. exists (lit "true"), (SBool true). eexists. split; [vm_compute; reflexivity|]. split; [vm_compute; reflexivity|back]. Qed.
Print Assumptions C56_field_name_refuted.

(** Scalars that a type reads directly but not as an untagged variant, and the converse. *)
Theorem C56_direct_refuted : exists s b u,
  read_yaml 9 XStr (Unquoted s) = Done (SStr s) [] /\ read_yaml 9 (XUntagged [(lit "A", XVNew XStr)]) (Unquoted s) = Failed /\
  read_yaml 9 XBool (Unquoted b) = Done (SBool true) [] /\ read_yaml 9 (XUntagged [(lit "A", XVNew XBool)]) (Unquoted b) = Failed /\
  read_yaml 9 (XInt U8) (Unquoted u) = Failed /\
  read_yaml 9 (XUntagged [(lit "A", XVNew (XInt U8))]) (Unquoted u) = Done (SNewV (lit "A") (SInt U8 0)) [].
Proof. exists (lit "1.10"), (lit "yes"), (lit "-0"). repeat split; vm_compute; reflexivity. Qed.
Print Assumptions C56_direct_refuted.

(** An unknown entry with a number as its key is skipped by a struct, but not by the same
    struct in an untagged variant, which also reads a sequence. *)
Theorem C56_direct_struct_refuted : exists t y z v,
  read_yaml 9 t y = Done v [] /\ read_yaml 9 (XUntagged [(lit "A", XVNew t)]) y = Failed /\
  read_yaml 9 t z = Failed /\ read_yaml 9 (XUntagged [(lit "A", XVNew t)]) z = Done (SNewV (lit "A") v) [].
Proof.
  exists (XStruct [(lit "x", (false, XInt I8))]), (InlineHash [(lit "2", Unquoted (lit "b")); (lit "x", Unquoted (lit "1"))]),
    (InlineArray [Unquoted (lit "1")]), (SStruct [(lit "x", SInt I8 1)]).
  repeat split; vm_compute; reflexivity.
Qed.
Print Assumptions C56_direct_struct_refuted.
