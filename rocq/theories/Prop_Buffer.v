(** Property theorems C63 (what types with serde attributes read, exactly). *)
From Coq Require Import ZArith Lia.
From Verif Require Import Base Ast Num Peg YamlGrammar Consume Ser De FromStr Attr Spec_Serde Spec_Look Spec_Typed Spec_Attr Spec_Buffer
  AttrExample BufferFacts3 NodeFacts2 NodeFacts3.
Import ListNotations.

(** C63: a node without references is read as the value it means, and as nothing else. *)
Theorem C63_reads_the_meaning : forall fuel t y v, plain_type t -> no_refs y -> depth y <= fuel ->
  ((exists a, read_yaml fuel t y = Done v a) <-> xmeans t (look any_word y) v).
Proof. exact read_means. Qed.
Print Assumptions C63_reads_the_meaning.

(** The type [config]: AttrExample. The tag is not the first entry, [12] is an integer in
    the buffer and [yes] is text there. *)
Example C63_example :
  let y := InlineHash [(lit "y", Unquoted (lit "3"));
                       (lit "from", InlineArray [InlineHash [(lit "path", Unquoted (lit "a")); (lit "deep", Unquoted (lit "true"));
                                                             (lit "type", SingleQ [SQ_Str (lit "Dir")])];
                                                 InlineArray [Unquoted (lit "Null")]]);
                       (lit "words", InlineArray [Unquoted (lit "12"); Unquoted (lit "yes"); DoubleQ [DQ_Str (lit "13")]])] in
  let v := SStruct [(lit "words", SSeq [SNewV (lit "N") (SInt I64 12); SNewV (lit "T") (SStr (lit "yes")); SNewV (lit "T") (SStr (lit "13"))]);
                    (lit "from", SSeq [SStructV (lit "Dir") [(lit "path", SStr (lit "a")); (lit "deep", SSome (SBool true))]; SUnitV (lit "Null")]);
                    (lit "rest", SMap [(SStr (lit "y"), SFloat (lit "3"))])] in
  plain_type config /\ no_refs y /\ depth y <= 4 /\ read_yaml 4 config y = Done v [] /\ xmeans config (look any_word y) v.
Proof.
  intros y v. assert (P : plain_type config) by exact config_plain.
  assert (N : no_refs y) by (cbn; tauto). assert (D : depth y <= 4) by (cbn; lia).
  assert (R : read_yaml 4 config y = Done v []) by (vm_compute; reflexivity).
  repeat split; try assumption; try apply P. apply (C63_reads_the_meaning 4); eauto.
Qed.

(** The same for serde's buffer, from which untagged and tagged variants and flattened
    fields are read; [own]: by value or by reference. *)
Theorem C63_buffer : forall fuel t own c v, plain_type t -> (r_buf (read fuel t) own c = Some v <-> bmeans own t c v).
Proof. exact (fun fuel t own c v P => buffer_means fuel t P own c v). Qed.
Print Assumptions C63_buffer.

Example C63_buffer_example :
  let c := AnMap [(AnStr (lit "port"), AnI64 80); (AnStr (lit "type"), AnStr (lit "Url")); (AnStr (lit "host"), AnStr (lit "h"))] in
  plain_type source /\
  bmeans false source c (SNewV (lit "Url") (SStruct [(lit "host", SStr (lit "h")); (lit "more", SMap [(SStr (lit "port"), SInt I8 80)])])) /\
  (* two tags *)
  (forall v, ~ bmeans false source (AnMap [(AnStr (lit "type"), AnStr (lit "Null")); (AnStr (lit "type"), AnStr (lit "Null"))]) v) /\
  (* an empty mapping is a unit by value only *)
  bmeans true XUnit (AnMap []) SUnit /\ ~ bmeans false XUnit (AnMap []) SUnit.
Proof.
  intros c. assert (P : plain_type source) by exact source_plain. split; [exact P|].
  split; [apply (C63_buffer 0); [exact P|vm_compute; reflexivity]|].
  split; [intros v H; apply (C63_buffer 0) in H; [vm_compute in H; discriminate|exact P]|].
  split; [right; auto|]. intros [H|[H _]]; discriminate.
Qed.

(** A flattened field of any type, from the entries left for it; and what it leaves. *)
Theorem C63_flattened : forall fuel t es v, plain_type t ->
  (fst (r_flat (read fuel t) (map Some es)) = Some v <-> fmeans t es v).
Proof. exact flat_means. Qed.
Print Assumptions C63_flattened.

Theorem C63_left : forall fuel t es es', plain_type t ->
  (leaves t es es' <-> es' = remaining (snd (r_flat (read fuel t) (map Some es)))).
Proof. exact flat_leaves. Qed.
Print Assumptions C63_left.

(** A flattened enum behind an own field, a flattened option and a flattened map. *)
Example C63_flattened_example :
  let kind := XEnum [(lit "File", XVNew XStr); (lit "Port", XVNew (XInt U16))] in
  let size := XOption (XStruct [(lit "w", (false, XInt U8)); (lit "h", (false, XInt U8))]) in
  let t := XStruct [(lit "id", (false, XInt U8)); (lit "kind", (true, kind)); (lit "size", (true, size)); (lit "rest", (true, XMap XStr XStr))] in
  let y := InlineHash [(lit "w", Unquoted (lit "3")); (lit "a", Unquoted (lit "b")); (lit "Port", Unquoted (lit "80"));
                       (lit "id", Unquoted (lit "1")); (lit "h", Unquoted (lit "4"))] in
  let v := SStruct [(lit "id", SInt U8 1); (lit "kind", SNewV (lit "Port") (SInt U16 80));
                    (lit "size", SSome (SStruct [(lit "w", SInt U8 3); (lit "h", SInt U8 4)]));
                    (lit "rest", SMap [(SStr (lit "a"), SStr (lit "b"))])] in
  let es := [(AnStr (lit "w"), AnI64 3); (AnStr (lit "a"), AnStr (lit "b")); (AnStr (lit "Port"), AnI64 80); (AnStr (lit "h"), AnI64 400)] in
  plain_type t /\ xmeans t (look any_word y) v /\
  fmeans kind es (SNewV (lit "Port") (SInt U16 80)) /\
  leaves kind es [(AnStr (lit "w"), AnI64 3); (AnStr (lit "a"), AnStr (lit "b")); (AnStr (lit "h"), AnI64 400)] /\
  (* 400 is no u8: the option is none, and its entries are gone *)
  fmeans size es SNone /\ leaves size es [(AnStr (lit "a"), AnStr (lit "b")); (AnStr (lit "Port"), AnI64 80)].
Proof.
  intros kind size t y v es.
  assert (P : plain_type t) by (cbn; repeat split; names).
  assert (P1 : plain_type kind) by (cbn; repeat split; names).
  assert (P2 : plain_type size) by (cbn; repeat split; names).
  split; [exact P|].
  split; [apply (C63_reads_the_meaning 4); [exact P|cbn; tauto|cbn; lia|exists []; vm_compute; reflexivity]|].
  split; [apply (C63_flattened 0); [exact P1|vm_compute; reflexivity]|].
  split; [apply (C63_left 0); [exact P1|vm_compute; reflexivity]|].
  split; [apply (C63_flattened 0); [exact P2|vm_compute; reflexivity]|].
  apply (C63_left 0); [exact P2|vm_compute; reflexivity].
Qed.

(** An entry that is no field of the struct's own and is not in the value read for any
    flattened field can be lost, although a map is flattened last. *)
Theorem C63_lost_refuted : exists t y v k x,
  t = XStruct [(lit "size", (true, XOption (XStruct [(lit "w", (false, XInt U8)); (lit "h", (false, XInt U8))])));
               (lit "rest", (true, XMap XStr XStr))] /\
  plain_type t /\ no_refs y /\ y = InlineHash [(k, x)] /\
  xmeans t (look any_word y) v /\ v = SStruct [(lit "size", SNone); (lit "rest", SMap [])].
Proof.
  exists (XStruct [(lit "size", (true, XOption (XStruct [(lit "w", (false, XInt U8)); (lit "h", (false, XInt U8))])));
                   (lit "rest", (true, XMap XStr XStr))]),
    (InlineHash [(lit "w", Unquoted (lit "3"))]), (SStruct [(lit "size", SNone); (lit "rest", SMap [])]), (lit "w"), (Unquoted (lit "3")).
  split; [reflexivity|]. split; [cbn; repeat split; names|]. split; [cbn; tauto|]. split; [reflexivity|]. split; [|reflexivity].
  apply (C63_reads_the_meaning 2); [cbn; repeat split; names|cbn; tauto|cbn; lia|exists []; vm_compute; reflexivity].
Qed.
Print Assumptions C63_lost_refuted.

(** No buffer means two values, so the meaning is not ambiguous. *)
Theorem C63_one_meaning : forall t own c v w, plain_type t -> bmeans own t c v -> bmeans own t c w -> v = w.
Proof. exact one_meaning. Qed.
Print Assumptions C63_one_meaning.

(** The order of the variants decides: [F] is first. *)
Example C63_one_meaning_example : 
  let t := XUntagged [(lit "F", XVNew XFloat); (lit "I", XVNew (XInt I8))] in
  plain_type t /\ bmeans false t (AnI64 1) (SNewV (lit "F") (SFloat (lit "1"))) /\ ~ bmeans false t (AnI64 1) (SNewV (lit "I") (SInt I8 1)).
Proof.
  intros t. assert (P : plain_type t) by (cbn; repeat split; names). split; [exact P|].
  assert (A : bmeans false t (AnI64 1) (SNewV (lit "F") (SFloat (lit "1")))) by (apply (C63_buffer 0); [exact P|vm_compute; reflexivity]).
  split; [exact A|]. intros B. discriminate (C63_one_meaning t false _ _ _ P A B).
Qed.

(** The same for a file. *)
Theorem C63_file : forall ut fuel t s d cs y rest v, plain_type t -> parse_yaml ut s = CVal d ->
  items d = map DComment cs ++ DYaml y :: rest -> no_refs y -> depth y <= fuel ->
  ((exists a, read_str ut fuel t s = CVal (Done v a)) <-> xmeans t (look any_word y) v).
Proof. exact str_means. Qed.
Print Assumptions C63_file.

Example C63_file_example : forall ut,
  let s := lit "---
# c
type: Url
host: h
port: 0x10
" in
  let t := XTagged (lit "type") [(lit "Url", XVStruct [(lit "host", XStr); (lit "port", XStr)])] in
  plain_type t /\
  (exists d y, parse_yaml ut s = CVal d /\ items d = map DComment [lit " c"] ++ [DYaml y] /\ no_refs y /\ depth y <= 2 /\
     xmeans t (look any_word y) (SStructV (lit "Url") [(lit "host", SStr (lit "h")); (lit "port", SStr (lit "0x10"))])).
Proof.
  intros ut s t. assert (P : plain_type t) by (cbn; repeat split; names). split; [exact P|].
  assert (E : exists d, parse_yaml ut s = CVal d) by (eexists; vm_compute; reflexivity). destruct E as [d E].
  pose proof E as E'. vm_compute in E'. injection E' as E'. exists d. subst d. eexists.
  split; [exact E|]. split; [cbn; reflexivity|]. split; [cbn; tauto|]. split; [cbn; lia|].
  apply (C63_file ut 2 t s _ [lit " c"] _ [] _ P E); [reflexivity|cbn; tauto|cbn; lia|]. exists []. vm_compute. reflexivity.
Qed.

(** Adding an entry that no field is named after can make a struct in an untagged variant
    unreadable. *)
Theorem C63_unknown_refuted : exists t c e es v, plain_type t /\ c = AnMap es /\ bmeans false t c v /\
  ~ In (fst e) (map (fun f => AnStr (fst f)) [(lit "x", XInt I8)]) /\ t = XUntagged [(lit "A", XVStruct [(lit "x", XInt I8)])] /\
  forall w, ~ bmeans false t (AnMap (e :: es)) w.
Proof.
  exists (XUntagged [(lit "A", XVStruct [(lit "x", XInt I8)])]), (AnMap [(AnStr (lit "x"), AnI64 1)]), (AnI64 2, AnUnit),
    [(AnStr (lit "x"), AnI64 1)], (SStructV (lit "A") [(lit "x", SInt I8 1)]).
  assert (P : plain_type (XUntagged [(lit "A", XVStruct [(lit "x", XInt I8)])])) by (cbn; repeat split; names).
  split; [exact P|]. split; [reflexivity|]. split; [apply (C63_buffer 0); [exact P|vm_compute; reflexivity]|].
  split; [cbn; intros [H|[]]; discriminate|]. split; [reflexivity|].
  intros w H. apply (C63_buffer 0) in H; [vm_compute in H; discriminate|exact P].
Qed.
Print Assumptions C63_unknown_refuted.
