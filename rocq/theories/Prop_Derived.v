(** C81: derived impls of [Deserialize], call by call. *)
From Coq Require Import ZArith.
From Verif Require Import Base Ast Num Ser De DeCalls Hints DerivedFacts Spec_Serde Spec_Typed Spec_Visit Spec_Reads Spec_Told.
Import ListNotations.

(** The method and the visitor that derived impls and those of std use read, for every type of
    the data model, what [De.v] says. *)
Theorem C81_derived : forall t, matches (derived t) (de t).
Proof. exact derived_matches. Qed.
Print Assumptions C81_derived.
(** What they make, exactly. *)
Theorem C81_reads : forall t y a v b, distinct t -> (derived t y a = Got v b <-> yields t y a v b).
Proof. exact derived_yields. Qed.
Print Assumptions C81_reads.
(** No order of their calls comes to a panic, or to recursion without end. *)
Theorem C81_no_panic : forall t y a, derived t y a <> GPanic.
Proof. exact derived_safe. Qed.
Print Assumptions C81_no_panic.
(** The names of fields are asked for as identifiers; unknown fields are ignored. *)
Theorem C81_names : forall y a, ask HIdentifier (text_visitor (fun s => Some (SStr s))) y a = name_seed y a /\
  ask HIgnored (unit_visitor SUnit) y a = skip_seed y a.
Proof. exact (fun y a => conj (name_asks y a) (skip_asks y a)). Qed.
Print Assumptions C81_names.
(** Any visitor, also a hand-written one: what its method for a scalar returns is what comes out,
    and options and newtypes go on reading the node that the method was given. *)
Theorem C81_scalars : forall V (v : visitor V) h y a m b o, hears h y a m b -> returned v m = Some o ->
  ask h v y a = match o with Some x => Got x b | None => GErr b end.
Proof. exact ask_scalar. Qed.
Print Assumptions C81_scalars.
Theorem C81_inner : forall V (v : visitor V) h y z a b,
  (hears h y a (SaySome z) b -> ask h v y a = v_some v z b) /\ (hears h y a (SayNewtype z) b -> ask h v y a = v_newtype v z b).
Proof. exact ask_inner. Qed.
Print Assumptions C81_inner.
(** A hand-written visitor of a variant can read elements or entries to the end: what a list or
    a map reads from the content. *)
Theorem C81_variant_loops : forall t k s y a n,
  agrees (serve_variant (ReadTuple n (fun b => wmap SSeq (vec_walk b (derived t) []))) y a) (de (TSeq t) y a) /\
  agrees (serve_variant (ReadStruct (fun b => vmap SMap (map_visit b (derived k) (derived s) []))) y a) (de (TMap k s) y a).
Proof. exact variant_loops. Qed.
Print Assumptions C81_variant_loops.
Example C81_variant_loops_ex : serve_variant (ReadTuple 2 (fun b => wmap SSeq (vec_walk b (derived TBool) []))) (InlineArray [Unquoted (lit "yes"); Unquoted (lit "no"); Unquoted (lit "true")]) []
  = Got (SSeq [SBool true; SBool false; SBool true]) [].
Proof. vm_compute. reflexivity. Qed.

Definition shape : ty := TStruct [(lit "id", TInt U8); (lit "kind", TEnum [(lit "Plain", VaUnit); (lit "Pair", VaTup [TBool; TStr])]); (lit "more", TOption TFloat)].
Definition node : yaml := Hash [HElem (mkHE (lit "kind") (mkA None (InlineHash [(lit "Pair", InlineArray [Unquoted (lit "yes"); Anchor (lit "q")])])));
  HElem (mkHE (lit "other") (mkA (Some (lit "r")) (Unquoted (lit "x")))); HElem (mkHE (lit "id") (mkA None (SingleQ [SQ_Str (lit "200")])))].
Example C81_derived_ex : derived shape node [(lit "q", Unquoted (lit "7"))] =
  Got (SStruct [(lit "id", SInt U8 200); (lit "kind", STupV (lit "Pair") [SBool true; SStr (lit "7")]); (lit "more", SNone)])
    [(lit "r", Unquoted (lit "x")); (lit "q", Unquoted (lit "7"))].
Proof. vm_compute. reflexivity. Qed.
Example C81_reads_ex : distinct shape /\ yields shape node [(lit "q", Unquoted (lit "7"))]
  (SStruct [(lit "id", SInt U8 200); (lit "kind", STupV (lit "Pair") [SBool true; SStr (lit "7")]); (lit "more", SNone)])
    [(lit "r", Unquoted (lit "x")); (lit "q", Unquoted (lit "7"))].
Proof.
  assert (D : distinct shape).
  { cbn. repeat split; repeat constructor; cbn; intros H; repeat destruct H as [H|H]; discriminate || contradiction. }
  split; [exact D|]. apply derived_yields; [exact D|]. vm_compute. reflexivity.
Qed.
Example C81_no_panic_ex : derived shape (Anchor (lit "p")) [(lit "p", Anchor (lit "p"))] = GErr [(lit "p", Anchor (lit "p"))].
Proof. vm_compute. reflexivity. Qed.
Example C81_names_ex : name_seed (DoubleQ [DQ_Str (lit "id")]) [] = Got (SStr (lit "id")) [].
Proof. vm_compute. reflexivity. Qed.
(** A visitor that tells null from a missing value. *)
Definition careful : visitor str :=
  mkV _ (fun _ => None) (fun _ => None) (fun _ => None) (fun _ => None) Some (Some (lit "unit")) (Some (lit "none"))
    (fun z a => Got (lit "some") a) (fun _ a => GErr a) (fun _ => WRefuse) (fun _ => Refuse) (fun _ => ReadNothing).
Example C81_scalars_ex : hears HOption (Unquoted (lit "~")) [] SayNone [] /\ returned careful SayNone = Some (Some (lit "none")) /\
  hears HAny (Unquoted (lit "~")) [] SayUnit [] /\ hears HOption (Unquoted (lit "7")) [] (SaySome (Unquoted (lit "7"))) [].
Proof. repeat split; apply ToldFacts.told_iff; vm_compute; reflexivity. Qed.
