(** C72: what a build without overflow checks (cargo's release profile) reads differently. *)
From Verif Require Import Base Ast Peg PegFacts YamlGrammar Consume Release Spec_Panic Spec_Release ReleaseFacts Prop_Panic.
Import ListNotations.

(** A file the debug build reads is read the same. *)
Theorem C72_same : forall ut s d, parse_yaml ut s = CVal d -> parse_yaml_release ut s = CVal d.
Proof. exact parse_release_same. Qed.
Print Assumptions C72_same.

(** The same files are errors. *)
Theorem C72_errors : forall ut s, parse_yaml_release ut s = CErr <-> parse_yaml ut s = CErr.
Proof. exact parse_release_err. Qed.
Print Assumptions C72_errors.

(** It panics where the debug build does, but for the spared block scalars. *)
Theorem C72_panics : forall ut s, parse_yaml_release ut s = CPanic <->
  exists t n rest k m, runs (yaml_grammar ut) true (PRule y_yaml) s [] (Ok t [n] rest k) /\ below n m /\ bad_block m /\ ~ spared m.
Proof. exact parse_release_panics. Qed.
Print Assumptions C72_panics.

(** So it reads more exactly when there are bad blocks and all of them are spared. *)
Theorem C72_more : forall ut s, ((exists d, parse_yaml_release ut s = CVal d) /\ parse_yaml ut s = CPanic) <->
  exists t n rest k, runs (yaml_grammar ut) true (PRule y_yaml) s [] (Ok t [n] rest k) /\
    (exists m, below n m /\ bad_block m) /\ (forall m, below n m -> bad_block m -> spared m).
Proof. exact parse_release_only. Qed.
Print Assumptions C72_more.

(** The two builds do not agree on every text. *)
Theorem C72_agree_refuted : exists ut s d, parse_yaml ut s = CPanic /\ parse_yaml_release ut s = CVal d.
Proof.
  exists some_tables, (doc_of (lit "|0") (lit " ")), (mkDoc [] [DYaml (Hash [HElem (mkHE (lit "k") (mkA None (Literal [[]] Clip)))])]).
  split; vm_compute; reflexivity.
Qed.
Print Assumptions C72_agree_refuted.

Example C72_same_ex : exists d, parse_yaml some_tables (doc_of (lit "|2") (lit "  a")) = CVal d /\
  parse_yaml_release some_tables (doc_of (lit "|2") (lit "  a")) = CVal d.
Proof. eexists. split; [vm_compute; reflexivity|]. apply C72_same. vm_compute. reflexivity. Qed.
Example C72_errors_ex : parse_yaml_release some_tables (doc_of (lit "|0") []) = CErr.
Proof. apply C72_errors. vm_compute. reflexivity. Qed.
(** Text on a line after the indicator 0; an indicator that is no decimal number. *)
Example C72_panics_ex : forall s, In s [doc_of (lit "|0") (lit "  a"); doc_of (lit "|" ++ [178%N]) (lit " ")] ->
  exists t n rest k m, runs (yaml_grammar some_tables) true (PRule y_yaml) s [] (Ok t [n] rest k) /\ below n m /\ bad_block m /\ ~ spared m.
Proof. intros s H. apply C72_panics. cbn [In] in H. repeat destruct H as [<-|H]; try contradiction; vm_compute; reflexivity. Qed.
Example C72_more_ex : forall s, In s [doc_of (lit "|0") (lit " "); doc_of (lit ">-00") ([NL] ++ lit " ")] ->
  exists t n rest k, runs (yaml_grammar some_tables) true (PRule y_yaml) s [] (Ok t [n] rest k) /\
    (exists m, below n m /\ bad_block m) /\ (forall m, below n m -> bad_block m -> spared m).
Proof.
  intros s H. apply C72_more. cbn [In] in H.
  repeat destruct H as [<-|H]; try contradiction; (split; [eexists|]; vm_compute; reflexivity).
Qed.
