(** C67: exactly which texts are paths, which are errors and which panic. *)
From Verif Require Import Base Path Peg PathGrammar Spec_Insert Spec_Path Spec_Syntax PathExact4 PathExact5.
Import ListNotations.

Theorem C67_path : forall s p, parse_path_res s = CVal p <-> path_text s p.
Proof. exact path_iff. Qed.
Print Assumptions C67_path.

Theorem C67_error : forall s, parse_path_res s = CErr <-> ~ loose_path s.
Proof. exact error_iff. Qed.
Print Assumptions C67_error.

Theorem C67_panic : forall s, parse_path_res s = CPanic <-> loose_path s /\ ~ exists p, path_text s p.
Proof. exact panic_iff. Qed.
Print Assumptions C67_panic.

Theorem C67_panic_cause : forall s, parse_path_res s = CPanic -> In SP s \/ big_index s.
Proof. exact panic_cause. Qed.
Print Assumptions C67_panic_cause.

(** A name, an index, a condition and a second name. *)
Example C67_path_ex : path_text (lit "a b[07]|k==v.c")
  (PKey (lit "a b") [] (Some (PIdx [7] [mkC (lit "k") (lit "=v")] (Some (PKey (lit "c") [] None))))).
Proof. apply C67_path. vm_compute. reflexivity. Qed.
(** Spaces before the first name are part of it, even when a dot follows. *)
Example C67_first_ex : path_text (lit " .a") (PKey (lit " .a") [] None).
Proof. apply C67_path. vm_compute. reflexivity. Qed.
Example C67_error_ex : ~ loose_path (lit "a[0]b") /\ ~ loose_path (lit "a..b") /\ ~ loose_path (lit "a[x]").
Proof. repeat split; apply C67_error; vm_compute; reflexivity. Qed.
(** A space before a bracket, after a dot and inside brackets. *)
Example C67_panic_ex : forall s, In s [lit "ab [0]"; lit "a. b"; lit "a[ 0]"; lit " "; lit "a[18446744073709551616]"] ->
  loose_path s /\ ~ exists p, path_text s p.
Proof. intros s H. apply C67_panic. cbn in H. repeat destruct H as [<-|H]; try contradiction; vm_compute; reflexivity. Qed.
Example C67_panic_cause_ex : parse_path_res (lit "a[18446744073709551616]") = CPanic /\ ~ In SP (lit "a[18446744073709551616]").
Proof. split; [vm_compute; reflexivity|]. intros H. repeat (destruct H as [H|H]; [discriminate H|]). exact H. Qed.
