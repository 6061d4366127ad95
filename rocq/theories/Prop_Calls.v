(** C76: impls of [Serialize] that call the methods of a map in any order. *)
From Coq Require Import ZArith.
From Verif Require Import Base Ast Ser Peg SerCalls Spec_Serde Spec_Typed Spec_Ser Spec_Calls CallsFacts.
Import ListNotations.

(** What the calls make, exactly. *)
Theorem C76_value : forall p y, run p = CVal y <-> makes p y.
Proof. exact run_iff. Qed.
Print Assumptions C76_value.

(** The serializer panics exactly if the first call that does not go well is a value without
    a key. *)
Theorem C76_panic : forall p, run p = CPanic <-> misuses p.
Proof. exact panic_iff. Qed.
Print Assumptions C76_panic.
Theorem C76_safe : forall p, orderly p -> run p <> CPanic.
Proof. exact (fun p O R => orderly_safe p O (proj1 (panic_iff p) R)). Qed.
Print Assumptions C76_safe.

(** Derived impls and those of std make what [Ser.v] says and never panic. *)
Theorem C76_derived : forall v, orderly (calls_of v) /\
  run (calls_of v) = match ser v with Some y => CVal y | None => CErr end.
Proof. exact (fun v => conj (calls_orderly v) (calls_ser v)). Qed.
Print Assumptions C76_derived.

(** Two keys are dropped: one that another key follows, and the last. *)
Definition text (s : String.string) : script := QOne (SStr (lit s)).
Definition sloppy : script := QMap [(true, text "a"); (true, text "b"); (false, QSeq [text "1"]); (true, text "c")].
Example C76_value_ex : orderly sloppy /\
  makes sloppy (Hash [HElem (mkHE (lit "b") (mkA None (Array [AElem (mkA None (SingleQ [SQ_Str (lit "1")]))])))]).
Proof.
  split; [|apply C76_value; vm_compute; reflexivity].
  constructor; [|repeat constructor]. apply in_turn_iff.
  do 2 (apply turn_cons; split; [discriminate|]). apply turn_cons; split; [reflexivity|]. apply turn_cons; split; [discriminate|].
  intros [|c l] q l2 E; discriminate.
Qed.
(** Two values for one key; a bad key before them is reported instead. *)
Example C76_panic_ex :
  misuses (QTuple [text "x"; QMap [(true, text "a"); (false, text "b"); (false, QMap [(true, text "k: v")])]]) /\
  ~ misuses (QMap [(true, text "k: v"); (false, text "b"); (false, text "c")]).
Proof. rewrite <- !C76_panic. split; [vm_compute; reflexivity|vm_compute; discriminate]. Qed.
Example C76_derived_ex : calls_of (SMap [(SStr (lit "a"), SSome (SBool true)); (SInt I8 1, SUnit)]) =
  QMap [(true, text "a"); (false, QOne (SBool true)); (true, QOne (SInt I8 1)); (false, QOne SUnit)].
Proof. reflexivity. Qed.

(** A key can be lost without an error. *)
Theorem C76_lost_key_refuted : exists k l y, run (QMap ((true, k) :: l)) = CVal y /\ run (QMap l) = CVal y /\ k = text "a".
Proof. exists (text "a"), [(true, text "b"); (false, text "c")]. eexists. repeat split; vm_compute; reflexivity. Qed.
Print Assumptions C76_lost_key_refuted.
