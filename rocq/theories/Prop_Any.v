(** C75: what the untyped reader does with any tree. *)
From Coq Require Import ZArith.
From Verif Require Import Base Ast Num Ser De Spec_Serde Spec_Look Spec_Typed Spec_Attr Spec_Refs Spec_Reads Spec_Any AnyFacts AnyFacts2.
Import ListNotations.

(** Which value, and which labels are known then. *)
Theorem C75_value : forall y a v b, (exists k, de_any k y a = Done v b) <-> tells y a v b.
Proof. exact any_value. Qed.
Print Assumptions C75_value.

(** Its only error is a reference reached while its label is not known; there is only one
    such reference. *)
Theorem C75_error : forall y a, (exists k, de_any k y a = Failed) <-> exists n, lost y a n.
Proof. exact any_lost. Qed.
Print Assumptions C75_error.
Theorem C75_one_error : forall y a n m, lost y a n -> lost y a m -> n = m.
Proof. exact lost_one. Qed.
Print Assumptions C75_one_error.

(** How deep it recurses, exactly. *)
Theorem C75_levels : forall k y a, de_any k y a = More <-> exists x b, nested k y a x b.
Proof. exact any_levels. Qed.
Print Assumptions C75_levels.
Theorem C75_endless : forall y a, (forall k, de_any k y a = More) <-> endless y a.
Proof. exact any_endless. Qed.
Print Assumptions C75_endless.

(** Value, error and recursion without end exclude each other. *)
Theorem C75_one : forall y a v b, tells y a v b ->
  (forall w c, tells y a w c -> v = w /\ b = c) /\ (forall n, ~ lost y a n) /\ ~ endless y a.
Proof.
  exact (fun y a v b H => conj (fun w c G => tells_one y a v b w c H G)
    (conj (fun n => tells_not_lost y a v b n H) (ends y a (or_introl (ex_intro _ v (ex_intro _ b H)))))).
Qed.
Print Assumptions C75_one.

(** If no label has two values, it recurses without end exactly if, while a reference is
    read, a reference of the same name is reached. *)
Theorem C75_cycle : forall r, unique r -> (endless r [] <-> comes_back r []).
Proof. exact endless_iff. Qed.
Print Assumptions C75_cycle.

(** If that does not happen there is a value or an error, whether or not labels are unique;
    it does not happen if no value refers to itself, directly or not. *)
Theorem C75_ends : forall r, ~ comes_back r [] -> (exists v b, tells r [] v b) \/ (exists n, lost r [] n).
Proof. exact any_ends. Qed.
Print Assumptions C75_ends.
Theorem C75_acyclic : forall r, acyclic r -> ~ comes_back r [].
Proof. exact acyclic_back. Qed.
Print Assumptions C75_acyclic.

(** The levels that a reading that ends can have are bounded by the depth and the number of
    names referred to. *)
Theorem C75_bound : forall r names, unique r -> (forall n, refers r n -> In n names) ->
  de_any (S (length names) * depth r) r [] = More -> forall k, de_any k r [] = More.
Proof. exact any_bound. Qed.
Print Assumptions C75_bound.

(** With a redefined label a reference can come back without recursion without end: [x] is
    first a sequence that holds a new [x] and a reference to it. *)
Definition redefined : yaml :=
  Array [AElem (mkA None (Anchor (lit "x")));
         AElem (mkA (Some (lit "x")) (Array [AElem (mkA (Some (lit "x")) (Unquoted (lit "1"))); AElem (mkA None (Anchor (lit "x")))]))].
Theorem C75_redefined_refuted : exists r v b, comes_back r [] /\ tells r [] v b.
Proof.
  exists redefined. eexists _, _. split; [|apply C75_value; exists 9; vm_compute; reflexivity].
  exists (lit "x"), 1, 1. eexists _, _. split.
  - eapply NeStep; [|constructor]. eapply (NeIn redefined [] []); [reflexivity|constructor].
  - eapply NeStep; [apply NeRef; now exists [], []|]. eapply NeStep; [|constructor].
    eapply (NeIn _ _ [Unquoted (lit "1")]); [reflexivity|]. econstructor; [|constructor].
    apply C75_value. exists 1. reflexivity.
Qed.
Print Assumptions C75_redefined_refuted.

(** A value that is reached through two references, an unknown reference behind a value,
    and two values that refer to each other. *)
Definition item (al : option str) (y : yaml) : arraydata := AElem (mkA al y).
Definition through : yaml :=
  Array [item (Some (lit "p")) (InlineArray [Unquoted (lit "1")]); item (Some (lit "q")) (Anchor (lit "p")); item None (Anchor (lit "q"))].
Definition unknown : yaml :=
  Array [item None (Array [item (Some (lit "p")) (Unquoted (lit "1"))]); item None (Anchor (lit "p")); item None (Anchor (lit "z")); item None (Anchor (lit "y"))].
Definition mutual : yaml :=
  Array [item (Some (lit "p")) (InlineArray [Anchor (lit "q")]); item (Some (lit "q")) (InlineArray [Unquoted (lit "1"); Anchor (lit "p")])].
Example C75_value_ex : exists b, tells through [] (AnSeq [AnSeq [AnI64 1]; AnSeq [AnI64 1]; AnSeq [AnI64 1]]) b.
Proof. eexists. apply C75_value. exists 9. vm_compute. reflexivity. Qed.
Example C75_error_ex : lost unknown [] (lit "z") /\ ~ lost unknown [] (lit "y").
Proof.
  assert (H : lost unknown [] (lit "z")).
  { exists 1. eexists. split; [eapply NeStep; [|constructor]|].
    - eapply (NeIn unknown [] [Array [item (Some (lit "p")) (Unquoted (lit "1"))]; Anchor (lit "p")]); [reflexivity|].
      econstructor; [apply C75_value; exists 9; vm_compute; reflexivity|].
      econstructor; [apply C75_value; exists 9; vm_compute; reflexivity|constructor].
    - vm_compute. intuition discriminate. }
  split; [exact H|]. intros G. now pose proof (C75_one_error _ _ _ _ H G).
Qed.
Lemma mutual_unique : unique mutual.
Proof.
  assert (G : forall n y, defines mutual n y -> (n, y) = (lit "p", InlineArray [Anchor (lit "q")]) \/ (n, y) = (lit "q", InlineArray [Unquoted (lit "1"); Anchor (lit "p")])).
  { intros n y H. apply RefsFacts3.defs_in in H. destruct H as [H|[H|[]]]; [left|right]; now symmetry. }
  intros n y z H K. apply G in H, K. destruct H as [H|H], K as [K|K]; first [congruence|injection H as -> _; discriminate K].
Qed.
Example C75_cycle_ex : unique mutual /\ comes_back mutual [] /\ endless mutual [].
Proof.
  split; [exact mutual_unique|].
  assert (E : endless mutual []).
  { apply C75_endless. apply (C75_bound mutual [lit "q"; lit "p"] mutual_unique); [|vm_compute; reflexivity].
    intros n H. apply RefsFacts3.refs_in in H. exact H. }
  split; [|exact E]. now apply C75_cycle; [exact mutual_unique|].
Qed.
Example C75_acyclic_ex : acyclic through /\ exists x b, nested 4 through [] x b.
Proof.
  split.
  - exists (fun n => if seqb n (lit "q") then 1 else 0). intros n y m H F. apply RefsFacts3.defs_in in H. apply RefsFacts3.refs_in in F.
    destruct H as [H|[H|[]]]; injection H as <- <-; [destruct F as []|]. destruct F as [<-|[]]. vm_compute. auto.
  - apply C75_levels. vm_compute. reflexivity.
Qed.
