(** The same for documents. *)
From Verif Require Import Base Ast Strings Path Insert Spec_Edit Spec_Insert Spec_Compose InsertFacts5 ComposeFacts2 ComposeFacts3.
Import ListNotations.
Notation insert_doc := insert_into_hash_doc.
Notation remove_doc := remove_from_hash_doc.
Lemma doc_insert p h ow d : doc_result (insert_into_hash p h ow) d (fst (insert_doc p h ow d), snd (insert_doc p h ow d)).
Proof. rewrite <- surjective_pairing. apply doc_edit. Qed.
Lemma doc_remove p d : doc_result (remove_from_hash p) d (fst (remove_doc p d), snd (remove_doc p d)).
Proof. rewrite <- surjective_pairing. apply doc_edit. Qed.
Lemma doc_rename p n d : doc_result (rename_field p n) d (fst (rename_field_doc p n d), snd (rename_field_doc p n d)).
Proof. rewrite <- surjective_pairing. apply doc_for_hash. Qed.
(** An operation that has the trees of another and its own counts. *)
Lemma doc_mix op1 op2 d n1 d1 n2 d2 : doc_result op1 d (n1, d1) -> doc_result op2 d (n2, d2) ->
  doc_result (fun y => (fst (op1 y), snd (op2 y))) d (n1, d2).
Proof. intros (L1 & I1 & C1) (L2 & I2 & C2). now repeat split. Qed.
Lemma doc_none op d n1 d1 : doc_result op d (n1, d1) -> doc_result (fun y => (0, snd (op y))) d (0, d1).
Proof.
  intros (L1 & I1 & C1). repeat split; auto. cbn [fst snd]. clear. induction (items d) as [|[c|y] l IH]; cbn in *; auto.
Qed.
Lemma doc_same op d n1 d1 : doc_result op d (n1, d1) -> doc_result (fun y => (fst (op y), y)) d (n1, d).
Proof.
  intros (L1 & I1 & C1). repeat split; auto. cbn [fst snd]. clear. induction (items d) as [|[c|y] l IH]; cbn in *; congruence.
Qed.
Lemma pair_eq {A B} (x : A * B) a b : fst x = a /\ snd x = b -> x = (a, b).
Proof. destruct x. cbn. intros [-> ->]. reflexivity. Qed.
Theorem documents p d : indexes_distinct p ->
  (forall h h2 ow, ow = false \/ avoids p ->
     let d1 := snd (insert_doc p h ow d) in
     insert_doc p h2 false d1 = (0, d1)
     /\ insert_doc p h2 true d1 = insert_doc p h2 true d
     /\ remove_doc p d1 = (fst (insert_doc p h true d), snd (remove_doc p d)))
  /\ ((forall y, In (DYaml y) (items d) -> unique_keys y) ->
      let d1 := snd (remove_doc p d) in remove_doc p d1 = (0, d1))
  /\ (forall k n, last_key p = Some k -> unconditional p k -> unconditional p n ->
      (forall y, In (DYaml y) (items d) -> inline_ok y = true /\ find_values (with_key n p) y = []) ->
      rename_field_doc (with_key n p) k (snd (rename_field_doc p n d)) = (fst (rename_field_doc p n d), d))
  /\ (forall k1 k2, last_key p = Some k1 -> k1 <> k2 -> unconditional p k1 -> unconditional p k2 ->
      let q := with_key k2 p in
      snd (remove_doc q (snd (remove_doc p d))) = snd (remove_doc p (snd (remove_doc q d)))
      /\ forall h ow, snd (remove_doc q (snd (insert_doc p h ow d))) = snd (insert_doc p h ow (snd (remove_doc q d)))).
Proof.
  intros Hd. split; [|split; [|split]].
  - intros h h2 ow Ho d1. split; [|split].
    + apply pair_eq. eapply doc_unique.
      * apply (doc_then _ _ _ _ _ _ _ (doc_insert p h ow d) (doc_insert p h2 false d1)). intros y _. apply insert_again; assumption.
      * apply (doc_none _ _ _ _ (doc_insert p h ow d)).
    + rewrite (surjective_pairing (insert_doc p h2 true d)). apply pair_eq. eapply doc_unique; [|apply doc_insert].
      apply (doc_then _ _ _ _ _ _ _ (doc_insert p h ow d) (doc_insert p h2 true d1)). intros y _. apply overwrite_wins; assumption.
    + apply pair_eq. eapply doc_unique; [|exact (doc_mix _ _ _ _ _ _ _ (doc_insert p h true d) (doc_remove p d))].
      apply (doc_then _ _ _ _ _ _ _ (doc_insert p h ow d) (doc_remove p d1)). intros y _. apply insert_then_remove; assumption.
  - intros Hu d1. apply pair_eq. eapply doc_unique.
    + apply (doc_then _ _ _ _ _ _ _ (doc_remove p d) (doc_remove p d1)). intros y Hy. apply remove_again; auto.
    + apply (doc_none _ _ _ _ (doc_remove p d)).
  - intros k n Lk U1 U2 Hy. apply pair_eq. eapply doc_unique; [|exact (doc_same _ _ _ _ (doc_rename p n d))].
    apply (doc_then _ _ _ _ _ _ _ (doc_rename p n d) (doc_rename _ _ _)). intros y Hin. destruct (Hy y Hin). now apply rename_back.
  - intros k1 k2 Lk N U1 U2 q. split.
    + pose proof (doc_then _ _ _ _ _ _ _ (doc_remove p d) (doc_remove q _) _ (fun y _ => removes_swap p k1 k2 y Lk N Hd U1 U2)) as A.
      pose proof (doc_then _ _ _ _ _ _ _ (doc_remove q d) (doc_remove p _) _ (fun y _ => eq_refl)) as B.
      exact (proj2 (doc_unique _ _ _ _ _ _ A (doc_mix _ _ _ _ _ _ _ (doc_remove q d) B))).
    + intros h ow.
      pose proof (doc_then _ _ _ _ _ _ _ (doc_insert p h ow d) (doc_remove q _) _ (fun y _ => proj1 (insert_remove_swap p k1 k2 h ow y Lk N Hd U1 U2))) as A.
      pose proof (doc_then _ _ _ _ _ _ _ (doc_remove q d) (doc_insert p h ow _) _ (fun y _ => eq_refl)) as B.
      exact (proj2 (doc_unique _ _ _ _ _ _ A (doc_mix _ _ _ _ _ _ _ (doc_remove q d) B))).
Qed.
