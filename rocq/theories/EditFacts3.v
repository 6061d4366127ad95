(** Edited documents without comments are written and read back. *)
From Verif Require Import Base Ast Path Strings Peg YamlGrammar PathGrammar Consume Format Insert Spec_Insert InsertFacts4 InsertFacts5
  Spec_Path PathFacts Spec_Parse Spec_Format FormatTree Spec_Stable StableFacts Spec_Edit EditFacts EditFacts2 Spec_Rearrange.
Import ListNotations.

Section Loops.
Context {A : Type} (add : A -> A -> A) (okA : A -> Prop) (ok_add : forall a b, okA a -> okA b -> okA (add a b)).

Lemma all_loop_ok {X : Type} (g : X -> option (A * X)) (R : X -> X -> Prop) :
  (forall x, R x x) -> forall l, (forall x a x', In x l -> g x = Some (a, x') -> okA a /\ R x x') ->
  forall acc, okA acc -> okA (fst (all_loop add g acc l)) /\ Forall2 R l (snd (all_loop add g acc l)).
Proof.
  intros H1 l. induction l as [|x l IH]; intros H2 acc K; cbn [all_loop]; [split; [exact K|constructor]|].
  specialize (IH (fun x a x' I => H2 x a x' (or_intror I))). specialize (H2 x).
  destruct (g x) as [[a x']|] eqn:E.
  - destruct (H2 a x' (or_introl eq_refl) eq_refl) as [H3 H4]. destruct (IH (add acc a) (ok_add _ _ K H3)) as [I1 I2].
    destruct (all_loop _ _ _ l) as [b l2]. cbn in *. split; [exact I1|constructor; assumption].
  - destruct (IH acc K) as [I1 I2]. destruct (all_loop _ _ _ l) as [b l2]. cbn in *. split; [exact I1|constructor; auto].
Qed.

Lemma idx_loop_ok {X L : Type} (get : nat -> L -> option X) (set : nat -> X -> L -> L)
  (g : X -> option (A * X)) (P : L -> Prop) :
  (forall i x a x' l, P l -> get i l = Some x -> g x = Some (a, x') -> okA a /\ P (set i x' l)) ->
  forall is_ acc l, okA acc -> P l ->
  okA (fst (idx_loop add get set g is_ acc l)) /\ P (snd (idx_loop add get set g is_ acc l)).
Proof.
  intros H is_. induction is_ as [|i is_ IH]; intros acc l K Hl; cbn [idx_loop]; [now split|].
  destruct (get i l) as [x|] eqn:E1; [|now apply IH].
  destruct (g x) as [[a x']|] eqn:E2; [|now apply IH]. destruct (H i x a x' l Hl E1 E2). apply IH; auto.
Qed.
End Loops.

(** The kind of a collection; other values as they are. *)
Definition same_kind (y y' : yaml) : Prop :=
  match y, y' with
  | Hash _, Hash _ | Array _, Array _ => True
  | _, _ => y' = y
  end.
Lemma same_kind_refl y : same_kind y y.
Proof. destruct y; cbn; auto. Qed.

Section Parts.
Context (ut : unitab) (G : str -> yaml -> Prop)
  (HG : forall k v v', same_kind v v' -> G k v -> G k v').

(** [pieces] with a condition on the entries of mappings. *)
Fixpoint parts (o : bool) (y : yaml) : Prop :=
  match y with
  | Hash l => fold_right (fun d Q => (match d with
                                      | HElem (mkHE k (mkA al v)) =>
                                          (G k v /\ plain_key ut k) /\ alias_canon ut al /\ parts (on_line false al) v
                                      | _ => False
                                      end) /\ Q) True l
  | Array l => (l <> [] /\ (o = true -> 2 <= length l)) /\
      fold_right (fun d Q => (match d with AElem (mkA al v) => alias_canon ut al /\ parts true v | _ => False end) /\ Q) True l
  | Literal ls _ | Folded ls _ => block_lines ls
  | _ => flow_canon ut y
  end.
Definition hpart (d : hashdata) : Prop :=
  match d with HElem (mkHE k (mkA al v)) => (G k v /\ plain_key ut k) /\ alias_canon ut al /\ parts (on_line false al) v | _ => False end.
Definition epart (d : arraydata) : Prop :=
  match d with AElem (mkA al v) => alias_canon ut al /\ parts true v | _ => False end.

Lemma parts_hash o l : parts o (Hash l) <-> Forall hpart l.
Proof. exact (fold_Forall hpart l). Qed.
Lemma parts_array o l : parts o (Array l) <-> (l <> [] /\ (o = true -> 2 <= length l)) /\ Forall epart l.
Proof. rewrite <- (fold_Forall epart l). reflexivity. Qed.

Definition Gnode (y : yaml) : Prop :=
  match y with Hash l => forall k al v, In (HElem (mkHE k (mkA al v))) l -> G k v | _ => True end.

Lemma parts_pieces : forall y o, parts o y -> pieces ut o y.
Proof.
  apply (yaml_ind' (fun y => forall o, parts o y -> pieces ut o y)); try (intros; assumption).
  - intros l H o P. apply pieces_hash. apply parts_hash in P. induction H as [|d l Hd _ IH]; [constructor|].
    inversion P; subst. constructor; [|auto]. destruct d as [c|c|[k [al v]]]; auto. destruct H1 as ((? & ?) & ? & ?).
    split; [assumption|]. split; [assumption|]. now apply Hd.
  - intros l H o P. apply pieces_array. apply parts_array in P. destruct P as [P1 P]. split; [exact P1|]. clear P1.
    induction H as [|d l Hd _ IH]; [constructor|].
    inversion P; subst. constructor; [|auto]. destruct d as [c|c|[al v]]; auto. destruct H1 as (? & ?).
    split; [assumption|]. now apply Hd.
Qed.
Lemma pieces_parts : forall y o, pieces ut o y -> everywhere Gnode y -> parts o y.
Proof.
  apply (yaml_ind' (fun y => forall o, pieces ut o y -> everywhere Gnode y -> parts o y)); try (intros; assumption).
  - intros l H o P [N W]. apply parts_hash. apply pieces_hash in P. apply fold_Forall in W. cbn in N.
    induction H as [|d l Hd _ IH]; [constructor|].
    inversion P; inversion W; subst. constructor; [|apply IH; auto; intros; eapply N; right; eassumption].
    destruct d as [c|c|[k [al v]]]; auto. destruct H1 as (? & ? & ?).
    split; [split; [eapply N; now left|assumption]|]. split; [assumption|]. now apply Hd.
  - intros l H o P [N W]. apply parts_array. apply pieces_array in P. destruct P as [P1 P]. split; [exact P1|]. clear P1 N. apply fold_Forall in W.
    induction H as [|d l Hd _ IH]; [constructor|].
    inversion P; inversion W; subst. constructor; [|auto]. destruct d as [c|c|[al v]]; auto. destruct H1 as (? & ?).
    split; [assumption|]. now apply Hd.
Qed.

Lemma inline_kind y : inline_canon ut y -> forall l, y <> Hash l.
Proof. intros I l ->. destruct I. Qed.

(** ---- edits of entry lists ---- *)
Section Structural.
Context (f : list hashdata -> str -> option nat -> nat * list hashdata).

Lemma edit_parts : forall p,
  (forall data k, last_key p = Some k -> Forall hpart data -> Forall hpart (snd (f data k (key_index data k)))) ->
  forall o y, parts o y -> parts o (snd (edit_hash f p y)) /\ same_kind y (snd (edit_hash f p y)).
Proof.
  fix IH 1. intros [cs|k cs rest|cs rest|is_ cs rest] Hf o y P.
  - split; [exact P|apply same_kind_refl].
  - cbn [edit_hash]. destruct (fits_conditions y cs); [|split; [exact P|apply same_kind_refl]].
    destruct y as [|data| | | | | | | |]; try (split; [exact P|apply same_kind_refl]). destruct rest as [q|].
    + destruct (key_index data k) as [i|]; [|now split]. destruct (nth_error data i) as [d|] eqn:N; [|now split].
      destruct d as [c|c|[k' [al v]]]; [now split..|]. unfold edit_value. cbn [a_value he_value he_key a_alias].
      apply parts_hash in P.
      assert (D : hpart (HElem (mkHE k' (mkA al v)))) by (rewrite Forall_forall in P; apply P; now apply nth_error_In in N).
      destruct D as ((D0 & D1) & D2 & D3). destruct (IH q Hf _ _ D3) as [E1 E2].
      destruct (edit_hash f q v) as [n v']. cbn [snd] in *. split; [|exact I].
      apply parts_hash, set_nth_Forall; [exact P|]. split; [split; [eapply HG; eassumption|assumption]|split; assumption].
    + apply parts_hash in P. specialize (Hf data k eq_refl P). destruct (f data k _) as [n data']. cbn [snd] in *.
      split; [now apply parts_hash|exact I].
  - destruct rest as [q|]; [|split; [exact P|apply same_kind_refl]].
    destruct y as [| |els|els| | | | | |]; try (split; [exact P|apply same_kind_refl]).
    + rewrite (edit_inline ut); [|exact P]. split; [exact P|apply same_kind_refl].
    + cbn [edit_hash]. apply parts_array in P. destruct P as [[P1 P2] P3].
      match goal with |- context [all_loop ?a ?g 0 els] =>
        pose proof (all_loop_rel _ a g (fun x x' => epart x -> epart x') (fun x H => H) els) as X;
        cut (Forall2 (fun x x' => epart x -> epart x') els (snd (all_loop a g 0 els))) end.
      { destruct (all_loop _ _ 0 els) as [n els']. cbn [snd]. intros F. split; [|exact I]. apply parts_array.
        assert (E : length els = length els') by (clear -F; induction F; cbn; auto). split; [split|].
        - destruct els; [congruence|]. destruct els'; [discriminate|discriminate].
        - intros O. rewrite <- E. auto.
        - clear - F P3. induction F; inversion P3; subst; constructor; auto. }
      apply X. intros [c|c|[al v]] a x' _ H; try discriminate. cbn [a_value] in H.
      destruct (fits_conditions v cs); [|discriminate]. unfold edit_value in H. cbn [a_value a_alias] in H. pose proof (IH q Hf true v) as K.
      destruct (edit_hash f q v) as [n v']. cbn [snd] in *. injection H as <- <-. intros [D1 D2]. split; [assumption|]. now apply K.
  - destruct rest as [q|]; [|split; [exact P|apply same_kind_refl]].
    destruct y as [| |els|els| | | | | |]; try (split; [exact P|apply same_kind_refl]).
    + rewrite (edit_inline ut); [|exact P]. split; [exact P|apply same_kind_refl].
    + cbn [edit_hash]. apply parts_array in P.
      match goal with |- context [idx_loop ?a ?b ?c ?d ?e ?g ?h] =>
        pose proof (idx_loop_inv _ a b c d (fun l => (l <> [] /\ (o = true -> 2 <= length l)) /\ Forall epart l)) as X;
        specialize (fun Z => X Z e g h P) end.
      match type of X with ?A -> _ => assert (Z : A) end.
      { intros i [al v] a x' l [[L1 L2] L3] E H. cbn [a_value a_alias] in H.
        destruct (fits_conditions v cs); [|discriminate]. unfold edit_value in H. cbn [a_value a_alias] in H.
        pose proof (get_elem_Forall epart _ _ _ L3 E) as [D1 D2]. apply (IH q Hf) in D2.
        destruct (edit_hash f q v) as [n v']. cbn [snd] in *. injection H as <- <-. rewrite set_elem_length. split; [split|].
        - intros Y0. pose proof (set_elem_length l i (mkA al v')) as Y. rewrite Y0 in Y. destruct l; [congruence|discriminate].
        - exact L2.
        - apply set_elem_Forall; [exact L3|]. split; [assumption|apply D2]. }
      specialize (X Z). destruct (idx_loop _ _ _ _ is_ 0 els) as [n els']. split; [|exact I]. apply parts_array. exact X.
Qed.
End Structural.

Lemma remove_parts p o y : parts o y -> parts o (snd (remove_from_hash p y)) /\ same_kind y (snd (remove_from_hash p y)).
Proof.
  apply edit_parts. intros data k _ P. unfold remove_f. destruct (key_index data k); cbn [snd]; [now apply remove_nth_Forall|exact P].
Qed.
Lemma insert_parts p k h ow o y : last_key p = Some k -> hpart (HElem (mkHE k h)) ->
  parts o y -> parts o (snd (insert_into_hash p h ow y)) /\ same_kind y (snd (insert_into_hash p h ow y)).
Proof.
  intros L H. apply edit_parts. intros data k' E P. rewrite L in E. injection E as <-. unfold insert_f.
  destruct (key_index data k) as [i|]; [destruct ow|]; cbn [snd]; [now apply set_nth_Forall|exact P|].
  apply Forall_app. split; [exact P|constructor; [exact H|constructor]].
Qed.

(** ---- edits below a path ---- *)
Section Single.
Context {A : Type} (zero : A) (add : A -> A -> A) (okA : A -> Prop)
  (ok0 : okA zero) (ok_add : forall a b, okA a -> okA b -> okA (add a b)).
Context (f : hash_element -> A * hash_element) (r : yaml -> A * yaml).

(** What is asked of an operation on values. *)
Definition fine (g : yaml -> A * yaml) : Prop :=
  (forall o y, parts o y -> okA (fst (g y)) /\ parts o (snd (g y)) /\ same_kind y (snd (g y)))
  /\ (forall y, inline_canon ut y -> okA (fst (g y)) /\ snd (g y) = y).

Context (Hr : fine r).
Context (Hf : forall e, hpart (HElem e) -> okA (fst (f e)) /\ hpart (HElem (snd (f e)))).

Lemma idx_step_fine_inline sel cs elem : forall n y, inline_canon ut y ->
  okA (fst (idx_step zero add sel cs elem n y)) /\ snd (idx_step zero add sel cs elem n y) = y.
Proof.
  induction n as [|n IH]; intros y J; destruct y as [| |els|els| | | | | |]; try (split; [exact ok0|reflexivity]); try destruct J.
  cbn [idx_step]. apply inline_parts in J. rewrite Forall_forall in J. destruct sel as [is_|].
  - match goal with |- context [idx_loop ?a ?b ?c ?d ?e ?g ?h] =>
      pose proof (idx_loop_ok a okA ok_add b c d (fun l => l = els)) as X;
      cut (okA (fst (idx_loop a b c d e g h)) /\ snd (idx_loop a b c d e g h) = els) end.
    { destruct (idx_loop _ _ _ _ is_ zero els) as [m els']. cbn. intros [O ->]. now split. }
    apply X; [|exact ok0|reflexivity]. intros i x a x' l -> E H. destruct (fits_conditions x cs); [|discriminate]. injection H as H.
    pose proof (IH x (J x (nth_error_In _ _ E))) as [O Y]. rewrite H in O, Y. cbn in O, Y. subst x'. split; [exact O|now apply set_nth_same].
  - match goal with |- context [all_loop ?a ?g zero els] =>
      pose proof (all_loop_ok a okA ok_add g eq (fun x => eq_refl) els) as X;
      cut (okA (fst (all_loop a g zero els)) /\ Forall2 eq els (snd (all_loop a g zero els))) end.
    { destruct (all_loop _ _ zero els) as [m els']. cbn. intros [O Y]. now rewrite (Forall2_eq _ _ Y). }
    apply X; [|exact ok0]. intros x a x' Hx H. destruct (fits_conditions x cs); [|discriminate]. injection H as H.
    pose proof (IH x (J x Hx)) as [O Y]. rewrite H in O, Y. split; [exact O|now symmetry].
Qed.

Lemma idx_step_fine sel cs elem : fine elem -> forall n o y, parts o y ->
  okA (fst (idx_step zero add sel cs elem n y)) /\ parts o (snd (idx_step zero add sel cs elem n y))
  /\ same_kind y (snd (idx_step zero add sel cs elem n y)).
Proof.
  intros HE n o y P. destruct y as [| |els|els| | | | | |];
    try (destruct n; (split; [exact ok0|split; [exact P|apply same_kind_refl]])).
  - destruct (idx_step_fine_inline sel cs elem n (InlineArray els) P) as [O ->]. split; [exact O|split; [exact P|apply same_kind_refl]].
  - assert (Q : forall al v a e', on_value elem (mkA al v) = (a, e') -> epart (AElem (mkA al v)) -> okA a /\ epart (AElem e')).
    { intros al v a e' H [D1 D2]. unfold on_value in H. cbn [a_value a_alias] in H. destruct (proj1 HE _ _ D2) as (E1 & E2 & E3).
      destruct (elem v) as [m v']. injection H as <- <-. split; [exact E1|split; assumption]. }
    replace (idx_step zero add sel cs elem n (Array els)) with (idx_step zero add sel cs elem 0 (Array els)) by (now destruct n).
    cbn [idx_step]. apply parts_array in P. destruct sel as [is_|].
    + match goal with |- context [idx_loop ?a ?b ?c ?d ?e ?g ?h] =>
        pose proof (idx_loop_ok a okA ok_add b c d (fun l => (l <> [] /\ (o = true -> 2 <= length l)) /\ Forall epart l)) as X;
        specialize (fun Z => X Z e g h ok0 P) end.
      match type of X with ?A -> _ => assert (Z : A) end.
      { intros i [al v] a x' l [[L1 L2] L3] E H. cbn [a_value a_alias] in H.
        destruct (fits_conditions v cs); [|discriminate]. injection H as H.
        destruct (Q _ _ _ _ H (get_elem_Forall epart _ _ _ L3 E)) as [Q1 Q2].
        split; [exact Q1|]. rewrite set_elem_length. split; [split|].
        - intros Y0. pose proof (set_elem_length l i x') as Y. rewrite Y0 in Y. destruct l; [congruence|discriminate].
        - exact L2.
        - now apply set_elem_Forall. }
      specialize (X Z). destruct (idx_loop _ _ _ _ is_ zero els) as [m els']. destruct X as [O X]. split; [exact O|].
      split; [now apply parts_array|exact I].
    + destruct P as [[P1 P2] P3].
      match goal with |- context [all_loop ?a ?g zero els] =>
        pose proof (all_loop_ok a okA ok_add g (fun x x' => epart x -> epart x') (fun x H => H) els) as X;
        cut (okA (fst (all_loop a g zero els)) /\ Forall2 (fun x x' => epart x -> epart x') els (snd (all_loop a g zero els))) end.
      { destruct (all_loop _ _ zero els) as [n' els']. cbn [fst snd]. intros [O F]. split; [exact O|]. split; [|exact I]. apply parts_array.
        assert (E : length els = length els') by (clear -F; induction F; cbn; auto). split; [split|].
        - destruct els; [congruence|]. destruct els'; [discriminate|discriminate].
        - intros O'. rewrite <- E. auto.
        - clear - F P3. induction F; inversion P3; subst; constructor; auto. }
      apply X; [|exact ok0]. intros [c|c|[al v]] a x' Hx H; try discriminate. cbn [a_value] in H.
      destruct (fits_conditions v cs); [|discriminate]. destruct (on_value elem (mkA al v)) as [m e'] eqn:E. injection H as <- <-.
      rewrite Forall_forall in P3. destruct (Q _ _ _ _ E (P3 _ Hx)). now split.
Qed.

Lemma for_fine : forall p, fine (for_hash zero add f r p).
Proof.
  fix IH 1. intros [cs|k cs rest|cs rest|is_ cs rest]; split; intros.
  - cbn. destruct (fits_conditions y cs); [now apply Hr|]. split; [exact ok0|split; [assumption|apply same_kind_refl]].
  - cbn. destruct (fits_conditions y cs); [now apply Hr|]. now split.
  - rename H into P. cbn [for_hash]. destruct (fits_conditions y cs); [|split; [exact ok0|split; [exact P|apply same_kind_refl]]].
    destruct y as [|data| | | | | | | |]; try (split; [exact ok0|split; [exact P|apply same_kind_refl]]).
    destruct (key_index data k) as [i|]; [|now split]. destruct (nth_error data i) as [d|] eqn:N; [|now split].
    destruct d as [c|c|e]; [now split..|]. apply parts_hash in P.
    assert (D : hpart (HElem e)) by (rewrite Forall_forall in P; apply P; now apply nth_error_In in N).
    assert (S : forall a e', okA a -> hpart (HElem e') ->
      okA (fst (a, Hash (set_nth i (HElem e') data))) /\ parts o (snd (a, Hash (set_nth i (HElem e') data)))
      /\ same_kind (Hash data) (snd (a, Hash (set_nth i (HElem e') data)))).
    { intros a e' H1 H2. split; [exact H1|]. split; [|exact I]. cbn [snd]. now apply parts_hash, set_nth_Forall. }
    destruct rest as [q|].
    + destruct e as [k' [al v]]. unfold on_value. cbn [a_value he_value he_key a_alias].
      destruct D as ((D0 & D1) & D2 & D3). destruct (proj1 (IH q) _ _ D3) as (E1 & E2 & E3).
      destruct (for_hash zero add f r q v) as [n v']. cbn [fst snd] in E1, E2, E3.
      apply S; [exact E1|]. split; [split; [eapply HG; eassumption|assumption]|split; assumption].
    + destruct (seqb k (he_key e)).
      * destruct (Hf e D). destruct (f e) as [n e']. now apply S.
      * now apply S.
  - cbn [for_hash]. destruct (fits_conditions y cs); [|now split]. destruct y; try now split.
  - cbn [for_hash]. apply idx_step_fine; [destruct rest as [q|]; [exact (IH q)|exact Hr]|assumption].
  - cbn [for_hash]. now apply idx_step_fine_inline.
  - cbn [for_hash]. apply idx_step_fine; [destruct rest as [q|]; [exact (IH q)|exact Hr]|assumption].
  - cbn [for_hash]. now apply idx_step_fine_inline.
Qed.
End Single.
End Parts.
