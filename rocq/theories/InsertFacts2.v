(** Proofs of the properties of the path operations. *)
From Verif Require Import Base Ast Strings Path Insert InsertFacts Spec_Insert.
Import ListNotations.

(** ---- relation to the specification vocabulary ---- *)

Lemma first_value_key_value k l : key_value_l l k = first_value k l.
Proof. induction l as [|[c|c|[k' v]] l IH]; cbn; auto. now rewrite IH. Qed.

Lemma fits_satisfies y cs : fits_conditions y cs = satisfies_b y cs.
Proof.
  unfold fits_conditions, satisfies_b, key_value.
  destruct y; try (destruct cs; reflexivity).
  induction cs as [|c cs IH]; cbn; [reflexivity|]. rewrite IH, first_value_key_value. reflexivity.
Qed.

Lemma satisfies_b_spec y cs : satisfies_b y cs = true <-> satisfies y cs.
Proof.
  unfold satisfies. rewrite <- fits_satisfies. unfold fits_conditions.
  rewrite forallb_forall, Forall_forall. split; intros H c Hc; specialize (H c Hc).
  - unfold key_value in H. destruct y; try discriminate.
    rewrite first_value_key_value in H.
    destruct (first_value (c_field c) l) as [a|] eqn:E; [|discriminate].
    destruct (as_string (a_value a)) as [s|] eqn:Es; [|discriminate].
    apply seqb_eq in H. exists l, a, s. auto.
  - destruct H as (l & a & s & -> & Hf & Hs & ->). cbn.
    rewrite first_value_key_value, Hf, Hs. apply seqb_refl.
Qed.

Theorem conditions_exact y cs : fits_conditions y cs = true <-> satisfies y cs.
Proof. rewrite fits_satisfies. apply satisfies_b_spec. Qed.

Lemma key_index_first_value l k :
  match key_index l k with
  | Some i => exists e, nth_error l i = Some (HElem e) /\ he_key e = k /\ first_value k l = Some (he_value e)
  | None => first_value k l = None
  end.
Proof.
  pose proof (key_index_key_value l k) as H. rewrite first_value_key_value in H.
  destruct (key_index l k) eqn:E; [|exact H].
  destruct (key_index_nth _ _ _ E) as (e & He & Hk). destruct H as (e' & He' & Hv).
  rewrite He in He'. injection He' as <-. exists e. auto.
Qed.

Lemma get_elem_elements i l :
  match get_elem i l with
  | Some a => nth_error (elements l) i = Some (a_value a)
  | None => nth_error (elements l) i = None
  end.
Proof.
  revert i; induction l as [|[c|c|a] l IH]; intros i; cbn [get_elem elements].
  - now destruct i.
  - apply IH.
  - apply IH.
  - destruct i; cbn [nth_error]; [reflexivity|]. apply IH.
Qed.

(** ---- counting traversals that report nothing change nothing ---- *)

Section Quiet.
  Context {A : Type} (zero : A) (add : A -> A -> A) (nil_ : A -> Prop).
  Context (nil_add : forall a b, nil_ (add a b) -> nil_ a /\ nil_ b).

  Lemma idx_loop_quiet {X L} get set (g : X -> option (A * X)) is_ acc (l : L) :
    (forall i l x, get i l = Some x -> set i x l = l) ->
    (forall x a x', g x = Some (a, x') -> nil_ a -> x' = x) ->
    nil_ (fst (idx_loop add get set g is_ acc l)) ->
    nil_ acc /\ snd (idx_loop add get set g is_ acc l) = l.
  Proof.
    intros Hset Hg. revert acc l; induction is_ as [|i is_ IH]; intros acc l H; cbn in *; [auto|].
    destruct (get i l) as [x|] eqn:E; [|auto].
    destruct (g x) as [[a x']|] eqn:Eg; [|auto].
    destruct (IH _ _ H) as [H1 H2]. apply nil_add in H1 as [H1 H3].
    rewrite (Hg _ _ _ Eg H3), (Hset _ _ _ E) in *. auto.
  Qed.

  Lemma all_loop_quiet {X} (g : X -> option (A * X)) acc (l : list X) :
    (forall x a x', In x l -> g x = Some (a, x') -> nil_ a -> x' = x) ->
    nil_ (fst (all_loop add g acc l)) ->
    nil_ acc /\ snd (all_loop add g acc l) = l.
  Proof.
    revert acc; induction l as [|x l IH]; intros acc Hg H; cbn in *; [auto|].
    destruct (g x) as [[a x']|] eqn:Eg.
    - specialize (IH (add acc a)). destruct (all_loop add g (add acc a) l) as [b l2]. cbn in *.
      destruct IH as [H1 H2]; [intros; eapply Hg; eauto|assumption|]. apply nil_add in H1 as [H1 H3].
      rewrite H2, (Hg x a x'); auto.
    - specialize (IH acc). destruct (all_loop add g acc l) as [b l2]. cbn in *.
      destruct IH as [H1 H2]; [intros; eapply Hg; eauto|assumption|]. now rewrite H2.
  Qed.

  Lemma nth_set_lawful {X} i (l : list X) x : nth_error l i = Some x -> set_nth i x l = l.
  Proof. apply set_nth_same. Qed.

  Section FH.
    Context (f : hash_element -> A * hash_element) (r : yaml -> A * yaml).
    Context (Hf : forall e, nil_ (fst (f e)) -> snd (f e) = e).
    Context (Hr : forall y, nil_ (fst (r y)) -> snd (r y) = y).

    Lemma on_value_quiet (h : yaml -> A * yaml) a :
      (forall y, nil_ (fst (h y)) -> snd (h y) = y) ->
      nil_ (fst (on_value h a)) -> snd (on_value h a) = a.
    Proof.
      intros Hh. unfold on_value. specialize (Hh (a_value a)). destruct (h (a_value a)); cbn in *.
      intros H. rewrite Hh by assumption. now destruct a.
    Qed.

    Lemma idx_step_quiet sel cs elem n y :
      (forall y, nil_ (fst (elem y)) -> snd (elem y) = y) ->
      nil_ (fst (idx_step zero add sel cs elem n y)) -> snd (idx_step zero add sel cs elem n y) = y.
    Proof.
      intros He. revert y; induction n as [|n IH]; intros y; cbn [idx_step]; destruct y; try reflexivity;
      match goal with
      | |- context [Array] => 
          destruct sel as [is_|];
          [match goal with |- context [idx_loop ?a ?b ?c ?d ?e ?f ?g] =>
             pose proof (idx_loop_quiet b c d e f g) as Q; destruct (idx_loop a b c d e f g) end
          |match goal with |- context [all_loop ?a ?b ?c ?d] =>
             pose proof (all_loop_quiet b c d) as Q; destruct (all_loop a b c d) end]
      | |- context [InlineArray] =>
          destruct sel as [is_|];
          [match goal with |- context [idx_loop ?a ?b ?c ?d ?e ?f ?g] =>
             pose proof (idx_loop_quiet b c d e f g) as Q; destruct (idx_loop a b c d e f g) end
          |match goal with |- context [all_loop ?a ?b ?c ?d] =>
             pose proof (all_loop_quiet b c d) as Q; destruct (all_loop a b c d) end]
      end; cbn in *; intros H; f_equal; apply Q; auto; clear Q.
      all: try (intros; now apply get_elem_set_same).
      all: try (intros; now apply set_nth_same).
      all: try (intros x aa x'; destruct (fits_conditions _ cs); [|discriminate]; intros Eg;
                inversion Eg as [Eg']; intros Hn;
                first [ pose proof (on_value_quiet elem x He) as Q | pose proof (IH x) as Q ];
                rewrite Eg' in Q; cbn in Q; auto).
      all: try (intros x aa x' _; destruct x as [c|c|x]; try discriminate;
                destruct (fits_conditions _ cs); [|discriminate];
                pose proof (on_value_quiet elem x He) as Q;
                destruct (on_value elem x); intros Eg; inversion Eg; subst; cbn in Q;
                intros Hn; f_equal; auto).
      intros x aa x' _; destruct (fits_conditions _ cs); [|discriminate]; intros Eg;
                inversion Eg as [Eg']; intros Hn; pose proof (IH x) as Q;
                rewrite Eg' in Q; cbn in Q; auto.
    Qed.

    Lemma for_hash_quiet p y :
      nil_ (fst (for_hash zero add f r p y)) -> snd (for_hash zero add f r p y) = y.
    Proof.
      revert y; induction p as [cs|k cs rest IH|cs rest IH|is_ cs rest IH] using path_ind'; intros y.
      - cbn. destruct (fits_conditions y cs); [apply Hr|reflexivity].
      - cbn. destruct (fits_conditions y cs); [|reflexivity].
        destruct y; try reflexivity.
        destruct (key_index l k) as [i|] eqn:E; [|reflexivity].
        destruct (nth_error l i) as [[c|c|e]|] eqn:Ee; try reflexivity.
        assert (H : forall n e', (match rest with
              | None => if seqb k (he_key e) then f e else (zero, e)
              | Some o => let '(a, v) := on_value (for_hash zero add f r o) (he_value e) in
                          (a, mkHE (he_key e) v) end) = (n, e') -> nil_ n -> e' = e).
        { intros n e'. destruct rest as [o|].
          - cbn in IH. pose proof (on_value_quiet (for_hash zero add f r o) (he_value e) IH) as Q.
            destruct (on_value _ _). cbn in Q. intros E1 Hn; inversion E1; subst. rewrite Q by assumption.
            now destruct e.
          - destruct (seqb k (he_key e)); [|congruence].
            pose proof (Hf e) as Q. destruct (f e). cbn in Q. intros E1 Hn; inversion E1; subst; auto. }
        destruct (match rest with Some _ => _ | None => _ end) as [n e'].
        specialize (H n e' eq_refl). cbn. intros Hn. rewrite H by assumption.
        f_equal. now apply set_nth_same.
      - cbn [for_hash]. apply idx_step_quiet. destruct rest; [exact IH|exact Hr].
      - cbn [for_hash]. apply idx_step_quiet. destruct rest; [exact IH|exact Hr].
    Qed.
  End FH.
End Quiet.

Lemma add_zero a b : a + b = 0 -> a = 0 /\ b = 0.
Proof. lia. Qed.

Lemma edit_value_quiet (h : yaml -> nat * yaml) a :
  (forall y, fst (h y) = 0 -> snd (h y) = y) ->
  fst (edit_value h a) = 0 -> snd (edit_value h a) = a.
Proof.
  intros Hh. unfold edit_value. specialize (Hh (a_value a)). destruct (h (a_value a)); cbn in *.
  intros H. rewrite Hh by assumption. now destruct a.
Qed.

Lemma edit_hash_quiet f p y :
  (forall l k i, fst (f l k i) = 0 -> snd (f l k i) = l) ->
  fst (edit_hash f p y) = 0 -> snd (edit_hash f p y) = y.
Proof.
  intros Hf. revert y; induction p as [cs|k cs rest IH|cs rest IH|is_ cs rest IH] using path_ind'; intros y.
  - reflexivity.
  - cbn. destruct (fits_conditions y cs); [|reflexivity].
    destruct y; try reflexivity. destruct rest as [o|].
    + destruct (key_index l k) as [i|] eqn:E; [|reflexivity].
      destruct (nth_error l i) as [[c|c|e]|] eqn:Ee; try reflexivity.
      pose proof (edit_value_quiet (edit_hash f o) (he_value e) IH) as Q.
      destruct (edit_value _ _) as [n v]. cbn in *. intros H. rewrite (Q H). f_equal.
      apply set_nth_same. rewrite Ee. now destruct e.
    + pose proof (Hf l k (key_index l k)) as Q. destruct (f l k (key_index l k)). cbn in *.
      intros H. now rewrite (Q H).
  - destruct rest as [o|]; [|reflexivity]. cbn [edit_hash]. cbn in IH. destruct y; try reflexivity.
    + match goal with |- context [all_loop ?a ?b ?c ?d] =>
        pose proof (all_loop_quiet Nat.add (fun n => n = 0) add_zero b c d) as Q; destruct (all_loop a b c d) end.
      cbn in *. intros H. f_equal. apply Q; [|assumption].
      intros x aa x' _ Eg Hn. destruct (fits_conditions x cs); [|discriminate].
      specialize (IH x). inversion Eg as [Eg']. rewrite Eg' in IH. auto.
    + match goal with |- context [all_loop ?a ?b ?c ?d] =>
        pose proof (all_loop_quiet Nat.add (fun n => n = 0) add_zero b c d) as Q; destruct (all_loop a b c d) end.
      cbn in *. intros H. f_equal. apply Q; [|assumption].
      intros x aa x' _ Eg Hn. destruct x as [c|c|e]; try discriminate.
      destruct (fits_conditions (a_value e) cs); [|discriminate].
      pose proof (edit_value_quiet (edit_hash f o) e IH) as Q2.
      destruct (edit_value _ _). inversion Eg; subst. cbn in Q2. now rewrite Q2.
  - destruct rest as [o|]; [|reflexivity]. cbn [edit_hash]. cbn in IH. destruct y; try reflexivity.
    + match goal with |- context [idx_loop ?a ?b ?c ?d ?e ?f ?g] =>
        pose proof (idx_loop_quiet Nat.add (fun n => n = 0) add_zero b c d e f g) as Q; destruct (idx_loop a b c d e f g) end.
      cbn in *. intros H. f_equal. apply Q; auto.
      * intros; now apply set_nth_same.
      * intros x aa x' Eg Hn. destruct (fits_conditions x cs); [|discriminate].
        specialize (IH x). inversion Eg as [Eg']. rewrite Eg' in IH. auto.
    + match goal with |- context [idx_loop ?a ?b ?c ?d ?e ?f ?g] =>
        pose proof (idx_loop_quiet Nat.add (fun n => n = 0) add_zero b c d e f g) as Q; destruct (idx_loop a b c d e f g) end.
      cbn in *. intros H. f_equal. apply Q; auto.
      * intros; now apply get_elem_set_same.
      * intros e aa x' Eg Hn.
        destruct (fits_conditions (a_value e) cs); [|discriminate].
        pose proof (edit_value_quiet (edit_hash f o) e IH) as Q2.
        inversion Eg as [Eg']. rewrite Eg' in Q2. auto.
Qed.

(** C15 *)
Theorem find_values_pure p y : snd (find_values_st p y) = y.
Proof.
  apply (for_hash_quiet [] (@app yaml) (fun _ => True)); auto.
Qed.

(** C16 *)
Theorem insert_zero p h o y : fst (insert_into_hash p h o y) = 0 -> snd (insert_into_hash p h o y) = y.
Proof.
  apply edit_hash_quiet. intros l k [i|]; cbn; [destruct o; cbn|]; try discriminate; auto.
Qed.
Theorem remove_zero p y : fst (remove_from_hash p y) = 0 -> snd (remove_from_hash p y) = y.
Proof. apply edit_hash_quiet. intros l k [i|]; cbn; [discriminate|auto]. Qed.
Theorem rename_zero p n y : fst (rename_field p n y) = 0 -> snd (rename_field p n y) = y.
Proof.
  apply (for_hash_quiet 0 Nat.add (fun n => n = 0)); cbn; intros; try lia; try discriminate; auto.
Qed.
Theorem to_object_zero p k y : fst (to_object p k y) = 0 -> snd (to_object p k y) = y.
Proof.
  apply (for_hash_quiet 0 Nat.add (fun n => n = 0)); cbn; intros; try lia; try discriminate; auto.
Qed.

Lemma opt_add_zero a b : opt_add a b = Some 0 -> a = Some 0 /\ b = Some 0.
Proof. destruct a, b; cbn; intros H; inversion H. split; f_equal; lia. Qed.

Lemma on_elem_value_zero r e :
  (forall y, fst (r y) = Some 0 -> snd (r y) = y) ->
  fst (on_elem_value r e) = Some 0 -> snd (on_elem_value r e) = e.
Proof.
  intros Hr. unfold on_elem_value. specialize (Hr (a_value (he_value e))).
  destruct (r (a_value (he_value e))). cbn in *. intros H. rewrite Hr by assumption.
  now destruct e as [k [al v]].
Qed.

Lemma mts_r_zero parse sub names y :
  fst (mts_r parse sub names y) = Some 0 -> snd (mts_r parse sub names y) = y.
Proof.
  unfold mts_r. destruct y; auto. destruct (is_nil _); auto.
  match goal with |- fst (match ?m with _ => _ end) = _ -> _ => destruct m as [y1|] end; [|discriminate].
  destruct (remove_fields _ _ _); [discriminate|discriminate].
Qed.

Theorem move_to_subfield_zero parse p sub names y :
  fst (move_to_subfield parse p sub names y) = Some 0 ->
  snd (move_to_subfield parse p sub names y) = y.
Proof.
  apply (for_hash_quiet (Some 0) opt_add (fun n => n = Some 0)).
  - apply opt_add_zero.
  - intros e. apply on_elem_value_zero. apply mts_r_zero.
  - apply mts_r_zero.
Qed.

Lemma mtm_r_zero parse a b c d y :
  fst (mtm_r parse a b c d y) = Some 0 -> snd (mtm_r parse a b c d y) = y.
Proof.
  unfold mtm_r. destruct y; auto. destruct (key_value_l l a) as [[al []]|]; auto; cbn [a_value].
  destruct (mm_loop _ _ _ _ _); [|discriminate]. destruct (is_nil _); auto.
  destruct (parse c), (parse a); discriminate.
Qed.

Theorem move_to_map_zero parse p a b c d y :
  fst (move_to_map parse p a b c d y) = Some 0 -> snd (move_to_map parse p a b c d y) = y.
Proof.
  apply (for_hash_quiet (Some 0) opt_add (fun n => n = Some 0)).
  - apply opt_add_zero.
  - intros e. apply on_elem_value_zero. apply mtm_r_zero.
  - apply mtm_r_zero.
Qed.
