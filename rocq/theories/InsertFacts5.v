(** Proofs of the properties of the path operations: insert/find, rename, to_object,
    documents. *)
From Verif Require Import Base Ast Strings Path Insert InsertFacts Spec_Insert InsertFacts2 InsertFacts3 InsertFacts4.
Import ListNotations.

(** ---- C18 ---- *)

(** Flat inline values are left alone by any edit. *)
Lemma edit_flat_inline f p y : flat_inline y = true -> edit_hash f p y = (0, y).
Proof.
  revert y; induction p as [cs|k cs rest IH|cs rest IH|is_ cs rest IH] using path_ind'; intros y Hy.
  - reflexivity.
  - cbn. destruct (fits_conditions y cs); [|reflexivity]. destruct y; try reflexivity; discriminate.
  - destruct rest as [o|]; [|reflexivity]. cbn [edit_hash]. destruct y; try reflexivity; try discriminate.
    cbn in Hy. rewrite forallb_forall in Hy. cbn in IH.
    rewrite (all_loop_ext Nat.add _ (fun e => if fits_conditions e cs then Some (0, e) else None)).
    + assert (E : all_loop Nat.add (fun e => if fits_conditions e cs then Some (0, e) else None) 0 l = (0, l)).
      { clear. induction l as [|x l IH]; [reflexivity|]. cbn [all_loop].
        destruct (fits_conditions x cs); cbn [Nat.add]; now rewrite IH. }
      now rewrite E.
    + apply Forall_forall. intros x Hx. destruct (fits_conditions x cs); [|reflexivity]. now rewrite IH by auto.
  - destruct rest as [o|]; [|reflexivity]. cbn [edit_hash]. destruct y; try reflexivity; try discriminate.
    cbn in Hy. rewrite forallb_forall in Hy. cbn in IH.
    assert (E : idx_loop Nat.add (fun i l => nth_error l i) set_nth
       (fun e => if fits_conditions e cs then Some (edit_hash f o e) else None) is_ 0 l = (0, l)); [|now rewrite E].
    induction is_ as [|i is_ IHi]; [reflexivity|]. cbn [idx_loop].
    destruct (nth_error l i) as [x|] eqn:Ex; [|assumption].
    destruct (fits_conditions x cs); [|assumption].
    rewrite IH by (apply Hy; eapply nth_error_In; eassumption). cbn [Nat.add].
    now rewrite (set_nth_same _ _ _ Ex).
Qed.

Lemma path_of_app_last r s : path_of (r ++ [s]) <> PRoot [] .
Proof. destruct r; destruct s; try discriminate; destruct s0; discriminate. Qed.

Lemma path_of_cons_app s r k cs :
  path_of (s :: r ++ [SKey k cs]) =
  let o := path_of (r ++ [SKey k cs]) in
  match s with
  | SKey k0 cs0 => PKey k0 cs0 (Some o)
  | SIdx i cs0 => PIdx [i] cs0 (Some o)
  | SAll cs0 => PAll cs0 (Some o)
  end.
Proof. rewrite path_of_cons. destruct r; destruct s; reflexivity. Qed.

Definition edit_count (f : list hashdata -> str -> option nat -> nat * list hashdata) k cs (v : yaml) : nat :=
  match v with
  | Hash l => if satisfies_b v cs then fst (f l k (key_index l k)) else 0
  | _ => 0
  end.

Lemma list_sum_cons x l : list_sum (x :: l) = x + list_sum l.
Proof. reflexivity. Qed.
Lemma list_sum_app l l' : list_sum (l ++ l') = list_sum l + list_sum l'.
Proof. apply List.list_sum_app. Qed.

Lemma list_sum_elements (c : arraydata -> nat) (c' : yaml -> nat) l :
  (forall d, match d with AElem a => c d = c' (a_value a) | _ => c d = 0 end) ->
  list_sum (map c l) = list_sum (map c' (elements l)).
Proof.
  intros H. induction l as [|d l IH]; [reflexivity|]. cbn. specialize (H d). unfold list_sum in *.
  destruct d; cbn [fold_right map]; rewrite H; cbn; auto.
Qed.

Theorem edit_counts f steps k cs y :
  inline_ok y = true ->
  fst (edit_hash f (path_of (steps ++ [SKey k cs])) y) = list_sum (map (edit_count f k cs) (nodes steps y)).
Proof.
  revert y; induction steps as [|s r IH]; intros y Hy.
  - cbn [app path_of nodes map]. unfold list_sum; cbn [fold_right]. rewrite Nat.add_0_r. unfold edit_count.
    cbn [edit_hash]. rewrite fits_satisfies. destruct y; try (destruct (satisfies_b _ cs); reflexivity).
    destruct (satisfies_b _ cs); [|reflexivity]. now destruct (f l k _).
  - cbn [app]. rewrite path_of_cons_app. cbn zeta. set (o := path_of (r ++ [SKey k cs])) in *.
    destruct s as [k0 cs0|i cs0|cs0]; cbn [edit_hash nodes].
    + rewrite fits_satisfies. destruct y; try (destruct (satisfies_b _ cs0); reflexivity).
      destruct (satisfies_b _ cs0); [|reflexivity].
      pose proof (key_index_first_value l k0) as Hk. destruct (key_index l k0) as [i|]; [|now rewrite Hk].
      destruct Hk as (e & He & _ & Hv). rewrite He, Hv. rewrite <- IH by (eapply inline_ok_first; eassumption).
      unfold edit_value. destruct (edit_hash f o (a_value (he_value e))); reflexivity.
    + destruct y; try reflexivity.
      * pose proof (edit_flat_inline f (PIdx [i] cs0 (Some o)) (InlineArray l) Hy) as E.
        cbn [edit_hash] in E. now rewrite E.
      * cbn [idx_loop]. pose proof (get_elem_elements i l) as Hg. destruct (get_elem i l) as [a|].
        -- rewrite Hg. rewrite fits_satisfies. destruct (satisfies_b _ cs0); [|reflexivity].
           rewrite <- IH by (eapply inline_ok_elem; [eassumption|]; eapply nth_error_In; eassumption).
           unfold edit_value. destruct (edit_hash f o (a_value a)); reflexivity.
        -- rewrite Hg. reflexivity.
    + destruct y; try reflexivity.
      * pose proof (edit_flat_inline f (PAll cs0 (Some o)) (InlineArray l) Hy) as E.
        cbn [edit_hash] in E. now rewrite E.
      * match goal with |- context [all_loop Nat.add ?g 0 l] =>
          pose proof (all_loop_counted g 0 l) as Q; destruct (all_loop Nat.add g 0 l) end.
        cbn [fst] in *. rewrite Q. cbn [Nat.add]. clear Q.
        assert (He : forall v, In v (elements l) -> inline_ok v = true) by (intros; eapply inline_ok_elem; eassumption).
        clear Hy. induction l as [|d l IHl]; [reflexivity|].
        cbn [map elements]. rewrite list_sum_cons.
        destruct d as [c|c|a]; cbn [flat_map].
        -- unfold counted at 1. cbn. apply IHl. exact He.
        -- unfold counted at 1. cbn. apply IHl. exact He.
        -- cbn [elements flat_map]. rewrite map_app, list_sum_app.
           f_equal; [|apply IHl; intros; apply He; now right].
           unfold counted. rewrite fits_satisfies. destruct (satisfies_b _ cs0); [|reflexivity].
           unfold edit_value. specialize (IH (a_value a) (He _ (or_introl eq_refl))).
           destruct (edit_hash f o (a_value a)); exact IH.
Qed.

(** The count returned by an overwriting insert: one per selected mapping. *)
Theorem insert_count steps k cs h y :
  inline_ok y = true ->
  fst (insert_into_hash (path_of (steps ++ [SKey k cs])) h true y)
  = length (filter (fun v => is_block_hash v && satisfies_b v cs) (nodes steps y)).
Proof.
  intros Hy. unfold insert_into_hash. rewrite edit_counts by assumption.
  induction (nodes steps y) as [|v vs IH]; [reflexivity|]. cbn [map filter].
  rewrite list_sum_cons.
  rewrite IH. unfold edit_count, is_block_hash. destruct v; try reflexivity.
  destruct (satisfies_b (Hash l) cs); cbn [andb length]; [|reflexivity].
  unfold insert_f. now destruct (key_index l k).
Qed.

Lemma first_value_set_nth l k i v :
  key_index l k = Some i -> first_value k (set_nth i (HElem (mkHE k v)) l) = Some v.
Proof.
  intros H. destruct (key_index_split _ _ _ H) as (a & v0 & b & -> & <- & Hk). rewrite set_nth_app.
  apply hd_is_key_first in Hk. rewrite first_value_app_none by assumption. cbn. now rewrite seqb_refl.
Qed.

Lemma elements_set_elem i x l a :
  get_elem i l = Some a -> nth_error (elements (set_elem i x l)) i = Some (a_value x).
Proof.
  intros H. pose proof (get_elem_elements i (set_elem i x l)) as Hg.
  now rewrite (get_set_elem_eq _ _ _ _ H) in Hg.
Qed.

Lemma repeat_app {X} (x : X) n m : repeat x (n + m) = repeat x n ++ repeat x m.
Proof. induction n; cbn; congruence. Qed.

Theorem insert_nodes steps k h y :
  inline_ok y = true -> cond_free steps ->
  let r := insert_into_hash (path_of (steps ++ [SKey k []])) h true y in
  nodes (steps ++ [SKey k []]) (snd r) = repeat (a_value h) (fst r).
Proof.
  cbn zeta. unfold insert_into_hash. intros Hy Hc. revert y Hy; induction Hc as [|s r Hs Hc IH]; intros y Hy.
  - cbn [app path_of nodes edit_hash]. cbn [fits_conditions forallb].
    destruct y; try reflexivity. unfold insert_f.
    pose proof (key_index_first_value l k) as Hk. destruct (key_index l k) as [i|] eqn:Ei; cbn [fst snd].
    + rewrite satisfies_b_nil, (first_value_set_nth _ _ _ _ Ei). reflexivity.
    + rewrite satisfies_b_nil, first_value_app_none by assumption. cbn. now rewrite seqb_refl.
  - cbn [app]. rewrite path_of_cons_app. cbn zeta. set (o := path_of (r ++ [SKey k []])) in *.
    destruct s as [k0 cs0|i cs0|cs0]; cbn in Hs; subst cs0; cbn [edit_hash fits_conditions forallb].
    + destruct y; try reflexivity.
      pose proof (key_index_first_value l k0) as Hk. destruct (key_index l k0) as [i|] eqn:Ei.
      * destruct Hk as (e & He & Hke & Hv). rewrite He.
        specialize (IH (a_value (he_value e)) (inline_ok_first _ _ _ Hy Hv)).
        unfold edit_value. destruct (edit_hash _ o (a_value (he_value e))) as [n v]. cbn [fst snd] in *.
        cbn [nodes]. rewrite satisfies_b_nil. subst k0.
        rewrite (first_value_set_nth _ _ _ _ Ei). exact IH.
      * cbn [snd fst nodes]. rewrite Hk, satisfies_b_nil. reflexivity.
    + destruct y; try reflexivity.
      * pose proof (edit_flat_inline (insert_f h true) (PIdx [i] [] (Some o)) (InlineArray l) Hy) as E.
        cbn [edit_hash fits_conditions forallb] in E. rewrite E. reflexivity.
      * cbn [idx_loop]. pose proof (get_elem_elements i l) as Hg. destruct (get_elem i l) as [a|] eqn:Ea.
        -- specialize (IH (a_value a)). rewrite (fun H => inline_ok_elem _ _ Hy (nth_error_In _ _ H)) in IH by eassumption.
           unfold edit_value. destruct (edit_hash _ o (a_value a)) as [n v]. cbn [fst snd nodes Nat.add] in *.
           rewrite (elements_set_elem _ _ _ _ Ea). cbn [a_value]. rewrite satisfies_b_nil. now apply IH.
        -- cbn [fst snd nodes]. rewrite Hg. reflexivity.
    + destruct y; try reflexivity.
      * pose proof (edit_flat_inline (insert_f h true) (PAll [] (Some o)) (InlineArray l) Hy) as E.
        cbn [edit_hash fits_conditions forallb] in E. rewrite E. reflexivity.
      * match goal with |- context [all_loop Nat.add ?g 0 l] =>
          pose proof (all_loop_counted g 0 l) as Q; pose proof (all_loop_snd Nat.add g 0 l) as Q2;
          set (gg := g) in *; destruct (all_loop Nat.add gg 0 l) as [n l'] end.
        cbn [fst snd] in *. subst n l'. cbn [Nat.add nodes].
        assert (He : forall v, In v (elements l) -> inline_ok v = true) by (intros; eapply inline_ok_elem; eassumption).
        clear Hy. induction l as [|d l IHl]; [reflexivity|].
        cbn [map]. rewrite list_sum_cons. rewrite repeat_app.
        destruct d as [c|c|a]; cbn [elements flat_map].
        -- apply IHl. exact He.
        -- apply IHl. exact He.
        -- assert (Egg : gg (AElem a) = let '(n, e') := edit_value (edit_hash (insert_f h true) o) a in
                                        Some (n, AElem e')) by reflexivity.
           unfold upd at 1, counted at 1. rewrite Egg. clear Egg.
           specialize (IH (a_value a) (He _ (or_introl eq_refl))).
           unfold edit_value. destruct (edit_hash _ o (a_value a)) as [n v]. cbn [fst snd elements flat_map a_value] in *.
           rewrite satisfies_b_nil. f_equal; [exact IH|]. apply IHl. intros; apply He; now right.
Qed.

(** [inline_ok] is kept by insertion. *)
Lemma inline_ok_hash_set l i k al v :
  inline_ok (Hash l) = true -> inline_ok v = true ->
  inline_ok (Hash (set_nth i (HElem (mkHE k (mkA al v))) l)) = true.
Proof.
  cbn. rewrite !forallb_forall. intros H Hv d Hd. revert i Hd.
  induction l as [|x l IH]; intros [|i] Hd; cbn in Hd; try contradiction.
  - destruct Hd as [<-|Hd]; [exact Hv|]. apply H. now right.
  - destruct Hd as [<-|Hd]; [apply H; now left|]. eapply IH; [|eassumption]. intros; apply H; now right.
Qed.

Lemma inline_ok_array_set l i al v :
  inline_ok (Array l) = true -> inline_ok v = true ->
  inline_ok (Array (set_elem i (mkA al v) l)) = true.
Proof.
  cbn. intros H Hv. revert i; induction l as [|[c|c|a] l IH]; intros i; cbn in *; auto.
  apply andb_true_iff in H as [H1 H2]. destruct i; cbn.
  - now rewrite Hv, H2.
  - now rewrite H1, IH.
Qed.

Lemma insert_inline_ok p h ow y :
  inline_ok y = true -> inline_ok (a_value h) = true ->
  inline_ok (snd (insert_into_hash p h ow y)) = true.
Proof.
  unfold insert_into_hash. intros Hy Hh.
  revert y Hy; induction p as [cs|k cs rest IH|cs rest IH|is_ cs rest IH] using path_ind'; intros y Hy.
  - exact Hy.
  - cbn [edit_hash]. destruct (fits_conditions y cs); [|exact Hy].
    destruct y; try exact Hy. destruct rest as [o|].
    + destruct (key_index l k) as [i|] eqn:Ei; [|exact Hy].
      destruct (key_index_nth _ _ _ Ei) as (e & He & Hk). rewrite He.
      assert (Hv : inline_ok (a_value (he_value e)) = true).
      { cbn in Hy. rewrite forallb_forall in Hy. apply (Hy (HElem e)). eapply nth_error_In; eassumption. }
      specialize (IH _ Hv). unfold edit_value. destruct (edit_hash _ o _) as [n v].
      cbn [snd] in *. now apply inline_ok_hash_set.
    + unfold insert_f. destruct (key_index l k) as [i|]; [destruct ow|]; cbn [snd].
      * destruct h as [al v]. now apply inline_ok_hash_set.
      * exact Hy.
      * cbn in *. rewrite forallb_app, Hy. cbn. now rewrite Hh.
  - destruct rest as [o|]; [|exact Hy]. destruct y; try exact Hy.
    + rewrite edit_flat_inline by exact Hy. exact Hy.
    + cbn [edit_hash]. match goal with |- context [all_loop Nat.add ?g 0 l] =>
          pose proof (all_loop_snd Nat.add g 0 l) as Q2; destruct (all_loop Nat.add g 0 l) as [n l'] end.
      cbn [snd] in *. subst l'. cbn in Hy |- *. rewrite forallb_forall in *. intros d Hd.
      apply in_map_iff in Hd as (d0 & <- & Hd0). specialize (Hy _ Hd0).
      unfold upd. destruct d0 as [c|c|a]; try reflexivity.
      destruct (fits_conditions _ cs); [|exact Hy]. specialize (IH _ Hy).
      unfold edit_value. destruct (edit_hash _ o _). exact IH.
  - destruct rest as [o|]; [|exact Hy]. destruct y; try exact Hy.
    + rewrite edit_flat_inline by exact Hy. exact Hy.
    + cbn [edit_hash].
      assert (E : forall acc l, inline_ok (Array l) = true -> inline_ok (Array (snd
        (idx_loop Nat.add get_elem set_elem (fun e => if fits_conditions (a_value e) cs
                   then Some (edit_value (edit_hash (insert_f h ow) o) e) else None) is_ acc l))) = true).
      { clear l Hy. induction is_ as [|i is_ IHi]; intros acc l Hy; [exact Hy|]. cbn [idx_loop].
        pose proof (get_elem_elements i l) as Hg. destruct (get_elem i l) as [a|]; [|now apply IHi].
        apply nth_error_In in Hg.
        destruct (fits_conditions _ cs); [|now apply IHi].
        specialize (IH _ (inline_ok_elem _ _ Hy Hg)). unfold edit_value. destruct (edit_hash _ o _) as [n v].
        apply IHi. now apply inline_ok_array_set. }
      specialize (E 0 l Hy). destruct (idx_loop _ _ _ _ _ _ _). exact E.
Qed.

Theorem insert_then_find steps k h y :
  inline_ok y = true -> inline_ok (a_value h) = true -> cond_free steps ->
  let p := path_of (steps ++ [SKey k []]) in
  find_values p (snd (insert_into_hash p h true y))
  = repeat (a_value h) (fst (insert_into_hash p h true y)).
Proof.
  intros Hy Hh Hc. cbn zeta. rewrite find_is_nodes by now apply insert_inline_ok.
  now apply insert_nodes.
Qed.

(** ---- C22, C23 ---- *)

(** Keys do not matter for shapes: renaming keeps everything else. *)
Lemma erase_keys_set_nth i k k' al v v' l :
  nth_error l i = Some (HElem (mkHE k (mkA al v))) -> erase_keys v' = erase_keys v ->
  erase_keys (Hash (set_nth i (HElem (mkHE k' (mkA al v'))) l)) = erase_keys (Hash l).
Proof.
  intros H Hv. destruct (nth_error_split' _ _ _ H) as (l1 & l2 & -> & ->). cbn.
  rewrite !map_app. cbn. now rewrite Hv.
Qed.

Section Erase.
  Context (f : hash_element -> nat * hash_element).
  Context (Hf : forall e, a_alias (he_value (snd (f e))) = a_alias (he_value e)
                          /\ erase_keys (a_value (he_value (snd (f e)))) = erase_keys (a_value (he_value e))).

  Lemma erase_idx_step sel cs elem n y :
    (forall y, erase_keys (snd (elem y)) = erase_keys y) ->
    erase_keys (snd (idx_step 0 Nat.add sel cs elem n y)) = erase_keys y.
  Proof.
    intros He.
    assert (Harr : forall n els, erase_keys (snd (idx_step 0 Nat.add sel cs elem n (Array els))) = erase_keys (Array els)).
    { intros m els. assert (Em : idx_step 0 Nat.add sel cs elem m (Array els) = idx_step 0 Nat.add sel cs elem 0 (Array els)) by (destruct m; reflexivity).
      rewrite Em. cbn [idx_step]. destruct sel as [is_|].
      - match goal with |- context [idx_loop Nat.add get_elem set_elem ?g is_ 0 els] =>
          assert (E : forall acc els, erase_keys (Array (snd (idx_loop Nat.add get_elem set_elem g is_ acc els))) = erase_keys (Array els)) end.
        { clear els Em. induction is_ as [|i is_ IHi]; intros acc els; [reflexivity|]. cbn [idx_loop].
          destruct (get_elem i els) as [a|] eqn:Ea; [|apply IHi].
          destruct (fits_conditions _ cs); [|apply IHi].
          unfold on_value. specialize (He (a_value a)). destruct (elem (a_value a)) as [x v]. rewrite IHi.
          destruct (get_elem_split _ _ _ Ea) as (l1 & l2 & -> & Hs). rewrite Hs. cbn in *.
          rewrite !map_app. cbn. now rewrite He. }
        specialize (E 0 els). destruct (idx_loop _ _ _ _ _ _ _). exact E.
      - match goal with |- context [all_loop Nat.add ?g 0 els] =>
          pose proof (all_loop_snd Nat.add g 0 els) as Q2; destruct (all_loop Nat.add g 0 els) as [k l'] end.
        cbn [snd] in *. subst l'. cbn. rewrite map_map. f_equal. apply map_ext. intros [c|c|a]; try reflexivity.
        unfold upd. destruct (fits_conditions _ cs); [|reflexivity].
        unfold on_value. specialize (He (a_value a)). destruct (elem (a_value a)). cbn in *. now rewrite He. }
    revert y; induction n as [|n IH]; intros y.
    - destruct y; try reflexivity. apply Harr.
    - destruct y; try reflexivity; [|apply Harr]. cbn [idx_step]. destruct sel as [is_|].
      + match goal with |- context [idx_loop Nat.add ?get set_nth ?g is_ 0 l] =>
          assert (E : forall g', g' = g -> forall is' acc l, erase_keys (InlineArray (snd (idx_loop Nat.add get set_nth g' is' acc l))) = erase_keys (InlineArray l));
          [intros g' ->|set (gg := g) in *; specialize (E gg eq_refl is_ 0 l)] end.
        { clear l. induction is' as [|i is' IHi]; intros acc l; [reflexivity|]. cbn [idx_loop].
          destruct (nth_error l i) as [a|] eqn:Ea; [|apply IHi].
          destruct (fits_conditions _ cs); [|apply IHi].
          specialize (IH a). destruct (idx_step _ _ _ _ _ _ a) as [x v]. rewrite IHi.
          destruct (nth_error_split' _ _ _ Ea) as (l1 & l2 & -> & Hs). rewrite Hs. cbn in *.
          rewrite !map_app. cbn. now rewrite IH. }
        destruct (idx_loop _ _ _ _ _ _ _). exact E.
      + match goal with |- context [all_loop Nat.add ?g 0 l] =>
          pose proof (all_loop_snd Nat.add g 0 l) as Q2; destruct (all_loop Nat.add g 0 l) as [k l'] end.
        cbn [snd] in *. subst l'. cbn. rewrite map_map. f_equal. apply map_ext. intros v.
        unfold upd. destruct (fits_conditions _ cs); [|reflexivity]. specialize (IH v).
        destruct (idx_step _ _ _ _ _ _ v). exact IH.
  Qed.

  Lemma erase_for_hash p y : erase_keys (snd (for_hash 0 Nat.add f zero_r p y)) = erase_keys y.
  Proof.
    revert y; induction p as [cs|k cs rest IH|cs rest IH|is_ cs rest IH] using path_ind'; intros y.
    - cbn. destruct (fits_conditions y cs); reflexivity.
    - cbn [for_hash]. destruct (fits_conditions y cs); [|reflexivity]. destruct y; try reflexivity.
      destruct (key_index l k) as [i|] eqn:Ei; [|reflexivity].
      destruct (key_index_nth _ _ _ Ei) as (e & He & Hk). rewrite He. destruct rest as [o|].
      + unfold on_value. specialize (IH (a_value (he_value e))). destruct (for_hash _ _ _ _ o _) as [n v].
        cbn [snd] in *. destruct e as [k' [al v0]]. eapply erase_keys_set_nth; eassumption.
      + rewrite Hk, seqb_refl. specialize (Hf e). destruct (f e) as [n [k' [al v']]]. cbn [snd] in *.
        destruct e as [k2 [al2 v0]]. cbn in Hf. destruct Hf as [-> Hv]. eapply erase_keys_set_nth; eassumption.
    - cbn [for_hash]. apply erase_idx_step. destruct rest; [exact IH|reflexivity].
    - cbn [for_hash]. apply erase_idx_step. destruct rest; [exact IH|reflexivity].
  Qed.
End Erase.

Theorem rename_keeps_everything_else p n y : erase_keys (snd (rename_field p n y)) = erase_keys y.
Proof. apply erase_for_hash. intros e; split; reflexivity. Qed.

(** Counting traversals agree with lookups. *)
Section Count.
  Context (f : hash_element -> nat * hash_element) (Hf : forall e, fst (f e) = 1).

  Lemma fold_left_len {Y} (c1 : nat -> Y -> nat) (c2 : list yaml -> Y -> list yaml) l acc1 acc2 :
    (forall acc1 acc2 y, acc1 = length acc2 -> c1 acc1 y = length (c2 acc2 y)) ->
    acc1 = length acc2 -> fold_left c1 l acc1 = length (fold_left c2 l acc2).
  Proof. intros H. revert acc1 acc2; induction l; cbn; auto. Qed.

  Lemma idx_step_count sel cs e1 e2 n y :
    (match sel with Some is_ => NoDup is_ | None => True end) ->
    (forall y, fst (e1 y) = length (fst (e2 y))) ->
    fst (idx_step 0 Nat.add sel cs e1 n y) = length (fst (idx_step [] (@app yaml) sel cs e2 n y)).
  Proof.
    intros Hd He.
    assert (Harr : forall n els, fst (idx_step 0 Nat.add sel cs e1 n (Array els))
                                 = length (fst (idx_step [] (@app yaml) sel cs e2 n (Array els)))).
    { intros m els.
      assert (E : fst (idx_step 0 Nat.add sel cs e1 0 (Array els)) = length (fst (idx_step [] (@app yaml) sel cs e2 0 (Array els))));
        [|destruct m; exact E].
      cbn [idx_step]. destruct sel as [is_|].
      - match goal with |- fst (let '(_, _) := idx_loop Nat.add _ _ ?g1 _ _ _ in _) = length (fst (let '(_, _) := idx_loop _ _ _ ?g2 _ _ _ in _)) =>
          pose proof (idx_loop_fst Nat.add g1 get_elem set_elem (fun i j x l H => get_set_elem_neq i j x l H) is_ 0 els Hd) as Q1;
          pose proof (idx_loop_fst (@app yaml) g2 get_elem set_elem (fun i j x l H => get_set_elem_neq i j x l H) is_ [] els Hd) as Q2 end.
        destruct (idx_loop Nat.add _ _ _ _ _ _), (idx_loop _ _ _ _ _ _ _). cbn [fst] in *. rewrite Q1, Q2.
        apply fold_left_len; [|reflexivity]. intros acc1 acc2 i ->. unfold contrib.
        destruct (get_elem i els) as [a|]; [|reflexivity]. destruct (fits_conditions _ cs); [|reflexivity].
        unfold on_value. specialize (He (a_value a)). destruct (e1 (a_value a)), (e2 (a_value a)).
        cbn in He. rewrite app_length. congruence.
      - match goal with |- fst (let '(_, _) := all_loop Nat.add ?g1 _ _ in _) = length (fst (let '(_, _) := all_loop _ ?g2 _ _ in _)) =>
          pose proof (all_loop_fst Nat.add g1 0 els) as Q1; pose proof (all_loop_fst (@app yaml) g2 [] els) as Q2 end.
        destruct (all_loop Nat.add _ _ _), (all_loop _ _ _ _). cbn [fst] in *. rewrite Q1, Q2.
        apply fold_left_len; [|reflexivity]. intros acc1 acc2 [c|c|a] ->; try reflexivity.
        destruct (fits_conditions _ cs); [|reflexivity].
        unfold on_value. specialize (He (a_value a)). destruct (e1 (a_value a)), (e2 (a_value a)).
        cbn in He. rewrite app_length. congruence. }
    revert y; induction n as [|n IH]; intros y.
    - destruct y; try reflexivity. apply Harr.
    - destruct y; try reflexivity; [|apply Harr]. cbn [idx_step]. destruct sel as [is_|].
      + match goal with |- fst (let '(_, _) := idx_loop Nat.add ?get _ ?g1 _ _ _ in _) = length (fst (let '(_, _) := idx_loop _ _ _ ?g2 _ _ _ in _)) =>
          pose proof (idx_loop_fst Nat.add g1 get set_nth (fun i j x l H => nth_error_set_nth_neq i j x l H) is_ 0 l Hd) as Q1;
          pose proof (idx_loop_fst (@app yaml) g2 get set_nth (fun i j x l H => nth_error_set_nth_neq i j x l H) is_ [] l Hd) as Q2 end.
        destruct (idx_loop Nat.add _ _ _ _ _ _), (idx_loop _ _ _ _ _ _ _). cbn [fst] in *. rewrite Q1, Q2.
        apply fold_left_len; [|reflexivity]. intros acc1 acc2 i ->. unfold contrib.
        destruct (nth_error l i) as [a|]; [|reflexivity]. destruct (fits_conditions _ cs); [|reflexivity].
        specialize (IH a). destruct (idx_step 0 _ _ _ _ _ a), (idx_step [] _ _ _ _ _ a).
        cbn in IH. rewrite app_length. congruence.
      + match goal with |- fst (let '(_, _) := all_loop Nat.add ?g1 _ _ in _) = length (fst (let '(_, _) := all_loop _ ?g2 _ _ in _)) =>
          pose proof (all_loop_fst Nat.add g1 0 l) as Q1; pose proof (all_loop_fst (@app yaml) g2 [] l) as Q2 end.
        destruct (all_loop Nat.add _ _ _), (all_loop _ _ _ _). cbn [fst] in *. rewrite Q1, Q2.
        apply fold_left_len; [|reflexivity]. intros acc1 acc2 a ->.
        destruct (fits_conditions _ cs); [|reflexivity].
        specialize (IH a). destruct (idx_step 0 _ _ _ _ _ a), (idx_step [] _ _ _ _ _ a).
        cbn in IH. rewrite app_length. congruence.
  Qed.

  Lemma count_is_found p y :
    indexes_distinct p -> ends_in_key p = true ->
    fst (for_hash 0 Nat.add f zero_r p y) = length (find_values p y).
  Proof.
    unfold find_values, find_values_st.
    revert y; induction p as [cs|k cs rest IH|cs rest IH|is_ cs rest IH] using path_ind'; intros y Hd He.
    - discriminate.
    - cbn [for_hash]. destruct (fits_conditions y cs); [|reflexivity]. destruct y; try reflexivity.
      destruct (key_index l k) as [i|] eqn:Ei; [|reflexivity].
      destruct (key_index_nth _ _ _ Ei) as (e & Hn & Hk). rewrite Hn. destruct rest as [o|].
      + unfold on_value. specialize (IH (a_value (he_value e)) Hd He).
        destruct (for_hash 0 _ _ _ o _), (for_hash [] _ _ _ o _). exact IH.
      + rewrite Hk, seqb_refl. specialize (Hf e). destruct (f e). exact Hf.
    - destruct rest as [o|]; [|discriminate]. cbn [for_hash]. apply idx_step_count; [exact I|].
      intros v. now apply IH.
    - destruct rest as [o|]; [|discriminate]. cbn [for_hash]. destruct Hd as [Hd1 Hd2].
      apply idx_step_count; [exact Hd1|]. intros v. now apply IH.
  Qed.
End Count.

Theorem rename_count p n y :
  indexes_distinct p -> ends_in_key p = true -> fst (rename_field p n y) = length (find_values p y).
Proof. apply count_is_found. reflexivity. Qed.

Theorem to_object_count p k y :
  indexes_distinct p -> ends_in_key p = true -> fst (to_object p k y) = length (find_values p y).
Proof. apply count_is_found. reflexivity. Qed.

Theorem rename_entry a k v b n :
  first_value k a = None ->
  rename_field (PKey k [] None) n (Hash (a ++ HElem (mkHE k v) :: b)) = (1, Hash (a ++ HElem (mkHE n v) :: b)).
Proof.
  intros H. unfold rename_field. cbn [for_hash fits_conditions forallb].
  rewrite key_index_app by now apply hd_is_key_first. rewrite nth_error_app_mid. cbn [he_key].
  rewrite seqb_refl. cbn [rename_f he_value]. now rewrite set_nth_app.
Qed.

(** C23 *)
Lemma no_conditions_fits y : fits_conditions y [] = true.
Proof. reflexivity. Qed.

Lemma idx_step_shift sel e1 e2 e3 n y :
  (match sel with Some is_ => NoDup is_ | None => True end) ->
  pure_step e1 -> pure_step e3 ->
  (forall y, fst (e3 (snd (e2 y : nat * yaml))) = fst (e1 y)) ->
  fst (idx_step [] (@app yaml) sel [] e3 n (snd (idx_step 0 Nat.add sel [] e2 n y)))
  = fst (idx_step [] (@app yaml) sel [] e1 n y).
Proof.
  intros Hd P1 P3 H.
  assert (Harr : forall n els, 
    fst (idx_step [] (@app yaml) sel [] e3 n (snd (idx_step 0 Nat.add sel [] e2 n (Array els))))
    = fst (idx_step [] (@app yaml) sel [] e1 n (Array els))).
  { intros m els. rewrite (idx_step_array_found sel [] e1) by assumption. cbn zeta. cbn [fits_conditions forallb].
    assert (Em : idx_step 0 Nat.add sel [] e2 m (Array els) = idx_step 0 Nat.add sel [] e2 0 (Array els)) by (destruct m; reflexivity).
    rewrite Em. cbn [idx_step fits_conditions forallb]. destruct sel as [is_|].
    - match goal with |- context [idx_loop Nat.add get_elem set_elem ?g is_ 0 els] =>
        pose proof (fun j => idx_loop_get Nat.add g get_elem set_elem (fun i x y l E => get_set_elem_eq i x y l E)
           (fun i j x l E => get_set_elem_neq i j x l E) is_ 0 els j Hd) as Q; destruct (idx_loop Nat.add get_elem set_elem g is_ 0 els) as [c els'] end.
      cbn [snd] in *. rewrite idx_step_array_found by assumption. cbn zeta. cbn [fits_conditions forallb].
      apply flat_map_ext_in. intros i Hi. rewrite Q. destruct (get_elem i els) as [a|]; [|reflexivity].
      destruct (in_dec Nat.eq_dec i is_); [|contradiction]. unfold upd, on_value.
      specialize (H (a_value a)). destruct (e2 (a_value a)). exact H.
    - match goal with |- context [all_loop Nat.add ?g 0 els] =>
          pose proof (all_loop_snd Nat.add g 0 els) as Q2; destruct (all_loop Nat.add g 0 els) as [k l'] end.
      cbn [snd] in *. subst l'. rewrite idx_step_array_found by assumption. cbn zeta. cbn [fits_conditions forallb].
      rewrite !flat_map_concat_map, map_map. f_equal. apply map_ext. intros [c|c|a]; try reflexivity.
      unfold upd, on_value. specialize (H (a_value a)). destruct (e2 (a_value a)). exact H. }
  revert y; induction n as [|n IH]; intros y.
  - destruct y; try reflexivity. apply Harr.
  - destruct y; try reflexivity; [|apply Harr].
    rewrite (idx_step_inline_found sel [] e1) by assumption. cbn zeta. cbn [fits_conditions forallb].
    cbn [idx_step fits_conditions forallb]. destruct sel as [is_|].
    + match goal with |- context [idx_loop Nat.add ?get ?set ?g is_ 0 l] =>
        pose proof (fun j => idx_loop_get Nat.add g get set (fun i x y l E => nth_error_set_nth_eq i x y l E)
           (fun i j x l E => nth_error_set_nth_neq i j x l E) is_ 0 l j Hd) as Q; destruct (idx_loop Nat.add get set g is_ 0 l) as [c els'] end.
      cbn [snd] in *.
      match goal with |- fst ?t = _ => change t with (idx_step [] (@app yaml) (Some is_) [] e3 (S n) (InlineArray els')) end.
      rewrite idx_step_inline_found by assumption. cbn zeta. cbn [fits_conditions forallb].
      apply flat_map_ext_in. intros i Hi. rewrite Q. destruct (nth_error l i) as [a|]; [|reflexivity].
      destruct (in_dec Nat.eq_dec i is_); [|contradiction]. unfold upd.
      specialize (IH a). destruct (idx_step 0 _ _ _ _ _ a). exact IH.
    + match goal with |- context [all_loop Nat.add ?g 0 l] =>
          pose proof (all_loop_snd Nat.add g 0 l) as Q2; destruct (all_loop Nat.add g 0 l) as [k l'] end.
      cbn [snd] in *. subst l'.
      match goal with |- fst ?t = _ => match t with context [all_loop _ _ _ ?ll] =>
        change t with (idx_step [] (@app yaml) None [] e3 (S n) (InlineArray ll)) end end.
      rewrite idx_step_inline_found by assumption. cbn zeta. cbn [fits_conditions forallb].
      rewrite !flat_map_concat_map, map_map. f_equal. apply map_ext. intros a.
      unfold upd. specialize (IH a). destruct (idx_step 0 _ _ _ _ _ a). exact IH.
Qed.

Lemma idx_step_depth_nat sel cs elem n y :
  inline_depth (snd (idx_step 0 Nat.add sel cs elem n y)) = inline_depth y.
Proof. apply idx_step_depth. Qed.

Lemma for_hash_no_key {A} (zero : A) add f r k rest l :
  key_index l k = None -> for_hash zero add f r (PKey k [] rest) (Hash l) = (zero, Hash l).
Proof. intros H. cbn [for_hash fits_conditions forallb]. now rewrite H. Qed.

Lemma for_hash_under_key {A} (zero : A) add f r a k al v b o :
  existsb (hd_is_key k) a = false ->
  for_hash zero add f r (PKey k [] (Some o)) (Hash (a ++ HElem (mkHE k (mkA al v)) :: b))
  = (fst (for_hash zero add f r o v),
     Hash (a ++ HElem (mkHE k (mkA al (snd (for_hash zero add f r o v)))) :: b)).
Proof.
  intros H. cbn [for_hash fits_conditions forallb]. rewrite key_index_app, nth_error_app_mid by assumption.
  unfold on_value. cbn [he_value he_key a_value a_alias]. destruct (for_hash zero add f r o v). cbn.
  now rewrite set_nth_app.
Qed.

Lemma for_hash_at_key {A} (zero : A) add f r a k v b :
  existsb (hd_is_key k) a = false ->
  for_hash zero add f r (PKey k [] None) (Hash (a ++ HElem (mkHE k v) :: b))
  = (fst (f (mkHE k v)), Hash (a ++ HElem (snd (f (mkHE k v))) :: b)).
Proof.
  intros H. cbn [for_hash fits_conditions forallb]. rewrite key_index_app, nth_error_app_mid by assumption.
  cbn [he_key]. rewrite seqb_refl. destruct (f (mkHE k v)). cbn. now rewrite set_nth_app.
Qed.

Theorem to_object_find p k y :
  indexes_distinct p -> no_conditions p -> ends_in_key p = true ->
  find_values (path_insert p (PKey k [] None)) (snd (to_object p k y)) = find_values p y.
Proof.
  unfold find_values, find_values_st, to_object.
  revert y; induction p as [cs|kk cs rest IH|cs rest IH|is_ cs rest IH] using path_ind'; intros y Hd Hc He.
  - discriminate.
  - cbn in Hc. destruct Hc as [-> Hc]. destruct rest as [o|].
    + cbn [path_insert]. destruct y; try reflexivity.
      destruct (key_index l kk) as [i|] eqn:Ei;
        [|repeat (rewrite (for_hash_no_key _ _ _ _ _ _ _ Ei); cbn [fst snd]); reflexivity].
      destruct (key_index_split _ _ _ Ei) as (l1 & [al v] & l2 & -> & <- & Hk).
      repeat (rewrite for_hash_under_key by assumption; cbn [fst snd]). now apply IH.
    + cbn [path_insert]. destruct y; try reflexivity.
      destruct (key_index l kk) as [i|] eqn:Ei;
        [|repeat (rewrite (for_hash_no_key _ _ _ _ _ _ _ Ei); cbn [fst snd]); reflexivity].
      destruct (key_index_split _ _ _ Ei) as (l1 & [al v] & l2 & -> & <- & Hk).
      repeat (rewrite for_hash_at_key by assumption; cbn [to_object_f find_f he_value he_key fst snd]).
      rewrite for_hash_under_key by assumption. cbn [fst].
      pose proof (for_hash_at_key [] (@app yaml) find_f find_r [] k (mkA al v) [] eq_refl) as E. cbn [app] in E.
      now rewrite E.
  - cbn in Hc. destruct Hc as [-> Hc]. destruct rest as [o|]; [|discriminate].
    cbn [path_insert for_hash]. rewrite idx_step_depth_nat.
    apply idx_step_shift; [exact I|apply for_hash_find_pure|apply for_hash_find_pure|].
    intros v. now apply IH.
  - cbn in Hc. destruct Hc as [-> Hc]. destruct rest as [o|]; [|discriminate]. destruct Hd as [Hd1 Hd2].
    cbn [path_insert for_hash]. rewrite idx_step_depth_nat.
    apply idx_step_shift; [exact Hd1|apply for_hash_find_pure|apply for_hash_find_pure|].
    intros v. now apply IH.
Qed.

(** ---- C24: elements that do not satisfy the conditions stay as they are ---- *)

Lemma all_loop_filtered {A} (add : A -> A -> A) g cs acc els :
  (forall d, match d with AElem a => satisfies_b (a_value a) cs = false -> g d = None | _ => g d = None end) ->
  Forall2 (filtered cs) els (snd (all_loop add g acc els)).
Proof.
  intros H. rewrite all_loop_snd. induction els as [|d els IH]; cbn; constructor; [|exact IH].
  specialize (H d). unfold upd, filtered. destruct d as [c|c|a]; try now rewrite H.
  intros Hf. now rewrite H.
Qed.

Lemma idx_loop_filtered {A} (add : A -> A -> A) g cs is_ acc els :
  (forall a, satisfies_b (a_value a) cs = false -> g a = None) ->
  Forall2 (filtered cs) els (snd (idx_loop add get_elem set_elem g is_ acc els)).
Proof.
  intros Hg.
  assert (E : forall acc l, Forall2 (filtered cs) els l ->
     Forall2 (filtered cs) els (snd (idx_loop add get_elem set_elem g is_ acc l))).
  { clear acc. induction is_ as [|i is_ IHi]; intros acc l Hl; [exact Hl|]. cbn [idx_loop].
    destruct (get_elem i l) as [a|] eqn:Ea; [|now apply IHi].
    destruct (g a) as [[n a']|] eqn:Eg; [|now apply IHi]. apply IHi.
    destruct (get_elem_split _ _ _ Ea) as (l1 & l2 & -> & Hs). rewrite Hs.
    apply Forall2_app_inv_r in Hl as (e1 & e2 & H1 & H2 & ->). inversion H2 as [|x y xs ys Hxy Hrest]; subst.
    apply Forall2_app; [assumption|]. constructor; [|assumption].
    unfold filtered in *. destruct x as [c|c|b]; try discriminate.
    intros Hx. specialize (Hxy Hx). inversion Hxy; subst. rewrite Hg in Eg by assumption. discriminate. }
  apply E. apply Forall2_refl. intros [c|c|a]; unfold filtered; auto.
Qed.

Lemma filtering_refl cs op els : op (Array els) = Array els -> filtering cs op els.
Proof.
  intros H. exists els. split; [assumption|]. apply Forall2_refl. intros [c|c|a]; unfold filtered; auto.
Qed.

Theorem edit_filtered f cs rest els p :
  p = PAll cs rest \/ (exists is_, p = PIdx is_ cs rest) ->
  filtering cs (fun y => snd (edit_hash f p y)) els.
Proof.
  intros Hp.
  destruct rest as [o|]; [|apply filtering_refl; destruct Hp as [->|[is_ ->]]; reflexivity].
  unfold filtering.
  destruct Hp as [->|[is_ ->]]; cbn [edit_hash].
  - match goal with |- context [all_loop Nat.add ?g 0 els] =>
      pose proof (all_loop_filtered Nat.add g cs 0 els) as Q; destruct (all_loop Nat.add g 0 els) as [k l'] end.
    cbn [snd] in *. eexists; split; [reflexivity|]. apply Q.
    intros [c|c|a]; auto. intros Hf. rewrite fits_satisfies, Hf. reflexivity.
  - match goal with |- context [idx_loop Nat.add get_elem set_elem ?g is_ 0 els] =>
      pose proof (idx_loop_filtered Nat.add g cs is_ 0 els) as Q; destruct (idx_loop Nat.add get_elem set_elem g is_ 0 els) as [k l'] end.
    cbn [snd] in *. eexists; split; [reflexivity|]. apply Q.
    intros a Hf. rewrite fits_satisfies, Hf. reflexivity.
Qed.

Theorem for_hash_filtered {A} (zero : A) add f r cs rest els p :
  p = PAll cs rest \/ (exists is_, p = PIdx is_ cs rest) ->
  filtering cs (fun y => snd (for_hash zero add f r p y)) els.
Proof.
  intros Hp. unfold filtering.
  destruct Hp as [->|[is_ ->]]; cbn [for_hash inline_depth idx_step].
  - match goal with |- context [all_loop add ?g zero els] =>
      pose proof (all_loop_filtered add g cs zero els) as Q; destruct (all_loop add g zero els) as [k l'] end.
    cbn [snd] in *. eexists; split; [reflexivity|]. apply Q.
    intros [c|c|a]; auto. intros Hf. rewrite fits_satisfies, Hf. reflexivity.
  - match goal with |- context [idx_loop add get_elem set_elem ?g is_ zero els] =>
      pose proof (idx_loop_filtered add g cs is_ zero els) as Q; destruct (idx_loop add get_elem set_elem g is_ zero els) as [k l'] end.
    cbn [snd] in *. eexists; split; [reflexivity|]. apply Q.
    intros a Hf. rewrite fits_satisfies, Hf. reflexivity.
Qed.

Theorem ops_filtered p h ow n k cs rest els :
  p = PAll cs rest \/ (exists is_, p = PIdx is_ cs rest) ->
  filtering cs (fun y => snd (insert_into_hash p h ow y)) els
  /\ filtering cs (fun y => snd (remove_from_hash p y)) els
  /\ filtering cs (fun y => snd (rename_field p n y)) els
  /\ filtering cs (fun y => snd (to_object p k y)) els.
Proof.
  intros Hp. repeat split; first [now apply (edit_filtered _ cs rest) | now apply (for_hash_filtered _ _ _ _ cs rest)].
Qed.

(** ---- C28: documents ---- *)

Lemma doc_edit f p d : doc_result (edit_hash f p) d (edit_hash_doc f p d).
Proof.
  unfold edit_hash_doc, doc_result. rewrite (surjective_pairing (all_loop _ _ _ _)).
  rewrite all_loop_snd, all_loop_counted. cbn. repeat split.
  - apply map_ext. intros [c|y]; unfold upd; cbn; [reflexivity|]. now destruct (edit_hash f p y).
  - f_equal. apply map_ext. intros [c|y]; unfold counted; cbn; [reflexivity|]. now destruct (edit_hash f p y).
Qed.

Lemma doc_for_hash f r p d : doc_result (for_hash 0 Nat.add f r p) d (for_hash_doc 0 Nat.add f r p d).
Proof.
  unfold for_hash_doc, doc_result. rewrite (surjective_pairing (all_loop _ _ _ _)).
  rewrite all_loop_snd, all_loop_counted. cbn. repeat split.
  - apply map_ext. intros [c|y]; unfold upd; cbn; [reflexivity|]. now destruct (for_hash _ _ f r p y).
  - f_equal. apply map_ext. intros [c|y]; unfold counted; cbn; [reflexivity|]. now destruct (for_hash _ _ f r p y).
Qed.

Theorem doc_edits p h ow n k d :
  doc_result (insert_into_hash p h ow) d (insert_into_hash_doc p h ow d)
  /\ doc_result (remove_from_hash p) d (remove_from_hash_doc p d)
  /\ doc_result (rename_field p n) d (rename_field_doc p n d)
  /\ doc_result (to_object p k) d (to_object_doc p k d).
Proof. repeat split; try apply doc_edit; try apply doc_for_hash. Qed.

Theorem doc_find p d :
  snd (find_values_doc p d) = d
  /\ fst (find_values_doc p d)
     = flat_map (fun it => match it with DYaml y => find_values p y | DComment _ => [] end) (items d).
Proof.
  unfold find_values_doc, for_hash_doc. rewrite (surjective_pairing (all_loop _ _ _ _)).
  rewrite all_loop_snd, all_loop_found. split; cbn.
  - destruct d as [ld its]. cbn [leading items]. f_equal. rewrite <- (map_id its) at 2. apply map_ext.
    intros [c|y]; unfold upd; cbn; [reflexivity|].
    pose proof (find_values_pure p y) as E. unfold find_values_st in E.
    destruct (for_hash _ _ _ _ p y). cbn in *. now rewrite E.
  - apply flat_map_ext. intros [c|y]; unfold found; cbn; [reflexivity|].
    unfold find_values, find_values_st. now destruct (for_hash _ _ _ _ p y).
Qed.
