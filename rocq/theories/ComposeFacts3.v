(** Removing twice; renaming there and back. *)
From Coq Require Import Lia.
From Verif Require Import Base Ast Strings Path Insert Spec_Edit Spec_Insert Spec_Compose InsertFacts InsertFacts2 InsertFacts3 InsertFacts4 InsertFacts5 ComposeFacts.
Import ListNotations.

(** ---- removing twice ---- *)
Lemma fold_zero {X L} (get : nat -> L -> option X) (g : X -> option (nat * X)) l is_ :
  (forall i x, In i is_ -> get i l = Some x -> forall n x', g x = Some (n, x') -> n = 0) ->
  fold_left (contrib Nat.add g get l) is_ 0 = 0.
Proof.
  induction is_ as [|i is_ IH]; intros H; [reflexivity|]. cbn [fold_left].
  assert (Z : contrib Nat.add g get l 0 i = 0).
  { unfold contrib. destruct (get i l) as [x|] eqn:E; [|reflexivity]. destruct (g x) as [[n x']|] eqn:Eg; [|reflexivity].
    rewrite (H i x (or_introl eq_refl) E n x' Eg). reflexivity. }
  rewrite Z. apply IH. intros j x Hj. apply H. now right.
Qed.
Lemma all_zero {X} (g : X -> option (nat * X)) l : (forall x, In x l -> forall n x', g x = Some (n, x') -> n = 0) ->
  fst (all_loop Nat.add g 0 l) = 0.
Proof.
  induction l as [|x l IH]; intros H; [reflexivity|]. cbn [all_loop]. specialize (IH (fun z Hz => H z (or_intror Hz))).
  destruct (g x) as [[n x']|] eqn:E.
  - rewrite (H x (or_introl eq_refl) n x' E). cbn [Nat.add]. now destruct (all_loop Nat.add g 0 l).
  - now destruct (all_loop Nat.add g 0 l).
Qed.
Notation keys l := (flat_map (fun d => match d with HElem e => [he_key e] | _ => [] end) l).
Lemma rem_absent k l : ~ In k (keys l) -> fst (rem k l) = 0.
Proof.
  induction l as [|[c|c|[k' v]] l IH]; cbn [rem he_key flat_map app In]; intros H; try reflexivity; try (specialize (IH H); now destruct (rem k l)).
  assert (seqb k' k = false) as -> by (apply seqb_neq; tauto). assert (I : ~ In k (keys l)) by tauto. specialize (IH I). now destruct (rem k l).
Qed.
Lemma rem_once k l : NoDup (keys l) -> fst (rem k (snd (rem k l))) = 0.
Proof.
  induction l as [|[c|c|[k' v]] l IH]; cbn [rem he_key flat_map app]; intros H; try reflexivity;
    try (specialize (IH H); destruct (rem k l); cbn [snd rem] in *; now destruct (rem k _)).
  inversion H as [|? ? Hn Hd]; subst. destruct (seqb k' k) eqn:E.
  - apply seqb_eq in E as ->. cbn [snd]. now apply rem_absent.
  - specialize (IH Hd). destruct (rem k l). cbn [snd rem he_key] in *. rewrite E. now destruct (rem k _).
Qed.
Lemma unique_mid a k al v b : unique_keys (Hash (a ++ HElem (mkHE k (mkA al v)) :: b)) -> unique_keys v.
Proof. intros [_ H]. induction a as [|x a IH]; cbn in H; tauto. Qed.
Lemma unique_inline l x : unique_keys (InlineArray l) -> In x l -> unique_keys x.
Proof. cbn. induction l as [|z l IH]; cbn; [tauto|]. intros [H1 H2] [-> | H]; auto. Qed.
Lemma unique_array l a : unique_keys (Array l) -> In (AElem a) l -> unique_keys (a_value a).
Proof. cbn. induction l as [|z l IH]; cbn; [tauto|]. intros [H1 H2] [-> | H]; auto. Qed.
Lemma all_loop_in {X} (g : X -> option (nat * X)) l acc x : In x (snd (all_loop Nat.add g acc l)) ->
  exists z, In z l /\ x = match g z with Some (_, z') => z' | None => z end.
Proof. rewrite all_loop_snd. intros H. apply in_map_iff in H as (z & E & Hz). exists z. split; [exact Hz|]. symmetry. exact E. Qed.

Theorem remove_again p y : indexes_distinct p -> unique_keys y ->
  remove_from_hash p (snd (remove_from_hash p y)) = (0, snd (remove_from_hash p y)).
Proof.
  intros Hd Hu. assert (Z : fst (remove_from_hash p (snd (remove_from_hash p y))) = 0).
  2:{ pose proof (remove_zero p _ Z) as Q. destruct (remove_from_hash p (snd (remove_from_hash p y))). cbn in *. congruence. }
  unfold remove_from_hash. revert y Hu; induction p as [cs|k cs rest IH|cs rest IH|is_ cs rest IH] using path_ind'; intros y Hu.
  - reflexivity.
  - cbn [edit_hash]. destruct (fits_conditions y cs) eqn:Ef; [|cbn [snd]; now rewrite Ef].
    destruct y as [|l| | | | | | | | ]; try (cbn [snd]; now rewrite Ef).
    destruct rest as [o|].
    + destruct (key_index l k) as [i|] eqn:Ei; [|cbn [snd]; now rewrite Ef, Ei].
      destruct (key_index_split _ _ _ Ei) as (l1 & [al v] & l2 & -> & <- & Hk). rewrite nth_error_app_mid.
      unfold edit_value. cbn [he_value a_value a_alias he_key].
      pose proof (edit_hash_as_string remove_f o v) as Es. specialize (IH Hd v (unique_mid _ _ _ _ _ Hu)).
      destruct (edit_hash remove_f o v) as [n v']. cbn [fst snd] in *. rewrite set_nth_app.
      rewrite <- (fits_set_value _ _ _ _ _ _ _ Es), Ef. rewrite (key_index_app _ _ _ _ Hk), nth_error_app_mid.
      cbn [he_value he_key a_value a_alias]. now destruct (edit_hash remove_f o v').
    + pose proof (act_remove k l) as A. unfold act in A. rewrite A. destruct (rem k l) as [n l'] eqn:El. cbn [snd].
      destruct (fits_conditions (Hash l') cs); [|reflexivity].
      pose proof (act_remove k l') as A'. unfold act in A'. rewrite A'. pose proof (rem_once k l (proj1 Hu)) as R. rewrite El in R. cbn [snd] in R. now destruct (rem k l').
  - destruct rest as [o|]; [|reflexivity]. cbn [edit_hash]. cbn in IH. specialize (IH Hd). destruct y; try reflexivity.
    + match goal with |- context [all_loop Nat.add ?g 0 l] => set (g0 := g) end.
      destruct (all_loop Nat.add g0 0 l) as [n l1] eqn:E1. cbn [snd]. fold g0.
      enough (Q : fst (all_loop Nat.add g0 0 l1) = 0) by now destruct (all_loop Nat.add g0 0 l1).
      apply all_zero. intros x Hx m x' Hg. replace l1 with (snd (all_loop Nat.add g0 0 l)) in Hx by now rewrite E1.
      apply all_loop_in in Hx as (z & Hz & ->). specialize (IH z (unique_inline _ _ Hu Hz)). unfold g0 in *.
      destruct (fits_conditions z cs) eqn:Ez; [|now rewrite Ez in Hg].
      destruct (edit_hash remove_f o z) as [n0 z0]. cbn [snd] in *. destruct (fits_conditions z0 cs); [|discriminate].
      injection Hg as Hg. rewrite Hg in IH. exact IH.
    + match goal with |- context [all_loop Nat.add ?g 0 l] => set (g0 := g) end.
      destruct (all_loop Nat.add g0 0 l) as [n l1] eqn:E1. cbn [snd]. fold g0.
      enough (Q : fst (all_loop Nat.add g0 0 l1) = 0) by now destruct (all_loop Nat.add g0 0 l1).
      apply all_zero. intros x Hx m x' Hg. replace l1 with (snd (all_loop Nat.add g0 0 l)) in Hx by now rewrite E1.
      apply all_loop_in in Hx as (z & Hz & ->). unfold g0 in *. destruct z as [c|c|[al z]]; try discriminate.
      specialize (IH z (unique_array _ _ Hu Hz)). unfold edit_value in *. cbn [a_value a_alias] in *.
      destruct (fits_conditions z cs) eqn:Ez; [|cbn [a_value] in Hg; now rewrite Ez in Hg].
      destruct (edit_hash remove_f o z) as [n0 z0]. cbn [snd a_value] in *. destruct (fits_conditions z0 cs); [|discriminate].
      destruct (edit_hash remove_f o z0) as [m0 z1]. injection Hg as <- _. exact IH.
  - destruct rest as [o|]; [|reflexivity]. cbn [edit_hash]. cbn in IH. destruct Hd as [Hn Hd]. specialize (IH Hd). destruct y; try reflexivity.
    + match goal with |- context [idx_loop Nat.add _ _ ?g is_ 0 l] => set (g0 := g) end.
      destruct (idx_loop Nat.add _ _ g0 is_ 0 l) as [n l1] eqn:E1. cbn [snd]. fold g0.
      enough (Q : fst (idx_loop Nat.add (fun i l => nth_error l i) set_nth g0 is_ 0 l1) = 0) by now destruct (idx_loop Nat.add _ _ g0 is_ 0 l1).
      rewrite (idx_loop_fst Nat.add g0 (fun i l => nth_error l i) set_nth (fun i j x l E => nth_error_set_nth_neq i j x l E)) by exact Hn.
      apply fold_zero. intros i x Hi Hx m x' Hg. replace l1 with (snd (idx_loop Nat.add (fun i l => nth_error l i) set_nth g0 is_ 0 l)) in Hx by now rewrite E1.
      rewrite (idx_loop_get Nat.add g0 (fun i l => nth_error l i) set_nth (fun i x y l E => nth_error_set_nth_eq i x y l E) (fun i j x l E => nth_error_set_nth_neq i j x l E)) in Hx by assumption.
      destruct (nth_error l i) as [z|] eqn:Ez0; [|discriminate]. destruct (in_dec Nat.eq_dec i is_); [|contradiction]. injection Hx as <-.
      specialize (IH z (unique_inline _ _ Hu (nth_error_In _ _ Ez0))). unfold upd, g0 in *.
      destruct (fits_conditions z cs) eqn:Ez; [|now rewrite Ez in Hg].
      destruct (edit_hash remove_f o z) as [n0 z0]. cbn [snd] in *. destruct (fits_conditions z0 cs); [|discriminate].
      injection Hg as Hg. rewrite Hg in IH. exact IH.
    + match goal with |- context [idx_loop Nat.add _ _ ?g is_ 0 l] => set (g0 := g) end.
      destruct (idx_loop Nat.add _ _ g0 is_ 0 l) as [n l1] eqn:E1. cbn [snd]. fold g0.
      enough (Q : fst (idx_loop Nat.add get_elem set_elem g0 is_ 0 l1) = 0) by now destruct (idx_loop Nat.add _ _ g0 is_ 0 l1).
      rewrite (idx_loop_fst Nat.add g0 get_elem set_elem (fun i j x l E => get_set_elem_neq i j x l E)) by exact Hn.
      apply fold_zero. intros i x Hi Hx m x' Hg. replace l1 with (snd (idx_loop Nat.add get_elem set_elem g0 is_ 0 l)) in Hx by now rewrite E1.
      rewrite (idx_loop_get Nat.add g0 get_elem set_elem (fun i x y l E => get_set_elem_eq i x y l E) (fun i j x l E => get_set_elem_neq i j x l E)) in Hx by assumption.
      destruct (get_elem i l) as [[al z]|] eqn:Ez0; [|discriminate]. destruct (in_dec Nat.eq_dec i is_); [|contradiction]. injection Hx as <-.
      assert (Hin : In (AElem (mkA al z)) l).
      { clear - Ez0. revert i Ez0; induction l as [|[c|c|d] l I]; intros i H; cbn in H; try discriminate; [right; eauto|right; eauto|].
        destruct i; [injection H as ->; now left|right; eauto]. }
      specialize (IH z (unique_array _ _ Hu Hin)). unfold upd, g0, edit_value in *. cbn [a_value a_alias] in *.
      destruct (fits_conditions z cs) eqn:Ez; [|cbn [a_value] in Hg; now rewrite Ez in Hg].
      destruct (edit_hash remove_f o z) as [n0 z0]. cbn [snd a_value a_alias] in *. destruct (fits_conditions z0 cs); [|discriminate].
      destruct (edit_hash remove_f o z0) as [m0 z1]. injection Hg as <- _. exact IH.
Qed.

(** ---- renaming there and back ---- *)
Definition ren (n : str) : closure := fun l _ i =>
  match i with
  | Some i => match nth_error l i with Some (HElem e) => (1, set_nth i (HElem (mkHE n (he_value e))) l) | _ => (0, l) end
  | None => (0, l)
  end.
Fixpoint rn (k n : str) (l : list hashdata) : nat * list hashdata :=
  match l with
  | [] => (0, [])
  | HElem e :: t => if seqb (he_key e) k then (1, HElem (mkHE n (he_value e)) :: t) else let '(m, t') := rn k n t in (m, HElem e :: t')
  | d :: t => let '(m, t') := rn k n t in (m, d :: t')
  end.
Lemma act_ren k n l : act (ren n) k l = rn k n l.
Proof.
  unfold act. induction l as [|d l IH]; [reflexivity|]. rewrite key_index_cons.
  destruct d as [c|c|[k' v]]; cbn [hd_is_key rn he_key];
    try (rewrite <- IH; destruct (key_index l k) as [i|]; [|reflexivity]; cbn [option_map ren nth_error]; destruct (nth_error l i) as [[]|]; reflexivity).
  destruct (seqb k' k); [reflexivity|]. rewrite <- IH. destruct (key_index l k) as [i|]; [|reflexivity].
  cbn [option_map ren nth_error]; destruct (nth_error l i) as [[]|]; reflexivity.
Qed.
Lemma rn_back k n l : fst (rn n k l) = 0 -> rn n k (snd (rn k n l)) = (fst (rn k n l), l).
Proof.
  induction l as [|[c|c|[k' v]] l IH]; cbn [rn he_key]; intros H; try reflexivity;
    try (assert (H' : fst (rn n k l) = 0) by (destruct (rn n k l); exact H); specialize (IH H'); destruct (rn k n l); cbn [fst snd rn] in *; now rewrite IH).
  destruct (seqb k' n) eqn:En; [discriminate|]. assert (H' : fst (rn n k l) = 0) by (destruct (rn n k l); exact H). specialize (IH H').
  destruct (seqb k' k) eqn:Ek.
  - cbn [fst snd rn he_key he_value]. rewrite seqb_refl. apply seqb_eq in Ek as ->. reflexivity.
  - destruct (rn k n l). cbn [fst snd rn he_key] in *. now rewrite En, IH.
Qed.
Lemma first_rn k n a l : a <> k -> a <> n -> first_value a (snd (rn k n l)) = first_value a l.
Proof.
  intros N1 N2. induction l as [|[c|c|[k' v]] l IH]; cbn [rn he_key first_value] in *; try reflexivity; try (destruct (rn k n l); exact IH).
  destruct (seqb k' k) eqn:E1; cbn [snd first_value he_key he_value].
  - apply seqb_eq in E1 as ->. assert (seqb k a = false) as -> by (apply seqb_neq; congruence). assert (seqb n a = false) as -> by (apply seqb_neq; congruence). reflexivity.
  - destruct (rn k n l). cbn [snd first_value] in *. now rewrite IH.
Qed.
Lemma keeps_ren n cs k : ~ In k (map c_field cs) -> ~ In n (map c_field cs) -> keeps (ren n) cs k.
Proof.
  intros N1 N2 l H. rewrite act_ren. rewrite (fits_avoid l); [exact H|]. intros a Ha. apply first_rn; intros ->; contradiction.
Qed.

(** An edit undone by another one. *)
Section Back.
  Context (f g : closure) (k k2 : str).
  Context (undo : forall l, fst (act g k2 l) = 0 -> act g k2 (snd (act f k l)) = (fst (act f k l), l)).
  Theorem edit_back p : forall y, last_key p = Some k -> indexes_distinct p -> stable f p ->
    fst (edit_hash g (with_key k2 p) y) = 0 ->
    edit_hash g (with_key k2 p) (snd (edit_hash f p y)) = (fst (edit_hash f p y), y).
  Proof.
    induction p as [cs|k0 cs rest IH|cs rest IH|is_ cs rest IH] using path_ind'; intros y Lk Hd Hs H0.
    - reflexivity.
    - destruct rest as [o|]; cbn [with_key edit_hash last_key] in *.
      + destruct (fits_conditions y cs) eqn:Ef; [|cbn [snd fst]; now rewrite Ef].
        destruct y as [|l| | | | | | | | ]; try (cbn [snd fst]; now rewrite Ef).
        destruct (key_index l k0) as [i|] eqn:Ei; [|cbn [snd fst]; now rewrite Ef, Ei].
        destruct (key_index_split _ _ _ Ei) as (l1 & [al v] & l2 & -> & <- & Hk). rewrite nth_error_app_mid in *.
        unfold edit_value in *. cbn [he_value a_value a_alias he_key] in *.
        assert (H0' : fst (edit_hash g (with_key k2 o) v) = 0) by (destruct (edit_hash g _ v); exact H0).
        pose proof (edit_hash_as_string f o v) as Es. specialize (IH v Lk Hd Hs H0').
        destruct (edit_hash f o v) as [n v']. cbn [fst snd] in *. rewrite set_nth_app.
        rewrite <- (fits_set_value _ _ _ _ _ _ _ Es), Ef. rewrite (key_index_app _ _ _ _ Hk), nth_error_app_mid.
        cbn [he_value he_key a_value a_alias]. rewrite IH. now rewrite !set_nth_app.
      + injection Lk as ->. destruct (fits_conditions y cs) eqn:Ef; [|cbn [snd fst]; now rewrite Ef].
        destruct y as [|l| | | | | | | | ]; try (cbn [snd fst]; now rewrite Ef).
        pose proof (Hs l Ef) as Hf. specialize (undo l). unfold act in *.
        assert (H0' : fst (g l k2 (key_index l k2)) = 0) by (destruct (g l k2 _); exact H0). specialize (undo H0').
        destruct (f l k (key_index l k)) as [n l']. cbn [snd fst] in *. now rewrite Hf, undo.
    - destruct rest as [o|]; [|discriminate]. destruct Hs as [Hs He]. cbn [with_key edit_hash last_key] in *. cbn in IH, Hd. destruct y; try reflexivity.
      + match goal with |- context [all_loop Nat.add ?g1 0 l] => match type of H0 with context [all_loop Nat.add ?g2 0 l] =>
          pose proof (all_loop_undo g1 g2 l) as U end end.
        match type of U with ?P -> _ => assert (HP : P) end.
        { intros x. destruct (fits_conditions x cs) eqn:Ef; intros Hz; [|reflexivity].
          specialize (IH x Lk Hd Hs). pose proof (edit_fits f o cs x He Ef) as Ef2. 
          destruct (edit_hash f o x) as [n x']. cbn [fst snd] in *. rewrite Ef2. f_equal. rewrite IH; [reflexivity|].
          destruct (edit_hash g _ x) as [a2 x2]. eapply Hz; reflexivity. }
        specialize (U HP). destruct (all_loop Nat.add _ 0 l) as [n2 l2]. cbn [fst] in *.
        destruct (all_loop Nat.add _ 0 l) as [n1 l1]. cbn [fst snd] in *. rewrite (U H0). reflexivity.
      + match goal with |- context [all_loop Nat.add ?g1 0 l] => match type of H0 with context [all_loop Nat.add ?g2 0 l] =>
          pose proof (all_loop_undo g1 g2 l) as U end end.
        match type of U with ?P -> _ => assert (HP : P) end.
        { intros [c|c|[al x]]; cbn [a_value]; try reflexivity.
          destruct (fits_conditions x cs) eqn:Ef; intros Hz; [|reflexivity].
          specialize (IH x Lk Hd Hs). pose proof (edit_fits f o cs x He Ef) as Ef2. unfold edit_value in *. cbn [a_value a_alias] in *.
          destruct (edit_hash f o x) as [n x']. cbn [fst snd a_value a_alias] in *. rewrite Ef2. rewrite IH; [reflexivity|].
          destruct (edit_hash g _ x) as [a2 x2]. eapply Hz; reflexivity. }
        specialize (U HP). destruct (all_loop Nat.add _ 0 l) as [n2 l2]. cbn [fst] in *.
        destruct (all_loop Nat.add _ 0 l) as [n1 l1]. cbn [fst snd] in *. rewrite (U H0). reflexivity.
    - destruct rest as [o|]; [|discriminate]. destruct Hs as [Hs He]. cbn [with_key edit_hash last_key] in *. cbn in IH, Hd. destruct Hd as [Hn Hd]. destruct y; try reflexivity.
      + match goal with |- context [idx_loop Nat.add ?get ?set ?g1 is_ 0 l] => match type of H0 with context [idx_loop Nat.add _ _ ?g2 is_ 0 l] =>
          pose proof (idx_loop_undo get set (fun i x y l E => nth_error_set_nth_eq i x y l E) (fun i j x l E => nth_error_set_nth_neq i j x l E)
             (fun i j x y l E => nth_set_comm i j x y l E) (fun i l x E => set_nth_same i x l E)
             (fun i x y l => set_nth_set_nth i x y l) g1 g2) as U end end.
        match type of U with ?P -> _ => assert (HP : P) end.
        { intros x. destruct (fits_conditions x cs) eqn:Ef; intros Hz; [|reflexivity].
          specialize (IH x Lk Hd Hs). pose proof (edit_fits f o cs x He Ef) as Ef2. 
          destruct (edit_hash f o x) as [n x']. cbn [fst snd] in *. rewrite Ef2. f_equal. rewrite IH; [reflexivity|].
          destruct (edit_hash g _ x) as [a2 x2]. eapply Hz; reflexivity. }
        specialize (U HP is_ l Hn). destruct (idx_loop Nat.add _ _ _ _ 0 l) as [n2 l2]. cbn [fst] in *.
        destruct (idx_loop Nat.add _ _ _ _ 0 l) as [n1 l1]. cbn [fst snd] in *. rewrite (U H0). reflexivity.
      + match goal with |- context [idx_loop Nat.add ?get ?set ?g1 is_ 0 l] => match type of H0 with context [idx_loop Nat.add _ _ ?g2 is_ 0 l] =>
          pose proof (idx_loop_undo get set (fun i x y l E => get_set_elem_eq i x y l E) (fun i j x l E => get_set_elem_neq i j x l E)
             (fun i j x y l E => elem_set_comm i j x y l E) (fun i l x E => get_elem_set_same i x l E) set_set_elem g1 g2) as U end end.
        match type of U with ?P -> _ => assert (HP : P) end.
        { intros [al x]; cbn [a_value].
          destruct (fits_conditions x cs) eqn:Ef; intros Hz; [|reflexivity].
          specialize (IH x Lk Hd Hs). pose proof (edit_fits f o cs x He Ef) as Ef2. unfold edit_value in *. cbn [a_value a_alias] in *.
          destruct (edit_hash f o x) as [n x']. cbn [fst snd a_value a_alias] in *. rewrite Ef2. rewrite IH; [reflexivity|].
          destruct (edit_hash g _ x) as [a2 x2]. eapply Hz; reflexivity. }
        specialize (U HP is_ l Hn). destruct (idx_loop Nat.add _ _ _ _ 0 l) as [n2 l2]. cbn [fst] in *.
        destruct (idx_loop Nat.add _ _ _ _ 0 l) as [n1 l1]. cbn [fst snd] in *. rewrite (U H0). reflexivity.
  Qed.
End Back.

(** Renaming as an edit. *)
Lemma idx_step_flat (elem : yaml -> nat * yaml) sel cs n y : flat_inline y = true -> idx_step 0 Nat.add sel cs elem n y = (0, y).
Proof.
  revert y; induction n as [|n IH]; intros y Hy; destruct y; try reflexivity; try discriminate. cbn [idx_step]. cbn in Hy. rewrite forallb_forall in Hy.
  destruct sel as [is_|].
  - assert (E : forall js, idx_loop Nat.add (fun i l => nth_error l i) set_nth
       (fun e => if fits_conditions e cs then Some (idx_step 0 Nat.add (Some is_) cs elem n e) else None) js 0 l = (0, l)); [|now rewrite E].
    induction js as [|i js IHi]; [reflexivity|]. cbn [idx_loop].
    destruct (nth_error l i) as [x|] eqn:Ex; [|assumption]. destruct (fits_conditions x cs); [|assumption].
    rewrite IH by (apply Hy; eapply nth_error_In; eassumption). cbn [Nat.add]. now rewrite (set_nth_same _ _ _ Ex).
  - assert (E : forall l, (forall x, In x l -> flat_inline x = true) -> all_loop Nat.add (fun e => if fits_conditions e cs then Some (idx_step 0 Nat.add None cs elem n e) else None) 0 l = (0, l)); [|now rewrite E].
    clear - IH. induction l as [|x l I]; intros H; [reflexivity|]. cbn [all_loop]. rewrite IH by (apply H; now left). cbn [Nat.add].
    destruct (fits_conditions x cs); cbn [Nat.add]; now rewrite I by (intros; apply H; now right).
Qed.
Lemma ok_mid a k al v b : inline_ok (Hash (a ++ HElem (mkHE k (mkA al v)) :: b)) = true -> inline_ok v = true.
Proof. cbn. rewrite forallb_forall. intros H. specialize (H (HElem (mkHE k (mkA al v)))). apply H. apply in_or_app. right. now left. Qed.
Lemma all_loop_agree {X} (g1 g2 : X -> option (nat * X)) l acc : (forall x, In x l -> g1 x = g2 x) -> all_loop Nat.add g1 acc l = all_loop Nat.add g2 acc l.
Proof.
  revert acc; induction l as [|x l IH]; intros acc H; [reflexivity|]. cbn [all_loop]. rewrite (H x (or_introl eq_refl)).
  destruct (g2 x) as [[n x']|]; now rewrite IH by (intros; apply H; now right).
Qed.
Lemma idx_loop_agree {X L} (get : nat -> L -> option X) set (neq : forall i j x l, i <> j -> get j (set i x l) = get j l) (g1 g2 : X -> option (nat * X)) is_ :
  NoDup is_ -> forall l acc, (forall i x, In i is_ -> get i l = Some x -> g1 x = g2 x) ->
  idx_loop Nat.add get set g1 is_ acc l = idx_loop Nat.add get set g2 is_ acc l.
Proof.
  induction 1 as [|i is_ Hi Hd IH]; intros l acc H; [reflexivity|]. cbn [idx_loop].
  assert (H' : forall j x, In j is_ -> get j l = Some x -> g1 x = g2 x) by (intros j x Hj; apply H; now right).
  destruct (get i l) as [x|] eqn:E; [|now apply IH]. rewrite (H i x (or_introl eq_refl) E). destruct (g2 x) as [[n x']|]; [|now apply IH].
  apply IH. intros j z Hj Hz. apply (H' j z Hj). rewrite <- Hz. symmetry. apply neq. intros ->. contradiction.
Qed.
Lemma rename_as_edit n p y : last_key p <> None -> indexes_distinct p -> inline_ok y = true -> rename_field p n y = edit_hash (ren n) p y.
Proof.
  unfold rename_field. revert y; induction p as [cs|k cs rest IH|cs rest IH|is_ cs rest IH] using path_ind'; intros y Lk Hd Hy.
  - now destruct Lk.
  - destruct rest as [o|]; cbn [for_hash edit_hash last_key] in *.
    + destruct (fits_conditions y cs); [|reflexivity]. destruct y as [|l| | | | | | | | ]; try reflexivity.
      destruct (key_index l k) as [i|] eqn:Ei; [|reflexivity].
      destruct (key_index_split _ _ _ Ei) as (l1 & [al v] & l2 & -> & <- & Hk). rewrite nth_error_app_mid.
      unfold edit_value, on_value. cbn [he_value a_value a_alias he_key]. rewrite (IH v Lk Hd (ok_mid _ _ _ _ _ Hy)). now destruct (edit_hash (ren n) o v).
    + destruct (fits_conditions y cs); [|reflexivity]. destruct y as [|l| | | | | | | | ]; try reflexivity.
      destruct (key_index l k) as [i|] eqn:Ei; [|reflexivity].
      destruct (key_index_split _ _ _ Ei) as (l1 & [al v] & l2 & -> & <- & Hk). unfold ren. rewrite nth_error_app_mid. cbn [he_key]. now rewrite seqb_refl.
  - destruct rest as [o|]; [|now destruct Lk]. cbn [for_hash edit_hash last_key] in *. cbn in IH, Hd. destruct y; try reflexivity.
    + rewrite idx_step_flat by exact Hy. pose proof (edit_flat_inline (ren n) (PAll cs (Some o)) (InlineArray l) Hy) as E. cbn [edit_hash] in E. now rewrite E.
    + cbn [inline_depth idx_step]. cbn in Hy. rewrite forallb_forall in Hy.
      rewrite (all_loop_agree _ (fun d => match d with AElem e => if fits_conditions (a_value e) cs then let '(n, e') := edit_value (edit_hash (ren n) o) e in Some (n, AElem e') else None | _ => None end)); [reflexivity|].
      intros [c|c|[al x]] Hx; try reflexivity. unfold on_value, edit_value. cbn [a_value a_alias]. now rewrite (IH x Lk Hd (Hy _ Hx)).
  - destruct rest as [o|]; [|now destruct Lk]. cbn [for_hash edit_hash last_key] in *. cbn in IH, Hd. destruct Hd as [Hn Hd]. destruct y; try reflexivity.
    + rewrite idx_step_flat by exact Hy. pose proof (edit_flat_inline (ren n) (PIdx is_ cs (Some o)) (InlineArray l) Hy) as E. cbn [edit_hash] in E. now rewrite E.
    + cbn [inline_depth idx_step]. cbn in Hy. rewrite forallb_forall in Hy.
      rewrite (idx_loop_agree get_elem set_elem (fun i j x l E => get_set_elem_neq i j x l E) _ (fun e => if fits_conditions (a_value e) cs then Some (edit_value (edit_hash (ren n) o) e) else None)); [reflexivity|exact Hn|].
      intros i [al x] _ Hx. unfold on_value, edit_value. cbn [a_value a_alias].
      assert (Hin : In (AElem (mkA al x)) l).
      { clear - Hx. revert i Hx; induction l as [|[c|c|d] l I]; intros i H; cbn in H; try discriminate; [right; eauto|right; eauto|].
        destruct i; [injection H as ->; now left|right; eauto]. }
      now rewrite (IH x Lk Hd (Hy _ Hin)).
Qed.
Lemma flat_erase : forall y, flat_inline (erase_keys y) = flat_inline y.
Proof.
  fix IH 1. intros [| | l | | | | | | | ]; try reflexivity. cbn. induction l as [|x l I]; [reflexivity|]. cbn. now rewrite IH, I.
Qed.
Lemma ok_erase : forall y, inline_ok (erase_keys y) = inline_ok y.
Proof.
  fix IH 1. intros [|l|l|l| | | | | | ]; try reflexivity; cbn; induction l as [|x l I]; try reflexivity; cbn; rewrite I; f_equal.
  - destruct x as [c|c|[k [al v]]]; try reflexivity. apply IH.
  - apply flat_erase.
  - destruct x as [c|c|[al v]]; try reflexivity. apply IH.
Qed.
Lemma ends_last p : ends_in_key p = true <-> last_key p <> None.
Proof. induction p as [cs|k cs [o|] IH|cs [o|] IH|is_ cs [o|] IH] using path_ind'; cbn; try (split; congruence); exact IH. Qed.
Theorem rename_back p k n y : last_key p = Some k -> indexes_distinct p -> unconditional p k -> unconditional p n ->
  inline_ok y = true -> find_values (with_key n p) y = [] ->
  rename_field (with_key n p) k (snd (rename_field p n y)) = (fst (rename_field p n y), y).
Proof.
  intros Lk Hd U1 U2 Hy Hf. pose proof (with_last n p k Lk) as Lq. pose proof (proj2 (with_distinct n p) Hd) as Dq.
  assert (Z : fst (rename_field (with_key n p) k y) = 0).
  { rewrite rename_count; [now rewrite Hf|exact Dq|apply ends_last; rewrite Lq; discriminate]. }
  assert (Hy2 : inline_ok (snd (rename_field p n y)) = true) by (now rewrite <- ok_erase, rename_keeps_everything_else, ok_erase).
  rewrite (rename_as_edit k (with_key n p)) in * by (try assumption; rewrite Lq; discriminate).
  rewrite (rename_as_edit n p) in * by (try assumption; rewrite Lk; discriminate).
  apply (edit_back (ren n) (ren k) k n); try assumption.
  - intros l. rewrite !act_ren. apply rn_back.
  - apply (stable_from _ p k Lk). intros cs Hc. apply keeps_ren; eapply avoid_sub; eassumption.
Qed.

(** ---- documents ---- *)
Section Docs.
  Context (op1 op2 : yaml -> nat * yaml) (d d1 d2 : document) (n1 n2 : nat).
  Context (H1 : doc_result op1 d (n1, d1)) (H2 : doc_result op2 d1 (n2, d2)).
  Lemma doc_then (op3 : yaml -> nat * yaml) : (forall y, In (DYaml y) (items d) -> op2 (snd (op1 y)) = op3 y) -> doc_result op3 d (n2, d2).
  Proof.
    intros E. destruct H1 as (L1 & I1 & _), H2 as (L2 & I2 & C2). cbn [fst snd] in *. rewrite I1, map_map in *.
    repeat split; cbn [fst snd].
    - congruence.
    - rewrite I2. apply map_ext_in. intros [c|y] Hy; [reflexivity|]. now rewrite E.
    - rewrite C2. f_equal. apply map_ext_in. intros [c|y] Hy; [reflexivity|]. now rewrite E.
  Qed.
End Docs.
Lemma doc_unique op d n1 d1 n2 d2 : doc_result op d (n1, d1) -> doc_result op d (n2, d2) -> n1 = n2 /\ d1 = d2.
Proof.
  intros (L1 & I1 & C1) (L2 & I2 & C2). cbn [fst snd] in *. split; [congruence|]. destruct d1, d2. cbn in *. congruence.
Qed.
