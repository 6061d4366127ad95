(** Inserting, removing and renaming one after the other. *)
From Coq Require Import Lia.
From Verif Require Import Base Ast Strings Path Insert Spec_Edit Spec_Insert Spec_Compose InsertFacts InsertFacts2 InsertFacts3 InsertFacts4 InsertFacts5 ComposeFacts.
Import ListNotations.

Lemma ins_again k h h2 ow l : ins k h2 false (snd (ins k h ow l)) = (0, snd (ins k h ow l)).
Proof.
  induction l as [|[c|c|[k' v]] l IH]; cbn [ins he_key snd]; rewrite ?seqb_refl; try reflexivity;
    try (destruct (ins k h ow l); cbn [snd ins] in *; now rewrite IH).
  destruct (seqb k' k) eqn:E.
  - destruct ow; cbn [snd ins he_key]; rewrite ?seqb_refl, ?E; reflexivity.
  - destruct (ins k h ow l). cbn [snd ins he_key] in *. now rewrite E, IH.
Qed.
Lemma ins_wins k h h2 ow l : ins k h2 true (snd (ins k h ow l)) = ins k h2 true l.
Proof.
  induction l as [|[c|c|[k' v]] l IH]; cbn [ins he_key snd]; rewrite ?seqb_refl; try reflexivity;
    try (destruct (ins k h ow l); cbn [snd ins] in *; now rewrite IH).
  destruct (seqb k' k) eqn:E.
  - destruct ow; cbn [snd ins he_key]; rewrite ?seqb_refl, ?E; reflexivity.
  - destruct (ins k h ow l). cbn [snd ins he_key] in *. now rewrite E, IH.
Qed.
Lemma ins_count k h l : fst (ins k h true l) = 1.
Proof. induction l as [|[c|c|[k' v]] l IH]; cbn [ins he_key]; try reflexivity; [| |destruct (seqb k' k); [reflexivity|]]; destruct (ins k h true l); exact IH. Qed.
Lemma rem_ins k h ow l : rem k (snd (ins k h ow l)) = (1, snd (rem k l)).
Proof.
  induction l as [|[c|c|[k' v]] l IH]; cbn [ins rem he_key snd]; rewrite ?seqb_refl; try reflexivity;
    try (destruct (ins k h ow l), (rem k l); cbn [snd rem] in *; now rewrite IH).
  destruct (seqb k' k) eqn:E.
  - destruct ow; cbn [snd rem he_key]; rewrite ?seqb_refl, ?E; reflexivity.
  - destruct (ins k h ow l), (rem k l). cbn [snd rem he_key] in *. now rewrite E, IH.
Qed.
Lemma rem_rem k1 k2 l : k1 <> k2 -> rem k2 (snd (rem k1 l)) = (fst (rem k2 l), snd (rem k1 (snd (rem k2 l)))).
Proof.
  intros N. induction l as [|[c|c|[k' v]] l IH]; cbn [rem he_key]; try reflexivity;
    try (destruct (rem k1 l), (rem k2 l); cbn [fst snd rem] in *; rewrite IH; now destruct (rem k1 _)).
  destruct (seqb k' k1) eqn:E1, (seqb k' k2) eqn:E2; cbn [fst snd].
  - apply seqb_eq in E1, E2. congruence.
  - destruct (rem k2 l). cbn [rem fst snd he_key]. now rewrite E1.
  - destruct (rem k1 l). cbn [rem fst snd he_key]. now rewrite E2.
  - destruct (rem k1 l), (rem k2 l). cbn [rem fst snd he_key] in *. rewrite E1, E2, IH. now destruct (rem k1 _).
Qed.
Lemma rem_ins_other k1 k2 h ow l : k1 <> k2 ->
  rem k2 (snd (ins k1 h ow l)) = (fst (rem k2 l), snd (ins k1 h ow (snd (rem k2 l)))).
Proof.
  intros N. assert (N12 : seqb k1 k2 = false) by now apply seqb_neq.
  induction l as [|[c|c|[k' v]] l IH]; cbn [rem ins he_key];
    try (destruct (ins k1 h ow l), (rem k2 l); cbn [fst snd rem ins] in *; rewrite IH; now destruct (ins k1 h ow _)).
  - cbn [rem snd fst he_key ins]. now rewrite N12.
  - destruct (seqb k' k1) eqn:E1, (seqb k' k2) eqn:E2.
    + apply seqb_eq in E1, E2. congruence.
    + destruct ow; cbn [snd rem he_key]; rewrite ?N12, ?E2; destruct (rem k2 l); cbn [fst snd ins he_key]; now rewrite ?E1.
    + cbn [fst snd]; destruct (ins k1 h ow l). cbn [fst snd rem he_key]. now rewrite E2.
    + destruct (ins k1 h ow l), (rem k2 l). cbn [rem ins fst snd he_key] in *. rewrite E1, E2, IH. now destruct (ins k1 h ow _).
Qed.
Lemma ins_ins_count k1 k2 h1 h2 o1 o2 l : k1 <> k2 -> fst (ins k2 h2 o2 (snd (ins k1 h1 o1 l))) = fst (ins k2 h2 o2 l).
Proof.
  intros N. assert (N12 : seqb k1 k2 = false) by now apply seqb_neq.
  induction l as [|[c|c|[k' v]] l IH]; cbn [ins he_key];
    try (destruct (ins k1 h1 o1 l); cbn [fst snd ins] in *; revert IH; destruct (ins k2 h2 o2 _), (ins k2 h2 o2 _); exact (fun H => H)).
  - cbn [snd fst he_key ins]. now rewrite N12.
  - destruct (seqb k' k1) eqn:E1.
    + destruct o1; cbn [snd ins he_key]; [|reflexivity]. apply seqb_eq in E1. subst k'. rewrite N12. now destruct (ins k2 h2 o2 l).
    + destruct (ins k1 h1 o1 l). cbn [snd ins he_key] in *. destruct (seqb k' k2); [destruct o2; reflexivity|].
      revert IH; destruct (ins k2 h2 o2 _), (ins k2 h2 o2 _); exact (fun H => H).
Qed.

(** Counts alone. *)
Section Counts.
  Context (f g : closure) (k k2 : str) (E : forall l, fst (act f k l) = fst (act g k2 l)).
  Lemma contrib_same {X L} (get : nat -> L -> option X) (g1 g2 : X -> option (nat * X)) l :
    (forall x, match g1 x, g2 x with Some (a, _), Some (b, _) => a = b | None, None => True | _, _ => False end) ->
    forall is_ acc, fold_left (contrib Nat.add g1 get l) is_ acc = fold_left (contrib Nat.add g2 get l) is_ acc.
  Proof.
    intros H. induction is_ as [|i is_ IH]; intros acc; [reflexivity|]. cbn [fold_left]. rewrite IH. f_equal. unfold contrib.
    destruct (get i l) as [x|]; [|reflexivity]. specialize (H x). destruct (g1 x) as [[]|], (g2 x) as [[]|]; try contradiction; now subst.
  Qed.
  Lemma all_same {X} (g1 g2 : X -> option (nat * X)) l :
    (forall x, match g1 x, g2 x with Some (a, _), Some (b, _) => a = b | None, None => True | _, _ => False end) ->
    forall acc, fst (all_loop Nat.add g1 acc l) = fst (all_loop Nat.add g2 acc l).
  Proof.
    intros H. induction l as [|x l IH]; intros acc; [reflexivity|]. cbn [all_loop]. specialize (H x).
    destruct (g1 x) as [[a xa]|], (g2 x) as [[b xb]|]; try contradiction; subst.
    - specialize (IH (acc + b)). now destruct (all_loop _ g1 _ l), (all_loop _ g2 _ l).
    - specialize (IH acc). now destruct (all_loop _ g1 _ l), (all_loop _ g2 _ l).
  Qed.
  Lemma edit_counts_same p : last_key p = Some k -> indexes_distinct p -> forall y,
    fst (edit_hash f p y) = fst (edit_hash g (with_key k2 p) y).
  Proof.
    induction p as [cs|k0 cs rest IH|cs rest IH|is_ cs rest IH] using path_ind'; intros Lk Hd y.
    - reflexivity.
    - destruct rest as [o|]; cbn [with_key edit_hash last_key] in *.
      + destruct (fits_conditions y cs); [|reflexivity]. destruct y; try reflexivity. destruct (key_index l k0) as [i|]; [|reflexivity].
        destruct (nth_error l i) as [[]|]; try reflexivity.
        specialize (IH Lk Hd (a_value (he_value e))). unfold edit_value. now destruct (edit_hash f o _), (edit_hash g _ _).
      + injection Lk as ->. destruct (fits_conditions y cs); [|reflexivity]. destruct y; try reflexivity. specialize (E l). unfold act in *.
        now destruct (f l k _), (g l k2 _).
    - destruct rest as [o|]; [|discriminate]. cbn [with_key edit_hash last_key] in *. specialize (IH Lk Hd). destruct y; try reflexivity.
      + match goal with |- fst (let '(_, _) := ?A in _) = fst (let '(_, _) := ?B in _) => enough (Q : fst A = fst B) by (destruct A, B; exact Q) end.
        apply all_same. intros x. destruct (fits_conditions x cs); [|exact I]. specialize (IH x). now destruct (edit_hash f o x), (edit_hash g _ x).
      + match goal with |- fst (let '(_, _) := ?A in _) = fst (let '(_, _) := ?B in _) => enough (Q : fst A = fst B) by (destruct A, B; exact Q) end.
        apply all_same. intros [c|c|[al x]]; try exact I. cbn [a_value]. destruct (fits_conditions x cs); [|exact I]. specialize (IH x).
        unfold edit_value. cbn [a_value]. now destruct (edit_hash f o x), (edit_hash g _ x).
    - destruct rest as [o|]; [|discriminate]. cbn [with_key edit_hash last_key] in *. destruct Hd as [Hn Hd]. specialize (IH Lk Hd). destruct y; try reflexivity.
      + match goal with |- fst (let '(_, _) := ?A in _) = fst (let '(_, _) := ?B in _) => enough (Q : fst A = fst B) by (destruct A, B; exact Q) end.
        rewrite !(idx_loop_fst Nat.add _ (fun i l => nth_error l i) set_nth (fun i j x l E => nth_error_set_nth_neq i j x l E)) by exact Hn.
        apply contrib_same. intros x. destruct (fits_conditions x cs); [|exact I]. specialize (IH x). now destruct (edit_hash f o x), (edit_hash g _ x).
      + match goal with |- fst (let '(_, _) := ?A in _) = fst (let '(_, _) := ?B in _) => enough (Q : fst A = fst B) by (destruct A, B; exact Q) end.
        rewrite !(idx_loop_fst Nat.add _ get_elem set_elem (fun i j x l E => get_set_elem_neq i j x l E)) by exact Hn.
        apply contrib_same. intros [al x]. cbn [a_value]. destruct (fits_conditions x cs); [|exact I]. specialize (IH x).
        unfold edit_value. cbn [a_value]. now destruct (edit_hash f o x), (edit_hash g _ x).
  Qed.
End Counts.

(** ---- the edits ---- *)
Lemma stable_insert p h ow : ow = false \/ avoids p -> stable (insert_f h ow) p.
Proof.
  intros H. destruct (last_key p) as [k|] eqn:Lk.
  - apply (stable_from _ p k Lk). intros cs Hc. destruct H as [-> | H]; [apply keeps_false|]. apply keeps_insert. exact (avoid_sub _ _ _ (H k Lk) Hc).
  - clear H. induction p as [cs|k0 cs [o|] IH|cs [o|] IH|is_ cs [o|] IH] using path_ind'; cbn in *; try discriminate; auto;
      (split; [auto|]; destruct o as [|? ? []| |]; cbn in *; try exact I; discriminate).
Qed.
Lemma stable_remove p : avoids p -> stable remove_f p.
Proof.
  intros H. destruct (last_key p) as [k|] eqn:Lk.
  - apply (stable_from _ p k Lk). intros cs Hc. apply keeps_remove. exact (avoid_sub _ _ _ (H k Lk) Hc).
  - clear H. induction p as [cs|k0 cs [o|] IH|cs [o|] IH|is_ cs [o|] IH] using path_ind'; cbn in *; try discriminate; auto;
      (split; [auto|]; destruct o as [|? ? []| |]; cbn in *; try exact I; discriminate).
Qed.
Lemma any_add (a b c d : nat) : True -> True -> True. Proof. auto. Qed.
Ltac split_last p := destruct (last_key p) as [k|] eqn:Lk; [|rewrite ?(no_last _ p) by exact Lk; cbn [fst snd]; rewrite ?(no_last _ p) by exact Lk; try reflexivity].

Theorem insert_again p h h2 ow y : indexes_distinct p -> ow = false \/ avoids p ->
  insert_into_hash p h2 false (snd (insert_into_hash p h ow y)) = (0, snd (insert_into_hash p h ow y)).
Proof.
  intros Hd Ho. unfold insert_into_hash. split_last p.
  rewrite <- (with_same k p Lk) at 1. rewrite (edits_fuse (insert_f h ow) (insert_f h2 false) k p y Hd (stable_insert p h ow Ho)).
  destruct (edit_alike (fun _ b => b = 0) eq_refl (fun a b c d (E1 : b = 0) (E2 : d = 0) => eq_trans (f_equal2 Nat.add E1 E2) eq_refl)
    (insert_f h ow) (fused (insert_f h ow) (insert_f h2 false) k) k k) with (p := p) (y := y) as [E1 E2].
  - intros l. unfold act, fused. fold (act (insert_f h ow) k l). rewrite act_insert, act_insert, ins_again. now split.
  - exact Lk.
  - rewrite (with_same k p Lk) in *. rewrite E2. destruct (edit_hash (fused _ _ _) p y). cbn in *. now subst.
Qed.
Theorem overwrite_wins p h h2 ow y : indexes_distinct p -> ow = false \/ avoids p ->
  insert_into_hash p h2 true (snd (insert_into_hash p h ow y)) = insert_into_hash p h2 true y.
Proof.
  intros Hd Ho. unfold insert_into_hash. split_last p.
  rewrite <- (with_same k p Lk) at 1. rewrite (edits_fuse (insert_f h ow) (insert_f h2 true) k p y Hd (stable_insert p h ow Ho)).
  apply (edit_same _ _ k p Lk). intros l. unfold act, fused. fold (act (insert_f h ow) k l). rewrite act_insert, act_insert.
  fold (act (insert_f h2 true) k l). now rewrite act_insert, ins_wins.
Qed.
Theorem insert_then_remove p h ow y : indexes_distinct p -> ow = false \/ avoids p ->
  remove_from_hash p (snd (insert_into_hash p h ow y)) = (fst (insert_into_hash p h true y), snd (remove_from_hash p y)).
Proof.
  intros Hd Ho. unfold insert_into_hash, remove_from_hash. split_last p.
  rewrite <- (with_same k p Lk) at 1. rewrite (edits_fuse (insert_f h ow) remove_f k p y Hd (stable_insert p h ow Ho)).
  assert (A : forall l, act (fused (insert_f h ow) remove_f k) k l = (1, snd (rem k l))).
  { intros l. unfold act, fused. fold (act (insert_f h ow) k l). now rewrite act_insert, act_remove, rem_ins. }
  destruct (edit_alike eq eq_refl (fun a b c d E1 E2 => f_equal2 Nat.add E1 E2)
    (fun l k i => (fst (insert_f h true l k i), snd (remove_f l k i))) (fused (insert_f h ow) remove_f k) k k) with (p := p) (y := y) as [E1 E2]; [|exact Lk|].
  { intros l. rewrite A. unfold act. cbn [fst snd]. fold (act (insert_f h true) k l). fold (act remove_f k l). now rewrite act_insert, act_remove, ins_count. }
  destruct (edit_alike (fun _ _ => True) I any_add (fun l k i => (fst (insert_f h true l k i), snd (remove_f l k i))) remove_f k k) with (p := p) (y := y) as [_ E3]; [|exact Lk|].
  { intros l. now split. }
  rewrite (with_same k p Lk) in *.
  rewrite <- E3, (surjective_pairing (edit_hash (fused _ _ _) p y)), <- E2. f_equal.
  rewrite (edit_counts_same (insert_f h true) (fused (insert_f h ow) remove_f k) k k) with (p := p) by (try assumption; intros l; now rewrite A, act_insert, ins_count).
  now rewrite (with_same k p Lk).
Qed.
Theorem removes_swap p k1 k2 y : last_key p = Some k1 -> k1 <> k2 -> indexes_distinct p -> unconditional p k1 -> unconditional p k2 ->
  let q := with_key k2 p in
  remove_from_hash q (snd (remove_from_hash p y)) = (fst (remove_from_hash q y), snd (remove_from_hash p (snd (remove_from_hash q y)))).
Proof.
  intros Lk N Hd U1 U2 q. unfold remove_from_hash.
  assert (S1 : stable remove_f p) by (apply stable_remove; intros k Hk; rewrite Lk in Hk; injection Hk as <-; exact U1).
  assert (S2 : stable remove_f q).
  { apply stable_remove. intros k Hk. unfold q in Hk. rewrite (with_last _ _ _ Lk) in Hk. injection Hk as <-. unfold unconditional, q. now rewrite with_conditions. }
  assert (Lq : last_key q = Some k2) by exact (with_last _ _ _ Lk).
  assert (Eq : with_key k1 q = p) by (unfold q; rewrite with_with; now apply with_same).
  unfold q at 1. rewrite (edits_fuse remove_f remove_f k2 p y Hd S1).
  rewrite <- Eq at 2. rewrite (edits_fuse remove_f remove_f k1 q y (proj2 (with_distinct k2 p) Hd) S2).
  assert (A : forall l, act (fused remove_f remove_f k2) k1 l = rem k2 (snd (rem k1 l))).
  { intros l. unfold act, fused. fold (act remove_f k1 l). now rewrite !act_remove. }
  assert (B : forall l, act (fused remove_f remove_f k1) k2 l = rem k1 (snd (rem k2 l))).
  { intros l. unfold act, fused. fold (act remove_f k2 l). now rewrite !act_remove. }
  rewrite (surjective_pairing (edit_hash _ p y)). f_equal.
  - rewrite (edit_counts_same (fused remove_f remove_f k2) remove_f k1 k2) with (p := p); try assumption; [reflexivity|].
    intros l. now rewrite A, act_remove, rem_rem.
  - apply (edit_alike (fun _ _ => True) I any_add (fused remove_f remove_f k2) (fused remove_f remove_f k1) k1 k2); [|exact Lk].
    intros l. rewrite A, B. split; [exact I|]. now rewrite rem_rem.
Qed.
Theorem insert_remove_swap p k1 k2 h ow y : last_key p = Some k1 -> k1 <> k2 -> indexes_distinct p -> unconditional p k1 -> unconditional p k2 ->
  let q := with_key k2 p in
  remove_from_hash q (snd (insert_into_hash p h ow y)) = (fst (remove_from_hash q y), snd (insert_into_hash p h ow (snd (remove_from_hash q y))))
  /\ fst (insert_into_hash p h ow (snd (remove_from_hash q y))) = fst (insert_into_hash p h ow y).
Proof.
  intros Lk N Hd U1 U2 q. unfold remove_from_hash, insert_into_hash.
  assert (S1 : stable (insert_f h ow) p) by (apply stable_insert; right; intros k Hk; rewrite Lk in Hk; injection Hk as <-; exact U1).
  assert (S2 : stable remove_f q).
  { apply stable_remove. intros k Hk. unfold q in Hk. rewrite (with_last _ _ _ Lk) in Hk. injection Hk as <-. unfold unconditional, q. now rewrite with_conditions. }
  assert (Lq : last_key q = Some k2) by exact (with_last _ _ _ Lk).
  assert (Eq : with_key k1 q = p) by (unfold q; rewrite with_with; now apply with_same).
  assert (Dq : indexes_distinct q) by exact (proj2 (with_distinct k2 p) Hd).
  assert (F : edit_hash (insert_f h ow) p (snd (edit_hash remove_f q y)) = edit_hash (fused remove_f (insert_f h ow) k1) q y).
  { rewrite <- Eq at 1. exact (edits_fuse remove_f (insert_f h ow) k1 q y Dq S2). }
  rewrite F. unfold q at 1. rewrite (edits_fuse (insert_f h ow) remove_f k2 p y Hd S1).
  assert (A : forall l, act (fused (insert_f h ow) remove_f k2) k1 l = rem k2 (snd (ins k1 h ow l))).
  { intros l. unfold act, fused. fold (act (insert_f h ow) k1 l). now rewrite act_remove, act_insert. }
  assert (B : forall l, act (fused remove_f (insert_f h ow) k1) k2 l = ins k1 h ow (snd (rem k2 l))).
  { intros l. unfold act, fused. fold (act remove_f k2 l). now rewrite act_remove, act_insert. }
  split.
  - rewrite (surjective_pairing (edit_hash _ p y)). f_equal.
    + rewrite (edit_counts_same (fused (insert_f h ow) remove_f k2) remove_f k1 k2) with (p := p); try assumption; [reflexivity|].
      intros l. now rewrite A, act_remove, rem_ins_other.
    + apply (edit_alike (fun _ _ => True) I any_add (fused (insert_f h ow) remove_f k2) (fused remove_f (insert_f h ow) k1) k1 k2); [|exact Lk].
      intros l. rewrite A, B. split; [exact I|]. now rewrite rem_ins_other.
  - symmetry. rewrite (edit_counts_same (insert_f h ow) (fused remove_f (insert_f h ow) k1) k1 k2) with (p := p); try assumption; [reflexivity|].
    intros l. rewrite B, act_insert. clear - N. assert (N12 : seqb k2 k1 = false) by (apply seqb_neq; congruence).
    induction l as [|[c|c|[k' v]] l IH]; cbn [ins rem he_key]; try reflexivity;
      try (destruct (rem k2 l); cbn [snd ins] in *; revert IH; destruct (ins k1 h ow l), (ins k1 h ow _); exact (fun H => H)).
    destruct (seqb k' k2) eqn:E2; cbn [snd].
    + apply seqb_eq in E2. subst k'. rewrite N12. now destruct (ins k1 h ow l).
    + destruct (rem k2 l). cbn [snd ins he_key] in *. destruct (seqb k' k1); [destruct ow; reflexivity|].
      revert IH; destruct (ins k1 h ow l), (ins k1 h ow _); exact (fun H => H).
Qed.
Theorem inserts_count p k1 k2 h1 h2 o1 o2 y : last_key p = Some k1 -> k1 <> k2 -> indexes_distinct p -> unconditional p k1 ->
  fst (insert_into_hash (with_key k2 p) h2 o2 (snd (insert_into_hash p h1 o1 y))) = fst (insert_into_hash (with_key k2 p) h2 o2 y).
Proof.
  intros Lk N Hd U1. unfold insert_into_hash.
  assert (S1 : stable (insert_f h1 o1) p) by (apply stable_insert; right; intros k Hk; rewrite Lk in Hk; injection Hk as <-; exact U1).
  rewrite (edits_fuse (insert_f h1 o1) (insert_f h2 o2) k2 p y Hd S1).
  apply (edit_counts_same _ (insert_f h2 o2) k1 k2); try assumption.
  intros l. unfold act at 1. unfold fused. fold (act (insert_f h1 o1) k1 l). rewrite !act_insert. now apply ins_ins_count.
Qed.
