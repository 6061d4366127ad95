(** Basic facts about the traversals of Insert.v. *)
From Verif Require Import Base Ast Strings Path Insert.
Import ListNotations.

(** ---- keys ---- *)

Lemma key_index_nth data k i :
  key_index data k = Some i ->
  exists e, nth_error data i = Some (HElem e) /\ he_key e = k.
Proof.
  revert i; induction data as [|d data IH]; intros i H; [discriminate|].
  cbn in H. destruct (hd_is_key k d) eqn:E.
  - inversion H; subst. destruct d as [c|c|e]; try discriminate.
    exists e. cbn in E. apply seqb_eq in E. auto.
  - destruct (key_index data k) as [j|]; [|discriminate]. inversion H; subst. cbn. now apply IH.
Qed.

Lemma key_index_key_value data k :
  match key_index data k with
  | Some i => exists e, nth_error data i = Some (HElem e) /\ key_value_l data k = Some (he_value e)
  | None => key_value_l data k = None
  end.
Proof.
  induction data as [|d data IH]; [reflexivity|].
  cbn [key_index key_value_l]. destruct d as [c|c|e]; cbn [hd_is_key].
  - destruct (key_index data k); cbn; auto.
  - destruct (key_index data k); cbn; auto.
  - destruct (seqb (he_key e) k); [exists e; auto|]. destruct (key_index data k); cbn; auto.
Qed.

(** First occurrence as a decomposition. *)
Lemma key_index_split data k i :
  key_index data k = Some i ->
  exists a v b, data = a ++ HElem (mkHE k v) :: b /\ length a = i /\ existsb (hd_is_key k) a = false.
Proof.
  revert i; induction data as [|d data IH]; intros i H; [discriminate|].
  cbn in H. destruct (hd_is_key k d) eqn:E.
  - inversion H; subst. destruct d as [c|c|[k' v]]; try discriminate. cbn in E.
    apply seqb_eq in E; subst. exists [], v, data. auto.
  - destruct (key_index data k) as [j|]; [|discriminate]. inversion H; subst.
    destruct (IH j eq_refl) as (a & v & b & -> & <- & Ha).
    exists (d :: a), v, b. cbn. rewrite E, Ha. auto.
Qed.

Lemma key_index_app data k v b :
  existsb (hd_is_key k) data = false ->
  key_index (data ++ HElem (mkHE k v) :: b) k = Some (length data).
Proof.
  induction data as [|d data IH]; cbn.
  - intros _. now rewrite seqb_refl.
  - intros H. apply orb_false_iff in H as [H1 H2]. rewrite H1, IH by assumption. reflexivity.
Qed.

Lemma key_index_none data k : key_index data k = None <-> existsb (hd_is_key k) data = false.
Proof.
  induction data as [|d data IH]; cbn; [split; reflexivity|].
  destruct (hd_is_key k d); cbn; [split; discriminate|].
  destruct (key_index data k); cbn; [split; [discriminate|intros H; apply IH in H; discriminate]|].
  split; [intros _; now apply IH|reflexivity].
Qed.

Lemma set_nth_app {X} (a b : list X) x y : set_nth (length a) y (a ++ x :: b) = a ++ y :: b.
Proof. induction a; cbn; congruence. Qed.
Lemma remove_nth_app {X} (a b : list X) x : remove_nth (length a) (a ++ x :: b) = a ++ b.
Proof. induction a; cbn; congruence. Qed.
Lemma nth_error_app_mid {X} (a b : list X) x : nth_error (a ++ x :: b) (length a) = Some x.
Proof. induction a; cbn; auto. Qed.

Lemma set_nth_same {X} i (x : X) l : nth_error l i = Some x -> set_nth i x l = l.
Proof.
  revert i; induction l as [|y l IH]; intros [|i] H; cbn in *; try discriminate; auto.
  - congruence.
  - f_equal; auto.
Qed.
Lemma set_nth_length {X} i (x : X) l : length (set_nth i x l) = length l.
Proof. revert i; induction l; intros [|i]; cbn; auto. Qed.
Lemma nth_error_set_nth_eq {X} i (x y : X) l :
  nth_error l i = Some y -> nth_error (set_nth i x l) i = Some x.
Proof. revert i; induction l; intros [|i] H; cbn in *; try discriminate; auto. Qed.
Lemma nth_error_set_nth_neq {X} i j (x : X) l :
  i <> j -> nth_error (set_nth i x l) j = nth_error l j.
Proof.
  revert i j; induction l; intros [|i] [|j] H; cbn in *; try reflexivity; try congruence.
  apply IHl. congruence.
Qed.
Lemma Forall_set_nth {X} (P : X -> Prop) i x l : Forall P l -> P x -> Forall P (set_nth i x l).
Proof.
  intros Hl Hx. revert i; induction Hl; intros [|i]; cbn; constructor; auto.
Qed.
Lemma set_nth_set_nth {X} i (x y : X) l : set_nth i x (set_nth i y l) = set_nth i x l.
Proof. revert i; induction l; intros [|i]; cbn; congruence. Qed.

Lemma get_elem_set_same i a l : get_elem i l = Some a -> set_elem i a l = l.
Proof.
  revert i; induction l as [|[c|c|b] l IH]; intros i H; cbn in *; try discriminate.
  - f_equal; auto.
  - f_equal; auto.
  - destruct i; [congruence|]. f_equal; auto.
Qed.
Lemma get_set_elem_eq i a b l : get_elem i l = Some b -> get_elem i (set_elem i a l) = Some a.
Proof.
  revert i; induction l as [|[c|c|d] l IH]; intros i H; cbn in *; try discriminate; auto.
  destruct i; cbn; auto.
Qed.
Lemma get_set_elem_neq i j a l : i <> j -> get_elem j (set_elem i a l) = get_elem j l.
Proof.
  revert i j; induction l as [|[c|c|d] l IH]; intros i j H; cbn; auto.
  destruct i, j; cbn; auto. congruence.
Qed.

(** ---- generic loop facts ---- *)

Section LoopFacts.
  Context {A : Type} (add : A -> A -> A).

  Lemma all_loop_ext {X} (g g' : X -> option (A * X)) acc l :
    Forall (fun x => g x = g' x) l -> all_loop add g acc l = all_loop add g' acc l.
  Proof.
    intros H. revert acc. induction H as [|x l Hx _ IH]; intros acc; cbn; [reflexivity|].
    rewrite Hx. destruct (g' x) as [[a x']|]; now rewrite IH.
  Qed.

  (** Extensionality with an invariant preserved by updates. *)
  Lemma idx_loop_ext {X L} (get : nat -> L -> option X) set (P : X -> Prop) (Q : L -> Prop)
    (g g' : X -> option (A * X)) is_ acc l :
    (forall i l x, Q l -> get i l = Some x -> P x) ->
    (forall i l x, Q l -> P x -> Q (set i x l)) ->
    (forall x, P x -> g x = g' x) ->
    (forall x a x', P x -> g x = Some (a, x') -> P x') ->
    Q l ->
    idx_loop add get set g is_ acc l = idx_loop add get set g' is_ acc l.
  Proof.
    intros Hget Hset Hgg Hpres. revert acc l; induction is_ as [|i is_ IH]; intros acc l HQ; cbn.
    - reflexivity.
    - destruct (get i l) as [x|] eqn:E; [|auto].
      assert (HP : P x) by eauto. rewrite <- (Hgg x HP).
      destruct (g x) as [[a x']|] eqn:Eg; [|auto]. apply IH. eauto.
  Qed.
End LoopFacts.

(** ---- inline arrays: the unfolding equations of the Rust code ---- *)

Section Unfold.
  Context {A : Type} (zero : A) (add : A -> A -> A).
  Context (f : hash_element -> A * hash_element) (r : yaml -> A * yaml).

  Lemma list_max_le_in x l : In x l -> x <= list_max l.
  Proof.
    induction l as [|y l IH]; [contradiction|]. change (list_max (y :: l)) with (Nat.max y (list_max l)).
    intros [->|H]; [lia|]. specialize (IH H). lia.
  Qed.

  Lemma inline_depth_in x l : In x l -> inline_depth x < inline_depth (InlineArray l).
  Proof.
    intros H. cbn. apply Nat.lt_succ_r. apply list_max_le_in. now apply in_map.
  Qed.

  Lemma list_max_ext (l l' : list yaml) :
    Forall2 (fun x y => inline_depth x = inline_depth y) l l' ->
    list_max (map inline_depth l) = list_max (map inline_depth l').
  Proof. induction 1; [reflexivity|]. cbn [map]. unfold list_max in *; cbn [fold_right]. congruence. Qed.

  Lemma Forall2_refl {X} (R : X -> X -> Prop) l : (forall x, R x x) -> Forall2 R l l.
  Proof. intros H; induction l; constructor; auto. Qed.

  Lemma Forall2_set_nth {X} (R : X -> X -> Prop) i x x' l :
    (forall x, R x x) -> nth_error l i = Some x -> R x x' -> Forall2 R l (set_nth i x' l).
  Proof.
    intros Hr. revert i; induction l as [|y l IH]; intros [|i] H Hx; cbn in *; try discriminate.
    - inversion H; subst. constructor; [assumption|]. now apply Forall2_refl.
    - constructor; auto.
  Qed.

  Lemma Forall2_trans {X} (R : X -> X -> Prop) l1 l2 l3 :
    (forall x y z, R x y -> R y z -> R x z) -> Forall2 R l1 l2 -> Forall2 R l2 l3 -> Forall2 R l1 l3.
  Proof.
    intros Ht H. revert l3; induction H; intros l3 H3; inversion H3; subst; constructor; eauto.
  Qed.

  Lemma idx_loop_Forall2 {X} (R : X -> X -> Prop) (g : X -> option (A * X)) is_ acc l :
    (forall x, R x x) -> (forall x y z, R x y -> R y z -> R x z) ->
    (forall x a x', g x = Some (a, x') -> R x x') ->
    Forall2 R l (snd (idx_loop add (fun i l => nth_error l i) set_nth g is_ acc l)).
  Proof.
    intros Hr Ht Hg. revert acc l; induction is_ as [|i is_ IH]; intros acc l; cbn.
    - now apply Forall2_refl.
    - destruct (nth_error l i) as [x|] eqn:E; [|apply IH].
      destruct (g x) as [[a x']|] eqn:Eg; [|apply IH].
      eapply Forall2_trans; [exact Ht| |apply IH]. eapply Forall2_set_nth; eauto.
  Qed.

  Lemma all_loop_Forall2 {X} (R : X -> X -> Prop) (g : X -> option (A * X)) acc l :
    (forall x, R x x) ->
    (forall x a x', In x l -> g x = Some (a, x') -> R x x') ->
    Forall2 R l (snd (all_loop add g acc l)).
  Proof.
    intros Hr Hg. revert acc; induction l as [|x l IH]; intros acc; cbn; [constructor|].
    destruct (g x) as [[a x']|] eqn:Eg.
    - specialize (IH ltac:(intros; eapply Hg; [right|]; eassumption) (add acc a)).
      destruct (all_loop add g (add acc a) l). cbn in *. constructor; [|assumption].
      eapply Hg; [left; reflexivity|eassumption].
    - specialize (IH ltac:(intros; eapply Hg; [right|]; eassumption) acc).
      destruct (all_loop add g acc l). cbn in *. constructor; auto.
  Qed.

  Lemma idx_step_depth sel cs elem n y :
    inline_depth (snd (idx_step zero add sel cs elem n y)) = inline_depth y.
  Proof.
    revert y; induction n as [|n IH]; intros y; cbn [idx_step]; destruct y; try reflexivity.
    - destruct sel.
      + destruct (idx_loop _ _ _ _ _ _ _); reflexivity.
      + destruct (all_loop _ _ _ _); reflexivity.
    - set (R := fun x y => inline_depth x = inline_depth y).
      assert (H : Forall2 R l (snd (match sel with
        | Some is_ => idx_loop add (fun i l => nth_error l i) set_nth
            (fun e => if fits_conditions e cs then Some (idx_step zero add sel cs elem n e) else None) is_ zero l
        | None => all_loop add
            (fun e => if fits_conditions e cs then Some (idx_step zero add sel cs elem n e) else None) zero l
        end))).
      { assert (Hg : forall x a x', (if fits_conditions x cs then Some (idx_step zero add sel cs elem n x) else None) = Some (a, x') -> R x x').
        { intros x a x' E. destruct (fits_conditions x cs); [|discriminate]. inversion E as [E'].
          unfold R. specialize (IH x). rewrite E' in IH. cbn in IH. congruence. }
        destruct sel.
        - apply idx_loop_Forall2; unfold R; try congruence. intros; eapply Hg; eassumption.
        - apply all_loop_Forall2; [unfold R; congruence|]. intros; eapply Hg; eassumption. }
      destruct (match sel with Some _ => _ | None => _ end) as [a els']. cbn in *.
      f_equal. symmetry. now apply list_max_ext.
    - destruct sel.
      + destruct (idx_loop _ _ _ _ _ _ _); reflexivity.
      + destruct (all_loop _ _ _ _); reflexivity.
  Qed.

  Lemma idx_step_fuel sel cs elem n m y :
    inline_depth y <= n -> inline_depth y <= m ->
    idx_step zero add sel cs elem n y = idx_step zero add sel cs elem m y.
  Proof.
    revert m y; induction n as [|n IH]; intros m y Hn Hm.
    - destruct y; destruct m; try reflexivity. cbn in Hn. lia.
    - destruct y; try (destruct m; reflexivity).
      destruct m as [|m]; [cbn in Hm; lia|].
      cbn [idx_step].
      set (P := fun x => inline_depth x <= n /\ inline_depth x <= m).
      assert (HP : Forall P l).
      { apply Forall_forall. intros x Hx. apply inline_depth_in in Hx. unfold P. lia. }
      assert (Hgg : forall x, P x ->
        (if fits_conditions x cs then Some (idx_step zero add sel cs elem n x) else None)
        = (if fits_conditions x cs then Some (idx_step zero add sel cs elem m x) else None)).
      { intros x [Hx1 Hx2]. destruct (fits_conditions x cs); [|reflexivity]. f_equal. now apply IH. }
      assert (E : forall is_, idx_loop add (fun i l => nth_error l i) set_nth
            (fun e => if fits_conditions e cs then Some (idx_step zero add sel cs elem n e) else None) is_ zero l
          = idx_loop add (fun i l => nth_error l i) set_nth
            (fun e => if fits_conditions e cs then Some (idx_step zero add sel cs elem m e) else None) is_ zero l).
      { intros is_. apply (idx_loop_ext add _ _ P (Forall P)); auto.
        - intros i l0 x HQ Hx. rewrite Forall_forall in HQ. apply HQ. eapply nth_error_In; eassumption.
        - intros. now apply Forall_set_nth.
        - intros x a x' [Hx1 Hx2] Hg. destruct (fits_conditions x cs); [|discriminate].
          inversion Hg as [Hg']. pose proof (idx_step_depth sel cs elem n x) as Hd.
          rewrite Hg' in Hd. cbn in Hd. unfold P. lia. }
      destruct sel as [is_|].
      + now rewrite E.
      + rewrite (all_loop_ext add _ (fun e => if fits_conditions e cs then Some (idx_step zero add None cs elem m e) else None));
          [reflexivity|]. eapply Forall_impl; [|exact HP]. intros; now apply Hgg.
  Qed.

  (** mod.rs 196-204: an inline array passes the same path on to its elements. *)
  Lemma for_hash_all_eq cs rest els :
    for_hash zero add f r (PAll cs rest) (InlineArray els) =
    let '(a, els') :=
      all_loop add (fun e => if fits_conditions e cs
                             then Some (for_hash zero add f r (PAll cs rest) e) else None) zero els in
    (a, InlineArray els').
  Proof.
    cbn [for_hash]. set (d := inline_depth (InlineArray els)).
    assert (Hd : d = S (list_max (map inline_depth els))) by reflexivity.
    rewrite Hd. cbn [idx_step].
    rewrite (all_loop_ext add _ (fun e => if fits_conditions e cs
        then Some (idx_step zero add None cs
               match rest with Some o => for_hash zero add f r o | None => r end (inline_depth e) e)
        else None)); [reflexivity|].
    apply Forall_forall. intros x Hx. destruct (fits_conditions x cs); [|reflexivity].
    f_equal. apply idx_step_fuel; [|lia].
    apply list_max_le_in. now apply in_map.
  Qed.

  (** mod.rs 164-175. *)
  Lemma for_hash_idx_eq is_ cs rest els :
    for_hash zero add f r (PIdx is_ cs rest) (InlineArray els) =
    let '(a, els') :=
      idx_loop add (fun i l => nth_error l i) set_nth
        (fun e => if fits_conditions e cs
                  then Some (for_hash zero add f r (PIdx is_ cs rest) e) else None) is_ zero els in
    (a, InlineArray els').
  Proof.
    cbn [for_hash]. set (d := inline_depth (InlineArray els)).
    assert (Hd : d = S (list_max (map inline_depth els))) by reflexivity.
    rewrite Hd. cbn [idx_step].
    set (elem := match rest with Some o => for_hash zero add f r o | None => r end).
    set (m := list_max (map inline_depth els)).
    assert (E : forall sel idxs acc, idx_loop add (fun i l => nth_error l i) set_nth
        (fun e => if fits_conditions e cs then Some (idx_step zero add sel cs elem m e) else None) idxs acc els
      = idx_loop add (fun i l => nth_error l i) set_nth
        (fun e => if fits_conditions e cs then Some (idx_step zero add sel cs elem (inline_depth e) e) else None) idxs acc els).
    { intros sel idxs acc. apply (idx_loop_ext add _ _ (fun x => inline_depth x <= m) (Forall (fun x => inline_depth x <= m))).
      - intros i l0 x HQ Hx. rewrite Forall_forall in HQ. apply HQ. eapply nth_error_In; eassumption.
      - intros. now apply Forall_set_nth.
      - intros x Hx. destruct (fits_conditions x cs); [|reflexivity]. f_equal. now apply idx_step_fuel.
      - intros x a x' Hx Hg. destruct (fits_conditions x cs); [|discriminate].
        inversion Hg as [Hg']. pose proof (idx_step_depth sel cs elem m x) as Hdd.
        rewrite Hg' in Hdd. cbn in Hdd. lia.
      - apply Forall_forall. intros x Hx. apply list_max_le_in. now apply in_map. }
    rewrite E. reflexivity.
  Qed.

  (** mod.rs 176-191 and 205-213 in terms of [ArrayData::for_hash]. *)
  Lemma for_hash_all_array_eq cs rest els :
    for_hash zero add f r (PAll cs rest) (Array els) =
    let '(a, els') :=
      all_loop add (fun d => if ad_fits d cs
                             then Some (for_hash_arraydata zero add f r (PAll cs rest) d) else None) zero els in
    (a, Array els').
  Proof.
    cbn [for_hash]. cbn [inline_depth idx_step].
    erewrite all_loop_ext; [reflexivity|].
    apply Forall_forall. intros [c|c|a] _; cbn; try reflexivity.
    destruct (fits_conditions (a_value a) cs); [|reflexivity].
    destruct rest as [o|]; cbn; unfold for_hash_aliased, on_value.
    - destruct (for_hash zero add f r o (a_value a)); reflexivity.
    - cbn. destruct (r (a_value a)); reflexivity.
  Qed.

  (** mod.rs 147-162 in terms of [HashData::for_hash]. *)
  Lemma for_hash_key_eq k cs rest data :
    for_hash zero add f r (PKey k cs rest) (Hash data) =
    if fits_conditions (Hash data) cs then
      match key_index data k with
      | Some i => match nth_error data i with
                  | Some d => let '(a, d') := for_hash_hashdata zero add f r (PKey k cs rest) d in
                              (a, Hash (set_nth i d' data))
                  | None => (zero, Hash data)
                  end
      | None => (zero, Hash data)
      end
    else (zero, Hash data).
  Proof.
    cbn [for_hash]. destruct (fits_conditions _ cs); [|reflexivity].
    destruct (key_index data k) as [i|] eqn:E; [|reflexivity].
    destruct (key_index_nth _ _ _ E) as (e & He & Hk). rewrite He. cbn.
    destruct rest as [o|]; unfold for_hash_aliased, on_value.
    - destruct (for_hash zero add f r o (a_value (he_value e))); reflexivity.
    - destruct (seqb k (he_key e)); [|reflexivity]. destruct (f e); reflexivity.
  Qed.
End Unfold.
