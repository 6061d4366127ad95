(** Proofs of the properties of the path operations, continued. *)
From Verif Require Import Base Ast Strings Path Insert InsertFacts Spec_Insert InsertFacts2.
Import ListNotations.

(** ---- loops ---- *)

Section Loops2.
  Context {A X : Type} (add : A -> A -> A) (g : X -> option (A * X)).

  Definition upd (x : X) : X := match g x with Some (_, x') => x' | None => x end.

  Lemma all_loop_snd acc l : snd (all_loop add g acc l) = map upd l.
  Proof.
    revert acc; induction l as [|x l IH]; intros acc; cbn; [reflexivity|]. unfold upd at 1.
    destruct (g x) as [[a x']|].
    - specialize (IH (add acc a)). destruct (all_loop _ _ _ _). cbn in *. now rewrite IH.
    - specialize (IH acc). destruct (all_loop _ _ _ _). cbn in *. now rewrite IH.
  Qed.

  Lemma all_loop_fst acc l :
    fst (all_loop add g acc l) =
    fold_left (fun acc x => match g x with Some (a, _) => add acc a | None => acc end) l acc.
  Proof.
    revert acc; induction l as [|x l IH]; intros acc; cbn; [reflexivity|].
    destruct (g x) as [[a x']|].
    - specialize (IH (add acc a)). destruct (all_loop _ _ _ _). cbn in *. now rewrite IH.
    - specialize (IH acc). destruct (all_loop _ _ _ _). cbn in *. now rewrite IH.
  Qed.

  Context {L : Type} (get : nat -> L -> option X) (set : nat -> X -> L -> L).
  Context (get_set_eq : forall i x y l, get i l = Some y -> get i (set i x l) = Some x).
  Context (get_set_neq : forall i j x l, i <> j -> get j (set i x l) = get j l).

  Definition contrib (l : L) (acc : A) (i : nat) : A :=
    match get i l with
    | Some x => match g x with Some (a, _) => add acc a | None => acc end
    | None => acc
    end.

  Lemma contrib_ext l l' is_ acc :
    (forall i, In i is_ -> get i l = get i l') ->
    fold_left (contrib l) is_ acc = fold_left (contrib l') is_ acc.
  Proof.
    revert acc; induction is_ as [|i is_ IH]; intros acc H; cbn; [reflexivity|].
    unfold contrib at 2 4. rewrite (H i) by (left; reflexivity). apply IH. intros; apply H; now right.
  Qed.

  Lemma idx_loop_fst is_ acc l :
    NoDup is_ -> fst (idx_loop add get set g is_ acc l) = fold_left (contrib l) is_ acc.
  Proof.
    intros Hd. revert acc l; induction Hd as [|i is_ Hi Hd IH]; intros acc l; cbn; [reflexivity|].
    unfold contrib at 2. destruct (get i l) as [x|] eqn:E; [|apply IH].
    destruct (g x) as [[a x']|] eqn:Eg; [|apply IH].
    rewrite IH. apply contrib_ext. intros j Hj. apply get_set_neq. intros ->; contradiction.
  Qed.

  Lemma idx_loop_get is_ acc l j :
    NoDup is_ ->
    get j (snd (idx_loop add get set g is_ acc l)) =
    match get j l with
    | Some x => Some (if in_dec Nat.eq_dec j is_ then upd x else x)
    | None => None
    end.
  Proof.
    intros Hd. revert acc l; induction Hd as [|i is_ Hi Hd IH]; intros acc l.
    - cbn. now destruct (get j l).
    - cbn [idx_loop].
      assert (Hin : j <> i -> (if in_dec Nat.eq_dec j (i :: is_) then true else false)
                              = (if in_dec Nat.eq_dec j is_ then true else false)).
      { intros Hj. destruct (in_dec Nat.eq_dec j (i :: is_)) as [[->|H]|H], (in_dec Nat.eq_dec j is_); try reflexivity; try congruence; try contradiction.
        exfalso; apply H; now right. }
      assert (Hin2 : forall x, j <> i -> (if in_dec Nat.eq_dec j (i :: is_) then upd x else x)
                              = (if in_dec Nat.eq_dec j is_ then upd x else x)).
      { intros x Hj. specialize (Hin Hj).
        destruct (in_dec Nat.eq_dec j (i :: is_)), (in_dec Nat.eq_dec j is_); congruence. }
      destruct (Nat.eq_dec j i) as [->|Hj].
      + destruct (in_dec Nat.eq_dec i (i :: is_)) as [_|H]; [|exfalso; apply H; now left].
        destruct (get i l) as [x|] eqn:E.
        * destruct (g x) as [[a x']|] eqn:Eg; rewrite IH.
          -- rewrite (get_set_eq _ _ _ _ E). destruct (in_dec Nat.eq_dec i is_); [contradiction|].
             unfold upd. now rewrite Eg.
          -- rewrite E. destruct (in_dec Nat.eq_dec i is_); [contradiction|].
             unfold upd. now rewrite Eg.
        * rewrite IH, E. reflexivity.
      + destruct (get i l) as [x|] eqn:E.
        * destruct (g x) as [[a x']|] eqn:Eg; rewrite IH.
          -- rewrite get_set_neq by congruence. destruct (get j l); [|reflexivity]. now rewrite Hin2.
          -- destruct (get j l); [|reflexivity]. now rewrite Hin2.
        * rewrite IH. destruct (get j l); [|reflexivity]. now rewrite Hin2.
  Qed.

  Context (set_comm : forall i j x y l, i <> j -> set j y (set i x l) = set i x (set j y l)).

  Lemma idx_loop_set_comm is_ acc l i x :
    ~ In i is_ ->
    idx_loop add get set g is_ acc (set i x l) =
    let '(a, l') := idx_loop add get set g is_ acc l in (a, set i x l').
  Proof.
    revert acc l; induction is_ as [|j is_ IH]; intros acc l H; cbn; [reflexivity|].
    assert (Hij : i <> j) by (intros ->; apply H; now left).
    assert (Hi : ~ In i is_) by (intros H'; apply H; now right).
    rewrite get_set_neq by assumption. destruct (get j l) as [y|]; [|now apply IH].
    destruct (g y) as [[a y']|]; [|now apply IH].
    rewrite set_comm by assumption. now apply IH.
  Qed.
End Loops2.

Lemma nth_set_comm {X} i j (x y : X) l : i <> j -> set_nth j y (set_nth i x l) = set_nth i x (set_nth j y l).
Proof.
  revert i j; induction l; intros [|i] [|j] H; cbn; try reflexivity; try congruence.
  f_equal. apply IHl. congruence.
Qed.
Lemma elem_set_comm i j x y l : i <> j -> set_elem j y (set_elem i x l) = set_elem i x (set_elem j y l).
Proof.
  revert i j; induction l as [|[c|c|d] l IH]; intros i j H; cbn; try reflexivity.
  - f_equal; auto.
  - f_equal; auto.
  - destruct i, j; cbn; try reflexivity; try congruence. f_equal. apply IH. congruence.
Qed.

(** Loops whose accumulator is a list of found nodes. *)
Section ListLoops.
  Context {X : Type} (g : X -> option (list yaml * X)).
  Definition found (x : X) : list yaml := match g x with Some (a, _) => a | None => [] end.

  Lemma all_loop_found acc l : fst (all_loop (@app yaml) g acc l) = acc ++ flat_map found l.
  Proof.
    rewrite all_loop_fst. revert acc; induction l as [|x l IH]; intros acc; cbn.
    - now rewrite app_nil_r.
    - rewrite IH. unfold found at 2. destruct (g x) as [[a x']|]; [now rewrite app_assoc|reflexivity].
  Qed.

  Context {L : Type} (get : nat -> L -> option X) (set : nat -> X -> L -> L).
  Context (get_set : forall i l x, get i l = Some x -> set i x l = l).
  Context (pure : forall x a x', g x = Some (a, x') -> x' = x).

  Definition found_at (l : L) (i : nat) : list yaml :=
    match get i l with Some x => found x | None => [] end.

  Lemma idx_loop_found is_ acc l :
    fst (idx_loop (@app yaml) get set g is_ acc l) = acc ++ flat_map (found_at l) is_.
  Proof.
    revert acc; induction is_ as [|i is_ IH]; intros acc; cbn; [now rewrite app_nil_r|].
    unfold found_at at 1. destruct (get i l) as [x|] eqn:E; [|apply IH].
    unfold found. destruct (g x) as [[a x']|] eqn:Eg; [|apply IH].
    rewrite (pure _ _ _ Eg), (get_set _ _ _ E), IH. now rewrite app_assoc.
  Qed.
End ListLoops.

(** Loops whose accumulator is a count. *)
Section NatLoops.
  Context {X : Type} (g : X -> option (nat * X)).
  Definition counted (x : X) : nat := match g x with Some (a, _) => a | None => 0 end.

  Lemma all_loop_counted acc l : fst (all_loop Nat.add g acc l) = acc + list_sum (map counted l).
  Proof.
    rewrite all_loop_fst. revert acc; induction l as [|x l IH]; intros acc; cbn; [lia|].
    rewrite IH. unfold counted at 2. destruct (g x) as [[a x']|]; unfold list_sum; lia.
  Qed.
End NatLoops.

(** ---- C27: composition of lookups ---- *)

Lemma find_f_pure e : snd (find_f e) = e. Proof. reflexivity. Qed.
Lemma find_r_pure y : snd (find_r y) = y. Proof. reflexivity. Qed.

Definition pure_step (h : yaml -> list yaml * yaml) : Prop := forall y, snd (h y) = y.

Lemma idx_step_pure sel cs elem n y :
  pure_step elem -> snd (idx_step [] (@app yaml) sel cs elem n y) = y.
Proof.
  intros H. apply (idx_step_quiet [] (@app yaml) (fun _ => True)); auto.
Qed.

Lemma for_hash_find_pure p : pure_step (for_hash [] (@app yaml) find_f find_r p).
Proof. intros y. apply find_values_pure. Qed.

Lemma on_value_pure (h : yaml -> list yaml * yaml) a : pure_step h -> on_value h a = (fst (h (a_value a)), a).
Proof.
  intros H. unfold on_value. specialize (H (a_value a)). destruct (h (a_value a)). cbn in *. subst. now destruct a.
Qed.

(** What an index step finds, without accumulators. *)
Lemma idx_step_array_found sel cs elem n els :
  pure_step elem ->
  fst (idx_step [] (@app yaml) sel cs elem n (Array els)) =
  let h := fun v => if fits_conditions v cs then fst (elem v) else [] in
  match sel with
  | Some is_ => flat_map (fun i => match get_elem i els with Some a => h (a_value a) | None => [] end) is_
  | None => flat_map (fun d => match d with AElem a => h (a_value a) | _ => [] end) els
  end.
Proof.
  intros H. assert (E : forall n, idx_step [] (@app yaml) sel cs elem n (Array els) = idx_step [] (@app yaml) sel cs elem 0 (Array els)) by (intros []; reflexivity).
  rewrite E. cbn [idx_step]. destruct sel as [is_|].
  - match goal with |- context [idx_loop ?a ?b ?c ?d ?e ?f ?g] =>
      pose proof (idx_loop_found d b c) as Q; specialize (Q (fun i l x E => get_elem_set_same i x l E)) end.
    match type of Q with ?P -> _ => assert (HP : P) end.
    { intros x a x'. destruct (fits_conditions _ cs); [|discriminate]. rewrite on_value_pure by assumption. congruence. }
    specialize (Q HP is_ [] els). destruct (idx_loop _ _ _ _ _ _ _) as [a els']. cbn in *. rewrite Q.
    apply flat_map_ext. intros i. unfold found_at, found. destruct (get_elem i els); [|reflexivity].
    destruct (fits_conditions _ cs); [|reflexivity]. now rewrite on_value_pure.
  - match goal with |- context [all_loop ?a ?b ?c ?d] => pose proof (all_loop_found b c d) as Q; destruct (all_loop a b c d) end.
    cbn in *. rewrite Q. apply flat_map_ext. intros [c|c|a]; unfold found; try reflexivity.
    destruct (fits_conditions _ cs); [|reflexivity]. now rewrite on_value_pure.
Qed.

Lemma idx_step_inline_found sel cs elem n els :
  pure_step elem ->
  fst (idx_step [] (@app yaml) sel cs elem (S n) (InlineArray els)) =
  let h := fun v => if fits_conditions v cs then fst (idx_step [] (@app yaml) sel cs elem n v) else [] in
  match sel with
  | Some is_ => flat_map (fun i => match nth_error els i with Some v => h v | None => [] end) is_
  | None => flat_map h els
  end.
Proof.
  intros H. cbn [idx_step]. destruct sel as [is_|].
  - match goal with |- context [idx_loop ?a ?b ?c ?d ?e ?f ?g] =>
      pose proof (idx_loop_found d b c) as Q; specialize (Q (fun i l x E => set_nth_same i x l E)) end.
    match type of Q with ?P -> _ => assert (HP : P) end.
    { intros x a x'. destruct (fits_conditions _ cs); [|discriminate].
      pose proof (idx_step_pure (Some is_) cs elem n x H) as E. destruct (idx_step _ _ _ _ _ _ _). cbn in E. congruence. }
    specialize (Q HP is_ [] els). destruct (idx_loop _ _ _ _ _ _ _) as [a els']. cbn in *. rewrite Q.
    apply flat_map_ext. intros i. unfold found_at, found. destruct (nth_error els i); [|reflexivity].
    destruct (fits_conditions _ cs); [|reflexivity]. now destruct (idx_step _ _ _ _ _ _ _).
  - match goal with |- context [all_loop ?a ?b ?c ?d] => pose proof (all_loop_found b c d) as Q; destruct (all_loop a b c d) end.
    cbn in *. rewrite Q. apply flat_map_ext. intros v; unfold found.
    destruct (fits_conditions _ cs); [|reflexivity]. now destruct (idx_step _ _ _ _ _ _ _).
Qed.

Lemma flat_map_flat_map {X Y Z} (f : X -> list Y) (g : Y -> list Z) l :
  flat_map g (flat_map f l) = flat_map (fun x => flat_map g (f x)) l.
Proof. induction l; cbn; [reflexivity|]. now rewrite flat_map_app, IHl. Qed.

Lemma idx_step_compose sel cs e1 e2 F n y :
  pure_step e1 -> pure_step e2 ->
  (forall y, fst (e2 y) = flat_map F (fst (e1 y))) ->
  fst (idx_step [] (@app yaml) sel cs e2 n y) = flat_map F (fst (idx_step [] (@app yaml) sel cs e1 n y)).
Proof.
  intros P1 P2 H.
  assert (Harr : forall n els, fst (idx_step [] (@app yaml) sel cs e2 n (Array els))
            = flat_map F (fst (idx_step [] (@app yaml) sel cs e1 n (Array els)))).
  { intros m els. rewrite !idx_step_array_found by assumption. cbn zeta.
    destruct sel; rewrite flat_map_flat_map; apply flat_map_ext.
    - intros i. destruct (get_elem i els); [|reflexivity]. destruct (fits_conditions _ cs); auto.
    - intros [c|c|a]; auto. destruct (fits_conditions _ cs); auto. }
  revert y; induction n as [|n IH]; intros y.
  - destruct y; try reflexivity. apply Harr.
  - destruct y; try reflexivity; [|apply Harr].
    rewrite !idx_step_inline_found by assumption. cbn zeta.
    destruct sel; rewrite flat_map_flat_map; apply flat_map_ext.
    + intros i. destruct (nth_error _ i); [|reflexivity]. destruct (fits_conditions _ cs); auto.
    + intros v. destruct (fits_conditions _ cs); auto.
Qed.

Theorem find_compose p q y :
  root_free p -> find_values (path_insert p q) y = flat_map (find_values q) (find_values p y).
Proof.
  unfold find_values, find_values_st.
  revert y; induction p as [cs|k cs rest IH|cs rest IH|is_ cs rest IH] using path_ind'; intros y Hr.
  - cbn in Hr; subst. cbn. now rewrite app_nil_r.
  - cbn [path_insert].
    assert (E : forall o', (forall v, fst (for_hash [] (@app yaml) find_f find_r o' v)
                 = flat_map (fun v => fst (for_hash [] (@app yaml) find_f find_r q v))
                    (match rest with Some o => fst (for_hash [] (@app yaml) find_f find_r o v) | None => [v] end)) ->
      fst (for_hash [] (@app yaml) find_f find_r (PKey k cs (Some o')) y) =
      flat_map (fun v => fst (for_hash [] (@app yaml) find_f find_r q v))
               (fst (for_hash [] (@app yaml) find_f find_r (PKey k cs rest) y))).
    { intros o' Ho. cbn [for_hash]. destruct (fits_conditions y cs); [|reflexivity].
      destruct y; try reflexivity. destruct (key_index l k) as [i|] eqn:Ei; [|reflexivity].
      destruct (key_index_nth _ _ _ Ei) as (e & He & Hk). rewrite He.
      rewrite (on_value_pure (for_hash [] (@app yaml) find_f find_r o')) by apply for_hash_find_pure.
      cbn [fst]. rewrite Ho. destruct rest as [o|].
      - rewrite (on_value_pure (for_hash [] (@app yaml) find_f find_r o)) by apply for_hash_find_pure. reflexivity.
      - rewrite Hk, seqb_refl. reflexivity. }
    destruct rest as [o|].
    + apply E. intros v. apply IH. exact Hr.
    + apply E. intros v. cbn. now rewrite app_nil_r.
  - cbn [path_insert]. destruct rest as [o|]; cbn [for_hash]; apply idx_step_compose;
      try apply for_hash_find_pure; try exact find_r_pure; intros v.
    + now apply IH.
    + cbn. now rewrite app_nil_r.
  - cbn [path_insert]. destruct rest as [o|]; cbn [for_hash]; apply idx_step_compose;
      try apply for_hash_find_pure; try exact find_r_pure; intros v.
    + now apply IH.
    + cbn. now rewrite app_nil_r.
Qed.

(** ---- lookups meet the specification [nodes] ---- *)

Lemma flat_map_nil {X Y} (f : X -> list Y) l : (forall x, In x l -> f x = []) -> flat_map f l = [].
Proof. induction l; cbn; intros H; [reflexivity|]. rewrite H, IHl; auto. Qed.

Lemma idx_step_flat_inline sel cs elem n y :
  pure_step elem -> flat_inline y = true -> fst (idx_step [] (@app yaml) sel cs elem n y) = [].
Proof.
  intros P. revert y; induction n as [|n IH]; intros y Hy; destruct y; try reflexivity; try discriminate.
  rewrite idx_step_inline_found by assumption. cbn zeta. cbn in Hy. rewrite forallb_forall in Hy.
  assert (Hv : forall v, In v l -> (if fits_conditions v cs then fst (idx_step [] (@app yaml) sel cs elem n v) else []) = []).
  { intros v Hv. destruct (fits_conditions v cs); [|reflexivity]. apply IH. auto. }
  destruct sel as [is_|]; apply flat_map_nil.
  - intros i _. destruct (nth_error l i) eqn:E; [|reflexivity]. apply Hv. eapply nth_error_In; eassumption.
  - exact Hv.
Qed.

Lemma path_of_cons s r :
  path_of (s :: r) =
  let rest := match r with [] => None | _ => Some (path_of r) end in
  match s with
  | SKey k cs => PKey k cs rest
  | SIdx i cs => PIdx [i] cs rest
  | SAll cs => PAll cs rest
  end.
Proof. destruct s; reflexivity. Qed.

Definition fh_find := for_hash [] (@app yaml) find_f find_r.

(** Behaviour of the remaining path, whether it is there or not. *)
Definition fh_rest (r : list step) : yaml -> list yaml * yaml :=
  match r with [] => find_r | _ => fh_find (path_of r) end.

Lemma fh_rest_pure r : pure_step (fh_rest r).
Proof. destruct r; [exact find_r_pure|apply for_hash_find_pure]. Qed.

Lemma inline_ok_first k l a :
  inline_ok (Hash l) = true -> first_value k l = Some a -> inline_ok (a_value a) = true.
Proof.
  cbn. induction l as [|d l IH]; cbn; [discriminate|]. rewrite andb_true_iff.
  intros [H1 H2]. destruct d as [c|c|[k' v]]; auto. destruct (seqb k' k); [|auto].
  intros E; inversion E; subst. exact H1.
Qed.

Lemma inline_ok_elem l v : inline_ok (Array l) = true -> In v (elements l) -> inline_ok v = true.
Proof.
  cbn. induction l as [|d l IH]; cbn; [contradiction|]. rewrite andb_true_iff.
  intros [H1 H2]. destruct d as [c|c|a]; auto. intros [<-|H]; auto.
Qed.

Lemma flat_map_elements {Y} (h : yaml -> list Y) l :
  flat_map (fun d => match d with AElem a => h (a_value a) | _ => [] end) l = flat_map h (elements l).
Proof. induction l as [|[c|c|a] l IH]; cbn; auto. now rewrite IH. Qed.

Lemma flat_map_ext_in {X Y} (f g : X -> list Y) l :
  (forall x, In x l -> f x = g x) -> flat_map f l = flat_map g l.
Proof. induction l; cbn; intros H; [reflexivity|]. rewrite H, IHl; auto. Qed.

Theorem find_is_nodes steps y :
  inline_ok y = true -> find_values (path_of steps) y = nodes steps y.
Proof.
  intros Hy. unfold find_values, find_values_st.
  enough (H : forall y, inline_ok y = true ->
             fst (fh_rest steps y) = nodes steps y).
  { destruct steps; [reflexivity|]. now apply H. }
  clear y Hy. induction steps as [|s r IH]; intros y Hy; [reflexivity|].
  cbn [fh_rest]. unfold fh_find. rewrite path_of_cons. cbn zeta.
  assert (Er : forall y, (match (match r with [] => None | _ => Some (path_of r) end) with
               | Some o => for_hash [] (@app yaml) find_f find_r o | None => find_r end) y = fh_rest r y).
  { intros; destruct r; reflexivity. }
  assert (Efun : (match (match r with [] => None | _ => Some (path_of r) end) with
               | Some o => for_hash [] (@app yaml) find_f find_r o | None => find_r end) = fh_rest r).
  { destruct r; reflexivity. }
  destruct s as [k cs|i cs|cs]; cbn [nodes].
  - cbn [for_hash]. rewrite fits_satisfies. destruct y; try (destruct (satisfies_b _ cs); reflexivity).
    destruct (satisfies_b (Hash l) cs); [|reflexivity].
    pose proof (key_index_first_value l k) as Hk. destruct (key_index l k) as [i|]; [|rewrite Hk; reflexivity].
    destruct Hk as (e & He & Hke & Hv). rewrite He, Hv. rewrite <- IH by (eapply inline_ok_first; eassumption).
    destruct r.
    + rewrite Hke, seqb_refl. reflexivity.
    + rewrite on_value_pure by apply for_hash_find_pure. reflexivity.
  - cbn [for_hash]. rewrite Efun. destruct y; try reflexivity.
    + apply idx_step_flat_inline; [apply fh_rest_pure|exact Hy].
    + rewrite idx_step_array_found by apply fh_rest_pure. cbn zeta. cbn [flat_map]. rewrite app_nil_r.
      pose proof (get_elem_elements i l) as Hg. destruct (get_elem i l) as [a|].
      * rewrite Hg. rewrite fits_satisfies. destruct (satisfies_b _ cs); [|reflexivity].
        apply IH. eapply inline_ok_elem; [eassumption|]. eapply nth_error_In; eassumption.
      * now rewrite Hg.
  - cbn [for_hash]. rewrite Efun. destruct y; try reflexivity.
    + apply idx_step_flat_inline; [apply fh_rest_pure|exact Hy].
    + rewrite idx_step_array_found by apply fh_rest_pure. cbn zeta.
      rewrite (flat_map_elements (fun v => if fits_conditions v cs then fst (fh_rest r v) else [])).
      apply flat_map_ext_in. intros v Hv. rewrite fits_satisfies.
      destruct (satisfies_b v cs); [|reflexivity]. apply IH. eapply inline_ok_elem; eassumption.
Qed.

(** C26 *)
Theorem inline_index_finds_nothing p els :
  forallb flat_inline els = true ->
  (match p with PIdx _ _ _ | PAll _ _ => True | _ => False end) ->
  find_values p (InlineArray els) = [].
Proof.
  intros H Hp. unfold find_values, find_values_st. destruct p; try contradiction; cbn [for_hash];
    (apply idx_step_flat_inline; [|exact H]); destruct rest; try apply for_hash_find_pure; exact find_r_pure.
Qed.

Theorem inline_index_refuted : exists els,
  els <> [] /\ find_values (PIdx [0] [] None) (InlineArray els) = []
  /\ find_values (PAll [] None) (InlineArray els) = [].
Proof. exists [Unquoted (lit "a")]. repeat split. discriminate. Qed.

(** ---- C25 ---- *)

Section Wildcard.
  Context {A : Type} (add : A -> A -> A) (g : aliased -> option (A * aliased)).

  Definition lift (d : arraydata) : option (A * arraydata) :=
    match d with
    | AElem a => match g a with Some (x, a') => Some (x, AElem a') | None => None end
    | _ => None
    end.

  Lemma get_elem_app pre l i : get_elem (length (elements pre) + i) (pre ++ l) = get_elem i l.
  Proof. induction pre as [|[c|c|a] pre IH]; cbn; auto. Qed.
  Lemma set_elem_app pre l i x : set_elem (length (elements pre) + i) x (pre ++ l) = pre ++ set_elem i x l.
  Proof. induction pre as [|[c|c|a] pre IH]; cbn; auto; now f_equal. Qed.

  Lemma idx_loop_all pre l acc :
    idx_loop add get_elem set_elem g (seq (length (elements pre)) (length (elements l))) acc (pre ++ l)
    = let '(a, l') := all_loop add lift acc l in (a, pre ++ l').
  Proof.
    revert pre acc; induction l as [|d l IH]; intros pre acc; [reflexivity|].
    assert (E : forall d', pre ++ d' :: l = (pre ++ [d']) ++ l) by (intros; now rewrite <- app_assoc).
    destruct d as [c|c|a]; cbn [elements all_loop lift].
    - rewrite E. replace (length (elements pre)) with (length (elements (pre ++ [AInlineC c]))).
      + rewrite IH. destruct (all_loop add lift acc l). now rewrite <- app_assoc.
      + clear. induction pre as [|[]]; cbn; auto.
    - rewrite E. replace (length (elements pre)) with (length (elements (pre ++ [AComment c]))).
      + rewrite IH. destruct (all_loop add lift acc l). now rewrite <- app_assoc.
      + clear. induction pre as [|[]]; cbn; auto.
    - cbn [length seq idx_loop].
      rewrite <- (Nat.add_0_r (length (elements pre))). rewrite get_elem_app. cbn [get_elem].
      assert (E2 : forall x, S (length (elements pre) + 0) = length (elements (pre ++ [AElem x]))).
      { intros x. clear. rewrite Nat.add_0_r. induction pre as [|[]]; cbn; auto. }
      destruct (g a) as [[x a']|].
      + rewrite set_elem_app. cbn [set_elem]. rewrite E, (E2 a'), IH.
        destruct (all_loop add lift (add acc x) l). now rewrite <- app_assoc.
      + rewrite E, (E2 a), IH. destruct (all_loop add lift acc l). now rewrite <- app_assoc.
  Qed.

  Lemma idx_loop_seq l acc :
    idx_loop add get_elem set_elem g (seq 0 (length (elements l))) acc l = all_loop add lift acc l.
  Proof. pose proof (idx_loop_all [] l acc) as H. cbn in H. rewrite H. now destruct (all_loop _ _ _ _). Qed.
End Wildcard.

Theorem wildcard_for_hash {A} (zero : A) add f r cs rest els :
  for_hash zero add f r (PAll cs rest) (Array els) =
  for_hash zero add f r (PIdx (seq 0 (length (elements els))) cs rest) (Array els).
Proof.
  cbn [for_hash inline_depth idx_step]. rewrite idx_loop_seq.
  erewrite (all_loop_ext add); [reflexivity|]. apply Forall_forall. intros [c|c|a] _; try reflexivity.
  unfold lift. destruct (fits_conditions _ cs); [|reflexivity]. destruct (on_value _ _); reflexivity.
Qed.

Theorem wildcard_edit f cs rest els :
  edit_hash f (PAll cs rest) (Array els) =
  edit_hash f (PIdx (seq 0 (length (elements els))) cs rest) (Array els).
Proof.
  destruct rest as [o|]; [|reflexivity].
  cbn [edit_hash]. rewrite idx_loop_seq.
  erewrite (all_loop_ext Nat.add); [reflexivity|]. apply Forall_forall. intros [c|c|a] _; try reflexivity.
  unfold lift. destruct (fits_conditions _ cs); [|reflexivity]. destruct (edit_value _ _); reflexivity.
Qed.

Theorem find_indexes_concat is_ cs rest els :
  find_values (PIdx is_ cs rest) (Array els) =
  flat_map (fun i => find_values (PIdx [i] cs rest) (Array els)) is_.
Proof.
  unfold find_values, find_values_st. cbn [for_hash].
  set (elem := match rest with Some o => _ | None => _ end).
  assert (P : pure_step elem) by (unfold elem; destruct rest; [apply for_hash_find_pure|exact find_r_pure]).
  rewrite idx_step_array_found by assumption. cbn zeta.
  apply flat_map_ext. intros i. rewrite idx_step_array_found by assumption. cbn. now rewrite app_nil_r.
Qed.

Theorem wildcard_find cs rest els :
  find_values (PAll cs rest) (Array els) =
  flat_map (fun i => find_values (PIdx [i] cs rest) (Array els)) (seq 0 (length (elements els))).
Proof.
  rewrite <- find_indexes_concat. unfold find_values, find_values_st. now rewrite wildcard_for_hash.
Qed.

Theorem index_out_of_range i cs rest els :
  length (elements els) <= i ->
  find_values (PIdx [i] cs rest) (Array els) = []
  /\ forall f, edit_hash f (PIdx [i] cs rest) (Array els) = (0, Array els).
Proof.
  intros H. apply nth_error_None in H. pose proof (get_elem_elements i els) as Hg.
  destruct (get_elem i els) as [a|] eqn:E; [rewrite H in Hg; discriminate|]. split.
  - unfold find_values, find_values_st. cbn [for_hash inline_depth idx_step idx_loop]. now rewrite E.
  - intros f. destruct rest; [|reflexivity]. cbn [edit_hash idx_loop]. now rewrite E.
Qed.
