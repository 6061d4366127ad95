(** Proofs of the properties of the path operations: edits. *)
From Verif Require Import Base Ast Strings Path Insert InsertFacts Spec_Insert InsertFacts2 InsertFacts3.
Import ListNotations.

Lemma get_elem_split i l a :
  get_elem i l = Some a ->
  exists l1 l2, l = l1 ++ AElem a :: l2 /\ forall x, set_elem i x l = l1 ++ AElem x :: l2.
Proof.
  revert i; induction l as [|[c|c|b] l IH]; intros i H; cbn in *; try discriminate.
  - destruct (IH _ H) as (l1 & l2 & -> & Hs). exists (AInlineC c :: l1), l2. split; [reflexivity|].
    intros x. now rewrite Hs.
  - destruct (IH _ H) as (l1 & l2 & -> & Hs). exists (AComment c :: l1), l2. split; [reflexivity|].
    intros x. now rewrite Hs.
  - destruct i.
    + inversion H; subst. exists [], l. auto.
    + destruct (IH _ H) as (l1 & l2 & -> & Hs). exists (AElem b :: l1), l2. split; [reflexivity|].
      intros x. now rewrite Hs.
Qed.

Lemma nth_error_split' {X} i (l : list X) a :
  nth_error l i = Some a ->
  exists l1 l2, l = l1 ++ a :: l2 /\ forall x, set_nth i x l = l1 ++ x :: l2.
Proof.
  intros H. destruct (nth_error_split _ _ H) as (l1 & l2 & -> & <-). exists l1, l2. split; [reflexivity|].
  intros x. apply set_nth_app.
Qed.

(** ---- C17 ---- *)

Lemma appends_trans h n m y1 y2 y3 :
  appends h n y1 y2 -> appends h m y2 y3 -> appends h (n + m) y1 y3.
Proof. induction 1; cbn; intros; [assumption|]. econstructor; eauto. Qed.

Lemma appends_ctx h (C : yaml -> yaml) n v v' :
  (forall v v', append1 h v v' -> append1 h (C v) (C v')) ->
  appends h n v v' -> appends h n (C v) (C v').
Proof. intros HC. induction 1; econstructor; eauto. Qed.

Lemma appends_hash h n a k al v v' b :
  appends h n v v' ->
  appends h n (Hash (a ++ HElem (mkHE k (mkA al v)) :: b)) (Hash (a ++ HElem (mkHE k (mkA al v')) :: b)).
Proof.
  apply (appends_ctx h (fun v => Hash (a ++ HElem (mkHE k (mkA al v)) :: b))). intros; now constructor.
Qed.
Lemma appends_array h n a al v v' b :
  appends h n v v' ->
  appends h n (Array (a ++ AElem (mkA al v) :: b)) (Array (a ++ AElem (mkA al v') :: b)).
Proof.
  apply (appends_ctx h (fun v => Array (a ++ AElem (mkA al v) :: b))). intros; now constructor.
Qed.
Lemma appends_inline h n a v v' b :
  appends h n v v' -> appends h n (InlineArray (a ++ v :: b)) (InlineArray (a ++ v' :: b)).
Proof.
  apply (appends_ctx h (fun v => InlineArray (a ++ v :: b))). intros; now constructor.
Qed.

Lemma idx_loop_appends h {X L} (wrap : L -> yaml) get set (g : X -> option (nat * X)) is_ acc l :
  (forall i l x a x', get i l = Some x -> g x = Some (a, x') -> appends h a (wrap l) (wrap (set i x' l))) ->
  exists n, fst (idx_loop Nat.add get set g is_ acc l) = acc + n
            /\ appends h n (wrap l) (wrap (snd (idx_loop Nat.add get set g is_ acc l))).
Proof.
  intros H. revert acc l; induction is_ as [|i is_ IH]; intros acc l; cbn.
  - exists 0. split; [lia|constructor].
  - destruct (get i l) as [x|] eqn:E; [|apply IH].
    destruct (g x) as [[a x']|] eqn:Eg; [|apply IH].
    destruct (IH (acc + a) (set i x' l)) as (n & H1 & H2). exists (a + n). split; [lia|].
    eapply appends_trans; [eapply H; eassumption|exact H2].
Qed.

Lemma all_loop_appends h {X} (wrap : list X -> yaml) (g : X -> option (nat * X)) acc l :
  (forall l1 x a x' l2, g x = Some (a, x') -> appends h a (wrap (l1 ++ x :: l2)) (wrap (l1 ++ x' :: l2))) ->
  exists n, fst (all_loop Nat.add g acc l) = acc + n
            /\ appends h n (wrap l) (wrap (snd (all_loop Nat.add g acc l))).
Proof.
  intros H.
  enough (E : forall pre acc, exists n, fst (all_loop Nat.add g acc l) = acc + n
            /\ appends h n (wrap (pre ++ l)) (wrap (pre ++ snd (all_loop Nat.add g acc l)))) by apply (E []).
  clear acc. induction l as [|x l IH]; intros pre acc; cbn.
  - exists 0. split; [lia|constructor].
  - destruct (g x) as [[a x']|] eqn:Eg.
    + destruct (IH (pre ++ [x']) (acc + a)) as (n & H1 & H2).
      destruct (all_loop Nat.add g (acc + a) l) as [b l2]. cbn in *. exists (a + n). split; [lia|].
      rewrite <- !app_assoc in H2. cbn in H2. eapply appends_trans; [eapply H; eassumption|exact H2].
    + destruct (IH (pre ++ [x]) acc) as (n & H1 & H2).
      destruct (all_loop Nat.add g acc l) as [b l2]. cbn in *. exists n. split; [lia|].
      rewrite <- !app_assoc in H2. exact H2.
Qed.

Lemma edit_value_appends h (e : yaml -> nat * yaml) a n a' :
  (forall y, appends h (fst (e y)) y (snd (e y))) ->
  edit_value e a = (n, a') -> exists v', a' = mkA (a_alias a) v' /\ appends h n (a_value a) v'.
Proof.
  intros H. unfold edit_value. specialize (H (a_value a)). destruct (e (a_value a)) as [m v']. cbn in H.
  intros E; inversion E; subst. eauto.
Qed.

Theorem insert_appends p h y :
  appends h (fst (insert_into_hash p h false y)) y (snd (insert_into_hash p h false y)).
Proof.
  unfold insert_into_hash. set (f := insert_f h false).
  revert y; induction p as [cs|k cs rest IH|cs rest IH|is_ cs rest IH] using path_ind'; intros y.
  - constructor.
  - cbn [edit_hash]. destruct (fits_conditions y cs); [|constructor].
    destruct y; try constructor. destruct rest as [o|].
    + destruct (key_index l k) as [i|] eqn:Ei; [|constructor].
      destruct (key_index_nth _ _ _ Ei) as (e & He & Hk). rewrite He.
      destruct (edit_value (edit_hash f o) (he_value e)) as [n v] eqn:Ev.
      destruct (edit_value_appends h _ _ _ _ IH Ev) as (v' & -> & Hv).
      destruct (nth_error_split' _ _ _ He) as (l1 & l2 & -> & Hs). cbn [fst snd]. rewrite Hs.
      destruct e as [k' [al v0]]. cbn in *. now apply appends_hash.
    + pose proof (key_index_first_value l k) as Hk. unfold f, insert_f.
      destruct (key_index l k) as [i|]; cbn; [constructor|].
      eapply A_more; [apply (A_here h l k Hk)|constructor].
  - destruct rest as [o|]; [|constructor]. cbn [edit_hash]. cbn in IH. destruct y; try constructor.
    + match goal with |- context [all_loop _ ?g 0 l] =>
        destruct (all_loop_appends h InlineArray g 0 l) as (n & H1 & H2) end.
      * intros l1 x a x' l2. destruct (fits_conditions x cs); [|discriminate]. intros E; inversion E as [E'].
        specialize (IH x). rewrite E' in IH. now apply appends_inline.
      * destruct (all_loop _ _ 0 l). cbn in *. subst. exact H2.
    + match goal with |- context [all_loop _ ?g 0 l] =>
        destruct (all_loop_appends h Array g 0 l) as (n & H1 & H2) end.
      * intros l1 [c|c|x] a x' l2; try discriminate. destruct (fits_conditions (a_value x) cs); [|discriminate].
        destruct (edit_value _ x) as [m x''] eqn:Ex. intros E; inversion E; subst.
        destruct (edit_value_appends h _ _ _ _ IH Ex) as (v' & -> & Hv). destruct x. cbn in *.
        now apply appends_array.
      * destruct (all_loop _ _ 0 l). cbn in *. subst. exact H2.
  - destruct rest as [o|]; [|constructor]. cbn [edit_hash]. cbn in IH. destruct y; try constructor.
    + match goal with |- context [idx_loop _ ?get ?set ?g is_ 0 l] =>
        destruct (idx_loop_appends h InlineArray get set g is_ 0 l) as (n & H1 & H2) end.
      * intros i l0 x a x' Hg. destruct (fits_conditions x cs); [|discriminate]. intros E; inversion E as [E'].
        specialize (IH x). rewrite E' in IH. destruct (nth_error_split' _ _ _ Hg) as (l1 & l2 & -> & Hs).
        rewrite Hs. now apply appends_inline.
      * destruct (idx_loop _ _ _ _ _ _ _). cbn in *. subst. exact H2.
    + match goal with |- context [idx_loop _ ?get ?set ?g is_ 0 l] =>
        destruct (idx_loop_appends h Array get set g is_ 0 l) as (n & H1 & H2) end.
      * intros i l0 x a x' Hg. destruct (fits_conditions (a_value x) cs); [|discriminate]. intros E; inversion E as [E'].
        destruct (edit_value_appends h _ _ _ _ IH E') as (v' & -> & Hv).
        destruct (get_elem_split _ _ _ Hg) as (l1 & l2 & -> & Hs). rewrite Hs. destruct x. cbn in *.
        now apply appends_array.
      * destruct (idx_loop _ _ _ _ _ _ _). cbn in *. subst. exact H2.
Qed.

Lemma first_value_app k l l' v : first_value k l = Some v -> first_value k (l ++ l') = Some v.
Proof. induction l as [|[c|c|[k' v']] l IH]; cbn; try discriminate; auto. destruct (seqb k' k); auto. Qed.

Lemma first_value_app_none k l l' : first_value k l = None -> first_value k (l ++ l') = first_value k l'.
Proof. induction l as [|[c|c|[k' v']] l IH]; cbn; auto. destruct (seqb k' k); [discriminate|auto]. Qed.

Lemma first_value_mid k a k' v v' b :
  first_value k (a ++ HElem (mkHE k' v) :: b) = first_value k (a ++ HElem (mkHE k' v') :: b)
  \/ (first_value k (a ++ HElem (mkHE k' v) :: b) = Some v
      /\ first_value k (a ++ HElem (mkHE k' v') :: b) = Some v').
Proof.
  induction a as [|[c|c|[k2 v2]] a IH]; cbn; auto.
  - destruct (seqb k' k); auto.
  - destruct (seqb k2 k); auto.
Qed.

Lemma elements_mid a x b : elements (a ++ AElem x :: b) = elements a ++ a_value x :: elements b.
Proof. induction a as [|[]]; cbn; congruence. Qed.

Lemma satisfies_b_nil y : satisfies_b y [] = true.
Proof. destruct y; reflexivity. Qed.

Lemma append1_lookup h y y' steps v :
  append1 h y y' -> single_steps steps -> nodes steps y = [v] ->
  exists v', nodes steps y' = [v'] /\ (v' = v \/ append1 h v v').
Proof.
  intros Ha Hs. revert y y' v Ha; induction Hs as [|s r [Hc Hs1] Hs IH]; intros y y' v Ha Hn.
  - inversion Hn; subst. exists y'. auto.
  - destruct s as [k cs|i cs|cs]; [| |contradiction]; cbn in Hc; subst cs; cbn [nodes] in *.
    + inversion Ha; subst; try discriminate; rewrite satisfies_b_nil in *.
      * destruct (first_value k l) as [a|] eqn:E; [|discriminate].
        rewrite (first_value_app _ _ _ _ E). eauto.
      * destruct (first_value_mid k a k0 (mkA al v0) (mkA al v') b) as [E|[E1 E2]].
        -- rewrite <- E. destruct (first_value k _); [|discriminate]. eauto.
        -- rewrite E1 in Hn. rewrite E2. cbn in *. eauto.
    + inversion Ha; subst; try discriminate.
      rewrite elements_mid in *. cbn [a_value] in *.
      destruct (Nat.lt_trichotomy i (length (elements a))) as [Hi|[->|Hi]].
      * rewrite nth_error_app1 in * by assumption. destruct (nth_error (elements a) i); [|discriminate].
        rewrite satisfies_b_nil in *. eauto.
      * rewrite nth_error_app_mid in *. rewrite satisfies_b_nil in *. eauto.
      * rewrite nth_error_app2 in * by lia. destruct (i - length (elements a)) eqn:Ei; [lia|]. cbn in *.
        destruct (nth_error (elements b) n); [|discriminate]. rewrite satisfies_b_nil in *. eauto.
Qed.

Lemma appends_lookup h n y y' steps v :
  appends h n y y' -> single_steps steps -> nodes steps y = [v] ->
  exists v' m, nodes steps y' = [v'] /\ appends h m v v'.
Proof.
  intros Ha Hs. revert v; induction Ha as [|n y y1 y2 H1 H2 IH]; intros v Hn.
  - exists v, 0. split; [assumption|constructor].
  - destruct (append1_lookup _ _ _ _ _ H1 Hs Hn) as (v1 & Hn1 & Hv1).
    destruct (IH _ Hn1) as (v' & m & Hn2 & Hm).
    destruct Hv1 as [->|Hv1]; [eauto|]. exists v', (S m). split; [assumption|]. econstructor; eassumption.
Qed.

Lemma append1_scalar h y y' : append1 h y y' -> is_scalar y = true -> False.
Proof. destruct 1; discriminate. Qed.

Lemma appends_scalar h n y y' : appends h n y y' -> is_scalar y = true -> y' = y.
Proof. destruct 1; [reflexivity|]. intros Hs. exfalso; eapply append1_scalar; eassumption. Qed.

Theorem insert_keeps_lookups p h y steps v :
  single_steps steps -> nodes steps y = [v] ->
  exists v' m, nodes steps (snd (insert_into_hash p h false y)) = [v'] /\ appends h m v v'.
Proof. intros. eapply appends_lookup; eauto. apply insert_appends. Qed.

Theorem insert_keeps_scalars p h y steps v :
  single_steps steps -> nodes steps y = [v] -> is_scalar v = true ->
  nodes steps (snd (insert_into_hash p h false y)) = [v].
Proof.
  intros Hs Hn Hv. destruct (insert_keeps_lookups p h y steps v Hs Hn) as (v' & m & H1 & H2).
  now rewrite (appends_scalar _ _ _ _ H2 Hv) in H1.
Qed.

(** ---- C19, C20 ---- *)

Lemma hd_is_key_first k a : existsb (hd_is_key k) a = false <-> first_value k a = None.
Proof.
  rewrite <- key_index_none. pose proof (key_index_first_value a k) as H.
  destruct (key_index a k).
  - destruct H as (e & _ & _ & H). rewrite H. split; discriminate.
  - split; auto.
Qed.

Theorem overwrite_in_place a k v b h :
  first_value k a = None ->
  insert_into_hash (PKey k [] None) h true (Hash (a ++ HElem (mkHE k v) :: b))
  = (1, Hash (a ++ HElem (mkHE k h) :: b)).
Proof.
  intros H. unfold insert_into_hash. cbn [edit_hash fits_conditions forallb].
  rewrite key_index_app by now apply hd_is_key_first. unfold insert_f. now rewrite set_nth_app.
Qed.

Theorem insert_absent a k h o :
  first_value k a = None ->
  insert_into_hash (PKey k [] None) h o (Hash a) = (1, Hash (a ++ [HElem (mkHE k h)])).
Proof.
  intros H. unfold insert_into_hash. cbn [edit_hash fits_conditions forallb].
  apply hd_is_key_first, key_index_none in H. now rewrite H.
Qed.

Theorem insert_present_kept a k v b h :
  insert_into_hash (PKey k [] None) h false (Hash (a ++ HElem (mkHE k v) :: b))
  = (0, Hash (a ++ HElem (mkHE k v) :: b)).
Proof.
  unfold insert_into_hash. cbn [edit_hash fits_conditions forallb].
  destruct (key_index _ k) eqn:E; [reflexivity|].
  apply key_index_none in E. rewrite existsb_app in E. cbn in E. rewrite seqb_refl, orb_true_r in E. discriminate.
Qed.

Theorem remove_first a k v b :
  first_value k a = None ->
  remove_from_hash (PKey k [] None) (Hash (a ++ HElem (mkHE k v) :: b)) = (1, Hash (a ++ b)).
Proof.
  intros H. unfold remove_from_hash. cbn [edit_hash fits_conditions forallb].
  rewrite key_index_app by now apply hd_is_key_first. unfold remove_f. now rewrite remove_nth_app.
Qed.

Theorem remove_absent l k :
  first_value k l = None -> remove_from_hash (PKey k [] None) (Hash l) = (0, Hash l).
Proof.
  intros H. unfold remove_from_hash. cbn [edit_hash fits_conditions forallb].
  apply hd_is_key_first, key_index_none in H. now rewrite H.
Qed.

(** An edit under a longer path happens inside exactly one entry. *)
Theorem edit_under_key f a k al v b o :
  first_value k a = None ->
  edit_hash f (PKey k [] (Some o)) (Hash (a ++ HElem (mkHE k (mkA al v)) :: b))
  = (fst (edit_hash f o v), Hash (a ++ HElem (mkHE k (mkA al (snd (edit_hash f o v)))) :: b)).
Proof.
  intros H. cbn [edit_hash fits_conditions forallb].
  rewrite key_index_app by now apply hd_is_key_first. rewrite nth_error_app_mid.
  unfold edit_value. cbn. destruct (edit_hash f o v). now rewrite set_nth_app.
Qed.

(** ---- C21 ---- *)

Lemma edit_hash_as_string f p y : as_string (snd (edit_hash f p y)) = as_string y.
Proof.
  destruct p as [cs|k cs rest|cs rest|is_ cs rest]; cbn [edit_hash].
  - reflexivity.
  - destruct (fits_conditions y cs); [|reflexivity]. destruct y; try reflexivity.
    destruct rest.
    + destruct (key_index l k) as [i|]; [|reflexivity].
      destruct (nth_error l i) as [[]|]; try reflexivity. destruct (edit_value _ _); reflexivity.
    + destruct (f l k _); reflexivity.
  - destruct rest; [|reflexivity]. destruct y; try reflexivity; destruct (all_loop _ _ _ _); reflexivity.
  - destruct rest; [|reflexivity]. destruct y; try reflexivity; destruct (idx_loop _ _ _ _ _ _ _); reflexivity.
Qed.

Lemma satisfies_b_first y y' l l' cs :
  y = Hash l -> y' = Hash l' ->
  (forall k a, first_value k l = Some a ->
     exists a', first_value k l' = Some a' /\ as_string (a_value a') = as_string (a_value a)) ->
  satisfies_b y cs = true -> satisfies_b y' cs = true.
Proof.
  intros -> -> H. unfold satisfies_b. induction cs as [|c cs IH]; [auto|]. cbn [forallb].
  rewrite !andb_true_iff. intros [H1 H2]. split; [|auto].
  destruct (first_value (c_field c) l) as [a|] eqn:E; [|discriminate].
  destruct (H _ _ E) as (a' & -> & ->). exact H1.
Qed.

(** Appending never falsifies a condition. *)
Lemma append1_as_string h y y' : append1 h y y' -> as_string y' = as_string y.
Proof. destruct 1; reflexivity. Qed.

Lemma append1_satisfies h y y' cs :
  append1 h y y' -> satisfies_b y cs = true -> satisfies_b y' cs = true.
Proof.
  intros Ha. inversion Ha; subst.
  - eapply satisfies_b_first; [reflexivity|reflexivity|]. intros k0 a0 H0.
    exists a0. split; [now apply first_value_app|reflexivity].
  - eapply satisfies_b_first; [reflexivity|reflexivity|]. intros k0 a0 H0.
    destruct (first_value_mid k0 a k (mkA al v) (mkA al v') b) as [E|[E1 E2]].
    + rewrite <- E. exists a0. auto.
    + rewrite E1 in H0. inversion H0; subst. exists (mkA al v'). split; [assumption|].
      cbn. eapply append1_as_string; eassumption.
  - destruct cs; [reflexivity|discriminate].
  - destruct cs; [reflexivity|discriminate].
Qed.

Lemma appends_satisfies h n y y' cs :
  appends h n y y' -> satisfies_b y cs = true -> satisfies_b y' cs = true.
Proof. induction 1; auto. intros. apply IHappends. eapply append1_satisfies; eassumption. Qed.

Lemma insert_fits p h y cs :
  fits_conditions y cs = true -> fits_conditions (snd (insert_into_hash p h false y)) cs = true.
Proof. rewrite !fits_satisfies. apply (appends_satisfies h _ _ _ _ (insert_appends p h y)). Qed.

(** Two loops, the second undoing the first. *)
Section Undo.
  Context {X L : Type} (get : nat -> L -> option X) (set : nat -> X -> L -> L).
  Context (get_set_eq : forall i x y l, get i l = Some y -> get i (set i x l) = Some x).
  Context (get_set_neq : forall i j x l, i <> j -> get j (set i x l) = get j l).
  Context (set_comm : forall i j x y l, i <> j -> set j y (set i x l) = set i x (set j y l)).
  Context (get_set : forall i l x, get i l = Some x -> set i x l = l).
  Context (set_set : forall i x y l, set i x (set i y l) = set i x l).
  Context (g1 g2 : X -> option (nat * X)).
  (* the hypothesis: the second operation does nothing on the original elements *)
  Context (undo : forall x, (forall a x', g2 x = Some (a, x') -> a = 0) ->
             match g1 x with
             | Some (n, x') => g2 x' = Some (n, x)
             | None => g2 x = None
             end).

  Lemma idx_loop_acc (g : X -> option (nat * X)) is_ acc l :
    idx_loop Nat.add get set g is_ acc l =
    (acc + fst (idx_loop Nat.add get set g is_ 0 l), snd (idx_loop Nat.add get set g is_ 0 l)).
  Proof.
    revert acc l; induction is_ as [|i is_ IH]; intros acc l; cbn; [f_equal; lia|].
    destruct (get i l) as [x|]; [|apply IH]. destruct (g x) as [[a x']|]; [|apply IH].
    rewrite IH. rewrite (IH a). cbn. f_equal. lia.
  Qed.

  Lemma idx_loop_undo is_ l :
    NoDup is_ ->
    fst (idx_loop Nat.add get set g2 is_ 0 l) = 0 ->
    idx_loop Nat.add get set g2 is_ 0 (snd (idx_loop Nat.add get set g1 is_ 0 l))
    = (fst (idx_loop Nat.add get set g1 is_ 0 l), l).
  Proof.
    intros Hd. revert l; induction Hd as [|i is_ Hi Hd IH]; intros l H0; [reflexivity|].
    cbn [idx_loop] in *.
    assert (Hsplit : (forall x, get i l = Some x -> forall a x', g2 x = Some (a, x') -> a = 0)
       /\ fst (idx_loop Nat.add get set g2 is_ 0 l) = 0).
    { destruct (get i l) as [x|] eqn:E.
      - destruct (g2 x) as [[a x']|] eqn:Eg.
        + rewrite idx_loop_acc in H0. cbn in H0. split.
          * intros x0 Hx a0 x0' Ha. inversion Hx; subst. rewrite Ha in Eg. inversion Eg; subst. lia.
          * rewrite idx_loop_set_comm in H0 by assumption.
            destruct (idx_loop Nat.add get set g2 is_ 0 l). cbn in *. lia.
        + split; [|assumption]. intros x0 Hx a0 x0' Ha. inversion Hx; subst. congruence.
      - split; [discriminate|assumption]. }
    destruct Hsplit as [Hz H0'].
    destruct (get i l) as [x|] eqn:E.
    - specialize (undo x (Hz x eq_refl)). destruct (g1 x) as [[n x']|] eqn:Eg.
      + rewrite (idx_loop_acc g1 is_ n). cbn [fst snd].
        rewrite (idx_loop_set_comm _ _ _ _ get_set_neq set_comm) by assumption.
        specialize (IH l H0'). destruct (idx_loop Nat.add get set g1 is_ 0 l) as [m l'] eqn:El. cbn [fst snd] in *.
        assert (Hget : get i l' = Some x).
        { replace l' with (snd (idx_loop Nat.add get set g1 is_ 0 l)) by now rewrite El.
          rewrite (idx_loop_get Nat.add g1 get set get_set_eq get_set_neq) by assumption.
          rewrite E. destruct (in_dec Nat.eq_dec i is_); [contradiction|reflexivity]. }
        rewrite (get_set_eq _ _ _ _ Hget). rewrite undo.
        rewrite set_set. rewrite (get_set _ _ _ Hget). rewrite idx_loop_acc, IH. reflexivity.
      + specialize (IH l H0').
        assert (Hget : get i (snd (idx_loop Nat.add get set g1 is_ 0 l)) = Some x).
        { rewrite (idx_loop_get Nat.add g1 get set get_set_eq get_set_neq) by assumption.
          rewrite E. destruct (in_dec Nat.eq_dec i is_); [contradiction|reflexivity]. }
        rewrite Hget, undo. exact IH.
    - specialize (IH l H0').
      assert (Hget : get i (snd (idx_loop Nat.add get set g1 is_ 0 l)) = None).
      { rewrite (idx_loop_get Nat.add g1 get set get_set_eq get_set_neq) by assumption. now rewrite E. }
      rewrite Hget. exact IH.
  Qed.
End Undo.

Lemma all_loop_acc {X} (g : X -> option (nat * X)) acc l :
  all_loop Nat.add g acc l = (acc + fst (all_loop Nat.add g 0 l), snd (all_loop Nat.add g 0 l)).
Proof.
  rewrite (surjective_pairing (all_loop Nat.add g acc l)).
  rewrite !all_loop_snd, !all_loop_counted. reflexivity.
Qed.

Lemma all_loop_undo {X} (g1 g2 : X -> option (nat * X)) l :
  (forall x, (forall a x', g2 x = Some (a, x') -> a = 0) ->
             match g1 x with
             | Some (n, x') => g2 x' = Some (n, x)
             | None => g2 x = None
             end) ->
  fst (all_loop Nat.add g2 0 l) = 0 ->
  all_loop Nat.add g2 0 (snd (all_loop Nat.add g1 0 l)) = (fst (all_loop Nat.add g1 0 l), l).
Proof.
  intros undo. induction l as [|x l IH]; intros H0; [reflexivity|].
  cbn [all_loop] in *. specialize (undo x).
  assert (Hx : (forall a x', g2 x = Some (a, x') -> a = 0) /\ fst (all_loop Nat.add g2 0 l) = 0).
  { destruct (g2 x) as [[a x']|] eqn:E.
    - rewrite all_loop_acc in H0. cbn in H0. split; [intros a0 x0 E0; inversion E0; subst|]; lia.
    - split; [discriminate|]. now destruct (all_loop Nat.add g2 0 l). }
  destruct Hx as [Hx H0']. specialize (undo Hx). specialize (IH H0').
  destruct (g1 x) as [[n x']|] eqn:E1.
  - rewrite (all_loop_acc g1). cbn [Nat.add fst snd all_loop]. rewrite undo.
    rewrite (all_loop_acc g2), IH. cbn. reflexivity.
  - destruct (all_loop Nat.add g1 0 l) as [m l1]. cbn [fst snd all_loop] in *. rewrite undo, IH. reflexivity.
Qed.

Lemma fits_set_value a k al v v' b cs :
  as_string v' = as_string v ->
  fits_conditions (Hash (a ++ HElem (mkHE k (mkA al v)) :: b)) cs
  = fits_conditions (Hash (a ++ HElem (mkHE k (mkA al v')) :: b)) cs.
Proof.
  intros H. rewrite !fits_satisfies.
  assert (G : forall v v', as_string v' = as_string v ->
     satisfies_b (Hash (a ++ HElem (mkHE k (mkA al v)) :: b)) cs = true ->
     satisfies_b (Hash (a ++ HElem (mkHE k (mkA al v')) :: b)) cs = true).
  { clear. intros v v' H. eapply satisfies_b_first; [reflexivity|reflexivity|]. intros k0 a0 H0.
    destruct (first_value_mid k0 a k (mkA al v) (mkA al v') b) as [E|[E1 E2]].
    - rewrite <- E. eauto.
    - rewrite E1 in H0. inversion H0; subst. eauto. }
  destruct (satisfies_b (Hash (a ++ HElem (mkHE k (mkA al v)) :: b)) cs) eqn:E1.
  - symmetry. eapply G; eassumption.
  - destruct (satisfies_b (Hash (a ++ HElem (mkHE k (mkA al v')) :: b)) cs) eqn:E2; [|reflexivity].
    apply (G v' v) in E2; [congruence|auto].
Qed.

Lemma edit_value_undo (e1 e2 : yaml -> nat * yaml) a :
  (fst (e2 (a_value a)) = 0 -> e2 (snd (e1 (a_value a))) = (fst (e1 (a_value a)), a_value a)) ->
  fst (edit_value e2 a) = 0 ->
  edit_value e2 (snd (edit_value e1 a)) = (fst (edit_value e1 a), a).
Proof.
  unfold edit_value. destruct a as [al v]. cbn. destruct (e2 v) as [n2 v2]. destruct (e1 v) as [n1 v1].
  cbn. intros H ->. now rewrite H.
Qed.

Theorem insert_remove p h y :
  indexes_distinct p ->
  fst (remove_from_hash p y) = 0 ->
  remove_from_hash p (snd (insert_into_hash p h false y)) = (fst (insert_into_hash p h false y), y).
Proof.
  revert y; induction p as [cs|k cs rest IH|cs rest IH|is_ cs rest IH] using path_ind'; intros y Hd H0.
  - reflexivity.
  - unfold remove_from_hash, insert_into_hash in *. cbn [edit_hash] in *.
    destruct (fits_conditions y cs) eqn:Ef; [|cbn [snd fst]; now rewrite Ef].
    destruct y as [|l| | | | | | | | ]; try (cbn [snd fst]; now rewrite Ef).
    destruct rest as [o|].
    + destruct (key_index l k) as [i|] eqn:Ei.
      * destruct (key_index_split _ _ _ Ei) as (l1 & [al v] & l2 & -> & <- & Hk).
        rewrite nth_error_app_mid in *. cbn [he_value he_key] in *.
        assert (H0' : fst (edit_value (edit_hash remove_f o) (mkA al v)) = 0)
          by (destruct (edit_value _ _); exact H0).
        pose proof (edit_value_undo (edit_hash (insert_f h false) o) (edit_hash remove_f o) (mkA al v)
                      (IH v Hd) H0') as U.
        pose proof (edit_hash_as_string (insert_f h false) o v) as Es.
        unfold edit_value in *. cbn [a_value a_alias] in *.
        destruct (edit_hash (insert_f h false) o v) as [n v']. cbn [fst snd a_value a_alias] in *.
        rewrite set_nth_app. rewrite <- (fits_set_value _ _ _ _ _ _ _ Es), Ef.
        rewrite (key_index_app _ _ _ _ Hk), nth_error_app_mid. cbn [he_value he_key a_value a_alias].
        destruct (edit_hash remove_f o v') as [n2 v2]. inversion U; subst.
        now rewrite set_nth_app.
      * cbn [fst snd]. now rewrite Ef, Ei.
    + unfold insert_f, remove_f in *. destruct (key_index l k) as [i|] eqn:Ei; [discriminate|].
      cbn [fst snd].
      assert (Ef' : fits_conditions (Hash (l ++ [HElem (mkHE k h)])) cs = true).
      { rewrite fits_satisfies in *. eapply satisfies_b_first; [reflexivity|reflexivity| |exact Ef].
        intros k0 a0 Hk0. exists a0. split; [now apply first_value_app|reflexivity]. }
      rewrite Ef'. apply key_index_none in Ei. rewrite (key_index_app _ _ _ _ Ei).
      rewrite remove_nth_app, app_nil_r. reflexivity.
  - destruct rest as [o|]; [|reflexivity]. unfold remove_from_hash, insert_into_hash in *.
    cbn [edit_hash] in *. cbn in IH, Hd. destruct y; try reflexivity.
    + match goal with |- context [all_loop Nat.add ?g1 0 l] => match type of H0 with context [all_loop Nat.add ?g2 0 l] =>
        pose proof (all_loop_undo g1 g2 l) as U end end.
      match type of U with ?P -> _ => assert (HP : P) end.
      { intros x. destruct (fits_conditions x cs) eqn:Ef; intros Hz; [|cbn beta iota; try rewrite Ef; reflexivity].
        specialize (IH x Hd). pose proof (insert_fits o h x cs Ef) as Ef2. unfold insert_into_hash in Ef2.
        destruct (edit_hash (insert_f h false) o x) as [n x']. cbn [fst snd] in *.
        rewrite Ef2. f_equal. rewrite IH; [reflexivity|].
        destruct (edit_hash remove_f o x) as [a2 x2]. eapply Hz; reflexivity. }
      specialize (U HP). destruct (all_loop Nat.add _ 0 l) as [n2 l2]. cbn [fst] in *.
      destruct (all_loop Nat.add _ 0 l) as [n1 l1]. cbn [fst snd] in *. rewrite (U H0). reflexivity.
    + match goal with |- context [all_loop Nat.add ?g1 0 l] => match type of H0 with context [all_loop Nat.add ?g2 0 l] =>
        pose proof (all_loop_undo g1 g2 l) as U end end.
      match type of U with ?P -> _ => assert (HP : P) end.
      { intros [c|c|[al x]]; cbn [a_value]; try reflexivity.
        destruct (fits_conditions x cs) eqn:Ef; intros Hz; [|cbn beta iota; try rewrite Ef; reflexivity].
        specialize (IH x Hd). pose proof (insert_fits o h x cs Ef) as Ef2. unfold insert_into_hash in Ef2.
        unfold edit_value in *. cbn [a_value a_alias] in *.
        destruct (edit_hash (insert_f h false) o x) as [n x']. cbn [fst snd a_value a_alias] in *.
        rewrite Ef2. rewrite IH; [reflexivity|].
        destruct (edit_hash remove_f o x) as [a2 x2]. eapply Hz; reflexivity. }
      specialize (U HP). destruct (all_loop Nat.add _ 0 l) as [n2 l2]. cbn [fst] in *.
      destruct (all_loop Nat.add _ 0 l) as [n1 l1]. cbn [fst snd] in *. rewrite (U H0). reflexivity.
  - destruct rest as [o|]; [|reflexivity]. unfold remove_from_hash, insert_into_hash in *.
    cbn [edit_hash] in *. cbn in IH, Hd. destruct Hd as [Hn Hd]. destruct y; try reflexivity.
    + match goal with |- context [idx_loop Nat.add ?get ?set ?g1 is_ 0 l] => match type of H0 with context [idx_loop Nat.add _ _ ?g2 is_ 0 l] =>
        pose proof (idx_loop_undo get set (fun i x y l E => nth_error_set_nth_eq i x y l E) (fun i j x l E => nth_error_set_nth_neq i j x l E)
             (fun i j x y l E => nth_set_comm i j x y l E) (fun i l x E => set_nth_same i x l E)
             (fun i x y l => set_nth_set_nth i x y l) g1 g2) as U end end.
      match type of U with ?P -> _ => assert (HP : P) end.
      { intros x. destruct (fits_conditions x cs) eqn:Ef; intros Hz; [|cbn beta iota; try rewrite Ef; reflexivity].
        specialize (IH x Hd). pose proof (insert_fits o h x cs Ef) as Ef2. unfold insert_into_hash in Ef2.
        destruct (edit_hash (insert_f h false) o x) as [n x']. cbn [fst snd] in *.
        rewrite Ef2. f_equal. rewrite IH; [reflexivity|].
        destruct (edit_hash remove_f o x) as [a2 x2]. eapply Hz; reflexivity. }
      specialize (U HP is_ l Hn). destruct (idx_loop Nat.add _ _ _ _ 0 l) as [n2 l2]. cbn [fst] in *.
      destruct (idx_loop Nat.add _ _ _ _ 0 l) as [n1 l1]. cbn [fst snd] in *. rewrite (U H0). reflexivity.
    + match goal with |- context [idx_loop Nat.add ?get ?set ?g1 is_ 0 l] => match type of H0 with context [idx_loop Nat.add _ _ ?g2 is_ 0 l] =>
        pose proof (idx_loop_undo get set (fun i x y l E => get_set_elem_eq i x y l E) (fun i j x l E => get_set_elem_neq i j x l E)
             (fun i j x y l E => elem_set_comm i j x y l E) (fun i l x E => get_elem_set_same i x l E)) as U1;
        specialize (fun W => U1 W g1 g2) end end.
      match type of U1 with ?P -> _ => assert (HW : P) end.
      { intros i x y l0. revert i; induction l0 as [|[c|c|d] l0 IHl]; intros i; cbn; auto; try (f_equal; auto).
        destruct i; cbn; f_equal; auto. }
      specialize (U1 HW).
      match type of U1 with ?P -> _ => assert (HP : P) end.
      { intros [al x]; cbn [a_value]; try reflexivity.
        destruct (fits_conditions x cs) eqn:Ef; intros Hz; [|cbn beta iota; try rewrite Ef; reflexivity].
        specialize (IH x Hd). pose proof (insert_fits o h x cs Ef) as Ef2. unfold insert_into_hash in Ef2.
        unfold edit_value in *. cbn [a_value a_alias] in *.
        destruct (edit_hash (insert_f h false) o x) as [n x']. cbn [fst snd a_value a_alias] in *.
        rewrite Ef2. rewrite IH; [reflexivity|].
        destruct (edit_hash remove_f o x) as [a2 x2]. eapply Hz; reflexivity. }
      specialize (U1 HP is_ l Hn). destruct (idx_loop Nat.add _ _ _ _ 0 l) as [n2 l2]. cbn [fst] in *.
      destruct (idx_loop Nat.add _ _ _ _ 0 l) as [n1 l1]. cbn [fst snd] in *. rewrite (U1 H0). reflexivity.
Qed.
