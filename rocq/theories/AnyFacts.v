(** What the untyped reader does with any tree. *)
From Coq Require Import ZArith Lia.
From Verif Require Import Base Ast Strings Format Num Pretty Ser De Attr DeErr Spec_Serde Spec_Look Spec_Typed Spec_Attr Spec_Refs Spec_Reads Spec_Any
  SerdeFacts LookFacts LookFacts2 AttrFacts AttrFacts2 AttrFacts7 AttrFacts9 RefsFacts4 ErrFacts2 Spec_Reads Spec_Any.
Import ListNotations.

Scheme tells_i := Minimality for tells Sort Prop
  with tells_all_i := Minimality for tells_all Sort Prop.
Combined Scheme tells_both from tells_i, tells_all_i.

Definition coll (y : yaml) : Prop := is_seq y \/ is_map y.
(** The collection made of the values of its elements. *)
Definition made (y : yaml) (vs : list anyv) : anyv :=
  match y with
  | Array _ | InlineArray _ => AnSeq vs
  | _ => AnMap (combine (map (fun kv => any_unquoted (fst kv)) (entries_of y)) vs)
  end.
Lemma values_of y : is_map y -> map snd (entries_of y) = elements_of y.
Proof.
  destruct y; try contradiction; intros _; unfold elements_of; cbn [entries_of children].
  - rewrite map_map. reflexivity.
  - induction l as [|[c|c|e] l IH]; cbn; [reflexivity|exact IH|exact IH|now rewrite IH].
Qed.
Lemma inline_elements l : elements_of (InlineArray l) = l.
Proof. unfold elements_of. cbn [children]. rewrite map_map. cbn. apply map_id. Qed.

Lemma step_coll n y a : coll y -> de_any (S n) y a =
  match any_elems n (elements_of y) (entered a y) with
  | Done vs b => Done (made y vs) b | Failed => Failed | More => More end.
Proof.
  intros C. destruct y; try (destruct C as [[]|[]]).
  - rewrite <- (values_of (InlineHash l) I). cbn [entries_of].
    rewrite inline_labels by (right; eauto). cbn [made entries_of].
    transitivity (match any_entries n l a with Done xs a2 => Done (AnMap xs) a2 | Failed => Failed | More => More end); [reflexivity|].
    rewrite entries_elems. destruct (any_elems n (map snd l) a); reflexivity.
  - rewrite <- (values_of (Hash l) I). cbn [made].
    transitivity (let '(es, a1) := hash_entries a l in match any_entries n es a1 with Done xs a2 => Done (AnMap xs) a2 | Failed => Failed | More => More end); [reflexivity|].
    rewrite hash_parts, entries_elems. destruct (any_elems n (map snd (entries_of (Hash l))) (entered a (Hash l))); reflexivity.
  - rewrite inline_elements, inline_labels by (left; eauto). reflexivity.
  - transitivity (let '(vs, a1) := seq_values a l in match any_elems n vs a1 with Done xs a2 => Done (AnSeq xs) a2 | Failed => Failed | More => More end); [reflexivity|].
    rewrite seq_parts. reflexivity.
Qed.
Lemma step_ref n m a : de_any (S n) (Anchor m) a = match resolve a m with Some y => de_any n y a | None => Failed end.
Proof. reflexivity. Qed.
Lemma step_scalar n y a : ~ coll y -> is_ref y = false -> de_any (S n) y a = Done (any_scalar y) a.
Proof. intros C R. destruct y; try reflexivity; try discriminate; exfalso; apply C; [right|right|left|left]; exact I. Qed.
Lemma coll_dec y : {coll y} + {~ coll y}.
Proof. destruct y; (left; (left; exact I) || (right; exact I)) || (right; intros [H|H]; exact H). Qed.
Lemma coll_ref y : coll y -> is_ref y = false.
Proof. destruct y; try reflexivity. intros [[]|[]]. Qed.
Lemma elements_coll y l x r : elements_of y = l ++ x :: r -> coll y.
Proof. destruct y; intros E; try (now (left + right)); cbn in E; destruct l; discriminate. Qed.

Lemma longer k j y a : k <= j -> de_any k y a = More \/ de_any j y a = de_any k y a.
Proof. intros L. apply later_eq. exact (any_later k j L k j L y a). Qed.

(** ---- values ---- *)

Lemma done_tells k : forall y a v b, de_any k y a = Done v b -> tells y a v b.
Proof.
  induction k as [|k IH]; intros y a v b H; [discriminate|].
  assert (El : forall l a vs b, any_elems k l a = Done vs b -> tells_all l a vs b).
  { induction l as [|x l IHl]; intros a' vs b'; cbn [any_elems]; [intros E; injection E as <- <-; constructor|].
    destruct (de_any k x a') as [w a1| |] eqn:D; try discriminate.
    destruct (any_elems k l a1) as [ws a2| |] eqn:E; try discriminate. intros F. injection F as <- <-.
    econstructor; [exact (IH _ _ _ _ D)|exact (IHl _ _ _ E)]. }
  destruct (is_ref y) eqn:R.
  - destruct y; try discriminate. rewrite step_ref in H. destruct (resolve a s) as [z|] eqn:Z; [|discriminate].
    apply TeRef with z; [now apply resolve_newest|exact (IH _ _ _ _ H)].
  - destruct (coll_dec y) as [C|C].
    + rewrite step_coll in H by exact C. destruct (any_elems k (elements_of y) (entered a y)) as [vs b'| |] eqn:E; try discriminate.
      injection H as <- <-. apply El in E. destruct C as [C|C].
      * replace (made y vs) with (AnSeq vs) by (destruct y; try destruct C; reflexivity). now apply TeSeq.
      * replace (made y vs) with (AnMap (combine (map (fun kv => any_unquoted (fst kv)) (entries_of y)) vs)) by (destruct y; try destruct C; reflexivity).
        apply TeMap; [exact C| |exact E]. clear. induction (entries_of y) as [|e l IHl]; cbn [map]; constructor; [now apply key_value|exact IHl].
    + rewrite step_scalar in H by assumption. injection H as <- <-.
      destruct y; try discriminate; try (exfalso; apply C; (left; exact I) || (right; exact I));
        try (apply TeText; [discriminate|now apply scalar_iff]).
      apply TeWord. now apply key_value.
Qed.

Lemma keys_eq es ks : Forall2 key_means (map fst es) ks -> ks = map (fun kv : str * yaml => any_unquoted (fst kv)) es.
Proof.
  revert ks. induction es as [|e es IH]; intros ks H; inversion H as [|? ? ? ? K F]; subst; [reflexivity|].
  cbn [map]. f_equal; [now apply key_value|exact (IH _ F)].
Qed.

Lemma tells_done :
  (forall y a v b, tells y a v b -> exists k, forall j, k <= j -> de_any j y a = Done v b) /\
  (forall l a vs b, tells_all l a vs b -> exists k, forall j, k <= j -> any_elems j l a = Done vs b).
Proof.
  apply tells_both.
  - intros s v a K. exists 1. intros [|j] L; [lia|]. apply key_value in K. subst v. reflexivity.
  - intros y s a N S. exists 1. intros [|j] L; [lia|]. apply scalar_iff in S.
    rewrite step_scalar; [|destruct y; try discriminate S; intros [[]|[]]|destruct y; try discriminate S; reflexivity].
    unfold any_scalar. rewrite S. destruct y; try reflexivity. now elim (N s0).
  - intros n y a v a1 W _ [k K]. exists (S k). intros [|j] L; [lia|]. rewrite step_ref. apply resolve_newest in W. rewrite W.
    apply K. lia.
  - intros y a vs a1 C _ [k K]. exists (S k). intros [|j] L; [lia|]. rewrite step_coll by (now left). rewrite K by lia.
    destruct y; try destruct C; reflexivity.
  - intros y a ks vs a1 C F _ [k K]. exists (S k). intros [|j] L; [lia|]. rewrite step_coll by (now right). rewrite K by lia.
    apply keys_eq in F. subst ks. destruct y; try destruct C; reflexivity.
  - intros a. exists 0. intros j _. reflexivity.
  - intros y l v vs a a1 a2 _ [k K] _ [k' K']. exists (Nat.max k k'). intros j L. cbn [any_elems].
    rewrite K by lia. now rewrite K' by lia.
Qed.

Lemma any_value y a v b : (exists k, de_any k y a = Done v b) <-> tells y a v b.
Proof.
  split; [intros [k H]; exact (done_tells k y a v b H)|]. intros H. destruct (proj1 tells_done _ _ _ _ H) as [k K].
  exists k. now apply K.
Qed.

(** ---- levels ---- *)

Lemma elems_stop k l : forall a, any_elems k l a = More \/ any_elems k l a = Failed ->
  exists l1 x r vs b, l = l1 ++ x :: r /\ any_elems k l1 a = Done vs b /\
    (any_elems k l a = More -> de_any k x b = More) /\ (any_elems k l a = Failed -> de_any k x b = Failed).
Proof.
  induction l as [|x l IH]; intros a; cbn [any_elems]; [intros [H|H]; discriminate|].
  destruct (de_any k x a) as [v a1| |] eqn:D.
  - destruct (any_elems k l a1) as [vs a2| |] eqn:E; [intros [H|H]; discriminate| |]; intros _;
      (destruct (IH a1) as (l1 & z & r & ws & b & -> & F & M & L); [rewrite E; auto|];
       exists (x :: l1), z, r, (v :: ws), b; cbn [any_elems app]; rewrite D, F;
       split; [reflexivity|]; split; [reflexivity|]; rewrite E in M, L; auto).
  - intros _. exists [], x, l, [], a. split; [reflexivity|]. split; [reflexivity|]. split; [discriminate|auto].
  - intros _. exists [], x, l, [], a. split; [reflexivity|]. split; [reflexivity|]. split; [auto|discriminate].
Qed.
Lemma elems_tells k l : forall a vs b, any_elems k l a = Done vs b -> tells_all l a vs b.
Proof.
  induction l as [|x l IHl]; intros a' vs b'; cbn [any_elems]; [intros E; injection E as <- <-; constructor|].
  destruct (de_any k x a') as [w a1| |] eqn:D; try discriminate.
  destruct (any_elems k l a1) as [ws a2| |] eqn:E; try discriminate. intros F. injection F as <- <-.
  econstructor; [exact (done_tells _ _ _ _ _ D)|exact (IHl _ _ _ E)].
Qed.

Lemma more_nested k : forall y a, de_any k y a = More -> exists x b, nested k y a x b.
Proof.
  induction k as [|k IH]; intros y a H; [exists y, a; constructor|].
  destruct (is_ref y) eqn:R.
  - destruct y; try discriminate. rewrite step_ref in H. destruct (resolve a s) as [z|] eqn:Z; [|discriminate].
    destruct (IH z a H) as (x & b & N). exists x, b. apply NeStep with z a; [|exact N]. constructor. now apply resolve_newest.
  - destruct (coll_dec y) as [C|C]; [|rewrite step_scalar in H by assumption; discriminate].
    rewrite step_coll in H by exact C.
    destruct (any_elems k (elements_of y) (entered a y)) as [vs b| |] eqn:E; try discriminate.
    destruct (elems_stop k _ _ (or_introl E)) as (l1 & x & r & ws & b & Q & F & M & _).
    destruct (IH x b (M E)) as (z & c & N). exists z, c. apply NeStep with x b; [|exact N].
    apply NeIn with l1 r ws; [exact Q|exact (elems_tells _ _ _ _ _ F)].
Qed.

(** Elements that are read do not stop the reader. *)
Lemma elems_before k l : forall a vs b, tells_all l a vs b -> any_elems k l a = More \/ any_elems k l a = Done vs b.
Proof.
  intros a vs b H. destruct (proj2 tells_done _ _ _ _ H) as [j K]. clear H. revert a vs b K.
  induction l as [|x l IH]; intros a vs b K; cbn [any_elems] in *; [right; now apply (K j)|].
  pose proof (longer k (Nat.max j k) x a (Nat.le_max_r _ _)) as L. specialize (K) as K'. specialize (K' (Nat.max j k) (Nat.le_max_l _ _)).
  destruct L as [->|L]; [now left|]. rewrite L in K'.
  destruct (de_any k x a) as [v a1| |] eqn:D; [|discriminate|now left].
  destruct (any_elems (Nat.max j k) l a1) as [ws a2| |] eqn:E; try discriminate. injection K' as <- <-.
  assert (G : forall i, j <= i -> any_elems i l a1 = Done ws a2).
  { intros i Li. specialize (K i Li).
    assert (X : de_any i x a = Done v a1).
    { destruct (de_any i x a) as [v' a'| |] eqn:X; try discriminate.
      destruct (Nat.le_ge_cases k i) as [O|O]; destruct (longer _ _ x a O) as [Y|Y]; congruence. }
    rewrite X in K. destruct (any_elems i l a1) as [ws' a2'| |]; try discriminate. now injection K as <- <-. }
  destruct (IH a1 ws a2 G) as [->| ->]; auto.
Qed.
Lemma elems_app k l1 x r : forall a vs b, any_elems k l1 a = Done vs b ->
  (de_any k x b = More -> any_elems k (l1 ++ x :: r) a = More) /\ (de_any k x b = Failed -> any_elems k (l1 ++ x :: r) a = Failed).
Proof.
  induction l1 as [|z l1 IH]; intros a vs b; cbn [any_elems app].
  - intros E. injection E as <- <-. split; intros ->; reflexivity.
  - destruct (de_any k z a) as [v a1| |]; try discriminate. destruct (any_elems k l1 a1) as [ws a2| |] eqn:E; try discriminate.
    intros F. injection F as <- <-. destruct (IH a1 ws a2 E) as [M L]. split; intros H; [now rewrite M|now rewrite L].
Qed.
Lemma elems_more k l1 r : forall a, any_elems k l1 a = More -> any_elems k (l1 ++ r) a = More.
Proof.
  induction l1 as [|z l1 IH]; intros a; cbn [any_elems app]; [discriminate|].
  destruct (de_any k z a) as [v a1| |]; try easy. destruct (any_elems k l1 a1) eqn:E; try discriminate. intros _. now rewrite IH.
Qed.

Lemma needs_more y a x b k : needs y a x b -> de_any k x b = More -> de_any (S k) y a = More.
Proof.
  intros H M. destruct H as [n y a W|y a l x r vs a1 E T].
  - rewrite step_ref. apply resolve_newest in W. now rewrite W.
  - rewrite step_coll by exact (elements_coll _ _ _ _ E). rewrite E.
    destruct (elems_before k l _ _ _ T) as [F|F]; [now rewrite elems_more|].
    now rewrite (proj1 (elems_app k l x r _ _ _ F) M).
Qed.
Lemma nested_more k y a x b : nested k y a x b -> de_any k y a = More.
Proof. intros H. induction H as [|k y a x b z c N _ IH]; [reflexivity|]. exact (needs_more _ _ _ _ _ N IH). Qed.

Lemma any_levels k y a : de_any k y a = More <-> exists x b, nested k y a x b.
Proof. split; [apply more_nested|]. intros (x & b & H). exact (nested_more _ _ _ _ _ H). Qed.
Lemma any_endless y a : (forall k, de_any k y a = More) <-> endless y a.
Proof. split; intros H k; apply any_levels; apply H. Qed.

(** ---- undefined references ---- *)

Lemma failed_lost k : forall y a, de_any k y a = Failed -> exists n, lost y a n.
Proof.
  induction k as [|k IH]; intros y a H; [discriminate|].
  destruct (is_ref y) eqn:R.
  - destruct y; try discriminate. rewrite step_ref in H. destruct (resolve a s) as [z|] eqn:Z.
    + destruct (IH z a H) as (n & i & b & N & U). exists n, (S i), b. split; [|exact U].
      apply NeStep with z a; [|exact N]. constructor. now apply resolve_newest.
    + exists s, 0, a. split; [constructor|]. now apply resolve_none.
  - destruct (coll_dec y) as [C|C]; [|rewrite step_scalar in H by assumption; discriminate].
    rewrite step_coll in H by exact C.
    destruct (any_elems k (elements_of y) (entered a y)) as [vs b| |] eqn:E; try discriminate.
    destruct (elems_stop k _ _ (or_intror E)) as (l1 & x & r & ws & b & Q & F & _ & L).
    destruct (IH x b (L E)) as (n & i & c & N & U). exists n, (S i), c. split; [|exact U]. apply NeStep with x b; [|exact N].
    apply NeIn with l1 r ws; [exact Q|exact (elems_tells _ _ _ _ _ F)].
Qed.
Lemma needs_failed y a x b : needs y a x b -> (exists k, de_any k x b = Failed) -> exists k, de_any k y a = Failed.
Proof.
  intros H [k M]. destruct H as [n y a W|y a l x r vs a1 E T].
  - exists (S k). rewrite step_ref. apply resolve_newest in W. now rewrite W.
  - destruct (proj2 tells_done _ _ _ _ T) as [j K]. exists (S (Nat.max j k)).
    rewrite step_coll by exact (elements_coll _ _ _ _ E). rewrite E.
    destruct (longer k (Nat.max j k) x a1 (Nat.le_max_r _ _)) as [X|X]; [congruence|].
    rewrite (proj2 (elems_app (Nat.max j k) l x r _ _ _ (K _ (Nat.le_max_l _ _)))); [reflexivity|congruence].
Qed.
Lemma lost_failed y a n : lost y a n -> exists k, de_any k y a = Failed.
Proof.
  intros (k & b & H & U). remember (Anchor n) as x eqn:Q. induction H as [y a|k y a x b z c N _ IH].
  - subst y. exists 1. rewrite step_ref. apply resolve_none in U. now rewrite U.
  - exact (needs_failed _ _ _ _ N (IH Q U)).
Qed.
Lemma any_lost y a : (exists k, de_any k y a = Failed) <-> exists n, lost y a n.
Proof. split; [intros [k H]; exact (failed_lost k y a H)|intros [n H]; exact (lost_failed y a n H)]. Qed.

(** ---- one of the three ---- *)

Lemma one_outcome j k y a : de_any j y a <> More -> de_any k y a <> More -> de_any j y a = de_any k y a.
Proof. intros J K. destruct (Nat.le_ge_cases j k) as [L|L]; destruct (longer _ _ y a L); congruence. Qed.
Lemma tells_one y a v b w c : tells y a v b -> tells y a w c -> v = w /\ b = c.
Proof.
  intros H G. apply any_value in H as [j H], G as [k G].
  assert (E := one_outcome j k y a). rewrite H, G in E. specialize (E ltac:(discriminate) ltac:(discriminate)). now injection E as <- <-.
Qed.
Lemma tells_not_lost y a v b n : tells y a v b -> ~ lost y a n.
Proof.
  intros H G. apply any_value in H as [j H]. apply lost_failed in G as [k G].
  assert (E := one_outcome j k y a). rewrite H, G in E. specialize (E ltac:(discriminate) ltac:(discriminate)). discriminate.
Qed.
Lemma ends y a : (exists v b, tells y a v b) \/ (exists n, lost y a n) -> ~ endless y a.
Proof.
  intros H E. pose proof (proj2 (any_endless y a) E) as F. destruct H as [(v & b & H)|H].
  - apply any_value in H as [k H]. now rewrite F in H.
  - apply any_lost in H as [k H]. now rewrite F in H.
Qed.
(** Two lists of read elements, one longer than the other. *)
Lemma all_one l : forall a vs b ws c, tells_all l a vs b -> tells_all l a ws c -> vs = ws /\ b = c.
Proof.
  induction l as [|x l IH]; intros a vs b ws c H G.
  - inversion H; subst. inversion G; subst. auto.
  - inversion H as [|? ? v ? ? a1 ? T Ts]; subst. inversion G as [|? ? w ? ? a2 ? T' Ts']; subst.
    destruct (tells_one _ _ _ _ _ _ T T') as [<- <-]. destruct (IH _ _ _ _ _ Ts Ts') as [<- <-]. auto.
Qed.
Lemma all_app l1 l2 : forall a vs b, tells_all (l1 ++ l2) a vs b -> exists v1 v2 c, vs = v1 ++ v2 /\ tells_all l1 a v1 c /\ tells_all l2 c v2 b.
Proof.
  induction l1 as [|x l1 IH]; intros a vs b H; cbn [app] in H; [exists [], vs, a; repeat split; [constructor|exact H]|].
  inversion H as [|? ? v vs' ? a1 ? T Ts]; subst. destruct (IH _ _ _ Ts) as (v1 & v2 & c & -> & A & B).
  exists (v :: v1), v2, c. split; [reflexivity|]. split; [econstructor; eassumption|exact B].
Qed.
Lemma lost_one y a n m : lost y a n -> lost y a m -> n = m.
Proof.
  intros (k & b & H & U). revert m. remember (Anchor n) as z eqn:Q. induction H as [y a|k y a x b z c N H IH]; intros m (i & d & G & V).
  - subst y. inversion G as [|? ? ? x b ? ? N _]; subst; [reflexivity|]. exfalso. inversion N as [? ? ? W|? ? l ? r ? ? E]; subst.
    + apply resolve_newest in W. apply resolve_none in U. congruence.
    + destruct l; discriminate E.
  - specialize (IH Q U). subst z. inversion G as [|i' ? ? x' b' ? ? N' G']; subst.
    + exfalso. inversion N as [? ? ? W|? ? l ? r ? ? E]; subst.
      * apply resolve_newest in W. apply resolve_none in V. congruence.
      * destruct l; discriminate E.
    + inversion N as [p y' ? W|? ? l ? r vs ? E T]; subst.
      * inversion N' as [? ? ? W'|? ? l ? r ? ? E]; subst; [|destruct l; discriminate E].
        apply resolve_newest in W, W'. assert (x = x') by congruence. subst x'. apply IH. exists i', d. auto.
      * inversion N' as [? ? ? W'|? ? l' ? r' vs' ? E' T']; subst; [destruct l; discriminate E|].
        assert (L1 : lost x b n) by (exists k, c; auto). assert (L2 : lost x' b' m) by (exists i', d; auto).
        rewrite E in E'. revert L1 L2. assert (K : forall l x r l' x' r' b b' vs vs' n m, l ++ x :: r = l' ++ x' :: r' ->
          tells_all l (entered a y) vs b -> tells_all l' (entered a y) vs' b' -> lost x b n -> lost x' b' m -> x = x' /\ b = b').
        { clear. intros l x r l' x' r' b b' vs vs' n m E T T' L1 L2. revert E T T'. generalize (entered a y) as a0.
          revert l' vs vs'. induction l as [|z l IHl]; intros [|z' l'] vs vs' a0 E T T'; cbn [app] in E; injection E as Q E.
          - subst. inversion T; subst. inversion T'; subst. auto.
          - subst. exfalso. inversion T; subst. inversion T' as [|? ? v ? ? a1 ? Tz]; subst. exact (tells_not_lost _ _ _ _ _ Tz L1).
          - subst. exfalso. inversion T'; subst. inversion T as [|? ? v ? ? a1 ? Tz]; subst. exact (tells_not_lost _ _ _ _ _ Tz L2).
          - subst z'. inversion T as [|? ? v ? ? a1 ? Tz Ts]; subst. inversion T' as [|? ? v' ? ? a1' ? Tz' Ts']; subst.
            destruct (tells_one _ _ _ _ _ _ Tz Tz') as [<- <-]. exact (IHl _ _ _ _ E Ts Ts'). }
        intros L1 L2. destruct (K _ _ _ _ _ _ _ _ _ _ _ _ E' T T' L1 L2) as [<- <-]. apply IH. exact L2.
Qed.
