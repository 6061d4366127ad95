(** Lemmas for C79. *)
From Coq Require Import ZArith.
From Verif Require Import Base Ast Num Ser De Peg YamlGrammar Consume FromStr Format Pretty
  Spec_Serde SerdeFacts SerdeFacts2 MapMerge Spec_Maps.
Import ListNotations.

Lemma ikind_eqb_spec a b : ikind_eqb a b = true <-> a = b.
Proof. split; [|intros ->; now destruct b]. destruct a, b; intro H; try discriminate H; reflexivity. Qed.

Lemma eqb_all_spec {A} (f : A -> A -> bool) l : Forall (fun x => forall y, f x y = true <-> x = y) l ->
  forall m, eqb_all f l m = true <-> l = m.
Proof.
  induction 1 as [|x l Hx Hl IH]; intros [|y m]; cbn [eqb_all]; try (split; [discriminate|discriminate]); [split; reflexivity|].
  rewrite andb_true_iff, Hx, IH. split; [intros [-> ->]; reflexivity|intro E; injection E as -> ->; split; reflexivity].
Qed.

Lemma sval_eqb_spec v : forall w, sval_eqb v w = true <-> v = w.
Proof.
  induction v using sval_ind'; intros w; destruct w; cbn [sval_eqb];
    try (split; [discriminate|discriminate]);
    try (split; [reflexivity|reflexivity]).
  all: rewrite ?andb_true_iff.
  all: repeat match goal with
       | |- context [Bool.eqb _ _ = true] => rewrite Bool.eqb_true_iff
       | |- context [ikind_eqb _ _ = true] => rewrite ikind_eqb_spec
       | |- context [(_ =? _)%Z = true] => rewrite Z.eqb_eq
       | |- context [seqb _ _ = true] => rewrite seqb_eq
       | |- context [ceqb _ _ = true] => rewrite ceqb_eq
       | IH : forall w, sval_eqb ?v w = true <-> _ |- context [sval_eqb ?v _ = true] => rewrite IH
       | |- context [eqb_all _ _ _ = true] => rewrite eqb_all_spec
       end.
  all: try (split; [intros H1; try (destruct H1); congruence|intro H1; injection H1; intros; subst; try split; reflexivity]).
  all: try assumption.
  all: eapply Forall_impl; [|eassumption].
  all: intros [k x] Hx [j y]; cbn in Hx; rewrite andb_true_iff.
  all: try rewrite seqb_eq.
  - destruct Hx as [Hk Hx]. rewrite Hk, Hx. split; [intros [-> ->]; reflexivity|intro E; injection E as -> ->; split; reflexivity].
  - rewrite Hx. split; [intros [-> ->]; reflexivity|intro E; injection E as -> ->; split; reflexivity].
  - rewrite Hx. split; [intros [-> ->]; reflexivity|intro E; injection E as -> ->; split; reflexivity].
Qed.

Lemma insert_keys k v m x : In x (map fst (insert k v m)) <-> x = k \/ In x (map fst m).
Proof.
  induction m as [|[j w] m IH]; cbn [insert map In fst]; [intuition|].
  destruct (sval_eqb j k) eqn:E; cbn [map In fst].
  - apply sval_eqb_spec in E as ->. intuition.
  - rewrite IH. intuition.
Qed.

Lemma insert_nodup k v m : NoDup (map fst m) -> NoDup (map fst (insert k v m)).
Proof.
  induction m as [|[j w] m IH]; cbn [insert map fst]; intro H; [repeat constructor; intros []|].
  inversion H as [|? ? Hn Hm]; subst. destruct (sval_eqb j k) eqn:E; cbn [map fst]; constructor; auto.
  rewrite insert_keys. intros [->|X]; [|contradiction].
  assert (X : sval_eqb k k = true) by (now apply sval_eqb_spec). rewrite X in E. discriminate E.
Qed.

Lemma insert_in k v m : NoDup (map fst m) -> forall x y,
  In (x, y) (insert k v m) <-> (x = k /\ y = v) \/ (x <> k /\ In (x, y) m).
Proof.
  induction m as [|[j w] m IH]; cbn [insert map fst]; intros H x y.
  - cbn. split; [intros [E|[]]; injection E as <- <-; left; split; reflexivity|intros [[-> ->]|[_ []]]; left; reflexivity].
  - inversion H as [|? ? Hn Hm]; subst. destruct (sval_eqb j k) eqn:E.
    + apply sval_eqb_spec in E as ->. cbn [In]. split.
      * intros [X|X]; [injection X as <- <-; left; split; reflexivity|].
        right. split; [|right; exact X]. intros ->. apply Hn. apply (in_map fst) in X. exact X.
      * intros [[-> ->]|[Hne [X|X]]]; [left; reflexivity| |right; exact X]. injection X as <- <-. now destruct Hne.
    + cbn [In]. rewrite (IH Hm). split.
      * intros [X|[X|[X Y]]]; [|left; exact X|right; split; [exact X|right; exact Y]].
        injection X as <- <-. right. split; [|left; reflexivity].
        intros ->. assert (Y : sval_eqb k k = true) by (now apply sval_eqb_spec). rewrite Y in E. discriminate E.
      * intros [X|[X [Y|Y]]]; [right; left; exact X|left; exact Y|right; right; split; assumption].
Qed.

Lemma last_snoc es k v x y : last_entry (es ++ [(k, v)]) x y <-> (x = k /\ y = v) \/ (x <> k /\ last_entry es x y).
Proof.
  split.
  - intros (b & a & E & Hn). destruct (exists_last (l := (x, y) :: a)) as (a' & e & Ea); [discriminate|].
    rewrite Ea, app_assoc in E. apply app_inj_tail in E as [E <-].
    destruct a' as [|z a']; cbn in Ea; inversion Ea; subst.
    + left. split; reflexivity.
    + right. rewrite map_app in Hn. split.
      * intros ->. apply Hn, in_or_app. right. left. reflexivity.
      * exists b, a'. split; [reflexivity|]. intro X. apply Hn, in_or_app. left. exact X.
  - intros [[-> ->]|[Hne (b & a & -> & Hn)]]; [exists es, []; split; [reflexivity|intros []]|].
    exists b, (a ++ [(k, v)]). split; [now rewrite <- app_assoc|]. rewrite map_app. intro X.
    apply in_app_or in X as [X|[X|[]]]; [contradiction|]. cbn in X. congruence.
Qed.

Lemma collect_spec es : NoDup (map fst (collect es)) /\ forall k v, In (k, v) (collect es) <-> last_entry es k v.
Proof.
  induction es as [|[k v] es [IH1 IH2]] using rev_ind.
  - split; [constructor|]. intros k v. split; [intros []|]. intros (b & a & E & _). now destruct b.
  - unfold collect. rewrite fold_left_app. cbn [fold_left fst snd]. fold (collect es). split; [now apply insert_nodup|].
    intros x y. rewrite (insert_in _ _ _ IH1), IH2, last_snoc. reflexivity.
Qed.

Lemma insert_new k v m : ~ In k (map fst m) -> insert k v m = m ++ [(k, v)].
Proof.
  induction m as [|[j w] m IH]; cbn [insert map fst In app]; intro H; [reflexivity|].
  destruct (sval_eqb j k) eqn:E; [apply sval_eqb_spec in E; subst; exfalso; apply H; left; reflexivity|].
  rewrite IH; [reflexivity|]. intro X. apply H. right. exact X.
Qed.

Lemma collect_nodup es : NoDup (map fst es) -> collect es = es.
Proof.
  induction es as [|[k v] es IH] using rev_ind; intro H; [reflexivity|].
  unfold collect. rewrite fold_left_app. cbn [fold_left fst snd]. fold (collect es).
  rewrite map_app in H. cbn in H. pose proof (NoDup_remove _ _ _ H) as [H1 H2]. rewrite app_nil_r in H1, H2.
  rewrite (IH H1). now apply insert_new.
Qed.

Lemma Forall2_map {A B} (R : A -> B -> Prop) (f : A -> B) l : Forall (fun x => R x (f x)) l -> Forall2 R l (map f l).
Proof. induction 1; cbn; constructor; assumption. Qed.

Lemma held_keeps v : keeps v (held v).
Proof.
  induction v using sval_ind'; cbn [held]; try (constructor; assumption).
  - constructor. now apply Forall2_map.
  - constructor. now apply Forall2_map.
  - destruct (collect_spec (map (fun e => match e with (k, v) => (held k, held v) end) l)) as [H1 H2].
    apply KMap with (es := map (fun e => match e with (k, v) => (held k, held v) end) l); [|exact H1|exact H2].
    apply Forall2_map. eapply Forall_impl; [|eassumption]. intros [a b]; exact (fun h => h).
  - constructor. apply Forall2_map. eapply Forall_impl; [|eassumption]. intros [a b] h. split; [reflexivity|exact h].
  - constructor. now apply Forall2_map.
  - constructor. apply Forall2_map. eapply Forall_impl; [|eassumption]. intros [a b] h. split; [reflexivity|exact h].
Qed.

Lemma fold_forall {A} (P : A -> Prop) l : fold_right (fun v Q => P v /\ Q) True l <-> Forall P l.
Proof.
  induction l as [|x l IH]; cbn; [split; constructor|]. rewrite IH. split.
  - intros [h1 h2]. now constructor.
  - intro h. inversion h; subst. now split.
Qed.

Ltac folds := repeat match goal with
  | H : context [fold_right (fun v Q => @?P v /\ Q) True ?l] |- _ => rewrite (fold_forall P l) in H; cbv beta in H
  | |- context [fold_right (fun v Q => @?P v /\ Q) True ?l] => rewrite (fold_forall P l); cbv beta
  end.

Lemma map_same {A} (f : A -> A) l : Forall (fun x => f x = x) l -> map f l = l.
Proof. induction 1 as [|x l E _ IH]; cbn; [reflexivity|]. now rewrite E, IH. Qed.

Lemma held_proper v : proper v -> held v = v.
Proof.
  induction v using sval_ind'; cbn [proper held]; intro Hp; try reflexivity;
    try (f_equal; auto; fail).
  all: folds.
  all: f_equal.
  - apply map_same. rewrite Forall_forall in *. auto.
  - apply map_same. rewrite Forall_forall in *. auto.
  - destruct Hp as [Hn Hp]. folds. rewrite map_same; [now apply collect_nodup|].
    rewrite Forall_forall in *. intros [a b] i. specialize (H _ i). specialize (Hp _ i). cbn in *. f_equal; tauto.
  - apply map_same. rewrite Forall_forall in *. intros [a b] i. specialize (H _ i). specialize (Hp _ i). cbn in *. f_equal; tauto.
  - apply map_same. rewrite Forall_forall in *. auto.
  - apply map_same. rewrite Forall_forall in *. intros [a b] i. specialize (H _ i). specialize (Hp _ i). cbn in *. f_equal; tauto.
Qed.

Lemma in_collect es k v : In (k, v) (collect es) -> In (k, v) es.
Proof. intro H. apply collect_spec in H as (b & a & -> & _). apply in_elt. Qed.

Lemma proper_held v : proper (held v).
Proof.
  induction v using sval_ind'; cbn [proper held]; try exact I; try assumption.
  all: folds.
  - rewrite Forall_map. assumption.
  - rewrite Forall_map. assumption.
  - split; [apply collect_spec|]. folds. rewrite Forall_forall in *. intros [a b] i.
    apply in_collect in i. apply in_map_iff in i as ([x y] & E & i). injection E as <- <-. apply (H _ i).
  - rewrite Forall_map. eapply Forall_impl; [|eassumption]. intros [a b]; exact (fun h => h).
  - rewrite Forall_map. assumption.
  - rewrite Forall_map. eapply Forall_impl; [|eassumption]. intros [a b]; exact (fun h => h).
Qed.

(** ---- the keys written ---- *)
Lemma keys_differ kt (l : list (sval * sval)) (es : list (str * yaml)) :
  (forall e, In e l -> has_ty kt (fst e) /\ faithful (fst e)) ->
  all2 (fun kv e => repr (fst kv) (Unquoted (fst e))) l es -> NoDup (map fst l) -> NoDup (map fst es).
Proof.
  revert es. induction l as [|[k v] l IH]; intros [|[n y] es] Ht H Hn; cbn [all2] in H; try contradiction; [constructor|].
  destruct H as [H1 H2]. cbn [map fst] in *. inversion Hn as [|? ? N1 N2]; subst. constructor.
  - intro X. apply N1. clear IH N1 N2 Hn. apply in_map_iff in X as ([n' y'] & E & X). cbn in E. subst n'.
    destruct (Ht (k, v) (or_introl eq_refl)) as [T F]. pose proof (de_repr k kt _ [] T F H1) as D1. cbn [fst] in *.
    revert es H2 X. induction l as [|[k' v'] l IH]; intros [|[n2 y2] es] H X; cbn [all2] in H; try contradiction.
    destruct H as [H3 H4]. destruct X as [X|X].
    + injection X as -> ->. destruct (Ht (k', v') (or_intror (or_introl eq_refl))) as [T' F'].
      pose proof (de_repr k' kt _ [] T' F' H3) as D2. cbn [fst] in *. left. cbn. congruence.
    + right. apply (IH (fun e i => Ht e (match i with or_introl a => or_introl a | or_intror b => or_intror (or_intror b) end)) es); assumption.
  - apply IH; [|assumption|assumption]. intros e i. apply Ht. right. exact i.
Qed.

Lemma all_map_hash (es : list (str * yaml)) :
  NoDup (map fst es) -> Forall (fun e => unambiguous (snd e)) es -> unambiguous (map_yaml_of es).
Proof.
  intros H1 H2. unfold map_yaml_of. cbn [unambiguous]. split.
  - rewrite flat_map_concat_map, map_map. 
    replace (concat _) with (map fst es); [exact H1|]. clear. induction es as [|[k y] es IH]; cbn; [reflexivity|]. now f_equal.
  - folds. rewrite Forall_map. eapply Forall_impl; [|exact H2]. intros [k y]; exact (fun h => h).
Qed.

Lemma opt_all2 {A B} (f : A -> option B) l m : opt_map f l = Some m -> Forall2 (fun x y => f x = Some y) l m.
Proof.
  revert m; induction l as [|x l IH]; cbn; intros m H; [inversion H; constructor|].
  destruct (f x) as [y|] eqn:E; [|discriminate]. destruct (opt_map f l) as [ys|]; [|discriminate].
  injection H as <-. constructor; auto.
Qed.

Lemma Forall2_right {A B} (R : A -> B -> Prop) (P : A -> Prop) (Q : B -> Prop) l m :
  (forall x y, P x -> R x y -> Q y) -> Forall P l -> Forall2 R l m -> Forall Q m.
Proof. intros H HP HR. induction HR; inversion HP; subst; constructor; eauto. Qed.

Lemma str_unambiguous s : unambiguous (str_to_yaml s).
Proof. assert (E := str_to_yaml_value s). destruct (str_to_yaml s); cbn in E; try discriminate E; exact I. Qed.

Lemma written_keys v : forall t y, has_ty t v -> faithful v -> proper v -> ser v = Some y -> unambiguous y.
Proof.
  induction v using sval_ind'; intros ty y Ht Hf Hp E; pose proof Ht as Ht0; pose proof Hf as Hf0; pose proof E as E0;
    cbn [ser] in E; try (injection E as <-); try (destruct b; exact I); try exact I; try apply str_unambiguous;
    try (exfalso; exact Hf).
  - unfold seq_yaml; cbn [unambiguous]. folds. rewrite Forall_map, Forall_map. apply Forall_forall. intros; exact I.
  - destruct ty; cbn in Ht; try contradiction. destruct Hf as [_ Hf]. eauto.
  - destruct ty; cbn in Ht; try contradiction. eauto.
  - destruct ty; cbn in Ht; try contradiction. destruct (opt_map ser l) as [ys|] eqn:F; [|discriminate E]. injection E as <-.
    apply opt_all2 in F. cbn [faithful proper] in Hf, Hp. folds. cbn [seq_yaml unambiguous]. unfold seq_yaml. cbn [unambiguous].
    folds. rewrite Forall_map. cbn.
    refine (Forall2_right _ (fun v => (forall t y, has_ty t v -> faithful v -> proper v -> ser v = Some y -> unambiguous y) /\ has_ty ty v /\ faithful v /\ proper v) _ _ _ _ _ F).
    + intros x z (h1 & h2 & h3 & h4) h5. eauto.
    + rewrite Forall_forall in H, Hf, Hp. apply Forall_forall. intros x i. split; [exact (H x i)|]. split; [exact (Ht x i)|]. split; [exact (Hf x i)|exact (Hp x i)].
  - destruct ty; cbn in Ht; try contradiction. destruct (opt_map ser l) as [ys|] eqn:F; [|discriminate E]. injection E as <-.
    apply opt_all2 in F. cbn [faithful proper] in Hf, Hp. folds. cbn [unambiguous].
    folds.
    refine (Forall2_right _ (fun v => (forall t y, has_ty t v -> faithful v -> proper v -> ser v = Some y -> unambiguous y) /\ (exists t, has_ty t v) /\ faithful v /\ proper v) _ _ _ _ _ F).
    + intros x z (h1 & [t h2] & h3 & h4) h5. eauto.
    + assert (T : Forall (fun v => exists t, has_ty t v) l).
      { clear - Ht. revert ts Ht. induction l as [|x l IH]; intros [|t ts] H; cbn in H; try contradiction; constructor; [exists t; tauto|eapply IH; apply H]. }
      rewrite Forall_forall in H, Hf, Hp, T. apply Forall_forall. intros x i. split; [exact (H x i)|]. split; [exact (T x i)|]. split; [exact (Hf x i)|exact (Hp x i)].
  - destruct ty as [| | | | | | | | | | | |kt vt| |]; cbn in Ht; try contradiction.
    match type of E with option_map _ (opt_map ?f l) = _ => destruct (opt_map f l) as [es|] eqn:F; [|discriminate E] end.
    injection E as <-. apply opt_all2 in F. cbn [faithful proper] in Hf, Hp. destruct Hp as [Hn Hp]. folds.
    pose proof (ser_repr _ _ _ Ht0 Hf0 E0) as R. cbn [repr] in R. destruct R as (es' & R1 & R2).
    rewrite entries_map_yaml in R1. injection R1 as <-. apply all_map_hash.
    + apply (keys_differ kt l es); [|eapply all2_weaken; [exact R2|]|exact Hn].
      * intros e i. rewrite Forall_forall in Hf. specialize (Hf _ i). specialize (Ht _ i). destruct e. cbn in *. tauto.
      * intros [k x] e _ _ [h _]. exact h.
    + refine (Forall2_right _ (fun kv => (forall t y, has_ty t (snd kv) -> faithful (snd kv) -> proper (snd kv) -> ser (snd kv) = Some y -> unambiguous y) /\ has_ty vt (snd kv) /\ faithful (snd kv) /\ proper (snd kv)) _ _ _ _ _ F).
      * intros [k x] [n z] (h1 & h2 & h3 & h4) h5. cbn in *. destruct (ser k) as [yk|]; [|discriminate h5].
        destruct (yaml_to_key_string yk); [|discriminate h5]. destruct (ser x) as [z'|] eqn:G; [|discriminate h5].
        injection h5 as <- <-. eauto.
      * rewrite Forall_forall in *. intros [k x] i. specialize (H _ i). specialize (Hf _ i). specialize (Hp _ i). specialize (Ht _ i). cbn in *. tauto.
  - destruct ty; cbn in Ht; try contradiction. destruct Ht as [Hn Ht].
    match type of E with option_map _ (opt_map ?f l) = _ => destruct (opt_map f l) as [es|] eqn:F; [|discriminate E] end.
    injection E as <-. apply opt_all2 in F. cbn [faithful proper] in Hf, Hp. folds.
    apply all_map_hash.
    + assert (X : map fst es = map fst fs).
      { clear - F Ht. revert fs Ht. induction F as [|[k x] [n z] l es E F IH]; intros [|[m t] fs] Ht; cbn in Ht; try contradiction; [reflexivity|].
        destruct (ser x); [|discriminate E]. injection E as <- <-. destruct Ht as [[Ha _] Hb]. cbn in Ha |- *. f_equal; [congruence|auto]. }
      rewrite X. exact Hn.
    + refine (Forall2_right _ (fun kv => (forall t y, has_ty t (snd kv) -> faithful (snd kv) -> proper (snd kv) -> ser (snd kv) = Some y -> unambiguous y) /\ (exists t, has_ty t (snd kv)) /\ faithful (snd kv) /\ proper (snd kv)) _ _ _ _ _ F).
      * intros [k x] [n z] (h1 & [t h2] & h3 & h4) h5. cbn in *. destruct (ser x) as [z'|] eqn:G; [|discriminate h5].
        injection h5 as <- <-. eauto.
      * assert (T : Forall (fun v => exists t, has_ty t (snd v)) l).
        { clear - Ht. revert fs Ht. induction l as [|x l IH]; intros [|[m t] fs] H; cbn in H; try contradiction; constructor; [exists t; tauto|eapply IH; apply H]. }
        rewrite Forall_forall in *. intros [k x] i. specialize (H _ i). specialize (Hf _ i). specialize (Hp _ i). specialize (T _ i). cbn in *. tauto.
Qed.
