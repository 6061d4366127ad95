(** What the readers of serde's buffer return. *)
From Coq Require Import ZArith Lia.
From Verif Require Import Base Ast Strings Num Ser De Attr Spec_Serde Spec_Look Spec_Typed Spec_Attr Spec_Buffer AttrFacts TypedFacts2 SerdeFacts2.
Import ListNotations.

(** ---- lists ---- *)
Lemma opt_map_all2 {A B} (f : A -> option B) (P : A -> B -> Prop) l : Forall (fun x => forall y, f x = Some y <-> P x y) l ->
  forall m, opt_map f l = Some m <-> all2 P l m.
Proof.
  induction 1 as [|x l Hx _ IH]; intros m; cbn.
  - destruct m; split; intros H; try easy. 
  - destruct m as [|y m].
    + split; [|easy]. destruct (f x); [|easy]. destruct (opt_map f l); discriminate.
    + rewrite <- Hx, <- IH. destruct (f x) as [z|]; [|split; [easy|intros [? _]; discriminate]].
      destruct (opt_map f l) as [zs|]; [|split; [easy|intros [_ ?]; discriminate]].
      split; [intros E; injection E as -> ->; auto|intros [E1 E2]; congruence].
Qed.
Lemma all2_Forall2 {A B} (P : A -> B -> Prop) l m : all2 P l m <-> Forall2 P l m.
Proof.
  revert m; induction l as [|x l IH]; intros [|y m]; cbn; split; intros H; try easy; try inversion H; subst; try constructor;
    firstorder.
Qed.
Lemma Forall2_comp {A B C} (P : A -> B -> Prop) (Q : B -> C -> Prop) (R : A -> C -> Prop) :
  (forall x z, R x z <-> exists y, P x y /\ Q y z) -> forall l n, Forall2 R l n <-> exists m, Forall2 P l m /\ Forall2 Q m n.
Proof.
  intros H. induction l as [|x l IH]; intros n.
  - split; [intros E; inversion E; exists []; split; constructor|intros (m & E & F); inversion E; subst; inversion F; constructor].
  - split.
    + intros E. inversion E as [|? z ? n' Hz Hn]; subst. apply H in Hz as (y & P1 & Q1). apply IH in Hn as (m & P2 & Q2).
      exists (y :: m). split; constructor; auto.
    + intros (m & E & F). inversion E as [|? y ? m' P1 P2]; subst. inversion F as [|? z ? n' Q1 Q2]; subst.
      constructor; [apply H; eauto|apply IH; eauto].
Qed.

(** ---- fields ---- *)
Definition after (own : bool) (l : list entry) (f g : xfield) : Prop :=
  x_name g = x_name f /\ x_read g = x_read f /\ x_opt g = x_opt f /\
  ((~ In (AnStr (x_name f)) (map fst l) /\ x_val g = x_val f) \/
   (exists c v, once l (x_name f) c /\ x_val f = None /\ r_buf (x_read f) own c = Some v /\ x_val g = Some v)).

Lemma once_in l n c : once l n c -> In (AnStr n) (map fst l).
Proof. intros (b & d & -> & _). rewrite map_app, in_app_iff. right. now left. Qed.
Lemma once_cons e l n c : once (e :: l) n c <-> (e = (AnStr n, c) /\ ~ In (AnStr n) (map fst l)) \/ (fst e <> AnStr n /\ once l n c).
Proof.
  split.
  - intros ([|e' b] & d & E & Nb & Nd); cbn in E; injection E as -> ->.
    + left. auto.
    + right. cbn in Nb. split; [tauto|]. exists b, d. tauto.
  - intros [[-> N]|[N (b & d & -> & Nb & Nd)]].
    + exists [], l. auto.
    + exists (e :: b), d. cbn. tauto.
Qed.
Lemma once_nil n c : ~ once [] n c.
Proof. intros ([|] & d & E & _); discriminate. Qed.

Lemma after_none own l f g : ~ In (AnStr (x_name f)) (map fst l) -> after own l f g <-> g = f.
Proof.
  intros N. split.
  - intros (E1 & E2 & E3 & [[_ E4]|(c & v & O & _)]); [|destruct (N (once_in _ _ _ O))].
    destruct f, g; cbn in *. congruence.
  - intros ->. repeat split. now left.
Qed.
Lemma after_cons own e l f h : after own (e :: l) f h <-> exists g, after own [e] f g /\ after own l g h.
Proof.
  destruct e as [k c0]. split.
  - intros (E1 & E2 & E3 & [[N E4]|(c & v & O & E5 & E6 & E7)]).
    + cbn in N. exists f. split; [apply after_none; [cbn; tauto|reflexivity]|]. repeat split; auto. left. tauto.
    + apply once_cons in O as [[Ek N]|[N O]].
      * injection Ek as -> ->. exists (x_set f v). split.
        -- repeat split. right. exists c, v. split; [apply once_cons; left; split; [reflexivity|tauto]|auto].
        -- repeat split; auto.
      * exists f. split; [apply after_none; [cbn in *; tauto|reflexivity]|]. repeat split; auto. right. exists c, v. auto.
  - intros (g & (E1 & E2 & E3 & H1) & (F1 & F2 & F3 & H2)). rewrite E1, E2, E3 in *. repeat split; auto.
    destruct H1 as [[N1 V1]|(c & v & O1 & V0 & R1 & V1)]; destruct H2 as [[N2 V2]|(c2 & v2 & O2 & V3 & R2 & V2)].
    + left. split; [cbn in *; tauto|congruence].
    + right. exists c2, v2. split; [apply once_cons; right; cbn in *; tauto|]. rewrite V1 in V3. auto.
    + right. exists c, v. split; [|rewrite V2, V1; auto]. apply once_cons in O1 as [[-> _]|[_ O1]]; [|destruct (once_nil _ _ O1)].
      apply once_cons. left. auto.
    + congruence.
Qed.

Lemma after_same_name own l f g : after own l f g -> x_name g = x_name f.
Proof. now intros [E _]. Qed.
Lemma after_names own l fs gs : Forall2 (after own l) fs gs -> map x_name gs = map x_name fs.
Proof. induction 1 as [|f g fs gs H _ IH]; cbn; [reflexivity|]. now rewrite IH, (after_same_name _ _ _ _ H). Qed.
Lemma after_id own l fs gs : (forall f, In f fs -> ~ In (AnStr (x_name f)) (map fst l)) ->
  Forall2 (after own l) fs gs <-> gs = fs.
Proof.
  revert gs. induction fs as [|f fs IH]; intros gs H.
  - split; [now inversion 1|intros ->; constructor].
  - split.
    + intros F. inversion F as [|? g ? gs' Hg Hs]; subst. apply after_none in Hg as ->; [|apply H; now left].
      apply IH in Hs as ->; [reflexivity|]. intros; apply H; now right.
    + intros ->. constructor; [apply after_none; [apply H; now left|reflexivity]|]. apply IH; [|reflexivity]. intros; apply H; now right.
Qed.

Lemma field_after own n c fs : NoDup (map x_name fs) -> forall gs,
  b_field own fs n c = Some gs <-> Forall2 (after own [(AnStr n, c)]) fs gs.
Proof.
  induction fs as [|f fs IH]; intros ND gs; cbn [b_field].
  - split; [intros E; injection E as <-; constructor|now inversion 1].
  - cbn [map] in ND. inversion ND as [|? ? N ND']; subst. destruct (seqb (x_name f) n) eqn:E.
    + apply seqb_eq in E. subst n.
      assert (Hid : forall gs, Forall2 (after own [(AnStr (x_name f), c)]) fs gs <-> gs = fs).
      { intros q. apply after_id. intros f' Hf'. cbn. intros [X|[]]. injection X as X. apply N. rewrite X. now apply in_map. }
      split.
      * destruct (x_val f) eqn:V; [discriminate|]. destruct (r_buf (x_read f) own c) as [v|] eqn:R; [|discriminate].
        intros X. injection X as <-. constructor; [|now apply Hid]. repeat split. right. exists c, v.
        split; [apply once_cons; left; split; [reflexivity|tauto]|auto].
      * intros F. inversion F as [|? g ? gs' Hg Hs]; subst. apply Hid in Hs as ->.
        destruct Hg as (E1 & E2 & E3 & [[X _]|(c' & v & O & V & R & V')]); [cbn in X; tauto|].
        apply once_cons in O as [[X _]|[_ O]]; [|destruct (once_nil _ _ O)]. injection X as <-.
        rewrite V, R. cbn. replace (x_set f v) with g; [reflexivity|]. unfold x_set. destruct f, g; cbn in *; congruence.
    + apply seqb_neq in E. split.
      * destruct (b_field own fs n c) as [gs'|] eqn:B; [|discriminate]. intros X. injection X as <-.
        constructor; [apply after_none; [cbn; intros [Y|[]]; congruence|reflexivity]|]. now apply IH.
      * intros F. inversion F as [|? g ? gs' Hg Hs]; subst. apply IH in Hs; [|exact ND']. rewrite Hs. cbn.
        apply after_none in Hg as ->; [reflexivity|]. cbn. intros [Y|[]]; congruence.
Qed.

Lemma known_names fs n : x_known fs n = existsb (seqb n) (map x_name fs).
Proof.
  unfold x_known. induction fs as [|f fs IH]; cbn; [reflexivity|]. rewrite IH. f_equal.
  destruct (seqb (x_name f) n) eqn:E, (seqb n (x_name f)) eqn:F; try reflexivity.
  - apply seqb_eq in E. subst. now rewrite seqb_refl in F.
  - apply seqb_eq in F. subst. now rewrite seqb_refl in E.
Qed.
Lemma known_iff fs n : existsb (seqb n) fs = true <-> In n fs.
Proof.
  induction fs as [|f fs IH]; cbn; [easy|]. rewrite orb_true_iff, IH, seqb_eq. split; intros [->|H]; auto.
Qed.

Lemma collect_after own l : forall fs, NoDup (map x_name fs) -> forall gs rest,
  b_collect own fs l = Some (gs, rest) <-> name_keys l /\ Forall2 (after own l) fs gs /\ rest = others (map x_name fs) l.
Proof.
  induction l as [|[k c] l IH]; intros fs ND gs rest; cbn [b_collect].
  - split.
    + intros E. injection E as <- <-. split; [intros ? ? []|]. split; [|reflexivity]. apply after_id; auto.
    + intros (_ & F & ->). apply after_id in F as ->; auto.
  - assert (HN : name_keys ((k, c) :: l) <-> ((exists n, k = AnStr n) \/ exists z, k = AnU64 z) /\ name_keys l).
    { unfold name_keys. split.
      - intros H. split; [exact (H k c (or_introl eq_refl))|]. intros k' c' Hi. apply (H k' c'). now right.
      - intros [H1 H2] k' c' [E|Hi]; [injection E as <- <-; exact H1|eauto]. }
    rewrite HN.
    assert (HF : Forall2 (after own ((k, c) :: l)) fs gs <-> exists ms, Forall2 (after own [(k, c)]) fs ms /\ Forall2 (after own l) ms gs).
    { apply Forall2_comp. intros x z. apply after_cons. }
    rewrite HF. clear HN HF.
    assert (Hskip : (forall f, In f fs -> k <> AnStr (x_name f)) ->
      forall r, r = (k, c) :: others (map x_name fs) l \/ True ->
      ((exists q, b_collect own fs l = Some (gs, q) /\ rest = (k, c) :: q) <->
       name_keys l /\ (exists ms, Forall2 (after own [(k, c)]) fs ms /\ Forall2 (after own l) ms gs) /\ rest = (k, c) :: others (map x_name fs) l)).
    { intros Hk _ _. split.
      - intros (q & B & ->). apply IH in B as (K & F & ->); [|exact ND]. split; [exact K|]. split; [|reflexivity].
        exists fs. split; [apply after_id; [|reflexivity]|exact F]. intros f Hf [X|[]]. exact (Hk f Hf X).
      - intros (K & (ms & F1 & F2) & ->). apply after_id in F1 as ->; [|intros f Hf [X|[]]; exact (Hk f Hf X)].
        exists (others (map x_name fs) l). split; [|reflexivity]. apply IH; auto. }
    destruct k as [|b0|z0|z|s0|n|q0|q0]; try (split; [discriminate|intros ([[[? X]|[? X]] _] & _); discriminate]).
    + (* AnU64 *)
      assert (Hk : forall f, In f fs -> AnU64 z <> AnStr (x_name f)) by discriminate.
      specialize (Hskip Hk [] (or_intror I)). cbn [others filter fst] in *.
      split.
      * destruct (b_collect own fs l) as [[gs0 q]|] eqn:B; [|discriminate]. intros E. cbn in E. injection E as <- <-.
        destruct (proj1 Hskip) as (K & F & E); [eauto|]. split; [split; [right; eauto|exact K]|auto].
      * intros ([_ K] & F & E). destruct (proj2 Hskip) as (q & B & ->); [auto|]. rewrite B. reflexivity.
    + (* AnStr *)
      rewrite known_names. unfold others. cbn [filter fst]. destruct (existsb (seqb n) (map x_name fs)) eqn:Kn; cbn [negb].
      * split.
        -- destruct (b_field own fs n c) as [fs1|] eqn:B; [|discriminate]. intros E.
           apply field_after in B; [|exact ND]. pose proof (after_names _ _ _ _ B) as Nm.
           apply IH in E as (K & F & ->); [|now rewrite Nm]. rewrite Nm. split; [split; [left; eauto|exact K]|]. split; [eauto|reflexivity].
        -- intros ([_ K] & (ms & F1 & F2) & ->). pose proof (after_names _ _ _ _ F1) as Nm.
           apply field_after in F1; [|exact ND]. rewrite F1. apply IH; [now rewrite Nm|]. rewrite Nm. auto.
      * assert (Hk : forall f, In f fs -> AnStr n <> AnStr (x_name f)).
        { intros f Hf X. injection X as X. assert (Y : existsb (seqb n) (map x_name fs) = true); [|congruence].
          apply known_iff. rewrite X. now apply in_map. }
        specialize (Hskip Hk [] (or_intror I)). split.
        -- destruct (b_collect own fs l) as [[gs0 q]|] eqn:B; [|discriminate]. intros E. cbn in E. injection E as <- <-.
           destruct (proj1 Hskip) as (K & F & E); [eauto|]. split; [split; [left; eauto|exact K]|auto].
        -- intros ([_ K] & F & E). destruct (proj2 Hskip) as (q & B & ->); [auto|]. rewrite B. reflexivity.
Qed.

Lemma unknown_field own fs n c : x_known fs n = false -> b_field own fs n c = Some fs.
Proof.
  induction fs as [|f fs IH]; cbn; [reflexivity|]. intros H. apply orb_false_iff in H as [-> H]. now rewrite IH.
Qed.
Lemma fields_collect own l : forall fs, b_fields own fs l = option_map fst (b_collect own fs l).
Proof.
  induction l as [|[k c] l IH]; intros fs; cbn; [reflexivity|]. destruct k; try reflexivity.
  - rewrite IH. now destruct (b_collect own fs l).
  - destruct (x_known fs s) eqn:K.
    + destruct (b_field own fs s c); [apply IH|reflexivity].
    + rewrite (unknown_field _ _ _ _ K), IH. now destruct (b_collect own fs l).
Qed.
