(** Errors of structs and enums, and the error of any type. *)
From Coq Require Import ZArith Lia.
From Verif Require Import Base Ast Strings Format Num Pretty Ser De DeErr Spec_Pretty Spec_Serde Spec_Look Spec_Typed Spec_Refs Spec_Reads Spec_Err LookFacts TypedFacts SerdeFacts2 ErrFacts ErrFacts2.
Import ListNotations.

(** ---- structs ---- *)

Notation finds fs k := (find (fun f => seqb (fst f) k) fs).
Lemma finds_key {A} (fs : list (str * A)) k n t : finds fs k = Some (n, t) -> n = k /\ In (k, t) fs.
Proof. intros F. apply find_some in F. destruct F as [I E]. apply seqb_eq in E. cbn in E. subst. now split. Qed.
Lemma finds_none {A} (fs : list (str * A)) k : finds fs k = None <-> ~ In k (map fst fs).
Proof.
  induction fs as [|[n t] fs IH]; cbn [find map In fst]; [tauto|]. destruct (seqb n k) eqn:E.
  - apply seqb_eq in E. subst. split; [discriminate|]. intros H. destruct H. now left.
  - rewrite IH. split; [|tauto]. intros H [->|K]; [now rewrite seqb_refl in E|contradiction].
Qed.
Lemma finds_in {A} (fs : list (str * A)) k t : NoDup (map fst fs) -> In (k, t) fs -> finds fs k = Some (k, t).
Proof.
  induction fs as [|[n u] fs IH]; cbn [find map In fst]; intros N I; [contradiction|]. inversion N as [|? ? N1 N2]; subst. destruct I as [E|I].
  - injection E as -> ->. now rewrite seqb_refl.
  - destruct (seqb n k) eqn:E; [|now apply IH]. apply seqb_eq in E. subst. destruct N1. apply (in_map fst) in I. exact I.
Qed.
Lemma known_cons fs k y es : known fs ((k, y) :: es) =
  match finds fs k with Some (n, t) => (n, (t, y)) :: known fs es | None => known fs es end.
Proof. unfold known. cbn [flat_map fst snd]. destruct (finds fs k) as [[n t]|]; reflexivity. Qed.
Lemma known_app fs e1 e2 : known fs (e1 ++ e2) = known fs e1 ++ known fs e2.
Proof. unfold known. apply flat_map_app. Qed.
Lemma known_names fs es n : In n (map fst (known fs es)) <-> In n (map fst fs) /\ In n (map fst es).
Proof.
  induction es as [|[k y] es IH]; [cbn; tauto|]. rewrite known_cons. cbn [map In fst].
  destruct (finds fs k) as [[m t]|] eqn:F.
  - destruct (finds_key _ _ _ _ F) as [-> I]. cbn [map In fst]. rewrite IH. apply (in_map fst) in I. cbn in I. split; [|tauto].
    intros [->|H]; [auto|tauto].
  - rewrite IH. apply finds_none in F. split; [tauto|]. intros [A [->|B]]; [contradiction|auto].
Qed.

Definition state (fs : list (str * ty)) (D : list str) (efs : list efield) : Prop :=
  Forall2 (fun nt f => ef_name f = fst nt /\ ef_de f = de_e (snd nt) /\ ef_opt f = is_option (snd nt) /\
                       (ef_val f <> None <-> In (fst nt) D)) fs efs.
Lemma state_start fs : state fs [] (map (fun nt => match nt with (n, t) => mkEF n (de_e t) (is_option t) None end) fs).
Proof. induction fs as [|[n t] fs IH]; constructor; [|exact IH]. cbn. repeat split; try tauto; congruence. Qed.
Lemma state_weak fs k D efs : ~ In k (map fst fs) -> state fs D efs -> state fs (k :: D) efs.
Proof.
  intros N. induction 1 as [|[n t] f fs efs (A & B & C & E) F IH]; constructor.
  - cbn [fst snd map In] in *. repeat split; auto; [intros X; right; now apply E|]. intros [->|X]; [destruct N; now left|now apply E].
  - apply IH. intros K. apply N. now right.
Qed.
Lemma state_eq fs D D' efs : (forall x, In x D <-> In x D') -> state fs D efs -> state fs D' efs.
Proof. intros Q. induction 1 as [|[n t] f fs efs (A & B & C & E) F IH]; constructor; auto. repeat split; auto; [intros X; now apply Q, E|intros X; now apply E, Q]. Qed.

Lemma field_step fs D k y a : NoDup (map fst fs) -> forall efs, state fs D efs ->
  match finds fs k with
  | None => de_field_e efs k y a = inl (efs, a)
  | Some (n, t) =>
      (In k D -> de_field_e efs k y a = inr (Foreign (FDuplicate k))) /\
      (~ In k D ->
        match de_e t y a with
        | inl (v, a1) => exists efs', de_field_e efs k y a = inl (efs', a1) /\ state fs (k :: D) efs'
        | inr e => de_field_e efs k y a = inr e
        end)
  end.
Proof.
  intros N efs S. revert N. induction S as [|[n t] f fs efs (A & B & C & E) F IH]; intros N; cbn [find de_field_e fst snd map] in *; [reflexivity|].
  apply NoDup_cons_iff in N. destruct N as [N1 N2]. rewrite A. destruct (seqb n k) eqn:Q.
  - apply seqb_eq in Q. rewrite Q in A, N1, E. rewrite ?Q. split.
    + intros I. destruct (ef_val f) as [v|] eqn:V; [reflexivity|]. apply E in I. congruence.
    + intros I. destruct (ef_val f) as [v|] eqn:V; [destruct I; apply E; congruence|]. rewrite B. destruct (de_e t y a) as [[v a1]|e]; [|reflexivity].
      cbn [ebind]. eexists. split; [reflexivity|]. constructor.
      * cbn. repeat split; try congruence; auto.
      * apply state_weak; assumption.
  - specialize (IH N2). destruct (finds fs k) as [[m u]|].
    + destruct IH as [I1 I2]. split.
      * intros I. now rewrite (I1 I).
      * intros I. specialize (I2 I). destruct (de_e u y a) as [[v a1]|e]; [|now rewrite I2]. destruct I2 as (efs' & G & S'). rewrite G. cbn [ebind].
        eexists. split; [reflexivity|]. constructor; [|exact S']. cbn [fst snd]. repeat split; auto.
        -- intros X. right. now apply E.
        -- intros [->|X]; [now rewrite seqb_refl in Q|now apply E].
    + now rewrite IH.
Qed.

Section Struct.
  Context (fs : list (str * ty)) (N : NoDup (map fst fs)).

  (** Reading entries whose known names are new goes through when the nodes are read. *)
  Lemma fields_run es : forall D efs a a1, state fs D efs -> NoDup (map fst (known fs es)) ->
    (forall x, In x (map fst (known fs es)) -> ~ In x D) -> all_done (map snd (known fs es)) a a1 ->
    exists efs', state fs (map fst (known fs es) ++ D) efs' /\
      forall rest, de_fields_e efs (es ++ rest) a = de_fields_e efs' rest a1.
  Proof.
    induction es as [|[k y] es IH]; intros D efs a a1 S U Dj R.
    - cbn in R. inversion R. subst. exists efs. split; [exact S|reflexivity].
    - rewrite known_cons in *. pose proof (field_step fs D k y a N efs S) as H. destruct (finds fs k) as [[n t]|] eqn:F.
      + destruct (finds_key _ _ _ _ F) as [-> I]. cbn [map fst snd] in *. inversion U as [|? ? U1 U2]; subst. apply read_inv in R. destruct R as (v & b & D1 & R).
        destruct H as [_ H]. specialize (H (Dj k (or_introl eq_refl))). rewrite D1 in H. destruct H as (efs1 & G & S1).
        destruct (IH (k :: D) efs1 b a1 S1 U2) as (efs' & S2 & K); [|exact R|].
        * intros x X [<-|Y]; [contradiction|]. exact (Dj x (or_intror X) Y).
        * exists efs'. split; [|intros rest; cbn [app de_fields_e]; rewrite G; apply K].
          apply (state_eq fs _ _ _) with (2 := S2). intros x. cbn [In app]. rewrite !in_app_iff. cbn [In]. tauto.
      + destruct (IH D efs a a1 S U Dj R) as (efs' & S2 & K). exists efs'. split; [exact S2|]. intros rest. cbn [app de_fields_e]. rewrite H. apply K.
  Qed.
  Lemma fields_total es : forall D efs a, state fs D efs ->
    (exists efs' a1, de_fields_e efs es a = inl (efs', a1) /\ NoDup (map fst (known fs es)) /\
       (forall x, In x (map fst (known fs es)) -> ~ In x D) /\ all_done (map snd (known fs es)) a a1) \/
    (exists e e1 k y rest a1 t, de_fields_e efs es a = inr e /\ es = e1 ++ (k, y) :: rest /\ NoDup (map fst (known fs e1)) /\
       (forall x, In x (map fst (known fs e1)) -> ~ In x D) /\ all_done (map snd (known fs e1)) a a1 /\ finds fs k = Some (k, t) /\
       ((In k (map fst (known fs e1) ++ D) /\ e = Foreign (FDuplicate k)) \/
        (~ In k (map fst (known fs e1) ++ D) /\ de_e t y a1 = inr e))).
  Proof.
    induction es as [|[k y] es IH]; intros D efs a S.
    - left. exists efs, a. repeat split; [constructor|intros x []|constructor].
    - pose proof (field_step fs D k y a N efs S) as H. cbn [de_fields_e]. destruct (finds fs k) as [[n t]|] eqn:F.
      + destruct (finds_key _ _ _ _ F) as [-> I]. destruct (in_dec (list_eq_dec N.eq_dec) k D) as [K|K].
        { right. destruct H as [H _]. rewrite (H K). exists (Foreign (FDuplicate k)), [], k, y, es, a, t. cbn.
          repeat split; [constructor|intros x []|constructor|exact F|now left]. }
        destruct H as [_ H]. specialize (H K). destruct (de_e t y a) as [[v b]|e] eqn:De.
        * destruct H as (efs1 & G & S1). rewrite G. cbn [ebind].
          destruct (IH (k :: D) efs1 b S1) as [(efs' & a1 & R & U & Dj & Al)|(e & e1 & k' & y' & rest & a1 & t' & R & E & U & Dj & Al & F' & W)].
          -- left. exists efs', a1. split; [exact R|]. rewrite known_cons, F. cbn [map fst snd].
             split; [constructor; [|exact U]; intros X; apply (Dj k X); now left|].
             split; [intros x [<-|X]; [exact K|]; intros Y; apply (Dj x X); now right|]. eapply read_cons; eauto.
          -- right. exists e, ((k, y) :: e1), k', y', rest, a1, t'. split; [exact R|]. split; [now rewrite E|]. rewrite known_cons, F. cbn [map fst snd].
             split; [constructor; [|exact U]; intros X; apply (Dj k X); now left|].
             split; [intros x [<-|X]; [exact K|]; intros Y; apply (Dj x X); now right|]. split; [eapply read_cons; eauto|]. split; [exact F'|].
             assert (Q : In k' (map fst (known fs e1) ++ k :: D) <-> In k' ((k :: map fst (known fs e1)) ++ D)) by (cbn [In app]; rewrite !in_app_iff; cbn [In]; tauto).
             destruct W as [[W1 W2]|[W1 W2]]; [left; split; [now apply Q|exact W2]|right; split; [intros X; now apply W1, Q|exact W2]].
        * right. rewrite H. exists e, [], k, y, es, a, t. cbn. repeat split; [constructor|intros x []|constructor|exact F|]. right. now split.
      + rewrite H. cbn [ebind]. destruct (IH D efs a S) as [(efs' & a1 & R & U & Dj & Al)|(e & e1 & k' & y' & rest & a1 & t' & R & E & U & Dj & Al & F' & W)].
        * left. exists efs', a1. rewrite known_cons, F. auto.
        * right. exists e, ((k, y) :: e1), k', y', rest, a1, t'. rewrite known_cons, F.
          split; [exact R|]. split; [now rewrite E|]. auto.
  Qed.
End Struct.

Lemma values_err fs D efs e : state fs D efs ->
  (field_values_e efs = inr e <-> exists f1 n t f2, fs = f1 ++ (n, t) :: f2 /\ is_option t = false /\ ~ In n D /\
     (forall m u, In (m, u) f1 -> is_option u = true \/ In m D) /\ e = Foreign (FMissing n)).
Proof.
  induction 1 as [|[n t] f fs efs (A & B & C & E) F IH]; cbn [field_values_e fst snd] in *.
  - split; [discriminate|]. intros ([|] & ? & ? & ? & X & _); discriminate.
  - assert (Pass : (is_option t = true \/ In n D) -> ((exists f1 m u f2, fs = f1 ++ (m, u) :: f2 /\ is_option u = false /\ ~ In m D /\
     (forall m u, In (m, u) f1 -> is_option u = true \/ In m D) /\ e = Foreign (FMissing m)) <->
     exists f1 m u f2, (n, t) :: fs = f1 ++ (m, u) :: f2 /\ is_option u = false /\ ~ In m D /\
     (forall m u, In (m, u) f1 -> is_option u = true \/ In m D) /\ e = Foreign (FMissing m))).
    { intros P. split.
      - intros (f1 & m & u & f2 & -> & O & I & Al & ->). exists ((n, t) :: f1), m, u, f2. repeat split; auto. intros m' u' [X|X]; [injection X as <- <-; exact P|eauto].
      - intros ([|[n1 t1] f1] & m & u & f2 & X & O & I & Al & ->); cbn in X; injection X as <- <- ->.
        + destruct P; [congruence|contradiction].
        + exists f1, m, u, f2. repeat split; auto. intros m' u' Y. apply Al. now right. }
    destruct (ef_val f) as [v|] eqn:V.
    + cbn [ebind]. rewrite <- Pass by (right; apply E; congruence). rewrite <- IH. destruct (field_values_e efs); cbn [ebind]; split; congruence.
    + rewrite C. destruct (is_option t) eqn:O.
      * cbn [ebind]. rewrite <- Pass by (now left). rewrite <- IH. destruct (field_values_e efs); cbn [ebind]; split; congruence.
      * cbn [ebind]. rewrite A. assert (~ In n D) by (intros X; apply E in X; congruence). split.
        -- intros X. injection X as <-. exists [], n, t, fs. split; [reflexivity|]. split; [exact O|]. split; [assumption|]. split; [intros m u []|reflexivity].
        -- intros ([|[n1 t1] f1] & m & u & f2 & X & O' & I & Al & ->); cbn in X; injection X as <- <- ->; [reflexivity|].
           destruct (Al n t) as [Z|Z]; [now left|congruence|contradiction].
Qed.

Notation start fs := (map (fun nt => match nt with (n, t) => mkEF n (de_e t) (is_option t) None end) fs).
Definition struct_complaint fs (y : yaml) (a : anchors) e : Prop :=
  (exists l1 t1 y1 l2 a0 a1, asks (TStruct fs) y a (l1 ++ (t1, y1) :: l2) a0 /\ all_done l1 a0 a1 /\ In t1 (map snd fs) /\ de_e t1 y1 a1 = inr e) \/
  complaint (TStruct fs) y a e.
Lemma struct_wrong fs y a e : NoDup (map fst fs) -> de_struct_e (start fs) y a = inr e -> struct_complaint fs y a e.
Proof.
  intros N H. unfold de_struct_e in H. destruct (map_ok y a) as [(y' & T & M & E)|(e' & E & W)]; rewrite E in H; cbn [ebind] in H.
  - destruct (fields_total fs N (entries_of y') [] _ (entered a y') (state_start fs))
      as [(efs' & a1 & R & U & Dj & Al)|(e1 & es & k & v & rest & a1 & t & R & Q & U & Dj & Al & F & W)]; rewrite R in H; cbn [ebind] in H.
    + right. destruct (fields_run fs N (entries_of y') [] _ (entered a y') a1 (state_start fs) U Dj Al) as (efs2 & S & K). specialize (K []). rewrite app_nil_r, R in K.
      cbn in K. injection K as <-. destruct (field_values_e efs') as [vs|e2] eqn:V; [discriminate|]. injection H as <-.
      apply (values_err _ _ _ _ S) in V. destruct V as (f1 & n & t & f2 & X & O & I & Before & ->).
      assert (Nm : forall m, In m (map fst (known fs (entries_of y')) ++ []) -> In m (map fst (entries_of y'))) by (intros m; rewrite app_nil_r, known_names; tauto).
      apply (CMissing fs y y' a a1 f1 n t f2); auto.
      * intros X1. apply I. rewrite app_nil_r, known_names. split; [|exact X1]. rewrite X, map_app, in_app_iff. right. now left.
      * intros m u Y. destruct (Before m u Y); auto.
    + injection H as <-. rewrite app_nil_r in W. destruct W as [[W ->]|[W De]].
      * right. eapply CDuplicate; eauto.
      * left. destruct (finds_key _ _ _ _ F) as [_ I]. exists (map snd (known fs es)), t, v, [], (entered a y'), a1.
        split; [|split; [exact Al|split; [exact (in_map snd _ _ I)|exact De]]].
        replace (map snd (known fs es) ++ [(t, v)]) with (map snd (known fs (es ++ [(k, v)]))).
        -- apply (AskStruct fs y y' a (es ++ [(k, v)]) rest); auto; [now rewrite <- app_assoc|].
           rewrite known_app, map_app, known_cons, F. cbn. apply NoDup_rev in U. rewrite <- (rev_involutive (_ ++ _)). apply NoDup_rev. rewrite rev_app_distr. cbn.
           constructor; [now rewrite <- in_rev|exact U].
        -- now rewrite known_app, map_app, known_cons, F.
  - injection H as <-. right. destruct W as [(n & -> & K & ->)|(y' & T & M & ->)]; [now apply CUndefined|]. apply (CMap (TStruct fs) y y' a I T M).
Qed.
Lemma known_split fs es : forall l1 t y l2, map snd (known fs es) = l1 ++ (t, y) :: l2 ->
  exists e1 k e2, es = e1 ++ (k, y) :: e2 /\ map snd (known fs e1) = l1 /\ finds fs k = Some (k, t).
Proof.
  induction es as [|[k v] es IH]; intros l1 t y l2 E; [destruct l1; discriminate|]. rewrite known_cons in E. destruct (finds fs k) as [[n u]|] eqn:F.
  - destruct (finds_key _ _ _ _ F) as [-> _]. cbn [map snd] in E. destruct l1 as [|p l1]; cbn in E; injection E as E1 E2.
    + subst. exists [], k, es. auto.
    + destruct (IH _ _ _ _ E2) as (e1 & k' & e2 & -> & Q & F'). exists ((k, v) :: e1), k', e2. split; [reflexivity|]. split; [|exact F'].
      rewrite known_cons, F. cbn. rewrite Q. congruence.
  - destruct (IH _ _ _ _ E) as (e1 & k' & e2 & -> & Q & F'). exists ((k, v) :: e1), k', e2. split; [reflexivity|]. split; [|exact F']. now rewrite known_cons, F.
Qed.
Lemma nodup_app {A} (l m : list A) : NoDup (l ++ m) -> NoDup l /\ forall x, In x l -> ~ In x m.
Proof.
  induction l as [|x l IH]; cbn; intros H; [split; [constructor|intros ? []]|]. inversion H as [|? ? H1 H2]; subst. destruct (IH H2) as [U D].
  split; [constructor; [|exact U]; intros X; apply H1, in_app_iff; now left|]. intros z [<-|X]; [intros Y; apply H1, in_app_iff; now right|now apply D].
Qed.
Lemma ask_struct fs y a l a0 : asks (TStruct fs) y a l a0 -> exists y' es rest,
  target a y y' /\ is_map y' /\ entries_of y' = es ++ rest /\ NoDup (map fst (known fs es)) /\ l = map snd (known fs es) /\ a0 = entered a y'.
Proof. inversion 1; subst. exists y', es, rest. auto 10. Qed.
Lemma complaint_struct fs y a e : complaint (TStruct fs) y a e ->
  (exists n, y = Anchor n /\ ~ In n (map fst a) /\ e = Own (EUndefined n)) \/
  (exists y', target a y y' /\ ~ is_map y' /\ e = Own EMap) \/
  (exists y' es n c rest a1, target a y y' /\ is_map y' /\ entries_of y' = es ++ (n, c) :: rest /\ NoDup (map fst (known fs es)) /\
     In n (map fst (known fs es)) /\ all_done (map snd (known fs es)) (entered a y') a1 /\ e = Foreign (FDuplicate n)) \/
  (exists y' a1 f1 n t f2, target a y y' /\ is_map y' /\ NoDup (map fst (known fs (entries_of y'))) /\
     all_done (map snd (known fs (entries_of y'))) (entered a y') a1 /\ fs = f1 ++ (n, t) :: f2 /\ is_option t = false /\
     ~ In n (map fst (entries_of y')) /\ (forall m u, In (m, u) f1 -> is_option u = true \/ In m (map fst (entries_of y'))) /\
     e = Foreign (FMissing n)).
Proof.
  inversion 1; subst.
  - left. eauto.
  - match goal with X : _ \/ _ |- _ => destruct X; discriminate end.
  - contradiction.
  - right. left. eauto.
  - right. right. left. exists y', es, n, c, rest, a1. auto 10.
  - right. right. right. exists y', a1, f1, n, t, f2. auto 12.
Qed.
Lemma struct_right fs y a e : NoDup (map fst fs) -> struct_complaint fs y a e -> de_struct_e (start fs) y a = inr e.
Proof.
  intros N [(l1 & t1 & y1 & l2 & a0 & a1 & Ask & R & _ & De)|C]; unfold de_struct_e.
  - destruct (ask_struct _ _ _ _ _ Ask) as (y' & es & rest & T & M & E & U & L & ->). symmetry in L. rewrite (target_map _ _ _ T M), E. cbn [ebind].
    destruct (known_split fs es _ _ _ _ L) as (e1 & k & e2 & -> & <- & F). rewrite known_app, map_app in U. destruct (nodup_app _ _ U) as [U1 Dj].
    destruct (fields_run fs N e1 [] _ _ a1 (state_start fs) U1 (fun x _ H => H) R) as (efs' & S & K). rewrite <- app_assoc, K. cbn [app de_fields_e].
    pose proof (field_step fs _ k y1 a1 N _ S) as H. rewrite F in H. destruct H as [_ H]. rewrite De in H. rewrite H; [reflexivity|].
    rewrite app_nil_r. intros X. apply (Dj k X). rewrite known_cons, F. now left.
  - destruct (complaint_struct _ _ _ _ C) as [(n & -> & K & ->)|[(y' & T & M & ->)|[(y' & es & n & c & rest & a1 & T & M & E & U & I & R & ->)|(y' & a1 & f1 & n & t & f2 & T & M & U & R & E & O & I & Al & ->)]]].
    + unfold de_map_e. now rewrite undefined_res.
    + now rewrite (target_no_map _ _ _ T M).
    + rewrite (target_map _ _ _ T M), E. cbn [ebind].
      destruct (fields_run fs N es [] _ _ a1 (state_start fs) U (fun x _ H => H) R) as (efs' & S & K). rewrite K. cbn [app de_fields_e].
      pose proof (field_step fs _ n c a1 N _ S) as G. rewrite app_nil_r in G. destruct (finds fs n) as [[m t]|] eqn:F.
      * destruct G as [G _]. now rewrite (G I).
      * apply finds_none in F. apply known_names in I. tauto.
    + rewrite (target_map _ _ _ T M). cbn [ebind].
      destruct (fields_run fs N (entries_of y') [] _ _ a1 (state_start fs) U (fun x _ H => H) R) as (efs' & S & K).
      specialize (K []). rewrite app_nil_r in K. rewrite K. cbn [de_fields_e ebind].
      rewrite (proj2 (values_err _ _ _ (Foreign (FMissing n)) S)); [reflexivity|]. exists f1, n, t, f2. rewrite app_nil_r.
      split; [exact E|]. split; [exact O|]. split; [intros X; apply known_names in X; tauto|]. split; [|reflexivity].
      intros m u Y. destruct (Al m u Y) as [Z|Z]; [now left|right]. apply known_names. split; [|exact Z].
      rewrite E, map_app, in_app_iff. left. exact (in_map fst _ _ Y).
Qed.
