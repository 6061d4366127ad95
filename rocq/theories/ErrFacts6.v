(** What the typed reader returns, with references. *)
From Coq Require Import ZArith Lia.
From Verif Require Import Base Ast Strings Format Num Pretty Ser De DeErr Spec_Pretty Spec_Serde Spec_Look Spec_Typed Spec_Refs Spec_Reads Spec_Err LookFacts TypedFacts SerdeFacts2 ErrFacts ErrFacts2 ErrFacts3 ErrFacts4 ErrFacts5.
Import ListNotations.

(** Values of fields. *)
Definition vstate (fs : list (str * ty)) (D : list (str * sval)) (efs : list efield) : Prop :=
  Forall2 (fun nt f => ef_name f = fst nt /\ ef_de f = de_e (snd nt) /\ ef_opt f = is_option (snd nt) /\
                       (forall v, ef_val f = Some v <-> In (fst nt, v) D)) fs efs.
Lemma vstate_start fs : vstate fs [] (map (fun nt => match nt with (n, t) => mkEF n (de_e t) (is_option t) None end) fs).
Proof. induction fs as [|[n t] fs IH]; constructor; [|exact IH]. cbn. repeat split; try tauto; congruence. Qed.
Lemma vstate_weak fs k v D efs : ~ In k (map fst fs) -> vstate fs D efs -> vstate fs ((k, v) :: D) efs.
Proof.
  intros N. induction 1 as [|[n t] f fs efs (A & B & C & E) F IH]; constructor.
  - cbn [fst snd map In] in *. split; [exact A|]. split; [exact B|]. split; [exact C|]. intros w. rewrite (E w). split; [now right|]. intros [X|X]; [|exact X].
    injection X as -> ->. destruct N. now left.
  - apply IH. intros K. apply N. now right.
Qed.
Lemma vstate_eq fs D D' efs : (forall x, In x D <-> In x D') -> vstate fs D efs -> vstate fs D' efs.
Proof. intros Q. induction 1 as [|[n t] f fs efs (A & B & C & E) F IH]; constructor; auto. split; [exact A|]. split; [exact B|]. split; [exact C|]. intros w. rewrite (E w). apply Q. Qed.
(** One entry. *)
Lemma vfield fs D k y a : NoDup (map fst fs) -> forall efs, vstate fs D efs ->
  match finds fs k with
  | None => de_field_e efs k y a = inl (efs, a)
  | Some (n, t) =>
      (In k (map fst D) -> exists e, de_field_e efs k y a = inr e) /\
      (~ In k (map fst D) ->
        match de_e t y a with
        | inl (v, a1) => exists efs', de_field_e efs k y a = inl (efs', a1) /\ vstate fs ((k, v) :: D) efs'
        | inr e => de_field_e efs k y a = inr e
        end)
  end.
Proof.
  intros N efs S. revert N. induction S as [|[n t] f fs efs (A & B & C & E) F IH]; intros N; cbn [find de_field_e fst snd map] in *; [reflexivity|].
  apply NoDup_cons_iff in N. destruct N as [N1 N2]. rewrite A. destruct (seqb n k) eqn:Q.
  - apply seqb_eq in Q. rewrite Q in A, N1, E. rewrite ?Q. split.
    + intros I. destruct (ef_val f) as [v|] eqn:V; [eauto|]. apply in_map_iff in I. destruct I as ([m w] & Z & I). cbn in Z. rewrite Z in I. apply E in I. discriminate.
    + intros I. destruct (ef_val f) as [v|] eqn:V; [destruct I; apply in_map_iff; exists (k, v); split; [reflexivity|now apply E]|]. rewrite B.
      destruct (de_e t y a) as [[v a1]|e]; [|reflexivity].
      cbn [ebind]. eexists. split; [reflexivity|]. constructor.
      * cbn. split; [congruence|]. split; [congruence|]. split; [congruence|]. intros w. split; [intros X; injection X as ->; now left|]. intros [X|X]; [congruence|].
        apply E in X. discriminate.
      * apply vstate_weak; assumption.
  - specialize (IH N2). destruct (finds fs k) as [[m u]|].
    + destruct IH as [I1 I2]. split.
      * intros I. destruct (I1 I) as [e G]. rewrite G. cbn. eauto.
      * intros I. specialize (I2 I). destruct (de_e u y a) as [[v a1]|e]; [|now rewrite I2]. destruct I2 as (efs' & G & S'). rewrite G. cbn [ebind].
        eexists. split; [reflexivity|]. constructor; [|exact S']. cbn [fst snd]. split; [exact A|]. split; [exact B|]. split; [exact C|].
        intros w. rewrite (E w). split; [now right|]. intros [X|X]; [|exact X]. injection X as -> ->. now rewrite seqb_refl in Q.
    + now rewrite IH.
Qed.
Lemma yields_len l a vs a1 : yields_all l a vs a1 -> length l = length vs.
Proof. revert a vs. induction l as [|p l IH]; intros a vs H; inversion H; subst; cbn; [reflexivity|]. f_equal. eauto. Qed.
Lemma combine_names {A B} (l : list A) (m : list B) : length l = length m -> map fst (combine l m) = l.
Proof. revert m. induction l as [|x l IH]; intros [|y m] H; cbn in *; try discriminate; [reflexivity|]. f_equal. apply IH. congruence. Qed.
Lemma yields_names (l : list (str * (ty * yaml))) a vs a1 : yields_all (map snd l) a vs a1 -> NoDup (map fst l) -> forall m, In m (map fst l) <-> In m (map fst (combine (map fst l) vs)).
Proof. intros Y _ m. apply yields_len in Y. rewrite map_length in Y. rewrite combine_names; [tauto|]. now rewrite map_length. Qed.
Lemma F2_cons {A B} (P : A -> B -> Prop) x l y m : Forall2 P (x :: l) (y :: m) -> P x y /\ Forall2 P l m.
Proof. intros H. inversion H. auto. Qed.

Section One.
  (** The element types agree. *)
  Context (n : nat) (Fw : forall t y a v a1, tsize t <= n -> distinct t -> de_e t y a = inl (v, a1) -> yields t y a v a1)
          (Bw : forall t y a v a1, tsize t <= n -> distinct t -> yields t y a v a1 -> de_e t y a = inl (v, a1)).
  Definition small (t : ty) : Prop := tsize t <= n /\ distinct t.

  Lemma elems_iff t l : small t -> forall a vs a1, de_elems_e (de_e t) l a = inl (vs, a1) <-> yields_all (map (pair t) l) a vs a1.
  Proof.
    intros [S D]. induction l as [|y l IH]; intros a vs a1; cbn [de_elems_e map].
    - split; [intros H; injection H as <- <-; constructor|]. intros H. now inversion H.
    - split.
      + intros H. destruct (de_e t y a) as [[v b]|] eqn:E; [|discriminate]. cbn [ebind] in H. destruct (de_elems_e (de_e t) l b) as [[ws c]|] eqn:R; [|discriminate].
        injection H as <- <-. econstructor; [apply Fw; eassumption|]. now apply IH.
      + intros H. inversion H as [|? ? ? v ws ? b ? Y Ys]; subst. rewrite (Bw _ _ _ _ _ S D Y). cbn [ebind]. apply IH in Ys. now rewrite Ys.
  Qed.
  Lemma tuple_iff ts : (forall t, In t ts -> small t) -> forall l i a vs a1,
    de_tuple_e i (map de_e ts) l a = inl (vs, a1) <-> length ts <= length l /\ yields_all (combine ts l) a vs a1.
  Proof.
    induction ts as [|t ts IH]; intros Sm l i a vs a1; cbn [de_tuple_e map combine length].
    - split; [intros H; injection H as <- <-; split; [lia|constructor]|]. intros [_ H]. now inversion H.
    - destruct l as [|y l]; [split; [discriminate|intros [X _]; cbn in X; lia]|]. destruct (Sm t (or_introl eq_refl)) as [S D].
      assert (Sm' : forall t, In t ts -> small t) by (intros u I; apply Sm; now right). cbn [length]. split.
      + intros H. destruct (de_e t y a) as [[v b]|] eqn:E; [|discriminate]. cbn [ebind] in H.
        destruct (de_tuple_e (Datatypes.S i) (map de_e ts) l b) as [[ws c]|] eqn:R; [|discriminate].
        injection H as <- <-. apply (IH Sm') in R. destruct R as [L R]. split; [lia|]. econstructor; [apply Fw; eassumption|exact R].
      + intros [L H]. inversion H as [|? ? ? v ws ? b ? Y Ys]; subst. rewrite (Bw _ _ _ _ _ S D Y). cbn [ebind].
        rewrite (proj2 (IH Sm' l (Datatypes.S i) b ws a1)); [reflexivity|]. split; [lia|exact Ys].
  Qed.
  Lemma entries_iff k v l : small k -> small v -> forall a xs a1, de_entries_e (de_e k) (de_e v) l a = inl (xs, a1) <->
    yields_all (flat_map (fun e => [(k, Unquoted (fst e)); (v, snd e)]) l) a (flat_map (fun x => [fst x; snd x]) xs) a1.
  Proof.
    intros [Sk Dk] [Sv Dv]. induction l as [|[m y] l IH]; intros a xs a1; cbn [de_entries_e flat_map app fst snd].
    - split; [intros H; injection H as <- <-; constructor|]. intros H. destruct xs as [|x xs]; inversion H; reflexivity.
    - split.
      + intros H. destruct (de_e k (Unquoted m) a) as [[x b]|] eqn:E; [|discriminate]. cbn [ebind] in H. destruct (de_e v y b) as [[w c]|] eqn:E2; [|discriminate]. cbn [ebind] in H.
        destruct (de_entries_e (de_e k) (de_e v) l c) as [[ws d]|] eqn:R; [|discriminate]. injection H as <- <-. cbn [flat_map fst snd app].
        econstructor; [apply Fw; eassumption|]. econstructor; [apply Fw; eassumption|]. now apply IH.
      + intros H. destruct xs as [|[x w] xs]; [inversion H|]. cbn [flat_map fst snd app] in H. inversion H as [|? ? ? v1 ws1 ? b ? Y Ys]; subst.
        inversion Ys as [|? ? ? v2 ws2 ? c ? Y2 Ys2]; subst. rewrite (Bw _ _ _ _ _ Sk Dk Y). cbn [ebind]. rewrite (Bw _ _ _ _ _ Sv Dv Y2). cbn [ebind].
        apply IH in Ys2. now rewrite Ys2.
  Qed.
  Section Fields.
    Context (fs : list (str * ty)) (N : NoDup (map fst fs)) (Sm : forall m t, In (m, t) fs -> small t).
    Lemma fields_values es : forall D efs a efs' a1, vstate fs D efs -> de_fields_e efs es a = inl (efs', a1) ->
      exists vs, NoDup (map fst (known fs es)) /\ (forall x, In x (map fst (known fs es)) -> ~ In x (map fst D)) /\
        yields_all (map snd (known fs es)) a vs a1 /\ vstate fs (combine (map fst (known fs es)) vs ++ D) efs'.
    Proof.
      induction es as [|[k y] es IH]; intros D efs a efs' a1 S H; cbn [de_fields_e] in H.
      - injection H as <- <-. exists []. cbn. split; [constructor|]. split; [intros x []|]. split; [constructor|exact S].
      - pose proof (vfield fs D k y a N efs S) as V. rewrite known_cons. destruct (finds fs k) as [[m t]|] eqn:F.
        + destruct (finds_key _ _ _ _ F) as [-> I]. destruct (in_dec (list_eq_dec N.eq_dec) k (map fst D)) as [K|K].
          { destruct (proj1 V K) as [e Q]. rewrite Q in H. discriminate. }
          apply proj2 in V. specialize (V K). destruct (de_e t y a) as [[v b]|e] eqn:E; [|rewrite V in H; discriminate].
          destruct V as (efs1 & G & S1). rewrite G in H. cbn [ebind] in H. destruct (IH _ _ _ _ _ S1 H) as (vs & U & Dj & Y & S2). exists (v :: vs).
          cbn [map fst snd combine]. split; [constructor; [|exact U]; intros X; apply (Dj k X); now left|].
          split; [intros x [<-|X]; [exact K|]; intros Z; apply (Dj x X); now right|]. destruct (Sm k t I) as [St Dt].
          split; [econstructor; [apply Fw; eassumption|exact Y]|]. apply (vstate_eq fs _ _ _) with (2 := S2). intros x. cbn [In app]. rewrite !in_app_iff. cbn [In]. tauto.
        + rewrite V in H. cbn [ebind] in H. exact (IH _ _ _ _ _ S H).
    Qed.
    Lemma fields_values_back es : forall D efs a vs a1, vstate fs D efs -> NoDup (map fst (known fs es)) ->
      (forall x, In x (map fst (known fs es)) -> ~ In x (map fst D)) -> yields_all (map snd (known fs es)) a vs a1 ->
      exists efs', de_fields_e efs es a = inl (efs', a1) /\ vstate fs (combine (map fst (known fs es)) vs ++ D) efs'.
    Proof.
      induction es as [|[k y] es IH]; intros D efs a vs a1 S U Dj Y; cbn [de_fields_e].
      - cbn in Y. inversion Y; subst. exists efs. split; [reflexivity|exact S].
      - pose proof (vfield fs D k y a N efs S) as V. rewrite known_cons in *. destruct (finds fs k) as [[m t]|] eqn:F.
        + destruct (finds_key _ _ _ _ F) as [-> I]. cbn [map fst snd] in *. inversion Y as [|? ? ? v ws ? b ? Y1 Ys]; subst. destruct (Sm k t I) as [St Dt].
          apply proj2 in V. specialize (V (Dj k (or_introl eq_refl))). rewrite (Bw _ _ _ _ _ St Dt Y1) in V. destruct V as (efs1 & G & S1). rewrite G. cbn [ebind].
          apply NoDup_cons_iff in U. destruct U as [U1 U2].
          destruct (IH ((k, v) :: D) efs1 b ws a1 S1 U2) as (efs' & R & S2); [|exact Ys|].
          * intros x X [<-|Z]; [contradiction|]. exact (Dj x (or_intror X) Z).
          * exists efs'. split; [exact R|]. apply (vstate_eq fs _ _ _) with (2 := S2). intros x. cbn [combine In app]. rewrite !in_app_iff. cbn [In]. tauto.
        + rewrite V. cbn [ebind]. exact (IH _ _ _ _ _ S U Dj Y).
    Qed.
    Lemma values_iff D gs efs es : vstate gs D efs -> (forall m, In m (map fst gs) -> (In m (map fst D) <-> In m (map fst es))) -> forall xs,
      field_values_e efs = inl xs <-> Forall2 (field_of D es) gs xs.
    Proof.
      intros S. induction S as [|[m t] f gs efs (A & B & C & E) F IH]; intros Q xs; cbn [field_values_e fst snd] in *.
      - split; [intros H; injection H as <-; constructor|]. intros H. now inversion H.
      - assert (IH' := IH (fun k I => Q k (or_intror I))). specialize (Q m (or_introl eq_refl)).
        assert (Nv : ef_val f = None -> ~ In m (map fst es)).
        { intros V I. apply Q in I. apply in_map_iff in I. destruct I as ([m' v] & Z & I). cbn in Z. rewrite Z in I. apply E in I. congruence. }
        split.
        + intros H. destruct (ef_val f) as [v|] eqn:V; [|rewrite C in H; destruct (is_option t) eqn:O; [|discriminate]]; cbn [ebind] in H;
            (destruct (field_values_e efs) as [ys|]; [|discriminate]); injection H as <-; constructor; try (now apply IH'); split; cbn [fst snd]; try exact A.
          * left. now apply E.
          * right. auto.
        + intros H. destruct xs as [|[m' v] ys]; [inversion H|]. apply F2_cons in H. destruct H as [[X1 X2] Hs]. cbn [fst snd] in *. apply IH' in Hs. rewrite Hs.
          destruct X2 as [X2|(X2 & X3 & X4)].
          * apply E in X2. rewrite X2. cbn [ebind]. now rewrite A, X1.
          * destruct (ef_val f) as [w|] eqn:V.
            -- destruct X2. apply Q. apply in_map_iff. exists (m, w). split; [reflexivity|now apply E].
            -- rewrite C, X3. cbn [ebind]. now rewrite A, X1, X4.
    Qed.
    Lemma struct_iff y a xs a1 : de_struct_e (map (fun nt => match nt with (n, t) => mkEF n (de_e t) (is_option t) None end) fs) y a = inl (xs, a1) <->
      yields (TStruct fs) y a (SStruct xs) a1.
    Proof.
      unfold de_struct_e. split.
      - intros H. destruct (map_ok y a) as [(y' & T & M & E)|(e & E & _)]; rewrite E in H; [|discriminate]. cbn [ebind] in H.
        match type of H with (let! (_, _) := ?x in _) = _ => destruct x as [[efs' b]|] eqn:R; [|discriminate] end. cbn [ebind] in H.
        destruct (fields_values _ _ _ _ _ _ (vstate_start fs) R) as (vs & U & _ & Y & S).
        destruct (field_values_e efs') as [ys|] eqn:V; [|discriminate]. injection H as <- <-.
        rewrite app_nil_r in S. eapply YStruct; eauto. apply (values_iff _ _ _ (entries_of y') S); [|exact V]. intros m I.
        rewrite <- (yields_names _ _ _ _ Y U). rewrite known_names. tauto.
      - intros H. inversion H; subst. match goal with T : target a y y', M : is_map y' |- _ => rewrite (target_map _ _ _ T M) end. cbn [ebind].
        match goal with U : NoDup _, Y : yields_all _ _ _ _ |- _ => destruct (fields_values_back _ [] _ _ _ _ (vstate_start fs) U (fun x _ K => K) Y) as (efs' & R & S); rewrite R;
          pose proof (yields_names _ _ _ _ Y U) as Nm end.
        cbn [ebind]. rewrite app_nil_r in S.
        match goal with F : Forall2 _ fs xs |- _ => apply (values_iff _ _ _ (entries_of y') S) in F; [rewrite F; reflexivity|] end.
        intros m I. rewrite <- Nm. rewrite known_names. tauto.
    Qed.
  End Fields.
End One.
