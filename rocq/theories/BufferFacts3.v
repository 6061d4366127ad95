(** The readers of serde's buffer return what [bmeans] says: enums and the main theorem. *)
From Coq Require Import ZArith Lia.
From Verif Require Import Base Ast Strings Num Ser De Attr Spec_Serde Spec_Look Spec_Typed Spec_Attr Spec_Buffer AttrFacts TypedFacts2 SerdeFacts2 BufferFacts BufferFacts2.
Import ListNotations.

Lemma unit_iff own c : b_unit own c = true <-> unit_like own c.
Proof.
  unfold unit_like. destruct c as [| | | | | | |[|e es]]; cbn; split; intros H; try discriminate; auto;
    destruct H as [H|[-> H]]; try discriminate; auto.
Qed.
Lemma map_some {A B} (f : A -> B) o v : option_map f o = Some v <-> exists x, o = Some x /\ v = f x.
Proof. destruct o; cbn; split; [intros E; injection E as <-; eauto|intros (x & E & ->); congruence|easy|intros (x & E & _); easy]. Qed.

Lemma pick_some {A} (l : list (str * A)) n x : pick l n = Some x -> In (n, x) l.
Proof.
  induction l as [|[m y] l IH]; cbn; [easy|]. destruct (seqb m n) eqn:E; [|auto].
  apply seqb_eq in E. intros X. injection X as ->. subst. now left.
Qed.
Lemma pick_in {A} (l : list (str * A)) n x : NoDup (map fst l) -> In (n, x) l -> pick l n = Some x.
Proof.
  induction l as [|[m y] l IH]; cbn; [easy|]. intros ND I. inversion ND as [|? ? N ND']; subst.
  destruct (seqb m n) eqn:E.
  - apply seqb_eq in E. subst. destruct I as [I|I]; [congruence|]. destruct N. now apply (in_map fst) in I.
  - apply seqb_neq in E. destruct I as [I|I]; [congruence|auto].
Qed.
Lemma pick_rvars fuel vs n rv : NoDup (map fst vs) ->
  pick (rvars fuel vs) n = Some rv <-> exists va, In (n, va) vs /\ rv = rvar fuel va.
Proof.
  intros ND. assert (E : map fst (rvars fuel vs) = map fst vs) by (unfold rvars; rewrite map_map; apply map_ext; now intros []).
  split.
  - intros H. apply pick_some in H. unfold rvars in H. apply in_map_iff in H as ([m va] & Q & I). inversion Q; subst. eauto.
  - intros (va & I & ->). apply pick_in; [now rewrite E|]. unfold rvars. apply in_map_iff. now exists (n, va).
Qed.

Lemma tag_iff tag l : 
  (forall es, b_tag tag l = Some (None, es) <-> ~ In (AnStr tag) (map fst l) /\ es = others [tag] l) /\
  (forall c es, b_tag tag l = Some (Some c, es) <-> once l tag c /\ es = others [tag] l).
Proof.
  induction l as [|[k c0] l [IH1 IH2]].
  - cbn. split; [intros es|intros c es].
    + split; [intros E; injection E as <-; auto|intros [_ ->]; reflexivity].
    + split; [discriminate|intros [O _]; destruct (once_nil _ _ O)].
  - assert (G : k <> AnStr tag -> others [tag] ((k, c0) :: l) = (k, c0) :: others [tag] l).
    { intros N. unfold others. cbn [filter fst existsb]. destruct k; try reflexivity. rewrite orb_false_r.
      destruct (seqb s tag) eqn:E; [apply seqb_eq in E; congruence|reflexivity]. }
    assert (G' : others [tag] ((AnStr tag, c0) :: l) = others [tag] l).
    { unfold others. cbn [filter fst existsb]. now rewrite seqb_refl. }
    destruct (b_tag tag l) as [[t es0]|] eqn:B.
    2:{ cbn [b_tag]. rewrite B. split; [intros es|intros c es].
        - split; [easy|]. intros [N _]. cbn in N. assert (X : @None (option anyv * list entry) = Some (None, others [tag] l)); [|discriminate].
          apply IH1. tauto.
        - split; [easy|]. intros [O _]. apply once_cons in O as [[_ N]|[_ O]].
          + assert (X : @None (option anyv * list entry) = Some (None, others [tag] l)); [|discriminate]. now apply IH1.
          + assert (X : @None (option anyv * list entry) = Some (Some c, others [tag] l)); [|discriminate]. now apply IH2. }
    assert (D : k = AnStr tag \/ k <> AnStr tag).
    { destruct k; try (right; discriminate). destruct (seqb s tag) eqn:E; [left; apply seqb_eq in E; congruence|right].
      apply seqb_neq in E. congruence. }
    destruct D as [-> | N].
    + cbn [b_tag]. rewrite B, seqb_refl, G'. destruct t as [c1|].
      * destruct (proj1 (IH2 c1 es0) eq_refl) as [O ->]. split; [intros es|intros c es]; (split; [easy|]).
        -- intros [N _]. cbn in N. tauto.
        -- intros [Oc _]. apply once_cons in Oc as [[_ N]|[N _]]; [|cbn in N; congruence]. destruct (N (once_in _ _ _ O)).
      * destruct (proj1 (IH1 es0) eq_refl) as [Nt ->]. split; [intros es|intros c es].
        -- split; [easy|]. intros [N _]. cbn in N. tauto.
        -- rewrite once_cons. cbn [fst]. split.
           ++ intros E. injection E as <- <-. auto.
           ++ intros [[[E _]|[N _]] ->]; [|congruence]. injection E as ->. reflexivity.
    + assert (Q : b_tag tag ((k, c0) :: l) = Some (t, (k, c0) :: es0)).
      { cbn [b_tag]. rewrite B. destruct k; try reflexivity. destruct (seqb s tag) eqn:E; [apply seqb_eq in E; congruence|reflexivity]. }
      rewrite Q, (G N). split; [intros es|intros c es].
      * cbn [map fst In]. split.
        -- intros E. injection E as -> <-. destruct (proj1 (IH1 es0) eq_refl) as [Nt ->]. tauto.
        -- intros [Nt ->]. assert (X : Some (t, es0) = Some (None, others [tag] l)) by (apply IH1; tauto). congruence.
      * rewrite once_cons. cbn [fst]. split.
        -- intros E. injection E as -> <-. destruct (proj1 (IH2 c es0) eq_refl) as [O ->]. auto.
        -- intros [[[E _]|[_ O]] ->]; [congruence|]. assert (X : Some (t, es0) = Some (Some c, others [tag] l)) by (apply IH2; auto). congruence.
Qed.
Lemma tagged_iff tag c n d : b_tagged tag c = Some (n, d) <-> tag_of tag c n d.
Proof.
  unfold tag_of. split.
  - intros H. destruct c as [| | | | | |[|[] cs]|es]; cbn [b_tagged] in H; try discriminate.
    + injection H as <- <-. right. eauto.
    + destruct (b_tag tag es) as [[[[]|] es']|] eqn:B; try discriminate. injection H as <- <-.
      apply tag_iff in B as [O ->]. left. eauto.
  - intros [(es & -> & O & ->)|(cs & -> & ->)]; [|reflexivity]. cbn [b_tagged].
    assert (B : b_tag tag es = Some (Some (AnStr n), others [tag] es)) by (apply tag_iff; auto). now rewrite B.
Qed.

Section Enums.
  Context (fuel : nat).
  Notation good := (good_b fuel).
  Definition var_good (va : xvariant) : Prop :=
    match va with
    | XVUnit => True
    | XVNew t => good t
    | XVTup ts => Forall good ts
    | XVStruct fs => Forall (fun f => good (snd f)) fs /\ NoDup (map fst fs)
    end.

  Definition u_means (c : anyv) (x : str * xvariant) (v : sval) : Prop :=
    match x with (n, va) => n = variant_name v /\
       match va, v with
       | XVUnit, SUnitV _ => c = AnUnit
       | XVNew t, SNewV _ v => bmeans false t c v
       | XVTup ts, STupV _ us => exists cs, c = AnSeq cs /\ all3 (fun t c v => bmeans false t c v) ts cs us
       | XVStruct fs, SStructV _ us => named_b false c fs us
       | _, _ => False
       end end.
  Lemma u_iff c n va : var_good va -> forall v, u_variant c (n, rvar fuel va) = Some v <-> u_means c (n, va) v.
  Proof.
    intros G v. unfold u_variant, u_means. cbn [fst snd]. destruct va as [|t|ts|fs]; cbn [rvar var_good] in *.
    - split.
      + destruct c; try discriminate. intros E. injection E as <-. auto.
      + intros [-> H]. destruct v; try contradiction. now subst c.
    - rewrite map_some. split.
      + intros (x & R & ->). apply G in R. auto.
      + intros [-> H]. destruct v; try contradiction. apply G in H. eauto.
    - split.
      + destruct c; try discriminate. intros E. apply map_some in E as (us & R & ->). apply (tuple_iff fuel) in R; [|exact G]. eauto.
      + intros [-> H]. destruct v; try contradiction. destruct H as (cs & -> & H). apply (tuple_iff fuel) in H; [|exact G]. now rewrite H.
    - destruct G as [G ND]. split.
      + destruct c as [| | | | | | |es]; try discriminate. intros E. apply map_some in E as (us & R & ->). split; [reflexivity|].
        eapply (named_iff fuel); eauto.
      + intros [-> H]. destruct v; try contradiction. apply (named_iff fuel) in H as (es & -> & H); [|exact G|exact ND].
        change (map _ fs) with (map (mk fuel) fs). now rewrite H.
  Qed.
  Lemma first_iff {A B C} (f : A -> option B) (P : C -> B -> Prop) (g : C -> A) l :
    Forall (fun x => forall v, f (g x) = Some v <-> P x v) l -> forall v, first_of f (map g l) = Some v <-> first P l v.
  Proof.
    induction 1 as [|x l H _ IH]; intros v; cbn; [easy|]. destruct (f (g x)) as [w|] eqn:E.
    - split.
      + intros Q. left. now apply H.
      + intros [Q|[N _]]; [now apply H in Q|]. destruct (N w). now apply H.
    - rewrite IH. split.
      + intros Q. right. split; [|exact Q]. intros w Hw. apply H in Hw. discriminate.
      + intros [Q|[_ Q]]; [apply H in Q; discriminate|exact Q].
  Qed.
  Lemma untagged_iff c vs : Forall (fun x => var_good (snd x)) vs -> forall v,
    first_of (u_variant c) (rvars fuel vs) = Some v <-> first (u_means c) vs v.
  Proof.
    intros G. unfold rvars. apply first_iff. eapply Forall_impl; [|exact G]. intros [n va] H. now apply u_iff.
  Qed.

  Lemma untagged_good vs : Forall (fun x => var_good (snd x)) vs -> good (XUntagged vs).
  Proof.
    intros G own c v. rewrite read_untagged. cbn [r_buf]. rewrite untagged_iff by exact G. destruct v; reflexivity.
  Qed.

  Definition t_means (vs : list (str * xvariant)) (d : anyv) (v : sval) : Prop :=
    any (fun x => match x with (n, va) => n = variant_name v /\
               match va, v with
               | XVUnit, SUnitV _ => (exists es, d = AnMap es) \/ d = AnSeq []
               | XVNew t, SNewV _ v => bmeans true t d v
               | XVStruct fs, SStructV _ us => record_b true d fs us
               | _, _ => False
               end end) vs.
  Lemma t_iff vs : Forall (fun x => var_good (snd x)) vs -> NoDup (map fst vs) -> forall n d v,
    t_variant (rvars fuel vs) (n, d) = Some v <-> n = variant_name v /\ t_means vs d v.
  Proof.
    intros G ND n d v. unfold t_variant, t_means. cbn [fst snd]. rewrite any_ex. split.
    - destruct (pick _ n) as [rv|] eqn:P; [|destruct d; discriminate]. apply pick_rvars in P as (va & I & ->); [|exact ND].
      pose proof (proj1 (Forall_forall _ _) G _ I) as Gv. cbn in Gv. destruct va as [|t|ts|fs]; cbn [rvar var_good] in *.
      + intros E. assert (X : v = SUnitV n /\ ((exists es, d = AnMap es) \/ d = AnSeq [])).
        { destruct d as [| | | | | |[|]|]; try discriminate; injection E as <-; split; eauto. }
        destruct X as [-> X]. split; [reflexivity|]. exists (n, XVUnit). auto.
      + intros E. apply map_some in E as (x & R & ->). apply Gv in R. split; [reflexivity|]. exists (n, XVNew t). auto.
      + destruct d; discriminate.
      + destruct Gv as [Gv NDv]. intros E. apply map_some in E as (x & R & ->). apply (record_iff fuel) in R; auto.
        split; [reflexivity|]. exists (n, XVStruct fs). auto.
    - intros (En & [m va] & I & Em & H). rewrite <- En in Em. subst m. pose proof (proj1 (Forall_forall _ _) G _ I) as Gv. cbn in Gv.
      assert (P : pick (rvars fuel vs) n = Some (rvar fuel va)) by (apply pick_rvars; eauto). rewrite P.
      destruct va as [|t|ts|fs]; cbn [rvar var_good] in *; destruct v; try contradiction; cbn in En; subst.
      + destruct H as [(es & ->) | ->]; reflexivity.
      + apply Gv in H. now rewrite H.
      + destruct Gv as [Gv NDv]. apply (record_iff fuel) in H; auto. change (map _ fs) with (map (mk fuel) fs). now rewrite H.
  Qed.
  Lemma tagged_good tag vs : Forall (fun x => var_good (snd x)) vs -> NoDup (map fst vs) -> good (XTagged tag vs).
  Proof.
    intros G ND own c v. rewrite read_tagged. cbn [r_buf].
    assert (Q : bmeans own (XTagged tag vs) c v <-> exists d, tag_of tag c (variant_name v) d /\ t_means vs d v) by (destruct v; reflexivity).
    rewrite Q. split.
    - destruct (b_tagged tag c) as [[n d]|] eqn:B; [|discriminate]. intros H. apply tagged_iff in B. apply t_iff in H as [-> H]; eauto.
    - intros (d & T & H). apply tagged_iff in T. rewrite T. apply t_iff; auto.
  Qed.

  Lemma enum_good vs : Forall (fun x => var_good (snd x)) vs -> NoDup (map fst vs) -> good (XEnum vs).
  Proof.
    intros G ND own c v. rewrite read_enum. cbn [r_buf].
    assert (Gi : forall n va, In (n, va) vs -> var_good va) by (intros n va I; apply (proj1 (Forall_forall _ _) G _ I)).
    assert (Pi : forall n va, In (n, va) vs -> pick (rvars fuel vs) n = Some (rvar fuel va)).
    { intros n va I. apply pick_rvars; eauto. }
    split.
    - destruct (b_enum c) as [[n oc]|] eqn:B; [|discriminate]. destruct (pick _ n) as [rv|] eqn:P; [|discriminate].
      apply pick_rvars in P as (va & I & ->); [|exact ND]. pose proof (Gi _ _ I) as Gv.
      assert (C : match oc with None => c = AnStr n | Some d => c = AnMap [(AnStr n, d)] end).
      { destruct c as [| | | | |s| |[|[[] d] [|]]]; cbn in B; try discriminate; injection B as <- <-; reflexivity. }
      clear B. destruct va as [|t|ts|fs]; cbn [rvar var_good b_variant] in *.
      + destruct oc as [d|].
        * destruct (b_unit own d) eqn:U; [|discriminate]. intros E. injection E as <-. apply unit_iff in U. cbn [bm content_of orb]. eauto.
        * intros E. injection E as <-. cbn [bm content_of orb]. auto.
      + destruct oc as [d|]; [|discriminate]. intros E. apply map_some in E as (x & R & ->). apply Gv in R. cbn [bm content_of orb].
        exists d. split; [exact C|]. apply any_ex. exists (n, XVNew t). auto.
      + destruct oc as [[]|]; try discriminate. intros E. apply map_some in E as (x & R & ->). apply (tuple_iff fuel) in R; [|exact Gv].
        cbn [bm content_of orb]. eexists. split; [exact C|]. apply any_ex. exists (n, XVTup ts). auto.
      + destruct oc as [d|]; [|discriminate]. destruct Gv as [Gv NDv]. intros E. apply map_some in E as (x & R & ->).
        apply (record_iff fuel) in R; auto. cbn [bm content_of orb]. exists d. split; [exact C|]. apply any_ex. exists (n, XVStruct fs). split; [exact I|].
        split; [reflexivity|exact R].
    - destruct v; cbn [bm content_of orb]; try contradiction.
      + intros [I [-> |(d & -> & U)]]; cbn [b_enum]; rewrite (Pi _ _ I); cbn [rvar b_variant]; [reflexivity|].
        apply unit_iff in U. now rewrite U.
      + intros (d & -> & H). apply any_ex in H as ([m va] & I & H). destruct va; try contradiction. destruct H as [-> H].
        cbn [b_enum]. rewrite (Pi _ _ I). cbn [rvar b_variant]. apply (Gi _ _ I) in H. now rewrite H.
      + intros (d & -> & H). apply any_ex in H as ([m va] & I & H). destruct va; try contradiction. destruct H as [-> H].
        cbn [b_enum]. rewrite (Pi _ _ I). cbn [rvar b_variant]. apply (tuple_iff fuel) in H; [|exact (Gi _ _ I)]. now rewrite H.
      + intros (d & -> & H). apply any_ex in H as ([m va] & I & H). destruct va; try contradiction. destruct H as [-> H].
        cbn [b_enum]. rewrite (Pi _ _ I). cbn [rvar b_variant]. pose proof (Gi _ _ I) as [Gv NDv].
        apply (record_iff fuel) in H; auto. change (map _ fs) with (map (mk fuel) fs). now rewrite H.
  Qed.

  (** ---- flattened enums ---- *)
  Lemma take_spec names (l : slots) :
    match f_take names l with
    | (Some (n, c), l1) => exists b d, first_named names (remaining l) b n c d /\ remaining l1 = b ++ d
    | (None, l1) => unnamed names (remaining l) /\ remaining l1 = remaining l
    end.
  Proof.
    induction l as [|[[k c]|] l IH].
    - cbn. split; [intros ? ? []|reflexivity].
    - assert (Sk : (forall n, k = AnStr n -> ~ In n names) ->
        match (let '(r, l1) := f_take names l in (r, Some (k, c) :: l1)) with
        | (Some (n, x), l1) => exists b d, first_named names (remaining (Some (k, c) :: l)) b n x d /\ remaining l1 = b ++ d
        | (None, l1) => unnamed names (remaining (Some (k, c) :: l)) /\ remaining l1 = remaining (Some (k, c) :: l)
        end).
      { intros Kn. destruct (f_take names l) as [[[n x]|] l1].
        - destruct IH as (b & d & (E & U & I) & E1). exists ((k, c) :: b), d. split; [split; [|split]|].
          + change (remaining (Some (k, c) :: l)) with ((k, c) :: remaining l). now rewrite E.
          + intros m y [X|X]; [injection X as -> ->; now apply Kn|eapply U; eauto].
          + exact I.
          + change (remaining (Some (k, c) :: l1)) with ((k, c) :: remaining l1). now rewrite E1.
        - destruct IH as [U E]. split.
          + intros m y [X|X]; [injection X as -> ->; now apply Kn|eapply U; eauto].
          + change (remaining (Some (k, c) :: l1)) with ((k, c) :: remaining l1). now rewrite E. }
      destruct k as [| | | | |n| |]; try (cbn [f_take]; apply Sk; intros n X; discriminate).
      cbn [f_take]. destruct (existsb (seqb n) names) eqn:Kn.
      + apply known_iff in Kn. exists [], (remaining l). split; [|reflexivity]. split; [reflexivity|]. split; [intros ? ? []|exact Kn].
      + apply Sk. intros m X Y. injection X as <-. apply known_iff in Y. congruence.
    - cbn [f_take]. change (remaining (None :: l)) with (remaining l). destruct (f_take names l) as [[[n x]|] l1]; exact IH.
  Qed.
  Lemma named_once names es b n c d b' n' c' d' : first_named names es b n c d -> first_named names es b' n' c' d' ->
    b = b' /\ n = n' /\ c = c' /\ d = d'.
  Proof.
    intros (-> & U & I) (E & U' & I'). revert b' U' E. induction b as [|e b IH]; intros [|e' b'] U' E; cbn in E.
    - injection E as <- <- <-. auto.
    - injection E as <- E. destruct (U' n c (or_introl eq_refl) I).
    - injection E as -> E. destruct (U n' c' (or_introl eq_refl) I').
    - injection E as <- E. destruct (IH (fun m y H => U m y (or_intror H)) b' (fun m y H => U' m y (or_intror H)) E) as (-> & H). auto.
  Qed.
  Lemma named_some names es b n c d : first_named names es b n c d -> ~ unnamed names es.
  Proof. intros (-> & _ & I) U. apply (U n c); [|exact I]. apply in_app_iff. right. now left. Qed.

  Lemma enum_flat vs : Forall (fun x => var_good (snd x)) vs -> NoDup (map fst vs) -> good_f fuel (XEnum vs).
  Proof.
    intros G ND l. rewrite read_enum. cbn [r_flat]. pose proof (take_spec (map fst vs) l) as T.
    assert (Gi : forall n va, In (n, va) vs -> var_good va) by (intros n va I; apply (proj1 (Forall_forall _ _) G _ I)).
    assert (Pi : forall n va, In (n, va) vs -> pick (rvars fuel vs) n = Some (rvar fuel va)).
    { intros n va I. apply pick_rvars; eauto. }
    destruct (f_take (map fst vs) l) as [[[n d]|] l1].
    - destruct T as (b & e & F & E1).
      assert (C : content_of true (map fst vs) (AnMap (remaining l)) n d) by (exists (remaining l), b, e; auto).
      assert (Cu : forall n' d', content_of true (map fst vs) (AnMap (remaining l)) n' d' -> n' = n /\ d' = d).
      { intros n' d' (es & b' & e' & E & F'). injection E as <-. destruct (named_once _ _ _ _ _ _ _ _ _ _ F F') as (_ & -> & -> & _). auto. }
      split; [intros v|intros es']; cbn [fst snd].
      + split.
        * destruct (pick _ n) as [rv|] eqn:P; [|discriminate]. apply pick_rvars in P as (va & I & ->); [|exact ND]. pose proof (Gi _ _ I) as Gv.
          destruct va as [|t|ts|fs]; cbn [rvar var_good b_variant] in *.
          -- destruct (b_unit true d) eqn:U; [|discriminate]. intros E. injection E as <-. apply unit_iff in U. cbn [bm orb]. eauto.
          -- intros E. apply map_some in E as (x & R & ->). apply Gv in R. cbn [bm orb].
             exists d. split; [exact C|]. apply any_ex. exists (n, XVNew t). auto.
          -- destruct d; try discriminate. intros E. apply map_some in E as (x & R & ->). apply (tuple_iff fuel) in R; [|exact Gv].
             cbn [bm orb]. eexists. split; [exact C|]. apply any_ex. exists (n, XVTup ts). auto.
          -- destruct Gv as [Gv NDv]. intros E. apply map_some in E as (x & R & ->).
             apply (record_iff fuel) in R; auto. cbn [bm orb]. exists d. split; [exact C|]. apply any_ex. exists (n, XVStruct fs). split; [exact I|].
             split; [reflexivity|exact R].
        * destruct v; cbn [bm orb]; try contradiction.
          -- intros [I [X|(d' & Cd & U)]]; [discriminate|]. apply Cu in Cd as [-> ->]. rewrite (Pi _ _ I). cbn [rvar b_variant].
             apply unit_iff in U. now rewrite U.
          -- intros (d' & Cd & H). apply Cu in Cd as [-> ->]. apply any_ex in H as ([m va] & I & H). destruct va; try contradiction. destruct H as [-> H].
             rewrite (Pi _ _ I). cbn [rvar b_variant]. apply (Gi _ _ I) in H. now rewrite H.
          -- intros (d' & Cd & H). apply Cu in Cd as [-> <-]. apply any_ex in H as ([m va] & I & H). destruct va; try contradiction. destruct H as [-> H].
             rewrite (Pi _ _ I). cbn [rvar b_variant]. apply (tuple_iff fuel) in H; [|exact (Gi _ _ I)]. now rewrite H.
          -- intros (d' & Cd & H). apply Cu in Cd as [-> ->]. apply any_ex in H as ([m va] & I & H). destruct va; try contradiction. destruct H as [-> H].
             rewrite (Pi _ _ I). cbn [rvar b_variant]. pose proof (Gi _ _ I) as [Gv NDv].
             apply (record_iff fuel) in H; auto. change (map _ fs) with (map (mk fuel) fs). now rewrite H.
      + cbn [leaves]. split.
        * intros [(b' & n' & c' & d' & F' & ->)|[U _]]; [|destruct (named_some _ _ _ _ _ _ F U)].
          destruct (named_once _ _ _ _ _ _ _ _ _ _ F F') as (<- & _ & _ & <-). now symmetry.
        * intros ->. left. exists b, n, d, e. auto.
    - destruct T as [U E1].
      assert (Cu : forall n' d', ~ content_of true (map fst vs) (AnMap (remaining l)) n' d').
      { intros n' d' (es & b' & e' & E & F'). injection E as <-. exact (named_some _ _ _ _ _ _ F' U). }
      split; [intros v|intros es']; cbn [fst snd].
      + split; [discriminate|]. destruct v; cbn [bm orb]; try contradiction.
        * intros [_ [X|(d' & Cd & _)]]; [discriminate|]. destruct (Cu _ _ Cd).
        * intros (d' & Cd & _). destruct (Cu _ _ Cd).
        * intros (d' & Cd & _). destruct (Cu _ _ Cd).
        * intros (d' & Cd & _). destruct (Cu _ _ Cd).
      + cbn [leaves]. split.
        * intros [(b' & n' & c' & d' & F' & _)|[_ ->]]; [destruct (named_some _ _ _ _ _ _ F' U)|]. now symmetry.
        * intros ->. right. auto.
  Qed.
  Lemma untagged_flat vs : Forall (fun x => var_good (snd x)) vs -> good_f fuel (XUntagged vs).
  Proof.
    intros G l. rewrite read_untagged. cbn [r_flat fst snd]. split; [intros v|reflexivity].
    rewrite untagged_iff by exact G. destruct v; reflexivity.
  Qed.
  Lemma tagged_flat tag vs : Forall (fun x => var_good (snd x)) vs -> NoDup (map fst vs) -> good_f fuel (XTagged tag vs).
  Proof.
    intros G ND l. pose proof (tagged_good tag vs G ND false (AnMap (remaining l))) as T. rewrite read_tagged in *. cbn [r_buf r_flat fst snd] in *.
    split; [intros v|reflexivity]. rewrite T. destruct v; reflexivity.
  Qed.
  Lemma flatless t : (forall l, r_flat (read fuel t) l = (None, l)) -> (forall es v, ~ fmeans t es v) ->
    (forall es es', leaves t es es' <-> es' = es) -> good_f fuel t.
  Proof.
    intros R M L l. rewrite R. cbn [fst snd]. split; [intros v|intros es'; apply L]. split; [discriminate|intros H; destruct (M _ _ H)].
  Qed.

  Definition vars_plain (vs : list (str * xvariant)) : Prop :=
    NoDup (map fst vs) /\
    fold_right (fun x P => (match x with
                            | (_, XVUnit) => True
                            | (_, XVNew t) => plain_type t
                            | (_, XVTup ts) => fold_right (fun t P => plain_type t /\ P) True ts
                            | (_, XVStruct fs) =>
                                NoDup (map fst fs) /\
                                fold_right (fun f P => (match f with (_, t) => plain_type t end) /\ P) True fs
                            end) /\ P) True vs.
  Lemma vars_good vs : Forall (fun x => xv_P (fun t => plain_type t -> good t /\ good_f fuel t) (snd x)) vs -> vars_plain vs ->
    Forall (fun x => var_good (snd x)) vs.
  Proof.
    intros F [_ W]. induction F as [|[n va] vs H _ IH]; [constructor|]. destruct W as [Wv W]. constructor; [|auto]. cbn in *.
    destruct va as [|t|ts|fs]; cbn in *; [exact I|now apply H| |].
    - clear - H Wv. induction H as [|t ts Ht]; [constructor|]. destruct Wv. constructor; [now apply Ht|auto].
    - destruct Wv as [ND Wv]. split; [|exact ND]. clear - H Wv. induction H as [|[m t] fs Ht]; [constructor|]. destruct Wv. constructor; [now apply Ht|auto].
  Qed.

  Theorem buffer_both : forall t, plain_type t -> good t /\ good_f fuel t.
  Proof.
    induction t using xty_ind'; intros W.
    - split; [|apply flatless; [reflexivity|intros es v H; destruct v; cbn in H; try contradiction; discriminate|reflexivity]].
      intros own c v. cbn. split; [|destruct v; try contradiction; now intros ->]. destruct c; try discriminate. intros E. now injection E as <-.
    - split; [|apply flatless; [reflexivity|intros es v H; destruct v; cbn in H; try contradiction; destruct H as (_ & _ & _ & _ & [H|H]); discriminate|reflexivity]].
      intros own c v. cbn.
      assert (Q : forall z, b_int k z = Some v <-> v = SInt k z /\ k <> I128 /\ k <> U128 /\ fits k z).
      { intros z. unfold b_int. pose proof (kind_fits k z) as F. destruct (in_kind k z).
        - assert (fits k z) by now apply F.
          destruct k; (split; [intros E|intros (-> & ? & ? & _); congruence]); try discriminate; injection E as <-; repeat split; try discriminate; auto;
            apply F; reflexivity. 
        - split; [destruct k; discriminate|]. intros (_ & _ & _ & X). apply F in X. discriminate. }
      split.
      + destruct c; try discriminate; intros E; apply Q in E as (-> & E); tauto.
      + destruct v; try contradiction. intros (-> & A & B & C & [-> | ->]); now apply Q.
    - split; [|apply flatless; [reflexivity|intros es v H; destruct v; cbn in H; try contradiction; destruct H as [H|(z & [H|H] & _)]; discriminate|reflexivity]].
      intros own c v. cbn. split.
      + destruct c; try discriminate; intros E; injection E as <-; eauto.
      + destruct v; try contradiction. intros [-> |(z & [-> | ->] & ->)]; reflexivity.
    - split; [|apply flatless; [reflexivity|intros es v H; destruct v; cbn in H; try contradiction; discriminate|reflexivity]].
      intros own c v. cbn. split.
      + destruct c as [| | | | |[|x [|]]| |]; try discriminate. intros E. now injection E as <-.
      + destruct v; try contradiction. now intros ->.
    - split; [|apply flatless; [reflexivity|intros es v H; destruct v; cbn in H; try contradiction; discriminate|reflexivity]].
      intros own c v. cbn. split.
      + destruct c; try discriminate. intros E. now injection E as <-.
      + destruct v; try contradiction. now intros ->.
    - split; [|intros l; cbn; split; [intros v; split; [intros E; now injection E as <-|destruct v; try contradiction; reflexivity]|reflexivity]].
      intros own c v. cbn. pose proof (unit_iff own c) as U. destruct (b_unit own c).
      + split; [intros E; injection E as <-; now apply U|]. destruct v; try contradiction. reflexivity.
      + split; [discriminate|]. destruct v; try contradiction. intros H. apply U in H. discriminate.
    - destruct (IHt W) as [Gb Gf]. clear IHt W. split.
      2:{ intros l. specialize (Gf l) as [Fv Fl]. cbn [read r_flat]. destruct (r_flat (read fuel t) l) as [o l1]. cbn [fst snd] in *.
          split; [intros v|exact Fl]. split.
          - intros E. injection E as <-. destruct o as [v|]; cbn [bm].
            + split; [discriminate|]. now apply Fv.
            + intros v B. apply Fv in B. discriminate.
          - destruct v; cbn [bm]; try contradiction.
            + intros N. destruct o as [v|]; [|reflexivity]. destruct (N v). now apply Fv.
            + intros [_ B]. apply Fv in B. now subst o. }
      intros own c v. pose proof (Gb own c) as IHt. cbn [read r_buf]. split.
      + destruct c; try (intros E; apply map_some in E as (x & R & ->); apply IHt in R; cbn [bm content_of orb]; split; [discriminate|exact R]).
        intros E. injection E as <-. reflexivity.
      + destruct v; cbn [bm content_of orb]; try contradiction; [now intros ->|]. intros [N B]. apply IHt in B. rewrite B. now destruct c.
    - destruct (IHt W) as [Gb Gf]. clear IHt W. split.
      2:{ intros l. specialize (Gf l) as [Fv Fl]. cbn [read r_flat]. destruct (r_flat (read fuel t) l) as [o l1]. cbn [fst snd] in *.
          split; [intros v|exact Fl]. rewrite map_some. split.
          - intros (x & -> & ->). cbn [bm]. now apply Fv.
          - destruct v; cbn [bm]; try contradiction. intros B. apply Fv in B. eauto. }
      intros own c v. pose proof (Gb own c) as IHt. cbn [read r_buf]. rewrite map_some. split.
      + intros (x & R & ->). now apply IHt.
      + destruct v; cbn [bm content_of orb]; try contradiction. intros B. apply IHt in B. eauto.
    - split; [|apply flatless; [reflexivity|intros es v Hq; destruct v; cbn in Hq; try contradiction; destruct Hq as (cs & Hq & _); discriminate|reflexivity]].
      intros own c v. pose proof (proj1 (IHt W) own) as IHq. clear IHt. rename IHq into IHt. cbn [read r_buf].
      assert (Q : forall l m, opt_map (r_buf (read fuel t) own) l = Some m <-> all2 (fun c v => bmeans own t c v) l m).
      { intros l. apply opt_map_all2. apply Forall_forall. intros x _. apply IHt. }
      split.
      + destruct c; try discriminate. rewrite map_some. intros (x & R & ->). apply Q in R. cbn [bm content_of orb]. eauto.
      + destruct v; cbn [bm content_of orb]; try contradiction. intros (cs & -> & B). apply Q in B. now rewrite B.
    - split; [|apply flatless; [reflexivity|intros es v Hq; destruct v; cbn in Hq; try contradiction; destruct Hq as (cs & Hq & _); discriminate|reflexivity]].
      intros own c v. cbn [read r_buf].
      assert (G : Forall good ts).
      { cbn [plain_type] in W. revert W. clear - H. induction H as [|t ts Ht]; [constructor|]. intros []. constructor; [now apply Ht|auto]. }
      split.
      + destruct c; try discriminate. rewrite map_some. intros (x & R & ->). apply (tuple_iff fuel) in R; [|exact G]. cbn [bm content_of orb]. eauto.
      + destruct v; cbn [bm content_of orb]; try contradiction. intros (cs & -> & B). apply (tuple_iff fuel) in B; [|exact G]. now rewrite B.
    - destruct W as [W1 W2]. apply IHt1 in W1 as [W1 _]. apply IHt2 in W2 as [W2 _]. clear IHt1 IHt2. split.
      2:{ intros l. cbn [read r_flat fst snd]. split; [intros v|reflexivity]. rewrite map_some. split.
          - intros (x & R & ->). apply (entries_iff fuel) in R; auto. cbn [bm]. eauto.
          - destruct v; cbn [bm]; try contradiction. intros (es & E & B). injection E as <-. apply (entries_iff fuel) in B; eauto. }
      intros own c v. cbn [read r_buf]. split.
      + destruct c; try discriminate. rewrite map_some. intros (x & R & ->). apply (entries_iff fuel) in R; auto. cbn [bm content_of orb]. eauto.
      + destruct v; cbn [bm content_of orb]; try contradiction. intros (cs & -> & B). apply (entries_iff fuel) in B; auto. now rewrite B.
    - destruct W as [ND W]. assert (G : Forall (parts_good fuel) fs).
      { clear ND. induction H as [|[n [fl t]] fs H _ IH]; [constructor|]. destruct W as [Wt W]. constructor; [|auto]. cbn in H. exact (H Wt). }
      split; [now apply struct_good|now apply struct_flat].
    - split; [|apply enum_flat; [apply vars_good; assumption|exact (proj1 W)]].
      apply enum_good; [apply vars_good; assumption|exact (proj1 W)].
    - split; [|apply untagged_flat; apply vars_good; assumption].
      apply untagged_good. apply vars_good; assumption.
    - split; [|apply tagged_flat; [apply vars_good; assumption|exact (proj1 W)]].
      apply tagged_good; [apply vars_good; assumption|exact (proj1 W)].
  Qed.
  Theorem buffer_means : forall t, plain_type t -> good t.
  Proof. intros t P. exact (proj1 (buffer_both t P)). Qed.
End Enums.
