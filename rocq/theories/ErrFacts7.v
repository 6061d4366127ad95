(** What the typed reader returns, with references: all types. *)
From Coq Require Import ZArith Lia.
From Verif Require Import Base Ast Strings Format Num Pretty Ser De DeErr Spec_Pretty Spec_Serde Spec_Look Spec_Typed Spec_Refs Spec_Reads Spec_Err LookFacts TypedFacts SerdeFacts2 ErrFacts ErrFacts2 ErrFacts3 ErrFacts4 ErrFacts5 ErrFacts6 Peg YamlGrammar Consume FromStr TypedFacts4.
Import ListNotations.

Lemma bool_iff y a v a1 : de_bool_e y a = inl (v, a1) <-> yields TBool y a v a1.
Proof.
  unfold de_bool_e. split.
  - intros H. destruct (resolved_cases y a) as [(y' & R & T)|(n & R & -> & K)]; rewrite R in H; cbn [ebind] in H; [|discriminate]. destruct y'; try discriminate.
    destruct (one_of [lit "true"; lit "True"; lit "TRUE"; lit "yes"; lit "Yes"; lit "YES"; lit "on"; lit "On"; lit "ON"] s) eqn:B1.
    { injection H as <- <-. eapply YBool; [exact T|]. now apply (words_iff true). }
    destruct (one_of [lit "false"; lit "False"; lit "FALSE"; lit "no"; lit "No"; lit "NO"; lit "off"; lit "Off"; lit "OFF"] s) eqn:B2; [|discriminate].
    injection H as <- <-. eapply YBool; [exact T|]. now apply (words_iff false).
  - intros H. inversion H as [? s b ? T I| | | | | | | | | | | | | | | | ]; subst. rewrite (proj2 (resolved_ok _ _ _) T). cbn [ebind].
    destruct b; cbn [bool_words map In] in I; repeat (destruct I as [<-|I]; [vm_compute; reflexivity|]); contradiction.
Qed.
Lemma int_iff k y a v a1 : de_int_e k y a = inl (v, a1) <-> yields (TInt k) y a v a1.
Proof.
  split.
  - intros H. destruct (int_cases k) as [K|[K|[-> | ->]]]; try discriminate.
    + rewrite (int_sgn k y a K) in H. unfold de_int_with in H. destruct (resolved_cases y a) as [(y' & R & T)|(n & R & -> & X)]; rewrite R in H; cbn [ebind] in H; [|discriminate].
      destruct (sgn_not k K) as (KU & K1 & K2). destruct (yaml_to_string y') as [s|] eqn:S; [|discriminate]. apply scalar_iff in S.
      destruct (parse_i64 s) as [z|] eqn:P; [|discriminate]. destruct (in_kind k z) eqn:F; [|discriminate]. injection H as <- <-.
      apply (i64_iff k s z K) in P. apply kind_fits in F. eapply YInt; eauto. tauto.
    + rewrite (int_uns k y a K) in H. unfold de_int_with in H. destruct (resolved_cases y a) as [(y' & R & T)|(n & R & -> & X)]; rewrite R in H; cbn [ebind] in H; [|discriminate].
      destruct (uns_not k K) as (KU & K1 & K2). destruct (yaml_to_string y') as [s|] eqn:S; [|discriminate]. apply scalar_iff in S.
      destruct (parse_u64 s) as [z|] eqn:P; [|discriminate]. destruct (in_kind k z) eqn:F; [|discriminate]. injection H as <- <-.
      apply (u64_iff k s z K) in P. apply kind_fits in F. eapply YInt; eauto. tauto.
  - intros H. inversion H as [|? ? y' s z ? T S K1 K2 D F| | | | | | | | | | | | | | | ]; subst. apply scalar_iff in S.
    destruct (int_cases k) as [K|[K|[-> | ->]]]; try contradiction.
    + rewrite (int_sgn k y _ K). unfold de_int_with. rewrite (proj2 (resolved_ok _ _ _) T). cbn [ebind]. rewrite S.
      rewrite (proj2 (i64_iff k s z K)); [rewrite (proj2 (kind_fits k z) F); reflexivity|]. split; [exact D|].
      unfold sgn in K. cbn [In] in K. destruct K as [<-|[<-|[<-|[<-|[]]]]]; cbn [fits] in *; lia.
    + rewrite (int_uns k y _ K). unfold de_int_with. rewrite (proj2 (resolved_ok _ _ _) T). cbn [ebind]. rewrite S.
      rewrite (proj2 (u64_iff k s z K)); [rewrite (proj2 (kind_fits k z) F); reflexivity|]. split; [exact D|].
      cbn [In] in K. destruct K as [<-|[<-|[<-|[<-|[]]]]]; cbn [fits] in *; lia.
Qed.
Lemma text_iff y a s : de_text_e y a = inl s <-> exists y', target a y y' /\ scalar y' s.
Proof.
  unfold de_text_e. split.
  - intros H. destruct (resolved_cases y a) as [(y' & R & T)|(n & R & -> & X)]; rewrite R in H; cbn [ebind] in H; [|discriminate].
    destruct (yaml_to_string y') as [w|] eqn:S; [|discriminate]. injection H as <-. exists y'. split; [exact T|]. now apply scalar_iff.
  - intros (y' & T & S). rewrite (proj2 (resolved_ok _ _ _) T). cbn [ebind]. apply scalar_iff in S. now rewrite S.
Qed.
Lemma byte_values l : forall a vs a1, yields_all (map (pair (TInt U8)) l) a vs a1 -> exists bs, vs = map (fun b => SInt U8 (Z.of_N b)) bs.
Proof.
  induction l as [|y l IH]; intros a vs a1 H; inversion H as [|? ? ? v ws ? b ? Y Ys]; subst; [now exists []|]. destruct (IH _ _ _ Ys) as [bs ->].
  inversion Y as [|? ? y' s z ? T S K1 K2 D F| | | | | | | | | | | | | | | ]; subst. exists (Z.to_N z :: bs). cbn [map]. rewrite Z2N.id; [reflexivity|]. cbn in F. lia.
Qed.
Lemma bytes_back bs : map (fun v => match v with SInt _ z => Z.to_N z | _ => 0%N end) (map (fun b => SInt U8 (Z.of_N b)) bs) = bs.
Proof. rewrite map_map. rewrite <- (map_id bs) at 2. apply map_ext. intros b. apply N2Z.id. Qed.
Lemma tuple_shape ts y a v a1 : yields (TTuple ts) y a v a1 -> exists vs, v = STuple vs.
Proof. inversion 1; eauto. Qed.
Lemma struct_shape fs y a v a1 : yields (TStruct fs) y a v a1 -> exists vs, v = SStruct vs.
Proof. inversion 1; eauto. Qed.

Lemma yields_iff n : forall t y a v a1, tsize t <= n -> distinct t -> (de_e t y a = inl (v, a1) <-> yields t y a v a1).
Proof.
  induction n as [|n IH]; intros t y a v a1 Sz D; [destruct t; cbn in Sz; lia|].
  assert (Fw : forall t y a v a1, tsize t <= n -> distinct t -> de_e t y a = inl (v, a1) -> yields t y a v a1) by (intros; now apply IH).
  assert (Bw : forall t y a v a1, tsize t <= n -> distinct t -> yields t y a v a1 -> de_e t y a = inl (v, a1)) by (intros; now apply IH).
  destruct t; cbn [de_e distinct tsize] in *.
  - apply bool_iff.
  - apply int_iff.
  - unfold de_float_e. split.
    + intros H. destruct (resolved_cases y a) as [(y' & R & T)|(m & R & -> & X)]; rewrite R in H; cbn [ebind] in H; [|discriminate].
      destruct (yaml_to_string y') as [s|] eqn:S; [|discriminate]. apply scalar_iff in S. destruct (parse_f64_ok s) eqn:P; [|discriminate]. injection H as <- <-.
      apply float_spec in P. exact (YFloat y y' s a T S P).
    + intros H. inversion H as [| |? y' s ? T S F| | | | | | | | | | | | | | ]; subst. rewrite (proj2 (resolved_ok _ _ _) T). cbn [ebind]. apply scalar_iff in S. rewrite S.
      apply float_spec in F. now rewrite F.
  - split.
    + intros H. destruct (de_text_e y a) as [s|] eqn:S; [|discriminate]. cbn [ebind] in H. apply text_iff in S. destruct S as (y' & T & S).
      destruct s as [|c [|d s]]; try discriminate. injection H as <- <-. exact (YChar y y' c a T S).
    + intros H. inversion H as [| | |? y' c ? T S| | | | | | | | | | | | | ]; subst. rewrite (proj2 (text_iff y a1 [c])) by eauto. reflexivity.
  - split.
    + intros H. destruct (de_text_e y a) as [s|] eqn:S; [|discriminate]. cbn [ebind] in H. apply text_iff in S. destruct S as (y' & T & S).
      injection H as <- <-. exact (YStr y y' s a T S).
    + intros H. inversion H as [| | | |? y' s ? T S| | | | | | | | | | | | ]; subst. rewrite (proj2 (text_iff y a1 s)) by eauto. reflexivity.
  - assert (El : forall l a vs a1, de_elems_e (de_int_e U8) l a = inl (vs, a1) <-> yields_all (map (pair (TInt U8)) l) a vs a1).
    { intros l. apply (elems_iff n Fw Bw (TInt U8) l). split; [cbn; lia|exact I]. }
    split.
    + intros H. destruct (seq_ok y a) as [(y' & T & M & E)|(e & E & _)]; rewrite E in H; cbn [ebind] in H; [|discriminate].
      destruct (de_elems_e (de_int_e U8) (elements_of y') (entered a y')) as [[vs b]|] eqn:R; [|discriminate]. injection H as <- <-.
      apply El in R. destruct (byte_values _ _ _ _ R) as [bs ->]. rewrite bytes_back. exact (YBytes y y' a bs b T M R).
    + intros H. inversion H as [| | | | |? y' ? bs ? T M Y| | | | | | | | | | | ]; subst. rewrite (target_seq _ _ _ T M). cbn [ebind]. apply El in Y. rewrite Y. cbn [ebind].
      now rewrite bytes_back.
  - assert (Sz' : tsize t <= n) by lia. split.
    + intros H. destruct (resolved_cases y a) as [(y' & R & T)|(m & R & -> & K)]; rewrite R in H; cbn [ebind] in H; [|discriminate].
      assert (G : ~ null_node y' -> (let! (v, a1) := de_e t y' a in inl (SSome v, a1)) = inl (v, a1) -> yields (TOption t) y a v a1).
      { intros X Q. destruct (de_e t y' a) as [[w b]|] eqn:E; [|discriminate]. injection Q as <- <-. eapply YSome; eauto. }
      destruct y'; try (apply G; [intros (s1 & Q & _); discriminate|exact H]; fail). destruct (is_null_word s) eqn:B.
      * injection H as <- <-. eapply YNone; [exact T|]. exists s. split; [reflexivity|]. now apply null_iff.
      * apply G; [|exact H]. intros (s1 & Q & J). injection Q as <-. apply null_iff in J. congruence.
    + intros H. inversion H as [| | | | | |? ? y' ? T X|? ? y' ? w ? T X Y| | | | | | | | | ]; subst; rewrite (proj2 (resolved_ok _ _ _) T); cbn [ebind].
      * destruct X as (s & -> & X). apply null_iff in X. now rewrite X.
      * apply (Bw _ _ _ _ _ Sz' D) in Y. destruct y'; try (now rewrite Y). destruct (is_null_word s) eqn:B; [|now rewrite Y].
        destruct X. exists s. split; [reflexivity|]. now apply null_iff.
  - split; intros H; [injection H as <- <-; constructor|now inversion H].
  - split; intros H; [injection H as <- <-; constructor|now inversion H].
  - assert (Sz' : tsize t <= n) by lia. split.
    + intros H. destruct (de_e t y a) as [[w b]|] eqn:E; [|discriminate]. injection H as <- <-. constructor. now apply Fw.
    + intros H. inversion H as [| | | | | | | | | |? ? ? w ? Y| | | | | | ]; subst. now rewrite (Bw _ _ _ _ _ Sz' D Y).
  - assert (El := fun l => elems_iff n Fw Bw t l (conj (le_S_n _ _ Sz) D)). split.
    + intros H. destruct (seq_ok y a) as [(y' & T & M & E)|(e & E & _)]; rewrite E in H; cbn [ebind] in H; [|discriminate].
      destruct (de_elems_e (de_e t) (elements_of y') (entered a y')) as [[vs b]|] eqn:R; [|discriminate]. injection H as <- <-.
      apply El in R. exact (YSeq t y y' a vs b T M R).
    + intros H. inversion H as [| | | | | | | | | | |? ? y' ? vs ? T M Y| | | | | ]; subst. rewrite (target_seq _ _ _ T M). cbn [ebind]. apply El in Y. now rewrite Y.
  - assert (Sm : forall t, In t ts -> small n t).
    { intros t J. split; [|exact (fold_in distinct t ts D J)]. apply (sum_in tsize) in J. lia. }
    assert (Tu := tuple_iff n Fw Bw ts Sm). split.
    + intros H. destruct (seq_ok y a) as [(y' & T & M & E)|(e & E & _)]; rewrite E in H; cbn [ebind] in H; [|discriminate].
      destruct (de_tuple_e 0 (map de_e ts) (elements_of y') (entered a y')) as [[vs b]|] eqn:R; [|discriminate]. injection H as <- <-.
      apply Tu in R. destruct R as [L R]. exact (YTuple ts y y' a vs b T M L R).
    + intros H. inversion H as [| | | | | | | | | | | |? ? y' ? vs ? T M L Y| | | | ]; subst. rewrite (target_seq _ _ _ T M). cbn [ebind].
      rewrite (proj2 (Tu _ 0 _ _ _) (conj L Y)). reflexivity.
  - destruct D as [Dk Dv]. assert (En := fun l => entries_iff n Fw Bw t1 t2 l (conj (ltac:(lia) : tsize t1 <= n) Dk) (conj (ltac:(lia) : tsize t2 <= n) Dv)). split.
    + intros H. destruct (map_ok y a) as [(y' & T & M & E)|(e & E & _)]; rewrite E in H; cbn [ebind] in H; [|discriminate].
      destruct (de_entries_e (de_e t1) (de_e t2) (entries_of y') (entered a y')) as [[vs b]|] eqn:R; [|discriminate]. injection H as <- <-.
      apply En in R. exact (YMap t1 t2 y y' a vs b T M R).
    + intros H. inversion H as [| | | | | | | | | | | | |? ? ? y' ? vs ? T M Y| | | ]; subst. rewrite (target_map _ _ _ T M). cbn [ebind]. apply En in Y. now rewrite Y.
  - destruct D as [N D]. assert (Sm : forall m t, In (m, t) fs -> small n t).
    { intros m t J. split; [|exact (fold_in (fun f : str * ty => match f with (_, t) => distinct t end) (m, t) fs D J)].
      apply (sum_in (fun f : str * ty => match f with (_, t) => tsize t end)) in J. lia. }
    assert (St := struct_iff n Fw Bw fs N Sm y a). split.
    + intros H. match type of H with (let! (_, _) := ?x in _) = _ => destruct x as [[vs b]|] eqn:R; [|discriminate] end. injection H as <- <-. now apply St.
    + intros H. destruct (struct_shape _ _ _ _ _ H) as [vs ->]. apply St in H. now rewrite H.
  - destruct D as [N D].
    assert (Sub : forall m w t, finds vs m = Some (m, w) -> content_type w = Some t -> tsize t <= n /\ distinct t).
    { intros m w t F C. apply finds_key in F. destruct F as [_ F]. apply (fun D => fold_in _ _ _ D F) in D.
      match goal with _ : context [map ?f vs] |- _ => apply (sum_in f) in F end.
      destruct w as [|u|us|gs]; cbn [content_type] in C; try discriminate; injection C as <-; cbn [distinct tsize] in *; (split; [lia|exact D]). }
    split.
    + intros H. destruct (enum_cases y a) as [(m & c & b & P & E)|(e & E & _)]; rewrite E in H; cbn [ebind] in H; [|discriminate].
      assert (X : exists w, finds vs m = Some (m, w) /\
        ((w = VaUnit /\ v = SUnitV m /\ a1 = b) \/ exists t u, content_type w = Some t /\ de_e t c b = inl (u, a1) /\ as_variant m w u v)).
      { clear - H. induction vs as [|[k w] vs IHv]; cbn [map de_variant_e find fst] in *; [discriminate|]. destruct (seqb k m) eqn:Q; [|exact (IHv H)]. apply seqb_eq in Q. subst k.
        exists w. split; [reflexivity|]. destruct w as [|t|ts|fs]; cbn [content_type].
        - left. injection H as <- <-. auto.
        - right. destruct (de_e t c b) as [[u d]|] eqn:R; cbn [ebind] in H; [|discriminate]. injection H as <- <-. exists t, u. split; [reflexivity|]. split; [exact R|reflexivity].
        - right. exists (TTuple ts). cbn [de_e]. destruct (de_seq_e c b) as [[l d]|]; cbn [ebind] in *; [|discriminate].
          destruct (de_tuple_e 0 (map de_e ts) l d) as [[ws d']|]; cbn [ebind] in *; [|discriminate]. injection H as <- <-. exists (STuple ws). repeat split; reflexivity.
        - right. exists (TStruct fs). cbn [de_e]. match type of H with (let! (_, _) := ?x in _) = _ => destruct x as [[ws d']|]; cbn [ebind] in *; [|discriminate] end.
          injection H as <- <-. exists (SStruct ws). repeat split; reflexivity. }
      destruct X as (w & F & [(-> & -> & ->)|(t & u & C & R & A)]); [exact (YUnitVariant vs y a m c b P F)|].
      destruct (Sub m w t F C) as [S1 D1]. apply (Fw _ _ _ _ _ S1 D1) in R. exact (YVariant vs y a m c b w t u v a1 P F C R A).
    + intros H. inversion H as [| | | | | | | | | | | | | | |? ? ? m c ? P F|? ? ? m c b w t u ? ? P F C Y A]; subst; rewrite (picks_read _ _ _ _ _ P); cbn [ebind].
      * clear - F. induction vs as [|[k w] vs IHv]; cbn [map de_variant_e find fst] in *; [discriminate|]. destruct (seqb k m); [|exact (IHv F)]. injection F as -> ->. reflexivity.
      * destruct (Sub m w t F C) as [S1 D1]. apply (Bw _ _ _ _ _ S1 D1) in Y.
        clear - F C A Y. induction vs as [|[k w'] vs IHv]; cbn [map de_variant_e find fst] in *; [discriminate|]. destruct (seqb k m); [|exact (IHv F)]. injection F as -> ->.
        destruct w as [|t'|ts|fs]; cbn [content_type] in C; try discriminate; injection C as <-; cbn [as_variant] in A.
        -- rewrite Y. cbn [ebind]. now rewrite A.
        -- destruct u; try contradiction. subst v. cbn [de_e] in Y. destruct (de_seq_e c b) as [[es d]|]; cbn [ebind] in *; [|discriminate].
           destruct (de_tuple_e 0 (map de_e ts) es d) as [[ws d']|]; cbn [ebind] in *; [|discriminate]. now injection Y as <- <-.
        -- destruct u; try contradiction. subst v. cbn [de_e] in Y.
           match type of Y with (let! (_, _) := ?x in _) = _ => destruct x as [[ws d']|]; cbn [ebind] in *; [|discriminate] end. now injection Y as <- <-.
Qed.
Theorem de_yields t y a v a1 : distinct t -> (de t y a = Some (v, a1) <-> yields t y a v a1).
Proof. intros D. rewrite <- de_ok. exact (yields_iff (tsize t) t y a v a1 (le_n _) D). Qed.

(** Errors, with [yields] for what is read. *)
Lemma done_read l : (forall t y, In (t, y) l -> distinct t) -> forall a a1, all_done l a a1 <-> all_read l a a1.
Proof.
  unfold all_read. induction l as [|[t y] l IH]; intros D a a1.
  - split; [intros H; inversion H; subst; exists []; constructor|]. intros [vs H]. inversion H; subst. constructor.
  - assert (Dt := D t y (or_introl eq_refl)). assert (IH' := IH (fun u z I => D u z (or_intror I))). split.
    + intros H. inversion H as [|? ? ? v ? b ? R Rs]; subst. apply IH' in Rs. destruct Rs as [vs Rs]. exists (v :: vs). econstructor; [apply (de_yields t y a v b Dt); exact R|exact Rs].
    + intros [vs H]. inversion H as [|? ? ? v ws ? b ? R Rs]; subst. econstructor; [apply (de_yields t y a v b Dt); exact R|]. apply IH'. eauto.
Qed.
Lemma tuple_in ts (l : list yaml) : fold_right (fun t P => distinct t /\ P) True ts -> forall t y, In (t, y) (combine ts l) -> distinct t.
Proof. intros D t y I. apply in_combine_l in I. exact (fold_in distinct t ts D I). Qed.
Lemma known_in fs es : distinct (TStruct fs) -> forall t y, In (t, y) (map snd (known fs es)) -> distinct t.
Proof.
  intros [_ D] t y I. apply in_map_iff in I. destruct I as ([m [u z]] & Q & I). cbn in Q. injection Q as -> ->.
  unfold known in I. apply in_flat_map in I. destruct I as ([k z] & _ & I). cbn [fst snd] in I. destruct (finds fs k) as [[m' u']|] eqn:F; [|contradiction].
  destruct I as [I|[]]. injection I as -> -> ->. apply finds_key in F. destruct F as [-> F].
  exact (fold_in (fun f : str * ty => match f with (_, t) => distinct t end) (k, t) fs D F).
Qed.
Section Swap.
  Context (R1 R2 : list (ty * yaml) -> anchors -> anchors -> Prop)
          (E : forall l, (forall t y, In (t, y) l -> distinct t) -> forall a a1, R1 l a a1 -> R2 l a a1).
  Lemma complaint_swap t y a e : distinct t -> Spec_Err.complaint R1 t y a e -> Spec_Err.complaint R2 t y a e.
  Proof.
    intros D C. destruct C; try (econstructor; eassumption).
    - eapply CLength; eauto. apply E; [now apply tuple_in|eassumption].
    - eapply CDuplicate; eauto. apply E; [now apply known_in|eassumption].
    - eapply CMissing; eauto. apply E; [now apply known_in|eassumption].
  Qed.
  Lemma first_swap t y a e : Spec_Err.first_wrong R1 t y a e -> distinct t -> Spec_Err.first_wrong R2 t y a e.
  Proof.
    induction 1 as [t y a e C|t y a l1 t1 y1 l2 a0 a1 e A R W IH]; intros D; [apply Here; now apply complaint_swap|].
    assert (Sub := fun t1 y1 K => proj1 (asks_sub _ _ _ _ _ t1 y1 A K D)). eapply Inside; [exact A| |apply IH; apply (Sub t1 y1); apply in_app_iff; right; now left].
    apply E; [|exact R]. intros u z I. apply (Sub u z). apply in_app_iff. now left.
  Qed.
End Swap.
Theorem complaint_iff t y a e : distinct t -> (de_e t y a = inr e <-> first_complaint t y a e).
Proof.
  intros D. rewrite (first_iff t y a e D). unfold first_complaint. split; intros H; (eapply first_swap; [|exact H|exact D]); intros l Dl b b1 R; now apply (done_read l Dl).
Qed.
Lemma complaint_one t y : distinct t ->
  ((from_yaml t y = None <-> exists e, first_complaint t y [] e) /\
   forall e f, first_complaint t y [] e -> first_complaint t y [] f -> e = f).
Proof.
  intros D. split.
  - rewrite <- from_erase. split.
    + intros H. destruct (from_yaml_e t y) as [v|e] eqn:E; [discriminate|]. exists e. apply (complaint_iff t y [] e D). now apply from_err.
    + intros [e H]. apply (complaint_iff t y [] e D) in H. apply from_err in H. now rewrite H.
  - intros e f H G. apply (complaint_iff t y [] _ D) in H, G. congruence.
Qed.
Lemma from_yields t y v : distinct t -> (from_yaml t y = Some v <-> exists a, yields t y [] v a).
Proof.
  intros D. unfold from_yaml. split.
  - intros H. destruct (de t y []) as [[w a]|] eqn:E; [|discriminate]. injection H as <-. exists a. apply (de_yields t y [] w a D). exact E.
  - intros [a H]. apply de_yields in H; [|exact D]. now rewrite H.
Qed.
Lemma yields_one t y a v a1 w b1 : distinct t -> yields t y a v a1 -> yields t y a w b1 -> v = w /\ a1 = b1.
Proof. intros D H G. apply de_yields in H, G; try exact D. rewrite H in G. injection G as <- <-. now split. Qed.
Lemma file_yields ut t s d cs y rest : parse_yaml ut s = CVal d -> items d = map DComment cs ++ DYaml y :: rest -> distinct t ->
  forall v, from_yaml_str ut t s = CVal v <-> exists a, yields t y [] v a.
Proof.
  intros P E D v. unfold from_yaml_str. rewrite P, E, first_yaml_comments, <- (from_yields t y v D).
  destruct (from_yaml t y); split; intros H; try discriminate; injection H as ->; reflexivity.
Qed.

Lemma complaint_says debug t y a e : Spec_Err.complaint all_read t y a (Own e) -> says debug t y a (own_text debug e).
Proof.
  intros C. inversion C; subst; cbn [own_text]; try (econstructor; eassumption).
  eapply SayEnum; [eassumption|].
  match goal with H : is_seq _ \/ _ |- _ => destruct H as [H|H] end; intros M; destruct y'; cbn in *; try contradiction; discriminate.
Qed.
