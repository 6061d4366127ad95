(** Undefined references. *)
From Coq Require Import ZArith Lia.
From Verif Require Import Base Ast Strings Format Num Pretty Ser De DeErr Spec_Pretty Spec_Serde Spec_Look Spec_Typed Spec_Refs Spec_Reads Spec_Err LookFacts TypedFacts SerdeFacts2 RefsFacts2 ErrFacts ErrFacts2 ErrFacts3 ErrFacts4.
Import ListNotations.

(** Where the labels after reading come from. *)
Definition reads t (y : yaml) (a a1 : anchors) : Prop :=
  a1 = a \/ (exists l a0, asks t y a l a0 /\ all_done l a0 a1) \/
  (exists y', target a y y' /\ is_map y' /\ a1 = entered a y').
Lemma elems_read t l : forall a vs a1, de_elems_e (de_e t) l a = inl (vs, a1) -> all_done (map (pair t) l) a a1.
Proof.
  induction l as [|y l IH]; intros a vs a1 H; cbn [de_elems_e] in H; [injection H as <- <-; constructor|].
  destruct (de_e t y a) as [[v b]|] eqn:D; [|discriminate]. cbn [ebind] in H. destruct (de_elems_e (de_e t) l b) as [[ws c]|] eqn:R; [|discriminate].
  injection H as <- <-. cbn [map]. eapply read_cons; eauto.
Qed.
Lemma tuple_read ts : forall l i a vs a1, de_tuple_e i (map de_e ts) l a = inl (vs, a1) -> all_done (combine ts l) a a1.
Proof.
  induction ts as [|t ts IH]; intros l i a vs a1 H; cbn [de_tuple_e map combine] in *; [injection H as <- <-; constructor|].
  destruct l as [|y l]; [discriminate|].
  destruct (de_e t y a) as [[v b]|] eqn:D; [|discriminate]. cbn [ebind] in H. destruct (de_tuple_e (S i) (map de_e ts) l b) as [[ws c]|] eqn:R; [|discriminate].
  injection H as <- <-. eapply read_cons; eauto.
Qed.
Lemma entries_read k v l : forall a vs a1, de_entries_e (de_e k) (de_e v) l a = inl (vs, a1) ->
  all_done (flat_map (fun e => [(k, Unquoted (fst e)); (v, snd e)]) l) a a1.
Proof.
  induction l as [|[n y] l IH]; intros a vs a1 H; cbn [de_entries_e flat_map app fst snd] in *; [injection H as <- <-; constructor|].
  destruct (de_e k (Unquoted n) a) as [[x b]|] eqn:D; [|discriminate]. cbn [ebind] in H. destruct (de_e v y b) as [[w c]|] eqn:D2; [|discriminate]. cbn [ebind] in H.
  destruct (de_entries_e (de_e k) (de_e v) l c) as [[ws d]|] eqn:R; [|discriminate].
  injection H as <- <-. eapply read_cons; [exact D|]. eapply read_cons; [exact D2|]. eauto.
Qed.
Lemma struct_read fs y a vs a1 : NoDup (map fst fs) ->
  de_struct_e (map (fun nt => match nt with (n, t) => mkEF n (de_e t) (is_option t) None end) fs) y a = inl (vs, a1) -> reads (TStruct fs) y a a1.
Proof.
  intros N H. unfold de_struct_e in H. destruct (map_ok y a) as [(y' & T & M & E)|(e & E & _)]; rewrite E in H; [|discriminate]. cbn [ebind] in H.
  destruct (fields_total fs N (entries_of y') [] _ (entered a y') (state_start fs)) as [(efs' & b & R & U & _ & Al)|(e & ? & ? & ? & ? & ? & ? & R & _)]; rewrite R in H; [|discriminate].
  cbn [ebind] in H. destruct (field_values_e efs'); [|discriminate]. injection H as <- <-. right. left. eexists _, _. split; [|exact Al].
  apply (AskStruct fs y y' a (entries_of y') []); auto. now rewrite app_nil_r.
Qed.
Lemma picks_target y a n c a1 : picks a y n c a1 -> a1 = a \/ exists y', target a y y' /\ is_map y' /\ a1 = entered a y'.
Proof. intros (y' & T & [(_ & _ & ->)|(M & _ & ->)]); [now left|right; eauto]. Qed.
Lemma level_read t y a v a1 : distinct t -> de_e t y a = inl (v, a1) -> reads t y a a1.
Proof.
  intros Dt H.
  assert (Sc : forall A (x : eres A) (f : A -> sval), (let! z := x in inl (f z, a)) = inl (v, a1) -> a1 = a) by (intros A [z|] f E; cbn [ebind] in E; [congruence|discriminate]).
  destruct t; cbn [de_e] in H.
  - left. unfold de_bool_e in H. destruct (resolved_e y a) as [[]|]; cbn [ebind] in H; try discriminate. destruct (one_of _ s); [congruence|]. destruct (one_of _ s); congruence.
  - left. unfold de_int_e, de_int_with in H. destruct k; try discriminate; (destruct (resolved_e y a) as [w|]; [|discriminate]); cbn [ebind] in H; (destruct (yaml_to_string w) as [s|]; [|discriminate]);
      match type of H with context [match ?p s with _ => _ end] => destruct (p s) as [z|]; [|discriminate] end; destruct (in_kind _ z); congruence.
  - left. unfold de_float_e in H. destruct (resolved_e y a) as [w|]; cbn [ebind] in H; [|discriminate]. destruct (yaml_to_string w) as [s|]; [|discriminate]. destruct (parse_f64_ok s); congruence.
  - left. destruct (de_text_e y a) as [[|c [|d s]]|]; cbn [ebind] in H; congruence.
  - left. destruct (de_text_e y a) as [s|]; cbn [ebind] in H; congruence.
  - destruct (seq_ok y a) as [(y' & T & M & E)|(e & E & _)]; rewrite E in H; cbn [ebind] in H; [|discriminate].
    destruct (de_elems_e (de_int_e U8) (elements_of y') (entered a y')) as [[vs b]|] eqn:R; [|discriminate]. injection H as <- <-.
    right. left. eexists _, _. split; [exact (AskBytes y y' a T M)|]. exact (elems_read (TInt U8) _ _ _ _ R).
  - destruct (resolved_cases y a) as [(y' & R & T)|(n & R & -> & K)]; rewrite R in H; cbn [ebind] in H; [|discriminate].
    assert (X : a1 = a \/ (~ null_node y' /\ exists w, de_e t y' a = inl (w, a1))).
    { assert (G : (let! (v, a1) := de_e t y' a in inl (SSome v, a1)) = inl (v, a1) -> exists w, de_e t y' a = inl (w, a1))
        by (destruct (de_e t y' a) as [[w b]|]; cbn [ebind]; intros Q; [injection Q as <- <-; eauto|discriminate]).
      destruct y'; try (right; split; [intros (s1 & Q & _); discriminate|now apply G]; fail). destruct (is_null_word s) eqn:B; [left; congruence|]. right. split; [|now apply G].
      intros (s1 & Q & I). injection Q as <-. apply null_iff in I. congruence. }
    destruct X as [->|[X [w D]]]; [now left|]. right. left. eexists _, _. split; [exact (AskSome t y y' a T X)|]. exact (read_one _ _ _ _ _ D).
  - left. congruence.
  - left. congruence.
  - destruct (de_e t y a) as [[w b]|] eqn:D; [|discriminate]. injection H as <- <-. right. left. eexists _, _. split; [apply AskNew|]. exact (read_one _ _ _ _ _ D).
  - destruct (seq_ok y a) as [(y' & T & M & E)|(e & E & _)]; rewrite E in H; cbn [ebind] in H; [|discriminate].
    destruct (de_elems_e (de_e t) (elements_of y') (entered a y')) as [[vs b]|] eqn:R; [|discriminate]. injection H as <- <-.
    right. left. eexists _, _. split; [exact (AskSeq t y y' a T M)|]. exact (elems_read t _ _ _ _ R).
  - destruct (seq_ok y a) as [(y' & T & M & E)|(e & E & _)]; rewrite E in H; cbn [ebind] in H; [|discriminate].
    destruct (de_tuple_e 0 (map de_e ts) (elements_of y') (entered a y')) as [[vs b]|] eqn:R; [|discriminate]. injection H as <- <-.
    right. left. eexists _, _. split; [exact (AskTuple ts y y' a T M)|]. exact (tuple_read ts _ _ _ _ _ R).
  - destruct (map_ok y a) as [(y' & T & M & E)|(e & E & _)]; rewrite E in H; cbn [ebind] in H; [|discriminate].
    destruct (de_entries_e (de_e t1) (de_e t2) (entries_of y') (entered a y')) as [[vs b]|] eqn:R; [|discriminate]. injection H as <- <-.
    right. left. eexists _, _. split; [exact (AskMap t1 t2 y y' a T M)|]. exact (entries_read t1 t2 _ _ _ _ R).
  - destruct Dt as [N _]. match type of H with (let! (_, _) := ?x in _) = _ => destruct x as [[vs b]|] eqn:R; [|discriminate] end. injection H as <- <-. exact (struct_read fs y a vs b N R).
  - destruct (enum_cases y a) as [(n & c & b & P & E)|(e & E & _)]; rewrite E in H; cbn [ebind] in H; [|discriminate].
    assert (X : a1 = b \/ exists w t, finds vs n = Some (n, w) /\ content_type w = Some t /\ exists u, de_e t c b = inl (u, a1)).
    { clear - H. induction vs as [|[m w] vs IH]; cbn [map de_variant_e find fst] in *; [discriminate|]. destruct (seqb m n) eqn:Q; [|exact (IH H)]. apply seqb_eq in Q. subst m.
      destruct w as [|t|ts|fs]; cbn [content_type].
      - left. congruence.
      - right. exists (VaNew t), t. split; [reflexivity|]. split; [reflexivity|]. destruct (de_e t c b) as [[u d]|]; cbn [ebind] in H; [injection H as <- <-; eauto|discriminate].
      - right. exists (VaTup ts), (TTuple ts). split; [reflexivity|]. split; [reflexivity|]. cbn [de_e]. destruct (de_seq_e c b) as [[l d]|]; cbn [ebind] in *; [|discriminate].
        destruct (de_tuple_e 0 (map de_e ts) l d) as [[ws d']|]; cbn [ebind] in *; [injection H as <- <-; eauto|discriminate].
      - right. exists (VaStruct fs), (TStruct fs). split; [reflexivity|]. split; [reflexivity|]. cbn [de_e].
        match type of H with (let! (_, _) := ?x in _) = _ => destruct x as [[ws d']|]; cbn [ebind] in *; [injection H as <- <-; eauto|discriminate] end. }
    destruct X as [->|(w & t & F & C & u & D)].
    + destruct (picks_target _ _ _ _ _ P) as [->|X]; [now left|right; now right].
    + right. left. eexists _, _. split; [exact (AskEnum vs y a n c b w t P F C)|]. exact (read_one _ _ _ _ _ D).
Qed.

(** A property of nodes under known labels. *)
Section Good.
  Context (G : (str -> Prop) -> yaml -> Prop)
    (G_mono : forall N N' : str -> Prop, (forall n, N n -> N' n) -> forall y, G N y -> G N' y)
    (G_child : forall N y e, is_ref y = false -> G N y -> In e (children y) ->
       G (fun m => N m \/ exists e', In e' (children y) /\ a_alias e' = Some m) (a_value e))
    (G_word : forall N s, G N (Unquoted s)).
  Definition nm (a : anchors) : str -> Prop := fun n => In n (map fst a).
  Definition inv (a : anchors) : Prop := forall n y, In (n, y) a -> G (nm a) y.
  Definition grows (a b : anchors) : Prop := inv b /\ forall n, nm a n -> nm b n.

  Lemma entered_names a y n : nm (entered a y) n <-> nm a n \/ exists e, In e (children y) /\ a_alias e = Some n.
  Proof.
    unfold nm, entered. rewrite map_app, in_app_iff, map_rev, <- in_rev. unfold labels_of.
    assert (X : In n (map fst (flat_map (fun e => match a_alias e with Some n => [(n, a_value e)] | None => [] end) (children y))) <->
                exists e, In e (children y) /\ a_alias e = Some n).
    { rewrite in_map_iff. split.
      - intros ([m v] & E & I). cbn in E. subst m. apply in_flat_map in I. destruct I as (e & I & J). exists e. split; [exact I|]. destruct (a_alias e); [|contradiction].
        destruct J as [J|[]]. congruence.
      - intros (e & I & E). exists (n, a_value e). split; [reflexivity|]. apply in_flat_map. exists e. split; [exact I|]. rewrite E. now left. }
    rewrite X. tauto.
  Qed.
  Lemma entered_values a y n v : In (n, v) (entered a y) -> In (n, v) a \/ exists e, In e (children y) /\ a_value e = v.
  Proof.
    unfold entered, labels_of. rewrite in_app_iff, <- in_rev. intros [I|I]; [right|now left]. apply in_flat_map in I. destruct I as (e & I & J).
    exists e. split; [exact I|]. destruct (a_alias e); [|contradiction]. destruct J as [J|[]]. congruence.
  Qed.
  Lemma enter a y : inv a -> G (nm a) y -> is_ref y = false -> grows a (entered a y) /\ forall e, In e (children y) -> G (nm (entered a y)) (a_value e).
  Proof.
    intros I Gy R. assert (C : forall e, In e (children y) -> G (nm (entered a y)) (a_value e)).
    { intros e K. eapply G_mono; [|exact (G_child _ _ _ R Gy K)]. intros n H. now apply entered_names. }
    split; [|exact C]. split.
    - intros n v H. apply entered_values in H. destruct H as [H|(e & H & <-)]; [|now apply C]. eapply G_mono; [|exact (I _ _ H)].
      intros m K. apply entered_names. now left.
    - intros n H. apply entered_names. now left.
  Qed.
  Lemma follow a y y' : inv a -> G (nm a) y -> target a y y' -> G (nm a) y'.
  Proof.
    intros I Gy [[_ ->]|(n & _ & (b & c & -> & _))]; [exact Gy|]. apply (I n y'). apply in_app_iff. right. now left.
  Qed.
  Lemma coll y : is_seq y \/ is_map y -> is_ref y = false.
  Proof. destruct y; cbn; tauto. Qed.
  Lemma entry_child y k v : In (k, v) (entries_of y) -> exists e, In e (children y) /\ a_value e = v.
  Proof.
    destruct y; cbn [entries_of children]; try contradiction; intros I.
    - exists (mkA None v). split; [|reflexivity]. apply in_map_iff. now exists (k, v).
    - apply in_flat_map in I. destruct I as (d & I & J). destruct d as [c|c|e]; try contradiction. destruct J as [J|[]]. injection J as _ J. exists (he_value e). split; [|exact J].
      apply in_flat_map. exists (HElem e). split; [exact I|now left].
  Qed.
  Lemma asks_good t y a l a0 : inv a -> G (nm a) y -> asks t y a l a0 ->
    grows a a0 /\ forall t1 y1, In (t1, y1) l -> G (nm a0) y1.
  Proof.
    intros I Gy A. assert (Same : grows a a) by (split; auto).
    destruct A as [t y y' a T X|t y a|y y' a T M|t y y' a T M|ts y y' a T M|k v y y' a T M|fs y y' a es rest T M E U|vs y a n c b v t P F C].
    - split; [exact Same|]. intros t1 y1 [H|[]]. injection H as <- <-. exact (follow _ _ _ I Gy T).
    - split; [exact Same|]. intros t1 y1 [H|[]]. injection H as <- <-. exact Gy.
    - destruct (enter a y' I (follow _ _ _ I Gy T) (coll y' (or_introl M))) as [W C]. split; [exact W|]. intros t1 y1 H. apply in_map_iff in H.
      destruct H as (z & H & K). injection H as <- <-. apply in_map_iff in K. destruct K as (e & <- & K). now apply C.
    - destruct (enter a y' I (follow _ _ _ I Gy T) (coll y' (or_introl M))) as [W C]. split; [exact W|]. intros t1 y1 H. apply in_map_iff in H.
      destruct H as (z & H & K). injection H as <- <-. apply in_map_iff in K. destruct K as (e & <- & K). now apply C.
    - destruct (enter a y' I (follow _ _ _ I Gy T) (coll y' (or_introl M))) as [W C]. split; [exact W|]. intros t1 y1 H. apply in_combine_r in H.
      apply in_map_iff in H. destruct H as (e & <- & K). now apply C.
    - destruct (enter a y' I (follow _ _ _ I Gy T) (coll y' (or_intror M))) as [W C]. split; [exact W|]. intros t1 y1 H. apply in_flat_map in H.
      destruct H as ([n z] & H & [K|[K|[]]]); injection K as <- <-; [apply G_word|]. cbn [snd]. destruct (entry_child _ _ _ H) as (e & K & <-). now apply C.
    - destruct (enter a y' I (follow _ _ _ I Gy T) (coll y' (or_intror M))) as [W C]. split; [exact W|]. intros t1 y1 H. apply in_map_iff in H.
      destruct H as ([m [u z]] & H & K). cbn in H. injection H as -> ->. unfold known in K. apply in_flat_map in K. destruct K as ([k z] & K & J). cbn [fst snd] in J.
      destruct (finds fs k) as [[m' u']|]; [|contradiction]. destruct J as [J|[]]. injection J as -> -> ->.
      assert (K' : In (k, y1) (entries_of y')) by (rewrite E; apply in_app_iff; now left). destruct (entry_child _ _ _ K') as (e & Q & <-). now apply C.
    - destruct P as (y' & T & [(_ & -> & ->)|(M & E & ->)]).
      + split; [exact Same|]. intros t1 y1 [H|[]]. injection H as <- <-. apply G_word.
      + destruct (enter a y' I (follow _ _ _ I Gy T) (coll y' (or_intror M))) as [W C']. split; [exact W|]. intros t1 y1 [H|[]]. injection H as <- <-.
        assert (K' : In (n, c) (entries_of y')) by (rewrite E; now left). destruct (entry_child _ _ _ K') as (e & Q & <-). now apply C'.
  Qed.
  Lemma read_good n : forall t y a v a1, tsize t <= n -> distinct t -> inv a -> G (nm a) y -> de_e t y a = inl (v, a1) -> grows a a1.
  Proof.
    induction n as [|n IH]; intros t y a v a1 Sz D I Gy H; [destruct t; cbn in Sz; lia|].
    destruct (level_read t y a v a1 D H) as [->|[(l & a0 & A & R)|(y' & T & M & ->)]].
    - split; auto.
    - destruct (asks_good _ _ _ _ _ I Gy A) as [[I0 W] C]. assert (Sub := fun t1 y1 K => asks_sub _ _ _ _ _ t1 y1 A K D).
      clear A. assert (X : grows a0 a1).
      { clear Gy W I H y v. revert a0 I0 C R. induction l as [|[t1 y1] l IHl]; intros a0 I0 C R.
        - inversion R. subst. split; auto.
        - apply read_inv in R. destruct R as (w & b & D1 & R). destruct (Sub t1 y1 (or_introl eq_refl)) as [Dt1 S1].
          assert (K : grows a0 b) by (apply (IH t1 y1 a0 w b); [lia|exact Dt1|exact I0|apply (C t1 y1); now left|exact D1]). destruct K as [Ib Wb].
          assert (K : grows b a1). { apply IHl; [intros t2 y2 J; apply (Sub t2 y2); now right|exact Ib| |exact R]. intros t2 y2 J. eapply G_mono; [exact Wb|]. apply (C t2 y2). now right. }
          destruct K as [K1 K2]. split; auto. }
      destruct X as [X1 X2]. split; auto.
    - exact (proj1 (enter a y' I (follow _ _ _ I Gy T) (coll y' (or_intror M)))).
  Qed.
  Lemma all_read_good l : forall a a1, (forall t y, In (t, y) l -> distinct t) -> (forall t y, In (t, y) l -> G (nm a) y) -> inv a -> all_done l a a1 -> grows a a1.
  Proof.
    induction l as [|[t y] l IH]; intros a a1 D C I R.
    - inversion R. subst. split; auto.
    - apply read_inv in R. destruct R as (w & b & D1 & R).
      assert (K : grows a b) by (apply (read_good (tsize t) t y a w b); [lia|apply (D t y); now left|exact I|apply (C t y); now left|exact D1]). destruct K as [Ib Wb].
      assert (K : grows b a1). { apply IH; [intros t2 y2 J; apply (D t2 y2); now right| |exact Ib|exact R]. intros t2 y2 J. eapply G_mono; [exact Wb|]. apply (C t2 y2). now right. }
      destruct K as [K1 K2]. split; auto.
  Qed.
  Lemma undefined_good t y a e : first_wrong t y a e -> distinct t -> inv a -> G (nm a) y -> forall n, e = Own (EUndefined n) ->
    exists b, G (nm b) (Anchor n) /\ ~ In n (map fst b).
  Proof.
    induction 1 as [t y a e C|t y a l1 t1 y1 l2 a0 a1 e A R W IH]; intros D I Gy n E.
    - subst e. inversion C; subst. exists a. now split.
    - destruct (asks_good _ _ _ _ _ I Gy A) as [[I0 _] C]. assert (Sub := fun t1 y1 K => asks_sub _ _ _ _ _ t1 y1 A K D).
      assert (X : grows a0 a1).
      { apply (all_read_good l1); [intros t2 y2 J; apply (Sub t2 y2); apply in_app_iff; now left| |exact I0|exact R]. intros t2 y2 J. apply (C t2 y2). apply in_app_iff. now left. }
      destruct X as [I1 W1]. apply IH; [apply (Sub t1 y1); apply in_app_iff; right; now left|exact I1| |exact E].
      eapply G_mono; [exact W1|]. apply (C t1 y1). apply in_app_iff. right. now left.
  Qed.
End Good.

Lemma from_err t y e : from_yaml_e t y = inr e <-> de_e t y [] = inr e.
Proof. unfold from_yaml_e. destruct (de_e t y []) as [[v a]|]; cbn [ebind]; split; congruence. Qed.
Lemma from_erase t y : erase (from_yaml_e t y) = from_yaml t y.
Proof. unfold from_yaml_e, from_yaml. rewrite erase_bind, de_erase. now destruct (de t y []) as [[v a]|]. Qed.

Lemma in_scope_defined t y n : distinct t -> in_scope y -> from_yaml_e t y <> inr (Own (EUndefined n)).
Proof.
  intros D S H. apply from_err in H. apply (first_iff t y [] _ D) in H.
  destruct (undefined_good scoped) with (4 := H) (5 := D) (n := n) as (b & Gb & K); auto.
  - intros N N' Q z Z. exact (scoped_mono N z Z N' Q).
  - intros N z e R Z K. inversion Z; subst; [discriminate|auto].
  - intros N s. apply ScNode; [reflexivity|]. intros e [].
  - intros m z [].
  - inversion Gb; subst; [contradiction|discriminate].
Qed.
Lemma undefined_refers t y n : distinct t -> from_yaml_e t y = inr (Own (EUndefined n)) -> refers y n.
Proof.
  intros D H. apply from_err in H. apply (first_iff t y [] _ D) in H.
  destruct (undefined_good (fun _ z => forall m, refers z m -> refers y m)) with (4 := H) (5 := D) (n := n) as (b & Gb & K); auto.
  - intros N z e R Z I m Q. apply Z. exact (RefDeep z e m I Q).
  - intros N s m Q. inversion Q as [|? e ? C]; subst. destruct C.
  - intros m z [].
  - apply Gb. constructor.
Qed.
Lemma variant_name_unused t y : distinct t -> from_yaml_e t y <> inr (Own EVariantName).
Proof.
  intros D H. apply from_err in H. apply (first_iff t y [] _ D) in H. remember (Own EVariantName) as e eqn:E. clear D.
  induction H as [t y a e C|t y a l1 t1 y1 l2 a0 a1 e A R W IH]; [|exact (IH E)]. destruct C; discriminate.
Qed.

Lemma own_text_inj debug : (forall s s', debug s = debug s' -> s = s') ->
  forall e e', own_text debug e = own_text debug e' -> e = e'.
Proof.
  intros I e e' H.
  destruct e, e'; cbn [own_text] in H;
    first [reflexivity
          | apply List.app_inv_head in H; first [f_equal; exact H | f_equal; apply I; exact H]
          | exfalso; cbv [lit List.app] in H; cbn in H; discriminate H].
Qed.
