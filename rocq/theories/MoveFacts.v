(** Facts about the two movers. *)
From Coq Require Import Sorted Permutation.
From Verif Require Import Base Ast Strings Path Insert InsertFacts Spec_Insert InsertFacts2 InsertFacts3
  InsertFacts4 InsertFacts5 Peg PathGrammar Spec_Path PathFacts Spec_Move.
Import ListNotations.

(** ---- put / drop_first against the model operations ---- *)

Lemma first_value_split k l v : first_value k l = Some v ->
  exists a b, l = a ++ HElem (mkHE k v) :: b /\ first_value k a = None.
Proof.
  induction l as [|d l IH]; [discriminate|]. destruct d as [c|c|[k' v']]; cbn [first_value].
  - intros H. destruct (IH H) as (a & b & -> & Ha). exists (HInlineC c :: a), b. auto.
  - intros H. destruct (IH H) as (a & b & -> & Ha). exists (HComment c :: a), b. auto.
  - destruct (seqb k' k) eqn:E.
    + intros H. inversion H; subst. apply seqb_eq in E. subst. exists [], l. auto.
    + intros H. destruct (IH H) as (a & b & -> & Ha). exists (HElem (mkHE k' v') :: a), b.
      split; [reflexivity|]. cbn. now rewrite E.
Qed.

Lemma put_mid k v a v' b : first_value k a = None ->
  put k v (a ++ HElem (mkHE k v') :: b) = a ++ HElem (mkHE k v) :: b.
Proof.
  induction a as [|d a IH]; intros H; cbn [app put].
  - now rewrite seqb_refl.
  - destruct d as [c|c|[k2 v2]]; cbn [first_value put] in *; try (now rewrite IH).
    destruct (seqb k2 k); [discriminate|]. now rewrite IH.
Qed.
Lemma put_absent k v a : first_value k a = None -> put k v a = a ++ [HElem (mkHE k v)].
Proof.
  induction a as [|d a IH]; intros H; cbn [app put]; [reflexivity|].
  destruct d as [c|c|[k2 v2]]; cbn [first_value put] in *; try (now rewrite IH).
  destruct (seqb k2 k); [discriminate|]. now rewrite IH.
Qed.
Lemma drop_mid k a v b : first_value k a = None -> drop_first k (a ++ HElem (mkHE k v) :: b) = a ++ b.
Proof.
  induction a as [|d a IH]; intros H; cbn [app drop_first].
  - now rewrite seqb_refl.
  - destruct d as [c|c|[k2 v2]]; cbn [first_value drop_first] in *; try (now rewrite IH).
    destruct (seqb k2 k); [discriminate|]. now rewrite IH.
Qed.
Lemma drop_absent k a : first_value k a = None -> drop_first k a = a.
Proof.
  induction a as [|d a IH]; intros H; cbn [drop_first]; [reflexivity|].
  destruct d as [c|c|[k2 v2]]; cbn [first_value drop_first] in *; try (now rewrite IH).
  destruct (seqb k2 k); [discriminate|]. now rewrite IH.
Qed.

Lemma insert_put k h l : snd (insert_into_hash (PKey k [] None) h true (Hash l)) = Hash (put k h l).
Proof.
  destruct (first_value k l) as [v|] eqn:E.
  - apply first_value_split in E as (a & b & -> & Ha). rewrite overwrite_in_place, put_mid; auto.
  - rewrite insert_absent, put_absent; auto.
Qed.
Lemma remove_drop k l : snd (remove_from_hash (PKey k [] None) (Hash l)) = Hash (drop_first k l).
Proof.
  destruct (first_value k l) as [v|] eqn:E.
  - apply first_value_split in E as (a & b & -> & Ha). rewrite remove_first, drop_mid; auto.
  - rewrite remove_absent, drop_absent; auto.
Qed.

Lemma set_key_put l k v : key_value_l l k <> None -> set_key_value l k v = put k v l.
Proof.
  rewrite first_value_key_value. induction l as [|d l IH]; intros H; cbn; [now cbn in H|].
  destruct d as [c|c|[k2 v2]]; cbn [first_value] in H; try (now rewrite IH).
  cbn. destruct (seqb k2 k) eqn:E; [apply seqb_eq in E; now subst|]. now rewrite IH.
Qed.

Lemma fields_chosen l names : fields_of l names = chosen names l.
Proof. unfold fields_of, chosen. apply flat_map_ext. intros k. now rewrite first_value_key_value. Qed.

(** ---- lookups after put / drop ---- *)

Lemma first_values k l : first_value k l = head (values k l).
Proof.
  induction l as [|d l IH]; [reflexivity|]. destruct d as [c|c|[k2 v2]]; cbn [first_value values flat_map]; try exact IH.
  destruct (seqb k2 k); [reflexivity|exact IH].
Qed.
Lemma values_app k a b : values k (a ++ b) = values k a ++ values k b.
Proof. apply flat_map_app. Qed.
Lemma values_none k a : first_value k a = None -> values k a = [].
Proof. rewrite first_values. destruct (values k a); [reflexivity|discriminate]. Qed.
Lemma values_cons_elem k k' v l : values k (HElem (mkHE k' v) :: l) = (if seqb k' k then [v] else []) ++ values k l.
Proof. reflexivity. Qed.

Lemma values_put k k' v l : values k (put k' v l) =
  if seqb k' k then v :: tl (values k l) else values k l.
Proof.
  destruct (first_value k' l) as [v'|] eqn:E.
  - apply first_value_split in E as (a & b & -> & Ha). rewrite put_mid by exact Ha.
    rewrite !values_app, !values_cons_elem. destruct (seqb k' k) eqn:Ek; [|reflexivity].
    apply seqb_eq in Ek. subst k'. rewrite (values_none _ _ Ha). reflexivity.
  - rewrite put_absent by exact E. rewrite values_app, values_cons_elem. cbn [values flat_map app].
    destruct (seqb k' k) eqn:Ek; cbn; [|now rewrite app_nil_r].
    apply seqb_eq in Ek. subst k'. now rewrite (values_none _ _ E).
Qed.
Lemma values_drop k k' l : values k (drop_first k' l) =
  if seqb k' k then tl (values k l) else values k l.
Proof.
  destruct (first_value k' l) as [v'|] eqn:E.
  - apply first_value_split in E as (a & b & -> & Ha). rewrite drop_mid by exact Ha.
    rewrite !values_app, !values_cons_elem. destruct (seqb k' k) eqn:Ek; [|reflexivity].
    apply seqb_eq in Ek. subst k'. rewrite (values_none _ _ Ha). reflexivity.
  - rewrite drop_absent by exact E. destruct (seqb k' k) eqn:Ek; [|reflexivity].
    apply seqb_eq in Ek. subst k'. now rewrite (values_none _ _ E).
Qed.

Lemma comments_put k v l : filter is_comment (put k v l) = filter is_comment l.
Proof.
  induction l as [|d l IH]; [reflexivity|]. destruct d as [c|c|[k2 v2]]; cbn; try (now rewrite IH).
  destruct (seqb k2 k); cbn; auto.
Qed.
Lemma comments_drop k l : filter is_comment (drop_first k l) = filter is_comment l.
Proof.
  induction l as [|d l IH]; [reflexivity|]. destruct d as [c|c|[k2 v2]]; cbn; try (now rewrite IH).
  destruct (seqb k2 k); cbn; auto.
Qed.
Lemma comments_drop_all names : forall l, filter is_comment (drop_all names l) = filter is_comment l.
Proof.
  induction names as [|n names IH]; intros l; [reflexivity|]. cbn [drop_all fold_left].
  fold (drop_all names (drop_first n l)). now rewrite IH, comments_drop.
Qed.

Lemma values_drop_all names k : NoDup names -> forall l, values k (drop_all names l) =
  if existsb (seqb k) names then tl (values k l) else values k l.
Proof.
  induction 1 as [|n names Hn Hd IH]; intros l; [reflexivity|].
  cbn [drop_all fold_left existsb]. fold (drop_all names (drop_first n l)).
  rewrite IH, values_drop, (seqb_sym k n). destruct (seqb n k) eqn:E; cbn [orb]; [|reflexivity].
  apply seqb_eq in E. subst n.
  destruct (existsb (seqb k) names) eqn:Ex; [|reflexivity]. exfalso.
  apply existsb_exists in Ex as (x & Hx & E). apply seqb_eq in E. now subst.
Qed.
Lemma values_drop_all_other names k l : ~ In k names -> values k (drop_all names l) = values k l.
Proof.
  revert l. induction names as [|n names IH]; intros l H; [reflexivity|].
  cbn [drop_all fold_left]. fold (drop_all names (drop_first n l)).
  rewrite IH, values_drop by (intros X; apply H; now right).
  destruct (seqb n k) eqn:E; [|reflexivity]. apply seqb_eq in E. subst. exfalso. apply H. now left.
Qed.

(** ---- move_to_subfield ---- *)

Definition plain_names (names : list str) : Prop := Forall (plain (lit "[].|")) names.

Lemma chosen_in names l k v : In (k, v) (chosen names l) <-> In k names /\ first_value k l = Some v.
Proof.
  unfold chosen. rewrite in_flat_map. split.
  - intros (n & Hn & H). destruct (first_value n l) eqn:E; [|contradiction].
    destruct H as [H|[]]. inversion H; subst. auto.
  - intros [Hn E]. exists k. split; [exact Hn|]. rewrite E. now left.
Qed.

Lemma chosen_plain names l : plain_names names -> Forall (fun f => plain (lit "[].|") (fst f)) (chosen names l).
Proof.
  intros H. apply Forall_forall. intros [k v] Hf. apply chosen_in in Hf as [Hk _].
  unfold plain_names in H. rewrite Forall_forall in H. now apply H.
Qed.

Lemma insert_fields_put al fields : Forall (fun f => plain (lit "[].|") (fst f)) fields -> forall l,
  insert_fields parse_path fields (mkA al (Hash l)) = Some (mkA al (Hash (put_all fields l))).
Proof.
  induction 1 as [|[k v] fields Hk _ IH]; intros l; [reflexivity|].
  cbn [insert_fields]. cbn in Hk. rewrite (parse_single k Hk). cbn [a_alias a_value].
  rewrite insert_put. apply IH.
Qed.

Lemma remove_fields_drop fields : Forall (fun f => plain (lit "[].|") (fst f)) fields -> forall l,
  remove_fields parse_path fields (Hash l) = Some (Hash (drop_all (map fst fields) l)).
Proof.
  induction 1 as [|[k v] fields Hk _ IH]; intros l; [reflexivity|].
  cbn [remove_fields]. cbn in Hk. rewrite (parse_single k Hk), remove_drop. apply IH.
Qed.

(** Dropping only the chosen fields is dropping all names. *)
Lemma drop_chosen names l : forall m, (forall k, first_value k l = None -> first_value k m = None) ->
  drop_all (map fst (chosen names l)) m = drop_all names m.
Proof.
  induction names as [|n names IH]; intros m H; [reflexivity|].
  unfold chosen in *. cbn [flat_map]. rewrite map_app. unfold drop_all at 1. rewrite fold_left_app.
  cbn [drop_all fold_left]. fold (drop_all names (drop_first n m)).
  destruct (first_value n l) eqn:E.
  - cbn [map fold_left fst]. apply IH. intros k Hk. specialize (H k Hk).
    rewrite first_values, values_drop, (values_none _ _ H). now destruct (seqb n k).
  - cbn [map fold_left]. rewrite (drop_absent n m (H n E)). apply IH, H.
Qed.

Lemma move_nothing sub names l : chosen names l = [] ->
  move_to_subfield parse_path (PRoot []) sub names (Hash l) = (Some 0, Hash l).
Proof. intros H. unfold move_to_subfield. cbn [for_hash fits_conditions forallb mts_r]. rewrite fields_chosen, H. reflexivity. Qed.

Lemma drop_all_app_none names : forall l m, (forall k, In k names -> first_value k m = None) ->
  drop_all names (l ++ m) = drop_all names l ++ m.
Proof.
  induction names as [|n names IH]; intros l m H; [reflexivity|].
  cbn [drop_all fold_left]. fold (drop_all names (drop_first n (l ++ m))). fold (drop_all names (drop_first n l)).
  assert (Hn : first_value n m = None) by (apply H; now left).
  assert (E : drop_first n (l ++ m) = drop_first n l ++ m).
  { destruct (first_value n l) as [v|] eqn:E.
    - apply first_value_split in E as (a & b & -> & Ha). rewrite <- app_assoc. cbn [app].
      rewrite !drop_mid by exact Ha. now rewrite app_assoc.
    - rewrite (drop_absent n l E). apply drop_absent. now rewrite first_value_app_none. }
  rewrite E. apply IH. intros k Hk. apply H. now right.
Qed.

Lemma move_new sub names l : plain (lit "[].|") sub -> plain_names names ->
  first_value sub l = None -> chosen names l <> [] ->
  move_to_subfield parse_path (PRoot []) sub names (Hash l)
  = (Some 1, Hash (drop_all names l ++ [HElem (mkHE sub (mkA None (Hash (map entry_of (chosen names l)))))])).
Proof.
  intros Hs Hn Hsub Hc. unfold move_to_subfield. cbn [for_hash fits_conditions forallb mts_r].
  rewrite fields_chosen, first_value_key_value, Hsub, (parse_single sub Hs).
  destruct (is_nil (chosen names l)) eqn:E; [destruct (chosen names l); [contradiction|discriminate]|].
  rewrite insert_absent by exact Hsub. cbn [snd].
  rewrite (remove_fields_drop _ (chosen_plain names l Hn)).
  rewrite drop_all_app_none.
  - rewrite drop_chosen by auto. reflexivity.
  - intros k Hk. apply in_map_iff in Hk as ([k' v] & <- & Hk). apply chosen_in in Hk as [_ Hk]. cbn [fst].
    cbn [first_value]. destruct (seqb sub k') eqn:E2; [|reflexivity]. apply seqb_eq in E2. congruence.
Qed.

Lemma move_into sub names l al old : plain (lit "[].|") sub -> plain_names names ->
  first_value sub l = Some (mkA al (Hash old)) -> chosen names l <> [] ->
  move_to_subfield parse_path (PRoot []) sub names (Hash l)
  = (Some 1, Hash (drop_all names (put sub (mkA al (Hash (put_all (chosen names l) old))) l))).
Proof.
  intros Hs Hn Hsub Hc. unfold move_to_subfield. cbn [for_hash fits_conditions forallb mts_r].
  rewrite fields_chosen, first_value_key_value, Hsub.
  destruct (is_nil (chosen names l)) eqn:E; [destruct (chosen names l); [contradiction|discriminate]|].
  rewrite (insert_fields_put al _ (chosen_plain names l Hn)).
  rewrite set_key_put by (rewrite first_value_key_value, Hsub; discriminate).
  rewrite (remove_fields_drop _ (chosen_plain names l Hn)).
  rewrite drop_chosen; [reflexivity|]. intros k Hk. rewrite first_values, values_put.
  destruct (seqb sub k) eqn:E2; [apply seqb_eq in E2; congruence|]. now rewrite <- first_values.
Qed.

Lemma values_put_all_other fields k : (forall v, ~ In (k, v) fields) -> forall l,
  values k (put_all fields l) = values k l.
Proof.
  induction fields as [|[k' v'] fields IH]; intros H l; [reflexivity|].
  cbn [put_all fold_left fst snd]. fold (put_all fields (put k' v' l)). rewrite IH, values_put.
  - destruct (seqb k' k) eqn:E; [|reflexivity]. apply seqb_eq in E. subst. exfalso. apply (H v'). now left.
  - intros v X. apply (H v). now right.
Qed.

Lemma first_put_all fields k v : (forall v', In (k, v') fields -> v' = v) -> forall l,
  (In (k, v) fields \/ first_value k l = Some v) -> first_value k (put_all fields l) = Some v.
Proof.
  induction fields as [|[k' v'] fields IH]; intros Hu l H; cbn [put_all fold_left fst snd].
  - destruct H as [[]|H]; exact H.
  - fold (put_all fields (put k' v' l)). apply IH.
    + intros w Hw. apply Hu. now right.
    + destruct (seqb k' k) eqn:E.
      * right. apply seqb_eq in E. subst k'. rewrite first_values, values_put, seqb_refl. cbn.
        f_equal. apply Hu. now left.
      * destruct H as [[H|H]|H]; [inversion H; subst; rewrite seqb_refl in E; discriminate|now left|].
        right. rewrite first_values, values_put, E, <- first_values. exact H.
Qed.

Lemma in_names_b k names : existsb (seqb k) names = true <-> In k names.
Proof.
  rewrite existsb_exists. split.
  - intros (x & Hx & E). apply seqb_eq in E. now subst.
  - intros H. exists k. split; [exact H|apply seqb_refl].
Qed.

Lemma move_conserves sub names l : plain (lit "[].|") sub -> plain_names names -> NoDup names -> ~ In sub names ->
  chosen names l <> [] ->
  (first_value sub l = None \/ exists al old, first_value sub l = Some (mkA al (Hash old))) ->
  exists after, move_to_subfield parse_path (PRoot []) sub names (Hash l) = (Some 1, Hash after) /\
    moved_under sub names l after.
Proof.
  intros Hs Hn Hd Hni Hc [Hsub|(al & old & Hsub)].
  - eexists. split; [now apply move_new|]. unfold moved_under.
    assert (HS : values sub (drop_all names l) = []).
    { rewrite values_drop_all_other by exact Hni. now apply values_none. }
    repeat split.
    + rewrite filter_app, comments_drop_all. cbn. apply app_nil_r.
    + intros k Hk. rewrite values_app, values_cons_elem, (values_drop_all names k Hd).
      cbn [values flat_map app]. destruct (seqb sub k) eqn:E; [apply seqb_eq in E; congruence|]. apply app_nil_r.
    + exists None, (map entry_of (chosen names l)).
      rewrite first_values, !values_app, HS, values_cons_elem, seqb_refl. cbn [app head tl values flat_map].
      split; [reflexivity|]. split; [now rewrite (values_none _ _ Hsub)|]. split.
      * intros k Hk Hf. destruct (first_value k l) as [v|] eqn:Ev; [|congruence].
        assert (A : forall fs, (forall v', In (k, v') fs -> v' = v) -> In (k, v) fs ->
                    first_value k (map entry_of fs) = Some v).
        { induction fs as [|[k' v'] fs IH]; intros Hu Hi; [destruct Hi|].
          unfold entry_of. cbn [map first_value fst snd]. destruct (seqb k' k) eqn:E.
          - apply seqb_eq in E. subst. f_equal. apply Hu. now left.
          - destruct Hi as [Hi|Hi]; [inversion Hi; subst; rewrite seqb_refl in E; discriminate|].
            apply IH; [|exact Hi]. intros w Hw. apply Hu. now right. }
        apply A; [|apply chosen_in; auto]. intros v' Hv'. apply chosen_in in Hv' as [_ Hv']. congruence.
      * intros k Hk. rewrite Hsub. apply values_none.
        assert (A : forall fs, (forall v', ~ In (k, v') fs) -> first_value k (map entry_of fs) = None).
        { induction fs as [|[k' v'] fs IH]; intros Hu; [reflexivity|].
          unfold entry_of. cbn [map first_value fst snd]. destruct (seqb k' k) eqn:E.
          - apply seqb_eq in E. subst. exfalso. apply (Hu v'). now left.
          - apply IH. intros w Hw. apply (Hu w). now right. }
        apply A. intros v' Hv'. apply chosen_in in Hv' as [H1 H2]. destruct Hk; [contradiction|congruence].
  - eexists. split; [now apply (move_into sub names l al old)|]. unfold moved_under. repeat split.
    + now rewrite comments_drop_all, comments_put.
    + intros k Hk. rewrite (values_drop_all names k Hd), values_put.
      destruct (seqb sub k) eqn:E; [apply seqb_eq in E; congruence|]. reflexivity.
    + exists al, (put_all (chosen names l) old).
      rewrite first_values, values_drop_all_other, values_put, seqb_refl by exact Hni. cbn [head tl].
      split; [reflexivity|]. split; [reflexivity|]. split.
      * intros k Hk Hf. destruct (first_value k l) as [v|] eqn:Ev; [|congruence].
        apply first_put_all; [|left; apply chosen_in; auto].
        intros v' Hv'. apply chosen_in in Hv' as [_ Hv']. congruence.
      * intros k Hk. rewrite Hsub. apply values_put_all_other. intros v' Hv'.
        apply chosen_in in Hv' as [H1 H2]. destruct Hk; [contradiction|congruence].
Qed.

Lemma move_at_key sub names a k al v b : first_value k a = None ->
  move_to_subfield parse_path (PKey k [] None) sub names (Hash (a ++ HElem (mkHE k (mkA al v)) :: b))
  = (fst (move_to_subfield parse_path (PRoot []) sub names v),
     Hash (a ++ HElem (mkHE k (mkA al (snd (move_to_subfield parse_path (PRoot []) sub names v)))) :: b)).
Proof.
  intros H. unfold move_to_subfield. rewrite for_hash_at_key by now apply hd_is_key_first.
  unfold on_elem_value. cbn [he_value a_value he_key a_alias for_hash fits_conditions forallb].
  destruct (mts_r parse_path sub names v). reflexivity.
Qed.

Lemma move_below_key sub names a k al v b o : first_value k a = None ->
  move_to_subfield parse_path (PKey k [] (Some o)) sub names (Hash (a ++ HElem (mkHE k (mkA al v)) :: b))
  = (fst (move_to_subfield parse_path o sub names v),
     Hash (a ++ HElem (mkHE k (mkA al (snd (move_to_subfield parse_path o sub names v)))) :: b)).
Proof. intros H. apply for_hash_under_key. now apply hd_is_key_first. Qed.

(** ---- move_to_map_with_field_as_key ---- *)

Lemma ltb_lex a b : str_ltb a b = true <-> lex_lt a b.
Proof.
  revert b. induction a as [|x a IH]; intros [|y b]; cbn [str_ltb].
  - split; [discriminate|]. intros H; inversion H.
  - split; [intros _; constructor|reflexivity].
  - split; [discriminate|]. intros H; inversion H.
  - rewrite orb_true_iff, andb_true_iff, N.ltb_lt, IH, ceqb_eq. split.
    + intros [H|[-> H]]; [now apply lex_head|now apply lex_tail].
    + intros H. inversion H; subst; auto.
Qed.
Lemma lex_trans a b c : lex_lt a b -> lex_lt b c -> lex_lt a c.
Proof.
  intros H. revert c. induction H; intros c' H'; inversion H'; subst;
    try apply lex_nil; try (apply lex_head; lia); try (apply lex_tail; auto).
Qed.
Lemma lex_total a b : a <> b -> lex_lt a b \/ lex_lt b a.
Proof.
  revert b. induction a as [|x a IH]; intros [|y b] H; [congruence|left; constructor|right; constructor|].
  destruct (N.lt_trichotomy x y) as [X|[->|X]].
  - left. now constructor.
  - destruct (IH b) as [Y|Y]; [congruence|left; now constructor|right; now constructor].
  - right. now constructor.
Qed.
Lemma lex_irrefl a : ~ lex_lt a a.
Proof. induction a; intros H; inversion H; subst; [lia|auto]. Qed.

Definition bt_get (m : list (str * list hashdata)) (k : str) : list hashdata :=
  flat_map (fun x => if seqb (fst x) k then snd x else []) m.
Definition bt_sorted (m : list (str * list hashdata)) : Prop := StronglySorted lex_lt (map fst m).

Lemma sorted_get_nil m k : bt_sorted m -> ~ In k (map fst m) -> bt_get m k = [].
Proof.
  intros _. induction m as [|[k' v'] m IH]; intros H; [reflexivity|].
  unfold bt_get. cbn [flat_map fst snd]. destruct (seqb k' k) eqn:E.
  - apply seqb_eq in E. subst. exfalso. apply H. now left.
  - apply IH. intros X. apply H. now right.
Qed.

Lemma bt_extend_keys m k v x : In x (map fst (bt_extend m k v)) <-> x = k \/ In x (map fst m).
Proof.
  induction m as [|[k' v'] m IH]; cbn [bt_extend map fst In]; [intuition congruence|].
  destruct (seqb k' k) eqn:E.
  - apply seqb_eq in E. subst. cbn. intuition congruence.
  - destruct (str_ltb k k'); cbn [map fst In]; [intuition congruence|]. rewrite IH. intuition congruence.
Qed.

Lemma bt_extend_sorted m k v : bt_sorted m -> bt_sorted (bt_extend m k v).
Proof.
  unfold bt_sorted. induction m as [|[k' v'] m IH]; intros H.
  - cbn. constructor; constructor.
  - cbn [map fst] in H. inversion H as [|? ? Hs Hf]; subst. cbn [bt_extend].
    destruct (seqb k' k) eqn:E; [exact H|].
    destruct (str_ltb k k') eqn:L.
    + apply ltb_lex in L. cbn [map fst]. constructor; [exact H|]. constructor; [exact L|].
      eapply Forall_impl; [|exact Hf]. intros x Hx. now apply (lex_trans _ k').
    + cbn [map fst]. constructor; [apply IH, Hs|]. apply Forall_forall. intros x Hx.
      apply bt_extend_keys in Hx as [->|Hx]; [|rewrite Forall_forall in Hf; now apply Hf].
      destruct (lex_total k k') as [X|X]; [apply seqb_neq in E; congruence| |exact X].
      apply ltb_lex in X. congruence.
Qed.

Lemma bt_extend_get m k v x : bt_sorted m ->
  bt_get (bt_extend m k v) x = bt_get m x ++ (if seqb k x then v else []).
Proof.
  unfold bt_sorted. induction m as [|[k' v'] m IH]; intros H.
  - unfold bt_get. cbn. now rewrite app_nil_r.
  - cbn [map fst] in H. inversion H as [|? ? Hs Hf]; subst. cbn [bt_extend].
    destruct (seqb k' k) eqn:E.
    + apply seqb_eq in E. subst k'. unfold bt_get. cbn [flat_map fst snd].
      destruct (seqb k x) eqn:E2; [|now rewrite app_nil_r].
      apply seqb_eq in E2. subst x.
      assert (G : bt_get m k = []).
      { apply sorted_get_nil; [exact Hs|]. intros X. rewrite Forall_forall in Hf. now apply (lex_irrefl k), Hf. }
      unfold bt_get in G. rewrite G. now rewrite !app_nil_r.
    + destruct (str_ltb k k') eqn:L.
      * apply ltb_lex in L. unfold bt_get. cbn [flat_map fst snd].
        destruct (seqb k x) eqn:E2; [|now rewrite app_nil_r].
        apply seqb_eq in E2. subst x. rewrite E. cbn [app].
        assert (G : bt_get m k = []).
        { apply sorted_get_nil; [exact Hs|]. intros X. rewrite Forall_forall in Hf.
          apply (lex_irrefl k). eapply lex_trans; [exact L|]. now apply Hf. }
        unfold bt_get in G. rewrite G. now rewrite app_nil_r.
      * unfold bt_get in *. cbn [flat_map fst snd]. rewrite (IH Hs). now rewrite app_assoc.
Qed.

Lemma members_app g a b : members g (a ++ b) = members g a ++ members g b.
Proof. unfold members. now rewrite filter_app, map_app. Qed.

Section Grouping.
  Context (sel : str) (keeps : list str) (Hsel : plain (lit "[].|") sel).

  Notation placed := (placed sel keeps).
  Notation group_of := (group_of sel keeps).

  Lemma placed_comments last cs l : Forall (fun d => is_comment d = true) cs ->
    placed last (cs ++ l) =
    map (fun d => (d, match next_group sel keeps l with Some g => g | None => last end)) cs ++ placed last l.
  Proof.
    induction 1 as [|d cs Hd Hc IH]; [reflexivity|]. cbn [app map].
    assert (N : forall l', next_group sel keeps (cs ++ l') = next_group sel keeps l').
    { intros l'. clear IH. induction Hc as [|d' cs Hd' _ IHc]; [reflexivity|]. destruct d'; try discriminate; exact IHc. }
    destruct d; try discriminate; cbn [Spec_Move.placed]; rewrite IH, N; reflexivity.
  Qed.

  Lemma members_const g cs g' : members g (map (fun d => (d, g')) cs) = if same_group g' g then cs else [].
  Proof.
    unfold members. induction cs as [|d cs IH]; cbn [map filter snd]; [now destruct (same_group g' g)|].
    destruct (same_group g' g); cbn [map fst]; [now f_equal|exact IH].
  Qed.

  (** What the model does with one entry. *)
  Lemma mm_step_elem st e :
    mm_step parse_path sel keeps st (HElem e) = Some
      match group_of e with
      | Some s => mkMM (bt_extend (mm_new st) s (mm_comments st ++ [unselect sel (HElem e)])) (mm_old st) [] (Some s)
      | None => mkMM (mm_new st) (mm_old st ++ mm_comments st ++ [unselect sel (HElem e)]) [] None
      end.
  Proof.
    unfold mm_step, Spec_Move.group_of, unselect, selector_string, key_value, mm_keep.
    destruct (a_value (he_value e)) as [|l| | | | | | | |] eqn:Ev; try reflexivity.
    rewrite first_value_key_value. destruct (first_value sel l) as [a|]; [|reflexivity].
    destruct (as_string (a_value a)) as [s|]; [|reflexivity].
    rewrite (parse_single sel Hsel), remove_drop. unfold str_mem.
    destruct s as [|c s]; [now rewrite orb_true_r|]. cbn [is_nil]. rewrite orb_false_r.
    destruct (existsb (seqb (c :: s)) keeps); reflexivity.
  Qed.

  Definition good (st : mm_state) : Prop :=
    bt_sorted (mm_new st) /\ Forall (fun d => is_comment d = true) (mm_comments st) /\
    (forall s, mm_last st = Some s -> In s (map fst (mm_new st))).

  Lemma mm_loop_spec l : forall st, good st ->
    exists st0, mm_loop parse_path sel keeps st l = Some st0 /\
      let st' := mm_finish st0 in
      let p := placed (mm_last st) (mm_comments st ++ l) in
      bt_sorted (mm_new st') /\
      mm_old st' = mm_old st ++ members None p /\
      (forall s, bt_get (mm_new st') s = bt_get (mm_new st) s ++ members (Some s) p) /\
      (forall s, In s (map fst (mm_new st')) <->
         In s (map fst (mm_new st)) \/ exists e, In (HElem e) l /\ group_of e = Some s).
  Proof.
    induction l as [|d l IH]; intros st (G1 & G2 & G3).
    - exists st. split; [reflexivity|]. cbn zeta. rewrite app_nil_r.
      assert (P : placed (mm_last st) (mm_comments st) = map (fun d => (d, mm_last st)) (mm_comments st)).
      { rewrite <- (app_nil_r (mm_comments st)) at 1. rewrite placed_comments by exact G2.
        cbn [next_group Spec_Move.placed]. apply app_nil_r. }
      rewrite P. unfold mm_finish. destruct (mm_last st) as [s|] eqn:L; cbn [mm_new mm_old].
      + split; [now apply bt_extend_sorted|]. split; [rewrite members_const; cbn; now rewrite app_nil_r|].
        split; [intros s'; rewrite bt_extend_get by exact G1; rewrite members_const; reflexivity|].
        intros s'. rewrite bt_extend_keys. split.
        * intros [->|H]; [left; now apply G3|now left].
        * intros [H|(e & [] & _)]. now right.
      + split; [exact G1|]. split; [now rewrite members_const|].
        split; [intros s'; rewrite members_const; cbn; now rewrite app_nil_r|].
        intros s'. split; [now left|]. intros [H|(e & [] & _)]. exact H.
    - cbn [mm_loop]. destruct d as [c|c|e].
      + set (st1 := mkMM (mm_new st) (mm_old st) (mm_comments st ++ [HInlineC c]) (mm_last st)).
        change (mm_step parse_path sel keeps st (HInlineC c)) with (Some st1).
        destruct (IH st1) as (st0 & E & H).
        { repeat split; [exact G1|apply Forall_app; split; [exact G2|repeat constructor]|exact G3]. }
        exists st0. split; [exact E|]. cbn zeta in *. cbn [st1 mm_new mm_old mm_comments mm_last] in H.
        rewrite <- app_assoc in H. cbn [app] in H. destruct H as (H1 & H2 & H3 & H4).
        repeat split; auto; intros H; apply H4 in H || apply H4; destruct H as [H|(e & He & Hg)]; auto.
        * right. exists e. split; [now right|exact Hg].
        * right. exists e. split; [|exact Hg]. destruct He; [discriminate|exact H].
      + set (st1 := mkMM (mm_new st) (mm_old st) (mm_comments st ++ [HComment c]) (mm_last st)).
        change (mm_step parse_path sel keeps st (HComment c)) with (Some st1).
        destruct (IH st1) as (st0 & E & H).
        { repeat split; [exact G1|apply Forall_app; split; [exact G2|repeat constructor]|exact G3]. }
        exists st0. split; [exact E|]. cbn zeta in *. cbn [st1 mm_new mm_old mm_comments mm_last] in H.
        rewrite <- app_assoc in H. cbn [app] in H. destruct H as (H1 & H2 & H3 & H4).
        repeat split; auto; intros H; apply H4 in H || apply H4; destruct H as [H|(e & He & Hg)]; auto.
        * right. exists e. split; [now right|exact Hg].
        * right. exists e. split; [|exact Hg]. destruct He; [discriminate|exact H].
      + rewrite mm_step_elem.
        assert (P : placed (mm_last st) (mm_comments st ++ HElem e :: l) =
           map (fun d => (d, group_of e)) (mm_comments st)
             ++ (unselect sel (HElem e), group_of e) :: placed (group_of e) l).
        { rewrite placed_comments by exact G2. reflexivity. }
        rewrite P. clear P. destruct (group_of e) as [s|] eqn:Eg.
        * destruct (IH (mkMM (bt_extend (mm_new st) s (mm_comments st ++ [unselect sel (HElem e)])) (mm_old st) [] (Some s)))
            as (st0 & E & H).
          { split; [now apply bt_extend_sorted|]. split; [constructor|]. intros s' X. inversion X; subst.
            apply bt_extend_keys. now left. }
          exists st0. split; [exact E|]. cbn zeta in *. cbn [mm_new mm_old mm_comments mm_last app] in H.
          destruct H as (H1 & H2 & H3 & H4). split; [exact H1|].
          split; [rewrite H2; f_equal; rewrite members_app, members_const; reflexivity|].
          split.
          -- intros s'. rewrite H3, bt_extend_get by exact G1. rewrite <- app_assoc. f_equal.
             rewrite members_app, members_const. cbn [same_group]. unfold members at 2. cbn [filter snd same_group].
             destruct (seqb s s'); cbn [map fst app]; [|reflexivity]. rewrite <- app_assoc. reflexivity.
          -- intros s'. rewrite H4, bt_extend_keys. split.
             ++ intros [[->|H]|(e' & He & Hg)]; [right; exists e; split; [now left|exact Eg]|now left|].
                right. exists e'. split; [now right|exact Hg].
             ++ intros [H|(e' & He & Hg)]; [left; now right|].
                destruct He as [He|He]; [inversion He; subst; left; left; congruence|].
                right. eauto.
        * destruct (IH (mkMM (mm_new st) (mm_old st ++ mm_comments st ++ [unselect sel (HElem e)]) [] None))
            as (st0 & E & H).
          { split; [exact G1|]. split; [constructor|]. discriminate. }
          exists st0. split; [exact E|]. cbn zeta in *. cbn [mm_new mm_old mm_comments mm_last app] in H.
          destruct H as (H1 & H2 & H3 & H4). split; [exact H1|].
          split.
          -- rewrite H2. rewrite members_app, members_const. cbn [same_group]. unfold members at 2.
             cbn [filter snd same_group map fst]. rewrite <- !app_assoc. reflexivity.
          -- split.
             ++ intros s'. rewrite H3. f_equal. rewrite members_app, members_const. reflexivity.
             ++ intros s'. rewrite H4. split.
                ** intros [H|(e' & He & Hg)]; [now left|]. right. exists e'. split; [now right|exact Hg].
                ** intros [H|(e' & He & Hg)]; [now left|].
                   destruct He as [He|He]; [inversion He; subst; congruence|]. right. eauto.
  Qed.
End Grouping.

Lemma bt_as_map m : bt_sorted m -> m = map (fun s => (s, bt_get m s)) (map fst m).
Proof.
  intros H. rewrite map_map. rewrite <- (map_id m) at 1. apply map_ext_in.
  intros [k v] Hin. cbn [fst]. f_equal. revert H Hin. unfold bt_sorted.
  induction m as [|[k' v'] m IH]; intros H Hin; [destruct Hin|].
  cbn [map fst] in H. inversion H as [|? ? Hs Hf]; subst. unfold bt_get. cbn [flat_map fst snd].
  destruct Hin as [E|Hin].
  - inversion E; subst. rewrite seqb_refl.
    change (v = v ++ bt_get m k). rewrite sorted_get_nil; [now rewrite app_nil_r|exact Hs|].
    intros X. rewrite Forall_forall in Hf. now apply (lex_irrefl k), Hf.
  - destruct (seqb k' k) eqn:E; [|apply IH; assumption].
    apply seqb_eq in E. subst. exfalso. rewrite Forall_forall in Hf. apply (lex_irrefl k), Hf.
    apply in_map_iff. exists (k, v). auto.
Qed.

Lemma move_map_spec old sel new keeps l al entries :
  plain (lit "[].|") old -> plain (lit "[].|") sel -> plain (lit "[].|") new -> old <> new ->
  first_value old l = Some (mkA al (Hash entries)) -> first_value new l = None ->
  exists names,
    StronglySorted lex_lt names /\
    (forall s, In s names <-> exists e, In (HElem e) entries /\ group_of sel keeps e = Some s) /\
    let p := placed sel keeps None entries in
    move_to_map parse_path (PRoot []) old sel new keeps (Hash l) =
    match names with
    | [] => (Some 0, Hash l)
    | _ => (Some 1, Hash (put old (mkA al (Hash (members None p))) l
             ++ [HElem (mkHE new (mkA al (Hash (map (fun s => HElem (mkHE s (mkA None (Hash (members (Some s) p))))) names))))]))
    end.
Proof.
  intros Ho Hs Hn Hne Hold Hnew.
  destruct (mm_loop_spec sel keeps Hs entries (mkMM [] [] [] None)) as (st0 & E & H).
  { repeat split; [constructor|constructor|discriminate]. }
  cbn zeta in H. cbn [mm_new mm_old mm_comments mm_last app bt_get flat_map map] in H.
  destruct H as (H1 & H2 & H3 & H4).
  exists (map fst (mm_new (mm_finish st0))). split; [exact H1|]. split.
  { intros s. rewrite H4. split; [intros [[]|H]; exact H|now right]. }
  cbn zeta. unfold move_to_map. cbn [for_hash fits_conditions forallb mtm_r].
  rewrite first_value_key_value, Hold. cbn [a_value a_alias]. rewrite E.
  destruct (mm_new (mm_finish st0)) as [|x m] eqn:Em; [reflexivity|].
  cbn [is_nil map]. rewrite (parse_single new Hn), (parse_single old Ho).
  rewrite insert_absent by exact Hnew. cbn [snd]. rewrite insert_put.
  f_equal. f_equal.
  assert (P : put old (mkA al (Hash (mm_old (mm_finish st0)))) (l ++ [HElem (mkHE new (mkA al
     (Hash (map (fun kv => HElem (mkHE (fst kv) (mkA None (Hash (snd kv))))) (x :: m)))))])
     = put old (mkA al (Hash (members None (placed sel keeps None entries)))) l ++ [HElem (mkHE new (mkA al
     (Hash (map (fun s => HElem (mkHE s (mkA None (Hash (members (Some s) (placed sel keeps None entries)))))) (map fst (x :: m))))))]).
  { rewrite H2. apply first_value_split in Hold as (a & b & -> & Ha). rewrite <- app_assoc. cbn [app].
    rewrite !put_mid by exact Ha. rewrite <- app_assoc. cbn [app]. do 8 f_equal.
    rewrite (bt_as_map (x :: m) H1) at 1. rewrite !map_map. apply map_ext. intros y. cbn [fst snd].
    now rewrite H3. }
  exact P.
Qed.

(** Every entry ends up in exactly one place. *)
Lemma placed_fst sel keeps l : forall last, map fst (placed sel keeps last l) = map (unselect sel) l.
Proof. induction l as [|d l IH]; intros last; [reflexivity|]. destruct d; cbn [placed map fst]; now rewrite IH. Qed.

Lemma placed_groups sel keeps l : forall last x s, In (x, Some s) (placed sel keeps last l) ->
  last = Some s \/ exists e, In (HElem e) l /\ group_of sel keeps e = Some s.
Proof.
  induction l as [|d l IH]; intros last x s H; [destruct H|].
  assert (N : forall l', next_group sel keeps l' = Some (Some s) -> exists e, In (HElem e) l' /\ group_of sel keeps e = Some s).
  { induction l' as [|d' l' IH']; [discriminate|]. destruct d' as [c|c|e0]; cbn [next_group].
    - intros X. destruct (IH' X) as (e & He & Hg). exists e. split; [now right|exact Hg].
    - intros X. destruct (IH' X) as (e & He & Hg). exists e. split; [now right|exact Hg].
    - intros X. injection X as X. exists e0. split; [now left|exact X]. }
  destruct d as [c|c|e]; cbn [placed] in H.
  1,2: destruct H as [H|H];
    [destruct (next_group sel keeps l) as [g|] eqn:En;
     [inversion H; subst; right; destruct (N l En) as (e & He & Hg); exists e; split; [now right|exact Hg]
     |inversion H; now left]
    |destruct (IH _ _ _ H) as [X|(e & He & Hg)]; [now left|right; exists e; split; [now right|exact Hg]]].
  destruct H as [H|H].
  - injection H as _ H. right. exists e. split; [now left|exact H].
  - destruct (IH _ _ _ H) as [X|(e' & He & Hg)]; right.
    + exists e. split; [now left|exact X].
    + exists e'. split; [now right|exact Hg].
Qed.

Lemma members_partition names : NoDup names -> forall p,
  (forall x s, In (x, Some s) p -> In s names) ->
  Permutation (map fst p) (members None p ++ flat_map (fun s => members (Some s) p) names).
Proof.
  intros Hd. induction p as [|[x g] p IH]; intros H.
  - cbn. clear. induction names; cbn; auto.
  - assert (IH' := IH (fun y s Hy => H y s (or_intror Hy))).
    cbn [map fst]. destruct g as [s|].
    + assert (Hs : In s names) by (apply (H x s); now left).
      apply in_split in Hs as (n1 & n2 & ->).
      assert (A : forall ns, ~ In s ns -> flat_map (fun s0 => members (Some s0) ((x, Some s) :: p)) ns
                  = flat_map (fun s0 => members (Some s0) p) ns).
      { clear. induction ns as [|n ns IHn]; intros Hn; [reflexivity|]. cbn [flat_map]. rewrite IHn by (intros X; apply Hn; now right).
        f_equal. unfold members. cbn [filter snd same_group].
        destruct (seqb s n) eqn:E; [|reflexivity]. apply seqb_eq in E. subst. exfalso. apply Hn. now left. }
      apply NoDup_remove in Hd as [_ Hni].
      rewrite flat_map_app in *. cbn [flat_map] in *.
      rewrite (A n1), (A n2) by (intros X; apply Hni, in_or_app; auto).
      assert (M1 : members (Some s) ((x, Some s) :: p) = x :: members (Some s) p).
      { unfold members. cbn [filter snd same_group]. now rewrite seqb_refl. }
      rewrite M1. change (members None ((x, Some s) :: p)) with (members None p).
      etransitivity; [apply perm_skip, IH'|].
      rewrite <- !app_comm_cons.
      rewrite (app_assoc (members None p)), (app_assoc (members None p)). apply Permutation_middle.
    + unfold members at 1. cbn [filter snd same_group map fst app]. fold (members None p).
      apply perm_skip.
      assert (B : flat_map (fun s => members (Some s) ((x, None) :: p)) names = flat_map (fun s => members (Some s) p) names)
        by (apply flat_map_ext; reflexivity).
      rewrite B. exact IH'.
Qed.

Lemma sorted_nodup names : StronglySorted lex_lt names -> NoDup names.
Proof.
  induction 1 as [|a l Hs IH Hf]; constructor; [|exact IH].
  intros X. rewrite Forall_forall in Hf. now apply (lex_irrefl a), Hf.
Qed.

Lemma move_map_conserves old sel new keeps l al entries :
  plain (lit "[].|") old -> plain (lit "[].|") sel -> plain (lit "[].|") new -> old <> new ->
  first_value old l = Some (mkA al (Hash entries)) -> first_value new l = None ->
  (exists e s, In (HElem e) entries /\ group_of sel keeps e = Some s) ->
  exists kept groups,
    move_to_map parse_path (PRoot []) old sel new keeps (Hash l) =
      (Some 1, Hash (put old (mkA al (Hash kept)) l
         ++ [HElem (mkHE new (mkA al (Hash (map (fun g => HElem (mkHE (fst g) (mkA None (Hash (snd g))))) groups))))])) /\
    Permutation (map (unselect sel) entries) (kept ++ flat_map snd groups) /\
    kept = members None (placed sel keeps None entries) /\
    (forall s es, In (s, es) groups -> es = members (Some s) (placed sel keeps None entries)).
Proof.
  intros Ho Hs Hn Hne Hold Hnew (e & s & He & Hg).
  destruct (move_map_spec old sel new keeps l al entries Ho Hs Hn Hne Hold Hnew) as (names & Hsort & Hin & E).
  cbn zeta in E. exists (members None (placed sel keeps None entries)),
    (map (fun s => (s, members (Some s) (placed sel keeps None entries))) names).
  assert (Hnn : names <> []).
  { intros ->. apply (proj2 (Hin s)). eauto. }
  split; [rewrite E; destruct names; [contradiction|]; rewrite map_map; reflexivity|].
  split; [|split; [reflexivity|]].
  - rewrite <- (placed_fst sel keeps entries None).
    assert (F : forall ns, flat_map snd (map (fun s => (s, members (Some s) (placed sel keeps None entries))) ns)
                = flat_map (fun s => members (Some s) (placed sel keeps None entries)) ns).
    { induction ns as [|n ns IH]; [reflexivity|]. cbn [map flat_map snd]. now rewrite IH. }
    rewrite F. apply members_partition; [now apply sorted_nodup|].
    intros x s' Hx. apply Hin. destruct (placed_groups _ _ _ _ _ _ Hx) as [X|X]; [discriminate|exact X].
  - intros s' es Hx. apply in_map_iff in Hx as (n & X & _). now inversion X.
Qed.

Lemma move_map_groups old sel new keeps l al entries :
  plain (lit "[].|") old -> plain (lit "[].|") sel -> plain (lit "[].|") new -> old <> new ->
  first_value old l = Some (mkA al (Hash entries)) -> first_value new l = None ->
  forall y', move_to_map parse_path (PRoot []) old sel new keeps (Hash l) = (Some 1, y') ->
  exists l' groups, y' = Hash l' /\
    first_value new l' = Some (mkA al (Hash (map (fun g => HElem (mkHE (fst g) (mkA None (Hash (snd g))))) groups))) /\
    groups <> [] /\
    StronglySorted lex_lt (map fst groups) /\
    Forall (fun g => fst g <> [] /\ ~ In (fst g) keeps /\ exists e, In (HElem e) (snd g)) groups.
Proof.
  intros Ho Hs Hn Hne Hold Hnew y' E'.
  destruct (move_map_spec old sel new keeps l al entries Ho Hs Hn Hne Hold Hnew) as (names & Hsort & Hin & E).
  cbn zeta in E. rewrite E in E'. destruct names as [|n0 names0] eqn:En; [discriminate|]. rewrite <- En in *.
  assert (Hnn : names <> []) by (rewrite En; discriminate). clear En n0 names0.
  inversion E'; subst. eexists.
  exists (map (fun s => (s, members (Some s) (placed sel keeps None entries))) names).
  split; [reflexivity|]. split; [|split; [|split]].
  - rewrite first_value_app_none.
    + cbn [first_value]. rewrite seqb_refl, map_map. reflexivity.
    + rewrite first_values, values_put. destruct (seqb old new) eqn:X; [apply seqb_eq in X; contradiction|].
      now rewrite <- first_values.
  - destruct names; [contradiction|discriminate].
  - rewrite map_map. cbn [fst]. now rewrite map_id.
  - apply Forall_forall. intros [s es] Hx. apply in_map_iff in Hx as (n & X & Hx). inversion X; subst.
    cbn [fst snd]. apply Hin in Hx as (e & He & Hg). split; [|split].
    + unfold group_of in Hg. destruct (selector_string sel e) as [[|c x]|]; try discriminate.
      destruct (existsb _ _); [discriminate|]. inversion Hg. discriminate.
    + unfold group_of in Hg. destruct (selector_string sel e) as [[|c x]|]; try discriminate.
      destruct (existsb (seqb (c :: x)) keeps) eqn:Ek; [discriminate|]. inversion Hg; subst.
      intros Hk. apply in_names_b in Hk. congruence.
    + assert (A : forall l last, In (HElem e) l -> exists e', In (HElem e', Some s) (placed sel keeps last l)).
      { clear - Hg. induction l as [|d l IH]; intros last H; [destruct H|].
        destruct H as [->|H].
        - cbn [placed]. rewrite Hg. unfold unselect.
          destruct (selector_string sel e); [destruct (a_value (he_value e))|]; eexists; now left.
        - destruct d; cbn [placed]; match goal with |- context [placed sel keeps ?x l] =>
            destruct (IH x H) as (e' & He') end; exists e'; now right. }
      destruct (A entries None He) as (e' & He'). exists e'. unfold members.
      apply in_map_iff. exists (HElem e', Some s). split; [reflexivity|]. apply filter_In. split; [exact He'|].
      cbn. apply seqb_refl.
Qed.

Lemma move_map_at_key old sel new keeps a k al v b : first_value k a = None ->
  move_to_map parse_path (PKey k [] None) old sel new keeps (Hash (a ++ HElem (mkHE k (mkA al v)) :: b))
  = (fst (move_to_map parse_path (PRoot []) old sel new keeps v),
     Hash (a ++ HElem (mkHE k (mkA al (snd (move_to_map parse_path (PRoot []) old sel new keeps v)))) :: b)).
Proof.
  intros H. unfold move_to_map. rewrite for_hash_at_key by now apply hd_is_key_first.
  unfold on_elem_value. cbn [he_value a_value he_key a_alias for_hash fits_conditions forallb].
  destruct (mtm_r parse_path old sel new keeps v). reflexivity.
Qed.

Lemma move_map_below_key old sel new keeps a k al v b o : first_value k a = None ->
  move_to_map parse_path (PKey k [] (Some o)) old sel new keeps (Hash (a ++ HElem (mkHE k (mkA al v)) :: b))
  = (fst (move_to_map parse_path o old sel new keeps v),
     Hash (a ++ HElem (mkHE k (mkA al (snd (move_to_map parse_path o old sel new keeps v)))) :: b)).
Proof. intros H. apply for_hash_under_key. now apply hd_is_key_first. Qed.

Definition kv (k : str) (v : yaml) : hashdata := HElem (mkHE k (mkA None v)).
Definition scal (s : string) : yaml := Unquoted (lit s).

(** The subfield exists but is a scalar: the field disappears. *)
Lemma move_loses_field : exists l sub name v after,
  first_value name l = Some v /\ plain (lit "[].|") sub /\ plain (lit "[].|") name /\ sub <> name /\
  move_to_subfield parse_path (PRoot []) sub [name] (Hash l) = (Some 1, Hash after) /\
  first_value name after = None /\ first_value sub after = first_value sub l.
Proof.
  exists [kv (lit "sub") (scal "x"); kv (lit "a") (scal "1")], (lit "sub"), (lit "a"). do 2 eexists.
  split; [reflexivity|]. do 2 (split; [apply plain_b; vm_compute; congruence|]).
  split; [discriminate|]. split; [vm_compute; reflexivity|]. split; reflexivity.
Qed.

(** The new map exists: the moved entry disappears. *)
Lemma move_map_loses : exists l old sel new after,
  plain (lit "[].|") old /\ plain (lit "[].|") sel /\ plain (lit "[].|") new /\ old <> new /\
  move_to_map parse_path (PRoot []) old sel new [] (Hash l) = (Some 1, Hash after) /\
  (exists e, In (HElem e) (match first_value old l with Some (mkA _ (Hash es)) => es | _ => [] end)) /\
  first_value old after = Some (mkA None (Hash [])) /\ first_value new after = first_value new l.
Proof.
  exists [kv (lit "old") (Hash [kv (lit "e") (Hash [kv (lit "type") (scal "t")])]); kv (lit "new") (Hash [])],
    (lit "old"), (lit "type"), (lit "new"). eexists.
  do 3 (split; [apply plain_b; vm_compute; congruence|]).
  split; [discriminate|]. split; [vm_compute; reflexivity|].
  split; [eexists; now left|]. split; reflexivity.
Qed.
