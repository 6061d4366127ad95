(** Edits keep documents writable for YAML, and change the data where they change the tree. *)
From Coq Require Import Lia.
From Verif Require Import Base Ast Strings Path Insert Format Spec_Format Spec_Parse Spec_Edit Spec_Local LocalFacts LocalFacts2 Spec_Yaml12
  Spec_Portable PortableFacts UniqueBlock ReadingFacts Spec_Amend.
Import ListNotations.

(** ---- rows ---- *)
Definition commented (c : list hashdata) : Prop := exists x r, c = HInlineC x :: r.
Definition acommented (c : list arraydata) : Prop := exists x r, c = AInlineC x :: r.

Lemma rows_mid b : forall k a c, map_rows (b ++ HElem (mkHE k a) :: c) ->
  key_portable k /\ portable a /\ (commented c -> on_line a) /\
  (forall k' a', key_portable k' -> portable a' -> (commented c -> on_line a') -> map_rows (b ++ HElem (mkHE k' a') :: c)) /\
  (~ commented c -> map_rows (b ++ c)).
Proof.
  induction b as [b IH] using (well_founded_induction (Wf_nat.well_founded_ltof _ (@length hashdata))).
  intros k a c H. destruct b as [|d b].
  - cbn [app] in *. inversion H as [|?|k0 a0 l0 Hk Ha Hl|k0 a0 x l0 Hk Ha Hc Hl]; subst.
    + assert (N : ~ commented c) by (intros (x & r & ->); inversion Hl).
      split; [auto|]. split; [auto|]. split; [easy|]. split; [|auto]. intros. now constructor.
    + split; [auto|]. split; [now constructor|]. split; [auto|].
      split; [|intros N; exfalso; apply N; now exists x, l0]. intros k' a' K _ O. apply MREntryC; auto. apply O. now exists x, l0.
  - cbn [app] in *. inversion H as [|x l0 Hc Hl|k0 a0 l0 Hk Ha Hl|k0 a0 x l0 Hk Ha Hc Hl]; subst.
    + destruct (IH b ltac:(unfold Wf_nat.ltof; cbn; lia) _ _ _ Hl) as (A1 & A2 & A3 & A4 & A5). do 3 (split; [auto|]). split; [intros; constructor; auto|intros; constructor; auto].
    + destruct (IH b ltac:(unfold Wf_nat.ltof; cbn; lia) _ _ _ Hl) as (A1 & A2 & A3 & A4 & A5). do 3 (split; [auto|]). split; [intros; constructor; auto|intros; constructor; auto].
    + match goal with X : _ :: _ = b ++ _ |- _ => rename X into E end. destruct b as [|d b]; cbn [app] in E; [discriminate|]. injection E as <- ->.
      destruct (IH b ltac:(unfold Wf_nat.ltof; cbn; lia) _ _ _ Hl) as (A1 & A2 & A3 & A4 & A5). do 3 (split; [auto|]). split; [intros; cbn [app]; apply MREntryC; auto|intros; cbn [app]; apply MREntryC; auto].
Qed.

Lemma arows_mid b : forall a c, seq_rows (b ++ AElem a :: c) ->
  portable a /\ (acommented c -> on_line a) /\
  (forall a', portable a' -> (acommented c -> on_line a') -> seq_rows (b ++ AElem a' :: c)).
Proof.
  induction b as [b IH] using (well_founded_induction (Wf_nat.well_founded_ltof _ (@length arraydata))).
  intros a c H. destruct b as [|d b].
  - cbn [app] in *. inversion H as [|?|a0 l0 Ha Hl|a0 x l0 Ha Hc Hl]; subst.
    + assert (N : ~ acommented c) by (intros (x & r & ->); inversion Hl).
      split; [auto|]. split; [easy|]. intros. now constructor.
    + split; [now constructor|]. split; [auto|]. intros a' _ O. apply SRElemC; auto. apply O. now exists x, l0.
  - cbn [app] in *. inversion H as [|x l0 Hc Hl|a0 l0 Ha Hl|a0 x l0 Ha Hc Hl]; subst.
    + destruct (IH b ltac:(unfold Wf_nat.ltof; cbn; lia) _ _ Hl) as (A1 & A2 & A3). do 2 (split; [auto|]). intros; constructor; auto.
    + destruct (IH b ltac:(unfold Wf_nat.ltof; cbn; lia) _ _ Hl) as (A1 & A2 & A3). do 2 (split; [auto|]). intros; constructor; auto.
    + match goal with X : _ :: _ = b ++ _ |- _ => rename X into E end. destruct b as [|d b]; cbn [app] in E; [discriminate|]. injection E as <- ->.
      destruct (IH b ltac:(unfold Wf_nat.ltof; cbn; lia) _ _ Hl) as (A1 & A2 & A3). do 2 (split; [auto|]). intros; cbn [app]; apply SRElemC; auto.
Qed.

Lemma rows_end l k a : map_rows l -> key_portable k -> portable a -> map_rows (l ++ [HElem (mkHE k a)]).
Proof.
  intros H K A. induction l as [l IH] using (well_founded_induction (Wf_nat.well_founded_ltof _ (@length hashdata))).
  inversion H as [|x l0 Hc Hl|k0 a0 l0 Hk Ha Hl|k0 a0 x l0 Hk Ha Hc Hl]; subst; cbn [app].
  - apply MREntry; auto; constructor.
  - apply MRComment; auto. apply IH; auto. unfold Wf_nat.ltof; cbn; lia.
  - apply MREntry; auto. apply IH; auto. unfold Wf_nat.ltof; cbn; lia.
  - apply MREntryC; auto. apply IH; auto. unfold Wf_nat.ltof; cbn; lia.
Qed.

(** ---- the data ---- *)
Lemma nodes_app b c : map_nodes (b ++ c) = map_nodes b ++ map_nodes c.
Proof. apply flat_map_app. Qed.
Lemma nodes_mid b k a c : map_nodes (b ++ HElem (mkHE k a) :: c) = map_nodes b ++ (key_node k, node_of a) :: map_nodes c.
Proof. rewrite nodes_app. now destruct a. Qed.
Lemma anodes_mid b a c : seq_nodes (b ++ AElem a :: c) = seq_nodes b ++ node_of a :: seq_nodes c.
Proof. unfold seq_nodes. rewrite flat_map_app. now destruct a. Qed.

Lemma nodes_lack k l : key_index l k = None -> lacks k (map_nodes l).
Proof.
  unfold lacks. induction l as [|d l IH]; intros E; [intros []|]. cbn [key_index] in E. destruct (hd_is_key k d) eqn:H; [discriminate|].
  destruct (key_index l k); [discriminate|]. specialize (IH eq_refl). destruct d as [c|c|[k' [al v]]]; [exact IH|exact IH|].
  cbn. intros [X|X]; [|exact (IH X)]. injection X as ->. cbn in H. rewrite (proj2 (seqb_eq k k) eq_refl) in H. discriminate.
Qed.

(** The closures. *)
Definition added' k h l l' : Prop := key_index l k = None /\ l' = l ++ [HElem (mkHE k h)].
Definition replaced' (k : str) (g : str -> aliased -> hash_element) (l l' : list hashdata) : Prop :=
  exists b v c, key_index b k = None /\ l = b ++ HElem (mkHE k v) :: c /\ l' = b ++ HElem (g k v) :: c.
Definition removed' (k : str) (l l' : list hashdata) : Prop :=
  exists b v c, key_index b k = None /\ l = b ++ HElem (mkHE k v) :: c /\ l' = b ++ c.
Lemma insert_steps k h ow l n l' : insert_f h ow l k (key_index l k) = (n, l') ->
  n = 0 /\ l' = l \/ n = 1 /\ (added' k h l l' \/ ow = true /\ replaced' k (fun k _ => mkHE k h) l l').
Proof.
  unfold insert_f. destruct (key_index l k) as [i|] eqn:Ei.
  - destruct ow; intros E; injection E as <- <-; [right|left; auto]. split; [reflexivity|]. right. split; [reflexivity|].
    destruct (key_ctx _ _ _ Ei) as (b & v & c & -> & B & _ & H & _). exists b, v, c. split; [auto|]. split; [reflexivity|]. apply H.
  - intros E; injection E as <- <-. right. split; [reflexivity|]. left. now split.
Qed.
Lemma remove_steps k l n l' : remove_f l k (key_index l k) = (n, l') -> n = 0 /\ l' = l \/ n = 1 /\ removed' k l l'.
Proof.
  unfold remove_f. destruct (key_index l k) as [i|] eqn:Ei; intros E; injection E as <- <-; [right|left; auto].
  split; [reflexivity|]. destruct (key_ctx _ _ _ Ei) as (b & v & c & -> & B & _ & _ & H). exists b, v, c. auto.
Qed.

(** ---- one step ---- *)
Section Step.
  Context (F : list hashdata -> list hashdata -> Prop) (G : list (node * node) -> list (node * node) -> Prop) (q : yaml -> Prop).
  Context (Hne : forall l l', F l l' -> q (Hash l) -> l <> []).
  Context (HF : forall l l', F l l' -> map_rows l -> everywhere q (Hash l) ->
    map_rows l' /\ everywhere q (Hash l') /\ G (map_nodes l) (map_nodes l') /\ ((exists e, In (HElem e) l') \/ l' = [])).
  Context (Hqh : forall b k al v v' c, q (Hash (b ++ HElem (mkHE k (mkA al v)) :: c)) -> q (Hash (b ++ HElem (mkHE k (mkA al v')) :: c))).
  Context (Hqa : forall b al v v' c, q (Array (b ++ AElem (mkA al v) :: c)) -> q (Array (b ++ AElem (mkA al v') :: c))).

  Lemma line_fixed y y' : at_place F y y' -> everywhere q y -> forall c, inline_portable c y -> False.
  Proof.
    induction 1 as [l l' Hf|b k al v v' c P IH|b al v v' c P IH|b v v' c P IH]; intros E ctx I.
    - apply everywhere_h in E as [E _]. destruct l; [|exact I]. now apply (Hne _ _ Hf E).
    - destruct b; exact I.
    - destruct b; exact I.
    - apply everywhere_i in E as [_ E]. apply (IH (E _ (in_mid _ _ _)) FlowIn). cbn [inline_portable] in I.
      clear - I. induction b as [|x b IHb]; cbn in I; destruct I; auto.
  Qed.

  Lemma place_amends y y' : at_place F y y' -> everywhere q y -> forall al, portable (mkA al y) ->
    everywhere q y' /\ portable (mkA al y') /\ amended G (Node al (content_of y)) (Node al (content_of y')).
  Proof.
    induction 1 as [l l' Hf|b k al v v' c P IH|b al v v' c P IH|b v v' c P IH]; intros E al0 H.
    - inversion H as [a O| | |al1 l1 N R X|]; subst.
      { destruct O as [O _]. destruct (line_fixed _ _ (ap_here F _ _ Hf) E _ O). }
      destruct (HF _ _ Hf R E) as (R' & E' & Hg & X'). split; [auto|]. split.
      + destruct X' as [X' | ->]; [now apply PHash|]. apply PLine. cbn. split; [exact I|]. split; [auto|intros []].
      + now apply am_here.
    - pose proof E as E0. apply everywhere_h in E0 as [E1 E2].
      pose proof (E2 _ (in_mid _ _ _)) as Ev. cbn in Ev.
      inversion H as [a O| | |al1 l1 N R X|]; subst.
      { destruct O as [O _]. destruct (line_fixed _ _ (ap_hash F b k al v v' c P) E _ O). }
      destruct (rows_mid _ _ _ _ R) as (K & A & O & W & _). destruct (IH Ev al A) as (E' & A' & M). split; [|split].
      + apply everywhere_h. split; [exact (Hqh _ _ _ _ _ _ E1)|]. intros e Hi. apply in_app_or in Hi as [Hi|[Hi|Hi]].
        * apply E2. apply in_or_app. now left.
        * injection Hi as <-. exact E'.
        * apply E2. apply in_or_app. right. now right.
      + apply PHash; [auto| |eexists; apply in_mid]. apply W; auto. intros Hc. destruct (O Hc) as [O' _].
        destruct (line_fixed _ _ P Ev _ O').
      + change (amended G (Node al0 (Mapping (map_nodes (b ++ HElem (mkHE k (mkA al v)) :: c)))) (Node al0 (Mapping (map_nodes (b ++ HElem (mkHE k (mkA al v')) :: c))))).
        rewrite !nodes_mid. now apply am_entry.
    - pose proof E as E0. apply everywhere_a in E0 as [E1 E2].
      pose proof (E2 _ (in_mid _ _ _)) as Ev. cbn in Ev.
      inversion H as [a O| | | |al1 l1 N R X]; subst.
      { destruct O as [O _]. destruct (line_fixed _ _ (ap_array F b al v v' c P) E _ O). }
      destruct (arows_mid _ _ _ R) as (A & O & W). destruct (IH Ev al A) as (E' & A' & M). split; [|split].
      + apply everywhere_a. split; [exact (Hqa _ _ _ _ _ E1)|]. intros e Hi. apply in_app_or in Hi as [Hi|[Hi|Hi]].
        * apply E2. apply in_or_app. now left.
        * injection Hi as <-. exact E'.
        * apply E2. apply in_or_app. right. now right.
      + apply PArray; [auto| |eexists; apply in_mid]. apply W; auto. intros Hc. destruct (O Hc) as [O' _].
        destruct (line_fixed _ _ P Ev _ O').
      + change (amended G (Node al0 (Sequence (seq_nodes (b ++ AElem (mkA al v) :: c)))) (Node al0 (Sequence (seq_nodes (b ++ AElem (mkA al v') :: c))))).
        rewrite !anodes_mid. now apply am_element.
    - inversion H as [a O| | | |]; subst. destruct O as [O _]. destruct (line_fixed _ _ (ap_inline F b v v' c P) E _ O).
  Qed.

  Lemma places_amend n y y' : times (at_place F) n y y' -> everywhere q y -> forall al, portable (mkA al y) ->
    portable (mkA al y') /\ times (amended G) n (Node al (content_of y)) (Node al (content_of y')).
  Proof.
    intros T E al P.
    destruct (times_inv (at_place F) (amended G) (fun y => everywhere q y /\ portable (mkA al y)) (fun y => Node al (content_of y)))
      with (n := n) (x := y) (y := y') as [[_ A] B]; auto.
    intros u u' [Eu Pu] Hu. destruct (place_amends _ _ Hu Eu al Pu) as (A & B & C). auto.
  Qed.

  (** ---- documents ---- *)
  Lemma only_yaml (a : list str) : forall b a' y y' b', map DComment a ++ DYaml y :: map DComment b = a' ++ DYaml y' :: b' ->
    a' = map DComment a /\ y' = y /\ b' = map DComment b.
  Proof.
    induction a as [|z a IH]; intros b a' y y' b' E; cbn in E.
    - destruct a' as [|x a']; [injection E as -> ->; auto|]. exfalso. cbn in E. injection E as _ E.
      assert (X : In (DYaml y') (map DComment b)) by (rewrite E; apply in_mid).
      apply in_map_iff in X as (z & X & _). discriminate.
    - destruct a' as [|x a']; [discriminate|]. cbn in E. injection E as <- E. destruct (IH _ _ _ _ _ E) as (-> & -> & ->). auto.
  Qed.

  Lemma root_steps n l l' : times (doc_step F) n l l' -> forall a y b, l = map DComment a ++ DYaml y :: map DComment b ->
    exists y', l' = map DComment a ++ DYaml y' :: map DComment b /\ times (at_place F) n y y'.
  Proof.
    induction 1 as [l|n l m l' S _ IH]; intros a y b ->.
    - exists y. split; [reflexivity|constructor].
    - destruct S as (a' & y0 & y1 & b' & E & -> & P). destruct (only_yaml _ _ _ _ _ _ E) as (-> & -> & ->).
      destruct (IH a y1 b eq_refl) as (y' & -> & T). exists y'. split; [reflexivity|]. econstructor; eauto.
  Qed.

  Definition block (y : yaml) : Prop := match y with Hash (_ :: _) | Array (_ :: _) => True | _ => False end.
  Lemma block_steps n y y' : times (at_place F) n y y' -> block y -> block y' \/ y' = Hash [].
  Proof.
    assert (S : forall y y', at_place F y y' -> block y \/ y = Hash [] -> block y' \/ y' = Hash []).
    { destruct 1 as [l l' Hf|b k al v v' c P|b al v v' c P|b v v' c P].
      - intros _. destruct l'; [now right|left; exact I].
      - intros _. left. destruct b; exact I.
      - intros _. left. destruct b; exact I.
      - intros [[]|]; discriminate. }
    intros T B. assert (B0 : block y \/ y = Hash []) by now left. clear B. induction T; auto. apply IHT. eapply S; eauto.
  Qed.

  (** The new document, if its root is not an emptied mapping below comments. *)
  Lemma doc_portable d y n d' : portable_doc d y -> everywhere q y ->
    leading d' = leading d /\ times (doc_step F) n (items d) (items d') ->
    (In (DYaml (Hash [])) (items d') -> forall c r, items d <> DComment c :: r) ->
    exists y', portable_doc d' y' /\ times (at_place F) n y y' /\ times (amended G) n (Node None (content_of y)) (Node None (content_of y')).
  Proof.
    intros D E [L T] Em. destruct d' as [l0 l']. cbn [leading items] in *. subst l0.
    destruct D as [cs0 cs y cs1 C0 C C1 P B|cs0 y cs1 C0 C1 O]; cbn [leading items] in *.
    - destruct (root_steps _ _ _ T _ _ _ eq_refl) as (y' & -> & S).
      destruct (places_amend _ _ _ S E None P) as [P' M]. exists y'. split; [|split; [exact S|exact M]].
      destruct (block_steps _ _ _ S B) as [B' | ->].
      + now apply PDoc.
      + destruct cs as [|c cs].
        * apply (Spec_Portable.PRoot cs0 (Hash []) cs1); auto. split; [exact I|]. split; [exact I|]. intros [].
        * exfalso. cbn in Em. refine (Em _ c _ eq_refl). right. apply in_or_app. right. now left.
    - destruct (root_steps _ _ _ T [] _ _ eq_refl) as (y' & -> & S).
      inversion S as [|m u v w H1 H2]; subst.
      + exists y'. split; [|split; constructor]. cbn [map app]. now apply Spec_Portable.PRoot.
      + destruct O as [O _]. destruct (line_fixed _ _ H1 E _ O).
  Qed.
End Step.

(** ---- the operations ---- *)
Lemma in_new {X} (x x' : X) b c z : In z (b ++ x' :: c) -> z = x' \/ In z (b ++ x :: c).
Proof. intros H. apply in_app_or in H as [H|[H|H]]; [right; apply in_or_app; now left|now left|right; apply in_or_app; right; now right]. Qed.

Definition quiet (y : yaml) : Prop := filled y /\ no_inline_comment y.

Section Shapes.
  Lemma filled_h b k al v v' c : filled (Hash (b ++ HElem (mkHE k (mkA al v)) :: c)) -> filled (Hash (b ++ HElem (mkHE k (mkA al v')) :: c)).
  Proof. intros _ E. now destruct b. Qed.
  Lemma filled_a b al v v' c : filled (Array (b ++ AElem (mkA al v) :: c)) -> filled (Array (b ++ AElem (mkA al v') :: c)).
  Proof. intros _ E. discriminate. Qed.
  Lemma inline_h b e e' c : no_inline_comment (Hash (b ++ HElem e :: c)) -> no_inline_comment (Hash (b ++ HElem e' :: c)).
  Proof. intros H x Hi. destruct (in_new (HElem e) _ _ _ _ Hi); [discriminate|]. now apply (H x). Qed.
  Lemma inline_a b e e' c : no_inline_comment (Array (b ++ AElem e :: c)) -> no_inline_comment (Array (b ++ AElem e' :: c)).
  Proof. intros H x Hi. destruct (in_new (AElem e) _ _ _ _ Hi); [discriminate|]. now apply (H x). Qed.
  Lemma comment_h b e e' c : no_comment (Hash (b ++ HElem e :: c)) -> no_comment (Hash (b ++ HElem e' :: c)).
  Proof. intros H x Hi. destruct (in_new (HElem e) _ _ _ _ Hi) as [->|]; [reflexivity|]. now apply H. Qed.
  Lemma comment_a b e e' c : no_comment (Array (b ++ AElem e :: c)) -> no_comment (Array (b ++ AElem e' :: c)).
  Proof. intros H x Hi. destruct (in_new (AElem e) _ _ _ _ Hi) as [->|]; [eauto|]. now apply H. Qed.
End Shapes.

Lemma everywhere_new q b e e' c : everywhere q (Hash (b ++ HElem e :: c)) -> q (Hash (b ++ HElem e' :: c)) ->
  everywhere q (a_value (he_value e')) -> everywhere q (Hash (b ++ HElem e' :: c)).
Proof.
  intros E Q V. apply everywhere_h in E as [_ E]. apply everywhere_h. split; [auto|]. intros x Hi.
  destruct (in_new (HElem e) _ _ _ _ Hi) as [H|H]; [injection H as ->; auto|auto].
Qed.
Lemma everywhere_old q b e c : everywhere q (Hash (b ++ HElem e :: c)) -> everywhere q (a_value (he_value e)).
Proof. intros E. apply everywhere_h in E as [_ E]. apply E, in_mid. Qed.

Lemma inline_not b e c : no_inline_comment (Hash (b ++ HElem e :: c)) -> ~ commented c.
Proof. intros H (x & r & ->). apply (H x). apply in_or_app. right. right. now left. Qed.

(** What an operation does to a document. *)
Definition changed (G : list (node * node) -> list (node * node) -> Prop) (y : yaml) (n : nat) (d' : document) : Prop :=
  exists y', portable_doc d' y' /\ times (amended G) n (Node None (content_of y)) (Node None (content_of y')).
Lemma changed_amends G d y n d' : portable_doc d y -> changed G y n d' -> amends G n d d'.
Proof.
  intros D (y' & P & T). exists (Node None (content_of y)), (Node None (content_of y')). split; [now apply doc_wrote|]. split; [now apply doc_wrote|exact T].
Qed.
Lemma doc_changed (F : list hashdata -> list hashdata -> Prop) G (q : yaml -> Prop) d y n d' : (forall l l', F l l' -> q (Hash l) -> l <> []) ->
  (forall l l', F l l' -> map_rows l -> everywhere q (Hash l) ->
    map_rows l' /\ everywhere q (Hash l') /\ G (map_nodes l) (map_nodes l') /\ ((exists e, In (HElem e) l') \/ l' = [])) ->
  (forall b k al v v' c, q (Hash (b ++ HElem (mkHE k (mkA al v)) :: c)) -> q (Hash (b ++ HElem (mkHE k (mkA al v')) :: c))) ->
  (forall b al v v' c, q (Array (b ++ AElem (mkA al v) :: c)) -> q (Array (b ++ AElem (mkA al v') :: c))) ->
  portable_doc d y -> everywhere q y ->
  leading d' = leading d /\ times (doc_step F) n (items d) (items d') ->
  (In (DYaml (Hash [])) (items d') -> forall c r, items d <> DComment c :: r) -> changed G y n d'.
Proof.
  intros H1 H2 H3 H4 D E S Em. destruct (doc_portable F G q H1 H2 H3 H4 d y n d' D E S Em) as (y' & P & _ & T). now exists y'.
Qed.

(** Roots keep their entries unless entries are removed. *)
Lemma root_stays (F : list hashdata -> list hashdata -> Prop) n l l' : (forall l l', F l l' -> l' <> []) -> times (doc_step F) n l l' -> In (DYaml (Hash [])) l' -> In (DYaml (Hash [])) l.
Proof.
  intros H T. induction T as [|n l m l' S _ IH]; auto. intros Hi. apply IH in Hi. destruct S as (a & y & y' & b & -> & -> & P).
  destruct (in_new (DYaml y) _ _ _ _ Hi) as [E|E]; [|auto]. injection E as E. exfalso.
  destruct P as [u u' Hf|b' k al v v' c P|b' al v v' c P|b' v v' c P]; try discriminate E; injection E as E; [now apply (H _ _ Hf)|now destruct b'].
Qed.
Lemma root_filled d y c r : portable_doc d y -> In (DYaml (Hash [])) (items d) -> items d <> DComment c :: r.
Proof.
  intros D Hi. destruct D as [cs0 cs y cs1 C0 C C1 P B|cs0 y cs1 C0 C1 O]; cbn [items] in *; [|discriminate].
  exfalso. apply in_app_or in Hi as [Hi|[Hi|Hi]].
  - apply in_map_iff in Hi as (z & X & _). discriminate.
  - injection Hi as ->. exact B.
  - apply in_map_iff in Hi as (z & X & _). discriminate.
Qed.

Lemma everywhere_both P : forall y, everywhere filled y -> everywhere P y -> everywhere (fun y => filled y /\ P y) y.
Proof.
  fix IH 1. intros y A B. destruct y as [l|l|l|l|s|s|s|l c|l c|s]; cbn [everywhere] in *; destruct A as [A1 A2], B as [B1 B2]; split; auto;
    clear A1 B1; induction l as [|d l IHl]; cbn [fold_right] in *; auto; destruct A2 as [A2 A3], B2 as [B2 B3]; (split; [|auto]).
  - destruct d as [k v]. exact (IH v A2 B2).
  - destruct d as [x|x|[k [al v]]]; auto; exact (IH v A2 B2).
  - exact (IH d A2 B2).
  - destruct d as [x|x|[al v]]; auto; exact (IH v A2 B2).
Qed.
Lemma everywhere_true (P : yaml -> Prop) : (forall y, P y) -> forall y, everywhere P y.
Proof.
  intros H. fix IH 1. intros y. destruct y as [l|l|l|l|s|s|s|l c|l c|s]; cbn [everywhere]; (split; [auto|]); auto;
    induction l as [|d l IHl]; cbn [fold_right]; auto; (split; [|exact IHl]).
  - destruct d as [k v]. exact (IH v).
  - destruct d as [x|x|[k [al v]]]; auto; exact (IH v).
  - destruct d as [x|x|[al v]]; auto; exact (IH v).
Qed.

Lemma insert_changed d y p k h ow n d' : portable_doc d y -> everywhere filled y -> last_key p = Some k ->
  key_portable k -> portable h -> everywhere filled (a_value h) ->
  (ow = false \/ Spec_Portable.on_line h \/ everywhere no_inline_comment y /\ everywhere no_inline_comment (a_value h)) ->
  insert_into_hash_doc p h ow d = (n, d') ->
  changed (fun l l' => gains k (node_of h) l l' \/ ow = true /\ sets k (node_of h) l l') y n d'.
Proof.
  intros D Ey Kp K Hh Eh Ho E.
  set (F := fun l l' => added' k h l l' \/ ow = true /\ replaced' k (fun k _ => mkHE k h) l l').
  assert (S : leading d' = leading d /\ times (doc_step F) n (items d) (items d')).
  { exact (edit_doc_steps F k p Kp (insert_f h ow) d n d' (insert_steps k h ow) E). }
  assert (Fne : forall l l', F l l' -> l' <> []).
  { intros l l' [[_ ->] | [_ (b & v & c & _ & -> & ->)]]; [now destruct l|now destruct b]. }
  assert (Em : In (DYaml (Hash [])) (items d') -> forall c r, items d <> DComment c :: r).
  { intros Hi c r. apply (root_filled d y); [auto|]. exact (root_stays F n _ _ Fne (proj2 S) Hi). }
  assert (Gn : forall l l', F l l' -> gains k (node_of h) (map_nodes l) (map_nodes l') \/ ow = true /\ sets k (node_of h) (map_nodes l) (map_nodes l')).
  { intros l l' [[Kn ->] | [W (b & v & c & Kb & -> & ->)]].
    - left. split; [now apply nodes_lack|]. rewrite nodes_app. f_equal. now destruct h.
    - right. split; [auto|]. rewrite !nodes_mid. exists (map_nodes b), (node_of v), (map_nodes c). split; [now apply nodes_lack|auto]. }
  assert (In' : forall l l', F l l' -> exists e, In (HElem e) l').
  { intros l l' [[_ ->] | [_ (b & v & c & _ & -> & ->)]]; eexists; [apply in_or_app; right; now left|apply in_mid]. }
  assert (Cs : (ow = false \/ Spec_Portable.on_line h) \/ everywhere no_inline_comment y /\ everywhere no_inline_comment (a_value h)) by tauto.
  destruct Cs as [Ho'|[Ny Nh]].
  - apply (doc_changed F _ filled d y n d'); auto; try (intros; eapply filled_h; eassumption); try (intros; eapply filled_a; eassumption).
    + intros l l' _ H ->. now apply H.
    + intros l l' Hf R El. split; [|split; [|split; [auto|left; eauto]]].
      * destruct Hf as [[_ ->] | [W (b & v & c & _ & -> & ->)]]; [now apply rows_end|].
        destruct (rows_mid _ _ _ _ R) as (_ & _ & _ & A & _). apply A; auto. intros _. destruct Ho'; [congruence|auto].
      * destruct Hf as [[_ ->] | [W (b & v & c & _ & -> & ->)]].
        -- apply everywhere_h in El as [_ El]. apply everywhere_h. split; [intros X; injection X as X; now destruct l|].
           intros e Hi. apply in_app_or in Hi as [Hi|[Hi|[]]]; [auto|]. injection Hi as <-. exact Eh.
        -- eapply everywhere_new; [exact El| |exact Eh]. intros X. injection X as X. now destruct b.
  - apply (doc_changed F _ quiet d y n d'); auto.
    + intros l l' _ [H _] ->. now apply H.
    + intros l l' Hf R El. split; [|split; [|split; [auto|left; eauto]]].
      * destruct Hf as [[_ ->] | [W (b & v & c & _ & -> & ->)]]; [now apply rows_end|].
        destruct (rows_mid _ _ _ _ R) as (_ & _ & _ & A & _). apply A; auto. intros Hc. exfalso.
        apply everywhere_h in El as [[_ El] _]. exact (inline_not _ _ _ El Hc).
      * assert (Qh : everywhere quiet (a_value h)) by (apply everywhere_both; auto).
        destruct Hf as [[_ ->] | [W (b & v & c & _ & -> & ->)]].
        -- apply everywhere_h in El as [[_ El0] El]. apply everywhere_h. split.
           { split; [intros X; injection X as X; now destruct l|]. intros x Hi. apply in_app_or in Hi as [Hi|[Hi|[]]]; [now apply (El0 x)|discriminate]. }
           intros e Hi. apply in_app_or in Hi as [Hi|[Hi|[]]]; [auto|]. injection Hi as <-. exact Qh.
        -- pose proof El as El1. apply everywhere_h in El1 as [[_ El1] _].
           eapply everywhere_new; [exact El| |exact Qh]. split; [intros X; injection X as X; now destruct b|]. exact (inline_h _ _ _ _ El1).
    + intros b k0 al v v' c [A B]. split; [exact (filled_h _ _ _ _ _ _ A)|exact (inline_h _ _ _ _ B)].
    + intros b al v v' c [A B]. split; [exact (filled_a _ _ _ _ _ A)|exact (inline_a _ _ _ _ B)].
    + now apply everywhere_both.
Qed.
Theorem insert_amends d y p k h ow n d' : portable_doc d y -> everywhere filled y -> last_key p = Some k ->
  key_portable k -> portable h -> everywhere filled (a_value h) ->
  (ow = false \/ Spec_Portable.on_line h \/ everywhere no_inline_comment y /\ everywhere no_inline_comment (a_value h)) ->
  insert_into_hash_doc p h ow d = (n, d') ->
  amends (fun l l' => gains k (node_of h) l l' \/ ow = true /\ sets k (node_of h) l l') n d d'.
Proof. intros D **. eapply changed_amends; [exact D|]. eapply insert_changed; eassumption. Qed.


Lemma rename_changed d y p k new n d' : portable_doc d y -> last_key p = Some k -> key_portable new ->
  rename_field_doc p new d = (n, d') -> changed (rekeys k new) y n d'.
Proof.
  intros D Kp K E. set (F := replaced' k (fun _ v => mkHE new v)).
  assert (S : leading d' = leading d /\ times (doc_step F) n (items d) (items d')).
  { eapply (each_doc_steps F k p Kp); [|exact E]. intros b k0 v c m e Kb -> Ef. injection Ef as <- <-. split; [reflexivity|]. now exists b, v, c. }
  assert (Em : In (DYaml (Hash [])) (items d') -> forall c r, items d <> DComment c :: r).
  { intros Hi c r. apply (root_filled d y); [auto|]. refine (root_stays F n _ _ _ (proj2 S) Hi).
    intros l l' (b & v & c0 & _ & -> & ->). now destruct b. }
  apply (doc_changed F _ (fun _ => True) d y n d'); auto.
  - intros l l' (b & v & c & _ & -> & ->) _. now destruct b.
  - intros l l' (b & v & c & Kb & -> & ->) R El. destruct (rows_mid _ _ _ _ R) as (_ & P & O & A & _).
    split; [auto|]. split; [eapply everywhere_new; [exact El|exact I|exact (everywhere_old _ _ _ _ El)]|].
    split; [|left; eexists; apply in_mid]. rewrite !nodes_mid. exists (map_nodes b), (node_of v), (map_nodes c). split; [now apply nodes_lack|auto].
  - apply everywhere_true. auto.
Qed.
Theorem rename_amends d y p k new n d' : portable_doc d y -> last_key p = Some k -> key_portable new ->
  rename_field_doc p new d = (n, d') -> amends (rekeys k new) n d d'.
Proof. intros D **. eapply changed_amends; [exact D|]. eapply rename_changed; eassumption. Qed.


Lemma nest_changed d y p k new n d' : portable_doc d y -> everywhere no_inline_comment y -> last_key p = Some k -> key_portable new ->
  to_object_doc p new d = (n, d') -> changed (nests k new) y n d'.
Proof.
  intros D Ey Kp K E. set (F := replaced' k (fun k v => mkHE k (mkA None (Hash [HElem (mkHE new v)])))).
  assert (S : leading d' = leading d /\ times (doc_step F) n (items d) (items d')).
  { eapply (each_doc_steps F k p Kp); [|exact E]. intros b k0 v c m e Kb -> Ef. injection Ef as <- <-. split; [reflexivity|]. now exists b, v, c. }
  assert (Em : In (DYaml (Hash [])) (items d') -> forall c r, items d <> DComment c :: r).
  { intros Hi c r. apply (root_filled d y); [auto|]. refine (root_stays F n _ _ _ (proj2 S) Hi).
    intros l l' (b & v & c0 & _ & -> & ->). now destruct b. }
  apply (doc_changed F _ no_inline_comment d y n d'); auto; try (intros; eapply inline_h; eassumption); try (intros; eapply inline_a; eassumption).
  - intros l l' (b & v & c & _ & -> & ->) _. now destruct b.
  - intros l l' (b & v & c & Kb & -> & ->) R El. destruct (rows_mid _ _ _ _ R) as (Kk & P & O & A & _).
    pose proof El as El1. apply everywhere_h in El1 as [El1 _].
    split; [|split; [|split; [|left; eexists; apply in_mid]]].
    + apply A; auto; [|intros Hc; destruct (inline_not _ _ _ El1 Hc)].
      apply PHash; [exact I|apply MREntry; [auto|auto|constructor]|eexists; now left].
    + eapply everywhere_new; [exact El|exact (inline_h _ _ _ _ El1)|]. cbn [a_value he_value]. apply everywhere_h. split.
      * intros x [X|[]]. discriminate.
      * intros e [X|[]]. injection X as <-. exact (everywhere_old _ _ _ _ El).
    + rewrite !nodes_mid. exists (map_nodes b), (node_of v), (map_nodes c). split; [now apply nodes_lack|]. split; [reflexivity|]. now destruct v.
Qed.
Theorem nest_amends d y p k new n d' : portable_doc d y -> everywhere no_inline_comment y -> last_key p = Some k -> key_portable new ->
  to_object_doc p new d = (n, d') -> amends (nests k new) n d d'.
Proof. intros D **. eapply changed_amends; [exact D|]. eapply nest_changed; eassumption. Qed.


Lemma remove_changed d y p k n d' : portable_doc d y -> everywhere no_comment y -> last_key p = Some k ->
  remove_from_hash_doc p d = (n, d') -> (In (DYaml (Hash [])) (items d') -> forall c r, items d <> DComment c :: r) ->
  changed (loses k) y n d'.
Proof.
  intros D Ey Kp E Em. set (F := removed' k).
  pose proof (edit_doc_steps F k p Kp _ d n d' (remove_steps k) E) as S.
  apply (doc_changed F _ no_comment d y n d'); auto; try (intros; eapply comment_h; eassumption); try (intros; eapply comment_a; eassumption).
  - intros l l' (b & v & c & _ & -> & ->) _. now destruct b.
  - intros l l' (b & v & c & Kb & -> & ->) R El. destruct (rows_mid _ _ _ _ R) as (Kk & P & O & _ & A).
    pose proof El as El1. apply everywhere_h in El1 as [El1 El2].
    assert (Nc : forall x, In x (b ++ c) -> Spec_Format.is_entry x = true).
    { intros x Hi. apply El1. apply in_app_or in Hi as [Hi|Hi]; apply in_or_app; [now left|right; now right]. }
    split; [|split; [|split]].
    + apply A. intros (x & r & ->). specialize (El1 (HInlineC x)). discriminate El1. apply in_or_app. right. right. now left.
    + apply everywhere_h. split; [exact Nc|]. intros e Hi. apply El2. apply in_app_or in Hi as [Hi|Hi]; apply in_or_app; [now left|right; now right].
    + rewrite nodes_mid, nodes_app. exists (map_nodes b), (node_of v), (map_nodes c). split; [now apply nodes_lack|auto].
    + destruct (b ++ c) as [|e r] eqn:Eb; [now right|left]. pose proof (Nc e (or_introl eq_refl)) as X. destruct e; try discriminate. eexists. now left.
Qed.
Theorem remove_amends d y p k n d' : portable_doc d y -> everywhere no_comment y -> last_key p = Some k ->
  remove_from_hash_doc p d = (n, d') -> (In (DYaml (Hash [])) (items d') -> forall c r, items d <> DComment c :: r) ->
  amends (loses k) n d d'.
Proof. intros D **. eapply changed_amends; [exact D|]. eapply remove_changed; eassumption. Qed.


Lemma amends_every G n d d' x x' : amends G n d d' -> yaml_file x (format_doc d ++ [NL]) -> yaml_file x' (format_doc d' ++ [NL]) ->
  times (amended G) n x x'.
Proof. intros (y & y' & A & B & T) H H'. now rewrite (file_one _ _ _ H A), (file_one _ _ _ H' B). Qed.
