(** Insertion adds whole lines. *)
From Coq Require Import Lia.
From Verif Require Import Base Ast Strings Path Peg Insert Format YamlGrammar Consume Spec_Parse Spec_Stable Spec_Edit YamlValues ParseFacts
  StableFacts ParsedNeat2 Spec_Local LocalFacts LocalFacts2.
Import ListNotations.

(** ---- tidy trees stay tidy ---- *)
Section Tidy.
  Context (k : str) (h : aliased) (Hh : everywhere tidy (a_value h)).

  Lemma place_kind y y' : at_place (added k h) y y' -> block_kind y' -> block_kind y.
  Proof. now destruct 1. Qed.

  Lemma hash_tidy_mid b e e' c : (block_kind (a_value (he_value e')) -> block_kind (a_value (he_value e))) ->
    hash_tidy (b ++ HElem e :: c) -> hash_tidy (b ++ HElem e' :: c).
  Proof.
    intros B. induction b as [|d b IH]; cbn [app hash_tidy].
    - intros [H1 H2]. split; [|exact H2]. intros X Y. exact (H1 X (B Y)).
    - destruct d as [x|x|e0]; auto. intros [H1 H2]. split; [|auto]. intros (x & r & E). apply H1.
      destruct b as [|d b]; [discriminate|]. exists x. cbn in E. injection E as -> <-. eexists. reflexivity.
  Qed.
  Lemma array_tidy_mid b e e' c : (block_kind (a_value e') -> block_kind (a_value e)) ->
    array_tidy (b ++ AElem e :: c) -> array_tidy (b ++ AElem e' :: c).
  Proof.
    intros B. induction b as [|d b IH]; cbn [app array_tidy].
    - intros [H1 H2]. split; [|exact H2]. intros X Y. exact (H1 X (B Y)).
    - destruct d as [x|x|e0]; auto. intros [H1 H2]. split; [|auto]. intros (x & r & E). apply H1.
      destruct b as [|d b]; [discriminate|]. exists x. cbn in E. injection E as -> <-. eexists. reflexivity.
  Qed.
  Lemma hash_tidy_end l e : hash_tidy l -> hash_tidy (l ++ [HElem e]).
  Proof.
    induction l as [|d l IH]; cbn [app hash_tidy].
    - intros _. split; [|exact I]. now intros (c & r & X).
    - destruct d as [x|x|e0]; auto. intros [H1 H2]. split; [|auto]. intros (x & r & E). apply H1.
      destruct l as [|d l]; [discriminate|]. exists x. cbn in E. injection E as -> <-. eexists. reflexivity.
  Qed.
  Lemma in_swap {X} b (x x' y : X) c : In y (b ++ x' :: c) -> In y (b ++ x :: c) \/ y = x'.
  Proof. intros H. apply in_app_or in H as [H|[H|H]]; [left|right; auto|left]; apply in_or_app; cbn; auto. Qed.

  Lemma place_tidy y y' : at_place (added k h) y y' -> everywhere tidy y -> everywhere tidy y'.
  Proof.
    induction 1 as [l l' H|b k0 al v v' c H IH|b al v v' c H IH|b v v' c H IH]; intros T.
    - rewrite H. apply everywhere_h in T as [[T1 T2] T3]. apply everywhere_h. split.
      + split; [now destruct l|]. now apply hash_tidy_end.
      + intros e He. apply in_app_or in He as [He|[He|[]]]; [auto|]. now injection He as <-.
    - apply everywhere_h in T as [[T1 T2] T3]. apply everywhere_h. split.
      + split; [now destruct b|]. eapply hash_tidy_mid; [|exact T2]. exact (place_kind _ _ H).
      + intros e He. apply (in_swap b (HElem (mkHE k0 (mkA al v)))) in He as [He|He]; [auto|]. injection He as ->. apply IH.
        exact (T3 _ (in_mid _ _ _)).
    - apply everywhere_a in T as [T2 T3]. apply everywhere_a. split.
      + cbn. eapply array_tidy_mid; [|exact T2]. exact (place_kind _ _ H).
      + intros e He. apply (in_swap b (AElem (mkA al v))) in He as [He|He]; [auto|]. injection He as ->. apply IH.
        exact (T3 _ (in_mid _ _ _)).
    - apply everywhere_i in T as [T2 T3]. apply everywhere_i. cbn in *. split.
      + intros e He. apply (in_swap b v) in He as [He| ->]; [auto|]. intros B. apply (T2 v (in_mid _ _ _)). exact (place_kind _ _ H B).
      + intros e He. apply (in_swap b v) in He as [He| ->]; [auto|]. apply IH, T3, in_mid.
  Qed.

  (** ---- documents ---- *)
  Definition tidy_items (l : list docdata) : Prop :=
    exists a y b, l = map DComment a ++ DYaml y :: map DComment b /\ everywhere tidy y.

  Lemma comments_line_end b : line_end (flat_map format_docdata (map DComment b)).
  Proof. destruct b as [|c b]; [now left|]. right. eexists. reflexivity. Qed.

  Lemma only_root a y b : forall a' y' b', map DComment a ++ DYaml y :: map DComment b = a' ++ DYaml y' :: b' ->
    a' = map DComment a /\ y' = y /\ b' = map DComment b.
  Proof.
    induction a as [|c a IH]; intros a' y' b' E; cbn in E.
    - destruct a' as [|x a']; [injection E as -> ->; auto|]. exfalso. cbn in E. injection E as _ E.
      assert (X : In (DYaml y') (map DComment b)) by (rewrite E; apply in_mid).
      apply in_map_iff in X as (z & X & _). discriminate.
    - destruct a' as [|x a']; [discriminate|]. cbn in E. injection E as <- E. destruct (IH _ _ _ E) as (-> & -> & ->). auto.
  Qed.

  Lemma strict_step l l' : tidy_items l -> doc_step (added k h) l l' ->
    tidy_items l' /\ patch (lines_added k h) (flat_map format_docdata l) (flat_map format_docdata l').
  Proof.
    intros (a & y & b & -> & T) (a' & y0 & y' & b' & E & -> & P).
    destruct (only_root _ _ _ _ _ _ E) as (-> & -> & ->). split.
    - exists a, y', b. split; [reflexivity|]. exact (place_tidy _ _ P T).
    - assert (X : forall o o' c c', lines_added k h o o' c -> (True -> line_end c') -> lines_added k h o o' (c ++ c')).
      { intros o o' c c' (-> & Hc & Ho) Hc'. split; [reflexivity|]. split; [|exact Ho].
        destruct Hc as [-> | (r & ->)]; [now apply Hc'|]. right. now exists (r ++ c'). }
      rewrite !flat_map_app. cbn [flat_map format_docdata].
      apply (patch_in True); [exact X| |intros _; apply comments_line_end].
      apply (place_text True (added k h)); [exact X| |exact P|intros _; exact T].
      intros l l' -> Hl sp par. apply added_lines. now apply Hl.
  Qed.
End Tidy.

Theorem insert_strict d y p k h n d' : root_of d y -> everywhere tidy y -> everywhere tidy (a_value h) -> last_key p = Some k ->
  insert_into_hash_doc p h false d = (n, d') -> times (patch (lines_added k h)) n (format_doc d) (format_doc d').
Proof.
  intros (a & b & R) T Th K E. destruct (edit_doc_steps _ k p K _ d n d' (insert_false k h) E) as [L S].
  unfold format_doc. rewrite L.
  assert (I : tidy_items (items d)) by (exists a, y, b; auto).
  refine (proj2 (times_inv (doc_step (added k h)) (patch (lines_added k h)) tidy_items
    (fun l => flat_map (fun c => lit "#" ++ c ++ [NL]) (leading d) ++ lit "---" ++ flat_map format_docdata l) _ n _ _ S I)).
  intros l l' Hl Hs. destruct (strict_step k h Th l l' Hl Hs) as [H1 H2]. split; [exact H1|].
  destruct H2 as (a0 & o & o' & b0 & -> & -> & H2).
  exists (flat_map (fun c => lit "#" ++ c ++ [NL]) (leading d) ++ lit "---" ++ a0), o, o', b0.
  rewrite <- !app_assoc. auto.
Qed.

(** ---- lines ---- *)
Lemma split_at c a b : split c (a ++ c :: b) = split c a ++ split c b.
Proof.
  induction a as [|x a IH]; [cbn; now rewrite ceqb_refl|]. cbn [app]. rewrite !split_cons, IH.
  destruct (ceqb x c); [reflexivity|]. pose proof (split_ne c a) as N. now destruct (split c a).
Qed.
Lemma sublist_refl {A} (l : list A) : sublist l l.
Proof. induction l; constructor; auto. Qed.
Lemma sublist_trans {A} (x y z : list A) : sublist x y -> sublist y z -> sublist x z.
Proof.
  intros H G. revert x H. induction G as [|e l l' G IH|e l l' G IH]; intros x H; auto.
  - inversion H; subst; constructor; auto.
  - constructor. auto.
Qed.
Lemma sublist_mid {A} (a g b : list A) : sublist (a ++ b) (a ++ g ++ b).
Proof.
  induction a as [|x a IH]; cbn; [|now constructor]. induction g as [|x g IH]; cbn; [apply sublist_refl|now constructor].
Qed.

Lemma patch_lines k h s s' : patch (lines_added k h) s s' -> exists i a b,
  split NL s = a ++ b /\ split NL s' = a ++ split NL (indent i ++ entry_at i k h) ++ b.
Proof.
  intros (a & o & o' & b & -> & -> & -> & Hb & i & ->). cbn [app]. exists i. destruct Hb as [-> | (r & ->)].
  - exists (split NL a), []. rewrite !app_nil_r. split; [reflexivity|]. apply split_at.
  - exists (split NL a), (split NL r). split; [apply split_at|]. cbn [app]. rewrite split_at. now rewrite split_at.
Qed.

Theorem kept_lines k h n s s' : times (patch (lines_added k h)) n s s' -> sublist (split NL s) (split NL s').
Proof.
  induction 1 as [s|n s s1 s' H _ IH]; [apply sublist_refl|]. eapply sublist_trans; [|exact IH].
  destruct (patch_lines _ _ _ _ H) as (i & a & b & -> & ->). apply sublist_mid.
Qed.

Theorem more_lines k h n s s' : (forall i, ~ In NL (entry_at i k h)) -> times (patch (lines_added k h)) n s s' ->
  length (split NL s') = length (split NL s) + n.
Proof.
  intros Hn. induction 1 as [s|n s s1 s' H _ IH]; [lia|]. rewrite IH.
  destruct (patch_lines _ _ _ _ H) as (i & a & b & -> & ->). rewrite split_no_char.
  - rewrite !app_length. cbn. lia.
  - destruct (has_char NL (indent i ++ entry_at i k h)) eqn:X; [|reflexivity]. exfalso.
    apply has_char_true in X. apply in_app_or in X as [X|X]; [|exact (Hn i X)].
    unfold indent, repeat_char in X. apply repeat_spec in X. discriminate.
Qed.

(** ---- parsed documents are tidy ---- *)
Lemma placed_tidy_h l : hash_placed l -> hash_tidy l.
Proof.
  assert (K : forall y, inline_kind y -> ~ block_kind y) by (intros []; cbn; tauto).
  induction 1; cbn [hash_tidy]; auto; try (split; auto; fail).
  - split; [|exact I]. now intros (c & r & X).
  - split; [|exact IHhash_placed]. intros (c & r & X). subst. inversion H.
Qed.
Lemma placed_tidy_a l : array_placed l -> array_tidy l.
Proof.
  assert (K : forall y, inline_kind y -> ~ block_kind y) by (intros []; cbn; tauto).
  induction 1; cbn [array_tidy]; auto; try (split; auto; fail).
  - split; [|exact I]. now intros (c & r & X).
  - split; [|exact IHarray_placed]. intros (c & r & X). subst. inversion H.
Qed.

Theorem parsed_tidy ut s d : parse_yaml ut s = CVal d -> exists y, root_of d y /\ everywhere tidy y.
Proof.
  intros E. pose proof (parse_outcome ut s) as O. rewrite E in O. destruct O as [(_ & a & y & b & Ei & _) _].
  exists y. split; [now exists a, b|].
  assert (Hy : In (DYaml y) (items d)) by (rewrite Ei; apply in_or_app; right; now left).
  eapply everywhere_impl; [|exact (everywhere_and _ _ y (everywhere_and _ _ y (parsed_inline ut s d E y Hy) (parsed_writable ut s d E y Hy))
    (proj1 (parsed_neat ut s d E) y Hy))].
  clear. intros y [[Hi Hw] Hn]. destruct y as [l|l|l|l|ps|ps|q|ls b|ls b|x]; try exact I; cbn in *.
  - split; [|now apply placed_tidy_h]. destruct Hw as [[e He] _]. now destruct l.
  - intros v Hv. specialize (Hi v Hv). destruct v; cbn in *; tauto.
  - now apply placed_tidy_a.
Qed.

(** ---- files ---- *)
Theorem insert_file_lines ut s d p k h n d' : parse_yaml ut s = CVal d -> everywhere tidy (a_value h) -> last_key p = Some k ->
  insert_into_hash_doc p h false d = (n, d') -> times (patch (lines_added k h)) n (format_doc d) (format_doc d').
Proof.
  intros E Th K Ei. destruct (parsed_tidy ut s d E) as (y & R & T). exact (insert_strict d y p k h n d' R T Th K Ei).
Qed.
