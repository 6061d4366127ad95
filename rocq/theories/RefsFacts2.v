(** Reading a tree and reading it with its references replaced. *)
From Coq Require Import ZArith Lia.
From Verif Require Import Base Ast Strings Format Num Pretty Ser De Attr Spec_Pretty Spec_Serde Spec_Look Spec_Attr Spec_Refs
  LookFacts LookFacts2 AttrFacts AttrFacts2 AttrFacts3 RefsFacts.
Import ListNotations.
Notation plain y := (forall m, y <> Anchor m).

Lemma ref_plain y : is_ref y = false <-> plain y.
Proof. split; [intros H m ->; discriminate|]. intros H. destruct y; try reflexivity. now elim (H s). Qed.
Lemma seq_children y l : seq_items y = Some l -> children y = l.
Proof. destruct y; try discriminate; intros E; injection E as <-; reflexivity. Qed.
Lemma map_children y l : map_items y = Some l -> children y = map he_value l.
Proof.
  destruct y; try discriminate; intros E; injection E as <-; cbn.
  - now rewrite map_map.
  - induction l0 as [|[c|c|e] l0 IH]; cbn; [reflexivity|exact IH|exact IH|]. now rewrite IH.
Qed.

Lemma defines_trans r n y m z : defines r n y -> defines y m z -> defines r m z.
Proof. intros H G. induction H as [r e n H E|r e n y H F IH]; [exact (DDeep r e m z H G)|]. exact (DDeep r e m z H (IH G)). Qed.
Lemma scoped_mono N y : scoped N y -> forall N' : str -> Prop, (forall n, N n -> N' n) -> scoped N' y.
Proof.
  intros H. induction H as [N n H|N y P H IH]; intros N' L; [constructor; auto|].
  constructor 2; [exact P|]. intros e I. apply (IH e I). intros m [M|M]; auto.
Qed.

Section Unf.
  Context (D : str -> yaml -> Prop).
  Notation U := (unfolds D).
  Lemma U_plain y z : U y z -> plain z.
  Proof.
    intros H m ->. inversion H as [? S| ? x ? _ P G| | | | ]; subst; [discriminate|].
    inversion G; subst; discriminate.
  Qed.
  Definition aU (e e' : aliased) : Prop := a_alias e' = None /\ U (a_value e) (a_value e').
  Definition hU (e e' : hash_element) : Prop := he_key e = he_key e' /\ aU (he_value e) (he_value e').
  Lemma U_seq y z : U y z -> plain y ->
    match seq_items y, seq_items z with
    | Some l, Some m => Forall2 aU l m | None, None => True | _, _ => False end.
  Proof.
    intros H P. destruct H as [y S|n y y' _ _ _|l l' H|l l' H|l l' H|l l' H]; cbn.
    - destruct y; try discriminate; exact I.
    - now elim (P n).
    - exact I.
    - exact I.
    - clear P. induction H; cbn; try assumption; first [now apply Forall2_nil|apply Forall2_cons; [split; [reflexivity|assumption]|apply IHunfolds_array; assumption]].
    - clear P. induction H; cbn; first [now apply Forall2_nil|apply Forall2_cons; [split; [reflexivity|assumption]|apply IHunfolds_list; assumption]].
  Qed.
  Lemma U_map y z : U y z -> plain y ->
    match map_items y, map_items z with
    | Some l, Some m => Forall2 hU l m | None, None => True | _, _ => False end.
  Proof.
    intros H P. destruct H as [y S|n y y' _ _ _|l l' H|l l' H|l l' H|l l' H]; cbn.
    - destruct y; try discriminate; exact I.
    - now elim (P n).
    - clear P. induction H; cbn; try assumption; first [now apply Forall2_nil|apply Forall2_cons; [split; [reflexivity|split; [reflexivity|assumption]]|apply IHunfolds_hash; assumption]].
    - clear P. induction H; cbn; first [now apply Forall2_nil|apply Forall2_cons; [split; [reflexivity|split; [reflexivity|assumption]]|apply IHunfolds_inline; assumption]].
    - exact I.
    - exact I.
  Qed.
  Lemma U_scalar y z : U y z -> plain y -> seq_items y = None -> map_items y = None -> y = z.
  Proof.
    intros H P S M. destruct H as [y H|n y y' _ _ _|l l' H|l l' H|l l' H|l l' H]; try discriminate; [reflexivity|].
    now elim (P n).
  Qed.
  Lemma regs_none l m b : Forall2 aU l m -> fold_left register m b = b.
  Proof. intros H. revert b. induction H as [|e e' l m [E _] H IH]; intros b; cbn; [reflexivity|]. unfold register at 2. rewrite E. apply IH. Qed.
  Lemma hU_values l m : Forall2 hU l m -> Forall2 aU (map he_value l) (map he_value m).
  Proof. intros H. induction H as [|e e' l m [_ E] H IH]; cbn; constructor; assumption. Qed.

  (** Registrations. *)
  Lemma regs_in l a n x : In (n, x) (fold_left register l a) ->
    In (n, x) a \/ exists e, In e l /\ a_alias e = Some n /\ a_value e = x.
  Proof.
    revert a. induction l as [|e l IH]; intros a H; cbn in H; [now left|].
    apply IH in H as [H|(e' & H & E)]; [|right; exists e'; split; [now right|exact E]].
    unfold register in H. destruct (a_alias e) as [k|] eqn:E; [|now left].
    destruct H as [H|H]; [|now left]. injection H as <- <-. right. exists e. split; [now left|now split].
  Qed.
  Lemma resolve_names a n : resolve a n <> None <-> In n (map fst a).
  Proof.
    induction a as [|[m y] a IH]; cbn; [tauto|]. destruct (seqb m n) eqn:E.
    - apply seqb_eq in E. subst. split; [now left|discriminate].
    - rewrite IH. split; [now right|]. intros [->|H]; [|exact H]. rewrite seqb_refl in E. discriminate.
  Qed.
  Lemma regs_names l a n : In n (map fst (fold_left register l a)) <->
    In n (map fst a) \/ exists e, In e l /\ a_alias e = Some n.
  Proof.
    revert a. induction l as [|e l IH]; intros a; cbn; [firstorder|]. rewrite IH. unfold register.
    destruct (a_alias e) as [k|] eqn:E; cbn; split.
    - intros [[<-|H]|(e' & H & F)]; [right; exists e; tauto|now left|right; exists e'; tauto].
    - intros [H|(e' & [<-|H] & F)]; [tauto|left; left; congruence|right; exists e'; tauto].
    - intros [H|(e' & H & F)]; [now left|right; exists e'; tauto].
    - intros [H|(e' & [<-|H] & F)]; [tauto|congruence|right; exists e'; tauto].
  Qed.
  Lemma resolve_in a n x : resolve a n = Some x -> In (n, x) a.
  Proof.
    induction a as [|[m y] a IH]; cbn; [discriminate|]. destruct (seqb m n) eqn:E.
    - apply seqb_eq in E. subst. intros F. injection F as ->. now left.
    - intros F. right. now apply IH.
  Qed.

  Context (fun_D : forall n y z, D n y -> D n z -> y = z).
  Context (closed_D : forall n y m z, D n y -> defines y m z -> D m z).
  Definition inner (y : yaml) : Prop := forall n x, defines y n x -> D n x.
  Definition state (a : anchors) : Prop := forall n x, In (n, x) a -> D n x.
  Lemma inner_child y e : inner y -> In e (children y) -> inner (a_value e).
  Proof. intros H I n x G. apply H. exact (DDeep y e n x I G). Qed.
  Lemma state_regs y a : inner y -> state a -> state (fold_left register (children y) a).
  Proof.
    intros H S n x G. apply regs_in in G as [G|(e & I & E & <-)]; [now apply S|]. apply H. now constructor.
  Qed.
  Lemma state_res a n x : state a -> resolve a n = Some x -> D n x.
  Proof. intros S H. apply S. now apply resolve_in. Qed.

  (** From the tree with references to the tree without. *)
  Definition Af (_ : unit) (a b : anchors) : Prop := state a.
  Definition Rf (_ : unit) (y z : yaml) : Prop := inner y /\ U y z.
  Notation tt_le := (fun _ _ : unit => True).
  Lemma f_res w y z a b y' : Rf w y z -> Af w a b -> into_resolved y a = Some y' ->
    exists z', into_resolved z b = Some z' /\ Rf w y' z' /\ plain y' /\ plain z'.
  Proof.
    intros [In_ H] S E. assert (Pz := U_plain y z H).
    assert (Ez : into_resolved z b = Some z) by (destruct z; try reflexivity; now elim (Pz s)).
    exists z. split; [exact Ez|].
    destruct (anchor_dec y) as [[m ->]|Py].
    - inversion H as [? X|? x ? Dx Px G| | | | ]; subst; [discriminate|].
      assert (y' = x) as -> by (apply (fun_D m); [exact (state_res a m y' S E)|exact Dx]).
      split; [split; [|exact G]|split; [now apply ref_plain|exact Pz]].
      intros n u F. exact (closed_D m x n u Dx F).
    - assert (y' = y) as -> by (destruct y; try (injection E as <-; reflexivity); now elim (Py s)).
      split; [now split|now split].
  Qed.
  Lemma f_seq w y z a b : Rf w y z -> Af w a b -> plain y -> plain z -> seqs_ok unit tt_le Af Rf w y z a b.
  Proof.
    intros [I H] S Py Pz. unfold seqs_ok, read_seq. assert (G := U_seq y z H Py).
    destruct (seq_items y) as [l|] eqn:E, (seq_items z) as [m|] eqn:F; try contradiction; try exact I.
    - exists tt. apply seq_children in E. subst l. split; [exact Logic.I|]. split; [|now apply state_regs].
      clear F. assert (C : forall e, In e (children y) -> inner (a_value e)) by (intros e; now apply inner_child).
      revert C G. generalize (children y). intros l C G. induction G as [|e e' l m [_ G] Gs IH]; cbn; constructor.
      + split; [apply C; now left|exact G].
      + apply IH. intros x X. apply C. now right.
    - exact Logic.I.
  Qed.
  Lemma f_map w y z a b : Rf w y z -> Af w a b -> plain y -> plain z -> maps_ok unit tt_le Af Rf w y z a b.
  Proof.
    intros [I H] S Py Pz. unfold maps_ok, read_map. assert (G := U_map y z H Py).
    destruct (map_items y) as [l|] eqn:E, (map_items z) as [m|] eqn:F; try contradiction; try exact Logic.I.
    exists tt. apply map_children in E. split; [exact Logic.I|]. split; [|rewrite <- E; now apply state_regs].
    assert (C : forall e, In e l -> inner (a_value (he_value e))).
    { intros e X. apply (inner_child y); [exact I|]. rewrite E. now apply in_map. }
    clear E F. revert C. induction G as [|e e' l m [K [_ G]] Gs IH]; cbn; constructor.
    - split; cbn; [exact K|]. split; [apply C; now left|exact G].
    - apply IH. intros x X. apply C. now right.
  Qed.
  Lemma f_scalar (w : unit) y z : Rf w y z -> plain y -> plain z -> seq_items y = None -> map_items y = None -> y = z.
  Proof. intros [_ H] Py _. now apply U_scalar. Qed.
  Lemma f_word (w : unit) s : Rf w (Unquoted s) (Unquoted s).
  Proof. split; [|now constructor]. intros n x H. inversion H as [? ? ? X|? ? ? ? X]; destruct X. Qed.

  Lemma f_any n : forall m, n <= m -> aok2 unit Af Rf (de_any n) (de_any m).
  Proof.
    induction n as [|n IH]; intros m L w y z a b E B; [exact I|].
    destruct m as [|m]; [lia|]. assert (Pz := U_plain y z (proj2 E)).
    destruct (anchor_dec y) as [[k ->]|Py].
    - rewrite (de_any_eq n). destruct (resolve a k) as [y'|] eqn:F; [|exact I].
      destruct (f_res w _ z a b y' E B F) as (z' & Ez & E' & _ & _).
      assert (z' = z) as -> by (destruct z; try (injection Ez as <-; reflexivity); now elim (Pz s)).
      apply (IH (S m)); [lia|exact E'|exact B].
    - rewrite !any_at_eq by assumption. apply (s_any_at unit tt_le Af) with (R := Rf).
      + intros; unfold Af in *; assumption.
      + apply IH. lia.
      + exact B.
      + now apply f_map.
      + now apply f_seq.
      + now apply (f_scalar w).
  Qed.
  Lemma f_tagged n tag : forall m, n <= m -> aok2 unit Af Rf (n_tagged n tag) (n_tagged m tag).
  Proof.
    induction n as [|n IH]; intros m L w y z a b E B; [exact I|].
    destruct m as [|m]; [lia|]. assert (Pz := U_plain y z (proj2 E)).
    destruct (anchor_dec y) as [[k ->]|Py].
    - cbn [n_tagged]. destruct (resolve a k) as [y'|] eqn:F; [|exact I].
      destruct (f_res w _ z a b y' E B F) as (z' & Ez & E' & _ & _).
      assert (z' = z) as -> by (destruct z; try (injection Ez as <-; reflexivity); now elim (Pz s)).
      apply (IH (S m)); [lia|exact E'|exact B].
    - rewrite !tagged_eq by assumption. apply (s_tagged_at unit tt_le Af) with (R := Rf).
      + intros; unfold Af in *; assumption.
      + exact f_res.
      + exact f_scalar.
      + apply f_any. lia.
      + now apply f_map.
      + now apply f_seq.
  Qed.
  Lemma f_read fuel t : aok2 unit Af Rf (r_node (read fuel t)) (r_node (read fuel t)).
  Proof.
    refine (s_read unit tt_le Af Rf _ _ f_res f_seq f_map f_scalar fuel _ _ t).
    - intros; unfold Af in *; assumption.
    - exact f_word.
    - now apply f_any.
    - intros tag. now apply f_tagged.
  Qed.
  Lemma f_de t : aok2 unit Af Rf (fun y a => of_opt (de t y a)) (fun y a => of_opt (de t y a)).
  Proof.
    refine (s_de unit tt_le Af Rf _ _ f_res f_seq f_map f_scalar t).
    - intros; unfold Af in *; assumption.
    - exact f_word.
  Qed.

  (** From the tree without references to the tree with them. *)
  Definition good (N : str -> Prop) : Prop := forall n x, N n -> D n x -> scoped N x.
  Definition world : Type := {N : str -> Prop | good N}.
  Definition wle (w w' : world) : Prop := forall n, proj1_sig w n -> proj1_sig w' n.
  Definition Ab (w : world) (b a : anchors) : Prop := state a /\ forall n, proj1_sig w n -> In n (map fst a).
  Definition Rb (k : nat) (w : world) (z y : yaml) : Prop :=
    inner y /\ U y z /\ scoped (proj1_sig w) y /\ depth z <= k.
  Lemma Ab_le w w' a b : wle w w' -> Ab w' a b -> Ab w a b.
  Proof. intros L [S C]. split; [exact S|]. intros n H. apply C, L, H. Qed.
  Definition labels (N : str -> Prop) (y : yaml) (m : str) : Prop := N m \/ exists e', In e' (children y) /\ a_alias e' = Some m.
  Lemma good_labels N y : good N -> inner y -> scoped N y -> is_ref y = false -> good (labels N y).
  Proof.
    intros G I S P n x [H|(e & H & E)] Dx.
    - apply (scoped_mono N); [now apply (G n)|]. now left.
    - assert (a_value e = x) as <- by (apply (fun_D n); [apply I; now constructor|exact Dx]).
      inversion S as [? ? ?|? ? ? C]; subst; [discriminate|]. exact (C e H).
  Qed.
  Lemma b_res k w z y b a z' : Rb k w z y -> Ab w b a -> into_resolved z b = Some z' ->
    exists y', into_resolved y a = Some y' /\ Rb k w z' y' /\ plain z' /\ plain y'.
  Proof.
    intros (In_ & H & Sc & Dp) [S C] E. assert (Pz := U_plain y z H).
    assert (z' = z) as -> by (destruct z; try (injection E as <-; reflexivity); now elim (Pz s)).
    destruct (anchor_dec y) as [[m ->]|Py].
    - inversion H as [? X|? x ? Dx Px G| | | | ]; subst; [discriminate|].
      inversion Sc as [? ? Nm|? ? X]; subst; [|discriminate].
      destruct (resolve a m) as [x'|] eqn:F; [|now elim (proj2 (resolve_names a m) (C m Nm))].
      assert (x' = x) as -> by (apply (fun_D m); [exact (state_res a m x' S F)|exact Dx]).
      exists x. split; [exact F|]. split; [|split; [exact Pz|now apply ref_plain]].
      split; [intros n u K; exact (closed_D m x n u Dx K)|]. split; [exact G|]. split; [|exact Dp].
      exact (proj2_sig w m x Nm Dx).
    - exists y. split; [destruct y; try reflexivity; now elim (Py s)|]. split; [|now split]. repeat split; assumption.
  Qed.
  Lemma depth_seq_items z m : seq_items z = Some m -> depth z = S (fold_right (fun e n => Nat.max (depth (a_value e)) n) 0 m).
  Proof.
    destruct z; try discriminate; intros E; injection E as <-; cbn; f_equal.
    - induction l as [|v l IH]; cbn; [reflexivity|now rewrite IH].
    - induction l as [|[c|c|[al v]] l IH]; cbn; [reflexivity|exact IH|exact IH|now rewrite IH].
  Qed.
  Lemma depth_map_items z m : map_items z = Some m -> depth z = S (fold_right (fun e n => Nat.max (depth (a_value (he_value e))) n) 0 m).
  Proof.
    destruct z; try discriminate; intros E; injection E as <-; cbn; f_equal.
    - induction l as [|[k v] l IH]; cbn; [reflexivity|now rewrite IH].
    - induction l as [|[c|c|[k [al v]]] l IH]; cbn; [reflexivity|exact IH|exact IH|now rewrite IH].
  Qed.
  (** The world of the children. *)
  Lemma b_world k w z y b a : Rb k w z y -> Ab w b a -> plain y ->
    exists w', wle w w' /\ (forall e, In e (children y) -> inner (a_value e) /\ scoped (proj1_sig w') (a_value e)) /\
      Ab w' b (fold_left register (children y) a).
  Proof.
    intros (I & H & Sc & Dp) [S C] Py. apply ref_plain in Py.
    exists (exist _ (labels (proj1_sig w) y) (good_labels _ y (proj2_sig w) I Sc Py)). cbn.
    split; [intros n X; now left|]. split.
    - intros e X. split; [now apply (inner_child y)|]. inversion Sc as [? ? ?|? ? ? G]; subst; [discriminate|]. exact (G e X).
    - split; [now apply state_regs|]. cbn. intros n [X|X]; apply regs_names; [left; now apply C|now right].
  Qed.
  Lemma b_seq k w z y b a : Rb (S k) w z y -> Ab w b a -> plain z -> plain y ->
    seqs_ok world wle Ab (Rb k) w z y b a.
  Proof.
    intros E B Pz Py. destruct (b_world (S k) w z y b a E B Py) as (w' & L & C & B'). destruct E as (I & H & Sc & Dp).
    unfold seqs_ok, read_seq. assert (G := U_seq y z H Py).
    destruct (seq_items y) as [l|] eqn:E, (seq_items z) as [m|] eqn:F; try contradiction; try exact Logic.I.
    exists w'. split; [exact L|]. apply seq_children in E. subst l. rewrite (regs_none _ _ b G). split; [|exact B'].
    rewrite (depth_seq_items z m F) in Dp. assert (Dm : fold_right (fun e n => Nat.max (depth (a_value e)) n) 0 m <= k) by lia.
    apply max_in in Dm. clear F Dp B'. revert C G. generalize (children y). intros l C G.
    induction G as [|e e' l m [_ G] Gs IH]; cbn; constructor.
    - destruct (C e (or_introl eq_refl)). inversion Dm; subst. repeat split; assumption.
    - inversion Dm; subst. apply IH; [assumption|]. intros x X. apply C. now right.
  Qed.
  Lemma b_map k w z y b a : Rb (S k) w z y -> Ab w b a -> plain z -> plain y ->
    maps_ok world wle Ab (Rb k) w z y b a.
  Proof.
    intros E B Pz Py. destruct (b_world (S k) w z y b a E B Py) as (w' & L & C & B'). destruct E as (I & H & Sc & Dp).
    unfold maps_ok, read_map. assert (G := U_map y z H Py).
    destruct (map_items y) as [l|] eqn:E, (map_items z) as [m|] eqn:F; try contradiction; try exact Logic.I.
    exists w'. split; [exact L|]. apply map_children in E. rewrite <- E, (regs_none _ _ b (hU_values _ _ G)). split; [|exact B'].
    rewrite (depth_map_items z m F) in Dp.
    assert (Dm : fold_right (fun e n => Nat.max (depth (a_value (he_value e))) n) 0 m <= k) by lia.
    apply max_in in Dm.
    assert (C' : forall e, In e l -> inner (a_value (he_value e)) /\ scoped (proj1_sig w') (a_value (he_value e))).
    { intros e X. apply C. rewrite E. now apply in_map. }
    clear F Dp B' C E. revert C'. induction G as [|e e' l m (K & _ & G) Gs IH]; intros C; cbn; constructor.
    - destruct (C e (or_introl eq_refl)). inversion Dm; subst. split; [now symmetry|]. repeat split; assumption.
    - inversion Dm; subst. apply IH; [assumption|]. intros x X. apply C. now right.
  Qed.
  Lemma Rb_le k k' w z y : k <= k' -> Rb k w z y -> Rb k' w z y.
  Proof. intros L (I & H & S & Dp). repeat split; auto. lia. Qed.
  Lemma F2_le {X Y} (P Q : X -> Y -> Prop) l m : (forall x y, P x y -> Q x y) -> Forall2 P l m -> Forall2 Q l m.
  Proof. intros H F. induction F; constructor; auto. Qed.
  Lemma b_seq' k w z y b a : Rb k w z y -> Ab w b a -> plain z -> plain y -> seqs_ok world wle Ab (Rb k) w z y b a.
  Proof.
    intros E B Pz Py. assert (H := b_seq k w z y b a (Rb_le k (S k) w z y (le_S _ _ (le_n k)) E) B Pz Py). exact H.
  Qed.
  Lemma b_map' k w z y b a : Rb k w z y -> Ab w b a -> plain z -> plain y -> maps_ok world wle Ab (Rb k) w z y b a.
  Proof.
    intros E B Pz Py. exact (b_map k w z y b a (Rb_le k (S k) w z y (le_S _ _ (le_n k)) E) B Pz Py).
  Qed.
  Lemma b_scalar k w z y : Rb k w z y -> plain z -> plain y -> seq_items z = None -> map_items z = None -> z = y.
  Proof.
    intros (_ & H & _) Pz Py S M. symmetry. apply (U_scalar y z H Py).
    - assert (G := U_seq y z H Py). rewrite S in G. destruct (seq_items y); [contradiction|reflexivity].
    - assert (G := U_map y z H Py). rewrite M in G. destruct (map_items y); [contradiction|reflexivity].
  Qed.
  Lemma b_word k w s : 1 <= k -> Rb k w (Unquoted s) (Unquoted s).
  Proof.
    intros L. split; [intros n x H; inversion H as [? ? ? X|? ? ? ? X]; destruct X|]. split; [now constructor|].
    split; [|exact L]. constructor 2; [reflexivity|]. intros e [].
  Qed.
  Lemma b_any n : forall k m, 2 * k <= m -> aok2 world Ab (Rb k) (de_any n) (de_any m).
  Proof.
    induction n as [|n IH]; intros k m L w z y b a E B; [exact I|].
    assert (Pz := U_plain y z (proj1 (proj2 E))).
    destruct k as [|k]; [destruct E as (_ & _ & _ & E); pose proof (depth_pos z); lia|].
    rewrite (any_at_eq n z) by exact Pz.
    assert (G : forall y m, Rb (S k) w z y -> plain y -> 2 * k <= m -> oo1 world Ab w (any_at n z b) (any_at m y a)).
    { clear y m L E. intros y m E Py L. apply (s_any_at world wle Ab) with (R := Rb k).
      - exact Ab_le.
      - now apply IH.
      - exact B.
      - now apply b_map.
      - now apply b_seq.
      - now apply (b_scalar (S k) w). }
    destruct m as [|[|m]]; [lia|lia|].
    destruct (anchor_dec y) as [[j ->]|Py].
    - assert (Ez : into_resolved z b = Some z) by (destruct z; try reflexivity; now elim (Pz s)).
      destruct (b_res (S k) w z _ b a z E B Ez) as (y' & F & E' & _ & Py').
      cbn [into_resolved] in F. rewrite (de_any_eq (S m)), F, any_at_eq by exact Py'. apply G; [exact E'|exact Py'|lia].
    - rewrite (any_at_eq (S m)) by exact Py. apply G; [exact E|exact Py|lia].
  Qed.
  Lemma b_tagged_ok n tag : forall k m, 2 * k <= m -> aok2 world Ab (Rb k) (n_tagged n tag) (n_tagged m tag).
  Proof.
    destruct n as [|n]; intros k m L w z y b a E B; [exact I|].
    assert (Pz := U_plain y z (proj1 (proj2 E))).
    destruct k as [|k]; [destruct E as (_ & _ & _ & E); pose proof (depth_pos z); lia|].
    rewrite (tagged_eq n tag z) by exact Pz.
    assert (G : forall y m, Rb (S k) w z y -> plain y -> 2 * k <= m ->
              oo1 world Ab w (tagged_at (de_any n) tag z b) (tagged_at (de_any m) tag y a)).
    { clear y m L E. intros y m E Py L. apply (s_tagged_at world wle Ab) with (R := Rb k).
      - exact Ab_le.
      - apply b_res.
      - apply b_scalar.
      - now apply b_any.
      - now apply b_map.
      - now apply b_seq. }
    destruct m as [|[|m]]; [lia|lia|].
    destruct (anchor_dec y) as [[j ->]|Py].
    - assert (Ez : into_resolved z b = Some z) by (destruct z; try reflexivity; now elim (Pz s)).
      destruct (b_res (S k) w z _ b a z E B Ez) as (y' & F & E' & _ & Py').
      cbn [into_resolved] in F. cbn [n_tagged]. rewrite F. change (oo1 world Ab w (tagged_at (de_any n) tag z b) (n_tagged (S m) tag y' a)).
      rewrite tagged_eq by exact Py'. apply G; [exact E'|exact Py'|lia].
    - rewrite (tagged_eq (S m)) by exact Py. apply G; [exact E|exact Py|lia].
  Qed.
  Lemma b_read fuel k t : 1 <= k -> 2 * k <= fuel -> aok2 world Ab (Rb k) (r_node (read fuel t)) (r_node (read fuel t)).
  Proof.
    intros K L. refine (s_read world wle Ab (Rb k) Ab_le _ (b_res k) (b_seq' k) (b_map' k) (b_scalar k) fuel _ _ t).
    - intros w s. now apply b_word.
    - now apply b_any.
    - intros tag. now apply b_tagged_ok.
  Qed.
  Lemma b_de k t : 1 <= k -> aok2 world Ab (Rb k) (fun y a => of_opt (de t y a)) (fun y a => of_opt (de t y a)).
  Proof.
    intros K. refine (s_de world wle Ab (Rb k) Ab_le _ (b_res k) (b_seq' k) (b_map' k) (b_scalar k) t).
    - intros w s. now apply b_word.
  Qed.
End Unf.
