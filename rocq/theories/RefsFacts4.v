(** References to earlier values. *)
From Coq Require Import ZArith Lia.
From Verif Require Import Base Ast Strings Format Num Pretty Ser De Attr Spec_Pretty Spec_Serde Spec_Look Spec_Attr Spec_Refs
  LookFacts LookFacts2 AttrFacts AttrFacts2 AttrFacts3 RefsFacts RefsFacts2 RefsFacts3.
Import ListNotations.

Scheme backward_i := Minimality for backward Sort Prop
  with backward_all_i := Minimality for backward_all Sort Prop.
Combined Scheme backward_both from backward_i, backward_all_i.

Lemma entries_elems n l : forall a, any_entries n l a =
  match any_elems n (map snd l) a with
  | Done vs a2 => Done (combine (map (fun kv => any_unquoted (fst kv)) l) vs) a2
  | Failed => Failed | More => More
  end.
Proof.
  induction l as [|[k y] l IH]; intros a; cbn [any_entries any_elems map fst snd]; [reflexivity|].
  destruct (de_any n y a) as [v a1| |]; [|reflexivity|reflexivity]. rewrite IH.
  destruct (any_elems n (map snd l) a1); reflexivity.
Qed.

Lemma backward_mono :
  (forall N y N', backward N y N' -> forall m, N m -> N' m) /\
  (forall N l N', backward_all N l N' -> forall m, N m -> N' m).
Proof.
  apply backward_both; intros; auto.
Qed.
(** What is referred to in a value comes before it or in it. *)
Lemma backward_known :
  (forall N y N', backward N y N' -> forall m, refers y m -> N' m) /\
  (forall N l N', backward_all N l N' -> forall e m, In e l -> refers (a_value e) m -> N' m).
Proof.
  apply backward_both.
  - intros N n H m F. inversion F as [?|? ? ? X]; subst; [exact H|destruct X].
  - intros N N' y P _ IH m F. inversion F as [?|? e ? I G]; subst; [discriminate|exact (IH e m I G)].
  - intros N e m [].
  - intros N N1 N2 e es _ IH1 H2 IH2 e' m [<-|I] F; [|exact (IH2 e' m I F)].
    apply (proj2 backward_mono _ _ _ H2). left. exact (IH1 m F).
Qed.
(** If everything referred to comes before, it is all the same. *)
Lemma backward_free y : forall N : str -> Prop, (forall m, refers y m -> N m) -> exists N', backward N y N'.
Proof.
  assert (L : forall l, Forall (fun e => forall N : str -> Prop, (forall m, refers (a_value e) m -> N m) -> exists N', backward N (a_value e) N') l ->
    forall N : str -> Prop, (forall e m, In e l -> refers (a_value e) m -> N m) -> exists N', backward_all N l N').
  { intros l H. induction H as [|e l H Hs IH]; intros N C; [eexists; constructor|].
    destruct (H N (fun m => C e m (or_introl eq_refl))) as [N1 B].
    destruct (IH (fun m => N1 m \/ a_alias e = Some m)) as [N2 B2].
    { intros e' m I F. left. apply (proj1 backward_mono _ _ _ B). exact (C e' m (or_intror I) F). }
    exists N2. econstructor; [exact B|exact B2]. }
  assert (G : forall y, is_ref y = false ->
    Forall (fun e => forall N : str -> Prop, (forall m, refers (a_value e) m -> N m) -> exists N', backward N (a_value e) N') (children y) ->
    forall N : str -> Prop, (forall m, refers y m -> N m) -> exists N', backward N y N').
  { clear y. intros y P H N C. destruct (L _ H N) as [N' B]; [|exists N'; now constructor].
    intros e m I F. apply C. exact (RefDeep y e m I F). }
  induction y using yaml_ind'; try (apply G; [reflexivity|constructor]).
  - apply G; [reflexivity|]. cbn. induction H as [|kv l H Hs IH]; constructor; assumption.
  - apply G; [reflexivity|]. cbn. induction H as [|[c|c|e] l H Hs IH]; cbn; [constructor|exact IH|exact IH|]. constructor; assumption.
  - apply G; [reflexivity|]. cbn. induction H as [|kv l H Hs IH]; constructor; assumption.
  - apply G; [reflexivity|]. cbn. induction H as [|[c|c|e] l H Hs IH]; cbn; [constructor|exact IH|exact IH|]. constructor; assumption.
  - intros N C. exists N. constructor. apply C. constructor.
Qed.

Section Earlier.
  Context (D : str -> yaml -> Prop).
  Context (fun_D : forall n y z, D n y -> D n z -> y = z).
  Context (closed_D : forall n y m z, D n y -> defines y m z -> D m z).
  Notation U := (unfolds D).
  Definition covers (N : str -> Prop) (a : anchors) : Prop := forall n, N n -> In n (map fst a).
  Definition closed (N : str -> Prop) : Prop := forall n x m, N n -> D n x -> refers x m -> N m.
  Definition reads (N' : str -> Prop) (a : anchors) {A} (o : outcome A) : Prop :=
    exists v a1, o = Done v a1 /\ state D a1 /\ covers N' a1 /\ closed N' /\ incl (map fst a) (map fst a1).
  Definition okd (k f : nat) : Prop := forall y z N N' a, backward N y N' -> U y z -> depth z <= k ->
    inner D y -> state D a -> covers N a -> closed N -> reads N' a (de_any f y a).

  Lemma elems_reads k f (IH : okd k f) es ms N N' : backward_all N es N' -> Forall2 (aU D) es ms ->
    Forall (fun e => depth (a_value e) <= k) ms ->
    (forall e, In e es -> inner D (a_value e) /\ forall n, a_alias e = Some n -> D n (a_value e)) ->
    forall a, state D a -> covers N a -> (forall e n, In e es -> a_alias e = Some n -> In n (map fst a)) -> closed N ->
    reads N' a (any_elems f (map a_value es) a).
  Proof.
    intros B. revert ms. induction B as [N|N N1 N2 e es B Bs IHB]; intros ms F Dp C a S Co L Cl; inversion F as [|? e' ? ms' [_ Fe] Fs]; subst; cbn [map any_elems].
    - exists [], a. repeat split; try assumption. apply incl_refl.
    - inversion Dp; subst. destruct (C e (or_introl eq_refl)) as [I1 I2].
      destruct (IH _ _ N N1 a B Fe ltac:(assumption) I1 S Co Cl) as (v & a1 & -> & S1 & C1 & Cl1 & L1).
      destruct (IHB ms' Fs ltac:(assumption) (fun e' X => C e' (or_intror X)) a1 S1) as (vs & a2 & -> & S2 & C2 & Cl2 & L2).
      + intros n [X|X]; [now apply C1|]. apply L1. exact (L e n (or_introl eq_refl) X).
      + intros e0 n X Y. apply L1. exact (L e0 n (or_intror X) Y).
      + intros n x m [X|X] Dx R; left; [exact (Cl1 n x m X Dx R)|].
        rewrite <- (fun_D n _ _ (I2 n X) Dx) in R. exact (proj1 backward_known _ _ _ B m R).
      + exists (v :: vs), a2. repeat split; try assumption. exact (incl_tran L1 L2).
  Qed.
  Lemma node_reads k f (IH : okd k f) y z N N' a : plain y -> backward N y N' -> U y z -> depth z <= S k ->
    inner D y -> state D a -> covers N a -> closed N -> reads N' a (any_at f y a).
  Proof.
    intros Py B H Dp I S Co Cl. assert (Bs : backward_all N (children y) N').
    { inversion B as [? n|]; subst; [now elim (Py n)|assumption]. }
    assert (E : forall ms, Forall2 (aU D) (children y) ms -> Forall (fun e => depth (a_value e) <= k) ms ->
      reads N' a (any_elems f (map a_value (children y)) (fold_left register (children y) a))).
    { intros ms F Dm. destruct (elems_reads k f IH (children y) ms N N' Bs F Dm) with (a := fold_left register (children y) a) as (v & a1 & X & S1 & C1 & Cl1 & L1).
      - intros e X. split; [now apply (inner_child D y)|]. intros n Y. apply I. now constructor.
      - now apply state_regs.
      - intros n X. apply (proj2 (regs_names D _ _ _)). left. now apply Co.
      - intros e n X Y. apply (proj2 (regs_names D _ _ _)). right. exists e. now split.
      - exact Cl.
      - exists v, a1. repeat split; try assumption. intros n X1. apply L1. apply (proj2 (regs_names D _ _ _)). now left. }
    unfold any_at, read_seq, read_map. assert (Gs := U_seq D y z H Py). assert (Gm := U_map D y z H Py).
    destruct (seq_items y) as [l|] eqn:Es.
    - destruct (seq_items z) as [m|] eqn:Ez; [|contradiction]. apply seq_children in Es. subst l.
      rewrite (depth_seq_items z m Ez) in Dp. assert (Dm : fold_right (fun e n => Nat.max (depth (a_value e)) n) 0 m <= k) by lia.
      apply max_in in Dm. destruct (E m Gs Dm) as (v & a1 & -> & X). exists (AnSeq v), a1. now split.
    - destruct (map_items y) as [l|] eqn:Em.
      + destruct (map_items z) as [m|] eqn:Ez; [|contradiction]. apply map_children in Em.
        rewrite (depth_map_items z m Ez) in Dp. assert (Dm : fold_right (fun e n => Nat.max (depth (a_value (he_value e))) n) 0 m <= k) by lia.
        apply max_in in Dm. rewrite Em in E. specialize (E (map he_value m) (hU_values D l m Gm)).
        rewrite entries_elems, map_map. cbn [snd]. rewrite map_map in E.
        destruct E as (v & a1 & -> & X); [now apply Forall_map|]. eexists _, a1. split; [reflexivity|exact X].
      + exists (any_scalar y), a. split; [reflexivity|]. split; [exact S|].
        assert (Q : children y = []) by (destruct y; try discriminate; reflexivity). rewrite Q in Bs. inversion Bs; subst.
        split; [exact Co|]. split; [exact Cl|apply incl_refl].
  Qed.
  Lemma any_reads k : forall f, 2 * k <= f -> okd k f.
  Proof.
    induction k as [|k IH]; intros f L y z N N' a B H Dp I S Co Cl; [pose proof (depth_pos z); lia|].
    destruct f as [|[|f]]; [lia|lia|].
    destruct (anchor_dec y) as [[m ->]|Py].
    - inversion H as [? X|? x ? Dx Px G| | | | ]; subst; [discriminate|].
      inversion B as [? ? Nm|? ? ? X]; subst; [|discriminate].
      destruct (resolve a m) as [x'|] eqn:F; [|now elim (proj2 (resolve_names D a m) (Co m Nm))].
      assert (x' = x) as -> by (apply (fun_D m); [exact (state_res D a m x' S F)|exact Dx]).
      rewrite de_any_eq, F. assert (Px1 := proj1 (ref_plain x) Px). rewrite any_at_eq by exact Px1.
      destruct (backward_free x N') as [N2 B2]; [intros j R; exact (Cl m x j Nm Dx R)|].
      destruct (node_reads k f (IH f ltac:(lia)) x z N' N2 a Px1 B2 G Dp) as (v & a1 & E & S1 & C1 & Cl1 & L1); try assumption.
      + intros n u K. exact (closed_D m x n u Dx K).
      + exists v, a1. repeat split; try assumption. intros n X. apply C1. exact (proj1 backward_mono _ _ _ B2 n X).
    - rewrite any_at_eq by exact Py. apply (node_reads k (Datatypes.S f)) with (z := z) (N := N); try assumption. apply IH. lia.
  Qed.

  (** And there is something to read. *)
  Definition known (N : str -> Prop) : Prop := forall n, N n -> exists x x', D n x /\ is_ref x = false /\ U x x'.
  Lemma U_children y ms : Forall2 (aU D) (children y) ms -> is_ref y = false -> exists z, U y z.
  Proof.
    revert ms. destruct y; cbn [children]; intros ms F P; try (eexists; constructor; reflexivity); try discriminate.
    - assert (E : exists l', unfolds_inline D l l').
      { clear P. revert ms F. induction l as [|[k v] l IH]; intros ms F; [eexists; constructor|]. inversion F as [|? e ? ms' [_ X] Fs]; subst.
        destruct (IH _ Fs) as [l' E]. eexists. constructor; [exact X|exact E]. }
      destruct E as [l' E]. exists (InlineHash l'). now constructor.
    - assert (E : exists l', unfolds_hash D l l').
      { clear P. revert ms F. induction l as [|[c|c|[k [al v]]] l IH]; intros ms F; [eexists; constructor| | |].
        1,2: destruct (IH _ F) as [l' E]; eexists; constructor; exact E.
        inversion F as [|? e ? ms' [_ X] Fs]; subst. destruct (IH _ Fs) as [l' E]. eexists. constructor; [exact X|exact E]. }
      destruct E as [l' E]. exists (Hash l'). now constructor.
    - assert (E : exists l', unfolds_list D l l').
      { clear P. revert ms F. induction l as [|v l IH]; intros ms F; [eexists; constructor|]. inversion F as [|? e ? ms' [_ X] Fs]; subst.
        destruct (IH _ Fs) as [l' E]. eexists. constructor; [exact X|exact E]. }
      destruct E as [l' E]. exists (InlineArray l'). now constructor.
    - assert (E : exists l', unfolds_array D l l').
      { clear P. revert ms F. induction l as [|[c|c|[al v]] l IH]; intros ms F; [eexists; constructor| | |].
        1,2: destruct (IH _ F) as [l' E]; eexists; constructor; exact E.
        inversion F as [|? e ? ms' [_ X] Fs]; subst. destruct (IH _ Fs) as [l' E]. eexists. constructor; [exact X|exact E]. }
      destruct E as [l' E]. exists (Array l'). now constructor.
  Qed.
  Lemma backward_unfolds :
    (forall N y N', backward N y N' -> inner D y -> known N -> (forall n x, D n x -> is_ref x = false) -> (exists z, U y z) /\ known N') /\
    (forall N l N', backward_all N l N' -> (forall e, In e l -> inner D (a_value e) /\ forall n, a_alias e = Some n -> D n (a_value e)) ->
       known N -> (forall n x, D n x -> is_ref x = false) -> (exists ms, Forall2 (aU D) l ms) /\ known N').
  Proof.
    apply backward_both.
    - intros N n H I K _. split; [|exact K]. destruct (K n H) as (x & x' & Dx & Px & Ux). exists x'. exact (URef D n x x' Dx Px Ux).
    - intros N N' y P _ IH I K C. destruct IH as [[ms F] K']; [|exact K|exact C|].
      + intros e X. split; [now apply (inner_child D y)|]. intros n Y. apply I. now constructor.
      + split; [|exact K']. exact (U_children y ms F P).
    - intros N _ K _. split; [exists []; constructor|exact K].
    - intros N N1 N2 e es _ IH1 _ IH2 I K C. destruct (I e (or_introl eq_refl)) as [I1 I2].
      destruct (IH1 I1 K C) as [[z Z] K1]. destruct IH2 as [[ms F] K2].
      + intros e' X. apply I. now right.
      + intros n [X|X]; [now apply K1|]. exists (a_value e), z. split; [now apply I2|]. split; [exact (C _ _ (I2 n X))|exact Z].
      + exact C.
      + split; [|exact K2]. exists (mkA None z :: ms). constructor; [now split|exact F].
  Qed.
End Earlier.

Lemma refs_earlier r : unique r -> no_chains r -> backward_refs r ->
  exists r', unfolds (defines r) r r' /\
    forall fuel, 2 * depth r' <= fuel -> exists v a b, de_any fuel r [] = Done v a /\ de_any fuel r' [] = Done v b.
Proof.
  intros Un Nc [N B].
  destruct (proj1 (backward_unfolds (defines r)) _ _ _ B) as [[r' Ur] _].
  - intros n x H. exact H.
  - intros n [].
  - exact Nc.
  - exists r'. split; [exact Ur|]. intros fuel L.
    destruct (any_reads (defines r) Un (closed_root r) (depth r') fuel L r r' _ N [] B Ur (le_n _)) as (v & a & E & _).
    + intros n x H. exact H.
    + intros n x [].
    + intros n [].
    + intros n x m [].
    + destruct (refs_sound_any r r' Un Ur fuel v a E) as [b F]. exists v, a, b. now split.
Qed.
