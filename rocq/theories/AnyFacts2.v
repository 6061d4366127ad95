(** The untyped reader: when it does not end. *)
From Coq Require Import ZArith Lia.
From Verif Require Import Base Ast Strings Format Num Pretty Ser De Attr DeErr Spec_Serde Spec_Look Spec_Typed Spec_Attr Spec_Refs
  SerdeFacts LookFacts LookFacts2 AttrFacts RefsFacts RefsFacts2 RefsFacts3 RefsFacts4 ErrFacts2 Spec_Reads Spec_Any AnyFacts.
Import ListNotations.

Lemma nested_trans i : forall j y a x b z c, nested i y a x b -> nested j x b z c -> nested (i + j) y a z c.
Proof.
  intros j y a x b z c H. induction H as [|k y a x b w d N _ IH]; intros G; [exact G|]. cbn [Nat.add]. econstructor; [exact N|auto].
Qed.
Lemma nested_last i y a x b z c : nested i y a x b -> needs x b z c -> nested (S i) y a z c.
Proof.
  intros H N. replace (S i) with (i + 1) by lia. apply (nested_trans i 1 y a x b z c H). econstructor; [exact N|constructor].
Qed.

Lemma element_child y x : In x (elements_of y) -> exists e, In e (children y) /\ a_value e = x.
Proof. unfold elements_of. intros H. apply in_map_iff in H as (e & E & H). eauto. Qed.
Lemma depth_child y e : In e (children y) -> depth (a_value e) < depth y.
Proof.
  assert (M : forall {A} (f : A -> nat) l x, In x l -> f x <= fold_right (fun x n => Nat.max (f x) n) 0 l).
  { intros A f l x. induction l as [|z l IH]; intros []; cbn; [subst; lia|specialize (IH H); lia]. }
  destruct y; cbn [children]; try (intros []); intros H; cbn [depth]; apply le_n_S.
  - apply in_map_iff in H as ([k v] & <- & H). cbn.
    exact (M _ (fun kv : str * yaml => match kv with (_, v) => depth v end) l (k, v) H).
  - apply in_flat_map in H as ([c|c|[k [al v]]] & H & E); try destruct E as [<-|[]]; try destruct E. cbn.
    exact (M _ (fun d => match d with HElem (mkHE _ (mkA _ v)) => depth v | _ => 0 end) l _ H).
  - apply in_map_iff in H as (v & <- & H). cbn. exact (M _ depth l v H).
  - apply in_flat_map in H as ([c|c|[al v]] & H & E); try destruct E as [<-|[]]; try destruct E. cbn.
    exact (M _ (fun d => match d with AElem (mkA _ v) => depth v | _ => 0 end) l _ H).
Qed.
Lemma entered_in a y n v : In (n, v) (entered a y) <-> In (n, v) a \/ exists e, In e (children y) /\ a_alias e = Some n /\ a_value e = v.
Proof.
  unfold entered, labels_of. rewrite in_app_iff, <- in_rev, in_flat_map. split.
  - intros [(e & H & E)|H]; [|now left]. right. exists e. destruct (a_alias e) as [m|]; [|destruct E]. destruct E as [E|[]].
    injection E as <- <-. auto.
  - intros [H|(e & H & E & V)]; [now right|]. left. exists e. rewrite E, V. split; [exact H|now left].
Qed.
Lemma defines_trans r n y m x : defines r n y -> defines y m x -> defines r m x.
Proof. intros H. induction H as [r e n H E|r e n y H F IH]; intros G; eapply DDeep; eauto. Qed.
Lemma defines_refers r n y m : defines r n y -> refers y m -> refers r m.
Proof. intros H. induction H as [r e n H E|r e n y H F IH]; intros G; eapply RefDeep; eauto. Qed.
Lemma defines_depth r n y : defines r n y -> depth y < depth r.
Proof. intros H. induction H as [r e n H E|r e n y H F IH]; pose proof (depth_child r e H); lia. Qed.

Section Root.
  Context (r : yaml).
  (** Parts of the root, and labels that come from it. *)
  Definition part (y : yaml) : Prop :=
    (forall n x, defines y n x -> defines r n x) /\ (forall n, refers y n -> refers r n) /\ depth y <= depth r.
  Definition from_root (a : anchors) : Prop := forall n y, In (n, y) a -> defines r n y.

  Lemma part_root : part r.
  Proof. repeat split; auto. Qed.
  Lemma part_child y e : part y -> In e (children y) -> part (a_value e).
  Proof.
    intros (D & R & L) H. split; [|split].
    - intros n x G. apply D. exact (DDeep y e n x H G).
    - intros n G. apply R. exact (RefDeep y e n H G).
    - pose proof (depth_child y e H). lia.
  Qed.
  Lemma part_element y x : part y -> In x (elements_of y) -> part x.
  Proof. intros P H. destruct (element_child y x H) as (e & C & <-). exact (part_child y e P C). Qed.
  Lemma part_defined n y : defines r n y -> part y.
  Proof.
    intros H. split; [|split].
    - intros m x. exact (defines_trans r n y m x H).
    - intros m. exact (defines_refers r n y m H).
    - pose proof (defines_depth r n y H). lia.
  Qed.
  Lemma enter_root a y : part y -> from_root a -> from_root (entered a y).
  Proof.
    intros P F n x H. apply entered_in in H as [H|(e & H & A & <-)]; [exact (F n x H)|].
    apply (proj1 P). exact (DHere y e n H A).
  Qed.
  Lemma newest_in a n y : newest a n y -> In (n, y) a.
  Proof. intros (b & c & -> & _). apply in_or_app. right. now left. Qed.

  Lemma tells_root :
    (forall y a v b, tells y a v b -> part y -> from_root a -> from_root b /\ incl a b) /\
    (forall l a vs b, tells_all l a vs b -> (forall x, In x l -> part x) -> from_root a -> from_root b /\ incl a b).
  Proof.
    assert (In' : forall y a, incl a (entered a y)).
    { intros y a x H. unfold entered. apply in_or_app. now right. }
    apply tells_both.
    - intros s v a _ _ F. split; [exact F|apply incl_refl].
    - intros y s a _ _ _ F. split; [exact F|apply incl_refl].
    - intros n y a v a1 W _ IH P F. apply IH; [|exact F]. apply (part_defined n). apply F. exact (newest_in _ _ _ W).
    - intros y a vs a1 C _ IH P F. destruct IH as [G I]; [intros x H; exact (part_element y x P H)|now apply enter_root|].
      split; [exact G|]. exact (incl_tran (In' y a) I).
    - intros y a ks vs a1 C _ _ IH P F. destruct IH as [G I]; [intros x H; exact (part_element y x P H)|now apply enter_root|].
      split; [exact G|]. exact (incl_tran (In' y a) I).
    - intros a _ F. split; [exact F|apply incl_refl].
    - intros y l v vs a a1 a2 _ IH1 _ IH2 P F. destruct (IH1 (P y (or_introl eq_refl)) F) as [F1 I1].
      destruct (IH2 (fun x H => P x (or_intror H)) F1) as [F2 I2]. split; [exact F2|exact (incl_tran I1 I2)].
  Qed.

  Lemma needs_root y a x b : needs y a x b -> part y -> from_root a ->
    part x /\ from_root b /\ incl a b /\ (is_ref y = false -> depth x < depth y).
  Proof.
    intros H P F. destruct H as [n y a W|y a l x t vs a1 E T].
    - split; [apply (part_defined n); apply F; exact (newest_in _ _ _ W)|]. split; [exact F|]. split; [apply incl_refl|discriminate].
    - assert (I : forall z, In z (l ++ x :: t) -> part z) by (intros z H; rewrite <- E in H; exact (part_element y z P H)).
      destruct (proj2 tells_root _ _ _ _ T) as [G J]; [intros z H; apply I; apply in_or_app; now left|now apply enter_root|].
      split; [apply I; apply in_or_app; right; now left|]. split; [exact G|]. split.
      + intros z H. apply J. unfold entered. apply in_or_app. now right.
      + intros _. assert (H : In x (elements_of y)) by (rewrite E; apply in_or_app; right; now left).
        destruct (element_child y x H) as (e & C & <-). exact (depth_child y e C).
  Qed.
  Lemma nested_root k y a x b : nested k y a x b -> part y -> from_root a -> part x /\ from_root b /\ incl a b.
  Proof.
    intros H. induction H as [y a|k y a x b z c N _ IH]; intros P F; [split; [exact P|split; [exact F|apply incl_refl]]|].
    destruct (needs_root _ _ _ _ N P F) as (P1 & F1 & I1 & _). destruct (IH P1 F1) as (P2 & F2 & I2).
    split; [exact P2|split; [exact F2|exact (incl_tran I1 I2)]].
  Qed.

  (** Among enough levels, a reference comes back. *)
  Lemma many_levels k : forall N i y a z c, nested i r [] y a -> nested k y a z c -> part y -> from_root a ->
    (forall n, refers r n -> In n N \/ exists i j b, nested i r [] (Anchor n) b /\ nested (S j) (Anchor n) b y a) ->
    depth y + length N * depth r <= k -> comes_back r [].
  Proof.
    induction k as [|k IH]; intros N i y a z c R H P F S L.
    - exfalso. assert (1 <= depth y) by (destruct y; cbn [depth]; lia). lia.
    - inversion H as [|? ? ? x b ? ? Nx H']; subst. destruct (needs_root _ _ _ _ Nx P F) as (P1 & F1 & _ & Dx).
      assert (R1 := nested_last _ _ _ _ _ _ _ R Nx).
      destruct (is_ref y) eqn:Ry.
      + destruct y as [| | | | | | | | |n]; try discriminate.
        destruct (S n (proj1 (proj2 P) n (RefHere n))) as [I|(i' & j & b' & A & B)];
          [|exists n, i', j, b', a; auto].
        apply in_split in I as (l1 & l2 & ->).
        apply (IH (l1 ++ l2) _ x b z c R1 H' P1 F1).
        * intros m M. destruct (S m M) as [I|(i' & j & b' & A & B)].
          -- assert (Q : m = n \/ In m (l1 ++ l2)).
             { apply in_app_or in I as [I|[I|I]]; [right; apply in_or_app; now left|now left|right; apply in_or_app; now right]. }
             destruct Q as [->|Q]; [|now left]. right. exists i, 0, a. split; [exact R|]. econstructor; [exact Nx|constructor].
          -- right. exists i', (Datatypes.S j), b'. split; [exact A|]. exact (nested_last _ _ _ _ _ _ _ B Nx).
        * pose proof (proj2 (proj2 P1)). rewrite app_length in *. cbn [length depth] in L. cbn [Nat.mul] in *.
          rewrite Nat.add_succ_r in L. cbn [Nat.mul] in L. lia.
      + specialize (Dx eq_refl). apply (IH N _ x b z c R1 H' P1 F1); [|lia].
        intros m M. destruct (S m M) as [I|(i' & j & b' & A & B)]; [now left|]. right. exists i', (Datatypes.S j), b'.
        split; [exact A|]. exact (nested_last _ _ _ _ _ _ _ B Nx).
  Qed.
  Lemma deep_back N x b : (forall n, refers r n -> In n N) -> nested (S (length N) * depth r) r [] x b -> comes_back r [].
  Proof.
    intros C H. apply (many_levels _ N 0 r [] x b (NeHere r []) H part_root).
    - intros n y [].
    - intros n Q. left. exact (C n Q).
    - cbn [Nat.mul]. lia.
  Qed.

  (** With unique labels, a reference that comes back does so forever. *)
  Context (Un : unique r).
  Lemma in_newest a n y : from_root a -> In (n, y) a -> newest a n y.
  Proof.
    intros F H. destruct (resolve a n) as [z|] eqn:Z.
    - apply resolve_newest in Z. rewrite (Un n y z (F n y H) (F n z (newest_in _ _ _ Z))). exact Z.
    - apply resolve_none in Z. elim Z. apply in_map_iff. now exists (n, y).
  Qed.
  Lemma enter_incl a c y : incl a c -> incl (entered a y) (entered c y).
  Proof. intros I x H. unfold entered in *. apply in_app_or in H as [H|H]; apply in_or_app; [now left|right; exact (I x H)]. Qed.

  Lemma tells_more :
    (forall y a v b, tells y a v b -> part y -> from_root a -> forall c, from_root c -> incl a c -> exists d, tells y c v d /\ incl b d) /\
    (forall l a vs b, tells_all l a vs b -> (forall x, In x l -> part x) -> from_root a ->
       forall c, from_root c -> incl a c -> exists d, tells_all l c vs d /\ incl b d).
  Proof.
    apply tells_both.
    - intros s v a K _ _ c _ I. exists c. split; [now constructor|exact I].
    - intros y s a N S _ _ c _ I. exists c. split; [now constructor|exact I].
    - intros n y a v a1 W _ IH P F c G I.
      destruct (IH (part_defined n y (F n y (newest_in _ _ _ W))) F c G I) as (d & T & J). exists d. split; [|exact J].
      apply TeRef with y; [|exact T]. apply in_newest; [exact G|]. apply I. exact (newest_in _ _ _ W).
    - intros y a vs a1 C _ IH P F c G I.
      destruct (IH (fun x H => part_element y x P H) (enter_root a y P F) (entered c y) (enter_root c y P G) (enter_incl a c y I)) as (d & T & J).
      exists d. split; [now apply TeSeq|exact J].
    - intros y a ks vs a1 C K _ IH P F c G I.
      destruct (IH (fun x H => part_element y x P H) (enter_root a y P F) (entered c y) (enter_root c y P G) (enter_incl a c y I)) as (d & T & J).
      exists d. split; [now apply TeMap|exact J].
    - intros a _ _ c _ I. exists c. split; [constructor|exact I].
    - intros y l v vs a a1 a2 T1 IH1 _ IH2 P F c G I.
      destruct (proj1 tells_root _ _ _ _ T1 (P y (or_introl eq_refl)) F) as [F1 _].
      destruct (IH1 (P y (or_introl eq_refl)) F c G I) as (d & T & J).
      destruct (proj1 tells_root _ _ _ _ T (P y (or_introl eq_refl)) G) as [G1 _].
      destruct (IH2 (fun x H => P x (or_intror H)) F1 d G1 J) as (e & T2 & J2).
      exists e. split; [econstructor; eassumption|exact J2].
  Qed.
  Lemma needs_again y a x b : needs y a x b -> part y -> from_root a -> forall c, from_root c -> incl a c ->
    exists d, needs y c x d /\ incl b d.
  Proof.
    intros H P F c G I. destruct H as [n y a W|y a l x t vs a1 E T].
    - exists c. split; [|exact I]. constructor. apply in_newest; [exact G|]. apply I. exact (newest_in _ _ _ W).
    - destruct (proj2 tells_more _ _ _ _ T) with (c := entered c y) as (d & T' & J).
      + intros z H. apply (part_element y z P). rewrite E. apply in_or_app. now left.
      + now apply enter_root.
      + now apply enter_root.
      + now apply enter_incl.
      + exists d. split; [|exact J]. exact (NeIn y c l x t vs d E T').
  Qed.
  Lemma nested_again k y a x b : nested k y a x b -> part y -> from_root a -> forall c, from_root c -> incl a c ->
    exists d, nested k y c x d /\ incl b d.
  Proof.
    intros H. induction H as [y a|k y a x b z e N _ IH]; intros P F c G I; [exists c; split; [constructor|exact I]|].
    destruct (needs_again _ _ _ _ N P F c G I) as (d & N' & J).
    destruct (needs_root _ _ _ _ N P F) as (P1 & F1 & _). destruct (needs_root _ _ _ _ N' P G) as (_ & G1 & _).
    destruct (IH P1 F1 d G1 J) as (e' & H' & J'). exists e'. split; [econstructor; eassumption|exact J'].
  Qed.
  Lemma nested_less i j y a x b : i <= j -> nested j y a x b -> exists z c, nested i y a z c.
  Proof.
    intros L H. revert i L. induction H as [y a|k y a x b z c N _ IH]; intros i L.
    - exists y, a. replace i with 0 by lia. constructor.
    - destruct i as [|i]; [exists y, a; constructor|]. destruct (IH i) as (w & d & H); [lia|]. exists w, d. econstructor; eassumption.
  Qed.
  Lemma back_endless : comes_back r [] -> endless r [].
  Proof.
    intros (n & i & j & b & c & A & B) k.
    assert (F0 : from_root []) by (intros ? ? []).
    destruct (nested_root _ _ _ _ _ A part_root F0) as (P & F & _).
    destruct (nested_root _ _ _ _ _ B P F) as (_ & Fc & I).
    assert (G : forall w, exists d, nested (w * S j) (Anchor n) b (Anchor n) d /\ incl b d /\ from_root d).
    { induction w as [|q (d & H & J & Fd)]; [exists b; split; [constructor|split; [apply incl_refl|exact F]]|].
      destruct (nested_again _ _ _ _ _ B P F d Fd J) as (e & H' & J').
      exists e. split; [|split].
      - replace (S q * S j) with (q * S j + S j) by lia. exact (nested_trans _ _ _ _ _ _ _ _ H H').
      - exact (incl_tran I J').
      - exact (proj1 (proj2 (nested_root _ _ _ _ _ H' P Fd))). }
    destruct (G k) as (d & H & _). apply (nested_less k (i + k * S j) r [] (Anchor n) d); [lia|].
    exact (nested_trans _ _ _ _ _ _ _ _ A H).
  Qed.
End Root.

Lemma endless_back r : endless r [] -> comes_back r [].
Proof. intros H. destruct (H (S (length (refs r)) * depth r)) as (x & b & N). exact (deep_back r (refs r) x b (refs_in r) N). Qed.
Lemma endless_iff r : unique r -> (endless r [] <-> comes_back r []).
Proof. intros Un. split; [apply endless_back|exact (back_endless r Un)]. Qed.
Lemma any_bound r N : unique r -> (forall n, refers r n -> In n N) ->
  de_any (S (length N) * depth r) r [] = More -> forall k, de_any k r [] = More.
Proof.
  intros Un C H. apply any_endless. apply (back_endless r Un). apply any_levels in H as (x & b & H).
  exact (deep_back r N x b C H).
Qed.
Lemma any_ends r : ~ comes_back r [] ->
  (exists v b, tells r [] v b) \/ (exists n, lost r [] n).
Proof.
  intros Nb. destruct (de_any (S (length (refs r)) * depth r) r []) as [v b| |] eqn:D.
  - left. exists v, b. apply any_value. eauto.
  - right. apply any_lost. eauto.
  - exfalso. apply Nb. apply any_levels in D as (x & b & H). exact (deep_back r (refs r) x b (refs_in r) H).
Qed.

Lemma acyclic_back r : acyclic r -> ~ comes_back r [].
Proof.
  intros [rank A] (n & i & j & b & c & H & G).
  assert (F0 : from_root r []) by (intros ? ? []).
  destruct (nested_root r _ _ _ _ _ H (part_root r) F0) as (P & F & _).
  assert (K : forall k x a m d, nested k x a (Anchor m) d -> part r x -> from_root r a ->
    forall R, (forall p, refers x p -> rank p < R) -> rank m < R).
  { clear - A. intros k x a m d H. remember (Anchor m) as z eqn:Q. induction H as [y a|k y a x b z c N _ IH]; intros P F R C.
    - subst y. apply C. constructor.
    - destruct (needs_root r _ _ _ _ N P F) as (P1 & F1 & _). apply (IH Q P1 F1 R).
      destruct N as [p y a W|y a l x t vs a1 E T]; intros q M.
      + assert (rank q < rank p) by exact (A p y q (F p y (newest_in _ _ _ W)) M). specialize (C p (RefHere p)). lia.
      + assert (I : In x (elements_of y)) by (rewrite E; apply in_or_app; right; now left).
        destruct (element_child y x I) as (e & Ce & <-). apply C. exact (RefDeep y e q Ce M). }
  inversion G as [|? ? ? x b' ? ? N G']; subst. destruct (needs_root r _ _ _ _ N P F) as (P1 & F1 & _).
  assert (L : rank n < rank n); [|lia].
  apply (K _ _ _ _ _ G' P1 F1). intros p M. inversion N as [? ? ? W|? ? l ? ? ? ? E]; subst; [|destruct l; discriminate E].
  exact (A n x p (F1 n x (newest_in _ _ _ W)) M).
Qed.
