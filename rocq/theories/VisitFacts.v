(** Facts about [visit_yaml] and [map_yaml]: which nodes are met, in which order. *)
From Verif Require Import Base Ast Strings Format Num Pretty Spec_Pretty.
From Coq Require Import Sorted.
Import ListNotations.

(** ---- enumerating children ---- *)

Definition lexy (lt : list nat -> list nat -> Prop) : Prop :=
  forall i a j b, lt (i :: a) (j :: b) <-> i < j \/ (i = j /\ lt a b).

Lemma before_lexy : lexy before.
Proof. intros i a j b. reflexivity. Qed.
Lemma before_post_lexy : lexy before_post.
Proof. intros i a j b. reflexivity. Qed.

Lemma sorted_app {X} (lt : X -> X -> Prop) l1 l2 :
  StronglySorted lt l1 -> StronglySorted lt l2 -> (forall a b, In a l1 -> In b l2 -> lt a b) ->
  StronglySorted lt (l1 ++ l2).
Proof.
  intros H1 H2 H. induction H1 as [|x l1 H1 IH Hx]; [exact H2|]. cbn. constructor.
  - apply IH. intros. apply H; [now right|assumption].
  - apply Forall_app. split; [exact Hx|]. apply Forall_forall. intros b Hb. apply H; [now left|assumption].
Qed.

Lemma sorted_map_cons lt i l : lexy lt -> StronglySorted lt l -> StronglySorted lt (map (cons i) l).
Proof.
  intros Hl H. induction H as [|x l H IH Hx]; cbn; constructor; [exact IH|].
  apply Forall_map. eapply Forall_impl; [|exact Hx]. intros a Ha. cbn. apply Hl. now right.
Qed.

(** Child functions by position. *)
Definition kid_fun {X} (L : list (option (list nat -> option X))) (n : nat) (a : list nat) : option X :=
  match a with
  | [] => None
  | i :: r => if i <? n then None
              else match nth_error L (i - n) with Some (Some f) => f r | _ => None end
  end.

(** Addresses below position [n] and on. *)
Fixpoint kid_addrs (As : list (list (list nat))) (n : nat) : list (list nat) :=
  match As with [] => [] | A :: r => map (cons n) A ++ kid_addrs r (S n) end.

Definition kid_ok {X} lt (o : option (list nat -> option X)) (p : list (list nat) * list X) : Prop :=
  match o with None => p = ([], []) | Some f => enumerates lt f (fst p) (snd p) end.

Lemma kid_addrs_ge As n i r : In (i :: r) (kid_addrs As n) -> n <= i.
Proof.
  revert n. induction As as [|A As IH]; intros n H; [contradiction|]. cbn in H.
  apply in_app_iff in H as [H|H].
  - apply in_map_iff in H as (x & E & _). inversion E. lia.
  - apply IH in H. lia.
Qed.

Lemma kid_addrs_nonnil As n a : In a (kid_addrs As n) -> exists i r, a = i :: r.
Proof.
  revert n. induction As as [|A As IH]; intros n H; [contradiction|]. cbn in H.
  apply in_app_iff in H as [H|H]; [|now apply IH in H].
  apply in_map_iff in H as (x & <- & _). eauto.
Qed.

Lemma kid_fun_head {X} (f : list nat -> option X) L n r : kid_fun (Some f :: L) n (n :: r) = f r.
Proof. unfold kid_fun. rewrite Nat.ltb_irrefl, Nat.sub_diag. reflexivity. Qed.

Lemma kid_fun_tail {X} o (L : list (option (list nat -> option X))) n i r : n < i ->
  kid_fun (o :: L) n (i :: r) = kid_fun L (S n) (i :: r).
Proof.
  intros H. unfold kid_fun.
  replace (i <? n) with false by (symmetry; apply Nat.ltb_ge; lia).
  replace (i <? S n) with false by (symmetry; apply Nat.ltb_ge; lia).
  replace (i - n) with (S (i - S n)) by lia. reflexivity.
Qed.

Lemma kids_enumerate {X} lt (L : list (option (list nat -> option X))) ps n :
  lexy lt -> Forall2 (kid_ok lt) L ps ->
  enumerates lt (kid_fun L n) (kid_addrs (map fst ps) n) (concat (map snd ps)).
Proof.
  intros Hlex H. revert n. induction H as [|o [A out] L ps Ho _ IH]; intros n.
  - split; [constructor|]. split; [|reflexivity]. intros a. split; [contradiction|].
    intros C. exfalso. apply C. destruct a as [|i r]; [reflexivity|]. unfold kid_fun.
    destruct (i <? n); [reflexivity|]. now destruct (i - n).
  - destruct (IH (S n)) as (I1 & I2 & I3). cbn [map fst snd kid_addrs concat].
    assert (Hge : forall a, In a (kid_addrs (map fst ps) (S n)) ->
                  exists i r, a = i :: r /\ n < i).
    { intros a Ha. destruct (kid_addrs_nonnil _ _ _ Ha) as (i & r & ->).
      apply kid_addrs_ge in Ha. eauto. }
    assert (Hmap : map (kid_fun (o :: L) n) (kid_addrs (map fst ps) (S n))
                   = map (kid_fun L (S n)) (kid_addrs (map fst ps) (S n))).
    { apply map_ext_in. intros a Ha. destruct (Hge a Ha) as (i & r & -> & Hi). now apply kid_fun_tail. }
    assert (Hin : forall i r, n < i ->
       In (i :: r) (map (cons n) A ++ kid_addrs (map fst ps) (S n)) <-> kid_fun (o :: L) n (i :: r) <> None).
    { intros i r Hi. rewrite kid_fun_tail by assumption. rewrite <- I2, in_app_iff. split; [|now right].
      intros [C|C]; [|exact C]. apply in_map_iff in C as (x & E & _). inversion E. lia. }
    assert (Hlt : forall i r, i < n ->
       In (i :: r) (map (cons n) A ++ kid_addrs (map fst ps) (S n)) <-> kid_fun (o :: L) n (i :: r) <> None).
    { intros i r Hi. split.
      - intros C. exfalso. apply in_app_iff in C as [C|C].
        + apply in_map_iff in C as (x & E & _). inversion E. lia.
        + apply kid_addrs_ge in C. lia.
      - intros C. exfalso. apply C. unfold kid_fun.
        now replace (i <? n) with true by (symmetry; now apply Nat.ltb_lt). }
    assert (Hnil : In [] (map (cons n) A ++ kid_addrs (map fst ps) (S n)) <-> kid_fun (o :: L) n [] <> None).
    { split; [|intros C; now contradiction C]. intros C. exfalso. apply in_app_iff in C as [C|C].
      - apply in_map_iff in C as (x & E & _). discriminate.
      - destruct (kid_addrs_nonnil _ _ _ C) as (? & ? & ?). discriminate. }
    assert (Hn : forall r, In (n :: r) (map (cons n) A ++ kid_addrs (map fst ps) (S n)) <-> In r A).
    { intros r. rewrite in_app_iff. split.
      - intros [C|C]; [apply in_map_iff in C as (x & E & Hx); now inversion E; subst|].
        apply kid_addrs_ge in C. lia.
      - intros C. left. now apply in_map. }
    destruct o as [f|]; unfold kid_ok in Ho; cbn [fst snd] in Ho.
    + destruct Ho as (O1 & O2 & O3). split; [|split].
      * apply sorted_app; [now apply sorted_map_cons|exact I1|].
        intros a b Ha Hb. apply in_map_iff in Ha as (x & <- & _).
        destruct (Hge b Hb) as (i & r & -> & Hi). apply Hlex. now left.
      * intros [|i r]; [exact Hnil|]. destruct (Nat.lt_trichotomy i n) as [H|[->|H]]; auto.
        rewrite Hn, kid_fun_head. apply O2.
      * rewrite !map_app, Hmap, I3. f_equal. rewrite map_map.
        rewrite <- O3. apply map_ext. intros r. apply kid_fun_head.
    + inversion Ho; subst. cbn [map app] in *. split; [|split].
      * exact I1.
      * intros [|i r]; [exact Hnil|]. destruct (Nat.lt_trichotomy i n) as [H|[->|H]]; auto.
        rewrite Hn. split; [contradiction|]. intros C. apply C. unfold kid_fun.
        now rewrite Nat.ltb_irrefl, Nat.sub_diag.
      * rewrite Hmap. exact I3.
Qed.

Lemma enumerates_ext {X} lt (f g : list nat -> option X) A out :
  (forall a, f a = g a) -> enumerates lt f A out -> enumerates lt g A out.
Proof.
  intros E (H1 & H2 & H3). split; [exact H1|]. split.
  - intros a. rewrite <- E. apply H2.
  - rewrite <- H3. apply map_ext. intros. now rewrite E.
Qed.

(** ---- children as a list ---- *)

Definition kids (y : yaml) : list (option (option aliased * yaml)) :=
  match y with
  | Hash l => map (fun d => match d with HElem e => Some (Some (he_value e), a_value (he_value e)) | _ => None end) l
  | Array l => map (fun d => match d with AElem a => Some (Some a, a_value a) | _ => None end) l
  | InlineHash l => map (fun kv => Some (None, snd kv)) l
  | InlineArray l => map (fun v => Some (None, v)) l
  | _ => []
  end.

Lemma child_kids i y : child i y = match nth_error (kids y) i with Some o => o | None => None end.
Proof.
  destruct y as [l|l|l|l|ps|ps|s|ls ch|ls ch|s]; cbn [child kids];
    try (rewrite nth_error_map; destruct (nth_error l i) as [d|]; cbn; try reflexivity; destruct d; reflexivity);
    now destruct i.
Qed.

Definition kid_P (P : yaml -> Prop) (o : option (option aliased * yaml)) : Prop :=
  match o with Some (_, v) => P v | None => True end.

Lemma yaml_ind_kids (P : yaml -> Prop) :
  (forall y, Forall (kid_P P) (kids y) -> P y) -> forall y, P y.
Proof.
  intros H y. induction y as [l IH|l IH|l IH|l IH|ps|ps|s|ls ch|ls ch|s] using yaml_ind'; apply H; cbn [kids];
    try constructor.
  - apply Forall_map. eapply Forall_impl; [|exact IH]. intros [k v] Hv. exact Hv.
  - apply Forall_map. eapply Forall_impl; [|exact IH]. intros [c|c|e] Hv; [exact I|exact I|exact Hv].
  - apply Forall_map. eapply Forall_impl; [|exact IH]. intros v Hv. exact Hv.
  - apply Forall_map. eapply Forall_impl; [|exact IH]. intros [c|c|e] Hv; [exact I|exact I|exact Hv].
Qed.

(** ---- visit ---- *)

Lemma visit_kids y : visit_yaml y =
  concat (map (fun o => match o with Some (oa, v) => opt_list oa ++ visit_yaml v | None => [] end) (kids y)).
Proof.
  destruct y as [l|l|l|l|ps|ps|s|ls ch|ls ch|s]; try reflexivity; cbn [visit_yaml kids];
    rewrite flat_map_concat_map, map_map; f_equal; apply map_ext.
  - now intros [k v].
  - now intros [c|c|[k [al v]]].
  - now intros [c|c|[al v]].
Qed.

Lemma Forall_exists {X Y} (R : X -> Y -> Prop) l :
  Forall (fun x => exists y, R x y) l -> exists ys, Forall2 R l ys.
Proof.
  induction 1 as [|x l [y Hy] _ [ys IH]]; [exists []; constructor|]. exists (y :: ys). now constructor.
Qed.

Lemma visit_enumerates y :
  exists addrs, enumerates before (fun a => aliased_at a y) addrs (visit_yaml y).
Proof.
  induction y as [y IH] using yaml_ind_kids.
  set (F := fun o : option (option aliased * yaml) =>
              match o with
              | Some (oa, v) => Some (fun r => match r with [] => oa | _ => aliased_at r v end)
              | None => None
              end).
  set (O := fun o : option (option aliased * yaml) =>
              match o with Some (oa, v) => opt_list oa ++ visit_yaml v | None => [] end).
  assert (E : exists As, Forall2 (fun o A => kid_ok before (F o) (A, O o)) (kids y) As).
  { apply Forall_exists. eapply Forall_impl; [|exact IH]. intros [[oa v]|] Hv.
    - destruct Hv as (A & V1 & V2 & V3). cbn [F O kid_ok fst snd].
      assert (Hnil : ~ In [] A) by (intros C; apply V2 in C; now apply C).
      assert (Hm : map (fun r => match r with [] => oa | _ => aliased_at r v end) A
                   = map (fun r => aliased_at r v) A).
      { apply map_ext_in. intros [|i r] Hr; [contradiction|reflexivity]. }
      destruct oa as [a|].
      + exists ([] :: A). split; [|split].
        * constructor; [exact V1|]. apply Forall_forall. intros [|i r] Hr; [contradiction|exact I].
        * intros [|i r]; cbn beta iota; [split; [discriminate|now left]|]. rewrite <- V2. split; [|now right].
          intros [C|C]; [discriminate|exact C].
        * cbn. f_equal. rewrite <- V3. exact Hm.
      + exists A. split; [exact V1|]. split.
        * intros [|i r]; [|apply V2]. split; [contradiction|]. now intros C.
        * cbn. rewrite <- V3. exact Hm.
    - exists []. reflexivity. }
  destruct E as [As E].
  assert (E2 : Forall2 (kid_ok before) (map F (kids y)) (combine As (map O (kids y)))
               /\ map snd (combine As (map O (kids y))) = map O (kids y)).
  { clear IH. induction E as [|o A ks As Ho _ [IH1 IH2]]; [split; constructor|]. cbn. split.
    - now constructor.
    - now rewrite IH2. }
  destruct E2 as [E2 E3].
  eexists. rewrite visit_kids. fold O. rewrite <- E3.
  eapply enumerates_ext; [|exact (kids_enumerate before _ _ 0 before_lexy E2)].
  intros [|i r]; [reflexivity|]. cbn [kid_fun]. rewrite Nat.sub_0_r. cbn.
  rewrite nth_error_map.
  assert (EA : aliased_at (i :: r) y = match child i y with
     | Some (oa, v) => match r with [] => oa | _ => aliased_at r v end | None => None end).
  { cbn. destruct (child i y) as [[[a|] v]|]; destruct r; reflexivity. }
  change (match option_map F (nth_error (kids y) i) with Some (Some f) => f r | _ => None end = aliased_at (i :: r) y).
  rewrite EA, child_kids. destruct (nth_error (kids y) i) as [[[oa v]|]|]; reflexivity.
Qed.

(** ---- map ---- *)

Lemma calls_app {S A B} (f : A -> S -> B * S) xs s ys s1 xs' ys' s2 :
  calls f xs s ys s1 -> calls f xs' s1 ys' s2 -> calls f (xs ++ xs') s (ys ++ ys') s2.
Proof. induction 1; cbn; intros H'; [exact H'|]. econstructor; eauto. Qed.

Definition map_ok {S} (f : yaml -> S -> yaml * S) (y : yaml) : Prop :=
  forall s, exists addrs nodes out,
    enumerates before_post (fun a => node_at a y) addrs nodes /\
    calls f (map (input_at y out) addrs) s (map out addrs) (snd (map_yaml f y s)) /\
    out [] = fst (map_yaml f y s).

(** Processing of the children. *)
Fixpoint map_kids {S} (f : yaml -> S -> yaml * S) (ks : list (option (option aliased * yaml))) (s : S)
  : list yaml * S :=
  match ks with
  | [] => ([], s)
  | Some (_, v) :: r =>
      let '(v', s1) := map_yaml f v s in let '(vs, s2) := map_kids f r s1 in (v' :: vs, s2)
  | None :: r => let '(vs, s2) := map_kids f r s in (Unquoted [] :: vs, s2)
  end.

Lemma imap_ext {A B} (f g : nat -> A -> B) l n :
  (forall i x, n <= i -> f i x = g i x) -> imap f n l = imap g n l.
Proof.
  revert n. induction l as [|x l IH]; intros n H; [reflexivity|]. cbn. rewrite H by lia.
  f_equal. apply IH. intros. apply H. lia.
Qed.

Lemma map_yaml_kids {S} (f : yaml -> S -> yaml * S) y s :
  map_yaml f y s =
  let '(vs, s') := map_kids f (kids y) s in f (with_children (fun i => nth i vs (Unquoted [])) y) s'.
Proof.
  destruct y as [l|l|l|l|ps|ps|x|ls ch|ls ch|x]; try reflexivity; cbn [map_yaml kids with_children].
  - match goal with |- context [map_state ?g l s] => set (G := g) end.
    assert (E : forall s n pre, length pre = n -> map_state G l s =
      let '(vs, s') := map_kids f (map (fun kv => Some (None, snd kv)) l) s in
      (imap (fun i kv => (fst kv, nth i (pre ++ vs) (Unquoted []))) n l, s')).
    { clear s. induction l as [|[k v] l IH]; intros s n pre Hp; [reflexivity|].
      cbn [map_state map map_kids snd imap]. cbn [G]. destruct (map_yaml f v s) as [v' s1].
      rewrite (IH s1 (Datatypes.S n) (pre ++ [v'])) by (rewrite app_length; cbn; lia).
      destruct (map_kids f _ s1) as [vs s2]. rewrite <- app_assoc. cbn [app fst].
      rewrite app_nth2 by lia. rewrite Hp, Nat.sub_diag. reflexivity. }
    rewrite (E s 0 [] eq_refl). destruct (map_kids f _ s). reflexivity.
  - match goal with |- context [map_state ?g l s] => set (G := g) end.
    match goal with |- context [map_kids f ?m s] => change m with (map (fun d : hashdata => match d with
       HElem e => Some (Some (he_value e), a_value (he_value e)) | _ => None end) l) end.
    assert (E : forall s n pre, length pre = n -> map_state G l s =
      let '(vs, s') := map_kids f (map (fun d : hashdata => match d with
       HElem e => Some (Some (he_value e), a_value (he_value e)) | _ => None end) l) s in
      (imap (fun i d => match d with
             | HElem (mkHE k (mkA al _)) => HElem (mkHE k (mkA al (nth i (pre ++ vs) (Unquoted []))))
             | d => d end) n l, s')).
    { clear s. induction l as [|[c|c|[k [al v]]] l IH]; intros s n pre Hp; [reflexivity| | |];
        cbn [map_state map map_kids imap he_value a_value]; cbn [G].
      - rewrite (IH s (Datatypes.S n) (pre ++ [Unquoted []])) by (rewrite app_length; cbn; lia).
        destruct (map_kids f _ s) as [vs s2]. now rewrite <- app_assoc.
      - rewrite (IH s (Datatypes.S n) (pre ++ [Unquoted []])) by (rewrite app_length; cbn; lia).
        destruct (map_kids f _ s) as [vs s2]. now rewrite <- app_assoc.
      - destruct (map_yaml f v s) as [v' s1].
        rewrite (IH s1 (Datatypes.S n) (pre ++ [v'])) by (rewrite app_length; cbn; lia).
        destruct (map_kids f _ s1) as [vs s2]. rewrite <- app_assoc. cbn [app fst].
        rewrite app_nth2 by lia. rewrite Hp, Nat.sub_diag. reflexivity. }
    rewrite (E s 0 [] eq_refl). destruct (map_kids f _ s). reflexivity.
  - assert (E : forall s n pre, length pre = n -> map_state (map_yaml f) l s =
      let '(vs, s') := map_kids f (map (fun v => Some (None, v)) l) s in
      (imap (fun i _ => nth i (pre ++ vs) (Unquoted [])) n l, s')).
    { clear s. induction l as [|v l IH]; intros s n pre Hp; [reflexivity|].
      cbn [map_state map map_kids snd imap]. destruct (map_yaml f v s) as [v' s1].
      rewrite (IH s1 (Datatypes.S n) (pre ++ [v'])) by (rewrite app_length; cbn; lia).
      destruct (map_kids f _ s1) as [vs s2]. rewrite <- app_assoc. cbn [app fst].
      rewrite app_nth2 by lia. rewrite Hp, Nat.sub_diag. reflexivity. }
    rewrite (E s 0 [] eq_refl). destruct (map_kids f _ s). reflexivity.
  - match goal with |- context [map_state ?g l s] => set (G := g) end.
    match goal with |- context [map_kids f ?m s] => change m with (map (fun d : arraydata => match d with
       AElem a => Some (Some a, a_value a) | _ => None end) l) end.
    assert (E : forall s n pre, length pre = n -> map_state G l s =
      let '(vs, s') := map_kids f (map (fun d : arraydata => match d with
       AElem a => Some (Some a, a_value a) | _ => None end) l) s in
      (imap (fun i d => match d with
             | AElem (mkA al _) => AElem (mkA al (nth i (pre ++ vs) (Unquoted [])))
             | d => d end) n l, s')).
    { clear s. induction l as [|[c|c|[al v]] l IH]; intros s n pre Hp; [reflexivity| | |];
        cbn [map_state map map_kids imap he_value a_value]; cbn [G].
      - rewrite (IH s (Datatypes.S n) (pre ++ [Unquoted []])) by (rewrite app_length; cbn; lia).
        destruct (map_kids f _ s) as [vs s2]. now rewrite <- app_assoc.
      - rewrite (IH s (Datatypes.S n) (pre ++ [Unquoted []])) by (rewrite app_length; cbn; lia).
        destruct (map_kids f _ s) as [vs s2]. now rewrite <- app_assoc.
      - destruct (map_yaml f v s) as [v' s1].
        rewrite (IH s1 (Datatypes.S n) (pre ++ [v'])) by (rewrite app_length; cbn; lia).
        destruct (map_kids f _ s1) as [vs s2]. rewrite <- app_assoc. cbn [app fst].
        rewrite app_nth2 by lia. rewrite Hp, Nat.sub_diag. reflexivity. }
    rewrite (E s 0 [] eq_refl). destruct (map_kids f _ s). reflexivity.
Qed.

Definition kid_node (o : option (option aliased * yaml)) : option (list nat -> option yaml) :=
  match o with Some (_, v) => Some (fun r => node_at r v) | None => None end.

(** Input at an address below the list of children. *)
Definition kid_input (ks : list (option (option aliased * yaml))) (n : nat) (out : list nat -> yaml)
  (a : list nat) : yaml :=
  match a with
  | i :: r => match nth_error ks (i - n) with
              | Some (Some (_, v)) => input_at v (fun r => out (i :: r)) r
              | _ => Unquoted []
              end
  | [] => Unquoted []
  end.

Lemma map_kids_ok {S} (f : yaml -> S -> yaml * S) ks :
  Forall (kid_P (map_ok f)) ks -> forall s n, exists ps out,
    Forall2 (kid_ok before_post) (map kid_node ks) ps /\
    calls f (map (kid_input ks n out) (kid_addrs (map fst ps) n)) s
            (map out (kid_addrs (map fst ps) n)) (snd (map_kids f ks s)) /\
    forall i, (exists o v, nth_error ks i = Some (Some (o, v))) ->
      out [n + i] = nth i (fst (map_kids f ks s)) (Unquoted []).
Proof.
  induction 1 as [|o ks Ho _ IH]; intros s n.
  - exists [], (fun _ => Unquoted []). split; [constructor|]. split; [constructor|].
    intros [|i] (o & v & E); discriminate.
  - destruct o as [[oa v]|]; cbn [kid_P] in Ho.
    + destruct (Ho s) as (A & nodes & outv & V1 & V2 & V3).
      cbn [map_kids]. destruct (map_yaml f v s) as [v' s1] eqn:Ev. cbn [fst snd] in *.
      destruct (IH s1 (Datatypes.S n)) as (ps & outr & R1 & R2 & R3).
      destruct (map_kids f ks s1) as [vs s2] eqn:Ek. cbn [fst snd] in *.
      exists ((A, nodes) :: ps).
      set (out := fun a => match a with
                           | i :: r => if i =? n then outv r else outr a
                           | [] => Unquoted []
                           end).
      exists out. split; [constructor; [exact V1|exact R1]|]. split.
      * cbn [map fst kid_addrs]. rewrite !map_app. apply (calls_app f _ _ _ s1).
        -- rewrite !map_map.
           replace (map (fun x => out (n :: x)) A) with (map outv A)
             by (apply map_ext; intros x; cbn; now rewrite Nat.eqb_refl).
           replace (map (fun x => kid_input _ n out (n :: x)) A) with (map (input_at v outv) A).
           ++ exact V2.
           ++ apply map_ext. intros x. cbn [kid_input]. rewrite Nat.sub_diag. cbn [nth_error].
              unfold input_at. destruct (node_at x v); [|reflexivity].
              f_equal. unfold out. now rewrite Nat.eqb_refl.
        -- assert (Hge : forall a, In a (kid_addrs (map fst ps) (Datatypes.S n)) ->
                      exists i r, a = i :: r /\ n < i).
           { intros a Ha. destruct (kid_addrs_nonnil _ _ _ Ha) as (i & r & ->).
             apply kid_addrs_ge in Ha. eauto. }
           rewrite (map_ext_in out outr), (map_ext_in (kid_input (Some (oa, v) :: ks) n out) (kid_input ks (Datatypes.S n) outr)); [exact R2| |].
           ++ intros a Ha. destruct (Hge a Ha) as (i & r & -> & Hi). cbn [kid_input].
              replace (i - n) with (Datatypes.S (i - Datatypes.S n)) by lia. cbn [nth_error].
              destruct (nth_error ks (i - Datatypes.S n)) as [[[o w]|]|]; try reflexivity.
              unfold input_at. destruct (node_at r w); [|reflexivity]. f_equal. unfold out.
              now replace (i =? n) with false by (symmetry; apply Nat.eqb_neq; lia).
           ++ intros a Ha. destruct (Hge a Ha) as (i & r & -> & Hi). unfold out.
              now replace (i =? n) with false by (symmetry; apply Nat.eqb_neq; lia).
      * intros [|i] (o & w & E); cbn [nth_error nth] in *.
        -- unfold out. rewrite Nat.add_0_r, Nat.eqb_refl. exact V3.
        -- rewrite <- (R3 i) by eauto. unfold out.
           replace (n + Datatypes.S i =? n) with false by (symmetry; apply Nat.eqb_neq; lia).
           f_equal. f_equal. lia.
    + cbn [map_kids]. destruct (IH s (Datatypes.S n)) as (ps & outr & R1 & R2 & R3).
      destruct (map_kids f ks s) as [vs s2] eqn:Ek. cbn [fst snd] in *.
      exists (([], []) :: ps), outr. split; [constructor; [reflexivity|exact R1]|]. split.
      * cbn [map fst kid_addrs app].
        erewrite map_ext_in; [exact R2|]. intros a Ha.
        destruct (kid_addrs_nonnil _ _ _ Ha) as (i & r & ->). apply kid_addrs_ge in Ha. cbn [kid_input].
        replace (i - n) with (Datatypes.S (i - Datatypes.S n)) by lia. reflexivity.
      * intros [|i] (o & w & E); cbn [nth_error nth] in *; [discriminate|].
        rewrite <- (R3 i) by eauto. f_equal. f_equal. lia.
Qed.

Lemma with_children_ext r r' y :
  (forall i, (exists o v, nth_error (kids y) i = Some (Some (o, v))) -> r i = r' i) ->
  with_children r y = with_children r' y.
Proof.
  assert (A : forall X (l : list X) (K : X -> option (option aliased * yaml)) (f g : nat -> X -> X) n,
    (forall i x, (K x = None -> f i x = g i x)) ->
    (forall i x o v, nth_error l i = Some x -> K x = Some (o, v) -> f (n + i) x = g (n + i) x) ->
    imap f n l = imap g n l).
  { intros X l K f g. induction l as [|x l IH]; intros n H1 H2; [reflexivity|]. cbn. f_equal.
    - destruct (K x) as [[o v]|] eqn:E; [|now apply H1].
      specialize (H2 0 x o v eq_refl E). now rewrite Nat.add_0_r in H2.
    - apply IH; [exact H1|]. intros i x' o v E1 E2. specialize (H2 (S i) x' o v E1 E2).
      replace (S n + i) with (n + S i) by lia. exact H2. }
  intros H. destruct y as [l|l|l|l|ps|ps|s|ls ch|ls ch|s]; try reflexivity; cbn [with_children kids] in *; f_equal.
  - apply (A _ _ (fun kv => Some (None, snd kv))); [discriminate|].
    intros i x o v E1 E2. cbn. f_equal. apply H. rewrite nth_error_map, E1. cbn. eauto.
  - apply (A _ _ (fun d : hashdata => match d with
       HElem e => Some (Some (he_value e), a_value (he_value e)) | _ => None end)).
    + intros i [c|c|[k [al v]]]; reflexivity || discriminate.
    + intros i x o v E1 E2. destruct x as [c|c|[k [al w]]]; try discriminate.
      cbn. rewrite H; [reflexivity|]. rewrite nth_error_map, E1. cbn. eauto.
  - apply (A _ _ (fun v => Some (None, v))); [discriminate|].
    intros i x o v E1 E2. cbn. apply H. rewrite nth_error_map, E1. cbn. eauto.
  - apply (A _ _ (fun d : arraydata => match d with AElem a => Some (Some a, a_value a) | _ => None end)).
    + intros i [c|c|[al v]]; reflexivity || discriminate.
    + intros i x o v E1 E2. destruct x as [c|c|[al w]]; try discriminate.
      cbn. rewrite H; [reflexivity|]. rewrite nth_error_map, E1. cbn. eauto.
Qed.

Lemma map_yaml_calls {S} (f : yaml -> S -> yaml * S) y : map_ok f y.
Proof.
  induction y as [y IH] using yaml_ind_kids. intros s.
  destruct (map_kids_ok f (kids y) IH s 0) as (ps & outk & K1 & K2 & K3).
  rewrite map_yaml_kids. destruct (map_kids f (kids y) s) as [vs s'] eqn:Ek. cbn [fst snd] in *.
  destruct (f (with_children (fun i => nth i vs (Unquoted [])) y) s') as [res sf] eqn:Ef. cbn [fst snd].
  set (A := kid_addrs (map fst ps) 0) in *.
  exists (A ++ [[]]), (concat (map snd ps) ++ [y]).
  exists (fun a => match a with [] => res | _ => outk a end).
  pose proof (kids_enumerate before_post _ _ 0 before_post_lexy K1) as (E1 & E2 & E3).
  fold A in E1, E2, E3.
  assert (Hk : forall i r, kid_fun (map kid_node (kids y)) 0 (i :: r) = node_at (i :: r) y).
  { intros i r. unfold kid_fun. cbn [Nat.ltb Nat.leb]. rewrite Nat.sub_0_r, nth_error_map.
    cbn [node_at]. rewrite child_kids. now destruct (nth_error (kids y) i) as [[[oa v]|]|]. }
  assert (Hnn : forall a, In a A -> exists i r, a = i :: r) by (intros a; apply kid_addrs_nonnil).
  split; [split; [|split]|split; [|reflexivity]].
  - apply sorted_app; [exact E1|repeat constructor|]. intros a b Ha [<-|[]].
    destruct (Hnn a Ha) as (i & r & ->). exact I.
  - intros a. rewrite in_app_iff. destruct a as [|i r].
    + split; [discriminate|]. intros _. right. now left.
    + rewrite <- Hk, <- E2. split; [|now left]. intros [C|[C|[]]]; [exact C|discriminate].
  - rewrite !map_app, <- E3. f_equal. apply map_ext_in. intros a Ha.
    destruct (Hnn a Ha) as (i & r & ->). now rewrite Hk.
  - rewrite !map_app. apply (calls_app f _ _ _ s').
    + rewrite (map_ext_in (fun a => match a with [] => res | _ => outk a end) outk),
        (map_ext_in (input_at y _) (kid_input (kids y) 0 outk)); [exact K2| |].
      * intros a Ha. destruct (Hnn a Ha) as (i & r & ->).
        assert (Hd : node_at (i :: r) y <> None) by (rewrite <- Hk; now apply E2).
        unfold input_at, kid_input. rewrite Nat.sub_0_r. cbn [node_at] in *. rewrite child_kids in *.
        destruct (nth_error (kids y) i) as [[[oa v]|]|]; try (now contradiction Hd).
        unfold input_at. destruct (node_at r v); [reflexivity|now contradiction Hd].
      * intros a Ha. now destruct (Hnn a Ha) as (i & r & ->).
    + cbn [map]. econstructor; [|constructor]. unfold input_at. cbn [node_at app].
      erewrite with_children_ext; [exact Ef|]. intros i Hi. cbn. rewrite <- (K3 i Hi). reflexivity.
Qed.

(** ---- identity and scalar-only closures ---- *)

Lemma map_yaml_id y : forall S (g : yaml -> S -> S) s, fst (map_yaml (fun y s => (y, g y s)) y s) = y.
Proof.
  induction y as [y IH] using yaml_ind_kids. intros S g s. rewrite map_yaml_kids.
  destruct (map_kids _ (kids y) s) as [vs s'] eqn:E. cbn [fst].
  assert (A : forall ks s vs s', Forall (kid_P (fun y => forall S (g : yaml -> S -> S) s,
                 fst (map_yaml (fun y s => (y, g y s)) y s) = y)) ks ->
            map_kids (fun y (s : S) => (y, g y s)) ks s = (vs, s') ->
            forall i o v, nth_error ks i = Some (Some (o, v)) -> nth i vs (Unquoted []) = v).
  { clear. induction ks as [|[[oa w]|] ks IHk]; intros s vs s' HF E i o v Ei.
    - destruct i; discriminate.
    - cbn in E. inversion HF as [|x y Hw HF']; subst. cbn in Hw.
      specialize (Hw S g s). destruct (map_yaml _ w s) as [w' s1]. cbn in Hw. subst w'.
      destruct (map_kids _ ks s1) as [ws s2] eqn:E2. inversion E; subst.
      destruct i as [|i]; cbn in *; [congruence|]. eapply IHk; eauto.
    - cbn in E. inversion HF as [|x y Hw HF']; subst.
      destruct (map_kids _ ks s) as [ws s2] eqn:E2. inversion E; subst.
      destruct i as [|i]; cbn in *; [discriminate|]. eapply IHk; eauto. }
  specialize (A _ _ _ _ IH E).
  rewrite (with_children_ext _ (fun i => match nth_error (kids y) i with Some (Some (_, v)) => v | _ => Unquoted [] end)).
  - clear. assert (B : forall X (l pre : list X) (K : X -> option (option aliased * yaml)) (h : (nat -> yaml) -> nat -> X -> X),
      (forall r i x, match K x with Some (_, v) => r i = v -> h r i x = x | None => h r i x = x end) ->
      imap (h (fun i => match nth_error (map K (pre ++ l)) i with Some (Some (_, v)) => v | _ => Unquoted [] end)) (length pre) l = l).
    { intros X l. induction l as [|x l IHl]; intros pre K h H; [reflexivity|]. cbn. f_equal.
      - specialize (H (fun i => match nth_error (map K (pre ++ x :: l)) i with Some (Some (_, v)) => v | _ => Unquoted [] end) (length pre) x).
        destruct (K x) as [[o v]|] eqn:E; [|exact H]. apply H.
        rewrite nth_error_map, nth_error_app2, Nat.sub_diag by lia. cbn. now rewrite E.
      - specialize (IHl (pre ++ [x]) K h H). rewrite <- app_assoc in IHl. cbn in IHl.
        rewrite app_length in IHl. cbn in IHl. rewrite Nat.add_1_r in IHl. exact IHl. }
    destruct y as [l|l|l|l|ps|ps|s|ls ch|ls ch|s]; try reflexivity; cbn [with_children kids]; f_equal.
    + apply (B _ l [] (fun kv => Some (None, snd kv)) (fun r i kv => (fst kv, r i))).
      intros r i [k v]. cbn. now intros ->.
    + apply (B _ l [] (fun d : hashdata => match d with
         HElem e => Some (Some (he_value e), a_value (he_value e)) | _ => None end)
         (fun r i d => match d with HElem (mkHE k (mkA al _)) => HElem (mkHE k (mkA al (r i))) | d => d end)).
      intros r i [c|c|[k [al v]]]; cbn; auto. now intros ->.
    + apply (B _ l [] (fun v => Some (None, v)) (fun r i _ => r i)). intros r i v. cbn. auto.
    + apply (B _ l [] (fun d : arraydata => match d with AElem a => Some (Some a, a_value a) | _ => None end)
         (fun r i d => match d with AElem (mkA al _) => AElem (mkA al (r i)) | d => d end)).
      intros r i [c|c|[al v]]; cbn; auto. now intros ->.
  - intros i (o & v & Ei). rewrite Ei. eapply A; eauto.
Qed.
