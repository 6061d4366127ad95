(** The deserializer returns what the node means. *)
From Coq Require Import ZArith Permutation.
From Verif Require Import Base Ast Strings Format Num Pretty Ser De Spec_Pretty Spec_Serde Spec_Look
  SerdeFacts SerdeFacts2 LookFacts Spec_Typed TypedFacts.
Import ListNotations.

(** ---- views ---- *)

Definition node_text (l : looks) : option str :=
  match l with LWord s | LText s => Some s | _ => None end.
Lemma node_text_iff l s : node_text l = Some s <-> text l s.
Proof.
  unfold text. destruct l; cbn; split; intros H; try discriminate; try (injection H as ->; auto);
    destruct H as [H|H]; try discriminate; injection H as ->; reflexivity.
Qed.
Lemma seen_unquoted s : seen (Unquoted s) = seen_key s.
Proof. reflexivity. Qed.
Lemma seen_text y : no_refs y -> node_text (seen y) = yaml_to_string y.
Proof. intros H. destruct y; try reflexivity. rewrite seen_unquoted. unfold seen_key. destruct (typed_word s); reflexivity. Qed.
Lemma resolved y a : no_refs y -> into_resolved y a = Some y.
Proof. destruct y; cbn; try reflexivity. intros []. Qed.
Lemma text_of y a : no_refs y -> de_text y a = node_text (seen y).
Proof. intros H. unfold de_text. rewrite (resolved y a H). symmetry. now apply seen_text. Qed.

Lemma seq_view a l : no_refs (Array l) ->
  Forall no_refs (fst (seq_values a l)) /\
  LSeq (map (fun y => (None, seen y)) (fst (seq_values a l))) =
  LSeq (map (fun e => (None, snd e)) (flat_map (fun d => match d with AElem (mkA al v) => [(al, seen v)] | _ => [] end) l)).
Proof.
  cbn [no_refs]. revert a; induction l as [|[c|c|[al v]] l IH]; intros a H; cbn [fold_right] in H.
  - split; [constructor|reflexivity].
  - cbn [seq_values flat_map app]. apply IH. tauto.
  - cbn [seq_values flat_map app]. apply IH. tauto.
  - destruct H as [Hv H]. cbn [seq_values flat_map app a_value]. specialize (IH (register a (mkA al v)) H).
    destruct (seq_values (register a (mkA al v)) l) as [ys a']. cbn [fst map] in *.
    destruct IH as [F E]. split; [now constructor|]. injection E as E. now rewrite E.
Qed.
Lemma map_view a l : no_refs (Hash l) ->
  Forall (fun kv => no_refs (snd kv)) (fst (hash_entries a l)) /\
  map (fun kv => (fst kv, seen (snd kv))) (fst (hash_entries a l)) =
  map (fun e => (fst e, snd (snd e)))
    (flat_map (fun d => match d with HElem (mkHE k (mkA al v)) => [(k, (al, seen v))] | _ => [] end) l).
Proof.
  cbn [no_refs]. revert a; induction l as [|[c|c|[k [al v]]] l IH]; intros a H; cbn [fold_right] in H.
  - split; [constructor|reflexivity].
  - cbn [hash_entries flat_map app]. apply IH. tauto.
  - cbn [hash_entries flat_map app]. apply IH. tauto.
  - destruct H as [Hv H]. cbn [hash_entries flat_map app he_value he_key a_value]. specialize (IH (register a (mkA al v)) H).
    destruct (hash_entries (register a (mkA al v)) l) as [ys a']. cbn [fst map] in *.
    destruct IH as [F E]. split; [now constructor|]. cbn [snd]. now rewrite E.
Qed.

(** The elements of a sequence. *)
Lemma seq_seen y a : no_refs y ->
  match seen y with
  | LSeq es => exists ys a', de_seq_values y a = Some (ys, a') /\ Forall no_refs ys /\ map seen ys = map snd es
  | _ => de_seq_values y a = None
  end.
Proof.
  intros H. destruct y as [l|l|l|l|ps|ps|s|ls c|ls c|n]; unfold de_seq_values; cbn [into_resolved]; try reflexivity.
  - cbn [seen look]. exists l, a. split; [reflexivity|]. split.
    + cbn [no_refs] in H. clear - H. induction l as [|y l IH]; constructor; cbn in H; [tauto|apply IH; tauto].
    + rewrite map_map. reflexivity.
  - pose proof (seq_view a l H) as [F E]. cbn [seen look]. destruct (seq_values a l) as [ys a'].
    exists ys, a'. split; [reflexivity|]. split; [exact F|]. cbn [fst] in E. injection E as E.
    apply (f_equal (map snd)) in E. rewrite !map_map in E. cbn [snd] in E. exact E.
  - rewrite seen_unquoted. unfold seen_key. now destruct (typed_word s).
  - destruct H.
Qed.

(** The entries of a mapping. *)
Lemma map_seen y a : no_refs y ->
  match seen y with
  | LMap es => exists ys a', de_map_entries y a = Some (ys, a') /\ Forall (fun kv => no_refs (snd kv)) ys /\
                 map (fun kv => (fst kv, seen (snd kv))) ys = map (fun e => (fst e, snd (snd e))) es
  | _ => de_map_entries y a = None
  end.
Proof.
  intros H. destruct y as [l|l|l|l|ps|ps|s|ls c|ls c|n]; unfold de_map_entries; cbn [into_resolved]; try reflexivity.
  - cbn [seen look]. exists l, a. split; [reflexivity|]. split.
    + cbn [no_refs] in H. clear - H. induction l as [|[k y] l IH]; constructor; cbn in H; [tauto|apply IH; tauto].
    + rewrite map_map. apply map_ext. now intros [k v].
  - pose proof (map_view a l H) as [F E]. cbn [seen look]. destruct (hash_entries a l) as [ys a'].
    exists ys, a'. split; [reflexivity|]. split; [exact F|]. exact E.
  - rewrite seen_unquoted. unfold seen_key. now destruct (typed_word s).
  - destruct H.
Qed.

(** ---- lists ---- *)

Lemma all2_map {A B C} (P : C -> B -> Prop) (f : A -> C) l m :
  all2 P (map f l) m <-> all2 (fun x y => P (f x) y) l m.
Proof. revert m; induction l as [|x l IH]; intros [|y m]; cbn; try tauto. now rewrite IH. Qed.
Lemma all2_iff {A B} (P Q : A -> B -> Prop) l m : (forall x y, In x l -> (P x y <-> Q x y)) -> all2 P l m <-> all2 Q l m.
Proof.
  revert m; induction l as [|x l IH]; intros [|y m] H; cbn; try tauto.
  rewrite (H x y) by now left. rewrite (IH m); [tauto|]. intros; apply H. now right.
Qed.
Lemma any_iff {A} (P Q : A -> Prop) l : (forall x, In x l -> (P x <-> Q x)) -> any P l <-> any Q l.
Proof.
  induction l as [|x l IH]; intros H; cbn; [tauto|]. rewrite (H x) by now left. rewrite IH; [tauto|].
  intros; apply H; now right.
Qed.
Lemma any_ex {A} (P : A -> Prop) l : any P l <-> exists x, In x l /\ P x.
Proof.
  induction l as [|x l IH]; cbn; [split; [intros []|intros (x & [] & _)]|]. rewrite IH. split.
  - intros [H|(y & I & H)]; eauto.
  - intros (y & [->|I] & H); eauto.
Qed.

(** ---- decoders ---- *)

Definition good (d : decoder) (M : looks -> sval -> Prop) : Prop :=
  forall y a v, no_refs y -> ((exists a', d y a = Some (v, a')) <-> M (seen y) v).

Lemma good_elems d M : good d M -> forall ys a vs, Forall no_refs ys ->
  ((exists a', de_elems d ys a = Some (vs, a')) <-> all2 M (map seen ys) vs).
Proof.
  intros G. induction ys as [|y ys IH]; intros a vs F; cbn [de_elems map].
  - split; [intros (a' & E); injection E as <- <-; exact I|]. destruct vs; [|intros []]. intros _. eauto.
  - inversion F as [|? ? Fy Fs]; subst. split.
    + intros (a' & E). destruct (d y a) as [[v a1]|] eqn:D; [|discriminate].
      destruct (de_elems d ys a1) as [[ws a2]|] eqn:D2; [|discriminate]. injection E as <- <-.
      cbn. split; [apply (G y a v Fy); eauto|apply (IH a1 ws Fs); eauto].
    + destruct vs as [|v vs]; [intros []|]. cbn. intros [H1 H2].
      apply (G y a v Fy) in H1 as (a1 & ->). apply (IH a1 vs Fs) in H2 as (a2 & ->). eauto.
Qed.

Lemma good_tuple ts (M : ty -> looks -> sval -> Prop) : Forall (fun t => good (de t) (M t)) ts -> forall ys a vs, Forall no_refs ys ->
  ((exists a', de_tuple (map de ts) ys a = Some (vs, a')) <->
   exists es rest, map seen ys = es ++ rest /\ all3 M ts es vs).
Proof.
  intros G. induction G as [|t ts Gt G IH]; intros ys a vs F; cbn [de_tuple map].
  - split; [intros (a' & E); injection E as <- <-; exists [], (map seen ys); split; [reflexivity|exact I]|].
    intros (es & rest & _ & H). destruct es, vs; try destruct H. eauto.
  - destruct ys as [|y ys].
    + split; [intros (? & E); discriminate|]. intros (es & rest & E & H). destruct es; [destruct H|discriminate].
    + inversion F as [|? ? Fy Fs]; subst. cbn [map]. split.
      * intros (a' & E). destruct (de t y a) as [[v a1]|] eqn:D; [|discriminate].
        destruct (de_tuple (map de ts) ys a1) as [[ws a2]|] eqn:D2; [|discriminate]. injection E as <- <-.
        destruct (proj1 (IH ys a1 ws Fs)) as (es & rest & E & H); [eauto|].
        exists (seen y :: es), rest. split; [now rewrite E|]. cbn. split; [|exact H]. apply (Gt y a v Fy). eauto.
      * intros (es & rest & E & H). destruct es as [|e es]; [destruct H|]. destruct vs as [|v vs]; [destruct H|].
        injection E as <- E. destruct H as [H1 H2]. apply (Gt y a v Fy) in H1 as (a1 & ->).
        destruct (proj2 (IH ys a1 vs Fs)) as (a2 & ->); [eauto|]. eauto.
Qed.

Lemma good_entries dk dv K V : good dk K -> good dv V -> forall ys a vs, Forall (fun kv => no_refs (snd kv)) ys ->
  ((exists a', de_entries dk dv ys a = Some (vs, a')) <->
   all2 (fun e x => K (seen_key (fst e)) (fst x) /\ V (snd e) (snd x)) (map (fun kv => (fst kv, seen (snd kv))) ys) vs).
Proof.
  intros GK GV. induction ys as [|[k y] ys IH]; intros a vs F; cbn [de_entries map].
  - split; [intros (a' & E); injection E as <- <-; exact I|]. destruct vs; [|intros []]. intros _. eauto.
  - inversion F as [|? ? Fy Fs]; subst. cbn [fst snd] in *. split.
    + intros (a' & E). destruct (dk (Unquoted k) a) as [[vk a0]|] eqn:D0; [|discriminate].
      destruct (dv y a0) as [[v a1]|] eqn:D; [|discriminate].
      destruct (de_entries dk dv ys a1) as [[ws a2]|] eqn:D2; [|discriminate]. injection E as <- <-.
      cbn. split; [split|apply (IH a1 ws Fs); eauto].
      * rewrite <- seen_unquoted. apply (GK (Unquoted k) a vk I). eauto.
      * apply (GV y a0 v Fy). eauto.
    + destruct vs as [|[vk v] vs]; [intros []|]. cbn. intros [[H0 H1] H2].
      rewrite <- seen_unquoted in H0.
      apply (GK (Unquoted k) a vk I) in H0 as (a0 & ->).
      apply (GV y a0 v Fy) in H1 as (a1 & ->). apply (IH a1 vs Fs) in H2 as (a2 & ->). eauto.
Qed.

(** ---- structs ---- *)

Definition state : Type := ((str * ty) * option sval)%type.
Definition mkst (x : state) : field := mkF (fst (fst x)) (de (snd (fst x))) (is_option (snd (fst x))) (snd x).

Section Fields.
  Context (M : ty -> looks -> sval -> Prop).
  Definition step (l : list (str * yaml)) (x x' : state) : Prop :=
    fst x' = fst x /\
    match snd x with
    | Some v => snd x' = Some v /\ ~ In (fst (fst x)) (map fst l)
    | None =>
        match snd x' with
        | None => ~ In (fst (fst x)) (map fst l)
        | Some v => exists y, only l (fst (fst x)) y /\ M (snd (fst x)) (seen y) v
        end
    end.

  Lemma step_nil x x' : step [] x x' <-> x = x'.
  Proof.
    destruct x as [[n t] o], x' as [[n' t'] o']. unfold step, only; cbn. split.
    - intros [E H]. injection E as -> ->. destruct o as [v|].
      + now destruct H as [-> _].
      + destruct o' as [v|]; [|reflexivity]. destruct H as (y & (b & c & E & _) & _). destruct b; discriminate.
    - intros E. injection E as <- <- <-. split; [reflexivity|]. destruct o as [v|]; [auto|auto].
  Qed.
  Lemma only_cons_same (l : list (str * yaml)) n y z : only ((n, y) :: l) n z <-> z = y /\ ~ In n (map fst l).
  Proof.
    unfold only. split.
    - intros ([|e b] & c & E & Nb & Nc).
      + injection E as -> ->. auto.
      + injection E as <- E. cbn in Nb. tauto.
    - intros [-> H]. exists [], l. cbn. auto.
  Qed.
  Lemma only_cons_other (l : list (str * yaml)) n k y z : k <> n -> only ((k, y) :: l) n z <-> only l n z.
  Proof.
    intros H. unfold only. split.
    - intros ([|e b] & c & E & Nb & Nc).
      + injection E as E _. congruence.
      + injection E as <- ->. exists b, c. cbn in Nb. tauto.
    - intros (b & c & -> & Nb & Nc). exists ((k, y) :: b), c. cbn. tauto.
  Qed.
  Lemma step_cons k y l x x'' : step ((k, y) :: l) x x'' <-> exists x', step [(k, y)] x x' /\ step l x' x''.
  Proof.
    destruct x as [[n t] o], x'' as [[n'' t''] o'']. split.
    - intros [E H]. cbn in E. injection E as -> ->.
      destruct o as [v|]; cbn in H.
      + destruct H as [-> N]. exists (n, t, Some v). split; split; cbn; try tauto.
      + destruct o'' as [v|].
        * destruct H as (z & O & Hm). destruct (list_eq_dec N.eq_dec k n) as [->|NE].
          -- apply only_cons_same in O as [-> O]. exists (n, t, Some v). split; split; cbn; try tauto.
             exists y. split; [|exact Hm]. apply only_cons_same. cbn; auto.
          -- apply only_cons_other in O; [|exact NE]. exists (n, t, None). split; split; cbn; try tauto; eauto.
        * exists (n, t, None). split; split; cbn; tauto.
    - intros ([[n' t'] o'] & [E1 H1] & [E2 H2]). cbn in E1, E2. injection E1 as -> ->. injection E2 as -> ->.
      split; [reflexivity|]. cbn in *. destruct o as [v|].
      + destruct H1 as [-> N1]. destruct H2 as [-> N2]. split; [reflexivity|]. tauto.
      + destruct o' as [v|].
        * destruct H1 as (z & O & Hm). destruct H2 as [-> N2]. destruct (list_eq_dec N.eq_dec k n) as [->|NE].
          -- apply only_cons_same in O as [-> _]. exists y. split; [|exact Hm]. now apply only_cons_same.
          -- apply only_cons_other in O; [|exact NE]. destruct O as (b & c & E & _). destruct b; discriminate.
        * destruct o'' as [v|].
          -- destruct H2 as (z & O & Hm). exists z. split; [|exact Hm]. apply only_cons_other; tauto.
          -- tauto.
  Qed.

  Lemma F2_compose {A} (P Q R : A -> A -> Prop) : (forall x z, R x z <-> exists y, P x y /\ Q y z) ->
    forall l n, Forall2 R l n <-> exists m, Forall2 P l m /\ Forall2 Q m n.
  Proof.
    intros H. induction l as [|x l IH]; intros n; split.
    - intros F. inversion F; subst. exists []. split; constructor.
    - intros (m & F1 & F2). inversion F1; subst. inversion F2; subst. constructor.
    - intros F. inversion F as [|? z ? n' Hx Hl]; subst. apply H in Hx as (y & P1 & Q1).
      apply IH in Hl as (m & F1 & F2). exists (y :: m). split; now constructor.
    - intros (m & F1 & F2). inversion F1; subst. inversion F2; subst. constructor; [apply H; eauto|apply IH; eauto].
  Qed.

  Lemma steps_none k y st : ~ In k (map (fun x => fst (fst x)) st) ->
    forall st', Forall2 (step [(k, y)]) st st' <-> st = st'.
  Proof.
    induction st as [|[[n t] o] st IH]; intros N st'; cbn in N.
    - split; intros F; [now inversion F|subst; constructor].
    - assert (X : forall x', step [(k, y)] (n, t, o) x' <-> (n, t, o) = x').
      { intros x'. rewrite step_cons. setoid_rewrite step_nil. split.
        - intros (x1 & S & <-). destruct x1 as [[n1 t1] o1]. destruct S as [E S]. cbn in E, S. injection E as -> ->.
          destruct o as [v|]; [now destruct S as [-> _]|]. destruct o1 as [v|]; [|reflexivity].
          destruct S as (z & O & _). apply only_cons_other in O; [|intros ->; tauto]. destruct O as (b & c & E & _). destruct b; discriminate.
        - intros <-. eexists. split; [|reflexivity]. split; [reflexivity|]. cbn.
          destruct o as [v|]; [split; [reflexivity|]|]; intros [Q|[]]; apply N; left; congruence. }
      split.
      + intros F. inversion F as [|? x' ? l' Hx Hl]; subst. apply X in Hx. apply IH in Hl; [|tauto]. now subst.
      + intros <-. constructor; [now apply X|]. apply IH; tauto.
  Qed.

  Lemma field_step st k y a : Forall (fun x => good (de (snd (fst x))) (M (snd (fst x)))) st ->
    NoDup (map (fun x => fst (fst x)) st) -> no_refs y ->
    (forall r a', de_field (map mkst st) k y a = Some (r, a') -> exists st', r = map mkst st' /\ Forall2 (step [(k, y)]) st st') /\
    (forall st', Forall2 (step [(k, y)]) st st' -> exists a', de_field (map mkst st) k y a = Some (map mkst st', a')).
  Proof.
    intros G. induction G as [|[[n t] o] st Gx G IH]; intros ND Ny.
    - split.
      + cbn. intros r a' E. injection E as <- <-. exists []. split; [reflexivity|constructor].
      + intros st' F. inversion F; subst. cbn. eauto.
    - cbn in ND. inversion ND as [|? ? Nn ND']; subst. specialize (IH ND' Ny). destruct IH as [IH1 IH2].
      cbn [map de_field mkst f_name f_val f_de f_opt fst snd]. destruct (seqb n k) eqn:E.
      + apply seqb_eq in E. subst k. split.
        * destruct o as [v|]; [discriminate|]. intros r a' H. destruct (de t y a) as [[v a1]|] eqn:D; [|discriminate].
          injection H as <- <-. exists ((n, t, Some v) :: st). split; [reflexivity|]. constructor.
          -- split; [reflexivity|]. cbn. exists y. split; [apply only_cons_same; cbn; auto|]. apply (Gx y a v Ny). cbn. eauto.
          -- now apply steps_none.
        * intros st' F. inversion F as [|? x' ? l' Hx Hl]; subst. apply (steps_none n y st Nn) in Hl. subst l'.
          destruct x' as [[n' t'] o']. destruct Hx as [Ex Hx]. cbn in Ex, Hx. injection Ex as -> ->.
          destruct o as [v|]; [exfalso; destruct Hx as [_ Hx]; apply Hx; now left|].
          destruct o' as [v|]; [|exfalso; apply Hx; now left].
          destruct Hx as (z & O & Hm). apply only_cons_same in O as [-> _].
          apply (Gx y a v Ny) in Hm as (a1 & D). cbn in D. rewrite D. eauto.
      + assert (NE : k <> n) by (intros ->; rewrite (proj2 (seqb_eq n n) eq_refl) in E; discriminate).
        assert (X : forall x', step [(k, y)] (n, t, o) x' <-> (n, t, o) = x').
        { intros x'. pose proof (steps_none k y [(n, t, o)]) as Q. cbn in Q. split.
          - intros S. assert (F : Forall2 (step [(k, y)]) [(n, t, o)] [x']) by (constructor; [exact S|constructor]).
            apply Q in F; [now injection F|]. intros [Z|[]]; congruence.
          - intros <-. assert (F : Forall2 (step [(k, y)]) [(n, t, o)] [(n, t, o)]).
            { apply Q; [|reflexivity]. intros [Z|[]]; congruence. }
            now inversion F. }
        split.
        * intros r a' H. destruct (de_field (map mkst st) k y a) as [[fs1 a1]|] eqn:D; [|discriminate].
          injection H as <- <-. destruct (IH1 fs1 a1 eq_refl) as (st' & -> & F).
          exists ((n, t, o) :: st'). split; [reflexivity|]. constructor; [now apply X|exact F].
        * intros st' F. inversion F as [|? x' ? l' Hx Hl]; subst. apply X in Hx. subst x'.
          destruct (IH2 l' Hl) as (a1 & ->). eauto.
  Qed.

  Lemma step_names l st st' : Forall2 (step l) st st' -> map fst st' = map fst st.
  Proof. induction 1 as [|x x' st st' H F IH]; cbn; [reflexivity|]. destruct H as [-> _]. now rewrite IH. Qed.

  Lemma fields_steps l : Forall (fun kv => no_refs (snd kv)) l -> forall st a,
    Forall (fun x => good (de (snd (fst x))) (M (snd (fst x)))) st -> NoDup (map (fun x => fst (fst x)) st) ->
    (forall r a', de_fields (map mkst st) l a = Some (r, a') -> exists st', r = map mkst st' /\ Forall2 (step l) st st') /\
    (forall st', Forall2 (step l) st st' -> exists a', de_fields (map mkst st) l a = Some (map mkst st', a')).
  Proof.
    induction 1 as [|[k y] l Ny F IH]; intros st a G ND.
    - cbn. split.
      + intros r a' E. injection E as <- <-. exists st. split; [reflexivity|].
        clear. induction st; constructor; auto. now apply step_nil.
      + intros st' S. assert (st = st').
        { clear - S. induction S as [|? ? ? ? H]; [reflexivity|]. apply step_nil in H. now subst. }
        subst. eauto.
    - cbn [de_fields snd] in *. destruct (field_step st k y a G ND Ny) as [S1 S2].
      assert (C : forall st1, Forall2 (step [(k, y)]) st st1 ->
        Forall (fun x => good (de (snd (fst x))) (M (snd (fst x)))) st1 /\ NoDup (map (fun x => fst (fst x)) st1)).
      { intros st1 S. apply step_names in S. split.
        - rewrite <- (Forall_map fst (fun x => good (de (snd x)) (M (snd x)))) in G |- *. now rewrite S.
        - rewrite <- (map_map fst fst) in ND |- *. now rewrite S. }
      split.
      + intros r a' H. destruct (de_field (map mkst st) k y a) as [[fs1 a1]|] eqn:D; [|discriminate].
        destruct (S1 _ _ eq_refl) as (st1 & -> & St). destruct (C st1 St) as [G1 N1].
        destruct (IH st1 a1 G1 N1) as [I1 _]. destruct (I1 r a' H) as (st2 & -> & St2).
        exists st2. split; [reflexivity|]. apply (F2_compose _ _ _ (step_cons k y l)). eauto.
      + intros st2 S. apply (F2_compose _ _ _ (step_cons k y l)) in S as (st1 & St & St2).
        destruct (C st1 St) as [G1 N1]. destruct (S2 st1 St) as (a1 & ->).
        destruct (IH st1 a1 G1 N1) as [_ I2]. now apply I2.
  Qed.
End Fields.

Definition field_is (M : ty -> looks -> sval -> Prop) (es : list (str * (option str * looks))) (f : str * ty) (x : str * sval) : Prop :=
  match f with (n, t) => n = fst x /\
    ((exists al w, only es n (al, w) /\ M t w (snd x)) \/
     (~ In n (map fst es) /\ is_option t = true /\ snd x = SNone)) end.

Lemma only_map {A B} (f : A -> B) (l : list (str * A)) n z :
  only (map (fun e => (fst e, f (snd e))) l) n z <-> exists x, only l n x /\ f x = z.
Proof.
  unfold only. assert (Q : forall l : list (str * A), map fst (map (fun e => (fst e, f (snd e))) l) = map fst l)
    by (intros; rewrite map_map; reflexivity). split.
  - intros (b & c & E & Nb & Nc). symmetry in E. revert b E Nb. induction l as [|[k x] l IH]; intros b E Nb.
    + destruct b; discriminate.
    + destruct b as [|e b]; cbn in E.
      * injection E as -> -> ->. exists x. split; [|reflexivity]. exists [], l. rewrite Q in Nc. cbn; auto.
      * injection E as -> E. destruct (IH b E) as (x' & (b' & c' & -> & Nb' & Nc') & Hx); [cbn in Nb; tauto|].
        exists x'. split; [|exact Hx]. exists ((k, x) :: b'), c'. cbn in *. tauto.
  - intros (x & (b & c & -> & Nb & Nc) & <-). exists (map (fun e => (fst e, f (snd e))) b), (map (fun e => (fst e, f (snd e))) c).
    rewrite map_app. cbn. rewrite !Q. auto.
Qed.

Lemma step_values (M : ty -> looks -> sval -> Prop) ys es fs st' vs :
  map (fun kv => (fst kv, seen (snd kv))) ys = map (fun e => (fst e, snd (snd e))) es ->
  Forall2 (step M ys) (map (fun f => (f, None)) fs) st' -> opt_map field_value (map mkst st') = Some vs ->
  all2 (field_is M es) fs vs.
Proof.
  intros E. assert (Ek : map fst ys = map fst es).
  { apply (f_equal (map fst)) in E. rewrite !map_map in E. exact E. }
  assert (Eo : forall n w, (exists y, only ys n y /\ seen y = w) <-> exists al, only es n (al, w)).
  { intros n w. rewrite <- (only_map seen), E, (only_map snd). split.
    - intros ([al w'] & O & <-). eauto.
    - intros (al & O). exists (al, w). auto. }
  revert st' vs. induction fs as [|[n t] fs IH]; intros st' vs F V.
  - inversion F; subst. cbn in V. injection V as <-. exact I.
  - cbn [map] in F. inversion F as [|? x' ? l' Hx Hl]; subst. destruct x' as [[n' t'] o'].
    destruct Hx as [Ex Hx]. cbn in Ex, Hx. injection Ex as -> ->.
    cbn in V. destruct o' as [v|]; cbn in V.
    + destruct (opt_map field_value (map mkst l')) as [ws|] eqn:W; [|discriminate]. injection V as <-.
      cbn. split; [|now apply (IH l')]. split; [reflexivity|]. left. destruct Hx as (y & O & Hm).
      destruct (proj1 (Eo n (seen y))) as (al & O'); eauto.
    + destruct (is_option t) eqn:Op; [|discriminate].
      destruct (opt_map field_value (map mkst l')) as [ws|] eqn:W; [|discriminate]. injection V as <-.
      cbn. split; [|now apply (IH l')]. split; [reflexivity|]. right. rewrite <- Ek. auto.
Qed.
Lemma values_step (M : ty -> looks -> sval -> Prop) ys es fs vs :
  map (fun kv => (fst kv, seen (snd kv))) ys = map (fun e => (fst e, snd (snd e))) es ->
  all2 (field_is M es) fs vs ->
  exists st', Forall2 (step M ys) (map (fun f => (f, None)) fs) st' /\ opt_map field_value (map mkst st') = Some vs.
Proof.
  intros E. assert (Ek : map fst ys = map fst es).
  { apply (f_equal (map fst)) in E. rewrite !map_map in E. exact E. }
  assert (Eo : forall n w, (exists y, only ys n y /\ seen y = w) <-> exists al, only es n (al, w)).
  { intros n w. rewrite <- (only_map seen), E, (only_map snd). split.
    - intros ([al w'] & O & <-). eauto.
    - intros (al & O). exists (al, w). auto. }
  revert vs. induction fs as [|[n t] fs IH]; intros [|[m v] vs] H; cbn in H; try contradiction.
  - exists []. split; [constructor|reflexivity].
  - destruct H as [[-> H] Hs]. destruct (IH vs Hs) as (st' & F & V). destruct H as [(al & w & O & Hm)|(N & Op & ->)].
    + destruct (proj2 (Eo m w)) as (y & O' & <-); [eauto|].
      exists ((m, t, Some v) :: st'). split.
      * cbn [map]. constructor; [|exact F]. split; [reflexivity|]. cbn. eauto.
      * cbn. rewrite V. reflexivity.
    + exists ((m, t, None) :: st'). split.
      * cbn [map]. constructor; [|exact F]. split; [reflexivity|]. cbn. now rewrite Ek.
      * cbn. rewrite Op, V. reflexivity.
Qed.

Lemma mk_state fs : map (fun nt : str * ty => match nt with (n, t) => mkF n (de t) (is_option t) None end) fs =
  map mkst (map (fun f => (f, None)) fs).
Proof. rewrite map_map. apply map_ext. now intros [n t]. Qed.

Lemma good_struct (M : ty -> looks -> sval -> Prop) fs : Forall (fun f => good (de (snd f)) (M (snd f))) fs -> NoDup (map fst fs) ->
  forall y a vs, no_refs y ->
  ((exists a', de_struct (map (fun nt : str * ty => match nt with (n, t) => mkF n (de t) (is_option t) None end) fs) y a = Some (vs, a')) <->
   exists es, seen y = LMap es /\ all2 (field_is M es) fs vs).
Proof.
  intros G ND y a vs Ny. pose proof (map_seen y a Ny) as V. unfold de_struct. rewrite mk_state.
  assert (G' : Forall (fun x : state => good (de (snd (fst x))) (M (snd (fst x)))) (map (fun f => (f, None)) fs)).
  { apply Forall_map. exact G. }
  assert (ND' : NoDup (map (fun x : state => fst (fst x)) (map (fun f => (f, None)) fs))).
  { rewrite map_map. exact ND. }
  split.
  - intros (a' & H). destruct (seen y) as [s|s|es|es|n] eqn:S; try (rewrite V in H; discriminate).
    destruct V as (ys & a1 & D & F & E). rewrite D in H. exists es. split; [reflexivity|].
    destruct (fields_steps M ys F _ a1 G' ND') as [S1 _].
    destruct (de_fields _ ys a1) as [[fs1 a2]|] eqn:DF; [|discriminate].
    destruct (S1 fs1 a2 eq_refl) as (st' & -> & St).
    destruct (opt_map field_value (map mkst st')) as [ws|] eqn:W; [|discriminate]. injection H as <- <-.
    eapply step_values; eauto.
  - intros (es & S & H). rewrite S in V. destruct V as (ys & a1 & D & F & E). rewrite D.
    destruct (values_step M ys es fs vs E H) as (st' & St & W).
    destruct (fields_steps M ys F _ a1 G' ND') as [_ S2]. destruct (S2 st' St) as (a2 & ->). rewrite W. eauto.
Qed.
