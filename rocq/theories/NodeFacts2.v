(** Reading nodes as types with serde attributes: what is read is what the node means. *)
From Coq Require Import ZArith Lia.
From Verif Require Import Base Ast Strings Num Ser De Attr Spec_Pretty Spec_Serde Spec_Look Spec_Typed Spec_Attr Spec_Buffer
  LookFacts SerdeFacts2 TypedFacts TypedFacts2 TypedFacts3 AttrFacts AttrFacts2 AttrFacts3 AttrFacts7 BufferFacts BufferFacts2 BufferFacts3 NodeFacts.
Import ListNotations.

Lemma bare_see y : bare_look (see y) = look untyped_word y.
Proof.
  induction y as [l IH|l IH|l IH|l IH|ps|ps|s|ls ch|ls ch|s] using yaml_ind'; try reflexivity; cbn [look bare_look].
  - f_equal. rewrite map_map. induction IH as [|[k v] l E _ IHl]; [reflexivity|]. cbn in E |- *. now rewrite E, IHl.
  - f_equal. induction IH as [|[x|x|[k [al v]]] l E _ IHl]; [reflexivity|exact IHl|exact IHl|]. cbn in E |- *. now rewrite E, IHl.
  - f_equal. rewrite map_map. induction IH as [|v l E _ IHl]; [reflexivity|]. cbn in E |- *. now rewrite E, IHl.
  - f_equal. induction IH as [|[x|x|[al v]] l E _ IHl]; [reflexivity|exact IHl|exact IHl|]. cbn in E |- *. now rewrite E, IHl.
  - destruct (any_word s) eqn:A; cbn [bare_look]; [reflexivity|]. destruct (untyped_word s) eqn:U; [|reflexivity].
    rewrite (any_word_up s U) in A. discriminate.
Qed.
Lemma buffered_see n y c : no_refs y -> depth y <= n -> buffered (see y) c <-> c = content y.
Proof. intros N D. unfold buffered. rewrite bare_see. now apply (means_content n). Qed.
Lemma transfer {B} (R : str -> looks -> B -> Prop) (ys : list (str * yaml)) (es : list (str * (option str * looks))) cs :
  map (fun kv => (fst kv, see (snd kv))) ys = map (fun e => (fst e, snd (snd e))) es ->
  all2 (fun kv x => R (fst kv) (see (snd kv)) x) ys cs <-> all2 (fun e x => R (fst e) (snd (snd e)) x) es cs.
Proof.
  intros E. change (fun kv x => R (fst kv) (see (snd kv)) x) with (fun kv x => (fun p x => R (fst p) (snd p) x) ((fun kv : str * yaml => (fst kv, see (snd kv))) kv) x).
  rewrite <- (all2_map (fun p x => R (fst p) (snd p) x) (fun kv : str * yaml => (fst kv, see (snd kv)))), E, all2_map. reflexivity.
Qed.
Lemma kept_keys ys es (keep : str -> bool) : map (fun kv => (fst kv, see (snd kv))) ys = map (fun e : str * (option str * looks) => (fst e, snd (snd e))) es ->
  map (fun kv => (fst kv, see (snd kv))) (filter (fun kv => keep (fst kv)) ys) = map (fun e => (fst e, snd (snd e))) (filter (fun e => keep (fst e)) es).
Proof.
  revert es. induction ys as [|[k y] ys IH]; intros [|[k' [al l]] es] E; try discriminate; [reflexivity|]. cbn in E. injection E as <- <- E.
  cbn. destruct (keep k); cbn; now rewrite (IH es E).
Qed.

(** ---- the tag ---- *)
Section Tag.
  Context (n : nat) (tag : str).
  Definition tag_entry (kv : str * yaml) (x : entry) : Prop :=
    fst x = any_unquoted (fst kv) /\
    (fst x = AnStr tag -> exists s, text (see (snd kv)) s /\ snd x = AnStr s) /\
    (fst x <> AnStr tag -> snd x = content (snd kv)).
  Lemma anyv_dec (k : anyv) : k = AnStr tag \/ k <> AnStr tag.
  Proof.
    destruct k; try (right; discriminate). destruct (seqb s tag) eqn:E; [left; apply seqb_eq in E; congruence|].
    right. apply seqb_neq in E. congruence.
  Qed.
  Lemma others_tag c cs : others [tag] ((AnStr tag, c) :: cs) = others [tag] cs.
  Proof. unfold others. cbn [filter fst existsb]. now rewrite seqb_refl. Qed.
  Lemma others_skip k c cs : k <> AnStr tag -> others [tag] ((k, c) :: cs) = (k, c) :: others [tag] cs.
  Proof.
    intros N. unfold others. cbn [filter fst existsb]. destruct k; try reflexivity. rewrite orb_false_r.
    destruct (seqb s tag) eqn:E; [apply seqb_eq in E; congruence|reflexivity].
  Qed.
  Definition tag_state (sn : option str) (cs : list entry) (r : option str) : Prop :=
    (r = sn /\ ~ In (AnStr tag) (map fst cs)) \/ (sn = None /\ exists s, r = Some s /\ once cs tag (AnStr s)).
  Lemma state_skip sn k c cs r : k <> AnStr tag -> tag_state sn ((k, c) :: cs) r <-> tag_state sn cs r.
  Proof.
    intros N. unfold tag_state. cbn [map fst In]. setoid_rewrite once_cons. cbn [fst]. split.
    - intros [[-> H]|[-> (s & -> & [[E _]|[_ O]])]]; [tauto|congruence|]. right. eauto.
    - intros [[-> H]|[-> (s & -> & O)]]; [tauto|]. right. split; [reflexivity|]. exists s. tauto.
  Qed.
  Lemma n_tag_iff : forall ys, Forall (fun kv => no_refs (snd kv) /\ depth (snd kv) <= n) ys -> forall sn a r rest,
    gives (n_tag (de_any n) tag sn ys a) (r, rest) <->
    exists cs, all2 tag_entry ys cs /\ rest = others [tag] cs /\ tag_state sn cs r.
  Proof.
    induction 1 as [|[k y] ys [N D] _ IH]; intros sn a r rest; cbn [n_tag].
    - rewrite gives_done. split.
      + intros E. injection E as -> ->. exists []. cbn. repeat split. left. auto.
      + intros ([|] & A & -> & S); [|destruct A]. destruct S as [[-> _]|[_ (s & _ & O)]]; [reflexivity|destruct (once_nil _ _ O)].
    - cbn in N, D.
      assert (G : forall k', k' = any_unquoted k -> k' <> AnStr tag ->
        gives (o_bind (de_any n y a) (fun c a1 => o_map (fun r => (fst r, (k', c) :: snd r)) (n_tag (de_any n) tag sn ys a1))) (r, rest) <->
        exists cs, all2 tag_entry ((k, y) :: ys) cs /\ rest = others [tag] cs /\ tag_state sn cs r).
      { intros k' Ek Nk. destruct (any_done n y a N D) as [a1 ->]. cbn [o_bind]. rewrite gives_map. split.
        - intros ([r0 rest0] & H & E). cbn in E. injection E as -> ->. apply IH in H as (cs & A & -> & S).
          exists ((k', content y) :: cs). rewrite others_skip by exact Nk. split; [|split; [reflexivity|now apply state_skip]].
          cbn [all2]. split; [|exact A]. unfold tag_entry. cbn. split; [exact Ek|]. split; [congruence|reflexivity].
        - intros ([|[k0 c0] cs] & A & -> & S); [destruct A|]. destruct A as [(E1 & E2 & E3) A]. cbn in E1, E2, E3.
          rewrite <- Ek in E1. subst k0. rewrite (E3 Nk) in *. apply state_skip in S; [|exact Nk].
          exists (r, others [tag] cs). split; [|now rewrite others_skip]. apply IH. eauto. }
      destruct (any_unquoted k) as [| | | | |m| |] eqn:K; try (apply G; [reflexivity|discriminate]).
      destruct (seqb m tag) eqn:Et; [|apply seqb_neq in Et; apply G; [reflexivity|congruence]]. clear G.
      apply seqb_eq in Et. subst m. destruct sn as [s0|].
      + split; [intros X; destruct (gives_failed _ X)|]. intros ([|[k0 c0] cs] & A & -> & S); [destruct A|].
        destruct A as [(E1 & _) _]. cbn in E1. rewrite K in E1. subst k0. destruct S as [[_ S]|[S _]]; [|discriminate]. cbn in S. tauto.
      + assert (T : forall s, de_text y a = Some s <-> text (see y) s) by (intros s; rewrite (text_look y a N); apply node_text_iff).
        split.
        * destruct (de_text y a) as [s|] eqn:Ts; [|intros X; destruct (gives_failed _ X)]. intros H. apply IH in H as (cs & A & -> & S).
          exists ((AnStr tag, AnStr s) :: cs). rewrite others_tag. split; [|split; [reflexivity|]].
          -- cbn [all2]. split; [|exact A]. unfold tag_entry. cbn. split; [now symmetry|]. split; [|congruence]. intros _. exists s. split; [now apply T|reflexivity].
          -- destruct S as [[-> S]|[S _]]; [|discriminate]. right. split; [reflexivity|]. exists s. split; [reflexivity|].
             apply once_cons. left. auto.
        * intros ([|[k0 c0] cs] & A & -> & S); [destruct A|]. destruct A as [(E1 & E2 & _) A]. cbn in E1, E2. rewrite K in E1. subst k0.
          destruct (E2 eq_refl) as (s & Tx & ->). apply T in Tx. rewrite Tx. rewrite others_tag. apply IH. exists cs. split; [exact A|]. split; [reflexivity|].
          destruct S as [[_ S]|[_ (s' & -> & O)]]; [cbn in S; tauto|]. apply once_cons in O as [[E O]|[O _]]; [|cbn in O; congruence].
          injection E as <-. left. auto.
  Qed.
  Lemma any_list_done : forall ys, Forall (fun y => no_refs y /\ depth y <= n) ys -> forall a cs,
    gives (any_list (de_any n) ys a) cs <-> cs = map content ys.
  Proof.
    induction 1 as [|y ys [N D] _ IH]; intros a cs; cbn [any_list map]; [apply gives_done|].
    destruct (any_done n y a N D) as [a1 ->]. cbn [o_bind]. rewrite gives_map. split.
    - intros (q & H & ->). apply IH in H. congruence.
    - intros ->. exists (map content ys). split; [now apply IH|reflexivity].
  Qed.
End Tag.
Lemma buffered_list n ys als cs : Forall (fun y => no_refs y /\ depth y <= n) ys -> map snd als = map see ys ->
  all2 (fun (e : option str * looks) c => buffered (snd e) c) als cs <-> cs = map content ys.
Proof.
  intros F. revert als cs. induction F as [|y ys [N D] _ IH]; intros [|e als] cs E; try discriminate; cbn.
  - destruct cs; easy.
  - injection E as E1 E2. destruct cs as [|c cs]; [easy|]. rewrite (IH als cs E2), E1, (buffered_see n y c N D). split; [intros [-> ->]; reflexivity|].
    intros E. injection E as -> ->. auto.
Qed.

Lemma n_tagged_iff fuel tag y a m d : no_refs y -> depth y <= fuel ->
  gives (n_tagged fuel tag y a) (m, d) <-> exists c, buffered_tag tag (see y) c /\ b_tagged tag c = Some (m, d).
Proof.
  intros N D. destruct fuel as [|n]; [pose proof (depth_pos y); lia|].
  assert (Na : forall m, y <> Anchor m) by (intros q ->; destruct N).
  rewrite tagged_eq by exact Na. unfold tagged_at. pose proof (read_map_ents y a) as Rm. pose proof (read_seq_elts y a) as Rs.
  unfold buffered_tag. destruct (ents y) as [ys|] eqn:Ee.
  - destruct Rm as [a1 ->]. destruct (ents_facts y ys Ee N) as (F & _ & L). destruct (L any_word) as (es & -> & E). clear L.
    assert (F' : Forall (fun kv => no_refs (snd kv) /\ depth (snd kv) <= n) ys).
    { eapply Forall_impl; [|exact F]. cbn. intros kv [A B]. split; [exact A|lia]. }
    assert (Q : forall cs, all2 (tag_entry tag) ys cs <->
      all2 (fun e x => key_means (fst e) (fst x) /\ (fst x = AnStr tag -> exists s, text (snd (snd e)) s /\ snd x = AnStr s) /\
             (fst x <> AnStr tag -> buffered (snd (snd e)) (snd x))) es cs).
    { intros cs. rewrite <- (transfer (fun k l x => key_means k (fst x) /\ (fst x = AnStr tag -> exists s, text l s /\ snd x = AnStr s) /\
             (fst x <> AnStr tag -> buffered l (snd x))) ys es cs (eq_sym E)).
      apply all2_iff. intros kv x I. unfold tag_entry. rewrite key_value.
      destruct (proj1 (Forall_forall _ _) F' kv I) as [Nk Dk]. rewrite (buffered_see n (snd kv) (snd x) Nk Dk). tauto. }
    unfold n_tagged_map. rewrite gives_bind. split.
    + intros ([r rest] & a2 & H & X). assert (Gv : gives (n_tag (de_any n) tag None ys a1) (r, rest)) by (exists a2; exact H).
      apply (n_tag_iff n tag ys F') in Gv as (cs & A & -> & S). destruct r as [s|]; [|destruct (gives_failed _ X)].
      apply gives_done in X. injection X as -> ->. destruct S as [[S _]|[_ (s' & Es & O)]]; [discriminate|]. injection Es as <-.
      exists (AnMap cs). split; [left; exists es, cs; split; [reflexivity|]; split; [reflexivity|]; now apply Q|].
      apply tagged_iff. left. eauto.
    + intros (c & [(es' & cs & X & -> & A)|(e & es' & s & cs & X & _)] & B); [|discriminate]. injection X as <-. apply Q in A.
      apply tagged_iff in B as [(cs' & X & O & ->)|(cs' & X & _)]; [|discriminate]. injection X as <-.
      assert (Gv : gives (n_tag (de_any n) tag None ys a1) (Some m, others [tag] cs)).
      { apply (n_tag_iff n tag ys F'). exists cs. split; [exact A|]. split; [reflexivity|]. right. eauto. }
      destruct Gv as [a2 Gv]. exists (Some m, others [tag] cs), a2. split; [exact Gv|]. now apply gives_done.
  - rewrite Rm. destruct (elts y) as [vs|] eqn:Ev.
    + destruct Rs as [a1 ->]. destruct (elts_facts y vs Ev N) as (F & _ & L). destruct (L any_word) as (es & -> & E). clear L.
      assert (F' : Forall (fun y => no_refs y /\ depth y <= n) vs).
      { eapply Forall_impl; [|exact F]. cbn. intros v [A B]. split; [exact A|lia]. }
      unfold n_tagged_seq. destruct vs as [|y0 vs].
      { split; [intros X; destruct (gives_failed _ X)|]. intros (c & [(es' & cs & X & _)|(e & es' & s & cs & X & _)] & _); [discriminate|].
        injection X as ->. discriminate. }
      destruct es as [|e es]; [discriminate|]. cbn in E. injection E as E1 E2. inversion F' as [|? ? [N0 D0] Fs]; subst.
      assert (T : forall s, de_text y0 a1 = Some s <-> text (snd e) s) by (intros s; rewrite (text_look y0 a1 N0), E1; apply node_text_iff).
      split.
      * destruct (de_text y0 a1) as [s|]; [|intros X; destruct (gives_failed _ X)]. intros X. apply gives_map in X as (cs & H & X). injection X as -> ->.
        exists (AnSeq (AnStr s :: cs)). split; [|reflexivity]. right. exists e, es, s, cs. split; [reflexivity|]. split; [reflexivity|].
        split; [now apply T|]. apply (buffered_list n vs); auto. now apply (any_list_done n vs Fs a1).
      * intros (c & [(es' & cs & X & _)|(e' & es' & s & cs & X & -> & Tx & A)] & B); [discriminate|]. injection X as <- <-.
        cbn in B. injection B as <- <-. apply T in Tx. rewrite Tx. apply gives_map. exists cs. split; [|reflexivity].
        apply (any_list_done n vs Fs a1). now apply (buffered_list n vs es).
    + rewrite Rs. split; [intros X; destruct (gives_failed _ X)|]. intros (c & H & B). exfalso.
      assert (X : (exists es, see y = LMap es) \/ exists es, see y = LSeq es).
      { destruct H as [(es' & cs & X & _)|(e' & es' & s & cs & X & _)]; eauto. }
      destruct y; cbn [ents elts look] in *; try discriminate; destruct X as [[? X]|[? X]]; try discriminate; destruct (any_word s); discriminate.
Qed.

(** ---- scalars ---- *)
Lemma word_view w y s : (w s = true -> any_word s = true) -> w s = true -> look w y = LWord s <-> see y = LWord s.
Proof.
  intros Up Ws. specialize (Up Ws). destruct y; cbn [look]; split; intros E; try discriminate.
  - destruct (w s0) eqn:W0; [|discriminate]. injection E as ->. now rewrite Up.
  - destruct (any_word s0) eqn:W0; [|discriminate]. injection E as ->. now rewrite Ws.
Qed.
Lemma typed_up s : typed_word s = true -> any_word s = true.
Proof. intros H. unfold any_word. now rewrite H. Qed.
Lemma text_view w y s : no_refs y -> text (look w y) s <-> text (see y) s.
Proof.
  intros N. rewrite <- !node_text_iff. destruct y; try reflexivity. cbn. now destruct (w s0), (any_word s0).
Qed.
Lemma null_view y : null (seen y) <-> null (see y).
Proof.
  unfold null. split; intros (s & E & I); exists s; (split; [|exact I]); 
    (assert (Ts : typed_word s = true) by (cbn [null_words map In] in I; repeat (destruct I as [<- | I]; [vm_compute; reflexivity|]); destruct I));
    unfold seen in *; now apply (word_view typed_word y s (typed_up s) Ts).
Qed.

Section Main.
  Context (fuel : nat).
  Notation good := (goodx fuel).
  Lemma basic t u : bare t = u -> no_bytes t -> distinct t -> (forall y v, ok fuel y -> means t (seen y) v <-> xmeans u (see y) v) -> good u.
  Proof.
    intros <- B D H y a v O. rewrite (bare_read fuel t B y a), gives_opt, <- (H y v O). apply de_means; [exact D|exact (proj1 O)].
  Qed.

  Definition owned_x (f : str * (bool * xty)) : Prop := good (snd (snd f)) /\ plain_type (snd (snd f)).
  Lemma rest_x fs ys es : Forall (fun kv => ok fuel (snd kv)) ys ->
    map (fun kv => (fst kv, see (snd kv))) ys = map (fun e : str * (option str * looks) => (fst e, snd (snd e))) es -> forall rest,
    all2 (fun e x => fst x = AnStr (fst e) /\ buffered (snd (snd e)) (snd x))
      (filter (fun e => negb (existsb (seqb (fst e)) (own_names fs))) es) rest <-> rest = unknown (own_names fs) ys.
  Proof.
    intros Oys E rest. pose proof (kept_keys ys es (fun k => negb (existsb (seqb k) (own_names fs))) E) as E'. cbn beta in E'.
    rewrite <- (transfer (fun k l x => fst x = AnStr k /\ buffered l (snd x)) _ _ rest E'). unfold unknown.
    assert (Ok : Forall (fun kv => ok fuel (snd kv)) (filter (fun kv => negb (existsb (seqb (fst kv)) (own_names fs))) ys)).
    { apply Forall_forall. intros kv I. apply filter_In in I as [I _]. exact (proj1 (Forall_forall _ _) Oys _ I). }
    clear E'. revert rest. induction Ok as [|[k y] l [N D] _ IH]; intros [|[k' c] rest]; cbn [all2 map]; try (split; [easy|discriminate]); try (split; easy).
    cbn [fst snd] in *. rewrite IH, (buffered_see fuel y c N D). split; [intros [[-> ->] ->]; reflexivity|].
    intros X. injection X as -> -> ->. auto.
  Qed.
  Lemma struct_x fs : Forall owned_x fs -> plain_type (XStruct fs) -> good (XStruct fs).
  Proof.
    intros G [ND W] y a v O. rewrite read_struct.
    assert (Go : Forall (fun f => good (snd f)) (owned fs)).
    { clear - G. unfold owned. induction G as [|[n [[] t]] fs [G _] _ IH]; cbn; [constructor|exact IH|]. constructor; auto. }
    pose proof (owned_nodup fs ND) as NDo.
    assert (Gp : Forall (parts_good fuel) fs).
    { eapply Forall_impl; [|exact G]. intros f [_ P]. exact (buffer_both fuel _ P). }
    assert (Q : xmeans (XStruct fs) (see y) v <->
      exists vs es rest, v = SStruct vs /\ see y = LMap es /\
        (flattens fs = true ->
         all2 (fun e x => fst x = AnStr (fst e) /\ buffered (snd (snd e)) (snd x))
           (filter (fun e => negb (existsb (seqb (fst e)) (own_names fs))) es) rest) /\
        chain (link (field_x es)) pass fs rest vs).
    { split.
      - destruct v; try easy. intros (es & rest & S & A & C). exists l, es, rest. auto.
      - intros (vs & es & rest & -> & S & A & C). exists es, rest. auto. }
    rewrite Q. clear Q. destruct (flattens fs) eqn:Fl; cbn [r_node]; rewrite own_mk.
    - pose proof (map_see fuel y a O) as V.
      assert (St : Forall (fun f => steady fuel (x_read f)) (map (mk fuel) (owned fs))) by now apply mk_steady.
      assert (ND' : NoDup (map x_name (map (mk fuel) (owned fs)))) by now rewrite mk_names.
      split.
      + intros H. destruct (see y) as [s|s|es|es|r] eqn:S; try (rewrite V in H; destruct (gives_failed _ H)).
        destruct V as (ys & a1 & D & Oys & E). rewrite D in H. apply gives_bind in H as ([gs rest] & a2 & C & H).
        assert (C' : gives (n_collect (de_any fuel) (map (mk fuel) (owned fs)) ys a1) (gs, rest)) by (exists a2; exact C).
        apply (collect_nafter fuel ys Oys _ a1 St ND') in C' as [F ->]. rewrite mk_names, owned_names in H.
        unfold finish in H. cbn [fst snd] in H. destruct (opt_map x_value gs) as [ov|] eqn:X; [|destruct (gives_failed _ H)].
        destruct (f_all _ _) as [fv|] eqn:Fa; [|destruct (gives_failed _ H)]. apply gives_done in H. subst v.
        eexists _, es, (unknown (own_names fs) ys). split; [reflexivity|]. split; [reflexivity|]. split; [intros _; exact (proj2 (rest_x fs ys es Oys E _) eq_refl)|].
        rewrite <- (remaining_some (unknown (own_names fs) ys)). apply (merge_iff fuel); [exact Gp|].
        exists ov, fv. split; [|auto]. apply (values_x fuel ys es Oys E _ Go). eauto.
      + intros (vs & es & rest & -> & S & A & C). rewrite S in V. destruct V as (ys & a1 & D & Oys & E). rewrite D.
        apply (rest_x fs ys es Oys E) in A; [|reflexivity]. subst rest.
        rewrite <- (remaining_some (unknown (own_names fs) ys)) in C. apply (merge_iff fuel) in C as (ov & fv & A & Fa & ->); [|exact Gp].
        apply (values_x fuel ys es Oys E _ Go) in A as (gs & F & X).
        assert (C : gives (n_collect (de_any fuel) (map (mk fuel) (owned fs)) ys a1) (gs, unknown (own_names fs) ys)).
        { apply (collect_nafter fuel ys Oys _ a1 St ND'). rewrite mk_names, owned_names. auto. }
        destruct C as [a2 C]. apply gives_bind. eexists _, a2. split; [exact C|]. unfold finish. cbn [fst snd]. rewrite X, Fa. now apply gives_done.
    - pose proof (records_iff fuel (owned fs) Go NDo y a) as R. split.
      + intros H. destruct (de_map_entries y a) as [[ys a1]|] eqn:D; [|destruct (gives_failed _ H)].
        apply gives_bind in H as (gs & a2 & C & H). destruct (opt_map x_value gs) as [vs|] eqn:X; [|destruct (gives_failed _ H)].
        apply gives_done in H. subst v. destruct (proj1 (R vs O)) as (es & S & A); [exists ys, a1, gs, a2; auto|].
        exists vs, es, []. split; [reflexivity|]. split; [exact S|]. split; [discriminate|]. now apply chain_flatless.
      + intros (vs & es & rest & -> & S & _ & C). apply chain_flatless in C; [|exact Fl].
        destruct (proj2 (R vs O)) as (ys & a1 & gs & a2 & D & C' & X); [eauto|].
        rewrite D. apply gives_bind. exists gs, a2. split; [exact C'|]. rewrite X. now apply gives_done.
  Qed.

  Definition var_x (va : xvariant) : Prop :=
    match va with
    | XVUnit => True
    | XVNew t => good t
    | XVTup ts => Forall good ts
    | XVStruct fs => Forall (fun f => good (snd f)) fs /\ NoDup (map fst fs)
    end.
  Lemma tuple_x ts : Forall good ts -> forall y a vs, ok fuel y ->
    (exists ys a1, de_seq_values y a = Some (ys, a1) /\ gives (n_tuple (map r_node (map (read fuel) ts)) ys a1) vs) <->
    exists es rest, see y = LSeq (es ++ rest) /\ all3 (fun t e v => xmeans t (snd e) v) ts es vs.
  Proof.
    intros G y a vs O. pose proof (seq_see fuel y a O) as V. rewrite map_map.
    pose proof (tuplen_iff fuel (fun t => r_node (read fuel t)) xmeans ts G) as T. split.
    - intros (ys & a1 & D & H). destruct (see y) as [s|s|es|es|r] eqn:S; try (rewrite V in D; discriminate).
      destruct V as (ys' & a' & D' & F & E). rewrite D' in D. injection D as -> ->. apply T in H as (e1 & e2 & Q & A); [|exact F].
      rewrite E in Q. apply map_eq_app in Q as (l1 & l2 & -> & <- & <-). exists l1, l2. split; [reflexivity|].
      exact (proj1 (all3_map xmeans snd ts l1 vs) A).
    - intros (es & rest & S & A). rewrite S in V. destruct V as (ys & a1 & D & F & E). exists ys, a1. split; [exact D|].
      apply T; [exact F|]. exists (map snd es), (map snd rest). rewrite E, map_app. split; [reflexivity|]. exact (proj2 (all3_map xmeans snd ts es vs) A).
  Qed.
  Lemma enum_x vs : Forall (fun x => var_x (snd x)) vs -> NoDup (map fst vs) -> good (XEnum vs).
  Proof.
    intros G ND y a v O. rewrite read_enum. cbn [r_node].
    assert (Gi : forall n va, In (n, va) vs -> var_x va) by (intros n va I; apply (proj1 (Forall_forall _ _) G _ I)).
    assert (Pi : forall n va, In (n, va) vs -> pick (rvars fuel vs) n = Some (rvar fuel va)).
    { intros n va I. apply pick_rvars; eauto. }
    split.
    - intros H. destruct (de_enum_content y a) as [[[n c] a1]|] eqn:Ec; [|destruct (gives_failed _ H)].
      destruct (names_see fuel y a n O) as [Nm _]. destruct (Nm c a1 Ec) as [Oc Hn].
      destruct (pick _ n) as [rv|] eqn:P; [|destruct (gives_failed _ H)]. apply pick_rvars in P as (va & I & ->); [|exact ND].
      pose proof (Gi _ _ I) as Gv. destruct va as [|t|ts|fs]; cbn [rvar var_x n_variant] in *.
      + apply gives_done in H. subst v. cbn [xmeans]. eauto.
      + apply gives_map in H as (u & H & ->). cbn [xmeans]. exists (see c). split; [exact Hn|]. apply any_ex. exists (n, XVNew t).
        split; [exact I|]. split; [reflexivity|]. apply (Gv c a1 u Oc), H.
      + destruct (de_seq_values c a1) as [[ys a2]|] eqn:Ds; [|destruct (gives_failed _ H)]. apply gives_map in H as (u & H & ->).
        destruct (proj1 (tuple_x ts Gv c a1 u Oc)) as (es & rest & S & A); [eauto|]. cbn [xmeans]. exists es, rest. rewrite <- S. split; [exact Hn|].
        apply any_ex. exists (n, XVTup ts). auto.
      + destruct (de_map_entries c a1) as [[ys a2]|] eqn:Ds; [|destruct (gives_failed _ H)]. apply gives_bind in H as (gs & a3 & C & H).
        destruct (opt_map x_value gs) as [us|] eqn:X; [|destruct (gives_failed _ H)]. apply gives_done in H. subst v. destruct Gv as [Gv NDv].
        destruct (proj1 (records_iff fuel fs Gv NDv c a1 us Oc)) as (es & S & A); [exists ys, a2, gs, a3; auto|].
        cbn [xmeans]. exists es. rewrite <- S. split; [exact Hn|]. apply any_ex. exists (n, XVStruct fs). split; [exact I|]. split; [reflexivity|exact A].
    - assert (X : forall n va l, In (n, va) vs -> names (see y) n l -> exists c a1, ok fuel c /\ see c = l /\
               match de_enum_content y a with
               | Some (n, c, a1) => match pick (rvars fuel vs) n with Some v => n_variant n v c a1 | None => Failed end
               | None => Failed end = n_variant n (rvar fuel va) c a1).
      { intros n va l I Hn. destruct (names_see fuel y a n O) as [_ Nm]. destruct (Nm l Hn) as (c & a1 & -> & Oc & S). exists c, a1.
        split; [exact Oc|]. split; [exact S|]. now rewrite (Pi _ _ I). }
      destruct v; cbn [xmeans]; try contradiction.
      + intros ((c & Hn) & I). destruct (X _ _ _ I Hn) as (c' & a1 & _ & _ & ->). cbn. now apply gives_done.
      + intros (c & Hn & Q). apply any_ex in Q as ([m va] & I & Q). destruct va as [|t| |]; try contradiction. destruct Q as [-> Q].
        destruct (X _ _ _ I Hn) as (c' & a1 & Oc & <- & ->). apply (Gi _ _ I c' a1 v Oc) in Q. cbn [rvar n_variant]. apply gives_map. eauto.
      + intros (es & rest & Hn & Q). apply any_ex in Q as ([m va] & I & Q). destruct va as [| |ts|]; try contradiction. destruct Q as [-> Q].
        destruct (X _ _ _ I Hn) as (c' & a1 & Oc & S & ->). cbn [rvar n_variant].
        destruct (proj2 (tuple_x ts (Gi _ _ I) c' a1 l Oc)) as (ys & a2 & -> & H); [eauto|]. apply gives_map. eauto.
      + intros (es & Hn & Q). apply any_ex in Q as ([m va] & I & Q). destruct va as [| | |fs]; try contradiction. destruct Q as [-> Q].
        destruct (X _ _ _ I Hn) as (c' & a1 & Oc & S & ->). cbn [rvar n_variant]. destruct (Gi _ _ I) as [Gv NDv].
        destruct (proj2 (records_iff fuel fs Gv NDv c' a1 l Oc)) as (ys & a2 & gs & a3 & -> & C & Xv); [eauto|].
        apply gives_bind. exists gs, a3. split; [exact C|]. rewrite Xv. now apply gives_done.
  Qed.
  Lemma vars_x vs : Forall (fun x => xv_P (fun t => plain_type t -> good t) (snd x)) vs -> vars_plain vs ->
    Forall (fun x => var_x (snd x)) vs.
  Proof.
    intros F [_ W]. induction F as [|[n va] vs H _ IH]; [constructor|]. destruct W as [Wv W]. constructor; [|auto]. cbn in *.
    destruct va as [|t|ts|fs]; cbn in *; [exact I|auto| |].
    - clear - H Wv. induction H; [constructor|]. destruct Wv. constructor; auto.
    - destruct Wv as [ND Wv]. split; [|exact ND]. clear - H Wv. induction H as [|[m t] fs]; [constructor|]. destruct Wv. constructor; auto.
  Qed.

  Theorem node_means : forall t, plain_type t -> good t.
  Proof.
    induction t using xty_ind'; intros W.
    - apply (basic TBool XBool eq_refl I I). intros y v O. destruct v; try reflexivity. cbn [means xmeans]. split; intros (s & E & Is); exists s;
        (split; [|exact Is]); apply (word_view typed_word y s (typed_up s) (typed_bool _ _ Is)); exact E.
    - apply (basic (TInt k) (XInt k) eq_refl I I). intros y v O. destruct v; try reflexivity. cbn [means xmeans].
      setoid_rewrite (text_view typed_word y _ (proj1 O)). reflexivity.
    - apply (basic TFloat XFloat eq_refl I I). intros y v O. destruct v; try reflexivity. cbn [means xmeans].
      unfold seen. rewrite (text_view typed_word y _ (proj1 O)). reflexivity.
    - apply (basic TChar XChar eq_refl I I). intros y v O. destruct v; try reflexivity. cbn [means xmeans].
      unfold seen. rewrite (text_view typed_word y _ (proj1 O)). reflexivity.
    - apply (basic TStr XStr eq_refl I I). intros y v O. destruct v; try reflexivity. cbn [means xmeans].
      unfold seen. rewrite (text_view typed_word y _ (proj1 O)). reflexivity.
    - apply (basic TUnit XUnit eq_refl I I). intros y v O. destruct v; reflexivity.
    - specialize (IHt W). intros y a v O. cbn [read r_node]. rewrite (resolved y a (proj1 O)).
      replace (match y with
               | Unquoted s => if is_null_word s then Done SNone a else o_map SSome (r_node (read fuel t) (Unquoted s) a)
               | _ => o_map SSome (r_node (read fuel t) y a) end)
        with (if null_node y then Done SNone a else o_map SSome (r_node (read fuel t) y a)) by (destruct y; reflexivity).
      destruct (null_node y) eqn:Nn.
      + apply null_seen, null_view in Nn. rewrite gives_done. split; [now intros ->|]. destruct v; cbn [xmeans]; try contradiction; tauto.
      + assert (Nn' : ~ null (see y)) by (intros Q; apply null_view, null_seen in Q; congruence).
        rewrite gives_map. split.
        * intros (u & H & ->). cbn [xmeans]. split; [exact Nn'|]. apply (IHt y a u O), H.
        * destruct v; cbn [xmeans]; try contradiction. intros [_ H]. exists v. split; [|reflexivity]. apply (IHt y a v O), H.
    - specialize (IHt W). intros y a v O. cbn [read r_node]. rewrite gives_map. split.
      + intros (u & H & ->). apply (IHt y a u O), H.
      + destruct v; cbn [xmeans]; try contradiction. intros H. exists v. split; [|reflexivity]. apply (IHt y a v O), H.
    - specialize (IHt W). intros y a v O. cbn [read r_node]. pose proof (seq_see fuel y a O) as V.
      pose proof (elems_iff fuel _ _ IHt) as T. split.
      + intros H. destruct (see y) as [s|s|es|es|r] eqn:S; try (rewrite V in H; destruct (gives_failed _ H)).
        destruct V as (ys & a' & D & F & E). rewrite D in H. apply gives_map in H as (us & H & ->). apply T in H; [|exact F].
        cbn [xmeans]. exists es. split; [reflexivity|]. rewrite E in H. exact (proj1 (all2_map _ _ _ _) H).
      + destruct v; cbn [xmeans]; try contradiction. intros (es & S & A). rewrite S in V. destruct V as (ys & a1 & D & F & E). rewrite D.
        apply gives_map. exists l. split; [|reflexivity]. apply T; [exact F|]. rewrite E. exact (proj2 (all2_map _ _ _ _) A).
    - assert (G : Forall good ts).
      { cbn [plain_type] in W. revert W. clear - H. induction H; [constructor|]. intros []. constructor; auto. }
      intros y a v O. cbn [read r_node]. pose proof (tuple_x ts G y a) as T. split.
      + intros Q. destruct (de_seq_values y a) as [[ys a1]|] eqn:D; [|destruct (gives_failed _ Q)]. apply gives_map in Q as (us & Q & ->).
        cbn [xmeans]. apply (T us O). eauto.
      + destruct v; cbn [xmeans]; try contradiction. intros Q. apply (T _ O) in Q as (ys & a1 & -> & Q). apply gives_map. eauto.
    - destruct W as [W1 W2]. specialize (IHt1 W1). specialize (IHt2 W2). intros y a v O. cbn [read r_node]. pose proof (map_see fuel y a O) as V.
      pose proof (entriesn_iff fuel _ _ _ _ IHt1 IHt2) as T. split.
      + intros H. destruct (see y) as [s|s|es|es|r] eqn:S; try (rewrite V in H; destruct (gives_failed _ H)).
        destruct V as (ys & a' & D & F & E). rewrite D in H. apply gives_map in H as (us & H & ->). apply T in H; [|exact F].
        cbn [xmeans]. exists es. split; [reflexivity|]. rewrite E in H. exact (proj1 (all2_map _ _ _ _) H).
      + destruct v; cbn [xmeans]; try contradiction. intros (es & S & A). rewrite S in V. destruct V as (ys & a1 & D & F & E). rewrite D.
        apply gives_map. exists l. split; [|reflexivity]. apply T; [exact F|]. rewrite E. exact (proj2 (all2_map _ _ _ _) A).
    - apply struct_x; [|exact W]. destruct W as [_ W]. induction H as [|[n [fl t]] fs H _ IH]; [constructor|].
      destruct W as [Wt W]. constructor; [|auto]. split; [now apply H|exact Wt].
    - apply enum_x; [apply vars_x; assumption|exact (proj1 W)].
    - intros y a v O. rewrite read_untagged. cbn [r_node]. destruct (any_done fuel y a (proj1 O) (proj2 O)) as [a1 ->]. cbn [o_bind].
      assert (Q : gives (match first_of (u_variant (content y)) (rvars fuel vs) with Some v => Done v a1 | None => Failed end) v <->
        r_buf (read fuel (XUntagged vs)) false (content y) = Some v).
      { rewrite read_untagged. cbn [r_buf]. destruct (first_of _ _); [rewrite gives_done; split; congruence|]. split; [intros X; destruct (gives_failed _ X)|discriminate]. }
      rewrite Q, (buffer_means fuel (XUntagged vs) W false). clear Q.
      assert (E : xmeans (XUntagged vs) (see y) v <-> exists c, buffered (see y) c /\ bmeans false (XUntagged vs) c v) by (destruct v; reflexivity).
      rewrite E. split.
      + intros B. exists (content y). split; [|exact B]. apply (buffered_see fuel); [apply O|apply O|reflexivity].
      + intros (c & Bc & B). apply (buffered_see fuel) in Bc; [|apply O|apply O]. now subst.
    - intros y a v O. rewrite read_tagged. cbn [r_node].
      assert (E : xmeans (XTagged tag vs) (see y) v <-> exists c, buffered_tag tag (see y) c /\ bmeans false (XTagged tag vs) c v) by (destruct v; reflexivity).
      rewrite E, gives_bind. clear E. pose proof (buffer_means fuel (XTagged tag vs) W false) as B. rewrite read_tagged in B. cbn [r_buf] in B. split.
      + intros ([m d] & a1 & T & X). destruct (t_variant _ _) as [u|] eqn:Tv; [|destruct (gives_failed _ X)]. apply gives_done in X. subst v.
        destruct (proj1 (n_tagged_iff fuel tag y a m d (proj1 O) (proj2 O))) as (c & Bt & Bc); [exists a1; exact T|].
        exists c. split; [exact Bt|]. apply B. now rewrite Bc.
      + intros (c & Bt & X). apply B in X. destruct (b_tagged tag c) as [[m d]|] eqn:Bc; [|discriminate].
        destruct (proj2 (n_tagged_iff fuel tag y a m d (proj1 O) (proj2 O))) as (a1 & T); [eauto|].
        exists (m, d), a1. split; [exact T|]. rewrite X. now apply gives_done.
  Qed.
End Main.
Theorem read_means fuel t y v : plain_type t -> no_refs y -> depth y <= fuel ->
  (exists a, read_yaml fuel t y = Done v a) <-> xmeans t (look any_word y) v.
Proof. intros P N D. exact (node_means fuel t P y [] v (conj N D)). Qed.
