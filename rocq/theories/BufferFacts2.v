(** The readers of serde's buffer return what [bmeans] says. *)
From Coq Require Import ZArith Lia.
From Verif Require Import Base Ast Strings Num Ser De Attr Spec_Serde Spec_Look Spec_Typed Spec_Attr Spec_Buffer AttrFacts TypedFacts2 SerdeFacts2 BufferFacts.
Import ListNotations.

Section Buffer.
  Context (fuel : nat).
  Definition good_b (t : xty) : Prop := forall own c v, r_buf (read fuel t) own c = Some v <-> bmeans own t c v.
  Definition mk (f : str * xty) : xfield := match f with (n, t) => mkX n (read fuel t) (is_xoption t) None end.
  Definition field_b (own : bool) (es : list entry) (n : str) (t : xty) (x : str * sval) : Prop :=
    n = fst x /\
    ((exists w, once es n w /\ bmeans own t w (snd x)) \/
     (~ In (AnStr n) (map fst es) /\ is_xoption t = true /\ snd x = SNone)).

  Lemma value_field own es n t : good_b t -> forall x,
    (exists g, after own es (mk (n, t)) g /\ x_value g = Some x) <-> field_b own es n t x.
  Proof.
    intros G [m v]. unfold field_b. cbn [fst snd]. split.
    - intros (g & (E1 & E2 & E3 & H) & V). unfold x_value in V. cbn in E1, E2, E3, H. rewrite E1, E3 in V.
      destruct H as [[N W]|(c & w & O & _ & R & W)]; rewrite W in V.
      + destruct (is_xoption t) eqn:Op; [|discriminate]. injection V as <- <-. auto.
      + injection V as <- <-. split; [reflexivity|]. left. exists c. split; [exact O|]. now apply G.
    - intros [-> [(w & O & B)|(N & Op & ->)]].
      + apply G in B. exists (mkX m (read fuel t) (is_xoption t) (Some v)). split; [|reflexivity].
        repeat split. right. exists w, v. cbn. auto.
      + exists (mk (m, t)). split; [apply after_none; [exact N|reflexivity]|]. unfold x_value. cbn. now rewrite Op.
  Qed.
  Lemma values_after own es fs : Forall (fun f => good_b (snd f)) fs -> forall vs,
    (exists gs, Forall2 (after own es) (map mk fs) gs /\ opt_map x_value gs = Some vs) <->
    all2 (fun f x => match f with (n, t) => field_b own es n t x end) fs vs.
  Proof.
    induction 1 as [|[n t] fs G _ IH]; intros vs; cbn [map].
    - split.
      + intros (gs & F & V). inversion F; subst. cbn in V. injection V as <-. exact I.
      + destruct vs; [|easy]. intros _. exists []. split; [constructor|reflexivity].
    - cbn in G. split.
      + intros (gs & F & V). inversion F as [|? g ? gs' Hg Hs]; subst. cbn in V.
        destruct (x_value g) as [x|] eqn:X; [|discriminate]. destruct (opt_map x_value gs') as [xs|] eqn:Xs; [|discriminate].
        injection V as <-. cbn. split; [apply value_field; eauto|apply IH; eauto].
      + destruct vs as [|x vs]; [easy|]. cbn. intros [H1 H2]. apply value_field in H1 as (g & A & X); [|exact G].
        apply IH in H2 as (gs & F & Xs). exists (g :: gs). split; [constructor; auto|]. cbn. now rewrite X, Xs.
  Qed.
  Lemma mk_names fs : map x_name (map mk fs) = map fst fs.
  Proof. rewrite map_map. apply map_ext. now intros [n t]. Qed.

  Definition named_b (own : bool) (c : anyv) (fs : list (str * xty)) (vs : list (str * sval)) : Prop :=
    exists es, c = AnMap es /\ name_keys es /\ all2 (fun f x => match f with (n, t) => field_b own es n t x end) fs vs.
  Definition record_b (own : bool) (c : anyv) (fs : list (str * xty)) (vs : list (str * sval)) : Prop :=
    named_b own c fs vs \/
    exists cs, c = AnSeq cs /\ all3 (fun f c x => match f with (n, t) => n = fst x /\ bmeans own t c (snd x) end) fs cs vs.

  Lemma collect_values own es fs : Forall (fun f => good_b (snd f)) fs -> NoDup (map fst fs) -> forall vs rest,
    (exists gs, b_collect own (map mk fs) es = Some (gs, rest) /\ opt_map x_value gs = Some vs) <->
    name_keys es /\ all2 (fun f x => match f with (n, t) => field_b own es n t x end) fs vs /\ rest = others (map fst fs) es.
  Proof.
    intros G ND vs rest. rewrite <- (values_after own es fs G vs). rewrite <- (mk_names fs) in ND. split.
    - intros (gs & B & V). apply collect_after in B as (K & F & ->); [|exact ND]. rewrite mk_names. split; [exact K|]. split; [eauto|reflexivity].
    - intros (K & (gs & F & V) & ->). exists gs. split; [|exact V]. apply collect_after; [exact ND|]. rewrite mk_names. auto.
  Qed.
  Lemma named_iff own c fs : Forall (fun f => good_b (snd f)) fs -> NoDup (map fst fs) -> forall vs,
    (exists es, c = AnMap es /\ b_struct_map own (map mk fs) es = Some vs) <-> named_b own c fs vs.
  Proof.
    intros G ND vs. unfold named_b, b_struct_map. split.
    - intros (es & -> & H). exists es. split; [reflexivity|]. rewrite fields_collect in H.
      destruct (b_collect own (map mk fs) es) as [[gs rest]|] eqn:B; [|discriminate]. cbn in H.
      destruct (proj1 (collect_values own es fs G ND vs rest)) as (K & A & _); [eauto|]. auto.
    - intros (es & -> & K & A). exists es. split; [reflexivity|]. rewrite fields_collect.
      destruct (proj2 (collect_values own es fs G ND vs (others (map fst fs) es))) as (gs & B & V); [split; [exact K|]; split; [exact A|reflexivity]|].
      rewrite B. exact V.
  Qed.

  Lemma tuple_iff own ts : Forall good_b ts -> forall cs vs,
    b_tuple own (map (read fuel) ts) cs = Some vs <-> all3 (fun t c v => bmeans own t c v) ts cs vs.
  Proof.
    induction 1 as [|t ts G _ IH]; intros cs vs; cbn.
    - destruct cs, vs; cbn; split; intros; easy.
    - destruct cs as [|c cs]; [split; [discriminate|destruct vs; easy]|].
      destruct vs as [|v vs].
      { split; [|easy]. destruct (r_buf _ own c); [|easy]. destruct (b_tuple _ _ _); discriminate. }
      rewrite <- (G own c v), <- (IH cs vs).
      destruct (r_buf (read fuel t) own c) as [w|]; [|split; [easy|intros [X _]; discriminate]].
      destruct (b_tuple own _ cs) as [ws|]; [|split; [easy|intros [_ X]; discriminate]].
      split; [intros E; injection E as -> ->; auto|intros [E1 E2]; congruence].
  Qed.
  Lemma seq_iff own fs : Forall (fun f => good_b (snd f)) fs -> forall cs vs,
    option_map (combine (map x_name (map mk fs))) (b_tuple own (map x_read (map mk fs)) cs) = Some vs <->
    all3 (fun f c x => match f with (n, t) => n = fst x /\ bmeans own t c (snd x) end) fs cs vs.
  Proof.
    induction 1 as [|[n t] fs G _ IH]; intros cs vs; cbn.
    - destruct cs, vs; cbn; split; intros; easy.
    - cbn in G. destruct cs as [|c cs]; [split; [discriminate|destruct vs; easy]|].
      specialize (IH cs). destruct (r_buf (read fuel t) own c) as [w|] eqn:R.
      + destruct (b_tuple own _ cs) as [ws|]; cbn in *.
        * destruct vs as [|[m v] vs]; [easy|]. rewrite <- (IH vs). cbn. split.
          -- intros E. injection E as <- <- <-. split; [|reflexivity]. split; [reflexivity|]. now apply G.
          -- intros [[<- B] E]. apply G in B. congruence.
        * destruct vs as [|[m v] vs]; [easy|]. split; [easy|]. rewrite <- (IH vs). intros [_ X]; discriminate.
      + destruct vs as [|[m v] vs]; [easy|]. split; [easy|]. cbn. intros [[_ B] _]. apply G in B. congruence.
  Qed.
  Lemma record_iff own c fs : Forall (fun f => good_b (snd f)) fs -> NoDup (map fst fs) -> forall vs,
    b_struct own (map mk fs) c = Some vs <-> record_b own c fs vs.
  Proof.
    intros G ND vs. unfold record_b. rewrite <- (named_iff own c fs G ND vs). split.
    - intros H. destruct c; cbn [b_struct] in H; try discriminate.
      + right. exists l. split; [reflexivity|]. now apply seq_iff.
      + left. eauto.
    - intros [(es & -> & H)|(cs & -> & H)]; cbn [b_struct]; [exact H|]. now apply seq_iff.
  Qed.

  (** ---- structs ---- *)
  Definition owned (fs : list (str * (bool * xty))) : list (str * xty) :=
    map (fun f => (fst f, snd (snd f))) (filter (fun f => negb (fst (snd f))) fs).
  Lemma own_mk fs : own_fields fuel fs = map mk (owned fs).
  Proof. unfold own_fields, owned. rewrite map_map. apply map_ext. now intros [n [b t]]. Qed.
  Lemma owned_names fs : map fst (owned fs) = own_names fs.
  Proof. unfold owned, own_names. rewrite map_map. reflexivity. Qed.
  Lemma remaining_some (l : list entry) : remaining (map Some l) = l.
  Proof. unfold remaining. induction l as [|x l IH]; cbn; [reflexivity|]. now rewrite IH. Qed.

  Definition good_f (t : xty) : Prop := forall l,
    (forall v, fst (r_flat (read fuel t) l) = Some v <-> fmeans t (remaining l) v) /\
    (forall es', leaves t (remaining l) es' <-> es' = remaining (snd (r_flat (read fuel t) l))).
  Definition link (Q : str -> xty -> str * sval -> Prop) (f : str * (bool * xty)) (rest : list entry) (x : str * sval) : Prop :=
    match f with
    | (n, (false, t)) => Q n t x
    | (n, (true, t)) => n = fst x /\ fmeans t rest (snd x)
    end.
  Definition pass (f : str * (bool * xty)) (rest rest' : list entry) : Prop :=
    match f with
    | (_, (false, _)) => rest' = rest
    | (_, (true, t)) => leaves t rest rest'
    end.

  Lemma entries_iff own k w : good_b k -> good_b w -> forall es m,
    b_entries own (read fuel k) (read fuel w) es = Some m <->
    all2 (fun e x => bmeans own k (fst e) (fst x) /\ bmeans own w (snd e) (snd x)) es m.
  Proof.
    intros Gk Gw es m. unfold b_entries. apply opt_map_all2. apply Forall_forall. intros [a b] _ [x y]. cbn [fst snd].
    rewrite <- (Gk own a x), <- (Gw own b y).
    destruct (r_buf (read fuel k) own a) as [p|]; [|split; [easy|intros [X _]; discriminate]].
    destruct (r_buf (read fuel w) own b) as [q|]; [|split; [easy|intros [_ X]; discriminate]].
    split; [intros E; injection E as -> ->; auto|intros [E1 E2]; congruence].
  Qed.

  Definition parts_good (f : str * (bool * xty)) : Prop := good_b (snd (snd f)) /\ good_f (snd (snd f)).

  Lemma merge_iff Q : forall fs, Forall parts_good fs -> forall l vs,
    (exists ov fv, all2 (fun f x => match f with (n, t) => Q n t x end) (owned fs) ov /\
       f_all (flat_fields fuel fs) l = Some fv /\ vs = merge (decl_of fs) ov fv) <->
    chain (link Q) pass fs (remaining l) vs.
  Proof.
    induction 1 as [|[n [fl t]] fs [G F] _ IH]; intros l vs.
    - cbn. split.
      + intros (ov & fv & _ & _ & ->). exact I.
      + destruct vs; [|easy]. intros _. exists [], []. repeat split.
    - cbn in G, F. destruct fl.
      + destruct (F l) as [Fv Fl]. unfold flat_fields, owned, decl_of. cbn [filter fst snd negb map].
        cbn [f_all]. destruct (r_flat (read fuel t) l) as [ov l1] eqn:R. cbn [fst snd] in Fv, Fl. split.
        * intros (own & fv & A & B & ->). destruct ov as [v|]; [|discriminate].
          match type of B with option_map _ ?q = _ => destruct q as [fv'|] eqn:Fa; [|discriminate] end. cbn in B. injection B as <-.
          cbn [merge chain link pass fst snd]. split; [split; [reflexivity|now apply Fv]|]. exists (remaining l1). split; [now apply Fl|].
          apply IH. exists own, fv'. auto.
        * destruct vs as [|[m x] vs]; [easy|]. cbn [chain link pass fst snd]. intros [[<- B] (es' & L & C)]. apply Fl in L as ->.
          apply Fv in B. subst ov. apply IH in C as (own & fv & A & B' & ->).
          exists own, ((n, x) :: fv). split; [exact A|]. unfold flat_fields in B'. rewrite B'. split; reflexivity.
      + unfold flat_fields, owned, decl_of. cbn [filter fst snd negb map]. split.
        * intros (ov & fv & A & B & ->). destruct ov as [|x ov]; [easy|]. destruct A as [A1 A2]. cbn [merge chain link pass]. split; [exact A1|].
          exists (remaining l). split; [reflexivity|]. apply IH. exists ov, fv. auto.
        * destruct vs as [|x vs]; [easy|]. cbn [chain link pass]. intros [A1 (es' & -> & A2)]. apply IH in A2 as (ov & fv & A & B & ->). exists (x :: ov), fv.
          split; [split; [exact A1|exact A]|]. split; [exact B|reflexivity].
  Qed.
  Lemma chain_flatless Q fs : flattens fs = false -> forall rest vs,
    chain (link Q) pass fs rest vs <-> all2 (fun f x => match f with (n, t) => Q n t x end) (owned fs) vs.
  Proof.
    unfold flattens, owned. induction fs as [|[n [[] t]] fs IH]; intros H rest vs; cbn [existsb fst snd orb] in H.
    - destruct vs; reflexivity.
    - discriminate.
    - cbn [filter fst snd negb map]. destruct vs as [|x vs]; [reflexivity|]. cbn [chain all2 link pass]. apply and_iff_compat_l.
      rewrite <- (IH H rest vs). split; [intros (es' & -> & C); exact C|eauto].
  Qed.

  Lemma parts_owned fs : Forall parts_good fs -> Forall (fun f => good_b (snd f)) (owned fs).
  Proof.
    unfold owned. induction 1 as [|[n [[] t]] fs [G _] _ IH]; cbn; [constructor|exact IH|]. constructor; auto.
  Qed.
  Lemma owned_nodup fs : NoDup (map fst fs) -> NoDup (map fst (owned fs)).
  Proof.
    rewrite owned_names. unfold own_names. induction fs as [|[n [[] t]] fs IH]; cbn; intros ND; inversion ND as [|? ? N ND']; subst; auto.
    constructor; [|auto]. intros H. apply N. apply in_map_iff in H as (f & <- & Hf). apply filter_In in Hf as [Hf _]. now apply in_map.
  Qed.


  Lemma flatless_owned fs : flattens fs = false -> owned fs = map (fun f => (fst f, snd (snd f))) fs.
  Proof.
    intros Fl. unfold owned. f_equal. unfold flattens in Fl. induction fs as [|[n [[] t]] fs IH]; cbn in *; try discriminate; auto.
    now rewrite IH.
  Qed.
  (** Own fields, then the flattened ones, from a map. *)
  Definition whole_b (own : bool) (es : list entry) (fs : list (str * (bool * xty))) (vs : list (str * sval)) : Prop :=
    name_keys es /\ chain (link (field_b own es)) pass fs (others (own_names fs) es) vs.
  Lemma whole_iff own es fs : Forall parts_good fs -> NoDup (map fst fs) -> forall v,
    match b_collect own (map mk (owned fs)) es with Some r => finish (decl_of fs) (flat_fields fuel fs) r | None => None end = Some v <->
    exists vs, v = SStruct vs /\ whole_b own es fs vs.
  Proof.
    intros G ND v. pose proof (parts_owned fs G) as Go. pose proof (owned_nodup fs ND) as NDo. split.
    - intros H. destruct (b_collect own (map mk (owned fs)) es) as [[gs rest]|] eqn:B; [|discriminate]. unfold finish in H. cbn [fst snd] in H.
      destruct (opt_map x_value gs) as [ov|] eqn:V; [|discriminate].
      destruct (f_all _ _) as [fv|] eqn:Fa; [|discriminate]. injection H as <-.
      destruct (proj1 (collect_values own es (owned fs) Go NDo ov rest)) as (K & A & ->); [eauto|].
      eexists. split; [reflexivity|]. split; [exact K|].
      rewrite <- (remaining_some (others (own_names fs) es)). apply merge_iff; [exact G|]. rewrite owned_names in Fa. eauto.
    - intros (vs & -> & K & A). rewrite <- (remaining_some (others (own_names fs) es)) in A. apply merge_iff in A as (ov & fv & A & B & ->); [|exact G].
      rewrite <- owned_names in B.
      destruct (proj2 (collect_values own es (owned fs) Go NDo ov (others (map fst (owned fs)) es))) as (gs & Bc & V); [split; [exact K|]; split; [exact A|reflexivity]|].
      rewrite Bc. unfold finish. cbn [fst snd]. rewrite V, B. reflexivity.
  Qed.

  Lemma struct_good fs : Forall parts_good fs -> NoDup (map fst fs) -> good_b (XStruct fs).
  Proof.
    intros G ND own c v. rewrite read_struct. pose proof (parts_owned fs G) as Go. pose proof (owned_nodup fs ND) as NDo.
    assert (Q : bmeans own (XStruct fs) c v <->
      exists vs, v = SStruct vs /\ ((exists es, c = AnMap es /\ whole_b own es fs vs) \/
        (flattens fs = false /\ exists cs, c = AnSeq cs /\
           all3 (fun f c x => match f with (n, (_, t)) => n = fst x /\ bmeans own t c (snd x) end) fs cs vs))).
    { split.
      - destruct v; try easy. intros [[X _]|[[_ H]|H]]; [discriminate| |]; exists l; (split; [reflexivity|]); [left; exact H|right; exact H].
      - intros (vs & -> & [H|H]); [right; left; split; [reflexivity|exact H]|right; right; exact H]. }
    rewrite Q. clear Q. destruct (flattens fs) eqn:Fl; cbn [r_buf]; rewrite own_mk.
    - split.
      + intros H. destruct c as [| | | | | | |es]; try discriminate. apply whole_iff in H as (vs & -> & H); auto.
        exists vs. split; [reflexivity|]. left. eauto.
      + intros (vs & -> & [(es & -> & H)|[X _]]); [|congruence]. apply whole_iff; eauto.
    - pose proof (flatless_owned fs Fl) as Ow.
      assert (P : forall es vs, whole_b own es fs vs <-> name_keys es /\
                   all2 (fun f x => match f with (n, t) => field_b own es n t x end) (owned fs) vs).
      { intros es vs. unfold whole_b. now rewrite (chain_flatless _ fs Fl). }
      assert (P3 : forall cs vs, all3 (fun f c x => match f with (n, (_, t)) => n = fst x /\ bmeans own t c (snd x) end) fs cs vs <->
                   all3 (fun (f : str * xty) c x => match f with (n, t) => n = fst x /\ bmeans own t c (snd x) end) (owned fs) cs vs).
      { intros cs vs. rewrite Ow. clear. revert cs vs. induction fs as [|[n [b t]] fs IH]; intros [|c cs] [|x vs]; cbn; try tauto.
        now rewrite IH. }
      split.
      + destruct (b_struct own (map mk (owned fs)) c) as [vs|] eqn:B; [|discriminate]. intros E. injection E as <-.
        exists vs. split; [reflexivity|]. apply record_iff in B as [(es & -> & K & A)|(cs & -> & A)]; auto.
        * left. exists es. split; [reflexivity|]. now apply P.
        * right. split; [reflexivity|]. exists cs. split; [reflexivity|]. now apply P3.
      + intros (vs & -> & H). assert (R : record_b own c (owned fs) vs).
        { destruct H as [(es & -> & A)|(_ & cs & -> & A)]; [left; exists es; split; [reflexivity|now apply P]|].
          right. exists cs. split; [reflexivity|now apply P3]. }
        apply record_iff in R; auto. now rewrite R.
  Qed.

  (** ---- flattened structs ---- *)
  Lemma fields_value l : forall fs, NoDup (map x_name fs) -> forall gs,
    fst (f_fields fs l) = Some gs <-> Forall2 (after true (remaining l)) fs gs.
  Proof.
    induction l as [|[[k c]|] l IH]; intros fs ND gs.
    - cbn. split; [intros E; injection E as <-; now apply after_id|]. intros F. apply after_id in F as ->; auto.
    - change (remaining (Some (k, c) :: l)) with ((k, c) :: remaining l).
      assert (HF : Forall2 (after true ((k, c) :: remaining l)) fs gs <->
        exists ms, Forall2 (after true [(k, c)]) fs ms /\ Forall2 (after true (remaining l)) ms gs).
      { apply Forall2_comp. intros x z. apply after_cons. }
      rewrite HF. clear HF.
      assert (Sk : (forall n, k = AnStr n -> x_known fs n = false) ->
        fst (let '(r, l1) := f_fields fs l in (r, Some (k, c) :: l1)) = Some gs <->
        exists ms, Forall2 (after true [(k, c)]) fs ms /\ Forall2 (after true (remaining l)) ms gs).
      { intros Kn. specialize (IH fs ND gs). destruct (f_fields fs l) as [r l1]. cbn [fst] in *. rewrite IH.
        assert (Hid : forall f, In f fs -> ~ In (AnStr (x_name f)) (map fst [(k, c)])).
        { intros f Hf [X|[]]. cbn in X. specialize (Kn _ X). rewrite known_names in Kn.
          assert (Y : existsb (seqb (x_name f)) (map x_name fs) = true); [apply known_iff; now apply in_map|congruence]. }
        split.
        - intros F. exists fs. split; [now apply after_id|exact F].
        - intros (ms & F1 & F2). apply after_id in F1 as ->; auto. }
      destruct k as [| | | | |n| |]; try (cbn [f_fields]; apply Sk; intros n X; discriminate).
      cbn [f_fields]. destruct (x_known fs n) eqn:Kn; [|apply Sk; intros m X; injection X as <-; exact Kn]. clear Sk.
      destruct (b_field true fs n c) as [fs1|] eqn:B.
      + pose proof B as B'. apply field_after in B'; [|exact ND]. pose proof (after_names _ _ _ _ B') as Nm.
        rewrite <- Nm in ND. pose proof (IH fs1 ND gs) as IHg. destruct (f_fields fs1 l) as [r l1]. cbn [fst] in *. rewrite IHg. split.
        * intros F. eauto.
        * intros (ms & F1 & F2). rewrite Nm in ND. apply field_after in F1; [|exact ND]. assert (ms = fs1) by congruence. now subst.
      + cbn [fst]. split; [discriminate|]. intros (ms & F1 & _). apply field_after in F1; [|exact ND]. congruence.
    - change (remaining (None :: l)) with (remaining l). cbn [f_fields]. specialize (IH fs ND gs). destruct (f_fields fs l). exact IH.
  Qed.

  Definition rd (fs : list xfield) (n : str) (c : anyv) : Prop :=
    exists f v, In f fs /\ x_name f = n /\ r_buf (x_read f) true c = Some v.
  Lemma strips_iff names (R R' : str -> anyv -> Prop) : (forall n c, R n c <-> R' n c) -> forall seen es es',
    strips names R seen es es' -> strips names R' seen es es'.
  Proof.
    intros HR seen es es' S. induction S; [constructor|constructor; auto|apply strips_field; auto; now apply HR|apply strips_stop; auto].
    rewrite <- HR. assumption.
  Qed.
  Lemma field_none fs n c f : NoDup (map x_name fs) -> In f fs -> x_name f = n ->
    b_field true fs n c = None <-> x_val f <> None \/ r_buf (x_read f) true c = None.
  Proof.
    induction fs as [|g fs IH]; intros ND I En; [destruct I|]. cbn [map] in ND. inversion ND as [|? ? N ND']; subst. cbn [b_field].
    destruct I as [-> | I].
    - rewrite seqb_refl. destruct (x_val f) as [v|]; [split; [left; discriminate|reflexivity]|].
      destruct (r_buf (x_read f) true c); cbn; split; try discriminate; auto. intros [X|X]; congruence.
    - destruct (seqb (x_name g) (x_name f)) eqn:E.
      { apply seqb_eq in E. destruct N. rewrite E. now apply in_map. }
      specialize (IH ND' I eq_refl). destruct (b_field true fs (x_name f) c); cbn; rewrite <- IH; split; try discriminate; auto.
  Qed.
  Lemma fields_left l : forall fs seen, NoDup (map x_name fs) ->
    (forall f, In f fs -> x_val f = None <-> ~ In (x_name f) seen) -> forall es',
    strips (map x_name fs) (rd fs) seen (remaining l) es' <-> es' = remaining (snd (f_fields fs l)).
  Proof.
    induction l as [|[[k c]|] l IH]; intros fs seen ND Sn es'.
    - cbn. split; [now inversion 1|intros ->; constructor].
    - change (remaining (Some (k, c) :: l)) with ((k, c) :: remaining l).
      assert (Sk : (forall n, k = AnStr n -> ~ In n (map x_name fs)) ->
        strips (map x_name fs) (rd fs) seen ((k, c) :: remaining l) es' <->
        es' = remaining (snd (let '(r, l1) := f_fields fs l in (r, Some (k, c) :: l1)))).
      { intros Kn. specialize (IH fs seen ND Sn). destruct (f_fields fs l) as [r l1]. cbn [snd] in *.
        change (remaining (Some (k, c) :: l1)) with ((k, c) :: remaining l1). split.
        - inversion 1; subst; try (exfalso; eapply Kn; eauto; fail). f_equal. now apply IH.
        - intros ->. apply strips_other; [exact Kn|]. now apply IH. }
      destruct k as [| | | | |n| |]; try (cbn [f_fields]; apply Sk; intros n X; discriminate).
      cbn [f_fields]. rewrite known_names. destruct (existsb (seqb n) (map x_name fs)) eqn:Kn.
      2:{ apply Sk. intros m X. injection X as <-. intros Y. apply known_iff in Y. congruence. }
      clear Sk. apply known_iff in Kn. pose proof Kn as Kn'. apply in_map_iff in Kn' as (f & En & If).
      pose proof (field_none fs n c f ND If En) as Fn. pose proof (Sn f If) as Sf. rewrite En in Sf.
      assert (Rd : rd fs n c <-> r_buf (x_read f) true c <> None).
      { split.
        - intros (g & v & Ig & Eg & R). assert (g = f); [|subst; congruence]. clear - ND Ig If En Eg.
          induction fs as [|h fs IH]; [destruct If|]. cbn in ND. inversion ND as [|? ? N ND']; subst.
          destruct Ig as [<- | Ig], If as [<- | If]; auto.
          + destruct N. rewrite Eg. now apply in_map.
          + destruct N. rewrite <- Eg. now apply in_map.
        - intros R. destruct (r_buf (x_read f) true c) as [v|] eqn:E; [|congruence]. exists f, v. auto. }
      destruct (b_field true fs n c) as [fs1|] eqn:B.
      + assert (Gd : x_val f = None /\ r_buf (x_read f) true c <> None).
        { destruct (x_val f); [discriminate (proj2 Fn); left; discriminate|]. split; [reflexivity|]. intros X. discriminate (proj2 Fn (or_intror X)). }
        destruct Gd as [Vf Rf]. apply Sf in Vf.
        apply field_after in B; [|exact ND]. pose proof (after_names _ _ _ _ B) as Nm.
        assert (Sn1 : forall g, In g fs1 -> x_val g = None <-> ~ In (x_name g) (n :: seen)).
        { intros g Ig. clear - B Sn Ig Vf. revert Sn Ig. induction B as [|h h' hs hs' A _ IHB]; intros Sn Ig; [destruct Ig|].
          destruct Ig as [<- | Ig]; [|apply IHB; auto; intros; apply Sn; now right].
          destruct A as (E1 & E2 & E3 & [[N W]|(c' & v & O & V0 & _ & W)]); rewrite E1, W.
          - rewrite (Sn h (or_introl eq_refl)). cbn in N |- *. split; intros X; [intros [Y|Y]; [apply N; left; congruence|auto]|intros Y; apply X; now right].
          - apply once_cons in O as [[O _]|[_ O]]; [|destruct (once_nil _ _ O)]. injection O as -> ->. split; [discriminate|]. intros X. destruct X. now left. }
        assert (Rd1 : forall m d, rd fs1 m d <-> rd fs m d).
        { intros m d. unfold rd. clear - B. split; intros (g & v & Ig & Eg & R).
          - induction B as [|h h' hs hs' A _ IHB]; [destruct Ig|]. destruct Ig as [<- | Ig].
            + destruct A as (E1 & E2 & _). exists h, v. rewrite <- E1, <- E2. cbn. auto.
            + destruct (IHB Ig) as (g' & w & ? & ? & ?). exists g', w. cbn. auto.
          - induction B as [|h h' hs hs' A _ IHB]; [destruct Ig|]. destruct Ig as [<- | Ig].
            + destruct A as (E1 & E2 & _). exists h', v. rewrite E1, E2. cbn. auto.
            + destruct (IHB Ig) as (g' & w & ? & ? & ?). exists g', w. cbn. auto. }
        assert (ND1 : NoDup (map x_name fs1)) by now rewrite Nm. specialize (IH fs1 (n :: seen) ND1 Sn1 es'). rewrite Nm in IH.
        destruct (f_fields fs1 l) as [r l1]. cbn [snd] in *. change (remaining (None :: l1)) with (remaining l1). rewrite <- IH. split.
        * inversion 1 as [|? ? ? ? ? Ko|? ? ? ? ? In1 Ns Rs Ss|? ? ? ? In1 Bad]; subst.
          -- destruct (Ko _ eq_refl Kn).
          -- eapply strips_iff; [|exact Ss]. intros; now rewrite Rd1.
          -- destruct Bad as [Bad|Bad]; [tauto|]. destruct Bad. now apply Rd.
        * intros S. apply strips_field; auto; [now apply Rd|]. eapply strips_iff; [|exact S]. exact Rd1.
      + cbn [snd]. change (remaining (None :: l)) with (remaining l).
        assert (Bad : In n seen \/ ~ rd fs n c).
        { destruct (proj1 Fn eq_refl) as [X|X]; [left|right; rewrite Rd; congruence].
          destruct (in_dec (list_eq_dec N.eq_dec) n seen) as [Y|Y]; [exact Y|]. destruct X. now apply Sf. }
        split; [|intros ->; now apply strips_stop].
        inversion 1 as [|? ? ? ? ? Ko|? ? ? ? ? In1 Ns Rs Ss|]; subst; [destruct (Ko _ eq_refl Kn)|tauto|reflexivity].
    - change (remaining (None :: l)) with (remaining l). cbn [f_fields]. specialize (IH fs seen ND Sn es'). destruct (f_fields fs l). exact IH.
  Qed.

  Lemma struct_flat fs : Forall parts_good fs -> NoDup (map fst fs) -> good_f (XStruct fs).
  Proof.
    intros G ND l. rewrite read_struct. pose proof (parts_owned fs G) as Go. pose proof (owned_nodup fs ND) as NDo.
    destruct (flattens fs) eqn:Fl; cbn [r_flat]; rewrite own_mk.
    - split; [intros v|intros es'].
      + cbn [fst]. rewrite whole_iff by auto. split.
        * intros (vs & -> & W). cbn [bm]. unfold has_flat. unfold flattens in Fl. rewrite Fl. right. left. split; [reflexivity|].
          exists (remaining l). split; [reflexivity|exact W].
        * destruct v; try contradiction. cbn [bm]. unfold has_flat. unfold flattens in Fl. rewrite Fl. intros [(_ & X & _)|[(_ & es & E & W)|(X & _)]]; try discriminate.
          injection E as <-. exists l0. split; [reflexivity|exact W].
      + cbn [leaves snd]. unfold has_flat. unfold flattens in Fl. rewrite Fl. reflexivity.
    - pose proof (flatless_owned fs Fl) as Ow.
      assert (ND' : NoDup (map x_name (map mk (owned fs)))) by now rewrite mk_names.
      assert (Nms : map x_name (map mk (owned fs)) = map fst fs).
      { rewrite mk_names, Ow, map_map. reflexivity. }
      split; [intros v|intros es'].
      + pose proof (fields_value l (map mk (owned fs)) ND') as Fv. destruct (f_fields (map mk (owned fs)) l) as [r l1]. cbn [fst] in Fv |- *.
        assert (Q : fmeans (XStruct fs) (remaining l) v <-> exists vs, v = SStruct vs /\
          all2 (fun f x => match f with (n, t) => field_b true (remaining l) n t x end) (owned fs) vs).
        { assert (P : forall es vs, all2 (fun f x => match f with (n, (_, t)) => field_b true es n t x end) fs vs <->
                  all2 (fun f x => match f with (n, t) => field_b true es n t x end) (owned fs) vs).
          { intros es vs. rewrite Ow, all2_map. apply all2_iff. intros [n [b t]] x _. reflexivity. }
          split.
          - destruct v; try contradiction. cbn [bm]. unfold has_flat. unfold flattens in Fl. rewrite Fl. intros [(_ & _ & es & E & W)|[(X & _)|(_ & cs & X & _)]]; try discriminate.
            injection E as <-. exists l0. split; [reflexivity|]. now apply P.
          - intros (vs & -> & W). cbn [bm]. unfold has_flat. unfold flattens in Fl. rewrite Fl. left. split; [reflexivity|]. split; [reflexivity|].
            exists (remaining l). split; [reflexivity|]. now apply P. }
        rewrite Q. setoid_rewrite <- (values_after true (remaining l) (owned fs) Go). split.
        * destruct r as [gs|]; [|discriminate]. destruct (opt_map x_value gs) as [vs|] eqn:X; [|discriminate]. intros E. injection E as <-.
          exists vs. split; [reflexivity|]. exists gs. split; [now apply Fv|exact X].
        * intros (vs & -> & gs & F & X). apply Fv in F. subst r. now rewrite X.
      + cbn [leaves]. unfold has_flat. unfold flattens in Fl. rewrite Fl.
        pose proof (fields_left l (map mk (owned fs)) [] ND') as Fv. rewrite Nms in Fv.
        assert (Rd : forall n c, any (fun f => match f with (m, (_, t)) => m = n /\ exists v, bmeans true t c v end) fs <-> rd (map mk (owned fs)) n c).
        { intros n c. rewrite any_ex. unfold rd. split.
          - intros ([m [b t]] & Ix & Em & v & Bv). exists (mk (m, t)), v. split.
            + apply in_map. rewrite Ow. apply in_map_iff. exists (m, (b, t)). auto.
            + split; [exact Em|]. cbn. apply (proj1 (Forall_forall _ _) G _ Ix). exact Bv.
          - intros (f & v & If & Ef & R). apply in_map_iff in If as ([m t] & <- & If). rewrite Ow in If. apply in_map_iff in If as ([m' [b t']] & E & If).
            cbn in E. injection E as -> ->. exists (m, (b, t)). split; [exact If|]. split; [exact Ef|]. exists v. cbn in R. apply (proj1 (Forall_forall _ _) G _ If). exact R. }
        specialize (Fv (fun f If => ltac:(apply in_map_iff in If as ([m t] & <- & _); cbn; tauto)) es').
        destruct (f_fields (map mk (owned fs)) l) as [r l1]. cbn [snd] in Fv |- *. rewrite <- Fv. split; apply strips_iff; intros; [apply Rd|symmetry; apply Rd].
  Qed.
End Buffer.
