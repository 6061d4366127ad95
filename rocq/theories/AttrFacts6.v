(** Facts about types with serde attributes: what is written is read back. *)
From Coq Require Import ZArith Lia.
From Verif Require Import Base Ast Strings Format Num Pretty Ser De Attr Spec_Attr Spec_Serde Spec_Look Spec_Pretty
  LookFacts LookFacts2 SerdeFacts SerdeFacts2 AttrFacts AttrFacts2 AttrFacts3 AttrFacts4 AttrFacts5.
Import ListNotations.

Lemma any_int k z : k <> I128 -> k <> U128 -> fits k z ->
  any_unquoted (show_Z z) = AnI64 z \/ any_unquoted (show_Z z) = AnU64 z.
Proof.
  intros N1 N2 F. destruct (int_not_null z _ eq_refl) as (A & B & C). destruct (C eq_refl) as [D E].
  unfold any_unquoted, is_null_word.
  rewrite (proj2 (seqb_neq _ _) A), (proj2 (seqb_neq _ _) B), (proj2 (seqb_neq _ _) D), (proj2 (seqb_neq _ _) E). cbn [orb].
  assert (P : parse_f64_ok (show_Z z) = true).
  { eapply (parse_int_f64 true (Z.min z 0) (Z.max z 0) _ z). apply parse_show_Z; [lia|discriminate]. }
  rewrite (proj2 (seqb_neq (show_Z z) (lit "true"))) by (intros X; rewrite X in P; vm_compute in P; discriminate).
  rewrite (proj2 (seqb_neq (show_Z z) (lit "false"))) by (intros X; rewrite X in P; vm_compute in P; discriminate).
  assert (I : (i64_min <= z <= i64_max \/ i64_max < z <= u64_max)%Z).
  { unfold i64_min, i64_max, u64_max. destruct k; cbn [fits] in F; try congruence; lia. }
  destruct I as [I|I].
  - left. unfold parse_i64. now rewrite parse_show_Z by (exact I || discriminate).
  - right. assert (parse_i64 (show_Z z) = None) as ->.
    { destruct (parse_i64 (show_Z z)) as [w|] eqn:W; [|reflexivity]. exfalso.
      apply (parse_int_spec I64) in W as [W R].
      assert (X : parse_int true i64_min z (show_Z z) = Some w) by (apply (parse_int_spec I64); split; [exact W|lia]).
      rewrite parse_show_Z in X; [|unfold i64_min, i64_max in *; lia|discriminate]. injection X as ->. lia. }
    unfold parse_u64. rewrite parse_show_Z; [reflexivity|unfold i64_max in I; lia|unfold i64_max in I; lia].
Qed.

Lemma any_float x : float_text x -> plain_float x ->
  any_unquoted x = AnF64 x \/ exists z, x = show_Z z /\ (any_unquoted x = AnI64 z \/ any_unquoted x = AnU64 z).
Proof.
  intros F P. pose proof (float_ok x F) as O. destruct (unq_not_null x O _ eq_refl) as (A & B & C). destruct (C eq_refl) as [D E].
  unfold any_unquoted, is_null_word.
  rewrite (proj2 (seqb_neq _ _) A), (proj2 (seqb_neq _ _) B), (proj2 (seqb_neq _ _) D), (proj2 (seqb_neq _ _) E). cbn [orb].
  rewrite (proj2 (seqb_neq x (lit "true"))) by (intros X; rewrite X in O; vm_compute in O; discriminate).
  rewrite (proj2 (seqb_neq x (lit "false"))) by (intros X; rewrite X in O; vm_compute in O; discriminate).
  destruct (parse_i64 x) as [z|] eqn:I.
  - right. exists z. split; [|now left]. apply (parse_int_spec I64) in I as [I _]. now apply P.
  - destruct (parse_u64 x) as [z|] eqn:U.
    + right. exists z. split; [|now right]. apply (parse_int_spec U64) in U as [U _]. apply P.
      destruct U as (ds & Ds & [U|(U & _)]); exists ds; (split; [exact Ds|]); [left; exact U|].
      unfold signed_kind in U. cbn in U. intuition discriminate.
    + left. now rewrite O.
Qed.

Lemma char_not_null c : not_null_text [c].
Proof. split; discriminate. Qed.
Lemma not_null_coll l : not_null (map_yaml_of l).
Proof. now apply coll_not_null. Qed.
Lemma map_pos kys : 1 <= depth (map_yaml_of kys).
Proof. apply depth_pos. Qed.
Lemma map_depths kys fuel : depth (map_yaml_of kys) <= fuel -> 1 <= fuel /\ Forall (fun kv => depth (snd kv) < fuel) kys.
Proof.
  rewrite depth_map. intros D. split; [lia|].
  assert (G : fold_right (fun kv n => Nat.max (depth (snd kv)) n) 0 kys <= fuel - 1) by lia.
  apply (max_in (fun kv => depth (snd kv))) in G. eapply Forall_impl; [|exact G]. cbn. intros. lia.
Qed.

Section RT.
  Context (fuel : nat).
  Notation Pt := (Pt fuel).

  Lemma leaf t v y : (forall a, r_node (read fuel t) y a = Done v a) -> (forall own, r_buf (read fuel t) own (content y) = Some v) ->
    (forall kys, y <> map_yaml_of kys) -> forall Q : Prop, (Q -> not_null y) ->
    (forall a, r_node (read fuel t) y a = Done v a) /\
    (forall own, r_buf (read fuel t) own (content y) = Some v) /\
    (forall kys l, y = map_yaml_of kys -> Forall (fun kv => plain_name (fst kv)) kys -> remaining l = map bentry kys ->
      fst (r_flat (read fuel t) l) = Some v) /\ (Q -> not_null y).
  Proof. intros A B C Q N. split; [exact A|]. split; [exact B|]. split; [|exact N]. intros kys l E. now elim (C kys). Qed.

  (** Readers that read a flattened field from the buffer of the remaining entries. *)
  Lemma by_buf t v y : (forall a, r_node (read fuel t) y a = Done v a) -> (forall own, r_buf (read fuel t) own (content y) = Some v) ->
    (forall l, fst (r_flat (read fuel t) l) = r_buf (read fuel t) false (AnMap (remaining l))) ->
    forall Q : Prop, (Q -> not_null y) ->
    (forall a, r_node (read fuel t) y a = Done v a) /\
    (forall own, r_buf (read fuel t) own (content y) = Some v) /\
    (forall kys l, y = map_yaml_of kys -> Forall (fun kv => plain_name (fst kv)) kys -> remaining l = map bentry kys ->
      fst (r_flat (read fuel t) l) = Some v) /\ (Q -> not_null y).
  Proof.
    intros A B C Q N. split; [exact A|]. split; [exact B|]. split; [|exact N]. intros kys l -> P R. rewrite C, R, <- content_entries. apply B.
  Qed.

  Lemma items_names (fs : list (str * xty)) items : map fld items = map (fun f => match f with (n, t) => unset fuel n t end) fs ->
    map x_name (map fld items) = map fst fs.
  Proof. intros ->. rewrite map_map. apply map_ext. now intros []. Qed.
  Lemma items_plain items names : map x_name (map fld items) = names -> (forall n, In n names -> plain_name n) ->
    Forall (fun i => plain_name (x_name (fld i))) items.
  Proof. intros <- H. apply Forall_forall. intros i Hi. apply H. now apply in_map, in_map. Qed.

  Lemma served_map_inv kys : served (map_yaml_of kys) -> Forall (fun e => served (snd e)) kys.
  Proof.
    intros S. remember (map_yaml_of kys) as y eqn:E. destruct S as [s|s|ys|ys|kys' F].
    - now destruct kys.
    - exfalso. pose proof (str_shape s) as X. rewrite E in X. now destruct kys.
    - now destruct kys.
    - now destruct kys.
    - apply map_yaml_inj in E. now subst kys'.
  Qed.
  (** A struct without flattened fields. *)
  Definition strip (fs : list (str * (bool * xty))) : list (str * xty) := map (fun f => (fst f, snd (snd f))) fs.
  Lemma strip_write fs : map (fun w : str * (bool * (sval -> option sval)) => (fst w, snd (snd w)))
      (map (fun f : str * (bool * xty) => match f with (n, (fl, t)) => (n, (fl, emit t)) end) fs) =
    map (fun f => match f with (n, t) => (n, emit t) end) (strip fs).
  Proof. unfold strip. rewrite !map_map. apply map_ext. now intros [n [fl t]]. Qed.
  Lemma strip_own fs : flattens fs = false ->
    own_fields fuel fs = map (fun f => match f with (n, t) => unset fuel n t end) (strip fs).
  Proof.
    induction fs as [|[n [fl t]] fs IH]; [reflexivity|]. unfold flattens. cbn [existsb fst snd]. destruct fl; [discriminate|].
    cbn [orb]. intros H. unfold own_fields. cbn [filter fst snd negb map strip xf]. f_equal. exact (IH H).
  Qed.
  Lemma strip_names fs : map fst (strip fs) = map fst fs.
  Proof. unfold strip. rewrite map_map. reflexivity. Qed.
  Lemma strip_all2 (P : xty -> sval -> Prop) (Q : bool -> xty -> sval -> Prop) fs l :
    all2 (fun f (x : str * sval) => match f with (_, (fl, t)) => P t (snd x) /\ Q fl t (snd x) end) fs l ->
    all2 (fun f (x : str * sval) => match f with (_, t) => P t (snd x) end) (strip fs) l.
  Proof.
    revert l. induction fs as [|[n [fl t]] fs IH]; intros [|x l]; cbn; try tauto. intros [[A _] B]. split; [exact A|now apply IH].
  Qed.
  Lemma depths_le kys : Forall (fun kv : str * yaml => depth (snd kv) < fuel) kys -> Forall (fun kv => depth (snd kv) <= fuel) kys.
  Proof. intros H. eapply Forall_impl; [|exact H]. cbn. intros. lia. Qed.

  Lemma own_names_eq fs : map x_name (own_fields fuel fs) = own_names fs.
  Proof. unfold own_fields, own_names. rewrite map_map. apply map_ext. now intros [n [fl t]]. Qed.
  Lemma own_names_in fs n : In n (own_names fs) -> In n (map fst fs).
  Proof. unfold own_names. rewrite !in_map_iff. intros (f & E & I). apply filter_In in I as [I _]. eauto. Qed.
  Lemma own_names_nodup fs : NoDup (map fst fs) -> NoDup (own_names fs).
  Proof.
    unfold own_names. induction fs as [|[n [fl t]] fs IH]; cbn; [intros; constructor|]. intros N. inversion N; subst.
    destruct fl; cbn; [auto|]. constructor; [|auto]. intros I. apply H1. exact (own_names_in fs n I).
  Qed.

  Lemma struct_rt fs l ss y : Forall (fun nt => Pt (snd nt)) fs -> NoDup (map fst fs) -> (forall n, In n (map fst fs) -> plain_name n) ->
    all2 (fun f (x : str * sval) => match f with (_, t) => carried t (snd x) end) fs l ->
    write_fields (map (fun f => match f with (n, t) => (n, emit t) end) fs) l = Some ss ->
    ser (SStruct ss) = Some y -> depth y <= fuel ->
    exists items kys, y = map_yaml_of kys /\ map fld items = map (fun f => match f with (n, t) => unset fuel n t end) fs /\
      map ientry items = kys /\ map (fun i => (x_name (fld i), ival i)) items = l /\ Forall good items /\
      NoDup (map x_name (map fld items)) /\ Forall (fun i => plain_name (x_name (fld i))) items /\
      map fst kys = map fst fs.
  Proof.
    intros T N P C W E D. rewrite ser_struct in E. destruct (opt_map ser_field ss) as [kys|] eqn:O; [|discriminate].
    cbn [option_map] in E. injection E as <-. destruct (map_depths _ _ D) as [_ D'].
    destruct (fields_rt fuel fs T l ss kys C W O (depths_le _ D')) as (items & A1 & A2 & A3 & A4).
    pose proof (items_names fs items A1) as Nm.
    exists items, kys. split; [reflexivity|]. do 4 (split; [assumption|]). rewrite Nm. split; [exact N|].
    split; [exact (items_plain _ _ Nm P)|]. rewrite <- A2, <- Nm, !map_map. reflexivity.
  Qed.

  Lemma round_trip t : Pt t.
  Proof.
    induction t using xty_ind'; intros v s y Em C Ey D.
    - destruct v; cbn in Em; try discriminate. injection Em as <-. cbn in Ey. injection Ey as <-.
      apply leaf; intros; destruct b; try reflexivity; try (intros; discriminate);
        intros s X; injection X as <-; repeat split; discriminate.
    - destruct v as [|k' z| | | | | | | | | | | | | | | | |]; cbn [emit] in Em; try discriminate.
      assert (k' = k /\ SInt k' z = s) as [-> <-] by (destruct k, k'; try discriminate; injection Em as <-; auto). clear Em.
      destruct C as (N1 & N2 & F). cbn in Ey. injection Ey as <-. apply leaf.
      + intros a. cbn [read r_node]. pose proof (int_read k z a N1 N2 F) as I. cbn [de] in I. now rewrite I.
      + intros own. cbn [read r_buf content]. pose proof (proj2 (kind_fits k z) F) as K.
        assert (B : b_int k z = Some (SInt k z)) by (unfold b_int; rewrite K; destruct k; congruence).
        destruct (any_int k z N1 N2 F) as [-> | ->]; exact B.
      + discriminate.
      + intros _. apply int_not_null.
    - destruct v; cbn in Em; try discriminate. injection Em as <-. destruct C as [F P]. cbn in Ey. injection Ey as <-. apply leaf.
      + intros a. cbn [read r_node]. unfold de_float. cbn [into_resolved yaml_to_string]. now rewrite (float_ok _ F).
      + intros own. cbn [read r_buf content]. destruct (any_float _ F P) as [-> |(z & E & [-> | ->])]; now rewrite <- ?E.
      + discriminate.
      + intros _. now apply unq_not_null, float_ok.
    - destruct v; cbn in Em; try discriminate. injection Em as <-. cbn [ser] in Ey. injection Ey as <-. apply leaf.
      + intros a. cbn [read r_node]. now rewrite (text_read _ _ _ (str_to_yaml_value [c])).
      + intros own. cbn [read r_buf]. now rewrite content_str by apply char_not_null.
      + apply str_not_map.
      + intros _. apply str_not_null; discriminate.
    - destruct v; cbn in Em; try discriminate. injection Em as <-. cbn [ser] in Ey. injection Ey as <-. cbn in C. apply leaf.
      + intros a. cbn [read r_node]. now rewrite (text_read _ _ _ (str_to_yaml_value s0)).
      + intros own. cbn [read r_buf]. now rewrite content_str.
      + apply str_not_map.
      + intros _. destruct C. now apply str_not_null.
    - destruct v; cbn in Em; try discriminate. injection Em as <-. cbn in Ey. injection Ey as <-. apply leaf; try reflexivity.
      + discriminate.
      + cbn. tauto.
    - destruct v; cbn [emit] in Em; try discriminate.
      + injection Em as <-. cbn in Ey. injection Ey as <-. apply leaf; try reflexivity; [discriminate|]. cbn. tauto.
      + destruct (emit t v) as [s'|] eqn:Es; [|discriminate]. cbn in Em. injection Em as <-. destruct C as [C Nn].
        specialize (Nn s' Es). cbn [ser] in Ey. destruct (IHt v s' y Es C Ey D) as (N & B & F & Z). specialize (Z Nn).
        split; [|split; [|split]].
        * intros a. cbn [read r_node].
          assert (R : into_resolved y a = Some y).
          { pose proof (ser_served s' y Ey) as S. inversion S; try reflexivity.
            pose proof (str_shape s). destruct (str_to_yaml s); try contradiction; reflexivity. }
          rewrite R. destruct y; try (now rewrite N).
          destruct (Z _ eq_refl) as (Z1 & Z2 & Z3). destruct (Z3 eq_refl) as [Z4 Z5]. unfold is_null_word.
          rewrite (proj2 (seqb_neq _ _) Z1), (proj2 (seqb_neq _ _) Z2), (proj2 (seqb_neq _ _) Z4), (proj2 (seqb_neq _ _) Z5). cbn [orb].
          now rewrite N.
        * intros own. cbn [read r_buf]. specialize (B own).
          assert (U : content y <> AnUnit).
          { intros U. pose proof (ser_served s' y Ey) as S.
            assert (G : forall w, y = Unquoted w -> False).
            { intros w ->. destruct (Z _ eq_refl) as (Z1 & Z2 & Z3). destruct (Z3 eq_refl) as [Z4 Z5]. cbn [content] in U.
              unfold any_unquoted, is_null_word in U.
              rewrite (proj2 (seqb_neq _ _) Z1), (proj2 (seqb_neq _ _) Z2), (proj2 (seqb_neq _ _) Z4), (proj2 (seqb_neq _ _) Z5) in U. cbn [orb] in U.
              destruct (seqb w _); [discriminate|]. destruct (seqb w _); [discriminate|]. destruct (parse_i64 w); [discriminate|].
              destruct (parse_u64 w); [discriminate|]. destruct (parse_f64_ok w); discriminate. }
            inversion S; subst y; try (eapply G; reflexivity); try discriminate.
            pose proof (str_shape s). destruct (str_to_yaml s); try contradiction; try discriminate. eapply G. reflexivity. }
          destruct (content y); try (now rewrite B). now elim U.
        * intros kys l E P R. cbn [read r_flat]. specialize (F kys l E P R). destruct (r_flat (read fuel t) l) as [r l1].
          cbn [fst] in F |- *. now rewrite F.
        * intros _. exact Z.
    - destruct v; cbn [emit] in Em; try discriminate.
      destruct (emit t v) as [s'|] eqn:Es; [|discriminate]. cbn in Em. injection Em as <-. cbn in C. cbn [ser] in Ey.
      destruct (IHt v s' y Es C Ey D) as (N & B & F & Z). split; [|split; [|split]].
      + intros a. cbn [read r_node]. now rewrite N.
      + intros own. cbn [read r_buf]. now rewrite B.
      + intros kys l E P R. cbn [read r_flat]. specialize (F kys l E P R). destruct (r_flat (read fuel t) l) as [r l1].
        cbn [fst] in F |- *. now rewrite F.
      + exact Z.
    - destruct v; cbn [emit] in Em; try discriminate.
      destruct (opt_map (emit t) l) as [ss|] eqn:Es; [|discriminate]. cbn in Em. injection Em as <-. cbn in C. cbn [ser] in Ey.
      destruct (opt_map ser ss) as [ys|] eqn:Ys; [|discriminate]. cbn [option_map] in Ey. injection Ey as <-.
      rewrite depth_seq in D. assert (D' : fold_right (fun y n => Nat.max (depth y) n) 0 ys <= fuel) by lia. apply max_in in D'.
      destruct (seq_rt fuel t IHt l ss ys C Es Ys D') as [N B]. apply leaf.
      + intros a. cbn [read r_node]. now rewrite seq_at, N.
      + intros own. cbn [read r_buf]. now rewrite content_seq, B.
      + discriminate.
      + intros _. now apply coll_not_null.
    - destruct v; cbn [emit] in Em; try discriminate.
      destruct (write_list (map emit ts) l) as [ss|] eqn:Es; [|discriminate]. cbn in Em. injection Em as <-. cbn in C. cbn [ser] in Ey.
      destruct (opt_map ser ss) as [ys|] eqn:Ys; [|discriminate]. cbn [option_map] in Ey. injection Ey as <-.
      cbn [depth] in D. assert (D' : fold_right (fun y n => Nat.max (depth y) n) 0 ys <= fuel) by lia. apply max_in in D'.
      destruct (tuple_rt fuel ts H l ss ys C Es Ys D') as [N B]. apply leaf.
      + intros a. cbn [read r_node]. unfold de_seq_values. cbn [into_resolved]. now rewrite N.
      + intros own. cbn [read r_buf content]. now rewrite B.
      + discriminate.
      + intros _. now apply coll_not_null.
    - destruct v; cbn [emit] in Em; try discriminate.
      destruct (opt_map _ l) as [ss|] eqn:Es in Em; [|discriminate]. cbn in Em. injection Em as <-. cbn in C.
      rewrite ser_map in Ey. destruct (opt_map ser_entry ss) as [kys|] eqn:Ys; [|discriminate]. cbn [option_map] in Ey. injection Ey as <-.
      destruct (map_depths _ _ D) as [F D'].
      destruct (entries_rt fuel t1 t2 IHt1 IHt2 l ss kys C Es Ys F) as [N B]; [eapply Forall_impl; [|exact D']; cbn; intros; lia|].
      apply by_buf.
      + intros a. cbn [read r_node]. now rewrite map_at, N.
      + intros own. cbn [read r_buf]. now rewrite content_entries, B.
      + reflexivity.
      + intros _. apply not_null_coll.
    - destruct v; cbn [emit] in Em; try discriminate. fold (flattens fs) in Em.
      destruct C as (Nd & Pl & Le & Ca). destruct (flattens fs) eqn:Fl.
      + fold (ws_of fs) in Em. destruct (write_flat (ws_of fs) l) as [es|] eqn:Ws; [|discriminate]. cbn in Em. injection Em as <-.
        rewrite ser_map in Ey. destruct (opt_map ser_entry es) as [kys|] eqn:Ys; [|discriminate]. cbn [option_map] in Ey. injection Ey as <-.
        destruct (map_depths _ _ D) as [F D'].
        destruct (flat_rt fuel (own_names fs) fs H l es kys Ca Le Ws Ys D' F) as (Len & ps & A1 & A2 & A3 & A4 & A5 & _ & A7).
        assert (Ns : map x_name (map fld (owns ps)) = own_names fs) by (rewrite A2; apply own_names_eq).
        assert (Ndo : NoDup (map x_name ([] ++ map fld (owns ps)))) by (cbn [app]; rewrite Ns; now apply own_names_nodup).
        assert (Op : Forall (fun i => plain_name (x_name (fld i))) (owns ps)).
        { apply (items_plain _ _ Ns). intros n I. apply Pl. now apply own_names_in. }
        assert (Fin : finish (decl_of fs) (flat_fields fuel fs) (map iset (owns ps), map bentry (others ps)) = Some (SStruct l)).
        { unfold finish. cbn [fst snd]. rewrite values_items.
          rewrite (A7 (map Some (map bentry (others ps)))).
          - now rewrite A4, merge_parts.
          - clear. induction (map bentry (others ps)) as [|e es IH]; [reflexivity|]. cbn. f_equal. exact IH. }
        assert (Sv : Forall (fun e => served (snd e)) kys).
        { pose proof (ser_served (SMap es) (map_yaml_of kys)) as S. rewrite ser_map, Ys in S. specialize (S eq_refl).
          now apply served_map_inv. }
        assert (Sub : forall e, In e (others ps) -> In e kys).
        { rewrite <- A1. intros e I. apply in_map_iff. exists (inr e). split; [reflexivity|].
          unfold others in I. apply in_flat_map in I as ([i|e'] & I1 & I2); cbn in I2; [contradiction|]. destruct I2 as [<-|[]]. exact I1. }
        apply by_buf.
        * intros a. rewrite read_struct, Fl. cbn [r_node]. rewrite map_at. rewrite <- A1, <- A2.
          pose proof (n_collect_parts (de_any fuel) ps [] a A3 Ndo) as G; cbn [app] in G; rewrite G; clear G; [cbn [o_bind app]; now rewrite Fin|].
          cbn [app]. rewrite Ns. rewrite Forall_forall in *. intros e I. destruct (A5 e I) as [B1 B2].
          split; [|now split]. intros b. apply any_content; [auto|]. specialize (D' e (Sub e I)). lia.
        * intros own. rewrite read_struct, Fl. cbn [r_buf]. rewrite content_entries. rewrite <- A1, <- A2.
          pose proof (b_collect_parts own ps [] A3 Ndo Op) as G; cbn [app] in G; rewrite G; clear G; [exact Fin|].
          cbn [app]. rewrite Ns. rewrite Forall_forall in *. intros e I. destruct (A5 e I). now split.
        * intros l0. rewrite read_struct, Fl. reflexivity.
        * intros _. apply not_null_coll.
      + rewrite strip_write in Em. destruct (write_fields _ l) as [ss|] eqn:Ws; [|discriminate]. cbn in Em. injection Em as <-.
        rewrite <- strip_names in Nd, Pl.
        assert (T : Forall (fun nt => Pt (snd nt)) (strip fs)) by (unfold strip; rewrite Forall_map; exact H).
        destruct (struct_rt (strip fs) l ss y T Nd Pl (strip_all2 carried (fun fl t v => fl = true -> written_names t v (fun k => plain_name k /\ ~ In k (own_names fs))) fs l Ca) Ws Ey D)
          as (items & kys & -> & A1 & A2 & A3 & A4 & A5 & A6 & _).
        rewrite <- (strip_own fs Fl) in A1. split; [|split; [|split]].
        * intros a. rewrite read_struct, Fl. cbn [r_node]. rewrite map_at. rewrite <- A1, <- A2.
          pose proof (n_fields_items items [] a A4 A5) as Gi; cbn [app] in Gi; rewrite Gi; clear Gi. cbn [o_bind app]. now rewrite values_items, A3.
        * intros own. rewrite read_struct, Fl. cbn [r_buf]. rewrite content_entries. unfold b_struct, b_struct_map. rewrite <- A1, <- A2.
          pose proof (b_fields_items own items [] A4 A5 A6) as Gi; cbn [app] in Gi; rewrite Gi; clear Gi. cbn [app]. now rewrite values_items, A3.
        * intros kys0 l0 E P R. apply map_yaml_inj in E. subst kys0. rewrite read_struct, Fl. cbn [r_flat]. rewrite <- A1, <- A2 in *.
          pose proof (f_fields_items l0 items [] A4 A5 A6 R) as G. cbn [app] in G.
          destruct (f_fields (map fld items) l0) as [r l1]. cbn [fst] in G |- *. subst r. now rewrite values_items, A3.
        * intros _. apply not_null_coll.
    - destruct v; cbn [carried] in C; try contradiction. destruct C as (Nd & I & Nn).
      destruct (variant_at fuel vs name XVUnit Nd I) as [Pk Wr]. cbn [emit variant_name] in Em.
      rewrite write_variant_map in Em. rewrite Wr in Em. cbn [fst snd] in Em. injection Em as <-. cbn [ser] in Ey. injection Ey as <-.
      apply leaf.
      + intros a. rewrite read_enum. cbn [r_node].
        assert (E : de_enum_content (str_to_yaml name) a = Some (name, Unquoted (lit "~"), a)).
        { pose proof (str_shape name). pose proof (str_to_yaml_value name) as V.
          destruct (str_to_yaml name); try contradiction; cbn in V |- *; congruence. }
        rewrite E, Pk. reflexivity.
      + intros own. rewrite read_enum. cbn [r_buf]. rewrite content_str by exact Nn. cbn [b_enum]. rewrite Pk. reflexivity.
      + apply str_not_map.
      + intros _. destruct Nn. now apply str_not_null.
    - cbn [carried] in C. destruct C as (Nd & Fc & An). apply any_in in An as ([n va] & I & En & Cv).
      assert (V : exists va', (forall c own, r_buf (read fuel (XUntagged vs)) own c = first_of (u_variant c) (rvars fuel vs)) /\ va' = va) by eauto.
      clear V. destruct (variant_at fuel vs n va Nd I) as [_ Wr]. pose proof Em as Em0. cbn [emit] in Em.
      rewrite write_variant_map in Em. rewrite <- En in Em. rewrite Wr in Em. cbn [fst snd] in Em.
      rewrite Forall_forall in H. specialize (H _ I). cbn [snd] in H.
      assert (G : u_variant (content y) (n, rvar fuel va) = Some v /\ (~ nullish s -> not_null y)).
      { destruct va as [|t|ts|fs]; destruct v; try contradiction; cbn [variant_name] in En; subst name; cbn [rvar u_variant fst snd xv_P] in *.
        - injection Em as <-. cbn in Ey. injection Ey as <-. split; [reflexivity|]. cbn. tauto.
        - destruct (H v s y Em Cv Ey D) as (_ & B & _ & Z). split; [|exact Z]. now rewrite B.
        - destruct (write_list (map emit ts) l) as [ss|] eqn:Es; [|discriminate]. cbn in Em. injection Em as <-. cbn [ser] in Ey.
          destruct (opt_map ser ss) as [ys|] eqn:Ys; [|discriminate]. cbn [option_map] in Ey. injection Ey as <-.
          cbn [depth] in D. assert (D' : fold_right (fun y n => Nat.max (depth y) n) 0 ys <= fuel) by lia. apply max_in in D'.
          destruct (tuple_rt fuel ts H l ss ys Cv Es Ys D') as [N B]. cbn [content]. rewrite B. split; [reflexivity|].
          intros _. now apply coll_not_null.
        - destruct (write_fields _ l) as [ss|] eqn:Ws; [|discriminate]. cbn in Em. injection Em as <-. destruct Cv as (N1 & N2 & N3).
          destruct (struct_rt fs l ss y H N1 N2 N3 Ws Ey D) as (items & kys & -> & A1 & A2 & A3 & A4 & A5 & A6 & _).
          split; [|intros _; apply not_null_coll]. rewrite content_entries. unfold b_struct_map.
          change (fun f : list N * xty => let (n1, t) := f in {| x_name := n1; x_read := read fuel t; x_opt := is_xoption t; x_val := None |})
            with (fun f : str * xty => match f with (n, t) => unset fuel n t end). rewrite <- A1, <- A2.
          pose proof (b_fields_items false items [] A4 A5 A6) as Gi; cbn [app] in Gi; rewrite Gi; clear Gi. cbn [app]. now rewrite values_items, A3. }
      destruct G as [G Z].
      assert (Fo : first_of (u_variant (content y)) (rvars fuel vs) = Some v).
      { apply in_split in I as (pre & post & E). rewrite E. unfold rvars. rewrite map_app. cbn [map].
        assert (Pre : first_of (u_variant (content y)) (rvars fuel pre) = None).
        { destruct (first_of (u_variant (content y)) (rvars fuel pre)) as [w|] eqn:W; [|reflexivity]. exfalso.
          rewrite En in E. apply (Fc pre va post s y fuel w [] E Em0 Ey). unfold read_yaml. rewrite read_untagged. cbn [r_node].
          rewrite any_content by (eauto using ser_served). cbn [o_bind]. now rewrite W. }
        unfold rvars in Pre. revert Pre. generalize (map (fun x : list N * xvariant => let (n0, v0) := x in (n0, rvar fuel v0)) pre).
        intros l0. induction l0 as [|x l0 IH]; cbn [app first_of]; [now rewrite G|].
        destruct (u_variant (content y) x); [discriminate|exact IH]. }
      apply by_buf.
      + intros a. rewrite read_untagged. cbn [r_node]. rewrite any_content by (eauto using ser_served). cbn [o_bind]. now rewrite Fo.
      + intros own. rewrite read_untagged. exact Fo.
      + intros l0. rewrite read_untagged. reflexivity.
      + exact Z.
    - cbn [carried] in C. destruct C as (Nd & Pt0 & Nn & An). apply any_in in An as ([n va] & I & En & Cv).
      destruct (variant_at fuel vs n va Nd I) as [Pk Wr]. cbn [emit] in Em.
      rewrite write_variant_map in Em. rewrite <- En in Em. rewrite Wr in Em. cbn [fst snd] in Em. rewrite <- En in Nn.
      rewrite Forall_forall in H. specialize (H _ I). cbn [snd] in H.
      assert (G : exists kys, y = map_yaml_of ((tag, str_to_yaml n) :: kys) /\ Forall (fun kv => fst kv <> tag) kys /\
                  Forall (fun kv => served (snd kv)) kys /\ t_variant (rvars fuel vs) (n, AnMap (map bentry kys)) = Some v).
      { assert (Sk : forall s' kys, ser s' = Some (map_yaml_of kys) -> Forall (fun kv => served (snd kv)) kys).
        { intros s' kys E. apply ser_served in E. now apply served_map_inv. }
        destruct va as [|t|ts|fs]; destruct v; try contradiction; cbn [variant_name] in En; subst name; cbn [xv_P] in H; unfold t_variant; cbn [fst snd]; rewrite Pk.
        - injection Em as <-. cbn in Ey. injection Ey as <-. exists []. repeat split; constructor.
        - destruct Cv as [Cv (s' & ks & Es & Ek & Hk)]. rewrite Es in Em.
          destruct (tagged_ser tag n s' ks s y Ek Em Ey) as (kys & -> & Es' & Hn). exists kys. split; [reflexivity|].
          split; [rewrite Forall_forall; intros e He; apply Hk; rewrite <- Hn; now apply in_map|]. split; [eauto|].
          cbn [rvar]. rewrite <- content_entries.
          assert (Dk : depth (map_yaml_of kys) <= fuel).
          { rewrite !depth_map in *. cbn [fold_right snd] in D. lia. }
          destruct (H v s' _ Es Cv Es' Dk) as (_ & B & _). now rewrite B.
        - destruct (write_fields _ l) as [ss|] eqn:Ws; [|discriminate]. cbn in Em. injection Em as <-. destruct Cv as ((N1 & N2 & N3) & N4).
          rewrite ser_struct in Ey. destruct (opt_map ser_field _) as [es|] eqn:Ys in Ey; [|discriminate]. cbn [option_map] in Ey. injection Ey as <-.
          apply opt_map_step in Ys as (e & kys & -> & E1 & E2). cbn in E1. injection E1 as <-.
          assert (Dk : depth (map_yaml_of kys) <= fuel).
          { rewrite !depth_map in *. cbn [fold_right snd] in D. lia. }
          assert (Es' : ser (SStruct ss) = Some (map_yaml_of kys)) by (rewrite ser_struct, E2; reflexivity).
          destruct (struct_rt fs l ss _ H N1 N2 N3 Ws Es' Dk) as (items & kys' & Ek & A1 & A2 & A3 & A4 & A5 & A6 & A7).
          apply map_yaml_inj in Ek. subst kys'. exists kys. split; [reflexivity|].
          split; [rewrite Forall_forall; intros e He X; apply N4; rewrite <- A7, <- X; now apply in_map|]. split; [eauto|].
          cbn [rvar b_struct]. unfold b_struct_map.
          change (fun f : list N * xty => let (n1, t) := f in {| x_name := n1; x_read := read fuel t; x_opt := is_xoption t; x_val := None |})
            with (fun f : str * xty => match f with (n, t) => unset fuel n t end). rewrite <- A1, <- A2.
          pose proof (b_fields_items true items [] A4 A5 A6) as Gi; cbn [app] in Gi; rewrite Gi; clear Gi. cbn [app]. now rewrite values_items, A3. }
      destruct G as (kys & -> & K & S & G). apply by_buf.
      + intros a. rewrite read_tagged. cbn [r_node]. rewrite (tagged_at_rt fuel tag n kys a Pt0 K S D). cbn [o_bind]. now rewrite G.
      + intros own. rewrite read_tagged. cbn [r_buf]. rewrite (b_tagged_rt tag n kys Pt0 Nn K). exact G.
      + intros l0. rewrite read_tagged. reflexivity.
      + intros _. apply not_null_coll.
  Qed.
End RT.

Lemma read_back t v s y fuel : carried t v -> emit t v = Some s -> ser s = Some y -> depth y <= fuel ->
  read_yaml fuel t y = Done v [].
Proof. intros C E S D. destruct (round_trip fuel t v s y E C S D) as (N & _). apply N. Qed.
Lemma read_back_pretty t v s y fuel : carried t v -> emit t v = Some s -> ser s = Some y -> long_ok false y -> depth y <= fuel ->
  outcome_of (read_yaml fuel t (pretty y)) = Done v [].
Proof.
  intros C E S L D. rewrite served_read_pretty by (eauto using ser_served). now rewrite (read_back t v s y fuel C E S D).
Qed.
