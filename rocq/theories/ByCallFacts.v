(** Insertions whose value comes from a closure. *)
From Verif Require Import Base Ast Strings Path Insert InsertFacts Spec_Insert InsertFacts2 InsertFacts3 InsertFacts4
  InsertFacts5 ByCall Spec_ByCall.
Import ListNotations.

(** ---- a pure closure ---- *)

Section Pure.
  Context {S : Type} (f : list hashdata -> str -> option nat -> nat * list hashdata)
    (fb : list hashdata -> str -> option nat -> S -> nat * list hashdata * S).
  Hypothesis Hf : forall d k i s, fst (fb d k i s) = f d k i.

  Lemma all_loop_pure {X} (g : X -> option (nat * X)) (gb : X -> option (S -> nat * X * S)) l :
    (forall x, match gb x, g x with Some st, Some r => forall s, fst (st s) = r | None, None => True | _, _ => False end) ->
    forall acc s, fst (all_loop_by gb acc l s) = all_loop Nat.add g acc l.
  Proof.
    intros H. induction l as [|x l IH]; intros acc s; [reflexivity|]. cbn [all_loop_by all_loop].
    specialize (H x). destruct (gb x) as [st|], (g x) as [[a x']|]; try contradiction.
    - specialize (H s). destruct (st s) as [[a1 x1] s1]. cbn [fst] in H. injection H as -> ->.
      rewrite <- (IH _ s1). now destruct (all_loop_by gb _ l s1) as [[b l2] s2].
    - rewrite <- (IH _ s). now destruct (all_loop_by gb _ l s) as [[b l2] s2].
  Qed.

  Lemma idx_loop_pure {X L} (get : nat -> L -> option X) set (g : X -> option (nat * X)) (gb : X -> option (S -> nat * X * S)) is_ :
    (forall x, match gb x, g x with Some st, Some r => forall s, fst (st s) = r | None, None => True | _, _ => False end) ->
    forall acc l s, fst (idx_loop_by get set gb is_ acc l s) = idx_loop Nat.add get set g is_ acc l.
  Proof.
    intros H. induction is_ as [|i is_ IH]; intros acc l s; [reflexivity|]. cbn [idx_loop_by idx_loop].
    destruct (get i l) as [x|]; [|apply IH].
    specialize (H x). destruct (gb x) as [st|], (g x) as [[a x']|]; try contradiction; [|apply IH].
    specialize (H s). destruct (st s) as [[a1 x1] s1]. cbn [fst] in H. injection H as -> ->. apply IH.
  Qed.

  Lemma edit_pure p : forall y s, fst (edit_hash_by fb p y s) = edit_hash f p y.
  Proof.
    induction p as [cs|k cs rest IH|cs rest IH|is_ cs rest IH] using path_ind'; intros y s.
    - reflexivity.
    - cbn [edit_hash_by edit_hash]. destruct (fits_conditions y cs); [|reflexivity].
      destruct y; try reflexivity. destruct rest as [o|].
      + destruct (key_index l k) as [i|]; [|reflexivity]. destruct (nth_error l i) as [[c|c|e]|]; try reflexivity.
        unfold edit_value_by, edit_value. cbn in IH. rewrite <- (IH _ s).
        now destruct (edit_hash_by fb o (a_value (he_value e)) s) as [[n v] s'].
      + rewrite <- (Hf _ _ _ s). now destruct (fb l k (key_index l k) s) as [[n d] s'].
    - destruct rest as [o|]; [|reflexivity]. cbn [edit_hash_by edit_hash]. cbn in IH.
      destruct y; try reflexivity.
      + match goal with |- context [all_loop_by ?gb 0 l s] => match goal with |- context [all_loop Nat.add ?g 0 l] =>
          rewrite <- (all_loop_pure g gb l) with (s := s) end end.
        * now destruct (all_loop_by _ 0 l s) as [[n v] s'].
        * intros x. destruct (fits_conditions x cs); auto.
      + match goal with |- context [all_loop_by ?gb 0 l s] => match goal with |- context [all_loop Nat.add ?g 0 l] =>
          rewrite <- (all_loop_pure g gb l) with (s := s) end end.
        * now destruct (all_loop_by _ 0 l s) as [[n v] s'].
        * intros [c|c|a]; auto. unfold edit_value_by, edit_value. destruct (fits_conditions (a_value a) cs); auto.
          specialize (IH (a_value a)). destruct (edit_hash f o (a_value a)) as [n v].
          intros s0. specialize (IH s0). destruct (edit_hash_by fb o (a_value a) s0) as [[n1 v1] s1].
          cbn [fst] in *. now injection IH as -> ->.
    - destruct rest as [o|]; [|reflexivity]. cbn [edit_hash_by edit_hash]. cbn in IH.
      destruct y; try reflexivity.
      + match goal with |- context [idx_loop_by ?get ?set ?gb is_ 0 l s] => match goal with |- context [idx_loop Nat.add _ _ ?g is_ 0 l] =>
          rewrite <- (idx_loop_pure get set g gb is_) with (s := s) end end.
        * now destruct (idx_loop_by _ _ _ _ 0 l s) as [[n v] s'].
        * intros x. destruct (fits_conditions x cs); auto.
      + match goal with |- context [idx_loop_by ?get ?set ?gb is_ 0 l s] => match goal with |- context [idx_loop Nat.add _ _ ?g is_ 0 l] =>
          rewrite <- (idx_loop_pure get set g gb is_) with (s := s) end end.
        * now destruct (idx_loop_by _ _ _ _ 0 l s) as [[n v] s'].
        * intros a. unfold edit_value_by, edit_value. destruct (fits_conditions (a_value a) cs); auto.
          specialize (IH (a_value a)). destruct (edit_hash f o (a_value a)) as [n v].
          intros s0. specialize (IH s0). destruct (edit_hash_by fb o (a_value a) s0) as [[n1 v1] s1].
          cbn [fst] in *. now injection IH as -> ->.
  Qed.
End Pure.

Lemma by_call_pure {S} p v ow y (h : S -> aliased * S) s : (forall s, fst (h s) = v) ->
  fst (insert_into_hash_by_call p h ow y s) = insert_into_hash p v ow y.
Proof.
  intros H. unfold insert_into_hash_by_call, insert_into_hash. apply edit_pure.
  intros d k i s0. unfold by_call_f, insert_f. rewrite <- (H s0). destruct (h s0) as [v0 s1].
  destruct i; [destruct ow|]; reflexivity.
Qed.

(** ---- the calls ---- *)

Section Calls.
  Context {S : Type} (h : S -> aliased * S).

  Lemma answers_app n : forall m s, answers h (n + m) s =
    (fst (answers h n s) ++ fst (answers h m (snd (answers h n s))), snd (answers h m (snd (answers h n s)))).
  Proof.
    induction n as [|n IH]; intros m s.
    - cbn. now destruct (answers h m s).
    - cbn [Nat.add answers]. destruct (h s) as [v s1]. rewrite IH.
      destruct (answers h n s1) as [vs s2]. reflexivity.
  Qed.

  Lemma answers_length n : forall s, length (fst (answers h n s)) = n.
  Proof.
    induction n as [|n IH]; intros s; [reflexivity|]. cbn [answers]. destruct (h s) as [v s1].
    specialize (IH s1). destruct (answers h n s1) as [vs s2]. cbn in *. lia.
  Qed.

  (** Flat inline values are left alone. *)
  Lemma edit_by_flat fb p y : flat_inline y = true -> forall s : S, edit_hash_by fb p y s = (0, y, s).
  Proof.
    revert y; induction p as [cs|k cs rest IH|cs rest IH|is_ cs rest IH] using path_ind'; intros y Hy s.
    - reflexivity.
    - cbn. destruct (fits_conditions y cs); [|reflexivity]. destruct y; try reflexivity; discriminate.
    - destruct rest as [o|]; [|reflexivity]. cbn [edit_hash_by]. destruct y; try reflexivity; try discriminate.
      cbn in Hy. rewrite forallb_forall in Hy. cbn in IH.
      match goal with |- context [all_loop_by ?g 0 l s] => assert (E : all_loop_by g 0 l s = (0, l, s)) end; [|now rewrite E].
      induction l as [|x l IHl]; [reflexivity|]. cbn [all_loop_by].
      destruct (fits_conditions x cs).
      + rewrite IH by (apply Hy; now left). cbn [Nat.add]. rewrite IHl; [reflexivity|]. intros; apply Hy; now right.
      + rewrite IHl; [reflexivity|]. intros; apply Hy; now right.
    - destruct rest as [o|]; [|reflexivity]. cbn [edit_hash_by]. destruct y; try reflexivity; try discriminate.
      cbn in Hy. rewrite forallb_forall in Hy. cbn in IH.
      match goal with |- context [idx_loop_by ?a ?b ?g is_ 0 l s] =>
        assert (E : idx_loop_by a b g is_ 0 l s = (0, l, s)) end; [|now rewrite E].
      induction is_ as [|i is_ IHi]; [reflexivity|]. cbn [idx_loop_by].
      destruct (nth_error l i) as [x|] eqn:Ex; [|assumption].
      destruct (fits_conditions x cs); [|assumption].
      rewrite IH by (apply Hy; eapply nth_error_In; eassumption). cbn [Nat.add].
      now rewrite (set_nth_same _ _ _ Ex).
  Qed.

  Theorem by_call_calls ow steps k cs : forall y s, inline_ok y = true ->
    snd (insert_into_hash_by_call (path_of (steps ++ [SKey k cs])) h ow y s)
    = snd (answers h (length (targets steps cs y)) s).
  Proof.
    unfold insert_into_hash_by_call, targets.
    induction steps as [|st r IH]; intros y s Hy.
    - cbn [app path_of nodes edit_hash_by filter]. rewrite fits_satisfies.
      destruct y; try (destruct (satisfies_b _ cs); reflexivity). cbn [is_block_hash andb].
      destruct (satisfies_b _ cs); [|reflexivity]. cbn [length answers]. unfold by_call_f.
      destruct (h s) as [v s1]. destruct (key_index l k); [destruct ow|]; reflexivity.
    - cbn [app]. rewrite path_of_cons_app. cbn zeta. set (o := path_of (r ++ [SKey k cs])) in *.
      destruct st as [k0 cs0|i cs0|cs0]; cbn [edit_hash_by nodes].
      + rewrite fits_satisfies. destruct y; try (destruct (satisfies_b _ cs0); reflexivity).
        destruct (satisfies_b _ cs0); [|reflexivity].
        pose proof (key_index_first_value l k0) as Hk. destruct (key_index l k0) as [i|]; [|now rewrite Hk].
        destruct Hk as (e & He & _ & Hv). rewrite He, Hv.
        rewrite <- IH by (eapply inline_ok_first; eassumption).
        unfold edit_value_by. destruct (edit_hash_by _ o (a_value (he_value e)) s) as [[n v] s1]; reflexivity.
      + destruct y; try reflexivity.
        * pose proof (edit_by_flat (by_call_f h ow) (PIdx [i] cs0 (Some o)) (InlineArray l) Hy s) as E.
          cbn [edit_hash_by] in E. now rewrite E.
        * cbn [idx_loop_by]. pose proof (get_elem_elements i l) as Hg. destruct (get_elem i l) as [a|].
          -- rewrite Hg. rewrite fits_satisfies. destruct (satisfies_b _ cs0); [|reflexivity].
             rewrite <- IH by (eapply inline_ok_elem; [eassumption|]; eapply nth_error_In; eassumption).
             unfold edit_value_by. destruct (edit_hash_by _ o (a_value a) s) as [[n v] s1]; reflexivity.
          -- rewrite Hg. reflexivity.
      + destruct y; try reflexivity.
        * pose proof (edit_by_flat (by_call_f h ow) (PAll cs0 (Some o)) (InlineArray l) Hy s) as E.
          cbn [edit_hash_by] in E. now rewrite E.
        * assert (He : forall v, In v (elements l) -> inline_ok v = true) by (intros; eapply inline_ok_elem; eassumption).
          clear Hy.
          match goal with |- context [all_loop_by ?g 0 l s] => set (gg := g) end.
          enough (X : forall acc, snd (all_loop_by gg acc l s) = snd (answers h (length (filter (fun v => is_block_hash v && satisfies_b v cs)
                     (flat_map (fun v => if satisfies_b v cs0 then nodes r v else []) (elements l)))) s)).
          { rewrite <- (X 0). now destruct (all_loop_by gg 0 l s) as [[n v] s1]. }
          revert s. induction l as [|d l IHl]; intros s acc; [reflexivity|].
          cbn [all_loop_by]. destruct d as [c|c|a].
          -- cbn [gg elements]. rewrite <- (IHl He s acc). now destruct (all_loop_by gg acc l s) as [[n v] s1].
          -- cbn [gg elements]. rewrite <- (IHl He s acc). now destruct (all_loop_by gg acc l s) as [[n v] s1].
          -- cbn [elements flat_map]. unfold gg at 1. rewrite fits_satisfies.
             assert (He' : forall v, In v (elements l) -> inline_ok v = true) by (intros; apply He; now right).
             destruct (satisfies_b (a_value a) cs0).
             ++ rewrite filter_app, app_length, answers_app. cbn [snd].
                specialize (IH (a_value a) s (He _ (or_introl eq_refl))). unfold edit_value_by.
                rewrite <- IH. destruct (edit_hash_by _ o (a_value a) s) as [[n v] s1]. cbn [snd].
                rewrite <- (IHl He' s1 (acc + n)). now destruct (all_loop_by gg _ l s1) as [[n1 v1] s2].
             ++ cbn [app]. rewrite <- (IHl He' s acc). now destruct (all_loop_by gg acc l s) as [[n v] s1].
  Qed.

  Theorem by_call_count ow steps k cs : forall y s, inline_ok y = true ->
    fst (fst (insert_into_hash_by_call (path_of (steps ++ [SKey k cs])) h ow y s))
    = length (inserted ow k (targets steps cs y)).
  Proof.
    unfold insert_into_hash_by_call, targets, inserted.
    induction steps as [|st r IH]; intros y s Hy.
    - cbn [app path_of nodes edit_hash_by filter]. rewrite fits_satisfies.
      destruct y; try (destruct (satisfies_b _ cs); reflexivity). cbn [is_block_hash andb].
      destruct (satisfies_b _ cs); [|reflexivity]. cbn [filter field]. unfold by_call_f.
      pose proof (key_index_first_value l k) as Hk.
      destruct (h s) as [v s1]. destruct (key_index l k) as [i|].
      + destruct Hk as (e & _ & _ & Hv). rewrite Hv. destruct ow; reflexivity.
      + rewrite Hk. destruct ow; reflexivity.
    - cbn [app]. rewrite path_of_cons_app. cbn zeta. set (o := path_of (r ++ [SKey k cs])) in *.
      destruct st as [k0 cs0|i cs0|cs0]; cbn [edit_hash_by nodes].
      + rewrite fits_satisfies. destruct y; try (destruct (satisfies_b _ cs0); reflexivity).
        destruct (satisfies_b _ cs0); [|reflexivity].
        pose proof (key_index_first_value l k0) as Hk. destruct (key_index l k0) as [i|]; [|now rewrite Hk].
        destruct Hk as (e & He & _ & Hv). rewrite He, Hv.
        rewrite <- (IH _ s) by (eapply inline_ok_first; eassumption).
        unfold edit_value_by. destruct (edit_hash_by _ o (a_value (he_value e)) s) as [[n v] s1]; reflexivity.
      + destruct y; try reflexivity.
        * pose proof (edit_by_flat (by_call_f h ow) (PIdx [i] cs0 (Some o)) (InlineArray l) Hy s) as E.
          cbn [edit_hash_by] in E. now rewrite E.
        * cbn [idx_loop_by]. pose proof (get_elem_elements i l) as Hg. destruct (get_elem i l) as [a|].
          -- rewrite Hg. rewrite fits_satisfies. destruct (satisfies_b _ cs0); [|reflexivity].
             rewrite <- (IH _ s) by (eapply inline_ok_elem; [eassumption|]; eapply nth_error_In; eassumption).
             unfold edit_value_by. destruct (edit_hash_by _ o (a_value a) s) as [[n v] s1]; reflexivity.
          -- rewrite Hg. reflexivity.
      + destruct y; try reflexivity.
        * pose proof (edit_by_flat (by_call_f h ow) (PAll cs0 (Some o)) (InlineArray l) Hy s) as E.
          cbn [edit_hash_by] in E. now rewrite E.
        * assert (He : forall v, In v (elements l) -> inline_ok v = true) by (intros; eapply inline_ok_elem; eassumption).
          clear Hy.
          match goal with |- context [all_loop_by ?g 0 l s] => set (gg := g) end.
          match goal with |- _ = length (filter ?f1 (filter ?f2 _)) => set (p1 := f1) in *; set (p2 := f2) in * end.
          enough (X : forall acc, fst (fst (all_loop_by gg acc l s)) = acc + length (filter p1 (filter p2
                     (flat_map (fun v => if satisfies_b v cs0 then nodes r v else []) (elements l))))).
          { specialize (X 0). cbn [Nat.add] in X. rewrite <- X. now destruct (all_loop_by gg 0 l s) as [[n v] s1]. }
          revert s. induction l as [|d l IHl]; intros s acc; [cbn; lia|].
          cbn [all_loop_by]. destruct d as [c|c|a].
          -- cbn [gg elements]. rewrite <- (IHl He s acc). now destruct (all_loop_by gg acc l s) as [[n v] s1].
          -- cbn [gg elements]. rewrite <- (IHl He s acc). now destruct (all_loop_by gg acc l s) as [[n v] s1].
          -- cbn [elements flat_map]. unfold gg at 1. rewrite fits_satisfies.
             assert (He' : forall v, In v (elements l) -> inline_ok v = true) by (intros; apply He; now right).
             destruct (satisfies_b (a_value a) cs0).
             ++ rewrite !filter_app, app_length.
                specialize (IH (a_value a) s (He _ (or_introl eq_refl))). unfold edit_value_by.
                rewrite <- IH. destruct (edit_hash_by _ o (a_value a) s) as [[n v] s1]. cbn [fst].
                rewrite Nat.add_assoc. rewrite <- (IHl He' s1 (acc + n)). now destruct (all_loop_by gg _ l s1) as [[n1 v1] s2].
             ++ cbn [app]. rewrite <- (IHl He' s acc). now destruct (all_loop_by gg acc l s) as [[n v] s1].
  Qed.

  Lemma combine_app {A B} (l1 l2 : list A) (m1 m2 : list B) : length l1 = length m1 ->
    combine (l1 ++ l2) (m1 ++ m2) = combine l1 m1 ++ combine l2 m2.
  Proof.
    revert m1; induction l1 as [|x l1 IH]; intros [|z m1] E; try discriminate; [reflexivity|].
    cbn. f_equal. apply IH. now injection E.
  Qed.

  Theorem by_call_values ow steps k : forall y s, inline_ok y = true -> cond_free steps ->
    nodes (steps ++ [SKey k []]) (snd (fst (insert_into_hash_by_call (path_of (steps ++ [SKey k []])) h ow y s)))
    = map (filled ow k) (combine (targets steps [] y) (fst (answers h (length (targets steps [] y)) s))).
  Proof.
    intros y s Hy Hc. unfold insert_into_hash_by_call, targets.
    revert y s Hy; induction Hc as [|st r Hs Hc IH]; intros y s Hy.
    - cbn [app path_of nodes edit_hash_by filter fits_conditions forallb].
      destruct y; try reflexivity. cbn [is_block_hash andb]. rewrite !satisfies_b_nil. unfold by_call_f.
      cbn [length answers]. destruct (h s) as [v s1]. cbn [fst combine map]. unfold filled. cbn [fst snd field].
      pose proof (key_index_first_value l k) as Hk. destruct (key_index l k) as [i|] eqn:Ei.
      + destruct Hk as (e & He & _ & Hv). rewrite Hv. destruct ow; cbn [fst snd].
        * now rewrite (first_value_set_nth _ _ _ _ Ei).
        * now rewrite Hv.
      + rewrite Hk. cbn [fst snd]. rewrite first_value_app_none by assumption. cbn. now rewrite seqb_refl.
    - cbn [app]. rewrite path_of_cons_app. cbn zeta. set (o := path_of (r ++ [SKey k []])) in *.
      destruct st as [k0 cs0|i cs0|cs0]; cbn in Hs; subst cs0; cbn [edit_hash_by fits_conditions forallb].
      + destruct y; try reflexivity.
        pose proof (key_index_first_value l k0) as Hk. destruct (key_index l k0) as [i|] eqn:Ei.
        * destruct Hk as (e & He & Hke & Hv). rewrite He.
          specialize (IH (a_value (he_value e)) s (inline_ok_first _ _ _ Hy Hv)).
          unfold edit_value_by. destruct (edit_hash_by _ o (a_value (he_value e)) s) as [[n v] s1]. cbn [fst snd] in *.
          cbn [nodes]. rewrite !satisfies_b_nil, Hv. subst k0.
          rewrite (first_value_set_nth _ _ _ _ Ei). exact IH.
        * cbn [snd fst nodes]. rewrite Hk, satisfies_b_nil. reflexivity.
      + destruct y; try reflexivity.
        * pose proof (edit_by_flat (by_call_f h ow) (PIdx [i] [] (Some o)) (InlineArray l) Hy s) as E.
          cbn [edit_hash_by fits_conditions forallb] in E. rewrite E. reflexivity.
        * cbn [idx_loop_by]. pose proof (get_elem_elements i l) as Hg. destruct (get_elem i l) as [a|] eqn:Ea.
          -- specialize (IH (a_value a) s). rewrite (fun H => inline_ok_elem _ _ Hy (nth_error_In _ _ H)) in IH by eassumption.
             unfold edit_value_by. destruct (edit_hash_by _ o (a_value a) s) as [[n v] s1]. cbn [fst snd nodes Nat.add] in *.
             rewrite (elements_set_elem _ _ _ _ Ea), Hg. cbn [a_value]. rewrite !satisfies_b_nil. now apply IH.
          -- cbn [fst snd nodes]. rewrite Hg. reflexivity.
      + destruct y; try reflexivity.
        * pose proof (edit_by_flat (by_call_f h ow) (PAll [] (Some o)) (InlineArray l) Hy s) as E.
          cbn [edit_hash_by fits_conditions forallb] in E. rewrite E. reflexivity.
        * match goal with |- context [all_loop_by ?g 0 l s] => set (gg := g) end.
          assert (He : forall v, In v (elements l) -> inline_ok v = true) by (intros; eapply inline_ok_elem; eassumption).
          clear Hy. cbn [nodes].
          enough (X : forall acc, flat_map (fun v => if satisfies_b v [] then nodes (r ++ [SKey k []]) v else [])
                        (elements (snd (fst (all_loop_by gg acc l s))))
                      = map (filled ow k) (combine (filter (fun v => is_block_hash v && satisfies_b v [])
                         (flat_map (fun v => if satisfies_b v [] then nodes r v else []) (elements l)))
                       (fst (answers h (length (filter (fun v => is_block_hash v && satisfies_b v [])
                         (flat_map (fun v => if satisfies_b v [] then nodes r v else []) (elements l)))) s)))).
          { rewrite <- (X 0). now destruct (all_loop_by gg 0 l s) as [[n v] s1]. }
          revert s. induction l as [|d l IHl]; intros s acc; [reflexivity|].
          cbn [all_loop_by]. destruct d as [c|c|a].
          -- cbn [gg elements]. rewrite <- (IHl He s acc). now destruct (all_loop_by gg acc l s) as [[n v] s1].
          -- cbn [gg elements]. rewrite <- (IHl He s acc). now destruct (all_loop_by gg acc l s) as [[n v] s1].
          -- cbn [elements flat_map]. unfold gg at 1. cbn [fits_conditions forallb].
             assert (He' : forall v, In v (elements l) -> inline_ok v = true) by (intros; apply He; now right).
             pose proof (by_call_calls ow r k [] (a_value a) s (He _ (or_introl eq_refl))) as Q.
             unfold insert_into_hash_by_call, targets in Q. fold o in Q.
             specialize (IH (a_value a) s (He _ (or_introl eq_refl))). unfold edit_value_by.
             destruct (edit_hash_by _ o (a_value a) s) as [[n v] s1]. cbn [fst snd] in *.
             specialize (IHl He' s1 (acc + n)).
             destruct (all_loop_by gg _ l s1) as [[n1 v1] s2]. cbn [fst snd elements flat_map a_value] in *.
             rewrite (satisfies_b_nil (a_value a)), (satisfies_b_nil v). rewrite IH, IHl.
             rewrite filter_app, app_length, answers_app. cbn [fst]. rewrite <- Q.
             rewrite combine_app by (now rewrite answers_length). now rewrite map_app.
  Qed.

  (** Whole documents: the roots one after the other. *)
  Theorem by_call_doc ow steps k cs d s : (forall y, In (DYaml y) (items d) -> inline_ok y = true) ->
    snd (insert_into_hash_by_call_doc (path_of (steps ++ [SKey k cs])) h ow d s)
      = snd (answers h (length (flat_map (targets steps cs) (roots d))) s) /\
    fst (fst (insert_into_hash_by_call_doc (path_of (steps ++ [SKey k cs])) h ow d s))
      = length (inserted ow k (flat_map (targets steps cs) (roots d))).
  Proof.
    unfold insert_into_hash_by_call_doc, roots. destruct d as [ld its]. cbn [items leading]. intros Hd.
    match goal with |- context [all_loop_by ?g 0 its s] => set (gg := g) end.
    enough (X : forall acc, snd (all_loop_by gg acc its s) = snd (answers h (length (flat_map (targets steps cs)
        (flat_map (fun x => match x with DYaml y => [y] | DComment _ => [] end) its))) s) /\
      fst (fst (all_loop_by gg acc its s)) = acc + length (inserted ow k (flat_map (targets steps cs)
        (flat_map (fun x => match x with DYaml y => [y] | DComment _ => [] end) its)))).
    { specialize (X 0). cbn [Nat.add] in X. destruct (all_loop_by gg 0 its s) as [[n v] s1]. exact X. }
    revert s. induction its as [|[c|y] its IH]; intros s acc; [cbn; split; [reflexivity|lia]| |].
    - cbn [all_loop_by flat_map app]. assert (E : gg (DComment c) = None) by reflexivity. rewrite !E.
      specialize (IH (fun y H => Hd y (or_intror H)) s acc).
      destruct (all_loop_by gg _ its s) as [[n1 v1] s2]. exact IH.
    - cbn [all_loop_by flat_map app].
      assert (E : gg (DYaml y) = Some (fun s => let '(n, y', s') := insert_into_hash_by_call (path_of (steps ++ [SKey k cs])) h ow y s in
                                                (n, DYaml y', s'))) by reflexivity. rewrite !E.
      pose proof (by_call_calls ow steps k cs y s (Hd _ (or_introl eq_refl))) as Q.
      pose proof (by_call_count ow steps k cs y s (Hd _ (or_introl eq_refl))) as Q2.
      destruct (insert_into_hash_by_call _ h ow y s) as [[n v] s1]. cbn [fst snd] in *.
      specialize (IH (fun y H => Hd y (or_intror H)) s1 (acc + n)).
      destruct (all_loop_by gg _ its s1) as [[n1 v1] s2]. cbn [fst snd] in *.
      rewrite app_length, answers_app. cbn [snd]. rewrite <- Q. unfold inserted in *. rewrite filter_app, app_length, <- Q2.
      destruct IH as [-> ->]. split; [reflexivity|lia].
  Qed.
End Calls.
