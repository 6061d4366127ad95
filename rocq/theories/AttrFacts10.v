(** Types with serde attributes: without references a run of as many steps as the node is
    deep comes to an end. *)
From Coq Require Import ZArith Lia.
From Verif Require Import Base Ast Strings Format Num Pretty Ser De Attr Spec_Serde Spec_Look LookFacts LookFacts2 Spec_Typed TypedFacts2
  Spec_Attr AttrFacts AttrFacts2 AttrFacts3 AttrFacts7.
Import ListNotations.

Section Ends.
  Context (fuel : nat).
  Definition small (y : yaml) : Prop := no_refs y /\ depth y <= fuel.
  Definition ends {X} (o : outcome X) : Prop := o <> More.
  Definition tot (d : yaml -> anchors -> outcome sval) : Prop := forall y a, small y -> ends (d y a).
  Lemma ends_bind {X Y} (o : outcome X) (f : X -> anchors -> outcome Y) : ends o -> (forall x a, ends (f x a)) -> ends (o_bind o f).
  Proof. intros E H. destruct o; cbn [o_bind]; [apply H|discriminate|now elim E]. Qed.
  Lemma ends_map {X Y} (f : X -> Y) (o : outcome X) : ends o -> ends (o_map f o).
  Proof. intros E. destruct o; cbn [o_map]; [discriminate|discriminate|now elim E]. Qed.
  Lemma ends_of {X} (o : dres X) : ends (of_opt o).
  Proof. destruct o as [[]|]; discriminate. Qed.

  Lemma seq_small y a l a1 : small y -> de_seq_values y a = Some (l, a1) -> Forall small l.
  Proof.
    intros [N D] E. rewrite de_seq_eq, (resolved y a N) in E. pose proof (read_seq_elts y a) as S.
    destruct (elts y) as [vs|] eqn:V; [|congruence]. destruct S as [a2 S]. rewrite S in E. injection E as <- _.
    destruct (elts_facts y vs V N) as (F & _). eapply Forall_impl; [|exact F]. cbn beta. intros v [A B]. split; [exact A|lia].
  Qed.
  Lemma map_small y a l a1 : small y -> de_map_entries y a = Some (l, a1) -> Forall (fun kv => small (snd kv)) l.
  Proof.
    intros [N D] E. rewrite de_map_eq, (resolved y a N) in E. pose proof (read_map_ents y a) as S.
    destruct (ents y) as [vs|] eqn:V; [|congruence]. destruct S as [a2 S]. rewrite S in E. injection E as <- _.
    destruct (ents_facts y vs V N) as (F & _). eapply Forall_impl; [|exact F]. cbn beta. intros v [A B]. split; [exact A|lia].
  Qed.
  Lemma word_small y s : small y -> small (Unquoted s).
  Proof. intros [_ D]. split; [exact I|]. pose proof (depth_pos y). cbn [depth]. lia. Qed.
  Lemma enum_small y a k c a1 : small y -> de_enum_content y a = Some (k, c, a1) -> small c.
  Proof.
    intros S E. pose proof S as [N D]. pose proof (map_small y a) as M. unfold de_enum_content in E. unfold de_map_entries in M.
    rewrite (resolved y a N) in E, M.
    destruct y as [l|l|l|l|ps|ps|s|ls ch|ls ch|s]; cbn [yaml_to_string] in E; try discriminate;
      try (injection E as <- <- <-; now apply (word_small _ (lit "~") S)).
    - destruct l as [|[k' v] [|q l]]; try discriminate. injection E as <- <- <-. specialize (M _ _ S eq_refl). now inversion M.
    - destruct (hash_entries a l) as [es a2]. destruct es as [|[k' v] [|q es]]; try discriminate. injection E as <- <- <-.
      specialize (M _ _ S eq_refl). now inversion M.
  Qed.

  Lemma elems_end d l : tot d -> Forall small l -> forall a, ends (n_elems d l a).
  Proof.
    intros T F. induction F as [|y l H F IH]; intros a; cbn [n_elems]; [discriminate|].
    apply ends_bind; [now apply T|]. intros. now apply ends_map.
  Qed.
  Lemma tuple_end ds : Forall tot ds -> forall l a, Forall small l -> ends (n_tuple ds l a).
  Proof.
    intros T. induction T as [|d ds H T IH]; intros [|y l] a F; cbn [n_tuple]; try discriminate.
    inversion F; subst. apply ends_bind; [now apply H|]. intros. now apply ends_map, IH.
  Qed.
  Lemma entries_end dk dv l : tot dk -> tot dv -> Forall (fun kv => small (snd kv)) l -> forall a, ends (n_entries dk dv l a).
  Proof.
    intros K V F. induction F as [|[k y] l H F IH]; intros a; cbn [n_entries]; [discriminate|].
    apply ends_bind; [apply K; now apply (word_small y)|]. intros. apply ends_bind; [now apply V|]. intros. now apply ends_map.
  Qed.
  Definition xtot (f : xfield) : Prop := tot (r_node (x_read f)).
  Lemma field_end fs : Forall xtot fs -> forall k y a, small y ->
    ends (n_field fs k y a) /\ forall fs1 a1, n_field fs k y a = Done fs1 a1 -> Forall xtot fs1.
  Proof.
    intros T. induction T as [|f fs H T IH]; intros k y a S; cbn [n_field].
    - split; [discriminate|]. intros fs1 a1 E. injection E as <- <-. constructor.
    - destruct (seqb (x_name f) k).
      + destruct (x_val f); [split; discriminate|]. split; [now apply ends_map, H|]. intros fs1 a1 E.
        destruct (r_node (x_read f) y a); try discriminate. cbn [o_map] in E. injection E as <- <-. now constructor.
      + destruct (IH k y a S) as [A B]. split; [now apply ends_map|]. intros fs1 a1 E.
        destruct (n_field fs k y a) as [x b| |]; try discriminate. cbn [o_map] in E. injection E as <- <-. constructor; [exact H|now apply (B x b)].
  Qed.
  Lemma fields_end l : Forall (fun kv => small (snd kv)) l -> forall fs a, Forall xtot fs -> ends (n_fields fs l a).
  Proof.
    intros F. induction F as [|[k y] l H F IH]; intros fs a T; cbn [n_fields]; [discriminate|].
    destruct (field_end fs T k y a H) as [A B]. destruct (n_field fs k y a) as [x b| |]; cbn [o_bind]; [|discriminate|exact A].
    apply IH. now apply (B x b).
  Qed.
  Lemma collect_end l : Forall (fun kv => small (snd kv)) l -> forall fs a, Forall xtot fs -> ends (n_collect (de_any fuel) fs l a).
  Proof.
    intros F. induction F as [|[k y] l H F IH]; intros fs a T; cbn [n_collect]; [discriminate|]. destruct (x_known fs k).
    - destruct (field_end fs T k y a H) as [A B]. destruct (n_field fs k y a) as [x b| |]; cbn [o_bind]; [|discriminate|now elim A].
      apply IH. now apply (B x b).
    - destruct H as [N D]. destruct (any_done fuel y a N D) as [a1 ->]. cbn [o_bind]. now apply ends_map, IH.
  Qed.
  Lemma tagged_end tag y a : small y -> ends (n_tagged fuel tag y a).
  Proof.
    intros [N D]. destruct fuel as [|n] eqn:Ef; [pose proof (depth_pos y); lia|].
    assert (Na : forall m, y <> Anchor m) by (intros m ->; destruct N).
    rewrite tagged_eq by exact Na. unfold tagged_at.
    pose proof (read_map_ents y a) as M. pose proof (read_seq_elts y a) as S.
    destruct (ents y) as [es|] eqn:Ee.
    - destruct M as [a1 ->]. destruct (ents_facts y es Ee N) as (F & _).
      assert (F' : Forall (fun kv => no_refs (snd kv) /\ depth (snd kv) <= n) es).
      { eapply Forall_impl; [|exact F]. cbn beta. intros kv [A B]. split; [exact A|lia]. }
      pose proof (n_tag_look n tag es F' None a1) as G. unfold n_tagged_map.
      destruct (n_tag (de_any n) tag None es a1) as [[[m|] cs] a2| |]; cbn [o_bind]; try discriminate.
      cbn [outcome_of] in G. destruct (tag_look _ _ _); discriminate.
    - rewrite M. destruct (elts y) as [vs|] eqn:Ev; [|rewrite S; discriminate]. destruct S as [a1 ->].
      destruct (elts_facts y vs Ev N) as (F & _). destruct vs as [|v vs]; [discriminate|]. cbn [n_tagged_seq].
      destruct (de_text v a1); [|discriminate]. apply ends_map. inversion F as [|? ? _ F']; subst. clear - F' D.
      assert (F : Forall (fun v => no_refs v /\ depth v <= n) vs).
      { eapply Forall_impl; [|exact F']. cbn beta. intros w [A B]. split; [exact A|lia]. }
      clear F'. revert a1. induction F as [|w vs [N Dw] F IH]; intros a; cbn [any_list]; [discriminate|].
      destruct (any_done n w a N Dw) as [a1 ->]. cbn [o_bind]. now apply ends_map.
  Qed.

  Lemma xtots (fs : list (str * xty)) : Forall (fun nt => tot (r_node (read fuel (snd nt)))) fs ->
    Forall xtot (map (fun f => match f with (n, t) => mkX n (read fuel t) (is_xoption t) None end) fs).
  Proof. intros H. induction H as [|[n t] fs H Hs IH]; cbn; constructor; assumption. Qed.
  Lemma own_tots fs : Forall (fun nt => tot (r_node (read fuel (snd (snd nt))))) fs -> Forall xtot (own_fields fuel fs).
  Proof.
    intros H. unfold own_fields. induction H as [|[n [[] t]] fs H Hs IH]; cbn; [constructor|exact IH|]. constructor; assumption.
  Qed.
  Lemma tup_tots ts : Forall (fun t => tot (r_node (read fuel t))) ts -> Forall tot (map r_node (map (read fuel) ts)).
  Proof. intros H. induction H; cbn; constructor; assumption. Qed.
  Lemma variant_end n v y a : xv_P (fun t => tot (r_node (read fuel t))) v -> small y -> ends (n_variant n (rvar fuel v) y a).
  Proof.
    intros P S. destruct v as [|t|ts|fs]; cbn [rvar n_variant xv_P] in *.
    - discriminate.
    - now apply ends_map, P.
    - destruct (de_seq_values y a) as [[l a1]|] eqn:E; [|discriminate]. apply ends_map, tuple_end; [now apply tup_tots|].
      exact (seq_small y a l a1 S E).
    - destruct (de_map_entries y a) as [[l a1]|] eqn:E; [|discriminate]. apply ends_bind.
      + apply fields_end; [exact (map_small y a l a1 S E)|now apply xtots].
      + intros x b. destruct (opt_map x_value x); discriminate.
  Qed.
  Lemma pick_in {A} (l : list (str * A)) n v : pick l n = Some v -> In (n, v) l.
  Proof.
    induction l as [|[m x] l IH]; cbn [pick]; [discriminate|]. destruct (seqb m n) eqn:E; [|intros H; right; auto].
    apply seqb_eq in E. subst m. intros H. injection H as ->. now left.
  Qed.

  Lemma read_end t : tot (r_node (read fuel t)).
  Proof.
    induction t using xty_ind'; intros y a S; try (cbn [read r_node]; first [apply ends_of|discriminate]).
    - cbn [read r_node]. destruct (de_text y a) as [[|c [|]]|]; discriminate.
    - cbn [read r_node]. destruct (de_text y a); discriminate.
    - cbn [read r_node]. pose proof S as [N _]. rewrite (resolved y a N).
      assert (G : ends (o_map SSome (r_node (read fuel t) y a))) by now apply ends_map, IHt.
      destruct y; try exact G. destruct (is_null_word s); [discriminate|exact G].
    - cbn [read r_node]. now apply ends_map, IHt.
    - cbn [read r_node]. destruct (de_seq_values y a) as [[l a1]|] eqn:E; [|discriminate]. apply ends_map, elems_end; [exact IHt|].
      exact (seq_small y a l a1 S E).
    - cbn [read r_node]. destruct (de_seq_values y a) as [[l a1]|] eqn:E; [|discriminate]. apply ends_map, tuple_end; [now apply tup_tots|].
      exact (seq_small y a l a1 S E).
    - cbn [read r_node]. destruct (de_map_entries y a) as [[l a1]|] eqn:E; [|discriminate].
      apply ends_map, entries_end; [exact IHt1|exact IHt2|exact (map_small y a l a1 S E)].
    - rewrite read_struct. pose proof (own_tots fs H) as O. destruct (flattens fs); cbn [r_node];
        (destruct (de_map_entries y a) as [[l a1]|] eqn:E; [|discriminate]); pose proof (map_small y a l a1 S E) as F; apply ends_bind.
      + now apply collect_end.
      + intros x b. destruct (finish _ _ x); discriminate.
      + now apply fields_end.
      + intros x b. destruct (opt_map x_value x); discriminate.
    - rewrite read_enum. cbn [r_node]. destruct (de_enum_content y a) as [[[k c] a1]|] eqn:E; [|discriminate].
      destruct (pick (rvars fuel vs) k) as [v|] eqn:P; [|discriminate]. apply pick_in in P. unfold rvars in P.
      apply in_map_iff in P as ([k' v'] & Q & I). injection Q as <- <-. rewrite Forall_forall in H.
      apply variant_end; [exact (H _ I)|exact (enum_small y a k' c a1 S E)].
    - rewrite read_untagged. cbn [r_node]. destruct S as [N D]. destruct (any_done fuel y a N D) as [a1 ->]. cbn [o_bind].
      destruct (first_of _ _); discriminate.
    - rewrite read_tagged. cbn [r_node]. apply ends_bind; [now apply tagged_end|]. intros x b. destruct (t_variant _ x); discriminate.
  Qed.
End Ends.

Lemma read_ends fuel t y : no_refs y -> depth y <= fuel -> read_yaml fuel t y <> More.
Proof. intros N D. apply read_end. now split. Qed.
