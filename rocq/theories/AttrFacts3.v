(** Facts about written trees: what an untyped reader makes of them, and pretty printing. *)
From Coq Require Import ZArith Lia.
From Verif Require Import Base Ast Strings Format Num Pretty Spec_Pretty PrettyFacts Ser De Attr Spec_Attr Spec_Serde Spec_Look
  LookFacts LookFacts2 SerdeFacts SerdeFacts2 TextFacts2 AttrFacts AttrFacts2.
Import ListNotations.

(** What the serializer builds. *)
Inductive served : yaml -> Prop :=
| sv_unq s : served (Unquoted s)
| sv_str s : served (str_to_yaml s)
| sv_seq ys : Forall served ys -> served (seq_yaml ys)
| sv_inl ys : Forall served ys -> served (InlineArray ys)
| sv_map kys : Forall (fun kv => served (snd kv)) kys -> served (map_yaml_of kys).

Section ServedInd.
  Context (P : yaml -> Prop) (Pu : forall s, P (Unquoted s)) (Ps : forall s, P (str_to_yaml s))
    (Pq : forall ys, Forall P ys -> P (seq_yaml ys)) (Pi : forall ys, Forall P ys -> P (InlineArray ys))
    (Pm : forall kys : list (str * yaml), Forall (fun kv => P (snd kv)) kys -> P (map_yaml_of kys)).
  Fixpoint served_ind' (y : yaml) (s : served y) : P y :=
    match s in served y return P y with
    | sv_unq s => Pu s
    | sv_str s => Ps s
    | sv_seq ys F => Pq ys ((fix go ys (F : Forall served ys) : Forall P ys :=
        match F in Forall _ ys return Forall P ys with
        | Forall_nil _ => Forall_nil _ | Forall_cons y s F => Forall_cons _ (served_ind' y s) (go _ F) end) ys F)
    | sv_inl ys F => Pi ys ((fix go ys (F : Forall served ys) : Forall P ys :=
        match F in Forall _ ys return Forall P ys with
        | Forall_nil _ => Forall_nil _ | Forall_cons y s F => Forall_cons _ (served_ind' y s) (go _ F) end) ys F)
    | sv_map kys F => Pm kys ((fix go kys (F : Forall (fun kv => served (snd kv)) kys) : Forall (fun kv => P (snd kv)) kys :=
        match F in Forall _ kys return Forall (fun kv => P (snd kv)) kys with
        | Forall_nil _ => Forall_nil _ | Forall_cons kv s F => Forall_cons _ (served_ind' (snd kv) s) (go _ F) end) kys F)
    end.
End ServedInd.

Lemma opt_map_Forall {A B} (f : A -> option B) (Q : B -> Prop) l m : opt_map f l = Some m ->
  Forall (fun x => forall y, f x = Some y -> Q y) l -> Forall Q m.
Proof.
  revert m. induction l as [|x l IH]; cbn; intros m E H; [injection E as <-; constructor|].
  destruct (f x) as [y|] eqn:F; [|discriminate]. destruct (opt_map f l) as [ys|]; [|discriminate]. injection E as <-.
  inversion H; subst. constructor; auto.
Qed.

Lemma ser_served s : forall y, ser s = Some y -> served y.
Proof.
  induction s using sval_ind'; intros y E; cbn [ser] in E; try (injection E as <-); try constructor; auto.
  - apply Forall_forall. intros x Hx. apply in_map_iff in Hx as (b & <- & _). constructor.
  - destruct (opt_map ser l) as [ys|] eqn:O; [|discriminate]. injection E as <-. constructor. eapply opt_map_Forall; eauto.
  - destruct (opt_map ser l) as [ys|] eqn:O; [|discriminate]. injection E as <-. constructor. eapply opt_map_Forall; eauto.
  - destruct (opt_map _ l) as [ys|] eqn:O; [|discriminate]. injection E as <-. constructor.
    eapply opt_map_Forall; [exact O|]. eapply Forall_impl; [|exact H]. cbn. intros [k v] [_ V] [k' z] F. cbn in V |- *.
    destruct (ser k); [|discriminate]. destruct (yaml_to_key_string _); [|discriminate].
    destruct (ser v); [|discriminate]. injection F as <- <-. auto.
  - destruct (opt_map _ l) as [ys|] eqn:O; [|discriminate]. injection E as <-. constructor.
    eapply opt_map_Forall; [exact O|]. eapply Forall_impl; [|exact H]. cbn. intros [k v] V [k' z] F. cbn in V |- *.
    destruct (ser v); [|discriminate]. injection F as <- <-. auto.
  - destruct (opt_map ser l) as [ys|] eqn:O; [|discriminate]. injection E as <-. constructor. eapply opt_map_Forall; eauto.
  - destruct (opt_map _ l) as [ys|] eqn:O; [|discriminate]. injection E as <-. constructor.
    eapply opt_map_Forall; [exact O|]. eapply Forall_impl; [|exact H]. cbn. intros [k v] V [k' z] F. cbn in V |- *.
    destruct (ser v); [|discriminate]. injection F as <- <-. auto.
Qed.

(** What an untyped reader makes of it. *)
Fixpoint content (y : yaml) : anyv :=
  match y with
  | Unquoted s => any_unquoted s
  | DoubleQ ps => AnStr (parse_double_quoted ps)
  | Literal ls c => AnStr (parse_literal ls c)
  | Folded ls c => AnStr (parse_folded ls c)
  | SingleQ ps => AnStr (parse_single_quoted ps)
  | InlineHash l => AnMap (map (fun kv => match kv with (k, v) => (any_unquoted k, content v) end) l)
  | Hash l => AnMap (flat_map (fun d => match d with HElem (mkHE k (mkA _ v)) => [(any_unquoted k, content v)] | _ => [] end) l)
  | InlineArray l => AnSeq (map content l)
  | Array l => AnSeq (flat_map (fun d => match d with AElem (mkA _ v) => [content v] | _ => [] end) l)
  | Anchor _ => AnUnit
  end.
Lemma content_seq ys : content (seq_yaml ys) = AnSeq (map content ys).
Proof. unfold seq_yaml. cbn [content]. f_equal. induction ys as [|y ys IH]; cbn; [reflexivity|]. now rewrite IH. Qed.
Lemma content_map kys : content (map_yaml_of kys) = AnMap (map (fun kv => (any_unquoted (fst kv), content (snd kv))) kys).
Proof. unfold map_yaml_of. cbn [content]. f_equal. induction kys as [|[k y] ys IH]; cbn; [reflexivity|]. now rewrite IH. Qed.
Lemma content_str s : not_null_text s -> content (str_to_yaml s) = AnStr s.
Proof.
  intros [A B]. pose proof (str_to_yaml_value s) as V. pose proof (unquoted_not_special s) as U.
  assert (Hk : match str_to_yaml s with Unquoted t => t = s | SingleQ _ | DoubleQ _ => True | _ => False end).
  { unfold str_to_yaml. destruct (negb _); [reflexivity|]. destruct (_ && _); [destruct (_ && _)|]; exact I. }
  destruct (str_to_yaml s); try contradiction; cbn [content as_string] in *; try congruence.
  subst. now apply U.
Qed.

Lemma depth_seq ys : depth (seq_yaml ys) = S (fold_right (fun y n => Nat.max (depth y) n) 0 ys).
Proof. unfold seq_yaml. cbn [depth]. f_equal. induction ys as [|y ys IH]; cbn; [reflexivity|]. now rewrite IH. Qed.
Lemma depth_map kys : depth (map_yaml_of kys) = S (fold_right (fun kv n => Nat.max (depth (snd kv)) n) 0 kys).
Proof. unfold map_yaml_of. cbn [depth]. f_equal. induction kys as [|[k y] ys IH]; cbn; [reflexivity|]. now rewrite IH. Qed.
Lemma max_in {A} (f : A -> nat) l m : fold_right (fun x n => Nat.max (f x) n) 0 l <= m -> Forall (fun x => f x <= m) l.
Proof. induction l as [|x l IH]; cbn; intros H; constructor; [lia|]. apply IH. lia. Qed.
Lemma depth_pos y : 1 <= depth y.
Proof. destruct y; cbn; lia. Qed.

Lemma seq_values_map a ys : seq_values a (map (fun y => AElem (unaliased y)) ys) = (ys, a).
Proof. induction ys as [|y ys IH]; cbn; [reflexivity|]. now rewrite IH. Qed.
Lemma hash_entries_map a (kys : list (str * yaml)) :
  hash_entries a (map (fun kv => HElem (mkHE (fst kv) (unaliased (snd kv)))) kys) = (kys, a).
Proof. induction kys as [|[k y] ys IH]; cbn; [reflexivity|]. now rewrite IH. Qed.

Lemma str_shape s : match str_to_yaml s with Unquoted t => t = s | SingleQ _ | DoubleQ _ => True | _ => False end.
Proof. unfold str_to_yaml. destruct (negb _); [reflexivity|]. destruct (_ && _); [destruct (_ && _)|]; exact I. Qed.

Lemma seq_at ys a : de_seq_values (seq_yaml ys) a = Some (ys, a).
Proof. unfold de_seq_values, seq_yaml. cbn [into_resolved]. now rewrite seq_values_map. Qed.
Lemma map_at kys a : de_map_entries (map_yaml_of kys) a = Some (kys, a).
Proof. unfold de_map_entries, map_yaml_of. cbn [into_resolved]. now rewrite hash_entries_map. Qed.
Lemma read_seq_at ys a : read_seq (seq_yaml ys) a = Some (ys, a).
Proof. rewrite <- seq_at, de_seq_eq. reflexivity. Qed.
Lemma read_inl_at ys a : read_seq (InlineArray ys) a = Some (ys, a).
Proof. pose proof (de_seq_eq (InlineArray ys) a) as E. cbn [into_resolved] in E. now rewrite <- E. Qed.
Lemma read_map_at kys a : read_map (map_yaml_of kys) a = Some (kys, a).
Proof. rewrite <- map_at, de_map_eq. reflexivity. Qed.

Lemma any_content fuel : forall y a, served y -> depth y <= fuel -> de_any fuel y a = Done (content y) a.
Proof.
  induction fuel as [|n IH]; intros y a S D; [pose proof (depth_pos y); lia|].
  rewrite de_any_eq. inversion S; subst y.
  - reflexivity.
  - pose proof (str_shape s). destruct (str_to_yaml s); try contradiction; reflexivity.
  - rewrite content_seq. rewrite depth_seq in D. unfold seq_yaml at 1. rewrite read_seq_at.
    assert (G : any_elems n ys a = Done (map content ys) a).
    { assert (D' : fold_right (fun y n => Nat.max (depth y) n) 0 ys <= n) by lia. apply max_in in D'. clear D S.
      induction H as [|y ys Y _ IHl]; [reflexivity|]. inversion D'; subst. cbn [any_elems map].
      rewrite IH by assumption. now rewrite IHl. }
    now rewrite G.
  - cbn [content]. cbn [depth] in D. rewrite read_inl_at.
    assert (G : any_elems n ys a = Done (map content ys) a).
    { assert (D' : fold_right (fun y n => Nat.max (depth y) n) 0 ys <= n) by lia. apply max_in in D'. clear D S.
      induction H as [|y ys Y _ IHl]; [reflexivity|]. inversion D'; subst. cbn [any_elems map].
      rewrite IH by assumption. now rewrite IHl. }
    now rewrite G.
  - rewrite content_map. rewrite depth_map in D. unfold map_yaml_of at 1. change (read_seq (map_yaml_of kys) a) with (@None (list yaml * anchors)). cbv iota. rewrite read_map_at.
    assert (G : any_entries n kys a = Done (map (fun kv => (any_unquoted (fst kv), content (snd kv))) kys) a).
    { assert (D' : fold_right (fun kv n => Nat.max (depth (snd kv)) n) 0 kys <= n) by lia.
      apply (max_in (fun kv => depth (snd kv))) in D'. clear D S.
      induction H as [|[k y] ys Y _ IHl]; [reflexivity|]. inversion D'; subst. cbn [any_entries map fst snd] in *.
      rewrite IH by assumption. now rewrite IHl. }
    now rewrite G.
Qed.

(** ---- pretty printing ---- *)

Section Pretty.
  Notation lk := (look any_word).
  Lemma wlook_seq ys : lk (seq_yaml ys) = LSeq (map (fun y => (None, lk y)) ys).
  Proof. unfold seq_yaml. cbn [look]. f_equal. induction ys as [|y ys IH]; cbn; [reflexivity|]. now rewrite IH. Qed.
  Lemma wlook_map kys : lk (map_yaml_of kys) = LMap (map (fun kv => (fst kv, (None, lk (snd kv)))) kys).
  Proof. unfold map_yaml_of. cbn [look]. f_equal. induction kys as [|[k y] ys IH]; cbn; [reflexivity|]. now rewrite IH. Qed.

  Lemma str_not_loose s : no_quoted any_loose (str_to_yaml s).
  Proof.
    pose proof (str_to_yaml_value s) as V. destruct (str_to_yaml s) eqn:E; try exact I;
      try (pose proof (str_shape s) as X; rewrite E in X; contradiction).
    cbn [no_quoted]. cbn in V. injection V as V. rewrite V.
    destruct (any_loose s) eqn:L; [|reflexivity]. exfalso.
    unfold any_loose in L. apply orb_true_iff in L as [L|L]; apply in_words in L; cbn [map In] in L;
      repeat (destruct L as [<-|L]; [vm_compute in E; discriminate|]); destruct L.
  Qed.
  Lemma inline_child c y : pretty_with true c y = pretty_with true false y.
  Proof. destruct y; try reflexivity; cbn [pretty_with]; destruct (is_nil l); reflexivity. Qed.
  Lemma long_seq_iff inl ys : long_ok inl (seq_yaml ys) -> Forall (long_ok inl) ys.
  Proof. unfold seq_yaml. cbn [long_ok]. induction ys as [|y ys IH]; cbn; intros H; constructor; tauto. Qed.
  Lemma long_inl_iff inl ys : long_ok inl (InlineArray ys) -> Forall (long_ok true) ys.
  Proof. cbn [long_ok]. induction ys as [|y ys IH]; cbn; intros H; constructor; tauto. Qed.
  Lemma long_map_iff inl kys : long_ok inl (map_yaml_of kys) -> Forall (fun kv => long_ok inl (snd kv)) kys.
  Proof. unfold map_yaml_of. cbn [long_ok]. induction kys as [|[k y] ys IH]; cbn; intros H; constructor; cbn; tauto. Qed.
  Lemma map_look {A} (f g : A -> yaml) l : Forall (fun x => lk (f x) = lk (g x)) l ->
    map (fun x => (@None str, lk (f x))) l = map (fun x => (None, lk (g x))) l.
  Proof. induction 1 as [|x l H _ IH]; cbn; [reflexivity|]. now rewrite H, IH. Qed.
  Lemma served_pretty y : served y -> forall inl c, long_ok inl y -> lk (pretty_with inl c y) = lk y.
  Proof.
    intros S. induction S as [s|s|ys IH|ys IH|kys IH] using served_ind'; intros inl c L.
    - apply (look_pretty_scalar _ any_loose any_word_break any_word_can); [reflexivity|exact L|intros _; exact I].
    - assert (E : pretty_with inl c (str_to_yaml s) = pretty_scalar inl (str_to_yaml s) /\ is_scalar (str_to_yaml s) = true)
        by (pose proof (str_shape s); destruct (str_to_yaml s); try contradiction; split; reflexivity).
      destruct E as [-> E]. apply (look_pretty_scalar _ any_loose any_word_break any_word_can); [exact E|exact L|].
      intros _. apply str_not_loose.
    - apply long_seq_iff in L. destruct inl.
      + rewrite inline_child, pretty_seq_inline, wlook_seq. cbn [look]. rewrite map_map. f_equal. apply (map_look _ (fun y => y)).
        rewrite Forall_forall in *. auto.
      + destruct ys as [|y0 ys0]; [reflexivity|]. rewrite pretty_seq_block by discriminate.
        rewrite (look_auto_inline any_word). rewrite wlook_seq. rewrite <- (map_map (pretty_with false true) (fun y => AElem (mkA None y))).
        change (lk (Array (map (fun y => AElem (mkA None y)) (map (pretty_with false true) (y0 :: ys0))))) with
          (lk (seq_yaml (map (pretty_with false true) (y0 :: ys0)))). rewrite wlook_seq, map_map. f_equal.
        apply (map_look _ (fun y => y)). rewrite Forall_forall in *. auto.
    - apply long_inl_iff in L. cbn [pretty_with look]. rewrite map_map. f_equal. apply (map_look _ (fun y => y)).
      rewrite Forall_forall in *. auto.
    - apply long_map_iff in L.
      assert (G : forall inl c, Forall (fun kv => long_ok inl (snd kv)) kys ->
        map (fun kv : str * yaml => (fst kv, (@None str, lk (pretty_with inl c (snd kv))))) kys = map (fun kv => (fst kv, (None, lk (snd kv)))) kys).
      { clear L. intros i c' L. induction IH as [|kv l K _ IHl]; cbn; [reflexivity|]. inversion L; subst.
        rewrite K by assumption. f_equal. now apply IHl. }
      destruct inl.
      + rewrite inline_child, pretty_map_inline, wlook_map. cbn [look]. f_equal. rewrite map_map. now apply G.
      + destruct kys as [|y0 ys0]; [reflexivity|]. rewrite pretty_map_block by discriminate. rewrite wlook_map.
        match goal with |- lk (Hash ?l) = _ => change l with
          (map (fun kv : str * yaml => HElem (mkHE (fst kv) (unaliased (pretty_with false false (snd kv))))) (y0 :: ys0)) end.
        rewrite <- (map_map (fun kv => (fst kv, pretty_with false false (snd kv))) (fun kv => HElem (mkHE (fst kv) (unaliased (snd kv))))).
        change (lk (Hash (map (fun kv => HElem (mkHE (fst kv) (unaliased (snd kv)))) (map (fun e => (fst e, pretty_with false false (snd e))) (y0 :: ys0)))))
          with (lk (map_yaml_of (map (fun e => (fst e, pretty_with false false (snd e))) (y0 :: ys0)))).
        rewrite wlook_map, map_map. f_equal. now apply G.
  Qed.
End Pretty.

Lemma served_read_pretty fuel t y : served y -> long_ok false y ->
  outcome_of (read_yaml fuel t (pretty y)) = outcome_of (read_yaml fuel t y).
Proof. intros S L. apply read_look. now apply served_pretty. Qed.
