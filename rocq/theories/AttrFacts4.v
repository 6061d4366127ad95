(** Facts about types with serde attributes: what is written is read back. *)
From Coq Require Import ZArith Lia.
From Verif Require Import Base Ast Strings Format Num Pretty Ser De Attr Spec_Attr Spec_Serde Spec_Look
  LookFacts LookFacts2 SerdeFacts SerdeFacts2 AttrFacts AttrFacts2 AttrFacts3.
Import ListNotations.

(** ---- keys ---- *)

Lemma key_str n ks : yaml_to_key_string (str_to_yaml n) = Some ks -> ks = n.
Proof.
  pose proof (str_to_yaml_value n) as V. destruct (str_to_yaml n); cbn in *; try discriminate; congruence.
Qed.
Lemma plain_not_null n : plain_name n -> not_null_text n.
Proof. intros P. split; intros ->; vm_compute in P; discriminate. Qed.

Definition bentry (kv : str * yaml) : entry := (any_unquoted (fst kv), content (snd kv)).
Lemma bentry_plain kv : plain_name (fst kv) -> bentry kv = (AnStr (fst kv), content (snd kv)).
Proof. intros P. unfold bentry. now rewrite (plain_any _ P). Qed.
Lemma content_entries kys : content (map_yaml_of kys) = AnMap (map bentry kys).
Proof. apply content_map. Qed.

(** A quoted key is none of the special words. *)
Definition kchar (c : char) : bool := negb (has_char c [QUOTE; NL; CR]).
Lemma digit_k c : is_digit c = true -> kchar c = true.
Proof.
  unfold is_digit. rewrite andb_true_iff, !N.leb_le. intros H. unfold kchar, has_char. cbn.
  assert (G : forall k, (k < 48 \/ 57 < k)%N -> ceqb k c = false) by (intros k K; apply ceqb_neq; lia).
  assert (G' : forall k, (k < 48 \/ 57 < k)%N -> ceqb c k = false) by (intros k K; apply ceqb_neq; lia).
  rewrite ?G, ?G' by (vm_compute; tauto). reflexivity.
Qed.
Lemma skip_digits_k s : forallb kchar (skip_digits s) = true -> forallb kchar s = true.
Proof.
  induction s as [|c s IH]; [reflexivity|]. cbn. destruct (is_digit c) eqn:D; [|auto].
  intros H. now rewrite (digit_k c D), (IH H).
Qed.
Lemma skip_sign_k s : forallb kchar (skip_sign s) = true -> forallb kchar s = true.
Proof.
  destruct s as [|c s]; [reflexivity|]. cbn.
  destruct (ceqb c _ || ceqb c _) eqn:E; [|auto]. intros H. cbn. rewrite H.
  apply orb_true_iff in E as [E|E]; apply ceqb_eq in E; subst c; reflexivity.
Qed.
Lemma lower_k c x : lower c = x -> kchar x = true -> kchar c = true.
Proof.
  intros <-. unfold lower. destruct (_ && _) eqn:E; [|auto]. intros _.
  rewrite andb_true_iff, !N.leb_le in E. unfold kchar, has_char. cbn.
  assert (G : forall k, (k < 65 \/ 90 < k)%N -> ceqb k c = false) by (intros k K; apply ceqb_neq; lia).
  assert (G' : forall k, (k < 65 \/ 90 < k)%N -> ceqb c k = false) by (intros k K; apply ceqb_neq; lia).
  rewrite ?G, ?G' by (vm_compute; tauto). reflexivity.
Qed.
Lemma exp_k s : exp_ok s = true -> forallb kchar s = true.
Proof.
  destruct s as [|c s]; [reflexivity|]. cbn [exp_ok]. rewrite !andb_true_iff. intros (E & _ & N).
  apply ceqb_eq in E. cbn. rewrite (lower_k _ _ E eq_refl). apply skip_sign_k, skip_digits_k.
  destruct (skip_digits (skip_sign s)); [reflexivity|discriminate].
Qed.
Lemma number_k s : number_ok s = true -> forallb kchar s = true.
Proof.
  unfold number_ok. intros H. apply skip_digits_k. destruct (skip_digits s) as [|c r]; [reflexivity|].
  destruct (ceqb c (chr ".")) eqn:E.
  - apply ceqb_eq in E. subst c. apply andb_true_iff in H as [_ H]. apply exp_k in H. apply skip_digits_k in H. exact H.
  - apply andb_true_iff in H as [_ H]. now apply exp_k.
Qed.
Lemma word_k s (w : str) : seqb (map lower s) w = true -> forallb kchar w = true -> forallb kchar s = true.
Proof.
  intros E. apply seqb_eq in E. subst w. induction s as [|c s IH]; [reflexivity|]. cbn. rewrite !andb_true_iff.
  intros [A B]. split; [exact (lower_k _ _ eq_refl A)|now apply IH].
Qed.
Lemma float_k s : parse_f64_ok s = true -> forallb kchar s = true.
Proof.
  intros H. apply skip_sign_k. unfold parse_f64_ok in H. rewrite !orb_true_iff in H.
  destruct H as [[[H|H]|H]|H]; [exact (word_k _ _ H eq_refl)..|now apply number_k].
Qed.
Lemma any_word_k s : any_word s = true -> forallb kchar s = true.
Proof.
  unfold any_word. intros H. apply orb_true_iff in H as [H|H].
  - apply in_words in H. cbn [map In] in H. repeat (destruct H as [<-|H]; [reflexivity|]). destruct H.
  - unfold untyped_word in H. apply orb_true_iff in H as [H|H]; [|now apply float_k].
    apply in_words in H. cbn [map In] in H. repeat (destruct H as [<-|H]; [reflexivity|]). destruct H.
Qed.
Lemma dq_not_word s ps : str_to_yaml s = DoubleQ ps -> any_word s = false.
Proof.
  intros E. destruct (any_word s) eqn:W; [|reflexivity]. exfalso. apply any_word_k in W. rewrite forallb_forall in W.
  assert (G : forall c, kchar c = false -> has_char c s = false).
  { intros c K. destruct (has_char c s) eqn:F; [|reflexivity]. apply has_char_true in F. apply W in F. congruence. }
  unfold str_to_yaml in E. destruct (negb (needs_quoting s)); [discriminate|].
  rewrite !G in E by reflexivity. discriminate.
Qed.

(** ---- fields ---- *)

Section RT.
  Context (fuel : nat).

  (** A field, its value and the node it is written as. *)
  Notation item := (xfield * (sval * yaml))%type.
  Definition fld (i : item) : xfield := fst i.
  Definition ival (i : item) : sval := fst (snd i).
  Definition inode (i : item) : yaml := snd (snd i).
  Definition iset (i : item) : xfield := x_set (fld i) (ival i).
  Definition ientry (i : item) : str * yaml := (x_name (fld i), inode i).
  Definition good (i : item) : Prop :=
    x_val (fld i) = None /\
    (forall a, r_node (x_read (fld i)) (inode i) a = Done (ival i) a) /\
    (forall own, r_buf (x_read (fld i)) own (content (inode i)) = Some (ival i)).

  Lemma set_names items : map x_name (map iset items) = map x_name (map fld items).
  Proof. rewrite !map_map. reflexivity. Qed.

  Lemma n_field_at pre i post a : ~ In (x_name (fld i)) (map x_name pre) -> good i ->
    n_field (pre ++ fld i :: post) (x_name (fld i)) (inode i) a = Done (pre ++ iset i :: post) a.
  Proof.
    intros N (V & G & _). induction pre as [|f pre IH]; cbn [app n_field].
    - now rewrite seqb_refl, V, G.
    - cbn [map In] in N. rewrite (proj2 (seqb_neq (x_name f) (x_name (fld i)))) by tauto.
      now rewrite IH by tauto.
  Qed.
  Lemma b_field_at own pre i post : ~ In (x_name (fld i)) (map x_name pre) -> good i ->
    b_field own (pre ++ fld i :: post) (x_name (fld i)) (content (inode i)) = Some (pre ++ iset i :: post).
  Proof.
    intros N (V & _ & G). induction pre as [|f pre IH]; cbn [app b_field].
    - now rewrite seqb_refl, V, G.
    - cbn [map In] in N. rewrite (proj2 (seqb_neq (x_name f) (x_name (fld i)))) by tauto.
      now rewrite IH by tauto.
  Qed.
  Lemma known_in fs n : x_known fs n = true <-> In n (map x_name fs).
  Proof.
    unfold x_known. rewrite existsb_exists, in_map_iff. split.
    - intros (f & I & E). apply seqb_eq in E. eauto.
    - intros (f & E & I). exists f. split; [assumption|]. now apply seqb_eq.
  Qed.
  Lemma known_not fs n : ~ In n (map x_name fs) -> x_known fs n = false.
  Proof. intros N. destruct (x_known fs n) eqn:E; [|reflexivity]. now apply known_in in E. Qed.

  Lemma fresh pre i items : NoDup (map x_name (pre ++ map fld (i :: items))) ->
    ~ In (x_name (fld i)) (map x_name pre) /\ NoDup (map x_name ((pre ++ [iset i]) ++ map fld items)).
  Proof.
    rewrite <- app_assoc, !map_app. cbn [map app]. intros N. split; [|exact N].
    apply NoDup_remove_2 in N. rewrite in_app_iff in N. tauto.
  Qed.

  Lemma n_fields_items items : forall pre a, Forall good items -> NoDup (map x_name (pre ++ map fld items)) ->
    n_fields (pre ++ map fld items) (map ientry items) a = Done (pre ++ map iset items) a.
  Proof.
    induction items as [|i items IH]; intros pre a G N; [reflexivity|]. inversion G; subst.
    destruct (fresh _ _ _ N) as [F N']. cbn [map n_fields ientry].
    rewrite n_field_at by assumption. cbn [o_bind].
    specialize (IH (pre ++ [iset i]) a H2 N'). rewrite <- !app_assoc in IH. exact IH.
  Qed.
  Lemma b_fields_items own items : forall pre, Forall good items -> NoDup (map x_name (pre ++ map fld items)) ->
    Forall (fun i => plain_name (x_name (fld i))) items ->
    b_fields own (pre ++ map fld items) (map bentry (map ientry items)) = Some (pre ++ map iset items).
  Proof.
    induction items as [|i items IH]; intros pre G N P; [reflexivity|]. inversion G; inversion P; subst.
    destruct (fresh _ _ _ N) as [F N']. cbn [map]. rewrite bentry_plain by assumption. cbn [b_fields ientry fst snd].
    rewrite b_field_at by assumption.
    specialize (IH (pre ++ [iset i]) H2 N' H6). rewrite <- !app_assoc in IH. exact IH.
  Qed.
  Lemma f_fields_items l : forall items pre, Forall good items -> NoDup (map x_name (pre ++ map fld items)) ->
    Forall (fun i => plain_name (x_name (fld i))) items ->
    remaining l = map bentry (map ientry items) ->
    fst (f_fields (pre ++ map fld items) l) = Some (pre ++ map iset items).
  Proof.
    induction l as [|[e|] l IH]; intros items pre G N P R; cbn [remaining flat_map] in R.
    - destruct items; [reflexivity|discriminate].
    - destruct items as [|i items]; [discriminate|]. cbn [app map] in R. injection R as -> R.
      inversion G; inversion P; subst. destruct (fresh _ _ _ N) as [F N'].
      rewrite bentry_plain by assumption. cbn [f_fields ientry fst snd].
      rewrite (proj2 (known_in _ _)) by (rewrite map_app, in_app_iff; right; left; reflexivity).
      cbn [map]. rewrite b_field_at by assumption.
      specialize (IH items (pre ++ [iset i]) H2 N' H6 R). rewrite <- !app_assoc in IH. cbn [app] in IH.
      destruct (f_fields (pre ++ iset i :: map fld items) l). exact IH.
    - cbn [f_fields]. cbn [app] in R. specialize (IH items pre G N P R). now destruct (f_fields (pre ++ map fld items) l).
  Qed.
  Lemma values_items items : opt_map x_value (map iset items) = Some (map (fun i => (x_name (fld i), ival i)) items).
  Proof. induction items as [|i items IH]; [reflexivity|]. cbn [map opt_map iset x_value x_val x_set x_name]. cbn. now rewrite IH. Qed.

  (** ---- entries of a struct with flattened fields: its own and the others ---- *)
  Notation part := (item + (str * yaml))%type.
  Definition pentry (p : part) : str * yaml := match p with inl i => ientry i | inr e => e end.
  Definition owns (ps : list part) : list item := flat_map (fun p => match p with inl i => [i] | inr _ => [] end) ps.
  Definition others (ps : list part) : list (str * yaml) := flat_map (fun p => match p with inl _ => [] | inr e => [e] end) ps.

  Lemma n_collect_parts any ps : forall pre a, Forall good (owns ps) -> NoDup (map x_name (pre ++ map fld (owns ps))) ->
    Forall (fun e => (forall a, any (snd e) a = Done (content (snd e)) a) /\
                     ~ In (fst e) (map x_name (pre ++ map fld (owns ps))) /\ plain_name (fst e)) (others ps) ->
    n_collect any (pre ++ map fld (owns ps)) (map pentry ps) a =
    Done (pre ++ map iset (owns ps), map bentry (others ps)) a.
  Proof.
    induction ps as [|[i|[k y]] ps IH]; intros pre a G N O; [reflexivity| |]; cbn [owns others flat_map app] in *.
    - inversion G; subst. destruct (fresh _ _ _ N) as [F N']. cbn [map pentry ientry n_collect].
      rewrite (proj2 (known_in _ _)) by (rewrite map_app, in_app_iff; right; left; reflexivity).
      rewrite n_field_at by assumption. cbn [o_bind].
      specialize (IH (pre ++ [iset i]) a H2 N'). rewrite <- !app_assoc in IH. apply IH.
      rewrite !map_app in *. exact O.
    - inversion O; subst. cbn [fst snd] in *. destruct H1 as (A & K & P). cbn [map pentry n_collect].
      rewrite known_not by assumption. rewrite A. cbn [o_bind]. fold (owns ps). fold (others ps).
      rewrite (IH pre a G N H2). cbn [o_map fst snd]. now rewrite bentry_plain by assumption.
  Qed.
  Lemma b_collect_parts own ps : forall pre, Forall good (owns ps) -> NoDup (map x_name (pre ++ map fld (owns ps))) ->
    Forall (fun i => plain_name (x_name (fld i))) (owns ps) ->
    Forall (fun e => ~ In (fst e) (map x_name (pre ++ map fld (owns ps))) /\ plain_name (fst e)) (others ps) ->
    b_collect own (pre ++ map fld (owns ps)) (map bentry (map pentry ps)) =
    Some (pre ++ map iset (owns ps), map bentry (others ps)).
  Proof.
    induction ps as [|[i|[k y]] ps IH]; intros pre G N Q O; [reflexivity| |]; cbn [owns others flat_map app] in *.
    - inversion G; inversion Q; subst. destruct (fresh _ _ _ N) as [F N']. cbn [map pentry].
      rewrite bentry_plain by assumption. cbn [ientry b_collect fst snd].
      rewrite (proj2 (known_in _ _)) by (rewrite map_app, in_app_iff; right; left; reflexivity).
      rewrite b_field_at by assumption.
      specialize (IH (pre ++ [iset i]) H2 N' H6). rewrite <- !app_assoc in IH. apply IH.
      rewrite !map_app in *. exact O.
    - inversion O; subst. cbn [fst snd] in *. destruct H1 as (K & P). cbn [map pentry].
      rewrite bentry_plain by assumption. cbn [b_collect fst snd].
      rewrite known_not by assumption. fold (owns ps). fold (others ps).
      rewrite (IH pre G N Q H2). cbn [option_map fst snd]. reflexivity.
  Qed.
End RT.
