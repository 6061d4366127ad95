(** The deserializer returns what the node means: all types. *)
From Coq Require Import ZArith Permutation.
From Verif Require Import Base Ast Strings Format Num Pretty Ser De Spec_Pretty Spec_Serde Spec_Look
  SerdeFacts SerdeFacts2 LookFacts Spec_Typed TypedFacts TypedFacts2.
Import ListNotations.

(** ---- enums ---- *)

Lemma seen_tilde : seen (Unquoted (lit "~")) = LWord (lit "~").
Proof. reflexivity. Qed.

Lemma enum_scalar y a s : no_refs y -> yaml_to_string y = Some s ->
  de_enum_content y a = Some (s, Unquoted (lit "~"), a).
Proof.
  intros N E. unfold de_enum_content. rewrite (resolved y a N).
  destruct y; cbn in E; try discriminate; cbn [yaml_to_string]; injection E as <-; reflexivity.
Qed.

Lemma enum_names y a n c a' : no_refs y -> de_enum_content y a = Some (n, c, a') ->
  no_refs c /\ names (seen y) n (seen c).
Proof.
  intros N E. destruct (yaml_to_string y) as [s|] eqn:T.
  - rewrite (enum_scalar y a s N T) in E. injection E as <- <- <-. split; [exact I|].
    left. split; [|reflexivity]. apply node_text_iff. now rewrite seen_text.
  - pose proof (map_seen y a N) as V. unfold de_enum_content in E. unfold de_map_entries in V. rewrite (resolved y a N) in E, V.
    destruct y as [l|l|l|l|ps|ps|s|ls c'|ls c'|m]; try discriminate.
    + cbn [seen look] in *. destruct V as (ys & a1 & D & F & M). injection D as <- <-.
      destruct l as [|[k v] [|q l]]; [discriminate| |discriminate]. injection E as <- <- <-.
      inversion F; subst. split; [assumption|]. right. exists None. reflexivity.
    + cbn [seen look] in *. destruct V as (ys & a1 & D & F & M). destruct (hash_entries a l) as [es a2].
      injection D as -> ->. destruct ys as [|[k v] [|q ys]]; [discriminate| |discriminate]. injection E as <- <- <-.
      inversion F; subst. split; [assumption|]. right.
      match goal with |- exists al, LMap ?X = _ => destruct X as [|[k1 [al w]] [|q1 e1]] end; try discriminate.
      cbn in M. injection M as -> <-. exists al. reflexivity.
Qed.

Lemma names_enum y a n l : no_refs y -> names (seen y) n l ->
  exists c a', de_enum_content y a = Some (n, c, a') /\ no_refs c /\ seen c = l.
Proof.
  intros N [[T ->]|(al & M)].
  - apply node_text_iff in T. rewrite seen_text in T by exact N. exists (Unquoted (lit "~")), a.
    split; [now apply enum_scalar|]. split; [exact I|reflexivity].
  - pose proof (map_seen y a N) as V. rewrite M in V. destruct V as (ys & a1 & D & F & E).
    destruct ys as [|[k v] [|q ys]]; try discriminate. cbn in E. injection E as -> E.
    inversion F; subst. exists v, a1. split; [|auto].
    unfold de_enum_content. unfold de_map_entries in D. rewrite (resolved y a N) in D |- *.
    destruct y; try discriminate; cbn in D.
    + injection D as -> <-. reflexivity.
    + injection D as ->. reflexivity.
Qed.

Lemma variant_some (ds : list (str * decoder)) n y a r : de_variant ds n y a = Some r ->
  exists d, In (n, d) ds /\ d y a = Some r.
Proof.
  induction ds as [|[m d] ds IH]; cbn; [discriminate|]. destruct (seqb m n) eqn:E.
  - apply seqb_eq in E. subst. intros H. exists d. auto.
  - intros H. destruct (IH H) as (d' & I & D). eauto.
Qed.
Lemma variant_in (ds : list (str * decoder)) n d y a : NoDup (map fst ds) -> In (n, d) ds -> de_variant ds n y a = d y a.
Proof.
  induction ds as [|[m e] ds IH]; cbn; [intros _ []|]. intros ND [E|I].
  - injection E as -> ->. now rewrite (proj2 (seqb_eq n n) eq_refl).
  - inversion ND as [|? ? Nm ND']; subst. destruct (seqb m n) eqn:E; [|now apply IH].
    apply seqb_eq in E. subst. exfalso. apply Nm. apply in_map_iff. exists (n, d). auto.
Qed.

Definition variant_de (nv : str * variant) : str * decoder :=
  match nv with (n, v) =>
   (n, match v with
      | VaUnit => fun _ a => Some (SUnitV n, a)
      | VaNew t => fun y a => match de t y a with Some (v, a1) => Some (SNewV n v, a1) | None => None end
      | VaTup ts => fun y a =>
          match de_seq_values y a with
          | Some (l, a1) =>
              match de_tuple (map de ts) l a1 with Some (vs, a2) => Some (STupV n vs, a2) | None => None end
          | None => None
          end
      | VaStruct fs => fun y a =>
          match de_struct (map (fun nt => match nt with (n, t) => mkF n (de t) (is_option t) None end) fs) y a with
          | Some (vs, a1) => Some (SStructV n vs, a1)
          | None => None
          end
      end) end.
Lemma de_enum_eq vs y a : de (TEnum vs) y a =
  match de_enum_content y a with None => None | Some (n, c, a1) => de_variant (map variant_de vs) n c a1 end.
Proof. reflexivity. Qed.
Lemma variant_names vs : map fst (map variant_de vs) = map fst vs.
Proof. rewrite map_map. apply map_ext. now intros [n v]. Qed.

Lemma all3_map {A B C D} (P : A -> D -> C -> Prop) (f : B -> D) l m n :
  all3 P l (map f m) n <-> all3 (fun x y z => P x (f y) z) l m n.
Proof. revert m n; induction l as [|x l IH]; intros [|y m] [|z n]; cbn; try tauto. now rewrite IH. Qed.

Lemma good_tuple_node ts (M : ty -> looks -> sval -> Prop) y a vs : Forall (fun t => good (de t) (M t)) ts -> no_refs y ->
  ((exists a', match de_seq_values y a with
              | Some (l, a1) => match de_tuple (map de ts) l a1 with Some (vs, a2) => Some (vs, a2) | None => None end
              | None => None end = Some (vs, a')) <->
   exists es rest, seen y = LSeq (es ++ rest) /\ all3 (fun t e v => M t (snd e) v) ts es vs).
Proof.
  intros G N. pose proof (seq_seen y a N) as V. split.
  - intros (a' & H). destruct (seen y) as [s|s|es|es|n]; try (rewrite V in H; discriminate).
    destruct V as (ys & a1 & D & F & E). rewrite D in H.
    destruct (de_tuple (map de ts) ys a1) as [[ws a2]|] eqn:DT; [|discriminate]. injection H as <- <-.
    destruct (proj1 (good_tuple ts M G ys a1 ws F)) as (e1 & e2 & S & A); [eauto|].
    rewrite E in S. apply map_eq_app in S as (l1 & l2 & -> & <- & <-). exists l1, l2.
    split; [reflexivity|]. exact (proj1 (all3_map M snd ts l1 ws) A).
  - intros (es & rest & S & A). rewrite S in V. destruct V as (ys & a1 & D & F & E). rewrite D.
    destruct (proj2 (good_tuple ts M G ys a1 vs F)) as (a2 & ->); [|eauto].
    exists (map snd es), (map snd rest). rewrite E, map_app. split; [reflexivity|]. exact (proj2 (all3_map M snd ts es vs) A).
Qed.

Lemma bool_of s : seen (Unquoted s) = LWord s \/ (seen (Unquoted s) = LText s /\ typed_word s = false).
Proof. rewrite seen_unquoted. unfold seen_key. destruct (typed_word s); auto. Qed.

Lemma one_of_in l s : one_of l s = true <-> In s l.
Proof.
  unfold one_of. rewrite existsb_exists. split.
  - intros (x & I & E). apply seqb_eq in E. now subst.
  - intros I. exists s. split; [exact I|]. now apply seqb_eq.
Qed.
Lemma typed_bool b s : In s (bool_words b) -> typed_word s = true.
Proof.
  intros H. unfold typed_word. apply existsb_exists. exists s. split; [|now apply seqb_eq].
  destruct b; cbn [bool_words] in H; rewrite in_map_iff in *; destruct H as (x & E & I); exists x; (split; [exact E|]);
    cbn [In] in *; tauto.
Qed.
Lemma bool_words_disjoint s : In s (bool_words true) -> In s (bool_words false) -> False.
Proof.
  intros H1 H2. cbn [bool_words map In] in H1, H2.
  repeat (destruct H1 as [<-|H1]; [repeat (destruct H2 as [H2|H2]; [discriminate H2|]); exact H2|]). exact H1.
Qed.
Lemma good_bool : good (de TBool) (means TBool).
Proof.
  intros y a v N. cbn [de]. unfold de_bool. rewrite (resolved y a N).
  change [lit "true"; lit "True"; lit "TRUE"; lit "yes"; lit "Yes"; lit "YES"; lit "on"; lit "On"; lit "ON"] with (bool_words true).
  change [lit "false"; lit "False"; lit "FALSE"; lit "no"; lit "No"; lit "NO"; lit "off"; lit "Off"; lit "OFF"] with (bool_words false).
  split.
  - intros (a' & H). destruct y as [l|l|l|l|ps|ps|s|ls c|ls c|n]; try discriminate.
    destruct (one_of (bool_words true) s) eqn:T; [|destruct (one_of (bool_words false) s) eqn:F; [|discriminate]].
    + injection H as <- <-. apply one_of_in in T. exists s. split; [|exact T]. rewrite seen_unquoted. unfold seen_key.
      now rewrite (typed_bool _ _ T).
    + injection H as <- <-. apply one_of_in in F. exists s. split; [|exact F]. rewrite seen_unquoted. unfold seen_key.
      now rewrite (typed_bool _ _ F).
  - destruct v; cbn [means]; try contradiction. intros (s & E & I).
    destruct y as [l|l|l|l|ps|ps|s'|ls c|ls c|n]; try discriminate E.
    assert (s' = s) by (destruct (bool_of s') as [Q|[Q _]]; rewrite Q in E; [now injection E|discriminate]). subst s'.
    destruct b.
    + apply one_of_in in I. rewrite I. eauto.
    + destruct (one_of (bool_words true) s) eqn:T; [apply one_of_in in T; destruct (bool_words_disjoint s T I)|].
      apply one_of_in in I. rewrite I. eauto.
Qed.

Lemma as_string_yaml y : as_string y = yaml_to_string y.
Proof. now destruct y. Qed.
Lemma good_int k : good (de (TInt k)) (means (TInt k)).
Proof.
  intros y a v N. split.
  - intros (a' & H). destruct (de_int_result k y a v a' H) as (z & -> & F & ->). cbn [means]. split; [reflexivity|].
    assert (K : k <> I128 /\ k <> U128).
    { cbn [de] in H. unfold de_int in H. rewrite (resolved y a N) in H. destruct (yaml_to_string y); [|discriminate].
      destruct k; split; congruence. }
    destruct K as [K1 K2]. split; [exact K1|]. split; [exact K2|].
    destruct (yaml_to_string y) as [s|] eqn:T.
    + exists s. split; [apply node_text_iff; now rewrite seen_text|].
      apply (de_int_spec k y s z a K1 K2) in H; [tauto|now rewrite as_string_yaml].
    + cbn [de] in H. unfold de_int in H. rewrite (resolved y a N), T in H. discriminate.
  - destruct v; cbn [means]; try contradiction. intros (-> & K1 & K2 & s & T & D & F).
    apply node_text_iff in T. rewrite seen_text in T by exact N. exists a.
    apply (de_int_spec k y s z a K1 K2); [now rewrite as_string_yaml|auto].
Qed.

Lemma null_iff s : is_null_word s = true <-> In s null_words.
Proof.
  unfold is_null_word. rewrite !orb_true_iff, !seqb_eq. cbn [null_words map In]. intuition congruence.
Qed.
Lemma null_typed s : In s null_words -> typed_word s = true.
Proof.
  intros H. unfold typed_word. apply existsb_exists. exists s. split; [|now apply seqb_eq].
  unfold null_words in H. rewrite in_map_iff in *; destruct H as (x & E & I); exists x; (split; [exact E|]).
  cbn [In] in *; tauto.
Qed.
Definition null_node (y : yaml) : bool := match y with Unquoted s => is_null_word s | _ => false end.
Lemma null_seen y : null_node y = true <-> null (seen y).
Proof.
  unfold null. destruct y as [l|l|l|l|ps|ps|s|ls c|ls c|n]; cbn [null_node];
    try (split; [discriminate|intros (? & E & _); discriminate E]).
  rewrite null_iff. split.
  - intros H. exists s. split; [|exact H]. rewrite seen_unquoted. unfold seen_key. now rewrite (null_typed s H).
  - intros (s' & E & I). destruct (bool_of s) as [Q|[Q _]]; rewrite Q in E; [now injection E as ->|discriminate].
Qed.

Lemma fold_Forall {A} (P : A -> Prop) l : fold_right (fun x Q => P x /\ Q) True l -> Forall P l.
Proof. induction l as [|x l IH]; cbn; intros H; constructor; tauto. Qed.
Lemma Forall_both {A} (P Q : A -> Prop) l : Forall (fun x => Q x -> P x) l -> Forall Q l -> Forall P l.
Proof. intros F G. induction F; inversion G; subst; constructor; auto. Qed.

Lemma byte_iff (e : option str * looks) b : (exists v, means (TInt U8) (snd e) v /\ match v with SInt _ z => Z.to_N z | _ => 0%N end = b) <->
  (b < 256)%N /\ exists s, text (snd e) s /\ decimal_text U8 s (Z.of_N b).
Proof.
  split.
  - intros (v & M & E). destruct v; cbn [means] in M; try contradiction. destruct M as (-> & _ & _ & s & T & D & F).
    cbn in F, E. subst b. split; [lia|]. exists s. rewrite Z2N.id by lia. auto.
  - intros (L & s & T & D). exists (SInt U8 (Z.of_N b)). split; [|apply N2Z.id]. cbn [means fits].
    split; [reflexivity|]. split; [discriminate|]. split; [discriminate|]. exists s. split; [exact T|]. split; [exact D|]. lia.
Qed.

Lemma bytes_iff (es : list (option str * looks)) bs :
  (exists vs, all2 (fun e v => means (TInt U8) (snd e) v) es vs /\ map (fun v => match v with SInt _ z => Z.to_N z | _ => 0%N end) vs = bs) <->
  all2 (fun e b => (b < 256)%N /\ exists s, text (snd e) s /\ decimal_text U8 s (Z.of_N b)) es bs.
Proof.
  revert bs. induction es as [|e es IH]; intros bs; split.
  - intros ([|v vs] & H & <-); [exact I|destruct H].
  - destruct bs; [|intros []]. intros _. exists []. split; [exact I|reflexivity].
  - intros ([|v vs] & H & <-); [destruct H|]. destruct H as [H1 H2]. cbn [map all2]. split.
    + apply byte_iff. eauto.
    + apply IH. eauto.
  - destruct bs as [|b bs]; [intros []|]. cbn [all2]. intros [H1 H2]. apply byte_iff in H1 as (v & M & E).
    apply IH in H2 as (vs & Ms & Es). exists (v :: vs). cbn [all2 map]. split; [auto|congruence].
Qed.

Lemma good_seq d M y a vs : good d M -> no_refs y ->
  ((exists a', match de_seq_values y a with
              | Some (l, a1) => match de_elems d l a1 with Some (vs, a2) => Some (vs, a2) | None => None end
              | None => None end = Some (vs, a')) <->
   exists es, seen y = LSeq es /\ all2 (fun e v => M (snd e) v) es vs).
Proof.
  intros G N. pose proof (seq_seen y a N) as V. split.
  - intros (a' & H). destruct (seen y) as [s|s|es|es|n]; try (rewrite V in H; discriminate).
    destruct V as (ys & a1 & D & F & E). rewrite D in H.
    destruct (de_elems d ys a1) as [[ws a2]|] eqn:DT; [|discriminate]. injection H as <- <-.
    exists es. split; [reflexivity|]. rewrite <- (all2_map M snd), <- E. apply (good_elems d M G ys a1 ws F). eauto.
  - intros (es & S & A). rewrite S in V. destruct V as (ys & a1 & D & F & E). rewrite D.
    destruct (proj2 (good_elems d M G ys a1 vs F)) as (a2 & ->); [|eauto]. rewrite E. now apply all2_map.
Qed.

Lemma ex_wrap {A B} (r : dres A) (f : A -> B) (w : B) :
  (exists a', match r with Some (v, a1) => Some (f v, a1) | None => None end = Some (w, a' : anchors)) <->
  exists v, (exists a', r = Some (v, a')) /\ w = f v.
Proof.
  split.
  - intros (a' & H). destruct r as [[v a1]|]; [|discriminate]. injection H as <- <-. eauto.
  - intros (v & (a' & ->) & ->). eauto.
Qed.
Lemma wrap_inv {A B} (r : dres A) (f : A -> B) (w : B) a' :
  match r with Some (v, a1) => Some (f v, a1) | None => None end = Some (w, a' : anchors) ->
  exists v, (exists a', r = Some (v, a')) /\ w = f v.
Proof. intros H. apply ex_wrap. eauto. Qed.
Lemma wrap_seq {A B C} (r : option (C * anchors)) (g : C -> anchors -> dres A) (f : A -> B) :
  match r with
  | Some (l, a1) => match g l a1 with Some (vs, a2) => Some (f vs, a2) | None => None end
  | None => None end =
  match match r with Some (l, a1) => match g l a1 with Some (vs, a2) => Some (vs, a2) | None => None end | None => None end with
  | Some (v, a1) => Some (f v, a1) | None => None end.
Proof. destruct r as [[l a1]|]; [|reflexivity]. now destruct (g l a1) as [[vs a2]|]. Qed.

Lemma de_means t : distinct t -> good (de t) (means t).
Proof.
  induction t as [| k | | | | |t IH| | |t IH|t IH|ts IH|tk tv IHk IHv|fs IH|vs IH] using ty_ind'; intros Dt y a v N.
  - apply good_bool, N.
  - apply good_int, N.
  - cbn [de]. unfold de_float. rewrite (resolved y a N), <- (seen_text y N). split.
    + intros (a' & H). destruct (node_text (seen y)) as [s|] eqn:T; [|discriminate].
      destruct (parse_f64_ok s) eqn:P; [|discriminate]. injection H as <- <-. cbn [means].
      split; [now apply node_text_iff|now apply float_spec].
    + destruct v; cbn [means]; try contradiction. intros [T F]. apply node_text_iff in T. apply float_spec in F.
      rewrite T, F. eauto.
  - cbn [de]. rewrite (text_of y a N). split.
    + intros (a' & H). destruct (node_text (seen y)) as [[|c [|c' s]]|] eqn:T; try discriminate. injection H as <- <-.
      now apply node_text_iff.
    + destruct v; cbn [means]; try contradiction. intros T. apply node_text_iff in T. rewrite T. eauto.
  - cbn [de]. rewrite (text_of y a N). split.
    + intros (a' & H). destruct (node_text (seen y)) as [s|] eqn:T; try discriminate. injection H as <- <-.
      now apply node_text_iff.
    + destruct v; cbn [means]; try contradiction. intros T. apply node_text_iff in T. rewrite T. eauto.
  - cbn [de]. rewrite (wrap_seq _ (de_elems (de_int U8)) (fun vs => SBytes (map (fun v => match v with SInt _ z => Z.to_N z | _ => 0%N end) vs))).
    rewrite ex_wrap. setoid_rewrite (fun vs => good_seq (de_int U8) (means (TInt U8)) y a vs (good_int U8) N). split.
    + intros (vs & (es & E & A) & ->). cbn [means]. exists es. split; [exact E|]. apply bytes_iff. eauto.
    + destruct v; cbn [means]; try contradiction. intros (es & E & A). apply bytes_iff in A as (vs & A & <-).
      exists vs. split; [eauto|reflexivity].
  - cbn [de]. rewrite (resolved y a N). cbn [distinct] in Dt. specialize (IH Dt).
    replace (match y with
             | Unquoted s => if is_null_word s then Some (SNone, a)
                             else match de t (Unquoted s) a with Some (v0, a1) => Some (SSome v0, a1) | None => None end
             | _ => match de t y a with Some (v0, a1) => Some (SSome v0, a1) | None => None end end)
      with (if null_node y then Some (SNone, a) else match de t y a with Some (v0, a1) => Some (SSome v0, a1) | None => None end)
      by (destruct y; reflexivity).
    destruct (null_node y) eqn:Nn.
    + apply null_seen in Nn. split.
      * intros (a' & H). injection H as <- <-. exact Nn.
      * destruct v; cbn [means]; try contradiction; [eauto|tauto].
    + assert (Nn' : ~ null (seen y)) by (intros Q; apply null_seen in Q; congruence).
      rewrite ex_wrap. split.
      * intros (w & H & ->). cbn [means]. split; [exact Nn'|]. apply (IH y a w N), H.
      * destruct v; cbn [means]; try contradiction. intros [_ H]. exists v. split; [|reflexivity]. apply (IH y a v N), H.
  - cbn [de]. split; [intros (a' & H); injection H as <- <-; exact I|]. destruct v; cbn [means]; try contradiction. eauto.
  - cbn [de]. split; [intros (a' & H); injection H as <- <-; exact I|]. destruct v; cbn [means]; try contradiction. eauto.
  - cbn [de]. rewrite ex_wrap. cbn [distinct] in Dt. split.
    + intros (w & H & ->). cbn [means]. apply (IH Dt y a w N), H.
    + destruct v; cbn [means]; try contradiction. intros H. exists v. split; [|reflexivity]. apply (IH Dt y a v N), H.
  - cbn [de]. rewrite (wrap_seq _ (de_elems (de t)) SSeq), ex_wrap. cbn [distinct] in Dt.
    setoid_rewrite (fun vs => good_seq (de t) (means t) y a vs (IH Dt) N). split.
    + intros (vs & H & ->). exact H.
    + destruct v; cbn [means]; try contradiction. intros H. eauto.
  - cbn [de]. rewrite (wrap_seq _ (de_tuple (map de ts)) STuple), ex_wrap. cbn [distinct] in Dt. apply fold_Forall in Dt.
    setoid_rewrite (fun vs => good_tuple_node ts means y a vs (Forall_both _ _ _ IH Dt) N). split.
    + intros (vs & H & ->). exact H.
    + destruct v; cbn [means]; try contradiction. intros H. eauto.
  - cbn [de]. cbn [distinct] in Dt. destruct Dt as [Dk Dv]. pose proof (map_seen y a N) as V. split.
    + intros (a' & H). destruct (seen y) as [s|s|es|es|n]; try (rewrite V in H; discriminate).
      destruct V as (ys & a1 & D & F & E). rewrite D in H.
      destruct (de_entries (de tk) (de tv) ys a1) as [[ws a2]|] eqn:DT; [|discriminate]. injection H as <- <-.
      cbn [means]. exists es. split; [reflexivity|].
      pose proof (proj1 (good_entries _ _ _ _ (IHk Dk) (IHv Dv) ys a1 ws F) (ex_intro _ a2 DT)) as Q.
      rewrite E in Q. now apply all2_map in Q.
    + destruct v; cbn [means]; try contradiction. intros (es & S & A). rewrite S in V.
      destruct V as (ys & a1 & D & F & E). rewrite D.
      destruct (proj2 (good_entries _ _ _ _ (IHk Dk) (IHv Dv) ys a1 l F)) as (a2 & ->); [|eauto].
      rewrite E. now apply all2_map.
  - cbn [de]. rewrite ex_wrap. cbn [distinct] in Dt. destruct Dt as [ND Dt].
    assert (G : Forall (fun f => good (de (snd f)) (means (snd f))) fs).
    { apply (Forall_both _ (fun f => distinct (snd f))); [exact IH|].
      clear - Dt. induction fs as [|[n t] fs IH]; constructor; cbn in Dt; [tauto|apply IH; tauto]. }
    setoid_rewrite (fun vs => good_struct means fs G ND y a vs N). split.
    + intros (vs & H & ->). exact H.
    + destruct v; cbn [means]; try contradiction. intros H. exists l. split; [exact H|reflexivity].
  - rewrite de_enum_eq. cbn [distinct] in Dt. destruct Dt as [ND Dt].
    assert (VG : forall n w, In (n, w) vs ->
      match w with
      | VaUnit => True
      | VaNew t => good (de t) (means t)
      | VaTup ts => Forall (fun t => good (de t) (means t)) ts
      | VaStruct fs => Forall (fun f => good (de (snd f)) (means (snd f))) fs /\ NoDup (map fst fs)
      end).
    { clear - IH Dt. induction IH as [|[m w'] vs Hw IHs IHvs]; intros n w I; [destruct I|]. cbn in Dt. destruct Dt as [Dw Dt].
      destruct I as [I|I]; [|now apply (IHvs Dt n)]. injection I as -> ->. cbn [snd va_P] in Hw.
      destruct w as [|t|ts|fs]; cbn [va_P] in Hw.
      - exact I.
      - now apply Hw.
      - apply fold_Forall in Dw. now apply (Forall_both _ distinct).
      - destruct Dw as [ND Dw]. split; [|exact ND]. apply (Forall_both _ (fun f => distinct (snd f))); [exact Hw|].
        clear - Dw. induction fs as [|[n' t] fs IH]; constructor; cbn in Dw; [tauto|apply IH; tauto]. }
    split.
    + intros (a' & H). destruct (de_enum_content y a) as [[[n c] a1]|] eqn:EC; [|discriminate].
      destruct (enum_names y a n c a1 N EC) as [Nc Hn].
      apply variant_some in H as (d & I & H). apply in_map_iff in I as ([m w] & E & I).
      unfold variant_de in E. injection E as -> <-. pose proof (VG n w I) as Gw. destruct w as [|t|ts|fs].
      * injection H as <- <-. cbn [means]. split; [eauto|exact I].
      * apply (wrap_inv _ (SNewV n)) in H as (u & Hu & ->). cbn [means].
        exists (seen c). split; [exact Hn|]. apply any_ex. exists (n, VaNew t). split; [exact I|]. split; [reflexivity|].
        apply (Gw c a1 u Nc), Hu.
      * rewrite (wrap_seq _ (de_tuple (map de ts)) (STupV n)) in H.
        apply (wrap_inv _ (STupV n)) in H as (u & Hu & ->).
        apply (good_tuple_node ts means c a1 u Gw Nc) in Hu as (es & rest & S & A). cbn [means].
        exists es, rest. rewrite <- S. split; [exact Hn|]. apply any_ex. exists (n, VaTup ts). auto.
      * apply (wrap_inv _ (SStructV n)) in H as (u & Hu & ->). destruct Gw as [Gw NDf].
        apply (good_struct means fs Gw NDf c a1 u Nc) in Hu as (es & S & A). cbn [means].
        exists es. rewrite <- S. split; [exact Hn|]. apply any_ex. exists (n, VaStruct fs). auto.
    + assert (X : forall n w l, In (n, w) vs -> names (seen y) n l -> exists c a1, no_refs c /\ seen c = l /\
               match de_enum_content y a with None => None | Some (n, c, a1) => de_variant (map variant_de vs) n c a1 end =
               snd (variant_de (n, w)) c a1).
      { intros n w l I Hn. destruct (names_enum y a n l N Hn) as (c & a1 & -> & Nc & S). exists c, a1.
        split; [exact Nc|]. split; [exact S|]. apply variant_in; [now rewrite variant_names|].
        apply in_map_iff. exists (n, w). split; [|exact I]. reflexivity. }
      destruct v; cbn [means]; try contradiction.
      * intros ((c & Hn) & I). destruct (X _ _ _ I Hn) as (c' & a1 & _ & _ & ->). cbn. eauto.
      * intros (c & Hn & Q). apply any_ex in Q as ([m w] & I & Q). destruct w as [|t| |]; try contradiction. destruct Q as [-> Q].
        destruct (X _ _ _ I Hn) as (c' & a1 & Nc & <- & ->). apply (VG _ _ I c' a1 v Nc) in Q. cbn.
        apply ex_wrap. eauto.
      * intros (es & rest & Hn & Q). apply any_ex in Q as ([m w] & I & Q). destruct w as [| |ts|]; try contradiction. destruct Q as [-> Q].
        destruct (X _ _ _ I Hn) as (c' & a1 & Nc & S & ->). cbn [variant_de snd].
        rewrite (wrap_seq _ (de_tuple (map de ts)) (STupV name)), ex_wrap. exists l. split; [|reflexivity].
        apply (good_tuple_node ts means c' a1 l (VG _ _ I) Nc). eauto.
      * intros (es & Hn & Q). apply any_ex in Q as ([m w] & I & Q). destruct w as [| | |fs]; try contradiction. destruct Q as [-> Q].
        destruct (X _ _ _ I Hn) as (c' & a1 & Nc & S & ->). cbn [variant_de snd].
        rewrite ex_wrap. exists l. split; [|reflexivity]. destruct (VG _ _ I) as [Gw NDf].
        apply (good_struct means fs Gw NDf c' a1 l Nc). eauto.
Qed.

Lemma from_means t y v : distinct t -> no_refs y -> (from_yaml t y = Some v <-> means t (seen y) v).
Proof.
  intros D N. rewrite <- (de_means t D y [] v N). unfold from_yaml. split.
  - destruct (de t y []) as [[w a]|]; cbn; [|discriminate]. intros E. injection E as ->. eauto.
  - intros (a & ->). reflexivity.
Qed.
