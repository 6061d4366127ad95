(** Edited documents are written and read back. *)
From Verif Require Import Base Ast Path Strings Peg YamlGrammar Consume Format Insert Spec_Insert InsertFacts4 InsertFacts5
  Spec_Parse Spec_Format FormatTree Spec_Stable StableFacts Spec_Edit EditFacts.
Import ListNotations.

Section Edit2.
Context (ut : unitab).

Lemma quiet_any : forall y, everywhere (quiet_node true) y.
Proof.
  fix IH 1. intros [l|l|l|l|ps|ps|s|ls c|ls c|x]; (split; [now left|]); cbn; try exact I.
  - induction l as [|[k v] l IHl]; [exact I|split; [apply IH|exact IHl]].
  - induction l as [|[c|c|[k [al v]]] l IHl]; cbn; auto.
  - induction l as [|v l IHl]; [exact I|split; [apply IH|exact IHl]].
  - induction l as [|[c|c|[al v]] l IHl]; cbn; auto.
Qed.

Lemma doc_keeps com fm op d r : canon_doc ut d -> (fm = true -> firm_doc d) ->
  (com = true \/ doc_everywhere no_inline_comment d) ->
  (forall y, keeps ut com fm y (snd (op y))) -> doc_result op d r -> canon_doc ut (snd r).
Proof.
  intros [L (a & y & b & Ei & Ha & Hb & C)] F Q K (R1 & R2 & _). split; [now rewrite R1|].
  assert (Hy : In (DYaml y) (items d)) by (rewrite Ei; apply in_or_app; right; now left).
  exists a, (snd (op y)), b. split; [|split; [exact Ha|split; [exact Hb|]]].
  { rewrite R2, Ei, map_app. cbn. f_equal; [|f_equal]; rewrite map_map; reflexivity. }
  assert (F' : fm = true -> firm false false None y) by (intros X; exact (F X y Hy)). assert (W : everywhere (quiet_node com) y).
  { destruct Q as [->|Q].
    - apply quiet_any.
    - specialize (Q y Hy). revert Q. clear. revert y. fix IH 1. intros [l|l|l|l|ps|ps|s|ls c|ls c|x] [Q1 Q2]; (split; [now right|]); cbn; try exact I.
      + clear Q1. cbn in Q2. induction l as [|[k v] l IHl]; [exact I|]. destruct Q2 as [Q2 Q3]. split; [now apply IH|now apply IHl].
      + clear Q1. cbn in Q2. induction l as [|[c|c|[k [al v]]] l IHl]; cbn in *; [exact I| | |]; destruct Q2 as [Q2 Q3]; split; auto.
      + clear Q1. cbn in Q2. induction l as [|v l IHl]; [exact I|]. destruct Q2 as [Q2 Q3]. split; [now apply IH|now apply IHl].
      + clear Q1. cbn in Q2. induction l as [|[c|c|[al v]] l IHl]; cbn in *; [exact I| | |]; destruct Q2 as [Q2 Q3]; split; auto. }
  specialize (K y). destruct (to_fcanon ut com fm) as (_ & T2 & T3). destruct (of_fcanon ut com fm) as (_ & O2 & O3).
  destruct y as [|l| |l| | | | | |]; try contradiction.
  - specialize (T2 _ _ _ C (fun X => proj2 (F' X)) W). inversion K as [y0|l0 l' [H1 H2]| |]; [subst y0|]; subst; [exact C|].
    exact (O2 _ _ _ (H1 _ _ (good_own fm) T2)).
  - specialize (T3 _ _ C F' W). inversion K as [y0| |l0 l' H1|]; [subst y0|]; subst; [exact C|].
    apply O3. eapply el_pointwise; eassumption.
Qed.

Lemma insert_keeps com p k h ow : last_key p = Some k -> plain_key ut k ->
  fcanon ut com true Own false (a_alias h) (a_value h) ->
  (ow = true -> flow_canon ut (a_value h) /\ alias_canon ut (a_alias h)) ->
  forall y, keeps ut com true y (snd (insert_into_hash p h ow y)).
Proof.
  intros E K C O y. apply edit_keeps. intros data k' E'. rewrite E in E'. injection E' as <-. unfold insert_f.
  destruct (key_index data k) as [i|] eqn:N; cbn [snd]; [|now apply append_entry].
  destruct ow; cbn [snd]; [|apply hl_pointwise, Forall2_refl', hrel_refl].
  apply hl_pointwise. destruct (O eq_refl) as [O1 O2].
  assert (exists e, nth_error data i = Some (HElem e)) as [e Ne].
  { clear -N. revert i N. induction data as [|d data IH]; intros i N; [discriminate|]. cbn in N.
    destruct (hd_is_key k d) eqn:H.
    - injection N as <-. destruct d as [c|c|e]; try discriminate. now exists e.
    - destruct (key_index data k) as [j|]; [|discriminate]. injection N as <-. cbn. now apply IH. }
  eapply set_nth_rel; [exact Ne|]. split; [intros _; exact K|]. split; cbn; [intros; now apply FFlow|auto].
Qed.

Lemma rename_keeps p n : plain_key ut n -> forall y, keeps ut true false y (snd (rename_field p n y)).
Proof. intros K y. apply for_keeps. intros e. cbn. split; [intros _; exact K|apply replace_refl]. Qed.

Lemma to_object_keeps p k : plain_key ut k -> forall y, keeps ut false false y (snd (to_object p k y)).
Proof.
  intros K y. apply for_keeps. intros [k' [al v]]. cbn. split; [auto|]. split; cbn; [|discriminate].
  intros h _ C. apply FHash, FELast; [exact K|]. cbn. eapply fcanon_own, C.
Qed.

Theorem insert_canon d p k h ow : canon_doc ut d -> firm_doc d -> last_key p = Some k -> plain_key ut k ->
  flow_canon ut (a_value h) -> alias_canon ut (a_alias h) ->
  canon_doc ut (snd (insert_into_hash_doc p h ow d)).
Proof.
  intros C F E K V A. apply (doc_keeps true true (insert_into_hash p h ow) d); [exact C|intros _; exact F|now left| |exact (proj1 (doc_edits p h ow [] [] d))].
  apply (insert_keeps true p k); auto. now apply FFlow.
Qed.

Theorem insert_block_canon d p k h : canon_doc ut d -> firm_doc d -> last_key p = Some k -> plain_key ut k ->
  canon ut Own false (a_alias h) (a_value h) -> firm false false (a_alias h) (a_value h) ->
  canon_doc ut (snd (insert_into_hash_doc p h false d)).
Proof.
  intros C F E K V A. apply (doc_keeps true true (insert_into_hash p h false) d); [exact C|intros _; exact F|now left| |exact (proj1 (doc_edits p h false [] [] d))].
  apply (insert_keeps true p k); auto; [|discriminate].
  apply (proj1 (to_fcanon ut true true) _ _ _ _ V (fun _ => A)). apply quiet_any.
Qed.

Theorem rename_canon d p n : canon_doc ut d -> plain_key ut n ->
  canon_doc ut (snd (rename_field_doc p n d)).
Proof.
  intros C K. apply (doc_keeps true false (rename_field p n) d); [exact C|discriminate|now left| |].
  - now apply rename_keeps.
  - exact (proj1 (proj2 (proj2 (doc_edits p (mkA None (Unquoted [])) false n [] d)))).
Qed.

Theorem to_object_canon d p k : canon_doc ut d -> doc_everywhere no_inline_comment d -> plain_key ut k ->
  canon_doc ut (snd (to_object_doc p k d)).
Proof.
  intros C Q K. apply (doc_keeps false false (to_object p k) d); [exact C|discriminate|now right| |].
  - apply to_object_keeps, K.
  - exact (proj2 (proj2 (proj2 (doc_edits p (mkA None (Unquoted [])) false [] k d)))).
Qed.

(** ---- removal ---- *)

(** Like [canon] without comments, leaving out the conditions on places. [o]: see [on_line]. *)
Fixpoint pieces (o : bool) (y : yaml) : Prop :=
  match y with
  | Hash l => fold_right (fun d Q => (match d with
                                      | HElem (mkHE k (mkA al v)) =>
                                          plain_key ut k /\ alias_canon ut al /\ pieces (on_line false al) v
                                      | _ => False
                                      end) /\ Q) True l
  | Array l => (l <> [] /\ (o = true -> 2 <= length l)) /\
      fold_right (fun d Q => (match d with AElem (mkA al v) => alias_canon ut al /\ pieces true v | _ => False end) /\ Q) True l
  | Literal ls _ | Folded ls _ => block_lines ls
  | _ => flow_canon ut y
  end.

Definition hpiece (d : hashdata) : Prop :=
  match d with HElem (mkHE k (mkA al v)) => plain_key ut k /\ alias_canon ut al /\ pieces (on_line false al) v | _ => False end.
Definition apiece (d : arraydata) : Prop :=
  match d with AElem (mkA al v) => alias_canon ut al /\ pieces true v | _ => False end.

Lemma fold_Forall {A} (P : A -> Prop) l : fold_right (fun d Q => P d /\ Q) True l <-> Forall P l.
Proof.
  induction l as [|d l IH]; cbn; [split; [constructor|intros _; exact I]|]. rewrite IH. split.
  - intros []. now constructor.
  - intros H. inversion H. auto.
Qed.
Lemma pieces_hash o l : pieces o (Hash l) <-> Forall hpiece l.
Proof. exact (fold_Forall hpiece l). Qed.
Lemma pieces_array o l : pieces o (Array l) <-> (l <> [] /\ (o = true -> 2 <= length l)) /\ Forall apiece l.
Proof. rewrite <- (fold_Forall apiece l). reflexivity. Qed.

Lemma flow_pieces o y : flow_canon ut y -> pieces o y.
Proof. destruct y; cbn; tauto. Qed.

Lemma plain_tail_h d l : everywhere no_comment (Hash (d :: l)) ->
  (match d with HElem (mkHE _ (mkA _ v)) => everywhere no_comment v | _ => False end) /\ everywhere no_comment (Hash l).
Proof.
  intros [N W]. cbn in W. destruct W as [W1 W2]. split.
  - specialize (N d (or_introl eq_refl)). destruct d; try discriminate N. exact W1.
  - split; [|exact W2]. intros x X. apply N. now right.
Qed.
Lemma plain_tail_a d l : everywhere no_comment (Array (d :: l)) ->
  (match d with AElem (mkA _ v) => everywhere no_comment v | _ => False end) /\ everywhere no_comment (Array l).
Proof.
  intros [N W]. cbn in W. destruct W as [W1 W2]. split.
  - destruct (N d (or_introl eq_refl)) as [a ->]. exact W1.
  - split; [|exact W2]. intros x X. apply N. now right.
Qed.

Lemma canon_pieces :
  (forall p q al y, canon ut p q al y -> everywhere no_comment y -> pieces (on_line q al) y /\ alias_canon ut al) /\
  (forall lead p l, entries ut lead p l -> everywhere no_comment (Hash l) -> Forall hpiece l) /\
  (forall lead l, Spec_Format.elements ut lead l -> everywhere no_comment (Array l) -> l <> [] /\ Forall apiece l).
Proof.
  apply canon_all.
  - intros p q al y F A _. split; [now apply flow_pieces|exact A].
  - intros. now split.
  - intros. now split.
  - intros p l E IH W. split; [exact (proj2 (pieces_hash _ _) (IH W))|exact I].
  - intros p l b E IH _ W. split; [exact (proj2 (pieces_hash _ _) (IH W))|exact I].
  - intros p q a l b E IH _ _ A W. split; [exact (proj2 (pieces_hash _ _) (IH W))|exact A].
  - intros p l E IH W. split; [|exact I]. destruct (IH W). apply pieces_array. split; [split; [assumption|discriminate]|assumption].
  - intros p q al [al' v] l C IHc E IHe A _ W. destruct (plain_tail_a _ _ W) as [W1 W2]. split; [|exact A].
    destruct (IHc W1). destruct (IHe W2) as [N ?]. apply pieces_array. split; [split; [discriminate|intros _]|].
    + destruct l; [congruence|cbn; lia].
    + constructor; [split|]; assumption.
  - intros p q al [al' v] c l F' A' OL E IHe A Q W. destruct (plain_tail_a _ _ W) as [W1 W2]. destruct (plain_tail_a _ _ W2) as [[] _].
  - intros p c l O E IH W. destruct (plain_tail_h _ _ W) as [[] _].
  - intros lead p [k [al v]] K C IH W. destruct (plain_tail_h _ _ W) as [W1 _]. destruct (IH W1). constructor; [split; [|split]; assumption|constructor].
  - intros lead p [k [al v]] c K F' A O W. destruct (plain_tail_h _ _ W) as [_ W2]. destruct (plain_tail_h _ _ W2) as [[] _].
  - intros lead p [k [al v]] l K C IHc N E IH W. destruct (plain_tail_h _ _ W) as [W1 W2]. destruct (IHc W1). constructor; [split; [|split]; assumption|auto].
  - intros lead p [k [al v]] c l K F' A O N E IH W. destruct (plain_tail_h _ _ W) as [_ W2]. destruct (plain_tail_h _ _ W2) as [[] _].
  - intros c l O E IH W. destruct (plain_tail_a _ _ W) as [[] _].
  - intros lead [al v] C IH W. destruct (plain_tail_a _ _ W) as [W1 _]. destruct (IH W1). split; [discriminate|]. constructor; [split; assumption|constructor].
  - intros lead [al v] c F' A O W. destruct (plain_tail_a _ _ W) as [_ W2]. destruct (plain_tail_a _ _ W2) as [[] _].
  - intros lead [al v] l C IHc E IH W. destruct (plain_tail_a _ _ W) as [W1 W2]. destruct (IHc W1). destruct (IH W2).
    split; [discriminate|]. constructor; [split; assumption|assumption].
  - intros lead [al v] c l F' A O E IH W. destruct (plain_tail_a _ _ W) as [_ W2]. destruct (plain_tail_a _ _ W2) as [[] _].
Qed.

Definition place_of (h : bool) : place := if h then Head false else Own.

(** What is proved of every value. *)
Definition canonical_value (y : yaml) : Prop := forall h q al,
  pieces (on_line q al) y -> alias_canon ut al -> firm h q al y -> everywhere filled y -> canon ut (place_of h) q al y.

Lemma entries_from l : Forall (hd_P canonical_value) l -> forall lead h, l <> [] -> Forall hpiece l ->
  firm_entries h l -> Forall (fun d => match d with HElem (mkHE _ (mkA _ v)) => everywhere filled v | _ => True end) l ->
  entries ut lead (place_of h) l.
Proof.
  induction 1 as [|d l C _ IH]; intros lead h N P F W; [congruence|]. inversion P as [|? ? P1 P2]; inversion W as [|? ? W1 W2]; subst.
  destruct d as [c|c|[k [al v]]]; try contradiction. destruct P1 as (K & A & P1). destruct F as [F1 F2].
  specialize (C h false al P1 A F1 W1). destruct l as [|d l]; [now apply ELast|].
  apply ECons; [exact K|exact C|destruct h; discriminate|]. apply (IH true false); [discriminate|assumption..].
Qed.
Lemma elements_from l : Forall (ad_P canonical_value) l -> forall lead, l <> [] -> Forall apiece l ->
  firm_elements false l -> Forall (fun d => match d with AElem (mkA _ v) => everywhere filled v | _ => True end) l ->
  Spec_Format.elements ut lead l.
Proof.
  induction 1 as [|d l C _ IH]; intros lead N P F W; [congruence|]. inversion P as [|? ? P1 P2]; inversion W as [|? ? W1 W2]; subst.
  destruct d as [c|c|[al v]]; try contradiction. destruct P1 as (A & P1). destruct F as [F1 F2].
  specialize (C false true al P1 A F1 W1). destruct l as [|d l]; [now apply NLast|].
  apply NCons; [exact C|]. apply (IH true); [discriminate|assumption..].
Qed.

Lemma pieces_canon : forall y, canonical_value y.
Proof.
  apply yaml_ind'; try (intros; intros h q al P A F W; apply CFlow; [exact P|exact A]).
  - intros l H h q al P A [F1 F2] [W1 W2]. apply pieces_hash in P. apply fold_Forall in W2.
    assert (N : l <> []) by (intros ->; now apply W1).
    destruct q, al as [a|]; cbn in F2.
    + apply CHashAlias with (b := false); [|discriminate| |exact A].
      * now apply (entries_from l H false true).
      * intros O. destruct h; [|exact I]. exfalso. apply F1; [reflexivity|discriminate|exact O].
    + apply CHashElem with (b := false); [|discriminate]. now apply (entries_from l H false true).
    + apply CHashAlias with (b := false); [|discriminate| |exact A].
      * now apply (entries_from l H false true).
      * intros O. destruct h; [|exact I]. exfalso. apply F1; [reflexivity|discriminate|exact O].
    + apply CHash. now apply (entries_from l H true false).
  - intros l H h q al P A F [W1 W2]. apply pieces_array in P. destruct P as [[N L] P]. apply fold_Forall in W2.
    destruct (on_line q al) eqn:O.
    + destruct l as [|d l]; [congruence|]. inversion P as [|? ? P1 P2]; inversion W2 as [|? ? W3 W4]; inversion H as [|? ? C1 C2]; subst.
      destruct d as [c|c|[al' v]]; try contradiction. destruct P1 as (A' & P1). cbn [firm] in F. rewrite O in F. destruct F as [F3 F4].
      specialize (C1 true true al' P1 A' F3 W3). apply CArrayElem; [exact C1| |exact A|].
      * apply (elements_from l C2); [|assumption..]. intros ->. specialize (L eq_refl). cbn in L. lia.
      * destruct q; [now left|]. right. destruct al; discriminate.
    + destruct q; [discriminate|]. destruct al; [discriminate|]. apply CArray. now apply (elements_from l H).
  - intros ls c h q al P A F _. apply CFolded; [exact P|exact A|]. cbn in F. subst h. now left.
  - intros ls c h q al P A F _. apply CLiteral; [exact P|exact A|]. cbn in F. subst h. now left.
Qed.

Lemma remove_nth_Forall {X} (P : X -> Prop) : forall l n, Forall P l -> Forall P (remove_nth n l).
Proof. induction l as [|x l IH]; intros [|n] H; inversion H; subst; cbn; auto. Qed.
Lemma set_nth_Forall {X} (P : X -> Prop) : forall l n x, Forall P l -> P x -> Forall P (set_nth n x l).
Proof. induction l as [|y l IH]; intros [|n] x H Hx; inversion H; subst; cbn; auto. Qed.
Lemma set_elem_length : forall l n x, length (set_elem n x l) = length l.
Proof. induction l as [|[c|c|a] l IH]; intros n x; cbn; auto. destruct n; cbn; auto. Qed.
Lemma set_elem_Forall (P : arraydata -> Prop) : forall l n x, Forall P l -> P (AElem x) -> Forall P (set_elem n x l).
Proof.
  induction l as [|d l IH]; intros n x H Hx; inversion H; subst; [constructor|]. destruct d as [c|c|a]; cbn; auto.
  destruct n; auto.
Qed.
Lemma get_elem_Forall (P : arraydata -> Prop) : forall l n x, Forall P l -> get_elem n l = Some x -> P (AElem x).
Proof.
  induction l as [|d l IH]; intros n x H G; inversion H; subst; [discriminate|]. destruct d as [c|c|a]; cbn in G; eauto.
  destruct n; [congruence|eauto].
Qed.

Lemma remove_pieces : forall p o y, pieces o y -> pieces o (snd (remove_from_hash p y)).
Proof.
  unfold remove_from_hash. fix IH 1. intros [cs|k cs rest|cs rest|is_ cs rest] o y P.
  - exact P.
  - cbn [edit_hash]. destruct (fits_conditions y cs); [|exact P].
    destruct y as [|data| | | | | | | |]; try exact P. apply pieces_hash in P. destruct rest as [q|].
    + destruct (key_index data k) as [i|]; [|now apply pieces_hash]. destruct (nth_error data i) as [d|] eqn:N; [|now apply pieces_hash].
      destruct d as [c|c|[k' [al v]]]; [now apply pieces_hash..|]. unfold edit_value. cbn [a_value he_value he_key a_alias].
      assert (D : hpiece (HElem (mkHE k' (mkA al v)))) by (rewrite Forall_forall in P; apply P; now apply nth_error_In in N).
      destruct D as (D1 & D2 & D3). apply (IH q) in D3. destruct (edit_hash remove_f q v) as [n v']. cbn [snd] in *.
      apply pieces_hash, set_nth_Forall; [exact P|]. split; [|split]; assumption.
    + unfold remove_f. destruct (key_index data k); cbn [snd]; apply pieces_hash; [now apply remove_nth_Forall|exact P].
  - destruct rest as [q|]; [|exact P]. destruct y as [| |els|els| | | | | |]; try exact P.
    + rewrite (edit_inline ut); [exact P|]. exact P.
    + cbn [edit_hash]. apply pieces_array in P. destruct P as [[P1 P2] P3].
      match goal with |- context [all_loop ?a ?g 0 els] =>
        pose proof (all_loop_rel _ a g (fun x x' => apiece x -> apiece x') (fun x H => H) els) as X;
        cut (Forall2 (fun x x' => apiece x -> apiece x') els (snd (all_loop a g 0 els))) end.
      { destruct (all_loop _ _ 0 els) as [n els']. cbn [snd]. intros F. apply pieces_array. assert (E : length els = length els') by (clear -F; induction F; cbn; auto). split; [split|].
        - destruct els; [congruence|]. destruct els'; [discriminate|discriminate].
        - intros O. rewrite <- E. auto.
        - clear - F P3. induction F; inversion P3; subst; constructor; auto. }
      apply X. intros [c|c|[al v]] a x' _ H; try discriminate. cbn [a_value] in H.
      destruct (fits_conditions v cs); [|discriminate]. unfold edit_value in H. cbn [a_value a_alias] in H. pose proof (IH q true v) as K.
      destruct (edit_hash remove_f q v) as [n v']. cbn [snd] in *. injection H as <- <-. intros [D1 D2]. split; auto.
  - destruct rest as [q|]; [|exact P]. destruct y as [| |els|els| | | | | |]; try exact P.
    + rewrite (edit_inline ut); [exact P|]. exact P.
    + cbn [edit_hash]. apply pieces_array in P.
      match goal with |- context [idx_loop ?a ?b ?c ?d ?e ?g ?h] =>
        pose proof (idx_loop_inv _ a b c d (fun l => (l <> [] /\ (o = true -> 2 <= length l)) /\ Forall apiece l)) as X;
        specialize (fun Z => X Z e g h P) end.
      match type of X with ?A -> _ => assert (Z : A) end.
      { intros i [al v] a x' l [[L1 L2] L3] G H. cbn [a_value a_alias] in H.
        destruct (fits_conditions v cs); [|discriminate]. unfold edit_value in H. cbn [a_value a_alias] in H.
        pose proof (get_elem_Forall apiece _ _ _ L3 G) as [D1 D2]. apply (IH q) in D2.
        destruct (edit_hash remove_f q v) as [n v']. cbn [snd] in *. injection H as <- <-. rewrite set_elem_length. split; [split|].
        - intros E. pose proof (set_elem_length l i (mkA al v')) as Y. rewrite E in Y. destruct l; [congruence|discriminate].
        - exact L2.
        - apply set_elem_Forall; [exact L3|]. split; assumption. }
      specialize (X Z). destruct (idx_loop _ _ _ _ is_ 0 els) as [n els']. apply pieces_array. exact X.
Qed.

Theorem remove_canon d p : canon_doc ut d -> doc_everywhere no_comment d ->
  let d' := snd (remove_from_hash_doc p d) in
  firm_doc d' -> doc_everywhere filled d' -> canon_doc ut d'.
Proof.
  intros [L (a & y & b & Ei & Ha & Hb & C)] Q d' F W.
  destruct (proj1 (proj2 (doc_edits p (mkA None (Unquoted [])) false [] [] d))) as (R1 & R2 & _). fold d' in R1, R2.
  split; [now rewrite R1|].
  assert (Hy : In (DYaml y) (items d)) by (rewrite Ei; apply in_or_app; right; now left).
  assert (E2 : items d' = map DComment a ++ DYaml (snd (remove_from_hash p y)) :: map DComment b).
  { rewrite R2, Ei, map_app. cbn. f_equal; [|f_equal]; rewrite map_map; reflexivity. }
  exists a, (snd (remove_from_hash p y)), b. split; [exact E2|split; [exact Ha|split; [exact Hb|]]].
  assert (Hy' : In (DYaml (snd (remove_from_hash p y))) (items d')) by (rewrite E2; apply in_or_app; right; now left).
  specialize (F _ Hy'). specialize (W _ Hy'). specialize (Q y Hy).
  assert (P : pieces false y).
  { destruct y; try contradiction; [|].
    - apply pieces_hash. exact (proj1 (proj2 canon_pieces) _ _ _ C Q).
    - apply pieces_array. destruct (proj2 (proj2 canon_pieces) _ _ C Q). split; [split; [assumption|discriminate]|assumption]. }
  assert (S : match y, snd (remove_from_hash p y) with Hash _, Hash _ | Array _, Array _ => True | _, _ => False end).
  { destruct y; try contradiction.
    - unfold remove_from_hash. destruct p as [| | ? [|]|? ? [|]]; try exact I. cbn [edit_hash]. destruct (fits_conditions _ _); [|exact I].
      destruct rest as [o|].
      + destruct (key_index l k); [|exact I]. destruct (nth_error l n) as [[]|]; try exact I. destruct (edit_value _ _). exact I.
      + destruct (remove_f _ _ _). exact I.
    - unfold remove_from_hash. destruct p as [| | ? [|]|? ? [|]]; try exact I; cbn [edit_hash].
      + now destruct (fits_conditions _ _).
      + now destruct (all_loop _ _ _ _).
      + now destruct (idx_loop _ _ _ _ _ _ _). }
  apply (remove_pieces p) in P. destruct y; try contradiction; destruct (snd (remove_from_hash p _)) as [|l'| |l'| | | | | |] eqn:E; try contradiction.
  - apply pieces_hash in P. destruct W as [W1 W2]. apply fold_Forall in W2.
    refine (entries_from l' _ false false _ _ _ _); [|intros ->; now apply W1|exact P|exact (proj2 F)|exact W2].
    apply Forall_forall. intros [c|c|[k [al v]]] _; try exact I. apply pieces_canon.
  - apply pieces_array in P. destruct W as [W1 W2]. apply fold_Forall in W2. destruct P as [[P1 _] P].
    apply (elements_from l'); [|exact P1|exact P|exact F|exact W2].
    apply Forall_forall. intros [c|c|[al v]] _; try exact I. apply pieces_canon.
Qed.

(** ---- lookups in the file that was written ---- *)

Lemma inline_flat : forall y, inline_canon ut y -> flat_inline y = true.
Proof.
  apply (yaml_ind' (fun y => inline_canon ut y -> flat_inline y = true)); try (intros; reflexivity); try (cbn; contradiction).
  intros l H C. apply inline_parts in C. cbn. apply forallb_forall. intros x X. rewrite Forall_forall in H, C. auto.
Qed.
Lemma flow_inline_ok y : flow_canon ut y -> Spec_Insert.inline_ok y = true.
Proof.
  destruct y; try reflexivity; try contradiction. intros C. apply (inline_flat (InlineArray l)) in C. exact C.
Qed.
Lemma canon_inline_ok :
  (forall p q al y, canon ut p q al y -> Spec_Insert.inline_ok y = true) /\
  (forall lead p l, entries ut lead p l -> Spec_Insert.inline_ok (Hash l) = true) /\
  (forall lead l, Spec_Format.elements ut lead l -> Spec_Insert.inline_ok (Array l) = true).
Proof.
  apply canon_all; intros; cbn in *; rewrite ?andb_true_iff in *; repeat split; auto using flow_inline_ok.
Qed.

Lemma one_root (F : yaml -> list yaml) d y : root_of d y ->
  flat_map (fun it => match it with DYaml y => F y | DComment _ => [] end) (items d) = F y.
Proof.
  intros (a & b & ->). rewrite flat_map_app. cbn.
  assert (Z : forall l, flat_map (fun it => match it with DYaml y => F y | DComment _ => [] end) (map DComment l) = []).
  { induction l; cbn; auto. }
  now rewrite !Z, app_nil_r.
Qed.
Lemma one_root_sum (F : yaml -> nat) d y : root_of d y ->
  list_sum (map (fun it => match it with DYaml y => F y | DComment _ => 0 end) (items d)) = F y.
Proof.
  intros (a & b & ->). rewrite map_app, list_sum_app. cbn.
  assert (Z : forall l, list_sum (map (fun it => match it with DYaml y => F y | DComment _ => 0 end) (map DComment l)) = 0).
  { induction l; cbn; auto. }
  rewrite !Z. lia.
Qed.

Lemma canon_root d : canon_doc ut d -> exists y, root_of d y /\ Spec_Insert.inline_ok y = true.
Proof.
  intros [_ (a & y & b & E & _ & _ & C)]. exists y. split; [now exists a, b|].
  destruct y; try contradiction; [exact (proj1 (proj2 canon_inline_ok) _ _ _ C)|exact (proj2 (proj2 canon_inline_ok) _ _ C)].
Qed.

Theorem insert_found d steps k h : canon_doc ut d -> cond_free steps -> flow_canon ut (a_value h) ->
  let p := path_of (steps ++ [SKey k []]) in
  let '(n, d') := insert_into_hash_doc p h true d in
  fst (find_values_doc p d') = repeat (a_value h) n.
Proof.
  intros C S V p. destruct (canon_root d C) as (y & R & O). pose proof (proj1 (doc_edits p h true [] [] d)) as (_ & I & N).
  destruct (insert_into_hash_doc p h true d) as [n d']. cbn [fst snd] in *.
  rewrite (proj2 (doc_find p d')). rewrite (one_root_sum (fun y => fst (insert_into_hash p h true y)) d y R) in N. subst n.
  rewrite (one_root (find_values p) d' (snd (insert_into_hash p h true y))).
  - apply insert_then_find; [exact O|now apply flow_inline_ok|exact S].
  - destruct R as (a & b & E). exists a, b. rewrite I, E, map_app. cbn. f_equal; [|f_equal]; rewrite map_map; reflexivity.
Qed.

Theorem insert_found_file s d steps k h : parse_yaml ut s = CVal d -> calm_doc ut d -> firm_doc d ->
  cond_free steps -> plain_key ut k -> flow_canon ut (a_value h) -> alias_canon ut (a_alias h) ->
  let p := path_of (steps ++ [SKey k []]) in
  let '(n, d') := insert_into_hash_doc p h true d in
  exists e, parse_yaml ut (format_doc d') = CVal e /\ fst (find_values_doc p e) = repeat (a_value h) n.
Proof.
  intros E C F S K V A p. pose proof (calm_canon ut s d E C) as Cd.
  pose proof (insert_found d steps k h Cd S V) as X. fold p in X. cbv zeta in X.
  assert (L : last_key p = Some k).
  { unfold p. clear. induction steps as [|st steps IH]; [reflexivity|].
    cbn [app path_of]. destruct steps; destruct st; cbn in *; auto. }
  pose proof (insert_canon d p k h true Cd F L K V A) as Y.
  destruct (insert_into_hash_doc p h true d) as [n d']. exists d'. split; [|exact X]. exact (format_parse ut d' Y).
Qed.
End Edit2.
