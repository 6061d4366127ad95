(** Edits keep firm canonical documents firm and canonical. *)
From Verif Require Import Base Ast Path Strings Peg YamlGrammar Consume Format Insert Spec_Parse Spec_Format FormatTree
  Spec_Stable StableFacts Spec_Edit.
Import ListNotations.

Section Edit.
(** [com]: inline comments may occur.  [fm]: the tree is firm. *)
Context (ut : unitab) (com fm : bool).

Definition entry_count (l : list hashdata) : nat := length (filter is_entry l).
Definition good_place (p : place) : Prop := fm = true -> p <> Head true.

(** Canonical, without inline comments unless [com], and firm if [fm]. *)
Inductive fcanon : place -> bool -> option str -> yaml -> Prop :=
| FFlow p q al y : flow_canon ut y -> alias_canon ut al -> fcanon p q al y
| FLiteral p q al ls c : block_lines ls -> alias_canon ut al ->
    (p = Own \/ p = Head true /\ (forall l ls', ls <> (SP :: l) :: ls')) -> fcanon p q al (Literal ls c)
| FFolded p q al ls c : block_lines ls -> alias_canon ut al ->
    (p = Own \/ p = Head true /\ (forall l ls', ls <> (SP :: l) :: ls')) -> fcanon p q al (Folded ls c)
| FHash p l : fentries true Own l -> fcanon p false None (Hash l)
| FHashElem p l b :
    fentries false (Head b) l -> good_place (Head b) -> (b = true -> lastp p) -> fcanon p true None (Hash l)
| FHashAlias p q a l b :
    fentries false (Head b) l -> good_place (Head b) -> (b = true -> lastp p) -> (one_entry l -> lastp p) -> alias_ok ut a ->
    fcanon p q (Some a) (Hash l)
| FArray p l : felements true l -> fcanon p false None (Array l)
| FArrayElem p q al x l :
    fcanon (Head false) true (a_alias x) (a_value x) -> felements false l ->
    on_line q al = true -> alias_canon ut al -> fcanon p q al (Array (AElem x :: l))
| FArrayElemC p q al x c l :
    com = true -> flow_canon ut (a_value x) -> alias_canon ut (a_alias x) -> one_line c -> felements false l ->
    on_line q al = true -> alias_canon ut al -> fcanon p q al (Array (AElem x :: AInlineC c :: l))
with fentries : bool -> place -> list hashdata -> Prop :=
| FEComment p c l : one_line c -> fentries true p l -> fentries true p (HComment c :: l)
| FELast lead p e :
    plain_key ut (he_key e) -> fcanon p false (a_alias (he_value e)) (a_value (he_value e)) -> fentries lead p [HElem e]
| FELastC lead p e c :
    com = true -> plain_key ut (he_key e) -> flow_canon ut (a_value (he_value e)) ->
    alias_canon ut (a_alias (he_value e)) -> one_line c -> fentries lead p [HElem e; HInlineC c]
| FECons lead p e l :
    plain_key ut (he_key e) -> fcanon p false (a_alias (he_value e)) (a_value (he_value e)) ->
    p <> Head true -> fentries true Own l -> fentries lead p (HElem e :: l)
| FEConsC lead p e c l :
    com = true -> plain_key ut (he_key e) -> flow_canon ut (a_value (he_value e)) ->
    alias_canon ut (a_alias (he_value e)) -> one_line c -> p <> Head true -> fentries true Own l ->
    fentries lead p (HElem e :: HInlineC c :: l)
with felements : bool -> list arraydata -> Prop :=
| FNComment c l : one_line c -> felements true l -> felements true (AComment c :: l)
| FNLast lead x : fcanon Own true (a_alias x) (a_value x) -> felements lead [AElem x]
| FNLastC lead x c :
    com = true -> flow_canon ut (a_value x) -> alias_canon ut (a_alias x) -> one_line c -> felements lead [AElem x; AInlineC c]
| FNCons lead x l : fcanon Own true (a_alias x) (a_value x) -> felements true l -> felements lead (AElem x :: l)
| FNConsC lead x c l :
    com = true -> flow_canon ut (a_value x) -> alias_canon ut (a_alias x) -> one_line c -> felements true l ->
    felements lead (AElem x :: AInlineC c :: l).

Scheme fcanon_mut := Minimality for fcanon Sort Prop
  with fentries_mut := Minimality for fentries Sort Prop
  with felements_mut := Minimality for felements Sort Prop.
Combined Scheme fcanon_all from fcanon_mut, fentries_mut, felements_mut.

Definition is_head (p : place) : bool := match p with Own => false | Head _ => true end.
Definition weak (p : place) : place := match p with Own => Own | Head b => Head (b && negb fm) end.

Fixpoint firm_entries (h : bool) (l : list hashdata) : Prop :=
  match l with
  | [] => True
  | HElem (mkHE _ (mkA al v)) :: l' => firm h false al v /\ firm_entries false l'
  | _ :: l' => firm_entries h l'
  end.
Fixpoint firm_elements (h : bool) (l : list arraydata) : Prop :=
  match l with
  | [] => True
  | AElem (mkA al v) :: l' => firm h true al v /\ firm_elements false l'
  | _ :: l' => firm_elements h l'
  end.

Lemma fentries_count lead h l : fentries lead h l -> 1 <= entry_count l.
Proof. unfold entry_count. induction 1; cbn; lia. Qed.
Lemma entries_count lead p l : entries ut lead p l -> 1 <= entry_count l.
Proof. unfold entry_count. induction 1; cbn; lia. Qed.
Lemma weak_good p : good_place (weak p).
Proof. intros F X. destruct p as [|b]; [discriminate|]. cbn in X. rewrite F, andb_false_r in X. discriminate. Qed.
Lemma good_own : good_place Own.
Proof. intros _. discriminate. Qed.
Lemma good_head : good_place (Head false).
Proof. intros _. discriminate. Qed.
#[local] Hint Resolve good_own good_head : core.
Lemma weak_not p : p <> Head true -> weak p <> Head true.
Proof. destruct p as [|[|]]; cbn; congruence. Qed.

(** No inline comment in the tree, unless [com]. *)
Definition quiet_node (y : yaml) : Prop := com = true \/ no_inline_comment y.

Lemma quiet_tail_h d l : everywhere quiet_node (Hash (d :: l)) ->
  (match d with HElem (mkHE _ (mkA _ v)) => everywhere quiet_node v | _ => True end) /\ everywhere quiet_node (Hash l).
Proof.
  intros [N W]. cbn in W. destruct W as [W1 W2]. split; [exact W1|]. split; [|exact W2].
  destruct N as [N|N]; [now left|right]. cbn in *. intros c X. apply (N c). now right.
Qed.
Lemma quiet_tail_a d l : everywhere quiet_node (Array (d :: l)) ->
  (match d with AElem (mkA _ v) => everywhere quiet_node v | _ => True end) /\ everywhere quiet_node (Array l).
Proof.
  intros [N W]. cbn in W. destruct W as [W1 W2]. split; [exact W1|]. split; [|exact W2].
  destruct N as [N|N]; [now left|right]. cbn in *. intros c X. apply (N c). now right.
Qed.
Lemma quiet_com_h d c l : everywhere quiet_node (Hash (d :: HInlineC c :: l)) -> com = true.
Proof. intros [[N|N] _]; [exact N|]. destruct (N c). right. now left. Qed.
Lemma quiet_com_a d c l : everywhere quiet_node (Array (d :: AInlineC c :: l)) -> com = true.
Proof. intros [[N|N] _]; [exact N|]. destruct (N c). right. now left. Qed.

Lemma block_place p (ls : list str) : (fm = true -> is_head p = false) ->
  (p = Own \/ p = Head true /\ (forall l ls', ls <> (SP :: l) :: ls')) ->
  weak p = Own \/ weak p = Head true /\ (forall l ls', ls <> (SP :: l) :: ls').
Proof.
  unfold weak. intros F [->|[-> H]]; [now left|]. destruct fm; [discriminate (F eq_refl)|]. right. split; [reflexivity|exact H].
Qed.

Lemma to_fcanon :
  (forall p q al y, canon ut p q al y -> (fm = true -> firm (is_head p) q al y) -> everywhere quiet_node y -> fcanon (weak p) q al y) /\
  (forall lead p l, entries ut lead p l -> (fm = true -> firm_entries (is_head p) l) -> everywhere quiet_node (Hash l) -> fentries lead (weak p) l) /\
  (forall lead l, elements ut lead l -> (fm = true -> firm_elements false l) -> everywhere quiet_node (Array l) -> felements lead l).
Proof.
  apply canon_all.
  - intros p q al y F A _ _. now apply FFlow.
  - intros p q al ls c B A P F _. apply FLiteral; [exact B|exact A|]. now apply block_place.
  - intros p q al ls c B A P F _. apply FFolded; [exact B|exact A|]. now apply block_place.
  - intros p l E IH F Q. apply FHash. apply IH; [|exact Q]. intros X. exact (proj2 (F X)).
  - intros p l b E IH L F Q. apply FHashElem with (b := b && negb fm).
    + apply IH; [|exact Q]. intros X. exact (proj2 (F X)).
    + exact (weak_good (Head b)).
    + intros X. apply andb_prop in X. destruct X as [X Y]. specialize (L X). destruct p as [|b']; [exact I|]. cbn in *. now rewrite L, Y.
  - intros p q a l b E IH L H1 A F Q. apply FHashAlias with (b := b && negb fm).
    + apply IH; [|exact Q]. intros X. destruct q; exact (proj2 (F X)).
    + exact (weak_good (Head b)).
    + intros X. apply andb_prop in X. destruct X as [X Y]. specialize (L X). destruct p as [|b']; [exact I|]. cbn in *. now rewrite L, Y.
    + intros X. specialize (H1 X). destruct p as [|b']; [exact I|]. cbn in H1. subst b'. cbn.
      destruct fm; [|reflexivity]. exfalso. apply (proj1 (F eq_refl)); [reflexivity|discriminate|exact X].
    + exact A.
  - intros p l E IH F Q. apply FArray. exact (IH F Q).
  - intros p q al [al' v] l C IHc E IHe A Q F W. cbn [firm a_alias a_value] in *.
    assert (O : on_line q al = true) by (destruct q; [reflexivity|]; destruct al; [reflexivity|]; destruct Q; congruence).
    rewrite O in F. destruct (quiet_tail_a _ _ W) as [W1 W2]. apply FArrayElem; auto.
    + apply IHc; [|exact W1]. intros X. exact (proj1 (F X)).
    + apply IHe; [|exact W2]. intros X. exact (proj2 (F X)).
  - intros p q al [al' v] c l F' A' OL E IHe A Q F W. cbn [firm a_alias a_value] in *.
    assert (O : on_line q al = true) by (destruct q; [reflexivity|]; destruct al; [reflexivity|]; destruct Q; congruence).
    rewrite O in F. destruct (quiet_tail_a _ _ W) as [W1 W2]. destruct (quiet_tail_a _ _ W2) as [_ W3].
    apply FArrayElemC; auto; [exact (quiet_com_a _ _ _ W)|]. apply IHe; [|exact W3]. intros X. exact (proj2 (F X)).
  - intros p c l O E IH F W. apply FEComment; auto. apply IH; [exact F|]. exact (proj2 (quiet_tail_h _ _ W)).
  - intros lead p [k [al v]] K C IH F W. apply FELast; [exact K|]. apply IH; [intros X; apply (F X)|]. exact (proj1 (quiet_tail_h _ _ W)).
  - intros lead p [k [al v]] c K F' A O F W. apply FELastC; auto. exact (quiet_com_h _ _ _ W).
  - intros lead p [k [al v]] l K C IHc N E IH F W. destruct (quiet_tail_h _ _ W) as [W1 W2].
    apply FECons; [exact K| |now apply weak_not|].
    + apply IHc; [intros X; apply (F X)|exact W1].
    + apply IH; [intros X; apply (F X)|exact W2].
  - intros lead p [k [al v]] c l K F' A O N E IH F W. destruct (quiet_tail_h _ _ W) as [W1 W2].
    destruct (quiet_tail_h _ _ W2) as [_ W3]. apply FEConsC; auto; [exact (quiet_com_h _ _ _ W)|now apply weak_not|].
    apply IH; [intros X; apply (F X)|exact W3].
  - intros c l O E IH F W. apply FNComment; auto. apply IH; [exact F|]. exact (proj2 (quiet_tail_a _ _ W)).
  - intros lead [al v] C IH F W. apply FNLast. apply IH; [intros X; apply (F X)|]. exact (proj1 (quiet_tail_a _ _ W)).
  - intros lead [al v] c F' A O F W. apply FNLastC; auto. exact (quiet_com_a _ _ _ W).
  - intros lead [al v] l C IHc E IH F W. destruct (quiet_tail_a _ _ W) as [W1 W2]. apply FNCons.
    + apply IHc; [intros X; apply (F X)|exact W1].
    + apply IH; [intros X; apply (F X)|exact W2].
  - intros lead [al v] c l F' A O E IH F W. destruct (quiet_tail_a _ _ W) as [W1 W2].
    destruct (quiet_tail_a _ _ W2) as [_ W3]. apply FNConsC; auto; [exact (quiet_com_a _ _ _ W)|].
    apply IH; [intros X; apply (F X)|exact W3].
Qed.

Lemma of_fcanon : (forall p q al y, fcanon p q al y -> canon ut p q al y) /\
  (forall lead p l, fentries lead p l -> entries ut lead p l) /\
  (forall lead l, felements lead l -> elements ut lead l).
Proof.
  apply fcanon_all.
  - intros. now apply CFlow.
  - intros. now apply CLiteral.
  - intros. now apply CFolded.
  - intros. now apply CHash.
  - intros p l b E IH _ L. now apply CHashElem with (b := b).
  - intros p q a l b E IH _ L O A. now apply CHashAlias with (b := b).
  - intros. now apply CArray.
  - intros h q al x l C IHc E IHe O A. apply CArrayElem; auto. destruct q; [now left|]. right. destruct al; discriminate.
  - intros h q al x c l _ F A1 OL E IHe O A. apply CArrayElemC; auto. destruct q; [now left|]. right. destruct al; discriminate.
  - intros. now apply EComment.
  - intros. now apply ELast.
  - intros. now apply ELastC.
  - intros. now apply ECons.
  - intros. now apply EConsC.
  - intros. now apply NComment.
  - intros. now apply NLast.
  - intros. now apply NLastC.
  - intros. now apply NCons.
  - intros. now apply NConsC.
Qed.

(** ---- updates of parts ---- *)

(** [a'] may stand wherever [a] may stand, in entries or (if [q]) elements. *)
Definition may_replace (q : bool) (a a' : aliased) : Prop :=
  (forall p, good_place p -> fcanon p q (a_alias a) (a_value a) -> fcanon p q (a_alias a') (a_value a')) /\
  (com = true -> flow_canon ut (a_value a) -> alias_canon ut (a_alias a) ->
     flow_canon ut (a_value a') /\ alias_canon ut (a_alias a')).

Definition hrel (d d' : hashdata) : Prop :=
  match d, d' with
  | HElem e, HElem e' =>
      (plain_key ut (he_key e) -> plain_key ut (he_key e')) /\ may_replace false (he_value e) (he_value e')
  | HElem _, _ | _, HElem _ => False
  | _, _ => d = d'
  end.
Definition arel (d d' : arraydata) : Prop :=
  match d, d' with
  | AElem a, AElem a' => may_replace true a a'
  | AElem _, _ | _, AElem _ => False
  | _, _ => d = d'
  end.

Lemma replace_refl q a : may_replace q a a.
Proof. split; auto. Qed.
Lemma replace_trans q a b c : may_replace q a b -> may_replace q b c -> may_replace q a c.
Proof. intros [A1 A2] [B1 B2]. split; [auto|]. intros X Y Z. destruct (A2 X Y Z). auto. Qed.
Lemma hrel_refl d : hrel d d.
Proof. destruct d; cbn; auto using replace_refl. Qed.
Lemma arel_refl d : arel d d.
Proof. destruct d; cbn; auto using replace_refl. Qed.
Lemma arel_trans d e f : arel d e -> arel e f -> arel d f.
Proof. destruct d, e; cbn; try contradiction; destruct f; cbn; try contradiction; try congruence. apply replace_trans. Qed.

(** Entries that may take the place of others. *)
Definition hl (l l' : list hashdata) : Prop :=
  (forall lead p, good_place p -> fentries lead p l -> fentries lead p l') /\ entry_count l <= entry_count l'.

Ltac inv2 H := inversion H; subst; clear H.

Lemma hl_pointwise l l' : Forall2 hrel l l' -> hl l l'.
Proof.
  intros F. split.
  - intros lead h G E. revert G l' F. induction E; intros G l' F; inversion F as [|? d' ? l2 R F2]; subst; clear F; destruct d' as [c'|c'|e']; cbn in R; try contradiction; try discriminate.
    + injection R as <-. apply FEComment; auto.
    + inv2 F2. destruct R as [R1 [R2 R3]]. apply FELast; auto.
    + inversion F2 as [|? d2 ? l3 R' F3]; subst; clear F2. inv2 F3. destruct d2; cbn in R'; try contradiction; try discriminate.
      injection R' as <-. destruct R as [R1 [R2 R3]]. edestruct R3; [eassumption..|]. apply FELastC; auto.
    + destruct R as [R1 [R2 R3]]. apply FECons; auto.
    + inversion F2 as [|? d2 ? l3 R' F3]; subst; clear F2. destruct d2; cbn in R'; try contradiction; try discriminate.
      injection R' as <-. destruct R as [R1 [R2 R3]]. edestruct R3; [eassumption..|]. apply FEConsC; auto.
  - unfold entry_count. induction F as [|d d' l l' R F IH]; [apply Nat.le_refl|].
    destruct d, d'; cbn in *; try contradiction; try discriminate; lia.
Qed.

Lemma el_pointwise lead l l' : Forall2 arel l l' -> felements lead l -> felements lead l'.
Proof.
  intros F E. revert l' F. induction E; intros l' F; inversion F as [|? d' ? l2 R F2]; subst; clear F; destruct d' as [c'|c'|e']; cbn in R; try contradiction; try discriminate.
  - injection R as <-. apply FNComment; auto.
  - inv2 F2. destruct R as [R2 R3]. apply FNLast; auto.
  - inversion F2 as [|? d2 ? l3 R' F3]; subst; clear F2. inv2 F3. destruct d2; cbn in R'; try contradiction; try discriminate.
    injection R' as <-. destruct R as [R2 R3]. edestruct R3; [eassumption..|]. apply FNLastC; auto.
  - destruct R as [R2 R3]. apply FNCons; auto.
  - inversion F2 as [|? d2 ? l3 R' F3]; subst; clear F2. destruct d2; cbn in R'; try contradiction; try discriminate.
    injection R' as <-. destruct R as [R2 R3]. edestruct R3; [eassumption..|]. apply FNConsC; auto.
Qed.

Lemma append_entry l k v : fm = true -> plain_key ut k -> fcanon Own false (a_alias v) (a_value v) ->
  hl l (l ++ [HElem (mkHE k v)]).
Proof.
  intros FM K C. split.
  - intros lead h G E. revert G. induction E; intros G; cbn.
    + apply FEComment; auto.
    + apply FECons; auto. now apply FELast.
    + apply FEConsC; auto. now apply FELast.
    + apply FECons; auto.
    + apply FEConsC; auto.
  - unfold entry_count. rewrite filter_app, app_length. lia.
Qed.

(** An update of a node that keeps what is needed. *)
Inductive keeps : yaml -> yaml -> Prop :=
| K_same y : keeps y y
| K_hash l l' : hl l l' -> keeps (Hash l) (Hash l')
| K_array l l' : Forall2 arel l l' -> keeps (Array l) (Array l')
| K_inline l y : (inline_canon ut (InlineArray l) -> y = InlineArray l) -> keeps (InlineArray l) y.

Lemma keeps_replace q al y y' : keeps y y' -> may_replace q (mkA al y) (mkA al y').
Proof.
  intros K. split; cbn [a_alias a_value].
  - intros p G C. inversion K as [|l l' [H1 H2]|l l' F|l y0 E]; subst; [exact C| | |].
    + inversion C as [? ? ? ? X| | |? ? X|? ? b X Y Z|? ? ? ? b X Y Z O W| | | ]; subst; [destruct X|apply FHash; auto| |].
      * apply FHashElem with (b := b); auto.
      * apply FHashAlias with (b := b); auto. intros O1. apply O. unfold one_entry in *. pose proof (fentries_count _ _ _ X). unfold entry_count in *. lia.
    + inversion C as [? ? ? ? X| | | | | |? ? X|? ? ? ? ? X Y Z W|? ? ? ? ? ? C1 X Y Z W]; subst; [destruct X|apply FArray; now apply (el_pointwise _ l)| |].
      * inversion F as [|? d' ? l2 R F2]; subst; clear F. destruct d' as [?|?|x']; cbn in R; try contradiction. destruct R as [R1 R2].
        apply FArrayElem; auto. now apply (el_pointwise _ l0).
      * inversion F as [|? d' ? l2 R F2]; subst; clear F. destruct d' as [?|?|x']; cbn in R; try contradiction. destruct R as [R1 R2].
        inversion F2 as [|? d2 ? l3 R' F3]; subst; clear F2. destruct d2; cbn in R'; try contradiction; try discriminate.
        injection R' as <-. edestruct R2; [eassumption..|]. apply FArrayElemC; auto. now apply (el_pointwise _ l0).
    + inversion C as [? ? ? ? X| | | | | | | |]; subst. rewrite (E X). exact C.
  - intros _ F A. split; [|exact A]. inversion K; subst; [exact F|destruct F|destruct F|]. now rewrite (H F).
Qed.

(** ---- loops ---- *)

Lemma all_loop_rel {X : Type} (A : Type) (add : A -> A -> A) (g : X -> option (A * X)) (R : X -> X -> Prop) :
  (forall x, R x x) -> forall l, (forall x a x', In x l -> g x = Some (a, x') -> R x x') ->
  forall acc, Forall2 R l (snd (all_loop add g acc l)).
Proof.
  intros H1 l. induction l as [|x l IH]; intros H2 acc; cbn [all_loop]; [constructor|].
  specialize (IH (fun x a x' I => H2 x a x' (or_intror I))). specialize (H2 x).
  destruct (g x) as [[a x']|] eqn:E.
  - specialize (IH (add acc a)). destruct (all_loop _ _ _ l) as [b l2]. cbn. constructor; [|exact IH]. eapply H2; [now left|reflexivity].
  - specialize (IH acc). destruct (all_loop _ _ _ l) as [b l2]. cbn. constructor; [apply H1|exact IH].
Qed.

Lemma idx_loop_inv {X L : Type} (A : Type) (add : A -> A -> A) (get : nat -> L -> option X) (set : nat -> X -> L -> L)
  (g : X -> option (A * X)) (P : L -> Prop) :
  (forall i x a x' l, P l -> get i l = Some x -> g x = Some (a, x') -> P (set i x' l)) ->
  forall is_ acc l, P l -> P (snd (idx_loop add get set g is_ acc l)).
Proof.
  intros H is_. induction is_ as [|i is_ IH]; intros acc l Hl; cbn [idx_loop]; [exact Hl|].
  destruct (get i l) as [x|] eqn:E1; [|now apply IH].
  destruct (g x) as [[a x']|] eqn:E2; [|now apply IH]. apply IH. eauto.
Qed.

Lemma set_elem_rel : forall l i a a', get_elem i l = Some a -> may_replace true a a' -> Forall2 arel l (set_elem i a' l).
Proof.
  induction l as [|d l IH]; intros i a a' G R; [discriminate|]. destruct d as [c|c|x]; cbn in *.
  - constructor; [reflexivity|eauto].
  - constructor; [reflexivity|eauto].
  - destruct i as [|i].
    + injection G as ->. constructor; [exact R|]. clear. induction l; constructor; auto using arel_refl.
    + constructor; [apply arel_refl|eauto].
Qed.
Lemma Forall2_arel_trans : forall l1 l2 l3, Forall2 arel l1 l2 -> Forall2 arel l2 l3 -> Forall2 arel l1 l3.
Proof.
  intros l1 l2 l3 F. revert l3. induction F as [|d1 d2 l1 l2 R F IH]; intros l3 G; inversion G; subst; constructor; eauto using arel_trans.
Qed.
Lemma Forall2_refl' {A} (R : A -> A -> Prop) : (forall x, R x x) -> forall l, Forall2 R l l.
Proof. intros H l. induction l; constructor; auto. Qed.
Lemma set_nth_rel : forall l i d d', nth_error l i = Some d -> hrel d d' -> Forall2 hrel l (set_nth i d' l).
Proof.
  induction l as [|x l IH]; intros [|i] d d' G R; try discriminate; cbn in *.
  - injection G as ->. constructor; [exact R|]. apply Forall2_refl', hrel_refl.
  - constructor; [apply hrel_refl|eauto].
Qed.
Lemma set_nth_same {X} : forall (l : list X) i x, nth_error l i = Some x -> set_nth i x l = l.
Proof. induction l as [|y l IH]; intros [|i] x G; try discriminate; cbn in *; [congruence|]. now rewrite (IH _ _ G). Qed.
Lemma Forall2_eq {X} (l l' : list X) : Forall2 eq l l' -> l' = l.
Proof. induction 1; congruence. Qed.

Lemma inline_parts l : inline_canon ut (InlineArray l) -> Forall (inline_canon ut) l.
Proof. cbn. induction l as [|v l IH]; cbn; constructor; [apply H|]. apply IH, H. Qed.

(** ---- structural edits ---- *)

Section Structural.
Context (f : list hashdata -> str -> option nat -> nat * list hashdata).


Lemma edit_inline : forall p y, inline_canon ut y -> snd (edit_hash f p y) = y.
Proof.
  fix IH 1. intros [cs|k cs rest|cs rest|is_ cs rest] y I.
  - reflexivity.
  - cbn. destruct (fits_conditions y cs); [|reflexivity]. destruct y; try reflexivity. destruct I.
  - destruct rest as [o|]; [|reflexivity]. destruct y as [| |els|els| | | | | |]; try reflexivity; [|destruct I].
    cbn [edit_hash]. apply inline_parts in I. rewrite Forall_forall in I.
    match goal with |- context [all_loop ?a ?g 0 els] =>
      pose proof (all_loop_rel _ a g eq (fun x => eq_refl) els) as X; cut (Forall2 eq els (snd (all_loop a g 0 els))) end.
    { destruct (all_loop _ _ 0 els) as [n els']. cbn. intros Y. now rewrite (Forall2_eq _ _ Y). }
    apply X. intros x a x' Hx H. destruct (fits_conditions x cs); [|discriminate]. injection H as H.
    pose proof (IH o x (I x Hx)) as Y. rewrite H in Y. now symmetry.
  - destruct rest as [o|]; [|reflexivity]. destruct y as [| |els|els| | | | | |]; try reflexivity; [|destruct I].
    cbn [edit_hash]. apply inline_parts in I. rewrite Forall_forall in I.
    match goal with |- context [idx_loop ?a ?b ?c ?d ?e ?g ?h] =>
      pose proof (idx_loop_inv _ a b c d (fun l => l = els)) as X; cut (snd (idx_loop a b c d e g h) = els) end.
    { destruct (idx_loop _ _ _ _ is_ 0 els) as [n els']. cbn. intros ->. reflexivity. }
    apply X; [|reflexivity]. intros i x a x' l -> G H. destruct (fits_conditions x cs); [|discriminate]. injection H as H.
    pose proof (IH o x (I x (nth_error_In _ _ G))) as Y. rewrite H in Y. cbn in Y. subst x'. now apply set_nth_same.
Qed.

Lemma edit_keeps : forall p, (forall data k, last_key p = Some k -> hl data (snd (f data k (key_index data k)))) ->
  forall y, keeps y (snd (edit_hash f p y)).
Proof.
  fix IH 1. intros [cs|k cs rest|cs rest|is_ cs rest] Hf y.
  - apply K_same.
  - cbn [edit_hash]. destruct (fits_conditions y cs); [|apply K_same].
    destruct y as [|data| | | | | | | |]; try apply K_same. destruct rest as [o|].
    + destruct (key_index data k) as [i|]; [|apply K_same]. destruct (nth_error data i) as [d|] eqn:N; [|apply K_same].
      destruct d as [c|c|[k' [al v]]]; [apply K_same..|]. unfold edit_value. cbn [a_value he_value he_key a_alias].
      pose proof (IH o Hf v) as K. destruct (edit_hash f o v) as [n v']. cbn in *.
      apply K_hash, hl_pointwise. eapply set_nth_rel; [exact N|]. split; [auto|]. now apply keeps_replace.
    + specialize (Hf data k eq_refl). destruct (f data k _) as [n data']. cbn in *. now apply K_hash.
  - destruct rest as [o|]; [|apply K_same]. destruct y as [| |els|els| | | | | |]; try apply K_same.
    + apply K_inline. intros I. exact (edit_inline (PAll cs (Some o)) (InlineArray els) I).
    + cbn [edit_hash].
      match goal with |- context [all_loop ?a ?g 0 els] =>
        pose proof (all_loop_rel _ a g arel arel_refl els) as X; cut (Forall2 arel els (snd (all_loop a g 0 els))) end.
      { destruct (all_loop _ _ 0 els) as [n els']. cbn. apply K_array. }
      apply X. intros [c|c|[al v]] a x' _ H; try discriminate. cbn [a_value] in H.
      destruct (fits_conditions v cs); [|discriminate]. unfold edit_value in H. cbn [a_value a_alias] in H. pose proof (IH o Hf v) as K.
      destruct (edit_hash f o v) as [n v']. cbn in *. injection H as <- <-. now apply keeps_replace.
  - destruct rest as [o|]; [|apply K_same]. destruct y as [| |els|els| | | | | |]; try apply K_same.
    + apply K_inline. intros I. exact (edit_inline (PIdx is_ cs (Some o)) (InlineArray els) I).
    + cbn [edit_hash].
      match goal with |- context [idx_loop ?a ?b ?c ?d ?e ?g ?h] =>
        pose proof (idx_loop_inv _ a b c d (Forall2 arel els)) as X; cut (Forall2 arel els (snd (idx_loop a b c d e g h))) end.
      { destruct (idx_loop _ _ _ _ is_ 0 els) as [n els']. cbn. apply K_array. }
      apply X; [|apply Forall2_refl', arel_refl]. intros i [al v] a x' l F G H. cbn [a_value a_alias] in H.
      destruct (fits_conditions v cs); [|discriminate]. unfold edit_value in H. cbn [a_value a_alias] in H. pose proof (IH o Hf v) as K.
      destruct (edit_hash f o v) as [n v']. cbn in *. injection H as <- <-.
      eapply Forall2_arel_trans; [exact F|]. eapply set_elem_rel; [exact G|]. now apply keeps_replace.
Qed.
End Structural.

(** ---- edits of single entries ---- *)

Section Single.
Context (f : hash_element -> nat * hash_element) (Hf : forall e, hrel (HElem e) (HElem (snd (f e)))).

Lemma idx_step_inline sel cs elem : forall n y, inline_canon ut y ->
  snd (idx_step 0 Nat.add sel cs elem n y) = y.
Proof.
  induction n as [|n IH]; intros y I; destruct y as [| |els|els| | | | | |]; try reflexivity; try destruct I.
  cbn [idx_step]. apply inline_parts in I. rewrite Forall_forall in I. destruct sel as [is_|].
  - match goal with |- context [idx_loop ?a ?b ?c ?d ?e ?g ?h] =>
      pose proof (idx_loop_inv _ a b c d (fun l => l = els)) as X; cut (snd (idx_loop a b c d e g h) = els) end.
    { destruct (idx_loop _ _ _ _ is_ 0 els) as [m els']. cbn. intros ->. reflexivity. }
    apply X; [|reflexivity]. intros i x a x' l -> G H. destruct (fits_conditions x cs); [|discriminate]. injection H as H.
    pose proof (IH x (I x (nth_error_In _ _ G))) as Y. rewrite H in Y. cbn in Y. subst x'. now apply set_nth_same.
  - match goal with |- context [all_loop ?a ?g 0 els] =>
      pose proof (all_loop_rel _ a g eq (fun x => eq_refl) els) as X; cut (Forall2 eq els (snd (all_loop a g 0 els))) end.
    { destruct (all_loop _ _ 0 els) as [m els']. cbn. intros Y. now rewrite (Forall2_eq _ _ Y). }
    apply X. intros x a x' Hx H. destruct (fits_conditions x cs); [|discriminate]. injection H as H.
    pose proof (IH x (I x Hx)) as Y. rewrite H in Y. now symmetry.
Qed.

Lemma idx_step_keeps sel cs elem n y : (forall v, keeps v (snd (elem v))) ->
  keeps y (snd (idx_step 0 Nat.add sel cs elem n y)).
Proof.
  intros HE. destruct y as [| |els|els| | | | | |]; try (destruct n; apply K_same).
  - apply K_inline. apply idx_step_inline.
  - assert (Q : forall al v a e', on_value elem (mkA al v) = (a, e') -> may_replace true (mkA al v) e').
    { intros al v a e' H. unfold on_value in H. cbn [a_value a_alias] in H. specialize (HE v).
      destruct (elem v) as [m v']. injection H as <- <-. now apply keeps_replace. }
    replace (idx_step 0 Nat.add sel cs elem n (Array els)) with (idx_step 0 Nat.add sel cs elem 0 (Array els)) by (now destruct n).
    cbn [idx_step]. destruct sel as [is_|].
    + match goal with |- context [idx_loop ?a ?b ?c ?d ?e ?g ?h] =>
        pose proof (idx_loop_inv _ a b c d (Forall2 arel els)) as X; cut (Forall2 arel els (snd (idx_loop a b c d e g h))) end.
      { destruct (idx_loop _ _ _ _ is_ 0 els) as [m els']. cbn. apply K_array. }
      apply X; [|apply Forall2_refl', arel_refl]. intros i [al v] a x' l F G H. cbn [a_value a_alias] in H.
      destruct (fits_conditions v cs); [|discriminate]. injection H as H. apply Q in H.
      eapply Forall2_arel_trans; [exact F|]. eapply set_elem_rel; [exact G|exact H].
    + match goal with |- context [all_loop ?a ?g 0 els] =>
        pose proof (all_loop_rel _ a g arel arel_refl els) as X; cut (Forall2 arel els (snd (all_loop a g 0 els))) end.
      { destruct (all_loop _ _ 0 els) as [m els']. cbn. apply K_array. }
      apply X. intros [c|c|[al v]] a x' _ H; try discriminate. cbn [a_value] in H.
      destruct (fits_conditions v cs); [|discriminate]. destruct (on_value elem (mkA al v)) as [m e'] eqn:E. apply Q in E. injection H as <- <-. exact E.
Qed.

Lemma for_keeps : forall p y, keeps y (snd (for_hash 0 Nat.add f zero_r p y)).
Proof.
  fix IH 1. intros [cs|k cs rest|cs rest|is_ cs rest] y.
  - cbn. destruct (fits_conditions y cs); apply K_same.
  - cbn [for_hash]. destruct (fits_conditions y cs); [|apply K_same].
    destruct y as [|data| | | | | | | |]; try apply K_same.
    destruct (key_index data k) as [i|]; [|apply K_same]. destruct (nth_error data i) as [d|] eqn:N; [|apply K_same].
    destruct d as [c|c|e]; [apply K_same..|].
    assert (S : forall e', hrel (HElem e) (HElem e') -> keeps (Hash data) (Hash (set_nth i (HElem e') data))).
    { intros e' R. apply K_hash, hl_pointwise. eapply set_nth_rel; [exact N|exact R]. }
    destruct rest as [o|].
    + destruct e as [k' [al v]]. unfold on_value. cbn [a_value he_value he_key a_alias].
      pose proof (IH o v) as K. destruct (for_hash 0 Nat.add f zero_r o v) as [n v']. cbn in *.
      apply S. split; [auto|]. now apply keeps_replace.
    + destruct (seqb k (he_key e)).
      * specialize (Hf e). destruct (f e) as [n e']. cbn in *. now apply S.
      * apply S. apply hrel_refl.
  - cbn [for_hash]. apply idx_step_keeps. destruct rest as [o|]; [exact (IH o)|]. intros v. apply K_same.
  - cbn [for_hash]. apply idx_step_keeps. destruct rest as [o|]; [exact (IH o)|]. intros v. apply K_same.
Qed.
End Single.

Lemma fcanon_own p q al y : fcanon p q al y -> fcanon Own q al y.
Proof.
  intros C. inversion C; subst.
  - now apply FFlow.
  - apply FLiteral; auto.
  - apply FFolded; auto.
  - now apply FHash.
  - apply FHashElem with (b := b); cbn; auto.
  - apply FHashAlias with (b := b); cbn; auto.
  - now apply FArray.
  - now apply FArrayElem.
  - now apply FArrayElemC.
Qed.
End Edit.
