(** Moving top-level entries into a subfield, from file to file. *)
From Verif Require Import Base Ast Path Strings Peg YamlGrammar PathGrammar Consume Format Insert MoveDoc Spec_Insert InsertFacts3 InsertFacts4
  InsertFacts5 Spec_Path PathFacts Spec_Parse Spec_Format FormatTree Spec_Stable StableFacts Spec_Edit EditFacts EditFacts2
  Spec_Move MoveFacts Spec_Rearrange EditFacts3 EditFacts4 EditFacts5.
Import ListNotations.

Section Root.
Context (ut : unitab).

Definition own_entry (d : hashdata) : Prop :=
  match d with HElem (mkHE k (mkA al v)) => plain_key ut k /\ canon ut Own false al v | _ => False end.

Lemma entries_own lead p l : entries ut lead p l -> p = Own -> no_comment (Hash l) -> l <> [] /\ Forall own_entry l.
Proof.
  induction 1 as [p c l O E IH|lead p [k [al v]] K C|lead p [k [al v]] c K F A O|lead p [k [al v]] l K C N E IH|lead p [k [al v]] c l K F A O N E IH];
    intros -> W.
  - specialize (W _ (or_introl eq_refl)). discriminate.
  - split; [discriminate|]. constructor; [split; assumption|constructor].
  - specialize (W _ (or_intror (or_introl eq_refl))). discriminate.
  - split; [discriminate|]. constructor; [split; assumption|]. apply IH; [reflexivity|]. intros x X. apply W. now right.
  - specialize (W _ (or_intror (or_introl eq_refl))). discriminate.
Qed.
Lemma own_entries l : l <> [] -> Forall own_entry l -> forall lead, entries ut lead Own l.
Proof.
  intros N H. induction H as [|d l Hd H IH]; intros lead; [congruence|]. destruct d as [c|c|[k [al v]]]; try contradiction. destruct Hd as [K C].
  destruct l as [|d l]; [now apply ELast|]. apply ECons; [exact K|exact C|discriminate|]. apply IH. discriminate.
Qed.

Lemma own_drop names : forall l, Forall own_entry l -> Forall own_entry (drop_all names l).
Proof.
  unfold drop_all. induction names as [|k names IH]; intros l H; [exact H|]. cbn [fold_left]. apply IH.
  clear IH. induction H as [|d l Hd H IH]; [constructor|]. cbn. destruct d as [c|c|[k' v]]; try contradiction. destruct (seqb k' k); [exact H|now constructor].
Qed.
Lemma own_put k v l : own_entry (HElem (mkHE k v)) -> Forall own_entry l -> Forall own_entry (put k v l).
Proof.
  intros Hk H. induction H as [|d l Hd H IH]; [constructor; [exact Hk|constructor]|]. cbn. destruct d as [c|c|[k' v']]; try contradiction.
  destruct (seqb k' k); now constructor.
Qed.
Lemma own_put_all fields : Forall (fun f => own_entry (entry_of f)) fields -> forall l, Forall own_entry l -> Forall own_entry (put_all fields l).
Proof.
  unfold put_all. induction 1 as [|[k v] fields Hf _ IH]; intros l H; [exact H|]. cbn [fold_left]. apply IH. now apply own_put.
Qed.
Lemma first_own l k v : Forall own_entry l -> first_value k l = Some v -> own_entry (HElem (mkHE k v)).
Proof.
  intros H E. destruct (first_value_split _ _ _ E) as (a & b & -> & _). rewrite Forall_forall in H. apply H. apply in_or_app. right. now left.
Qed.
Lemma own_chosen names l : Forall own_entry l -> Forall (fun f => own_entry (entry_of f)) (chosen names l).
Proof.
  intros H. apply Forall_forall. intros [k v] X. apply chosen_in in X. destruct X as [_ X]. now apply (first_own l).
Qed.

Lemma put_nonempty k v l : put k v l <> [].
Proof. destruct l as [|[c|c|[k' v']] l]; cbn; try discriminate. destruct (seqb k' k); discriminate. Qed.
Lemma put_all_nonempty fields : forall l, l <> [] -> put_all fields l <> [].
Proof. unfold put_all. induction fields as [|[k v] fields IH]; intros l N; [exact N|]. cbn [fold_left]. apply IH, put_nonempty. Qed.

Theorem subfield_root s d l sub names : parse_yaml ut s = CVal d -> calm_doc ut d -> root_of d (Hash l) ->
  no_comment (Hash l) -> plain_key ut sub -> Forall (plain (lit "[].|")) names -> NoDup names -> ~ In sub names -> chosen names l <> [] ->
  (first_value sub l = None \/ exists old, first_value sub l = Some (mkA None (Hash old)) /\ no_comment (Hash old)) ->
  exists d' after, move_to_subfield_doc parse_path (PRoot []) sub names d = (Some 1, d')
    /\ root_of d' (Hash after) /\ moved_under sub names l after /\ parse_yaml ut (format_doc d') = CVal d'.
Proof.
  intros E Cm (a & b & Ei) W K Pn Nd Ni Ch Hs. pose proof (calm_canon ut s d E Cm) as [L (a' & y & b' & Ei' & Ha & Hb & C)].
  assert (X : a' = a /\ y = Hash l /\ b' = b).
  { clear -Ei Ei'. rewrite Ei in Ei'. clear Ei. revert a' Ei'. induction a as [|c a IH]; intros [|c' a'] X; cbn in X; try discriminate.
    - injection X as X1 X2. subst y. split; [reflexivity|split; [reflexivity|]].
      clear -X2. revert b' X2. induction b as [|c b IH]; intros [|c' b'] X; try discriminate; [reflexivity|]. cbn in X. injection X as -> X. f_equal. auto.
    - injection X as -> X. destruct (IH a' X) as (-> & -> & ->). auto. }
  destruct X as (-> & -> & ->). clear Ei'. destruct (entries_own _ _ _ C eq_refl W) as [N Own].
  assert (Hmoved : exists after, move_to_subfield parse_path (PRoot []) sub names (Hash l) = (Some 1, Hash after)
    /\ moved_under sub names l after /\ after <> [] /\ Forall own_entry after).
  { assert (Hs' : first_value sub l = None \/ exists al old, first_value sub l = Some (mkA al (Hash old))).
    { destruct Hs as [Hs|(old & Hs & _)]; [now left|right; eauto]. }
    destruct (move_conserves sub names l (key_plain ut sub K) Pn Nd Ni Ch Hs') as (after & M & U). exists after. split; [exact M|]. split; [exact U|].
    pose proof (own_chosen names l Own) as Oc.
    assert (Na : after <> []).
    { destruct U as (_ & _ & al & inner & U & _). intros ->. discriminate U. }
    split; [exact Na|]. destruct Hs as [Hs|(old & Hs & Wo)].
    - rewrite (move_new sub names l (key_plain ut sub K) Pn Hs Ch) in M. injection M as <-.
      apply Forall_app. split; [now apply own_drop|]. constructor; [|constructor]. split; [exact K|]. apply CHash. apply own_entries.
      + intros Z. apply map_eq_nil in Z. contradiction.
      + clear -Oc. induction Oc; constructor; auto.
    - rewrite (move_into sub names l None old (key_plain ut sub K) Pn Hs Ch) in M. injection M as <-.
      destruct (first_own l sub _ Own Hs) as [_ Co]. apply own_drop, own_put; [|exact Own]. split; [exact K|].
      assert (Eo : entries ut true Spec_Format.Own old) by (inversion Co; subst; [contradiction|assumption]).
      destruct (entries_own _ _ _ Eo eq_refl Wo) as [No Oo]. apply CHash, own_entries; [now apply put_all_nonempty|now apply own_put_all]. }
  destruct Hmoved as (after & M & U & Na & Oa).
  exists (mkDoc (leading d) (map DComment a ++ DYaml (Hash after) :: map DComment b)), after.
  assert (Z : forall n l0, all_loop opt_add (fun x => Some (for_hash_docdata (Some 0) opt_add
     (on_elem_value (mts_r parse_path sub names)) (mts_r parse_path sub names) (PRoot []) x)) (Some n) (map DComment l0) = (Some n, map DComment l0)).
  { intros n l0. induction l0 as [|c l0 IH]; [reflexivity|]. cbn [map all_loop for_hash_docdata opt_add]. rewrite Nat.add_0_r, IH. reflexivity. }
  split; [|split; [now exists a, b|split; [exact U|]]].
  - unfold move_to_subfield_doc, for_hash_doc. rewrite Ei. unfold move_to_subfield in M.
    clear -M Z. assert (Y : forall l0 n, all_loop opt_add (fun x => Some (for_hash_docdata (Some 0) opt_add
     (on_elem_value (mts_r parse_path sub names)) (mts_r parse_path sub names) (PRoot []) x)) (Some n) (map DComment l0 ++ DYaml (Hash l) :: map DComment b)
      = (Some (n + 1), map DComment l0 ++ DYaml (Hash after) :: map DComment b)).
    { induction l0 as [|c l0 IH]; intros n.
      - cbn [map app all_loop for_hash_docdata]. rewrite M. cbn [opt_add]. now rewrite Z.
      - cbn [map app all_loop for_hash_docdata opt_add]. now rewrite Nat.add_0_r, IH. }
    now rewrite Y.
  - apply format_parse. split; [exact L|]. exists a, (Hash after), b. split; [reflexivity|]. split; [exact Ha|]. split; [exact Hb|].
    now apply own_entries.
Qed.
End Root.
