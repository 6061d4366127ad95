(** Moving entries into a mapping below. *)
From Verif Require Import Base Ast Strings Path Insert MoveDoc Format Peg PathGrammar Spec_Path PathFacts Spec_Parse Spec_Edit Spec_Local LocalFacts LocalFacts2 Spec_Yaml12
  Spec_Portable PortableFacts UniqueBlock Spec_Amend AmendFacts Spec_Named NamedFacts Spec_Insert InsertFacts2 Spec_Move MoveFacts Spec_Gather GatherFacts YamlGrammar Consume Spec_Layout Spec_Common Spec_Change ChangeFacts Spec_Shift.
Import ListNotations.

(** ---- the data ---- *)
Lemma drop_nodes k l : map_nodes (drop_first k l) = drop k (map_nodes l).
Proof.
  unfold drop. induction l as [|[c|c|[k' [al v]]] l IH]; [reflexivity|exact IH|exact IH|]. cbn. destruct (seqb k' k); [reflexivity|]. cbn. f_equal. exact IH.
Qed.
Lemma drops_nodes names : forall l, map_nodes (drop_all names l) = rest_of names (map_nodes l).
Proof. unfold drop_all, rest_of. induction names as [|k names IH]; intros l; [reflexivity|]. cbn [fold_left]. now rewrite IH, drop_nodes. Qed.
Lemma put_nodes k v l : map_nodes (Spec_Move.put k v l) = put k (node_of v) true (map_nodes l).
Proof.
  unfold put. induction l as [|[c|c|[k' [al w]]] l IH]; [now destruct v|exact IH|exact IH|]. cbn.
  destruct (seqb k' k) eqn:S; [now destruct v|]. cbn. change (flat_map _ (Spec_Move.put k v l)) with (map_nodes (Spec_Move.put k v l)). rewrite IH.
  change (flat_map _ l) with (map_nodes l). now destruct (entry k (map_nodes l)).
Qed.
Lemma taken_nodes names l : taken names (map_nodes l) = map (fun f => (fst f, node_of (snd f))) (chosen names l).
Proof.
  unfold taken, chosen. induction names as [|k names IH]; [reflexivity|]. cbn [flat_map]. rewrite map_app, <- IH, entry_first. f_equal.
  now destruct (first_value k l).
Qed.
Lemma puts_nodes fs : forall l, map_nodes (put_all fs l) = fold_left (fun l f => put (fst f) (snd f) true l) (map (fun f => (fst f, node_of (snd f))) fs) (map_nodes l).
Proof. unfold put_all. induction fs as [|[k v] fs IH]; intros l; [reflexivity|]. cbn [fold_left map fst snd]. now rewrite IH, put_nodes. Qed.
Lemma entries_nodes fs : map_nodes (map entry_of fs) = map (fun f => (key_node (fst f), snd f)) (map (fun f => (fst f, node_of (snd f))) fs).
Proof. induction fs as [|[k [al v]] fs IH]; [reflexivity|]. cbn. f_equal. exact IH. Qed.

(** ---- rows without comments ---- *)
Definition row (d : hashdata) : Prop := exists k a, d = HElem (mkHE k a) /\ key_portable k /\ portable a.
Lemma row_rows l : Forall row l -> map_rows l.
Proof. induction 1 as [|d l (k & a & -> & K & A) _ IH]; [constructor|]. now apply MREntry. Qed.
Lemma rows_row l : map_rows l -> no_comment (Hash l) -> Forall row l.
Proof.
  intros R N. rewrite Forall_forall. intros d I. pose proof (N d I) as E. destruct d as [c|c|[k a]]; try discriminate E.
  apply in_split in I as (b & c & ->). destruct (rows_mid _ _ _ _ R) as (K & P & _). exists k, a. auto.
Qed.
Lemma row_drop k l : Forall row l -> Forall row (drop_first k l).
Proof. induction 1 as [|d l (k' & a & -> & K & A) F IH]; [constructor|]. cbn. destruct (seqb k' k); [exact F|]. constructor; [now exists k', a|exact IH]. Qed.
Lemma row_drops names : forall l, Forall row l -> Forall row (drop_all names l).
Proof. unfold drop_all. induction names as [|k names IH]; intros l H; [exact H|]. cbn [fold_left]. now apply IH, row_drop. Qed.
Lemma row_put k v l : key_portable k -> portable v -> Forall row l -> Forall row (Spec_Move.put k v l).
Proof.
  intros K V. induction 1 as [|d l (k' & a & -> & K' & A) F IH]; [constructor; [now exists k, v|constructor]|].
  cbn. destruct (seqb k' k); constructor; auto; [now exists k, v|now exists k', a].
Qed.
Lemma row_first k l a : Forall row l -> first_value k l = Some a -> key_portable k /\ portable a.
Proof.
  induction 1 as [|d l (k' & v & -> & K & A) F IH]; intros H; [discriminate|]. cbn in H. destruct (seqb k' k) eqn:S; [|auto].
  injection H as <-. apply seqb_eq in S. subst. auto.
Qed.
Definition field (f : str * aliased) : Prop := key_portable (fst f) /\ portable (snd f).
Lemma row_chosen names l : Forall row l -> Forall field (chosen names l).
Proof.
  intros H. unfold chosen. induction names as [|k names IH]; [constructor|]. cbn [flat_map]. apply Forall_app. split; [|exact IH].
  destruct (first_value k l) eqn:F; [|constructor]. constructor; [|constructor]. exact (row_first _ _ _ H F).
Qed.
Lemma row_puts fs : Forall field fs -> forall l, Forall row l -> Forall row (put_all fs l).
Proof. unfold put_all. induction 1 as [|[k v] fs [K V] _ IH]; intros l L; [exact L|]. cbn [fold_left]. apply IH. now apply row_put. Qed.
Lemma puts_some fs : fs <> [] -> forall l, exists e, In (HElem e) (put_all fs l).
Proof.
  assert (P : forall fs l, (exists e, In (HElem e) l) -> exists e, In (HElem e) (put_all fs l)).
  { assert (Q : forall k v l, exists e, In (HElem e) (Spec_Move.put k v l)).
    { intros k v. induction l as [|[c|c|[k' w]] l (e & IH)]; cbn.
      - eexists; now left.
      - exists e; now right.
      - exists e; now right.
      - destruct (seqb k' k); eexists; now left. }
    induction fs0 as [|[k v] fs0 IH]; intros l H; [exact H|]. unfold put_all. cbn [fold_left]. apply IH. apply Q. }
  assert (Q : forall k v l, exists e, In (HElem e) (Spec_Move.put k v l)).
  { intros k v. induction l as [|[c|c|[k' w]] l (e & IH)]; cbn.
    - eexists; now left.
    - exists e; now right.
    - exists e; now right.
    - destruct (seqb k' k); eexists; now left. }
  destruct fs as [|[k v] fs]; [easy|]. intros _ l. unfold put_all. cbn [fold_left]. apply (P fs). apply Q.
Qed.

(** ---- documents ---- *)
Lemma moved_doc sub names l after d : move_to_subfield parse_path (Path.PRoot []) sub names (Hash l) = (Some 1, Hash after) -> forall a b, items d = map DComment a ++ DYaml (Hash l) :: map DComment b ->
  move_to_subfield_doc parse_path (Path.PRoot []) sub names d = (Some 1, mkDoc (leading d) (map DComment a ++ DYaml (Hash after) :: map DComment b)).
Proof.
  intros M a b Ei.
  assert (Z : forall n l0, all_loop opt_add (fun x => Some (for_hash_docdata (Some 0) opt_add
     (on_elem_value (mts_r parse_path sub names)) (mts_r parse_path sub names) (Path.PRoot []) x)) (Some n) (map DComment l0) = (Some n, map DComment l0)).
  { intros n l0. induction l0 as [|c l0 IH]; [reflexivity|]. cbn [map all_loop for_hash_docdata opt_add]. rewrite Nat.add_0_r, IH. reflexivity. }
  unfold move_to_subfield_doc, for_hash_doc. rewrite Ei. unfold move_to_subfield in M.
  assert (Y : forall l0 n, all_loop opt_add (fun x => Some (for_hash_docdata (Some 0) opt_add
     (on_elem_value (mts_r parse_path sub names)) (mts_r parse_path sub names) (Path.PRoot []) x)) (Some n) (map DComment l0 ++ DYaml (Hash l) :: map DComment b)
      = (Some (n + 1), map DComment l0 ++ DYaml (Hash after) :: map DComment b)).
  { induction l0 as [|c l0 IH]; intros n.
    - cbn [map app all_loop for_hash_docdata]. rewrite M. cbn [opt_add]. now rewrite Z.
    - cbn [map app all_loop for_hash_docdata opt_add]. now rewrite Nat.add_0_r, IH. }
  now rewrite Y.
Qed.

Lemma drop_kept sub names : ~ In sub names -> forall l e, In (HElem e) l -> he_key e = sub -> In (HElem e) (drop_all names l).
Proof.
  intros N l e I K. unfold drop_all. revert N l I. induction names as [|k names IH]; intros N l I; [exact I|]. cbn [fold_left]. apply IH; [intros X; apply N; now right|].
  assert (Nk : k <> sub) by (intros ->; apply N; now left). clear - I K Nk.
  induction l as [|d l IH]; [destruct I|]. destruct I as [-> |I].
  - destruct e as [k' v]. cbn in K. subst k'. cbn. destruct (seqb sub k) eqn:S; [apply seqb_eq in S; congruence|now left].
  - destruct d as [c|c|[k' v]]; cbn; [right; auto|right; auto|]. destruct (seqb k' k); [exact I|right; auto].
Qed.
Lemma put_there k v l : In (HElem (mkHE k v)) (Spec_Move.put k v l).
Proof. induction l as [|[c|c|[k' w]] l IH]; cbn; [now left|now right|now right|]. destruct (seqb k' k); [now left|now right]. Qed.

Lemma shift_core l sub names : Forall row l -> key_portable sub -> Spec_Path.plain (lit "[].|") sub ->
  Forall (Spec_Path.plain (lit "[].|")) names -> ~ In sub names -> chosen names l <> [] ->
  (first_value sub l = None \/ exists al old, first_value sub l = Some (mkA al (Hash old)) /\ no_comment (Hash old)) ->
  exists after, move_to_subfield parse_path (Path.PRoot []) sub names (Hash l) = (Some 1, Hash after) /\ Forall row after /\ (exists e, In (HElem e) after) /\
    map_nodes after = shift sub names (map_nodes l).
Proof.
  intros F K P Pn Ni Ch Hs.
  pose proof (row_chosen names l F) as Fc. destruct Hs as [Hs|(al & old & Hs & Wo)].
    - eexists. split; [exact (move_new sub names l P Pn Hs Ch)|]. split; [|split].
      + apply Forall_app. split; [now apply row_drops|]. constructor; [|constructor]. eexists sub, _. split; [reflexivity|]. split; [exact K|].
        apply PHash; [exact I| |].
        * apply row_rows. clear - Fc. induction Fc as [|[k v] fs [Hk Hv] _ IH]; constructor; [now exists k, v|exact IH].
        * destruct (chosen names l) as [|[k v] fs]; [easy|]. eexists. now left.
      + eexists. apply in_or_app. right. now left.
      + unfold shift. rewrite entry_first, Hs. cbn [option_map]. rewrite nodes_app, drops_nodes. f_equal. cbn. f_equal. f_equal. f_equal. f_equal.
        rewrite taken_nodes. exact (entries_nodes _).
    - eexists. split; [exact (move_into sub names l al old P Pn Hs Ch)|]. destruct (row_first _ _ _ F Hs) as [_ Po].
      assert (Ro : map_rows old /\ Spec_Portable.names al) by (inversion Po as [? O| | |? ? Na R' _|]; subst; [destruct O as (O & Na & _); split; [destruct old; [constructor|contradiction O]|exact Na]|split; [exact R'|exact Na]]).
      destruct Ro as [Ro Na]. pose proof (rows_row old Ro Wo) as Fo. split; [|split].
      + apply row_drops, row_put; [exact K| |exact F]. apply PHash; [exact Na|apply row_rows; now apply row_puts|now apply puts_some].
      + eexists. eapply (drop_kept sub names Ni); [apply put_there|reflexivity].
      + unfold shift. rewrite entry_first, Hs. cbn [option_map node_of]. change (content_of (Hash old)) with (Mapping (map_nodes old)). cbn iota.
        rewrite drops_nodes, put_nodes. cbn [node_of]. change (content_of (Hash ?z)) with (Mapping (map_nodes z)). now rewrite puts_nodes, taken_nodes.
Qed.

Theorem shift_turns d l sub names : portable_doc d (Hash l) -> no_comment (Hash l) -> key_portable sub -> Spec_Path.plain (lit "[].|") sub ->
  Forall (Spec_Path.plain (lit "[].|")) names -> ~ In sub names -> chosen names l <> [] ->
  (first_value sub l = None \/ exists al old, first_value sub l = Some (mkA al (Hash old)) /\ no_comment (Hash old)) ->
  exists d', move_to_subfield_doc parse_path (Path.PRoot []) sub names d = (Some 1, d') /\
    turns (shift_top sub names) (format_doc d ++ [NL]) (format_doc d' ++ [NL]).
Proof.
  intros D W K P Pn Ni Ch Hs.
  assert (L : exists cs0 cs cs1, d = mkDoc cs0 (map DComment cs ++ DYaml (Hash l) :: map DComment cs1) /\ Forall comment_text cs0 /\ Forall comment_text cs /\ Forall comment_text cs1 /\ map_rows l).
  { inversion D as [cs0 cs y cs1 C0 C C1 Pl B|cs0 y cs1 C0 C1 O]; subst.
    - exists cs0, cs, cs1. repeat split; auto. inversion Pl as [? O| | |? ? ? R _|]; subst; [|exact R]. destruct O as [O _]. destruct l; [contradiction B|contradiction O].
    - exists cs0, [], cs1. repeat split; auto. destruct O as [O _]. destruct l; [constructor|contradiction O]. }
  destruct L as (cs0 & cs & cs1 & -> & C0 & C & C1 & R). pose proof (rows_row l R W) as F.
  assert (A : exists after, move_to_subfield parse_path (Path.PRoot []) sub names (Hash l) = (Some 1, Hash after) /\ Forall row after /\ (exists e, In (HElem e) after) /\
    map_nodes after = shift sub names (map_nodes l)).
  { now apply shift_core. }
  destruct A as (after & M & Fa & (e & Ie) & E). eexists. split; [exact (moved_doc sub names l after (mkDoc cs0 (map DComment cs ++ DYaml (Hash l) :: map DComment cs1)) M cs cs1 eq_refl)|]. cbn [leading].
  assert (D' : portable_doc (mkDoc cs0 (map DComment cs ++ DYaml (Hash after) :: map DComment cs1)) (Hash after)).
  { apply PDoc; auto; [|destruct after; [destruct Ie|exact I]]. apply PHash; [exact I|now apply row_rows|eauto]. }
  split; [eexists; exact (doc_wrote _ _ D)|]. intros x X. rewrite (file_one _ _ _ X (doc_wrote _ _ D)).
  pose proof (doc_wrote _ _ D') as X'. change (content_of (Hash after)) with (Mapping (map_nodes after)) in X'. now rewrite E in X'.
Qed.

(** ---- below keys ---- *)
Lemma rows_of al l : portable (mkA al (Hash l)) -> Spec_Portable.names al /\ map_rows l.
Proof. intros P. inversion P as [? O| | |? ? Na R' _|]; subst; [destruct O as (O & Na & _); split; [exact Na|destruct l; [constructor|contradiction O]]|now split]. Qed.
Lemma first_mid k a : forall l, first_value k l = Some a -> exists b c, l = b ++ HElem (mkHE k a) :: c /\ key_index b k = None.
Proof.
  induction l as [|[x|x|[k' v]] l IH]; intros H; [discriminate| | |].
  - destruct (IH H) as (b & c & -> & B). exists (HInlineC x :: b), c. cbn. now rewrite B.
  - destruct (IH H) as (b & c & -> & B). exists (HComment x :: b), c. cbn. now rewrite B.
  - cbn in H. destruct (seqb k' k) eqn:S.
    + injection H as ->. apply seqb_eq in S. subst. now exists [], l.
    + destruct (IH H) as (b & c & -> & B). exists (HElem (mkHE k' v) :: b), c. cbn. now rewrite S, B.
Qed.
Lemma set_mid {X} (x y : X) c : forall b, set_nth (length b) y (b ++ x :: c) = b ++ y :: c.
Proof. induction b as [|z b IH]; [reflexivity|]. cbn. now rewrite IH. Qed.

Section Below.
  Context (l : list hashdata) (sub : str) (nms : list str).
  Let f := on_elem_value (mts_r parse_path sub nms).
  Let r := mts_r parse_path sub nms.
  Definition good (h : yaml -> option nat * yaml) (c : node -> node) (y : yaml) : Prop := forall al, portable (mkA al y) -> ~ on_line (mkA al y) /\
    exists y', h y = (Some 1, y') /\ portable (mkA al y') /\ ~ on_line (mkA al y') /\ Node al (content_of y') = c (Node al (content_of y)).
  Lemma key_good k o h c m al v : (forall e, match o with None => f e | Some q => let '(a, w) := on_value (for_hash (Some 0) opt_add f r q) (he_value e) in (a, mkHE (he_key e) w) end
      = let '(n, z) := h (a_value (he_value e)) in (n, mkHE (he_key e) (mkA (a_alias (he_value e)) z))) ->
    first_value k m = Some (mkA al v) -> good h c v ->
    good (for_hash (Some 0) opt_add f r (PKey k [] o)) (fun x => match x with Node al (Mapping es) => Node al (Mapping (at_entry k (fun e => [(fst e, c (snd e))]) es)) | _ => x end) (Hash m).
  Proof.
    intros Ho Fv G al0 P. destruct (first_mid _ _ _ Fv) as (b & d & -> & B). destruct (rows_of _ _ P) as [Na R].
    destruct (rows_mid _ _ _ _ R) as (K & Pv & Ov & Re & _). destruct (G al Pv) as (Nv & v' & E & Pv' & Nv' & C).
    assert (Nh : forall x b0 d0, ~ on_line (mkA al0 (Hash (b0 ++ HElem x :: d0)))) by (intros x b0 d0 [O _]; destruct b0; exact O).
    split; [apply Nh|]. exists (Hash (b ++ HElem (mkHE k (mkA al v')) :: d)). split; [|split; [|split; [apply Nh|]]].
    - cbn [for_hash]. rewrite fits_nil, (key_index_at _ _ _ _ B), nth_at. specialize (Ho (mkHE k (mkA al v))). cbn [he_value he_key a_value a_alias] in *. rewrite E in Ho.
      destruct o as [q|].
      + rewrite Ho. now rewrite set_mid.
      + rewrite (proj2 (seqb_eq k k) eq_refl), Ho. now rewrite set_mid.
    - apply PHash; [exact Na| |eexists; apply in_or_app; right; now left]. apply Re; auto. intros H. now apply Ov in H.
    - change (content_of (Hash ?z)) with (Mapping (map_nodes z)). cbn iota. rewrite (at_entry_mid _ _ _ _ _ B). cbn [fst snd node_of]. rewrite <- C, nodes_mid. reflexivity.
  Qed.
  Lemma keys_good ks k : forall m, reaches (ks ++ [k]) (Hash m) l -> good r (shift_top sub nms) (Hash l) ->
    good (for_hash (Some 0) opt_add f r (keys_path ks k)) (shift_at (ks ++ [k]) sub nms) (Hash m).
  Proof.
    induction ks as [|a ks IH]; intros m H G; cbn [app keys_path shift_at] in *.
    - inversion H as [|? ? al v ? ? Fv H']; subst. inversion H'; subst.
      refine (key_good k None r (shift_top sub nms) m al _ _ Fv G). intros e. reflexivity.
    - inversion H as [|? ? al v ? ? Fv H']; subst. assert (Hv : exists m', v = Hash m') by (destruct ks; inversion H'; eauto). destruct Hv as [m' ->].
      refine (key_good a (Some (keys_path ks k)) _ (shift_at (ks ++ [k]) sub nms) m al _ _ Fv (IH m' H' G)). intros e. unfold on_value.
      destruct (for_hash _ _ _ _ _ (a_value (he_value e))). reflexivity.
  Qed.
End Below.
Lemma moved_below sub names p y y' d : move_to_subfield parse_path p sub names y = (Some 1, y') -> forall a b, items d = map DComment a ++ DYaml y :: map DComment b ->
  move_to_subfield_doc parse_path p sub names d = (Some 1, mkDoc (leading d) (map DComment a ++ DYaml y' :: map DComment b)).
Proof.
  intros M a b Ei. unfold move_to_subfield_doc, for_hash_doc. rewrite Ei. unfold move_to_subfield in M.
  set (g := fun x => Some (for_hash_docdata (Some 0) opt_add (on_elem_value (mts_r parse_path sub names)) (mts_r parse_path sub names) p x)).
  assert (Z : forall n l0, all_loop opt_add g (Some n) (map DComment l0) = (Some n, map DComment l0)).
  { intros n l0. induction l0 as [|c l0 IH]; [reflexivity|]. cbn [map all_loop]. unfold g at 1. cbn [for_hash_docdata opt_add]. rewrite Nat.add_0_r, IH. reflexivity. }
  assert (Y : forall l0 n, all_loop opt_add g (Some n) (map DComment l0 ++ DYaml y :: map DComment b) = (Some (n + 1), map DComment l0 ++ DYaml y' :: map DComment b)).
  { induction l0 as [|c l0 IH]; intros n.
    - cbn [map app all_loop]. unfold g at 1. cbn [for_hash_docdata]. rewrite M. cbn [opt_add]. now rewrite Z.
    - cbn [map app all_loop]. unfold g at 1. cbn [for_hash_docdata opt_add]. now rewrite Nat.add_0_r, IH. }
  now rewrite Y.
Qed.

Theorem shift_below d m ks k l sub names : portable_doc d (Hash m) -> reaches (ks ++ [k]) (Hash m) l -> no_comment (Hash l) -> key_portable sub -> Spec_Path.plain (lit "[].|") sub ->
  Forall (Spec_Path.plain (lit "[].|")) names -> ~ In sub names -> chosen names l <> [] ->
  (first_value sub l = None \/ exists al old, first_value sub l = Some (mkA al (Hash old)) /\ no_comment (Hash old)) ->
  exists d', move_to_subfield_doc parse_path (keys_path ks k) sub names d = (Some 1, d') /\
    turns (shift_at (ks ++ [k]) sub names) (format_doc d ++ [NL]) (format_doc d' ++ [NL]).
Proof.
  intros D Re W K P Pn Ni Ch Hs.
  assert (G : good (mts_r parse_path sub names) (shift_top sub names) (Hash l)).
  { intros al Pl. destruct (rows_of _ _ Pl) as [Na R]. destruct (shift_core l sub names (rows_row l R W) K P Pn Ni Ch Hs) as (after & M & Fa & (e & Ie) & E).
    split; [|exists (Hash after); split; [exact M|split; [|split]]].
    - intros [O _]. destruct l; [apply Ch; clear; unfold chosen; now induction names|exact O].
    - apply PHash; [exact Na|now apply row_rows|eauto].
    - intros [O _]. destruct after; [destruct Ie|exact O].
    - change (content_of (Hash ?z)) with (Mapping (map_nodes z)). cbn. now rewrite E. }
  pose proof (keys_good l sub names ks k m Re G) as T.
  assert (Nm : m <> []) by (intros ->; destruct ks; inversion Re; discriminate).
  assert (L : exists cs0 cs cs1, d = mkDoc cs0 (map DComment cs ++ DYaml (Hash m) :: map DComment cs1) /\ Forall comment_text cs0 /\ Forall comment_text cs /\ Forall comment_text cs1 /\ portable (mkA None (Hash m))).
  { inversion D as [cs0 cs y cs1 C0 C C1 Pl B|cs0 y cs1 C0 C1 O]; subst; [now exists cs0, cs, cs1|]. destruct O as [O _]. destruct m; [easy|contradiction O]. }
  destruct L as (cs0 & cs & cs1 & -> & C0 & C & C1 & Pm). destruct (T None Pm) as (_ & y' & E & P' & N' & Q).
  assert (Hy : exists e r, y' = Hash (e :: r)).
  { assert (X : exists q, y' = Hash q).
    { clear - E Re. cbn in E. destruct ks as [|a ks]; cbn [keys_path for_hash] in E; rewrite fits_nil in E;
        (destruct (key_index m _) as [i|]; [|discriminate]; destruct (nth_error m i) as [[x|x|e]|]; try discriminate).
      - destruct (seqb k (he_key e)); [|discriminate]. destruct (on_elem_value _ e) as [n e']. injection E as _ <-. eauto.
      - destruct (on_value _ (he_value e)) as [n v]. injection E as _ <-. eauto. }
    destruct X as (q & ->). destruct q as [|e r]; [|eauto]. exfalso. inversion P' as [? O| | |? ? A1 A2 A3|]; subst; [now apply N'|]. destruct A3 as (? & []). }
  destruct Hy as (e & r & ->). eexists. split; [exact (moved_below sub names _ _ _ (mkDoc cs0 (map DComment cs ++ DYaml (Hash m) :: map DComment cs1)) E cs cs1 eq_refl)|]. cbn [leading].
  assert (D' : portable_doc (mkDoc cs0 (map DComment cs ++ DYaml (Hash (e :: r)) :: map DComment cs1)) (Hash (e :: r))) by (apply PDoc; auto; exact I).
  split; [eexists; exact (doc_wrote _ _ D)|]. intros x X. rewrite (file_one _ _ _ X (doc_wrote _ _ D)), <- Q. exact (doc_wrote _ _ D').
Qed.
Theorem shift_file ut d m s ks k l sub names : common ut d (Hash m) s -> reaches (ks ++ [k]) (Hash m) l -> no_comment (Hash l) -> key_portable sub -> Spec_Path.plain (lit "[].|") sub ->
  Forall (Spec_Path.plain (lit "[].|")) names -> ~ In sub names -> chosen names l <> [] ->
  (first_value sub l = None \/ exists al old, first_value sub l = Some (mkA al (Hash old)) /\ no_comment (Hash old)) ->
  parse_yaml ut s = CVal d /\ exists d', move_to_subfield_doc parse_path (keys_path ks k) sub names d = (Some 1, d') /\
    turns (shift_at (ks ++ [k]) sub names) s (format_doc d' ++ [NL]).
Proof.
  intros C Re W K P Pn Ni Ch Hs. destruct (read_turns _ _ _ _ C) as (D & _ & R & T). split; [exact R|].
  destruct (shift_below d m ks k l sub names D Re W K P Pn Ni Ch Hs) as (d' & E & X). exists d'. split; [exact E|now apply T].
Qed.
