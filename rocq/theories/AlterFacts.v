(** Edits along all paths. *)
From Verif Require Import Base Ast Strings Path Insert Format Peg YamlGrammar Consume Spec_Parse Spec_Edit Spec_Local LocalFacts Spec_Yaml12
  Spec_Portable PortableFacts UniqueBlock Spec_Layout Spec_Common CommonFacts Spec_Amend AmendFacts NamedFacts Spec_Seek SeekFacts Spec_Insert InsertFacts2 InsertFacts3
  Spec_Gather GatherFacts Spec_Change ChangeFacts Spec_Alter.
Import ListNotations.

(** [T] keeps trees without inline collections and changes the data by [c]. *)
Definition does (T : yaml -> nat * yaml) (c : node -> node) : Prop := forall al y, everywhere only_block y ->
  everywhere only_block (snd (T y)) /\ Node al (content_of (snd (T y))) = c (Node al (content_of y)).
Definition on_elem (T : yaml -> nat * yaml) (cs : list condition) (e : aliased) : aliased := if fits_conditions (a_value e) cs then snd (on_value T e) else e.
Lemma elem_does T c cs e : does T c -> everywhere only_block (a_value e) -> everywhere only_block (a_value (on_elem T cs e)) /\
  node_of (on_elem T cs e) = (fun v => if forallb (meets v) cs then c v else v) (node_of e).
Proof.
  intros H E. destruct e as [al v]. cbn [a_value] in E. unfold on_elem. cbn [a_value node_of]. rewrite (meets_all al v cs (top_block _ E)), fits_satisfies.
  destruct (satisfies_b v cs); [|now split]. unfold on_value. cbn [a_value a_alias]. destruct (H al v E) as [A B]. destruct (T v) as [n v']. now split.
Qed.
Lemma set_same i a l : get_elem i l = Some a -> set_elem i a l = l.
Proof.
  revert i. induction l as [|[c|c|b] l IH]; intros i H; cbn in *; try discriminate; try (f_equal; now apply IH).
  destruct i; [now injection H as ->|]. f_equal. now apply IH.
Qed.
Lemma set_in x a l : forall i, In (AElem a) (set_elem i x l) -> a = x \/ In (AElem a) l.
Proof.
  induction l as [|[c|c|b] l IH]; intros i H; cbn in H; [destruct H| | |].
  - destruct H as [H|H]; [discriminate|]. destruct (IH _ H); [now left|right; now right].
  - destruct H as [H|H]; [discriminate|]. destruct (IH _ H); [now left|right; now right].
  - destruct i as [|i]; destruct H as [H|H].
    + injection H as ->. now left.
    + right; now right.
    + right; now left.
    + destruct (IH _ H); [now left|right; now right].
Qed.
Lemma get_in i l a : get_elem i l = Some a -> In (AElem a) l.
Proof.
  revert i. induction l as [|[c|c|b] l IH]; intros i H; cbn in *; [discriminate|right; eauto|right; eauto|]. destruct i; [injection H as ->; now left|right; eauto].
Qed.
Lemma loop_does T c cs is_ : does T c -> forall l n, (forall a, In (AElem a) l -> everywhere only_block (a_value a)) ->
  let l' := snd (idx_loop Nat.add get_elem set_elem (fun e => if fits_conditions (a_value e) cs then Some (on_value T e) else None) is_ n l) in
  (forall a, In (AElem a) l' -> everywhere only_block (a_value a)) /\
  seq_nodes l' = fold_left (fun vs i => at_position i (fun v => if forallb (meets v) cs then c v else v) vs) is_ (seq_nodes l).
Proof.
  intros H. induction is_ as [|i is_ IH]; intros l n E; [now split|]. cbn [idx_loop fold_left].
  rewrite (elem_set i (fun v => if forallb (meets v) cs then c v else v) (on_elem T cs)) by (intros a I; exact (proj2 (elem_does T c cs a H (E a I)))).
  destruct (get_elem i l) as [a|] eqn:G; [|now apply IH]. pose proof (proj1 (elem_does T c cs a H (E a (get_in _ _ _ G)))) as Ea.
  unfold on_elem in *. destruct (fits_conditions (a_value a) cs).
  - destruct (on_value T a) as [m a']. cbn [snd] in *. apply IH. intros b Ib. destruct (set_in _ _ _ _ Ib) as [-> |]; auto.
  - rewrite (set_same _ _ _ G). now apply IH.
Qed.
Lemma all_does T c cs l n : does T c -> (forall a, In (AElem a) l -> everywhere only_block (a_value a)) ->
  let l' := snd (all_loop Nat.add (fun d => match d with AElem e => if fits_conditions (a_value e) cs then let '(n, e') := on_value T e in Some (n, AElem e') else None | _ => None end) n l) in
  (forall a, In (AElem a) l' -> everywhere only_block (a_value a)) /\ seq_nodes l' = map (fun v => if forallb (meets v) cs then c v else v) (seq_nodes l).
Proof.
  intros H E. cbn zeta. rewrite all_loop_snd.
  assert (U : forall a, upd (fun d => match d with AElem e => if fits_conditions (a_value e) cs then let '(n, e') := on_value T e in Some (n, AElem e') else None | _ => None end) (AElem a) = AElem (on_elem T cs a)).
  { intros a. unfold upd, on_elem. destruct (fits_conditions (a_value a) cs); [|reflexivity]. now destruct (on_value T a). }
  split.
  - intros a I. apply in_map_iff in I as ([x|x|b] & X & I); try discriminate X. rewrite U in X. injection X as <-. exact (proj1 (elem_does T c cs b H (E b I))).
  - symmetry. apply elem_map; try reflexivity. intros a I. exists (on_elem T cs a). split; [apply U|exact (proj2 (elem_does T c cs a H (E a I)))].
Qed.
Lemma entry_does T c k l i b al v d : does T c -> everywhere only_block (Hash l) -> key_index l k = Some i -> l = b ++ HElem (mkHE k (mkA al v)) :: d -> key_index b k = None ->
  let l' := b ++ HElem (mkHE k (mkA al (snd (T v)))) :: d in
  everywhere only_block (Hash l') /\ map_nodes l' = at_entry k (fun e => [(fst e, c (snd e))]) (map_nodes l).
Proof.
  intros H E K -> B. cbn zeta. apply everywhere_h in E as [_ E]. pose proof (E _ (in_mid _ _ _)) as Ev. cbn in Ev. destruct (H al v Ev) as [A C]. split.
  - apply everywhere_h. split; [exact I|]. intros e Ie. apply in_app_or in Ie as [Ie|[Ie|Ie]].
    + apply E. apply in_or_app. now left.
    + injection Ie as <-. exact A.
    + apply E. apply in_or_app. right. now right.
  - rewrite (at_entry_mid _ _ _ _ _ B), nodes_mid. cbn [fst snd node_of app]. now rewrite <- C.
Qed.

Section Trees.
  Context (k : str) (g : list (node * node) -> list (node * node)).
  Lemma edit_does f : (forall l, map_nodes (snd (f l k (key_index l k))) = g (map_nodes l)) ->
    (forall l, everywhere only_block (Hash l) -> everywhere only_block (Hash (snd (f l k (key_index l k))))) ->
    forall p, last_key p = Some k -> does (edit_hash f p) (alter g p).
  Proof.
    intros Hf Hb. induction p as [cs|a cs rest IH|cs rest IH|is_ cs rest IH] using path_ind'; intros L al y E; [discriminate L| | |].
    - cbn [edit_hash alter]. destruct y as [l|l| | | | | | | |]; try (now destruct (fits_conditions _ cs)); [destruct E as [[] _]|].
      pose proof (meets_all al (Hash l) cs (top_block _ E)) as M. rewrite fits_satisfies, <- M. change (content_of (Hash l)) with (Mapping (map_nodes l)).
      cbn iota. destruct (forallb _ cs); [|now split]. destruct rest as [q|].
      + cbn in L, IH. specialize (IH L). destruct (key_index l a) as [i|] eqn:K; [|rewrite at_entry_none by exact K; now split].
        destruct (key_ctx _ _ _ K) as (b & [al1 v] & d & El & B & N & S & _). rewrite N. unfold edit_value. cbn [he_value a_value a_alias he_key].
        destruct (entry_does _ _ a l i b al1 v d IH E K El B) as [A C]. destruct (edit_hash f q v) as [n v']. cbn [snd] in *. rewrite S. split; [exact A|].
        rewrite <- C. reflexivity.
      + cbn in L. injection L as ->. specialize (Hf l). specialize (Hb l E). destruct (f l k (key_index l k)) as [n l']. cbn [snd] in *. split; [exact Hb|].
        rewrite <- Hf. reflexivity.
    - destruct rest as [q|]; [|discriminate L]. cbn in L, IH. specialize (IH L). cbn [edit_hash alter].
      destruct y as [| |l|l| | | | | |]; try (split; [exact E|reflexivity]); [destruct E as [[] _]|]. apply everywhere_a in E as [_ E].
      destruct (all_does _ _ cs l 0 IH E) as [A C]. change (edit_value (edit_hash f q)) with (on_value (edit_hash f q)).
      destruct (all_loop _ _ 0 l) as [n l']. cbn [snd] in *. split; [apply everywhere_a; now split|].
      change (content_of (Array ?z)) with (Sequence (seq_nodes z)). now rewrite C.
    - destruct rest as [q|]; [|discriminate L]. cbn in L, IH. specialize (IH L). cbn [edit_hash alter].
      destruct y as [| |l|l| | | | | |]; try (split; [exact E|reflexivity]); [destruct E as [[] _]|]. apply everywhere_a in E as [_ E].
      destruct (loop_does _ _ cs is_ IH l 0 E) as [A C]. change (edit_value (edit_hash f q)) with (on_value (edit_hash f q)).
      destruct (idx_loop _ _ _ _ is_ 0 l) as [n l']. cbn [snd] in *. split; [apply everywhere_a; now split|].
      change (content_of (Array ?z)) with (Sequence (seq_nodes z)). now rewrite C.
  Qed.

  Lemma each_does f : (forall b v c, key_index b k = None -> map_nodes (b ++ HElem (snd (f (mkHE k v))) :: c) = g (map_nodes (b ++ HElem (mkHE k v) :: c))) ->
    (forall l, key_index l k = None -> g (map_nodes l) = map_nodes l) ->
    (forall v, everywhere only_block (a_value v) -> everywhere only_block (a_value (he_value (snd (f (mkHE k v)))))) ->
    forall p, last_key p = Some k -> does (for_hash 0 Nat.add f zero_r p) (alter g p).
  Proof.
    intros Hf Hn Hb. induction p as [cs|a cs rest IH|cs rest IH|is_ cs rest IH] using path_ind'; intros L al y E; [discriminate L| | |].
    - cbn [for_hash alter]. destruct y as [l|l| | | | | | | |]; try (now destruct (fits_conditions _ cs)); [destruct E as [[] _]|].
      pose proof (meets_all al (Hash l) cs (top_block _ E)) as M. rewrite fits_satisfies, <- M. change (content_of (Hash l)) with (Mapping (map_nodes l)).
      cbn iota. destruct (forallb _ cs); [|now split]. destruct rest as [q|].
      + cbn in L, IH. specialize (IH L). destruct (key_index l a) as [i|] eqn:K; [|rewrite at_entry_none by exact K; now split].
        destruct (key_ctx _ _ _ K) as (b & [al1 v] & d & El & B & N & S & _). rewrite N. unfold on_value. cbn [he_value a_value a_alias he_key].
        destruct (entry_does _ _ a l i b al1 v d IH E K El B) as [A C]. destruct (for_hash 0 Nat.add f zero_r q v) as [n v']. cbn [snd] in *. rewrite S. split; [exact A|].
        rewrite <- C. reflexivity.
      + cbn in L. injection L as ->. destruct (key_index l k) as [i|] eqn:K; [|rewrite Hn by exact K; now split].
        destruct (key_ctx _ _ _ K) as (b & v & d & -> & B & N & S & _). rewrite N. cbn [he_key]. rewrite (proj2 (seqb_eq k k) eq_refl). rewrite <- (Hf b v d B).
        apply everywhere_h in E as [_ E]. pose proof (Hb v (E _ (in_mid _ _ _))) as Ev. destruct (f (mkHE k v)) as [n e]. cbn [snd] in *. rewrite S. split; [|reflexivity].
        apply everywhere_h. split; [exact I|]. intros e0 Ie. apply in_app_or in Ie as [Ie|[Ie|Ie]].
        * apply E. apply in_or_app. now left.
        * injection Ie as <-. exact Ev.
        * apply E. apply in_or_app. right. now right.
    - destruct rest as [q|]; [|discriminate L]. cbn in L, IH. specialize (IH L). cbn [for_hash alter].
      destruct y as [| |l|l| | | | | |]; try (split; [exact E|reflexivity]); [destruct E as [[] _]|]. apply everywhere_a in E as [_ E]. cbn [inline_depth idx_step].
      destruct (all_does _ _ cs l 0 IH E) as [A C].
      destruct (all_loop _ _ 0 l) as [n l']. cbn [snd] in *. split; [apply everywhere_a; now split|].
      change (content_of (Array ?z)) with (Sequence (seq_nodes z)). now rewrite C.
    - destruct rest as [q|]; [|discriminate L]. cbn in L, IH. specialize (IH L). cbn [for_hash alter].
      destruct y as [| |l|l| | | | | |]; try (split; [exact E|reflexivity]); [destruct E as [[] _]|]. apply everywhere_a in E as [_ E]. cbn [inline_depth idx_step].
      destruct (loop_does _ _ cs is_ IH l 0 E) as [A C].
      destruct (idx_loop _ _ _ _ is_ 0 l) as [n l']. cbn [snd] in *. split; [apply everywhere_a; now split|].
      change (content_of (Array ?z)) with (Sequence (seq_nodes z)). now rewrite C.
  Qed.
End Trees.

Lemma insert_block k h ow l : everywhere only_block (a_value h) -> everywhere only_block (Hash l) -> everywhere only_block (Hash (snd (insert_f h ow l k (key_index l k)))).
Proof.
  intros Eh E. unfold insert_f. destruct (key_index l k) as [i|] eqn:K.
  - destruct ow; [|exact E]. cbn [snd]. destruct (key_ctx _ _ _ K) as (b & v & c & -> & B & _ & S & _). rewrite S. apply everywhere_h in E as [_ E]. apply everywhere_h. split; [exact I|].
    intros e Ie. apply in_app_or in Ie as [Ie|[Ie|Ie]]; [apply E, in_or_app; now left|now injection Ie as <-|apply E, in_or_app; right; now right].
  - cbn [snd]. apply everywhere_h in E as [_ E]. apply everywhere_h. split; [exact I|]. intros e Ie. apply in_app_or in Ie as [Ie|[Ie|[]]]; [now apply E|now injection Ie as <-].
Qed.
Lemma remove_block k l : everywhere only_block (Hash l) -> everywhere only_block (Hash (snd (remove_f l k (key_index l k)))).
Proof.
  intros E. unfold remove_f. destruct (key_index l k) as [i|] eqn:K; [|exact E]. cbn [snd]. destruct (key_ctx _ _ _ K) as (b & v & c & -> & B & _ & _ & R). rewrite R.
  apply everywhere_h in E as [_ E]. apply everywhere_h. split; [exact I|]. intros e Ie. apply E. apply in_app_or in Ie as [Ie|Ie]; apply in_or_app; [now left|right; now right].
Qed.

Section Docs.
  Context (d : document) (y : yaml) (p : path) (k : str) (D : portable_doc d y) (N : everywhere only_block y) (L : last_key p = Some k).
  Theorem insert_alters h ow n d' : everywhere filled y -> key_portable k -> portable h -> everywhere filled (a_value h) -> everywhere only_block (a_value h) ->
    (ow = false \/ Spec_Portable.on_line h \/ everywhere no_inline_comment y /\ everywhere no_inline_comment (a_value h)) ->
    insert_into_hash_doc p h ow d = (n, d') -> turns (alter (put k (node_of h) ow) p) (format_doc d ++ [NL]) (format_doc d' ++ [NL]).
  Proof.
    intros Ey K Hh Eh Bh Ho E. pose proof (insert_changed d y _ k h ow n d' D Ey L K Hh Eh Ho E) as C.
    unfold insert_into_hash_doc in E. destruct (edit_root (insert_f h ow) p d y D) as (a & b & _ & Er). rewrite Er in E. injection E as <- <-.
    eapply doc_turns; [exact D|exact C|]. refine (proj2 (edit_does k _ _ _ _ p L None y N)); [apply insert_puts|intros l; now apply insert_block].
  Qed.
  Theorem remove_alters n d' : everywhere no_comment y -> remove_from_hash_doc p d = (n, d') ->
    (In (DYaml (Hash [])) (items d') -> forall c q, items d <> DComment c :: q) -> turns (alter (drop k) p) (format_doc d ++ [NL]) (format_doc d' ++ [NL]).
  Proof.
    intros Ey E Em. pose proof (remove_changed d y _ k n d' D Ey L E Em) as C.
    unfold remove_from_hash_doc in E. destruct (edit_root remove_f p d y D) as (a & b & _ & Er). rewrite Er in E. injection E as <- <-.
    eapply doc_turns; [exact D|exact C|]. refine (proj2 (edit_does k _ _ _ _ p L None y N)); [apply remove_drops|intros l; apply remove_block].
  Qed.
  Theorem rename_alters new n d' : key_portable new -> rename_field_doc p new d = (n, d') ->
    turns (alter (rekey k new) p) (format_doc d ++ [NL]) (format_doc d' ++ [NL]).
  Proof.
    intros K E. pose proof (rename_changed d y _ k new n d' D L K E) as C.
    unfold rename_field_doc in E. destruct (each_root (rename_f new) p d y D) as (a & b & _ & Er). rewrite Er in E. injection E as <- <-.
    eapply doc_turns; [exact D|exact C|]. refine (proj2 (each_does k _ _ _ _ _ p L None y N)).
    - intros b' v c B. cbn [snd rename_f he_value]. unfold rekey. now rewrite (at_entry_mid _ _ _ _ _ B), nodes_mid.
    - intros l H. now apply at_entry_none.
    - intros v H. exact H.
  Qed.
  Theorem nest_alters new n d' : everywhere no_inline_comment y -> key_portable new -> to_object_doc p new d = (n, d') ->
    turns (alter (wrap k new) p) (format_doc d ++ [NL]) (format_doc d' ++ [NL]).
  Proof.
    intros Ey K E. pose proof (nest_changed d y _ k new n d' D Ey L K E) as C.
    unfold to_object_doc in E. destruct (each_root (to_object_f new) p d y D) as (a & b & _ & Er). rewrite Er in E. injection E as <- <-.
    eapply doc_turns; [exact D|exact C|]. refine (proj2 (each_does k _ _ _ _ _ p L None y N)).
    - intros b' v c B. cbn [snd to_object_f he_value he_key]. unfold wrap. rewrite (at_entry_mid _ _ _ _ _ B), nodes_mid. now destruct v.
    - intros l H. now apply at_entry_none.
    - intros [al v] H. cbn. repeat split; exact H.
  Qed.
End Docs.
