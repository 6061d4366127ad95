(** Edits at all places that a path selects. *)
From Verif Require Import Base Ast Strings Path Insert Format Peg YamlGrammar Consume Spec_Parse Spec_Edit Spec_Local LocalFacts LocalFacts2 Spec_Yaml12
  Spec_Portable PortableFacts Spec_Layout Spec_Common CommonFacts UniqueBlock Spec_Amend AmendFacts ReviseFacts NamedFacts Spec_Seek SeekFacts
  Spec_Insert InsertFacts2 InsertFacts3 Spec_Gather GatherFacts Spec_Change.
Import ListNotations.

Definition all_path (r : list step) (k : str) (cs : list condition) : path := path_of (r ++ [SKey k cs]).
Lemma all_cons s r k cs : all_path (s :: r) k cs = match s with
  | SKey a ds => PKey a ds (Some (all_path r k cs)) | SIdx i ds => PIdx [i] ds (Some (all_path r k cs)) | SAll ds => PAll ds (Some (all_path r k cs)) end.
Proof. unfold all_path. destruct s, r; reflexivity. Qed.
Lemma all_last r k cs : last_key (all_path r k cs) = Some k.
Proof. induction r as [|s r IH]; [reflexivity|]. rewrite all_cons. now destruct s. Qed.

(** ---- entries ---- *)
Lemma at_entry_none k f l : key_index l k = None -> at_entry k f (map_nodes l) = map_nodes l.
Proof.
  induction l as [|[c|c|[k' [al v]]] l IH]; intros H; cbn in *; [reflexivity| | |].
  - apply IH. now destruct (key_index l k).
  - apply IH. now destruct (key_index l k).
  - destruct (seqb k' k); [discriminate|]. f_equal. apply IH. now destruct (key_index l k).
Qed.
Lemma at_entry_mid k f b a c : key_index b k = None -> at_entry k f (map_nodes (b ++ HElem (mkHE k a) :: c)) = map_nodes b ++ f (key_node k, node_of a) ++ map_nodes c.
Proof.
  intros H. rewrite nodes_mid. induction b as [|[x|x|[k' [al v]]] b IH]; cbn in *.
  - now rewrite (proj2 (seqb_eq k k) eq_refl).
  - apply IH. now destruct (key_index b k).
  - apply IH. now destruct (key_index b k).
  - destruct (seqb k' k); [discriminate|]. cbn. f_equal. apply IH. now destruct (key_index b k).
Qed.
Lemma entry_index k l : key_index l k = None <-> entry k (map_nodes l) = None.
Proof.
  rewrite entry_first. induction l as [|[c|c|[k' [al v]]] l IH]; cbn; [easy| | |].
  - destruct (key_index l k); cbn; [|exact IH]. split; intros H; [discriminate|]. now apply IH in H.
  - destruct (key_index l k); cbn; [|exact IH]. split; intros H; [discriminate|]. now apply IH in H.
  - destruct (seqb k' k); cbn; [easy|]. destruct (key_index l k); cbn; [|exact IH]. split; intros H; [discriminate|]. now apply IH in H.
Qed.

Lemma elem_set i (f : node -> node) (g : aliased -> aliased) l : (forall a, In (AElem a) l -> node_of (g a) = f (node_of a)) ->
  at_position i f (seq_nodes l) = match get_elem i l with Some a => seq_nodes (set_elem i (g a) l) | None => seq_nodes l end.
Proof.
  revert i. induction l as [|[c|c|a] l IH]; intros i H.
  - now destruct i.
  - cbn. rewrite IH by (intros a I; apply H; now right). now destruct (get_elem i l).
  - cbn. rewrite IH by (intros a I; apply H; now right). now destruct (get_elem i l).
  - change (seq_nodes (AElem a :: l)) with (seq_nodes ([] ++ AElem a :: l)). rewrite anodes_mid. cbn [seq_nodes flat_map app]. destruct i as [|i]; cbn [at_position get_elem set_elem].
    + change (seq_nodes (AElem (g a) :: l)) with (seq_nodes ([] ++ AElem (g a) :: l)). rewrite anodes_mid. cbn. f_equal. symmetry. apply H. now left.
    + fold (seq_nodes l). rewrite IH by (intros b I; apply H; now right). destruct (get_elem i l); [|reflexivity].
      change (seq_nodes (AElem a :: set_elem i (g a0) l)) with (seq_nodes ([] ++ AElem a :: set_elem i (g a0) l)). now rewrite anodes_mid.
Qed.
Lemma elem_map (f : node -> node) (g : arraydata -> arraydata) l :
  (forall a, In (AElem a) l -> exists b, g (AElem a) = AElem b /\ node_of b = f (node_of a)) -> (forall c, g (AComment c) = AComment c) -> (forall c, g (AInlineC c) = AInlineC c) ->
  map f (seq_nodes l) = seq_nodes (map g l).
Proof.
  intros H C1 C2. induction l as [|[c|c|a] l IH]; [reflexivity| | |]; cbn [map].
  - rewrite C2. apply IH. intros; apply H; now right.
  - rewrite C1. apply IH. intros; apply H; now right.
  - destruct (H a (or_introl eq_refl)) as (b & -> & E).
    change (seq_nodes (AElem a :: l)) with (seq_nodes ([] ++ AElem a :: l)). change (seq_nodes (AElem b :: map g l)) with (seq_nodes ([] ++ AElem b :: map g l)).
    rewrite !anodes_mid. cbn. rewrite E. f_equal. apply IH. intros; apply H; now right.
Qed.

(** ---- trees ---- *)
Section Trees.
  Context (k : str) (cs : list condition) (g : list (node * node) -> list (node * node)).
  Lemma edit_change f : (forall l, map_nodes (snd (f l k (key_index l k))) = g (map_nodes l)) -> forall r al y, everywhere only_block y ->
    Node al (content_of (snd (edit_hash f (all_path r k cs) y))) = change r cs g (Node al (content_of y)).
  Proof.
    intros Hf. induction r as [|s r IH]; intros al y E.
    - unfold all_path. cbn [app path_of edit_hash change]. destruct y as [l|l| | | | | | | |]; try (now destruct (fits_conditions _ cs)); [destruct E as [[] _]|].
      pose proof (meets_all al (Hash l) cs (top_block _ E)) as M. rewrite fits_satisfies, <- M. change (content_of (Hash l)) with (Mapping (map_nodes l)).
      cbn iota. destruct (forallb _ cs); [|reflexivity]. specialize (Hf l). destruct (f l k (key_index l k)) as [n l']. cbn [snd] in *.
      change (content_of (Hash l')) with (Mapping (map_nodes l')). now rewrite Hf.
    - rewrite all_cons. destruct s as [a ds|i ds|ds]; cbn [edit_hash change].
      + destruct y as [l|l| | | | | | | |]; try (now destruct (fits_conditions _ ds)); [destruct E as [[] _]|].
        pose proof (meets_all al (Hash l) ds (top_block _ E)) as M. rewrite fits_satisfies, <- M. change (content_of (Hash l)) with (Mapping (map_nodes l)).
        cbn iota. destruct (forallb _ ds); [|reflexivity]. destruct (key_index l a) as [i|] eqn:K; [|now rewrite at_entry_none by exact K].
        destruct (key_ctx _ _ _ K) as (b & [al1 v] & c & -> & B & N & S & _). rewrite N. unfold edit_value. cbn [he_value a_value a_alias he_key].
        apply everywhere_h in E as [_ E]. specialize (E _ (in_mid _ _ _)). cbn in E. specialize (IH al1 v E).
        destruct (edit_hash f (all_path r k cs) v) as [n v']. cbn [snd] in *. rewrite S, (at_entry_mid _ _ _ _ _ B).
        change (content_of (Hash (b ++ HElem (mkHE a (mkA al1 v')) :: c))) with (Mapping (map_nodes (b ++ HElem (mkHE a (mkA al1 v')) :: c))).
        rewrite nodes_mid. cbn [fst snd node_of app]. now rewrite <- IH.
      + destruct y as [| |l|l| | | | | |]; try reflexivity; [destruct E as [[] _]|]. apply everywhere_a in E as [_ E].
        change (content_of (Array l)) with (Sequence (seq_nodes l)). cbn iota.
        rewrite (elem_set i _ (fun e => if fits_conditions (a_value e) ds then snd (edit_value (edit_hash f (all_path r k cs)) e) else e)).
        * cbn [idx_loop]. destruct (get_elem i l) as [[al1 v]|] eqn:G; [|reflexivity]. cbn [a_value]. destruct (fits_conditions v ds).
          -- unfold edit_value. cbn [a_value a_alias]. destruct (edit_hash f (all_path r k cs) v) as [n v']. reflexivity.
          -- cbn [snd]. assert (X : set_elem i (mkA al1 v) l = l).
             { clear - G. revert i G. induction l as [|[c|c|b] l IH]; intros i H; cbn in *; try discriminate; try (f_equal; now apply IH).
               destruct i; [now injection H as ->|]. f_equal. now apply IH. }
             now rewrite X.
        * intros [al1 v] I. specialize (E _ I). cbn in E. cbn [node_of a_value]. rewrite (meets_all al1 v ds (top_block _ E)), fits_satisfies.
          destruct (satisfies_b v ds); [|reflexivity]. unfold edit_value. cbn [a_value a_alias]. specialize (IH al1 v E).
          destruct (edit_hash f (all_path r k cs) v) as [n v']. exact IH.
      + destruct y as [| |l|l| | | | | |]; try reflexivity; [destruct E as [[] _]|]. apply everywhere_a in E as [_ E].
        change (content_of (Array l)) with (Sequence (seq_nodes l)). cbn iota.
        match goal with |- context [all_loop Nat.add ?h 0 l] => pose proof (all_loop_snd Nat.add h 0 l) as A; destruct (all_loop Nat.add h 0 l) as [n l'] end.
        cbn [snd] in *. subst l'. change (content_of (Array ?z)) with (Sequence (seq_nodes z)). f_equal. f_equal. symmetry. apply elem_map; try reflexivity.
        intros [al1 v] I. specialize (E _ I). cbn in E. unfold upd. cbn [a_value node_of]. rewrite (meets_all al1 v ds (top_block _ E)), fits_satisfies.
        destruct (satisfies_b v ds); [|now exists (mkA al1 v)]. unfold edit_value. cbn [a_value a_alias]. specialize (IH al1 v E).
        destruct (edit_hash f (all_path r k cs) v) as [n0 v']. now exists (mkA al1 v').
  Qed.

  Lemma each_change f : (forall b v c, key_index b k = None -> map_nodes (b ++ HElem (snd (f (mkHE k v))) :: c) = g (map_nodes (b ++ HElem (mkHE k v) :: c))) ->
    (forall l, key_index l k = None -> g (map_nodes l) = map_nodes l) -> forall r al y, everywhere only_block y ->
    Node al (content_of (snd (for_hash 0 Nat.add f zero_r (all_path r k cs) y))) = change r cs g (Node al (content_of y)).
  Proof.
    intros Hf Hn. induction r as [|s r IH]; intros al y E.
    - unfold all_path. cbn [app path_of for_hash change]. destruct y as [l|l| | | | | | | |]; try (now destruct (fits_conditions _ cs)); [destruct E as [[] _]|].
      pose proof (meets_all al (Hash l) cs (top_block _ E)) as M. rewrite fits_satisfies, <- M. change (content_of (Hash l)) with (Mapping (map_nodes l)).
      cbn iota. destruct (forallb _ cs); [|reflexivity]. destruct (key_index l k) as [i|] eqn:K; [|now rewrite Hn by exact K].
      destruct (key_ctx _ _ _ K) as (b & v & c & -> & B & N & S & _). rewrite N. cbn [he_key]. rewrite (proj2 (seqb_eq k k) eq_refl). rewrite <- (Hf b v c B).
      destruct (f (mkHE k v)) as [n e]. cbn [snd]. now rewrite S.
    - rewrite all_cons. destruct s as [a ds|i ds|ds]; cbn [for_hash change].
      + destruct y as [l|l| | | | | | | |]; try (now destruct (fits_conditions _ ds)); [destruct E as [[] _]|].
        pose proof (meets_all al (Hash l) ds (top_block _ E)) as M. rewrite fits_satisfies, <- M. change (content_of (Hash l)) with (Mapping (map_nodes l)).
        cbn iota. destruct (forallb _ ds); [|reflexivity]. destruct (key_index l a) as [i|] eqn:K; [|now rewrite at_entry_none by exact K].
        destruct (key_ctx _ _ _ K) as (b & [al1 v] & c & -> & B & N & S & _). rewrite N. unfold on_value. cbn [he_value a_value a_alias he_key].
        apply everywhere_h in E as [_ E]. specialize (E _ (in_mid _ _ _)). cbn in E. specialize (IH al1 v E).
        destruct (for_hash 0 Nat.add f zero_r (all_path r k cs) v) as [n v']. cbn [snd] in *. rewrite S, (at_entry_mid _ _ _ _ _ B).
        change (content_of (Hash (b ++ HElem (mkHE a (mkA al1 v')) :: c))) with (Mapping (map_nodes (b ++ HElem (mkHE a (mkA al1 v')) :: c))).
        rewrite nodes_mid. cbn [fst snd node_of app]. now rewrite <- IH.
      + destruct y as [| |l|l| | | | | |]; try reflexivity; [destruct E as [[] _]|]. apply everywhere_a in E as [_ E].
        change (content_of (Array l)) with (Sequence (seq_nodes l)). cbn iota.
        rewrite (elem_set i _ (fun e => if fits_conditions (a_value e) ds then snd (on_value (for_hash 0 Nat.add f zero_r (all_path r k cs)) e) else e)).
        * cbn [inline_depth idx_step idx_loop]. destruct (get_elem i l) as [[al1 v]|] eqn:G; [|reflexivity]. cbn [a_value]. destruct (fits_conditions v ds).
          -- unfold on_value. cbn [a_value a_alias]. destruct (for_hash 0 Nat.add f zero_r (all_path r k cs) v) as [n v']. reflexivity.
          -- cbn [snd]. assert (X : set_elem i (mkA al1 v) l = l).
             { clear - G. revert i G. induction l as [|[c|c|b] l IH]; intros i H; cbn in *; try discriminate; try (f_equal; now apply IH).
               destruct i; [now injection H as ->|]. f_equal. now apply IH. }
             now rewrite X.
        * intros [al1 v] I. specialize (E _ I). cbn in E. cbn [node_of a_value]. rewrite (meets_all al1 v ds (top_block _ E)), fits_satisfies.
          destruct (satisfies_b v ds); [|reflexivity]. unfold on_value. cbn [a_value a_alias]. specialize (IH al1 v E).
          destruct (for_hash 0 Nat.add f zero_r (all_path r k cs) v) as [n v']. exact IH.
      + destruct y as [| |l|l| | | | | |]; try reflexivity; [destruct E as [[] _]|]. apply everywhere_a in E as [_ E].
        change (content_of (Array l)) with (Sequence (seq_nodes l)). cbn iota. cbn [inline_depth idx_step].
        match goal with |- context [all_loop Nat.add ?h 0 l] => pose proof (all_loop_snd Nat.add h 0 l) as A; destruct (all_loop Nat.add h 0 l) as [n l'] end.
        cbn [snd] in *. subst l'. change (content_of (Array ?z)) with (Sequence (seq_nodes z)). f_equal. f_equal. symmetry. apply elem_map; try reflexivity.
        intros [al1 v] I. specialize (E _ I). cbn in E. unfold upd. cbn [a_value node_of]. rewrite (meets_all al1 v ds (top_block _ E)), fits_satisfies.
        destruct (satisfies_b v ds); [|now exists (mkA al1 v)]. unfold on_value. cbn [a_value a_alias]. specialize (IH al1 v E).
        destruct (for_hash 0 Nat.add f zero_r (all_path r k cs) v) as [n0 v']. now exists (mkA al1 v').
  Qed.
End Trees.

(** ---- the closures ---- *)
Lemma insert_puts k h ow l : map_nodes (snd (insert_f h ow l k (key_index l k))) = put k (node_of h) ow (map_nodes l).
Proof.
  unfold insert_f, put. destruct (key_index l k) as [i|] eqn:K.
  - destruct (entry k (map_nodes l)) eqn:X; [|apply entry_index in X; congruence]. destruct ow; [|reflexivity]. cbn [snd].
    destruct (key_ctx _ _ _ K) as (b & v & c & -> & B & _ & S & _). now rewrite S, (at_entry_mid _ _ _ _ _ B), nodes_mid.
  - rewrite (proj1 (entry_index k l) K). cbn [snd]. rewrite nodes_app. now destruct h.
Qed.
Lemma remove_drops k l : map_nodes (snd (remove_f l k (key_index l k))) = drop k (map_nodes l).
Proof.
  unfold remove_f, drop. destruct (key_index l k) as [i|] eqn:K; cbn [snd].
  - destruct (key_ctx _ _ _ K) as (b & v & c & -> & B & _ & _ & R). now rewrite R, (at_entry_mid _ _ _ _ _ B), nodes_app.
  - now rewrite at_entry_none.
Qed.

(** ---- documents ---- *)
Lemma doc_turns (G : list (node * node) -> list (node * node) -> Prop) (c : node -> node) d y a b n z :
  portable_doc d y -> changed G y n (mkDoc (leading d) (map DComment a ++ DYaml z :: map DComment b)) ->
  Node None (content_of z) = c (Node None (content_of y)) ->
  turns c (format_doc d ++ [NL]) (format_doc (mkDoc (leading d) (map DComment a ++ DYaml z :: map DComment b)) ++ [NL]).
Proof.
  intros D (y' & P & _) E. split; [eexists; exact (doc_wrote d y D)|]. intros x X. rewrite (file_one _ _ _ X (doc_wrote d y D)), <- E.
  destruct (portable_items _ _ P) as (a' & b' & E'). cbn [items] in E'. destruct (only_yaml _ _ _ _ _ _ E') as (_ & -> & _). now apply doc_wrote.
Qed.

Section Docs.
  Context (d : document) (y : yaml) (r : list step) (k : str) (cs : list condition) (D : portable_doc d y) (N : everywhere only_block y).
  Theorem insert_turns h ow n d' : everywhere filled y -> key_portable k -> portable h -> everywhere filled (a_value h) ->
    (ow = false \/ Spec_Portable.on_line h \/ everywhere no_inline_comment y /\ everywhere no_inline_comment (a_value h)) ->
    insert_into_hash_doc (path_of (r ++ [SKey k cs])) h ow d = (n, d') ->
    turns (change r cs (put k (node_of h) ow)) (format_doc d ++ [NL]) (format_doc d' ++ [NL]).
  Proof.
    intros Ey K Hh Eh Ho E. fold (all_path r k cs) in E. pose proof (insert_changed d y _ k h ow n d' D Ey (all_last r k cs) K Hh Eh Ho E) as C.
    unfold insert_into_hash_doc in E. destruct (edit_root (insert_f h ow) (all_path r k cs) d y D) as (a & b & _ & Er). rewrite Er in E. injection E as <- <-.
    eapply doc_turns; [exact D|exact C|]. apply edit_change; [|exact N]. apply insert_puts.
  Qed.
  Theorem remove_turns n d' : everywhere no_comment y -> remove_from_hash_doc (path_of (r ++ [SKey k cs])) d = (n, d') ->
    (In (DYaml (Hash [])) (items d') -> forall c q, items d <> DComment c :: q) ->
    turns (change r cs (drop k)) (format_doc d ++ [NL]) (format_doc d' ++ [NL]).
  Proof.
    intros Ey E Em. fold (all_path r k cs) in E. pose proof (remove_changed d y _ k n d' D Ey (all_last r k cs) E Em) as C.
    unfold remove_from_hash_doc in E. destruct (edit_root remove_f (all_path r k cs) d y D) as (a & b & _ & Er). rewrite Er in E. injection E as <- <-.
    eapply doc_turns; [exact D|exact C|]. apply edit_change; [|exact N]. apply remove_drops.
  Qed.
  Theorem rename_turns new n d' : key_portable new -> rename_field_doc (path_of (r ++ [SKey k cs])) new d = (n, d') ->
    turns (change r cs (rekey k new)) (format_doc d ++ [NL]) (format_doc d' ++ [NL]).
  Proof.
    intros K E. fold (all_path r k cs) in E. pose proof (rename_changed d y _ k new n d' D (all_last r k cs) K E) as C.
    unfold rename_field_doc in E. destruct (each_root (rename_f new) (all_path r k cs) d y D) as (a & b & _ & Er). rewrite Er in E. injection E as <- <-.
    eapply doc_turns; [exact D|exact C|]. apply each_change; [| |exact N].
    - intros b' v c B. cbn [snd rename_f he_value]. unfold rekey. now rewrite (at_entry_mid _ _ _ _ _ B), nodes_mid.
    - intros l H. now apply at_entry_none.
  Qed.
  Theorem nest_turns new n d' : everywhere no_inline_comment y -> key_portable new -> to_object_doc (path_of (r ++ [SKey k cs])) new d = (n, d') ->
    turns (change r cs (wrap k new)) (format_doc d ++ [NL]) (format_doc d' ++ [NL]).
  Proof.
    intros Ey K E. fold (all_path r k cs) in E. pose proof (nest_changed d y _ k new n d' D Ey (all_last r k cs) K E) as C.
    unfold to_object_doc in E. destruct (each_root (to_object_f new) (all_path r k cs) d y D) as (a & b & _ & Er). rewrite Er in E. injection E as <- <-.
    eapply doc_turns; [exact D|exact C|]. apply each_change; [| |exact N].
    - intros b' v c B. cbn [snd to_object_f he_value he_key]. unfold wrap. rewrite (at_entry_mid _ _ _ _ _ B), nodes_mid. now destruct v.
    - intros l H. now apply at_entry_none.
  Qed.
End Docs.

(** ---- files ---- *)
Lemma file_turns ut d y s f s' : common ut d y s -> turns f (format_doc d ++ [NL]) s' -> turns f s s'.
Proof.
  intros C [_ T]. destruct (common_both ut d y s C) as [_ F]. split; [eauto|]. intros x X. apply T. rewrite (file_one _ _ _ X F).
  apply doc_wrote. exact (proj1 (common_portable ut d y s C)).
Qed.
Theorem read_turns ut d y s : common ut d y s -> portable_doc d y /\ everywhere filled y /\ parse_yaml ut s = CVal d /\
  forall f s', turns f (format_doc d ++ [NL]) s' -> turns f s s'.
Proof.
  intros C. destruct (common_portable ut d y s C) as [P F]. split; [exact P|]. split; [exact F|]. split; [exact (proj1 (common_both ut d y s C))|].
  intros f s'. now apply (file_turns ut d y).
Qed.
