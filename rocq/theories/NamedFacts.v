(** Paths of keys: edits at exactly one place. *)
From Coq Require Import Lia.
From Verif Require Import Base Ast Strings Path Insert Format Spec_Parse Spec_Edit Spec_Local LocalFacts LocalFacts2 Spec_Yaml12
  Spec_Portable PortableFacts UniqueBlock Spec_Amend AmendFacts Spec_Named.
Import ListNotations.

Inductive at_keys (F : list hashdata -> list hashdata -> Prop) : list str -> yaml -> yaml -> Prop :=
| ak_here l l' : F l l' -> at_keys F [] (Hash l) (Hash l')
| ak_in b k al v v' c ks : key_index b k = None -> at_keys F ks v v' ->
    at_keys F (k :: ks) (Hash (b ++ HElem (mkHE k (mkA al v)) :: c)) (Hash (b ++ HElem (mkHE k (mkA al v')) :: c)).

Lemma keys_keyed (F : list hashdata -> list hashdata -> Prop) (G : list (node * node) -> list (node * node) -> Prop) ks y y' : (forall l l', F l l' -> G (map_nodes l) (map_nodes l')) ->
  at_keys F ks y y' -> forall al, keyed G ks (Node al (content_of y)) (Node al (content_of y')).
Proof.
  intros HF. induction 1 as [l l' H|b k al v v' c ks B _ IH]; intros al0.
  - apply ky_here. exact (HF _ _ H).
  - change (keyed G (k :: ks) (Node al0 (Mapping (map_nodes (b ++ HElem (mkHE k (mkA al v)) :: c)))) (Node al0 (Mapping (map_nodes (b ++ HElem (mkHE k (mkA al v')) :: c))))).
    rewrite !nodes_mid. apply ky_in; [now apply nodes_lack|]. apply IH.
Qed.

Lemma fits_nil y : fits_conditions y [] = true.
Proof. reflexivity. Qed.

Lemma edit_keys (F : list hashdata -> list hashdata -> Prop) f k : (forall l n l', f l k (key_index l k) = (n, l') -> n = 0 /\ l' = l \/ n = 1 /\ F l l') ->
  forall ks y n y', edit_hash f (keys_path ks k) y = (n, y') -> n = 0 /\ y' = y \/ n = 1 /\ at_keys F ks y y'.
Proof.
  intros Hf. induction ks as [|a ks IH]; intros y n y' E; cbn [keys_path edit_hash] in E; rewrite fits_nil in E.
  - destruct y; try (injection E as <- <-; now left). destruct (f l k (key_index l k)) as [m l'] eqn:Ef. injection E as <- <-.
    destruct (Hf _ _ _ Ef) as [[-> ->]|[-> H]]; [now left|right]. split; [reflexivity|]. now constructor.
  - destruct y; try (injection E as <- <-; now left). destruct (key_index l a) as [i|] eqn:Ki; [|injection E as <- <-; now left].
    destruct (key_ctx _ _ _ Ki) as (b & [al v] & c & -> & B & N & S & _). rewrite N in E. unfold edit_value in E. cbn [he_value a_value a_alias he_key] in E.
    destruct (edit_hash f (keys_path ks k) v) as [m v'] eqn:Ev. injection E as <- <-. rewrite S.
    destruct (IH _ _ _ Ev) as [[-> ->]|[-> H]]; [now left|right]. split; [reflexivity|]. now constructor.
Qed.

Lemma each_keys (F : list hashdata -> list hashdata -> Prop) f k : (forall b v c n e, key_index b k = None -> f (mkHE k v) = (n, e) -> n = 1 /\ F (b ++ HElem (mkHE k v) :: c) (b ++ HElem e :: c)) ->
  forall ks y n y', for_hash 0 Nat.add f zero_r (keys_path ks k) y = (n, y') -> n = 0 /\ y' = y \/ n = 1 /\ at_keys F ks y y'.
Proof.
  intros Hf. induction ks as [|a ks IH]; intros y n y' E; cbn [keys_path for_hash] in E; rewrite fits_nil in E.
  - destruct y; try (injection E as <- <-; now left). destruct (key_index l k) as [i|] eqn:Ki; [|injection E as <- <-; now left].
    destruct (key_ctx _ _ _ Ki) as (b & v & c & -> & B & N & S & _). rewrite N in E. cbn [he_key] in E.
    rewrite (proj2 (seqb_eq k k) eq_refl) in E. destruct (f (mkHE k v)) as [m e] eqn:Ef. injection E as <- <-. rewrite S.
    destruct (Hf b v c m e B Ef) as [-> H]. right. split; [reflexivity|]. now constructor.
  - destruct y; try (injection E as <- <-; now left). destruct (key_index l a) as [i|] eqn:Ki; [|injection E as <- <-; now left].
    destruct (key_ctx _ _ _ Ki) as (b & [al v] & c & -> & B & N & S & _). rewrite N in E. unfold on_value in E. cbn [he_value a_value a_alias he_key] in E.
    destruct (for_hash 0 Nat.add f zero_r (keys_path ks k) v) as [m v'] eqn:Ev. injection E as <- <-. rewrite S.
    destruct (IH _ _ _ Ev) as [[-> ->]|[-> H]]; [now left|right]. split; [reflexivity|]. now constructor.
Qed.

(** ---- documents ---- *)
Lemma last_keys ks k : last_key (keys_path ks k) = Some k.
Proof. induction ks as [|a ks IH]; [reflexivity|exact IH]. Qed.

Lemma root_loop (g : docdata -> nat * docdata) : (forall c, g (DComment c) = (0, DComment c)) -> forall b acc,
  all_loop Nat.add (fun x => Some (g x)) acc (map DComment b) = (acc, map DComment b).
Proof. intros H. induction b as [|c b IH]; intros acc; [reflexivity|]. cbn. now rewrite H, Nat.add_0_r, IH. Qed.
Lemma root_loops (g : docdata -> nat * docdata) (h : yaml -> nat * yaml) : (forall c, g (DComment c) = (0, DComment c)) ->
  (forall y, g (DYaml y) = let '(n, y') := h y in (n, DYaml y')) -> forall a acc y b,
  all_loop Nat.add (fun x => Some (g x)) acc (map DComment a ++ DYaml y :: map DComment b) =
    (acc + fst (h y), map DComment a ++ DYaml (snd (h y)) :: map DComment b).
Proof.
  intros Hc Hy. induction a as [|c a IH]; intros acc y b; cbn.
  - rewrite Hy. destruct (h y) as [n y']. rewrite (root_loop g Hc). reflexivity.
  - rewrite Hc, Nat.add_0_r, IH. reflexivity.
Qed.
Lemma portable_items d y : portable_doc d y -> exists a b, items d = map DComment a ++ DYaml y :: map DComment b.
Proof. intros [cs0 cs y' cs1 C0 C C1 P B|cs0 y' cs1 C0 C1 O]; [now exists cs, cs1|now exists [], cs1]. Qed.
Lemma edit_root f p d y : portable_doc d y -> exists a b, items d = map DComment a ++ DYaml y :: map DComment b /\
  edit_hash_doc f p d = (fst (edit_hash f p y), mkDoc (leading d) (map DComment a ++ DYaml (snd (edit_hash f p y)) :: map DComment b)).
Proof.
  intros D. destruct (portable_items d y D) as (a & b & E). exists a, b. split; [exact E|]. unfold edit_hash_doc. rewrite E.
  rewrite (root_loops _ (edit_hash f p)); reflexivity.
Qed.
Lemma each_root f p d y : portable_doc d y -> exists a b, items d = map DComment a ++ DYaml y :: map DComment b /\
  for_hash_doc 0 Nat.add f zero_r p d = (fst (for_hash 0 Nat.add f zero_r p y), mkDoc (leading d) (map DComment a ++ DYaml (snd (for_hash 0 Nat.add f zero_r p y)) :: map DComment b)).
Proof.
  intros D. destruct (portable_items d y D) as (a & b & E). exists a, b. split; [exact E|]. unfold for_hash_doc. rewrite E.
  rewrite (root_loops _ (for_hash 0 Nat.add f zero_r p)); reflexivity.
Qed.

(** The new document holds the new root. *)
Lemma keys_rewrite (F : list hashdata -> list hashdata -> Prop) (G H : list (node * node) -> list (node * node) -> Prop) ks d y a b n z d' : portable_doc d y ->
  (forall l l', F l l' -> G (map_nodes l) (map_nodes l')) ->
  items d = map DComment a ++ DYaml y :: map DComment b -> d' = mkDoc (leading d) (map DComment a ++ DYaml z :: map DComment b) ->
  n = 0 /\ z = y \/ n = 1 /\ at_keys F ks y z -> changed H y n d' -> n = 0 /\ d' = d \/ n = 1 /\ rewrites G ks d d'.
Proof.
  intros D HF E -> [[-> ->]|[-> K]] (y' & P & _).
  - left. split; [reflexivity|]. destruct d. cbn in *. now rewrite E.
  - right. split; [reflexivity|]. exists (Node None (content_of y)), (Node None (content_of z)).
    split; [now apply doc_wrote|]. split; [|now apply (keys_keyed F)].
    destruct (portable_items _ _ P) as (a' & b' & E'). cbn [items] in E'. destruct (only_yaml _ _ _ _ _ _ E') as (_ & -> & _). now apply doc_wrote.
Qed.

Theorem insert_named d y ks k h ow n d' : portable_doc d y -> everywhere filled y -> key_portable k -> portable h -> everywhere filled (a_value h) ->
  (ow = false \/ Spec_Portable.on_line h \/ everywhere no_inline_comment y /\ everywhere no_inline_comment (a_value h)) ->
  insert_into_hash_doc (keys_path ks k) h ow d = (n, d') ->
  n = 0 /\ d' = d \/ n = 1 /\ rewrites (fun l l' => gains k (node_of h) l l' \/ ow = true /\ sets k (node_of h) l l') ks d d'.
Proof.
  intros D Ey K Hh Eh Ho E. pose proof (insert_changed d y _ k h ow n d' D Ey (last_keys ks k) K Hh Eh Ho E) as C.
  unfold insert_into_hash_doc in E. destruct (edit_root (insert_f h ow) (keys_path ks k) d y D) as (a & b & Ei & Er). rewrite Er in E.
  destruct (edit_hash (insert_f h ow) (keys_path ks k) y) as [m z] eqn:Ez. cbn [fst snd] in E. injection E as <- <-.
  eapply (keys_rewrite (fun l l' => added' k h l l' \/ ow = true /\ replaced' k (fun k _ => mkHE k h) l l')); [exact D| |exact Ei|reflexivity| |exact C].
  - intros l l' [[Kn ->] | [W (b' & v & c & Kb & -> & ->)]].
    + left. split; [now apply nodes_lack|]. rewrite nodes_app. f_equal. now destruct h.
    + right. split; [auto|]. rewrite !nodes_mid. exists (map_nodes b'), (node_of v), (map_nodes c). split; [now apply nodes_lack|auto].
  - exact (edit_keys _ _ k (insert_steps k h ow) ks y m z Ez).
Qed.

Theorem remove_named d y ks k n d' : portable_doc d y -> everywhere no_comment y ->
  remove_from_hash_doc (keys_path ks k) d = (n, d') -> (In (DYaml (Hash [])) (items d') -> forall c r, items d <> DComment c :: r) ->
  n = 0 /\ d' = d \/ n = 1 /\ rewrites (loses k) ks d d'.
Proof.
  intros D Ey E Em. pose proof (remove_changed d y _ k n d' D Ey (last_keys ks k) E Em) as C.
  unfold remove_from_hash_doc in E. destruct (edit_root remove_f (keys_path ks k) d y D) as (a & b & Ei & Er). rewrite Er in E.
  destruct (edit_hash remove_f (keys_path ks k) y) as [m z] eqn:Ez. cbn [fst snd] in E. injection E as <- <-.
  eapply (keys_rewrite (removed' k)); [exact D| |exact Ei|reflexivity| |exact C].
  - intros l l' (b' & v & c & Kb & -> & ->). rewrite nodes_mid, nodes_app. exists (map_nodes b'), (node_of v), (map_nodes c). split; [now apply nodes_lack|auto].
  - exact (edit_keys _ _ k (remove_steps k) ks y m z Ez).
Qed.

Theorem rename_named d y ks k new n d' : portable_doc d y -> key_portable new ->
  rename_field_doc (keys_path ks k) new d = (n, d') -> n = 0 /\ d' = d \/ n = 1 /\ rewrites (rekeys k new) ks d d'.
Proof.
  intros D K E. pose proof (rename_changed d y _ k new n d' D (last_keys ks k) K E) as C.
  unfold rename_field_doc in E. destruct (each_root (rename_f new) (keys_path ks k) d y D) as (a & b & Ei & Er). rewrite Er in E.
  destruct (for_hash 0 Nat.add (rename_f new) zero_r (keys_path ks k) y) as [m z] eqn:Ez. cbn [fst snd] in E. injection E as <- <-.
  eapply (keys_rewrite (replaced' k (fun _ v => mkHE new v))); [exact D| |exact Ei|reflexivity| |exact C].
  - intros l l' (b' & v & c & Kb & -> & ->). rewrite !nodes_mid. exists (map_nodes b'), (node_of v), (map_nodes c). split; [now apply nodes_lack|auto].
  - refine (each_keys _ _ k _ ks y m z Ez). intros b' v c m' e Kb Ef. injection Ef as <- <-. split; [reflexivity|]. now exists b', v, c.
Qed.

Theorem nest_named d y ks k new n d' : portable_doc d y -> everywhere no_inline_comment y -> key_portable new ->
  to_object_doc (keys_path ks k) new d = (n, d') -> n = 0 /\ d' = d \/ n = 1 /\ rewrites (nests k new) ks d d'.
Proof.
  intros D Ey K E. pose proof (nest_changed d y _ k new n d' D Ey (last_keys ks k) K E) as C.
  unfold to_object_doc in E. destruct (each_root (to_object_f new) (keys_path ks k) d y D) as (a & b & Ei & Er). rewrite Er in E.
  destruct (for_hash 0 Nat.add (to_object_f new) zero_r (keys_path ks k) y) as [m z] eqn:Ez. cbn [fst snd] in E. injection E as <- <-.
  eapply (keys_rewrite (replaced' k (fun k v => mkHE k (mkA None (Hash [HElem (mkHE new v)]))))); [exact D| |exact Ei|reflexivity| |exact C].
  - intros l l' (b' & v & c & Kb & -> & ->). rewrite !nodes_mid. exists (map_nodes b'), (node_of v), (map_nodes c). split; [now apply nodes_lack|].
    split; [reflexivity|]. now destruct v.
  - refine (each_keys _ _ k _ ks y m z Ez). intros b' v c m' e Kb Ef. injection Ef as <- <-. split; [reflexivity|]. now exists b', v, c.
Qed.

(** ---- what is there is found ---- *)
Lemma nodes_key k v : forall l b c, map_nodes l = b ++ (key_node k, v) :: c -> lacks k b ->
  exists lb a lc, l = lb ++ HElem (mkHE k a) :: lc /\ key_index lb k = None /\ node_of a = v.
Proof.
  induction l as [|d l IH]; intros b c E L; [now destruct b|].
  assert (Skip : hd_is_key k d = false -> forall b', map_nodes l = b' ++ (key_node k, v) :: c -> lacks k b' ->
    exists lb a lc, d :: l = lb ++ HElem (mkHE k a) :: lc /\ key_index lb k = None /\ node_of a = v).
  { intros Hd b' E' L'. destruct (IH b' c E' L') as (lb & a & lc & -> & K & N). exists (d :: lb), a, lc. split; [reflexivity|]. split; [|exact N]. cbn. now rewrite Hd, K. }
  destruct d as [x|x|[k' [al w]]]; [exact (Skip eq_refl b E L)|exact (Skip eq_refl b E L)|].
  cbn in E. destruct b as [|p b].
  - cbn in E. injection E as -> <- _. exists [], (mkA al w), l. now repeat split.
  - cbn in E. injection E as <- E. apply (Skip) with (b' := b); [|exact E|].
    + cbn. destruct (seqb k' k) eqn:S; [|reflexivity]. apply seqb_eq in S. subst. exfalso. apply L. now left.
    + intros X. apply L. now right.
Qed.
Lemma key_index_at k lb a lc : key_index lb k = None -> key_index (lb ++ HElem (mkHE k a) :: lc) k = Some (length lb).
Proof.
  induction lb as [|d lb IH]; cbn; intros H; [now rewrite (proj2 (seqb_eq k k) eq_refl)|].
  destruct (hd_is_key k d); [discriminate|]. destruct (key_index lb k); [discriminate|]. now rewrite IH.
Qed.
Lemma nth_at {X} (lb : list X) a lc : nth_error (lb ++ a :: lc) (length lb) = Some a.
Proof. induction lb; auto. Qed.

Lemma edit_found f k ks x l : leads ks x l -> forall y al, x = Node al (content_of y) -> everywhere not_inline y ->
  exists r, map_nodes r = l /\ fst (edit_hash f (keys_path ks k) y) = fst (f r k (key_index r k)).
Proof.
  induction 1 as [al' l|al' b a v c ks l B _ IH]; intros y al E N; injection E as _ E; cbn [keys_path edit_hash]; rewrite fits_nil.
  - destruct y as [r|r| | | | | | | |]; try discriminate E; [destruct N as [[] _]|]. cbn in E. injection E as E. exists r. split; [now symmetry|].
    now destruct (f r k (key_index r k)).
  - destruct y as [r|r| | | | | | | |]; try discriminate E; [destruct N as [[] _]|]. cbn in E. injection E as E. symmetry in E.
    destruct (nodes_key _ _ _ _ _ E B) as (lb & [al1 w] & lc & -> & K & M). rewrite (key_index_at _ _ _ _ K), nth_at.
    unfold edit_value. cbn [he_value a_value a_alias he_key]. apply everywhere_h in N as [_ N]. specialize (N _ (in_mid _ _ _)). cbn in N.
    cbn in M. destruct (IH w al1 (eq_sym M) N) as (r & R & Q). exists r. split; [exact R|]. rewrite <- Q. now destruct (edit_hash f (keys_path ks k) w).
Qed.
Lemma each_found f k ks x l : leads ks x l -> ~ lacks k l -> forall y al, x = Node al (content_of y) -> everywhere not_inline y ->
  exists v, fst (for_hash 0 Nat.add f zero_r (keys_path ks k) y) = fst (f (mkHE k v)).
Proof.
  intros L. induction L as [al' l|al' b a v c ks l B _ IH]; intros H y al E N; injection E as _ E; cbn [keys_path for_hash]; rewrite fits_nil.
  - destruct y as [r|r| | | | | | | |]; try discriminate E; [destruct N as [[] _]|]. cbn in E. injection E as E. change (l = map_nodes r) in E. subst l.
    destruct (key_index r k) as [i|] eqn:K; [|destruct H; now apply nodes_lack].
    destruct (key_ctx _ _ _ K) as (b & v & c & -> & _ & Nb & _). rewrite Nb. cbn [he_key]. rewrite (proj2 (seqb_eq k k) eq_refl).
    exists v. now destruct (f (mkHE k v)).
  - destruct y as [r|r| | | | | | | |]; try discriminate E; [destruct N as [[] _]|]. cbn in E. injection E as E. symmetry in E.
    destruct (nodes_key _ _ _ _ _ E B) as (lb & [al1 w] & lc & -> & K & M). rewrite (key_index_at _ _ _ _ K), nth_at.
    unfold on_value. cbn [he_value a_value a_alias he_key]. apply everywhere_h in N as [_ N]. specialize (N _ (in_mid _ _ _)). cbn in N.
    cbn in M. destruct (IH H w al1 (eq_sym M) N) as (u & Q). exists u. rewrite <- Q. now destruct (for_hash 0 Nat.add f zero_r (keys_path ks k) w).
Qed.

Section Found.
  Context (d : document) (y : yaml) (ks : list str) (k : str) (x : node) (l : list (node * node)).
  Context (D : portable_doc d y) (N : everywhere not_inline y) (X : yaml_file x (format_doc d ++ [NL])) (L : leads ks x l).
  Lemma root_x : x = Node None (content_of y).
  Proof. exact (file_one _ _ _ X (doc_wrote d y D)). Qed.
  Lemma index_lacks r : map_nodes r = l -> key_index r k = None <-> lacks k l.
  Proof.
    intros <-. split; [apply nodes_lack|]. intros H. destruct (key_index r k) as [i|] eqn:K; [|reflexivity]. exfalso.
    destruct (key_ctx _ _ _ K) as (b & v & c & -> & _). apply H. rewrite nodes_mid, map_app. apply in_or_app. right. now left.
  Qed.
  Lemma insert_found h ow : ow = true \/ lacks k l -> fst (insert_into_hash_doc (keys_path ks k) h ow d) = 1.
  Proof.
    intros H. unfold insert_into_hash_doc. destruct (edit_root (insert_f h ow) (keys_path ks k) d y D) as (a & b & _ & ->). cbn [fst].
    destruct (edit_found (insert_f h ow) k ks x l L y None root_x N) as (r & R & ->). unfold insert_f.
    destruct (key_index r k) as [i|] eqn:K; [|reflexivity]. destruct H as [-> |H]; [reflexivity|]. apply (index_lacks r R) in H. congruence.
  Qed.
  Lemma remove_found : ~ lacks k l -> fst (remove_from_hash_doc (keys_path ks k) d) = 1.
  Proof.
    intros H. unfold remove_from_hash_doc. destruct (edit_root remove_f (keys_path ks k) d y D) as (a & b & _ & ->). cbn [fst].
    destruct (edit_found remove_f k ks x l L y None root_x N) as (r & R & ->). unfold remove_f.
    destruct (key_index r k) as [i|] eqn:K; [reflexivity|]. destruct H. now apply (index_lacks r R).
  Qed.
  Lemma rename_found new : ~ lacks k l -> fst (rename_field_doc (keys_path ks k) new d) = 1.
  Proof.
    intros H. unfold rename_field_doc. destruct (each_root (rename_f new) (keys_path ks k) d y D) as (a & b & _ & ->). cbn [fst].
    now destruct (each_found (rename_f new) k ks x l L H y None root_x N) as (v & ->).
  Qed.
  Lemma nest_found new : ~ lacks k l -> fst (to_object_doc (keys_path ks k) new d) = 1.
  Proof.
    intros H. unfold to_object_doc. destruct (each_root (to_object_f new) (keys_path ks k) d y D) as (a & b & _ & ->). cbn [fst].
    now destruct (each_found (to_object_f new) k ks x l L H y None root_x N) as (v & ->).
  Qed.
End Found.
