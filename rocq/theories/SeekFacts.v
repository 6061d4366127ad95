(** [find_values] finds what YAML finds. *)
From Coq Require Import Lia.
From Verif Require Import Base Ast Strings Path Insert InsertFacts InsertFacts2 Format Peg YamlGrammar Consume Spec_Parse Spec_Edit Spec_Local LocalFacts LocalFacts2 Spec_Yaml12
  Spec_Portable PortableFacts Spec_Layout Spec_Common CommonFacts UniqueBlock Spec_Amend AmendFacts ReviseFacts NamedFacts Spec_Seek.
Import ListNotations.

Definition found (p : path) (y : yaml) : list yaml := fst (for_hash [] (@app yaml) find_f find_r p y).
Definition found' (o : option path) (y : yaml) : list yaml := match o with Some p => found p y | None => [y] end.

Lemma found_key k o b a c : key_index b k = None -> found (PKey k [] o) (Hash (b ++ HElem (mkHE k a) :: c)) = found' o (a_value a).
Proof.
  intros B. unfold found. cbn [for_hash]. rewrite fits_nil, (key_index_at _ _ _ _ B), nth_at. destruct o as [p|]; cbn [he_key he_value found'].
  - unfold on_value, found. now destruct (for_hash [] (@app yaml) find_f find_r p (a_value a)).
  - now rewrite (proj2 (seqb_eq k k) eq_refl).
Qed.
Lemma found_no_key k o l : key_index l k = None -> found (PKey k [] o) (Hash l) = [].
Proof. intros B. unfold found. cbn [for_hash]. now rewrite fits_nil, B. Qed.
Lemma found_elt i o l : found (PIdx [i] [] o) (Array l) = match get_elem i l with Some a => found' o (a_value a) | None => [] end.
Proof.
  unfold found. cbn [for_hash inline_depth idx_step idx_loop]. destruct (get_elem i l) as [a|]; [|reflexivity]. rewrite fits_nil. unfold on_value.
  destruct o as [p|]; cbn [found']; unfold found.
  - now destruct (for_hash [] (@app yaml) find_f find_r p (a_value a)).
  - reflexivity.
Qed.
Lemma line_elt elem i n : forall y c, inline_portable c y -> fst (idx_step [] (@app yaml) (Some [i]) [] elem n y) = [].
Proof.
  induction n as [|n IH]; intros y c P; destruct y as [| |l|[|]| | | | | |]; try reflexivity; try easy.
  cbn [idx_step idx_loop]. destruct (nth_error l i) as [e|] eqn:E; [|reflexivity]. rewrite fits_nil.
  assert (Q : inline_portable FlowIn e).
  { apply nth_error_In in E. cbn [inline_portable] in P. clear - P E. induction l as [|x l IH]; [easy|]. cbn in P. destruct P as [P1 P2], E as [-> |E]; auto. }
  specialize (IH e FlowIn Q). destruct (idx_step [] (@app yaml) (Some [i]) [] elem n e) as [u z]. cbn in *. now subst.
Qed.

Lemma elem_ctx : forall l i a, get_elem i l = Some a -> exists b c, l = b ++ AElem a :: c /\ length (seq_nodes b) = i.
Proof.
  induction l as [|d l IH]; intros i a H; [discriminate|]. destruct d as [x|x|[al v]]; cbn in H.
  - destruct (IH _ _ H) as (b & c & -> & E). exists (AInlineC x :: b), c. split; [reflexivity|exact E].
  - destruct (IH _ _ H) as (b & c & -> & E). exists (AComment x :: b), c. split; [reflexivity|exact E].
  - destruct i as [|i]; [injection H as <-; now exists [], l|]. destruct (IH _ _ H) as (b & c & -> & E). exists (AElem (mkA al v) :: b), c. split; [reflexivity|]. cbn. now f_equal.
Qed.
Lemma elem_at : forall l b v c, seq_nodes l = b ++ v :: c -> exists a, get_elem (length b) l = Some a /\ node_of a = v /\ In (AElem a) l.
Proof.
  induction l as [|d l IH]; intros b v c H; [now destruct b|]. destruct d as [x|x|[al w]]; cbn in H.
  - destruct (IH _ _ _ H) as (a & A & B & C). exists a. split; [exact A|]. split; [exact B|now right].
  - destruct (IH _ _ _ H) as (a & A & B & C). exists a. split; [exact A|]. split; [exact B|now right].
  - destruct b as [|u b]; cbn in H.
    + injection H as <- _. exists (mkA al w). split; [reflexivity|]. split; [reflexivity|now left].
    + injection H as _ H. destruct (IH _ _ _ H) as (a & A & B & C). exists a. split; [exact A|]. split; [exact B|now right].
Qed.

(** What is found is there. *)
Lemma found_there : forall r al y vs, portable (mkA al y) -> found' (steps r) y = vs ->
  vs = [] \/ exists v al', vs = [v] /\ value_at r (Node al (content_of y)) (Node al' (content_of v)).
Proof.
  induction r as [|s r IH]; intros al y vs P E; cbn [steps found'] in E.
  - right. exists y, al. split; [now symmetry|constructor].
  - destruct s as [k|i]; cbn [steps found'] in E.
    + destruct y as [|l| | | | | | | |]; try (left; now subst vs). destruct (key_index l k) as [j|] eqn:K; [|left; now rewrite found_no_key in E by exact K].
      destruct (key_ctx _ _ _ K) as (b & [al1 v] & c & -> & B & _). rewrite found_key in E by exact B. cbn [a_value] in E.
      assert (R : map_rows (b ++ HElem (mkHE k (mkA al1 v)) :: c)) by (inversion P as [a O| | |? ? ? R _|]; subst; [destruct O as [O _]; destruct b; contradiction O|exact R]).
      destruct (rows_mid _ _ _ _ R) as (_ & P1 & _). destruct (IH al1 v vs P1 E) as [-> |(w & al' & -> & V)]; [now left|right].
      exists w, al'. split; [reflexivity|]. change (content_of (Hash (b ++ HElem (mkHE k (mkA al1 v)) :: c))) with (Mapping (map_nodes (b ++ HElem (mkHE k (mkA al1 v)) :: c))).
      rewrite nodes_mid. apply va_key; [now apply nodes_lack|exact V].
    + destruct y as [| |l|l| | | | | |]; try (left; now subst vs).
      * left. inversion P as [a O| | | |]; subst. destruct O as [O _]. unfold found. cbn [for_hash]. now apply (line_elt _ _ _ (InlineArray l) FlowOut).
      * rewrite found_elt in E. destruct (get_elem i l) as [[al1 v]|] eqn:G; [|left; now subst]. cbn [a_value] in E.
        destruct (elem_ctx _ _ _ G) as (b & c & -> & Lb).
        assert (R : seq_rows (b ++ AElem (mkA al1 v) :: c)) by (inversion P as [a O| | | |? ? ? R _]; subst; [destruct O as [O _]; destruct b; contradiction O|exact R]).
        destruct (arows_mid _ _ _ R) as (P1 & _). destruct (IH al1 v vs P1 E) as [-> |(w & al' & -> & V)]; [now left|right].
        exists w, al'. split; [reflexivity|]. change (content_of (Array (b ++ AElem (mkA al1 v) :: c))) with (Sequence (seq_nodes (b ++ AElem (mkA al1 v) :: c))).
        rewrite anodes_mid, <- Lb. now apply va_elt.
Qed.

(** What is there is found. *)
Lemma there_found r x w : value_at r x w -> forall al y, x = Node al (content_of y) -> everywhere only_block y ->
  exists v al', w = Node al' (content_of v) /\ found' (steps r) y = [v].
Proof.
  induction 1 as [x|al' b k v c r w B _ IH|al' b v c r w _ IH]; intros al y E N.
  - now exists y, al.
  - injection E as _ E. destruct y as [l|l| | | | | | | |]; try discriminate E; [destruct N as [[] _]|]. cbn in E. injection E as E. symmetry in E.
    destruct (nodes_key _ _ _ _ _ E B) as (lb & [al1 z] & lc & -> & K & M). cbn [steps found']. rewrite found_key by exact K. cbn [a_value].
    apply everywhere_h in N as [_ N]. specialize (N _ (in_mid _ _ _)). cbn in N, M. exact (IH al1 z (eq_sym M) N).
  - injection E as _ E. destruct y as [| |l|l| | | | | |]; try discriminate E; [destruct N as [[] _]|]. cbn in E. injection E as E. symmetry in E.
    destruct (elem_at _ _ _ _ E) as ([al1 z] & G & M & I). cbn [steps found']. rewrite found_elt, G. cbn [a_value].
    apply everywhere_a in N as [_ N]. specialize (N _ I). cbn in N, M. exact (IH al1 z (eq_sym M) N).
Qed.

(** ---- documents ---- *)
Lemma seek_notes p b : forall acc, all_loop (@app yaml) (fun x => Some (for_hash_docdata [] (@app yaml) find_f find_r p x)) acc (map DComment b) = (acc, map DComment b).
Proof. induction b as [|c b IH]; intros acc; [reflexivity|]. cbn. now rewrite app_nil_r, IH. Qed.
Lemma seek_items p a : forall acc y b, all_loop (@app yaml) (fun x => Some (for_hash_docdata [] (@app yaml) find_f find_r p x)) acc (map DComment a ++ DYaml y :: map DComment b) =
  (acc ++ found p y, map DComment a ++ DYaml y :: map DComment b).
Proof.
  induction a as [|c a IH]; intros acc y b; cbn.
  - pose proof (find_values_pure p y) as H. unfold find_values_st in H. unfold found. destruct (for_hash [] (@app yaml) find_f find_r p y) as [v z].
    cbn in *. subst z. now rewrite seek_notes.
  - now rewrite app_nil_r, IH.
Qed.
Lemma seek_doc d y p : portable_doc d y -> find_values_doc p d = (found p y, d).
Proof.
  intros D. destruct (portable_items d y D) as (a & b & E). unfold find_values_doc, for_hash_doc. rewrite E, seek_items. destruct d. cbn in *. now rewrite E.
Qed.
Lemma doc_value d y : portable_doc d y -> portable (mkA None y).
Proof. intros [cs0 cs y' cs1 C0 C C1 P B|cs0 y' cs1 C0 C1 O]; [exact P|now apply PLine]. Qed.

Theorem seek_there d y r p x vs d' : portable_doc d y -> steps r = Some p -> yaml_file x (format_doc d ++ [NL]) ->
  find_values_doc p d = (vs, d') -> d' = d /\ (vs = [] \/ exists v al, vs = [v] /\ value_at r x (Node al (content_of v))).
Proof.
  intros D S X E. rewrite (seek_doc d y p D) in E. injection E as E <-. split; [reflexivity|].
  rewrite (file_one _ _ _ X (doc_wrote d y D)). apply (found_there r None y vs (doc_value d y D)). now rewrite S.
Qed.
Theorem seek_found d y r p x w : portable_doc d y -> everywhere only_block y -> steps r = Some p -> yaml_file x (format_doc d ++ [NL]) ->
  value_at r x w -> exists v al, w = Node al (content_of v) /\ find_values_doc p d = ([v], d).
Proof.
  intros D N S X V. destruct (there_found r x w V None y (file_one _ _ _ X (doc_wrote d y D)) N) as (v & al & -> & F).
  exists v, al. split; [reflexivity|]. rewrite (seek_doc d y p D). rewrite S in F. cbn in F. now rewrite F.
Qed.

(** ---- files ---- *)
Theorem seek_file ut d y s r p x vs d' : common ut d y s -> steps r = Some p -> yaml_file x s -> parse_yaml ut s = CVal d /\
  (find_values_doc p d = (vs, d') -> d' = d /\ (vs = [] \/ exists v al, vs = [v] /\ value_at r x (Node al (content_of v)))).
Proof.
  intros C S X. destruct (common_both ut d y s C) as [R F]. split; [exact R|]. rewrite (file_one _ _ _ X F).
  destruct (common_portable ut d y s C) as [D _]. apply (seek_there d y r p); auto. now apply doc_wrote.
Qed.
Theorem seek_file_found ut d y s r p x w : common ut d y s -> everywhere only_block y -> steps r = Some p -> yaml_file x s -> value_at r x w ->
  parse_yaml ut s = CVal d /\ exists v al, w = Node al (content_of v) /\ find_values_doc p d = ([v], d).
Proof.
  intros C N S X V. destruct (common_both ut d y s C) as [R F]. split; [exact R|]. rewrite (file_one _ _ _ X F) in V.
  destruct (common_portable ut d y s C) as [D _]. apply (seek_found d y r p (Node None (content_of y)) w); auto. now apply doc_wrote.
Qed.

(** The value at a place is one. *)
Lemma key_split {X} k (b b' : list (node * X)) v v' c c' : ~ In k (map fst b) -> ~ In k (map fst b') -> b ++ (k, v) :: c = b' ++ (k, v') :: c' -> v = v'.
Proof.
  revert b'. induction b as [|u b IH]; intros [|u' b'] N N' E; cbn in *; injection E.
  - congruence.
  - intros _ <-. destruct N'. now left.
  - intros _ ->. destruct N. now left.
  - intros E' _. apply (IH b'); [tauto|tauto|exact E'].
Qed.
Lemma elt_split {X} (b b' : list X) v v' c c' : length b = length b' -> b ++ v :: c = b' ++ v' :: c' -> v = v'.
Proof. revert b'. induction b as [|u b IH]; intros [|u' b'] L E; try discriminate L; injection E; [congruence|]. intros E' _. apply (IH b'); auto. Qed.
Theorem value_one r x w w' : value_at r x w -> value_at r x w' -> w = w'.
Proof.
  intros V. revert w'. induction V as [x|al b k v c r w B _ IH|al b v c r w _ IH]; intros w' V'.
  - now inversion V'.
  - inversion V'; subst. apply IH.
    match goal with E : ?b1 ++ (_, ?v1) :: ?c1 = ?b2 ++ (_, ?v2) :: ?c2, L1 : lacks k ?b1, L2 : lacks k ?b2 |- _ =>
      pose proof (key_split _ b1 b2 v1 v2 c1 c2 L1 L2 E) as Q end. congruence.
  - inversion V'; subst. apply IH.
    match goal with E : ?b1 ++ ?v1 :: ?c1 = ?b2 ++ ?v2 :: ?c2 |- _ => pose proof (elt_split b1 b2 v1 v2 c1 c2 ltac:(congruence) E) as Q end. congruence.
Qed.
