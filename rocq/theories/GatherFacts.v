(** [find_values] gathers what YAML finds. *)
From Verif Require Import Base Ast Strings Path Insert Format Peg YamlGrammar Consume Spec_Parse Spec_Edit Spec_Local LocalFacts Spec_Yaml12
  Spec_Portable PortableFacts Spec_Layout Spec_Common CommonFacts UniqueBlock Spec_Amend AmendFacts ReviseFacts NamedFacts Spec_Seek SeekFacts
  Spec_Insert InsertFacts2 InsertFacts3 Spec_Gather.
Import ListNotations.

Lemma block_ok y : everywhere only_block y -> inline_ok y = true.
Proof.
  induction y as [l IH|l IH|l IH|l IH| | | | | |] using yaml_ind'; intros E; try reflexivity.
  - apply everywhere_h in E as [_ E]. cbn [inline_ok]. apply forallb_forall. intros d I. rewrite Forall_forall in IH. specialize (IH d I).
    destruct d as [c|c|e]; try reflexivity. exact (IH (E e I)).
  - apply everywhere_i in E as [[] _].
  - apply everywhere_a in E as [_ E]. cbn [inline_ok]. apply forallb_forall. intros d I. rewrite Forall_forall in IH. specialize (IH d I).
    destruct d as [c|c|e]; try reflexivity. exact (IH (E e I)).
Qed.

Lemma entry_first k l : entry k (map_nodes l) = option_map node_of (first_value k l).
Proof.
  induction l as [|[c|c|[k' [al v]]] l IH]; [reflexivity|exact IH|exact IH|]. cbn. destruct (seqb k' k); [reflexivity|exact IH].
Qed.
Lemma first_in k l a : first_value k l = Some a -> exists e, In (HElem e) l /\ he_value e = a.
Proof.
  induction l as [|[c|c|[k' v]] l IH]; cbn; intros H; try discriminate.
  - destruct (IH H) as (e & I & E). exists e. auto.
  - destruct (IH H) as (e & I & E). exists e. auto.
  - destruct (seqb k' k); [injection H as <-; exists (mkHE k' v); auto|]. destruct (IH H) as (e & I & E). exists e. auto.
Qed.
Lemma text_of v : as_string v = text (content_of v).
Proof. now destruct v. Qed.

Lemma meets_one al y c : only_block y -> meets (Node al (content_of y)) c = satisfies_b y [c].
Proof.
  intros N. destruct y as [l|l| | | | | | | |]; try reflexivity; [destruct N|]. change (content_of (Hash l)) with (Mapping (map_nodes l)).
  cbn [meets satisfies_b forallb]. rewrite entry_first, Bool.andb_true_r. destruct (first_value (c_field c) l) as [[al' v]|]; [|reflexivity]. cbn.
  destruct v; reflexivity.
Qed.
Lemma meets_all al y cs : only_block y -> forallb (meets (Node al (content_of y))) cs = satisfies_b y cs.
Proof.
  intros N. rewrite <- fits_satisfies. unfold fits_conditions. induction cs as [|c cs IH]; [reflexivity|]. cbn [forallb]. rewrite IH, (meets_one al y c N), <- fits_satisfies.
  unfold fits_conditions. cbn [forallb]. now rewrite Bool.andb_true_r.
Qed.

Lemma top_block y : everywhere only_block y -> only_block y.
Proof. destruct y; cbn; tauto. Qed.

(** Elements one by one. *)
Lemma element_pairs l : exists als, length als = length (elements l) /\ seq_nodes l = map (fun p => Node (fst p) (content_of (snd p))) (combine als (elements l)) /\
  forall v, In v (elements l) -> exists a, In (AElem a) l /\ a_value a = v.
Proof.
  induction l as [|[c|c|[al v]] l (als & L & E & I)].
  - exists []. repeat split. intros v [].
  - exists als. split; [exact L|]. split; [exact E|]. intros v H. destruct (I v H) as (a & A & B). exists a. split; [now right|exact B].
  - exists als. split; [exact L|]. split; [exact E|]. intros v H. destruct (I v H) as (a & A & B). exists a. split; [now right|exact B].
  - exists (al :: als). split; [cbn; now f_equal|]. split; [cbn; f_equal; exact E|]. cbn. intros w [<- |H].
    + exists (mkA al v). split; [now left|reflexivity].
    + destruct (I w H) as (a & A & B). exists a. split; [now right|exact B].
Qed.

Lemma gather_nodes : forall r al y, everywhere only_block y -> map content_of (nodes r y) = map body (gather r (Node al (content_of y))).
Proof.
  induction r as [|s r IH]; intros al y E; [reflexivity|]. destruct s as [k cs|i cs|cs]; cbn [nodes gather].
  - destruct y as [l|l| | | | | | | |]; try reflexivity; [destruct E as [[] _]|]. pose proof (meets_all al (Hash l) cs (top_block _ E)) as M.
    change (content_of (Hash l)) with (Mapping (map_nodes l)) in *. rewrite M. destruct (satisfies_b (Hash l) cs); [|reflexivity].
    rewrite entry_first. destruct (first_value k l) as [[al' v]|] eqn:F; [|reflexivity]. cbn [option_map node_of a_value]. apply IH.
    apply everywhere_h in E as [_ E]. destruct (first_in _ _ _ F) as (e & I & V). specialize (E e I). now rewrite V in E.
  - destruct y as [| |l|l| | | | | |]; try reflexivity; [destruct E as [[] _]|]. change (content_of (Array l)) with (Sequence (seq_nodes l)). cbn iota.
    apply everywhere_a in E as [_ E]. destruct (element_pairs l) as (als & L & Q & I). rewrite Q. clear Q.
    assert (B : forall v, In v (elements l) -> everywhere only_block v) by (intros v H; destruct (I v H) as (a & A & <-); auto).
    clear - IH L B. revert als L i. induction (elements l) as [|v es IHe]; intros [|a als] L i; try discriminate L; [now destruct i|].
    cbn [combine map]. destruct i as [|i]; cbn [nth_error fst snd].
    + rewrite (meets_all a v cs (top_block _ (B v (or_introl eq_refl)))). destruct (satisfies_b v cs); [|reflexivity]. apply IH. apply B. now left.
    + apply IHe; [intros; apply B; now right|]. now injection L.
  - destruct y as [| |l|l| | | | | |]; try reflexivity; [destruct E as [[] _]|]. change (content_of (Array l)) with (Sequence (seq_nodes l)). cbn iota.
    apply everywhere_a in E as [_ E]. destruct (element_pairs l) as (als & L & Q & I). rewrite Q. clear Q.
    assert (B : forall v, In v (elements l) -> everywhere only_block v) by (intros v H; destruct (I v H) as (a & A & <-); auto).
    clear - IH L B. revert als L. induction (elements l) as [|v es IHe]; intros [|a als] L; try discriminate L; [reflexivity|].
    cbn [combine map flat_map fst snd]. rewrite !map_app. f_equal.
    + rewrite (meets_all a v cs (top_block _ (B v (or_introl eq_refl)))). destruct (satisfies_b v cs); [|reflexivity]. apply IH. apply B. now left.
    + apply IHe; [intros; apply B; now right|]. now injection L.
Qed.

Theorem gather_doc d y r x vs d' : portable_doc d y -> everywhere only_block y -> yaml_file x (format_doc d ++ [NL]) ->
  find_values_doc (path_of r) d = (vs, d') -> d' = d /\ map content_of vs = map body (gather r x).
Proof.
  intros D N X E. rewrite (seek_doc d y _ D) in E. injection E as <- <-. split; [reflexivity|].
  rewrite (file_one _ _ _ X (doc_wrote d y D)), <- gather_nodes by exact N. f_equal. exact (find_is_nodes r y (block_ok y N)).
Qed.
Theorem gather_file ut d y s r x : common ut d y s -> everywhere only_block y -> yaml_file x s ->
  parse_yaml ut s = CVal d /\ forall vs d', find_values_doc (path_of r) d = (vs, d') -> d' = d /\ map content_of vs = map body (gather r x).
Proof.
  intros C N X. destruct (common_both ut d y s C) as [R F]. split; [exact R|]. intros vs d'. rewrite (file_one _ _ _ X F).
  destruct (common_portable ut d y s C) as [D _]. apply (gather_doc d y r); auto. now apply doc_wrote.
Qed.

(** The strings. *)
Theorem gather_strings d y r x : portable_doc d y -> everywhere only_block y -> yaml_file x (format_doc d ++ [NL]) ->
  map as_string (fst (find_values_doc (path_of r) d)) = map (fun w => text (body w)) (gather r x).
Proof.
  intros D N X. destruct (find_values_doc (path_of r) d) as [vs d'] eqn:E. destruct (gather_doc d y r x vs d' D N X E) as [_ M].
  cbn [fst]. rewrite <- (map_map body text), <- M, map_map. apply map_ext. apply text_of.
Qed.

(** ---- all paths ---- *)
Lemma idx_pure {X L} (get : nat -> L -> option X) set (g : X -> option (list yaml * X)) l : (forall i x a x', get i l = Some x -> g x = Some (a, x') -> set i x' l = l) ->
  forall is_ acc, fst (idx_loop (@app yaml) get set g is_ acc l) =
    acc ++ flat_map (fun i => match get i l with Some x => match g x with Some (a, _) => a | None => [] end | None => [] end) is_.
Proof.
  intros H. induction is_ as [|i is_ IH]; intros acc; cbn [idx_loop flat_map]; [now rewrite app_nil_r|].
  destruct (get i l) as [x|] eqn:G; [|now rewrite IH]. destruct (g x) as [[a x']|] eqn:E; [|now rewrite IH].
  rewrite (H i x a x' G E), IH. now rewrite app_assoc.
Qed.
Lemma all_pure {X} (g : X -> option (list yaml * X)) l : forall acc, fst (all_loop (@app yaml) g acc l) =
  acc ++ flat_map (fun x => match g x with Some (a, _) => a | None => [] end) l.
Proof.
  induction l as [|x l IH]; intros acc; cbn [all_loop flat_map]; [now rewrite app_nil_r|]. destruct (g x) as [[a x']|].
  - specialize (IH (acc ++ a)). destruct (all_loop _ _ _ l). cbn [fst] in *. now rewrite IH, app_assoc.
  - specialize (IH acc). destruct (all_loop _ _ _ l). cbn [fst] in *. now rewrite IH.
Qed.
Definition seek (o : option path) : yaml -> list yaml * yaml := match o with Some p => for_hash [] (@app yaml) find_f find_r p | None => find_r end.
Lemma seek_pure o a : on_value (seek o) a = (found' o (a_value a), a).
Proof.
  unfold on_value. destruct a as [al v]. cbn [a_value a_alias]. destruct o as [p|]; cbn [seek found']; [|reflexivity].
  pose proof (find_values_pure p v) as H. unfold find_values_st in H. unfold SeekFacts.found. destruct (for_hash [] (@app yaml) find_f find_r p v) as [w z]. cbn in *. now subst.
Qed.
Lemma found_idx is_ cs o l : SeekFacts.found (PIdx is_ cs o) (Array l) =
  flat_map (fun i => match get_elem i l with Some a => if fits_conditions (a_value a) cs then found' o (a_value a) else [] | None => [] end) is_.
Proof.
  unfold SeekFacts.found. cbn [for_hash inline_depth idx_step]. fold (seek o).
  match goal with |- context [idx_loop _ _ _ ?g is_ [] l] => pose proof (idx_pure get_elem set_elem g l) as H; destruct (idx_loop (@app yaml) get_elem set_elem g is_ [] l) as [a z] eqn:E end.
  cbn [fst]. assert (S : forall i x a0 x', get_elem i l = Some x -> (if fits_conditions (a_value x) cs then Some (on_value (seek o) x) else None) = Some (a0, x') -> set_elem i x' l = l).
  { intros i x a0 x' G X. destruct (fits_conditions (a_value x) cs); [|discriminate]. rewrite seek_pure in X. injection X as _ <-.
    clear - G. revert i G. induction l as [|[c|c|b] l IH]; intros i G; cbn in *; try discriminate; try (f_equal; now apply IH).
    destruct i; [now injection G as ->|]. f_equal. now apply IH. }
  specialize (H S is_ []). rewrite E in H. cbn [fst app] in H. rewrite H. apply flat_map_ext. intros i. destruct (get_elem i l) as [x|]; [|reflexivity].
  destruct (fits_conditions (a_value x) cs); [|reflexivity]. now rewrite seek_pure.
Qed.
Lemma found_all cs o l : SeekFacts.found (PAll cs o) (Array l) = flat_map (fun v => if fits_conditions v cs then found' o v else []) (elements l).
Proof.
  unfold SeekFacts.found. cbn [for_hash inline_depth idx_step]. fold (seek o).
  match goal with |- context [all_loop _ ?g [] l] => pose proof (all_pure g l []) as H; destruct (all_loop (@app yaml) g [] l) as [a z] end.
  cbn [fst app] in *. rewrite H. clear. induction l as [|[c|c|e] l IH]; [reflexivity|exact IH|exact IH|]. cbn [flat_map elements]. rewrite IH. f_equal.
  destruct (fits_conditions (a_value e) cs); [|reflexivity]. now rewrite seek_pure.
Qed.

Definition select' (o : option path) (x : node) : list node := match o with Some p => select p x | None => [x] end.
Lemma select_found : forall p al y, everywhere only_block y -> map content_of (SeekFacts.found p y) = map body (select p (Node al (content_of y))).
Proof.
  assert (R : forall rest, opt_P (fun p => forall al y, everywhere only_block y -> map content_of (SeekFacts.found p y) = map body (select p (Node al (content_of y)))) rest ->
    forall al y, everywhere only_block y -> map content_of (found' rest y) = map body (select' rest (Node al (content_of y)))).
  { intros [p|] H al y E; [exact (H al y E)|reflexivity]. }
  induction p as [cs|k cs rest IH|cs rest IH|is_ cs rest IH] using path_ind'; intros al y E; [|specialize (R rest IH)..]; cbn [select].
  - unfold SeekFacts.found. cbn [for_hash]. rewrite (meets_all al y cs (top_block _ E)), fits_satisfies. now destruct (satisfies_b y cs).
  - destruct y as [l|l| | | | | | | |]; try (unfold SeekFacts.found; cbn [for_hash]; now destruct (fits_conditions _ cs)); [destruct E as [[] _]|].
    pose proof (meets_all al (Hash l) cs (top_block _ E)) as M. change (content_of (Hash l)) with (Mapping (map_nodes l)) in *. rewrite M, <- fits_satisfies.
    unfold SeekFacts.found. cbn [for_hash]. destruct (fits_conditions (Hash l) cs); [|reflexivity]. rewrite entry_first.
    pose proof (key_index_first_value l k) as F. destruct (key_index l k) as [i|]; [|now rewrite F]. destruct F as (e & N & K & F). rewrite N, F.
    assert (Ev : everywhere only_block (a_value (he_value e))) by (apply everywhere_h in E as [_ E]; apply E; exact (nth_error_In _ _ N)).
    specialize (R (a_alias (he_value e)) _ Ev). pose proof (seek_pure rest (he_value e)) as Sk. destruct (he_value e) as [al' v] eqn:He. cbn [option_map node_of a_value a_alias] in *.
    rewrite <- K. destruct rest as [p|]; cbn [seek found' select'] in *.
    + rewrite Sk. cbn [fst]. exact R.
    + rewrite (proj2 (seqb_eq _ _) eq_refl). unfold find_f. cbn [fst]. rewrite He. exact R.
  - destruct y as [| |l|l| | | | | |]; try reflexivity; [destruct E as [[] _]|]. rewrite found_all. change (content_of (Array l)) with (Sequence (seq_nodes l)). cbn iota.
    apply everywhere_a in E as [_ E]. destruct (element_pairs l) as (als & L & Q & I). rewrite Q. clear Q.
    assert (B : forall v, In v (elements l) -> everywhere only_block v) by (intros v H; destruct (I v H) as (a & A & <-); auto).
    clear - R L B. revert als L. induction (elements l) as [|v es IHe]; intros [|a als] L; try discriminate L; [reflexivity|].
    cbn [combine map flat_map fst snd]. rewrite !map_app. f_equal.
    + rewrite (meets_all a v cs (top_block _ (B v (or_introl eq_refl)))), fits_satisfies. destruct (satisfies_b v cs); [|reflexivity]. apply R. apply B. now left.
    + apply IHe; [intros; apply B; now right|]. now injection L.
  - destruct y as [| |l|l| | | | | |]; try reflexivity; [destruct E as [[] _]|]. rewrite found_idx. change (content_of (Array l)) with (Sequence (seq_nodes l)). cbn iota.
    apply everywhere_a in E as [_ E]. induction is_ as [|i is_ IHi]; [reflexivity|]. cbn [flat_map]. rewrite !map_app. f_equal; [|exact IHi].
    destruct (get_elem i l) as [[al1 v]|] eqn:G.
    + destruct (elem_ctx _ _ _ G) as (b & c & -> & Lb). rewrite anodes_mid, <- Lb, nth_at. cbn [a_value node_of]. specialize (E _ (in_mid _ _ _)). cbn in E.
      rewrite (meets_all al1 v cs (top_block _ E)), fits_satisfies. destruct (satisfies_b v cs); [|reflexivity]. now apply R.
    + destruct (nth_error (seq_nodes l) i) as [w|] eqn:Nw; [|reflexivity]. exfalso. apply nth_error_split in Nw as (b & c & Eq & Lb).
      destruct (elem_at _ _ _ _ Eq) as (a & Ga & _). rewrite Lb in Ga. congruence.
Qed.

Theorem select_doc d y p x vs d' : portable_doc d y -> everywhere only_block y -> yaml_file x (format_doc d ++ [NL]) ->
  find_values_doc p d = (vs, d') -> d' = d /\ map content_of vs = map body (select p x).
Proof.
  intros D N X E. rewrite (seek_doc d y _ D) in E. injection E as <- <-. split; [reflexivity|].
  rewrite (file_one _ _ _ X (doc_wrote d y D)). now apply select_found.
Qed.
Theorem select_file ut d y s p x : common ut d y s -> everywhere only_block y -> yaml_file x s ->
  parse_yaml ut s = CVal d /\ forall vs d', find_values_doc p d = (vs, d') -> d' = d /\ map content_of vs = map body (select p x).
Proof.
  intros C N X. destruct (common_both ut d y s C) as [R F]. split; [exact R|]. intros vs d'. rewrite (file_one _ _ _ X F).
  destruct (common_portable ut d y s C) as [D _]. apply (select_doc d y p); auto. now apply doc_wrote.
Qed.
