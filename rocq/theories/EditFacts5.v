(** Moved entries: what is written is read back. *)
From Verif Require Import Base Ast Path Strings Peg YamlGrammar PathGrammar Consume Format Insert MoveDoc Spec_Insert InsertFacts3 InsertFacts4 InsertFacts5
  Spec_Path PathFacts Spec_Parse Spec_Format FormatTree Spec_Stable StableFacts Spec_Edit EditFacts EditFacts2
  Spec_Move MoveFacts Spec_Rearrange EditFacts3 EditFacts4.
Import ListNotations.

Section Moves.
Context (ut : unitab).

Lemma key_plain k : plain_key ut k -> plain (lit "[].|") k.
Proof.
  intros ((c & r & -> & N) & A & E). split; [discriminate|]. split; [|split; [|exact E]].
  - intros x X B. assert (D : name_char ut x -> False).
    { intros Nx. cbn in B. unfold name_char, YamlGrammar.is_letter, is_number in Nx.
      destruct B as [<-|[<-|[<-|[<-|[]]]]]; cbn in Nx; destruct Nx as [Nx|[Nx|Nx]]; discriminate. }
    destruct (A x X) as [Nx|[->| ->]]; [auto| |]; cbn in B; destruct B as [B|[B|[B|[B|[]]]]]; discriminate.
  - intros r' Er. injection Er as -> ->. unfold name_char, YamlGrammar.is_letter, is_number in N. cbn in N. destruct N as [N|[N|N]]; discriminate.
Qed.
Lemma parse_plain_key k : plain_key ut k -> parse_path k = Some (PKey k [] None).
Proof. intros K. now apply parse_single, key_plain. Qed.

Context (G : str -> yaml -> Prop) (HG : forall k v v', same_kind v v' -> G k v -> G k v').
Notation hpart := (hpart ut G).
Notation parts := (parts ut G).
Definition some_count (a : option nat) : Prop := a <> None.

Lemma key_value_hpart data k v : Forall hpart data -> key_value_l data k = Some v -> hpart (HElem (mkHE k v)).
Proof.
  induction 1 as [|d data Hd _ IH]; [discriminate|]. cbn. destruct d as [c|c|e]; auto.
  destruct (seqb (he_key e) k) eqn:E; auto. intros X. injection X as <-. apply seqb_eq in E. subst k. destruct e. exact Hd.
Qed.
Lemma fields_hpart data names : Forall hpart data -> Forall (fun f => hpart (HElem (mkHE (fst f) (snd f)))) (fields_of data names).
Proof.
  intros P. unfold fields_of. induction names as [|k names IH]; [constructor|]. cbn. apply Forall_app. split; [|exact IH].
  destruct (key_value_l data k) eqn:E; constructor; [|constructor]. now apply (key_value_hpart data).
Qed.
Lemma set_key_hpart data k v : Forall hpart data -> plain_key ut k -> G k (a_value v) -> hpart (HElem (mkHE k v)) ->
  Forall hpart (set_key_value data k v).
Proof.
  intros P K Gk H. induction P as [|d data Hd P IH]; [constructor|]. cbn. destruct d as [c|c|e]; try (now constructor).
  destruct (seqb (he_key e) k) eqn:E; [|now constructor]. constructor; [|exact P]. apply seqb_eq in E. rewrite E. exact H.
Qed.

Lemma insert_fields_parts fields : Forall (fun f => hpart (HElem (mkHE (fst f) (snd f)))) fields -> forall o sub, parts o (a_value sub) ->
  exists sub', insert_fields parse_path fields sub = Some sub' /\ a_alias sub' = a_alias sub
    /\ parts o (a_value sub') /\ same_kind (a_value sub) (a_value sub').
Proof.
  induction 1 as [|[k v] fields Hf _ IH]; intros o sub P; [exists sub; split; [reflexivity|split; [reflexivity|split; [exact P|apply same_kind_refl]]]|].
  cbn [insert_fields]. cbn [fst snd] in Hf. destruct v as [al v]. destruct Hf as ((Hg & Hk) & Ha & Hp). rewrite (parse_plain_key k Hk).
  assert (Hh : hpart (HElem (mkHE k (mkA al v)))) by (split; [split|split]; assumption).
  destruct (insert_parts ut G HG (PKey k [] None) k (mkA al v) true o _ eq_refl Hh P) as [I1 I2].
  destruct (IH o (mkA (a_alias sub) (snd (insert_into_hash (PKey k [] None) (mkA al v) true (a_value sub)))) I1) as (sub' & E & E1 & E2 & E3).
  exists sub'. split; [exact E|]. split; [exact E1|]. split; [exact E2|]. cbn [a_value] in E3.
  clear -I2 E3. destruct (a_value sub), (snd (insert_into_hash _ _ _ _)), (a_value sub'); cbn in *; congruence || exact I.
Qed.
Lemma remove_fields_parts fields : Forall (fun f => plain_key ut (fst f)) fields -> forall o y, parts o y ->
  exists y', remove_fields parse_path fields y = Some y' /\ parts o y' /\ same_kind y y'.
Proof.
  induction 1 as [|[k v] fields Hf _ IH]; intros o y P; [exists y; split; [reflexivity|split; [exact P|apply same_kind_refl]]|].
  cbn [remove_fields]. cbn [fst] in Hf. rewrite (parse_plain_key k Hf).
  destruct (remove_parts ut G HG (PKey k [] None) o _ P) as [I1 I2]. destruct (IH o _ I1) as (y' & E & E1 & E2).
  exists y'. split; [exact E|]. split; [exact E1|]. clear -I2 E2. destruct y, (snd (remove_from_hash _ _)), y'; cbn in *; congruence || exact I.
Qed.

Lemma mts_fine sub names : plain_key ut sub -> (forall l, G sub (Hash l)) ->
  fine ut G some_count (mts_r parse_path sub names).
Proof.
  intros K Gs. split.
  2:{ intros y J. destruct y; try (split; [discriminate|reflexivity]). destruct J. }
  intros o y P. destruct y as [|data| | | | | | | |]; try (split; [discriminate|split; [exact P|apply same_kind_refl]]).
  unfold mts_r. destruct (is_nil (fields_of data names)); [split; [discriminate|split; [exact P|exact I]]|].
  pose proof (fields_hpart data names (proj1 (parts_hash _ _ _ _) P)) as Hf. set (fields := fields_of data names) in *. clearbody fields.
  assert (Hk : Forall (fun f => plain_key ut (fst f)) fields).
  { eapply Forall_impl; [|exact Hf]. intros [k [al v]] ((_ & H) & _). exact H. }
  match goal with |- context [match ?X with Some y1 => match remove_fields _ _ _ with _ => _ end | None => _ end] =>
    assert (E : exists data', X = Some (Hash data') /\ parts o (Hash data')) end.
  { destruct (key_value_l data sub) as [v|] eqn:E.
    - pose proof (key_value_hpart data sub v (proj1 (parts_hash _ _ _ _) P) E) as Hv. destruct v as [al v].
      destruct Hv as ((Hg & Hp) & Ha & Hv).
      destruct (insert_fields_parts fields Hf _ (mkA al v) Hv) as ([al' v'] & E1 & E2 & E3 & E4). rewrite E1. cbn in E2, E3, E4. subst al'.
      eexists. split; [reflexivity|]. apply parts_hash. apply set_key_hpart; [now apply parts_hash in P|exact K| |].
      + cbn. eapply HG; eassumption.
      + split; [split; [eapply HG; eassumption|exact K]|split; assumption].
    - rewrite (parse_plain_key sub K).
      assert (Hh : hpart (HElem (mkHE sub (mkA None (Hash (map (fun kv => HElem (mkHE (fst kv) (snd kv))) fields)))))).
      { split; [split; [apply Gs|exact K]|]. split; [exact I|]. apply parts_hash. clear -Hf. induction Hf; constructor; auto. }
      destruct (insert_parts ut G HG (PKey sub [] None) sub _ false o (Hash data) eq_refl Hh P) as [I1 I2].
      destruct (snd (insert_into_hash _ _ _ _)) as [|data'| | | | | | | |]; try discriminate I2. now exists data'. }
  destruct E as (data' & -> & P'). destruct (remove_fields_parts fields Hk o (Hash data') P') as (y2 & -> & P2 & K2).
  split; [discriminate|]. split; [exact P2|]. cbn [snd]. destruct y2; try discriminate K2. exact I.
Qed.

Lemma on_value_fine r : fine ut G some_count r -> forall e, hpart (HElem e) ->
  some_count (fst (on_elem_value r e)) /\ hpart (HElem (snd (on_elem_value r e))).
Proof.
  intros Hr [k [al v]] ((Hg & Hk) & Ha & Hv). destruct (proj1 Hr _ _ Hv) as (R1 & R2 & R3). unfold on_elem_value. cbn [he_value a_value he_key a_alias].
  destruct (r v) as [n v']. cbn [fst snd] in *. split; [exact R1|]. split; [split; [eapply HG; eassumption|exact Hk]|split; assumption].
Qed.

Lemma some_add a b : some_count a -> some_count b -> some_count (opt_add a b).
Proof. destruct a, b; cbn; unfold some_count; congruence. Qed.

Lemma doc_moved r p d : fine ut G some_count r -> canon_doc ut d -> doc_everywhere no_comment d -> doc_everywhere (Gnode G) d ->
  let res := for_hash_doc (Some 0) opt_add (on_elem_value r) r p d in
  some_count (fst res) /\
  (firm_doc (snd res) -> rooted (snd res) -> canon_doc ut (closed_doc (snd res))).
Proof.
  intros Hr C Q QG res.
  pose proof (for_fine ut G HG (Some 0) opt_add some_count ltac:(discriminate) some_add (on_elem_value r) r Hr (on_value_fine r Hr) p) as [F1 F2].
  assert (X : mapped (fun y => snd (for_hash (Some 0) opt_add (on_elem_value r) r p y)) d (snd res)).
  { unfold res, for_hash_doc. rewrite (surjective_pairing (all_loop _ _ _ _)). rewrite all_loop_snd. split; [reflexivity|].
    cbn. apply map_ext. intros [c|y]; unfold upd; cbn; [reflexivity|]. now destruct (for_hash _ _ _ _ p y). }
  split.
  - unfold res, for_hash_doc. rewrite (surjective_pairing (all_loop _ _ _ _)). cbn [fst].
    refine (proj1 (all_loop_ok opt_add some_count some_add _ (fun _ _ => True) (fun _ => I) (items d) _ (Some 0) ltac:(discriminate))).
    intros [c|y] a x' Hx H; cbn in H.
    + injection H as <- <-. split; [discriminate|exact I].
    + assert (P : parts false y).
      { apply pieces_parts; [|exact (QG y Hx)]. destruct C as [_ (a0 & y0 & b0 & Ei & _ & _ & C)]. specialize (Q y Hx).
        assert (y0 = y) as ->.
        { rewrite Ei in Hx. apply in_app_or in Hx. destruct Hx as [Hx|[Hx|Hx]]; [|congruence|];
            apply in_map_iff in Hx; destruct Hx as (? & ? & _); discriminate. }
        destruct y; try contradiction; [|].
        - apply pieces_hash. exact (proj1 (proj2 (canon_pieces ut)) _ _ _ C Q).
        - apply pieces_array. destruct (proj2 (proj2 (canon_pieces ut)) _ _ C Q). split; [split; [assumption|discriminate]|assumption]. }
      destruct (F1 _ _ P) as (O & _ & _). destruct (for_hash _ _ _ _ p y) as [n y']. injection H as <- <-. split; [exact O|exact I].
  - intros F W. eapply mapped_canon; [exact C|exact Q|exact QG| |exact X|exact F|exact W].
    intros o y P. destruct (F1 o y P) as (_ & ?). assumption.
Qed.
End Moves.

(** ---- grouping ---- *)

Section Groups.
Context (ut : unitab) (sel : str).
Definition selects (k : str) (v : yaml) : Prop :=
  k = sel -> forall s, as_string v = Some s -> s <> [] -> plain_key ut s.
Lemma selects_kind k v v' : same_kind v v' -> selects k v -> selects k v'.
Proof. intros K S E s. specialize (S E s). destruct v, v'; cbn in K; try (inversion K; subst; exact S); discriminate. Qed.

Notation hpart := (hpart ut selects).
Notation parts := (parts ut selects).
Lemma selects_hash k l : selects k (Hash l).
Proof. intros _ s. discriminate. Qed.

Definition state_ok (st : mm_state) : Prop :=
  Forall (fun kv => plain_key ut (fst kv) /\ Forall hpart (snd kv)) (mm_new st) /\ Forall hpart (mm_old st) /\ mm_comments st = [].

Lemma bt_extend_ok m s v : Forall (fun kv => plain_key ut (fst kv) /\ Forall hpart (snd kv)) m -> plain_key ut s -> Forall hpart v ->
  Forall (fun kv => plain_key ut (fst kv) /\ Forall hpart (snd kv)) (bt_extend m s v).
Proof.
  intros H Ks Hv. induction H as [|[k w] m [H1 H2] Hm IH]; cbn [bt_extend].
  - constructor; [now split|constructor].
  - cbn [fst snd] in *. destruct (seqb k s).
    + constructor; [|exact Hm]. split; [exact H1|]. cbn. apply Forall_app. now split.
    + destruct (str_ltb s k); constructor; try (now split); try assumption. constructor; [now split|assumption].
Qed.

Lemma mm_step_ok keeps st d : state_ok st -> hpart d -> exists st', mm_step parse_path sel keeps st d = Some st' /\ state_ok st'.
Proof.
  intros (S1 & S2 & S3) Hd. destruct d as [c|c|[k [al v]]]; try contradiction.
  assert (Keep : forall e', hpart (HElem e') -> state_ok (mm_keep st (HElem e'))).
  { intros e' He'. split; [exact S1|]. split; [|reflexivity]. cbn. rewrite S3. apply Forall_app. split; [exact S2|]. constructor; [exact He'|constructor]. }
  cbn [mm_step he_value a_value he_key a_alias]. destruct (key_value v sel) as [[al' w]|] eqn:E; [|eexists; split; [reflexivity|now apply Keep]].
  cbn [a_value]. destruct (as_string w) as [s|] eqn:Es; [|eexists; split; [reflexivity|now apply Keep]].
  destruct Hd as ((Hg & Hk) & Ha & Hv).
  assert (Hw : hpart (HElem (mkHE sel (mkA al' w)))).
  { destruct v; try discriminate E. apply parts_hash in Hv. now apply (key_value_hpart ut selects l). }
  destruct Hw as ((Wg & Wk) & _ & _). rewrite (parse_plain_key ut sel Wk).
  destruct (remove_parts ut selects selects_kind (PKey sel [] None) _ _ Hv) as [R1 R2].
  assert (He' : hpart (HElem (mkHE k (mkA al (snd (remove_from_hash (PKey sel [] None) v)))))).
  { split; [split; [eapply selects_kind; eassumption|exact Hk]|split; assumption]. }
  destruct (str_mem s keeps || is_nil s) eqn:B; [eexists; split; [reflexivity|now apply Keep]|].
  eexists. split; [reflexivity|]. split; [|split; [exact S2|reflexivity]]. cbn [mm_new].
  apply bt_extend_ok; [exact S1| |].
  - apply (Wg eq_refl s Es). intros ->. rewrite orb_true_r in B. discriminate.
  - rewrite S3. constructor; [exact He'|constructor].
Qed.
Lemma mm_loop_ok keeps l : Forall hpart l -> forall st, state_ok st -> exists st', mm_loop parse_path sel keeps st l = Some st' /\ state_ok st'.
Proof.
  induction 1 as [|d l Hd _ IH]; intros st S; [now exists st|]. cbn [mm_loop]. destruct (mm_step_ok keeps st d S Hd) as (st' & -> & S'). now apply IH.
Qed.
Lemma mm_finish_ok st : state_ok st -> mm_last st = None \/ (exists s, mm_last st = Some s /\ In s (map fst (mm_new st))) -> state_ok (mm_finish st).
Proof.
  intros (S1 & S2 & S3) L. unfold mm_finish. destruct (mm_last st) as [s|] eqn:E.
  - split; [|split; [exact S2|reflexivity]]. cbn [mm_new]. apply bt_extend_ok; [exact S1| |rewrite S3; constructor].
    destruct L as [L|(s' & L & X)]; [discriminate|]. injection L as <-. apply in_map_iff in X. destruct X as (kv & <- & X).
    rewrite Forall_forall in S1. now apply S1.
  - split; [exact S1|]. split; [|reflexivity]. cbn. rewrite S3, app_nil_r. exact S2.
Qed.
Lemma mm_last_ok keeps l : forall st st', mm_loop parse_path sel keeps st l = Some st' ->
  mm_last st = None \/ (exists s, mm_last st = Some s /\ In s (map fst (mm_new st))) ->
  mm_last st' = None \/ (exists s, mm_last st' = Some s /\ In s (map fst (mm_new st'))).
Proof.
  induction l as [|d l IH]; intros st st' E L; cbn [mm_loop] in E; [injection E as <-; exact L|].
  destruct (mm_step parse_path sel keeps st d) as [st1|] eqn:E1; [|discriminate]. apply (IH st1 st' E). clear IH E.
  destruct d as [c|c|e]; cbn [mm_step] in E1; try (injection E1 as <-; exact L).
  destruct (key_value _ sel) as [[al w]|]; [|injection E1 as <-; now left].
  destruct (as_string _) as [s|]; [|injection E1 as <-; now left]. destruct (parse_path sel); [|discriminate].
  destruct (_ || _); injection E1 as <-; [now left|]. right. exists s. split; [reflexivity|]. cbn [mm_new]. apply bt_extend_keys. now left.
Qed.

Lemma mtm_fine old new keeps : plain_key ut new -> fine ut selects some_count (mtm_r parse_path old sel new keeps).
Proof.
  intros Kn. split.
  2:{ intros y J. destruct y; try (split; [discriminate|reflexivity]). destruct J. }
  intros o y P. destruct y as [|data| | | | | | | |]; try (split; [discriminate|split; [exact P|apply same_kind_refl]]).
  unfold mtm_r. destruct (key_value_l data old) as [[al v]|] eqn:E; [|split; [discriminate|split; [exact P|exact I]]].
  cbn [a_value a_alias]. destruct v as [|entries| | | | | | | |]; try (split; [discriminate|split; [exact P|exact I]]).
  pose proof (key_value_hpart ut selects data old _ (proj1 (parts_hash _ _ _ _) P) E) as ((_ & Ko) & Ha & Hv). apply parts_hash in Hv.
  assert (S0 : state_ok (mkMM [] [] [] None)) by (split; [constructor|split; [constructor|reflexivity]]).
  destruct (mm_loop_ok keeps entries Hv _ S0) as (st & Es & S). rewrite Es.
  apply mm_finish_ok in S; [|eapply mm_last_ok; [exact Es|now left]]. set (st' := mm_finish st) in *. clearbody st'. clear st Es.
  destruct (is_nil (mm_new st')); [split; [discriminate|split; [exact P|exact I]]|].
  rewrite (parse_plain_key ut new Kn), (parse_plain_key ut old Ko). destruct S as (S1 & S2 & _).
  match goal with |- context [insert_into_hash (PKey new [] None) ?h false (Hash data)] =>
    assert (Hn : hpart (HElem (mkHE new h))) end.
  { split; [split; [apply selects_hash|exact Kn]|]. split; [exact Ha|]. apply parts_hash. clear -S1. induction S1 as [|[k es] m [K1 K2] _ IH]; constructor; auto.
    split; [split; [apply selects_hash|exact K1]|]. split; [exact I|]. now apply parts_hash. }
  assert (Ho : hpart (HElem (mkHE old (mkA al (Hash (mm_old st')))))).
  { split; [split; [apply selects_hash|exact Ko]|]. split; [exact Ha|]. now apply parts_hash. }
  destruct (insert_parts ut selects selects_kind (PKey new [] None) new _ false o (Hash data) eq_refl Hn P) as [I1 I2].
  destruct (insert_parts ut selects selects_kind (PKey old [] None) old _ true o _ eq_refl Ho I1) as [I3 I4].
  split; [discriminate|]. split; [exact I3|]. cbn [snd].
  clear -I2 I4. destruct (snd (insert_into_hash (PKey new [] None) _ _ _)); try discriminate I2.
  destruct (snd (insert_into_hash (PKey old [] None) _ _ _)); try discriminate I4. exact I.
Qed.

Lemma names_gnode d : doc_everywhere (names_under ut sel) d -> doc_everywhere (Gnode selects) d.
Proof.
  intros H y Hy. specialize (H y Hy). revert H. clear. revert y.
  assert (N : forall y, names_under ut sel y -> Gnode selects y).
  { intros [] H; try exact I. intros k al v Hi -> s Es. eapply H; [exact Hi|exact Es]. }
  fix IH 1. intros [l|l|l|l|ps|ps|s|ls c|ls c|x] [Q1 Q2]; (split; [now apply N|]); clear Q1; cbn in *; try exact I.
  - induction l as [|[k v] l IHl]; [exact I|]. destruct Q2 as [Q2 Q3]. split; [now apply IH|now apply IHl].
  - induction l as [|[c|c|[k [al v]]] l IHl]; cbn in *; [exact I| | |]; destruct Q2 as [Q2 Q3]; split; auto.
  - induction l as [|v l IHl]; [exact I|]. destruct Q2 as [Q2 Q3]. split; [now apply IH|now apply IHl].
  - induction l as [|[c|c|[al v]] l IHl]; cbn in *; [exact I| | |]; destruct Q2 as [Q2 Q3]; split; auto.
Qed.
End Groups.

Section Files.
Context (ut : unitab).

Theorem subfield_closed d p sub names : canon_doc ut d -> doc_everywhere no_comment d -> plain_key ut sub ->
  exists n d', move_to_subfield_doc parse_path p sub names d = (Some n, d')
    /\ (firm_doc d' -> rooted d' -> parse_yaml ut (format_doc d') = CVal (closed_doc d')).
Proof.
  intros C Q K. destruct (doc_moved ut (fun _ _ => True) (fun _ _ _ _ _ => I) _ p d (mts_fine ut (fun _ _ => True) (fun _ _ _ _ _ => I) sub names K (fun _ => I)) C Q (no_G d)) as [M1 M2].
  fold (move_to_subfield_doc parse_path p sub names d) in M1, M2. destruct (move_to_subfield_doc _ _ _ _ _) as [[n|] d']; [|now destruct M1].
  exists n, d'. split; [reflexivity|]. intros F W. rewrite <- format_closed_doc. apply format_parse, M2; assumption.
Qed.

Theorem map_closed d p old sel new keeps : canon_doc ut d -> doc_everywhere no_comment d ->
  doc_everywhere (names_under ut sel) d -> plain_key ut new ->
  exists n d', move_to_map_doc parse_path p old sel new keeps d = (Some n, d')
    /\ (firm_doc d' -> rooted d' -> parse_yaml ut (format_doc d') = CVal (closed_doc d')).
Proof.
  intros C Q N K. destruct (doc_moved ut (selects ut sel) (selects_kind ut sel) _ p d (mtm_fine ut sel old new keeps K) C Q (names_gnode ut sel d N)) as [M1 M2].
  fold (move_to_map_doc parse_path p old sel new keeps d) in M1, M2. destruct (move_to_map_doc _ _ _ _ _ _ _) as [[n|] d']; [|now destruct M1].
  exists n, d'. split; [reflexivity|]. intros F W. rewrite <- format_closed_doc. apply format_parse, M2; assumption.
Qed.
End Files.
