(** Lemmas for C79, continued: reading into maps. *)
From Coq Require Import ZArith.
From Verif Require Import Base Ast Num Ser De Peg YamlGrammar Consume FromStr Format Pretty
  Spec_Serde SerdeFacts SerdeFacts2 Spec_Strings Spec_Pretty Spec_Parse Spec_Format Spec_Text TextFacts TextFacts2
  MapMerge Spec_Look Spec_Typed Spec_Refs ErrFacts7 Spec_Reads Spec_Maps MergeFacts.
Import ListNotations.

Lemma maps_read t y w : distinct t -> read_maps t y = Some w -> exists v a, yields t y [] v a /\ keeps v w.
Proof.
  unfold read_maps. intros D H. destruct (from_yaml t y) as [v|] eqn:E; [|discriminate H]. injection H as <-.
  apply (from_yields _ _ _ D) in E as [a E]. exists v, a. split; [exact E|apply held_keeps].
Qed.

Lemma maps_fail t y : distinct t -> (read_maps t y = None <-> ~ exists v a, yields t y [] v a).
Proof.
  unfold read_maps. intros D. destruct (from_yaml t y) as [v|] eqn:E; cbn [option_map].
  - split; [discriminate|]. intro H. exfalso. apply H. apply (from_yields _ _ _ D) in E as [a E]. eauto.
  - split; [|reflexivity]. intros _ (v & a & H). assert (X : from_yaml t y = Some v) by (apply (from_yields _ _ _ D); eauto). congruence.
Qed.

Lemma maps_proper t y w : read_maps t y = Some w -> proper w.
Proof.
  unfold read_maps. destruct (from_yaml t y) as [v|]; [|discriminate]. intro H. injection H as <-. apply proper_held.
Qed.

Lemma maps_roundtrip t v y : has_ty t v -> faithful v -> proper v -> ser v = Some y -> read_maps t y = Some v.
Proof. intros T F P E. unfold read_maps. rewrite (from_ser _ _ _ T F E). cbn. now rewrite held_proper. Qed.

Lemma maps_text ut t v y : has_ty t v -> faithful v -> proper v -> ser v = Some y -> root_fits ut v ->
  read_maps_str ut t (format_doc (mkDoc [] [DYaml (pretty y)])) = CVal v.
Proof. intros T F P E R. unfold read_maps_str. rewrite (text_roundtrip ut _ _ _ T F E R). now rewrite held_proper. Qed.

Lemma maps_again t y w y' : read_maps t y = Some w -> has_ty t w -> faithful w -> ser w = Some y' -> read_maps t y' = Some w.
Proof. intros R T F E. apply (maps_roundtrip _ _ _ T F (maps_proper _ _ _ R) E). Qed.

(** A file is read as its first value; panics of the parser stay panics. *)
Lemma first_yaml_iff l y : first_yaml l = Some y <-> exists cs r, l = map DComment cs ++ DYaml y :: r.
Proof.
  split.
  - induction l as [|[c|z] l IH]; cbn [first_yaml]; [discriminate| |].
    + intro H. destruct (IH H) as (cs & r & ->). now exists (c :: cs), r.
    + intro H. injection H as ->. now exists [], l.
  - intros (cs & r & ->). induction cs as [|c cs IH]; [reflexivity|exact IH].
Qed.
Lemma maps_file ut t s :
  (read_maps_str ut t s = CPanic <-> parse_yaml ut s = CPanic) /\ (forall v, read_maps_str ut t s = CVal v <->
     exists d cs y r, parse_yaml ut s = CVal d /\ items d = map DComment cs ++ DYaml y :: r /\ read_maps t y = Some v).
Proof.
  unfold read_maps_str, from_yaml_str, read_maps. split.
  - destruct (parse_yaml ut s) as [d| |]; [|easy|easy].
    destruct (first_yaml (items d)) as [y|]; [|easy]. now destruct (from_yaml t y).
  - intros v. split.
    + destruct (parse_yaml ut s) as [d| |]; [|discriminate|discriminate].
      destruct (first_yaml (items d)) as [y|] eqn:E; [|discriminate]. apply first_yaml_iff in E. destruct E as (cs & r & E).
      destruct (from_yaml t y) as [w|] eqn:F; [|discriminate]. intro H. exists d, cs, y, r. split; [reflexivity|]. split; [exact E|].
      rewrite F. cbn. congruence.
    + intros (d & cs & y & r & -> & E & R).
      assert (F : first_yaml (items d) = Some y) by (apply first_yaml_iff; eauto). rewrite F.
      destruct (from_yaml t y) as [w|]; [|discriminate R]. cbn in R. congruence.
Qed.
