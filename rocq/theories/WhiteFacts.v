(** What the grammar reads from a mapping that is indented with white space of any kind. *)
From Coq Require Import ZArith.
From Verif Require Import Base Ast Num Strings Peg PegFacts YamlGrammar Consume Format Spec_Parse YamlTree
  Spec_Format Reads FormatText FormatScalars FormatFlow FormatBlock FormatTree Spec_White.
Import ListNotations.

Lemma separator_zs c : space_separator c -> is_zs c = true.
Proof.
  unfold is_zs. intros [H|H].
  - cbn [In] in H. repeat (destruct H as [<-|H]; [reflexivity|]). destruct H.
  - destruct H as [A B]. apply N.leb_le in A, B. rewrite A, B. cbn. now rewrite !orb_true_r.
Qed.

Section White.
Context (ut : unitab) (w : str) (W : forall c, In c w -> is_zs c = true).
Notation gets := (gets ut).
Notation eats := (eats ut).
Notation fails := (fails ut).

Lemma w_one_line l : one_line l -> one_line (w ++ l).
Proof. intros [A B]. split; intros H; apply in_app_or in H as [H|H]; try contradiction; apply W in H; discriminate. Qed.
Lemma w_no_nl s : (forall c r, s = c :: r -> c <> NL /\ c <> CR) -> forall c r, w ++ s = c :: r -> c <> NL /\ c <> CR.
Proof.
  intros H c r E. destruct w as [|d w'] eqn:Ew; [now apply (H c r)|]. injection E as -> _.
  assert (Z : is_zs c = true) by (apply W; now left). split; intros ->; discriminate Z.
Qed.

(** The first character of a line that is no block scalar's. *)
Definition mark (c : char) : Prop := name_char ut c \/ c = chr "-".
Lemma solid_next c r : mark c -> solid (c :: r).
Proof. intros [C| ->]; [exact (name_solid ut c r C)|cbn; repeat split; discriminate]. Qed.
Lemma mark_not_hash c r : mark c -> forall x, c :: r <> chr "#" :: x.
Proof. intros C x E. injection E as -> _. destruct C as [C|C]; [|discriminate C]. revert C. apply punct_not_name. reflexivity. Qed.

(** What may follow a value: the end, or a key that is not deeper. *)
Definition next (s : str) : Prop :=
  s = [] \/ s = [NL] \/ exists u v c r, w = u ++ v /\ s = NL :: u ++ c :: r /\ mark c.
(** What may follow a mapping: the same, and the key is not one of its own. *)
Definition stop (s : str) : Prop :=
  s = [] \/ s = [NL] \/ exists u v c r, w = u ++ v /\ v <> [] /\ s = NL :: u ++ c :: r /\ mark c.
Lemma stop_next s : stop s -> next s.
Proof. intros [H|[H|(u & v & c & r & A & _ & B & C)]]; [now left|now right; left|right; right; eauto 8]. Qed.
Lemma next_nl s : next s -> nl_or_end s.
Proof. intros [->|[->|(u & v & c & r & _ & -> & _)]]; [now left|right; eauto..]. Qed.
(** Deeper white space is not there. *)
Lemma strip_miss u x d c s : is_zs d = true -> mark c -> strip (u ++ d :: x) (u ++ c :: s) = None.
Proof.
  intros D C. induction u as [|e u IH]; cbn [app strip].
  - destruct (ceqb d c) eqn:E; [|reflexivity]. apply ceqb_eq in E. subst. pose proof (solid_next c [] C) as S. cbn in S. destruct S as (S & _). congruence.
  - unfold ceqb. rewrite N.eqb_refl. exact IH.
Qed.
Lemma strip_over x c : strip (x ++ [c]) [] = None.
Proof. destruct x; reflexivity. Qed.

Lemma some_no_nl u v s : w = u ++ v -> solid s -> forall c r, u ++ s = c :: r -> c <> NL /\ c <> CR.
Proof.
  intros E S c r Q. destruct u as [|d u]; [cbn in Q; subst s; cbn in S; tauto|]. injection Q as -> _.
  assert (Z : is_zs c = true) by (apply W; rewrite E; now left). split; intros ->; discriminate Z.
Qed.
Lemma end_part s k : next s -> fails (R_ y_ml_part) s ([SP] :: w :: k).
Proof.
  intros H. apply fails_rule. cbn [yaml_grammar snd]. destruct H as [->|[->|(u & v & c & r & E & -> & C)]].
  - apply fails_seq1. apply fails_nl. intros; discriminate.
  - eapply fails_seq0; [apply eats_nl|]. eapply fails_seq2; [apply gets_empty_lines; intros; discriminate|].
    apply fails_seq1, fails_peek2, strip_over.
  - eapply fails_seq0; [apply eats_nl|]. eapply fails_seq2.
    { apply gets_empty_lines. apply (some_no_nl u v); [exact E|now apply solid_next]. }
    apply fails_seq1, fails_peek2. rewrite E. rewrite <- app_assoc. destruct v as [|d v]; cbn [app]; apply strip_miss; try exact C; [reflexivity|].
    apply W. rewrite E. apply in_or_app. right. now left.
Qed.
Lemma no_nl_u u v s k : w = u ++ v -> solid s -> fails y_nl (u ++ s) k.
Proof. intros E S. apply fails_nl. now apply (some_no_nl u v). Qed.
Lemma no_nl_w s k : solid s -> fails y_nl (w ++ s) k.
Proof. apply (no_nl_u w []). symmetry. apply app_nil_r. Qed.

Lemma white_trailing s k : next s -> gets (R_ y_ml_trailing) s k [(y_ml_trailing, VStrs [])] s k.
Proof.
  intros H. eapply gets_atomic with (t := []); [reflexivity| |reflexivity]. apply eats_0. cbn [yaml_grammar snd]. apply eats_star0.
  destruct H as [->|[->|(u & v & c & r & E & -> & C)]].
  - apply fails_seq1, fails_nl. intros; discriminate.
  - eapply fails_seq0; [apply eats_nl|]. apply fails_and, fails_nl. intros; discriminate.
  - eapply fails_seq0; [apply eats_nl|]. apply fails_and, (no_nl_u u v); [exact E|now apply solid_next].
Qed.

Lemma white_part l s k : one_line l -> nl_or_end s ->
  gets (R_ y_ml_part) (NL :: w ++ lit "  " ++ l ++ s) ([SP] :: w :: k) [vpart (SP :: l)] s ([SP] :: w :: k).
Proof.
  intros L S. eapply gets_rule; [reflexivity| |].
  - cbn [yaml_grammar snd]. eapply gets_seq0; [apply eats_nl|].
    eapply gets_seq with (v2 := [(y_block_string, VStr (SP :: l))]); [| |reflexivity].
    + apply gets_empty_lines. apply w_no_nl. cbn. apply sp_no_nl.
    + change (lit "  " ++ l ++ s) with ([SP] ++ SP :: l ++ s). rewrite (app_assoc w [SP]).
      eapply gets_seq0; [apply eats_peek2|].
      change (SP :: l ++ s) with ((SP :: l) ++ s). apply gets_block_string; [|discriminate|exact S].
      exact (indent_one_line 1 l L).
  - reflexivity.
Qed.
Definition wlines (ls : list str) : str := flat_map (fun l => NL :: w ++ lit "  " ++ l) ls.
Lemma white_parts ls s k : next s -> Forall one_line ls ->
  gets (PStar (R_ y_ml_part)) (wlines ls ++ s) ([SP] :: w :: k) (map (fun l => vpart (SP :: l)) ls) s ([SP] :: w :: k).
Proof.
  intros H L. induction L as [|l ls L0 L IH]; cbn [wlines flat_map map app].
  - apply gets_star0. now apply end_part.
  - rewrite <- !app_assoc. eapply gets_star1; [apply white_part; [exact L0|]|exact IH|reflexivity].
    destruct ls; cbn [flat_map app]; [now apply next_nl|right; eauto].
Qed.

Lemma white_content c l ls s k : next s -> Forall one_line ((c :: l) :: ls) -> is_ws c = false -> is_zs c = false ->
  gets (R_ y_ml_content) (wlines ((c :: l) :: ls) ++ s) (w :: k)
    [(y_ml_content, VStrs (map (fun l => SP :: l) ((c :: l) :: ls)))] s (w :: k).
Proof.
  intros H L A Z. inversion L as [|? ? L0 L1]; subst. cbn [wlines flat_map app]. rewrite <- app_assoc. fold (wlines ls).
  destruct (one_line_at _ [] c l L0 eq_refl) as [N1 N2].
  eapply gets_rule; [reflexivity| |].
  - cbn [yaml_grammar snd]. eapply gets_seq0.
    { rewrite <- !app_assoc. pose proof (eats_blanknl_gen ut (w ++ lit "  ") (c :: l ++ wlines ls ++ s) (w :: k)) as B. rewrite <- !app_assoc in B.
      apply B; [|exact (conj Z (conj N1 N2))]. intros x I. apply in_app_or in I as [I|I]; [now apply W|]. cbn in I. destruct I as [<-|[<-|[]]]; reflexivity. }
    (* the line *)
    eapply gets_seq; [apply gets_empty_lines; apply w_no_nl; cbn; apply sp_no_nl| |reflexivity].
    eapply gets_seq.
    { eapply gets_seq0; [apply eats_peek|]. change (lit "  " ++ (c :: l) ++ wlines ls ++ s) with ([SP] ++ (SP :: c :: l) ++ wlines ls ++ s).
      eapply gets_seq0; [apply eats_push; exact (eats_str ut [SP] _ _)|].
      apply (gets_block_string ut (SP :: c :: l) (wlines ls ++ s)); [exact (indent_one_line 1 _ L0)|discriminate|]. destruct ls; cbn [wlines flat_map app]; [now apply next_nl|right; eauto]. }
    2:{ reflexivity. }
    eapply gets_seq; [now apply white_parts| |reflexivity].
    eapply gets_seq; [now apply white_trailing|eapply eats_gets, eats_drop|reflexivity].
  - intros x _. cbn [yact app].
    assert (M : forall vs : list str, many as_ml_part (map (fun l => vpart (SP :: l)) ls ++ [(y_ml_trailing, VStrs vs)])
                = (map (fun l => [SP :: l]) ls, [(y_ml_trailing, VStrs vs)])).
    { intros vs. clear. induction ls as [|a ls IH]; [reflexivity|]. cbn [map app many as_ml_part vpart].
      change (many _ _) with (many as_ml_part (map (fun l => vpart (SP :: l)) ls ++ [(y_ml_trailing, VStrs vs)])). now rewrite IH. }
    rewrite M. cbn [app map]. rewrite app_nil_r. do 3 f_equal. clear. induction ls as [|a ls IH]; [reflexivity|]. cbn [map concat app]. now rewrite IH.
Qed.

Definition sign (f : bool) : char := if f then chr ">" else chr "|".
Definition made (f : bool) : list str -> chomp -> yaml := if f then Folded else Literal.
Lemma white_scalar (f : bool) c l ls ch s k : next s -> Forall one_line ((c :: l) :: ls) -> is_ws c = false -> is_zs c = false ->
  gets (R_ y_yaml_value) (sign f :: chomp_str ch ++ wlines ((c :: l) :: ls) ++ s) (w :: k)
    [(y_yaml_value, VYaml (made f ((c :: l) :: ls) ch))] s (w :: k).
Proof.
  intros H L A Z. pose proof (white_content c l ls s k H L A Z) as Hc.
  revert Hc. set (content := map (fun l => SP :: l) ((c :: l) :: ls)). set (txt := wlines ((c :: l) :: ls) ++ s). intros Hc.
  assert (Etxt : exists x, txt = NL :: x) by (unfold txt; cbn; eauto). destruct Etxt as (x & Etxt).
  assert (Gi : gets (R_ y_ml_indent) txt (w :: k) [(y_ml_indent, VIndent None)] txt (w :: k)).
  { eapply gets_leaf with (t := []); [reflexivity| |reflexivity]. cbn [yaml_grammar snd app]. apply eats_star0. rewrite Etxt. scanc. }
  assert (Ci : clean_multiline None content = CVal ((c :: l) :: ls)).
  { unfold content. cbn [map clean_multiline]. change (SP :: c :: l) with (indent 1 ++ c :: l). rewrite count_indent by exact A.
    exact (clean_indented 1 ((c :: l) :: ls) (le_n 1)). }
  assert (Gch : gets (POpt (R_ y_chomping)) (chomp_str ch ++ txt) (w :: k)
                  (match ch with Clip => [] | _ => [(y_chomping, VChomp ch)] end) txt (w :: k)).
  { destruct ch; cbn [chomp_str app].
    - apply gets_opt0. rewrite Etxt. scanc.
    - apply gets_opt1. apply gets_leaf with (t := lit "-"); [reflexivity| |reflexivity]. cbn [yaml_grammar snd]. apply eats_alt1, (eats_str ut (lit "-")).
    - apply gets_opt1. apply gets_leaf with (t := lit "+"); [reflexivity| |reflexivity]. cbn [yaml_grammar snd]. apply eats_alt2; [scanc|]. apply (eats_str ut (lit "+")). }
  assert (M : forall mk, multiline mk ((match ch with Clip => [] | _ => [(y_chomping, VChomp ch)] end)
     ++ [(y_ml_indent, VIndent None)] ++ [(y_ml_content, VStrs content)]) = CVal (VYaml (mk ((c :: l) :: ls) ch))).
  { intros mk. destruct ch; cbn [app multiline]; rewrite Ci; reflexivity. }
  destruct f; cbn [sign made].
  - eapply gets_rule with (vs := [(y_ml_folded, VYaml (Folded ((c :: l) :: ls) ch))]); [reflexivity| |reflexivity].
    cbn [yaml_grammar snd]. apply gets_alt2; [scanc|]. apply gets_alt2; [scanc|]. apply gets_alt2; [scanc|]. apply gets_alt1.
    eapply gets_rule; [reflexivity| |intros y _; apply M]. cbn [yaml_grammar snd]. eapply gets_seq0; [exact (eats_str ut (lit ">") _ _)|].
    eapply gets_seq; [exact Gch| |reflexivity]. eapply gets_seq; [exact Gi|exact Hc|reflexivity].
  - eapply gets_rule with (vs := [(y_ml_literal, VYaml (Literal ((c :: l) :: ls) ch))]); [reflexivity| |reflexivity].
    cbn [yaml_grammar snd]. apply gets_alt2; [scanc|]. apply gets_alt2; [scanc|]. apply gets_alt1.
    eapply gets_rule; [reflexivity| |intros y _; apply M]. cbn [yaml_grammar snd]. eapply gets_seq0; [exact (eats_str ut (lit "|") _ _)|].
    eapply gets_seq; [exact Gch| |reflexivity]. eapply gets_seq; [exact Gi|exact Hc|reflexivity].
Qed.

(** ---- values ---- *)

Lemma ws_zs c : is_ws c = false -> is_zs c = false.
Proof.
  intros H. destruct (is_zs c) eqn:Z; [|reflexivity]. exfalso. revert H. unfold is_zs in Z. unfold is_ws.
  repeat (apply orb_true_iff in Z as [Z|Z]); try (apply N.eqb_eq in Z; subst c; discriminate).
  rewrite Z. rewrite ?orb_true_r. discriminate.
Qed.
Definition vread (q : bool) (t : wtree) : Prop := forall s k, next s ->
  gets (PSeq (sepr q) (R_ y_ba_aliased)) (wtext w t ++ s) (w :: k) [(y_ba_aliased, VAliased (mkA None (wnode t)))] s (w :: k).

Lemma sep_sp q s k : no_zs s -> eats (sepr q) (SP :: s) k [SP] s k.
Proof. intros H. destruct q; cbn [sepr]; [|apply eats_alt1]; now apply eats_sp. Qed.
Lemma vread_block q f ch ls : white ut (WBlock f ch ls) -> vread q (WBlock f ch ls).
Proof.
  intros (L & c & l & ls' & E & A) s k H.
  assert (T : wtext w (WBlock f ch ls) ++ s = SP :: sign f :: chomp_str ch ++ wlines ls ++ s).
  { cbn [wtext]. fold (wlines ls). rewrite <- !app_assoc. destruct f, ch; reflexivity. }
  rewrite T. subst ls.
  eapply gets_seq0; [apply sep_sp; destruct f; reflexivity|].
  apply (gets_ba_aliased ut None (made f ((c :: l) :: ls') ch) (sign f :: chomp_str ch ++ wlines ((c :: l) :: ls') ++ s)); [exact I| | | | |apply white_scalar; auto using ws_zs];
    destruct f; cbn [sign]; try (intros k'; scanc); cbn; repeat split; discriminate.
Qed.
Lemma vread_word q x : white ut (WWord x) -> vread q (WWord x).
Proof.
  intros B s k H. pose proof (flow_facts_ok ut (Unquoted x) B) as F. pose proof (next_nl s H) as Hn.
  assert (Hz : btail s) by (destruct Hn as [->|(r & ->)]; constructor).
  destruct (ff_value ut _ F s Hz) as (r & Hr & Gr). rewrite (nl_left _ _ Hn Hr) in Gr.
  cbn [wtext wnode app]. eapply gets_seq0; [apply sep_sp, solid_zs, (ff_solid ut _ F)|].
  apply (gets_ba_aliased ut None (Unquoted x) (x ++ s)); [exact I|apply (ff_solid ut _ F)| | | |apply Gr]; intros k'.
  - now apply (ff_hash ut _ F).
  - now apply (ff_array ut _ F).
  - now apply (ff_alias ut _ F).
Qed.

(** ---- entries ---- *)

Definition body (e : str * wtree) : str := fst e ++ lit ":" ++ wtext w (snd e).
Definition line (e : str * wtree) : str := NL :: w ++ body e.
Definition elem (e : str * wtree) : hash_element := mkHE (fst e) (mkA None (wnode (snd e))).
Definition entry_ok (e : str * wtree) : Prop := plain_key ut (fst e) /\ vread false (snd e).
Lemma row_entry e s k : entry_ok e -> next s ->
  gets (PSeq (R_ y_hash_element) (POpt (R_ y_comment))) (body e ++ s) (w :: k) [(y_hash_element, VHElem (elem e))] s (w :: k).
Proof.
  intros (K & V) H. eapply gets_seq with (v2 := []); [|apply gets_opt0, fails_comment_nl, next_nl, H|symmetry; apply app_nil_r].
  eapply gets_rule; [reflexivity| |].
  - cbn [yaml_grammar snd]. unfold body. rewrite <- !app_assoc.
    eapply gets_seq; [apply gets_hash_key; [exact K|]| |reflexivity].
    + intros d x Q. inversion Q; subst. apply punct_not_key; [reflexivity|discriminate|discriminate].
    + eapply gets_seq0; [exact (eats_str ut (lit ":") _ _)|]. apply V, H.
  - reflexivity.
Qed.
Lemma row_first e s k : entry_ok e -> next s ->
  gets (R_ y_first_hash_element) (body e ++ s) (w :: k) [(y_first_hash_element, VHData [HElem (elem e)])] s (w :: k).
Proof. intros. eapply gets_rule; [reflexivity|cbn [yaml_grammar snd]; apply row_entry; assumption|reflexivity]. Qed.

Lemma body_head e s : entry_ok e -> exists c x, body e ++ s = c :: x /\ mark c.
Proof. intros (((c & x & E & C) & _) & _). exists c. eexists. split; [|left; exact C]. unfold body. rewrite E. reflexivity. Qed.
Lemma no_comment u v s k : w = u ++ v -> solid s -> (forall r, s <> chr "#" :: r) -> fails (R_ y_commentnl) (u ++ s) k.
Proof.
  intros E S N. apply fails_rule. cbn [yaml_grammar snd]. apply fails_seq1, fails_rule. cbn [yaml_grammar snd].
  eapply fails_seq0; [apply eats_zss; [intros c I; apply W; rewrite E; apply in_or_app; now left|apply solid_zs, S]|]. apply fails_seq1, fails_str.
  destruct s as [|c s]; [reflexivity|]. cbn [lit strip]. destruct (ceqb _ c) eqn:Q; [|reflexivity]. apply ceqb_eq in Q. subst c. now destruct (N s).
Qed.
Lemma no_comments u v s k : w = u ++ v -> solid s -> (forall r, s <> chr "#" :: r) -> gets (R_ y_commentnls) (u ++ s) k [(y_commentnls, VStrs [])] (u ++ s) k.
Proof. intros E S N. eapply gets_rule; [reflexivity|apply gets_star0, (no_comment u v); assumption|reflexivity]. Qed.
Lemma w_all : w = w ++ [].
Proof. symmetry. apply app_nil_r. Qed.
Lemma row_data e s k : entry_ok e -> next s ->
  gets (R_ y_hash_element_data) (line e ++ s) (w :: k) [(y_hash_element_data, VHData [HElem (elem e)])] s (w :: k).
Proof.
  intros R H. unfold line. cbn [app]. rewrite <- app_assoc. destruct (body_head e s R) as (c & x & E & C).
  eapply gets_rule; [reflexivity| |].
  - cbn [yaml_grammar snd]. eapply gets_seq0; [rewrite E; apply eats_blanknl_gen; [exact W|now apply solid_next]|].
    eapply gets_seq; [apply (no_comments w [] (c :: x)); [apply w_all|now apply solid_next|now apply mark_not_hash]| |reflexivity].
    eapply gets_seq0; [apply eats_peek|]. rewrite <- E. apply row_entry; assumption.
  - reflexivity.
Qed.
Lemma rows_next l s : Forall entry_ok l -> stop s -> next (flat_map line l ++ s).
Proof.
  intros R S. destruct R as [|e l R _]; [now apply stop_next|]. right. right.
  cbn [flat_map]. unfold line at 1. cbn [app]. rewrite <- !app_assoc. destruct (body_head e (flat_map line l ++ s) R) as (c & x & E & C).
  exists w, [], c, x. rewrite E. split; [apply w_all|now split].
Qed.
Lemma end_rows s k : stop s -> fails (R_ y_hash_element_data) s (w :: k).
Proof.
  intros [->|[->|(u & v & c & r & E & V & -> & C)]]; apply fails_rule; cbn [yaml_grammar snd].
  - apply fails_seq1. exact (fails_blanknl ut 0 [] _ I).
  - eapply fails_seq0; [exact (eats_blanknl ut 0 [] _ I)|]. eapply fails_seq2; [apply gets_comments0; now left|].
    destruct w as [|c x]; [|apply fails_seq1, fails_peek; reflexivity]. eapply fails_seq0; [exact (eats_peek ut [] [] k)|]. apply fails_seq1. scanc.
  - eapply fails_seq0; [apply (eats_blanknl_gen ut u); [intros d I; apply W; rewrite E; apply in_or_app; now left|now apply solid_next]|].
    eapply fails_seq2; [apply (no_comments u v (c :: r)); [exact E|now apply solid_next|now apply mark_not_hash]|].
    apply fails_seq1, fails_peek. rewrite E. destruct v as [|d v]; [contradiction|]. apply strip_miss; [|exact C].
    apply W. rewrite E. apply in_or_app. right. now left.
Qed.
Lemma rows_data l s k : Forall entry_ok l -> stop s ->
  gets (PStar (R_ y_hash_element_data)) (flat_map line l ++ s) (w :: k) (map (fun e => (y_hash_element_data, VHData [HElem (elem e)])) l) s (w :: k).
Proof.
  intros R S. induction R as [|e l R0 R IH]; cbn [flat_map map app].
  - apply gets_star0. now apply end_rows.
  - rewrite <- app_assoc. eapply gets_star1; [apply row_data; [exact R0|now apply rows_next]|exact IH|reflexivity].
Qed.
Lemma rows_hash e l s k : Forall entry_ok (e :: l) -> stop s ->
  gets (R_ y_hash) (w ++ body e ++ flat_map line l ++ s) k [(y_hash, VYaml (Hash (map (fun e => HElem (elem e)) (e :: l))))] s k.
Proof.
  intros R S. inversion R as [|? ? R0 R1]; subst. destruct (body_head e (flat_map line l ++ s) R0) as (c & x & E & C).
  eapply gets_rule; [reflexivity| |].
  - cbn [yaml_grammar snd]. rewrite E.
    eapply gets_seq0; [apply eats_opt0, no_nl_w, solid_next, C|].
    eapply gets_seq; [apply (no_comments w [] (c :: x)); [apply w_all|now apply solid_next|now apply mark_not_hash]| |reflexivity].
    eapply gets_seq0.
    { apply (eats_silent ut y_blank _ _ []); [reflexivity|]. cbn [yaml_grammar snd]. apply eats_alt2.
      - eapply fails_seq0; [apply eats_zss; [exact W|apply solid_zs, solid_next, C]|]. apply fails_seq1, fails_nl_solid, solid_next, C.
      - apply eats_opt0, fails_zsnl_gen; [exact W|apply solid_next, C]. }
    eapply gets_seq0; [apply eats_push, eats_zss; [exact W|apply solid_zs, solid_next, C]|]. rewrite <- E.
    eapply gets_seq; [apply row_first; [exact R0|now apply rows_next]| |reflexivity].
    eapply gets_seq; [now apply rows_data| |reflexivity].
    eapply gets_seq0; [apply eats_drop|]. apply gets_comments0. apply next_nl, stop_next, S.
  - intros z _. cbn [yact app].
    assert (M : many as_hdata (map (fun e => (y_hash_element_data, VHData [HElem (elem e)])) l ++ [(y_commentnls, VStrs [])])
                = (map (fun e => [HElem (elem e)]) l, [(y_commentnls, VStrs [])])).
    { clear. induction l as [|r l IH]; [reflexivity|]. cbn [map app many as_hdata]. change (many _ _) with (many as_hdata (map (fun e => (y_hash_element_data, VHData [HElem (elem e)])) l ++ [(y_commentnls, VStrs [])])). now rewrite IH. }
    rewrite M. cbn [hcomments map]. rewrite app_nil_r. cbn [app]. do 4 f_equal. clear. induction l as [|r l IH]; [reflexivity|]. cbn [map concat app]. now rewrite IH.
Qed.
(** ---- elements ---- *)

Definition item (t : wtree) : str := lit "-" ++ wtext w t.
Definition aline (t : wtree) : str := NL :: w ++ item t.
Definition aelem (t : wtree) : arraydata := AElem (mkA None (wnode t)).
Lemma item_entry t s k : vread true t -> next s ->
  gets (PSeq (R_ y_block_array_element) (POpt (R_ y_comment))) (item t ++ s) (w :: k) [(y_block_array_element, VAElem (aelem t))] s (w :: k).
Proof.
  intros V H. eapply gets_seq with (v2 := []); [|apply gets_opt0, fails_comment_nl, next_nl, H|symmetry; apply app_nil_r].
  eapply gets_rule; [reflexivity| |].
  - cbn [yaml_grammar snd]. unfold item. rewrite <- app_assoc. eapply gets_seq0; [exact (eats_str ut (lit "-") _ _)|]. apply V, H.
  - reflexivity.
Qed.
Lemma item_first t s k : vread true t -> next s ->
  gets (R_ y_first_block_array_element) (item t ++ s) (w :: k) [(y_first_block_array_element, VAData [aelem t])] s (w :: k).
Proof. intros. eapply gets_rule; [reflexivity|cbn [yaml_grammar snd]; apply item_entry; assumption|reflexivity]. Qed.
Lemma item_solid t s : solid (item t ++ s).
Proof. cbn. repeat split; discriminate. Qed.
Lemma item_not_hash t s : forall r, item t ++ s <> chr "#" :: r.
Proof. intros r E. discriminate E. Qed.
Lemma eats_blank_gen u s k : (forall c, In c u -> is_zs c = true) -> solid s -> eats (R_ y_blank) (NL :: u ++ s) k [NL] (u ++ s) k.
Proof.
  intros U H. apply eats_silent; [reflexivity|]. cbn [yaml_grammar snd]. apply eats_alt2.
  - eapply fails_seq0; [apply eats_zss0; reflexivity|]. eapply fails_seq0; [apply eats_nl|]. apply fails_seq1, fails_zsnl_gen; assumption.
  - apply eats_opt1, eats_zsnl.
Qed.
Lemma eats_blank_w s k : solid s -> eats (R_ y_blank) (w ++ s) k [] (w ++ s) k.
Proof.
  intros S. apply (eats_silent ut y_blank _ _ []); [reflexivity|]. cbn [yaml_grammar snd]. apply eats_alt2.
  - eapply fails_seq0; [apply eats_zss; [exact W|apply solid_zs, S]|]. apply fails_seq1, fails_nl_solid, S.
  - apply eats_opt0, fails_zsnl_gen; [exact W|exact S].
Qed.
Lemma item_data t s k : vread true t -> next s ->
  gets (PSeq (R_ y_blank) (R_ y_block_array_data)) (aline t ++ s) (w :: k) [(y_block_array_data, VAData [aelem t])] s (w :: k).
Proof.
  intros R H. unfold aline. cbn [app]. rewrite <- app_assoc.
  eapply gets_seq0; [apply eats_blank_gen; [exact W|apply item_solid]|]. eapply gets_rule; [reflexivity| |].
  - cbn [yaml_grammar snd]. eapply gets_seq; [apply (no_comments w []); [apply w_all|apply item_solid|apply item_not_hash]| |reflexivity].
    eapply gets_seq0; [apply eats_peek|]. apply item_entry; assumption.
  - reflexivity.
Qed.
Lemma items_next l s : stop s -> next (flat_map aline l ++ s).
Proof.
  intros S. destruct l as [|t l]; [now apply stop_next|]. right. right.
  exists w, [], (chr "-"), (wtext w t ++ flat_map aline l ++ s). split; [apply w_all|]. split; [|now right].
  cbn [flat_map]. unfold aline at 1, item. cbn [app]. rewrite <- !app_assoc. reflexivity.
Qed.
Lemma end_items s k : stop s -> fails (PSeq (R_ y_blank) (R_ y_block_array_data)) s (w :: k).
Proof.
  assert (F : forall k, fails (R_ y_block_array_data) [] (w :: k)).
  { intros k'. apply fails_rule. cbn [yaml_grammar snd]. eapply fails_seq2; [apply gets_comments0; now left|].
    destruct w as [|c x]; [|apply fails_seq1, fails_peek; reflexivity]. eapply fails_seq0; [exact (eats_peek ut [] [] k')|]. apply fails_seq1. scanc. }
  intros [->|[->|(u & v & c & r & E & V & -> & C)]].
  - destruct (final_blank ut [] (w :: k) (or_introl eq_refl)) as (x & Ex). eapply fails_seq0; [exact Ex|apply F].
  - destruct (final_blank ut [NL] (w :: k) (or_intror eq_refl)) as (x & Ex). eapply fails_seq0; [exact Ex|apply F].
  - eapply fails_seq0; [apply (eats_blank_gen u); [intros d I; apply W; rewrite E; apply in_or_app; now left|now apply solid_next]|].
    apply fails_rule. cbn [yaml_grammar snd].
    eapply fails_seq2; [apply (no_comments u v (c :: r)); [exact E|now apply solid_next|now apply mark_not_hash]|].
    apply fails_seq1, fails_peek. rewrite E. destruct v as [|d v]; [contradiction|]. apply strip_miss; [|exact C].
    apply W. rewrite E. apply in_or_app. right. now left.
Qed.
Lemma items_data l s k : Forall (vread true) l -> stop s ->
  gets (PStar (PSeq (R_ y_blank) (R_ y_block_array_data))) (flat_map aline l ++ s) (w :: k) (map (fun t => (y_block_array_data, VAData [aelem t])) l) s (w :: k).
Proof.
  intros R S. induction R as [|t l R0 R IH]; cbn [flat_map map app].
  - apply gets_star0. now apply end_items.
  - rewrite <- app_assoc. eapply gets_star1; [apply item_data; [exact R0|now apply items_next]|exact IH|reflexivity].
Qed.
Lemma items_no_hash t s k : fails (R_ y_hash) (w ++ item t ++ s) k.
Proof.
  apply fails_rule. cbn [yaml_grammar snd].
  eapply fails_seq0; [apply eats_opt0, no_nl_w, item_solid|].
  eapply fails_seq2; [apply (no_comments w []); [apply w_all|apply item_solid|apply item_not_hash]|].
  eapply fails_seq0; [apply eats_blank_w, item_solid|].
  eapply fails_seq0; [apply eats_push, eats_zss; [exact W|apply solid_zs, item_solid]|].
  apply fails_seq1, fails_first_hash. unfold item. rewrite <- app_assoc. exact (no_key_dash ut 0 _ _).
Qed.
Lemma items_array t l s k : Forall (vread true) (t :: l) -> stop s ->
  gets (R_ y_array) (w ++ item t ++ flat_map aline l ++ s) k [(y_array, VYaml (Array (map aelem (t :: l))))] s k.
Proof.
  intros R S. inversion R as [|? ? R0 R1]; subst.
  eapply gets_rule with (vs := [(y_block_array, VYaml (Array (map aelem (t :: l))))]); [reflexivity| |reflexivity].
  cbn [yaml_grammar snd]. apply gets_alt2.
  { apply fails_rule. cbn [yaml_grammar snd]. apply fails_seq1, fails_str. destruct w as [|d x] eqn:Ew; [reflexivity|]. cbn [app lit strip].
    destruct (ceqb _ d) eqn:Q; [|reflexivity]. apply ceqb_eq in Q. subst d. assert (Z : is_zs (chr "[") = true) by (apply W; now left). discriminate Z. }
  eapply gets_rule; [reflexivity| |].
  - cbn [yaml_grammar snd].
    eapply gets_seq; [apply (no_comments w []); [apply w_all|apply item_solid|apply item_not_hash]| |reflexivity].
    eapply gets_seq0; [apply eats_blank_w, item_solid|].
    eapply gets_seq0; [apply eats_push, eats_zss; [exact W|apply solid_zs, item_solid]|].
    eapply gets_seq; [apply item_first; [exact R0|now apply items_next]| |reflexivity].
    eapply gets_seq0; [apply eats_zss0, nl_no_zs, next_nl, items_next, S|].
    eapply gets_seq; [now apply items_data| |reflexivity].
    eapply gets_seq0; [apply eats_drop|]. apply gets_comments0. apply next_nl, stop_next, S.
  - intros z _. cbn [yact app].
    assert (M : many as_adata (map (fun t => (y_block_array_data, VAData [aelem t])) l ++ [(y_commentnls, VStrs [])])
                = (map (fun t => [aelem t]) l, [(y_commentnls, VStrs [])])).
    { clear. induction l as [|r l IH]; [reflexivity|]. cbn [map app many as_adata]. change (many _ _) with (many as_adata (map (fun t => (y_block_array_data, VAData [aelem t])) l ++ [(y_commentnls, VStrs [])])). now rewrite IH. }
    rewrite M. cbn [acomments map]. rewrite app_nil_r. cbn [app]. do 4 f_equal. clear. induction l as [|r l IH]; [reflexivity|]. cbn [map concat app]. now rewrite IH.
Qed.

(** ---- documents ---- *)

Lemma doc_gets y t s : solid t -> (forall r, t <> chr "#" :: r) -> s = [] \/ s = [NL] ->
  gets (R_ y_document) (w ++ t) [] [(y_document, VYaml y)] s [] ->
  gets (R_ y_yaml) (lit "---" ++ NL :: w ++ t) [] [(y_yaml, VDoc (mkDoc [] [DYaml y]))] [] [].
Proof.
  intros T H S G. destruct (final_blank ut s [] S) as (u & Eu).
  eapply gets_rule; [reflexivity| |].
  - cbn [yaml_grammar snd].
    eapply gets_seq; [apply (gets_leading ut []); constructor| |reflexivity].
    eapply gets_seq0; [exact (eats_str ut (lit "---") _ _)|].
    eapply gets_seq0; [apply eats_blanknl_gen; [exact W|exact T]|].
    eapply gets_seq; [apply (no_comments w []); [apply w_all|exact T|exact H]| |reflexivity].
    eapply gets_seq; [exact G| |reflexivity].
    eapply gets_seq0; [exact Eu|]. eapply gets_seq with (v1 := []); [apply gets_star0; scanc| |reflexivity].
    eapply gets_seq0; [apply eats_spaces0; intros d y' Q; discriminate|apply gets_eoi].
  - reflexivity.
Qed.
Lemma final_stop s : s = [] \/ s = [NL] -> stop s.
Proof. intros [->| ->]; [now left|now right; left]. Qed.
Lemma line_cons e l s : flat_map line (e :: l) ++ s = NL :: w ++ body e ++ flat_map line l ++ s.
Proof. cbn [flat_map]. unfold line at 1. cbn [app]. now rewrite <- !app_assoc. Qed.
Lemma aline_cons t l s : flat_map aline (t :: l) ++ s = NL :: w ++ item t ++ flat_map aline l ++ s.
Proof. cbn [flat_map]. unfold aline at 1. cbn [app]. now rewrite <- !app_assoc. Qed.
Theorem rows_gets l s : l <> [] -> Forall entry_ok l -> s = [] \/ s = [NL] ->
  gets (R_ y_yaml) (lit "---" ++ flat_map line l ++ s) [] [(y_yaml, VDoc (mkDoc [] [DYaml (Hash (map (fun e => HElem (elem e)) l))]))] [] [].
Proof.
  intros N R S. destruct l as [|e l]; [contradiction|]. rewrite line_cons.
  pose proof (rows_hash e l s [] R (final_stop s S)) as Gh. inversion R as [|? ? R0 R1]; subst. destruct (body_head e (flat_map line l ++ s) R0) as (c & x & E & C).
  rewrite E in *. eapply doc_gets; [now apply solid_next|now apply mark_not_hash|exact S|].
  eapply gets_rule; [reflexivity|cbn [yaml_grammar snd]; apply gets_alt1, Gh|reflexivity].
Qed.
Theorem items_gets l s : l <> [] -> Forall (vread true) l -> s = [] \/ s = [NL] ->
  gets (R_ y_yaml) (lit "---" ++ flat_map aline l ++ s) [] [(y_yaml, VDoc (mkDoc [] [DYaml (Array (map aelem l))]))] [] [].
Proof.
  intros N R S. destruct l as [|t l]; [contradiction|]. rewrite aline_cons.
  eapply doc_gets; [apply item_solid|apply item_not_hash|exact S|].
  eapply gets_rule; [reflexivity|cbn [yaml_grammar snd]; apply gets_alt2; [apply items_no_hash|apply items_array; [exact R|now apply final_stop]]|reflexivity].
Qed.
End White.

(** ---- trees ---- *)

Lemma wtree_ind' (P : wtree -> Prop) : (forall f c ls, P (WBlock f c ls)) -> (forall s, P (WWord s)) ->
  (forall v l, Forall (fun e => P (snd e)) l -> P (WMap v l)) -> (forall v l, P (WSeq v l)) -> forall t, P t.
Proof.
  intros A B C D. fix IH 1. intros [f c ls|s|v l|v l]; [apply A|apply B| |apply D]. apply C.
  induction l as [|[k t] l IHl]; constructor; [apply IH|exact IHl].
Qed.
Lemma wtext_map w v l : wtext w (WMap v l) = flat_map (line (w ++ v)) l.
Proof. cbn [wtext]. apply flat_map_ext. intros [k t]. reflexivity. Qed.
Lemma wnode_map v l : wnode (WMap v l) = Hash (map (fun e => HElem (elem e)) l).
Proof. cbn [wnode]. f_equal. apply map_ext. intros [k t]. reflexivity. Qed.
Definition separators (w : str) : Prop := forall c, In c w -> is_zs c = true.
Lemma separators_app w v : separators w -> separators v -> separators (w ++ v).
Proof. intros A B c H. apply in_app_or in H as [H|H]; auto. Qed.
Lemma next_stop ut w v s : v <> [] -> next ut w s -> stop ut (w ++ v) s.
Proof.
  intros V [H|[H|(u & x & c & r & E & F & C)]]; [now left|now right; left|]. right. right.
  exists u, (x ++ v), c, r. rewrite E, app_assoc. repeat split; auto. now destruct x.
Qed.
(** Indented text starts neither with an alias nor with a collection. *)
Lemma zs_ba_indented ut y d s r k : is_zs d = true -> gets ut (R_ y_yaml_value) (d :: s) k [(y_yaml_value, VYaml y)] r k ->
  gets ut (R_ y_ba_aliased) (d :: s) k [(y_ba_aliased, VAliased (mkA None y))] r k.
Proof.
  intros D H. assert (Q : forall c, is_zs c = false -> ceqb c d = false).
  { intros c C. destruct (ceqb c d) eqn:E; [|reflexivity]. apply ceqb_eq in E. subst. congruence. }
  assert (A : forall k, fails ut (R_ y_alias) (d :: s) k).
  { intros k'. apply fails_rule. cbn [yaml_grammar snd]. apply fails_seq1, fails_str. cbn [lit strip]. now rewrite Q. }
  eapply gets_rule with (vs := [(y_aliased, VAliased (mkA None y))]); [reflexivity| |reflexivity].
  cbn [yaml_grammar snd]. apply gets_alt2.
  - apply fails_rule. cbn [yaml_grammar snd]. eapply fails_seq0; [apply eats_opt0, fails_seq1, A|]. apply fails_alt.
    + apply fails_alternative_hash, fails_rule. cbn [yaml_grammar snd]. apply fails_seq1, fails_rule. cbn [yaml_grammar snd]. apply fails_seq1.
      apply fails_name. intros c x E N. injection E as <- <-. pose proof (name_solid ut d s N) as Z. cbn in Z. destruct Z. congruence.
    + apply fails_alternative_array, fails_rule. cbn [yaml_grammar snd]. apply fails_seq1, fails_str. cbn [lit strip]. now rewrite Q.
  - eapply gets_rule with (vs := [(y_yaml_value, VYaml y)]); [reflexivity| |reflexivity].
    cbn [yaml_grammar snd]. eapply gets_seq0; [apply eats_opt0, fails_seq1, A|exact H].
Qed.

Lemma white_entries ut w l : separators w -> Forall (fun e => forall w, separators w -> deeper (snd e) -> white ut (snd e) -> vread ut w false (snd e)) l ->
  fold_right (fun e Q => match e with (k, t) => plain_key ut k /\ deeper t /\ white ut t end /\ Q) True l -> Forall (entry_ok ut w) l.
Proof.
  intros W H. induction H as [|[k t] l H0 H IH]; cbn [fold_right]; intros F; [constructor|]. destruct F as ((K & D & T) & F).
  constructor; [|now apply IH]. split; [exact K|]. now apply H0.
Qed.
Lemma white_items ut w l : separators w ->
  fold_right (fun t Q => (leaf t /\ white ut t) /\ Q) True l -> Forall (vread ut w true) l.
Proof.
  intros W. induction l as [|t l IH]; cbn [fold_right]; intros F; [constructor|]. destruct F as ((K & T) & F).
  constructor; [|now apply IH]. destruct t; try contradiction; [now apply vread_block|now apply vread_word].
Qed.
Lemma white_vread ut t : forall w, separators w -> deeper t -> white ut t -> vread ut w false t.
Proof.
  induction t as [f c ls|x|v l IH|v l] using wtree_ind'; intros w W D T.
  - now apply vread_block.
  - now apply vread_word.
  - destruct T as (V & N & F). assert (WV : separators (w ++ v)) by (apply separators_app; [exact W|intros c I; apply separator_zs, V, I]).
    pose proof (white_entries ut (w ++ v) l WV IH F) as R. intros s k H. rewrite wtext_map, wnode_map.
    destruct l as [|e l]; [contradiction|]. pose proof (rows_hash ut (w ++ v) WV e l s (w :: k) R (next_stop ut w v s D H)) as G.
    inversion R as [|? ? R0 R1]; subst. destruct (body_head ut (w ++ v) e (flat_map (line (w ++ v)) l ++ s) R0) as (c & x & E & C).
    rewrite line_cons. eapply gets_seq0.
    { apply eats_alt2; [apply fails_zsp; reflexivity|]. rewrite E. apply eats_blanknl_gen; [exact WV|exact (solid_next ut c x C)]. }
    rewrite <- E. destruct (w ++ v) as [|d u] eqn:Ed; [destruct w, v; (contradiction || discriminate)|]. cbn [app] in G |- *.
    apply zs_ba_indented; [apply WV; now left|].
    eapply gets_rule; [reflexivity|cbn [yaml_grammar snd]; apply gets_alt1, G|reflexivity].
  - destruct T as (V & N & F). assert (WV : separators (w ++ v)) by (apply separators_app; [exact W|intros c I; apply separator_zs, V, I]).
    pose proof (white_items ut (w ++ v) l WV F) as R. intros s k H.
    change (wtext w (WSeq v l)) with (flat_map (aline (w ++ v)) l). change (wnode (WSeq v l)) with (Array (map aelem l)).
    destruct l as [|t l]; [contradiction|]. pose proof (items_array ut (w ++ v) WV t l s (w :: k) R (next_stop ut w v s D H)) as G.
    pose proof (items_no_hash ut (w ++ v) WV t (flat_map (aline (w ++ v)) l ++ s) (w :: k)) as G0.
    rewrite aline_cons. eapply gets_seq0.
    { apply eats_alt2; [apply fails_zsp; reflexivity|]. apply eats_blanknl_gen; [exact WV|apply item_solid]. }
    destruct (w ++ v) as [|d u] eqn:Ed; [destruct w, v; (contradiction || discriminate)|]. cbn [app] in G, G0 |- *.
    apply zs_ba_indented; [apply WV; now left|].
    eapply gets_rule; [reflexivity|cbn [yaml_grammar snd]; apply gets_alt2; [exact G0|apply gets_alt1, G]|reflexivity].
Qed.

Theorem white_parse ut t z : ~ leaf t -> white ut t -> z = [] \/ z = [NL] ->
  parse_yaml ut (white_file t ++ z) = CVal (mkDoc [] [DYaml (wnode t)]).
Proof.
  intros NL T Z. apply parse_of_gets. unfold white_file. rewrite <- app_assoc.
  destruct t as [f c ls|x|w l|w l]; [destruct (NL I)..| |]; destruct T as (V & N & F);
    (assert (W : separators w) by (intros c I; apply separator_zs, V, I)).
  - rewrite wtext_map, wnode_map. cbn [app].
    apply rows_gets; auto. apply white_entries; [exact W| |exact F]. apply Forall_forall. intros e _ u U. now apply white_vread.
  - change (wtext [] (WSeq w l)) with (flat_map (aline w) l). apply items_gets; auto. now apply white_items.
Qed.
