(** What the grammar reads from inline collections in any layout and from values on one
    line with trailing spaces. *)
From Coq Require Import ZArith.
From Verif Require Import Base Ast Num Strings Peg PegFacts YamlGrammar Consume Format Spec_Parse YamlTree
  Spec_Format Reads FormatText FormatScalars FormatFlow FormatBlock Spec_Layout LayoutText.
Import ListNotations.

Scheme flow_mut := Minimality for flow Sort Prop
  with items_mut := Minimality for flow_items Sort Prop
  with pairs_mut := Minimality for flow_pairs Sort Prop.
Combined Scheme flow_all from flow_mut, items_mut, pairs_mut.

Section Flow.
Context (ut : unitab).
Notation G := (yaml_grammar ut).
Notation gets := (gets ut).
Notation eats := (eats ut).
Notation eats0 := (eats0 ut).
Notation fails := (fails ut).

(** ---- unquoted text ---- *)

Lemma app_split {A} (u v a : list A) d b : u ++ v = a ++ d :: b ->
  (exists b', u = a ++ d :: b' /\ b = b' ++ v) \/ (exists a', v = a' ++ d :: b).
Proof.
  revert a. induction u as [|x u IH]; intros a E; cbn [app] in *.
  - right. now exists a.
  - destruct a as [|y a]; cbn [app] in E; inversion E; subst.
    + left. exists u. auto.
    + destruct (IH a H1) as [(b' & -> & ->)|H]; [left; now exists b'|now right].
Qed.

(** After the text of a value in block position and its trailing spaces. *)
Definition stop (x : str) : Prop := x = [] \/ (exists r, x = NL :: r) \/ (exists r, x = chr "#" :: r).
(** In an inline collection. *)
Definition itail1 (z : str) : Prop := exists c r, z = c :: r /\ (c = chr "," \/ c = chr "]" \/ c = chr "}").

Lemma gets_unquoted_pad s i x k : block_text ut s -> stop x ->
  gets (R_ y_unquoted_string) (s ++ indent i ++ x) k [(y_unquoted_string, VYaml (Unquoted s))] x k.
Proof.
  intros ((c & u & Es & Hzs & Hc) & Hl & Hh & Hsp & (Hc1 & Hc2) & _) Hx.
  assert (Hp : ~ has_pair (chr ":") SP s) by (apply Hc2; reflexivity).
  assert (Hdis : forall z' a d b, s = a ++ d :: b -> fails (R_ y_dis) (d :: b ++ z') k).
  { intros z' a d b E. destruct (one_line_at s a d b Hl E). apply fails_dis; try assumption.
    - intros [<-|[]]. apply Hh. rewrite E. apply in_or_app. right. now left.
    - now apply (colon_next s z' Hc1 Hp a d b). }
  rewrite <- (trim_pad s i Hsp) at 2. rewrite Es. rewrite app_assoc. cbn [app].
  eapply gets_unq; try reflexivity.
  - destruct (one_line_at s [] c u Hl Es). rewrite <- app_assoc. apply fails_dis_start; try assumption.
    + intros H1. apply Hc. clear - H1 Hh Es.
      cbn [lit app In] in *. repeat (destruct H1 as [H1|H1]; [try tauto|]); try tauto.
      exfalso. apply Hh. rewrite Es. left. symmetry. exact H1.
    + now apply (colon_next s _ Hc1 Hp [] c u).
  - intros a d b E. apply app_split in E as [(b' & -> & ->)|(a' & E)].
    + rewrite <- app_assoc. apply (Hdis _ (c :: a)). now rewrite Es.
    + assert (d = SP) by (apply (indent_in i); rewrite E; apply in_or_app; right; now left). subst d.
      apply fails_dis; try discriminate. intros [H|[]]. discriminate.
  - destruct Hx as [->|[(r & ->)|(r & ->)]].
    + apply stop_end. scanc.
    + eapply stop_at. eapply RRule. cbn [yaml_grammar snd].
      apply eats_alt2; [scanc|]. apply eats_alt2; [scanc|]. apply eats_nl.
    + eapply stop_at. eapply RRule. cbn [yaml_grammar snd].
      apply eats_alt2; [scanc|]. apply eats_alt1. exact (eats_str ut (lit "#") r k).
Qed.

Lemma gets_unquoted_inline_pad s i x k : inline_text ut s -> itail1 x \/ (exists r, x = NL :: r) ->
  gets (R_ y_unquoted_inline_string) (s ++ indent i ++ x) k [(y_unquoted_inline_string, VYaml (Unquoted s))] x k.
Proof.
  intros ((c & u & Es & Hzs & Hc) & Hl & Hsp & Hh & Hc1 & Hp & _) Hx.
  assert (Hdis : forall z' a d b, s = a ++ d :: b -> fails (R_ y_dis_inline) (d :: b ++ z') k).
  { intros z' a d b E. destruct (one_line_at s a d b Hl E). apply fails_dis_inline; try assumption.
    - intros H1. apply (Hh d H1). rewrite E. apply in_or_app. right. now left.
    - now apply (colon_next s z' Hc1 Hp a d b). }
  rewrite <- (trim_pad s i Hsp) at 2. rewrite Es. rewrite app_assoc. cbn [app].
  eapply gets_unq; try reflexivity.
  - destruct (one_line_at s [] c u Hl Es). rewrite <- app_assoc. apply fails_dis_inline_start; try assumption.
    + intros H1. assert (Hin : In c s) by (rewrite Es; now left).
      assert (Hnot : ~ In c (lit ",[]{}#>|" ++ [DQUOTE])) by (intros H2; now apply (Hh c)).
      clear - H1 Hc Hnot. cbn [lit app In] in *.
      repeat (destruct H1 as [H1|H1]; [try tauto|]); try tauto. apply Hc. now subst.
    + now apply (colon_next s _ Hc1 Hp [] c u).
  - intros a d b E. apply app_split in E as [(b' & -> & ->)|(a' & E)].
    + rewrite <- app_assoc. apply (Hdis _ (c :: a)). now rewrite Es.
    + assert (d = SP) by (apply (indent_in i); rewrite E; apply in_or_app; right; now left). subst d.
      apply fails_dis_inline; try discriminate.
      intros H. vm_compute in H. repeat destruct H as [H|H]; try discriminate; exact H.
  - destruct Hx as [(d & r & -> & [->|[->| ->]])|(r & ->)].
    + eapply stop_at. eapply RRule. cbn [yaml_grammar snd].
      apply eats_alt1. exact (eats_str ut (lit ",") r k).
    + eapply stop_at. eapply RRule. cbn [yaml_grammar snd].
      apply eats_alt2; [scanc|]. apply eats_alt2; [scanc|].
      apply eats_alt1. exact (eats_str ut (lit "]") r k).
    + eapply stop_at. eapply RRule. cbn [yaml_grammar snd].
      apply eats_alt2; [scanc|]. apply eats_alt2; [scanc|]. apply eats_alt2; [scanc|].
      apply eats_alt2; [scanc|]. apply eats_alt1. exact (eats_str ut (lit "}") r k).
    + eapply stop_at. eapply RRule. cbn [yaml_grammar snd].
      repeat (apply eats_alt2; [scanc|]). apply eats_nl.
Qed.

(** ---- quoted text: the spaces after the quote are read with it ---- *)

Lemma gets_single_pad ps i z k : sq_canon ps -> inert ut (indent i ++ z) -> no_zs z ->
  gets (R_ y_single_quoted) (QUOTE :: flat_map sq_text ps ++ QUOTE :: indent i ++ z) k
    [(y_single_quoted, VYaml (SingleQ ps))] z k.
Proof.
  intros Hp Hi Hz. eapply gets_rule; [reflexivity| |].
  - cbn [yaml_grammar snd]. eapply gets_seq0; [apply eats_push, eats_c1|].
    eapply gets_seq.
    + eapply gets_rule; [reflexivity|apply gets_sq_parts; [exact Hp|]|].
      * intros r' E. now destruct (Hi _ _ E).
      * intros t _. cbn [yact]. unfold vsq. rewrite (many_map _ _ (fun c => c)) by reflexivity.
        rewrite map_id. reflexivity.
    + eapply gets_seq0; [exact (eats_pop ut [QUOTE] _ k)|].
      eapply eats_gets, eats_indent, Hz.
    + reflexivity.
  - reflexivity.
Qed.
Lemma gets_double_pad ps i z k : dq_canon ps -> no_zs z ->
  gets (R_ y_double_quoted) (DQUOTE :: flat_map dq_text ps ++ DQUOTE :: indent i ++ z) k
    [(y_double_quoted, VYaml (DoubleQ ps))] z k.
Proof.
  intros Hp Hz. eapply gets_rule; [reflexivity| |].
  - cbn [yaml_grammar snd]. eapply gets_seq0; [apply eats_push, eats_c1|].
    eapply gets_seq.
    + eapply gets_rule; [reflexivity|apply gets_dq_parts, Hp|].
      intros t _. cbn [yact]. unfold vdq. rewrite (many_map _ _ (fun c => c)) by reflexivity.
      rewrite map_id. reflexivity.
    + eapply gets_seq0; [exact (eats_pop ut [DQUOTE] _ k)|].
      eapply eats_gets, eats_indent, Hz.
    + reflexivity.
  - reflexivity.
Qed.

(** ---- items of an inline collection ---- *)

Lemma itail1_firm z : itail1 z -> firm z.
Proof. intros (c & r & -> & [->|[->| ->]]); apply firm_cons; discriminate. Qed.
Lemma itail1_zs z : itail1 z -> no_zs z.
Proof. intros (c & r & -> & [->|[->| ->]]); reflexivity. Qed.
Lemma white_inert w z : white w -> itail1 z -> inert ut (w ++ z).
Proof.
  intros Hw Hz c r E. destruct w as [|d w]; cbn [app] in E.
  - destruct Hz as (c' & r' & -> & [->|[->| ->]]); inversion E; subst; repeat split; try discriminate;
      apply punct_not_name; reflexivity.
  - inversion E; subst. destruct (Hw c (or_introl eq_refl)) as [-> | ->]; repeat split; try discriminate;
      apply punct_not_name; reflexivity.
Qed.
Lemma white_tail d w : white (d :: w) -> white w.
Proof. intros H c Hc. apply H. now right. Qed.
(** The spaces at the start. *)
Lemma white_split w z : white w -> itail1 z ->
  exists i w', w ++ z = indent i ++ w' ++ z /\ white w' /\ no_zs (w' ++ z)
    /\ (itail1 (w' ++ z) \/ exists r, w' ++ z = NL :: r).
Proof.
  intros Hw Hz. induction w as [|d w IH].
  - exists 0, []. repeat split; [exact Hw|now apply itail1_zs|now left].
  - destruct (Hw d (or_introl eq_refl)) as [-> | ->].
    + destruct (IH (white_tail _ _ Hw)) as (i & w' & E & H). exists (S i), w'. split; [|exact H].
      cbn [app indent repeat_char]. now rewrite E.
    + exists 0, (NL :: w). repeat split; [exact Hw|]. right. now exists (w ++ z).
Qed.

Definition item (e : yexp) (v : yrule * yval) (s : str) : Prop :=
  (forall z, firm (s ++ z)) /\
  (forall w z, white w -> itail1 z ->
     exists w', white w' /\ forall k, gets e (s ++ w ++ z) k [v] (w' ++ z) k).
Definition more (e : yexp) : yexp := PStar (R_ y_spaces ~~ yl "," ~~ R_ y_spaces ~~ e)%peg.
Definition listed (e : yexp) (vs : list (yrule * yval)) (s : str) : Prop :=
  forall c z, c = chr "]" \/ c = chr "}" ->
    exists v vs' u r0 r w, vs = v :: vs' /\ white w
      /\ (forall k, eats (R_ y_spaces) (s ++ c :: z) k u r0 k)
      /\ (forall k, gets e r0 k [v] r k)
      /\ (forall k, gets (more e) r k vs' (w ++ c :: z) k).

Lemma closer_itail c z : c = chr "]" \/ c = chr "}" -> itail1 (c :: z).
Proof. intros H. exists c, z. split; [reflexivity|tauto]. Qed.

Lemma listed_one e v w s w' : white w -> item e v s -> white w' -> listed e [v] (w ++ s ++ w').
Proof.
  intros Hw [Hf Hi] Hw' c z Hc. pose proof (closer_itail c z Hc) as Ht.
  destruct (Hi w' (c :: z) Hw' Ht) as (w1 & Hw1 & G1).
  exists v, [], w, (s ++ w' ++ c :: z), (w1 ++ c :: z), w1. split; [reflexivity|]. split; [exact Hw1|].
  split; [|split; [exact G1|]]; intros k.
  - rewrite <- !app_assoc. apply eats_white; [exact Hw|apply Hf].
  - apply gets_star0. eapply fails_seq0; [apply eats_white; [exact Hw1|now apply itail1_firm]|].
    apply fails_seq1, (fails_c1 ut (chr ",")). destruct Hc as [-> | ->]; discriminate.
Qed.
Lemma listed_cons e v vs w s w' r : white w -> item e v s -> white w' -> listed e vs r ->
  listed e (v :: vs) (w ++ s ++ w' ++ lit "," ++ r).
Proof.
  intros Hw [Hf Hi] Hw' Hr c z Hc.
  assert (Ht : itail1 (lit "," ++ r ++ c :: z)) by (exists (chr ","), (r ++ c :: z); split; [reflexivity|tauto]).
  destruct (Hi w' _ Hw' Ht) as (w1 & Hw1 & G1).
  destruct (Hr c z Hc) as (v2 & vs2 & u2 & r0 & r2 & w2 & -> & Hw2 & G0 & G2 & G3).
  exists v, (v2 :: vs2), w, (s ++ w' ++ lit "," ++ r ++ c :: z), (w1 ++ lit "," ++ r ++ c :: z), w2.
  split; [reflexivity|]. split; [exact Hw2|].
  split; [|split; [exact G1|]]; intros k.
  - rewrite <- !app_assoc. apply eats_white; [exact Hw|apply Hf].
  - eapply gets_star1 with (v1 := [v2]); [|apply G3|reflexivity].
    eapply gets_seq0; [apply eats_white; [exact Hw1|now apply itail1_firm]|].
    eapply gets_seq0; [exact (eats_str ut (lit ",") _ k)|].
    eapply gets_seq0; [apply G0|apply G2].
Qed.

(** The rest of the collection after its opening sign. *)
Lemma gets_listed e vs s c z k : c = chr "]" \/ c = chr "}" -> listed e vs s ->
  gets (POpt (R_ y_spaces ~~ e ~~ more e) ~~ R_ y_spaces ~~ yc c)%peg (s ++ c :: z) k vs z k.
Proof.
  intros Hc H. destruct (H c z Hc) as (v & vs' & u & r0 & r & w & -> & Hw & G0 & G1 & G2).
  eapply gets_seq with (v1 := v :: vs') (v2 := []) (s1 := w ++ c :: z) (k1 := k); [apply gets_opt1| |now rewrite app_nil_r].
  - eapply gets_seq0; [apply G0|]. eapply gets_seq; [apply G1|apply G2|reflexivity].
  - eapply gets_seq0; [apply eats_white; [exact Hw|now apply itail1_firm, closer_itail]|].
    eapply eats_gets, eats_c1.
Qed.

Notation vitem := (fun y : yaml => (y_inline_array_value, VYaml y)).
Notation vpair := (fun kv : str * yaml => (y_inline_hash_element, VPair (fst kv) (snd kv))).

Lemma gets_array_listed l s z k : listed (R_ y_inline_array_value) (map vitem l) s ->
  gets (R_ y_inline_array) ((lit "[" ++ s ++ lit "]") ++ z) k [(y_inline_array, VYaml (InlineArray l))] z k.
Proof.
  intros H. rewrite <- !app_assoc. eapply gets_rule; [reflexivity| |].
  - cbn [yaml_grammar snd]. eapply gets_seq0; [apply eats_str|].
    exact (gets_listed _ _ s (chr "]") z k (or_introl eq_refl) H).
  - intros t _. cbn [yact]. rewrite (many_map _ _ (fun c => c)) by reflexivity. now rewrite map_id.
Qed.
Lemma gets_hash_listed l s z k : listed (R_ y_inline_hash_element) (map vpair l) s ->
  gets (R_ y_inline_hash) ((lit "{" ++ s ++ lit "}") ++ z) k [(y_inline_hash, VYaml (InlineHash l))] z k.
Proof.
  intros H. rewrite <- !app_assoc. eapply gets_rule; [reflexivity| |].
  - cbn [yaml_grammar snd]. eapply gets_seq0; [apply eats_str|].
    exact (gets_listed _ _ s (chr "}") z k (or_intror eq_refl) H).
  - intros t _. cbn [yact]. rewrite (many_map _ _ (fun c => c)) by (intros [a b]; reflexivity).
    now rewrite map_id.
Qed.
Lemma gets_array_empty w z k : white w ->
  gets (R_ y_inline_array) ((lit "[" ++ w ++ lit "]") ++ z) k [(y_inline_array, VYaml (InlineArray []))] z k.
Proof.
  intros H. rewrite <- !app_assoc. eapply gets_rule; [reflexivity| |].
  - cbn [yaml_grammar snd]. eapply gets_seq0; [apply eats_str|].
    eapply gets_seq0.
    { apply eats_opt0. eapply fails_seq0; [apply eats_white; [exact H|apply firm_cons; discriminate]|].
      apply fails_seq1, (no_value_bracket ut). }
    eapply gets_seq0; [apply eats_white; [exact H|apply firm_cons; discriminate]|].
    eapply eats_gets, eats_str.
  - reflexivity.
Qed.
Lemma gets_hash_empty w z k : white w ->
  gets (R_ y_inline_hash) ((lit "{" ++ w ++ lit "}") ++ z) k [(y_inline_hash, VYaml (InlineHash []))] z k.
Proof.
  intros H. rewrite <- !app_assoc. eapply gets_rule; [reflexivity| |].
  - cbn [yaml_grammar snd]. eapply gets_seq0; [apply eats_str|].
    eapply gets_seq0.
    { apply eats_opt0. eapply fails_seq0; [apply eats_white; [exact H|apply firm_cons; discriminate]|].
      apply fails_seq1. scanc. }
    eapply gets_seq0; [apply eats_white; [exact H|apply firm_cons; discriminate]|].
    eapply eats_gets, eats_str.
  - reflexivity.
Qed.

Lemma item_pair k i v s wv : plain_key ut k -> white wv -> item (R_ y_inline_array_value) (vitem v) s ->
  item (R_ y_inline_hash_element) (vpair (k, v)) (k ++ spaces i ++ lit ":" ++ wv ++ s).
Proof.
  intros Hk Hwv [Hf Hv]. split.
  - intros z. destruct Hk as ((c & r & -> & Hn) & _). cbn [app].
    pose proof (name_punct ut c Hn) as Hp.
    apply firm_cons; intros ->; [discriminate (Hp SP eq_refl)|discriminate (Hp NL eq_refl)|discriminate (Hp CR eq_refl)].
  - intros w z Hw Hz. destruct (Hv w z Hw Hz) as (w' & Hw' & Gr). exists w'. split; [exact Hw'|]. intros k0.
    rewrite <- !app_assoc. eapply gets_rule; [reflexivity| |].
    + cbn [yaml_grammar snd]. eapply gets_seq.
      * apply gets_key_pad; [exact Hk|]. intros c r' E. inversion E; subst.
        intros [H|[H|H]]; try discriminate. revert H. apply punct_not_name. reflexivity.
      * eapply gets_seq0; [apply eats_spaces0, firm_cons; discriminate|].
        eapply gets_seq0; [exact (eats_str ut (lit ":") _ k0)|].
        eapply gets_seq0; [apply eats_white; [exact Hwv|apply Hf]|]. apply Gr.
      * reflexivity.
    + reflexivity.
Qed.

Lemma inline_text_firm s z : inline_text ut s -> firm (s ++ z).
Proof.
  intros ((c & r & -> & H1 & H2) & [H3 H4] & _). cbn [app].
  apply firm_cons; [assumption|intros ->; apply H3; now left|intros ->; apply H4; now left].
Qed.

Lemma item_text s : inline_text ut s -> item (R_ y_inline_array_value) (vitem (Unquoted s)) s.
Proof.
  intros H. split; [intros z; now apply inline_text_firm|]. intros w z Hw Hz.
  destruct (white_split w z Hw Hz) as (i & w' & E & Hw' & Hzs & Ht). exists w'. split; [exact Hw'|]. intros k.
  pose proof H as ((c & u & Es & H1 & H2) & Hl & _ & Hh & _ & _ & Hm).
  pose proof (white_inert w z Hw Hz) as Hin.
  assert (Hc : In c s) by (rewrite Es; now left).
  eapply gets_rule; [reflexivity| |].
  + cbn [yaml_grammar snd]. apply gets_alt2.
    { apply fails_rule. cbn [yaml_grammar snd]. subst s. cbn [app].
      destruct (N.eq_dec c (chr "*")) as [-> | Hne].
      - eapply fails_seq0; [exact (eats_str ut (lit "*") _ k)|]. apply fails_rule, fails_seq1.
        apply (fails_name ut). intros d r' E'. destruct u as [|b u].
        + apply (Hin d r' E').
        + inversion E'; subst. now apply (Hm d u).
      - apply fails_seq1, (fails_c1 ut (chr "*")). congruence. }
    apply gets_alt2.
    { apply fails_rule. cbn [yaml_grammar snd]. subst s. cbn [app].
      apply fails_seq1, (fails_c1 ut (chr "[")). intros <-. apply (Hh (chr "[")); [vm_compute; tauto|exact Hc]. }
    apply gets_alt2.
    { apply fails_rule. cbn [yaml_grammar snd]. subst s. cbn [app].
      apply fails_seq1, (fails_c1 ut (chr "{")). intros <-. apply (Hh (chr "{")); [vm_compute; tauto|exact Hc]. }
    eapply gets_rule; [reflexivity|cbn [yaml_grammar snd]; apply gets_alt1; rewrite E; apply gets_unquoted_inline_pad; [exact H|exact Ht]|reflexivity].
  + reflexivity.
Qed.

Lemma item_single ps : sq_canon ps ->
  item (R_ y_inline_array_value) (vitem (SingleQ ps)) ([QUOTE] ++ flat_map sq_text ps ++ [QUOTE]).
Proof.
  intros H. split; [intros z; apply firm_cons; discriminate|]. intros w z Hw Hz.
  destruct (white_split w z Hw Hz) as (i & w' & E & Hw' & Hzs & Ht). exists w'. split; [exact Hw'|]. intros k.
  pose proof (white_inert w z Hw Hz) as Hin. rewrite E in *. cbn [app]. rewrite <- app_assoc. cbn [app].
  eapply gets_rule; [reflexivity| |].
  - cbn [yaml_grammar snd]. apply gets_alt2; [scanc|]. apply gets_alt2; [scanc|]. apply gets_alt2; [scanc|].
    eapply gets_rule; [reflexivity| |].
    + cbn [yaml_grammar snd]. apply gets_alt2.
      { eapply fails_unq_inline. eapply RRule. cbn [yaml_grammar snd].
        do 7 (apply eats_alt2; [scanc|]). apply eats_alt1. exact (eats_str ut (lit "'") _ k). }
      apply gets_alt2; [scanc|]. apply gets_single_pad; [exact H|exact Hin|exact Hzs].
    + reflexivity.
  - reflexivity.
Qed.
Lemma item_double ps : dq_canon ps ->
  item (R_ y_inline_array_value) (vitem (DoubleQ ps)) ([DQUOTE] ++ flat_map dq_text ps ++ [DQUOTE]).
Proof.
  intros H. split; [intros z; apply firm_cons; discriminate|]. intros w z Hw Hz.
  destruct (white_split w z Hw Hz) as (i & w' & E & Hw' & Hzs & Ht). exists w'. split; [exact Hw'|]. intros k.
  rewrite E in *. cbn [app]. rewrite <- app_assoc. cbn [app].
  eapply gets_rule; [reflexivity| |].
  - cbn [yaml_grammar snd]. apply gets_alt2; [scanc|]. apply gets_alt2; [scanc|]. apply gets_alt2; [scanc|].
    eapply gets_rule; [reflexivity| |].
    + cbn [yaml_grammar snd]. apply gets_alt2.
      { eapply fails_unq_inline. eapply RRule. cbn [yaml_grammar snd].
        do 6 (apply eats_alt2; [scanc|]). apply eats_alt1. apply eats_c1. }
      apply gets_alt1; apply gets_double_pad; [exact H|exact Hzs].
    + reflexivity.
  - reflexivity.
Qed.
Lemma item_ref a : alias_ok ut a -> item (R_ y_inline_array_value) (vitem (Anchor a)) (lit "*" ++ a).
Proof.
  intros H. split; [intros z; apply firm_cons; discriminate|]. intros w z Hw Hz. exists w. split; [exact Hw|].
  intros k. rewrite <- app_assoc. change (lit "*" ++ ?x) with (chr "*" :: x).
  eapply gets_rule; [reflexivity|cbn [yaml_grammar snd]; apply gets_alt1, gets_anchor|reflexivity];
    [exact H|now apply white_inert].
Qed.
Lemma item_array y s : (exists u, s = chr "[" :: u) ->
  (forall z k, gets (R_ y_inline_array) (s ++ z) k [(y_inline_array, VYaml y)] z k) ->
  item (R_ y_inline_array_value) (vitem y) s.
Proof.
  intros (u & Eu) H. split; [intros z; subst s; apply firm_cons; discriminate|].
  intros w z Hw Hz. exists w. split; [exact Hw|]. intros k.
  eapply gets_rule; [reflexivity| |].
  - cbn [yaml_grammar snd]. apply gets_alt2; [subst s; scanc|]. apply gets_alt1, H.
  - reflexivity.
Qed.
Lemma item_hash y s : (exists u, s = chr "{" :: u) ->
  (forall z k, gets (R_ y_inline_hash) (s ++ z) k [(y_inline_hash, VYaml y)] z k) ->
  item (R_ y_inline_array_value) (vitem y) s.
Proof.
  intros (u & Eu) H. split; [intros z; subst s; apply firm_cons; discriminate|].
  intros w z Hw Hz. exists w. split; [exact Hw|]. intros k.
  eapply gets_rule; [reflexivity| |].
  - cbn [yaml_grammar snd]. apply gets_alt2; [subst s; scanc|]. apply gets_alt2; [subst s; scanc|]. apply gets_alt1, H.
  - reflexivity.
Qed.

Lemma flow_reads :
  (forall y s, flow ut y s -> item (R_ y_inline_array_value) (vitem y) s) /\
  (forall l s, flow_items ut l s -> listed (R_ y_inline_array_value) (map vitem l) s) /\
  (forall l s, flow_pairs ut l s -> listed (R_ y_inline_hash_element) (map vpair l) s).
Proof.
  apply flow_all.
  - intros s. apply item_text.
  - intros ps. apply item_single.
  - intros ps. apply item_double.
  - intros a. apply item_ref.
  - intros w H. apply item_array; [eexists; reflexivity|]. intros z k. now apply gets_array_empty.
  - intros l s _ H. apply item_array; [eexists; reflexivity|]. intros z k. now apply gets_array_listed.
  - intros w H. apply item_hash; [eexists; reflexivity|]. intros z k. now apply gets_hash_empty.
  - intros l s _ H. apply item_hash; [eexists; reflexivity|]. intros z k. now apply gets_hash_listed.
  - intros y s w w' Hw _ H Hw'. now apply listed_one.
  - intros y s w w' l r Hw _ H Hw' _ Hr. cbn [map]. now apply listed_cons.
  - intros k i v s w wv w' Hw Hk Hwv _ _ H Hw'. cbn [map].
    replace (w ++ k ++ spaces i ++ lit ":" ++ wv ++ s ++ w') with (w ++ (k ++ spaces i ++ lit ":" ++ wv ++ s) ++ w')
      by (rewrite <- !app_assoc; reflexivity).
    apply listed_one; [exact Hw| |exact Hw']. now apply item_pair.
  - intros k i v s w wv w' l r Hw Hk Hwv _ _ H Hw' _ Hr. cbn [map].
    replace (w ++ k ++ spaces i ++ lit ":" ++ wv ++ s ++ w' ++ lit "," ++ r)
      with (w ++ (k ++ spaces i ++ lit ":" ++ wv ++ s) ++ w' ++ lit "," ++ r)
      by (rewrite <- !app_assoc; reflexivity).
    apply listed_cons; [exact Hw| |exact Hw'|exact Hr]. now apply item_pair.
Qed.

(** ---- values on one line ---- *)

Lemma stop_inert i x : stop x -> inert ut (indent i ++ x).
Proof.
  intros Hx c r E. destruct i as [|i]; cbn [indent repeat_char app] in E.
  - destruct Hx as [->|[(r' & ->)|(r' & ->)]]; inversion E; subst; repeat split; try discriminate;
      apply punct_not_name; reflexivity.
  - inversion E; subst. repeat split; try discriminate; apply punct_not_name; reflexivity.
Qed.
Lemma stop_zs x : stop x -> no_zs x.
Proof. intros [->|[(r & ->)|(r & ->)]]; [exact I|reflexivity|reflexivity]. Qed.

Lemma text_no_hash_pad s i x k : block_text ut s -> stop x -> fails (R_ y_hash_element) (s ++ indent i ++ x) k.
Proof.
  intros ((c & r & Es & Hzs & Hc) & Hl & Hh & Hsp & (Hc1 & Hc2) & _) Hz.
  apply fails_rule. cbn [yaml_grammar snd].
  assert (D : name_char ut c \/ ~ name_char ut c).
  { unfold name_char. destruct (is_letter ut c); [left; tauto|]. destruct (is_number ut c); [left; tauto|].
    destruct (N.eq_dec c (chr "_")); [left; tauto|]. right. intuition congruence. }
  destruct D as [D|D].
  2:{ subst s. apply fails_seq1. cbn [app]. apply fails_rule. cbn [yaml_grammar snd]. apply fails_seq1.
      apply (fails_name ut). intros d r' E. inversion E; subst. exact D. }
  destruct (key_prefix ut r) as (u & w & Er & Hu & Hw).
  destruct w as [|d w].
  - rewrite app_nil_r in Er. subst r. eapply fails_seq2.
    { subst s. cbn [app]. rewrite app_assoc. apply gets_key_any; [exact D| |].
      - intros d Hd. apply in_app_or in Hd as [Hd|Hd]; [auto|]. apply indent_in in Hd. subst. right. now right.
      - intros d r E. destruct Hz as [->|[(r' & ->)|(r' & ->)]]; inversion E; subst; now apply punct_not_key. }
    apply fails_seq1. destruct Hz as [->|[(r' & ->)|(r' & ->)]]; scanc.
  - eapply fails_seq2.
    { subst s r. cbn [app]. rewrite <- app_assoc. apply gets_key_any; [exact D|exact Hu|].
      intros d' r E. cbn [app] in E. inversion E; subst. now apply (Hw d' w). }
    cbn [app].
    destruct (N.eq_dec d (chr ":")) as [-> | Hne].
    2:{ apply fails_seq1. apply (fails_c1 ut (chr ":")). congruence. }
    eapply fails_seq0; [exact (eats_str ut (lit ":") _ k)|].
    destruct w as [|b w].
    { exfalso. apply (Hc1 (c :: u)). now rewrite Es, Er. }
    assert (Hb : is_zs b = false).
    { destruct (is_zs b) eqn:Eb; [|reflexivity]. exfalso. apply (Hc2 b Eb).
      exists (c :: u), w. now rewrite Es, Er. }
    assert (Hbn : b <> NL /\ b <> CR).
    { apply (one_line_at s (c :: u ++ [chr ":"]) b w Hl). rewrite Es, Er. cbn [app]. now rewrite <- app_assoc. }
    apply fails_seq1, fails_alt.
    + apply fails_zsp. exact Hb.
    + apply (fails_blanknl ut 0). cbn. tauto.
Qed.
Lemma text_no_array_pad s x k : block_text ut s -> fails (R_ y_block_array_element) (s ++ x) k.
Proof.
  intros ((c & r & -> & Hzs & Hc) & Hl & Hh & Hsp & _ & (Hm1 & Hm2)).
  apply fails_rule. cbn [yaml_grammar snd app].
  destruct (N.eq_dec c (chr "-")) as [-> | Hne].
  2:{ apply fails_seq1. apply (fails_c1 ut (chr "-")). congruence. }
  eapply fails_seq0; [exact (eats_str ut (lit "-") _ k)|]. apply fails_seq1, fails_zsp.
  destruct r as [|b r]; [now destruct Hm1|]. cbn.
  destruct (is_zs b) eqn:Eb; [|reflexivity]. destruct (Hm2 _ _ _ eq_refl) as [_ Hm]. now destruct Hm.
Qed.
Lemma text_no_mark_pad (m : string) s z k : block_text ut s -> inert ut z -> (m = "*" \/ m = "&")%string ->
  fails (yl m ~~ R_ y_alias_name)%peg (s ++ z) k.
Proof.
  intros ((c & r & -> & Hzs & Hc) & Hl & Hh & Hsp & _ & (Hm1 & Hm2)) Hz Hm.
  cbn [app]. assert (Em : lit m = [chr m]) by (destruct Hm as [-> | ->]; reflexivity).
  unfold yl. rewrite Em. destruct (N.eq_dec c (chr m)) as [-> | Hne].
  2:{ apply fails_seq1. apply (fails_c1 ut (chr m)). congruence. }
  eapply fails_seq0; [apply eats_c1|]. apply fails_rule, fails_seq1. apply (fails_name ut). intros d r' E Hd.
  destruct r as [|b r].
  - destruct (Hz d r' E) as [Hn _]. now apply Hn.
  - inversion E; subst. destruct (Hm2 _ _ _ eq_refl) as [Hn _]. apply Hn.
    split; [|exact Hd]. destruct Hm as [-> | ->]; auto.
Qed.

Record line_facts (y : yaml) (s : str) : Prop := {
  lf_solid : forall z, solid (s ++ z);
  lf_hash : forall i x k, stop x -> fails (R_ y_hash_element) (s ++ indent i ++ x) k;
  lf_array : forall i x k, stop x -> fails (R_ y_block_array_element) (s ++ indent i ++ x) k;
  lf_alias : forall i x k, stop x -> fails (R_ y_alias) (s ++ indent i ++ x) k;
  lf_value : forall i x, stop x -> exists i', forall k,
    gets (R_ y_yaml_value) (s ++ indent i ++ x) k [(y_yaml_value, VYaml y)] (indent i' ++ x) k }.

Lemma sign_facts y s d : (exists u, s = d :: u) -> In d (lit "[{*'" ++ [DQUOTE]) ->
  (forall i x, stop x -> exists i', forall k,
    gets (R_ y_yaml_value) (s ++ indent i ++ x) k [(y_yaml_value, VYaml y)] (indent i' ++ x) k) -> line_facts y s.
Proof.
  intros (u & Eu) Hd Hv.
  assert (Hd' : d = chr "[" \/ d = chr "{" \/ d = chr "*" \/ d = QUOTE \/ d = DQUOTE)
    by (vm_compute in Hd |- *; intuition congruence).
  split; try assumption; rewrite Eu; cbn [app].
  - intros z. cbn. decompose [or] Hd'; subst; repeat split; discriminate.
  - intros i x k _. decompose [or] Hd'; subst; scanc.
  - intros i x k _. decompose [or] Hd'; subst; scanc.
  - intros i x k _. decompose [or] Hd'; subst; scanc.
Qed.

Lemma array_facts y s : (exists u, s = chr "[" :: u) ->
  (forall z k, gets (R_ y_inline_array) (s ++ z) k [(y_inline_array, VYaml y)] z k) -> line_facts y s.
Proof.
  intros Eu H. apply (sign_facts _ _ (chr "[")); [exact Eu|vm_compute; tauto|].
  intros i x _. exists i. intros k. destruct Eu as (u & Eu).
  eapply gets_rule with (vs := [(y_array, VYaml y)]); [reflexivity| |reflexivity].
  cbn [yaml_grammar snd]. apply gets_alt2; [rewrite Eu; scanc|]. apply gets_alt1.
  eapply gets_rule; [reflexivity|cbn [yaml_grammar snd]; apply gets_alt1, H|reflexivity].
Qed.
Lemma hash_facts y s : (exists u, s = chr "{" :: u) ->
  (forall z k, gets (R_ y_inline_hash) (s ++ z) k [(y_inline_hash, VYaml y)] z k) -> line_facts y s.
Proof.
  intros Eu H. apply (sign_facts _ _ (chr "{")); [exact Eu|vm_compute; tauto|].
  intros i x _. exists i. intros k. destruct Eu as (u & Eu).
  eapply gets_via_inline_value; [rewrite Eu; scanc| rewrite Eu; scanc| rewrite Eu; scanc| rewrite Eu; scanc| |].
  - eapply gets_rule; [reflexivity| |].
    + cbn [yaml_grammar snd]. apply gets_alt2; [rewrite Eu; scanc|]. apply gets_alt2; [rewrite Eu; scanc|].
      apply gets_alt1, H.
    + reflexivity.
  - reflexivity.
Qed.

Lemma line_facts_ok y s : line_value ut y s -> line_facts y s.
Proof.
  intros H.
  assert (Hb : (exists u, y = Unquoted u) \/ ((forall u, y <> Unquoted u) /\ flow ut y s)).
  { destruct y; cbn [line_value] in H; try (right; split; [intros u' E; discriminate|exact H]). left. eauto. }
  destruct Hb as [(u0 & ->)|[Hne Hf]].
  - destruct H as [H E0]. subst u0. pose proof H as ((c & u & Es & Hzs & Hc) & Hl & Hh & _).
    destruct (one_line_at s [] c u Hl Es) as [Hn1 Hn2].
    assert (Hns : forall z, solid (s ++ z)) by (intros z; subst s; cbn; tauto).
    assert (Hnc : forall z, not_comment (s ++ z)).
    { intros z r E. subst s. cbn [app] in E. inversion E; subst. apply Hh. now left. }
    assert (Hsign : forall d e z k, In d (lit "[]{}'>|" ++ [DQUOTE]) -> fails (yc d ~~ e)%peg (s ++ z) k).
    { intros d e z k Hd. subst s. cbn [app]. apply fails_seq1, fails_c1. intros <-. now apply Hc. }
    split.
    + exact Hns.
    + intros i x k Hz. now apply text_no_hash_pad.
    + intros i x k Hz. now apply text_no_array_pad.
    + intros i x k Hz. apply fails_rule. cbn [yaml_grammar snd].
      apply text_no_mark_pad; [exact H|now apply stop_inert|auto].
    + intros i x Hz. exists 0. cbn [indent repeat_char app]. intros k. eapply gets_via_inline_value.
      * apply fails_hash0; [apply Hns|apply Hnc|]. intros k'. now apply text_no_hash_pad.
      * apply fails_rule. cbn [yaml_grammar snd]. apply fails_alt.
        -- apply fails_rule. cbn [yaml_grammar snd]. apply (Hsign (chr "[")). vm_compute. tauto.
        -- apply fails_block_array; [apply Hns|apply Hnc|]. intros k'. now apply text_no_array_pad.
      * apply fails_rule. cbn [yaml_grammar snd]. apply (Hsign (chr "|")). vm_compute. tauto.
      * apply fails_rule. cbn [yaml_grammar snd]. apply (Hsign (chr ">")). vm_compute. tauto.
      * eapply gets_rule; [reflexivity| |].
        -- cbn [yaml_grammar snd]. apply gets_alt2.
           { apply fails_rule. cbn [yaml_grammar snd].
             apply text_no_mark_pad; [exact H|now apply stop_inert|auto]. }
           apply gets_alt2.
           { apply fails_rule. cbn [yaml_grammar snd]. apply (Hsign (chr "[")). vm_compute. tauto. }
           apply gets_alt2.
           { apply fails_rule. cbn [yaml_grammar snd]. apply (Hsign (chr "{")). vm_compute. tauto. }
           eapply gets_rule; [reflexivity|cbn [yaml_grammar snd]; apply gets_alt1, gets_unquoted_pad; assumption|reflexivity].
        -- reflexivity.
      * reflexivity.
  - destruct flow_reads as (_ & RI & RP). clear H.
    destruct Hf as [s H|ps H|ps H|a H|w H|l s H|w H|l s H].
    + now destruct (Hne s).
    + apply (sign_facts _ _ QUOTE); [now eexists|vm_compute; tauto|].
      intros i x Hx. exists 0. intros k. cbn [app]. rewrite <- app_assoc. cbn [app].
      eapply gets_via_inline_value; [scanc|scanc|scanc|scanc| |].
      * eapply gets_rule; [reflexivity| |].
        -- cbn [yaml_grammar snd]. do 3 (apply gets_alt2; [scanc|]).
           eapply gets_rule; [reflexivity| |].
           ++ cbn [yaml_grammar snd]. apply gets_alt2.
              { eapply fails_unq. eapply RRule. cbn [yaml_grammar snd].
                do 6 (apply eats_alt2; [scanc|]). apply eats_alt1. exact (eats_str ut (lit "'") _ k). }
              apply gets_alt2; [scanc|]. apply gets_single_pad; [exact H|now apply stop_inert|now apply stop_zs].
           ++ reflexivity.
        -- reflexivity.
      * reflexivity.
    + apply (sign_facts _ _ DQUOTE); [now eexists|vm_compute; tauto|].
      intros i x Hx. exists 0. intros k. cbn [app]. rewrite <- app_assoc. cbn [app].
      eapply gets_via_inline_value; [scanc|scanc|scanc|scanc| |].
      * eapply gets_rule; [reflexivity| |].
        -- cbn [yaml_grammar snd]. do 3 (apply gets_alt2; [scanc|]).
           eapply gets_rule; [reflexivity| |].
           ++ cbn [yaml_grammar snd]. apply gets_alt2.
              { eapply fails_unq. eapply RRule. cbn [yaml_grammar snd].
                do 5 (apply eats_alt2; [scanc|]). apply eats_alt1, eats_c1. }
              apply gets_alt1. apply gets_double_pad; [exact H|now apply stop_zs].
           ++ reflexivity.
        -- reflexivity.
      * reflexivity.
    + apply (sign_facts _ _ (chr "*")); [now eexists|vm_compute; tauto|].
      intros i x Hx. exists i. intros k. rewrite <- app_assoc. change (lit "*" ++ ?x) with (chr "*" :: x).
      eapply gets_via_inline_value; [scanc|scanc|scanc|scanc| |].
      * eapply gets_rule; [reflexivity|cbn [yaml_grammar snd]; apply gets_alt1, gets_anchor|];
          [exact H|now apply stop_inert|reflexivity].
      * reflexivity.
    + apply array_facts; [eexists; reflexivity|]. intros z k. now apply gets_array_empty.
    + apply array_facts; [eexists; reflexivity|]. intros z k. apply gets_array_listed. now apply RI.
    + apply hash_facts; [eexists; reflexivity|]. intros z k. now apply gets_hash_empty.
    + apply hash_facts; [eexists; reflexivity|]. intros z k. apply gets_hash_listed. now apply RP.
Qed.

(** An inline sequence by itself. *)
Lemma gets_flow_array l s z k : flow ut (InlineArray l) s ->
  gets (R_ y_inline_array) (s ++ z) k [(y_inline_array, VYaml (InlineArray l))] z k
  /\ exists u, s = chr "[" :: u.
Proof.
  intros H. destruct flow_reads as (_ & RI & _).
  inversion H as [| | | |w Hw|l' s' Hl| |]; subst; (split; [|eexists; reflexivity]).
  - now apply gets_array_empty.
  - apply gets_array_listed. now apply RI.
Qed.

End Flow.
