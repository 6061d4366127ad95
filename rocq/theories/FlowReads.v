(** What the grammar reads from inline collections in every layout it accepts. *)
From Coq Require Import ZArith.
From Verif Require Import Base Ast Num Strings Peg PegFacts YamlGrammar Consume Format Spec_Parse YamlTree
  Spec_Format Reads FormatText FormatScalars FormatFlow FormatBlock ParsedNeat Spec_Layout LayoutText Spec_Flow FlowText FlowText2.
From Verif Require LayoutFlow.
Import ListNotations.

Scheme item_mut := Minimality for item Sort Prop
  with row_mut := Minimality for row Sort Prop
  with pairs_mut' := Minimality for pairs Sort Prop.
Combined Scheme item_all from item_mut, row_mut, pairs_mut'.

Section FlowReads.
Context (ut : unitab).
Notation G := (yaml_grammar ut).
Notation gets := (gets ut).
Notation eats := (eats ut).
Notation fails := (fails ut).
Notation closing := LayoutFlow.itail1.
Notation more := LayoutFlow.more.
Notation vitem := (fun y : yaml => (y_inline_array_value, VYaml y)).
Notation vpair := (fun kv : str * yaml => (y_inline_hash_element, VPair (fst kv) (snd kv))).

(** The spaces at the start. *)
Lemma loose_split w z : loose w -> closing z ->
  exists i w', w = indent i ++ w' /\ loose w' /\ no_zs (w' ++ z)
    /\ (closing (w' ++ z) \/ exists c r, w' ++ z = c :: r /\ (c = NL \/ c = CR)).
Proof.
  intros Hw Hz. induction w as [|d w IH].
  - exists 0, []. split; [reflexivity|]. split; [exact Hw|]. split; [now apply LayoutFlow.itail1_zs|now left].
  - destruct (Hw d (or_introl eq_refl)) as [-> | HH].
    + destruct (IH (loose_tail _ _ Hw)) as (i & w' & E & H). exists (S i), w'. split; [|exact H].
      cbn [app indent repeat_char]. now rewrite E.
    + exists 0, (d :: w). split; [reflexivity|]. split; [exact Hw|]. split.
      * destruct HH as [-> | ->]; reflexivity.
      * right. exists d, (w ++ z). auto.
Qed.
Lemma loose_inert w z : loose w -> closing z -> inert ut (w ++ z).
Proof.
  intros Hw Hz c r E. destruct w as [|d w]; cbn [app] in E.
  - destruct Hz as (c' & r' & -> & [->|[->| ->]]); inversion E; subst; repeat split; try discriminate;
      apply punct_not_name; reflexivity.
  - inversion E; subst. destruct (Hw c (or_introl eq_refl)) as [->|[->| ->]]; repeat split; try discriminate;
      apply punct_not_name; reflexivity.
Qed.

Lemma plain_colon u w z a d b : ~ has_pair (chr ":") SP (u ++ w) -> closing z ->
  u = a ++ d :: b -> d = chr ":" -> forall r, b ++ w ++ z <> SP :: r.
Proof.
  intros Hp Hz -> -> r E. rewrite app_assoc in E. destruct (b ++ w) as [|x v] eqn:Eb.
  - destruct Hz as (c & r' & -> & [->|[->| ->]]); discriminate E.
  - inversion E; subst. apply Hp. exists a, v. rewrite <- app_assoc. cbn [app]. now rewrite Eb.
Qed.

Lemma gets_plain u w z k : plain_item ut u w -> loose w -> closing z ->
  forall i w', w = indent i ++ w' ->
  closing (w' ++ z) \/ (exists c r, w' ++ z = c :: r /\ (c = NL \/ c = CR)) ->
  gets (R_ y_unquoted_inline_string) (u ++ w ++ z) k [(y_unquoted_inline_string, VYaml (Unquoted u))] (w' ++ z) k.
Proof.
  intros ((c & r & Eu & Hc & Hr) & Hl & Hsp & Hp & _) Hw Hz i w' Ew Hx.
  assert (Hcol : forall a d b, u = a ++ d :: b -> d = chr ":" -> forall x, b ++ w ++ z <> SP :: x)
    by (intros a d b; now apply plain_colon).
  rewrite Ew in Hcol |- *. rewrite <- (trim_pad u i Hsp) at 2. rewrite <- app_assoc, (app_assoc u).
  subst u. cbn [app].
  eapply gets_unq; try reflexivity.
  - destruct (one_line_at _ [] c r Hl eq_refl). apply fails_dis_inline_start; try assumption.
    + intros HH. apply Hc. clear - HH. cbn [lit app In] in *. tauto.
    + intros E. rewrite <- app_assoc. intros x. pose proof (Hcol [] c r eq_refl E x) as A. now rewrite <- app_assoc in A.
  - intros a d b E. apply LayoutFlow.app_split in E as [(b' & -> & ->)|(a' & E)].
    + destruct (one_line_at _ (c :: a) d b' Hl eq_refl). apply fails_dis_inline; try assumption.
      * apply Hr. apply in_or_app. right. now left.
      * intros E x. rewrite <- app_assoc. pose proof (Hcol (c :: a) d b' eq_refl E x) as A. now rewrite <- app_assoc in A.
    + assert (d = SP) by (apply (indent_in i); rewrite E; apply in_or_app; right; now left). subst d.
      apply fails_dis_inline; try discriminate.
      intros H. vm_compute in H. repeat destruct H as [H|H]; try discriminate; exact H.
  - destruct Hx as [(d & x & -> & [->|[->| ->]])|(d & x & -> & [->| ->])].
    + eapply stop_at. eapply RRule. cbn [yaml_grammar snd].
      apply eats_alt1. exact (eats_str ut (lit ",") x k).
    + eapply stop_at. eapply RRule. cbn [yaml_grammar snd].
      apply eats_alt2; [scanc|]. apply eats_alt2; [scanc|].
      apply eats_alt1. exact (eats_str ut (lit "]") x k).
    + eapply stop_at. eapply RRule. cbn [yaml_grammar snd].
      apply eats_alt2; [scanc|]. apply eats_alt2; [scanc|]. apply eats_alt2; [scanc|].
      apply eats_alt2; [scanc|]. apply eats_alt1. exact (eats_str ut (lit "}") x k).
    + eapply stop_at. eapply RRule. cbn [yaml_grammar snd].
      repeat (apply eats_alt2; [scanc|]). apply eats_nl.
    + destruct (list_eq_dec N.eq_dec (firstn 1 x) [NL]) as [E|E].
      * destruct x as [|d x]; [discriminate|]. inversion E; subst.
        eapply stop_at. eapply RRule. cbn [yaml_grammar snd].
        do 10 (apply eats_alt2; [scanc|]). apply eats_crnl.
      * eapply stop_at. eapply RRule. cbn [yaml_grammar snd].
        do 10 (apply eats_alt2; [scanc|]). apply eats_cr. intros r' ->. now apply E.
Qed.

Lemma eats_seps z s k : seps z -> no_zs s -> eats y_zss (z ++ s) k z s k.
Proof. exact (eats_zss ut z s k). Qed.
Lemma seps_quote z w x : seps z -> loose w -> closing x -> forall r, z ++ w ++ x <> QUOTE :: r.
Proof.
  intros Hz Hw Hx r E. destruct z as [|c z]; cbn [app] in E.
  - destruct (loose_inert w x Hw Hx _ _ E) as (_ & A & _). congruence.
  - inversion E; subst. specialize (Hz _ (or_introl eq_refl)). discriminate.
Qed.

Lemma gets_single_seps ps z x k : sq_canon ps -> seps z -> no_zs x -> (forall r, z ++ x <> QUOTE :: r) ->
  gets (R_ y_single_quoted) (QUOTE :: flat_map sq_text ps ++ QUOTE :: z ++ x) k
    [(y_single_quoted, VYaml (SingleQ ps))] x k.
Proof.
  intros Hp Hz Hx Hq. eapply gets_rule; [reflexivity| |].
  - cbn [yaml_grammar snd]. eapply gets_seq0; [apply eats_push, eats_c1|].
    eapply gets_seq.
    + eapply gets_rule; [reflexivity|apply gets_sq_parts; [exact Hp|exact Hq]|].
      intros t _. cbn [yact]. unfold vsq. rewrite (many_map _ _ (fun c => c)) by reflexivity.
      rewrite map_id. reflexivity.
    + eapply gets_seq0; [exact (eats_pop ut [QUOTE] _ k)|].
      eapply eats_gets, eats_seps; assumption.
    + reflexivity.
  - reflexivity.
Qed.
Lemma gets_double_seps ps z x k : dq_canon ps -> seps z -> no_zs x ->
  gets (R_ y_double_quoted) (DQUOTE :: flat_map dq_text ps ++ DQUOTE :: z ++ x) k
    [(y_double_quoted, VYaml (DoubleQ ps))] x k.
Proof.
  intros Hp Hz Hx. eapply gets_rule; [reflexivity| |].
  - cbn [yaml_grammar snd]. eapply gets_seq0; [apply eats_push, eats_c1|].
    eapply gets_seq.
    + eapply gets_rule; [reflexivity|apply gets_dq_parts, Hp|].
      intros t _. cbn [yact]. unfold vdq. rewrite (many_map _ _ (fun c => c)) by reflexivity.
      rewrite map_id. reflexivity.
    + eapply gets_seq0; [exact (eats_pop ut [DQUOTE] _ k)|].
      eapply eats_gets, eats_seps; assumption.
    + reflexivity.
  - reflexivity.
Qed.

(** ---- items ---- *)

Definition reads (e : yexp) (v : yrule * yval) (s : str) : Prop :=
  (forall z, firm (s ++ z)) /\
  (forall z, closing z -> exists w', loose w' /\ forall k, gets e (s ++ z) k [v] (w' ++ z) k).

Lemma seps_indent z i : seps z -> seps (z ++ indent i).
Proof.
  intros H c Hc. apply in_app_or in Hc as [Hc|Hc]; [now apply H|]. apply indent_in in Hc. now subst.
Qed.

Lemma reads_text u w : plain_item ut u w -> loose w -> reads (R_ y_inline_array_value) (vitem (Unquoted u)) (u ++ w).
Proof.
  intros H Hw. pose proof H as ((c & r & Eu & Hc & Hr) & Hl & _ & _ & Hm). split.
  { intros z. destruct (one_line_at _ [] c r Hl Eu). rewrite Eu. cbn [app]. apply firm_cons; [|assumption|assumption].
    intros ->. apply Hc. vm_compute. tauto. }
  intros z Hz. destruct (loose_split w z Hw Hz) as (i & w' & E & Hw' & Hzs & Ht). exists w'. split; [exact Hw'|]. intros k.
  pose proof (loose_inert w z Hw Hz) as Hin.
  assert (NC : forall x, In x (lit ",[]{}'# " ++ [DQUOTE]) -> x <> c) by (intros x Hx ->; now apply Hc).
  eapply gets_rule; [reflexivity| |].
  + cbn [yaml_grammar snd]. rewrite <- app_assoc. apply gets_alt2.
    { apply fails_rule. cbn [yaml_grammar snd]. rewrite Eu. cbn [app].
      destruct (N.eq_dec c (chr "*")) as [-> | Hne].
      - eapply fails_seq0; [exact (eats_str ut (lit "*") _ k)|]. apply fails_rule, fails_seq1.
        apply (fails_name ut). intros d r' E'. destruct r as [|b r].
        + apply (Hin d r' E').
        + inversion E'; subst. now apply (Hm d r).
      - apply fails_seq1, (fails_c1 ut (chr "*")). congruence. }
    apply gets_alt2.
    { apply fails_rule. cbn [yaml_grammar snd]. rewrite Eu. cbn [app].
      apply fails_seq1, (fails_c1 ut (chr "[")). apply NC. vm_compute; tauto. }
    apply gets_alt2.
    { apply fails_rule. cbn [yaml_grammar snd]. rewrite Eu. cbn [app].
      apply fails_seq1, (fails_c1 ut (chr "{")). apply NC. vm_compute; tauto. }
    eapply gets_rule; [reflexivity|cbn [yaml_grammar snd]; apply gets_alt1; exact (gets_plain u w z k H Hw Hz i w' E Ht)|reflexivity].
  + reflexivity.
Qed.

Lemma reads_single ps z0 w : sq_canon ps -> seps z0 -> loose w ->
  reads (R_ y_inline_array_value) (vitem (SingleQ ps)) ([QUOTE] ++ flat_map sq_text ps ++ [QUOTE] ++ z0 ++ w).
Proof.
  intros H Hs Hw. split; [intros z; apply firm_cons; discriminate|]. intros z Hz.
  destruct (loose_split w z Hw Hz) as (i & w' & E & Hw' & Hzs & Ht). exists w'. split; [exact Hw'|]. intros k.
  assert (A : ([QUOTE] ++ flat_map sq_text ps ++ [QUOTE] ++ z0 ++ w) ++ z
              = QUOTE :: flat_map sq_text ps ++ QUOTE :: (z0 ++ indent i) ++ w' ++ z).
  { rewrite E. cbn [app]. f_equal. rewrite <- !app_assoc. cbn [app]. now rewrite <- !app_assoc. }
  rewrite A. eapply gets_rule; [reflexivity| |].
  - cbn [yaml_grammar snd]. apply gets_alt2; [scanc|]. apply gets_alt2; [scanc|]. apply gets_alt2; [scanc|].
    eapply gets_rule; [reflexivity| |].
    + cbn [yaml_grammar snd]. apply gets_alt2.
      { eapply fails_unq_inline. eapply RRule. cbn [yaml_grammar snd].
        do 7 (apply eats_alt2; [scanc|]). apply eats_alt1. exact (eats_str ut (lit "'") _ k). }
      apply gets_alt2; [scanc|]. apply gets_single_seps; [exact H|now apply seps_indent|exact Hzs|].
      intros r. rewrite <- app_assoc, (app_assoc (indent i)), <- E. now apply seps_quote.
    + reflexivity.
  - reflexivity.
Qed.
Lemma reads_double ps z0 w : dq_canon ps -> seps z0 -> loose w ->
  reads (R_ y_inline_array_value) (vitem (DoubleQ ps)) ([DQUOTE] ++ flat_map dq_text ps ++ [DQUOTE] ++ z0 ++ w).
Proof.
  intros H Hs Hw. split; [intros z; apply firm_cons; discriminate|]. intros z Hz.
  destruct (loose_split w z Hw Hz) as (i & w' & E & Hw' & Hzs & Ht). exists w'. split; [exact Hw'|]. intros k.
  assert (A : ([DQUOTE] ++ flat_map dq_text ps ++ [DQUOTE] ++ z0 ++ w) ++ z
              = DQUOTE :: flat_map dq_text ps ++ DQUOTE :: (z0 ++ indent i) ++ w' ++ z).
  { rewrite E. cbn [app]. f_equal. rewrite <- !app_assoc. cbn [app]. now rewrite <- !app_assoc. }
  rewrite A. eapply gets_rule; [reflexivity| |].
  - cbn [yaml_grammar snd]. apply gets_alt2; [scanc|]. apply gets_alt2; [scanc|]. apply gets_alt2; [scanc|].
    eapply gets_rule; [reflexivity| |].
    + cbn [yaml_grammar snd]. apply gets_alt2.
      { eapply fails_unq_inline. eapply RRule. cbn [yaml_grammar snd].
        do 6 (apply eats_alt2; [scanc|]). apply eats_alt1. apply eats_c1. }
      apply gets_alt1. apply gets_double_seps; [exact H|now apply seps_indent|exact Hzs].
    + reflexivity.
  - reflexivity.
Qed.
Lemma reads_ref a w : alias_ok ut a -> loose w -> reads (R_ y_inline_array_value) (vitem (Anchor a)) (lit "*" ++ a ++ w).
Proof.
  intros H Hw. split; [intros z; apply firm_cons; discriminate|]. intros z Hz. exists w. split; [exact Hw|].
  intros k. rewrite <- !app_assoc. change (lit "*" ++ ?x) with (chr "*" :: x).
  eapply gets_rule; [reflexivity|cbn [yaml_grammar snd]; apply gets_alt1, gets_anchor|reflexivity];
    [exact H|now apply loose_inert].
Qed.
Lemma reads_array y s w : (exists u, s = chr "[" :: u) -> loose w ->
  (forall z k, gets (R_ y_inline_array) (s ++ z) k [(y_inline_array, VYaml y)] z k) ->
  reads (R_ y_inline_array_value) (vitem y) (s ++ w).
Proof.
  intros (u & Eu) Hw H. split; [intros z; subst s; apply firm_cons; discriminate|].
  intros z Hz. exists w. split; [exact Hw|]. intros k. rewrite <- app_assoc.
  eapply gets_rule; [reflexivity| |].
  - cbn [yaml_grammar snd]. apply gets_alt2; [subst s; scanc|]. apply gets_alt1, H.
  - reflexivity.
Qed.
Lemma reads_hash y s w : (exists u, s = chr "{" :: u) -> loose w ->
  (forall z k, gets (R_ y_inline_hash) (s ++ z) k [(y_inline_hash, VYaml y)] z k) ->
  reads (R_ y_inline_array_value) (vitem y) (s ++ w).
Proof.
  intros (u & Eu) Hw H. split; [intros z; subst s; apply firm_cons; discriminate|].
  intros z Hz. exists w. split; [exact Hw|]. intros k. rewrite <- app_assoc.
  eapply gets_rule; [reflexivity| |].
  - cbn [yaml_grammar snd]. apply gets_alt2; [subst s; scanc|]. apply gets_alt2; [subst s; scanc|]. apply gets_alt1, H.
  - reflexivity.
Qed.

(** ---- lists of items ---- *)

Definition listed (e : yexp) (vs : list (yrule * yval)) (s : str) : Prop :=
  forall c z, c = chr "]" \/ c = chr "}" ->
    exists v vs' u r0 r w, vs = v :: vs' /\ loose w
      /\ (forall k, eats (R_ y_spaces) (s ++ c :: z) k u r0 k)
      /\ (forall k, gets e r0 k [v] r k)
      /\ (forall k, gets (more e) r k vs' (w ++ c :: z) k).

Lemma listed_one e v w s : loose w -> reads e v s -> listed e [v] (w ++ s).
Proof.
  intros Hw [Hf Hi] c z Hc. pose proof (LayoutFlow.closer_itail c z Hc) as Ht.
  destruct (Hi (c :: z) Ht) as (w1 & Hw1 & G1).
  exists v, [], w, (s ++ c :: z), (w1 ++ c :: z), w1. split; [reflexivity|]. split; [exact Hw1|].
  split; [|split; [exact G1|]]; intros k.
  - rewrite <- !app_assoc. apply eats_loose; [exact Hw|apply Hf].
  - apply gets_star0. eapply fails_seq0; [apply eats_loose; [exact Hw1|now apply LayoutFlow.itail1_firm]|].
    apply fails_seq1, (fails_c1 ut (chr ",")). destruct Hc as [-> | ->]; discriminate.
Qed.
Lemma listed_cons e v vs w s r : loose w -> reads e v s -> listed e vs r ->
  listed e (v :: vs) (w ++ s ++ lit "," ++ r).
Proof.
  intros Hw [Hf Hi] Hr c z Hc.
  assert (Ht : closing (lit "," ++ r ++ c :: z)) by (exists (chr ","), (r ++ c :: z); split; [reflexivity|tauto]).
  destruct (Hi _ Ht) as (w1 & Hw1 & G1).
  destruct (Hr c z Hc) as (v2 & vs2 & u2 & r0 & r2 & w2 & -> & Hw2 & G0 & G2 & G3).
  exists v, (v2 :: vs2), w, (s ++ lit "," ++ r ++ c :: z), (w1 ++ lit "," ++ r ++ c :: z), w2.
  split; [reflexivity|]. split; [exact Hw2|].
  split; [|split; [exact G1|]]; intros k.
  - rewrite <- !app_assoc. apply eats_loose; [exact Hw|apply Hf].
  - eapply gets_star1 with (v1 := [v2]); [|apply G3|reflexivity].
    eapply gets_seq0; [apply eats_loose; [exact Hw1|now apply LayoutFlow.itail1_firm]|].
    eapply gets_seq0; [exact (eats_str ut (lit ",") _ k)|].
    eapply gets_seq0; [apply G0|apply G2].
Qed.
Lemma gets_listed e vs s c z k : c = chr "]" \/ c = chr "}" -> listed e vs s ->
  gets (POpt (R_ y_spaces ~~ e ~~ more e) ~~ R_ y_spaces ~~ yc c)%peg (s ++ c :: z) k vs z k.
Proof.
  intros Hc H. destruct (H c z Hc) as (v & vs' & u & r0 & r & w & -> & Hw & G0 & G1 & G2).
  eapply gets_seq with (v1 := v :: vs') (v2 := []) (s1 := w ++ c :: z) (k1 := k); [apply gets_opt1| |now rewrite app_nil_r].
  - eapply gets_seq0; [apply G0|]. eapply gets_seq; [apply G1|apply G2|reflexivity].
  - eapply gets_seq0; [apply eats_loose; [exact Hw|now apply LayoutFlow.itail1_firm, LayoutFlow.closer_itail]|].
    eapply eats_gets, eats_c1.
Qed.

(** A list that may be empty. *)
Definition covers (e : yexp) (vs : list (yrule * yval)) (s : str) : Prop :=
  (vs = [] /\ loose s) \/ (vs <> [] /\ listed e vs s).

Lemma gets_array_covers l s z k : covers (R_ y_inline_array_value) (map vitem l) s ->
  gets (R_ y_inline_array) ((lit "[" ++ s ++ lit "]") ++ z) k [(y_inline_array, VYaml (InlineArray l))] z k.
Proof.
  intros [[E H]|[_ H]]; rewrite <- !app_assoc.
  - destruct l; [|discriminate]. eapply gets_rule; [reflexivity| |].
    + cbn [yaml_grammar snd]. eapply gets_seq0; [apply eats_str|].
      eapply gets_seq0.
      { apply eats_opt0. eapply fails_seq0; [apply eats_loose; [exact H|apply firm_cons; discriminate]|].
        apply fails_seq1, (no_value_bracket ut). }
      eapply gets_seq0; [apply eats_loose; [exact H|apply firm_cons; discriminate]|].
      eapply eats_gets, eats_str.
    + reflexivity.
  - eapply gets_rule; [reflexivity| |].
    + cbn [yaml_grammar snd]. eapply gets_seq0; [apply eats_str|].
      exact (gets_listed _ _ s (chr "]") z k (or_introl eq_refl) H).
    + intros t _. cbn [yact]. rewrite (many_map _ _ (fun c => c)) by reflexivity. now rewrite map_id.
Qed.
Lemma gets_hash_covers l s z k : covers (R_ y_inline_hash_element) (map vpair l) s ->
  gets (R_ y_inline_hash) ((lit "{" ++ s ++ lit "}") ++ z) k [(y_inline_hash, VYaml (InlineHash l))] z k.
Proof.
  intros [[E H]|[_ H]]; rewrite <- !app_assoc.
  - destruct l; [|discriminate]. eapply gets_rule; [reflexivity| |].
    + cbn [yaml_grammar snd]. eapply gets_seq0; [apply eats_str|].
      eapply gets_seq0.
      { apply eats_opt0. eapply fails_seq0; [apply eats_loose; [exact H|apply firm_cons; discriminate]|].
        apply fails_seq1. scanc. }
      eapply gets_seq0; [apply eats_loose; [exact H|apply firm_cons; discriminate]|].
      eapply eats_gets, eats_str.
    + reflexivity.
  - eapply gets_rule; [reflexivity| |].
    + cbn [yaml_grammar snd]. eapply gets_seq0; [apply eats_str|].
      exact (gets_listed _ _ s (chr "}") z k (or_intror eq_refl) H).
    + intros t _. cbn [yact]. rewrite (many_map _ _ (fun c => c)) by (intros [a b]; reflexivity).
      now rewrite map_id.
Qed.

(** The spaces at the start of white space. *)
Lemma loose_front w : loose w -> exists i w', w = indent i ++ w' /\ loose w'
  /\ forall c r, w' = c :: r -> c = NL \/ c = CR.
Proof.
  intros Hw. induction w as [|d w IH].
  - exists 0, []. split; [reflexivity|]. split; [exact Hw|]. intros c r E. discriminate.
  - destruct (Hw d (or_introl eq_refl)) as [-> | HH].
    + destruct (IH (loose_tail _ _ Hw)) as (i & w' & E & H). exists (S i), w'. split; [|exact H].
      cbn [app indent repeat_char]. now rewrite E.
    + exists 0, (d :: w). split; [reflexivity|]. split; [exact Hw|]. intros c r E. now inversion E; subst.
Qed.

Lemma reads_pair k wk wv v s : plain_key ut k -> loose wk -> loose wv ->
  reads (R_ y_inline_array_value) (vitem v) s ->
  reads (R_ y_inline_hash_element) (vpair (k, v)) (k ++ wk ++ lit ":" ++ wv ++ s).
Proof.
  intros Hk Hwk Hwv [Hf Hv]. split.
  - intros z. destruct Hk as ((c & r & -> & Hn) & _). cbn [app].
    pose proof (name_punct ut c Hn) as Hp.
    apply firm_cons; intros ->; [discriminate (Hp SP eq_refl)|discriminate (Hp NL eq_refl)|discriminate (Hp CR eq_refl)].
  - intros z Hz. destruct (Hv z Hz) as (w' & Hw' & Gr). exists w'. split; [exact Hw'|]. intros k0.
    destruct (loose_front wk Hwk) as (i & w1 & -> & Hw1 & Hb).
    rewrite <- !app_assoc. eapply gets_rule; [reflexivity| |].
    + cbn [yaml_grammar snd]. eapply gets_seq.
      * apply gets_key_pad; [exact Hk|]. intros c r' E [H|[H|H]].
        -- destruct w1 as [|d w1]; cbn [app] in E; inversion E; subst.
           ++ revert H. apply punct_not_name. reflexivity.
           ++ revert H. destruct (Hb c w1 eq_refl) as [-> | ->]; apply punct_not_name; reflexivity.
        -- destruct w1 as [|d w1]; cbn [app] in E; inversion E; subst; [discriminate|].
           destruct (Hb _ w1 eq_refl); discriminate.
        -- destruct w1 as [|d w1]; cbn [app] in E; inversion E; subst; [discriminate|].
           destruct (Hb _ w1 eq_refl); discriminate.
      * eapply gets_seq0; [apply eats_loose; [exact Hw1|apply firm_cons; discriminate]|].
        eapply gets_seq0; [exact (eats_str ut (lit ":") _ k0)|].
        eapply gets_seq0; [apply eats_loose; [exact Hwv|apply Hf]|]. apply Gr.
      * reflexivity.
    + reflexivity.
Qed.

Lemma item_reads :
  (forall y s, item ut y s -> reads (R_ y_inline_array_value) (vitem y) s) /\
  (forall l s, row ut l s -> covers (R_ y_inline_array_value) (map vitem l) s) /\
  (forall l s, pairs ut l s -> covers (R_ y_inline_hash_element) (map vpair l) s).
Proof.
  apply item_all.
  - intros u w. apply reads_text.
  - intros ps z w. apply reads_single.
  - intros ps z w. apply reads_double.
  - intros a w. apply reads_ref.
  - intros l s w _ H Hw. replace (lit "[" ++ s ++ lit "]" ++ w) with ((lit "[" ++ s ++ lit "]") ++ w) by (now rewrite <- !app_assoc).
    apply reads_array; [eexists; reflexivity|exact Hw|]. intros z k. now apply gets_array_covers.
  - intros l s w _ H Hw. replace (lit "{" ++ s ++ lit "}" ++ w) with ((lit "{" ++ s ++ lit "}") ++ w) by (now rewrite <- !app_assoc).
    apply reads_hash; [eexists; reflexivity|exact Hw|]. intros z k. now apply gets_hash_covers.
  - intros w Hw. left. auto.
  - intros w y s Hw _ H. right. split; [discriminate|]. now apply listed_one.
  - intros w y s l r Hw _ H _ Hr Hl. right. split; [discriminate|]. cbn [map].
    apply listed_cons; [exact Hw|exact H|]. destruct Hr as [[E _]|[_ Hr]]; [|exact Hr]. now destruct l.
  - intros w Hw. left. auto.
  - intros w k wk wv v s Hw Hk Hwk Hwv _ H. right. split; [discriminate|]. cbn [map].
    apply listed_one; [exact Hw|]. now apply reads_pair.
  - intros w k wk wv v s l r Hw Hk Hwk Hwv _ H _ Hr Hl. right. split; [discriminate|]. cbn [map].
    replace (w ++ k ++ wk ++ lit ":" ++ wv ++ s ++ lit "," ++ r)
      with (w ++ (k ++ wk ++ lit ":" ++ wv ++ s) ++ lit "," ++ r)
      by (rewrite <- !app_assoc; reflexivity).
    apply listed_cons; [exact Hw|now apply reads_pair|]. destruct Hr as [[E _]|[_ Hr]]; [|exact Hr]. now destruct l.
Qed.

Lemma gets_row l s z k : row ut l s ->
  gets (R_ y_inline_array) (lit "[" ++ s ++ lit "]" ++ z) k [(y_inline_array, VYaml (InlineArray l))] z k.
Proof.
  intros H. destruct item_reads as (_ & R & _). pose proof (gets_array_covers l s z k (R l s H)) as A.
  now rewrite <- !app_assoc in A.
Qed.
End FlowReads.
