(** Files whose collection is written inline: the parser reads exactly the texts of
    [flow_file]. *)
From Coq Require Import ZArith.
From Verif Require Import Base Ast Num Strings Peg PegFacts PegTree YamlGrammar Consume Spec_Parse YamlTree YamlValues
  ParseFacts Spec_Format Reads Gives FormatText FormatScalars FormatFlow ParsedNeat ParsedNeat2 Spec_Layout LayoutText Spec_Flow
  FlowText FlowText2 FlowReads FlowInv.
From Verif Require FormatTree.
Import ListNotations.

Section FlowExact.
Context (ut : unitab).
Notation G := (yaml_grammar ut).
Notation gets := (gets ut).
Notation fails := (fails ut).
Notation gives := (gives ut).

Definition body_exp : yexp := (R_ y_document ~~ tail_exp)%peg.
Lemma yaml_exp : snd (G y_yaml) =
  (R_ y_leading_comments ~~ yl "---" ~~ R_ y_blanknl ~~ R_ y_commentnls ~~ body_exp)%peg.
Proof. reflexivity. Qed.

Lemma bracket_stays c r : c = chr "[" \/ c = chr "{" -> stays (c :: r) /\ no_comment (c :: r).
Proof.
  intros H. split.
  - apply stays_solid. destruct H as [-> | ->]; cbn; repeat split; discriminate.
  - intros x. destruct H as [-> | ->]; cbn; discriminate.
Qed.

Lemma file_read d s : flow_file ut d s -> parse_yaml ut s = CVal d.
Proof.
  intros [cs0 cs l cs1 h b e Hh Hr He]. apply parse_of_gets.
  destruct (bracket_stays (chr "[") (b ++ lit "]" ++ e) (or_introl eq_refl)) as [H1 H2].
  eapply gets_rule; [reflexivity| |].
  - rewrite yaml_exp. apply gets_head; [exact Hh|exact H1|exact H2|].
    eapply gets_seq with (v1 := [(y_document, VYaml (InlineArray l))]); [|apply gets_finish, He|reflexivity].
    eapply gets_rule with (vs := [(y_array, VYaml (InlineArray l))]); [reflexivity| |reflexivity].
    cbn [yaml_grammar snd]. apply gets_alt2; [scanc|].
    eapply gets_rule with (vs := [(y_inline_array, VYaml (InlineArray l))]); [reflexivity| |reflexivity].
    cbn [yaml_grammar snd]. apply gets_alt1. now apply gets_row.
  - intros t _. cbn [yact app]. unfold vcom. rewrite FormatTree.many_vcom. reflexivity.
Qed.

(** The head of an accepted file ends where it should. *)
Lemma head_end cs0 cs h X s k t ns s1 k1 t2 ns2 s2 k2 t3 ns3 s3 k3 t4 ns4 s4 k4 : s = h ++ X ->
  heading cs0 cs h -> stays X -> no_comment X ->
  runs G true (R_ y_leading_comments) s k (Ok t ns s1 k1) -> runs G true (yl "---") s1 k1 (Ok t2 ns2 s2 k2) ->
  runs G true (R_ y_blanknl) s2 k2 (Ok t3 ns3 s3 k3) -> runs G true (R_ y_commentnls) s3 k3 (Ok t4 ns4 s4 k4) ->
  s4 = X /\ k4 = k.
Proof.
  intros -> Hh H1 H2 A B C D.
  destruct (gets_head ut cs0 cs h X k Hh H1 H2 (PStr []) [] X k) as (t' & ns' & R & _).
  { eapply eats_gets. exact (eats_str ut [] X k). }
  assert (R' : runs G true (R_ y_leading_comments ~~ yl "---" ~~ R_ y_blanknl ~~ R_ y_commentnls ~~ PStr [])%peg (h ++ X) k
    (Ok (t ++ t2 ++ t3 ++ t4 ++ []) (ns ++ ns2 ++ ns3 ++ ns4 ++ []) s4 k4)).
  { eapply Peg.RSeq; [exact A|]. eapply Peg.RSeq; [exact B|]. eapply Peg.RSeq; [exact C|]. eapply Peg.RSeq; [exact D|].
    now apply RStr. }
  pose proof (runs_det G _ _ _ _ _ _ R R') as E. inversion E; subst. auto.
Qed.

Lemma body_run cs0 cs h X t ns rest k' : heading cs0 cs h -> stays X -> no_comment X ->
  runs G true (R_ y_yaml) (h ++ X) [] (Ok t ns rest k') ->
  exists t1 ns1, runs G true body_exp X [] (Ok t1 ns1 rest k').
Proof.
  intros Hh H1 H2 H. apply rule_ok_inv in H as (ns0 & H). rewrite yaml_exp in H. cbn [fst yaml_grammar emit_in] in H.
  apply seq_ok_inv in H as (ta & na & sa & ka & tb & nb & -> & -> & A & H).
  apply seq_ok_inv in H as (tc & nc & sc & kc & td & nd & -> & -> & B & H).
  apply seq_ok_inv in H as (te & ne & se & ke & tf & nf & -> & -> & C & H).
  apply seq_ok_inv in H as (tg & ng & sg & kg & th & nh & -> & -> & D & H).
  destruct (head_end cs0 cs h X _ _ _ _ _ _ _ _ _ _ _ _ _ _ _ _ _ _ eq_refl Hh H1 H2 A B C D) as [-> ->]. eauto.
Qed.

(** What the file is when the rule for inline sequences is the one that matches. *)
Lemma file_of cs0 cs h X t ns rest k t1 ns1 rest1 k1 : heading cs0 cs h ->
  runs G true (R_ y_inline_array) X [] (Ok t ns rest k) ->
  runs G true tail_exp rest k (Ok t1 ns1 rest1 k1) ->
  exists l cs1, flow_file ut (mkDoc cs0 (map DComment cs ++ DYaml (InlineArray l) :: map DComment cs1)) (h ++ X).
Proof.
  intros Hh A B. apply row_inv in A as (l & r & Hr & ->). apply tail_inv in B as (cs1 & He).
  exists l, cs1. now constructor.
Qed.

Lemma bracket_doc r k t ns rest k' :
  runs G true (R_ y_document) (chr "[" :: r) k (Ok t ns rest k') ->
  exists t' ns', runs G true (R_ y_inline_array) (chr "[" :: r) k (Ok t' ns' rest k').
Proof.
  intros H. apply rule_ok_inv in H as (ns0 & H). cbn [fst snd yaml_grammar emit_in] in H. inversion H; subst; clear H.
  - exfalso. match goal with X : runs _ _ _ _ _ _ |- _ =>
      assert (F : fails (R_ y_hash) (chr "[" :: r) k) by scanc; pose proof (runs_det G _ _ _ _ _ _ X (F _)); discriminate end.
  - match goal with X : runs _ _ (R_ y_array) _ _ _ |- _ => apply rule_ok_inv in X as (ns1 & H) end.
    cbn [fst snd yaml_grammar emit_in] in H. inversion H; subst; clear H; [eauto|].
    exfalso. match goal with X : runs _ _ (R_ y_block_array) _ _ _ |- _ =>
      assert (F : fails (R_ y_block_array) (chr "[" :: r) k) by scanc; pose proof (runs_det G _ _ _ _ _ _ X (F _)); discriminate end.
Qed.

Lemma bracket_file cs0 cs h r : heading cs0 cs h ->
  parse_yaml ut (h ++ lit "[" ++ r) = CErr \/
  exists l cs1, flow_file ut (mkDoc cs0 (map DComment cs ++ DYaml (InlineArray l) :: map DComment cs1)) (h ++ lit "[" ++ r).
Proof.
  intros Hh. destruct (bracket_stays (chr "[") r (or_introl eq_refl)) as [H1 H2].
  destruct (yaml_total ut (h ++ lit "[" ++ r)) as (x & E & Hr). destruct x as [t ns rest k| |].
  - right. apply (body_run cs0 cs h (chr "[" :: r) t ns rest k Hh H1 H2) in Hr as (t1 & ns1 & Hb).
    apply seq_ok_inv in Hb as (t2 & n2 & s2 & k2 & t3 & n3 & -> & -> & A & B).
    apply bracket_doc in A as (t' & ns' & A). eapply file_of; [exact Hh|exact A|exact B].
  - left. now apply parse_rejected.
  - exfalso. now destruct (stack_safe ut _ _ Hr).
Qed.

Lemma brace_file cs0 cs h r : heading cs0 cs h -> parse_yaml ut (h ++ lit "{" ++ r) = CErr.
Proof.
  intros Hh. destruct (bracket_stays (chr "{") r (or_intror eq_refl)) as [H1 H2].
  apply parse_rejected. assert (F : fails (R_ y_yaml) (h ++ lit "{" ++ r) []); [|apply F].
  apply fails_rule. rewrite yaml_exp. apply (fails_head ut cs0 cs h (chr "{" :: r) [] Hh H1 H2).
  apply fails_seq1. scanc.
Qed.

Lemma body_nil k t ns rest k' : ~ runs G true body_exp [] k (Ok t ns rest k').
Proof.
  intros H. apply seq_ok_inv in H as (t1 & n1 & s1 & k1 & t2 & n2 & -> & -> & A & _).
  assert (F : fails (R_ y_document) [] k) by scanc. pose proof (runs_det G _ _ _ _ _ _ A (F _)). discriminate.
Qed.

Ltac gseq H v A :=
  let m := fresh "m" in let L := fresh "L" in let s := fresh "s" in let k := fresh "k" in
  let w := fresh "w" in
  apply g_seq in H as (m & v & s & k & w & L & A & H & ->).
Ltac gquiet H :=
  match type of H with Gives.gives _ _ _ _ _ ?v _ _ =>
    assert (v = []) as -> by (eapply (g_quiet ut); [|exact H]; reflexivity) end; clear H.

Lemma doc_inline n s k vs rest k' : gives n (R_ y_document) s k vs rest k' -> forall l, vs = [(y_document, VYaml (InlineArray l))] ->
  exists t ns, runs G true (R_ y_inline_array) s k (Ok t ns rest k').
Proof.
  intros H l ->. apply g_rule in H as (m & t & cvs & v & L & H & _ & Y & E'); [|reflexivity]. inversion E'; subst v. clear E'.
  cbn [snd yaml_grammar] in H. apply g_alt in H as (m1 & _ & [H|[_ H]]).
  - exfalso. apply g_rule in H as (m2 & t2 & cv2 & v2 & _ & _ & _ & Y2 & ->); [|reflexivity].
    cbn in Y. destruct v2 as []; try discriminate. inversion Y; subst. clear - Y2. cbn in Y2.
    repeat match type of Y2 with context [match ?x with _ => _ end] => destruct x; try discriminate end.
  - apply g_rule in H as (m2 & t2 & cv2 & v2 & _ & H & _ & Y2 & ->); [|reflexivity].
    cbn in Y. destruct v2 as []; try discriminate. inversion Y; subst.
    cbn [snd yaml_grammar] in H. apply g_alt in H as (m3 & _ & [H|[_ H]]).
    + apply gives_runs in H as (t3 & ns3 & H & _). eauto.
    + exfalso. apply g_rule in H as (m4 & t4 & cv4 & v4 & _ & _ & _ & Y4 & ->); [|reflexivity].
      cbn in Y2. destruct v4 as []; try discriminate. inversion Y2; subst. clear - Y4. cbn in Y4.
      repeat match type of Y4 with context [match ?x with _ => _ end] => destruct x; try discriminate end.
Qed.

Lemma comments_inj a b : map DComment a = map DComment b -> a = b.
Proof.
  revert b. induction a as [|x a IH]; intros [|y b] E; try discriminate; [reflexivity|].
  inversion E; subst. f_equal. now apply IH.
Qed.

Lemma file_only cs0 cs l cs1 s :
  parse_yaml ut s = CVal (mkDoc cs0 (map DComment cs ++ DYaml (InlineArray l) :: map DComment cs1)) ->
  flow_file ut (mkDoc cs0 (map DComment cs ++ DYaml (InlineArray l) :: map DComment cs1)) s.
Proof.
  intros Hp. pose proof Hp as H. apply parsed_gives in H as (n & rest & k' & H).
  pose proof H as HR. apply gives_runs in HR as (tt & nn & HR & _ & _).
  apply rule_ok_inv in HR as (ns0 & HR). rewrite yaml_exp in HR. cbn [fst yaml_grammar emit_in] in HR.
  apply head_inv in HR as (c0 & c & h & X & k0 & t0 & n0 & -> & Hh & H1 & H2 & _ & _); [|exact body_nil].
  apply g_rule in H as (m & t & cvs & v & L & H & _ & Y & E); [|reflexivity]. inversion E; subst v. clear E.
  cbn [snd yaml_grammar] in H.
  gseq H v1 A. pose proof A as A'. destruct (g_typed ut _ y_leading_comments _ _ _ _ _ ltac:(discriminate) eq_refl A') as (x1 & -> & T1). clear A'.
  gseq H v2 B. pose proof B as B'. gquiet B'. gseq H v3 C. pose proof C as C'. gquiet C'.
  gseq H v4 D. pose proof D as D'. destruct (g_typed ut _ y_commentnls _ _ _ _ _ ltac:(discriminate) eq_refl D') as (x4 & -> & T4). clear D'.
  apply gives_runs in A as (? & ? & A & _). apply gives_runs in B as (? & ? & B & _).
  apply gives_runs in C as (? & ? & C & _). apply gives_runs in D as (? & ? & D & _).
  destruct (head_end c0 c h X _ _ _ _ _ _ _ _ _ _ _ _ _ _ _ _ _ _ eq_refl Hh H1 H2 A B C D) as [-> ->].
  gseq H v5 F. pose proof F as F'. destruct (g_typed ut _ y_document _ _ _ _ _ ltac:(discriminate) eq_refl F') as (xd & -> & T5). clear F'.
  cbn [vty] in T1, T4, T5. destruct T1 as (w1 & -> & _), T4 as (w4 & -> & _), T5 as (w5 & -> & _).
  cbn [app yact] in Y. destruct (many as_comment _) as [cs2 r2] in Y.
  assert (Y' : w5 = InlineArray l).
  { destruct r2 as [|[r u] [|]]; try discriminate; destruct r; try discriminate. inversion Y as [[E1 E2]]. subst. clear - E2.
    unfold dcomments in E2. revert cs E2. induction w4 as [|a w4 IH]; intros [|b cs] E; cbn in E; inversion E; subst; eauto. }
  subst w5. destruct (doc_inline _ _ _ _ _ _ F l eq_refl) as (tf & nf & Fr).
  apply gives_runs in H as (te & ne & Hr & _).
  destruct (file_of c0 c h X _ _ _ _ _ _ _ _ Hh Fr Hr) as (l' & cs1' & HF).
  pose proof (file_read _ _ HF) as E. rewrite Hp in E.
  clear - E HF. set (d := mkDoc cs0 _) in *. set (d' := mkDoc c0 _) in *. clearbody d d'. injection E as ->. exact HF.
Qed.
End FlowExact.

Lemma flow_read_iff ut cs0 cs l cs1 s :
  parse_yaml ut s = CVal (mkDoc cs0 (map DComment cs ++ DYaml (InlineArray l) :: map DComment cs1)) <->
  flow_file ut (mkDoc cs0 (map DComment cs ++ DYaml (InlineArray l) :: map DComment cs1)) s.
Proof. split; [apply file_only|apply file_read]. Qed.
Lemma flow_error_iff ut cs0 cs h r : heading cs0 cs h ->
  parse_yaml ut (h ++ lit "[" ++ r) <> CPanic /\
  (parse_yaml ut (h ++ lit "[" ++ r) = CErr <-> forall d, ~ flow_file ut d (h ++ lit "[" ++ r)).
Proof.
  intros Hh. destruct (bracket_file ut cs0 cs h r Hh) as [E|(l & cs1 & HF)].
  - rewrite E. split; [discriminate|]. split; [|reflexivity]. intros _ d HF. apply file_read in HF. congruence.
  - pose proof (file_read ut _ _ HF) as E. rewrite E. split; [discriminate|]. split; [discriminate|].
    intros H. now destruct (H _ HF).
Qed.
Lemma flow_brace ut cs0 cs h r : heading cs0 cs h -> parse_yaml ut (h ++ lit "{" ++ r) = CErr.
Proof. apply brace_file. Qed.
Lemma flow_unique ut d e s : flow_file ut d s -> flow_file ut e s -> d = e.
Proof. intros A B. apply file_read in A, B. congruence. Qed.
Lemma accepted_headed ut s : parse_yaml ut s <> CErr ->
  exists cs0 cs h c X, s = h ++ c :: X /\ heading cs0 cs h /\ c <> chr "{".
Proof.
  intros H. destruct (yaml_total ut s) as (x & E & Hr). destruct x as [t ns rest k| |].
  - apply rule_ok_inv in Hr as (ns0 & HR). rewrite yaml_exp in HR. cbn [fst yaml_grammar emit_in] in HR.
    apply head_inv in HR as (c0 & c & h & X & k0 & t0 & n0 & -> & Hh & H1 & H2 & HB & _); [|exact (body_nil ut)].
    destruct X as [|x X]; [now destruct (body_nil ut _ _ _ _ _ HB)|]. exists c0, c, h, x, X.
    split; [reflexivity|]. split; [exact Hh|]. intros ->. apply H. exact (brace_file ut c0 c h X Hh).
  - apply parse_rejected in Hr. contradiction.
  - exfalso. now destruct (stack_safe ut _ _ Hr).
Qed.
