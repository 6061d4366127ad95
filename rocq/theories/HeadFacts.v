(** Proofs about the part of a file before its collection. *)
From Coq Require Import Lia.
From Verif Require Import Base Ast Num Strings Peg PegFacts PegTree YamlGrammar Consume Spec_Parse YamlTree YamlValues
  ParseFacts Spec_Format Reads Gives FormatText FormatScalars FormatFlow ParsedNeat ParsedNeat2 Spec_Layout LayoutText Spec_Flow
  FlowText FlowText2 FlowReads FlowInv FlowExact Spec_Heading.
Import ListNotations.

Lemma begins_iff X : begins X <-> stays X /\ no_comment X.
Proof.
  assert (D : forall s, exists z, s = z ++ drop_while is_zs s /\ seps z).
  { induction s as [|c s (z & E & S)]; [exists []; split; [reflexivity|intros c []]|]. cbn [drop_while]. destruct (is_zs c) eqn:Q.
    - exists (c :: z). split; [cbn; congruence|]. intros d [<-|I]; [exact Q|exact (S d I)].
    - exists []. split; [reflexivity|intros d []]. }
  split.
  - intros B. destruct (D X) as (z & E & S). split.
    + intros c r Q. rewrite Q in E. pose proof (B z c r E S) as N. cbn in N. split; intros ->; apply N; auto.
    + intros r Q. rewrite Q in E. apply (B z (chr "#") r E S). cbn. auto.
  - intros [H1 H2] z c r E S I. assert (is_zs c = false) as Q by (cbn in I; destruct I as [<-|[<-|[<-|[]]]]; reflexivity).
    assert (drop_while is_zs X = c :: r) as W.
    { subst X. clear H1 H2. induction z as [|d z IH]; cbn [app drop_while]; [rewrite Q; reflexivity|].
      rewrite (S d (or_introl eq_refl)). apply IH. intros x Hx. apply S. now right. }
    cbn in I. destruct I as [<-|[<-|[<-|[]]]]; [destruct (H1 _ _ W); congruence|destruct (H1 _ _ W); congruence|exact (H2 _ W)].
Qed.

Section Head.
Context (ut : unitab).
Notation G := (yaml_grammar ut).

Lemma parse_of_run s t n rest k : runs G true (PRule y_yaml) s [] (Ok t [n] rest k) ->
  parse_yaml ut s = match consume n with CVal (VDoc d) => CVal d | CVal _ => CErr | CErr => CErr | CPanic => CPanic end.
Proof.
  intros H. destruct (yaml_total ut s) as (x & E & Hr). unfold parse_yaml.
  revert E. generalize (yaml_fuel s). intros f E. rewrite E. rewrite (runs_det _ _ _ _ _ _ _ Hr H). reflexivity.
Qed.

Lemma head_parts cs0 cs h X : heading cs0 cs h -> begins X -> exists th nh, values nh = CVal [(y_leading_comments, VStrs cs0); (y_commentnls, VStrs cs)] /\
  (forall t ns rest k, runs G true body_exp X [] (Ok t ns rest k) ->
     runs G true (snd (G y_yaml)) (h ++ X) [] (Ok (th ++ t) (nh ++ ns) rest k)) /\
  (forall r, is_ok r = false -> runs G true body_exp X [] r -> runs G true (snd (G y_yaml)) (h ++ X) [] r).
Proof.
  intros Hh B. apply begins_iff in B as [H1 H2].
  destruct (gets_head ut cs0 cs h X [] Hh H1 H2 (PStr []) [] X []) as (t' & ns' & R & V).
  { eapply eats_gets. exact (eats_str ut [] X []). }
  apply seq_ok_inv in R as (ta & na & sa & ka & tb & nb & -> & -> & A & R).
  apply seq_ok_inv in R as (tc & nc & sc & kc & td & nd & -> & -> & C & R).
  apply seq_ok_inv in R as (te & ne & se & ke & tf & nf & -> & -> & D & R).
  apply seq_ok_inv in R as (tg & ng & sg & kg & th & nh & -> & -> & F & R).
  inversion R; subst. match goal with Q : strip [] _ = Some _ |- _ => cbn in Q; injection Q as -> end.
  exists (ta ++ tc ++ te ++ tg), (na ++ nc ++ ne ++ ng). rewrite !app_nil_r in V. split; [exact V|]. split.
  - intros t ns rest k H. rewrite <- !app_assoc. rewrite yaml_exp.
    eapply Peg.RSeq; [exact A|]. eapply Peg.RSeq; [exact C|]. eapply Peg.RSeq; [exact D|]. eapply Peg.RSeq; [exact F|]. exact H.
  - intros r Q H. rewrite yaml_exp.
    eapply Peg.RSeq2; [exact A| |exact Q]. eapply Peg.RSeq2; [exact C| |exact Q]. eapply Peg.RSeq2; [exact D| |exact Q]. eapply Peg.RSeq2; [exact F|exact H|exact Q].
Qed.

(** The outcome of the rest. *)
Definition body_items (vs : cres (list (yrule * yval))) : cres (list docdata) :=
  match vs with
  | CVal ((y_document, VYaml v) :: l') =>
      match many as_comment l' with (cs2, [(y_eoi, _)]) => CVal ([DYaml v] ++ dcomments cs2) | _ => CErr end
  | CVal _ => CErr
  | CErr => CErr
  | CPanic => CPanic
  end.
Lemma values_more a b va : values a = CVal va ->
  values (a ++ b) = match values b with CVal vb => CVal (va ++ vb) | CErr => CErr | CPanic => CPanic end.
Proof.
  unfold values. revert va. induction a as [|n a IH]; intros va H; cbn [map app call_] in *.
  - injection H as <-. destruct (call_ _); reflexivity.
  - destruct (consume n) as [v| |]; cbn [cbind] in *; try discriminate.
    destruct (call_ (map (fun c => (label c, consume c)) a)) as [l| |]; cbn [cbind] in H; try discriminate. injection H as <-.
    rewrite (IH l eq_refl). destruct (call_ (map (fun c => (label c, consume c)) b)); reflexivity.
Qed.
Lemma body_total X : exists r, runs G true body_exp X [] r.
Proof.
  destruct (eval G (length X * ((8 + 1) * (40 + 1)) + 8 * (40 + 1) + size body_exp) true body_exp X []) as [r|] eqn:E.
  - exists r. exact (eval_sound _ _ _ _ _ _ _ E).
  - exfalso. revert E. apply (eval_total G y_nul y_rank 8 40 (yaml_grammar_ok ut)) with (kk := 8); try lia.
    + reflexivity.
    + apply (left_ok_top G y_nul y_rank 8 40 (yaml_grammar_ok ut)).
    + cbn. lia.
Qed.
Lemma head_free X : begins X -> exists o, forall cs0 cs h, heading cs0 cs h -> parse_yaml ut (h ++ X) = headed cs0 cs o.
Proof.
  intros B. destruct (body_total X) as [r R]. destruct r as [t ns rest k| |].
  - exists (body_items (values ns)). intros cs0 cs h Hh. destruct (head_parts cs0 cs h X Hh B) as (th & nh & V & H & _).
    specialize (H _ _ _ _ R). pose proof (RRule G true y_yaml _ _ _ _ _ _ H) as W. cbn [fst yaml_grammar wrap] in W.
    rewrite (parse_of_run _ _ _ _ _ W). clear W H. unfold consume. cbn [fold_node]. unfold yaml_act at 1.
    change (call_ (map (fun c => (label c, fold_node yaml_act c)) (nh ++ ns))) with (values (nh ++ ns)).
    rewrite (values_more _ ns _ V). destruct (values ns) as [vs| |]; [|reflexivity|reflexivity].
    cbn [cbind app yact]. destruct vs as [|[r v] vs]; [reflexivity|]. unfold body_items.
    destruct r; try reflexivity. destruct v; try reflexivity. destruct (many as_comment vs) as [cs2 [|[r u] [|x l]]]; try reflexivity; destruct r; reflexivity.
  - exists CErr. intros cs0 cs h Hh. destruct (head_parts cs0 cs h X Hh B) as (th & nh & V & _ & H). apply parse_rejected.
    apply RRuleF; [|reflexivity]. exact (H Fail eq_refl R).
  - exists CPanic. intros cs0 cs h Hh. destruct (head_parts cs0 cs h X Hh B) as (th & nh & V & _ & H). exfalso.
    assert (runs G true (PRule y_yaml) (h ++ X) [] Crash) as W by (apply RRuleF; [exact (H Crash eq_refl R)|reflexivity]).
    apply (stack_safe ut) in W. now destruct W.
Qed.
Lemma head_only s : parse_yaml ut s <> CErr -> exists cs0 cs h X, s = h ++ X /\ heading cs0 cs h /\ begins X.
Proof.
  intros H. destruct (yaml_total ut s) as (x & E & Hr). destruct x as [t ns rest k| |].
  - apply rule_ok_inv in Hr as (ns0 & HR). rewrite yaml_exp in HR. cbn [fst yaml_grammar emit_in] in HR.
    apply head_inv in HR as (c0 & c & h & X & k0 & t0 & n0 & -> & Hh & H1 & H2 & HB & _); [|exact (body_nil ut)].
    exists c0, c, h, X. split; [reflexivity|]. split; [exact Hh|]. apply begins_iff. split; assumption.
  - apply parse_rejected in Hr. contradiction.
  - exfalso. now destruct (stack_safe ut _ _ Hr).
Qed.
End Head.

Lemma heading_more c cs0 cs h : one_line c -> heading cs0 cs h -> heading (c :: cs0) cs (lit "#" ++ c ++ [NL] ++ h).
Proof.
  intros O H. destruct H as [b cs t Hb Hn Ht|b0 cs0 t0 b cs t Hb0 Hn0 Ht0 Hb Hn Ht].
  - pose proof (HLead [] [c] (lit "#" ++ c ++ [NL]) b cs t BNone ltac:(discriminate)) as H. cbn [app] in H. rewrite <- app_assoc in H. cbn [app] in H.
    change (chr "#" :: c ++ NL :: lit "---" ++ b ++ t) with (lit "#" ++ c ++ [NL] ++ lit "---" ++ b ++ t) in H.
    rewrite <- app_assoc in H. apply H; try assumption.
    change (lit "#" ++ c ++ [NL]) with (([] ++ lit "#" ++ c ++ [NL]) : str).
    rewrite <- (app_nil_r [NL]). constructor; [intros x []|exact O| |exists NL, []; auto|constructor].
    exact (BLine [] NL [] (fun x (I : In x []) => match I with end) (or_introl eq_refl) BNone).
  - pose proof (HLead [] (c :: cs0) ([] ++ lit "#" ++ c ++ ([NL] ++ b0) ++ t0) b cs t BNone ltac:(discriminate)) as H.
    cbn [app] in *. rewrite <- !app_assoc in *. cbn [app] in *. rewrite <- !app_assoc in *. apply H; try assumption.
    change (lit "#" ++ c ++ NL :: b0 ++ t0) with ([] ++ lit "#" ++ c ++ ([NL] ++ b0) ++ t0).
    constructor; [intros x []|exact O| |exists NL, b0; auto|exact Ht0].
    exact (BLine [] NL b0 (fun x (I : In x []) => match I with end) (or_introl eq_refl) Hb0).
Qed.
Lemma comment_before ut s d c : one_line c -> parse_yaml ut s = CVal d ->
  parse_yaml ut (lit "#" ++ c ++ [NL] ++ s) = CVal (mkDoc (c :: leading d) (items d)).
Proof.
  intros O P. assert (parse_yaml ut s <> CErr) as N by congruence. destruct (head_only ut s N) as (cs0 & cs & h & X & -> & Hh & B).
  destruct (head_free ut X B) as (o & F). rewrite (F _ _ _ Hh) in P.
  pose proof (F _ _ _ (heading_more c cs0 cs h O Hh)) as Q. rewrite <- !app_assoc in Q. rewrite Q.
  destruct o as [its| |]; try discriminate. cbn [headed] in *. injection P as <-. reflexivity.
Qed.
Lemma heading_split ut s d : parse_yaml ut s = CVal d <->
  exists cs0 cs h X its, s = h ++ X /\ heading cs0 cs h /\ begins X /\
    parse_yaml ut (lit "---" ++ [NL] ++ X) = CVal (mkDoc [] its) /\ d = mkDoc cs0 (map DComment cs ++ its).
Proof.
  assert (heading [] [] (lit "---" ++ [NL])) as H0.
  { pose proof (HPlain [NL] [] [] (BLine [] NL [] (fun x (I : In x []) => match I with end) (or_introl eq_refl) BNone) ltac:(discriminate) MNone) as H.
    exact H. }
  split.
  - intros P. assert (parse_yaml ut s <> CErr) as N by congruence. destruct (head_only ut s N) as (cs0 & cs & h & X & -> & Hh & B).
    destruct (head_free ut X B) as (o & F). pose proof (F _ _ _ H0) as Q. rewrite <- app_assoc in Q. rewrite (F _ _ _ Hh) in P.
    destruct o as [its| |]; try discriminate. cbn [headed] in *. injection P as <-. exists cs0, cs, h, X, its.
    split; [reflexivity|]. split; [exact Hh|]. split; [exact B|]. split; [exact Q|reflexivity].
  - intros (cs0 & cs & h & X & its & -> & Hh & B & Q & ->). destruct (head_free ut X B) as (o & F).
    pose proof (F _ _ _ H0) as Q'. rewrite <- app_assoc in Q'. rewrite Q' in Q. rewrite (F _ _ _ Hh).
    destruct o as [its'| |]; try discriminate. cbn [headed map app] in *. injection Q as ->. reflexivity.
Qed.
