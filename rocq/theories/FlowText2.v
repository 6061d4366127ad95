(** White space inside inline collections, and the file before and after its collection. *)
From Coq Require Import ZArith.
From Verif Require Import Base Ast Num Peg PegFacts PegTree YamlGrammar Consume Spec_Parse YamlTree YamlValues
  Spec_Format Reads ParseFacts ParsedNeat ParsedNeat2 FormatText FormatFlow Spec_Layout Spec_Flow FlowText.
From Verif Require FormatTree.
Import ListNotations.

Section FlowText2.
Context (ut : unitab).
Notation G := (yaml_grammar ut).
Notation gets := (gets ut).
Notation eats := (eats ut).
Notation fails := (fails ut).

(** ---- spaces and line breaks ---- *)

Lemma loose_nil : loose [].
Proof. intros c []. Qed.
Lemma loose_app a b : loose a -> loose b -> loose (a ++ b).
Proof. intros Ha Hb c H. apply in_app_or in H as [H|H]; auto. Qed.
Lemma loose_tail c w : loose (c :: w) -> loose w.
Proof. intros H d Hd. apply H. now right. Qed.
Lemma loose_spaces n : loose (spaces n).
Proof. intros c H. left. induction n; cbn in H; [contradiction|]. destruct H as [<-|H]; auto. Qed.

Lemma eats_loose_star : forall n w s k, length w <= n -> loose w -> firm s ->
  eats (PStar (R_ y_space)) (w ++ s) k w s k.
Proof.
  induction n as [n IH] using lt_wf_ind. intros w s k Hn Hw Hs. destruct w as [|c w]; cbn [app].
  - apply eats_star0, fails_space, Hs.
  - pose proof (loose_tail _ _ Hw) as Hw'. cbn [length] in Hn.
    destruct (Hw c (or_introl eq_refl)) as [->|[->| ->]].
    + eapply eats_star1 with (t1 := [SP]); [apply eats_space|exact (IH (length w) Hn w s k (le_n _) Hw' Hs)|reflexivity].
    + eapply eats_star1 with (t1 := [NL]); [apply eats_space_nl|exact (IH (length w) Hn w s k (le_n _) Hw' Hs)|reflexivity].
    + assert (HH : (forall x, w ++ s <> NL :: x) \/ exists x, w = NL :: x).
      { destruct w as [|d w]; cbn [app].
        - left. intros x E. destruct (Hs _ _ E) as (_ & A & _). congruence.
        - destruct (N.eq_dec d NL) as [-> | Hd]; [right; eauto|left; intros x E; congruence]. }
      destruct HH as [HH|(x & ->)].
      * eapply eats_star1 with (t1 := [CR]); [|exact (IH (length w) Hn w s k (le_n _) Hw' Hs)|reflexivity].
        apply eats_silent; [reflexivity|]. cbn [yaml_grammar snd]. apply eats_alt2; [scanc|]. now apply eats_cr.
      * cbn [length] in Hn.
        eapply eats_star1 with (t1 := [CR; NL]); [|exact (IH (length x) ltac:(lia) x s k (le_n _) (loose_tail _ _ Hw') Hs)|reflexivity].
        apply eats_silent; [reflexivity|]. cbn [yaml_grammar snd]. apply eats_alt2; [scanc|]. apply eats_crnl.
Qed.
Lemma eats_loose w s k : loose w -> firm s -> eats (R_ y_spaces) (w ++ s) k w s k.
Proof.
  intros Hw Hs. apply eats_silent; [reflexivity|]. cbn [yaml_grammar snd]. now apply (eats_loose_star (length w)).
Qed.
Lemma space_inv em s k t ns rest k' : runs G em (R_ y_space) s k (Ok t ns rest k') ->
  s = t ++ rest /\ loose t /\ t <> [] /\ k' = k.
Proof.
  intros H. split; [exact (runs_text G _ _ _ _ _ H _ _ _ _ eq_refl)|].
  apply rule_ok_inv in H as (ns' & H). cbn [fst snd yaml_grammar emit_in] in H. inversion H; subst.
  - match goal with X : runs _ _ (yl _) _ _ _ |- _ => inversion X; subst end.
    split; [|split; [discriminate|reflexivity]]. intros c [<-|[]]. now left.
  - match goal with X : runs _ _ y_nl _ _ (Ok _ _ _ _) |- _ => apply nl_inv in X as (_ & -> & Ht) end.
    split; [|split; [destruct Ht as [->|[->| ->]]; discriminate|reflexivity]].
    intros c Hc. destruct Ht as [->|[->| ->]]; cbn in Hc; intuition.
Qed.
Lemma space_fail em s k : runs G em (R_ y_space) s k Fail -> firm s.
Proof.
  intros H c r ->. apply rule_fail_inv in H. cbn [fst snd yaml_grammar emit_in] in H.
  apply alt_fail_inv in H as [A B]. apply nl_fail in B. apply str_fail_inv in A. apply strip_char_none in A. tauto.
Qed.
Lemma space_star_inv em x s k y : runs G em x s k y -> x = PStar (R_ y_space) ->
  forall t ns rest k', y = Ok t ns rest k' -> s = t ++ rest /\ loose t /\ firm rest /\ k' = k.
Proof.
  induction 1; intros Ex t' ns' rest' k' E; try discriminate; inversion Ex; subst;
    try (inversion E; subst; clear E).
  - split; [reflexivity|]. split; [apply loose_nil|]. split; [|reflexivity]. eapply space_fail. eassumption.
  - match goal with X : runs _ _ (R_ y_space) _ _ (Ok _ _ _ _) |- _ => apply space_inv in X as (-> & A & _ & ->) end.
    destruct (IHruns2 eq_refl _ _ _ _ eq_refl) as (-> & B & C & ->).
    split; [now rewrite app_assoc|]. split; [now apply loose_app|]. auto.
Qed.
Lemma spaces_inv em s k t ns rest k' : runs G em (R_ y_spaces) s k (Ok t ns rest k') ->
  s = t ++ rest /\ loose t /\ firm rest /\ k' = k.
Proof.
  intros H. apply rule_ok_inv in H as (ns' & H). cbn [fst snd yaml_grammar emit_in] in H.
  exact (space_star_inv _ _ _ _ _ H eq_refl _ _ _ _ eq_refl).
Qed.

(** ---- comments on lines of their own ---- *)

Lemma remarks_stays cs t X : remarks cs t -> stays X -> stays (t ++ X).
Proof.
  intros [|z c b cs' t' Hz _ _ _ _] H; [exact H|]. rewrite <- app_assoc. apply stays_seps; [exact Hz|].
  apply stays_solid. cbn. repeat split; discriminate.
Qed.
Lemma gets_remarks cs t X k : remarks cs t -> stays X -> no_comment X ->
  gets (PStar (R_ y_commentnl)) (t ++ X) k (vcnl cs) X k.
Proof.
  intros H HX Hc. induction H as [|z c b cs t Hz H1 Hb Hb' Hr IH]; cbn [app vcnl map].
  - now apply gets_star0, fails_commentnl_x.
  - rewrite <- !app_assoc. eapply gets_star1 with (v1 := [(y_commentnl, VStr c)]); [|apply IH|reflexivity].
    apply gets_commentnl_x; try assumption. now apply (remarks_stays cs).
Qed.
Lemma gets_commentnls_x cs t X k : remarks cs t -> stays X -> no_comment X ->
  gets (R_ y_commentnls) (t ++ X) k [(y_commentnls, VStrs cs)] X k.
Proof.
  intros H HX Hc. eapply gets_rule; [reflexivity|exact (gets_remarks cs t X k H HX Hc)|].
  intros u _. cbn [yact]. now rewrite many_vcnl.
Qed.
Lemma gets_leading_x cs t X k : remarks cs t -> stays X -> no_comment X ->
  gets (snd (G y_leading_comments)) (t ++ X) k (vcnl cs) X k.
Proof.
  cbn [yaml_grammar snd].
  intros H HX Hc. induction H as [|z c b cs t Hz H1 Hb Hb' Hr IH]; cbn [app vcnl map].
  - apply gets_star0. eapply fails_seq0; [apply eats_star0, fails_blanknl_b, HX|]. now apply fails_seq1, fails_commentnl_x.
  - rewrite <- !app_assoc. eapply gets_star1 with (v1 := [(y_commentnl, VStr c)]); [|apply IH|reflexivity].
    eapply gets_seq0.
    { apply eats_star0, fails_blanknl_b, stays_seps; [exact Hz|]. apply stays_solid. cbn. repeat split; discriminate. }
    assert (Hs : stays (t ++ X)) by now apply (remarks_stays cs).
    eapply gets_seq; [apply gets_commentnl_x; eassumption|eapply eats_gets, eats_star0, fails_blanknl_b, Hs|reflexivity].
Qed.
Lemma gets_leading_b b cs t X k : blanks b -> cs <> [] -> remarks cs t -> stays X -> no_comment X ->
  gets (snd (G y_leading_comments)) (b ++ t ++ X) k (vcnl cs) X k.
Proof.
  intros Hb Hn H HX Hc. destruct b as [|d b]; [exact (gets_leading_x cs t X k H HX Hc)|].
  pose proof (remarks_stays cs t X H HX) as Hst.
  cbn [yaml_grammar snd]. inversion H as [E1 E2|z c b1 cs' t' Hz H1 Hb1 Hb1' Hr E1 E2]; subst; [congruence|].
  pose proof (remarks_stays cs' t' X Hr HX) as Hs2. rewrite <- !app_assoc in Hst |- *. cbn [vcnl map].
  eapply gets_star1 with (v1 := [(y_commentnl, VStr c)]); [|apply gets_leading_x; eassumption|reflexivity].
  eapply gets_seq0.
  { eapply eats_star1 with (t1 := d :: b) (t2 := []); [apply eats_blanknl_b; [exact Hb|discriminate|exact Hst]|apply eats_star0, fails_blanknl_b, Hst|now rewrite app_nil_r]. }
  eapply gets_seq; [apply gets_commentnl_x; eassumption|eapply eats_gets, eats_star0, fails_blanknl_b, Hs2|reflexivity].
Qed.

Lemma commentnl_inv em s k t ns rest k' : runs G em (R_ y_commentnl) s k (Ok t ns rest k') ->
  exists z c b, t = z ++ lit "#" ++ c ++ b /\ s = t ++ rest /\ seps z /\ one_line c /\ blanks b
    /\ (rest <> [] -> breaks b) /\ stays rest /\ k' = k.
Proof.
  intros H. pose proof (runs_text G _ _ _ _ _ H _ _ _ _ eq_refl) as Es.
  apply rule_ok_inv in H as (ns' & H). cbn [fst snd yaml_grammar emit_in] in H.
  apply seq_ok_inv in H as (t1 & n1 & s1 & k1 & b & n2 & -> & -> & A & B).
  apply base_inv in A as (z & c & -> & -> & Hz & Hc & Hl & ->). apply blank_inv in B as (-> & Hb & Hs & ->).
  exists z, c, b. split; [now rewrite <- !app_assoc|]. split; [exact Es|]. repeat (split; [assumption|]).
  split; [|auto]. intros Hr. destruct b as [|d b].
  - exfalso. cbn [app] in Hl. destruct rest as [|d rest]; [congruence|].
    destruct (Hl d rest eq_refl) as [-> | ->]; destruct (Hs _ _ eq_refl); congruence.
  - exists d, b. split; [reflexivity|]. exact (Hl d (b ++ rest) eq_refl).
Qed.
Lemma commentnl_fail em s k : runs G em (R_ y_commentnl) s k Fail -> no_comment s.
Proof.
  intros H. apply rule_fail_inv in H. cbn [fst snd yaml_grammar emit_in] in H.
  apply seq_fail_inv in H as [H|(t & ns & s1 & k1 & A & H)]; [now apply base_fail in H|].
  apply rule_fail_inv in H. cbn [fst snd yaml_grammar emit_in] in H. apply alt_fail_inv in H as [_ H]. inversion H; subst.
  match goal with X : Fail <> Fail |- _ => congruence end.
Qed.
Lemma remarks_star_inv em x s k y : runs G em x s k y -> x = PStar (R_ y_commentnl) ->
  forall t ns rest k', y = Ok t ns rest k' -> rest <> [] ->
  exists cs, s = t ++ rest /\ remarks cs t /\ no_comment rest /\ (stays s -> stays rest) /\ k' = k.
Proof.
  induction 1; intros Ex t' ns' rest' k' E Hr; try discriminate; inversion Ex; subst;
    try (inversion E; subst; clear E).
  - exists []. split; [reflexivity|]. split; [constructor|]. split; [|auto]. eapply commentnl_fail. eassumption.
  - match goal with X : runs _ _ (R_ y_commentnl) _ _ (Ok _ _ _ _) |- _ => apply commentnl_inv in X as (z & c & b & -> & -> & Hz & Hc & Hb & Hbr & Hs & ->) end.
    destruct (IHruns2 eq_refl _ _ _ _ eq_refl Hr) as (cs & -> & A & B & C & ->).
    exists (c :: cs). split; [now rewrite app_assoc|]. split; [rewrite <- !app_assoc; constructor; auto|auto].
    apply Hbr. intros X. apply app_eq_nil in X as [_ X]. now apply Hr.
Qed.
Lemma commentnls_inv em s k t ns rest k' : runs G em (R_ y_commentnls) s k (Ok t ns rest k') -> rest <> [] ->
  exists cs, s = t ++ rest /\ remarks cs t /\ no_comment rest /\ (stays s -> stays rest) /\ k' = k.
Proof.
  intros H. apply rule_ok_inv in H as (ns' & H). cbn [fst snd yaml_grammar emit_in] in H.
  exact (remarks_star_inv _ _ _ _ _ H eq_refl _ _ _ _ eq_refl).
Qed.

Lemma blanknl_star_inv em x s k y : runs G em x s k y -> x = PStar (R_ y_blanknl) ->
  forall t ns rest k', y = Ok t ns rest k' -> s = t ++ rest /\ blanks t /\ stays rest /\ k' = k.
Proof.
  induction 1; intros Ex t' ns' rest' k' E; try discriminate; inversion Ex; subst;
    try (inversion E; subst; clear E).
  - split; [reflexivity|]. split; [constructor|]. split; [|reflexivity]. eapply blanknl_fail. eassumption.
  - match goal with X : runs _ _ (R_ y_blanknl) _ _ (Ok _ _ _ _) |- _ => apply blanknl_inv in X as (-> & A & _ & _ & ->) end.
    destruct (IHruns2 eq_refl _ _ _ _ eq_refl) as (-> & B & C & ->).
    split; [now rewrite app_assoc|]. split; [now apply blanks_app|]. auto.
Qed.
Lemma leading_star_inv em x s k y : runs G em x s k y -> x = snd (G y_leading_comments) ->
  forall t ns rest k', y = Ok t ns rest k' -> rest <> [] ->
  s = t ++ rest /\ k' = k /\ (t = [] \/ exists b cs t0, t = b ++ t0 /\ blanks b /\ cs <> [] /\ remarks cs t0).
Proof.
  cbn [yaml_grammar snd].
  induction 1; intros Ex t' ns' rest' k' E Hr; try discriminate; inversion Ex; subst;
    try (inversion E; subst; clear E); [auto|].
  destruct (IHruns2 eq_refl _ _ _ _ eq_refl Hr) as (-> & -> & HH).
  match goal with X : runs _ _ (PSeq _ _) _ _ (Ok _ _ _ _) |- _ => rename X into A end.
  pose proof (runs_text G _ _ _ _ _ A _ _ _ _ eq_refl) as Es.
  apply seq_ok_inv in A as (b0 & m1 & s3 & k3 & u2 & m2 & -> & -> & A & B).
  apply seq_ok_inv in B as (u3 & m3 & s4 & k4 & b2 & m4 & -> & -> & B & C).
  destruct (blanknl_star_inv _ _ _ _ _ A eq_refl _ _ _ _ eq_refl) as (_ & Hb0 & _ & ->).
  apply commentnl_inv in B as (z & c & b & -> & _ & Hz & Hc & Hb & Hbr & _ & ->).
  destruct (blanknl_star_inv _ _ _ _ _ C eq_refl _ _ _ _ eq_refl) as (-> & Hb2 & _ & ->).
  assert (Hbb : breaks b).
  { apply Hbr. intros X. apply app_eq_nil in X as [_ X]. apply app_eq_nil in X as [_ X]. now apply Hr. }
  split; [rewrite Es; now rewrite <- !app_assoc|]. split; [reflexivity|]. right.
  destruct HH as [->|(b' & cs & t0 & -> & Hb' & Hn & Hm)].
  - exists b0, [c], (z ++ lit "#" ++ c ++ (b ++ b2) ++ []). split; [now rewrite <- !app_assoc|]. split; [exact Hb0|].
    split; [discriminate|]. constructor; auto; [now apply blanks_app| |constructor].
    destruct Hbb as (d & r & -> & Hd). exists d, (r ++ b2). auto.
  - exists b0, (c :: cs), (z ++ lit "#" ++ c ++ (b ++ b2 ++ b') ++ t0). split; [now rewrite <- !app_assoc|]. split; [exact Hb0|].
    split; [discriminate|]. constructor; auto; [now apply blanks_app, blanks_app|].
    destruct Hbb as (d & r & -> & Hd). exists d, (r ++ b2 ++ b'). auto.
Qed.

(** ---- the file before its collection ---- *)

Definition head_exp : yexp := (R_ y_leading_comments ~~ yl "---" ~~ R_ y_blanknl ~~ R_ y_commentnls)%peg.

Lemma gets_head cs0 cs h X k : heading cs0 cs h -> stays X -> no_comment X -> forall e vs rest k',
  gets e X k vs rest k' ->
  gets (R_ y_leading_comments ~~ yl "---" ~~ R_ y_blanknl ~~ R_ y_commentnls ~~ e)%peg (h ++ X) k
    ((y_leading_comments, VStrs cs0) :: (y_commentnls, VStrs cs) :: vs) rest k'.
Proof.
  intros H HX Hc e vs rest k' He.
  assert (D : forall b t, blanks b -> b <> [] -> remarks cs t ->
    gets (yl "---" ~~ R_ y_blanknl ~~ R_ y_commentnls ~~ e)%peg (lit "---" ++ b ++ t ++ X) k
      ((y_commentnls, VStrs cs) :: vs) rest k').
  { intros b t Hb Hn Ht. eapply gets_seq0; [apply eats_str|].
    eapply gets_seq0; [apply eats_blanknl_b; [exact Hb|exact Hn|now apply (remarks_stays cs)]|].
    eapply gets_seq; [exact (gets_commentnls_x cs t X k Ht HX Hc)|exact He|reflexivity]. }
  assert (S0 : forall r, stays (lit "---" ++ r)) by (intros r; apply stays_solid; cbn; repeat split; discriminate).
  assert (C0 : forall r, no_comment (lit "---" ++ r)) by (intros r r'; cbn; discriminate).
  inversion H as [b cs1 t Hb Hn Ht|b0 cs1 t0 b cs2 t Hb0 Hn0 Ht0 Hb Hn Ht]; subst.
  - rewrite <- !app_assoc. eapply gets_seq with (v1 := [(y_leading_comments, VStrs [])]); [|apply (D b t); assumption|reflexivity].
    eapply gets_rule; [reflexivity|apply (gets_leading_x [] []); [constructor|apply S0|apply C0]|reflexivity].
  - rewrite <- !app_assoc. eapply gets_seq with (v1 := [(y_leading_comments, VStrs cs0)]); [|apply (D b t); assumption|reflexivity].
    eapply gets_rule; [reflexivity|apply gets_leading_b; [exact Hb0|exact Hn0|exact Ht0|apply S0|apply C0]|].
    intros u _. cbn [yact]. now rewrite many_vcnl.
Qed.
Lemma fails_head cs0 cs h X k : heading cs0 cs h -> stays X -> no_comment X -> forall e, fails e X k ->
  fails (R_ y_leading_comments ~~ yl "---" ~~ R_ y_blanknl ~~ R_ y_commentnls ~~ e)%peg (h ++ X) k.
Proof.
  intros H HX Hc e He.
  assert (D : forall b t, blanks b -> b <> [] -> remarks cs t ->
    fails (yl "---" ~~ R_ y_blanknl ~~ R_ y_commentnls ~~ e)%peg (lit "---" ++ b ++ t ++ X) k).
  { intros b t Hb Hn Ht. eapply fails_seq0; [apply eats_str|].
    eapply fails_seq0; [apply eats_blanknl_b; [exact Hb|exact Hn|now apply (remarks_stays cs)]|].
    eapply fails_seq2; [exact (gets_commentnls_x cs t X k Ht HX Hc)|exact He]. }
  assert (S0 : forall r, stays (lit "---" ++ r)) by (intros r; apply stays_solid; cbn; repeat split; discriminate).
  assert (C0 : forall r, no_comment (lit "---" ++ r)) by (intros r r'; cbn; discriminate).
  inversion H as [b cs1 t Hb Hn Ht|b0 cs1 t0 b cs2 t Hb0 Hn0 Ht0 Hb Hn Ht]; subst.
  - rewrite <- !app_assoc. eapply fails_seq2 with (vs := [(y_leading_comments, VStrs [])]); [|apply (D b t); assumption].
    eapply gets_rule; [reflexivity|apply (gets_leading_x [] []); [constructor|apply S0|apply C0]|reflexivity].
  - rewrite <- !app_assoc. eapply fails_seq2 with (vs := [(y_leading_comments, VStrs cs0)]); [|apply (D b t); assumption].
    eapply gets_rule; [reflexivity|apply gets_leading_b; [exact Hb0|exact Hn0|exact Ht0|apply S0|apply C0]|].
    intros u _. cbn [yact]. now rewrite many_vcnl.
Qed.
Lemma head_inv em e s k t ns rest k' :
  runs G em (R_ y_leading_comments ~~ yl "---" ~~ R_ y_blanknl ~~ R_ y_commentnls ~~ e)%peg s k (Ok t ns rest k') ->
  (forall k t ns rest k', ~ runs G em e [] k (Ok t ns rest k')) ->
  exists cs0 cs h X k1 t1 ns1, s = h ++ X /\ heading cs0 cs h /\ stays X /\ no_comment X
    /\ runs G em e X k1 (Ok t1 ns1 rest k') /\ k1 = k.
Proof.
  intros H He. apply seq_ok_inv in H as (t1 & n1 & s1 & k1 & t2 & n2 & -> & -> & A & H).
  apply seq_ok_inv in H as (t3 & n3 & s3 & k3 & t4 & n4 & -> & -> & B & H).
  apply seq_ok_inv in H as (t5 & n5 & s5 & k5 & t6 & n6 & -> & -> & C & H).
  apply seq_ok_inv in H as (t7 & n7 & s7 & k7 & t8 & n8 & -> & -> & D & H).
  assert (H7 : s7 <> []) by (intros ->; exact (He _ _ _ _ _ H)).
  apply commentnls_inv in D as (cs & E7 & Hcs & Hn7 & Hs7 & ->); [|exact H7].
  apply blanknl_inv in C as (E5 & Hb & Hb0 & Hs5 & ->).
  pose proof (runs_text G _ _ _ _ _ B _ _ _ _ eq_refl) as E3. inversion B; subst. clear B.
  apply rule_ok_inv in A as (ns' & A).
  destruct (leading_star_inv _ _ _ _ _ A eq_refl _ _ _ _ eq_refl ltac:(discriminate)) as (-> & -> & HH).
  destruct HH as [->|(b0 & cs0 & t0 & -> & Hb0' & Hn0 & Hm)].
  - exists [], cs, (lit "---" ++ t5 ++ t7), s7, k, t8, n8. split; [now rewrite <- !app_assoc|].
    split; [now constructor|]. auto.
  - exists cs0, cs, (b0 ++ t0 ++ lit "---" ++ t5 ++ t7), s7, k, t8, n8. split; [now rewrite <- !app_assoc|].
    split; [now constructor|]. auto.
Qed.

(** ---- the file after its collection ---- *)

Definition tail_exp : yexp :=
  (R_ y_blank ~~ PStar (R_ y_comment ~~ R_ y_blank) ~~ R_ y_spaces ~~ PEOI y_eoi)%peg.
Definition vcom (cs : list str) : list (yrule * yval) := map (fun c => (y_comment, VStr c)) cs.

(** Split after its blank lines. *)
Lemma finish_split cs e : finish cs e -> exists b x, e = b ++ x /\ blanks b /\ stays x /\
  forall k, gets (PStar (R_ y_comment ~~ R_ y_blank) ~~ R_ y_spaces ~~ PEOI y_eoi)%peg x k (vcom cs ++ [(y_eoi, VUnit)]) [] k.
Proof.
  induction 1 as [b n Hb|b z c cs e Hb Hz Hc He _ (b' & x & -> & Hb' & Hx & IH)].
  - exists b, (spaces n). split; [reflexivity|]. split; [exact Hb|]. split; [apply stays_spaces|]. intros k.
    eapply gets_seq0; [apply eats_star0, fails_seq1, fails_comment_x|].
    { intros r. rewrite <- (app_nil_r (spaces n)), drop_seps; [discriminate|]. intros c H. exact (indent_zs n c H). }
    eapply gets_seq0; [rewrite <- (app_nil_r (spaces n)); apply eats_loose; [apply loose_spaces|intros c r; discriminate]|].
    apply FormatTree.gets_eoi.
  - exists b, (z ++ lit "#" ++ c ++ b' ++ x). split; [reflexivity|]. split; [exact Hb|].
    split; [apply stays_seps; [exact Hz|apply stays_solid; cbn; repeat split; discriminate]|]. intros k.
    destruct (IH k) as (t & ns & Hr & V). apply seq_ok_inv in Hr as (t1 & n1 & s1 & k1 & t2 & n2 & -> & -> & A & B).
    exists ((z ++ lit "#" ++ c) ++ b' ++ (t1 ++ t2)). 
    assert (C : gets (R_ y_comment ~~ R_ y_blank)%peg (z ++ lit "#" ++ c ++ b' ++ x) k [(y_comment, VStr c)] x k).
    { eapply gets_seq; [apply gets_comment_x; [exact Hz|exact Hc|now apply breaks_line_end]|eapply eats_gets, eats_blank_b; assumption|reflexivity]. }
    destruct C as (t3 & n3 & C & V3). exists ((n3 ++ n1) ++ n2). split.
    + replace ((z ++ lit "#" ++ c) ++ b' ++ t1 ++ t2) with ((t3 ++ t1) ++ t2).
      * eapply Peg.RSeq; [eapply RStar1; eassumption|exact B].
      * pose proof (runs_text G _ _ _ _ _ C _ _ _ _ eq_refl) as E. 
        assert (E' : t3 = z ++ lit "#" ++ c ++ b') by (apply (app_inv_tail x); rewrite <- E, <- !app_assoc; reflexivity).
        rewrite E', <- !app_assoc. reflexivity.
    + rewrite <- app_assoc. cbn [vcom map]. change ((y_comment, VStr c) :: map ?f ?l) with ([(y_comment, VStr c)] ++ vcom cs).
      rewrite <- app_assoc. now apply values_app.
Qed.
Lemma gets_finish cs e k : finish cs e -> gets tail_exp e k (vcom cs ++ [(y_eoi, VUnit)]) [] k.
Proof.
  intros H. destruct (finish_split cs e H) as (b & x & -> & Hb & Hx & Hg).
  eapply gets_seq0; [now apply eats_blank_b|apply Hg].
Qed.

Lemma finish_blanks b cs e : blanks b -> finish cs e -> finish cs (b ++ e).
Proof.
  intros Hb [b' n Hb'|b' z c cs' e' Hb' Hz Hc He Hf]; rewrite app_assoc; constructor; auto; now apply blanks_app.
Qed.
Lemma comment_star_inv em x s k y : runs G em x s k y -> x = PStar (R_ y_comment ~~ R_ y_blank)%peg ->
  forall t ns rest k', y = Ok t ns rest k' -> stays s -> (exists cs, finish cs rest /\ stays rest /\ rest = spaces (length rest)) ->
  exists cs, finish cs s.
Proof.
  induction 1; intros Ex t' ns' rest' k' E Hs HH; try discriminate; inversion Ex; subst;
    try (inversion E; subst; clear E).
  - destruct HH as (cs & H1 & _). eauto.
  - match goal with X : runs _ _ (PSeq _ _) _ _ (Ok _ _ _ _) |- _ => rename X into A end.
    apply seq_ok_inv in A as (u1 & m1 & s3 & k3 & b & m2 & -> & -> & A & B).
    apply rule_ok_inv in A as (ns3 & A). cbn [fst snd yaml_grammar emit_in] in A.
    apply base_inv in A as (z & c & -> & -> & Hz & Hc & Hl & ->). apply blank_inv in B as (-> & Hb & Hs1 & ->).
    destruct (IHruns2 eq_refl _ _ _ _ eq_refl Hs1 HH) as (cs & Hf).
    exists (c :: cs). apply (FMore []); [constructor|exact Hz|exact Hc|now apply line_end_breaks|now apply finish_blanks].
Qed.
Lemma tail_inv em s k t ns rest k' : runs G em tail_exp s k (Ok t ns rest k') -> exists cs, finish cs s.
Proof.
  intros H. apply seq_ok_inv in H as (b & n1 & s1 & k1 & t2 & n2 & -> & -> & A & H).
  apply seq_ok_inv in H as (t3 & n3 & s3 & k3 & t4 & n4 & -> & -> & B & H).
  apply seq_ok_inv in H as (t5 & n5 & s5 & k5 & t6 & n6 & -> & -> & C & H).
  inversion H; subst. apply spaces_inv in C as (-> & Hw & _ & _). rewrite app_nil_r in *.
  apply blank_inv in A as (-> & Hb & Hs & ->).
  assert (Hst : stays t5).
  { pose proof (star_end ut _ _ _ _ _ B _ eq_refl _ _ _ _ eq_refl) as F.
    clear - B Hs. revert Hs. remember (PStar (R_ y_comment ~~ R_ y_blank)%peg) as x eqn:Ex.
    remember (Ok t3 n3 t5 k3) as y eqn:Ey. revert t3 n3 t5 k3 Ey.
    induction B; intros t3' n3' t5' k3' Ey Hs; try discriminate; inversion Ex; subst; inversion Ey; subst; [exact Hs|].
    eapply IHB2; [reflexivity|reflexivity|].
    match goal with X : runs _ _ (PSeq _ _) _ _ (Ok _ _ _ _) |- _ => apply seq_ok_inv in X as (? & ? & ? & ? & ? & ? & _ & _ & _ & X); now apply blank_inv in X end. }
  assert (Hsp : t5 = spaces (length t5)).
  { clear - Hw Hst. induction t5 as [|c w IH]; [reflexivity|].
    assert (c = SP).
    { destruct (Hw c (or_introl eq_refl)) as [E|[-> | ->]]; [exact E| |]; destruct (Hst _ _ eq_refl); congruence. }
    subst c. cbn. f_equal. apply IH; [now apply (loose_tail SP)|]. intros d r E. exact (Hst d r E). }
  destruct (comment_star_inv _ _ _ _ _ B eq_refl _ _ _ _ eq_refl Hs) as (cs & Hf).
  { exists []. split; [|auto]. rewrite Hsp. apply (FEnd []). constructor. }
  exists cs. now apply finish_blanks.
Qed.
End FlowText2.
