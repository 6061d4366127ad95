(** Exactly which texts are paths: tokens. *)
From Coq Require Import ZArith.
From Verif Require Import Base Path Num Peg PegFacts PathGrammar Spec_Insert Spec_Path PathFacts Spec_Syntax.
Import ListNotations.

Notation gap := (repeat SP).

Lemma gap_spaces n : spaces (gap n).
Proof. intros c I. now apply repeat_spec in I. Qed.
Lemma spaces_gap s : spaces s -> s = gap (length s).
Proof.
  induction s as [|c s IH]; intros H; [reflexivity|]. cbn. rewrite (H c (or_introl eq_refl)). f_equal.
  apply IH. intros x X. apply H. now right.
Qed.
Lemma gap_split s : exists n r, s = gap n ++ r /\ head r <> Some SP.
Proof.
  induction s as [|c s (n & r & -> & H)]; [exists 0, []; split; [reflexivity|discriminate]|].
  destruct (N.eq_dec c SP) as [->|N]; [exists (S n), r; now split|].
  exists 0, (c :: gap n ++ r). split; [reflexivity|]. cbn. congruence.
Qed.
Lemma gap_end s : exists w m, s = w ++ gap m /\ forall r, w <> r ++ [SP].
Proof.
  induction s as [|c s IH] using rev_ind; [exists [], 0; split; [reflexivity|]; intros [|? ?]; discriminate|].
  destruct IH as (w & m & -> & H). destruct (N.eq_dec c SP) as [->|N].
  - exists w, (S m). split; [|exact H]. rewrite <- app_assoc. f_equal. symmetry. apply repeat_cons.
  - exists ((w ++ gap m) ++ [c]), 0. split; [now rewrite app_nil_r|]. intros r E. apply app_inj_tail in E as [_ E]. contradiction.
Qed.
Lemma gap_inj n m r s : gap n ++ r = gap m ++ s -> head r <> Some SP -> head s <> Some SP -> n = m /\ r = s.
Proof.
  revert m. induction n as [|n IH]; intros [|m]; cbn; intros E R S; [auto|subst r; now destruct R|subst s; now destruct S|].
  injection E as E. destruct (IH m E R S) as [-> ->]. auto.
Qed.

(** ---- inversion ---- *)
Lemma skip_gap s k t n s2 k2 : pruns true p_skip s k (Ok t n s2 k2) ->
  exists m, t = gap m /\ n = repeat ws_node m /\ s = gap m ++ s2 /\ head s2 <> Some SP /\ k2 = k.
Proof.
  intros H. destruct (gap_split s) as (m & r & -> & N). pose proof (skip_run m r k N) as K.
  pose proof (runs_det _ _ _ _ _ _ _ H K) as E. injection E as -> -> -> ->. now exists m.
Qed.
Lemma lit_inv em c s k t n s2 k2 : pruns em (PStr [c]) s k (Ok t n s2 k2) -> s = c :: s2 /\ t = [c] /\ n = [] /\ k2 = k.
Proof. intros H. inversion H as [? ? ? ? ? X| | | | | | | | | | | | | | | | | | | | | | | | | | | | | | | | | |]; subst. apply strip_app in X. auto. Qed.
Lemma pseq_gap a b s k t n s2 k2 : pruns true (p_seq a b) s k (Ok t n s2 k2) ->
  exists t1 n1 m r k1 t2 n2, pruns true a s k (Ok t1 n1 (gap m ++ r) k1) /\ head r <> Some SP /\
    pruns true b r k1 (Ok t2 n2 s2 k2) /\ t = t1 ++ gap m ++ t2 /\ n = n1 ++ repeat ws_node m ++ n2.
Proof.
  intros H. apply seq_inv in H as (t1 & n1 & s1 & k1 & t2 & n2 & H1 & H2 & -> & ->).
  apply seq_inv in H2 as (t3 & n3 & s3 & k3 & t4 & n4 & H2 & H3 & -> & ->).
  apply skip_gap in H2 as (m & -> & -> & -> & N & ->). exists t1, n1, m, s3, k1, t4, n4. auto.
Qed.
Lemma run_gap a b s k t1 n1 m r k1 t2 n2 s2 k2 :
  pruns true a s k (Ok t1 n1 (gap m ++ r) k1) -> head r <> Some SP -> pruns true b r k1 (Ok t2 n2 s2 k2) ->
  pruns true (p_seq a b) s k (Ok (t1 ++ gap m ++ t2) (n1 ++ repeat ws_node m ++ n2) s2 k2).
Proof. intros A N B. eapply RSeq; [exact A|]. eapply RSeq; [now apply skip_run|exact B]. Qed.

(** ---- tokens ---- *)
(** What follows the first character of a token, and the number of spaces after the token. *)
Definition shape (u : str) (m : nat) : Prop := (spaces u /\ m = 0) \/ (~ spaces u /\ forall r, u <> r ++ [SP]).

Lemma shape_split u0 : exists u m, u0 = u ++ gap m /\ shape u m.
Proof.
  destruct (gap_end u0) as (w & m & -> & H). destruct w as [|c w].
  - exists (gap m), 0. split; [now rewrite app_nil_r|]. left. split; [apply gap_spaces|reflexivity].
  - exists (c :: w), m. split; [reflexivity|]. right. split; [|exact H]. intros S.
    destruct (@exists_last _ (c :: w) ltac:(discriminate)) as (r & x & E). apply (H r). rewrite E. f_equal. f_equal.
    apply S. rewrite E. apply in_or_app. right. now left.
Qed.
Lemma spaces_dec u : spaces u \/ ~ spaces u.
Proof.
  induction u as [|c u [IH|IH]]; [left; intros c []| |right; intros H; apply IH; intros x X; apply H; now right].
  destruct (N.eq_dec c SP) as [->|N]; [left; intros x [<-|X]; auto|right; intros H; apply N, H; now left].
Qed.
Lemma shape_tidy u m : shape u m -> tidy u.
Proof. intros [[H _]|[_ H]]; [now left|now right]. Qed.
Lemma tidy_shape u : tidy u -> shape u 0.
Proof. intros [H|H]; [left; auto|]. destruct (spaces_dec u); [left; auto|right; auto]. Qed.

Section Token.
  Variables (E : pexp prule) (bad : char -> Prop).
  Hypothesis Hdec : forall c, bad c \/ ~ bad c.
  Hypothesis Hsp : ~ bad SP.
  Hypothesis H1 : forall c s k, c <> SP -> ~ bad c -> pruns true E (c :: s) k (Ok [c] [] s k).
  Hypothesis H2 : forall c s k, bad c -> pruns true E (c :: s) k Fail.
  Hypothesis H3 : forall k, pruns true E [] k Fail.

  Definition free (s : str) : Prop := forall c, In c s -> ~ bad c.
  Definition stops (rest : str) : Prop := rest = [] \/ exists c r, rest = c :: r /\ bad c.
  Lemma stops_no_space rest : stops rest -> head rest <> Some SP.
  Proof. intros [->|(c & r & -> & Hc)]; cbn; [discriminate|]. intros X. inversion X. congruence. Qed.
  Lemma stops_fail rest k : stops rest -> pruns true E rest k Fail.
  Proof. intros [->|(c & r & -> & Hc)]; auto. Qed.

  Lemma free_chunks u : free u -> (forall r, u <> r ++ [SP]) ->
    exists l, u = chunks l /\ Forall (fun x => snd x <> SP /\ ~ bad (snd x)) l.
  Proof.
    induction u as [|c u IH]; intros Hb Hl; [exists []; split; [reflexivity|constructor]|].
    destruct IH as (l & E1 & F).
    { intros x Hx. apply Hb. now right. }
    { intros r ->. apply (Hl (c :: r)). reflexivity. }
    destruct (N.eq_dec c SP) as [->|Hc].
    - destruct l as [|[n d] l].
      + exfalso. apply (Hl []). subst u. reflexivity.
      + exists ((S n, d) :: l). split; [|inversion F; constructor; auto].
        subst u. reflexivity.
    - exists ((0, c) :: l). split; [now subst u|]. constructor; [|exact F]. split; [exact Hc|]. apply Hb. now left.
  Qed.
  Lemma star_gap l m rest k : Forall (fun x => snd x <> SP /\ ~ bad (snd x)) l -> stops rest ->
    exists ns, pruns true (PStar (PSeq p_skip E)) (chunks l ++ gap m ++ rest) k (Ok (chunks l) ns (gap m ++ rest) k).
  Proof.
    intros F Hr. induction F as [|[n c] l [Hc Hb] _ [ns IH]].
    - exists []. apply RStar0. eapply RSeq2; [apply skip_run; now apply stops_no_space| |reflexivity].
      now apply stops_fail.
    - cbn in Hc, Hb. eexists. cbn [chunks flat_map fst snd].
      change (flat_map (fun x => gap (fst x) ++ [snd x]) l) with (chunks l).
      rewrite <- (app_assoc (gap n ++ [c])).
      eapply RStar1; [|exact IH]. rewrite <- app_assoc.
      eapply RSeq; [apply skip_run; cbn; congruence|]. now apply H1.
  Qed.
  (** After the first item. *)
  Lemma more_run u m rest k : free u -> shape u m -> stops rest ->
    exists ns, pruns true (PSeq p_skip (p_rep E)) (u ++ gap m ++ rest) k (Ok u ns (gap m ++ rest) k).
  Proof.
    intros W S Hr. destruct S as [[S ->]|[S L]].
    - rewrite (spaces_gap u S). eexists. cbn [repeat app]. rewrite <- (app_nil_r (gap (length u))) at 2.
      eapply RSeq; [apply skip_run; now apply stops_no_space|]. apply ROpt2. apply RSeq1; [|reflexivity].
      now apply stops_fail.
    - destruct (free_chunks u W L) as (l & -> & F). destruct F as [|[n c] l [Hc Hbc] F].
      + exfalso. apply S. intros c [].
      + cbn in Hc, Hbc. destruct (star_gap l m rest k F Hr) as [ns IH]. eexists.
        cbn [chunks flat_map fst snd].
        change (flat_map (fun x => gap (fst x) ++ [snd x]) l) with (chunks l).
        rewrite <- !app_assoc. eapply RSeq; [apply skip_run; cbn; congruence|].
        apply ROpt1; [|discriminate]. eapply RSeq; [now apply H1|exact IH].
  Qed.
  Lemma token_run c u m rest k : c <> SP -> free (c :: u) -> shape u m -> stops rest ->
    exists ns, pruns true (p_plus E) ((c :: u) ++ gap m ++ rest) k (Ok (c :: u) ns (gap m ++ rest) k).
  Proof.
    intros N W S Hr. destruct (more_run u m rest k (fun x X => W x (or_intror X)) S Hr) as [ns R].
    exists ns. change (c :: u) with ([c] ++ u) at 2. change ns with ([] ++ ns). eapply RSeq; [|exact R].
    apply H1; [exact N|]. apply W. now left.
  Qed.
  Lemma bad_span r : exists u rest, r = u ++ rest /\ free u /\ stops rest.
  Proof.
    induction r as [|c r (u & rest & -> & W & B)].
    - exists [], []. split; [reflexivity|]. split; [intros c []|now left].
    - destruct (Hdec c) as [I|I].
      + exists [], (c :: u ++ rest). split; [reflexivity|]. split; [intros x []|]. right. now exists c, (u ++ rest).
      + exists (c :: u), rest. split; [reflexivity|]. split; [|exact B]. intros x [<- | X]; [exact I|now apply W].
  Qed.
  (** A token, the spaces after it, and what follows. *)
  Definition tok (t : str) (m : nat) (rest : str) : Prop :=
    exists c u, t = c :: u /\ c <> SP /\ free t /\ shape u m /\ stops rest.
  Lemma tok_run t m rest k : tok t m rest -> exists ns, pruns true (p_plus E) (t ++ gap m ++ rest) k (Ok t ns (gap m ++ rest) k).
  Proof. intros (c & u & -> & A & B & C & D). now apply token_run. Qed.
  Lemma tok_inv s k t ns s2 k2 : head s <> Some SP -> pruns true (p_plus E) s k (Ok t ns s2 k2) ->
    k2 = k /\ exists m rest, s = t ++ gap m ++ rest /\ s2 = gap m ++ rest /\ tok t m rest.
  Proof.
    intros N R. destruct s as [|c r].
    { apply seq_inv in R as (t1 & n1 & s1 & k1 & _ & _ & R & _). pose proof (runs_det _ _ _ _ _ _ _ R (H3 k)). discriminate. }
    assert (C : c <> SP) by (intros ->; now apply N).
    destruct (Hdec c) as [I|I].
    { apply seq_inv in R as (t1 & n1 & s1 & k1 & _ & _ & R & _). pose proof (runs_det _ _ _ _ _ _ _ R (H2 c r k I)). discriminate. }
    destruct (bad_span r) as (u0 & rest & -> & W & B). destruct (shape_split u0) as (u & m & -> & S).
    assert (W' : free (c :: u)).
    { intros x [<- | X]; [exact I|]. apply W. apply in_or_app. now left. }
    destruct (token_run c u m rest k C W' S B) as [ns' R']. rewrite <- app_assoc in R.
    pose proof (runs_det _ _ _ _ _ _ _ R R') as Q. injection Q as -> _ -> ->. split; [reflexivity|].
    exists m, rest. rewrite <- app_assoc. split; [reflexivity|]. split; [reflexivity|]. exists c, u. auto.
  Qed.
End Token.

(** The kinds of tokens. *)
Definition key_bad (c : char) : Prop := In c (lit "[].|").
Definition field_bad (c : char) : Prop := In c (lit "=").
Definition value_bad (c : char) : Prop := In c (lit ".|").
Definition digit_bad (c : char) : Prop := ascii_digit c = false /\ c <> SP.

Lemma in_dec_or (c : char) (l : str) : In c l \/ ~ In c l. Proof. destruct (in_dec N.eq_dec c l); auto. Qed.
Lemma key_sp : ~ key_bad SP. Proof. cbn. intuition discriminate. Qed.
Lemma field_sp : ~ field_bad SP. Proof. cbn. intuition discriminate. Qed.
Lemma value_sp : ~ value_bad SP. Proof. cbn. intuition discriminate. Qed.
Lemma digit_sp : ~ digit_bad SP. Proof. now intros [_ H]. Qed.
Lemma digit_dec_or c : digit_bad c \/ ~ digit_bad c.
Proof.
  destruct (ascii_digit c) eqn:E; [right; intros [H _]; congruence|].
  destruct (N.eq_dec c SP) as [->|N]; [right; exact digit_sp|left; now split].
Qed.
Lemma digit_items :
  (forall c s k, c <> SP -> ~ digit_bad c -> pruns true (PClass ascii_digit) (c :: s) k (Ok [c] [] s k)) /\
  (forall c s k, digit_bad c -> pruns true (PClass ascii_digit) (c :: s) k Fail) /\
  (forall k, pruns true (PClass ascii_digit) [] k Fail).
Proof.
  split; [|split].
  - intros c s k N B. constructor. destruct (ascii_digit c) eqn:E; [reflexivity|]. exfalso. apply B. now split.
  - intros c s k [B _]. now constructor.
  - intros k. constructor.
Qed.

Lemma key_tok t m rest k : tok key_bad t m rest ->
  exists ns, pruns true (PRule p_pure_key) (t ++ gap m ++ rest) k (Ok t [Node p_pure_key t ns] (gap m ++ rest) k).
Proof.
  intros T. destruct key_items as (A1 & A2 & A3). destruct (tok_run _ _ key_sp A1 A2 A3 t m rest k T) as [ns R].
  exists ns. exact (RRule path_grammar true p_pure_key _ _ _ _ _ _ R).
Qed.
Lemma field_tok t m rest k : tok field_bad t m rest ->
  exists ns, pruns true (PRule p_field) (t ++ gap m ++ rest) k (Ok t [Node p_field t ns] (gap m ++ rest) k).
Proof.
  intros T. destruct field_items as (A1 & A2 & A3). destruct (tok_run _ _ field_sp A1 A2 A3 t m rest k T) as [ns R].
  exists ns. exact (RRule path_grammar true p_field _ _ _ _ _ _ R).
Qed.
Lemma value_tok t m rest k : tok value_bad t m rest ->
  exists ns, pruns true (PRule p_value) (t ++ gap m ++ rest) k (Ok t [Node p_value t ns] (gap m ++ rest) k).
Proof.
  intros T. destruct value_items as (A1 & A2 & A3). destruct (tok_run _ _ value_sp A1 A2 A3 t m rest k T) as [ns R].
  exists ns. exact (RRule path_grammar true p_value _ _ _ _ _ _ R).
Qed.
Lemma digit_tok t m rest k : tok digit_bad t m rest ->
  exists ns, pruns true (PRule p_index_number) (t ++ gap m ++ rest) k (Ok t [Node p_index_number t ns] (gap m ++ rest) k).
Proof.
  intros T. destruct digit_items as (A1 & A2 & A3). destruct (tok_run _ _ digit_sp A1 A2 A3 t m rest k T) as [ns R].
  exists ns. exact (RRule path_grammar true p_index_number _ _ _ _ _ _ R).
Qed.
Lemma field_inv s k t ns s2 k2 : head s <> Some SP -> pruns true (PRule p_field) s k (Ok t ns s2 k2) ->
  k2 = k /\ exists m rest, s = t ++ gap m ++ rest /\ s2 = gap m ++ rest /\ tok field_bad t m rest.
Proof.
  intros N R. apply rule_inv in R as (ns' & R & _). destruct field_items as (A1 & A2 & A3).
  exact (tok_inv _ _ (fun c => in_dec_or c _) field_sp A1 A2 A3 _ _ _ _ _ _ N R).
Qed.
Lemma value_inv s k t ns s2 k2 : head s <> Some SP -> pruns true (PRule p_value) s k (Ok t ns s2 k2) ->
  k2 = k /\ exists m rest, s = t ++ gap m ++ rest /\ s2 = gap m ++ rest /\ tok value_bad t m rest.
Proof.
  intros N R. apply rule_inv in R as (ns' & R & _). destruct value_items as (A1 & A2 & A3).
  exact (tok_inv _ _ (fun c => in_dec_or c _) value_sp A1 A2 A3 _ _ _ _ _ _ N R).
Qed.
Lemma digit_inv s k t ns s2 k2 : head s <> Some SP -> pruns true (PRule p_index_number) s k (Ok t ns s2 k2) ->
  k2 = k /\ exists m rest, s = t ++ gap m ++ rest /\ s2 = gap m ++ rest /\ tok digit_bad t m rest.
Proof.
  intros N R. apply rule_inv in R as (ns' & R & _). destruct digit_items as (A1 & A2 & A3).
  exact (tok_inv _ _ digit_dec_or digit_sp A1 A2 A3 _ _ _ _ _ _ N R).
Qed.
Lemma key_inv s k t ns s2 k2 : head s <> Some SP -> pruns true (PRule p_pure_key) s k (Ok t ns s2 k2) ->
  k2 = k /\ exists m rest, s = t ++ gap m ++ rest /\ s2 = gap m ++ rest /\ tok key_bad t m rest.
Proof.
  intros N R. apply rule_inv in R as (ns' & R & _). destruct key_items as (A1 & A2 & A3).
  exact (tok_inv _ _ (fun c => in_dec_or c _) key_sp A1 A2 A3 _ _ _ _ _ _ N R).
Qed.

(** The first name. *)
Definition ftok (t : str) (m : nat) (rest : str) : Prop :=
  exists n c u, t = gap n ++ c :: u /\ c <> SP /\ (n = 0 -> ~ key_bad c) /\ free key_bad u /\ shape u m /\ stops key_bad rest.

Lemma first_item n c s k : c <> SP -> exists ns,
  pruns true (PRule p_key_items) (gap (S n) ++ c :: s) k (Ok (gap (S n) ++ [c]) ns s k).
Proof.
  intros C. eexists. eapply (RRule path_grammar true p_key_items).
  change (gap (S n) ++ [c]) with ([] ++ gap (S n) ++ [c]). eapply run_gap.
  - refine (RNot path_grammar true _ _ k Fail _). repeat apply RAlt2; now apply lit1_no.
  - cbn. congruence.
  - constructor. reflexivity.
Qed.
Lemma first_tok t m rest k : ftok t m rest ->
  exists ns, pruns true (PRule p_pure_key) (t ++ gap m ++ rest) k (Ok t [Node p_pure_key t ns] (gap m ++ rest) k).
Proof.
  intros ([|n] & c & u & -> & C & B & W & S & R).
  - apply key_tok. exists c, u. repeat split; auto. intros x [<- | X]; auto.
  - destruct key_items as (A1 & A2 & A3). destruct (more_run _ _ key_sp A1 A2 A3 u m rest k W S R) as [ns X].
    destruct (first_item n c (u ++ gap m ++ rest) k C) as [ns1 X1]. eexists.
    pose proof (RSeq path_grammar true _ _ _ _ _ _ _ _ _ _ _ _ X1 X) as Y. rewrite <- (app_assoc (gap (Datatypes.S n))) in Y.
    cbn [app] in Y. rewrite <- app_assoc. exact (RRule path_grammar true p_pure_key _ _ _ _ _ _ Y).
Qed.
Lemma first_total s : (exists t m rest, s = t ++ gap m ++ rest /\ ftok t m rest) \/ spaces s \/ exists c r, s = c :: r /\ key_bad c.
Proof.
  destruct (gap_split s) as (n & [|c r] & -> & N); [right; left; rewrite app_nil_r; apply gap_spaces|].
  assert (C : c <> SP) by (intros ->; now apply N).
  assert (T : (n = 0 -> ~ key_bad c) -> exists t m rest, gap n ++ c :: r = t ++ gap m ++ rest /\ ftok t m rest).
  { intros B. destruct (bad_span key_bad (fun c => in_dec_or c _) r) as (u0 & rest & -> & W & R).
    destruct (shape_split u0) as (u & m & -> & S). exists (gap n ++ c :: u), m, rest. split; [now rewrite <- !app_assoc|].
    exists n, c, u. repeat split; auto. intros x X. apply W. apply in_or_app. now left. }
  destruct n as [|n]; [|left; now apply T]. destruct (in_dec_or c (lit "[].|")) as [I|I]; [right; right; now exists c, r|left; now apply T].
Qed.
Lemma first_fail s k : (spaces s \/ exists c r, s = c :: r /\ key_bad c) -> pruns true (PRule p_pure_key) s k Fail.
Proof.
  intros H. apply RRuleF; [|reflexivity]. apply RSeq1; [|reflexivity]. destruct key_items as (_ & A2 & A3).
  destruct H as [H|(c & r & -> & H)]; [|now apply A2]. rewrite (spaces_gap s H). destruct (length s) as [|n]; [apply A3|].
  apply RRuleF; [|reflexivity]. eapply RSeq2.
  - refine (RNot path_grammar true _ _ k Fail _). repeat apply RAlt2; now apply lit1_no.
  - pose proof (skip_run (S n) [] k ltac:(discriminate)) as X. rewrite app_nil_r in X.
    eapply RSeq2; [exact X|constructor|reflexivity].
  - reflexivity.
Qed.
Lemma first_inv s k t ns s2 k2 : pruns true (PRule p_pure_key) s k (Ok t ns s2 k2) ->
  k2 = k /\ exists m rest, s = t ++ gap m ++ rest /\ s2 = gap m ++ rest /\ ftok t m rest.
Proof.
  intros R. destruct (first_total s) as [(t' & m & rest & -> & T)|F].
  - destruct (first_tok _ _ _ k T) as [ns' R']. pose proof (runs_det _ _ _ _ _ _ _ R R') as Q. injection Q as -> _ -> ->.
    split; [reflexivity|]. now exists m, rest.
  - pose proof (runs_det _ _ _ _ _ _ _ R (first_fail s k F)). discriminate.
Qed.
Lemma first_fail_inv s k : pruns true (PRule p_pure_key) s k Fail -> spaces s \/ exists c r, s = c :: r /\ key_bad c.
Proof.
  intros R. destruct (first_total s) as [(t' & m & rest & -> & T)|F]; [|exact F].
  destruct (first_tok _ _ _ k T) as [ns' R']. pose proof (runs_det _ _ _ _ _ _ _ R R'). discriminate.
Qed.
