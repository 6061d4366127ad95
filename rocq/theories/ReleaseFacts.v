(** A build without overflow checks: the same documents, fewer panics. *)
From Coq Require Import ZArith.
From Verif Require Import Base Ast Num Peg PegFacts PegTree YamlGrammar Consume Release Spec_Parse YamlTree YamlValues ParseFacts Ser Spec_Serde TypedFacts SerdeFacts2 Spec_Path PathFacts Spec_Panic Spec_Release PanicFacts.
Import ListNotations.

Lemma minus_one_pos g : (0 < g < 2 ^ 64)%Z -> minus_one_wrapping g = (g - 1)%Z.
Proof. intros H. unfold minus_one_wrapping. apply Z.mod_small. lia. Qed.
Lemma usize_range t g : parse_usize t = Some g -> (0 <= g < 2 ^ 64)%Z.
Proof.
  intros P. apply (parse_int_spec U64) in P as [_ R]. change (2 ^ 64)%Z with 18446744073709551616%Z. unfold u64_max in R. cbn in R. lia.
Qed.

Section Release.
Context (ut : unitab).
Notation G := (yaml_grammar ut).
Notation tree := (tree G y_end).
Notation vals_of ch := (call_ (map (fun c => (label c, fold_node yaml_act c)) ch)).
Notation rvals_of ch := (call_ (map (fun c => (label c, fold_node yaml_act_release c)) ch)).

Lemma release_node n : consume_release n = cbind (rvals_of (kids n)) (yact_release (label n) (text n)).
Proof. now destruct n. Qed.
Lemma act_same r txt vs v : yact r txt vs = CVal v -> yact_release r txt vs = CVal v.
Proof.
  destruct r; try (intros H; exact H). cbn [yact yact_release]. destruct txt as [|d t]; [intros H; exact H|].
  destruct (parse_usize (d :: t)) as [g|] eqn:P; [|discriminate]. apply usize_range in P.
  destruct (g =? 0)%Z eqn:Z0; [discriminate|]. apply Z.eqb_neq in Z0. rewrite minus_one_pos; [intros H; exact H|lia].
Qed.
Lemma rvals_call ch vs : Forall2 (fun c p => fst p = label c /\ consume_release c = CVal (snd p)) ch vs -> rvals_of ch = CVal vs.
Proof.
  induction 1 as [|n [r v] ch vs [L E] F IH]; cbn [map call_]; [reflexivity|]. cbn [fst snd] in *. change (fold_node yaml_act_release n) with (consume_release n).
  rewrite E. cbn [cbind]. rewrite IH. cbn [cbind]. now subst.
Qed.
Lemma release_same n : forall v, consume n = CVal v -> consume_release n = CVal v.
Proof.
  induction n as [r t ch IH] using node_ind'. intros v H. rewrite consume_node in H. rewrite release_node. cbn [kids label text] in *.
  destruct (vals_of ch) as [vs| |] eqn:V; cbn [cbind] in H; try discriminate H. apply call_vals in V.
  rewrite (rvals_call ch vs).
  - cbn [cbind]. now apply act_same.
  - clear H. induction V as [|c p ch vs [L E] V IHV]; constructor; inversion IH; subst; auto.
Qed.

(** ---- no errors ---- *)
Definition rgood (n : node yrule) : Prop :=
  match consume_release n with CVal v => vty ut (label n) v | CErr => False | CPanic => True end.
Lemma rcall_good ch : Forall rgood ch ->
  (exists vs, rvals_of ch = CVal vs /\ Forall2 (valued ut) ch vs) \/ (rvals_of ch = CPanic /\ exists c, In c ch /\ consume_release c = CPanic).
Proof.
  induction 1 as [|n ch H Hch IH]; cbn [map call_].
  - left. exists []. auto.
  - unfold rgood in H. change (fold_node yaml_act_release n) with (consume_release n). destruct (consume_release n) as [v| |] eqn:E; cbn [cbind].
    + destruct IH as [(vs & -> & F)|[-> (c & I & Q)]]; cbn [cbind].
      * left. exists ((label n, v) :: vs). split; [reflexivity|]. constructor; [split; [reflexivity|exact H]|exact F].
      * right. split; [reflexivity|]. exists c. split; [now right|exact Q].
    + contradiction.
    + right. split; [reflexivity|]. exists n. split; [now left|exact E].
Qed.
Lemma tree_rgood n : tree n -> consumed (label n) = true -> rgood n.
Proof.
  induction n as [r txt ch IH] using node_ind'. intros T Hc. pose proof T as T0. inversion T as [r' txt' ch' em s k ns rest k' Sil R Em Ech Tk Ik|r' Er]; subst.
  - cbn [label] in Hc. destruct (fst (G r)) eqn:Em; cbn [emit_in] in R.
    + assert (Hg : Forall rgood ns).
      { destruct (kids_ok ut _ T0 Hc) as (A & B & _). cbn [kids] in *. rewrite Forall_forall in *. intros n Hn. apply IH; auto. }
      unfold rgood. rewrite release_node. cbn [kids label text].
      destruct (rcall_good ns Hg) as [(vs & -> & F)|[-> _]]; [|exact I]. cbn [cbind].
      pose proof (step_act ut _ _ _ _ _ _ _ vs Hc Em R F) as A.
      destruct r; cbn [yact_release]; try (destruct (yact _ txt vs); [exact A|exact A|exact I]).
      destruct txt as [|d t]; [cbn [vty]; eauto|]. destruct (parse_usize (d :: t)); cbn [vty]; eauto.
    + contradiction.
    + pose proof (tree_good ut _ T0 Hc) as Gd. pose proof (runs_silent G _ _ _ _ _ R eq_refl _ _ _ _ eq_refl) as ->.
      unfold rgood. unfold good in Gd. rewrite release_node. rewrite consume_node in Gd. cbn [kids label text map call_ cbind] in *.
      destruct r; try discriminate Em; cbn [yact_release]; (destruct (yact _ txt []); [exact Gd|exact Gd|exact I]).
  - destruct r; try discriminate. exact I.
Qed.
Lemma rgoods n : tree n -> consumed (label n) = true -> Forall rgood (kids n).
Proof.
  intros T C. destruct (kids_ok ut n T C) as (A & B & _). rewrite Forall_forall in *. intros c H. apply tree_rgood; auto.
Qed.

(** ---- where a panic comes from ---- *)
Definition is_block (m : node yrule) : Prop := label m = y_ml_literal \/ label m = y_ml_folded.
Lemma kid_panic n c : tree n -> consumed (label n) = true -> In c (kids n) -> consume_release c = CPanic -> consume_release n = CPanic.
Proof.
  intros T C I Q. pose proof (rgoods n T C) as Gd. rewrite release_node. destruct (rcall_good _ Gd) as [(vs & V & F)|[-> _]]; [exfalso|reflexivity].
  clear Gd F. revert vs V. induction (kids n) as [|x l IH]; [destruct I|]. cbn [map call_]. change (fold_node yaml_act_release x) with (consume_release x).
  intros vs V. destruct I as [->|I]; [rewrite Q in V; discriminate V|]. destruct (consume_release x); cbn [cbind] in V; try discriminate V.
  destruct (rvals_of l) as [l'| |]; cbn [cbind] in V; try discriminate V. eapply IH; eauto.
Qed.
Lemma panic_up n m : below n m -> tree n -> consumed (label n) = true -> consume_release m = CPanic -> consume_release n = CPanic.
Proof.
  induction 1 as [n|n c m I B IH]; intros T C Q; [exact Q|]. destruct (kids_ok ut n T C) as (A & A' & _). rewrite Forall_forall in A, A'.
  exact (kid_panic n c T C I (IH (A c I) (A' c I) Q)).
Qed.
Lemma panic_down n : tree n -> consumed (label n) = true -> consume_release n = CPanic ->
  label n = y_ml_indent \/ exists m, below n m /\ is_block m /\ consume_release m = CPanic.
Proof.
  induction n as [r t ch IH] using node_ind'. intros T C Q. pose proof (rgoods _ T C) as Gd. destruct (kids_ok ut _ T C) as (A & B & K).
  pose proof Q as Q0. rewrite release_node in Q. cbn [kids label text] in *. destruct (rcall_good ch Gd) as [(vs & V & F)|[V (c & I & Qc)]].
  - rewrite V in Q. cbn [cbind] in Q. destruct (in_dec (fun a b : yrule => ltac:(decide equality)) r [y_ml_indent]) as [[<-|[]]|N]; [now left|right].
    assert (Q' : yact r t vs = CPanic) by (destruct r; try exact Q; destruct N; now left).
    destruct (act_cases ut (Node r t ch) vs T C Q') as [L|L]; [destruct N; left; symmetry; exact L|].
    exists (Node r t ch). split; [constructor|]. split; [exact L|exact Q0].
  - rewrite Forall_forall in IH, A, B. destruct (IH c I (A c I) (B c I) Qc) as [L|(m & Bm & L & Qm)].
    + right. exists (Node r t ch). split; [constructor|]. split; [|exact Q0]. destruct K as [K|[K|K]]; [now left|now right|].
      rewrite Forall_forall in K. now destruct (K c I).
    + right. exists m. split; [econstructor; eauto|]. split; assumption.
Qed.
Lemma block_panic m : tree m -> is_block m -> (consume m = CPanic <-> bad_block m).
Proof.
  intros T L. assert (C : consumed (label m) = true) by (destruct L as [-> | ->]; reflexivity). rewrite (block_iff ut m T L). split.
  - intros Q. rewrite consume_node in Q. destruct (call_good ut _ (goods ut m T C)) as [(vs & V & F)|[V _]].
    + right. exists vs. split; [exact V|]. rewrite V in Q. exact Q.
    + left. apply (call_panic ut _ (goods ut m T C)) in V as (c & I & Qc). destruct (kids_ok ut m T C) as (A & B & _). rewrite Forall_forall in A, B.
      destruct (block_kids ut m T L) as (pre & i & c' & E & Li & Lc & P). rewrite E in I, A. apply in_app_or in I as [I|[<-|[<-|[]]]].
      * destruct P as [->|(h & -> & Lh)]; [destruct I|]. destruct I as [<-|[]]. destruct (chomp_val ut h (A h (or_introl eq_refl)) Lh) as [x X]. congruence.
      * exists i. split; [|exact Qc]. split; [rewrite E; apply in_or_app; right; now left|exact Li].
      * destruct (content_lines ut c') as (ls & V & _); [apply A, in_or_app; right; right; now left|exact Lc|]. congruence.
  - intros [(i & [I L'] & Q)|(vs & V & Q)]; rewrite consume_node; [|now rewrite V].
    rewrite (proj2 (call_panic ut _ (goods ut m T C))); [reflexivity|]. eauto.
Qed.
Lemma zero_usize t : is_dec t -> dec_value t = 0%N -> parse_usize t = Some 0%Z.
Proof. intros D Z0. rewrite (parse_dec t); [now rewrite Z0|exact D|rewrite Z0; reflexivity]. Qed.
Lemma block_release' m : tree m -> is_block m -> (consume_release m = CPanic <-> bad_block m /\ ~ spared m) /\ (spared m \/ ~ spared m).
Proof.
  intros T L. assert (C : consumed (label m) = true) by (destruct L as [-> | ->]; reflexivity).
  destruct (kids_ok ut m T C) as (A & _). destruct (block_kids ut m T L) as (pre & i & c & E & Li & Lc & P).
  rewrite E in A. apply Forall_app in A as [Tpre A]. inversion A as [|? ? Ti A1]; subst. apply Forall_inv in A1 as Tc.
  assert (Ui : forall i', child y_ml_indent m i' -> i' = i).
  { intros i' [I' L']. rewrite E in I'. apply in_app_or in I' as [I'|[<-|[<-|[]]]]; [|reflexivity|congruence].
    destruct P as [->|(h & -> & Lh)]; [destruct I'|]. destruct I' as [<-|[]]. congruence. }
  assert (Uc : forall c', child y_ml_content m c' -> c' = c).
  { intros c' [I' L']. rewrite E in I'. apply in_app_or in I' as [I'|[<-|[<-|[]]]]; [|congruence|reflexivity].
    destruct P as [->|(h & -> & Lh)]; [destruct I'|]. destruct I' as [<-|[]]. congruence. }
  assert (Ii : child y_ml_indent m i) by (split; [rewrite E; apply in_or_app; right; now left|exact Li]).
  assert (Ic : child y_ml_content m c) by (split; [rewrite E; apply in_or_app; right; right; now left|exact Lc]).
  destruct (content_lines ut c Tc Lc) as (ls & V & Hl & _). destruct (indent_iff ut i Ti Li) as [_ D].
  assert (Ki : kids i = []).
  { destruct (tree_run ut i Ti) as (em & s & k & rest & k' & -> & R); [rewrite Li; discriminate|]. rewrite Li in R. cbn [fst emit_in] in R.
    pose proof (runs_shn G 3 _ _ _ _ _ _ _ R) as S. cbv -[app label kids] in S. unpack; auto. }
  assert (Zd : (is_dec (text i) /\ dec_value (text i) = 0%N) \/ ~ (is_dec (text i) /\ dec_value (text i) = 0%N)).
  { destruct (parse_usize (text i)) as [g|] eqn:Pu; [destruct (Z.eq_dec g 0) as [->|N]|].
    - assert (Np : ~ In (chr "+") (text i)).
      { destruct (tree_run ut i Ti) as (em & s & k & rest & k' & -> & R); [rewrite Li; discriminate|]. rewrite Li in R. cbn [fst emit_in] in R.
        pose proof (runs_shp G _ _ _ _ _ R eq_refl _ _ _ _ eq_refl 3) as S'. exact (star_no_plus ut _ _ _ S'). }
      left. apply (usize_iff _ _ Np) in Pu as (D' & _ & Z'). split; [exact D'|lia].
    - right. intros [D' Z']. rewrite (zero_usize _ D' Z') in Pu. congruence.
    - right. intros [D' Z']. rewrite (zero_usize _ D' Z') in Pu. congruence. }
  destruct Zd as [[Dz Vz]|Nz].
  - assert (Ne : text i <> []) by (destruct Dz as [X _]; exact X).
    assert (Bad : bad_block m).
    { split; [exact L|]. exists i, c. split; [exact Ii|]. split; [exact Ic|]. left. split; [exact Ne|]. intros (w & _ & W & _). lia. }
    assert (Vi : consume_release i = CVal (VIndent (Some (2 ^ 64 - 1)%N))).
    { rewrite release_node, Ki, Li. cbn [map call_ cbind yact_release]. rewrite (zero_usize _ Dz Vz). destruct (text i); [now destruct Ne|reflexivity]. }
    assert (Q : consume_release m = CPanic <-> clean_lines (2 ^ 64 - 1) ls = CPanic).
    { destruct P as [->|(h & -> & Lh)].
      - rewrite release_node, E, (rvals_call _ [(y_ml_indent, VIndent (Some (2 ^ 64 - 1)%N)); (y_ml_content, VStrs ls)]).
        + destruct L as [L|L]; rewrite L; cbn [cbind yact_release yact multiline clean_multiline]; destruct (clean_lines (2 ^ 64 - 1) ls); cbn [cbind]; split; congruence.
        + repeat constructor; auto. cbn [snd]. now apply release_same.
      - destruct (chomp_val ut h (Forall_inv Tpre) Lh) as [ch Vh].
        rewrite release_node, E, (rvals_call _ [(y_chomping, VChomp ch); (y_ml_indent, VIndent (Some (2 ^ 64 - 1)%N)); (y_ml_content, VStrs ls)]).
        + destruct L as [L|L]; rewrite L; cbn [cbind yact_release yact multiline clean_multiline]; destruct (clean_lines (2 ^ 64 - 1) ls); cbn [cbind]; split; congruence.
        + repeat constructor; auto; cbn [snd]; now apply release_same. }
    assert (Ds : forall b, {b = [] \/ cuttable (2 ^ 64 - 1) b} + {~ (b = [] \/ cuttable (2 ^ 64 - 1) b)}).
    { intros b. destruct b as [|x b]; [left; now left|]. destruct (slice_from (2 ^ 64 - 1) (x :: b)) as [y|] eqn:Sl.
      - left. right. apply slice_some. eauto.
      - right. intros [Z0|Z0]; [discriminate|]. now apply (proj1 (slice_iff _ _) Sl). }
    assert (Sp : spared m <-> Forall (fun b => b = [] \/ cuttable (2 ^ 64 - 1) b) ls).
    { split.
      - intros (i' & c' & _ & Hc & _ & _ & F). rewrite (Uc c' Hc) in F. apply Forall_forall. intros b I. destruct b as [|x b]; [now left|].
        apply F, Hl; [discriminate|exact I].
      - intros F. exists i, c. do 4 (split; [assumption|]). intros b Hb. destruct b as [|x b]; [now left|].
        rewrite Forall_forall in F. apply F, Hl; [discriminate|exact Hb]. }
    rewrite Q, clean_panic, Sp. split.
    + split.
      * intros (b & I & N & Cut). split; [exact Bad|]. intros F. rewrite Forall_forall in F. destruct (F b I); contradiction.
      * intros [_ F]. apply (neg_Forall_Exists_neg Ds) in F. apply Exists_exists in F as (b & I & N). exists b. split; [exact I|]. tauto.
    + destruct (Forall_dec _ Ds ls); auto.
  - assert (Same : consume_release i = consume i).
    { rewrite release_node, consume_node, Ki, Li. cbn [map call_ cbind yact yact_release].
      destruct (text i) as [|d t] eqn:Et; [reflexivity|]. rewrite <- Et in *. destruct (parse_usize (text i)) as [g|] eqn:Pu; [|reflexivity].
      pose proof (usize_range _ _ Pu) as Rg. destruct (Z.eqb_spec g 0) as [->|Ng].
      - destruct Nz. assert (Np : ~ In (chr "+") (text i)).
        { destruct (tree_run ut i Ti) as (em & s & k & rest & k' & -> & R); [rewrite Li; discriminate|]. rewrite Li in R. cbn [fst emit_in] in R.
          pose proof (runs_shp G _ _ _ _ _ R eq_refl _ _ _ _ eq_refl 3) as S'. exact (star_no_plus ut _ _ _ S'). }
        apply (usize_iff _ _ Np) in Pu as (D' & _ & Z'). split; [exact D'|lia].
      - rewrite minus_one_pos; [reflexivity|lia]. }
    assert (Sm : consume_release m = consume m).
    { rewrite release_node, consume_node, E.
      assert (X : rvals_of (pre ++ [i; c]) = vals_of (pre ++ [i; c])).
      { destruct P as [->|(h & -> & Lh)]; cbn [app map call_]; change (fold_node yaml_act_release ?x) with (consume_release x); change (fold_node yaml_act ?x) with (consume x);
          rewrite Same, V, (release_same c _ V); [reflexivity|]. destruct (chomp_val ut h (Forall_inv Tpre) Lh) as [ch Vh]. now rewrite Vh, (release_same h _ Vh). }
      rewrite X. destruct L as [L|L]; now rewrite L. }
    assert (Ns : ~ spared m) by (intros (i' & c' & Hi & _ & D' & Z' & _); rewrite (Ui i' Hi) in *; tauto).
    rewrite Sm, (block_panic m T L). tauto.
Qed.
Lemma block_release m : tree m -> is_block m -> (consume_release m = CPanic <-> bad_block m /\ ~ spared m).
Proof. intros T L. exact (proj1 (block_release' m T L)). Qed.
Lemma tree_release n : tree n -> consumed (label n) = true -> label n <> y_ml_indent ->
  (consume_release n = CPanic <-> exists m, below n m /\ bad_block m /\ ~ spared m).
Proof.
  intros T C N. split.
  - intros Q. destruct (panic_down n T C Q) as [X|(m & B & L & Qm)]; [contradiction|]. exists m. split; [exact B|].
    destruct (below_ok ut n m B T C) as [Tm _]. now apply block_release.
  - intros (m & B & Bad). destruct (below_ok ut n m B T C) as [Tm Cm]. apply (panic_up n m B T C). apply block_release; [exact Tm|apply Bad|exact Bad].
Qed.

(** ---- the whole file ---- *)
Lemma release_by (P : cres document -> cres document -> Prop) s :
  (runs G true (PRule y_yaml) s [] Fail -> P CErr CErr) ->
  (forall t n rest k, runs G true (PRule y_yaml) s [] (Ok t [n] rest k) -> label n = y_yaml -> tree n ->
     P (match consume n with CVal (VDoc d) => CVal d | CVal _ => CErr | CErr => CErr | CPanic => CPanic end)
       (match consume_release n with CVal (VDoc d) => CVal d | CVal _ => CErr | CErr => CErr | CPanic => CPanic end)) ->
  P (parse_yaml ut s) (parse_yaml_release ut s).
Proof.
  intros HF HO. destruct (yaml_total ut s) as (x & E & Hr). unfold parse_yaml, parse_yaml_release.
  revert E. generalize (yaml_fuel s). intros f E. rewrite E.
  destruct x as [t ns rest k| |].
  - pose proof (yaml_accepted ut _ _ _ _ _ Hr) as (n & -> & L & _). apply (HO t n rest k Hr L).
    pose proof (runs_trees G y_end (y_eoi_only ut) _ _ _ _ _ Hr eq_refl _ _ _ _ eq_refl) as [T' _]. now inversion T'.
  - now apply HF.
  - pose proof (rule_stack G y_req (yaml_grammar_typed ut) true y_yaml s [] _ ltac:(cbn; lia) Hr) as S.
    contradiction.
Qed.
Lemma whole n : tree n -> label n = y_yaml ->
  (exists d, consume_release n = CVal (VDoc d) /\ forall d', consume n = CVal (VDoc d') -> d' = d) \/ consume_release n = CPanic.
Proof.
  intros T L. pose proof (tree_rgood n T) as Gd. rewrite L in Gd. specialize (Gd eq_refl). unfold rgood in Gd. rewrite L in Gd.
  destruct (consume_release n) as [v| |] eqn:E; [|contradiction|now right]. left. destruct Gd as (d & -> & _). exists d. split; [reflexivity|].
  intros d' H. apply release_same in H. congruence.
Qed.
Lemma parse_release_same s d : parse_yaml ut s = CVal d -> parse_yaml_release ut s = CVal d.
Proof.
  apply (release_by (fun a b => a = CVal d -> b = CVal d) s); [intros _ X; discriminate X|]. intros t n rest k R L T H.
  destruct (consume n) as [v| |] eqn:E; try discriminate H. now rewrite (release_same n v E).
Qed.
Lemma parse_release_err s : parse_yaml_release ut s = CErr <-> parse_yaml ut s = CErr.
Proof.
  apply (release_by (fun a b => b = CErr <-> a = CErr) s); [tauto|]. intros t n rest k R L T.
  pose proof (tree_good ut n T) as Gd. rewrite L in Gd. specialize (Gd eq_refl). unfold good in Gd. rewrite L in Gd.
  destruct (whole n T L) as [(d & -> & _)| -> ]; (destruct (consume n) as [v| |]; [destruct Gd as (d' & -> & _)|contradiction|]); split; discriminate.
Qed.
Lemma parse_release_panics s : parse_yaml_release ut s = CPanic <->
  exists t n rest k m, runs G true (PRule y_yaml) s [] (Ok t [n] rest k) /\ below n m /\ bad_block m /\ ~ spared m.
Proof.
  apply (release_by (fun _ b => b = CPanic <-> exists t n rest k m, runs G true (PRule y_yaml) s [] (Ok t [n] rest k) /\ below n m /\ bad_block m /\ ~ spared m) s).
  - intros F. split; [discriminate|]. intros (t & n & rest & k & m & R & _). pose proof (runs_det _ _ _ _ _ _ _ F R). discriminate.
  - intros t n rest k R L T. pose proof (tree_release n T ltac:(now rewrite L) ltac:(rewrite L; discriminate)) as X. split.
    + intros H. destruct (whole n T L) as [(d & E & _)|E]; [rewrite E in H; discriminate H|]. apply X in E as (m & B). eauto 8.
    + intros (t' & n' & rest' & k' & m & R' & B). pose proof (runs_det _ _ _ _ _ _ _ R R') as E. injection E as _ <- _ _.
      rewrite (proj2 X); [reflexivity|]. eauto.
Qed.
Lemma parse_release_only s : ((exists d, parse_yaml_release ut s = CVal d) /\ parse_yaml ut s = CPanic) <->
  exists t n rest k, runs G true (PRule y_yaml) s [] (Ok t [n] rest k) /\ (exists m, below n m /\ bad_block m) /\ (forall m, below n m -> bad_block m -> spared m).
Proof.
  split.
  - intros [[d D] P]. apply parse_panics in P as (t & n & rest & k & m & R & B & Bad). exists t, n, rest, k. split; [exact R|]. split; [eauto|].
    intros m' B' Bad'. pose proof (runs_trees G y_end (y_eoi_only ut) _ _ _ _ _ R eq_refl _ _ _ _ eq_refl) as [T _]. inversion T as [|? ? Tn _]; subst.
    destruct (yaml_accepted ut _ _ _ _ _ R) as (n0 & En & Ln & _). injection En as <-.
    destruct (below_ok ut n m' B' Tn) as [Tm _]; [now rewrite Ln|]. destruct (proj2 (block_release' m' Tm (proj1 Bad'))) as [Sp|Sp]; [exact Sp|exfalso].
    assert (parse_yaml_release ut s = CPanic) by (apply parse_release_panics; eauto 10). congruence.
  - intros (t & n & rest & k & R & (m & B & Bad) & F). assert (P : parse_yaml ut s = CPanic) by (apply parse_panics; eauto 8). split; [|exact P].
    destruct (parse_yaml_release ut s) as [d| |] eqn:E; [eauto| |].
    + apply parse_release_err in E. congruence.
    + apply parse_release_panics in E as (t' & n' & rest' & k' & m' & R' & B' & Bad' & Sp). pose proof (runs_det _ _ _ _ _ _ _ R R') as X. injection X as _ <- _ _.
      destruct (Sp (F m' B' Bad')).
Qed.
End Release.
