(** Blank lines and comments, exactly: what the grammar takes is what Spec_Flow.v says. *)
From Coq Require Import ZArith.
From Verif Require Import Base Ast Num Peg PegFacts PegTree YamlGrammar Consume Spec_Parse YamlTree YamlValues
  Spec_Format Reads ParseFacts ParsedNeat ParsedNeat2 FormatText Spec_Layout Spec_Flow.
Import ListNotations.

Section FlowText.
Context (ut : unitab).
Notation G := (yaml_grammar ut).
Notation gets := (gets ut).
Notation eats := (eats ut).
Notation fails := (fails ut).
Notation one_blank := (PSeq y_zss y_nl).
Notation lends := ParsedNeat.line_end.

(** ---- space separators ---- *)

Lemma seps_nil : seps [].
Proof. intros c []. Qed.
Lemma seps_cons c z : is_zs c = true -> seps z -> seps (c :: z).
Proof. intros H Hz d [<-|Hd]; auto. Qed.
Lemma drop_seps z s : seps z -> drop_while is_zs (z ++ s) = drop_while is_zs s.
Proof.
  intros H. induction z as [|c z IH]; [reflexivity|]. cbn. rewrite (H c (or_introl eq_refl)).
  apply IH. intros d Hd. apply H. now right.
Qed.
Lemma drop_no_zs s : no_zs s -> drop_while is_zs s = s.
Proof. destruct s as [|c s]; cbn; [reflexivity|]. now intros ->. Qed.
Lemma no_zs_drop s : no_zs (drop_while is_zs s).
Proof.
  destruct (drop_while_split is_zs s) as (u & _ & _ & H). destruct (drop_while is_zs s) as [|c r]; cbn; [exact I|].
  eapply H. reflexivity.
Qed.
Lemma split_zs s : exists z, s = z ++ drop_while is_zs s /\ seps z.
Proof. destruct (drop_while_split is_zs s) as (u & E & H & _). exists u. auto. Qed.

(** No rest of a blank line comes first. *)
Definition stays (s : str) : Prop := no_break (drop_while is_zs s).
Lemma stays_seps z s : seps z -> stays s -> stays (z ++ s).
Proof. intros Hz H. unfold stays. now rewrite drop_seps. Qed.
Lemma stays_solid s : solid s -> stays s.
Proof.
  intros H. unfold stays. rewrite drop_no_zs by (now apply solid_zs). intros c r ->. cbn in H. tauto.
Qed.
Lemma stays_spaces n : stays (spaces n).
Proof.
  rewrite <- (app_nil_r (spaces n)). apply stays_seps; [|intros c r; discriminate].
  intros c H. exact (indent_zs n c H).
Qed.

Lemma zss_inv em s k t ns rest k' : runs G em y_zss s k (Ok t ns rest k') ->
  s = t ++ rest /\ seps t /\ rest = drop_while is_zs s /\ k' = k /\ ns = [].
Proof.
  intros H. pose proof (runs_text G _ _ _ _ _ H _ _ _ _ eq_refl) as E.
  pose proof (zss_drop ut _ _ _ _ _ H eq_refl _ _ _ _ eq_refl) as Er.
  destruct (split_zs s) as (z & Ez & Hz).
  assert (X : eats y_zss (z ++ drop_while is_zs s) k z (drop_while is_zs s) k).
  { apply eats_zss; [exact Hz|apply no_zs_drop]. }
  rewrite <- Ez in X. pose proof (runs_det _ _ _ _ _ _ _ H (X em)) as Y. inversion Y; subst. auto.
Qed.

(** ---- line breaks ---- *)

Lemma eats_cr s k : (forall r, s <> NL :: r) -> eats y_nl (CR :: s) k [CR] s k.
Proof.
  intros H. apply eats_alt2; [scanc|]. apply eats_alt2.
  - intros em. apply RStrF. destruct (strip [CR; NL] (CR :: s)) as [x|] eqn:E; [|reflexivity].
    apply strip_app in E. inversion E; subst. now destruct (H x).
  - exact (eats_str ut [CR] s k).
Qed.
Lemma eats_crnl s k : eats y_nl (CR :: NL :: s) k [CR; NL] s k.
Proof. apply eats_alt2; [scanc|]. apply eats_alt1. exact (eats_str ut [CR; NL] s k). Qed.
Lemma nl_inv em s k t ns rest k' : runs G em y_nl s k (Ok t ns rest k') ->
  s = t ++ rest /\ k' = k /\ (t = [NL] \/ t = [CR; NL] \/ t = [CR]).
Proof.
  intros H. split; [exact (runs_text G _ _ _ _ _ H _ _ _ _ eq_refl)|].
  inversion H; subst; [match goal with X : runs _ _ (PStr _) _ _ _ |- _ => inversion X; subst; auto end|].
  match goal with X : runs _ _ (PAlt _ _) _ _ _ |- _ => inversion X; subst end;
    match goal with X : runs _ _ (PStr _) _ _ (Ok _ _ _ _) |- _ => inversion X; subst; auto end.
Qed.

(** ---- blank lines ---- *)

Lemma blanks_app a b : blanks a -> blanks b -> blanks (a ++ b).
Proof.
  intros Ha Hb. induction Ha as [|z c a Hz Hc _ IH]; [exact Hb|].
  rewrite <- app_assoc. cbn [app]. now constructor.
Qed.
Lemma blanks_line z t : seps z -> t = [NL] \/ t = [CR; NL] \/ t = [CR] -> blanks (z ++ t).
Proof.
  intros Hz [->|[->| ->]].
  - constructor; [exact Hz|now left|constructor].
  - constructor; [exact Hz|now right|]. apply (BLine [] NL []); [apply seps_nil|now left|constructor].
  - constructor; [exact Hz|now right|constructor].
Qed.
Lemma blanks_first b : blanks b -> b = [] \/ exists z c r, b = z ++ c :: r /\ seps z /\ (c = NL \/ c = CR) /\ blanks r.
Proof. intros [|z c r Hz Hc Hr]; [now left|right]. exists z, c, r. auto. Qed.
Lemma seps_break z c r d x : seps z -> c = NL \/ c = CR -> z ++ c :: r = d :: x -> d = NL ->
  z = [] /\ c = NL /\ r = x.
Proof.
  intros Hz Hc E ->. destruct z as [|y z]; cbn in E; inversion E; subst; auto.
  specialize (Hz NL (or_introl eq_refl)). discriminate.
Qed.

Lemma eats_blank_star : forall n b X k, length b <= n -> blanks b -> stays X ->
  eats (PStar one_blank) (b ++ X) k b X k.
Proof.
  induction n as [n IH] using lt_wf_ind. intros b X k Hn Hb HX.
  destruct (blanks_first b Hb) as [->|(z & c & r & -> & Hz & Hc & Hr)].
  - cbn [app]. apply eats_star0.
    destruct (split_zs X) as (z & E & Hz). rewrite E. eapply fails_seq0; [apply eats_zss; [exact Hz|apply no_zs_drop]|].
    apply fails_nl. exact HX.
  - rewrite app_length in Hn. cbn [length] in Hn. rewrite <- app_assoc. cbn [app].
    assert (Hzc : no_zs (c :: r ++ X)) by (destruct Hc as [-> | ->]; reflexivity).
    destruct Hc as [-> | ->].
    + eapply eats_star1 with (t1 := z ++ [NL]); [|apply (IH (length r) ltac:(cbn in *; lia) r X k (le_n _) Hr HX)|now rewrite <- app_assoc].
      eapply eats_seq; [apply eats_zss; [exact Hz|exact Hzc]|apply eats_nl|reflexivity].
    + assert (HH : (forall x, r ++ X <> NL :: x) \/ exists x, r = NL :: x /\ blanks x).
      { destruct (blanks_first r Hr) as [->|(z' & c' & r' & -> & Hz' & Hc' & Hr')].
        - left. intros x E. cbn [app] in E. subst X. destruct (HX NL x eq_refl). congruence.
        - destruct z' as [|y z'].
          + destruct Hc' as [-> | ->]; [right; exists r'; auto|left; intros x; discriminate].
          + left. intros x E. inversion E; subst. specialize (Hz' NL (or_introl eq_refl)). discriminate. }
      destruct HH as [HH|(x & -> & Hx)].
      * eapply eats_star1 with (t1 := z ++ [CR]); [|apply (IH (length r) ltac:(cbn in *; lia) r X k (le_n _) Hr HX)|now rewrite <- app_assoc].
        eapply eats_seq; [apply eats_zss; [exact Hz|exact Hzc]|apply eats_cr, HH|reflexivity].
      * cbn [length] in Hn. eapply eats_star1 with (t1 := z ++ [CR; NL]); [|apply (IH (length x) ltac:(cbn in *; lia) x X k (le_n _) Hx HX)|now rewrite <- app_assoc].
        cbn [app]. eapply eats_seq; [apply eats_zss; [exact Hz|exact Hzc]|apply eats_crnl|reflexivity].
Qed.

(** The rules are repetitions of blank lines. *)
Lemma star_runs em e s k t ns rest k' : runs G em (PStar e) s k (Ok t ns rest k') ->
  (runs G em e s k Fail /\ t = [] /\ ns = [] /\ rest = s /\ k' = k) \/
  exists t1 n1 s1 k1 t2 n2, runs G em e s k (Ok t1 n1 s1 k1) /\ runs G em (PStar e) s1 k1 (Ok t2 n2 rest k')
    /\ t = t1 ++ t2 /\ ns = n1 ++ n2.
Proof. intros H. inversion H; subst; [left; auto|right]. do 6 eexists. eauto. Qed.
Lemma long_blank_ok em s k t1 n1 s1 k1 t2 n2 s2 k2 :
  runs G em one_blank s k (Ok t1 n1 s1 k1) -> runs G em (yplus one_blank) s1 k1 (Ok t2 n2 s2 k2) ->
  runs G em (PSeq y_zss (PSeq y_nl (yplus one_blank))) s k (Ok (t1 ++ t2) (n1 ++ n2) s2 k2).
Proof.
  intros A B. apply seq_ok_inv in A as (u1 & m1 & s3 & k3 & u2 & m2 & -> & -> & A1 & A2).
  rewrite <- !app_assoc. eapply Peg.RSeq; [exact A1|]. eapply Peg.RSeq; [exact A2|exact B].
Qed.
Lemma long_blank_fail1 em s k : runs G em one_blank s k Fail ->
  runs G em (PSeq y_zss (PSeq y_nl (yplus one_blank))) s k Fail.
Proof.
  intros A. apply seq_fail_inv in A as [A|(t & ns & s1 & k1 & A & B)].
  - apply RSeq1; [exact A|reflexivity].
  - eapply RSeq2; [exact A| |reflexivity]. apply RSeq1; [exact B|reflexivity].
Qed.
Lemma long_blank_fail2 em s k t1 n1 s1 k1 : runs G em one_blank s k (Ok t1 n1 s1 k1) ->
  runs G em one_blank s1 k1 Fail -> runs G em (PSeq y_zss (PSeq y_nl (yplus one_blank))) s k Fail.
Proof.
  intros A B. apply seq_ok_inv in A as (u1 & m1 & s3 & k3 & u2 & m2 & -> & -> & A1 & A2).
  eapply RSeq2; [exact A1| |reflexivity]. eapply RSeq2; [exact A2| |reflexivity]. apply RSeq1; [exact B|reflexivity].
Qed.
(** In terms of the repetition: none, one or more. *)
Lemma blank_star em s k t ns rest k' : runs G em (PStar one_blank) s k (Ok t ns rest k') ->
  runs G em (R_ y_blank) s k (Ok t ns rest k').
Proof.
  intros H. unfold R_. replace ns with (wrap (fst (G y_blank)) em y_blank t ns) by reflexivity. apply RRule. cbn [fst snd yaml_grammar emit_in].
  apply star_runs in H as [(F & -> & -> & -> & ->)|(t1 & n1 & s1 & k1 & t2 & n2 & A & B & -> & ->)].
  - apply RAlt2; [now apply long_blank_fail1|apply ROpt2, F].
  - pose proof B as B'. apply star_runs in B as [(F & -> & -> & -> & ->)|(t3 & n3 & s3 & k3 & t4 & n4 & C & D & -> & ->)].
    + rewrite !app_nil_r. apply RAlt2; [eapply long_blank_fail2; eassumption|apply ROpt1; [exact A|discriminate]].
    + apply RAlt1; [|discriminate]. eapply long_blank_ok; [exact A|]. eapply Peg.RSeq; eassumption.
Qed.
Lemma blanknl_star em s k t ns rest k' : runs G em (PStar one_blank) s k (Ok t ns rest k') -> t <> [] ->
  runs G em (R_ y_blanknl) s k (Ok t ns rest k').
Proof.
  intros H Ht. unfold R_. replace ns with (wrap (fst (G y_blanknl)) em y_blanknl t ns) by reflexivity. apply RRule. cbn [fst snd yaml_grammar emit_in].
  apply star_runs in H as [(F & -> & -> & -> & ->)|(t1 & n1 & s1 & k1 & t2 & n2 & A & B & -> & ->)]; [congruence|].
  pose proof B as B'. apply star_runs in B as [(F & -> & -> & -> & ->)|(t3 & n3 & s3 & k3 & t4 & n4 & C & D & -> & ->)].
  + rewrite !app_nil_r. apply RAlt2; [eapply long_blank_fail2; eassumption|exact A].
  + apply RAlt1; [|discriminate]. eapply long_blank_ok; [exact A|]. eapply Peg.RSeq; eassumption.
Qed.
Lemma eats_blank_b b X k : blanks b -> stays X -> eats (R_ y_blank) (b ++ X) k b X k.
Proof. intros Hb HX em. apply blank_star. now apply (eats_blank_star (length b)). Qed.
Lemma eats_blanknl_b b X k : blanks b -> b <> [] -> stays X -> eats (R_ y_blanknl) (b ++ X) k b X k.
Proof. intros Hb Hn HX em. apply blanknl_star; [|exact Hn]. now apply (eats_blank_star (length b)). Qed.
Lemma fails_one_blank X k : stays X -> fails one_blank X k.
Proof.
  intros HX. destruct (split_zs X) as (z & E & Hz). rewrite E.
  eapply fails_seq0; [apply eats_zss; [exact Hz|apply no_zs_drop]|]. apply fails_nl. exact HX.
Qed.
Lemma fails_blanknl_b X k : stays X -> fails (R_ y_blanknl) X k.
Proof.
  intros HX. apply fails_rule. cbn [yaml_grammar snd]. intros em. apply RAlt2; [|now apply fails_one_blank].
  apply long_blank_fail1. now apply fails_one_blank.
Qed.

Lemma one_blank_inv em s k t ns rest k' : runs G em one_blank s k (Ok t ns rest k') ->
  s = t ++ rest /\ blanks t /\ t <> [] /\ k' = k.
Proof.
  intros H. split; [exact (runs_text G _ _ _ _ _ H _ _ _ _ eq_refl)|].
  apply seq_ok_inv in H as (t1 & n1 & s1 & k1 & t2 & n2 & -> & -> & A & B).
  apply zss_inv in A as (-> & Hz & _ & -> & _). apply nl_inv in B as (-> & -> & Ht).
  split; [now apply blanks_line|]. split; [|reflexivity].
  destruct t1; [|discriminate]. destruct Ht as [->|[->| ->]]; discriminate.
Qed.
Lemma one_blank_fail em s k : runs G em one_blank s k Fail -> stays s.
Proof.
  intros H c r E. apply seq_fail_inv in H as [H|(t & ns & s1 & k1 & A & B)]; [inversion H|].
  apply zss_inv in A as (_ & _ & -> & _). rewrite E in B. now apply nl_fail in B.
Qed.
Lemma blank_star_inv em x s k y : runs G em x s k y -> x = PStar one_blank ->
  forall t ns rest k', y = Ok t ns rest k' -> s = t ++ rest /\ blanks t /\ stays rest /\ k' = k.
Proof.
  induction 1; intros Ex t' ns' rest' k' E; try discriminate; inversion Ex; subst;
    try (inversion E; subst; clear E).
  - split; [reflexivity|]. split; [constructor|]. split; [|reflexivity]. eapply one_blank_fail. eassumption.
  - match goal with X : runs _ _ (PSeq y_zss y_nl) _ _ (Ok _ _ _ _) |- _ => apply one_blank_inv in X as (-> & A & _ & ->) end.
    destruct (IHruns2 eq_refl _ _ _ _ eq_refl) as (-> & B & C & ->).
    split; [now rewrite app_assoc|]. split; [now apply blanks_app|]. auto.
Qed.
(** The rules are the repetition. *)
Lemma long_blank_inv em s k t ns rest k' :
  runs G em (PSeq y_zss (PSeq y_nl (yplus one_blank))) s k (Ok t ns rest k') ->
  s = t ++ rest /\ blanks t /\ t <> [] /\ stays rest /\ k' = k.
Proof.
  intros H. apply seq_ok_inv in H as (t1 & n1 & s1 & k1 & t2 & n2 & -> & -> & A & B).
  apply seq_ok_inv in B as (t3 & n3 & s3 & k3 & t4 & n4 & -> & -> & B & C).
  assert (D : runs G em one_blank s k (Ok (t1 ++ t3) (n1 ++ n3) s3 k3)) by (eapply Peg.RSeq; eassumption).
  assert (E : runs G em (PStar one_blank) s3 k3 (Ok t4 n4 rest k')).
  { apply seq_ok_inv in C as (t5 & n5 & s5 & k5 & t6 & n6 & -> & -> & C1 & C2). eapply RStar1; eassumption. }
  apply one_blank_inv in D as (-> & Hb & Hn & ->).
  destruct (blank_star_inv _ _ _ _ _ E eq_refl _ _ _ _ eq_refl) as (-> & Hb2 & Hs & ->).
  rewrite (app_assoc t1 t3 t4). split; [now rewrite <- !app_assoc|]. split; [now apply blanks_app|].
  split; [|auto]. intros X. apply app_eq_nil in X as [X _]. now apply Hn.
Qed.
Lemma blank_inv em s k t ns rest k' : runs G em (R_ y_blank) s k (Ok t ns rest k') ->
  s = t ++ rest /\ blanks t /\ stays rest /\ k' = k.
Proof.
  intros H. apply rule_ok_inv in H as (ns' & H). cbn [fst snd yaml_grammar emit_in] in H. inversion H; subst.
  - match goal with X : runs _ _ (PSeq _ _) _ _ _ |- _ => apply long_blank_inv in X; tauto end.
  - match goal with X : runs _ _ (POpt _) _ _ _ |- _ => inversion X; subst end.
    + match goal with X : runs _ _ (PSeq y_zss y_nl) _ _ (Ok _ _ _ _) |- _ => rename X into A end.
      pose proof A as A'. apply one_blank_inv in A' as (E & Hb & _ & ->). split; [exact E|]. split; [exact Hb|]. split; [|reflexivity].
      match goal with X : runs _ _ _ _ _ Fail |- _ => rename X into F end.
      apply seq_ok_inv in A as (u1 & m1 & s3 & k3 & u2 & m2 & -> & -> & A1 & A2).
      apply seq_fail_inv in F as [F|(v1 & w1 & s4 & k4 & F1 & F)]; [inversion F|].
      pose proof (runs_det _ _ _ _ _ _ _ A1 F1) as Y. inversion Y; subst.
      apply seq_fail_inv in F as [F|(v2 & w2 & s5 & k5 & F2 & F)]; [pose proof (runs_det _ _ _ _ _ _ _ A2 F); discriminate|].
      pose proof (runs_det _ _ _ _ _ _ _ A2 F2) as Y2. inversion Y2; subst.
      apply plus_fail in F. now apply one_blank_fail in F.
    + match goal with X : runs _ _ (PSeq y_zss y_nl) _ _ Fail |- _ => apply one_blank_fail in X end.
      split; [reflexivity|]. split; [constructor|]. auto.
Qed.
Lemma blanknl_inv em s k t ns rest k' : runs G em (R_ y_blanknl) s k (Ok t ns rest k') ->
  s = t ++ rest /\ blanks t /\ t <> [] /\ stays rest /\ k' = k.
Proof.
  intros H. apply rule_ok_inv in H as (ns' & H). cbn [fst snd yaml_grammar emit_in] in H. inversion H; subst.
  - match goal with X : runs _ _ (PSeq _ _) _ _ _ |- _ => now apply long_blank_inv in X end.
  - match goal with X : runs _ _ (PSeq y_zss y_nl) _ _ (Ok _ _ _ _) |- _ => rename X into A end.
    pose proof A as A'. apply one_blank_inv in A' as (E & Hb & Hn & ->). split; [exact E|]. split; [exact Hb|]. split; [exact Hn|]. split; [|reflexivity].
    match goal with X : runs _ _ _ _ _ Fail |- _ => rename X into F end.
    apply seq_ok_inv in A as (u1 & m1 & s3 & k3 & u2 & m2 & -> & -> & A1 & A2).
    apply seq_fail_inv in F as [F|(v1 & w1 & s4 & k4 & F1 & F)]; [inversion F|].
    pose proof (runs_det _ _ _ _ _ _ _ A1 F1) as Y. inversion Y; subst.
    apply seq_fail_inv in F as [F|(v2 & w2 & s5 & k5 & F2 & F)]; [pose proof (runs_det _ _ _ _ _ _ _ A2 F); discriminate|].
    pose proof (runs_det _ _ _ _ _ _ _ A2 F2) as Y2. inversion Y2; subst.
    apply plus_fail in F. now apply one_blank_fail in F.
Qed.
Lemma blanknl_fail em s k : runs G em (R_ y_blanknl) s k Fail -> stays s.
Proof.
  intros H. apply rule_fail_inv in H. cbn [fst snd yaml_grammar emit_in] in H.
  apply alt_fail_inv in H as [_ H]. now apply one_blank_fail in H.
Qed.

(** ---- comments ---- *)

Lemma breaks_line_end s : s = [] \/ breaks s -> lends s.
Proof.
  intros [->|(c & r & -> & H)] d x E; [discriminate|]. now inversion E; subst.
Qed.
Lemma line_end_breaks s : lends s -> s = [] \/ breaks s.
Proof. intros H. destruct s as [|c r]; [now left|right]. exists c, r. split; [reflexivity|]. now apply (H c r). Qed.
Lemma eats_line_x c s k : one_line c -> lends s ->
  eats (PStar (PNot y_nl ~~ y_any)%peg) (c ++ s) k c s k.
Proof.
  intros [H1 H2] Hs. induction c as [|x c IH]; cbn [app].
  - apply eats_star0. destruct s as [|d s].
    + intros em. eapply RSeq2; [apply eats_not, fails_nl; intros; discriminate|apply RClassE|reflexivity].
    + apply fails_seq1. destruct (Hs d s eq_refl) as [-> | ->].
      * eapply fails_not. apply eats_nl.
      * destruct s as [|d' s]; [eapply fails_not; apply eats_cr; discriminate|].
        destruct (N.eq_dec d' NL) as [-> | Hne]; [eapply fails_not; apply eats_crnl|].
        eapply fails_not. apply eats_cr. intros r E. congruence.
  - eapply eats_star1; [|apply IH|].
    + eapply eats_seq; [apply eats_not, fails_nl|apply eats_class; reflexivity|reflexivity].
      intros y r E. inversion E; subst. split; intros ->; [apply H1|apply H2]; now left.
    + intros H. apply H1. now right.
    + intros H. apply H2. now right.
    + reflexivity.
Qed.
Lemma gets_base_x z c s k : seps z -> one_line c -> lends s ->
  gets (R_ y_comment_base) (z ++ lit "#" ++ c ++ s) k [(y_comment_text, VStr c)] s k.
Proof.
  intros Hu Hc Hs. apply gets_silent; [reflexivity|]. cbn [yaml_grammar snd].
  eapply gets_seq0; [apply eats_zss; [exact Hu|reflexivity]|].
  eapply gets_seq0; [exact (eats_str ut (lit "#") _ k)|].
  eapply gets_leaf; [reflexivity|apply eats_line_x; assumption|reflexivity].
Qed.
Lemma gets_comment_x z c s k : seps z -> one_line c -> lends s ->
  gets (R_ y_comment) (z ++ lit "#" ++ c ++ s) k [(y_comment, VStr c)] s k.
Proof.
  intros Hu Hc Hs. eapply gets_rule; [reflexivity|apply gets_base_x; eassumption|reflexivity].
Qed.
Lemma blanks_line_end b X : blanks b -> breaks b -> lends (b ++ X).
Proof. intros _ (c & r & -> & H) d x E. now inversion E; subst. Qed.
Lemma gets_commentnl_x z c b X k : seps z -> one_line c -> blanks b -> breaks b -> stays X ->
  gets (R_ y_commentnl) (z ++ lit "#" ++ c ++ b ++ X) k [(y_commentnl, VStr c)] X k.
Proof.
  intros Hz Hc Hb Hb' HX. eapply gets_rule; [reflexivity| |].
  - cbn [yaml_grammar snd]. eapply gets_seq; [apply gets_base_x; [exact Hz|exact Hc|now apply blanks_line_end]
      |eapply eats_gets, eats_blank_b; assumption|reflexivity].
  - reflexivity.
Qed.

(** No comment comes first. *)
Lemma no_comment_seps z s : seps z -> no_comment s -> no_comment (z ++ s).
Proof. intros Hz H r. rewrite drop_seps by assumption. apply H. Qed.
Lemma fails_base_x s k : no_comment s -> fails (R_ y_comment_base) s k.
Proof.
  intros H. apply fails_rule. cbn [yaml_grammar snd]. destruct (split_zs s) as (z & E & Hz). rewrite E.
  eapply fails_seq0; [apply eats_zss; [exact Hz|apply no_zs_drop]|]. apply fails_seq1.
  intros em. apply RStrF. destruct (drop_while is_zs s) as [|c r] eqn:Ed; [reflexivity|].
  destruct (strip (lit "#") (c :: r)) as [x|] eqn:E2; [|reflexivity].
  apply strip_app in E2. inversion E2; subst. now destruct (H x).
Qed.
Lemma fails_comment_x s k : no_comment s -> fails (R_ y_comment) s k.
Proof. intros H. apply fails_rule. cbn [yaml_grammar snd]. now apply fails_base_x. Qed.
Lemma fails_commentnl_x s k : no_comment s -> fails (R_ y_commentnl) s k.
Proof. intros H. apply fails_rule. cbn [yaml_grammar snd]. apply fails_seq1. now apply fails_base_x. Qed.

Lemma base_inv em s k t ns rest k' : runs G em (R_ y_comment_base) s k (Ok t ns rest k') ->
  exists z c, t = z ++ lit "#" ++ c /\ s = z ++ lit "#" ++ c ++ rest /\ seps z /\ one_line c /\ lends rest /\ k' = k.
Proof.
  intros H. pose proof (runs_text G _ _ _ _ _ H _ _ _ _ eq_refl) as Es.
  apply rule_ok_inv in H as (ns' & H). cbn [fst snd yaml_grammar emit_in] in H.
  apply seq_ok_inv in H as (z & n1 & s1 & k1 & t2 & n2 & -> & -> & A & H).
  apply seq_ok_inv in H as (t3 & n3 & s3 & k3 & c & n4 & -> & -> & B & H).
  apply zss_inv in A as (-> & Hz & _ & -> & _). apply rule_ok_inv in H as (ns2 & H). cbn [fst snd yaml_grammar emit_in] in H.
  assert (Hk : k' = k3).
  { pose proof (eats_line_x c rest k3 (line_chars_inv ut _ _ _ _ _ _ _ H) (line_stop ut _ _ _ _ _ _ _ H) em) as X.
    rewrite <- (runs_text G _ _ _ _ _ H _ _ _ _ eq_refl) in X. pose proof (runs_det _ _ _ _ _ _ _ H X) as Y. now inversion Y. }
  inversion B; subst. exists z, c. split; [reflexivity|]. split; [now rewrite Es, <- !app_assoc|]. split; [exact Hz|].
  split; [now apply line_chars_inv in H|]. split; [now apply line_stop in H|reflexivity].
Qed.
Lemma base_fail em s k : runs G em (R_ y_comment_base) s k Fail -> no_comment s.
Proof.
  intros H r E. destruct (split_zs s) as (z & Es & Hz). rewrite E in Es. 
  apply rule_fail_inv in H. cbn [fst snd yaml_grammar emit_in] in H.
  apply seq_fail_inv in H as [H|(t & ns & s1 & k1 & A & H)]; [inversion H|].
  apply zss_inv in A as (_ & _ & -> & _). rewrite E in H.
  apply seq_fail_inv in H as [H|(t2 & ns2 & s2 & k2 & A & H)].
  - apply str_fail_inv in H. discriminate.
  - apply rule_fail_inv in H. cbn [fst snd yaml_grammar emit_in] in H. inversion H.
Qed.
End FlowText.
