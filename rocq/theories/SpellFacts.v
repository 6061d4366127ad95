(** What the parts of an accepted text are: white space, comments, names, scalars. *)
From Coq Require Import ZArith.
From Verif Require Import Base Ast Num Peg PegFacts PegTree YamlGrammar Consume Spec_Parse
  Spec_Format Spec_Stable Spec_Path Spec_Panic Spec_Layout Spec_Flow Spec_Spell YamlTree YamlValues ParseFacts Reads
  Gives FormatText ParsedNeat ParsedNeat2 FlowText FlowText2 FlowReads FlowInv.
Import ListNotations.

Section Spell.
Context (ut : unitab).
Notation G := (yaml_grammar ut).
Notation gives := (gives ut).
Notation refuses := (refuses ut).
Notation lends := ParsedNeat.line_end.

(** ---- the stack ---- *)
Lemma g_same n r s k vs rest k' : y_req r <= length k -> gives n (R_ r) s k vs rest k' -> k' = k.
Proof.
  intros L H. apply gives_runs in H as (t & ns & H & _ & _).
  exact (rule_stack G y_req (yaml_grammar_typed ut) true r s k _ L H).
Qed.
Lemma g_text n e s k vs rest k' : gives n e s k vs rest k' -> exists t, s = t ++ rest.
Proof. intros H. apply gives_runs in H as (t & ns & _ & _ & E). eauto. Qed.
Lemma gives_gets n e s k vs rest k' vs' rest' k'' : gives n e s k vs rest k' ->
  gets ut e s k vs' rest' k'' -> vs = vs' /\ rest = rest' /\ k' = k''.
Proof.
  intros H (t & ns & R & V). apply gives_runs in H as (t0 & ns0 & R0 & V0 & _).
  pose proof (runs_det _ _ _ _ _ _ _ R R0) as E. inversion E; subst. rewrite V in V0. inversion V0. auto.
Qed.
Lemma g_push_zss n s k vs rest k' : gives n (PPush y_zss) s k vs rest k' ->
  exists z, vs = [] /\ seps z /\ s = z ++ rest /\ k' = z :: k.
Proof.
  intros H. apply gives_runs in H as (t & ns & H & V & E). inversion H; subst; [|discriminate].
  match goal with X : runs _ _ y_zss _ _ _ |- _ => apply zss_inv in X as (_ & Z & _ & -> & ->) end.
  inversion V; subst. eauto.
Qed.
Lemma push_rest n s k vs rest k' : gives n (PPush y_zss) s k vs rest k' -> no_zs rest.
Proof.
  intros H. apply gives_runs in H as (t & ns & H & V & E). inversion H; subst; [|discriminate].
  match goal with X : runs _ _ y_zss _ _ _ |- _ => apply zss_inv in X as (_ & _ & -> & _) end. apply no_zs_drop.
Qed.
Lemma g_peek n p s k vs rest k' : gives n PPeek s (p :: k) vs rest k' ->
  vs = [] /\ s = p ++ rest /\ k' = p :: k.
Proof.
  intros H. apply gives_runs in H as (t & ns & H & V & E). inversion H; subst. inversion V; subst. auto.
Qed.
Lemma g_drop1 n s k vs rest k' x : gives n PDrop s (x :: k) vs rest k' -> vs = [] /\ rest = s /\ k' = k.
Proof.
  intros H. apply gives_runs in H as (t & ns & H & V & E). inversion H; subst. inversion V; subst. auto.
Qed.
Lemma g_and1 n e s k vs rest k' : gives n (PAnd e) s k vs rest k' ->
  vs = [] /\ rest = s /\ k' = k /\ exists t ns r k'', runs G false e s k (Ok t ns r k'').
Proof.
  intros H. apply gives_runs in H as (t & ns & H & V & E). inversion H; subst. destruct r; try discriminate.
  match goal with X : Ok _ _ _ _ = _ |- _ => inversion X; subst end. inversion V; subst.
  repeat (split; [reflexivity|]). eauto.
Qed.

(** ---- white space ---- *)
Lemma g_zss2 n s k vs rest k' : gives n y_zss s k vs rest k' ->
  exists z, vs = [] /\ seps z /\ s = z ++ rest /\ k' = k.
Proof.
  intros H. apply gives_runs in H as (t & ns & H & V & E). apply zss_inv in H as (_ & Z & _ & -> & ->).
  inversion V; subst. eauto.
Qed.
Lemma zs_inv em s k t ns rest k' : runs G em y_zs s k (Ok t ns rest k') -> exists c, t = [c] /\ is_zs c = true /\ ns = [] /\ k' = k.
Proof. intros H. inversion H; subst. eauto. Qed.
Lemma plus_zs_inv em s k t ns rest k' : runs G em (yplus y_zs) s k (Ok t ns rest k') ->
  s = t ++ rest /\ t <> [] /\ seps t /\ k' = k /\ ns = [].
Proof.
  intros H. split; [exact (runs_text G _ _ _ _ _ H _ _ _ _ eq_refl)|].
  apply seq_ok_inv in H as (t1 & n1 & s1 & k1 & t2 & n2 & -> & -> & A & H).
  apply zs_inv in A as (c & -> & Hc & -> & ->). apply zss_inv in H as (_ & Z & _ & -> & ->).
  split; [discriminate|]. split; [now apply seps_cons|]. auto.
Qed.
Lemma g_plus_zs n s k vs rest k' : gives n (yplus y_zs) s k vs rest k' ->
  exists z, vs = [] /\ seps z /\ z <> [] /\ s = z ++ rest /\ k' = k.
Proof.
  intros H. apply gives_runs in H as (t & ns & H & V & E). apply plus_zs_inv in H as (_ & N & Z & -> & ->).
  inversion V; subst. eauto 6.
Qed.
Lemma g_blank n s k vs rest k' : gives n (R_ y_blank) s k vs rest k' ->
  exists b, vs = [] /\ blanks b /\ s = b ++ rest /\ k' = k /\ stays rest.
Proof.
  intros H. assert (vs = []) as -> by (eapply (g_quiet ut); [|exact H]; reflexivity).
  apply gives_runs in H as (t & ns & H & V & E). apply blank_inv in H as (_ & B & S & ->). eauto 6.
Qed.
Lemma g_blanknl n s k vs rest k' : gives n (R_ y_blanknl) s k vs rest k' ->
  exists b, vs = [] /\ blanks b /\ b <> [] /\ s = b ++ rest /\ k' = k /\ stays rest.
Proof.
  intros H. assert (vs = []) as -> by (eapply (g_quiet ut); [|exact H]; reflexivity).
  apply gives_runs in H as (t & ns & H & V & E). apply blanknl_inv in H as (_ & B & N & S & ->). eauto 7.
Qed.
Lemma g_spaces n s k vs rest k' : gives n (R_ y_spaces) s k vs rest k' ->
  exists w, vs = [] /\ loose w /\ s = w ++ rest /\ k' = k.
Proof.
  intros H. assert (vs = []) as -> by (eapply (g_quiet ut); [|exact H]; reflexivity).
  apply gives_runs in H as (t & ns & H & V & E). apply spaces_inv in H as (_ & B & _ & ->). eauto.
Qed.
Lemma g_nl n s k vs rest k' : gives n y_nl s k vs rest k' ->
  exists b, vs = [] /\ line_break b /\ s = b ++ rest /\ k' = k.
Proof.
  intros H. assert (vs = []) as -> by (eapply (g_quiet ut); [|exact H]; reflexivity).
  apply gives_runs in H as (t & ns & H & V & E). apply nl_inv in H as (_ & -> & B). exists t. auto.
Qed.

(** ---- comments ---- *)
Lemma g_base n s k vs rest k' : gives n (R_ y_comment_base) s k vs rest k' ->
  exists z c, vs = [(y_comment_text, VStr c)] /\ seps z /\ one_line c /\ s = z ++ lit "#" ++ c ++ rest /\ lends rest /\ k' = k.
Proof.
  intros H. pose proof H as H0. apply gives_runs in H0 as (t0 & ns0 & H0 & _ & E0).
  apply base_inv in H0 as (z & c & -> & _ & Z & O & L & ->).
  pose proof (gets_base_x ut z c rest k Z O L) as X.
  rewrite E0, <- !app_assoc in H |- *. destruct (gives_gets _ _ _ _ _ _ _ _ _ _ H X) as (-> & _ & _).
  exists z, c. auto 7.
Qed.
Lemma g_comment n s k vs rest k' : gives n (R_ y_comment) s k vs rest k' ->
  exists z c, vs = [(y_comment, VStr c)] /\ seps z /\ one_line c /\ s = z ++ lit "#" ++ c ++ rest /\ k' = k.
Proof.
  intros H. apply g_rule in H as (m & t & cvs & v & _ & H & _ & Y & ->); [|reflexivity]. cbn [snd yaml_grammar] in H.
  apply g_base in H as (z & c & -> & Z & O & E & _ & ->). cbn in Y. inversion Y; subst. eauto 8.
Qed.
Lemma g_commentnl n s k vs rest k' : gives n (R_ y_commentnl) s k vs rest k' -> rest <> [] ->
  exists z c b, vs = [(y_commentnl, VStr c)] /\ seps z /\ one_line c /\ blanks b /\ breaks b
    /\ s = z ++ lit "#" ++ c ++ b ++ rest /\ k' = k.
Proof.
  intros H N. apply g_rule in H as (m & t & cvs & v & _ & H & _ & Y & ->); [|reflexivity]. cbn [snd yaml_grammar] in H.
  apply g_seq in H as (m1 & v1 & s1 & k1 & v2 & _ & A & H & ->).
  apply g_base in A as (z & c & -> & Z & O & -> & L & ->). apply g_blank in H as (b & -> & B & -> & -> & S).
  cbn in Y. inversion Y; subst. exists z, c, b. repeat (split; [now auto|]). split; [|auto].
  destruct b as [|d b].
  - exfalso. destruct rest as [|d r]; [congruence|]. cbn [app] in L. specialize (L d r eq_refl).
    unfold stays in S. assert (Dz : is_zs d = false) by (destruct L as [-> | ->]; reflexivity).
    cbn [drop_while] in S. rewrite Dz in S. destruct (S _ _ eq_refl). tauto.
  - exists d, b. split; [reflexivity|]. exact (L d (b ++ rest) eq_refl).
Qed.
Lemma star_commentnl n : forall s k vs rest k', gives n (PStar (R_ y_commentnl)) s k vs rest k' -> rest <> [] ->
  exists cs t, vs = map (fun c => (y_commentnl, VStr c)) cs /\ remarks cs t /\ s = t ++ rest /\ k' = k.
Proof.
  induction n as [n IH] using lt_wf_ind. intros s k vs rest k' H N.
  apply g_star in H as (m & L & [(v1 & s1 & k1 & v2 & A & B & ->)|(_ & -> & -> & ->)]).
  - assert (N1 : s1 <> []).
    { destruct (g_text _ _ _ _ _ _ _ B) as (t & ->). intros E. apply app_eq_nil in E. tauto. }
    apply g_commentnl in A as (z & c & b & -> & Z & O & Bl & Br & -> & ->); [|exact N1].
    apply IH in B as (cs & t & -> & R & -> & ->); [|exact L|exact N].
    exists (c :: cs), (z ++ lit "#" ++ c ++ b ++ t). split; [reflexivity|]. split; [now constructor|].
    split; [|reflexivity]. now rewrite <- !app_assoc.
  - exists [], []. repeat split. constructor.
Qed.
Lemma many_commentnl cs : many as_commentnl (map (fun c => (y_commentnl, VStr c)) cs) = (cs, []).
Proof. induction cs as [|c cs IH]; cbn; [reflexivity|]. now rewrite IH. Qed.
Lemma g_commentnls n s k vs rest k' : gives n (R_ y_commentnls) s k vs rest k' -> rest <> [] ->
  exists cs t, vs = [(y_commentnls, VStrs cs)] /\ remarks cs t /\ s = t ++ rest /\ k' = k /\ no_comment rest.
Proof.
  intros H N. pose proof (comments_given ut _ _ _ _ _ _ H) as (cs0 & _ & NC & _).
  apply g_rule in H as (m & t & cvs & v & _ & H & _ & Y & ->); [|reflexivity]. cbn [snd yaml_grammar] in H.
  apply star_commentnl in H as (cs & t' & -> & R & -> & ->); [|exact N].
  cbn [yact] in Y. rewrite many_commentnl in Y. inversion Y; subst. eauto 7.
Qed.
Lemma g_no_commentnls n s k vs rest k' : gives n (R_ y_commentnls) s k vs rest k' -> no_comment s ->
  vs = [(y_commentnls, VStrs [])] /\ rest = s /\ k' = k.
Proof.
  intros H NC. apply g_rule in H as (m & t & cvs & v & _ & H & _ & Y & ->); [|reflexivity]. cbn [snd yaml_grammar] in H.
  apply g_star in H as (m' & L & [(v1 & s1 & k1 & v2 & A & B & ->)|(_ & -> & -> & ->)]).
  - exfalso. apply gives_runs in A as (t1 & n1 & A & _).
    pose proof (fails_commentnl_x ut s k NC true) as F. pose proof (runs_det _ _ _ _ _ _ _ A F). discriminate.
  - cbn in Y. inversion Y; subst. auto.
Qed.
Lemma g_remark n s k vs rest k' : gives n (POpt (R_ y_comment)) s k vs rest k' ->
  exists oc r, remark oc r /\ s = r ++ rest /\ k' = k /\
    vs = match oc with Some c => [(y_comment, VStr c)] | None => [] end.
Proof.
  intros H. apply g_opt in H as (m & _ & [H|(_ & -> & -> & ->)]).
  - apply g_comment in H as (z & c & -> & Z & O & -> & ->). exists (Some c), (z ++ lit "#" ++ c).
    split; [exists z; auto|]. split; [now rewrite <- !app_assoc|]. auto.
  - exists None, []. repeat split.
Qed.

(** ---- names and keys ---- *)
Lemma g_alias_name n s k vs rest k' : gives n (R_ y_alias_name) s k vs rest k' ->
  exists a, vs = [(y_alias_name, VStr a)] /\ alias_ok ut a /\ s = a ++ rest /\ k' = k.
Proof.
  intros H. pose proof (g_same n y_alias_name _ _ _ _ _ (Nat.le_0_l _) H) as ->.
  apply g_rule in H as (m & t & cvs & v & _ & H & -> & Y & ->); [|reflexivity]. cbn [yact] in Y. inversion Y; subst.
  exists t. split; [reflexivity|]. split; [|auto].
  apply gives_runs in H as (t' & ns & H & _ & E). apply app_inv_tail in E. subst t'.
  pose proof (runs_shp G _ _ _ _ _ H eq_refl _ _ _ _ eq_refl 3) as X. eapply alias_text. exact X.
Qed.
Lemma g_alias n s k vs rest k' : gives n (R_ y_alias) s k vs rest k' ->
  exists a, vs = [(y_alias, VStr a)] /\ alias_ok ut a /\ s = lit "&" ++ a ++ rest /\ k' = k.
Proof.
  intros H. pose proof (g_same n y_alias _ _ _ _ _ (Nat.le_0_l _) H) as ->.
  apply g_rule in H as (m & t & cvs & v & _ & H & _ & Y & ->); [|reflexivity]. cbn [snd yaml_grammar] in H.
  apply g_seq in H as (m1 & v1 & s1 & k1 & v2 & _ & A & H & ->). apply g_str in A as [-> ->].
  apply g_alias_name in H as (a & -> & O & -> & ->). cbn in Y. inversion Y; subst. eauto.
Qed.
Lemma g_anchor n s k vs rest k' : gives n (R_ y_anchor) s k vs rest k' ->
  exists a, vs = [(y_anchor, VYaml (Anchor a))] /\ alias_ok ut a /\ s = lit "*" ++ a ++ rest /\ k' = k.
Proof.
  intros H. pose proof (g_same n y_anchor _ _ _ _ _ (Nat.le_0_l _) H) as ->.
  apply g_rule in H as (m & t & cvs & v & _ & H & _ & Y & ->); [|reflexivity]. cbn [snd yaml_grammar] in H.
  apply g_seq in H as (m1 & v1 & s1 & k1 & v2 & _ & A & H & ->). apply g_str in A as [-> ->].
  apply g_alias_name in H as (a & -> & O & -> & ->). cbn in Y. inversion Y; subst. eauto.
Qed.
Lemma only_spaces u : (forall c, In c u -> c = SP) -> u = spaces (length u).
Proof.
  intros H. induction u as [|c u IH]; [reflexivity|]. cbn [length repeat_char]. rewrite (H c (or_introl eq_refl)). f_equal.
  apply IH. intros d Hd. apply H. now right.
Qed.
Lemma g_key n s k vs rest k' : gives n (R_ y_hash_key) s k vs rest k' ->
  exists key i, vs = [(y_hash_key, VStr key)] /\ plain_key ut key /\ s = key ++ spaces i ++ rest /\ k' = k.
Proof.
  intros H. pose proof (g_same n y_hash_key _ _ _ _ _ (Nat.le_0_l _) H) as ->.
  apply g_rule in H as (m & t & cvs & v & _ & H & -> & Y & ->); [|reflexivity]. cbn [yact] in Y. inversion Y; subst.
  apply gives_runs in H as (t' & ns & H & _ & E). apply app_inv_tail in E. subst t'. cbn [snd yaml_grammar] in H.
  pose proof (runs_shp G _ _ _ _ _ H eq_refl _ _ _ _ eq_refl 3) as X. pose proof (key_text ut _ _ X) as K.
  unfold trim_end in *. destruct (trim_end_by_spec is_ws t) as (u & E & Hu & L).
  exists (trim_end_by is_ws t), (length u). split; [reflexivity|]. split; [exact K|]. split; [|reflexivity].
  rewrite <- only_spaces; [now rewrite app_assoc, <- E|].
  destruct X as (t1 & t2 & n1 & n2 & -> & -> & H1 & H2). apply name_alt_inv in H1 as (c & -> & Hc).
  pose proof (star_class_inv _ _ _ _ _ (key_alt_inv ut (rshp G 3)) H2) as Hall.
  assert (Hin : forall d, In d u -> In d ([c] ++ t2)) by (intros d Hd; rewrite E; apply in_or_app; now right).
  intros d Hd. pose proof (Hu d Hd) as W. destruct (Hin d Hd) as [<-|Hd'].
  - rewrite (name_not_ws ut c Hc) in W. discriminate.
  - destruct (Hall d Hd') as [N|[-> | ->]]; [rewrite (name_not_ws ut d N) in W; discriminate|discriminate|reflexivity].
Qed.

(** ---- scalars on one line ---- *)
Lemma start_inv em s k t ns rest k' :
  runs G em (R_ y_unq_start) s k (Ok t ns rest k') ->
  exists c, t = [c] /\ s = c :: rest /\ ~ In c (lit "[]{}'#>|" ++ [DQUOTE]) /\ unq_char c rest.
Proof.
  intros H. pose proof (unq_start_inv ut _ _ _ _ _ _ _ H) as (c & E & E' & U). exists c.
  split; [exact E|]. split; [exact E'|]. split; [|exact U].
  apply rule_ok_inv in H as (ns' & H). apply not_any_inv in H as (c' & Ec & -> & _ & F).
  inversion E'; subst c'. apply rule_fail_inv in F. cbn [fst snd yaml_grammar emit_in] in F.
  repeat (match type of F with runs _ _ (PAlt _ _) _ _ _ =>
    let X := fresh "X" in apply alt_fail_inv in F as [X F]; apply str_fail_inv in X end).
  intros HH. vm_compute in HH.
  repeat (destruct HH as [HH|HH]; [subst c; discriminate|]). exact HH.
Qed.
Lemma g_unquoted n s k vs rest k' : gives n (R_ y_unquoted_string) s k vs rest k' ->
  exists u i, vs = [(y_unquoted_string, VYaml (Unquoted u))] /\ bare u i /\ s = (u ++ spaces i) ++ rest /\ k' = k.
Proof.
  intros H. pose proof (g_same n y_unquoted_string _ _ _ _ _ (Nat.le_0_l _) H) as ->.
  apply gives_runs in H as (t & ns & H & V & ->). unfold R_ in H. inversion H; subst; [|discriminate]. clear H.
  match goal with X : runs _ _ _ _ _ _ |- _ => rename X into H end. cbn [fst snd yaml_grammar emit_in] in H.
  cbn [fst yaml_grammar wrap] in V. apply values_one in V as (cvs & v & -> & _ & Y). cbn [yact] in Y. inversion Y; subst. clear Y.
  apply seq_ok_inv in H as (t1 & n1 & s1 & k1 & t2 & n2 & -> & -> & H1 & H2).
  apply start_inv in H1 as (c & -> & E1 & Hc & Uc).
  pose proof (star_chars ut _ _ _ (fun s k t ns rest k' X => unq_el_inv ut _ s k t ns rest k' X) _ _ _ _ H2 eq_refl _ _ _ _ eq_refl) as Hall.
  cbn beta in Hall.
  assert (Es1 : s1 = t2 ++ rest) by (now apply text_of in H2).
  unfold trim_end_spaces. destruct (trim_end_by_spec (ceqb SP) ([c] ++ t2)) as (p & Et & Hp & Hlast).
  set (u := trim_end_by (ceqb SP) ([c] ++ t2)) in *.
  assert (Ep : p = spaces (length p)) by (apply only_spaces; intros d Hd; symmetry; now apply ceqb_eq, Hp).
  assert (Hch : forall a d b, [c] ++ t2 = a ++ d :: b -> unq_char d (b ++ rest)).
  { intros a d b E. destruct a as [|a0 a]; cbn [app] in E; inversion E; subst; [exact Uc|]. now apply (Hall a). }
  exists u, (length p). split; [reflexivity|]. rewrite <- Ep, <- Et. split; [|auto].
  unfold bare. rewrite <- Ep, <- Et. split; [exists c, t2; auto|].
  assert (Hin : forall d, In d u -> exists a b, [c] ++ t2 = a ++ d :: b).
  { intros d Hd. apply in_split. rewrite Et. apply in_or_app. now left. }
  split; [split; intros X; apply Hin in X as (a & b & X); destruct (Hch _ _ _ X) as (A & B & _); congruence|].
  split; [intros X; apply Hin in X as (a & b & X); destruct (Hch _ _ _ X) as (_ & _ & A & _); congruence|].
  split; [|intros x Ex; specialize (Hlast x SP Ex); discriminate].
  intros (a & b & E). destruct (Hch a _ _ E) as (_ & _ & _ & A). now apply (A eq_refl (b ++ rest)).
Qed.
Lemma seps_rest n s k vs rest k' : gives n y_zss s k vs rest k' -> no_zs rest.
Proof. intros H. apply gives_runs in H as (t & ns & H & _). apply zss_inv in H as (_ & _ & -> & _). apply no_zs_drop. Qed.
Lemma quoted_rest n r q e s k vs rest k' : fst (G r) = Normal -> snd (G r) = (PPush (yc q) ~~ R_ e ~~ PPop ~~ y_zss)%peg ->
  gives n (R_ r) s k vs rest k' -> no_zs rest.
Proof.
  intros Em Eb H. apply g_rule in H as (m & t & cvs & v & _ & H & _ & Y & ->); [|exact Em]. rewrite Eb in H.
  apply g_seq in H as (m1 & v1 & s1 & k1 & v2 & _ & A & H & _). apply g_seq in H as (m2 & v3 & s2 & k2 & v4 & _ & B & H & _).
  apply g_seq in H as (m3 & v5 & s3 & k3 & v6 & _ & C & H & _). exact (seps_rest _ _ _ _ _ _ H).
Qed.
Lemma single_inv2 s k t ns rest k' : runs G true (R_ y_single_quoted) s k (Ok t ns rest k') ->
  exists ps z, sq_canon ps /\ seps z /\ s = QUOTE :: flat_map sq_text ps ++ QUOTE :: z ++ rest /\ forall r, z ++ rest <> QUOTE :: r.
Proof.
  intros H. apply rule_ok_inv in H as (ns' & H). cbn [fst snd yaml_grammar emit_in] in H.
  apply quoted_frame in H as (t1 & n1 & s1 & k1 & -> & A & H).
  apply rule_ok_inv in A as (ns2 & A). cbn [fst snd yaml_grammar emit_in] in A.
  destruct (sq_parts_inv ut _ _ _ _ _ A eq_refl eq_refl _ _ _ _ eq_refl) as (E & ps & -> & B & _).
  destruct (H E) as (z & Hz & -> & _). exists ps, z. split; [exact B|]. split; [exact Hz|]. split; [reflexivity|].
  intros r Er. pose proof (star_end ut _ _ _ _ _ A _ eq_refl _ _ _ _ eq_refl) as F. rewrite Er in F.
  apply rule_fail_inv in F. cbn [fst snd yaml_grammar emit_in] in F. apply alt_fail_inv in F as [F _].
  apply rule_fail_inv in F. cbn [fst snd yaml_grammar emit_in] in F.
  apply seq_fail_inv in F as [F|(t2 & n2 & s2 & k2 & F1 & F)]; [discriminate (str_fail_inv ut _ _ _ _ F)|].
  apply char_inv in F1 as (F1 & _ & _). inversion F1; subst s2.
  apply rule_fail_inv in F. cbn [fst snd yaml_grammar emit_in] in F. discriminate (str_fail_inv ut _ _ _ _ F).
Qed.
Lemma g_single n s k vs rest k' : gives n (R_ y_single_quoted) s k vs rest k' ->
  exists ps z, vs = [(y_single_quoted, VYaml (SingleQ ps))] /\ sq_canon ps /\ seps z
    /\ s = ([QUOTE] ++ flat_map sq_text ps ++ [QUOTE] ++ z) ++ rest /\ k' = k.
Proof.
  intros H. pose proof (quoted_rest _ y_single_quoted _ _ _ _ _ _ _ eq_refl eq_refl H) as N.
  pose proof H as H0. apply gives_runs in H0 as (t & ns & H0 & _). apply single_inv2 in H0 as (ps & z & C & Z & -> & Q).
  destruct (gives_gets _ _ _ _ _ _ _ _ _ _ H (gets_single_seps ut ps z rest k C Z N Q)) as (-> & _ & ->).
  exists ps, z. repeat (split; [assumption || reflexivity|]). split; [|reflexivity]. cbn [app]. now rewrite <- !app_assoc.
Qed.
Lemma g_double n s k vs rest k' : gives n (R_ y_double_quoted) s k vs rest k' ->
  exists ps z, vs = [(y_double_quoted, VYaml (DoubleQ ps))] /\ dq_canon ps /\ seps z
    /\ s = ([DQUOTE] ++ flat_map dq_text ps ++ [DQUOTE] ++ z) ++ rest /\ k' = k.
Proof.
  intros H. pose proof (quoted_rest _ y_double_quoted _ _ _ _ _ _ _ eq_refl eq_refl H) as N.
  pose proof H as H0. apply gives_runs in H0 as (t & ns & H0 & _). apply double_inv in H0 as (ps & z & C & Z & ->).
  destruct (gives_gets _ _ _ _ _ _ _ _ _ _ H (gets_double_seps ut ps z rest k C Z N)) as (-> & _ & ->).
  exists ps, z. repeat (split; [assumption || reflexivity|]). split; [|reflexivity]. now rewrite <- !app_assoc.
Qed.

(** ---- inline collections ---- *)
Lemma g_row n s k vs rest k' : gives n (R_ y_inline_array) s k vs rest k' ->
  exists l r, vs = [(y_inline_array, VYaml (InlineArray l))] /\ row ut l r /\ s = (lit "[" ++ r ++ lit "]") ++ rest /\ k' = k.
Proof.
  intros H. pose proof H as H0. apply gives_runs in H0 as (t & ns & H0 & _). apply row_inv in H0 as (l & r & R & ->).
  destruct (gives_gets _ _ _ _ _ _ _ _ _ _ H (gets_row ut l r rest k R)) as (-> & _ & ->).
  exists l, r. repeat (split; [assumption || reflexivity|]). split; [|reflexivity]. now rewrite <- !app_assoc.
Qed.
Lemma pairs_inv s k t ns rest k' : runs G true (R_ y_inline_hash) s k (Ok t ns rest k') ->
  exists l r, pairs ut l r /\ s = lit "{" ++ r ++ lit "}" ++ rest.
Proof.
  intros H. apply rule_ok_inv in H as (ns2 & H). cbn [fst snd yaml_grammar emit_in] in H.
  apply seq_ok_inv in H as (ta & na & sa & ka & tb & nb & -> & -> & A & H).
  apply (char_inv ut _ (chr "{")) in A as (-> & -> & ->).
  eapply (list_inv ut (pair_cell ut) (length sa) (R_ y_inline_hash_element)) in H as (l & r & Hl & ->);
    [| |now right|lia].
  - exists l, r. split; [now apply listof_pairs|reflexivity].
  - clear. intros s k t ns rest k' w z Hm H Hf E Hw Hz.
    apply rule_ok_inv in H as (ns2 & H). cbn [fst snd yaml_grammar emit_in] in H.
    apply seq_ok_inv in H as (ta & na & s1 & ka & tb & nb & -> & -> & A & H).
    apply key_inv in A as (key & wk & Hk & Hwk & ->).
    apply seq_ok_inv in H as (tc & nc & sc & kc & td & nd & -> & -> & A & H).
    apply spaces_inv in A as (-> & Hw2 & _ & ->).
    apply seq_ok_inv in H as (te & ne & se & ke & tf & nf & -> & -> & A & H).
    apply (char_inv ut _ (chr ":")) in A as (-> & -> & ->).
    apply seq_ok_inv in H as (tg & ng & sg & kg & th & nh & -> & -> & A & H).
    apply spaces_inv in A as (-> & Hw3 & Hf3 & ->).
    destruct (item_inv ut (length sg) _ _ _ _ _ _ w z (le_n _) H Hf3 E Hw Hz) as (y & u & Hy & ->).
    exists (key, y), (key ++ (wk ++ tc) ++ lit ":" ++ tg ++ u). split.
    + exists (wk ++ tc), tg, u. split; [reflexivity|]. split; [exact Hk|]. split; [now apply loose_app|]. split; [exact Hw3|exact Hy].
    + rewrite <- !app_assoc. reflexivity.
Qed.
Lemma g_pairs n s k vs rest k' : gives n (R_ y_inline_hash) s k vs rest k' ->
  exists l r, vs = [(y_inline_hash, VYaml (InlineHash l))] /\ pairs ut l r /\ s = (lit "{" ++ r ++ lit "}") ++ rest /\ k' = k.
Proof.
  intros H. pose proof H as H0. apply gives_runs in H0 as (t & ns & H0 & _). apply pairs_inv in H0 as (l & r & R & ->).
  destruct (item_reads ut) as (_ & _ & X). pose proof (gets_hash_covers ut l r rest k (X l r R)) as Y.
  rewrite <- !app_assoc in Y. destruct (gives_gets _ _ _ _ _ _ _ _ _ _ H Y) as (-> & _ & ->).
  exists l, r. repeat (split; [assumption || reflexivity|]). split; [|reflexivity]. now rewrite <- !app_assoc.
Qed.

Lemma g_inline n s k vs rest k' : gives n (R_ y_inline_value) s k vs rest k' ->
  exists y t, vs = [(y_inline_value, VYaml y)] /\ bit ut y t /\ s = t ++ rest /\ k' = k.
Proof.
  intros H. pose proof (g_same n y_inline_value _ _ _ _ _ (Nat.le_0_l _) H) as ->.
  apply g_rule in H as (m & t & cvs & v & _ & H & _ & Y & ->); [|reflexivity]. cbn [snd yaml_grammar] in H.
  apply g_alt in H as (m1 & _ & [H|[_ H]]).
  { apply g_anchor in H as (a & -> & O & -> & _). cbn in Y. inversion Y; subst. exists (Anchor a), (lit "*" ++ a).
    split; [reflexivity|]. split; [now constructor|]. now rewrite <- app_assoc. }
  apply g_alt in H as (m2 & _ & [H|[_ H]]).
  { apply g_row in H as (l & r & -> & O & -> & _). cbn in Y. inversion Y; subst. do 2 eexists.
    split; [reflexivity|]. split; [constructor; exact O|]. auto. }
  apply g_alt in H as (m3 & _ & [H|[_ H]]).
  { apply g_pairs in H as (l & r & -> & O & -> & _). cbn in Y. inversion Y; subst. do 2 eexists.
    split; [reflexivity|]. split; [constructor; exact O|]. auto. }
  apply g_rule in H as (m4 & t4 & cvs4 & v4 & _ & H & _ & Y4 & ->); [|reflexivity]. cbn [snd yaml_grammar] in H.
  apply g_alt in H as (m5 & _ & [H|[_ H]]); [|apply g_alt in H as (m6 & _ & [H|[_ H]])].
  - apply g_unquoted in H as (u & i & -> & O & -> & _). cbn in Y4. inversion Y4; subst. cbn in Y. inversion Y; subst.
    do 2 eexists. split; [reflexivity|]. split; [constructor; exact O|]. auto.
  - apply g_double in H as (ps & z & -> & C & Z & -> & _). cbn in Y4. inversion Y4; subst. cbn in Y. inversion Y; subst.
    do 2 eexists. split; [reflexivity|]. split; [constructor; [exact C|exact Z]|]. auto.
  - apply g_single in H as (ps & z & -> & C & Z & -> & _). cbn in Y4. inversion Y4; subst. cbn in Y. inversion Y; subst.
    do 2 eexists. split; [reflexivity|]. split; [constructor; [exact C|exact Z]|]. auto.
Qed.
End Spell.
