(** What the parser guarantees about comments and quoted scalars. *)
From Coq Require Import ZArith.
From Verif Require Import Base Ast Num Peg PegFacts PegTree YamlGrammar Consume Spec_Parse
  Spec_Format Spec_Stable YamlTree YamlValues ParseFacts Reads Gives.
Import ListNotations.

Section Neat.
Context (ut : unitab).
Notation G := (yaml_grammar ut).
Notation gives := (gives ut).
Notation refuses := (refuses ut).

(** ---- where a comment cannot start ---- *)

Definition no_comment (s : str) : Prop := forall r, drop_while is_zs s <> chr "#" :: r.
Definition line_end (s : str) : Prop := forall c r, s = c :: r -> c = NL \/ c = CR.
Definition no_break (s : str) : Prop := forall c r, s = c :: r -> c <> NL /\ c <> CR.

Lemma line_end_no_comment s : line_end s -> no_comment s.
Proof.
  intros H r E. destruct s as [|c s]; [discriminate|].
  destruct (H c s eq_refl) as [->| ->]; cbn in E; discriminate.
Qed.

Lemma drop_idem f s : drop_while f (drop_while f s) = drop_while f s.
Proof.
  induction s as [|c s IH]; cbn; [reflexivity|]. destruct (f c) eqn:E; [exact IH|]. cbn. now rewrite E.
Qed.
Lemma no_comment_drop s : no_comment s -> no_comment (drop_while is_zs s).
Proof. intros H r. rewrite drop_idem. apply H. Qed.

(** The end of a repetition. *)
Lemma star_end em x s k y : runs G em x s k y -> forall a, x = PStar a ->
  forall t ns rest k', y = Ok t ns rest k' -> runs G em a rest k' Fail.
Proof.
  induction 1; intros a' Ea t' ns' rest' k' E; try discriminate; inversion Ea; subst;
    try (inversion E; subst; clear E); eauto.
Qed.

Lemma not_any_fail em a s k : runs G em (PSeq (PNot a) y_any) s k Fail ->
  s = [] \/ exists t ns rest k', runs G false a s k (Ok t ns rest k').
Proof.
  intros H. inversion H; subst.
  - match goal with X : runs _ _ (PNot _) _ _ _ |- _ => inversion X; subst end.
    destruct r; try discriminate. right. eauto.
  - match goal with X : runs _ _ y_any _ _ _ |- _ => inversion X; subst end; [discriminate|].
    left. match goal with X : runs _ _ (PNot _) _ _ (Ok _ _ _ _) |- _ => apply not_ok_inv in X as (_ & _ & <- & _) end.
    reflexivity.
Qed.

Lemma nl_ok em s k t ns rest k' : runs G em y_nl s k (Ok t ns rest k') ->
  exists c r, s = c :: r /\ (c = NL \/ c = CR).
Proof.
  intros H. pose proof (runs_text G _ _ _ _ _ H _ _ _ _ eq_refl) as E.
  inversion H; subst; [match goal with X : runs _ _ (PStr _) _ _ _ |- _ => inversion X; subst; cbn; eauto end|].
  match goal with X : runs _ _ (PAlt _ _) _ _ _ |- _ => inversion X; subst end;
    match goal with X : runs _ _ (PStr _) _ _ (Ok _ _ _ _) |- _ => inversion X; subst; cbn; eauto end.
Qed.

Lemma line_stop em s k t ns rest k' :
  runs G em (PStar (PSeq (PNot y_nl) y_any)) s k (Ok t ns rest k') -> line_end rest.
Proof.
  intros H. pose proof (star_end _ _ _ _ _ H _ eq_refl _ _ _ _ eq_refl) as F.
  apply not_any_fail in F as [->|(t' & ns' & r' & k'' & F)]; [intros c r; discriminate|].
  apply nl_ok in F as (c & r & -> & Hc). intros c' r2 E. inversion E; subst. exact Hc.
Qed.

(** ---- space separators and comments ---- *)

Lemma zss_drop x s k y em : runs G em x s k y -> x = y_zss ->
  forall t ns rest k', y = Ok t ns rest k' -> rest = drop_while is_zs s.
Proof.
  induction 1; intros Ex t' ns' rest' k' E; try discriminate; inversion Ex; subst;
    try (inversion E; subst; clear E).
  - match goal with X : runs _ _ y_zs _ _ Fail |- _ => inversion X; subst end; [|reflexivity].
    cbn. match goal with X : is_zs _ = false |- _ => now rewrite X end.
  - match goal with X : runs _ _ y_zs _ _ (Ok _ _ _ _) |- _ => inversion X; subst end.
    cbn. match goal with X : is_zs _ = true |- _ => rewrite X end. eapply IHruns2; reflexivity.
Qed.
Lemma g_zss n s k vs rest k' : gives n y_zss s k vs rest k' -> vs = [] /\ rest = drop_while is_zs s.
Proof.
  intros H. assert (vs = []) as -> by (eapply (g_quiet ut); [|exact H]; reflexivity). split; [reflexivity|].
  apply gives_runs in H as (t & ns & H & _ & _). eapply zss_drop; [exact H|reflexivity|reflexivity].
Qed.

Lemma base_refused n s k : refuses n (R_ y_comment_base) s k -> no_comment s.
Proof.
  intros H. apply r_rule in H as (m & _ & H). cbn [fst snd yaml_grammar emit_in] in H.
  apply r_seq in H as (m' & _ & [H|(t & ns & s1 & k1 & E & H)]); [now apply r_star in H|].
  apply eval_sound in E. pose proof (zss_drop _ _ _ _ _ E eq_refl _ _ _ _ eq_refl) as ->.
  apply r_seq in H as (m2 & _ & [H|(t2 & ns2 & s2 & k2 & E2 & H)]).
  - apply refuses_runs, str_fail_inv in H. intros r Er. rewrite Er in H. cbn in H. discriminate.
  - apply r_rule in H as (m3 & _ & H). cbn [fst snd yaml_grammar emit_in] in H. now apply r_star in H.
Qed.
Lemma comment_refused n s k : refuses n (R_ y_comment) s k -> no_comment s.
Proof.
  intros H. apply r_rule in H as (m & _ & H). cbn [fst snd yaml_grammar emit_in] in H.
  eapply base_refused. exact H.
Qed.
Lemma commentnl_refused n s k : refuses n (R_ y_commentnl) s k -> no_comment s.
Proof.
  intros H. apply r_rule in H as (m & _ & H). cbn [fst snd yaml_grammar emit_in] in H.
  apply r_seq in H as (m' & _ & [H|(t & ns & s1 & k1 & E & H)]); [eapply base_refused; exact H|].
  apply r_rule in H as (m3 & _ & H). cbn [fst snd yaml_grammar emit_in] in H.
  apply r_alt in H as (m4 & _ & _ & H). now apply r_opt in H.
Qed.

Lemma base_given n s k vs rest k' : gives n (R_ y_comment_base) s k vs rest k' ->
  ~ no_comment s /\ line_end rest.
Proof.
  intros H. apply g_silent in H as (m & _ & H); [|reflexivity]. cbn [snd yaml_grammar] in H.
  apply g_seq in H as (m1 & v1 & s1 & k1 & v2 & _ & A & H & ->). apply g_zss in A as [_ ->].
  apply g_seq in H as (m2 & v3 & s2 & k2 & v4 & _ & B & H & ->). apply g_str in B as [_ E].
  split; [intros F; exact (F _ E)|].
  apply gives_runs in H as (t & ns & H & _ & _). apply rule_ok_inv in H as (ns' & H).
  cbn [snd yaml_grammar] in H. now apply line_stop in H.
Qed.
Lemma comment_given n s k vs rest k' : gives n (R_ y_comment) s k vs rest k' ->
  exists c, vs = [(y_comment, VStr c)] /\ no_comment rest.
Proof.
  intros H. destruct (g_typed ut n y_comment s k vs rest k' ltac:(discriminate) eq_refl H) as (v & -> & c & -> & _).
  exists c. split; [reflexivity|]. apply g_rule in H as (m & t & cvs & v & _ & H & _); [|reflexivity].
  cbn [snd yaml_grammar] in H. apply base_given in H as [_ H]. now apply line_end_no_comment.
Qed.
Lemma comments_given n s k vs rest k' : gives n (R_ y_commentnls) s k vs rest k' ->
  exists cs, vs = [(y_commentnls, VStrs cs)] /\ no_comment rest /\ (no_comment s -> cs = []).
Proof.
  intros H. destruct (g_typed ut n y_commentnls s k vs rest k' ltac:(discriminate) eq_refl H) as (v & -> & cs & -> & _).
  exists cs. split; [reflexivity|]. apply g_rule in H as (m & t & cvs & v & _ & H & _ & Y & V); [|reflexivity].
  inversion V; subst v. cbn [snd yaml_grammar] in H. split.
  - destruct (g_star_all ut (fun _ => True) (fun _ => True) _ _ _ _ _ _ _ ltac:(auto) H I) as (_ & _ & _ & _ & m' & _ & R).
    eapply commentnl_refused. exact R.
  - intros F. apply g_star in H as (m' & _ & [(v1 & s1 & k1 & v2 & A & _)|(_ & -> & _)]).
    + exfalso. apply g_rule in A as (m2 & t2 & cvs2 & v & _ & A & _); [|reflexivity].
      cbn [snd yaml_grammar] in A. apply g_seq in A as (m3 & v3 & s3 & k3 & v4 & _ & A & _).
      apply base_given in A as [A _]. contradiction.
    + cbn in Y. now inversion Y.
Qed.
Lemma opt_comment_given n s k vs rest k' : gives n (POpt (R_ y_comment)) s k vs rest k' ->
  no_comment rest /\
  ((exists c, vs = [(y_comment, VStr c)] /\ ~ no_comment s) \/ vs = []).
Proof.
  intros H. apply g_opt in H as (m & _ & [H|(H & -> & -> & _)]).
  - pose proof H as H'. apply comment_given in H as (c & -> & F). split; [exact F|]. left. exists c. split; [reflexivity|].
    apply g_rule in H' as (m2 & t & cvs & v & _ & H' & _); [|reflexivity].
    cbn [snd yaml_grammar] in H'. now apply base_given in H' as [H' _].
  - split; [eapply comment_refused; exact H|]. now right.
Qed.

(** ---- block scalars end at the end of a line ---- *)

Lemma block_string_end em s k t ns rest k' :
  runs G em (R_ y_block_string) s k (Ok t ns rest k') -> line_end rest.
Proof.
  intros H. apply rule_ok_inv in H as (ns' & H). cbn [fst snd yaml_grammar emit_in] in H.
  inversion H; subst.
  - match goal with X : runs _ _ (yplus _) _ _ _ |- _ => apply seq_ok_inv in X as (? & ? & ? & ? & ? & ? & _ & _ & _ & X) end.
    eapply line_stop; eassumption.
  - match goal with X : runs _ _ (yl _) _ _ _ |- _ => inversion X; subst end.
    match goal with X : strip _ _ = Some _ |- _ => cbn in X; inversion X; subst end.
    match goal with X : runs _ _ (yplus _) _ _ Fail |- _ => inversion X; subst end.
    + match goal with X : runs _ _ (PSeq (PNot _) _) _ _ Fail |- _ => apply not_any_fail in X as [->|(t' & ns'' & r' & k'' & F)] end;
        [intros c r; discriminate|].
      apply nl_ok in F as (c & r & -> & Hc). intros c' r'' E. inversion E; subst. exact Hc.
    + exfalso. match goal with X : runs _ _ (PStar _) _ _ Fail |- _ => inversion X end.
Qed.
Lemma ml_part_end em s k t ns rest k' :
  runs G em (R_ y_ml_part) s k (Ok t ns rest k') -> line_end rest.
Proof.
  intros H. apply rule_ok_inv in H as (ns' & H). cbn [fst snd yaml_grammar emit_in] in H.
  repeat match goal with X : runs _ _ (PSeq _ _) _ _ _ |- _ => apply seq_ok_inv in X as (? & ? & ? & ? & ? & ? & _ & _ & _ & X) end.
  eapply block_string_end; eassumption.
Qed.
Lemma star_line_end em e : (forall s k t ns rest k', runs G em e s k (Ok t ns rest k') -> line_end rest) ->
  forall x s k y, runs G em x s k y -> x = PStar e -> line_end s ->
  forall t ns rest k', y = Ok t ns rest k' -> line_end rest.
Proof.
  intros He x s k y H. induction H; intros Ex Hs t' ns' rest' k' E; try discriminate; inversion Ex; subst;
    try (inversion E; subst; clear E); eauto.
Qed.
Lemma trailing_end em s k t ns rest k' :
  runs G em (PSeq y_nl (PAnd y_nl)) s k (Ok t ns rest k') -> line_end rest.
Proof.
  intros H. apply seq_ok_inv in H as (? & ? & s1 & ? & ? & ? & _ & _ & _ & H).
  inversion H; subst. destruct r; try discriminate.
  match goal with X : Ok _ _ _ _ = Ok _ _ _ _ |- _ => inversion X; subst end.
  match goal with X : runs _ _ y_nl _ _ (Ok _ _ _ _) |- _ => apply nl_ok in X as (c & r & -> & Hc) end.
  intros c' r' E. inversion E; subst. exact Hc.
Qed.
Lemma ml_content_end em s k t ns rest k' :
  runs G em (R_ y_ml_content) s k (Ok t ns rest k') -> line_end rest.
Proof.
  intros H. apply rule_ok_inv in H as (ns' & H). cbn [fst snd yaml_grammar emit_in] in H.
  apply seq_ok_inv in H as (? & ? & ? & ? & ? & ? & _ & _ & _ & H).
  apply seq_ok_inv in H as (? & ? & ? & ? & ? & ? & _ & _ & _ & H).
  apply seq_ok_inv in H as (? & ? & ? & ? & ? & ? & _ & _ & A & H).
  apply seq_ok_inv in A as (? & ? & ? & ? & ? & ? & _ & _ & _ & A).
  apply seq_ok_inv in A as (? & ? & ? & ? & ? & ? & _ & _ & _ & A).
  apply block_string_end in A.
  apply seq_ok_inv in H as (? & ? & ? & ? & ? & ? & _ & _ & B & H).
  pose proof (star_line_end em (R_ y_ml_part) (ml_part_end em) _ _ _ _ B eq_refl A _ _ _ _ eq_refl) as A2.
  apply seq_ok_inv in H as (? & ? & ? & ? & ? & ? & _ & _ & C & H).
  apply rule_ok_inv in C as (ns2 & C). cbn [fst snd yaml_grammar emit_in] in C.
  pose proof (star_line_end false (PSeq y_nl (PAnd y_nl)) (trailing_end false) _ _ _ _ C eq_refl A2 _ _ _ _ eq_refl) as A3.
  inversion H; subst. exact A3.
Qed.
Lemma ml_end r n s k vs rest k' : r = y_ml_literal \/ r = y_ml_folded ->
  gives n (R_ r) s k vs rest k' -> line_end rest.
Proof.
  intros Hr H. apply gives_runs in H as (t & ns & H & _ & _). apply rule_ok_inv in H as (ns' & H).
  destruct Hr as [-> | ->]; cbn [fst snd yaml_grammar emit_in] in H;
    repeat match goal with X : runs _ _ (PSeq _ _) _ _ _ |- _ => apply seq_ok_inv in X as (? & ? & ? & ? & ? & ? & _ & _ & _ & X) end;
    eapply ml_content_end; eassumption.
Qed.

(** ---- the parts of quoted scalars are kept apart ---- *)

(** Characters at which a text stops, in the two kinds of quoted scalars. *)
Definition dq_stop (c : char) : Prop := c = DQUOTE \/ c = BACKSLASH \/ c = NL.
Definition sq_stop (c : char) : Prop := c = QUOTE \/ c = NL.

Definition begins (P : char -> Prop) (s : str) : Prop := exists c r, s = c :: r /\ P c.
Definition stops (P : char -> Prop) (s : str) : Prop := forall c r, s = c :: r -> P c.

Lemma text_stop em a s k t ns rest k' (P : char -> Prop) :
  (forall s k t ns rest k', runs G false a s k (Ok t ns rest k') -> begins P s) ->
  (forall c s k, runs G false a (c :: s) k Fail -> ~ P c) ->
  runs G em (yplus (PSeq (PNot a) y_any)) s k (Ok t ns rest k') ->
  begins (fun c => ~ P c) s /\ stops P rest.
Proof.
  intros Ha Hf H. apply seq_ok_inv in H as (? & ? & ? & ? & ? & ? & _ & _ & A & H). split.
  - apply not_any_inv in A as (c & _ & -> & _ & F). exists c. eexists. split; [reflexivity|]. eapply Hf. exact F.
  - pose proof (star_end _ _ _ _ _ H _ eq_refl _ _ _ _ eq_refl) as F.
    apply not_any_fail in F as [->|(t' & ns' & r' & k'' & F)]; [intros c r; discriminate|].
    apply Ha in F as (c & r & -> & Hc). intros c' r2 E. inversion E; subst. exact Hc.
Qed.

Lemma char_ok em c s k t ns rest k' : runs G em (yc c) s k (Ok t ns rest k') -> s = c :: rest.
Proof. intros H. exact (runs_text G _ _ _ _ _ H _ _ _ _ eq_refl) || (pose proof (runs_text G _ _ _ _ _ H _ _ _ _ eq_refl); now inversion H; subst). Qed.
Lemma char_fail em c x s k : runs G em (yc c) (x :: s) k Fail -> x <> c.
Proof. intros H. apply str_fail_inv in H. now apply strip_char_none in H. Qed.
Lemma char_fail_stops em c s k : runs G em (yc c) s k Fail -> stops (fun x => x <> c) s.
Proof. intros H x r ->. now apply char_fail in H. Qed.

Lemma blank_lines_given n s k vs rest k' : gives n (R_ y_blank_lines) s k vs rest k' ->
  exists m, vs = [(y_blank_lines, VNat m)] /\ begins (fun c => c = NL) s /\ stops (fun c => c <> NL) rest.
Proof.
  intros H. destruct (g_typed ut n y_blank_lines s k vs rest k' ltac:(discriminate) eq_refl H) as (v & -> & m & -> & _).
  exists m. split; [reflexivity|]. apply gives_runs in H as (t & ns & H & _ & _).
  apply rule_ok_inv in H as (ns' & H). cbn [fst snd yaml_grammar emit_in] in H.
  apply seq_ok_inv in H as (? & ? & ? & ? & ? & ? & _ & _ & A & H). apply char_ok in A as ->. split.
  - eexists. eexists. split; [reflexivity|reflexivity].
  - apply seq_ok_inv in H as (? & ? & ? & ? & ? & ? & _ & _ & _ & H).
    pose proof (star_end _ _ _ _ _ H _ eq_refl _ _ _ _ eq_refl) as F. now apply char_fail_stops in F.
Qed.
Lemma removable_given n n' s k vs rest k' : refuses n' (R_ y_blank_lines) s k ->
  gives n (R_ y_removable_newline) s k vs rest k' ->
  exists v, vs = [(y_removable_newline, v)] /\ begins (fun c => c = NL) s /\ stops (fun c => c <> NL) rest.
Proof.
  intros R H. destruct (g_typed ut n y_removable_newline s k vs rest k' ltac:(discriminate) eq_refl H) as (v & -> & _).
  exists v. split; [reflexivity|]. apply gives_runs in H as (t & ns & H & _ & _).
  apply rule_ok_inv in H as (ns' & H). cbn [fst snd yaml_grammar emit_in] in H.
  apply char_ok in H as ->. split.
  - eexists. eexists. split; [reflexivity|reflexivity].
  - apply refuses_runs, rule_fail_inv in R. cbn [fst snd yaml_grammar emit_in] in R. inversion R; subst.
    + match goal with X : runs _ _ (yc NL) _ _ Fail |- _ => apply char_fail in X; congruence end.
    + match goal with X : runs _ _ (yc NL) _ _ (Ok _ _ _ _) |- _ => apply char_ok in X; inversion X; subst end.
      match goal with X : runs _ _ (yplus _) _ _ Fail |- _ => inversion X; subst end.
      * match goal with X : runs _ _ (yc NL) _ _ Fail |- _ => now apply char_fail_stops in X end.
      * match goal with X : runs _ _ (PStar _) _ _ Fail |- _ => inversion X end.
Qed.

Definition dq_starts (p : dq_part) (s : str) : Prop :=
  match p with
  | DQ_Str _ => begins (fun c => ~ dq_stop c) s
  | DQ_Blank _ | DQ_RemNl => begins (fun c => c = NL) s
  | _ => True
  end.
Definition dq_ends (p : dq_part) (s : str) : Prop :=
  match p with
  | DQ_Str _ => stops dq_stop s
  | DQ_Blank _ | DQ_RemNl => stops (fun c => c <> NL) s
  | _ => True
  end.
Definition sq_starts (p : sq_part) (s : str) : Prop :=
  match p with
  | SQ_Str _ => begins (fun c => ~ sq_stop c) s
  | SQ_Blank _ | SQ_RemNl => begins (fun c => c = NL) s
  | _ => True
  end.
Definition sq_ends (p : sq_part) (s : str) : Prop :=
  match p with
  | SQ_Str _ => stops sq_stop s
  | SQ_Blank _ | SQ_RemNl => stops (fun c => c <> NL) s
  | _ => True
  end.
Lemma dq_apart p q s : dq_ends p s -> dq_starts q s -> ~ dq_merge p q.
Proof.
  destruct p, q; cbn; auto; intros E (c & r & -> & Hc) _; specialize (E _ _ eq_refl); cbn in *; congruence || tauto.
Qed.
Lemma sq_apart p q s : sq_ends p s -> sq_starts q s -> ~ sq_merge p q.
Proof.
  destruct p, q; cbn; auto; intros E (c & r & -> & Hc) _; specialize (E _ _ eq_refl); cbn in *; congruence || tauto.
Qed.

Lemma dq_text_given n s k vs rest k' : gives n (R_ y_dq_text) s k vs rest k' ->
  exists x, vs = [(y_dq_text, VStr x)] /\ begins (fun c => ~ dq_stop c) s /\ stops dq_stop rest.
Proof.
  intros H. destruct (g_typed ut n y_dq_text s k vs rest k' ltac:(discriminate) eq_refl H) as (v & -> & x & -> & _).
  exists x. split; [reflexivity|]. apply gives_runs in H as (t & ns & H & _ & _).
  apply rule_ok_inv in H as (ns' & H). cbn [fst snd yaml_grammar emit_in] in H.
  eapply text_stop; [| |exact H].
  - intros s0 k0 t0 ns0 rest0 k0' X. inversion X; subst.
    + match goal with Y : runs _ _ (yc _) _ _ _ |- _ => apply char_ok in Y as -> end. unfold begins, dq_stop. eauto 6.
    + match goal with Y : runs _ _ (PAlt _ _) _ _ _ |- _ => inversion Y; subst end;
      match goal with Y : runs _ _ (yc _) _ _ (Ok _ _ _ _) |- _ => apply char_ok in Y as -> end; unfold begins, dq_stop; eauto 8.
  - intros c s0 k0 X. apply alt_fail_inv in X as [X1 X]. apply alt_fail_inv in X as [X2 X3].
    apply char_fail in X1, X2, X3. unfold dq_stop. tauto.
Qed.
Lemma sq_text_given n s k vs rest k' : gives n (R_ y_sq_text) s k vs rest k' ->
  exists x, vs = [(y_sq_text, VStr x)] /\ begins (fun c => ~ sq_stop c) s /\ stops sq_stop rest.
Proof.
  intros H. destruct (g_typed ut n y_sq_text s k vs rest k' ltac:(discriminate) eq_refl H) as (v & -> & x & -> & _).
  exists x. split; [reflexivity|]. apply gives_runs in H as (t & ns & H & _ & _).
  apply rule_ok_inv in H as (ns' & H). cbn [fst snd yaml_grammar emit_in] in H.
  eapply text_stop; [| |exact H].
  - intros s0 k0 t0 ns0 rest0 k0' X. inversion X; subst;
      match goal with Y : runs _ _ (yc _) _ _ (Ok _ _ _ _) |- _ => apply char_ok in Y as -> end; unfold begins, sq_stop; eauto 8.
  - intros c s0 k0 X. apply alt_fail_inv in X as [X1 X2].
    apply char_fail in X1, X2. unfold sq_stop. tauto.
Qed.

Lemma dq_part_given n s k vs rest k' : gives n (R_ y_dq_part) s k vs rest k' ->
  exists p, vs = [(y_dq_part, VDq p)] /\ dq_starts p s /\ dq_ends p rest.
Proof.
  intros H. apply g_rule in H as (m & t & cvs & v & _ & H & _ & Y & ->); [|reflexivity].
  cbn [snd yaml_grammar] in H.
  apply g_alt in H as (m1 & _ & [H|[_ H]]).
  - apply g_silent in H as (m2 & _ & H); [|reflexivity]. cbn [snd yaml_grammar] in H.
    apply g_seq in H as (m3 & v1 & s1 & k1 & v2 & _ & A & H & ->). apply g_str in A as [-> _].
    destruct (g_typed ut _ y_esc_value _ _ _ _ _ ltac:(discriminate) eq_refl H) as (v' & -> & e & ->).
    cbn in Y. inversion Y; subst. exists (DQ_Esc e). cbn. auto.
  - apply g_alt in H as (m2 & _ & [H|[R H]]).
    + apply blank_lines_given in H as (x & -> & A & B). cbn in Y. inversion Y; subst. exists (DQ_Blank x). cbn. auto.
    + apply g_alt in H as (m3 & _ & [H|[_ H]]).
      * eapply removable_given in H as (x & -> & A & B); [|exact R]. cbn in Y. inversion Y; subst. exists DQ_RemNl. cbn. auto.
      * apply dq_text_given in H as (x & -> & A & B). cbn in Y. inversion Y; subst. exists (DQ_Str x). cbn. auto.
Qed.
Lemma sq_part_given n s k vs rest k' : gives n (R_ y_sq_part) s k vs rest k' ->
  exists p, vs = [(y_sq_part, VSq p)] /\ sq_starts p s /\ sq_ends p rest.
Proof.
  intros H. apply g_rule in H as (m & t & cvs & v & _ & H & _ & Y & ->); [|reflexivity].
  cbn [snd yaml_grammar] in H.
  apply g_alt in H as (m1 & _ & [H|[_ H]]).
  - apply g_silent in H as (m2 & _ & H); [|reflexivity]. cbn [snd yaml_grammar] in H.
    apply g_seq in H as (m3 & v1 & s1 & k1 & v2 & _ & A & H & ->). apply g_str in A as [-> _].
    destruct (g_typed ut _ y_single_quote _ _ _ _ _ ltac:(discriminate) eq_refl H) as (v' & -> & _).
    cbn in Y. inversion Y; subst. exists SQ_Quote. cbn. auto.
  - apply g_alt in H as (m2 & _ & [H|[R H]]).
    + apply blank_lines_given in H as (x & -> & A & B). cbn in Y. inversion Y; subst. exists (SQ_Blank x). cbn. auto.
    + apply g_alt in H as (m3 & _ & [H|[_ H]]).
      * eapply removable_given in H as (x & -> & A & B); [|exact R]. cbn in Y. inversion Y; subst. exists SQ_RemNl. cbn. auto.
      * apply sq_text_given in H as (x & -> & A & B). cbn in Y. inversion Y; subst. exists (SQ_Str x). cbn. auto.
Qed.

Lemma dq_parts_given : forall n s k vs rest k', gives n (PStar (R_ y_dq_part)) s k vs rest k' ->
  exists ps, vs = map (fun p => (y_dq_part, VDq p)) ps /\ no_neighbours dq_merge ps
    /\ match ps with [] => True | p :: _ => dq_starts p s end.
Proof.
  induction n as [n IH] using lt_wf_ind. intros s k vs rest k' H.
  apply g_star in H as (m & Hm & [(v1 & s1 & k1 & v2 & A & B & ->)|(_ & -> & _)]); [|exists []; cbn; auto].
  apply dq_part_given in A as (p & -> & S & E).
  destruct (IH m Hm _ _ _ _ _ B) as (ps & -> & N & F). exists (p :: ps). split; [reflexivity|]. split; [|exact S].
  destruct ps as [|q ps]; [exact I|]. split; [|exact N]. eapply dq_apart; eassumption.
Qed.
Lemma sq_parts_given : forall n s k vs rest k', gives n (PStar (R_ y_sq_part)) s k vs rest k' ->
  exists ps, vs = map (fun p => (y_sq_part, VSq p)) ps /\ no_neighbours sq_merge ps
    /\ match ps with [] => True | p :: _ => sq_starts p s end.
Proof.
  induction n as [n IH] using lt_wf_ind. intros s k vs rest k' H.
  apply g_star in H as (m & Hm & [(v1 & s1 & k1 & v2 & A & B & ->)|(_ & -> & _)]); [|exists []; cbn; auto].
  apply sq_part_given in A as (p & -> & S & E).
  destruct (IH m Hm _ _ _ _ _ B) as (ps & -> & N & F). exists (p :: ps). split; [reflexivity|]. split; [|exact S].
  destruct ps as [|q ps]; [exact I|]. split; [|exact N]. eapply sq_apart; eassumption.
Qed.
Lemma many_dq ps : many as_dq (map (fun p => (y_dq_part, VDq p)) ps) = (ps, []).
Proof. induction ps as [|p ps IH]; cbn; [reflexivity|]. now rewrite IH. Qed.
Lemma many_sq ps : many as_sq (map (fun p => (y_sq_part, VSq p)) ps) = (ps, []).
Proof. induction ps as [|p ps IH]; cbn; [reflexivity|]. now rewrite IH. Qed.

Notation neat := (everywhere neat_node).

Lemma double_quoted_given n s k vs rest k' : gives n (R_ y_double_quoted) s k vs rest k' ->
  exists y, vs = [(y_double_quoted, VYaml y)] /\ neat y.
Proof.
  intros H. apply g_rule in H as (m & t & cvs & v & _ & H & _ & Y & ->); [|reflexivity].
  cbn [snd yaml_grammar] in H.
  apply g_seq in H as (m1 & v1 & s1 & k1 & v2 & _ & A & H & ->).
  apply g_push in A as (m2 & k2 & _ & A). apply g_str in A as [-> _].
  apply g_seq in H as (m3 & v3 & s3 & k3 & v4 & _ & A & H & ->).
  assert (v4 = []) as -> by (eapply (g_quiet ut); [|exact H]; reflexivity).
  apply g_rule in A as (m4 & t4 & cvs4 & v' & _ & A & _ & Y' & ->); [|reflexivity].
  cbn [snd yaml_grammar] in A. apply dq_parts_given in A as (ps & -> & N & _).
  cbn [yact] in Y'. rewrite many_dq in Y'. inversion Y'; subst. cbn in Y. inversion Y; subst.
  exists (DoubleQ ps). split; [reflexivity|]. cbn. auto.
Qed.
Lemma single_quoted_given n s k vs rest k' : gives n (R_ y_single_quoted) s k vs rest k' ->
  exists y, vs = [(y_single_quoted, VYaml y)] /\ neat y.
Proof.
  intros H. apply g_rule in H as (m & t & cvs & v & _ & H & _ & Y & ->); [|reflexivity].
  cbn [snd yaml_grammar] in H.
  apply g_seq in H as (m1 & v1 & s1 & k1 & v2 & _ & A & H & ->).
  apply g_push in A as (m2 & k2 & _ & A). apply g_str in A as [-> _].
  apply g_seq in H as (m3 & v3 & s3 & k3 & v4 & _ & A & H & ->).
  assert (v4 = []) as -> by (eapply (g_quiet ut); [|exact H]; reflexivity).
  apply g_rule in A as (m4 & t4 & cvs4 & v' & _ & A & _ & Y' & ->); [|reflexivity].
  cbn [snd yaml_grammar] in A. apply sq_parts_given in A as (ps & -> & N & _).
  cbn [yact] in Y'. rewrite many_sq in Y'. inversion Y'; subst. cbn in Y. inversion Y; subst.
  exists (SingleQ ps). split; [reflexivity|]. cbn. auto.
Qed.
End Neat.
