(** What the consumer makes of any parse tree of the YAML grammar. *)
From Coq Require Import ZArith.
From Verif Require Import Base Ast Num Peg PegFacts PegTree YamlGrammar Consume Spec_Parse.
Import ListNotations.

Section Tree.
Context (ut : unitab).
Notation G := (yaml_grammar ut).

(** ---- inversion of runs ---- *)

Lemma seq_ok_inv em a b s k t ns rest k' :
  runs G em (PSeq a b) s k (Ok t ns rest k') ->
  exists t1 n1 s1 k1 t2 n2, t = t1 ++ t2 /\ ns = n1 ++ n2
    /\ runs G em a s k (Ok t1 n1 s1 k1) /\ runs G em b s1 k1 (Ok t2 n2 rest k').
Proof.
  intros H. inversion H; subst; try discriminate. do 6 eexists. eauto.
Qed.

Lemma rule_ok_inv em r s k t ns rest k' :
  runs G em (PRule r) s k (Ok t ns rest k') ->
  exists ns', runs G (emit_in (fst (G r)) em) (snd (G r)) s k (Ok t ns' rest k').
Proof.
  intros H. inversion H; subst; try discriminate. eauto.
Qed.

Lemma rule_fail_inv em r s k :
  runs G em (PRule r) s k Fail -> runs G (emit_in (fst (G r)) em) (snd (G r)) s k Fail.
Proof. intros H. inversion H; subst. assumption. Qed.

Lemma alt_fail_inv em a b s k :
  runs G em (PAlt a b) s k Fail -> runs G em a s k Fail /\ runs G em b s k Fail.
Proof. intros H. inversion H; subst; [congruence|auto]. Qed.

Lemma str_fail_inv em p s k : runs G em (PStr p) s k Fail -> strip p s = None.
Proof. intros H. now inversion H. Qed.

Lemma not_ok_inv em a s k t ns rest k' :
  runs G em (PNot a) s k (Ok t ns rest k') ->
  t = [] /\ ns = [] /\ rest = s /\ k' = k /\ runs G false a s k Fail.
Proof.
  intros H. inversion H; subst. destruct r; try discriminate.
  match goal with H : Ok _ _ _ _ = Ok _ _ _ _ |- _ => inversion H; subst end. auto.
Qed.

(** [!a ~ ANY] *)
Lemma not_any_inv em a s k t ns rest k' :
  runs G em (PSeq (PNot a) y_any) s k (Ok t ns rest k') ->
  exists c, t = [c] /\ s = c :: rest /\ k' = k /\ runs G false a s k Fail.
Proof.
  intros H. apply seq_ok_inv in H as (t1 & n1 & s1 & k1 & t2 & n2 & -> & -> & H1 & H2).
  apply not_ok_inv in H1 as (-> & -> & -> & -> & F).
  inversion H2; subst. eexists. repeat split; eauto.
Qed.

(** Repetition of a parser of single characters. *)
Lemma star_chars (Q : char -> str -> Prop) em e :
  (forall s k t ns rest k', runs G em e s k (Ok t ns rest k') ->
     exists c, t = [c] /\ s = c :: rest /\ Q c rest) ->
  forall x s k r, runs G em x s k r -> x = PStar e ->
  forall t ns rest k', r = Ok t ns rest k' ->
  forall u c v, t = u ++ c :: v -> Q c (v ++ rest).
Proof.
  intros He x s k r H. induction H; intros Ex t' ns' rest' k' E; try discriminate;
    inversion Ex; subst; try (inversion E; subst; clear E); intros u c' v Et.
  - destruct u; discriminate.
  - destruct (He _ _ _ _ _ _ H) as (c0 & -> & -> & Hc0).
    destruct u as [|c1 u]; cbn in Et; inversion Et; subst.
    + now rewrite <- (runs_text _ _ _ _ _ _ H0 _ _ _ _ eq_refl).
    + eapply IHruns2; eauto.
Qed.

Lemma strip_char_none c x s : strip [c] (x :: s) = None -> x <> c.
Proof. cbn. destruct (ceqb c x) eqn:E; [discriminate|]. apply ceqb_neq in E. congruence. Qed.

Lemma nl_fail em x s k : runs G em y_nl (x :: s) k Fail -> x <> NL /\ x <> CR.
Proof.
  intros H. apply alt_fail_inv in H as [H1 H]. apply alt_fail_inv in H as [_ H3].
  apply str_fail_inv in H1, H3. split; eapply strip_char_none; eassumption.
Qed.

(** ---- the texts of leaf rules ---- *)

Definition line_char (c : char) (rest : str) : Prop := c <> NL /\ c <> CR.

Lemma line_chars_inv em s k t ns rest k' :
  runs G em (PStar (PSeq (PNot y_nl) y_any)) s k (Ok t ns rest k') -> one_line t.
Proof.
  intros H. assert (X : forall u c v, t = u ++ c :: v -> line_char c (v ++ rest)).
  { eapply star_chars; [|exact H|reflexivity|reflexivity].
    intros s0 k0 t0 ns0 rest0 k0' H0. apply not_any_inv in H0 as (c & -> & -> & _ & F).
    exists c. repeat split; apply nl_fail in F; tauto. }
  split; intros Hin; apply in_split in Hin as (u & v & ->); destruct (X _ _ _ eq_refl); congruence.
Qed.

Definition unq_char (c : char) (rest : str) : Prop :=
  c <> NL /\ c <> CR /\ c <> chr "#" /\ (c = chr ":" -> forall r, rest <> SP :: r).

Lemma colon_fail c s : strip (lit ": ") (c :: s) = None -> c = chr ":" -> forall r, s <> SP :: r.
Proof. intros H -> r ->. discriminate. Qed.

Ltac alts H :=
  repeat match type of H with
         | runs _ _ (PAlt _ _) _ _ Fail =>
             let H1 := fresh H "a" in apply alt_fail_inv in H as [H1 H];
             try (apply str_fail_inv in H1)
         end.

Lemma unq_char_from (c : char) s k em :
  runs G em (yl ": ") (c :: s) k Fail -> runs G em (yl "#") (c :: s) k Fail ->
  runs G em y_nl (c :: s) k Fail -> unq_char c s.
Proof.
  intros H1 H2 H3. apply str_fail_inv in H1, H2. apply nl_fail in H3 as [Hn Hr].
  repeat split; auto.
  - eapply strip_char_none; eassumption.
  - now apply colon_fail.
Qed.

Lemma unq_el_inv em s k t ns rest k' :
  runs G em (PRule y_unq_elements) s k (Ok t ns rest k') ->
  exists c, t = [c] /\ s = c :: rest /\ unq_char c rest.
Proof.
  intros H. apply rule_ok_inv in H as (ns' & H). apply not_any_inv in H as (c & -> & -> & _ & F).
  exists c. repeat split; apply rule_fail_inv in F; cbn in F;
    apply alt_fail_inv in F as [F1 F]; apply alt_fail_inv in F as [F2 F3];
    now destruct (unq_char_from _ _ _ _ F1 F2 F3) as (A & B & C & D).
Qed.

Lemma unq_inline_el_inv em s k t ns rest k' :
  runs G em (PRule y_unq_inline_elements) s k (Ok t ns rest k') ->
  exists c, t = [c] /\ s = c :: rest /\ unq_char c rest.
Proof.
  intros H. apply rule_ok_inv in H as (ns' & H). apply not_any_inv in H as (c & -> & -> & _ & F).
  exists c. split; [reflexivity|]. split; [reflexivity|]. apply rule_fail_inv in F. cbn in F.
  do 5 apply alt_fail_inv in F as [_ F]. apply alt_fail_inv in F as [F1 F].
  apply alt_fail_inv in F as [_ F]. apply alt_fail_inv in F as [F2 F].
  do 2 apply alt_fail_inv in F as [_ F]. exact (unq_char_from _ _ _ _ F1 F2 F).
Qed.

Lemma unq_start_inv em s k t ns rest k' :
  runs G em (PRule y_unq_start) s k (Ok t ns rest k') ->
  exists c, t = [c] /\ s = c :: rest /\ unq_char c rest.
Proof.
  intros H. apply rule_ok_inv in H as (ns' & H). apply not_any_inv in H as (c & -> & -> & _ & F).
  exists c. split; [reflexivity|]. split; [reflexivity|]. apply rule_fail_inv in F. cbn in F.
  do 4 apply alt_fail_inv in F as [_ F]. apply alt_fail_inv in F as [F1 F].
  do 2 apply alt_fail_inv in F as [_ F]. apply alt_fail_inv in F as [F2 F].
  do 2 apply alt_fail_inv in F as [_ F]. exact (unq_char_from _ _ _ _ F1 F2 F).
Qed.

Lemma unq_inline_start_inv em s k t ns rest k' :
  runs G em (PRule y_unq_inline_start) s k (Ok t ns rest k') ->
  exists c, t = [c] /\ s = c :: rest /\ unq_char c rest.
Proof.
  intros H. apply rule_ok_inv in H as (ns' & H). apply not_any_inv in H as (c & -> & -> & _ & F).
  exists c. split; [reflexivity|]. split; [reflexivity|]. apply rule_fail_inv in F. cbn in F.
  do 5 apply alt_fail_inv in F as [_ F]. apply alt_fail_inv in F as [F1 F].
  do 2 apply alt_fail_inv in F as [_ F]. apply alt_fail_inv in F as [F2 F].
  exact (unq_char_from _ _ _ _ F1 F2 F).
Qed.

(** ---- trimming ---- *)

Lemma drop_while_split f s : exists u, s = u ++ drop_while f s /\ (forall c, In c u -> f c = true)
  /\ (forall c r, drop_while f s = c :: r -> f c = false).
Proof.
  induction s as [|c s (u & E & F & H)]; cbn; [exists []; cbn; repeat split; intros; try easy; contradiction|].
  destruct (f c) eqn:Ef.
  - exists (c :: u). cbn. rewrite <- E. repeat split; auto. intros d [<-|Hd]; auto.
  - exists []. cbn. repeat split; [contradiction|]. intros d r Ed. inversion Ed; subst. exact Ef.
Qed.

Lemma trim_end_by_spec f s : exists u, s = trim_end_by f s ++ u /\ (forall c, In c u -> f c = true)
  /\ (forall r c, trim_end_by f s = r ++ [c] -> f c = false).
Proof.
  unfold trim_end_by. destruct (drop_while_split f (rev s)) as (u & E & F & H).
  exists (rev u). repeat split.
  - rewrite <- rev_app_distr, <- E. now rewrite rev_involutive.
  - intros c Hc. apply F. now apply in_rev.
  - intros r c Er. apply (H c (rev r)).
    assert (X : rev (rev (drop_while f (rev s))) = rev (r ++ [c])) by now rewrite Er.
    rewrite rev_involutive, rev_app_distr in X. exact X.
Qed.

Lemma unquoted_text_from t rest :
  (forall u c v, t = u ++ c :: v -> unq_char c (v ++ rest)) -> unquoted_text (trim_end_spaces t).
Proof.
  intros H. unfold trim_end_spaces. destruct (trim_end_by_spec (ceqb SP) t) as (u & E & _ & L).
  set (x := trim_end_by (ceqb SP) t) in *. repeat split.
  - intros Hin. apply in_split in Hin as (a & b & Ex). rewrite Ex in E.
    rewrite <- app_assoc in E. cbn in E. destruct (H _ _ _ E) as (A & _). now apply A.
  - intros Hin. apply in_split in Hin as (a & b & Ex). rewrite Ex in E.
    rewrite <- app_assoc in E. cbn in E. destruct (H _ _ _ E) as (_ & A & _). now apply A.
  - intros Hin. apply in_split in Hin as (a & b & Ex). rewrite Ex in E.
    rewrite <- app_assoc in E. cbn in E. destruct (H _ _ _ E) as (_ & _ & A & _). now apply A.
  - intros (a & b & Ex). rewrite Ex in E. rewrite <- app_assoc in E. cbn in E.
    destruct (H _ _ _ E) as (_ & _ & _ & A). cbn in A. eapply A; reflexivity.
  - intros r Er. specialize (L r SP Er). rewrite ceqb_refl in L. discriminate.
Qed.

Lemma unq_run_inv em a b s k t ns rest k' :
  (forall s k t ns rest k', runs G em a s k (Ok t ns rest k') ->
     exists c, t = [c] /\ s = c :: rest /\ unq_char c rest) ->
  (forall s k t ns rest k', runs G em b s k (Ok t ns rest k') ->
     exists c, t = [c] /\ s = c :: rest /\ unq_char c rest) ->
  runs G em (PSeq a (PStar b)) s k (Ok t ns rest k') -> unquoted_text (trim_end_spaces t).
Proof.
  intros Ha Hb H. apply seq_ok_inv in H as (t1 & n1 & s1 & k1 & t2 & n2 & -> & -> & H1 & H2).
  destruct (Ha _ _ _ _ _ _ H1) as (c0 & -> & -> & Q).
  apply unquoted_text_from with (rest := rest). intros u c v E.
  destruct u as [|c1 u]; cbn in E; inversion E; subst.
  - now rewrite <- (runs_text _ _ _ _ _ _ H2 _ _ _ _ eq_refl).
  - exact (star_chars unq_char em b Hb _ _ _ _ H2 eq_refl _ _ _ _ eq_refl _ _ _ eq_refl).
Qed.

(** ---- names and keys ---- *)

Lemma star_class_inv (P : char -> Prop) rs (e : yexp) t ns :
  (forall t ns, shp rs e t ns -> exists c, t = [c] /\ P c) ->
  shp rs (PStar e) t ns -> forall c, In c t -> P c.
Proof.
  intros He (l & -> & _ & Hl) c Hc. induction Hl as [|[a b] l Hx Hl IH]; cbn in Hc; [contradiction|].
  apply in_app_or in Hc as [Hc|Hc]; auto. destruct (He _ _ Hx) as (d & E & Pd). cbn in E. subst a.
  destruct Hc as [<-|[]]; assumption.
Qed.

Lemma name_alt_inv rs t ns :
  shp rs (PAlt (y_letter ut) (PAlt (y_number ut) (yl "_"))) t ns ->
  exists c, t = [c] /\ name_char ut c.
Proof.
  cbn. intros [((c & -> & H) & _)|[((c & -> & H) & _)|[-> _]]]; eexists; split; try reflexivity;
    unfold name_char; auto.
Qed.

Lemma key_alt_inv rs t ns :
  shp rs (PAlt (y_letter ut) (PAlt (y_number ut) (PAlt (yl "_") (PAlt (yl "-") (yl " "))))) t ns ->
  exists c, t = [c] /\ (name_char ut c \/ c = chr "-" \/ c = SP).
Proof.
  cbn. intros [((c & -> & H) & _)|[((c & -> & H) & _)|[[-> _]|[[-> _]|[-> _]]]]]; eexists;
    (split; [reflexivity|]); unfold name_char; auto 6.
Qed.

Lemma name_not_ws c : name_char ut c -> is_ws c = false.
Proof.
  intros [H|[H| ->]]; [| |reflexivity]; unfold is_letter, is_number in H.
  - destruct (c <? 128)%N eqn:E.
    + unfold ascii_letter in H. unfold is_ws. apply N.ltb_lt in E.
      rewrite orb_true_iff, !andb_true_iff, !N.leb_le in H.
      repeat (rewrite orb_false_iff || rewrite andb_false_iff || rewrite N.eqb_neq || rewrite N.leb_gt).
      lia.
    + apply andb_true_iff in H as [_ H]. now apply negb_true_iff in H.
  - destruct (c <? 128)%N eqn:E.
    + unfold ascii_digit in H. unfold is_ws. apply N.ltb_lt in E.
      rewrite !andb_true_iff, !N.leb_le in H.
      repeat (rewrite orb_false_iff || rewrite andb_false_iff || rewrite N.eqb_neq || rewrite N.leb_gt).
      lia.
    + apply andb_true_iff in H as [_ H]. now apply negb_true_iff in H.
Qed.

Lemma key_text t ns : shp (rshp G 3) (snd (G y_hash_key)) t ns -> plain_key ut (trim_end t).
Proof.
  intros (t1 & t2 & n1 & n2 & -> & -> & H1 & H2).
  apply name_alt_inv in H1 as (c & -> & Hc).
  pose proof (star_class_inv _ _ _ _ _ (key_alt_inv (rshp G 3)) H2) as Hall.
  unfold trim_end. destruct (trim_end_by_spec is_ws ([c] ++ t2)) as (u & E & Hu & L).
  destruct (trim_end_by is_ws ([c] ++ t2)) as [|c' x] eqn:Ex.
  - exfalso. cbn in E. assert (In c u) by (rewrite <- E; now left).
    apply Hu in H. rewrite (name_not_ws c Hc) in H. discriminate.
  - cbn in E. inversion E; subst. repeat split.
    + exists c', x. auto.
    + intros d [<-|Hd]; [auto|]. apply Hall. apply in_or_app. now left.
    + intros r Er. specialize (L r SP Er). discriminate.
Qed.

Lemma alias_text t ns : shp (rshp G 3) (snd (G y_alias_name)) t ns -> alias_ok ut t.
Proof.
  intros (t1 & t2 & n1 & n2 & -> & -> & H1 & H2).
  apply name_alt_inv in H1 as (c & -> & Hc). split; [discriminate|].
  pose proof (star_class_inv _ _ _ _ _ (name_alt_inv (rshp G 3)) H2) as Hall.
  intros d [<-|Hd]; auto.
Qed.

(** ---- quoted texts ---- *)

Lemma sq_text_inv s k t ns rest k' :
  runs G true (snd (G y_sq_text)) s k (Ok t ns rest k') -> sq_ok (SQ_Str t).
Proof.
  intros H. apply seq_ok_inv in H as (t1 & n1 & s1 & k1 & t2 & n2 & -> & -> & H1 & H2).
  assert (HQ : forall s k t ns rest k',
    runs G true (PSeq (PNot (PAlt (yc QUOTE) (yc NL))) y_any) s k (Ok t ns rest k') ->
    exists c, t = [c] /\ s = c :: rest /\ (c <> QUOTE /\ c <> NL)).
  { intros s0 k0 t0 ns0 r0 k0' H0. apply not_any_inv in H0 as (c & -> & -> & _ & F).
    apply alt_fail_inv in F as [F1 F2]. apply str_fail_inv in F1, F2.
    exists c. repeat split; eapply strip_char_none; eassumption. }
  destruct (HQ _ _ _ _ _ _ H1) as (c & -> & -> & Q1 & Q2).
  pose proof (star_chars (fun c _ => c <> QUOTE /\ c <> NL) true _ HQ _ _ _ _ H2 eq_refl _ _ _ _ eq_refl) as Hs.
  repeat split; [discriminate| |]; intros [E|Hin]; try congruence;
    apply in_split in Hin as (u & v & E); destruct (Hs _ _ _ E); congruence.
Qed.

Lemma dq_text_inv s k t ns rest k' :
  runs G true (snd (G y_dq_text)) s k (Ok t ns rest k') -> dq_ok (DQ_Str t).
Proof.
  intros H. apply seq_ok_inv in H as (t1 & n1 & s1 & k1 & t2 & n2 & -> & -> & H1 & H2).
  assert (HQ : forall s k t ns rest k',
    runs G true (PSeq (PNot (PAlt (yc DQUOTE) (PAlt (yc BACKSLASH) (yc NL)))) y_any) s k (Ok t ns rest k') ->
    exists c, t = [c] /\ s = c :: rest /\ (c <> DQUOTE /\ c <> BACKSLASH /\ c <> NL)).
  { intros s0 k0 t0 ns0 r0 k0' H0. apply not_any_inv in H0 as (c & -> & -> & _ & F).
    apply alt_fail_inv in F as [F1 F2]. apply alt_fail_inv in F2 as [F2 F3].
    apply str_fail_inv in F1, F2, F3.
    exists c. repeat split; eapply strip_char_none; eassumption. }
  destruct (HQ _ _ _ _ _ _ H1) as (c & -> & -> & Q1 & Q2 & Q3).
  pose proof (star_chars (fun c _ => c <> DQUOTE /\ c <> BACKSLASH /\ c <> NL) true _ HQ _ _ _ _ H2 eq_refl _ _ _ _ eq_refl) as Hs.
  repeat split; [discriminate| | |]; intros [E|Hin]; try congruence;
    apply in_split in Hin as (u & v & E); destruct (Hs _ _ _ E) as (? & ? & ?); congruence.
Qed.
End Tree.
