(** The text of whatever the grammar accepts as an item of an inline collection. *)
From Coq Require Import ZArith.
From Verif Require Import Base Ast Num Strings Peg PegFacts PegTree YamlGrammar Consume Spec_Parse YamlTree
  Spec_Format Reads FormatText FormatScalars FormatFlow ParsedNeat ParsedNeat2 Spec_Layout LayoutText Spec_Flow FlowText FlowText2.
From Verif Require LayoutFlow.
Import ListNotations.

Section FlowInv.
Context (ut : unitab).
Notation G := (yaml_grammar ut).
Notation closing := LayoutFlow.itail1.
Notation more := LayoutFlow.more.

Lemma text_of em e s k t ns rest k' : runs G em e s k (Ok t ns rest k') -> s = t ++ rest.
Proof. intros H. exact (runs_text G _ _ _ _ _ H _ _ _ _ eq_refl). Qed.
Lemma char_inv em c s k t ns rest k' : runs G em (yc c) s k (Ok t ns rest k') -> s = c :: rest /\ t = [c] /\ k' = k.
Proof.
  intros H. split; [now apply char_ok in H|]. inversion H; subst. auto.
Qed.

(** ---- unquoted text ---- *)

Lemma plain_start_inv em s k t ns rest k' :
  runs G em (R_ y_unq_inline_start) s k (Ok t ns rest k') ->
  exists c, t = [c] /\ s = c :: rest /\ ~ In c (lit ",[]{}'#" ++ [DQUOTE]) /\ unq_char c rest.
Proof.
  intros H. pose proof (unq_inline_start_inv ut _ _ _ _ _ _ _ H) as (c & E & E' & U). exists c.
  split; [exact E|]. split; [exact E'|]. split; [|exact U].
  apply rule_ok_inv in H as (ns' & H). apply not_any_inv in H as (c' & -> & -> & _ & F).
  inversion E'; subst. apply rule_fail_inv in F. cbn [fst snd yaml_grammar emit_in] in F.
  repeat (match type of F with runs _ _ (PAlt _ _) _ _ _ =>
    let X := fresh "X" in apply alt_fail_inv in F as [X F]; apply str_fail_inv in X end).
  cbn [lit app In String.list_ascii_of_string]. intros HH.
  repeat (destruct HH as [HH|HH]; [subst c; discriminate|]). exact HH.
Qed.
Lemma plain_el_inv em s k t ns rest k' :
  runs G em (R_ y_unq_inline_elements) s k (Ok t ns rest k') ->
  exists c, t = [c] /\ s = c :: rest /\ (~ In c (lit ",[]{}#>|" ++ [DQUOTE]) /\ unq_char c rest).
Proof.
  intros H. pose proof (unq_inline_el_inv ut _ _ _ _ _ _ _ H) as (c & E & E' & U). exists c.
  split; [exact E|]. split; [exact E'|]. split; [|exact U].
  apply rule_ok_inv in H as (ns' & H). apply not_any_inv in H as (c' & -> & -> & _ & F).
  inversion E'; subst. apply rule_fail_inv in F. cbn [fst snd yaml_grammar emit_in] in F.
  repeat (match type of F with runs _ _ (PAlt _ _) _ _ _ =>
    let X := fresh "X" in apply alt_fail_inv in F as [X F]; apply str_fail_inv in X end).
  intros HH. vm_compute in HH.
  repeat (destruct HH as [HH|HH]; [subst c; discriminate|]). exact HH.
Qed.

Lemma spaces_of u : (forall c, In c u -> ceqb SP c = true) -> loose u.
Proof. intros H c Hc. left. symmetry. now apply ceqb_eq, H. Qed.

Lemma plain_inv em s k t ns rest k' w z :
  runs G em (R_ y_unquoted_inline_string) s k (Ok t ns rest k') -> firm s ->
  rest = w ++ z -> loose w -> (forall d r, s = chr "*" :: d :: r -> ~ name_char ut d) ->
  exists u w', s = u ++ w' ++ z /\ plain_item ut u w' /\ loose w'.
Proof.
  intros H Hf -> Hw Ha. pose proof (text_of _ _ _ _ _ _ _ _ H) as Es.
  apply rule_ok_inv in H as (ns' & H). cbn [fst snd yaml_grammar emit_in] in H.
  apply seq_ok_inv in H as (t1 & n1 & s1 & k1 & t2 & n2 & -> & -> & H1 & H2).
  apply plain_start_inv in H1 as (c & -> & E1 & Hc & Uc).
  pose proof (star_chars ut _ _ _ (fun s k t ns rest k' X => plain_el_inv _ s k t ns rest k' X) _ _ _ _ H2 eq_refl _ _ _ _ eq_refl) as Hall.
  cbn beta in Hall.
  assert (Es1 : s1 = t2 ++ w ++ z) by (now apply text_of in H2).
  destruct (trim_end_by_spec (ceqb SP) ([c] ++ t2)) as (p & Et & Hp & Hlast).
  set (u := trim_end_by (ceqb SP) ([c] ++ t2)) in *.
  assert (Hsp : c <> SP) by (apply (Hf c s1 E1)).
  assert (Hu : exists r, u = c :: r).
  { destruct u as [|c' r] eqn:Eu.
    - exfalso. cbn [app] in Et. apply Hsp. symmetry. apply ceqb_eq, Hp. rewrite <- Et. now left.
    - cbn [app] in Et. inversion Et; subst. eauto. }
  destruct Hu as (r & Eu).
  assert (Er : t2 = r ++ p) by (rewrite Eu in Et; cbn [app] in Et; now inversion Et).
  assert (Hch : forall a d b, u = a ++ d :: b -> unq_char d (b ++ p ++ w ++ z)).
  { intros a d b E. destruct a as [|a0 a]; cbn [app] in E; rewrite Eu in E; inversion E; subst.
    - rewrite <- !app_assoc in Uc. exact Uc.
    - destruct (Hall a d (b ++ p)) as [_ X]; [now rewrite <- app_assoc|]. now rewrite <- app_assoc in X. }
  exists u, (p ++ w). split; [|split].
  - rewrite Es, Et, <- !app_assoc. reflexivity.
  - split; [|split; [|split; [|split]]].
    + exists c, r. split; [exact Eu|]. split.
      * intros X. assert (In c (lit ",[]{}'#" ++ [DQUOTE]) \/ c = SP) as [Y| ->]; [|tauto|now destruct Hsp].
        clear - X. cbn [lit app In String.list_ascii_of_string] in *. intuition.
      * intros d Hd. apply in_split in Hd as (a & b & Ed). destruct (Hall a d (b ++ p)) as [X _]; [|exact X].
        rewrite Er, Ed, <- app_assoc. reflexivity.
    + split; intros X; apply in_split in X as (a & b & X); destruct (Hch _ _ _ X) as (A & B & _); congruence.
    + intros x Ex. specialize (Hlast x SP Ex). discriminate.
    + intros (a & b & E).
      assert (HH : exists b', u = a ++ chr ":" :: b' /\ SP :: b = b' ++ p ++ w).
      { apply LayoutFlow.app_split in E as [(b' & E1' & E2)|(a' & E)]; [eauto|].
        exfalso. assert (X : In (chr ":") (p ++ w)) by (rewrite E; apply in_or_app; right; now left).
        apply in_app_or in X as [X|X]; [apply Hp in X; discriminate|]. destruct (Hw _ X) as [Y|[Y|Y]]; discriminate. }
      destruct HH as (b' & E1' & E2). destruct (Hch _ _ _ E1') as (_ & _ & _ & X).
      apply (X eq_refl (b ++ z)). rewrite (app_assoc p), (app_assoc b'), <- E2. reflexivity.
    + intros d x Ex. rewrite Eu in Ex. inversion Ex; subst. apply (Ha d (x ++ p ++ w ++ z)). rewrite Es, Et, Eu.
      cbn [app]. now rewrite <- !app_assoc.
  - apply loose_app; [now apply spaces_of|exact Hw].
Qed.

(** ---- quoted text ---- *)

Lemma nls_inv em x s k y : runs G em x s k y -> x = PStar (yc NL) -> forall t ns rest k',
  y = Ok t ns rest k' -> k' = k /\ t = repeat_char NL (length t) /\ stops (fun c => c <> NL) rest.
Proof.
  induction 1; intros Ex t' ns' rest' k' E; try discriminate; inversion Ex; subst;
    try (inversion E; subst; clear E).
  - repeat split. eapply char_fail_stops. eassumption.
  - match goal with X : runs _ _ (yc NL) _ _ (Ok _ _ _ _) |- _ => apply char_inv in X as (_ & -> & ->) end.
    destruct (IHruns2 eq_refl _ _ _ _ eq_refl) as (-> & A & B). split; [reflexivity|]. split; [|exact B].
    cbn [app length repeat_char]. now rewrite <- A.
Qed.
Lemma breaks_inv em s k t ns rest k' : runs G em (R_ y_blank_lines) s k (Ok t ns rest k') ->
  k' = k /\ (exists n, n <> 0 /\ t = repeat_char NL (n + 1)) /\ begins (fun c => c = NL) s /\ stops (fun c => c <> NL) rest.
Proof.
  intros H. apply rule_ok_inv in H as (ns' & H). cbn [fst snd yaml_grammar emit_in] in H.
  apply seq_ok_inv in H as (t1 & n1 & s1 & k1 & t2 & n2 & -> & -> & A & H). apply char_inv in A as (-> & -> & ->).
  apply seq_ok_inv in H as (t3 & n3 & s3 & k3 & t4 & n4 & -> & -> & A & H). apply char_inv in A as (-> & -> & ->).
  destruct (nls_inv _ _ _ _ _ H eq_refl _ _ _ _ eq_refl) as (-> & E & F). split; [reflexivity|].
  split; [|split; [exists NL; eauto|exact F]]. exists (S (length t4)). split; [discriminate|].
  rewrite Nat.add_1_r. cbn [repeat_char app]. now rewrite <- E.
Qed.
Lemma removable_inv em s k t ns rest k' : runs G em (R_ y_blank_lines) s k Fail ->
  runs G em (R_ y_removable_newline) s k (Ok t ns rest k') ->
  k' = k /\ t = [NL] /\ begins (fun c => c = NL) s /\ stops (fun c => c <> NL) rest.
Proof.
  intros R H. apply rule_ok_inv in H as (ns' & H). cbn [fst snd yaml_grammar emit_in] in H.
  apply char_inv in H as (-> & -> & ->). split; [reflexivity|]. split; [reflexivity|]. split; [exists NL; eauto|].
  apply rule_fail_inv in R. cbn [fst snd yaml_grammar emit_in] in R.
  apply seq_fail_inv in R as [R|(t1 & n1 & s1 & k1 & A & R)]; [apply char_fail in R; congruence|].
  apply char_inv in A as (A & _ & ->). inversion A; subst. apply plus_fail in R. now apply char_fail_stops in R.
Qed.

(** Parts of a quoted text and the stack. *)
Lemma star_still em a x s k y : runs G em x s k y -> x = PStar (PSeq (PNot a) y_any) -> forall t ns rest k',
  y = Ok t ns rest k' -> k' = k.
Proof.
  induction 1; intros Ex t' ns' rest' k' E; try discriminate; inversion Ex; subst;
    try (inversion E; subst; clear E); [reflexivity|].
  match goal with X : runs _ _ (PSeq _ _) _ _ (Ok _ _ _ _) |- _ => apply not_any_inv in X as (_ & _ & _ & -> & _) end.
  exact (IHruns2 eq_refl _ _ _ _ eq_refl).
Qed.
Lemma plus_still em a s k t ns rest k' : runs G em (yplus (PSeq (PNot a) y_any)) s k (Ok t ns rest k') -> k' = k.
Proof.
  intros H. apply seq_ok_inv in H as (t1 & n1 & s1 & k1 & t2 & n2 & -> & -> & A & H).
  apply not_any_inv in A as (_ & _ & _ & -> & _). exact (star_still _ _ _ _ _ _ H eq_refl _ _ _ _ eq_refl).
Qed.

Lemma sq_part_inv s k t ns rest k' : runs G true (R_ y_sq_part) s k (Ok t ns rest k') ->
  exists p, t = sq_text p /\ sq_ok p /\ k' = k /\ sq_starts p s /\ sq_ends p rest.
Proof.
  intros H. apply rule_ok_inv in H as (ns' & H). cbn [fst snd yaml_grammar emit_in] in H.
  inversion H; subst; clear H.
  { match goal with X : runs _ _ (R_ _) _ _ _ |- _ => apply rule_ok_inv in X as (ns1 & H) end.
    cbn [fst snd yaml_grammar emit_in] in H.
    apply seq_ok_inv in H as (t1 & n1 & s1 & k1 & t2 & n2 & -> & -> & A & H). apply char_inv in A as (-> & -> & ->).
    apply rule_ok_inv in H as (ns2 & H). cbn [fst snd yaml_grammar emit_in] in H. apply char_inv in H as (-> & -> & ->).
    exists SQ_Quote. cbn. auto 10. }
  match goal with X : runs _ _ (PAlt _ _) _ _ _ |- _ => inversion X; subst; clear X end.
  { match goal with X : runs _ _ (R_ y_blank_lines) _ _ _ |- _ => apply breaks_inv in X as (-> & (n & Hn & ->) & A & B) end.
    exists (SQ_Blank n). split; [reflexivity|]. split; [cbn; lia|]. auto. }
  match goal with X : runs _ _ (PAlt _ _) _ _ _ |- _ => inversion X; subst; clear X end.
  { match goal with X : runs _ _ (R_ y_removable_newline) _ _ _ |- _ => apply removable_inv in X as (-> & -> & A & B); [|assumption] end.
    exists SQ_RemNl. cbn. auto 10. }
  match goal with X : runs _ _ (R_ y_sq_text) _ _ (Ok _ _ _ _) |- _ => apply rule_ok_inv in X as (ns1 & H) end.
  cbn [fst emit_in] in H. pose proof (sq_text_inv ut _ _ _ _ _ _ H) as A. exists (SQ_Str t).
  cbn [snd yaml_grammar] in H. split; [reflexivity|]. split; [exact A|]. split; [eapply plus_still, H|].
  eapply text_stop; [| |exact H].
  - intros s0 k0 t0 ns0 rest0 k0' X. inversion X; subst;
      match goal with Y : runs _ _ (yc _) _ _ (Ok _ _ _ _) |- _ => apply char_ok in Y as -> end; unfold begins, sq_stop; eauto 8.
  - intros c s0 k0 X. apply alt_fail_inv in X as [X1 X2].
    apply char_fail in X1, X2. unfold sq_stop. tauto.
Qed.
Lemma dq_part_inv s k t ns rest k' : runs G true (R_ y_dq_part) s k (Ok t ns rest k') ->
  exists p, t = dq_text p /\ dq_ok p /\ k' = k /\ dq_starts p s /\ dq_ends p rest.
Proof.
  intros H. apply rule_ok_inv in H as (ns' & H). cbn [fst snd yaml_grammar emit_in] in H.
  inversion H; subst; clear H.
  { match goal with X : runs _ _ (R_ _) _ _ _ |- _ => apply rule_ok_inv in X as (ns1 & H) end.
    cbn [fst snd yaml_grammar emit_in] in H.
    apply seq_ok_inv in H as (t1 & n1 & s1 & k1 & t2 & n2 & -> & -> & A & H). apply char_inv in A as (-> & -> & ->).
    apply rule_ok_inv in H as (ns2 & H). cbn [fst snd yaml_grammar emit_in] in H.
    assert (HH : k' = k /\ exists e, t2 = [match e with
                  | E_Quote => DQUOTE | E_Backslash => BACKSLASH | E_Tab => chr "t"
                  | E_CR => chr "r" | E_Newline => chr "n" | E_RealNewline => NL end]).
    { inversion H; subst; clear H; [match goal with X : runs _ _ _ _ _ _ |- _ => apply (char_inv _ (chr "n")) in X as (_ & -> & ->) end; split; [reflexivity|now exists E_Newline]|].
      match goal with X : runs _ _ (PAlt _ _) _ _ _ |- _ => inversion X; subst; clear X end;
        [match goal with X : runs _ _ _ _ _ (Ok _ _ _ _) |- _ => apply (char_inv _ BACKSLASH) in X as (_ & -> & ->) end; split; [reflexivity|now exists E_Backslash]|].
      match goal with X : runs _ _ (PAlt _ _) _ _ _ |- _ => inversion X; subst; clear X end;
        [match goal with X : runs _ _ _ _ _ (Ok _ _ _ _) |- _ => apply (char_inv _ (chr "r")) in X as (_ & -> & ->) end; split; [reflexivity|now exists E_CR]|].
      match goal with X : runs _ _ (PAlt _ _) _ _ _ |- _ => inversion X; subst; clear X end;
        [match goal with X : runs _ _ _ _ _ (Ok _ _ _ _) |- _ => apply (char_inv _ (chr "t")) in X as (_ & -> & ->) end; split; [reflexivity|now exists E_Tab]|].
      match goal with X : runs _ _ (PAlt _ _) _ _ _ |- _ => inversion X; subst; clear X end;
        [match goal with X : runs _ _ _ _ _ (Ok _ _ _ _) |- _ => apply (char_inv _ DQUOTE) in X as (_ & -> & ->) end; split; [reflexivity|now exists E_Quote]|].
      match goal with X : runs _ _ _ _ _ (Ok _ _ _ _) |- _ => apply (char_inv _ NL) in X as (_ & -> & ->) end; split; [reflexivity|now exists E_RealNewline]. }
    destruct HH as (-> & e & ->). exists (DQ_Esc e). cbn. auto 10. }
  match goal with X : runs _ _ (PAlt _ _) _ _ _ |- _ => inversion X; subst; clear X end.
  { match goal with X : runs _ _ (R_ y_blank_lines) _ _ _ |- _ => apply breaks_inv in X as (-> & (n & Hn & ->) & A & B) end.
    exists (DQ_Blank n). split; [reflexivity|]. split; [cbn; lia|]. auto. }
  match goal with X : runs _ _ (PAlt _ _) _ _ _ |- _ => inversion X; subst; clear X end.
  { match goal with X : runs _ _ (R_ y_removable_newline) _ _ _ |- _ => apply removable_inv in X as (-> & -> & A & B); [|assumption] end.
    exists DQ_RemNl. cbn. auto 10. }
  match goal with X : runs _ _ (R_ y_dq_text) _ _ (Ok _ _ _ _) |- _ => apply rule_ok_inv in X as (ns1 & H) end.
  cbn [fst emit_in] in H. pose proof (dq_text_inv ut _ _ _ _ _ _ H) as A. exists (DQ_Str t).
  cbn [snd yaml_grammar] in H. split; [reflexivity|]. split; [exact A|]. split; [eapply plus_still, H|].
  eapply text_stop; [| |exact H].
  - intros s0 k0 t0 ns0 rest0 k0' X. inversion X; subst.
    + match goal with Y : runs _ _ (yc _) _ _ _ |- _ => apply char_ok in Y as -> end. unfold begins, dq_stop. eauto 6.
    + match goal with Y : runs _ _ (PAlt _ _) _ _ _ |- _ => inversion Y; subst end;
      match goal with Y : runs _ _ (yc _) _ _ (Ok _ _ _ _) |- _ => apply char_ok in Y as -> end; unfold begins, dq_stop; eauto 8.
  - intros c s0 k0 X. apply alt_fail_inv in X as [X1 X]. apply alt_fail_inv in X as [X2 X3].
    apply char_fail in X1, X2, X3. unfold dq_stop. tauto.
Qed.

Lemma sq_parts_inv x s k y em : runs G em x s k y -> em = true -> x = PStar (R_ y_sq_part) -> forall t ns rest k',
  y = Ok t ns rest k' -> k' = k /\ exists ps, t = flat_map sq_text ps /\ sq_canon ps
    /\ match ps with [] => True | p :: _ => sq_starts p s end.
Proof.
  induction 1; intros Eem Ex t' ns' rest' k' E; try discriminate; inversion Ex; subst;
    try (inversion E; subst; clear E).
  - split; [reflexivity|]. exists []. split; [reflexivity|]. split; [split; [constructor|exact I]|exact I].
  - match goal with X : runs _ _ (R_ y_sq_part) _ _ (Ok _ _ _ _) |- _ => apply sq_part_inv in X as (p & -> & A & -> & B & C) end.
    destruct (IHruns2 eq_refl eq_refl _ _ _ _ eq_refl) as (-> & ps & -> & [D E] & F). split; [reflexivity|].
    exists (p :: ps). split; [reflexivity|]. split; [|exact B]. split; [now constructor|].
    destruct ps as [|q ps]; [exact I|]. split; [|exact E]. eapply sq_apart; eassumption.
Qed.
Lemma dq_parts_inv x s k y em : runs G em x s k y -> em = true -> x = PStar (R_ y_dq_part) -> forall t ns rest k',
  y = Ok t ns rest k' -> k' = k /\ exists ps, t = flat_map dq_text ps /\ dq_canon ps
    /\ match ps with [] => True | p :: _ => dq_starts p s end.
Proof.
  induction 1; intros Eem Ex t' ns' rest' k' E; try discriminate; inversion Ex; subst;
    try (inversion E; subst; clear E).
  - split; [reflexivity|]. exists []. split; [reflexivity|]. split; [split; [constructor|exact I]|exact I].
  - match goal with X : runs _ _ (R_ y_dq_part) _ _ (Ok _ _ _ _) |- _ => apply dq_part_inv in X as (p & -> & A & -> & B & C) end.
    destruct (IHruns2 eq_refl eq_refl _ _ _ _ eq_refl) as (-> & ps & -> & [D E] & F). split; [reflexivity|].
    exists (p :: ps). split; [reflexivity|]. split; [|exact B]. split; [now constructor|].
    destruct ps as [|q ps]; [exact I|]. split; [|exact E]. eapply dq_apart; eassumption.
Qed.

Lemma quoted_frame em q e s k t ns rest k' :
  runs G em (PPush (yc q) ~~ e ~~ PPop ~~ y_zss)%peg s k (Ok t ns rest k') ->
  exists t1 n1 s1 k1 , s = q :: t1 ++ s1 /\ runs G em e (t1 ++ s1) ([q] :: k) (Ok t1 n1 s1 k1) /\
    (k1 = [q] :: k -> exists z, seps z /\ s1 = q :: z ++ rest /\ k' = k).
Proof.
  intros H. apply seq_ok_inv in H as (t1 & n1 & s1 & k1 & t2 & n2 & -> & -> & A & H).
  inversion A; subst; clear A; try discriminate.
  match goal with X : runs _ _ (yc _) _ _ (Ok _ _ _ _) |- _ => apply char_inv in X as (-> & -> & ->) end.
  apply seq_ok_inv in H as (t3 & n3 & s3 & k3 & t4 & n4 & -> & -> & A & H).
  pose proof (text_of _ _ _ _ _ _ _ _ A) as ->.
  exists t3, n3, s3, k3. split; [reflexivity|]. split; [exact A|]. intros ->.
  apply seq_ok_inv in H as (t5 & n5 & s5 & k5 & t6 & n6 & -> & -> & B & H).
  inversion B; subst; clear B. apply zss_inv in H as (E & Hz & _ & -> & _). subst.
  match goal with X : strip _ _ = Some _ |- _ => apply strip_app in X as -> end.
  exists t6. split; [exact Hz|]. split; reflexivity.
Qed.

Lemma single_inv s k t ns rest k' : runs G true (R_ y_single_quoted) s k (Ok t ns rest k') ->
  exists ps z, sq_canon ps /\ seps z /\ s = [QUOTE] ++ flat_map sq_text ps ++ [QUOTE] ++ z ++ rest.
Proof.
  intros H. apply rule_ok_inv in H as (ns' & H). cbn [fst snd yaml_grammar emit_in] in H.
  apply quoted_frame in H as (t1 & n1 & s1 & k1 & -> & A & H).
  apply rule_ok_inv in A as (ns2 & A). cbn [fst snd yaml_grammar emit_in] in A.
  destruct (sq_parts_inv _ _ _ _ _ A eq_refl eq_refl _ _ _ _ eq_refl) as (E & ps & -> & B & _).
  destruct (H E) as (z & Hz & -> & _). exists ps, z. auto.
Qed.
Lemma double_inv s k t ns rest k' : runs G true (R_ y_double_quoted) s k (Ok t ns rest k') ->
  exists ps z, dq_canon ps /\ seps z /\ s = [DQUOTE] ++ flat_map dq_text ps ++ [DQUOTE] ++ z ++ rest.
Proof.
  intros H. apply rule_ok_inv in H as (ns' & H). cbn [fst snd yaml_grammar emit_in] in H.
  apply quoted_frame in H as (t1 & n1 & s1 & k1 & -> & A & H).
  apply rule_ok_inv in A as (ns2 & A). cbn [fst snd yaml_grammar emit_in] in A.
  destruct (dq_parts_inv _ _ _ _ _ A eq_refl eq_refl _ _ _ _ eq_refl) as (E & ps & -> & B & _).
  destruct (H E) as (z & Hz & -> & _). exists ps, z. auto.
Qed.

(** ---- names ---- *)

Lemma anchor_inv s k t ns rest k' : runs G true (R_ y_anchor) s k (Ok t ns rest k') ->
  exists a, alias_ok ut a /\ s = lit "*" ++ a ++ rest.
Proof.
  intros H. apply rule_ok_inv in H as (ns' & H). cbn [fst snd yaml_grammar emit_in] in H.
  apply seq_ok_inv in H as (t1 & n1 & s1 & k1 & t2 & n2 & -> & -> & A & H).
  apply (char_inv _ (chr "*")) in A as (-> & -> & ->). exists t2.
  pose proof (text_of _ _ _ _ _ _ _ _ H) as ->. split; [|reflexivity].
  apply rule_ok_inv in H as (ns2 & H). cbn [fst emit_in yaml_grammar] in H.
  pose proof (runs_shp G _ _ _ _ _ H eq_refl _ _ _ _ eq_refl 3) as X. eapply alias_text. exact X.
Qed.
Lemma anchor_fail em s k : runs G em (R_ y_anchor) s k Fail ->
  forall d r, s = chr "*" :: d :: r -> ~ name_char ut d.
Proof.
  intros H d r -> Hd. apply rule_fail_inv in H. cbn [fst snd yaml_grammar emit_in] in H.
  apply seq_fail_inv in H as [H|(t1 & n1 & s1 & k1 & A & H)]; [discriminate (str_fail_inv ut _ _ _ _ H)|].
  apply (char_inv _ (chr "*")) in A as (A & _ & ->). inversion A; subst.
  apply rule_fail_inv in H. cbn [fst snd yaml_grammar emit_in] in H. apply plus_fail in H.
  pose proof (eats_name ut d r k Hd) as X. pose proof (runs_det G _ _ _ _ _ _ H (X _)). discriminate.
Qed.
Lemma key_inv s k t ns rest k' : runs G true (R_ y_hash_key) s k (Ok t ns rest k') ->
  exists key w, plain_key ut key /\ loose w /\ s = key ++ w ++ rest.
Proof.
  intros H. pose proof (text_of _ _ _ _ _ _ _ _ H) as Es.
  apply rule_ok_inv in H as (ns2 & H). cbn [fst emit_in yaml_grammar] in H.
  pose proof (runs_shp G _ _ _ _ _ H eq_refl _ _ _ _ eq_refl 3) as X.
  pose proof (key_text ut _ _ X) as K. exists (trim_end t).
  unfold trim_end in *. destruct (trim_end_by_spec is_ws t) as (u & E & Hu & L).
  exists u. split; [exact K|]. split; [|now rewrite Es, app_assoc, <- E].
  destruct X as (t1 & t2 & n1 & n2 & -> & -> & H1 & H2). apply name_alt_inv in H1 as (c & -> & Hc).
  pose proof (star_class_inv _ _ _ _ _ (key_alt_inv ut (rshp G 3)) H2) as Hall.
  assert (Hin : forall d, In d u -> In d ([c] ++ t2)) by (intros d Hd; rewrite E; apply in_or_app; now right).
  intros d Hd. left. pose proof (Hu d Hd) as W. destruct (Hin d Hd) as [<-|Hd'].
  - rewrite (name_not_ws ut c Hc) in W. discriminate.
  - destruct (Hall d Hd') as [N|[-> | ->]]; [rewrite (name_not_ws ut d N) in W; discriminate|discriminate|reflexivity].
Qed.

(** ---- lists between commas ---- *)

Section Lists.
Context {V : Type} (cell : V -> str -> Prop).
Inductive listof : list V -> str -> Prop :=
| LNone w : loose w -> listof [] w
| LOne w v s : loose w -> cell v s -> listof [v] (w ++ s)
| LMore w v s l r : loose w -> cell v s -> listof l r -> l <> [] -> listof (v :: l) (w ++ s ++ lit "," ++ r).

Context (m : nat) (e : yexp).
Context (Hcell : forall s k t ns rest k' w z, length s <= m -> runs G true e s k (Ok t ns rest k') ->
  firm s -> rest = w ++ z -> loose w -> closing z -> exists v u, cell v u /\ s = u ++ z).

Lemma shorter em x s k t ns rest k' : runs G em x s k (Ok t ns rest k') -> length s <= m -> length rest <= m.
Proof. intros H L. apply text_of in H as ->. rewrite app_length in L. lia. Qed.

Lemma more_inv em x s k y : runs G em x s k y -> em = true -> x = more e -> length s <= m ->
  forall t ns rest k', y = Ok t ns rest k' ->
  forall w c z, rest = w ++ c :: z -> loose w -> c = chr "]" \/ c = chr "}" ->
  exists w' z', s = w' ++ z' /\ loose w' /\
    (z' = c :: z \/ exists l r, l <> [] /\ listof l r /\ z' = lit "," ++ r ++ c :: z).
Proof.
  induction 1; intros Eem Ex; try discriminate; intros Hm t' ns' rest' k' E w c z Er Hw Hc; try discriminate; inversion Ex; subst;
    try (inversion E; subst; clear E).
  - exists w, (c :: z). auto.
  - pose proof (shorter _ _ _ _ _ _ _ _ H Hm) as Hm1.
    destruct (IHruns2 eq_refl eq_refl Hm1 _ _ _ _ eq_refl w c z eq_refl Hw Hc) as (w' & z' & E1 & Hw' & Hz').
    assert (Hcl : closing z').
    { destruct Hz' as [->|(l & r & _ & _ & ->)]; [now apply LayoutFlow.closer_itail|].
      exists (chr ","), (r ++ c :: z). auto. }
    clear IHruns1 IHruns2.
    apply seq_ok_inv in H as (ta & na & sa & ka & tb & nb & -> & -> & A & H). pose proof (shorter _ _ _ _ _ _ _ _ A Hm) as Hma.
    apply spaces_inv in A as (-> & Ha & _ & ->).
    apply seq_ok_inv in H as (tc & nc & sc & kc & td & nd & -> & -> & A & H). pose proof (shorter _ _ _ _ _ _ _ _ A Hma) as Hmc.
    apply (char_inv _ (chr ",")) in A as (-> & -> & ->).
    apply seq_ok_inv in H as (te & ne & se & ke & tf & nf & -> & -> & A & H). pose proof (shorter _ _ _ _ _ _ _ _ A Hmc) as Hme.
    apply spaces_inv in A as (-> & Hb & Hf & ->).
    destruct (Hcell _ _ _ _ _ _ w' z' Hme H Hf E1 Hw' Hcl) as (v & u & Hv & ->).
    exists ta, (chr "," :: te ++ u ++ z'). split; [reflexivity|]. split; [exact Ha|]. right.
    destruct Hz' as [->|(l & r & Hl & Hr & ->)].
    + exists [v], (te ++ u). split; [discriminate|]. split; [now apply LOne|]. cbn [lit app]. now rewrite <- app_assoc.
    + exists (v :: l), (te ++ u ++ lit "," ++ r). split; [discriminate|]. split; [now apply LMore|].
      rewrite <- !app_assoc. reflexivity.
Qed.

Lemma list_inv s k t ns rest k' c : c = chr "]" \/ c = chr "}" -> length s <= m ->
  runs G true (POpt (R_ y_spaces ~~ e ~~ more e) ~~ R_ y_spaces ~~ yc c)%peg s k (Ok t ns rest k') ->
  exists l r, listof l r /\ s = r ++ c :: rest.
Proof.
  intros Hc Hm H. apply seq_ok_inv in H as (ta & na & sa & ka & tb & nb & -> & -> & A & H).
  apply seq_ok_inv in H as (tc & nc & sc & kc & td & nd & -> & -> & B & H).
  apply spaces_inv in B as (-> & Hw & _ & ->). apply char_inv in H as (-> & -> & ->).
  inversion A; subst; clear A.
  - match goal with X : runs _ _ (PSeq _ _) _ _ _ |- _ => rename X into H end.
    apply seq_ok_inv in H as (te & ne & se & ke & tf & nf & -> & -> & A & H). pose proof (shorter _ _ _ _ _ _ _ _ A Hm) as Hma.
    apply spaces_inv in A as (-> & Hb & Hf & ->).
    apply seq_ok_inv in H as (tg & ng & sg & kg & th & nh & -> & -> & A & H). pose proof (shorter _ _ _ _ _ _ _ _ A Hma) as Hmb.
    destruct (more_inv _ _ _ _ _ H eq_refl eq_refl Hmb _ _ _ _ eq_refl tc c rest eq_refl Hw Hc) as (w' & z' & E1 & Hw' & Hz').
    assert (Hcl : closing z').
    { destruct Hz' as [->|(l & r & _ & _ & ->)]; [now apply LayoutFlow.closer_itail|].
      exists (chr ","), (r ++ c :: rest). auto. }
    destruct (Hcell _ _ _ _ _ _ w' z' Hma A Hf E1 Hw' Hcl) as (v & u & Hv & ->).
    destruct Hz' as [->|(l & r & Hl & Hr & ->)].
    + exists [v], (te ++ u). split; [now apply LOne|]. now rewrite <- app_assoc.
    + exists (v :: l), (te ++ u ++ lit "," ++ r). split; [now apply LMore|]. now rewrite <- !app_assoc.
  - exists [], tc. split; [now apply LNone|reflexivity].
Qed.
End Lists.

Definition pair_cell (kv : str * yaml) (t : str) : Prop := exists wk wv s, t = fst kv ++ wk ++ lit ":" ++ wv ++ s
  /\ plain_key ut (fst kv) /\ loose wk /\ loose wv /\ item ut (snd kv) s.

Lemma listof_row l s : listof (item ut) l s -> row ut l s.
Proof. induction 1; [now apply XNone|now apply XOne|now apply XMore]. Qed.
Lemma listof_pairs l s : listof pair_cell l s -> pairs ut l s.
Proof.
  induction 1 as [w Hw|w [k v] s Hw (wk & wv & x & -> & A & B & C & D)|w [k v] s l r Hw (wk & wv & x & -> & A & B & C & D) Hl IH Hn].
  - now apply XNoPair.
  - now apply XPair.
  - cbn [fst snd] in *. rewrite <- !app_assoc. now apply XPairs.
Qed.

Lemma item_inv : forall n s k t ns rest k' w z, length s <= n ->
  runs G true (R_ y_inline_array_value) s k (Ok t ns rest k') ->
  firm s -> rest = w ++ z -> loose w -> closing z -> exists y u, item ut y u /\ s = u ++ z.
Proof.
  induction n as [n IH] using lt_wf_ind. intros s k t ns rest k' w z Hn H Hf -> Hw Hz.
  apply rule_ok_inv in H as (ns1 & H). cbn [fst snd yaml_grammar emit_in] in H.
  inversion H; subst; clear H.
  { match goal with X : runs _ _ (R_ _) _ _ _ |- _ => apply anchor_inv in X as (a & Ha & ->) end.
    exists (Anchor a), (lit "*" ++ a ++ w). split; [now apply XRef|]. now rewrite <- !app_assoc. }
  match goal with X : runs _ _ (R_ y_anchor) _ _ _ |- _ => pose proof (anchor_fail _ _ _ X) as Hanc end.
  match goal with X : runs _ _ (PAlt _ _) _ _ _ |- _ => inversion X; subst; clear X end.
  { match goal with X : runs _ _ (R_ _) _ _ (Ok _ _ _ _) |- _ => apply rule_ok_inv in X as (ns2 & H) end.
    cbn [fst snd yaml_grammar emit_in] in H.
    apply seq_ok_inv in H as (ta & na & sa & ka & tb & nb & -> & -> & A & H).
    apply (char_inv _ (chr "[")) in A as (-> & -> & ->). cbn [length] in Hn.
    destruct n as [|n]; [lia|].
    eapply (list_inv (item ut) n (R_ y_inline_array_value)) in H as (l & r & Hl & ->);
      [|intros; eapply (IH n); eauto; lia|now left|lia].
    exists (InlineArray l), (lit "[" ++ r ++ lit "]" ++ w). split; [apply XArray; [now apply listof_row|exact Hw]|].
    cbn [lit app]. rewrite <- !app_assoc. reflexivity. }
  match goal with X : runs _ _ (PAlt _ _) _ _ _ |- _ => inversion X; subst; clear X end.
  { match goal with X : runs _ _ (R_ _) _ _ (Ok _ _ _ _) |- _ => apply rule_ok_inv in X as (ns2 & H) end.
    cbn [fst snd yaml_grammar emit_in] in H.
    apply seq_ok_inv in H as (ta & na & sa & ka & tb & nb & -> & -> & A & H).
    apply (char_inv _ (chr "{")) in A as (-> & -> & ->). cbn [length] in Hn.
    destruct n as [|n]; [lia|].
    eapply (list_inv pair_cell n (R_ y_inline_hash_element)) in H as (l & r & Hl & ->);
      [| |now right|lia].
    - exists (InlineHash l), (lit "{" ++ r ++ lit "}" ++ w). split; [apply XHash; [now apply listof_pairs|exact Hw]|].
      cbn [lit app]. rewrite <- !app_assoc. reflexivity.
    - clear - IH. intros s k t ns rest k' w z Hm H Hf E Hw Hz.
      apply rule_ok_inv in H as (ns2 & H). cbn [fst snd yaml_grammar emit_in] in H.
      apply seq_ok_inv in H as (ta & na & sa & ka & tb & nb & -> & -> & A & H).
      apply key_inv in A as (key & wk & Hk & Hwk & ->).
      apply seq_ok_inv in H as (tc & nc & sc & kc & td & nd & -> & -> & A & H).
      apply spaces_inv in A as (-> & Hw2 & _ & ->).
      apply seq_ok_inv in H as (te & ne & se & ke & tf & nf & -> & -> & A & H).
      apply (char_inv _ (chr ":")) in A as (-> & -> & ->).
      apply seq_ok_inv in H as (tg & ng & sg & kg & th & nh & -> & -> & A & H).
      apply spaces_inv in A as (-> & Hw3 & Hf3 & ->).
      assert (Hl : length sg <= n) by (repeat rewrite app_length in Hm; cbn [length] in Hm; rewrite app_length in Hm; lia).
      destruct (IH n (Nat.lt_succ_diag_r n) _ _ _ _ _ _ w z Hl H Hf3 E Hw Hz) as (y & u & Hy & ->).
      exists (key, y), (key ++ (wk ++ tc) ++ lit ":" ++ tg ++ u). split.
      + exists (wk ++ tc), tg, u. split; [reflexivity|]. split; [exact Hk|]. split; [now apply loose_app|]. split; [exact Hw3|exact Hy].
      + rewrite <- !app_assoc. reflexivity. }
  match goal with X : runs _ _ (R_ y_inline_array_string) _ _ _ |- _ => apply rule_ok_inv in X as (ns2 & H) end.
  cbn [fst snd yaml_grammar emit_in] in H. inversion H; subst; clear H.
  { match goal with X : runs _ _ (R_ y_unquoted_inline_string) _ _ _ |- _ =>
      eapply plain_inv in X as (u & w' & -> & A & B); [|exact Hf|reflexivity|exact Hw|exact Hanc] end.
    exists (Unquoted u), (u ++ w'). split; [now apply XText|]. now rewrite app_assoc. }
  match goal with X : runs _ _ (PAlt _ _) _ _ _ |- _ => inversion X; subst; clear X end.
  { match goal with X : runs _ _ (R_ y_double_quoted) _ _ _ |- _ => apply double_inv in X as (ps & z0 & A & B & ->) end.
    exists (DoubleQ ps), ([DQUOTE] ++ flat_map dq_text ps ++ [DQUOTE] ++ z0 ++ w). split; [now apply XDouble|].
    now rewrite <- !app_assoc. }
  match goal with X : runs _ _ (R_ y_single_quoted) _ _ _ |- _ => apply single_inv in X as (ps & z0 & A & B & ->) end.
  exists (SingleQ ps), ([QUOTE] ++ flat_map sq_text ps ++ [QUOTE] ++ z0 ++ w). split; [now apply XSingle|].
  now rewrite <- !app_assoc.
Qed.

Lemma row_inv s k t ns rest k' : runs G true (R_ y_inline_array) s k (Ok t ns rest k') ->
  exists l r, row ut l r /\ s = lit "[" ++ r ++ lit "]" ++ rest.
Proof.
  intros H. apply rule_ok_inv in H as (ns2 & H). cbn [fst snd yaml_grammar emit_in] in H.
  apply seq_ok_inv in H as (ta & na & sa & ka & tb & nb & -> & -> & A & H).
  apply (char_inv _ (chr "[")) in A as (-> & -> & ->).
  eapply (list_inv (item ut) (length sa) (R_ y_inline_array_value)) in H as (l & r & Hl & ->);
    [|intros; eapply item_inv; eauto|now left|lia].
  exists l, r. split; [now apply listof_row|reflexivity].
Qed.
End FlowInv.
