(** What an accepted block scalar is. *)
From Coq Require Import ZArith.
From Verif Require Import Base Ast Num Peg PegFacts PegTree YamlGrammar Consume Spec_Parse
  Spec_Format Spec_Stable Spec_Path Spec_Panic Spec_Layout Spec_Flow Spec_Spell YamlTree YamlValues ParseFacts Reads
  Gives FormatText ParsedNeat ParsedNeat2 FlowText FlowText2 FlowReads FlowInv PanicFacts SpellFacts.
Import ListNotations.

Section Scalars.
Context (ut : unitab).
Notation G := (yaml_grammar ut).
Notation gives := (gives ut).
Notation brk := (fun c : char => c = NL \/ c = CR).

Lemma star_all em e (P : char -> Prop) : (forall s k t ns rest k', runs G em e s k (Ok t ns rest k') -> forall c, In c t -> P c) ->
  forall x s k y, runs G em x s k y -> x = PStar e -> forall t ns rest k', y = Ok t ns rest k' -> forall c, In c t -> P c.
Proof.
  intros He x s k y H. induction H; intros Ex t' ns' rest' k' E; try discriminate; inversion Ex; subst;
    try (inversion E; subst; clear E).
  - intros c [].
  - intros c I. apply in_app_or in I as [I|I]; [eapply He; eassumption|eauto].
Qed.
Lemma nl_brk em s k t ns rest k' : runs G em y_nl s k (Ok t ns rest k') -> forall c, In c t -> brk c.
Proof.
  intros H c I. apply nl_inv in H as (_ & _ & [-> |[-> | ->]]); cbn in I; intuition.
Qed.
Lemma g_atomic n r s k vs rest k' : fst (G r) = Atomic -> y_req r <= length k -> gives n (R_ r) s k vs rest k' ->
  exists t v ns, runs G false (snd (G r)) s k (Ok t ns rest k') /\ s = t ++ rest /\ yact r t [] = CVal v /\ vs = [(r, v)] /\ k' = k.
Proof.
  intros Em Hr H. pose proof (g_same ut n r _ _ _ _ _ Hr H) as ->.
  apply gives_runs in H as (t & ns & H & V & ->). unfold R_ in H. inversion H; subst; [|discriminate].
  rewrite Em in *. cbn [wrap emit_in] in *. apply values_one in V as (cvs & v & -> & V & A). inversion V; subst. eauto 9.
Qed.
Lemma g_line n s k vs rest k' : gives n (R_ y_block_string) s k vs rest k' ->
  exists x, vs = [(y_block_string, VStr x)] /\ one_line x /\ s = x ++ rest /\ k' = k.
Proof.
  intros H. pose proof (g_typed ut n y_block_string _ _ _ _ _ ltac:(discriminate) eq_refl H) as (v & -> & T).
  cbn [vty] in T. destruct T as (x & -> & O).
  apply g_atomic in H as (t & v & ns & _ & -> & Y & E & ->); [|reflexivity|apply Nat.le_0_l].
  cbn in Y. inversion Y; subst. inversion E; subst. eauto.
Qed.
Lemma brk_len t : (forall c, In c t -> brk c) -> utf8_len t = length t.
Proof.
  intros H. induction t as [|c t IH]; [reflexivity|].
  assert (char_len c = 1) by (destruct (H c (or_introl eq_refl)) as [-> | ->]; reflexivity).
  cbn [utf8_len length]. rewrite IH by (intros d I; apply H; now right). lia.
Qed.
Lemma g_empties n s k vs rest k' : gives n (R_ y_block_empty_lines) s k vs rest k' ->
  exists e, vs = [(y_block_empty_lines, VStrs (repeat [] (length e)))] /\ (forall c, In c e -> brk c) /\ s = e ++ rest /\ k' = k.
Proof.
  intros H. apply g_atomic in H as (t & v & ns & R & -> & Y & -> & ->); [|reflexivity|apply Nat.le_0_l].
  cbn [snd yaml_grammar] in R. pose proof (star_all _ _ brk (nl_brk false) _ _ _ _ R eq_refl _ _ _ _ eq_refl) as B.
  cbn [yact] in Y. inversion Y; subst. rewrite (brk_len t B). eauto.
Qed.
Lemma filter_count t : map (fun _ : char => @nil char) (filter (ceqb NL) t) = repeat [] (count_occ N.eq_dec t NL).
Proof.
  induction t as [|c t IH]; [reflexivity|]. cbn [filter count_occ].
  destruct (N.eq_dec c NL) as [->|N]; [cbn; now f_equal|].
  destruct (ceqb NL c) eqn:E; [apply ceqb_eq in E; congruence|exact IH].
Qed.
Lemma g_trailing n s k vs rest k' : gives n (R_ y_ml_trailing) s k vs rest k' ->
  exists e, vs = [(y_ml_trailing, VStrs (repeat [] (count_occ N.eq_dec e NL)))] /\ (forall c, In c e -> brk c) /\ s = e ++ rest /\ k' = k.
Proof.
  intros H. apply g_atomic in H as (t & v & ns & R & -> & Y & -> & ->); [|reflexivity|apply Nat.le_0_l].
  cbn [snd yaml_grammar] in R.
  assert (B : forall c, In c t -> brk c).
  { eapply star_all; [|exact R|reflexivity|reflexivity]. clear. intros s k t ns rest k' H c I.
    apply seq_ok_inv in H as (t1 & n1 & s1 & k1 & t2 & n2 & -> & -> & A & H). inversion H; subst.
    assert (t2 = []) as -> by (destruct r; congruence).
    rewrite app_nil_r in I. exact (nl_brk _ _ _ _ _ _ _ A c I). }
  cbn [yact] in Y. inversion Y; subst. rewrite filter_count. eauto.
Qed.
Lemma g_peek2 n a b s k vs rest k' : gives n (PPeekLast 2) s (a :: b :: k) vs rest k' ->
  vs = [] /\ s = b ++ a ++ rest /\ k' = a :: b :: k.
Proof.
  intros H. apply gives_runs in H as (t & ns & H & V & E). inversion H; subst. inversion V; subst.
  match goal with X : peek_last _ _ = _ |- _ => cbn in X; inversion X; subst end. rewrite app_nil_r, <- app_assoc. auto.
Qed.
Lemma g_part n p s k vs rest k' : gives n (R_ y_ml_part) s ([SP] :: p :: k) vs rest k' ->
  exists b e x, vs = [(y_ml_part, VStrs (repeat [] (length e) ++ [x]))] /\ line_break b /\ (forall c, In c e -> brk c) /\ one_line x
    /\ s = b ++ e ++ p ++ [SP] ++ x ++ rest /\ k' = [SP] :: p :: k.
Proof.
  intros H. apply g_rule in H as (m & t & cvs & v & _ & H & _ & Y & ->); [|reflexivity]. cbn [snd yaml_grammar] in H.
  apply g_seq in H as (m1 & v1 & s1 & k1 & v2 & _ & A & H & ->). apply g_nl in A as (b & -> & B & -> & ->).
  apply g_seq in H as (m2 & v3 & s2 & k2 & v4 & _ & A & H & ->). apply g_empties in A as (e & -> & Be & -> & ->).
  apply g_seq in H as (m3 & v5 & s3 & k3 & v6 & _ & A & H & ->). apply g_peek2 in A as (-> & -> & ->).
  apply g_line in H as (x & -> & O & -> & ->). cbn in Y. inversion Y; subst. exists b, e, x. auto 8.
Qed.
Lemma star_parts p n : forall s k vs rest k', gives n (PStar (R_ y_ml_part)) s ([SP] :: p :: k) vs rest k' ->
  k' = [SP] :: p :: k /\ exists bs t, vs = map (fun l => (y_ml_part, VStrs l)) bs /\ s = t ++ rest /\
    forall ls e, scalar_rest p ls e -> scalar_rest p (concat bs ++ ls) (t ++ e).
Proof.
  induction n as [n IH] using lt_wf_ind. intros s k vs rest k' H.
  apply g_star in H as (m & L & [(v1 & s1 & k1 & v2 & A & B & ->)|(_ & -> & -> & ->)]).
  - apply g_part in A as (b & e & x & -> & Hb & He & O & -> & ->).
    apply IH in B as (-> & bs & t & -> & -> & R); [|exact L]. split; [reflexivity|].
    exists ((repeat [] (length e) ++ [x]) :: bs), (b ++ e ++ p ++ [SP] ++ x ++ t). split; [reflexivity|].
    split; [now rewrite <- !app_assoc|]. intros ls e' Hr. cbn [concat]. rewrite <- !app_assoc. cbn [app].
    apply LLine; auto.
  - split; [reflexivity|]. exists [], []. repeat split. intros ls e He. exact He.
Qed.
Lemma many_parts bs x : as_ml_part x = None -> many as_ml_part (map (fun l => (y_ml_part, VStrs l)) bs ++ [x]) = (bs, [x]).
Proof. intros H. induction bs as [|b bs IH]; cbn; [now rewrite H|]. now rewrite IH. Qed.
Lemma stays_no_brk c e rest : brk c -> stays ((c :: e) ++ rest) -> False.
Proof.
  intros B S. unfold stays in S. cbn [app drop_while] in S.
  assert (Z : is_zs c = false) by (destruct B as [-> | ->]; reflexivity). rewrite Z in S. destruct (S c _ eq_refl). cbv beta in B. destruct B; auto.
Qed.
Lemma g_content n p s k vs rest k' : gives n (R_ y_ml_content) s (p :: k) vs rest k' ->
  exists b x rs m, vs = [(y_ml_content, VStrs (x :: rs))] /\ Spec_Flow.blanks b /\ b <> [] /\ one_line x /\ scalar_rest p rs m
    /\ s = b ++ p ++ [SP] ++ x ++ m ++ rest /\ k' = p :: k.
Proof.
  intros H. apply g_rule in H as (mm & t & cvs & v & _ & H & _ & Y & ->); [|reflexivity]. cbn [snd yaml_grammar] in H.
  apply g_seq in H as (m1 & v1 & s1 & k1 & v2 & _ & A & H & ->). apply g_blanknl in A as (b & -> & B & N & -> & -> & S).
  apply g_seq in H as (m2 & v3 & s2 & k2 & v4 & _ & A & H & ->). apply g_empties in A as (e & -> & Be & -> & ->).
  destruct e as [|c e]; [|exfalso; exact (stays_no_brk c e s2 (Be c (or_introl eq_refl)) S)]. cbn [app] in *.
  apply g_seq in H as (m3 & v5 & s3 & k3 & v6 & _ & A & H & ->).
  apply g_seq in A as (m4 & v7 & s4 & k4 & v8 & _ & A1 & A & ->). apply g_peek in A1 as (-> & -> & ->).
  apply g_seq in A as (m5 & v9 & s5 & k5 & v10 & _ & A1 & A & ->).
  assert (v9 = [] /\ s4 = [SP] ++ s5 /\ k5 = [SP] :: p :: k) as (-> & -> & ->).
  { apply gives_runs in A1 as (t1 & n1 & A1 & V & ->). inversion A1; subst; [|discriminate].
    match goal with X : runs _ _ (yl " ") _ _ _ |- _ => inversion X; subst end. inversion V; subst. auto. }
  apply g_line in A as (x & -> & O & -> & ->).
  apply g_seq in H as (m6 & v11 & s6 & k6 & v12 & _ & A & H & ->). apply star_parts in A as (-> & bs & tp & -> & -> & R).
  apply g_seq in H as (m7 & v13 & s7 & k7 & v14 & _ & A & H & ->). apply g_trailing in A as (e & -> & Be' & -> & ->).
  apply g_drop1 in H as (-> & -> & ->).
  cbn [app length repeat yact] in Y. rewrite many_parts in Y by reflexivity. cbn [app] in Y. inversion Y; subst.
  exists b, x, (concat bs ++ repeat [] (count_occ N.eq_dec e NL)), (tp ++ e).
  repeat (split; [assumption || reflexivity|]). split; [apply R; now constructor|].
  split; [now rewrite <- !app_assoc|reflexivity].
Qed.
Lemma g_width n s k vs rest k' : gives n (R_ y_ml_indent) s k vs rest k' ->
  exists dg i, vs = [(y_ml_indent, VIndent i)] /\ s = dg ++ rest /\ k' = k /\
    match i with None => dg = [] | Some w => dg <> [] /\ indicator dg w end.
Proof.
  intros H. pose proof (g_same ut n y_ml_indent _ _ _ _ _ (Nat.le_0_l _) H) as ->.
  apply g_rule in H as (m & t & cvs & v & _ & H & -> & Y & ->); [|reflexivity]. cbn [snd yaml_grammar] in H.
  apply gives_runs in H as (t' & ns & H & _ & E). apply app_inv_tail in E. subst t'.
  pose proof (runs_shp G _ _ _ _ _ H eq_refl _ _ _ _ eq_refl 3) as X. apply star_no_plus in X.
  exists t. destruct t as [|c t]; cbn [yact] in Y; [inversion Y; subst; eauto|].
  destruct (parse_usize (c :: t)) as [g|] eqn:P; [|discriminate]. apply usize_iff in P as (D & L & ->); [|exact X].
  destruct (Z.eqb_spec (Z.of_N (dec_value (c :: t))) 0) as [E0|N0]; [discriminate|]. inversion Y; subst.
  eexists. split; [reflexivity|]. split; [reflexivity|]. split; [reflexivity|]. split; [discriminate|].
  split; [exact D|]. split; lia.
Qed.
Lemma slice_cut w b l : slice_from w b = Some l -> exists d, b = d ++ l /\ N.of_nat (utf8_len d) = w.
Proof.
  revert w. induction b as [|c b IH]; intros w H; cbn [slice_from] in H.
  - destruct (w =? 0)%N eqn:E; [|discriminate]. apply N.eqb_eq in E. inversion H; subst. exists []. auto.
  - destruct (w =? 0)%N eqn:E; [apply N.eqb_eq in E; inversion H; subst; exists []; auto|]. clear E.
    destruct (N.of_nat (char_len c) <=? w)%N eqn:L; [|discriminate].
    apply IH in H as (d & -> & E). apply N.leb_le in L. exists (c :: d). split; [reflexivity|]. cbn [utf8_len]. lia.
Qed.
Lemma clean_cut w rs ls : clean_lines w rs = CVal ls -> Forall2 (cut_line w) rs ls.
Proof.
  revert ls. induction rs as [|r rs IH]; intros ls H; cbn [clean_lines] in H; [inversion H; constructor|].
  destruct (match r with [] => Some [] | _ => slice_from w r end) as [x|] eqn:E; [|discriminate].
  destruct (clean_lines w rs) as [xs| |]; cbn [cbind] in H; try discriminate. inversion H; subst. constructor; [|auto].
  destruct r as [|c r]; [inversion E; subst; now left|]. right. split; [discriminate|]. now apply slice_cut.
Qed.
Lemma g_chomp n s k vs rest k' : gives n (POpt (R_ y_chomping)) s k vs rest k' ->
  exists ch, s = chomp_sign ch ++ rest /\ k' = k /\
    vs = match ch with Clip => [] | _ => [(y_chomping, VChomp ch)] end.
Proof.
  intros H. apply g_opt in H as (m & _ & [H|(_ & -> & -> & ->)]); [|now exists Clip].
  pose proof (g_same ut m y_chomping _ _ _ _ _ (Nat.le_0_l _) H) as ->.
  apply g_rule in H as (m1 & t & cvs & v & _ & H & -> & Y & ->); [|reflexivity]. cbn [snd yaml_grammar] in H.
  apply g_alt in H as (m2 & _ & [H|[_ H]]); apply g_str in H as [-> E]; apply app_inv_tail in E; subst t;
    cbn in Y; inversion Y; subst; [exists Strip|exists Keep]; auto.
Qed.
Lemma g_scalar n (lit_ : bool) p s k vs rest k' : let r := if lit_ then y_ml_literal else y_ml_folded in
  gives n (R_ r) s (p :: k) vs rest k' ->
  exists y t, vs = [(r, VYaml y)] /\ s = t ++ rest /\ scalar p y t.
Proof.
  intros r H. apply g_rule in H as (m & t & cvs & v & _ & H & _ & Y & ->); [|destruct lit_; reflexivity].
  assert (E : snd (G r) = (PStr (if lit_ then lit "|" else lit ">") ~~ POpt (R_ y_chomping) ~~ R_ y_ml_indent ~~ R_ y_ml_content)%peg)
    by (destruct lit_; reflexivity).
  rewrite E in H. clear E.
  apply g_seq in H as (m1 & v1 & s1 & k1 & v2 & _ & A & H & ->).
  assert (k1 = p :: k) as -> by (apply gives_runs in A as (? & ? & A & _); inversion A; reflexivity).
  apply g_str in A as [-> ->].
  apply g_seq in H as (m2 & v3 & s2 & k2 & v4 & _ & A & H & ->). apply g_chomp in A as (ch & -> & -> & ->).
  apply g_seq in H as (m3 & v5 & s3 & k3 & v6 & _ & A & H & ->). apply g_width in A as (dg & i & -> & -> & -> & I).
  apply g_content in H as (b & x & rs & mm & -> & B & N & O & R & -> & ->).
  assert (exists ls, clean_multiline i (x :: rs) = CVal ls /\ v = VYaml ((if lit_ then Literal else Folded) ls ch)) as (ls & C & ->).
  { unfold r in Y. destruct lit_, ch; cbn [app yact multiline] in Y;
      destruct (clean_multiline i (x :: rs)) as [ls| |]; cbn [cbind] in Y; try discriminate; inversion Y; subst; eauto. }
  exists ((if lit_ then Literal else Folded) ls ch),
    ((if lit_ then lit "|" else lit ">") ++ chomp_sign ch ++ dg ++ b ++ p ++ [SP] ++ x ++ mm).
  split; [reflexivity|]. split; [now rewrite <- !app_assoc|].
  destruct i as [w|]; cbn [clean_multiline] in C.
  - destruct I as [D I]. apply (Scalar_ p lit_ ch dg b x rs mm w ls); auto; [left; auto|now apply clean_cut].
  - subst dg. apply (Scalar_ p lit_ ch [] b x rs mm (count_ws x) ls); auto; [right; split; [reflexivity|]|now apply clean_cut].
    apply margin_count; [apply O|reflexivity].
Qed.
End Scalars.
