(** Exactly which texts are paths: the two descriptions agree. *)
From Coq Require Import ZArith.
From Verif Require Import Base Path Num Peg PathGrammar Ser Spec_Insert Spec_Serde TypedFacts SerdeFacts2 Spec_Path PathFacts Spec_Syntax PathExact PathExact2 PathExact3.
Import ListNotations.

(** ---- texts of paths ---- *)
Lemma word_tok bad t rest : word bad t -> stops (fun c => In c bad) rest -> tok (fun c => In c bad) t 0 rest.
Proof. intros (c & u & -> & C & W & T) S. exists c, u. repeat split; auto. now apply tidy_shape. Qed.
Lemma tok_word bad t m rest : tok (fun c => In c bad) t m rest -> word bad t.
Proof. intros (c & u & -> & C & W & T & _). exists c, u. repeat split; auto. now apply (shape_tidy _ m). Qed.

Lemma conds_stops (bad : char -> Prop) cs s : bad (chr "|") -> stops bad s -> stops bad (conds_text cs ++ s).
Proof. intros B S. destruct cs as [|c cs]; [exact S|]. right. eexists _, _. split; [reflexivity|exact B]. Qed.
Lemma value_bar : value_bad (chr "|"). Proof. cbn. auto. Qed.
Lemma key_bar : key_bad (chr "|"). Proof. cbn. auto. Qed.

Lemma conds_Cs cs s : Forall cond_word cs -> (cs <> [] -> stops value_bad s) -> Cs (conds_text cs ++ s) (Some cs) s.
Proof.
  intros F. induction F as [|[f v] cs [Hf Hv] _ IH]; intros S; [constructor|]. specialize (S ltac:(discriminate)).
  assert (V : tok value_bad v 0 (conds_text cs ++ s)) by (apply word_tok; [exact Hv|]; apply conds_stops; [exact value_bar|exact S]).
  assert (K : tok field_bad f 0 (chr "=" :: gap 0 ++ v ++ gap 0 ++ conds_text cs ++ s)).
  { apply word_tok; [exact Hf|]. right. eexists _, _. split; [reflexivity|]. cbn. auto. }
  pose proof (Cs_cons 0 0 f 0 0 v 0 _ _ _ K V (IH (fun _ => S))) as C. cbn [consn plus repeat app] in C.
  change (conds_text (mkC f v :: cs)) with ((chr "|" :: f ++ chr "=" :: v) ++ conds_text cs).
  rewrite <- app_assoc. cbn [app]. rewrite <- app_assoc. exact C.
Qed.
Lemma rest_stops cs l s : rest_text l s -> no_index_next cs l -> (cs <> [] -> stops value_bad s) /\ stops key_bad s.
Proof.
  intros R N. assert (X : s = [] \/ (exists r, s = chr "." :: r) \/ ((exists r, s = chr "[" :: r) /\ cs = [])).
  { destruct R; [now left|right; left; eexists; reflexivity|right; right..]; (split; [eexists; reflexivity|]); now destruct cs. }
  destruct X as [->|[[r ->]|[[r ->] ->]]]; split; try (now left); try (intros _); try congruence; right; eexists _, _; (split; [reflexivity|]); cbn; auto.
Qed.
Lemma dec_tok ds rest : is_dec ds -> tok digit_bad ds 0 (chr "]" :: rest).
Proof.
  intros [N D]. destruct ds as [|c u]; [contradiction|]. assert (A : forall x, In x (c :: u) -> ascii_digit x = true).
  { intros x X. specialize (D x X). unfold ascii_digit. apply andb_true_intro. split; apply N.leb_le; lia. }
  exists c, u. split; [reflexivity|]. split; [intros ->; specialize (A _ (or_introl eq_refl)); discriminate|]. split; [|split].
  - intros x X [B _]. rewrite (A x X) in B. discriminate.
  - apply tidy_shape. right. intros r ->. specialize (A SP). cbn in A. rewrite in_app_iff in A. cbn in A. specialize (A ltac:(auto)). discriminate.
  - right. eexists _, _. split; [reflexivity|]. split; [reflexivity|discriminate].
Qed.
Lemma rest_Ps l s : rest_text l s -> Ps s (Some l) [].
Proof.
  induction 1 as [|k cs l s K F N R IH|ds cs l s D B F N R IH|cs l s F N R IH]; [constructor|..]; destruct (rest_stops cs l s R N) as [S1 S2].
  - pose proof (conds_Cs cs s F S1) as C.
    assert (T : tok key_bad k 0 (conds_text cs ++ s)) by (apply word_tok; [exact K|]; apply conds_stops; [exact key_bar|exact S2]).
    exact (Ps_cons 0 _ _ _ _ _ (Pt_key 0 k 0 _ _ _ T C) IH).
  - pose proof (conds_Cs cs s F S1) as C. pose proof (Ib_num ds 0 (chr "]" :: gap 0 ++ conds_text cs ++ s) (dec_tok ds _ D)) as I.
    rewrite (parse_dec ds D B) in I. cbn [option_map] in I.
    assert (H : head (conds_text cs ++ s) <> Some SP) by (apply (stops_no_space _ key_sp); apply conds_stops; [exact key_bar|exact S2]).
    pose proof (Ps_cons 0 _ _ _ _ _ (Pt_idx 0 ds 0 0 _ _ _ _ I H C) IH) as P. cbn [repeat app stepo conso plus] in P.
    rewrite <- N_nat_Z, Nat2Z.id in P. exact P.
  - pose proof (conds_Cs cs s F S1) as C. pose proof (Ib_all 0 (chr "]" :: gap 0 ++ conds_text cs ++ s) ltac:(discriminate)) as I.
    assert (H : head (conds_text cs ++ s) <> Some SP) by (apply (stops_no_space _ key_sp); apply conds_stops; [exact key_bar|exact S2]).
    exact (Ps_cons 0 _ _ _ _ _ (Pt_idx 0 _ 0 0 _ _ _ _ I H C) IH).
Qed.
Lemma text_Full s p : path_text s p -> Full s (Some p).
Proof.
  intros [cs F|k cs l s' K F N R].
  - pose proof (conds_Cs cs [] F (fun _ => or_introl eq_refl)) as C. rewrite app_nil_r in C.
    refine (Full_root _ _ 0 _ C). destruct cs as [|c cs]; [now left|right]. eexists. reflexivity.
  - destruct (rest_stops cs l s' R N) as [S1 S2]. pose proof (conds_Cs cs s' F S1) as C.
    refine (Full_path k 0 (conds_text cs ++ s') _ _ _ 0 _ C (rest_Ps _ _ R)).
    destruct K as (g & c & u & -> & G & C1 & C2 & W & T). exists (length g), c, u. rewrite <- (spaces_gap g G).
    split; [reflexivity|]. split; [exact C1|]. split; [intros E; apply C2; now destruct g|]. split; [exact W|]. split; [now apply tidy_shape|].
    apply conds_stops; [exact key_bar|exact S2].
Qed.

Lemma Cs_conds s cs s2 : Cs s (Some cs) s2 ->
  s = conds_text cs ++ s2 /\ Forall cond_word cs /\ (cs <> [] -> exists m r, s2 = gap m ++ r /\ stops value_bad r).
Proof.
  intros H. remember (Some cs) as o eqn:E. revert cs E. induction H as [s|m g f g1 g2 v m' r o s2 F V C IH]; intros cs E.
  - injection E as <-. split; [reflexivity|]. split; [constructor|congruence].
  - destruct m; [|discriminate]. destruct g; [|discriminate]. destruct g1; [|discriminate]. destruct g2; [|discriminate].
    destruct o as [cs'|]; [|discriminate]. injection E as <-. destruct (IH cs' eq_refl) as (E & G & S). split; [|split].
    + cbn [repeat app]. rewrite E. change (conds_text (mkC f v :: cs')) with ((chr "|" :: f ++ chr "=" :: v) ++ conds_text cs').
      rewrite <- !app_assoc. cbn [app]. rewrite <- !app_assoc. reflexivity.
    + constructor; [|exact G]. split; [exact (tok_word _ _ _ _ F)|exact (tok_word _ _ _ _ V)].
    + intros _. destruct cs' as [|c cs']; [|apply S; discriminate]. cbn in E. exists m', r. split; [congruence|].
      destruct V as (? & ? & _ & _ & _ & _ & V). exact V.
Qed.
Lemma usize_dec b z : tok digit_bad b 0 [] \/ (exists m rest, tok digit_bad b m rest) -> parse_usize b = Some z ->
  is_dec b /\ (dec_value b < 2 ^ 64)%N /\ Z.to_nat z = N.to_nat (dec_value b).
Proof.
  intros T P. apply (parse_int_spec U64) in P as [(ds & Ds & X) R].
  assert (b = ds /\ z = Z.of_N (decimal_value ds)) as [-> ->].
  { destruct X as [[[-> | ->] ->]|(S & _)]; [auto| |unfold signed_kind in S; cbn in S; intuition discriminate].
    exfalso. assert (H : ~ digit_bad (chr "+")).
    { destruct T as [(c & u & E & _ & W & _)|(m & rest & c & u & E & _ & W & _)]; apply W; rewrite E; injection E as <- _; now left. }
    apply H. split; [reflexivity|discriminate]. }
  split; [exact Ds|]. change decimal_value with dec_value in *. split; [|now rewrite <- N_nat_Z, Nat2Z.id].
  change (2 ^ 64)%N with 18446744073709551616%N. unfold u64_max in R. lia.
Qed.
Lemma Ib_text b g rest f : Ib b g rest f -> forall h, f = Some h ->
  (b = lit "*" /\ h = SAll) \/ (is_dec b /\ (dec_value b < 2 ^ 64)%N /\ h = SIdx (N.to_nat (dec_value b))).
Proof.
  intros [g' r' N|b' g' r' T] h E; [injection E as <-; now left|]. destruct (parse_usize b') as [z|] eqn:P; [|discriminate].
  injection E as <-. right. destruct (usize_dec b' z (or_intror (ex_intro _ _ (ex_intro _ _ T))) P) as (A & B & ->). auto.
Qed.
Lemma gap_stop (bad : char -> Prop) m r x c : gap m ++ r = c :: x -> c <> SP -> stops bad r -> bad c.
Proof. intros E C S. destruct m; [|injection E as <- _; congruence]. cbn in E. subst r. destruct S as [S|(d & y & S & B)]; [discriminate|]. now injection S as <- _. Qed.

Lemma Ps_text s l j : Ps s (Some l) (gap j) -> j = 0 ->
  rest_text l s /\ forall cs : list condition, (cs <> [] -> exists m r, s = gap m ++ r /\ stops value_bad r) -> no_index_next cs l.
Proof.
  intros H J. remember (Some l) as o eqn:E. remember (gap j) as s3 eqn:E3. revert l E. induction H as [s|m s o s2 o' s3 P Q IH]; intros l E; subst.
  - injection E as <-. split; [constructor|]. intros cs _. destruct cs; exact I.
  - destruct m; [|discriminate]. destruct o as [st|]; [|discriminate]. destruct o' as [l'|]; [|discriminate]. injection E as <-.
    destruct (IH eq_refl l' eq_refl) as [R N]. clear IH. cbn [repeat app].
    remember (Some st) as os eqn:Es. destruct P as [g kt m r o s2 T C|g b g1 g2 r f o s2 B NR C].
    + destruct (g + m) eqn:G; [|discriminate]. assert (g = 0 /\ m = 0) as [-> ->] by lia. destruct o as [cs'|]; [|discriminate].
      injection Es as <-. destruct (Cs_conds _ _ _ C) as (-> & F & S). split; [|intros cs _; destruct cs; exact I].
      constructor; [exact (tok_word _ _ _ _ T)|exact F|now apply N|exact R].
    + destruct (g + g1 + g2) eqn:G; [|discriminate]. assert (g = 0 /\ g1 = 0 /\ g2 = 0) as (-> & -> & ->) by lia.
      destruct f as [h|]; [|discriminate]. destruct o as [cs'|]; [|discriminate]. injection Es as <-.
      destruct (Cs_conds _ _ _ C) as (-> & F & S). split.
      * destruct (Ib_text _ _ _ _ B h eq_refl) as [[-> ->]|(D1 & D2 & ->)].
        -- exact (rt_all cs' l' _ F (N _ S) R).
        -- exact (rt_idx b cs' l' _ D1 D2 F (N _ S) R).
      * intros cs X. destruct cs as [|c cs]; [exact I|]. exfalso. destruct (X ltac:(discriminate)) as (m & r & E & V).
        pose proof (gap_stop _ _ _ _ _ (eq_sym E) ltac:(discriminate) V) as Y. cbn in Y. intuition discriminate.
Qed.
Lemma Full_text s p : Full s (Some p) -> path_text s p.
Proof.
  intros H. remember (Some p) as op eqn:E. destruct H as [kt m r o s2 o' j T C P|j|s o j S C]; [| discriminate|].
  - unfold patho in E. destruct (m + j) eqn:G; [|discriminate]. assert (m = 0 /\ j = 0) as [-> ->] by lia.
    destruct o as [cs|]; [|discriminate]. destruct o' as [l|]; [|discriminate]. injection E as <-.
    destruct (Cs_conds _ _ _ C) as (-> & F & S). destruct (Ps_text _ _ _ P eq_refl) as [R N]. cbn [repeat app].
    apply (pt_path kt cs l s2); [|exact F|now apply N|exact R].
    destruct T as (n & c & u & -> & C1 & C2 & W & Sh & _). exists (gap n), c, u. split; [reflexivity|]. split; [apply gap_spaces|].
    split; [exact C1|]. split; [intros G'; apply C2; now destruct n|]. split; [exact W|]. exact (shape_tidy _ _ Sh).
  - unfold rooto in E. destruct j; [|discriminate]. destruct o as [cs|]; [|discriminate]. injection E as <-.
    destruct (Cs_conds _ _ _ C) as (-> & F & _). cbn [repeat]. rewrite app_nil_r. now constructor.
Qed.
Lemma path_iff s p : parse_path_res s = CVal p <-> path_text s p.
Proof.
  split; intros H.
  - apply Full_text. now apply (parse_iff s (Some p)).
  - apply (parse_iff s (Some p)). now apply text_Full.
Qed.
