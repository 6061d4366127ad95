(** Exactly which texts the path grammar accepts. *)
From Coq Require Import ZArith.
From Verif Require Import Base Path Num Peg PathGrammar Ser Spec_Insert Spec_Serde TypedFacts SerdeFacts2 Spec_Path PathFacts Spec_Syntax PathExact PathExact2 PathExact3 PathExact4.
Import ListNotations.

Lemma lc_head c r : loose_conds c -> head r <> Some SP -> head (c ++ r) <> Some SP.
Proof. intros [|g f g' v s _ _ _ _ _] H; [exact H|discriminate]. Qed.
Lemma gap_nil m r : head (gap m ++ r) <> Some SP -> m = 0.
Proof. destruct m; [reflexivity|]. intros H. now destruct H. Qed.
Lemma tok_some bad t m r : ~ In SP bad -> tok (fun c => In c bad) t m r -> some_word bad (t ++ gap m).
Proof.
  intros B (c & u & -> & C & F & _). exists c, (u ++ gap m). split; [reflexivity|]. split; [exact C|].
  intros x X. apply in_app_or in X as [X|X]; [now apply F|]. apply repeat_spec in X. now subst.
Qed.

Lemma Cs_loose s o s2 : Cs s o s2 -> forall e r, s2 = gap e ++ r -> head r <> Some SP ->
  exists m c, s = gap m ++ c ++ r /\ loose_conds c /\ ((c = [] /\ m = e) \/ (c <> [] /\ stops value_bad r)).
Proof.
  induction 1 as [s|m g f g1 g2 v m' r0 o s2 F V C IH]; intros e r E H.
  - exists e, []. split; [exact E|]. split; [constructor|now left].
  - destruct (IH e r E H) as (m1 & c1 & E1 & L & D).
    destruct (gap_inj _ _ _ _ E1 (tok_stop _ _ _ _ value_sp V) (lc_head _ _ L H)) as [<- ->].
    exists m, (lit "|" ++ gap g ++ (f ++ gap g1) ++ lit "=" ++ gap g2 ++ (v ++ gap m') ++ c1). split; [|split].
    + f_equal. change (lit "|") with [chr "|"]. change (lit "=") with [chr "="]. rewrite <- !app_assoc. reflexivity.
    + constructor; auto using gap_spaces; [exact (tok_some _ _ _ _ field_sp F)|exact (tok_some _ _ _ _ value_sp V)].
    + right. split; [discriminate|]. destruct D as [[-> _]|[_ D]]; [|exact D]. destruct V as (? & ? & _ & _ & _ & _ & S). exact S.
Qed.
Lemma body_loose b g rest f : Ib b g rest f -> index_body (b ++ gap g).
Proof.
  intros [g' r' _|b' g' r' (c & u & -> & C & F & _)]; [left; exists (gap g'); split; [reflexivity|apply gap_spaces]|right].
  assert (D : forall x : char, In x (c :: u) -> digit_char x \/ x = SP).
  { intros x X. specialize (F x X). destruct (N.eq_dec x SP) as [|N]; [now right|left]. destruct (ascii_digit x) eqn:A.
    - unfold ascii_digit in A. apply andb_prop in A as [A B]. apply N.leb_le in A, B. now split.
    - exfalso. now apply F. }
  exists c, (u ++ gap g'). split; [reflexivity|]. split; [destruct (D c (or_introl eq_refl)); [assumption|contradiction]|].
  intros x X. apply in_app_or in X as [X|X]; [apply D; now right|]. right. now apply repeat_spec in X.
Qed.
Definition good (x : str) : Prop := loose_rest true x /\ head x <> Some SP /\ (head x <> Some (chr "[") -> loose_rest false x).
Lemma good_after (c x : str) : good x -> (c = [] \/ stops value_bad x) -> loose_rest (is_nil c) x.
Proof.
  intros (A & _ & B) H. destruct c as [|d c]; [exact A|]. destruct H as [|S]; [discriminate|]. apply B.
  destruct S as [->|(y & z & -> & Y)]; [discriminate|]. cbn. intros E. injection E as ->. cbn in Y. intuition discriminate.
Qed.
Lemma Cs_good r o s2 m1 x : Cs r o s2 -> s2 = gap m1 ++ x -> good x -> head r <> Some SP ->
  exists c, r = c ++ x /\ loose_conds c /\ loose_rest (is_nil c) x.
Proof.
  intros C E G H. destruct (Cs_loose _ _ _ C m1 x E (proj1 (proj2 G))) as (m & c & -> & L & D).
  rewrite (gap_nil _ _ H). exists c. split; [reflexivity|]. split; [exact L|]. apply good_after; [exact G|]. tauto.
Qed.
Lemma Ps_loose s o j : Ps s o (gap j) -> exists m x, s = gap m ++ x /\ good x.
Proof.
  intros H. remember (gap j) as s3 eqn:E3. induction H as [s|m s o s2 o' s3 P Q IH]; subst.
  - exists j, []. split; [now rewrite app_nil_r|]. split; [constructor|]. split; [discriminate|constructor].
  - destruct (IH eq_refl) as (m1 & x1 & E & G). exists m, s. split; [reflexivity|].
    destruct P as [g kt m' r o s2 T C|g b g1 g2 r f o s2 B NR C].
    + destruct (Cs_good _ _ _ _ _ C E G (tok_stop _ _ _ _ key_sp T)) as (c & -> & L & R).
      assert (X : forall ix, loose_rest ix (lit "." ++ gap g ++ (kt ++ gap m') ++ c ++ x1))
        by (intros ix; constructor; auto using gap_spaces; exact (tok_some _ _ _ _ key_sp T)).
      rewrite <- app_assoc in X. split; [exact (X true)|]. split; [discriminate|]. intros _. exact (X false).
    + destruct (Cs_good _ _ _ _ _ C E G NR) as (c & -> & L & R).
      split; [|split; [discriminate|intros X; now destruct X]].
      pose proof (lr_idx (gap g) (b ++ gap g1) (gap g2) c x1 (gap_spaces g) (body_loose _ _ _ _ B) (gap_spaces g2) L R) as X.
      rewrite <- app_assoc in X. exact X.
Qed.
Lemma Full_loose s o : Full s o -> loose_path s.
Proof.
  intros [kt m r o1 s2 o' j T C P|j|s' o1 j S C].
  - destruct (Ps_loose _ _ _ P) as (m1 & x & E & G).
    assert (H : head r <> Some SP) by (destruct T as (? & ? & ? & _ & _ & _ & _ & _ & S); exact (stops_no_space _ key_sp _ S)).
    destruct (Cs_good _ _ _ _ _ C E G H) as (c & -> & L & R). destruct T as (n & d & u & -> & D1 & D2 & F & _).
    pose proof (lp_path (gap n) d (u ++ gap m) c x (gap_spaces n) D1) as X. rewrite <- !app_assoc. cbn [app] in *. rewrite <- ?app_assoc in X.
    apply X; auto.
    + intros N. apply D2. now destruct n.
    + intros y Y. apply in_app_or in Y as [Y|Y]; [now apply F|]. apply repeat_spec in Y. subst. exact key_sp.
  - apply lp_blank, gap_spaces.
  - destruct (Cs_loose _ _ _ C j [] (eq_sym (app_nil_r _)) ltac:(discriminate)) as (m & c & E & L & _). rewrite app_nil_r in E.
    destruct S as [->|[r ->]]; [now apply lp_blank|]. destruct m; [|discriminate]. cbn in E. subst c. now apply lp_conds.
Qed.

(** ---- and back ---- *)
Lemma some_tok bad t rest : ~ In SP bad -> some_word bad t -> stops (fun c => In c bad) rest ->
  exists u m, t = u ++ gap m /\ tok (fun c => In c bad) u m rest.
Proof.
  intros B (c & u0 & -> & C & W) S. destruct (shape_split u0) as (u & m & -> & Sh). exists (c :: u), m. split; [reflexivity|].
  exists c, u. split; [reflexivity|]. split; [exact C|]. split; [|now split]. intros x X. apply W. change (c :: u ++ gap m) with ((c :: u) ++ gap m).
  apply in_or_app. now left.
Qed.
Lemma lc_stops (bad : char -> Prop) c s : bad (chr "|") -> loose_conds c -> stops bad s -> stops bad (c ++ s).
Proof. intros B [|g f g' v s' _ _ _ _ _] S; [exact S|]. right. eexists _, _. split; [reflexivity|exact B]. Qed.
Lemma loose_Cs c : loose_conds c -> forall m r, (c <> [] -> stops value_bad r) -> exists o e, Cs (gap m ++ c ++ r) o (gap e ++ r).
Proof.
  induction 1 as [|g f g' v s G F G' V L IH]; intros m r S; [eexists _, m; constructor|].
  assert (S' : stops value_bad r) by (apply S; now destruct g). clear S.
  assert (Sv : stops value_bad (s ++ r)) by (apply lc_stops; auto using value_bar).
  destruct (some_tok _ v (s ++ r) value_sp V Sv) as (v1 & m' & -> & Tv).
  assert (Sf : stops field_bad (chr "=" :: gap (length g') ++ v1 ++ gap m' ++ s ++ r)) by (right; eexists _, _; split; [reflexivity|now left]).
  destruct (some_tok _ f _ field_sp F Sf) as (f1 & g1 & -> & Tf).
  destruct (IH m' r (fun _ => S')) as (o & e & C). eexists _, e.
  pose proof (Cs_cons m (length g) f1 g1 (length g') v1 m' (s ++ r) o _ Tf Tv C) as X.
  rewrite <- (spaces_gap g G), <- (spaces_gap g' G') in X.
  change (lit "|") with [chr "|"]. change (lit "=") with [chr "="]. rewrite <- !app_assoc. cbn [app]. exact X.
Qed.
Lemma lr_stops ix s : loose_rest ix s -> stops key_bad s.
Proof. intros H; destruct H; [now left|right..]; eexists _, _; (split; [reflexivity|]); cbn; auto. Qed.
Lemma lr_value (c s : str) : loose_rest (is_nil c) s -> c <> [] -> stops value_bad s.
Proof.
  intros R N. destruct c as [|d c]; [contradiction|]. cbn in R. remember false as ix eqn:E. destruct R; [now left| |discriminate].
  right. eexists _, _. split; [reflexivity|]. cbn. auto.
Qed.
Lemma loose_body b rest : index_body b -> exists b' g f, b = b' ++ gap g /\ Ib b' g (chr "]" :: rest) f.
Proof.
  intros [(g & -> & G)|(c & r & -> & C & R)].
  - exists (lit "*"), (length g). eexists. split; [now rewrite <- (spaces_gap g G)|]. constructor. discriminate.
  - destruct (shape_split r) as (u & m & -> & Sh). exists (c :: u), m. eexists. split; [reflexivity|]. constructor.
    exists c, u. split; [reflexivity|]. unfold digit_char in C. split; [intros ->; unfold SP in C; lia|]. split; [|split; [exact Sh|]].
    + intros x X [A B]. assert (D : digit_char x) by (destruct X as [<-|X]; [exact C|]; destruct (R x); [apply in_or_app; now left|assumption|contradiction]).
      rewrite (dec_digit x D) in A. discriminate.
    + right. eexists _, _. split; [reflexivity|]. split; [reflexivity|discriminate].
Qed.
Lemma loose_Ps ix x : loose_rest ix x -> forall m, exists o j, Ps (gap m ++ x) o (gap j).
Proof.
  induction 1 as [ix|ix g k c s G K L R IH|g b g' c s G B G' L R IH]; intros m.
  - eexists _, m. rewrite app_nil_r. constructor.
  - destruct (loose_Cs c L 0 s (lr_value c s R)) as (o & e & C). destruct (IH e) as (o' & j & P).
    assert (S : stops key_bad (c ++ s)) by (apply lc_stops; [exact key_bar|exact L|exact (lr_stops _ _ R)]).
    destruct (some_tok _ k _ key_sp K S) as (k1 & m' & -> & T). eexists _, j.
    pose proof (Ps_cons m _ _ _ _ _ (Pt_key (length g) k1 m' _ _ _ T C) P) as X. cbn [repeat app] in X. rewrite <- (spaces_gap g G) in X.
    change (lit ".") with [chr "."]. rewrite <- !app_assoc. cbn [app]. exact X.
  - destruct (loose_Cs c L 0 s (lr_value c s R)) as (o & e & C). destruct (IH e) as (o' & j & P).
    assert (S : stops key_bad (c ++ s)) by (apply lc_stops; [exact key_bar|exact L|exact (lr_stops _ _ R)]).
    destruct (loose_body b (gap (length g') ++ c ++ s) B) as (b1 & g1 & f & -> & I). eexists _, j.
    pose proof (Ps_cons m _ _ _ _ _ (Pt_idx (length g) b1 g1 (length g') _ _ _ _ I (stops_no_space _ key_sp _ S) C) P) as X. cbn [repeat app] in X.
    rewrite <- (spaces_gap g G), <- (spaces_gap g' G') in X.
    change (lit "[") with [chr "["]. change (lit "]") with [chr "]"]. rewrite <- !app_assoc. cbn [app]. exact X.
Qed.
Lemma loose_Full s : loose_path s -> exists o, Full s o.
Proof.
  intros [s' S|s' L|g c rest cs s' G C1 C2 W L R].
  - rewrite (spaces_gap s' S). destruct (length s') as [|n]; [|eexists; constructor]. eexists. apply (Full_root [] (Some []) 0); [now left|constructor].
  - destruct (loose_Cs s' L 0 [] (fun _ => or_introl eq_refl)) as (o & e & C). rewrite !app_nil_r in C. eexists. apply (Full_root s' o e); [|exact C].
    destruct L; [now left|right; eexists; reflexivity].
  - destruct (loose_Cs cs L 0 s' (lr_value cs s' R)) as (o & e & C). destruct (loose_Ps _ _ R e) as (o' & j & P).
    assert (S : stops key_bad (cs ++ s')) by (apply lc_stops; [exact key_bar|exact L|exact (lr_stops _ _ R)]).
    destruct (shape_split rest) as (u & m & -> & Sh). eexists.
    assert (T : ftok (gap (length g) ++ c :: u) m (cs ++ s')).
    { exists (length g), c, u. split; [reflexivity|]. split; [exact C1|]. split; [intros N; apply C2; now destruct g|]. split; [|now split].
      intros x X. apply W. apply in_or_app. now left. }
    pose proof (Full_path _ m _ _ _ _ j T C P) as X. rewrite <- (spaces_gap g G) in X. cbn [app]. rewrite <- !app_assoc. cbn [app].
    rewrite <- app_assoc in X. exact X.
Qed.

Lemma panic_iff s : parse_path_res s = CPanic <-> loose_path s /\ ~ exists p, path_text s p.
Proof.
  split.
  - intros H. split.
    + apply (Full_loose s None). now apply (parse_iff s None).
    + intros [p P]. apply path_iff in P. congruence.
  - intros [L N]. destruct (loose_Full s L) as [[p|] F]; [|now apply (parse_iff s None)].
    destruct N. exists p. apply path_iff. now apply (parse_iff s (Some p)).
Qed.
Lemma error_iff s : parse_path_res s = CErr <-> ~ loose_path s.
Proof.
  split.
  - intros H L. destruct (loose_Full s L) as [o F]. apply parse_iff in F. destruct o; congruence.
  - intros N. destruct (parse_path_res s) as [p| |] eqn:E; [|reflexivity|]; destruct N.
    + apply (Full_loose s (Some p)). now apply (parse_iff s (Some p)).
    + apply (Full_loose s None). now apply (parse_iff s None).
Qed.

(** ---- the two causes of a panic ---- *)
Lemma no_sp_spaces s : ~ In SP s -> spaces s -> s = [].
Proof. intros N S. destruct s as [|c s]; [reflexivity|]. destruct N. left. apply S. now left. Qed.
Lemma some_no_sp bad t : some_word bad t -> ~ In SP t -> word bad t.
Proof.
  intros (c & u & -> & C & W) N. exists c, u. repeat split; auto. right. intros r ->. apply N. right. apply in_or_app. right. now left.
Qed.
Lemma app_no_sp (a b : str) : ~ In SP (a ++ b) -> ~ In SP a /\ ~ In SP b.
Proof. intros N. split; intros X; apply N, in_or_app; auto. Qed.
Lemma conds_no_sp c : loose_conds c -> ~ In SP c -> exists cs, c = conds_text cs /\ Forall cond_word cs.
Proof.
  induction 1 as [|g f g' v s G F G' V L IH]; intros N; [exists []; now split|].
  apply app_no_sp in N as [_ N]. apply app_no_sp in N as [Ng N]. apply app_no_sp in N as [Nf N]. apply app_no_sp in N as [_ N].
  apply app_no_sp in N as [Ng' N]. apply app_no_sp in N as [Nv N]. destruct (IH N) as (cs & -> & W).
  rewrite (no_sp_spaces g Ng G), (no_sp_spaces g' Ng' G'). exists (mkC f v :: cs). split.
  - change (conds_text (mkC f v :: cs)) with ((chr "|" :: f ++ chr "=" :: v) ++ conds_text cs). cbn [app]. rewrite <- !app_assoc. reflexivity.
  - constructor; [|exact W]. split; now apply some_no_sp.
Qed.
Lemma big_app a s : big_index s -> big_index (a ++ s).
Proof. intros (x & ds & b & -> & H). exists (a ++ x), ds, b. split; [now rewrite <- app_assoc|exact H]. Qed.
Lemma rest_no_sp ix s : loose_rest ix s -> ~ In SP s ->
  (exists l, rest_text l s /\ (ix = false -> forall cs : list condition, no_index_next cs l)) \/ big_index s.
Proof.
  induction 1 as [ix|ix g k c s G K L R IH|g b g' c s G B G' L R IH]; intros N.
  - left. exists []. split; [constructor|]. intros _ [|]; exact I.
  - apply app_no_sp in N as [_ N]. apply app_no_sp in N as [Ng N]. apply app_no_sp in N as [Nk N]. apply app_no_sp in N as [Nc N].
    rewrite (no_sp_spaces g Ng G). destruct (conds_no_sp c L Nc) as (cs & -> & W).
    destruct (IH N) as [(l & T & X)|X]; [left|right; apply (big_app (lit ".")), (big_app []), (big_app k), big_app, X].
    exists (SKey k cs :: l). split; [|intros _ [|]; exact I]. cbn [app]. apply rt_key; auto; [now apply some_no_sp|].
    destruct cs as [|d cs]; [exact I|]. now apply X.
  - apply app_no_sp in N as [_ N]. apply app_no_sp in N as [Ng N]. apply app_no_sp in N as [Nb N]. apply app_no_sp in N as [_ N].
    apply app_no_sp in N as [Ng' N]. apply app_no_sp in N as [Nc N].
    rewrite (no_sp_spaces g Ng G), (no_sp_spaces g' Ng' G'). destruct (conds_no_sp c L Nc) as (cs & -> & W).
    destruct (IH N) as [(l & T & X)|X]; [|right; apply (big_app (lit "[")), (big_app []), (big_app b), (big_app (lit "]")), (big_app []), big_app, X].
    assert (Y : no_index_next cs l) by (destruct cs as [|d cs]; [exact I|]; now apply X).
    destruct B as [(h & -> & H)|(d & r & -> & D & Dr)].
    + rewrite (no_sp_spaces h); [|intros Z; apply Nb; now right|exact H]. left. exists (SAll cs :: l). split; [|discriminate].
      exact (rt_all cs l s W Y T).
    + assert (Z : is_dec (d :: r)).
      { split; [discriminate|]. intros x [<-|Hx]; [exact D|]. destruct (Dr x Hx) as [|E]; [assumption|]. subst x. destruct Nb. now right. }
      destruct (N.lt_ge_cases (dec_value (d :: r)) (2 ^ 64)) as [A|A].
      * left. exists (SIdx (N.to_nat (dec_value (d :: r))) cs :: l). split; [|discriminate]. exact (rt_idx (d :: r) cs l s Z A W Y T).
      * right. exists [], (d :: r), (conds_text cs ++ s). split; [reflexivity|]. now split.
Qed.
Lemma panic_cause s : parse_path_res s = CPanic -> In SP s \/ big_index s.
Proof.
  intros H. apply panic_iff in H as [L N]. destruct (in_dec_or SP s) as [|S]; [now left|right].
  destruct L as [s S'|s L|g c rest cs s G C1 C2 W L R].
  - destruct N. rewrite (no_sp_spaces s S S'). exists (PRoot []). apply (pt_root []). constructor.
  - destruct N. destruct (conds_no_sp s L S) as (cs & -> & W). exists (PRoot cs). now constructor.
  - apply app_no_sp in S as [Sg S]. apply app_no_sp in S as [Sk S]. apply app_no_sp in S as [Sc S].
    destruct (conds_no_sp cs L Sc) as (l & -> & Wl). destruct (rest_no_sp _ _ R S) as [(m & T & X)|X]; [|apply (big_app g), (big_app (c :: rest)), big_app, X].
    destruct N. exists (path_of (SKey (g ++ c :: rest) l :: m)).
    replace (g ++ (c :: rest) ++ conds_text l ++ s) with ((g ++ c :: rest) ++ conds_text l ++ s) by now rewrite <- app_assoc.
    apply pt_path; auto.
    + exists g, c, rest. repeat split; auto. right. intros r ->. apply Sk. right. apply in_or_app. right. now left.
    + destruct l as [|d l]; [exact I|]. now apply X.
Qed.
