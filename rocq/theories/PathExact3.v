(** Exactly which texts are paths: steps and whole paths. *)
From Coq Require Import ZArith.
From Verif Require Import Base Path Num Peg PegFacts PathGrammar Spec_Insert Spec_Path PathFacts Spec_Syntax PathExact PathExact2.
Import ListNotations.

(** ---- one step ---- *)
Inductive Ib : str -> nat -> str -> option (list condition -> step) -> Prop :=
| Ib_all g rest : head rest <> Some SP -> Ib (lit "*") g rest (Some SAll)
| Ib_num b g rest : tok digit_bad b g rest -> Ib b g rest (option_map (fun z => SIdx (Z.to_nat z)) (parse_usize b)).

Definition stepo (m : nat) (f : option (list condition -> step)) (o : option (list condition)) : option step :=
  match m, f, o with 0, Some f, Some cs => Some (f cs) | _, _, _ => None end.
Definition conso (m : nat) (o : option step) (o' : option (list step)) : option (list step) :=
  match m, o, o' with 0, Some x, Some l => Some (x :: l) | _, _, _ => None end.

Inductive Pt : str -> option step -> str -> Prop :=
| Pt_key g kt m r o s2 : tok key_bad kt m r -> Cs r o s2 ->
    Pt (chr "." :: gap g ++ kt ++ gap m ++ r) (stepo (g + m) (Some (SKey kt)) o) s2
| Pt_idx g b g1 g2 r f o s2 : Ib b g1 (chr "]" :: gap g2 ++ r) f -> head r <> Some SP -> Cs r o s2 ->
    Pt (chr "[" :: gap g ++ b ++ gap g1 ++ chr "]" :: gap g2 ++ r) (stepo (g + g1 + g2) f o) s2.

Inductive Ps : str -> option (list step) -> str -> Prop :=
| Ps_nil s : Ps s (Some []) s
| Ps_cons m s o s2 o' s3 : Pt s o s2 -> Ps s2 o' s3 -> Ps (gap m ++ s) (conso m o o') s3.

Lemma kv_node r n o : r <> p_whitespace -> node_is r n o -> kv [n] (option_map (fun p => [(r, PVPath p)]) o).
Proof. intros W [A B]. destruct o; cbn; [now apply kv_one|now apply kv_bad]. Qed.

Lemma tok_stop (bad : char -> Prop) t m r : ~ bad SP -> tok bad t m r -> head r <> Some SP.
Proof. intros B (? & ? & _ & _ & _ & _ & S). exact (stops_no_space _ B _ S). Qed.

Lemma act_conds t x cs : fst x <> p_whitespace ->
  path_act p_part t (map (fun x => (fst x, CVal (snd x))) (x :: map kcond cs)) =
  match x with
  | (p_index_all, _) => CVal (PVPath (PAll cs None))
  | (p_index_number, PVIdx l) => CVal (PVPath (PIdx l cs None))
  | _ => path_act p_part t (map (fun x => (fst x, CVal (snd x))) (x :: map kcond cs))
  end.
Proof.
  intros W.
  assert (H : has_ws (map (fun x => (fst x, @CVal pval (snd x))) (map kcond cs)) = false /\
    call_ (map (fun x => (fst x, @CVal pval (snd x))) (map kcond cs)) = CVal (map kcond cs)).
  { induction cs as [|c cs [IH1 IH2]]; [auto|]. cbn in *. rewrite IH2. auto. }
  destruct H as [H1 H2]. destruct x as [r v]. destruct r; try reflexivity; [destruct v; try reflexivity|];
    cbn [path_act map fst snd]; unfold has_ws in *; cbn [existsb fst orb]; rewrite H1; cbn [call_ cbind]; rewrite H2; cbn [cbind];
    now rewrite conds_of_map.
Qed.
Lemma idx_run b g rest f k : Ib b g rest f ->
  exists n x, pruns true (PAlt (PRule p_index_number) (PRule p_index_all)) (b ++ gap g ++ rest) k (Ok b [n] (gap g ++ rest) k) /\
    kv [n] (option_map (fun _ => [x]) f) /\
    forall f', f = Some f' -> forall cs t, path_act p_part t (map (fun x => (fst x, CVal (snd x))) (x :: map kcond cs)) = CVal (PVPath (step_path (f' cs))).
Proof.
  intros [g' rest' N|b' g' rest' T].
  - exists (Node p_index_all (lit "*") []), (p_index_all, PVUnit). split; [|split; [now apply kv_one|]].
    + apply RAlt2; [apply RRuleF; [|reflexivity]; apply RSeq1; [now constructor|reflexivity]|].
      refine (RRule path_grammar true p_index_all _ _ _ [] _ _ _). exact (run_lit true (lit "*") _ k).
    + intros f' [= <-] cs t. now rewrite act_conds.
  - destruct (digit_tok _ _ _ k T) as [ns R]. destruct (parse_usize b') as [z|] eqn:E.
    + eexists. exists (p_index_number, PVIdx [Z.to_nat z]). split; [apply alt_run; exact R|]. split.
      * apply kv_one; [reflexivity|discriminate|]. cbn [fold_node path_act]. now rewrite E.
      * intros f' [= <-] cs t. now rewrite act_conds.
    + eexists. exists (p_eoi, PVUnit). split; [apply alt_run; exact R|]. split; [|discriminate].
      apply kv_bad. cbn [fold_node path_act]. now rewrite E.
Qed.
Lemma idx_head b g rest f : Ib b g rest f -> head (b ++ gap g ++ rest) <> Some SP.
Proof. intros [g' r' N|b' g' r' T]; [discriminate|]. exact (tok_head _ _ _ _ _ T). Qed.

Lemma Pt_run s o s2 k : Pt s o s2 -> no_more s2 ->
  exists t n, s = t ++ s2 /\ pruns true (PRule p_part) s k (Ok t [n] s2 k) /\ node_is p_part n (option_map step_path o).
Proof.
  intros H Z. destruct H as [g kt m r o s2 T C|g b g1 g2 r f o s2 B N C].
  - destruct (key_tok _ _ _ k T) as [ns1 R1]. pose proof (tok_stop _ _ _ _ key_sp T) as N.
    destruct (key_node _ _ _ _ _ _ _ k R1 N C Z) as (t & n & E & R2 & Q).
    pose proof (run_gap (p_lit ".") (PRule p_key) _ k _ _ g _ _ _ _ _ _ (lit1_ok true (chr ".") _ k) (tok_head _ _ _ _ _ T) R2) as R3.
    pose proof (RRule path_grammar true p_part _ _ _ _ _ _ (alt_run _ _ _ _ _ _ _ _ _ R3)) as R4.
    eexists _, _. split; [|split; [exact R4|]].
    + rewrite E. cbn [app]. rewrite <- !app_assoc. reflexivity.
    + split; [reflexivity|].
      pose proof (kv_app _ _ _ _ (kv_ws g) (kv_node p_key n _ ltac:(discriminate) Q)) as K.
      cbn [path_grammar fst wrap app]. destruct g; cbn [zero plus] in *.
      * destruct m; cbn [key_val stepo] in *; [destruct o as [cs|]; cbn [option_map oapp app step_path] in *|].
        -- now rewrite (act_some _ _ _ _ K).
        -- now apply act_none.
        -- now apply act_none.
      * now apply act_none.
  - destruct (idx_run _ _ _ _ k B) as (n & x & R1 & K1 & A). destruct (Cs_rep _ _ _ k N C Z) as (t & ns & E & R2 & K).
    pose proof (run_gap (p_lit "]") p_conds _ k _ _ g2 _ _ _ _ _ _ (lit1_ok true (chr "]") _ k) N R2) as R3.
    pose proof (run_gap (PAlt (PRule p_index_number) (PRule p_index_all)) _ _ k _ _ g1 _ _ _ _ _ _ R1 ltac:(discriminate) R3) as R4.
    pose proof (run_gap (p_lit "[") _ _ k _ _ g _ _ _ _ _ _ (lit1_ok true (chr "[") _ k) (idx_head _ _ _ _ B) R4) as R5.
    pose proof (RRule path_grammar true p_index _ _ _ _ _ _ R5) as R6.
    assert (R7 : pruns true (p_seq (p_lit ".") (PRule p_key)) (chr "[" :: gap g ++ b ++ gap g1 ++ chr "]" :: gap g2 ++ r) k Fail).
    { apply RSeq1; [|reflexivity]. now apply lit1_no. }
    pose proof (RRule path_grammar true p_part _ _ _ _ _ _ (RAlt2 _ _ _ _ _ _ _ R7 R6)) as R8.
    eexists _, _. split; [|split; [exact R8|]].
    + rewrite E. cbn [app]. rewrite <- ?app_assoc. cbn [app]. rewrite <- ?app_assoc. reflexivity.
    + split; [reflexivity|]. cbn [path_grammar fst wrap app].
      pose proof (kv_app _ _ _ _ (kv_ws g) (kv_app _ _ _ _ K1 (kv_app _ _ _ _ (kv_ws g1) (kv_app _ _ _ _ (kv_ws g2) K)))) as K2.
      assert (Q : (g + g1 + g2 = 0 /\ exists f' cs, f = Some f' /\ o = Some cs) \/ (stepo (g + g1 + g2) f o = None /\
        oapp (zero g) (oapp (option_map (fun _ => [x]) f) (oapp (zero g1) (oapp (zero g2) (option_map (map kcond) o)))) = None)).
      { destruct g; [|right; auto]. destruct f as [f'|]; [|right; split; [cbn [plus stepo]; destruct (g1 + g2); reflexivity|reflexivity]].
        destruct g1; [|right; auto]. destruct g2; [|right; auto]. destruct o as [cs|]; [left; eauto|right; auto]. }
      destruct Q as [[G (f' & cs & -> & ->)]|[-> Q]].
      * assert (g = 0 /\ g1 = 0 /\ g2 = 0) as (-> & -> & ->) by lia. cbn [stepo plus option_map]. rewrite <- (A f' eq_refl cs (chr "[" :: gap 0 ++ b ++ gap 0 ++ [chr "]"] ++ gap 0 ++ t)).
        cbn [zero option_map oapp app] in K2. rewrite (act_some _ _ _ _ K2). reflexivity.
      * rewrite Q in K2. now apply act_none.
Qed.
Lemma alt_inv em a b s k t n s2 k2 : pruns em (PAlt a b) s k (Ok t n s2 k2) ->
  pruns em a s k (Ok t n s2 k2) \/ (pruns em a s k Fail /\ pruns em b s k (Ok t n s2 k2)).
Proof. intros H. inv H; auto. Qed.

Lemma Ib_inv s k t ns s2 k2 : head s <> Some SP ->
  pruns true (PAlt (PRule p_index_number) (PRule p_index_all)) s k (Ok t ns s2 k2) ->
  k2 = k /\ exists g rest f, s = t ++ gap g ++ rest /\ s2 = gap g ++ rest /\ head rest <> Some SP /\ Ib t g rest f.
Proof.
  intros N R. apply alt_inv in R as [R|[_ R]].
  - apply (digit_inv _ _ _ _ _ _ N) in R as (-> & m & rest & -> & -> & T). split; [reflexivity|].
    exists m, rest. eexists. split; [reflexivity|]. split; [reflexivity|]. split; [exact (tok_stop _ _ _ _ digit_sp T)|]. now constructor.
  - apply rule_inv in R as (ns' & R & _). cbn [path_grammar snd] in R. apply lit_inv in R as (-> & -> & _ & ->). split; [reflexivity|].
    destruct (gap_split s2) as (g & rest & -> & G). exists g, rest. eexists. split; [reflexivity|]. split; [reflexivity|].
    split; [exact G|]. now constructor.
Qed.
Lemma Pt_inv s k t ns s2 k2 : pruns true (PRule p_part) s k (Ok t ns s2 k2) -> k2 = k /\ exists o, Pt s o s2.
Proof.
  intros R. apply rule_inv in R as (ns' & R & _). cbn [path_grammar snd fst emit_in] in R. apply alt_inv in R as [R|[_ R]].
  - apply pseq_gap in R as (t1 & n1 & g & r & k1 & t2 & n2 & R1 & N & R2 & _ & _).
    apply lit_inv in R1 as (-> & _ & _ & ->). apply pkey_inv in R2 as (-> & kt & m & r' & o & -> & T & C).
    split; [reflexivity|]. eexists. constructor; [exact (ftok_tok _ _ _ T N)|exact C].
  - apply rule_inv in R as (ns1 & R & _). cbn [path_grammar snd fst emit_in] in R.
    apply pseq_gap in R as (t1 & n1 & g & r & k1 & t2 & n2 & R1 & N & R2 & _ & _).
    apply lit_inv in R1 as (-> & _ & _ & ->).
    apply pseq_gap in R2 as (t3 & n3 & g1 & r1 & k3 & t4 & n4 & R3 & N3 & R4 & _ & _).
    apply (Ib_inv _ _ _ _ _ _ N) in R3 as (-> & g' & rest & f & -> & E & NR & B).
    destruct (gap_inj _ _ _ _ E N3 NR) as [-> ->].
    apply pseq_gap in R4 as (t5 & n5 & g2 & r2 & k5 & t6 & n6 & R5 & N5 & R6 & _ & _).
    apply lit_inv in R5 as (-> & _ & _ & ->). apply Cs_rep_inv in R6 as (-> & o & C).
    split; [reflexivity|]. eexists. econstructor; eassumption.
Qed.

(** ---- steps ---- *)
Definition kpart (s : step) : prule * pval := (p_part, PVPath (step_path s)).
Definition part_star : pexp prule := PStar (PSeq p_skip (PRule p_part)).

Lemma Pt_first s o s2 : Pt s o s2 -> exists c r, s = c :: r /\ (c = chr "." \/ c = chr "[").
Proof. intros [g kt m r o' s2' T C|g b g1 g2 r f o' s2' B N C]; eexists _, _; split; eauto. Qed.
Lemma Pt_head s o s2 : Pt s o s2 -> head s <> Some SP.
Proof. intros H. destruct (Pt_first _ _ _ H) as (c & r & -> & [-> | ->]); discriminate. Qed.
Lemma Ps_no_more s o j : Ps s o (gap j) -> no_more s.
Proof.
  intros H. remember (gap j) as s3 eqn:E. destruct H as [s|m s o s2 o' s3 P _]; subst.
  - exists j, []. rewrite app_nil_r. repeat split; discriminate.
  - exists m, s. split; [reflexivity|]. destruct (Pt_first _ _ _ P) as (c & r & -> & [-> | ->]); split; discriminate.
Qed.
Lemma conso_kv m o o' : option_map (map kpart) (conso m o o') =
  oapp (oapp (zero m) (option_map (fun p => [(p_part, PVPath p)]) (option_map step_path o))) (option_map (map kpart) o').
Proof. destruct m, o, o'; reflexivity. Qed.
Lemma part_fail k : pruns true (PRule p_part) [] k Fail.
Proof.
  apply RRuleF; [|reflexivity]. apply RAlt2.
  - apply RSeq1; [apply lit1_nil|reflexivity].
  - apply RRuleF; [|reflexivity]. apply RSeq1; [apply lit1_nil|reflexivity].
Qed.
Lemma Ps_star s o j k : Ps s o (gap j) ->
  exists t ns, s = t ++ gap j /\ pruns true part_star s k (Ok t ns (gap j) k) /\ kv ns (option_map (map kpart) o).
Proof.
  intros H. remember (gap j) as s3 eqn:E3. induction H as [s|m s o s2 o' s3 P Q IH]; subst.
  - exists [], []. split; [reflexivity|]. split; [|constructor]. apply RStar0.
    pose proof (skip_run j [] k ltac:(discriminate)) as X. rewrite app_nil_r in X.
    eapply RSeq2; [exact X|apply part_fail|reflexivity].
  - destruct (IH eq_refl) as (t2 & ns2 & E & R & K). destruct (Pt_run _ _ _ k P (Ps_no_more _ _ _ Q)) as (t1 & n & E1 & R1 & K1).
    exists ((gap m ++ t1) ++ t2), ((repeat ws_node m ++ [n]) ++ ns2). split; [|split].
    + rewrite E1, E. now rewrite <- !app_assoc.
    + eapply RStar1; [|exact R]. eapply RSeq; [apply skip_run; exact (Pt_head _ _ _ P)|exact R1].
    + rewrite conso_kv. apply kv_app; [|exact K]. apply kv_app; [apply kv_ws|]. now apply kv_node.
Qed.
(** The steps of a path, with the spaces before them. *)
Lemma Ps_rep s o j k : Ps s o (gap j) ->
  exists m s' t ns j', s = gap m ++ s' /\ head s' <> Some SP /\ s' = t ++ gap j' /\ pruns true (p_rep (PRule p_part)) s' k (Ok t ns (gap j') k) /\
    exists l, kv (repeat ws_node m ++ ns) (option_map (map kpart) l) /\ (j' = 0 -> l = match j with 0 => o | _ => None end) /\ (j' <> 0 -> j <> 0).
Proof.
  intros H. remember (gap j) as s3 eqn:E3. destruct H as [s|m s o s2 o' s3 P Q]; subst.
  - exists j, [], [], [], 0. split; [now rewrite app_nil_r|]. split; [discriminate|]. split; [reflexivity|]. split.
    + apply ROpt2. apply RSeq1; [apply part_fail|reflexivity].
    + exists (zero j). split; [|split; [|congruence]; intros _; now destruct j].
      replace (option_map (map kpart) (zero j)) with (@zero (prule * pval) j) by (now destruct j). rewrite app_nil_r. apply kv_ws.
  - destruct (Ps_star _ _ _ k Q) as (t2 & ns2 & E & R & K). destruct (Pt_run _ _ _ k P (Ps_no_more _ _ _ Q)) as (t1 & n & E1 & R1 & K1).
    exists m, s, (t1 ++ t2), ([n] ++ ns2), j. split; [reflexivity|]. split; [exact (Pt_head _ _ _ P)|]. split; [rewrite E1, E; apply app_assoc|]. split.
    + apply ROpt1; [|discriminate]. eapply RSeq; [exact R1|exact R].
    + exists (conso m o o'). split; [|split; [now intros -> |easy]].
      rewrite conso_kv, app_assoc. apply kv_app; [apply kv_app; [apply kv_ws|apply kv_node; [discriminate|exact K1]]|exact K].
Qed.
Lemma Ps_star_inv s k t ns s2 k2 : pruns true part_star s k (Ok t ns s2 k2) -> k2 = k /\ exists o, Ps s o s2.
Proof.
  intros R. unfold part_star in R. remember (PStar (PSeq p_skip (PRule p_part))) as e eqn:Ee. remember (Ok t ns s2 k2) as x eqn:Ex. remember true as em eqn:Em.
  revert t ns s2 k2 Ex. induction R; intros t0 ns0 s20 k20 Ex; try discriminate; injection Ee as ->; subst em.
  - injection Ex as <- <- <- <-. split; [reflexivity|]. eexists. constructor.
  - injection Ex as <- <- <- <-. clear IHR1. destruct (IHR2 eq_refl eq_refl _ _ _ _ eq_refl) as (-> & o & H).
    apply seq_inv in R1 as (t3 & n3 & s3 & k3 & t4 & n4 & R3 & R4 & _ & _).
    apply skip_gap in R3 as (m & _ & _ & -> & _ & ->).
    apply Pt_inv in R4 as (-> & o' & P). split; [reflexivity|]. eexists. econstructor; eassumption.
Qed.
Lemma Ps_rep_inv m s k t ns s2 k2 : pruns true (p_rep (PRule p_part)) s k (Ok t ns s2 k2) ->
  k2 = k /\ (s2 = s \/ exists o, Ps (gap m ++ s) o s2).
Proof.
  intros R. inversion R; subst.
  - match goal with H : runs _ _ (PSeq _ _) _ _ _ |- _ => apply seq_inv in H as (t3 & n3 & s3 & k3 & t4 & n4 & R3 & R4 & _ & _) end.
    apply Pt_inv in R3 as (-> & o' & P). apply Ps_star_inv in R4 as (-> & o & H). split; [reflexivity|]. right. eexists. econstructor; eassumption.
  - split; [reflexivity|]. now left.
Qed.

(** ---- whole paths ---- *)
Definition patho (m : nat) (kt : str) (o : option (list condition)) (o' : option (list step)) : option path :=
  match m, o, o' with 0, Some cs, Some l => Some (path_of (SKey kt cs :: l)) | _, _, _ => None end.
Definition rooto (m : nat) (o : option (list condition)) : option path :=
  match m, o with 0, Some cs => Some (PRoot cs) | _, _ => None end.
Inductive Full : str -> option path -> Prop :=
| Full_path kt m r o s2 o' j : ftok kt m r -> Cs r o s2 -> Ps s2 o' (gap j) -> Full (kt ++ gap m ++ r) (patho (m + j) kt o o')
| Full_blank j : Full (gap (S j)) None
| Full_root s o j : (s = [] \/ exists r, s = chr "|" :: r) -> Cs s o (gap j) -> Full s (rooto j o).

Lemma parts_of_map l : parts_of (map kpart l) = Some (map step_path l).
Proof. induction l as [|c l IH]; [reflexivity|]. cbn. now rewrite IH. Qed.

Lemma final_fold t n j k o : node_is k n o -> (k = p_path \/ k = p_root) ->
  exists m, m = Node p_final_path t ([n] ++ repeat ws_node j ++ [Node p_eoi [] []]) /\
    fold_path m = match j, o with 0, Some p => CVal (PVPath p) | _, _ => CPanic end.
Proof.
  intros Q K. eexists. split; [reflexivity|].
  assert (K1 : kv ([n] ++ repeat ws_node j ++ [Node p_eoi [] []]) (oapp (option_map (fun p => [(k, PVPath p)]) o) (oapp (zero j) (Some [(p_eoi, PVUnit)])))).
  { apply kv_app; [apply kv_node; [destruct K as [-> | ->]; discriminate|exact Q]|]. apply kv_app; [apply kv_ws|now apply kv_one]. }
  destruct o as [p|]; [|replace (match j with 0 => CPanic | _ => CPanic end) with (@CPanic pval) by (now destruct j); now apply act_none].
  destruct j; [|now apply act_none]. rewrite (act_some _ _ _ _ K1). destruct K as [-> | ->]; reflexivity.
Qed.

Lemma path_fold t n kp ns l : node_is p_key n kp -> kv ns (option_map (map kpart) l) ->
  node_is p_path (Node p_path t ([n] ++ ns))
    (match kp, l with Some p, Some l => Some (fold_left path_insert (map step_path l) p) | _, _ => None end).
Proof.
  intros Q K. split; [reflexivity|].
  pose proof (kv_app _ _ _ _ (kv_node p_key n kp ltac:(discriminate) Q) K) as K1.
  destruct kp as [p|]; [|now apply act_none]. destruct l as [l|]; [|now apply act_none].
  rewrite (act_some _ _ _ _ K1). cbn [option_map oapp app map fst snd path_act].
  destruct (kv_map _ _ K) as (_ & H1 & H2). unfold has_ws in *. cbn [existsb fst orb]. rewrite H1.
  cbn [call_ cbind]. rewrite H2. cbn [cbind]. now rewrite parts_of_map.
Qed.
Lemma root_fold t n ns o : label n = p_root_key -> fold_path n = CVal PVUnit -> kv ns (option_map (map kcond) o) ->
  node_is p_root (Node p_root t ([n] ++ ns)) (option_map PRoot o).
Proof.
  intros L F K. split; [reflexivity|].
  pose proof (kv_app _ _ _ _ (kv_one n p_root_key PVUnit L ltac:(discriminate) F) K) as K1.
  destruct o as [cs|]; [|now apply act_none].
  rewrite (act_some _ _ _ _ K1). cbn [option_map oapp app map fst snd path_act].
  destruct (kv_map _ _ K) as (_ & H1 & H2). unfold has_ws in *. cbn [existsb fst orb]. rewrite H1.
  cbn [call_ cbind]. rewrite H2. cbn [cbind]. now rewrite conds_of_map.
Qed.
Lemma gap_eoi j : pruns true (PSeq p_skip (PEOI p_eoi)) (gap j) [] (Ok (gap j ++ []) (repeat ws_node j ++ [Node p_eoi [] []]) [] []).
Proof.
  pose proof (skip_run j [] [] ltac:(discriminate)) as X. rewrite app_nil_r in X. eapply RSeq; [exact X|exact (REOI path_grammar true p_eoi [])].
Qed.
Lemma path_fail s k : (spaces s \/ exists c r, s = c :: r /\ key_bad c) -> pruns true (PRule p_path) s k Fail.
Proof.
  intros H. apply RRuleF; [|reflexivity]. apply RSeq1; [|reflexivity]. apply RRuleF; [|reflexivity]. apply RSeq1; [|reflexivity].
  now apply first_fail.
Qed.

Lemma Full_run s o : Full s o -> exists t n, pruns true (PRule p_final_path) s [] (Ok t [n] [] []) /\
  fold_path n = match o with Some p => CVal (PVPath p) | None => CPanic end.
Proof.
  intros [kt m r oc s2 ol j T C P|j|s' oc j S C].
  - destruct (first_tok _ _ _ [] T) as [ns1 R1].
    assert (NR : head r <> Some SP) by (destruct T as (? & ? & ? & _ & _ & _ & _ & _ & S); exact (stops_no_space _ key_sp _ S)).
    destruct (key_node _ _ _ _ _ _ _ [] R1 NR C (Ps_no_more _ _ _ P)) as (t & n & E & R2 & Q).
    destruct (Ps_rep _ _ _ [] P) as (m' & s' & t' & ns & j' & Es & N' & Es' & R3 & l & K & X1 & X2). rewrite Es in R2.
    pose proof (run_gap (PRule p_key) (p_rep (PRule p_part)) _ [] _ _ m' _ _ _ _ _ _ R2 N' R3) as R4.
    pose proof (RRule path_grammar true p_path _ _ _ _ _ _ R4) as R5. cbn [path_grammar fst wrap] in R5.
    match type of R5 with runs _ _ _ _ _ (Ok _ [Node _ ?t ?ns] _ _) => pose proof (path_fold t n _ _ _ Q K) as Qp end.
    pose proof (RSeq _ _ _ _ _ _ _ _ _ _ _ _ _ _ (alt_run _ _ (PRule p_root) _ _ _ _ _ _ R5) (gap_eoi j')) as R6.
    pose proof (RRule path_grammar true p_final_path _ _ _ _ _ _ R6) as R7. eexists _, _. split; [exact R7|].
    cbn [path_grammar fst wrap]. match goal with |- fold_path (Node _ ?t _) = _ => destruct (final_fold t _ j' _ _ Qp (or_introl eq_refl)) as (nf & -> & F) end.
    etransitivity; [exact F|]. unfold patho. destruct j' as [|j'].
    + rewrite (X1 eq_refl). destruct m; cbn [key_val plus]; [|reflexivity]. destruct oc as [cs|]; [|now destruct j].
      destruct j; [|reflexivity]. destruct ol as [l'|]; [|reflexivity]. f_equal. f_equal. exact (insert_last (SKey kt cs) l').
    + specialize (X2 ltac:(discriminate)). destruct (m + j) eqn:D; [lia|reflexivity].
  - pose proof (path_fail (gap (S j)) [] (or_introl (gap_spaces _))) as RF.
    pose proof (RRule path_grammar true p_root_key _ _ _ _ _ _ (run_lit true [] (gap (S j)) [])) as R1. cbn [path_grammar fst wrap app] in R1.
    assert (R2 : pruns true p_conds [] [] (Ok [] [] [] [])).
    { apply ROpt2. apply RSeq1; [|reflexivity]. apply RSeq1; [|reflexivity]. apply lit1_nil. }
    rewrite <- (app_nil_r (gap (S j))) in R1 at 2.
    pose proof (run_gap (PRule p_root_key) p_conds _ [] _ _ (S j) _ _ _ _ _ _ R1 ltac:(discriminate) R2) as R3.
    pose proof (RRule path_grammar true p_root _ _ _ _ _ _ R3) as R4. cbn [path_grammar fst wrap] in R4.
    assert (Qr : forall t, node_is p_root (Node p_root t ([Node p_root_key [] []] ++ repeat ws_node (S j) ++ [])) None).
    { intros t. apply (root_fold t (Node p_root_key [] []) _ None); [reflexivity..|]. rewrite app_nil_r. exact (kv_ws (S j)). }
    pose proof (RSeq _ _ _ _ _ _ _ _ _ _ _ _ _ _ (RAlt2 _ _ _ _ _ _ _ RF R4) (gap_eoi 0)) as R6.
    pose proof (RRule path_grammar true p_final_path _ _ _ _ _ _ R6) as R7. eexists _, _. split; [exact R7|].
    cbn [path_grammar fst wrap]. match goal with |- fold_path (Node _ ?t _) = _ => destruct (final_fold t _ 0 _ _ (Qr ([] ++ gap (S j) ++ [])) (or_intror eq_refl)) as (nf & -> & F) end.
    exact F.
  - assert (RF : pruns true (PRule p_path) s' [] Fail).
    { apply path_fail. destruct S as [->|[r ->]]; [left; intros c []|right]. eexists _, _. split; [reflexivity|]. cbn. auto. }
    assert (N : head s' <> Some SP) by (destruct S as [->|[r ->]]; discriminate).
    assert (Z : no_more (gap j)) by (exists j, []; rewrite app_nil_r; repeat split; discriminate).
    destruct (Cs_rep _ _ _ [] N C Z) as (t & ns & E & R2 & K).
    pose proof (RRule path_grammar true p_root_key _ _ _ _ _ _ (run_lit true [] s' [])) as R1. cbn [path_grammar fst wrap app] in R1.
    pose proof (run_gap (PRule p_root_key) p_conds _ [] _ _ 0 _ _ _ _ _ _ R1 N R2) as R3.
    pose proof (RRule path_grammar true p_root _ _ _ _ _ _ R3) as R4. cbn [path_grammar fst wrap repeat app] in R4.
    match type of R4 with runs _ _ _ _ _ (Ok _ [Node _ ?t _] _ _) => pose proof (root_fold t (Node p_root_key [] []) ns oc eq_refl eq_refl K) as Qr end.
    pose proof (RSeq _ _ _ _ _ _ _ _ _ _ _ _ _ _ (RAlt2 _ _ _ _ _ _ _ RF R4) (gap_eoi j)) as R6.
    pose proof (RRule path_grammar true p_final_path _ _ _ _ _ _ R6) as R7. eexists _, _. split; [exact R7|].
    cbn [path_grammar fst wrap]. match goal with |- fold_path (Node _ ?t _) = _ => destruct (final_fold t _ j _ _ Qr (or_intror eq_refl)) as (nf & -> & F) end.
    etransitivity; [exact F|]. destruct j, oc; reflexivity.
Qed.

Lemma opt_not_fail em a s k : ~ pruns em (POpt a) s k Fail.
Proof. intros H. inversion H; congruence. Qed.
Lemma star_not_fail em a s k : ~ pruns em (PStar a) s k Fail.
Proof. intros H. inversion H. Qed.
Lemma rule_fail em r s k : pruns em (PRule r) s k Fail -> pruns (emit_in (fst (path_grammar r)) em) (snd (path_grammar r)) s k Fail.
Proof. intros H. now inversion H; subst. Qed.
Lemma seq_fail em a b s k : pruns em (PSeq a b) s k Fail ->
  pruns em a s k Fail \/ exists t n s1 k1, pruns em a s k (Ok t n s1 k1) /\ pruns em b s1 k1 Fail.
Proof. intros H. inversion H; subst; [now left|right]. eauto 10. Qed.
Lemma pseq_opt_fail a b s k : pruns true (p_seq a (p_rep b)) s k Fail -> pruns true a s k Fail.
Proof.
  intros H. apply seq_fail in H as [H|(t & n & s1 & k1 & _ & H)]; [exact H|]. exfalso.
  apply seq_fail in H as [H|(t' & n' & s2 & k2 & _ & H)]; [exact (star_not_fail _ _ _ _ H)|exact (opt_not_fail _ _ _ _ H)].
Qed.
Lemma path_fail_inv s k : pruns true (PRule p_path) s k Fail -> spaces s \/ exists c r, s = c :: r /\ key_bad c.
Proof.
  intros H. apply rule_fail in H. cbn [path_grammar fst snd emit_in] in H. apply pseq_opt_fail in H.
  apply rule_fail in H. cbn [path_grammar fst snd emit_in] in H. apply pseq_opt_fail in H. exact (first_fail_inv _ _ H).
Qed.
Lemma Cs_first s o s2 : Cs s o s2 -> s = s2 \/ exists m r, s = gap m ++ chr "|" :: r.
Proof. intros [s0|m g f g1 g2 v m' r o' s0 F V C]; [now left|right]. eauto. Qed.
Lemma eoi_inv s k t n s2 k2 : pruns true (PEOI p_eoi) s k (Ok t n s2 k2) -> s = [].
Proof. intros H. now inversion H. Qed.

Lemma Full_inv s t n s2 k2 : pruns true (PRule p_final_path) s [] (Ok t n s2 k2) -> exists o, Full s o.
Proof.
  intros R. apply rule_inv in R as (ns & R & _). cbn [path_grammar fst snd emit_in] in R.
  apply pseq_gap in R as (t1 & n1 & j & r & k1 & t2 & n2 & R1 & _ & R2 & _ & _). apply eoi_inv in R2. subst r.
  rewrite app_nil_r in R1. apply alt_inv in R1 as [R|[RF R]].
  - apply rule_inv in R as (ns1 & R & _). cbn [path_grammar fst snd emit_in] in R.
    apply pseq_gap in R as (t3 & n3 & m & r & k3 & t4 & n4 & R3 & N & R4 & _ & _).
    apply pkey_inv in R3 as (-> & kt & m' & r' & o & -> & T & C).
    apply (Ps_rep_inv m) in R4 as (-> & [E|[o' P]]).
    + subst r. destruct j; [|now destruct N]. rewrite app_nil_r in C. eexists. exact (Full_path _ _ _ _ _ _ _ T C (Ps_nil (gap m))).
    + eexists. exact (Full_path _ _ _ _ _ _ _ T C P).
  - apply path_fail_inv in RF. apply rule_inv in R as (ns1 & R & _). cbn [path_grammar fst snd emit_in] in R.
    apply pseq_gap in R as (t3 & n3 & m & r & k3 & t4 & n4 & R3 & N & R4 & _ & _).
    apply rule_inv in R3 as (ns3 & R3 & _). cbn [path_grammar fst snd emit_in] in R3.
    assert (s = gap m ++ r) as -> by (inversion R3 as [? ? ? ? ? X| | | | | | | | | | | | | | | | | | | | | | | | | | | | | | | | | |]; subst; apply strip_app in X; exact X).
    apply Cs_rep_inv in R4 as (_ & o & C). destruct m as [|m].
    + cbn [repeat app] in *. destruct (RF) as [S|(c & r' & -> & B)].
      * assert (r = []) as -> by (destruct r as [|c r]; [reflexivity|]; exfalso; apply N; cbn; f_equal; apply S; now left).
        eexists. exact (Full_root [] _ _ (or_introl eq_refl) C).
      * eexists. refine (Full_root _ _ _ _ C). right. destruct (Cs_first _ _ _ C) as [E|([|m0] & r0 & E)].
        -- exfalso. destruct j; [discriminate|]. injection E as -> _. exact (key_sp B).
        -- rewrite E. now exists r0.
        -- exfalso. injection E as -> _. exact (key_sp B).
    + assert (S : spaces (gap (S m) ++ r)) by (destruct RF as [S|(c & r' & E & B)]; [exact S|]; injection E as <- _; destruct (key_sp B)).
      assert (r = []) as -> by (destruct r as [|c r]; [reflexivity|]; exfalso; apply N; cbn; f_equal; apply S; apply in_or_app; right; now left).
      rewrite app_nil_r. eexists. constructor.
Qed.

Lemma parse_full s r : parse_path_res s = r -> r <> CErr -> exists o, Full s o.
Proof.
  intros E N. destruct (path_decides s) as (x & X & NC & _ & F & _). destruct x as [t n s2 k2| |]; [|elim N; rewrite <- E; now apply F|contradiction].
  exact (Full_inv _ _ _ _ _ X).
Qed.
Lemma full_parse s o : Full s o -> parse_path_res s = match o with Some p => CVal p | None => CPanic end.
Proof.
  intros F. apply Full_run in F as (t & n & X & Hf). unfold parse_path_res.
  destruct (rule_total path_grammar p_nul p_rank 7 64 path_grammar_ok p_final_path s [] ltac:(lia)) as [x E].
  fold (path_fuel s) in E. rewrite E. apply eval_sound in E.
  rewrite (runs_det _ _ _ _ _ _ _ E X). rewrite Hf. now destruct o.
Qed.
Lemma parse_iff s o : parse_path_res s = match o with Some p => CVal p | None => CPanic end <-> Full s o.
Proof.
  split; [|apply full_parse]. intros E. destruct (parse_full s _ E ltac:(destruct o; discriminate)) as [o' F].
  pose proof (full_parse _ _ F) as E'. rewrite E in E'. destruct o, o'; try discriminate; [injection E' as ->|]; exact F.
Qed.
