(** Exactly which texts are paths: conditions, steps and paths. *)
From Coq Require Import ZArith.
From Verif Require Import Base Path Num Peg PegFacts PathGrammar Spec_Insert Spec_Path PathFacts Spec_Syntax PathExact.
Import ListNotations.

Notation fold_path := (fold_node path_act).

(** ---- values of the children ---- *)
(** [Some l]: all children have the values [l]; [None]: some child panics, and no child is an
    error. *)
Definition kv (ns : list (node prule)) (o : option (list (prule * pval))) : Prop :=
  match o with
  | Some l => Forall2 (fun n x => label n = fst x /\ fst x <> p_whitespace /\ fold_path n = CVal (snd x)) ns l
  | None => Forall (fun n => fold_path n <> CErr) ns /\ Exists (fun n => fold_path n = CPanic) ns
  end.
Definition oapp {X} (a b : option (list X)) : option (list X) :=
  match a, b with Some x, Some y => Some (x ++ y) | _, _ => None end.
Definition zero {X} (m : nat) : option (list X) := match m with 0 => Some [] | _ => None end.

Lemma kv_noerr ns o : kv ns o -> Forall (fun n => fold_path n <> CErr) ns.
Proof.
  destruct o as [l|]; [|now intros [H _]]. induction 1 as [|n x ns l (_ & _ & H) _ IH]; constructor; [congruence|exact IH].
Qed.
Lemma kv_app a b o1 o2 : kv a o1 -> kv b o2 -> kv (a ++ b) (oapp o1 o2).
Proof.
  intros A B. pose proof (kv_noerr _ _ A) as NA. pose proof (kv_noerr _ _ B) as NB.
  assert (N : Forall (fun n => fold_path n <> CErr) (a ++ b)) by (apply Forall_app; now split).
  destruct o1 as [l1|], o2 as [l2|]; cbn [oapp kv].
  - now apply Forall2_app.
  - split; [exact N|]. apply Exists_app. right. apply B.
  - split; [exact N|]. apply Exists_app. left. apply A.
  - split; [exact N|]. apply Exists_app. left. apply A.
Qed.
Lemma kv_ws m : kv (repeat ws_node m) (zero m).
Proof.
  destruct m as [|m]; [constructor|]. split; [|now left]. apply Forall_forall. intros n I. apply repeat_spec in I. subst n. discriminate.
Qed.
Lemma kv_nil : kv [] (Some []). Proof. constructor. Qed.
Lemma kv_one n r v : label n = r -> r <> p_whitespace -> fold_path n = CVal v -> kv [n] (Some [(r, v)]).
Proof. intros A B C. constructor; [auto|constructor]. Qed.
Lemma kv_bad n : fold_path n = CPanic -> kv [n] None.
Proof. intros H. split; [constructor; [congruence|constructor]|now left]. Qed.

Definition inner (r : prule) : bool :=
  match r with p_condition | p_key | p_part | p_path | p_root | p_final_path => true | _ => false end.
Lemma call_bad ns : Forall (fun n => fold_path n <> CErr) ns -> Exists (fun n => fold_path n = CPanic) ns ->
  call_ (map (fun c => (label c, fold_path c)) ns) = CPanic.
Proof.
  induction 1 as [|n ns N _ IH]; intros E; [inversion E|]. cbn. destruct (fold_path n) eqn:F; [|contradiction|reflexivity].
  inversion E as [? ? X|? ? X]; subst; [congruence|]. now rewrite IH.
Qed.
Lemma act_none r t ns : inner r = true -> kv ns None -> fold_path (Node r t ns) = CPanic.
Proof.
  intros I [N E]. cbn [fold_node]. destruct r; try discriminate; cbn [path_act];
    (destruct (has_ws _); [reflexivity|now rewrite (call_bad _ N E)]).
Qed.
Lemma kv_map ns l : kv ns (Some l) ->
  map (fun c => (label c, fold_path c)) ns = map (fun x => (fst x, CVal (snd x))) l /\
  has_ws (map (fun x => (fst x, @CVal pval (snd x))) l) = false /\
  call_ (map (fun x => (fst x, @CVal pval (snd x))) l) = CVal l.
Proof.
  induction 1 as [|n [r v] ns l (A & B & C) _ (IH1 & IH2 & IH3)]; [auto|]. cbn [map fst snd] in *.
  split; [now rewrite A, C, IH1|]. split; [|cbn; now rewrite IH3]. unfold has_ws in *. cbn. rewrite IH2.
  destruct r; try reflexivity. now destruct B.
Qed.
Lemma act_some r t ns l : kv ns (Some l) -> fold_path (Node r t ns) = path_act r t (map (fun x => (fst x, CVal (snd x))) l).
Proof. intros H. cbn [fold_node]. now rewrite (proj1 (kv_map _ _ H)). Qed.

(** ---- conditions ---- *)
Definition kcond (c : condition) : prule * pval := (p_condition, PVCond c).
Definition cond_e : pexp prule := p_seq (p_lit "|") (PRule p_condition).
Definition consn {X} (m : nat) (x : X) (o : option (list X)) : option (list X) :=
  match m, o with 0, Some l => Some (x :: l) | _, _ => None end.

(** [Cs s o s2]: conditions at the start of [s], [s2] is left. *)
Inductive Cs : str -> option (list condition) -> str -> Prop :=
| Cs_nil s : Cs s (Some []) s
| Cs_cons m g f g1 g2 v m' r o s2 :
    tok field_bad f g1 (chr "=" :: gap g2 ++ v ++ gap m' ++ r) -> tok value_bad v m' r -> Cs (gap m' ++ r) o s2 ->
    Cs (gap m ++ chr "|" :: gap g ++ f ++ gap g1 ++ chr "=" :: gap g2 ++ v ++ gap m' ++ r)
       (consn (m + g + g1 + g2) (mkC f v) o) s2.

Lemma tok_head bad t m r x : tok bad t m r -> head (t ++ x) <> Some SP.
Proof. intros (c & u & -> & C & _). cbn. congruence. Qed.

Lemma kv_gap3 g n o : kv [n] o -> kv (repeat ws_node g ++ [n]) (oapp (zero g) o).
Proof. intros H. apply kv_app; [apply kv_ws|exact H]. Qed.

Lemma cond_run g f g1 g2 v m' r k :
  tok field_bad f g1 (chr "=" :: gap g2 ++ v ++ gap m' ++ r) -> tok value_bad v m' r ->
  exists t ns, gap g ++ f ++ gap g1 ++ chr "=" :: gap g2 ++ v ++ gap m' ++ r = t ++ gap m' ++ r /\
    pruns true cond_e (chr "|" :: gap g ++ f ++ gap g1 ++ chr "=" :: gap g2 ++ v ++ gap m' ++ r) k
      (Ok (chr "|" :: t) ns (gap m' ++ r) k) /\
    kv ns (match g + g1 + g2 with 0 => Some [kcond (mkC f v)] | _ => None end).
Proof.
  intros F V. destruct (field_tok _ _ _ k F) as [n1 R1]. destruct (value_tok _ _ _ k V) as [n2 R2].
  pose proof (run_gap (p_lit "=") (PRule p_value) (chr "=" :: gap g2 ++ v ++ gap m' ++ r) k _ _ g2 _ _ _ _ _ _
    (lit1_ok true (chr "=") _ k) (tok_head _ _ _ _ _ V) R2) as R3.
  pose proof (run_gap (PRule p_field) _ _ k _ _ g1 _ _ _ _ _ _ R1 ltac:(discriminate) R3) as R4.
  pose proof (RRule path_grammar true p_condition _ _ _ _ _ _ R4) as R5.
  pose proof (run_gap (p_lit "|") (PRule p_condition) _ k _ _ g _ _ _ _ _ _
    (lit1_ok true (chr "|") _ k) (tok_head _ _ _ _ _ F) R5) as R6.
  eexists _, _. split; [|split; [exact R6|]].
  - rewrite <- ?app_assoc. cbn [app]. rewrite <- ?app_assoc. reflexivity.
  - cbn [path_grammar fst wrap app].
    match goal with |- kv (_ ++ [Node p_condition ?t ?ns]) _ => assert (K : kv ns (oapp (Some [(p_field, PVStr f)])
      (oapp (zero g1) (oapp (zero g2) (Some [(p_value, PVStr v)]))))) end.
    { apply (kv_app [_]); [now apply kv_one|]. apply kv_app; [apply kv_ws|]. apply kv_app; [apply kv_ws|]. now apply kv_one. }
    match goal with |- kv (_ ++ [?n]) _ => assert (K' : kv [n] (match g1 + g2 with 0 => Some [kcond (mkC f v)] | _ => None end)) end.
    { destruct g1; [destruct g2|]; cbn [plus].
      - apply kv_one; [reflexivity|discriminate|]. now rewrite (act_some _ _ _ _ K).
      - apply kv_bad. now apply act_none.
      - apply kv_bad. now apply act_none. }
    pose proof (kv_app _ _ _ _ (kv_ws g) K') as K2. destruct g; cbn in *; [|exact K2]. now destruct (g1 + g2).
Qed.
Lemma cond_inv s k t ns s2 k2 : pruns true cond_e s k (Ok t ns s2 k2) ->
  k2 = k /\ exists g f g1 g2 v m' r, s = chr "|" :: gap g ++ f ++ gap g1 ++ chr "=" :: gap g2 ++ v ++ gap m' ++ r /\
    s2 = gap m' ++ r /\ tok field_bad f g1 (chr "=" :: gap g2 ++ v ++ gap m' ++ r) /\ tok value_bad v m' r.
Proof.
  intros R. apply pseq_gap in R as (t1 & n1 & g & r0 & k1 & t2 & n2 & R1 & N1 & R2 & _ & _).
  apply lit_inv in R1 as (-> & _ & _ & ->). apply rule_inv in R2 as (ns' & R2 & _).
  apply pseq_gap in R2 as (t3 & n3 & g1 & r1 & k3 & t4 & n4 & R3 & N3 & R4 & _ & _).
  apply (field_inv _ _ _ _ _ _ N1) in R3 as (-> & m & rest & -> & E & F).
  assert (NR : head rest <> Some SP) by (destruct F as (? & ? & _ & _ & _ & _ & S); exact (stops_no_space _ field_sp _ S)).
  destruct (gap_inj _ _ _ _ E N3 NR) as [-> ->].
  apply pseq_gap in R4 as (t5 & n5 & g2 & r2 & k5 & t6 & n6 & R5 & N5 & R6 & _ & _).
  apply lit_inv in R5 as (-> & _ & _ & ->). apply (value_inv _ _ _ _ _ _ N5) in R6 as (-> & m' & r & -> & -> & V).
  split; [reflexivity|]. exists g, t3, m, g2, t6, m', r. auto.
Qed.

Definition no_more (s2 : str) : Prop := exists m r, s2 = gap m ++ r /\ head r <> Some SP /\ head r <> Some (chr "|").

Lemma consn_kv m c o : option_map (map kcond) (consn m c o) = oapp (match m with 0 => Some [kcond c] | _ => None end) (option_map (map kcond) o).
Proof. destruct m, o; reflexivity. Qed.

Lemma Cs_star s o s2 k : Cs s o s2 -> no_more s2 ->
  exists t ns, s = t ++ s2 /\ pruns true (PStar (PSeq p_skip cond_e)) s k (Ok t ns s2 k) /\ kv ns (option_map (map kcond) o).
Proof.
  intros H Z. induction H as [s|m g f g1 g2 v m' r o s2 F V _ IH].
  - destruct Z as (m & r & -> & A & B). exists [], []. split; [reflexivity|]. split; [|constructor].
    apply RStar0. eapply RSeq2; [now apply skip_run| |reflexivity]. apply RSeq1; [|reflexivity]. now apply run_lit_fail.
  - destruct (IH Z) as (t2 & ns2 & E & R & K). destruct (cond_run g f g1 g2 v m' r k F V) as (t1 & ns1 & E1 & R1 & K1).
    exists ((gap m ++ chr "|" :: t1) ++ t2), ((repeat ws_node m ++ ns1) ++ ns2). split; [|split].
    + rewrite E1, E. rewrite <- !app_assoc. reflexivity.
    + eapply RStar1; [|exact R]. eapply RSeq; [apply skip_run; discriminate|exact R1].
    + rewrite consn_kv. apply kv_app; [|exact K].
      pose proof (kv_app _ _ _ _ (kv_ws m) K1) as K2. destruct m; cbn in *; [|exact K2]. now destruct (g + g1 + g2).
Qed.

Lemma Cs_rep s o s2 k : head s <> Some SP -> Cs s o s2 -> no_more s2 ->
  exists t ns, s = t ++ s2 /\ pruns true p_conds s k (Ok t ns s2 k) /\ kv ns (option_map (map kcond) o).
Proof.
  intros N H Z. destruct H as [s|m g f g1 g2 v m' r o s2 F V H].
  - destruct Z as (m & r & -> & A & B). exists [], []. split; [reflexivity|]. split; [|constructor].
    apply ROpt2. apply RSeq1; [|reflexivity]. apply RSeq1; [|reflexivity]. apply run_lit_fail.
    destruct m; [exact B|discriminate].
  - destruct m; [|now destruct N]. destruct (Cs_star _ _ _ k H Z) as (t2 & ns2 & E & R & K).
    destruct (cond_run g f g1 g2 v m' r k F V) as (t1 & ns1 & E1 & R1 & K1).
    exists ((chr "|" :: t1) ++ t2), (ns1 ++ ns2). split; [|split].
    + cbn [repeat app]. rewrite E1, E. now rewrite <- !app_assoc.
    + apply ROpt1; [|discriminate]. eapply RSeq; [exact R1|exact R].
    + rewrite consn_kv. apply kv_app; [|exact K]. exact K1.
Qed.

Lemma Cs_star_inv s k t ns s2 k2 : pruns true (PStar (PSeq p_skip cond_e)) s k (Ok t ns s2 k2) ->
  k2 = k /\ exists o, Cs s o s2.
Proof.
  intros R. remember (PStar (PSeq p_skip cond_e)) as e eqn:Ee. remember (Ok t ns s2 k2) as x eqn:Ex. remember true as em eqn:Em.
  revert t ns s2 k2 Ex. induction R; intros t0 ns0 s20 k20 Ex; try discriminate; injection Ee as ->; subst em.
  - injection Ex as <- <- <- <-. split; [reflexivity|]. eexists. constructor.
  - injection Ex as <- <- <- <-. clear IHR1. destruct (IHR2 eq_refl eq_refl _ _ _ _ eq_refl) as (-> & o & H).
    apply seq_inv in R1 as (t3 & n3 & s3 & k3 & t4 & n4 & R3 & R4 & _ & _).
    apply skip_gap in R3 as (m & _ & _ & -> & _ & ->).
    apply cond_inv in R4 as (-> & g & f & g1 & g2 & v & m' & r & -> & -> & F & V). split; [reflexivity|].
    eexists. econstructor; eassumption.
Qed.
Lemma Cs_rep_inv s k t ns s2 k2 : pruns true p_conds s k (Ok t ns s2 k2) -> k2 = k /\ exists o, Cs s o s2.
Proof.
  intros R. inversion R; subst.
  - match goal with H : runs _ _ (PSeq _ _) _ _ _ |- _ => apply seq_inv in H as (t3 & n3 & s3 & k3 & t4 & n4 & R3 & R4 & _ & _) end.
    apply cond_inv in R3 as (-> & g & f & g1 & g2 & v & m' & r & -> & -> & F & V).
    apply Cs_star_inv in R4 as (-> & o & H). split; [reflexivity|]. eexists. exact (Cs_cons 0 _ _ _ _ _ _ _ _ _ F V H).
  - split; [reflexivity|]. eexists. constructor.
Qed.

(** ---- keys ---- *)
Definition key_val (k : str) (m : nat) (o : option (list condition)) : option path :=
  match m, o with 0, Some cs => Some (PKey k cs None) | _, _ => None end.
Definition node_is (r : prule) (n : node prule) (o : option path) : Prop :=
  label n = r /\ fold_path n = match o with Some p => CVal (PVPath p) | None => CPanic end.

Lemma conds_of_map cs : conds_of (map kcond cs) = Some cs.
Proof. induction cs as [|c cs IH]; [reflexivity|]. cbn. now rewrite IH. Qed.

Lemma key_node s kt ns1 m r o s2 k :
  pruns true (PRule p_pure_key) s k (Ok kt [Node p_pure_key kt ns1] (gap m ++ r) k) -> head r <> Some SP ->
  Cs r o s2 -> no_more s2 ->
  exists t n, r = t ++ s2 /\ pruns true (PRule p_key) s k (Ok (kt ++ gap m ++ t) [n] s2 k) /\ node_is p_key n (key_val kt m o).
Proof.
  intros R N C Z. destruct (Cs_rep _ _ _ k N C Z) as (t & ns & E & R2 & K).
  pose proof (run_gap (PRule p_pure_key) p_conds _ k _ _ m _ _ _ _ _ _ R N R2) as R3.
  pose proof (RRule path_grammar true p_key _ _ _ _ _ _ R3) as R4.
  exists t. eexists. split; [exact E|]. split; [exact R4|]. split; [reflexivity|].
  assert (K1 : kv ([Node p_pure_key kt ns1] ++ repeat ws_node m ++ ns) (oapp (Some [(p_pure_key, PVStr kt)]) (oapp (zero m) (option_map (map kcond) o)))).
  { apply kv_app; [now apply kv_one|]. apply kv_app; [apply kv_ws|exact K]. }
  destruct m; [destruct o as [cs|]|]; cbn [key_val].
  - rewrite (act_some _ _ _ _ K1). cbn [oapp zero option_map app map fst snd path_act].
    destruct (kv_map _ _ K) as (_ & H1 & H2). unfold has_ws in *. cbn [existsb fst orb]. cbn [app map fst snd] in H1. rewrite H1.
    cbn [call_ cbind]. rewrite H2. cbn [cbind]. now rewrite conds_of_map.
  - now apply act_none.
  - now apply act_none.
Qed.
Lemma pkey_inv s k t ns s2 k2 : pruns true (PRule p_key) s k (Ok t ns s2 k2) ->
  k2 = k /\ exists kt m r o, s = kt ++ gap m ++ r /\ ftok kt m r /\ Cs r o s2.
Proof.
  intros R. apply rule_inv in R as (ns' & R & _). apply pseq_gap in R as (t1 & n1 & m & r & k1 & t2 & n2 & R1 & N & R2 & _ & _).
  apply first_inv in R1 as (-> & m' & r' & -> & E & T).
  assert (NR : head r' <> Some SP) by (destruct T as (? & ? & ? & _ & _ & _ & _ & _ & S); exact (stops_no_space _ key_sp _ S)).
  destruct (gap_inj _ _ _ _ E N NR) as [-> ->]. apply Cs_rep_inv in R2 as (-> & o & C). split; [reflexivity|].
  exists t1, m', r', o. auto.
Qed.
Lemma ftok_tok t m r : ftok t m r -> head (t ++ gap m ++ r) <> Some SP -> tok key_bad t m r.
Proof.
  intros ([|n] & c & u & -> & A & B & C & D & E) N; [|now destruct N]. exists c, u. repeat split; auto. intros x [<- | X]; auto.
Qed.
Lemma tok_ftok t m r : tok key_bad t m r -> ftok t m r.
Proof.
  intros (c & u & -> & A & B & C & D). exists 0, c, u. repeat split; auto; [intros _; apply B; now left|].
  intros x X. apply B. now right.
Qed.
