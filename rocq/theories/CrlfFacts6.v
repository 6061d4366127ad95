(** CRLF: a text and its CR LF form are read alike. *)
From Coq Require Import ZArith.
From Verif Require Import Base Ast Strings Format Num Peg PegFacts PegTree YamlGrammar Consume YamlTree YamlValues ParseFacts Spec_Crlf CrlfFacts CrlfFacts2 CrlfFacts3 CrlfFacts4 CrlfFacts5.
Import ListNotations.

Section Whole.
  Context (ut : unitab).
  Notation G := (yaml_grammar ut).

  Definition labelled (n : node yrule) : Prop := needed (label n) || special (label n) = true.
  Lemma labels em e s k x : runs G em e s k x -> closed e = true -> eoi_only y_end e = true ->
    match x with Ok _ ns _ _ => Forall labelled ns | _ => True end.
  Proof.
    induction 1; cbn [closed eoi_only]; intros C E; try exact I; try (constructor; fail);
      try (apply andb_prop in C as [C1 C2]; apply andb_prop in E as [E1 E2]);
      try solve [auto]; try (match goal with H : _ -> _ -> _ |- _ => solve [exact (H ltac:(assumption) ltac:(assumption))] end); try solve [apply Forall_app; split; auto];
      try solve [match goal with H : is_ok ?r = false |- _ => destruct r; try discriminate; exact I end];
      try solve [destruct r; first [exact I|constructor]].
    - destruct em; [|constructor]. constructor; [|constructor]. destruct r; try discriminate E. reflexivity.
    - destruct (special r) eqn:S.
      + destruct r; try discriminate S; cbn [yaml_grammar fst wrap]; destruct em; repeat constructor.
      + rewrite orb_false_r in C. pose proof (grammar_fine ut r C) as F. apply andb_prop in F as [_ F].
        specialize (IHruns F (y_eoi_only ut r)). unfold wrap. destruct (fst (G r)); [|assumption|];
        (destruct em; [|constructor]); constructor; try constructor; unfold labelled; cbn [label]; now rewrite C.
  Qed.

  (** Expressions that match no line break. *)
  Fixpoint nonl (n : nat) (e : yexp) : bool :=
    match n with
    | 0 => false
    | S n =>
        match e with
        | PStr p => unbroken p
        | PClass f => negb (f NL)
        | PSeq a b =>
            match a, b with
            | PNot x, PClass f => stops ut x || negb (f NL)
            | _, _ => nonl n a && nonl n b
            end
        | PAlt a b => nonl n a && nonl n b
        | POpt a | PStar a => nonl n a
        | PNot a | PAnd a => true
        | PRule r => nonl n (snd (G r))
        | _ => false
        end
    end.
  Lemma nonl_runs em e s k x : runs G em e s k x -> forall n, nonl n e = true ->
    match x with Ok t _ _ _ => ~ In NL t | _ => True end.
  Proof.
    induction 1; intros [|m] F; try discriminate F; try exact I; cbn [nonl] in F.
    - now apply unbroken_flat.
    - intros [-> |[]]. rewrite H in F. discriminate.
    - assert (D : (exists x f, a = PNot x /\ b = PClass f /\ stops ut x = true) \/ (nonl m a = true /\ nonl m b = true) \/ (exists x f, a = PNot x /\ b = PClass f /\ negb (f NL) = true)).
      { destruct a; try (right; left; apply andb_prop; exact F). destruct b; try (right; left; apply andb_prop; exact F).
        apply orb_prop in F as [F|F]; [left|right; right]; eauto. }
      destruct D as [(x & f & -> & -> & D)|[[D1 D2]|(x & f & -> & -> & D)]].
      + apply not_ok_inv in H as Hn. destruct Hn as (-> & -> & -> & -> & _). inversion H0; subst. cbn [app].
        intros [-> |[]]. exact (not_nl_stop ut x em _ _ NL D (or_introl eq_refl) _ _ _ _ H).
      + intros X. apply in_app_or in X as [X|X]; [exact (IHruns1 m D1 X)|exact (IHruns2 m D2 X)].
      + apply not_ok_inv in H as (-> & -> & -> & -> & _). inversion H0; subst. cbn [app].
        intros [-> |[]]. match goal with H : f NL = true |- _ => rewrite H in D end. discriminate.
    - destruct r; try discriminate; exact I.
    - destruct r; try discriminate; exact I.
    - apply andb_prop in F as [F1 F2]. exact (IHruns m F1).
    - apply andb_prop in F as [F1 F2]. exact (IHruns2 m F2).
    - exact (IHruns m F).
    - intros [].
    - intros [].
    - intros X. apply in_app_or in X as [X|X]; [exact (IHruns1 m F X)|exact (IHruns2 (S m) F X)].
    - destruct r; try exact I. intros [].
    - destruct r; try exact I. intros [].
    - exact (IHruns m F).
    - destruct x; try discriminate; exact I.
  Qed.
  Lemma texty_flat r : texty r = true -> nonl 20 (snd (G r)) = true.
  Proof. destruct r; intros H; try discriminate H; vm_compute; reflexivity. Qed.

  Lemma tree_labels r txt ch : tree G y_end (Node r txt ch) -> needed r = true -> Forall labelled ch.
  Proof.
    intros T Hr. inversion T; subst; [|constructor].
    pose proof (grammar_fine ut r Hr) as F. apply andb_prop in F as [_ F].
    match goal with H : runs _ _ _ _ _ _ |- _ => exact (labels _ _ _ _ _ H F (y_eoi_only ut r)) end.
  Qed.
  Lemma tree_text r txt ch : tree G y_end (Node r txt ch) -> texty r = true -> ~ In NL txt.
  Proof.
    intros T Hr. inversion T; subst; [|intros []].
    match goal with H : runs _ _ _ _ _ _ |- _ => exact (nonl_runs _ _ _ _ _ H _ (texty_flat r Hr)) end.
  Qed.
  Lemma tree_children r txt ch : tree G y_end (Node r txt ch) -> Forall (tree G y_end) ch.
  Proof. intros T. inversion T; subst; [assumption|constructor]. Qed.

  Definition crel (p p' : yrule * cres yval) : Prop := fst p' = fst p /\ rel (fst p) (snd p) (snd p').
  Lemma call_rel l l' : Forall2 crel l l' ->
    match call_ l, call_ l' with
    | CVal v, CVal v' => Forall2 valrel v v'
    | CErr, CErr => True
    | CPanic, CPanic => True
    | _, _ => False
    end.
  Proof.
    induction 1 as [|[q c] [q' c'] l l' [E R] _ IH]; [constructor|]. cbn [fst snd] in *. subst q'. cbn [call_].
    destruct c, c'; cbn [rel cbind] in *; try contradiction; try exact I.
    destruct (call_ l), (call_ l'); cbn [cbind]; try contradiction; try exact I. constructor; [now split|assumption].
  Qed.

  Lemma rel_refl r c : special r = true -> rel r c c.
  Proof. destruct r; try discriminate; intros _; destruct c; cbn; trivial. Qed.

  Lemma alike_consume n : forall n', tree G y_end n -> labelled n -> alike SP n n' -> rel (label n) (consume n) (consume n').
  Proof.
    induction n as [r txt ch IH] using node_ind'. intros [r' t' ch'] T L A. cbn [label].
    cbn [alike] in A. destruct A as (-> & -> & A). unfold labelled in L. cbn [label] in L.
    destruct (special r) eqn:S.
    - destruct A as [-> |(y & y' & E1 & E2 & E)].
      + assert (X : consume (Node r (crlf txt) ch) = consume (Node r txt ch)) by (destruct r; try discriminate S; reflexivity).
        rewrite X. now apply rel_refl.
      + rewrite E1, E2. cbn [rel]. apply VR_of_blur; [destruct r; try discriminate S; reflexivity|]. cbn [blur_v]. now rewrite E.
    - rewrite orb_false_r in L.
      assert (C : Forall2 crel (map (fun c => (label c, fold_node yaml_act c)) ch) (map (fun c => (label c, fold_node yaml_act c)) ch')).
      { pose proof (tree_children _ _ _ T) as Tc. pose proof (tree_labels _ _ _ T L) as Lc. clear T. revert ch' A.
        induction ch as [|c ch IHc]; intros [|c' ch'] A; try (cbn in A; tauto); [constructor|].
        inversion IH; subst. inversion Tc; subst. inversion Lc; subst. destruct A as [A1 A2].
        constructor; [|now apply IHc]. split; [destruct c, c'; cbn [alike] in A1; cbn; apply A1|]. cbn [fst snd].
        match goal with H : forall n', _ -> _ -> _ -> _ |- _ => apply H; assumption end. }
      change (consume (Node r txt ch)) with (cbind (call_ (map (fun c => (label c, fold_node yaml_act c)) ch)) (yact r txt)).
      change (consume (Node r (crlf txt) ch')) with (cbind (call_ (map (fun c => (label c, fold_node yaml_act c)) ch')) (yact r (crlf txt))).
      apply call_rel in C. destruct (call_ _) as [v| |]; destruct (call_ _) as [v'| |]; try contradiction; try exact I.
      cbn [cbind]. apply step_rel; [exact L|reflexivity| |exact C].
      intros Ht. apply crlf_flat. now apply (tree_text _ _ _ T).
  Qed.

  Theorem crlf_alike s : no_cr s -> no_continuation s ->
    match parse_yaml ut s with
    | CVal d => exists d', parse_yaml ut (crlf s) = CVal d' /\ blur_doc d' = blur_doc d
    | CErr => parse_yaml ut (crlf s) = CErr
    | CPanic => parse_yaml ut (crlf s) = CPanic
    end.
  Proof.
    intros N C. destruct (yaml_total ut s) as (x & E & R). destruct (yaml_total ut (crlf s)) as (x' & E' & R').
    assert (S : sim ut SP true (PRule y_yaml) s [] x).
    { revert E. generalize (yaml_fuel s). intros f E.
      apply (simulates ut SP (quoted ut) f); [exact E|now split|intros z []|reflexivity|reflexivity]. }
    destruct S as (x2 & R2 & A & _). rewrite (runs_det _ _ _ _ _ _ _ R2 R') in A. clear x2 R2.
    unfold parse_yaml. revert E E'. generalize (yaml_fuel s) (yaml_fuel (crlf s)). intros f f' E E'. rewrite E, E'. clear E E'.
    destruct x as [t ns rest k| |], x' as [t' ns' rest' k'| |]; try (cbn [alike_res] in A; tauto); try reflexivity.
    destruct A as (-> & An & -> & ->).
    pose proof (runs_trees G y_end (y_eoi_only ut) _ _ _ _ _ R eq_refl _ _ _ _ eq_refl) as [T _].
    destruct (yaml_accepted ut _ _ _ _ _ R) as (n & -> & Ln & _).
    destruct (yaml_accepted ut _ _ _ _ _ R') as (n' & -> & Ln' & _).
    destruct An as [An _]. inversion T; subst.
    assert (L : labelled n) by (unfold labelled; now rewrite Ln).
    match goal with H : tree _ _ n |- _ => pose proof (alike_consume n n' H L An) as V end. rewrite Ln in V.
    destruct (consume n) as [v| |], (consume n') as [v'| |]; cbn [rel] in V; try contradiction; try reflexivity.
    cbn [VR] in V. destruct v; destruct v'; try discriminate V; try reflexivity.
    eexists. split; [reflexivity|]. cbn [blur_v] in V.
    assert (X : forall a b, VDoc a = VDoc b -> a = b) by (intros a b Z; now inversion Z). now apply X.
  Qed.
End Whole.

Lemma squeeze_filled ls : forallb filled ls = true -> squeeze ls = ls.
Proof.
  induction ls as [|l ls IH]; [reflexivity|]. cbn [forallb]. intros H. apply andb_prop in H as [H1 H2].
  cbn [squeeze fold_right]. fold (squeeze ls). rewrite IH by assumption. destruct l; [discriminate|reflexivity].
Qed.
Lemma squeeze_inv ls : forallb filled (squeeze ls) = true -> squeeze ls = ls.
Proof.
  induction ls as [|l ls IH]; [reflexivity|]. cbn [squeeze fold_right]. fold (squeeze ls). destruct l as [|c l].
  - destruct (squeeze ls) as [|[|]]; intros H; discriminate H.
  - cbn [onto forallb]. intros H. apply andb_prop in H as [_ H]. now rewrite IH.
Qed.
Lemma squeeze_same ls ls' : forallb filled ls = true -> squeeze ls' = squeeze ls -> ls' = ls.
Proof.
  intros F E. rewrite (squeeze_filled _ F) in E. rewrite <- E. symmetry. apply squeeze_inv. now rewrite E.
Qed.

Lemma crisp_blur y : forall y', crisp y = true -> blur y' = blur y -> y' = y.
Proof.
  induction y as [l IH|l IH|l IH|l IH|ps|ps|s|ls ch|ls ch|s] using yaml_ind'; intros y' C E;
    (destruct y' as [l'|l'|l'|l'|ps'|ps'|s'|ls' ch'|ls' ch'|s'];
     try (cbn [blur] in E; repeat match goal with H : context [if ?b then _ else _] |- _ => destruct b end; discriminate E)).
  - f_equal. cbn [blur crisp] in *. assert (M : forall X, InlineHash X = InlineHash (map (fun kv => match kv with (k, v) => (k, blur v) end) l) -> X = map (fun kv => match kv with (k, v) => (k, blur v) end) l) by (intros X Z; now inversion Z).
    apply M in E. clear M. revert l' E. induction IH as [|[k v] l H _ IH]; intros [|[k' v'] l'] E; try discriminate E; [reflexivity|].
    cbn [map forallb] in *. apply andb_prop in C as [C1 C2]. inversion E as [[E1 E2 E3]]. f_equal; [f_equal; now apply H|now apply IH].
  - rewrite !blur_hash in E. cbn [crisp] in C. f_equal. inversion E as [E0]. clear E. revert l' E0.
    induction IH as [|d l H _ IH]; intros [|d' l'] E; try discriminate E; [reflexivity|].
    cbn [map forallb] in *. apply andb_prop in C as [C1 C2]. inversion E as [[E1 E2]]. f_equal; [|now apply IH].
    destruct d as [c|c|[k [a y]]], d' as [c'|c'|[k' [a' y']]]; try discriminate E1; inversion E1; subst; try reflexivity.
    do 3 f_equal. now apply H.
  - f_equal. cbn [blur crisp] in *. inversion E as [E0]. clear E. revert l' E0.
    induction IH as [|v l H _ IH]; intros [|v' l'] E; try discriminate E; [reflexivity|].
    cbn [map forallb] in *. apply andb_prop in C as [C1 C2]. inversion E as [[E1 E2]]. f_equal; [now apply H|now apply IH].
  - rewrite !blur_array in E. cbn [crisp] in C. f_equal. inversion E as [E0]. clear E. revert l' E0.
    induction IH as [|d l H _ IH]; intros [|d' l'] E; try discriminate E; [reflexivity|].
    cbn [map forallb] in *. apply andb_prop in C as [C1 C2]. inversion E as [[E1 E2]]. f_equal; [|now apply IH].
    destruct d as [c|c|[a y]], d' as [c'|c'|[a' y']]; try discriminate E1; inversion E1; subst; try reflexivity.
    do 2 f_equal. now apply H.
  - cbn [blur crisp] in *. apply negb_true_iff in C. rewrite C in E. destruct (existsb sq_break ps'); [|assumption].
    exfalso. inversion E; subst. cbn in C. discriminate.
  - cbn [blur crisp] in *. apply negb_true_iff in C. rewrite C in E. destruct (existsb dq_break ps'); [|assumption].
    exfalso. inversion E; subst. cbn in C. discriminate.
  - exact E.
  - cbn [blur crisp] in *. inversion E. f_equal. now apply squeeze_same.
  - cbn [blur crisp] in *. inversion E. f_equal. now apply squeeze_same.
  - exact E.
Qed.
Lemma crisp_doc_blur d d' : crisp_doc d = true -> blur_doc d' = blur_doc d -> d' = d.
Proof.
  destruct d as [b l], d' as [b' l']. unfold crisp_doc, blur_doc. cbn [leading items]. intros C E. inversion E as [[E1 E2]]. f_equal. clear E E1.
  revert l' E2. induction l as [|i l IH]; intros [|i' l'] E; try discriminate E; [reflexivity|].
  cbn [map forallb] in *. apply andb_prop in C as [C1 C2]. inversion E as [[E1 E2]]. f_equal; [|now apply IH].
  destruct i, i'; try discriminate E1; inversion E1; subst; try reflexivity. f_equal. now apply crisp_blur.
Qed.
Theorem crlf_same ut s d : no_cr s -> no_continuation s -> parse_yaml ut s = CVal d -> crisp_doc d = true ->
  parse_yaml ut (crlf s) = CVal d.
Proof.
  intros N C E K. pose proof (crlf_alike ut s N C) as H. rewrite E in H. destruct H as (d' & H & B).
  now rewrite <- (crisp_doc_blur _ _ K B).
Qed.

Lemma crlf_format ut s d d' : no_cr s -> no_continuation s -> parse_yaml ut s = CVal d -> crisp_doc d = true ->
  parse_yaml ut (crlf s) = CVal d' -> format_doc d' = format_doc d.
Proof. intros N C P K P'. rewrite (crlf_same ut s d N C P K) in P'. now inversion P'. Qed.

(** ---- examples ---- *)
Lemma no_cr_check s : existsb (ceqb CR) s = false -> ~ In CR s.
Proof.
  intros H X. apply in_split in X as (a & b & ->). rewrite existsb_app in H. cbn [existsb] in H. rewrite ceqb_refl in H.
  cbn [orb] in H. rewrite orb_true_r in H. discriminate.
Qed.
Fixpoint no_split (s : str) : bool :=
  match s with a :: s' => negb (ceqb a BACKSLASH && match s' with b :: _ => ceqb b NL | [] => false end) && no_split s' | [] => true end.
Lemma no_continuation_check s : no_split s = true -> no_continuation s.
Proof.
  intros H a b E. exfalso. revert s H E. induction a as [|x a IH]; intros s H ->.
  - cbn in H. discriminate.
  - cbn [app no_split] in H. apply andb_prop in H as [_ H]. exact (IH _ H eq_refl).
Qed.
