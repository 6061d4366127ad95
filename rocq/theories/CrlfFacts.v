(** CRLF: the grammar runs alike on a text and on the text with CR LF line endings. *)
From Verif Require Import Base Peg PegFacts YamlGrammar YamlTree Spec_Crlf.
Import ListNotations.

Definition no_cr (s : str) : Prop := ~ In CR s.
Definition flat (s : str) : Prop := ~ In CR s /\ ~ In NL s.
(** What stays true of the rest of the text. *)
Definition plainly (s : str) : Prop := no_cr s /\ no_continuation s.

Lemma crlf_app a b : crlf (a ++ b) = crlf a ++ crlf b.
Proof. apply flat_map_app. Qed.
Lemma crlf_cons c s : c <> NL -> crlf (c :: s) = c :: crlf s.
Proof. intros H. unfold crlf. cbn [flat_map]. apply ceqb_neq in H. now rewrite H. Qed.
Lemma crlf_nl s : crlf (NL :: s) = CR :: NL :: crlf s.
Proof. reflexivity. Qed.
Lemma crlf_flat s : ~ In NL s -> crlf s = s.
Proof.
  induction s as [|c s IH]; intros H; [reflexivity|]. rewrite crlf_cons; [|intros ->; apply H; now left].
  f_equal. apply IH. intros X. apply H. now right.
Qed.
Lemma crlf_nil s : crlf s = [] -> s = [].
Proof. destruct s as [|c s]; [reflexivity|]. unfold crlf. cbn [flat_map]. destruct (ceqb c NL); discriminate. Qed.

Lemma plainly_suffix a b : plainly (a ++ b) -> plainly b.
Proof.
  intros [H1 H2]. split; [intros X; apply H1, in_or_app; now right|].
  intros p q E X. apply (H2 (a ++ p) q); [rewrite E; now rewrite app_assoc|]. apply in_or_app. now right.
Qed.

Lemma strip_crlf p : forall s, flat p -> no_cr s -> strip p (crlf s) = option_map crlf (strip p s).
Proof.
  induction p as [|a p IH]; intros s F N; [reflexivity|].
  destruct F as [F1 F2].
  destruct s as [|c s]; [reflexivity|]. destruct (ceqb c NL) eqn:E.
  - apply ceqb_eq in E as ->. rewrite crlf_nl. cbn [strip].
    replace (ceqb a CR) with false by (symmetry; apply ceqb_neq; intros ->; apply F1; now left).
    replace (ceqb a NL) with false by (symmetry; apply ceqb_neq; intros ->; apply F2; now left). reflexivity.
  - apply ceqb_neq in E. rewrite crlf_cons by assumption. cbn [strip]. destruct (ceqb a c); [|reflexivity].
    apply IH; [split; intros X; [apply F1|apply F2]; now right|intros X; apply N; now right].
Qed.

Section Sim.
  Variable ut : unitab.
  Local Notation G := (yaml_grammar ut).
  (** How the nodes of the two quoted scalars differ. *)
  Variable SP : yrule -> str -> list (node yrule) -> list (node yrule) -> Prop.
  Definition special (r : yrule) : bool := match r with y_double_quoted | y_single_quoted => true | _ => false end.

  (** Same rule, text with the other line endings, alike children. *)
  Fixpoint alike (n n' : node yrule) {struct n} : Prop :=
    match n, n' with
    | Node r t ch, Node r' t' ch' =>
        r' = r /\ t' = crlf t /\
        if special r then SP r t ch ch'
        else (fix all (l l' : list (node yrule)) : Prop :=
                match l, l' with
                | [], [] => True
                | x :: l, x' :: l' => alike x x' /\ all l l'
                | _, _ => False
                end) ch ch'
    end.
  Fixpoint all_alike (l l' : list (node yrule)) : Prop :=
    match l, l' with
    | [], [] => True
    | x :: l, x' :: l' => alike x x' /\ all_alike l l'
    | _, _ => False
    end.
  Lemma alike_node r t ch t' ch' : special r = false -> t' = crlf t -> all_alike ch ch' -> alike (Node r t ch) (Node r t' ch').
  Proof.
    intros H1 H2 H3. cbn [alike]. rewrite H1. split; [reflexivity|]. split; [assumption|].
    exact H3.
  Qed.
  Lemma all_alike_app a : forall a' b b', all_alike a a' -> all_alike b b' -> all_alike (a ++ b) (a' ++ b').
  Proof. induction a as [|x a IH]; intros [|x' a'] b b'; cbn [all_alike app]; intros H; try tauto. intros H2. split; [tauto|]. apply IH; tauto. Qed.

  Definition alike_res (x x' : res yrule) : Prop :=
    match x, x' with
    | Ok t ns s k, Ok t' ns' s' k' => t' = crlf t /\ all_alike ns ns' /\ s' = crlf s /\ k' = k
    | Fail, Fail => True
    | Crash, Crash => True
    | _, _ => False
    end.

  Definition is_nl (e : yexp) : bool :=
    match e with
    | PAlt (PStr [a]) (PAlt (PStr [b; c]) (PStr [d])) => ceqb a NL && ceqb b CR && ceqb c NL && ceqb d CR
    | _ => false
    end.
  Definition unbroken (p : str) : bool := forallb (fun c => negb (ceqb c NL) && negb (ceqb c CR)) p.
  (** Texts without line breaks. *)
  Fixpoint flat_exp (e : yexp) : bool :=
    match e with
    | PStr p => unbroken p
    | PClass f => negb (f NL) && negb (f CR)
    | PStar a => flat_exp a
    | _ => false
    end.
  (** At a line break: succeeds, fails, or unknown. *)
  Fixpoint at_nl (n : nat) (e : yexp) : option bool :=
    match n with
    | 0 => None
    | S n =>
        if is_nl e then Some true else
        match e with
        | PStr (c :: _) => if ceqb c NL || ceqb c CR then None else Some false
        | PAlt a b => match at_nl n a with Some false => at_nl n b | x => x end
        | PRule r => at_nl n (snd (G r))
        | _ => None
        end
    end.
  Definition stops (e : yexp) : bool := match at_nl 20 e with Some true => true | _ => false end.
  Fixpoint fine (e : yexp) : bool :=
    match e with
    | PStr p => unbroken p
    | PClass f => negb (f NL) && negb (f CR)
    | PSeq a b =>
        match a, b with
        | PNot x, PClass f => fine x && (stops x || negb (f NL) && negb (f CR))
        | _, _ => fine a && fine b
        end
    | PAlt a b => is_nl e || fine a && fine b
    | POpt a | PStar a | PNot a | PAnd a => fine a
    | PPush a => fine a && flat_exp a
    | _ => true
    end.
  Definition needed (r : yrule) : bool :=
    match r with
    | y_esc_value | y_esc_char | y_dq_text | y_dq_part | y_dq_content | y_double_quoted
    | y_blank_lines | y_removable_newline
    | y_sq_text | y_sq_part | y_sq_content | y_single_quoted => false
    | _ => true
    end.
  Fixpoint closed (e : yexp) : bool :=
    match e with
    | PSeq a b | PAlt a b => closed a && closed b
    | POpt a | PStar a | PNot a | PAnd a | PPush a => closed a
    | PRule r => needed r || special r
    | PEOI r => negb (special r)
    | _ => true
    end.
  Lemma grammar_fine r : needed r = true -> fine (snd (G r)) && closed (snd (G r)) = true.
  Proof. destruct r; intros H; try discriminate H; vm_compute; reflexivity. Qed.

  Lemma unbroken_flat p : unbroken p = true -> flat p.
  Proof.
    unfold unbroken. rewrite forallb_forall. intros H. split; intros X; apply H in X; rewrite !ceqb_refl in X;
      apply andb_prop in X as [X1 X2]; discriminate.
  Qed.
  Lemma is_nl_is e : is_nl e = true -> e = y_nl.
  Proof.
    destruct e as [| | |a b| | | | | | | | | | |]; try discriminate. cbn [is_nl].
    destruct a as [[|x [|]]| | | | | | | | | | | | | |]; try discriminate.
    destruct b as [| | |c d| | | | | | | | | | |]; try discriminate.
    destruct c as [[|y [|z [|]]]| | | | | | | | | | | | | |]; try discriminate.
    destruct d as [[|w [|]]| | | | | | | | | | | | | |]; try discriminate.
    rewrite !andb_true_iff, !ceqb_eq. intros [[[-> ->] ->] ->]. reflexivity.
  Qed.

  Lemma nl_sim em s k x : no_cr s -> runs G em y_nl s k x -> exists x', runs G em y_nl (crlf s) k x' /\ alike_res x x' /\ match x with Ok _ _ _ k' => k' = k | _ => True end.
  Proof.
    intros N H. destruct s as [|c s].
    - exists Fail. assert (F : runs G em y_nl [] k Fail) by (repeat (apply RAlt2; [now constructor|]); now constructor).
      split; [exact F|]. rewrite (runs_det _ _ _ _ _ _ _ H F). now split.
    - destruct (ceqb c NL) eqn:E.
      + apply ceqb_eq in E as ->. rewrite crlf_nl. exists (Ok [CR; NL] [] (crlf s) k). split.
        * apply RAlt2; [now constructor|]. apply RAlt1; [|discriminate]. now constructor.
        * assert (F : runs G em y_nl (NL :: s) k (Ok [NL] [] s k)) by (apply RAlt1; [now constructor|discriminate]).
          rewrite (runs_det _ _ _ _ _ _ _ H F). repeat split.
      + apply ceqb_neq in E. rewrite crlf_cons by assumption. exists Fail.
        assert (F : forall s, runs G em y_nl (c :: s) k Fail).
        { assert (c <> CR) by (intros ->; apply N; now left).
          intros u. repeat apply RAlt2; constructor; cbn [strip]; rewrite ceqb_sym.
          - apply ceqb_neq in E. now rewrite E.
          - apply ceqb_neq in H0. now rewrite H0.
          - apply ceqb_neq in H0. now rewrite H0. }
        split; [apply F|]. rewrite (runs_det _ _ _ _ _ _ _ H (F s)). now split.
  Qed.

  Lemma at_nl_runs n : forall e b em c s k, at_nl n e = Some b -> c = NL \/ c = CR ->
    if b then exists t ns rest k', runs G em e (c :: s) k (Ok t ns rest k') else runs G em e (c :: s) k Fail.
  Proof.
    induction n as [|n IH]; intros e b em c s k H C; [discriminate|]. cbn [at_nl] in H.
    destruct (is_nl e) eqn:E.
    - inversion H; subst b. apply is_nl_is in E as ->. destruct C as [-> | ->].
      + do 4 eexists. apply RAlt1; [now constructor|discriminate].
      + destruct s as [|d s].
        * do 4 eexists. apply RAlt2; [now constructor|]. apply RAlt2; [now constructor|]. now constructor.
        * destruct (ceqb d NL) eqn:E.
          -- apply ceqb_eq in E as ->. do 4 eexists. apply RAlt2; [now constructor|]. apply RAlt1; [now constructor|discriminate].
          -- do 4 eexists. apply RAlt2; [now constructor|]. apply RAlt2; [|now constructor].
             constructor. cbn [strip]. rewrite ceqb_refl. rewrite ceqb_sym. now rewrite E.
    - destruct e as [p| | |a d| | | | | | | | | | |r]; try discriminate.
      + destruct p as [|x p]; [discriminate|]. destruct (ceqb x NL || ceqb x CR) eqn:E2; [discriminate|].
        inversion H; subst b. apply orb_false_iff in E2 as [E2 E3]. constructor. cbn [strip].
        destruct C as [-> | ->]; now rewrite ?E2, ?E3.
      + destruct (at_nl n a) as [[|]|] eqn:A; [| |discriminate].
        * inversion H; subst b. destruct (IH a true em c s k A C) as (t & ns & rest & k' & R).
          do 4 eexists. apply RAlt1; [exact R|discriminate].
        * pose proof (IH a false em c s k A C) as R. pose proof (IH d b em c s k H C) as R2. destruct b.
          -- destruct R2 as (t & ns & rest & k' & R2). do 4 eexists. apply RAlt2; eassumption.
          -- now apply RAlt2.
      + pose proof (IH _ b (emit_in (fst (G r)) em) c s k H C) as R. destruct b.
        * destruct R as (t & ns & rest & k' & R). do 4 eexists. apply RRule. exact R.
        * apply RRuleF; [exact R|reflexivity].
  Qed.

  Lemma flat_runs em e s k x : runs G em e s k x -> flat_exp e = true ->
    match x with Ok t _ _ _ => flat t | _ => True end.
  Proof.
    induction 1; cbn [flat_exp]; intros F; try discriminate F; try exact I.
    - now apply unbroken_flat.
    - apply andb_prop in F as [F1 F2]. split; intros [-> |[]]; [rewrite H in F2|rewrite H in F1]; discriminate.
    - split; intros [].
    - destruct (IHruns1 F), (IHruns2 F). split; intros X; apply in_app_or in X; tauto.
  Qed.

  Definition flats (k : list str) : Prop := forall x, In x k -> flat x.
  Lemma peek_flat n k x : flats k -> peek_last n k = Some x -> flat x.
  Proof.
    unfold peek_last. destruct (length k <? n)%nat; [discriminate|]. intros F E. inversion E; subst.
    assert (A : forall l, (forall x, In x l -> flat x) -> flat (concat l)).
    { induction l as [|y l IH]; intros H; [split; intros []|]. cbn [concat]. destruct (H y (or_introl eq_refl)).
      destruct IH as [? ?]; [intros z Z; apply H; now right|]. split; intros X; apply in_app_or in X; tauto. }
    apply A. intros y Y. apply in_rev in Y. apply F. revert Y. clear. revert k. induction n as [|n IH]; intros [|z k]; cbn; try tauto.
    intros [?|?]; [now left|right; now apply IH].
  Qed.

  Definition sim (em : bool) (e : yexp) (s : str) (k : list str) (x : res yrule) : Prop :=
    exists x', runs G em e (crlf s) k x' /\ alike_res x x' /\ match x with Ok _ _ _ k' => flats k' | _ => True end.

  Hypothesis quoted : forall em r s k x, special r = true -> plainly s -> flats k -> runs G em (PRule r) s k x -> sim em (PRule r) s k x.

  Lemma rest_plainly em e s k t ns rest k' : plainly s -> runs G em e s k (Ok t ns rest k') -> plainly rest.
  Proof. intros P H. pose proof (runs_text _ _ _ _ _ _ H _ _ _ _ eq_refl) as ->. now apply plainly_suffix in P. Qed.

  Lemma not_nl_stop x em s k c : stops x = true -> c = NL \/ c = CR ->
    forall t ns rest k', ~ runs G em (PNot x) (c :: s) k (Ok t ns rest k').
  Proof.
    unfold stops. destruct (at_nl 20 x) as [[|]|] eqn:A; try discriminate. intros _ C t ns rest k' H.
    destruct (at_nl_runs _ _ _ false c s k A C) as (t0 & ns0 & r0 & k0 & R).
    pose proof (RNot G em x (c :: s) k _ R) as H2. pose proof (runs_det _ _ _ _ _ _ _ H H2) as E. discriminate E.
  Qed.

  Lemma seq_inv em a b s k y : runs G em (PSeq a b) s k y ->
    (exists t1 n1 s1 k1 t2 n2 s2 k2, y = Ok (t1 ++ t2) (n1 ++ n2) s2 k2 /\
       runs G em a s k (Ok t1 n1 s1 k1) /\ runs G em b s1 k1 (Ok t2 n2 s2 k2)) \/
    (runs G em a s k y /\ is_ok y = false) \/
    (exists t1 n1 s1 k1, runs G em a s k (Ok t1 n1 s1 k1) /\ runs G em b s1 k1 y /\ is_ok y = false).
  Proof.
    intros H. inversion H; subst; [left; repeat eexists; eassumption|right; left; now split|].
    right; right. repeat eexists; eassumption.
  Qed.

  Lemma not_any_sim em x f s k y : plainly s -> flats k -> stops x = true ->
    (forall z, runs G em (PNot x) s k z -> sim em (PNot x) s k z) ->
    runs G em (PSeq (PNot x) (PClass f)) s k y -> sim em (PSeq (PNot x) (PClass f)) s k y.
  Proof.
    intros P F S IH H. apply seq_inv in H as [(t1 & n1 & s1 & k1 & t2 & n2 & s2 & k2 & -> & H1 & H2)|[[H1 H2]|(t1 & n1 & s1 & k1 & H1 & H2 & H3)]].
    - destruct (IH _ H1) as (x' & R & A & FK). destruct x' as [t' ns' r' k'| |]; try (cbn in A; tauto).
      destruct A as (-> & An & -> & ->). apply not_ok_inv in H1 as Hn. destruct Hn as (-> & -> & -> & -> & _).
      inversion H2; subst. destruct (N.eq_dec c NL) as [-> |Hc].
      { exfalso. exact (not_nl_stop x em s2 _ NL S (or_introl eq_refl) _ _ _ _ H1). }
      exists (Ok ([] ++ [c]) (ns' ++ []) (crlf s2) k2). split.
      + rewrite crlf_cons in R |- * by assumption. eapply RSeq; [exact R|]. now constructor.
      + split; [|assumption]. split; [cbn [app]; now rewrite crlf_flat by (intros [E|[]]; congruence)|].
        split; [|split; reflexivity]. apply all_alike_app; [exact An|exact I].
    - destruct (IH _ H1) as (x' & R & A & FK). exists x'. split; [|split; assumption].
      apply RSeq1; [assumption|]. destruct y; [discriminate|destruct x'; try (cbn in A; tauto); reflexivity..].
    - destruct (IH _ H1) as (x' & R & A & FK). destruct x' as [t' ns' r' k'| |]; try (cbn in A; tauto).
      destruct A as (-> & An & -> & ->). apply not_ok_inv in H1 as Hn. destruct Hn as (-> & -> & -> & -> & _).
      exists Fail. inversion H2; subst; try discriminate.
      + split; [|split; exact I]. destruct (N.eq_dec c NL) as [-> |Hc].
        { exfalso. exact (not_nl_stop x em _ _ NL S (or_introl eq_refl) _ _ _ _ H1). }
        rewrite crlf_cons in R |- * by assumption. eapply RSeq2; [exact R| |reflexivity]. now constructor.
      + split; [|split; exact I]. eapply RSeq2; [exact R| |reflexivity]. constructor.
  Qed.

  Lemma wrap_alike m em r t ns ns' : special r = false -> all_alike ns ns' ->
    all_alike (wrap m em r t ns) (wrap m em r (crlf t) ns').
  Proof.
    intros H A. destruct m; cbn [wrap]; try assumption; destruct em; cbn [all_alike]; try tauto; (split; [|exact I]);
      apply alike_node; try assumption; try reflexivity; exact I.
  Qed.

  Lemma seq_fine a b : fine (PSeq a b) = true ->
    (fine a = true /\ fine b = true) \/ (exists x f, a = PNot x /\ b = PClass f /\ fine x = true /\ stops x = true).
  Proof.
    cbn [fine]. destruct a as [| | | | | |x| | | | | | | |]; intros H; try (left; apply andb_prop in H; tauto).
    destruct b as [|f| | | | | | | | | | | | |]; try (left; apply andb_prop in H; tauto).
    apply andb_prop in H as [H1 H2]. apply orb_prop in H2 as [H2|H2]; [right; now exists x, f|left; now split].
  Qed.

  Lemma simulates n : forall em e s k x, eval G n em e s k = Some x -> plainly s -> flats k -> fine e = true -> closed e = true ->
    sim em e s k x.
  Proof.
    induction n as [|n IH]; intros em e s k x H P F E C; [discriminate|].
    pose proof (eval_sound _ _ _ _ _ _ _ H) as R.
    assert (Sub : forall em' e' s' k' x', eval G n em' e' s' k' = Some x' -> plainly s' -> flats k' -> fine e' = true -> closed e' = true ->
       sim em' e' s' k' x') by exact IH.
    destruct e as [p|f|a b|a b|a|a|a|a|a| |m| | |q|q]; cbn [eval] in H.
    - cbn [fine] in E. apply unbroken_flat in E. pose proof (strip_crlf p s E (proj1 P)) as S.
      destruct (strip p s) as [rest|]; cbn [option_map] in S; inversion H; subst x.
      + exists (Ok p [] (crlf rest) k). split; [now constructor|]. split; [|exact F].
        split; [symmetry; apply crlf_flat, E|]. repeat split.
      + exists Fail. split; [now constructor|]. split; exact I.
    - cbn [fine] in E. apply andb_prop in E as [E1 E2]. destruct s as [|c s].
      + inversion H; subst. exists Fail. split; [constructor|]. split; exact I.
      + destruct (N.eq_dec c NL) as [-> |Hc].
        * destruct (f NL); [discriminate|]. inversion H; subst. unfold sim. rewrite crlf_nl. exists Fail. split; [|split; exact I].
          constructor. destruct (f CR); [discriminate|reflexivity].
        * unfold sim. rewrite crlf_cons by assumption. destruct (f c) eqn:Fc; inversion H; subst x.
          -- exists (Ok [c] [] (crlf s) k). split; [now constructor|]. split; [|exact F].
             split; [symmetry; apply crlf_flat; intros [X|[]]; congruence|]. repeat split.
          -- exists Fail. split; [now constructor|]. split; exact I.
    - cbn [closed] in C. apply andb_prop in C as [C1 C2].
      destruct (seq_fine a b E) as [[E1 E2]|(y & f & -> & -> & E1 & E2)].
      + destruct (eval G n em a s k) as [[t1 n1 s1 k1| |]|] eqn:Ea; try discriminate.
        * destruct (Sub _ _ _ _ _ Ea P F E1 C1) as (x1 & R1 & A1 & F1). destruct x1 as [t1' n1' s1' k1'| |]; try (cbn in A1; tauto).
          destruct A1 as (-> & A1 & -> & ->).
          pose proof (rest_plainly _ _ _ _ _ _ _ _ P (eval_sound _ _ _ _ _ _ _ Ea)) as P1.
          destruct (eval G n em b s1 k1) as [xb|] eqn:Eb; [|discriminate].
          destruct (Sub _ _ _ _ _ Eb P1 F1 E2 C2) as (x2 & R2 & A2 & F2).
          destruct xb as [t2 n2 s2 k2| |]; destruct x2 as [t2' n2' s2' k2'| |]; try (cbn in A2; tauto); inversion H; subst x.
          -- destruct A2 as (-> & A2 & -> & ->). eexists. split; [eapply RSeq; eassumption|]. split; [|exact F2].
             split; [now rewrite crlf_app|]. split; [now apply all_alike_app|]. now split.
          -- exists Fail. split; [eapply RSeq2; try eassumption; reflexivity|]. split; exact I.
          -- exists Crash. split; [eapply RSeq2; try eassumption; reflexivity|]. split; exact I.
        * destruct (Sub _ _ _ _ _ Ea P F E1 C1) as (x1 & R1 & A1 & F1). inversion H; subst x.
          destruct x1 as [| |]; try (cbn in A1; tauto). exists Fail. split; [apply RSeq1; [assumption|reflexivity]|]. split; exact I.
        * destruct (Sub _ _ _ _ _ Ea P F E1 C1) as (x1 & R1 & A1 & F1). inversion H; subst x.
          destruct x1 as [| |]; try (cbn in A1; tauto). exists Crash. split; [apply RSeq1; [assumption|reflexivity]|]. split; exact I.
      + apply not_any_sim; try assumption. intros z Hz.
        destruct (eval G n em (PNot y) s k) as [w|] eqn:En.
        * pose proof (eval_sound _ _ _ _ _ _ _ En) as Rw. rewrite (runs_det _ _ _ _ _ _ _ Hz Rw).
          apply Sub; try assumption.
        * cbn [eval] in H. discriminate H.
    - destruct (is_nl (PAlt a b)) eqn:N.
      + apply is_nl_is in N. rewrite N in *. destruct (nl_sim em s k x (proj1 P) R) as (x' & R' & A & K).
        exists x'. split; [exact R'|]. split; [exact A|]. destruct x; [now subst|exact I..].
      + cbn [fine] in E. rewrite N in E. cbn [orb] in E. apply andb_prop in E as [E1 E2].
        cbn [closed] in C. apply andb_prop in C as [C1 C2].
        destruct (eval G n em a s k) as [xa|] eqn:Ea; [|discriminate].
        destruct (Sub _ _ _ _ _ Ea P F E1 C1) as (x1 & R1 & A1 & F1).
        destruct xa as [t1 n1 s1 k1| |]; destruct x1 as [t1' n1' s1' k1'| |]; try (cbn in A1; tauto).
        * inversion H; subst x. eexists. split; [apply RAlt1; [exact R1|discriminate]|]. now split.
        * destruct (Sub _ _ _ _ _ H P F E2 C2) as (x2 & R2 & A2 & F2). exists x2. split; [now apply RAlt2|]. now split.
        * inversion H; subst x. eexists. split; [apply RAlt1; [exact R1|discriminate]|]. now split.
    - cbn [fine closed] in E, C. destruct (eval G n em a s k) as [xa|] eqn:Ea; [|discriminate].
      destruct (Sub _ _ _ _ _ Ea P F E C) as (x1 & R1 & A1 & F1).
      destruct xa as [t1 n1 s1 k1| |]; destruct x1 as [t1' n1' s1' k1'| |]; try (cbn in A1; tauto); inversion H; subst x.
      + eexists. split; [apply ROpt1; [exact R1|discriminate]|]. now split.
      + eexists. split; [now apply ROpt2|]. split; [|exact F]. repeat split.
      + eexists. split; [apply ROpt1; [exact R1|discriminate]|]. now split.
    - pose proof E as E'. pose proof C as C'. cbn [fine closed] in E, C.
      destruct (eval G n em a s k) as [xa|] eqn:Ea; [|discriminate].
      destruct (Sub _ _ _ _ _ Ea P F E C) as (x1 & R1 & A1 & F1).
      destruct xa as [t1 n1 s1 k1| |]; destruct x1 as [t1' n1' s1' k1'| |]; try (cbn in A1; tauto).
      + destruct A1 as (-> & A1 & -> & ->).
        pose proof (rest_plainly _ _ _ _ _ _ _ _ P (eval_sound _ _ _ _ _ _ _ Ea)) as P1.
        destruct (eval G n em (PStar a) s1 k1) as [xb|] eqn:Eb; [|discriminate].
        destruct (Sub _ _ _ _ _ Eb P1 F1 E' C') as (x2 & R2 & A2 & F2).
        destruct xb as [t2 n2 s2 k2| |]; destruct x2 as [t2' n2' s2' k2'| |]; try (cbn in A2; tauto); inversion H; subst x.
        * destruct A2 as (-> & A2 & -> & ->). eexists. split; [eapply RStar1; eassumption|]. split; [|exact F2].
          split; [now rewrite crlf_app|]. split; [now apply all_alike_app|]. now split.
        * exfalso. clear - Eb. revert s1 k1 Eb. induction n as [|n IH]; intros s k; cbn [eval]; [discriminate|].
          destruct (eval G n em a s k) as [[? ? s1 k1| |]|]; try discriminate.
          destruct (eval G n em (PStar a) s1 k1) as [[]|] eqn:Z; congruence.
        * eexists. split; [eapply RStarC1; eassumption|]. split; exact I.
      + inversion H; subst x. eexists. split; [now apply RStar0|]. split; [|exact F]. repeat split.
      + inversion H; subst x. eexists. split; [now apply RStarC|]. split; exact I.
    - cbn [fine closed] in E, C. destruct (eval G n false a s k) as [xa|] eqn:Ea; [|discriminate].
      destruct (Sub _ _ _ _ _ Ea P F E C) as (x1 & R1 & A1 & F1).
      exists (match x1 with Ok _ _ _ _ => Fail | Fail => Ok [] [] (crlf s) k | Crash => Crash end). split; [now apply RNot|].
      destruct xa as [t1 n1 s1 k1| |]; destruct x1 as [t1' n1' s1' k1'| |]; try (cbn in A1; tauto); inversion H; subst x;
        (split; [|first [exact F|exact I]]); repeat split.
    - cbn [fine closed] in E, C. destruct (eval G n false a s k) as [xa|] eqn:Ea; [|discriminate].
      destruct (Sub _ _ _ _ _ Ea P F E C) as (x1 & R1 & A1 & F1).
      exists (match x1 with Ok _ _ _ _ => Ok [] [] (crlf s) k | r => r end). split; [now apply RAnd|].
      destruct xa as [t1 n1 s1 k1| |]; destruct x1 as [t1' n1' s1' k1'| |]; try (cbn in A1; tauto); inversion H; subst x;
        (split; [|first [exact F|exact I]]); repeat split.
    - cbn [fine closed] in E, C. apply andb_prop in E as [E1 E2]. destruct (eval G n em a s k) as [xa|] eqn:Ea; [|discriminate].
      destruct (Sub _ _ _ _ _ Ea P F E1 C) as (x1 & R1 & A1 & F1).
      destruct xa as [t1 n1 s1 k1| |]; destruct x1 as [t1' n1' s1' k1'| |]; try (cbn in A1; tauto); inversion H; subst x.
      + destruct A1 as (-> & A1 & -> & ->). pose proof (flat_runs _ _ _ _ _ (eval_sound _ _ _ _ _ _ _ Ea) E2) as Ft. cbn in Ft.
        exists (Ok t1 n1' (crlf s1) (t1 :: k1)). split.
        * rewrite (crlf_flat t1) in R1 by apply Ft. now apply RPush.
        * split; [|intros z [<- |Z]; [exact Ft|now apply F1]]. split; [symmetry; apply crlf_flat, Ft|]. now repeat split.
      + eexists. split; [apply RPushF; [exact R1|reflexivity]|]. split; exact I.
      + eexists. split; [apply RPushF; [exact R1|reflexivity]|]. split; exact I.
    - destruct k as [|y k].
      + inversion H; subst. exists Crash. split; [constructor|]. split; exact I.
      + pose proof (strip_crlf y s (F y (or_introl eq_refl)) (proj1 P)) as S.
        destruct (strip y s) as [rest|]; cbn [option_map] in S; inversion H; subst x.
        * exists (Ok y [] (crlf rest) (y :: k)). split; [now constructor|]. split; [|exact F].
          split; [symmetry; apply crlf_flat, (F y), or_introl, eq_refl|]. repeat split.
        * exists Fail. split; [now constructor|]. split; exact I.
    - destruct (peek_last m k) as [y|] eqn:Pk.
      + pose proof (peek_flat _ _ _ F Pk) as Fy. pose proof (strip_crlf y s Fy (proj1 P)) as S.
        destruct (strip y s) as [rest|]; cbn [option_map] in S; inversion H; subst x.
        * exists (Ok y [] (crlf rest) k). split; [now apply RPeekL|]. split; [|exact F].
          split; [symmetry; apply crlf_flat, Fy|]. repeat split.
        * exists Fail. split; [now apply RPeekLF with y|]. split; exact I.
      + inversion H; subst. exists Fail. split; [now apply RPeekLE|]. split; exact I.
    - destruct k as [|y k].
      + inversion H; subst. exists Crash. split; [constructor|]. split; exact I.
      + pose proof (strip_crlf y s (F y (or_introl eq_refl)) (proj1 P)) as S.
        destruct (strip y s) as [rest|]; cbn [option_map] in S; inversion H; subst x.
        * exists (Ok y [] (crlf rest) k). split; [now constructor|]. split; [|intros z Z; apply F; now right].
          split; [symmetry; apply crlf_flat, (F y), or_introl, eq_refl|]. repeat split.
        * exists Fail. split; [now constructor|]. split; exact I.
    - destruct k as [|y k]; inversion H; subst x.
      + exists Fail. split; [constructor|]. split; exact I.
      + eexists. split; [constructor|]. split; [|intros z Z; apply F; now right]. repeat split.
    - destruct s as [|c s]; inversion H; subst x.
      + exists (Ok [] (if em then [Node q [] []] else []) [] k). split; [constructor|]. split; [|exact F].
        split; [reflexivity|]. split; [|split; reflexivity]. destruct em; [|exact I]. split; [|exact I].
        cbn [closed] in C. apply alike_node; [now destruct (special q)|reflexivity|exact I].
      + exists Fail. split; [|split; exact I]. unfold crlf. cbn [flat_map]. destruct (ceqb c NL); constructor.
    - cbn [closed] in C. destruct (special q) eqn:Sq.
      + now apply quoted.
      + rewrite orb_false_r in C. pose proof (grammar_fine q C) as Gq. apply andb_prop in Gq as [Gq1 Gq2].
        destruct (eval G n (emit_in (fst (G q)) em) (snd (G q)) s k) as [xa|] eqn:Ea; [|discriminate].
        destruct (Sub _ _ _ _ _ Ea P F Gq1 Gq2) as (x1 & R1 & A1 & F1).
        destruct xa as [t1 n1 s1 k1| |]; destruct x1 as [t1' n1' s1' k1'| |]; try (cbn in A1; tauto); inversion H; subst x.
        * destruct A1 as (-> & A1 & -> & ->). eexists. split; [apply RRule; exact R1|]. split; [|exact F1].
          split; [reflexivity|]. split; [now apply wrap_alike|]. now split.
        * eexists. split; [apply RRuleF; [exact R1|reflexivity]|]. split; exact I.
        * eexists. split; [apply RRuleF; [exact R1|reflexivity]|]. split; exact I.
  Qed.
End Sim.
