(** Shape of the parse trees of a grammar. *)
From Verif Require Import Base Peg PegFacts.
Import ListNotations.

Section PegTree.
  Context {R : Type} (G : R -> rmode * pexp R).

  (** What an expression can match, without lookaheads: its text and nodes.  [rs] says it
      for rules. *)
  Fixpoint shp (rs : R -> str -> list (node R) -> Prop) (e : pexp R) (t : str)
    (ns : list (node R)) : Prop :=
    match e with
    | PStr p => t = p /\ ns = []
    | PClass f => (exists c, t = [c] /\ f c = true) /\ ns = []
    | PSeq a b => exists t1 t2 n1 n2,
        t = t1 ++ t2 /\ ns = n1 ++ n2 /\ shp rs a t1 n1 /\ shp rs b t2 n2
    | PAlt a b => shp rs a t ns \/ shp rs b t ns
    | POpt a => (t = [] /\ ns = []) \/ shp rs a t ns
    | PStar a => exists l : list (str * list (node R)),
        t = concat (map fst l) /\ ns = concat (map snd l)
        /\ Forall (fun p => shp rs a (fst p) (snd p)) l
    | PNot _ | PAnd _ | PDrop => t = [] /\ ns = []
    | PPush a => shp rs a t ns
    | PPeek | PPeekLast _ | PPop => ns = []
    | PEOI r => t = [] /\ ns = [Node r [] []]
    | PRule r => rs r t ns
    end.

  (** Rules: a visible rule gives one node; a silent one is unfolded, [n] deep. *)
  Fixpoint rshp (n : nat) (r : R) (t : str) (ns : list (node R)) : Prop :=
    match fst (G r) with
    | Silent => match n with 0 => True | S m => shp (rshp m) (snd (G r)) t ns end
    | _ => exists ch, ns = [Node r t ch]
    end.

  Lemma runs_shp em e s k x : runs G em e s k x -> em = true ->
    forall t ns rest k', x = Ok t ns rest k' -> forall n, shp (rshp n) e t ns.
  Proof.
    induction 1; intros Hem t' ns' rest' k' E m;
      try match type of E with match ?x with _ => _ end = _ => destruct x end;
      try discriminate; try (subst; discriminate); try (inversion E; subst; clear E);
      cbn [shp]; eauto.
    - do 4 eexists. split; [reflexivity|]. split; [reflexivity|]. eauto.
    - exists []. cbn. auto.
    - destruct (IHruns2 eq_refl _ _ _ _ eq_refl m) as (l & -> & -> & Hl).
      exists ((t1, n1) :: l). cbn. repeat split; auto. constructor; auto.
      apply (IHruns1 eq_refl _ _ _ _ eq_refl m).
    - destruct (fst (G r)) eqn:Em; cbn [wrap] in *.
      + destruct m; cbn [rshp]; rewrite Em; eauto.
      + destruct m; cbn [rshp]; rewrite Em; [exact I|]. eapply IHruns; eauto.
      + destruct m; cbn [rshp]; rewrite Em; eauto.
  Qed.

  (** The same for the nodes only, simplified: expressions that emit nothing, or exactly
      one node of a known rule, are recognised. *)
  Fixpoint quiet_ (rq : R -> bool) (e : pexp R) : bool :=
    match e with
    | PSeq a b | PAlt a b => quiet_ rq a && quiet_ rq b
    | POpt a | PStar a | PPush a => quiet_ rq a
    | PEOI _ => false
    | PRule r => rq r
    | _ => true
    end.
  Fixpoint rquiet (n : nat) (r : R) : bool :=
    match fst (G r) with
    | Silent => match n with 0 => false | S m => quiet_ (rquiet m) (snd (G r)) end
    | _ => false
    end.
  Definition quiet (n : nat) : pexp R -> bool := quiet_ (rquiet n).

  Fixpoint single_ (rq : R -> bool) (rs : R -> option R) (e : pexp R) : option R :=
    match e with
    | PSeq a b => if quiet_ rq a then single_ rq rs b
                  else if quiet_ rq b then single_ rq rs a else None
    | PPush a => single_ rq rs a
    | PRule r => rs r
    | _ => None
    end.
  Fixpoint rsingle (n : nat) (r : R) : option R :=
    match fst (G r) with
    | Silent => match n with 0 => None | S m => single_ (rquiet m) (rsingle m) (snd (G r)) end
    | _ => Some r
    end.
  Definition single (n : nat) : pexp R -> option R := single_ (rquiet n) (rsingle n).

  Fixpoint shn (n : nat) (e : pexp R) (ns : list (node R)) : Prop :=
    if quiet n e then ns = []
    else match single n e with
         | Some r => exists x, ns = [x] /\ label x = r
         | None =>
             match e with
             | PSeq a b => exists n1 n2, ns = n1 ++ n2 /\ shn n a n1 /\ shn n b n2
             | PAlt a b => shn n a ns \/ shn n b ns
             | POpt a => ns = [] \/ shn n a ns
             | PStar a => match single n a with
                          | Some r => Forall (fun x => label x = r) ns
                          | None => True
                          end
             | PEOI r => ns = [Node r [] []]
             | PPush a => shn n a ns
             | _ => True
             end
         end.

  Lemma quiet_nil n : forall e t ns, shp (rshp n) e t ns -> quiet n e = true -> ns = [].
  Proof.
    induction n as [n IHn] using lt_wf_ind.
    assert (Hr : forall r t ns, rshp n r t ns -> rquiet n r = true -> ns = []).
    { intros r t ns. destruct n as [|n]; cbn; destruct (fst (G r)); try discriminate.
      intros H1 H2. exact (IHn n (Nat.lt_succ_diag_r n) _ _ _ H1 H2). }
    unfold quiet. induction e as [p|f|a IHa b IHb|a IHa b IHb|a IHa|a IHa|a IHa|a IHa|a IHa| |m| | |r|r];
      intros t ns H Q; cbn [shp quiet_] in *;
      try (now destruct H); try exact H; eauto.
    - apply andb_true_iff in Q as [Q1 Q2]. destruct H as (t1 & t2 & n1 & n2 & -> & -> & H1 & H2).
      rewrite (IHa _ _ H1 Q1), (IHb _ _ H2 Q2). reflexivity.
    - apply andb_true_iff in Q as [Q1 Q2]. destruct H as [H|H]; eauto.
    - destruct H as [[_ H]|H]; eauto.
    - destruct H as (l & -> & -> & Hl). induction Hl as [|[u v] l Hx Hl IH]; [reflexivity|].
      cbn. rewrite IH. cbn in Hx. rewrite (IHa _ _ Hx Q). reflexivity.
  Qed.

  Lemma single_one n : forall e t ns r, shp (rshp n) e t ns -> single n e = Some r ->
    exists x, ns = [x] /\ label x = r.
  Proof.
    induction n as [n IHn] using lt_wf_ind.
    assert (Hr : forall r0 t ns r, rshp n r0 t ns -> rsingle n r0 = Some r ->
                   exists x, ns = [x] /\ label x = r).
    { intros r0 t ns r. destruct n as [|n]; cbn; destruct (fst (G r0)); try discriminate;
        try (intros [ch ->] E; inversion E; subst; now exists (Node r t ch)).
      intros H1 H2. exact (IHn n (Nat.lt_succ_diag_r n) _ _ _ _ H1 H2). }
    unfold single. induction e as [p|f|a IHa b IHb|a IHa b IHb|a IHa|a IHa|a IHa|a IHa|a IHa| |m| | |r0|r0];
      intros t ns r H Q; cbn [shp single_] in *; try discriminate; eauto.
    destruct H as (t1 & t2 & n1 & n2 & -> & -> & H1 & H2).
    destruct (quiet_ (rquiet n) a) eqn:Qa.
    - rewrite (quiet_nil n _ _ _ H1 Qa). cbn. eauto.
    - destruct (quiet_ (rquiet n) b) eqn:Qb; [|discriminate].
      rewrite (quiet_nil n _ _ _ H2 Qb), app_nil_r. eauto.
  Qed.

  Lemma shp_shn n : forall e t ns, shp (rshp n) e t ns -> shn n e ns.
  Proof.
    induction e as [p|f|a IHa b IHb|a IHa b IHb|a IHa|a IHa|a IHa|a IHa|a IHa| |m| | |r0|r0];
      intros t ns H; unfold shn; fold shn;
      match goal with |- if ?q then _ else _ => destruct q eqn:Q end;
      try (now apply (quiet_nil n _ _ _ H));
      match goal with |- match ?q with Some _ => _ | None => _ end => destruct q eqn:S end;
      try (now apply (single_one n _ _ _ _ H)); try exact I; cbn [shp] in H.
    - destruct H as (t1 & t2 & n1 & n2 & -> & -> & H1 & H2). exists n1, n2. eauto.
    - destruct H as [H|H]; eauto.
    - destruct H as [[_ H]|H]; eauto.
    - destruct (single n a) as [r|] eqn:Sa; [|exact I].
      destruct H as (l & -> & -> & Hl). induction Hl as [|[u v] l Hx Hl IH]; cbn; [constructor|].
      apply Forall_app. split; [|exact IH].
      destruct (single_one n _ _ _ _ Hx Sa) as (x & E & L). cbn in E. rewrite E. now constructor.
    - eauto.
    - now destruct H.
  Qed.

  Lemma runs_shn n e s k t ns rest k' :
    runs G true e s k (Ok t ns rest k') -> shn n e ns.
  Proof.
    intros H. apply (shp_shn n e t). exact (runs_shp _ _ _ _ _ H eq_refl _ _ _ _ eq_refl n).
  Qed.

  (** Every end-of-input match in the expression emits a rule accepted by [E]. *)
  Context (E : R -> bool).
  Fixpoint eoi_only (e : pexp R) : bool :=
    match e with
    | PSeq a b | PAlt a b => eoi_only a && eoi_only b
    | POpt a | PStar a | PNot a | PAnd a | PPush a => eoi_only a
    | PEOI r => E r
    | _ => true
    end.

  (** Nodes that come from a successful run of a rule. *)
  Inductive tree : node R -> Prop :=
  | TRule r txt ch em s k ns rest k' :
      fst (G r) <> Silent ->
      runs G em (snd (G r)) s k (Ok txt ns rest k') ->
      em = emit_in (fst (G r)) true ->
      ch = ns ->
      Forall tree ch -> Forall (fun n => incl (text n) txt) ch ->
      tree (Node r txt ch)
  | TEOI r : E r = true -> tree (Node r [] []).

  Lemma incl_forall (ns : list (node R)) (a b : str) :
    incl a b -> Forall (fun n => incl (text n) a) ns -> Forall (fun n => incl (text n) b) ns.
  Proof. intros H. apply Forall_impl. intros n Hn. now apply incl_tran with a. Qed.

  (** Every emitted node is such a node and its text lies within the matched text. *)
  Context (HE : forall r, eoi_only (snd (G r)) = true).
  Lemma runs_trees em e s k x : runs G em e s k x -> eoi_only e = true ->
    forall t ns rest k', x = Ok t ns rest k' ->
      Forall tree ns /\ Forall (fun n => incl (text n) t) ns.
  Proof.
    induction 1; intros Q t' ns' rest' k' X; cbn [eoi_only] in Q;
      try (apply andb_true_iff in Q as [Q1 Q2]);
      try match type of X with match ?x with _ => _ end = _ => destruct x end;
      try discriminate; try (subst; discriminate); try (inversion X; subst; clear X);
      try (split; constructor); eauto.
    - destruct (IHruns1 ltac:(assumption) _ _ _ _ eq_refl) as [A1 B1].
      destruct (IHruns2 ltac:(assumption) _ _ _ _ eq_refl) as [A2 B2].
      split; apply Forall_app; split; auto; (eapply incl_forall; [|eassumption]).
      + apply incl_appl, incl_refl.
      + apply incl_appr, incl_refl.
    - destruct (IHruns1 ltac:(assumption) _ _ _ _ eq_refl) as [A1 B1].
      destruct (IHruns2 ltac:(assumption) _ _ _ _ eq_refl) as [A2 B2].
      split; apply Forall_app; split; auto; (eapply incl_forall; [|eassumption]).
      + apply incl_appl, incl_refl.
      + apply incl_appr, incl_refl.
    - destruct em; split; repeat constructor; first [assumption|cbn; apply incl_refl].
    - destruct (IHruns ltac:(auto) _ _ _ _ eq_refl) as [A B].
      destruct (fst (G r)) eqn:Em; cbn [wrap emit_in] in *.
      + destruct em; split; repeat constructor; cbn [text]; try apply incl_refl.
        eapply TRule; eauto; rewrite Em; [discriminate|reflexivity].
      + split; auto.
      + pose proof (runs_silent G _ _ _ _ _ H eq_refl _ _ _ _ eq_refl) as ->.
        destruct em; split; repeat constructor; cbn [text]; try apply incl_refl.
        eapply TRule; eauto; rewrite Em; [discriminate|reflexivity].
  Qed.
End PegTree.
