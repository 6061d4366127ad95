(** Forward reasoning about the YAML grammar: what an expression reads from a text and
    which values the consumer gives its nodes. *)
From Coq Require Import ZArith.
From Verif Require Import Base Ast Num Peg PegFacts YamlGrammar Consume.
Import ListNotations.

(** ---- any grammar ---- *)

Section Any.
  Context {R : Type} (G : R -> rmode * pexp R).

  (** Emission of nodes does not influence the matching. *)
  Definition same_res (x y : res R) : Prop :=
    match x, y with
    | Ok t _ s k, Ok t' _ s' k' => t = t' /\ s = s' /\ k = k'
    | Fail, Fail | Crash, Crash => True
    | _, _ => False
    end.

  Lemma runs_em em e s k x : runs G em e s k x ->
    forall em', exists y, runs G em' e s k y /\ same_res x y.
  Proof.
    induction 1; intros em'.
    - eexists; split; [eapply RStr; eassumption|cbn; auto].
    - eexists; split; [eapply RStrF; eassumption|cbn; auto].
    - eexists; split; [eapply RClass; eassumption|cbn; auto].
    - eexists; split; [eapply RClassF; eassumption|cbn; auto].
    - eexists; split; [apply RClassE|cbn; auto].
    - destruct (IHruns1 em') as ([t1' n1' s1' k1'| |] & A1 & A2); cbn in A2; try contradiction.
      destruct A2 as (<- & <- & <-).
      destruct (IHruns2 em') as ([t2' n2' s2' k2'| |] & B1 & B2); cbn in B2; try contradiction.
      destruct B2 as (<- & <- & <-).
      eexists; split; [eapply RSeq; eassumption|cbn; auto].
    - destruct (IHruns em') as (y & A1 & A2). exists y. split; [|assumption].
      apply RSeq1; [assumption|]. destruct r, y; cbn in *; try contradiction; auto; discriminate.
    - destruct (IHruns1 em') as ([t1' n1' s1' k1'| |] & A1 & A2); cbn in A2; try contradiction.
      destruct A2 as (<- & <- & <-).
      destruct (IHruns2 em') as (y & B1 & B2). exists y. split; [|assumption].
      eapply RSeq2; [eassumption|eassumption|]. destruct r, y; cbn in *; try contradiction; auto; discriminate.
    - destruct (IHruns em') as (y & A1 & A2). exists y. split; [|assumption].
      apply RAlt1; [assumption|]. destruct r, y; cbn in *; try contradiction; congruence.
    - destruct (IHruns1 em') as ([| |] & A1 & A2); cbn in A2; try contradiction.
      destruct (IHruns2 em') as (y & B1 & B2). exists y. split; [|assumption]. now apply RAlt2.
    - destruct (IHruns em') as (y & A1 & A2). exists y. split; [|assumption].
      apply ROpt1; [assumption|]. destruct r, y; cbn in *; try contradiction; congruence.
    - destruct (IHruns em') as ([| |] & A1 & A2); cbn in A2; try contradiction.
      eexists; split; [eapply ROpt2; eassumption|cbn; auto].
    - destruct (IHruns em') as ([| |] & A1 & A2); cbn in A2; try contradiction.
      eexists; split; [eapply RStar0; eassumption|cbn; auto].
    - destruct (IHruns1 em') as ([t1' n1' s1' k1'| |] & A1 & A2); cbn in A2; try contradiction.
      destruct A2 as (<- & <- & <-).
      destruct (IHruns2 em') as ([t2' n2' s2' k2'| |] & B1 & B2); cbn in B2; try contradiction.
      destruct B2 as (<- & <- & <-).
      eexists; split; [eapply RStar1; eassumption|cbn; auto].
    - destruct (IHruns em') as ([| |] & A1 & A2); cbn in A2; try contradiction.
      eexists; split; [eapply RStarC; eassumption|cbn; auto].
    - destruct (IHruns1 em') as ([t1' n1' s1' k1'| |] & A1 & A2); cbn in A2; try contradiction.
      destruct A2 as (<- & <- & <-).
      destruct (IHruns2 em') as ([| |] & B1 & B2); cbn in B2; try contradiction.
      eexists; split; [eapply RStarC1; eassumption|cbn; auto].
    - eexists; split; [eapply RNot; eassumption|]. destruct r; cbn; auto.
    - eexists; split; [eapply RAnd; eassumption|]. destruct r; cbn; auto.
    - destruct (IHruns em') as ([t1' n1' s1' k1'| |] & A1 & A2); cbn in A2; try contradiction.
      destruct A2 as (<- & <- & <-). eexists; split; [eapply RPush; eassumption|cbn; auto].
    - destruct (IHruns em') as (y & A1 & A2). exists y. split; [|assumption].
      apply RPushF; [assumption|]. destruct r, y; cbn in *; try contradiction; auto; discriminate.
    - eexists; split; [eapply RPeek; eassumption|cbn; auto].
    - eexists; split; [eapply RPeekF; eassumption|cbn; auto].
    - eexists; split; [apply RPeekC|cbn; auto].
    - eexists; split; [eapply RPeekL; eassumption|cbn; auto].
    - eexists; split; [eapply RPeekLF; eassumption|cbn; auto].
    - eexists; split; [eapply RPeekLE; eassumption|cbn; auto].
    - eexists; split; [eapply RPop; eassumption|cbn; auto].
    - eexists; split; [eapply RPopF; eassumption|cbn; auto].
    - eexists; split; [apply RPopC|cbn; auto].
    - eexists; split; [apply RDrop|cbn; auto].
    - eexists; split; [apply RDropE|cbn; auto].
    - eexists; split; [apply REOI|cbn; auto].
    - eexists; split; [apply REOIF|cbn; auto].
    - destruct (IHruns (emit_in (fst (G r)) em')) as ([t1' n1' s1' k1'| |] & A1 & A2); cbn in A2; try contradiction.
      destruct A2 as (<- & <- & <-). eexists; split; [eapply RRule; eassumption|cbn; auto].
    - destruct (IHruns (emit_in (fst (G r)) em')) as (y & A1 & A2). exists y. split; [|assumption].
      apply RRuleF; [assumption|]. destruct x, y; cbn in *; try contradiction; auto; discriminate.
  Qed.

  (** What the first character says: (surely fails, surely matches the empty text). *)
  Fixpoint scan (n : nat) (e : pexp R) (o : option char) : bool * bool :=
    match n with
    | 0 => (false, false)
    | S n =>
        match e with
        | PStr [] => (false, true)
        | PStr (c :: _) => (match o with Some d => negb (ceqb c d) | None => true end, false)
        | PClass f => (match o with Some d => negb (f d) | None => true end, false)
        | PSeq a b =>
            let x := scan n a o in
            if fst x then (true, false) else if snd x then scan n b o else (false, false)
        | PAlt a b =>
            let x := scan n a o in
            if fst x then scan n b o else if snd x then (false, true) else (false, false)
        | POpt a => let x := scan n a o in (false, fst x || snd x)
        | PStar a => (false, fst (scan n a o))
        | PNot a => let x := scan n a o in (snd x, fst x)
        | PAnd a => scan n a o
        | PPush a => scan n a o
        | PEOI _ => match o with Some _ => (true, false) | None => (false, true) end
        | PRule r => scan n (snd (G r)) o
        | _ => (false, false)
        end
    end.

  Lemma scan_sound n : forall e s,
    (fst (scan n e (hd_error s)) = true -> forall em k, runs G em e s k Fail) /\
    (snd (scan n e (hd_error s)) = true -> forall em k, exists ns k', runs G em e s k (Ok [] ns s k')).
  Proof.
    induction n as [|n IH]; intros e s; [cbn; split; discriminate|].
    destruct e as [p|f|a b|a b|a|a|a|a|a| |m| | |q|q]; cbn [scan]; try (cbn; split; discriminate).
    - destruct p as [|c p]; cbn [fst snd]; split; try discriminate.
      + intros _ em k. do 2 eexists. now apply RStr.
      + intros H em k. apply RStrF. destruct s as [|d s]; cbn in *; [reflexivity|].
        destruct (ceqb c d); [discriminate|reflexivity].
    - split; cbn [fst snd]; [|discriminate]. intros H em k.
      destruct s as [|d s]; [apply RClassE|]. cbn in H. apply RClassF. now destruct (f d).
    - destruct (IH a s) as [A1 A2]. destruct (IH b s) as [B1 B2].
      destruct (scan n a (hd_error s)) as [x y]. cbn [fst snd] in *.
      destruct x; cbn [fst snd].
      { split; [|discriminate]. intros _ em k. apply RSeq1; auto. }
      destruct y; cbn [fst snd]; [|split; discriminate].
      split.
      + intros H em k. destruct (A2 eq_refl em k) as (ns & k' & A). eapply RSeq2; [exact A|auto|reflexivity].
      + intros H em k. destruct (A2 eq_refl em k) as (ns & k' & A). destruct (B2 H em k') as (ns2 & k2 & B).
        do 2 eexists. exact (RSeq G _ _ _ _ _ _ _ _ _ _ _ _ _ A B).
    - destruct (IH a s) as [A1 A2]. destruct (IH b s) as [B1 B2].
      destruct (scan n a (hd_error s)) as [x y]. cbn [fst snd] in *.
      destruct x; cbn [fst snd].
      { split.
        - intros H em k. apply RAlt2; auto.
        - intros H em k. destruct (B2 H em k) as (ns2 & k2 & B). do 2 eexists. apply RAlt2; [auto|exact B]. }
      destruct y; cbn [fst snd]; [|split; discriminate].
      split; [discriminate|]. intros _ em k. destruct (A2 eq_refl em k) as (ns & k' & A).
      do 2 eexists. apply RAlt1; [exact A|discriminate].
    - destruct (IH a s) as [A1 A2]. destruct (scan n a (hd_error s)) as [x y]. cbn [fst snd] in *.
      split; [discriminate|]. intros H em k. destruct x.
      + do 2 eexists. apply ROpt2; auto.
      + cbn in H. destruct (A2 H em k) as (ns & k' & A). do 2 eexists. apply ROpt1; [exact A|discriminate].
    - destruct (IH a s) as [A1 A2]. cbn [fst snd]. split; [discriminate|].
      intros H em k. do 2 eexists. apply RStar0; auto.
    - destruct (IH a s) as [A1 A2]. destruct (scan n a (hd_error s)) as [x y]. cbn [fst snd] in *. split.
      + intros H em k. destruct (A2 H false k) as (ns & k' & A). exact (RNot G em _ _ _ _ A).
      + intros H em k. do 2 eexists. exact (RNot G em _ _ _ _ (A1 H false k)).
    - destruct (IH a s) as [A1 A2]. split.
      + intros H em k. exact (RAnd G em _ _ _ _ (A1 H false k)).
      + intros H em k. destruct (A2 H false k) as (ns & k' & A). do 2 eexists. exact (RAnd G em _ _ _ _ A).
    - destruct (IH a s) as [A1 A2]. split.
      + intros H em k. apply RPushF; auto.
      + intros H em k. destruct (A2 H em k) as (ns & k' & A). do 2 eexists. eapply RPush. exact A.
    - destruct s as [|c s]; cbn [hd_error fst snd]; split; try discriminate.
      + intros _ em k. do 2 eexists. apply REOI.
      + intros _ em k. apply REOIF.
    - destruct (IH (snd (G q)) s) as [A1 A2]. split.
      + intros H em k. apply RRuleF; auto.
      + intros H em k. destruct (A2 H (emit_in (fst (G q)) em) k) as (ns & k' & A).
        do 2 eexists. eapply RRule. exact A.
  Qed.
End Any.

(** ---- the YAML grammar ---- *)

Section Reads.
Context (ut : unitab).
Notation G := (yaml_grammar ut).

Definition values (ns : list (node yrule)) : cres (list (yrule * yval)) :=
  call_ (map (fun n => (label n, consume n)) ns).

Lemma values_app a b va vb : values a = CVal va -> values b = CVal vb -> values (a ++ b) = CVal (va ++ vb).
Proof.
  unfold values. revert va. induction a as [|n a IH]; intros va Ha Hb; cbn [map app call_] in *.
  - inversion Ha. exact Hb.
  - destruct (consume n); cbn [cbind] in *; try discriminate.
    destruct (call_ (map _ a)) as [v| |] eqn:E; cbn [cbind] in *; try discriminate.
    rewrite (IH v eq_refl Hb). cbn [cbind]. inversion Ha. reflexivity.
Qed.

(** [e] matches the front of [s], leaving [rest]; its nodes have the values [vs]. *)
Definition gets (e : yexp) (s : str) (k : list str) (vs : list (yrule * yval)) (rest : str)
  (k' : list str) : Prop :=
  exists t ns, runs G true e s k (Ok t ns rest k') /\ values ns = CVal vs.

(** [e] matches the text [t] without nodes. *)
Definition eats (e : yexp) (s : str) (k : list str) (t rest : str) (k' : list str) : Prop :=
  forall em, runs G em e s k (Ok t [] rest k').
(** The same inside an atomic rule. *)
Definition eats0 (e : yexp) (s : str) (k : list str) (t rest : str) (k' : list str) : Prop :=
  runs G false e s k (Ok t [] rest k').
Definition fails (e : yexp) (s : str) (k : list str) : Prop := forall em, runs G em e s k Fail.

Lemma fails1 em e s k : runs G em e s k Fail -> fails e s k.
Proof.
  intros H em'. destruct (runs_em G _ _ _ _ _ H em') as ([| |] & A & B); cbn in B; try contradiction.
  exact A.
Qed.

Lemma gets_any e s k vs rest k' : gets e s k vs rest k' ->
  forall em, exists t ns, runs G em e s k (Ok t ns rest k').
Proof.
  intros (t & ns & H & _) em. destruct (runs_em G _ _ _ _ _ H em) as ([| |] & A & B); cbn in B; try contradiction.
  destruct B as (<- & <- & <-). eauto.
Qed.

Lemma eats_any e s k t rest k' : eats e s k t rest k' ->
  forall em, exists t ns, runs G em e s k (Ok t ns rest k').
Proof. intros H em. eauto. Qed.

Lemma eats_0 e s k t rest k' : eats e s k t rest k' -> eats0 e s k t rest k'.
Proof. intros H. apply H. Qed.

Lemma eats_gets e s k t rest k' : eats e s k t rest k' -> gets e s k [] rest k'.
Proof. intros H. exists t, []. split; [apply H|reflexivity]. Qed.

Lemma gets_text e s k vs rest k' : gets e s k vs rest k' -> exists t, s = t ++ rest.
Proof. intros (t & ns & H & _). exists t. eapply runs_text; [exact H|reflexivity]. Qed.

(** Sequences. *)
Lemma gets_seq a b s k v1 s1 k1 v2 rest k' vs :
  gets a s k v1 s1 k1 -> gets b s1 k1 v2 rest k' -> vs = v1 ++ v2 -> gets (PSeq a b) s k vs rest k'.
Proof.
  intros (t1 & n1 & A & A') (t2 & n2 & B & B') ->. do 2 eexists. split; [eapply RSeq; eassumption|].
  now apply values_app.
Qed.
Lemma gets_seq0 a b s k t s1 k1 vs rest k' :
  eats a s k t s1 k1 -> gets b s1 k1 vs rest k' -> gets (PSeq a b) s k vs rest k'.
Proof. intros A B. eapply gets_seq; [eapply eats_gets; exact A|exact B|reflexivity]. Qed.
Lemma eats_seq a b s k t1 s1 k1 t2 rest k' t :
  eats a s k t1 s1 k1 -> eats b s1 k1 t2 rest k' -> t = t1 ++ t2 -> eats (PSeq a b) s k t rest k'.
Proof. intros A B -> em. exact (RSeq G _ _ _ _ _ _ _ _ _ _ _ _ _ (A em) (B em)). Qed.
Lemma eats0_seq a b s k t1 s1 k1 t2 rest k' t :
  eats0 a s k t1 s1 k1 -> eats0 b s1 k1 t2 rest k' -> t = t1 ++ t2 -> eats0 (PSeq a b) s k t rest k'.
Proof. intros A B ->. exact (RSeq G _ _ _ _ _ _ _ _ _ _ _ _ _ A B). Qed.
Lemma fails_seq1 a b s k : fails a s k -> fails (PSeq a b) s k.
Proof. intros A em. apply RSeq1; auto. Qed.
Lemma fails_seq2 a b s k vs s1 k1 : gets a s k vs s1 k1 -> fails b s1 k1 -> fails (PSeq a b) s k.
Proof.
  intros A B em. destruct (gets_any _ _ _ _ _ _ A em) as (t & ns & H). eapply RSeq2; [exact H|apply B|reflexivity].
Qed.
Lemma fails_seq0 a b s k t s1 k1 : eats a s k t s1 k1 -> fails b s1 k1 -> fails (PSeq a b) s k.
Proof. intros A B. eapply fails_seq2; [eapply eats_gets; exact A|exact B]. Qed.

(** Alternatives. *)
Lemma gets_alt1 a b s k vs rest k' : gets a s k vs rest k' -> gets (PAlt a b) s k vs rest k'.
Proof. intros (t & ns & A & B). exists t, ns. split; [|exact B]. apply RAlt1; [exact A|discriminate]. Qed.
Lemma gets_alt2 a b s k vs rest k' : fails a s k -> gets b s k vs rest k' -> gets (PAlt a b) s k vs rest k'.
Proof. intros F (t & ns & A & B). exists t, ns. split; [|exact B]. apply RAlt2; auto. Qed.
Lemma eats_alt1 a b s k t rest k' : eats a s k t rest k' -> eats (PAlt a b) s k t rest k'.
Proof. intros A em. apply RAlt1; [apply A|discriminate]. Qed.
Lemma eats_alt2 a b s k t rest k' : fails a s k -> eats b s k t rest k' -> eats (PAlt a b) s k t rest k'.
Proof. intros A B em. apply RAlt2; auto. Qed.
Lemma fails_alt a b s k : fails a s k -> fails b s k -> fails (PAlt a b) s k.
Proof. intros A B em. apply RAlt2; auto. Qed.

(** Options. *)
Lemma gets_opt1 a s k vs rest k' : gets a s k vs rest k' -> gets (POpt a) s k vs rest k'.
Proof. intros (t & ns & A & B). exists t, ns. split; [|exact B]. apply ROpt1; [exact A|discriminate]. Qed.
Lemma eats_opt1 a s k t rest k' : eats a s k t rest k' -> eats (POpt a) s k t rest k'.
Proof. intros A em. apply ROpt1; [apply A|discriminate]. Qed.
Lemma eats_opt0 a s k : fails a s k -> eats (POpt a) s k [] s k.
Proof. intros A em. apply ROpt2. auto. Qed.
Lemma gets_opt0 a s k : fails a s k -> gets (POpt a) s k [] s k.
Proof. intros A. eapply eats_gets, eats_opt0, A. Qed.

(** Repetitions. *)
Lemma gets_star1 a s k v1 s1 k1 v2 rest k' vs :
  gets a s k v1 s1 k1 -> gets (PStar a) s1 k1 v2 rest k' -> vs = v1 ++ v2 ->
  gets (PStar a) s k vs rest k'.
Proof.
  intros (t1 & n1 & A & A') (t2 & n2 & B & B') ->. do 2 eexists. split; [eapply RStar1; eassumption|].
  now apply values_app.
Qed.
Lemma eats_star0 a s k : fails a s k -> eats (PStar a) s k [] s k.
Proof. intros A em. apply RStar0. auto. Qed.
Lemma gets_star0 a s k : fails a s k -> gets (PStar a) s k [] s k.
Proof. intros A. eapply eats_gets, eats_star0, A. Qed.
Lemma eats_star1 a s k t1 s1 k1 t2 rest k' t :
  eats a s k t1 s1 k1 -> eats (PStar a) s1 k1 t2 rest k' -> t = t1 ++ t2 -> eats (PStar a) s k t rest k'.
Proof. intros A B -> em. exact (RStar1 G _ _ _ _ _ _ _ _ _ _ _ _ (A em) (B em)). Qed.
Lemma eats0_star1 a s k t1 s1 k1 t2 rest k' t :
  eats0 a s k t1 s1 k1 -> eats0 (PStar a) s1 k1 t2 rest k' -> t = t1 ++ t2 -> eats0 (PStar a) s k t rest k'.
Proof. intros A B ->. exact (RStar1 G _ _ _ _ _ _ _ _ _ _ _ _ A B). Qed.

(** Lookahead. *)
Lemma eats_not a s k : fails a s k -> eats (PNot a) s k [] s k.
Proof. intros A em. exact (RNot G em _ _ _ _ (A false)). Qed.
Lemma fails_not a s k t ns rest k' : runs G false a s k (Ok t ns rest k') -> fails (PNot a) s k.
Proof. intros A em. exact (RNot G em _ _ _ _ A). Qed.
Lemma eats_and a s k t rest k' : eats a s k t rest k' -> eats (PAnd a) s k [] s k.
Proof. intros A em. exact (RAnd G em _ _ _ _ (A false)). Qed.
Lemma fails_and a s k : fails a s k -> fails (PAnd a) s k.
Proof. intros A em. exact (RAnd G em _ _ _ _ (A false)). Qed.

(** The stack. *)
Lemma eats_push a s k t rest k' : eats a s k t rest k' -> eats (PPush a) s k t rest (t :: k').
Proof. intros A em. apply RPush. apply A. Qed.
Lemma eats_peek x rest k : eats PPeek (x ++ rest) (x :: k) x rest (x :: k).
Proof. intros em. apply RPeek. apply strip_self. Qed.
Lemma fails_peek x s k : strip x s = None -> fails PPeek s (x :: k).
Proof. intros H em. now apply RPeekF. Qed.
Lemma eats_peek2 x y rest k : eats (PPeekLast 2) ((x ++ y) ++ rest) (y :: x :: k) (x ++ y) rest (y :: x :: k).
Proof.
  intros em. eapply RPeekL; [|apply strip_self]. unfold peek_last.
  cbn [length Nat.ltb Nat.leb firstn rev app concat]. now rewrite app_nil_r.
Qed.
Lemma fails_peek2 x y s k : strip (x ++ y) s = None -> fails (PPeekLast 2) s (y :: x :: k).
Proof.
  intros H em. eapply RPeekLF; [|exact H]. unfold peek_last.
  cbn [length Nat.ltb Nat.leb firstn rev app concat]. now rewrite app_nil_r.
Qed.
Lemma eats_pop x rest k : eats PPop (x ++ rest) (x :: k) x rest k.
Proof. intros em. apply RPop. apply strip_self. Qed.
Lemma eats_drop x s k : eats PDrop s (x :: k) [] s k.
Proof. intros em. apply RDrop. Qed.

(** Literals and classes. *)
Lemma eats_str p rest k : eats (PStr p) (p ++ rest) k p rest k.
Proof. intros em. apply RStr. apply strip_self. Qed.
Lemma eats_class f c s k : f c = true -> eats (PClass f) (c :: s) k [c] s k.
Proof. intros H em. now apply RClass. Qed.
Lemma fails_str p s k : strip p s = None -> fails (PStr p) s k.
Proof. intros H em. now apply RStrF. Qed.

(** The first character decides. *)
Lemma fails_scan n e s k : fst (scan G n e (hd_error s)) = true -> fails e s k.
Proof. intros H em. now apply (proj1 (scan_sound G n e s)). Qed.

(** Rules. *)
Lemma gets_rule r s k vs rest k' v : fst (G r) = Normal ->
  gets (snd (G r)) s k vs rest k' -> (forall t, s = t ++ rest -> yact r t vs = CVal v) ->
  gets (R_ r) s k [(r, v)] rest k'.
Proof.
  intros Hm (t & ns & A & B) Hv. exists t, [Node r t ns]. split.
  - replace [Node r t ns] with (wrap (fst (G r)) true r t ns) by now rewrite Hm.
    apply RRule. rewrite Hm. exact A.
  - unfold values. cbn [map label consume fold_node call_].
    change (fold_node yaml_act) with consume. unfold values in B.
    change (map (fun c : node yrule => (label c, consume c)) ns)
      with (map (fun n : node yrule => (label n, consume n)) ns).
    unfold yaml_act at 1. rewrite B. cbn [cbind].
    rewrite (Hv t (runs_text G _ _ _ _ _ A _ _ _ _ eq_refl)). reflexivity.
Qed.
Lemma gets_leaf r s k t rest k' v : fst (G r) = Normal ->
  eats (snd (G r)) s k t rest k' -> yact r t [] = CVal v -> gets (R_ r) s k [(r, v)] rest k'.
Proof.
  intros Hm A Hv. exists t, [Node r t []]. split.
  - replace [Node r t []] with (wrap (fst (G r)) true r t []) by now rewrite Hm.
    apply RRule. rewrite Hm. exact (A true).
  - unfold values. cbn [map label consume fold_node call_].
    change (fold_node yaml_act) with consume. unfold yaml_act. cbn [map call_ cbind]. rewrite Hv. reflexivity.
Qed.
Lemma gets_atomic r s k t rest k' v : fst (G r) = Atomic ->
  eats0 (snd (G r)) s k t rest k' -> yact r t [] = CVal v -> gets (R_ r) s k [(r, v)] rest k'.
Proof.
  intros Hm A Hv. exists t, [Node r t []]. split.
  - replace [Node r t []] with (wrap (fst (G r)) true r t []) by now rewrite Hm.
    apply RRule. rewrite Hm. exact A.
  - unfold values. cbn [map label consume fold_node call_].
    change (fold_node yaml_act) with consume. unfold yaml_act. cbn [map call_ cbind]. rewrite Hv. reflexivity.
Qed.
Lemma gets_silent r s k vs rest k' : fst (G r) = Silent ->
  gets (snd (G r)) s k vs rest k' -> gets (R_ r) s k vs rest k'.
Proof.
  intros Hm (t & ns & A & B). exists t, ns. split; [|exact B].
  replace ns with (wrap (fst (G r)) true r t ns) by now rewrite Hm.
  apply RRule. rewrite Hm. exact A.
Qed.
Lemma eats_silent r s k t rest k' : fst (G r) = Silent ->
  eats (snd (G r)) s k t rest k' -> eats (R_ r) s k t rest k'.
Proof.
  intros Hm A em. replace (@nil (node yrule)) with (wrap (fst (G r)) em r t []) by now rewrite Hm.
  apply RRule. rewrite Hm. apply A.
Qed.
Lemma eats0_rule r s k t rest k' :
  eats0 (snd (G r)) s k t rest k' -> eats0 (R_ r) s k t rest k'.
Proof.
  intros A. unfold eats0, R_.
  replace (@nil (node yrule)) with (wrap (fst (G r)) false r t []) by (destruct (fst (G r)); reflexivity).
  apply RRule. destruct (fst (G r)); exact A.
Qed.
Lemma fails_rule r s k : fails (snd (G r)) s k -> fails (R_ r) s k.
Proof. intros A em. apply RRuleF; [apply A|reflexivity]. Qed.

(** The entry point. *)
Lemma parse_of_gets s d : gets (R_ y_yaml) s [] [(y_yaml, VDoc d)] [] [] -> parse_yaml ut s = CVal d.
Proof.
  intros (t & ns & A & B).
  assert (E : exists n, ns = [n]).
  { unfold R_ in A. inversion A; subst; try discriminate. cbn. eauto. }
  destruct E as (n & ->). unfold values in B. cbn [map call_] in B.
  destruct (consume n) as [x| |] eqn:Ec; cbn [cbind] in B; try discriminate. inversion B; subst.
  unfold parse_yaml. unfold R_ in A.
  destruct (eval_complete G _ _ _ _ _ A) as [m Em].
  destruct (rule_total G y_nul y_rank 8 40 (yaml_grammar_ok ut) y_yaml s []) as [x Ex]; [lia|].
  fold (yaml_fuel s) in Ex. revert Ex. generalize (yaml_fuel s). intros f Ex.
  pose proof (eval_sound G _ _ _ _ _ _ Ex) as Hx.
  rewrite (runs_det G _ _ _ _ _ _ Hx A) in Ex. rewrite Ex, Ec. reflexivity.
Qed.

End Reads.
