(** Inversion of runs of the parser with the values of their nodes. *)
From Coq Require Import ZArith.
From Verif Require Import Base Ast Num Peg PegFacts PegTree YamlGrammar Consume Spec_Parse
  Spec_Format Spec_Stable YamlTree YamlValues ParseFacts Reads.
Import ListNotations.

Section Gives.
Context (ut : unitab).
Notation G := (yaml_grammar ut).

(** [e] matches the front of [s] within [n] steps, leaving [rest]; its nodes have the
    values [vs]. *)
Definition gives (n : nat) (e : yexp) (s : str) (k : list str) (vs : list (yrule * yval))
  (rest : str) (k' : list str) : Prop :=
  exists t ns, eval G n true e s k = Some (Ok t ns rest k') /\ values ns = CVal vs.
Definition refuses (n : nat) (e : yexp) (s : str) (k : list str) : Prop :=
  eval G n true e s k = Some Fail.

Lemma values_app_inv a b v : values (a ++ b) = CVal v ->
  exists va vb, v = va ++ vb /\ values a = CVal va /\ values b = CVal vb.
Proof.
  unfold values. revert v. induction a as [|n a IH]; intros v H; cbn [map app call_] in *.
  - exists [], v. auto.
  - destruct (consume n) as [x| |]; cbn [cbind] in *; try discriminate.
    destruct (call_ (map _ (a ++ b))) as [w| |] eqn:E; cbn [cbind] in *; try discriminate.
    destruct (IH w eq_refl) as (va & vb & -> & -> & ->). inversion H; subst.
    exists ((label n, x) :: va), vb. auto.
Qed.

Lemma gives_runs n e s k vs rest k' : gives n e s k vs rest k' ->
  exists t ns, runs G true e s k (Ok t ns rest k') /\ values ns = CVal vs /\ s = t ++ rest.
Proof.
  intros (t & ns & H & V). apply eval_sound in H. exists t, ns. split; [exact H|]. split; [exact V|].
  exact (runs_text G _ _ _ _ _ H _ _ _ _ eq_refl).
Qed.
Lemma refuses_runs n e s k : refuses n e s k -> runs G true e s k Fail.
Proof. apply eval_sound. Qed.

Lemma g_seq n a b s k vs rest k' : gives n (PSeq a b) s k vs rest k' ->
  exists m v1 s1 k1 v2, m < n /\ gives m a s k v1 s1 k1 /\ gives m b s1 k1 v2 rest k' /\ vs = v1 ++ v2.
Proof.
  intros (t & ns & H & V). destruct n as [|n]; [discriminate|]. cbn [eval] in H.
  destruct (eval G n true a s k) as [[t1 n1 s1 k1| |]|] eqn:E1; try discriminate.
  destruct (eval G n true b s1 k1) as [[t2 n2 s2 k2| |]|] eqn:E2; try discriminate.
  inversion H; subst. apply values_app_inv in V as (v1 & v2 & -> & V1 & V2).
  exists n, v1, s1, k1, v2. split; [lia|]. split; [exists t1, n1; auto|]. split; [exists t2, n2; auto|reflexivity].
Qed.
Lemma g_alt n a b s k vs rest k' : gives n (PAlt a b) s k vs rest k' ->
  exists m, m < n /\ (gives m a s k vs rest k' \/ (refuses m a s k /\ gives m b s k vs rest k')).
Proof.
  intros (t & ns & H & V). destruct n as [|n]; [discriminate|]. cbn [eval] in H.
  exists n. split; [lia|].
  destruct (eval G n true a s k) as [[t1 n1 s1 k1| |]|] eqn:E1; try discriminate.
  - inversion H; subst. left. exists t, ns. auto.
  - right. split; [exact E1|]. exists t, ns. auto.
Qed.
Lemma g_opt n a s k vs rest k' : gives n (POpt a) s k vs rest k' ->
  exists m, m < n /\ (gives m a s k vs rest k' \/ (refuses m a s k /\ vs = [] /\ rest = s /\ k' = k)).
Proof.
  intros (t & ns & H & V). destruct n as [|n]; [discriminate|]. cbn [eval] in H.
  exists n. split; [lia|].
  destruct (eval G n true a s k) as [[t1 n1 s1 k1| |]|] eqn:E1; try discriminate.
  - inversion H; subst. left. exists t, ns. auto.
  - inversion H; subst. inversion V; subst. right. auto.
Qed.
Lemma g_star n a s k vs rest k' : gives n (PStar a) s k vs rest k' ->
  exists m, m < n /\
    ((exists v1 s1 k1 v2, gives m a s k v1 s1 k1 /\ gives m (PStar a) s1 k1 v2 rest k' /\ vs = v1 ++ v2)
     \/ (refuses m a s k /\ vs = [] /\ rest = s /\ k' = k)).
Proof.
  intros (t & ns & H & V). destruct n as [|n]; [discriminate|]. cbn [eval] in H.
  exists n. split; [lia|].
  destruct (eval G n true a s k) as [[t1 n1 s1 k1| |]|] eqn:E1; try discriminate.
  - destruct (eval G n true (PStar a) s1 k1) as [[t2 n2 s2 k2| |]|] eqn:E2; try discriminate.
    inversion H; subst. apply values_app_inv in V as (v1 & v2 & -> & V1 & V2).
    left. exists v1, s1, k1, v2. split; [exists t1, n1; auto|]. split; [exists t2, n2; auto|reflexivity].
  - inversion H; subst. inversion V; subst. right. auto.
Qed.
Lemma g_push n a s k vs rest k' : gives n (PPush a) s k vs rest k' ->
  exists m k1, m < n /\ gives m a s k vs rest k1.
Proof.
  intros (t & ns & H & V). destruct n as [|n]; [discriminate|]. cbn [eval] in H.
  exists n. destruct (eval G n true a s k) as [[t1 n1 s1 k1| |]|] eqn:E1; try discriminate.
  inversion H; subst. exists k1. split; [lia|]. exists t, ns. auto.
Qed.
(** Expressions that match nothing or only text. *)
Lemma g_str n p s k vs rest k' : gives n (PStr p) s k vs rest k' -> vs = [] /\ s = p ++ rest.
Proof.
  intros H. apply gives_runs in H as (t & ns & H & V & E). inversion H; subst. inversion V; subst. auto.
Qed.
Lemma g_and n a s k vs rest k' : gives n (PAnd a) s k vs rest k' -> vs = [] /\ rest = s.
Proof.
  intros H. apply gives_runs in H as (t & ns & H & V & E). inversion H; subst.
  destruct r; try discriminate. match goal with X : Ok _ _ _ _ = _ |- _ => inversion X; subst end.
  inversion V; subst. auto.
Qed.
Lemma g_drop n s k vs rest k' : gives n PDrop s k vs rest k' -> vs = [] /\ rest = s.
Proof.
  intros H. apply gives_runs in H as (t & ns & H & V & E). inversion H; subst.
  inversion V; subst. auto.
Qed.
Lemma g_quiet n e s k vs rest k' : quiet G 4 e = true -> gives n e s k vs rest k' -> vs = [].
Proof.
  intros Q H. apply gives_runs in H as (t & ns & H & V & E).
  pose proof (runs_shp G _ _ _ _ _ H eq_refl _ _ _ _ eq_refl 4) as X.
  apply (quiet_nil G 4) in X; [|exact Q]. subst ns. now inversion V.
Qed.

(** Rules. *)
Lemma values_one r t ch vs : values [Node r t ch] = CVal vs ->
  exists cvs v, vs = [(r, v)] /\ values ch = CVal cvs /\ yact r t cvs = CVal v.
Proof.
  intros H. unfold values in H at 1. cbn [map call_ label] in H.
  change (consume (Node r t ch)) with (cbind (values ch) (yact r t)) in H.
  destruct (values ch) as [cvs| |] eqn:E1; cbn [cbind] in H; try discriminate.
  destruct (yact r t cvs) as [v| |] eqn:E2; cbn [cbind] in H; try discriminate.
  inversion H; subst. exists cvs, v. auto.
Qed.
Lemma g_rule n r s k vs rest k' : fst (G r) = Normal -> gives n (R_ r) s k vs rest k' ->
  exists m t cvs v, m < n /\ gives m (snd (G r)) s k cvs rest k' /\ s = t ++ rest
    /\ yact r t cvs = CVal v /\ vs = [(r, v)].
Proof.
  intros Em H. pose proof (gives_runs _ _ _ _ _ _ _ H) as (t' & ns' & Hr & _ & Es).
  destruct H as (t & ns & H & V). destruct n as [|n]; [discriminate|]. cbn [eval R_] in H.
  rewrite Em in H. cbn [emit_in wrap] in H.
  destruct (eval G n true (snd (G r)) s k) as [[t1 n1 s1 k1| |]|] eqn:E1; try discriminate.
  inversion H; subst t ns s1 k1. apply values_one in V as (cvs & v & -> & V & A).
  exists n, t1, cvs, v. split; [lia|]. split; [exists t1, n1; auto|].
  split; [|auto]. exact (runs_text G _ _ _ _ _ (eval_sound _ _ _ _ _ _ _ E1) _ _ _ _ eq_refl).
Qed.
Lemma g_silent n r s k vs rest k' : fst (G r) = Silent -> gives n (R_ r) s k vs rest k' ->
  exists m, m < n /\ gives m (snd (G r)) s k vs rest k'.
Proof.
  intros Em (t & ns & H & V). destruct n as [|n]; [discriminate|]. cbn [eval R_] in H.
  rewrite Em in H. cbn [emit_in wrap] in H.
  destruct (eval G n true (snd (G r)) s k) as [[t1 n1 s1 k1| |]|] eqn:E1; try discriminate.
  inversion H; subst. exists n. split; [lia|]. exists t, ns. auto.
Qed.
(** The value is as described in YamlValues.v. *)
Lemma g_typed n r s k vs rest k' : fst (G r) <> Silent -> consumed r = true ->
  gives n (R_ r) s k vs rest k' -> exists v, vs = [(r, v)] /\ vty ut r v.
Proof.
  intros Em Hc H. apply gives_runs in H as (t & ns & H & V & _).
  pose proof (runs_trees G y_end (y_eoi_only ut) _ _ _ _ _ H) as T.
  assert (Q : eoi_only y_end (R_ r) = true) by reflexivity.
  destruct (T Q _ _ _ _ eq_refl) as [T1 _]. clear T Q.
  unfold R_ in H. inversion H; subst; [|discriminate].
  assert (exists ch, wrap (fst (G r)) true r t ns0 = [Node r t ch]) as (ch & E).
  { destruct (fst (G r)); cbn; eauto. congruence. }
  rewrite E in *. inversion T1; subst. 
  match goal with X : tree _ _ _ |- _ => apply tree_good in X; [|exact Hc]; unfold good in X end.
  unfold values in V. cbn [map call_] in V. destruct (consume (Node r t ch)) as [v| |]; cbn [cbind] in V; try discriminate.
  inversion V; subst. exists v. auto.
Qed.

(** Failures. *)
Lemma r_seq n a b s k : refuses n (PSeq a b) s k ->
  exists m, m < n /\ (refuses m a s k \/ exists t ns s1 k1, eval G m true a s k = Some (Ok t ns s1 k1) /\ refuses m b s1 k1).
Proof.
  unfold refuses. destruct n as [|n]; [discriminate|]. cbn [eval]. intros H. exists n. split; [lia|].
  destruct (eval G n true a s k) as [[t1 n1 s1 k1| |]|] eqn:E1; try discriminate; [|auto].
  right. exists t1, n1, s1, k1. split; [reflexivity|].
  destruct (eval G n true b s1 k1) as [[t2 n2 s2 k2| |]|] eqn:E2; try discriminate. reflexivity.
Qed.
Lemma r_opt n a s k : refuses n (POpt a) s k -> False.
Proof.
  unfold refuses. destruct n as [|n]; [discriminate|]. cbn [eval].
  destruct (eval G n true a s k) as [[t1 n1 s1 k1| |]|] eqn:E1; discriminate.
Qed.
Lemma r_star n a : forall s k, refuses n (PStar a) s k -> False.
Proof.
  unfold refuses. induction n as [|n IH]; [discriminate|]. intros s k. cbn [eval].
  destruct (eval G n true a s k) as [[t1 n1 s1 k1| |]|] eqn:E1; try discriminate.
  destruct (eval G n true (PStar a) s1 k1) as [[t2 n2 s2 k2| |]|] eqn:E2; try discriminate.
  intros _. exact (IH _ _ E2).
Qed.
Lemma r_alt n a b s k : refuses n (PAlt a b) s k -> exists m, m < n /\ refuses m a s k /\ refuses m b s k.
Proof.
  unfold refuses. destruct n as [|n]; [discriminate|]. cbn [eval]. intros H. exists n. split; [lia|].
  destruct (eval G n true a s k) as [[t1 n1 s1 k1| |]|] eqn:E1; try discriminate. auto.
Qed.
Lemma r_rule n r s k : refuses n (R_ r) s k -> exists m, m < n /\
  eval G m (emit_in (fst (G r)) true) (snd (G r)) s k = Some Fail.
Proof.
  unfold refuses. destruct n as [|n]; [discriminate|]. cbn [eval R_]. intros H. exists n. split; [lia|].
  destruct (eval G n _ (snd (G r)) s k) as [[t1 n1 s1 k1| |]|] eqn:E1; try discriminate. reflexivity.
Qed.

(** Repetitions. *)
Lemma g_star_all (I : str -> Prop) (Q : list (yrule * yval) -> Prop) e :
  forall n s k vs rest k',
  (forall m s k vs rest k', m < n -> gives m e s k vs rest k' -> I s -> Q vs /\ I rest) ->
  gives n (PStar e) s k vs rest k' -> I s ->
  exists vss, vs = concat vss /\ Forall Q vss /\ I rest /\ exists m, m < n /\ refuses m e rest k'.
Proof.
  induction n as [n IH] using lt_wf_ind. intros s k vs rest k' He H Is.
  apply g_star in H as (m & Hm & [(v1 & s1 & k1 & v2 & A & B & ->)|(A & -> & -> & ->)]).
  - destruct (He _ _ _ _ _ _ Hm A Is) as [Q1 I1].
    destruct (IH m Hm s1 k1 v2 rest k') as (vss & -> & F & Ir & m' & Hm' & R); auto.
    { intros. eapply He; [|eassumption|assumption]. lia. }
    exists (v1 :: vss). split; [reflexivity|]. split; [constructor; auto|]. split; [exact Ir|].
    exists m'. split; [lia|exact R].
  - exists []. split; [reflexivity|]. split; [constructor|]. split; [exact Is|]. eauto.
Qed.
End Gives.
