(** Counting the rule calls of a run. *)
From Verif Require Import Base Ast Strings Format Num Peg PegFacts YamlGrammar Consume ParseFacts Spec_Time.
Import ListNotations.

Section Calls.
  Context {R : Type} (G : R -> rmode * pexp R).

  Lemma calls_runs em e s k r c : calls G em e s k r c -> runs G em e s k r.
  Proof. induction 1; auto; try (econstructor; eauto; fail). Qed.

  Lemma runs_calls em e s k r : runs G em e s k r -> exists c, calls G em e s k r c.
  Proof.
    induction 1;
      repeat match goal with H : exists c, calls _ _ _ _ _ _ _ |- _ => destruct H as [? ?] end;
      try (exists 0; apply CBase; [exact I|econstructor; eauto]; fail);
      try (eexists; econstructor; eauto; fail).
  Qed.

  Ltac same :=
    repeat match goal with
    | H1 : calls G ?em ?e ?s ?k ?r ?c, H2 : calls G ?em ?e ?s ?k ?r' ?c' |- _ =>
        lazymatch r with
        | r' => fail
        | _ => let E := fresh "E" in
               pose proof (runs_det G _ _ _ _ _ _ (calls_runs _ _ _ _ _ _ H1) (calls_runs _ _ _ _ _ _ H2)) as E;
               first [discriminate E | injection E; intros; subst | subst]
        end
    end.

  Lemma calls_det em e s k r c : calls G em e s k r c -> forall r' c', calls G em e s k r' c' -> c = c'.
  Proof.
    induction 1; intros r' c' Q;
      try (match goal with H : match ?e with _ => _ end |- _ => destruct e; try contradiction end;
           inversion Q; subst; auto; fail);
      inversion Q; subst; try contradiction; same; try discriminate; try congruence;
      repeat match goal with
      | IH : forall r' c', calls G ?em ?e ?s ?k r' c' -> ?c = c', H : calls G ?em ?e ?s ?k _ ?c2 |- _ =>
          lazymatch c2 with c => fail | _ => pose proof (IH _ _ H); clear IH end
      end; try congruence.
  Qed.

  Lemma calls_pow n : forall em e s k r, eval G n em e s k = Some r -> exists c, calls G em e s k r c /\ c < 2 ^ n.
  Proof.
    assert (B : forall n, 1 <= 2 ^ n) by (intros m; pose proof (Nat.pow_nonzero 2 m); lia).
    induction n as [|n IH]; intros em e s k r H; [discriminate|].
    pose proof (B n) as Bn. cbn [Nat.pow].
    assert (D : forall em e s k r, eval G (S n) em e s k = Some r ->
      match e with PStr _ | PClass _ | PPeek | PPeekLast _ | PPop | PDrop | PEOI _ => True | _ => False end ->
      exists c, calls G em e s k r c /\ c < 2 ^ n + (2 ^ n + 0)).
    { intros em0 e0 s0 k0 r0 E T. exists 0. split; [|lia]. apply CBase; [exact T|]. exact (eval_sound _ _ _ _ _ _ _ E). }
    pose proof (eval_sound _ _ _ _ _ _ _ H) as HR.
    destruct e as [p|f|a b|a b|a|a|a|a|a| |m| | |q|q]; try (apply D; [exact H|exact I]); clear D;
    cbn [eval] in H;
    repeat match goal with
    | H : match eval G n ?em ?e ?s ?k with _ => _ end = _ |- _ =>
        let E := fresh "E" in destruct (eval G n em e s k) as [[? ? ? ?| |]|] eqn:E; try discriminate H
    end;
    try (injection H as <-);
    repeat match goal with E : eval G n _ _ _ _ = Some _ |- _ => apply IH in E; destruct E as [? [? ?]] end;
    try (eexists; split; [econstructor; solve [eassumption | discriminate | reflexivity]|lia]; fail);
    try (inversion HR; fail).
    all: try (match goal with E : calls G false _ _ _ _ ?c |- exists _, calls G _ (PNot _) _ _ _ _ /\ _ =>
            exists c; split; [exact (CNot G _ _ _ _ _ c E)|lia] end).
    all: try (match goal with E : calls G false _ _ _ _ ?c |- exists _, calls G _ (PAnd _) _ _ _ _ /\ _ =>
            exists c; split; [exact (CAnd G _ _ _ _ _ c E)|lia] end).
  Qed.

  (** At least [n] calls, whatever the outcome. *)
  Definition least em e s k n := forall r c, calls G em e s k r c -> n <= c.

  Lemma least_seq1 em a b s k n : least em a s k n -> least em (PSeq a b) s k n.
  Proof. intros H r c Q. inversion Q; subst; try contradiction; match goal with Q1 : calls G em a s k _ _ |- _ => apply H in Q1 end; lia. Qed.

  Lemma least_seq2 em a b s k n t ns s1 k1 :
    runs G em a s k (Ok t ns s1 k1) -> least em b s1 k1 n -> least em (PSeq a b) s k n.
  Proof.
    intros A H r c Q. inversion Q; subst; try contradiction;
    match goal with Q1 : calls G em a s k _ _ |- _ =>
      pose proof (runs_det G _ _ _ _ _ _ A (calls_runs _ _ _ _ _ _ Q1)) as E end;
    try (subst; discriminate); injection E; intros; subst;
    match goal with Q1 : calls G em b _ _ _ _ |- _ => apply H in Q1 end; lia.
  Qed.

  Lemma least_alt em a b s k n m :
    runs G em a s k Fail -> least em a s k n -> least em b s k m -> least em (PAlt a b) s k (n + m).
  Proof.
    intros A H1 H2 r c Q. inversion Q; subst; try contradiction.
    - match goal with Q1 : calls G em a s k _ _ |- _ => 
      pose proof (runs_det G _ _ _ _ _ _ A (calls_runs _ _ _ _ _ _ Q1)) as E end. congruence.
    - match goal with Q1 : calls G em a s k _ _ |- _ => apply H1 in Q1 end.
      match goal with Q1 : calls G em b s k _ _ |- _ => apply H2 in Q1 end. lia.
  Qed.

  Lemma least_0 em e s k : least em e s k 0.
  Proof. intros r c _. lia. Qed.

  Lemma least_alt2 em a b s k n : runs G em a s k Fail -> least em b s k n -> least em (PAlt a b) s k n.
  Proof. intros A H. apply (least_alt em a b s k 0 n A); auto. apply least_0. Qed.

  Lemma least_rule em r s k n : least (emit_in (fst (G r)) em) (snd (G r)) s k n -> least em (PRule r) s k n.
  Proof. intros H x c Q. inversion Q; subst; try contradiction; match goal with Q1 : calls G _ _ s k _ _ |- _ => apply H in Q1 end; lia. Qed.

  Lemma least_rule1 em r s k : least em (PRule r) s k 1.
  Proof. intros x c Q. inversion Q; subst; try contradiction; lia. Qed.
End Calls.
