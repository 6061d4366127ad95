(** Nested sequences: the number of rule calls doubles with every level. *)
From Verif Require Import Base Ast Strings Format Num Peg PegFacts YamlGrammar Consume ParseFacts Spec_Time TimeFacts.
Import ListNotations.

Section Nested.
  Variable ut : unitab.
  Notation G := (yaml_grammar ut).

  (** [n] dashes before a word. *)
  Fixpoint dashes (n : nat) : str :=
    match n with 0 => lit "x" | S n => chr "-" :: SP :: dashes n end.

  Lemma dash_zs em w k : runs G em (PStar y_zs) (chr "-" :: w) k (Ok [] [] (chr "-" :: w) k).
  Proof. apply (eval_sound G 10). reflexivity. Qed.

  Lemma dash_alias em e w k : runs G em (POpt (PSeq (R_ y_alias) e)) (chr "-" :: w) k (Ok [] [] (chr "-" :: w) k).
  Proof. apply (eval_sound G 10). reflexivity. Qed.

  Lemma dash_althash em w k : runs G em (R_ y_alternative_hash) (chr "-" :: w) k Fail.
  Proof. apply (eval_sound G 20). reflexivity. Qed.

  Lemma dash_commentnls em w k :
    runs G em (R_ y_commentnls) (chr "-" :: w) k (Ok [] (if em then [Node y_commentnls [] []] else []) (chr "-" :: w) k).
  Proof. apply (eval_sound G 20). destruct em; reflexivity. Qed.

  Lemma dash_blank em w k : runs G em (R_ y_blank) (chr "-" :: w) k (Ok [] [] (chr "-" :: w) k).
  Proof. apply (eval_sound G 20). destruct em; reflexivity. Qed.

  Lemma dash_hash em w k : runs G em (R_ y_hash) (chr "-" :: w) k Fail.
  Proof. apply (eval_sound G 30). destruct em; reflexivity. Qed.

  Lemma dash_inline em w k : runs G em (R_ y_inline_array) (chr "-" :: w) k Fail.
  Proof. apply (eval_sound G 30). destruct em; reflexivity. Qed.
  (** The value of an element below [n] dashes. *)
  Lemma rule_ok em r s k t ns s1 k1 :
    runs G (emit_in (fst (G r)) em) (snd (G r)) s k (Ok t ns s1 k1) -> exists ns', runs G em (R_ r) s k (Ok t ns' s1 k1).
  Proof. intros H. eexists. apply RRule. exact H. Qed.

  Definition accepts em e s k s1 k1 := exists t ns, runs G em e s k (Ok t ns s1 k1).

  Lemma acc_rule em r s k s1 k1 : accepts (emit_in (fst (G r)) em) (snd (G r)) s k s1 k1 -> accepts em (R_ r) s k s1 k1.
  Proof. intros [t [ns H]]. destruct (rule_ok _ _ _ _ _ _ _ _ H) as [ns' H']. now exists t, ns'. Qed.
  Lemma acc_seq em a b s k s1 k1 s2 k2 :
    accepts em a s k s1 k1 -> accepts em b s1 k1 s2 k2 -> accepts em (PSeq a b) s k s2 k2.
  Proof. intros [t [ns H]] [t' [ns' H']]. eexists _, _. eapply RSeq; eauto. Qed.
  Lemma acc_alt2 em a b s k s1 k1 : runs G em a s k Fail -> accepts em b s k s1 k1 -> accepts em (PAlt a b) s k s1 k1.
  Proof. intros A [t [ns H]]. eexists _, _. eapply RAlt2; eauto. Qed.
  Lemma acc_alt1 em a b s k s1 k1 : accepts em a s k s1 k1 -> accepts em (PAlt a b) s k s1 k1.
  Proof. intros [t [ns H]]. eexists _, _. eapply RAlt1; eauto. discriminate. Qed.
  Lemma acc_runs em e s k t ns s1 k1 : runs G em e s k (Ok t ns s1 k1) -> accepts em e s k s1 k1.
  Proof. intros H. now exists t, ns. Qed.

  Lemma fail_rule em r s k : runs G (emit_in (fst (G r)) em) (snd (G r)) s k Fail -> runs G em (R_ r) s k Fail.
  Proof. intros H. apply RRuleF; auto. Qed.

  (** The element made of a value below one more dash. *)
  Lemma elem_ok n :
    (forall em k, accepts em (R_ y_ba_aliased) (dashes n) k [] k) ->
    forall em k, accepts em (R_ y_first_block_array_element) (dashes (S n)) k [] k.
  Proof.
    intros V em k. apply acc_rule. cbn [yaml_grammar fst snd emit_in].
    apply acc_seq with (s1 := []) (k1 := k); [|eapply acc_runs, (eval_sound G 20); reflexivity].
    apply acc_rule. cbn [yaml_grammar fst snd emit_in].
    eapply acc_seq; [eapply acc_runs, (eval_sound G 20); reflexivity|].
    eapply acc_seq; [|apply V].
    destruct n; (eapply acc_runs, (eval_sound G 20); reflexivity).
  Qed.

  (** A sequence of one element is not an [alternative_array]. *)
  Lemma alt_fails n :
    (forall em k, accepts em (R_ y_ba_aliased) (dashes n) k [] k) ->
    forall em k, runs G em (R_ y_alt_aliased) (dashes (S n)) k Fail.
  Proof.
    intros V em k. destruct (elem_ok n V em k) as [t [ns H]].
    apply fail_rule. cbn [yaml_grammar fst snd emit_in].
    eapply RSeq2; [apply dash_alias| |reflexivity]. apply RAlt2; [apply dash_althash|].
    apply fail_rule. cbn [yaml_grammar fst snd emit_in].
    eapply RSeq2; [exact H| |reflexivity].
    apply RSeq1; [|reflexivity]. apply (eval_sound G 20). reflexivity.
  Qed.

  Lemma value_ok n : forall em k, accepts em (R_ y_ba_aliased) (dashes n) k [] k.
  Proof.
    induction n as [|n V]; intros em k.
    - destruct em.
      + eapply acc_runs, (eval_sound G 60). reflexivity.
      + eapply acc_runs, (eval_sound G 60). reflexivity.
    - apply acc_rule. cbn [yaml_grammar fst snd emit_in]. apply acc_alt2; [now apply alt_fails|].
      apply acc_rule. cbn [yaml_grammar fst snd emit_in].
      eapply acc_seq; [eapply acc_runs, dash_alias|].
      apply acc_rule. cbn [yaml_grammar fst snd emit_in].
      apply acc_alt2; [apply dash_hash|]. apply acc_alt1.
      apply acc_rule. cbn [yaml_grammar fst snd emit_in]. apply acc_alt2; [apply dash_inline|].
      apply acc_rule. cbn [yaml_grammar fst snd emit_in].
      eapply acc_seq; [eapply acc_runs, dash_commentnls|].
      eapply acc_seq; [eapply acc_runs, dash_blank|].
      eapply acc_seq; [eapply acc_runs, RPush, dash_zs|].
      eapply acc_seq; [now apply elem_ok|].
      destruct em; eapply acc_runs, (eval_sound G 40); reflexivity.
  Qed.

  Lemma element_ok n : forall em k, accepts em (R_ y_first_block_array_element) (dashes (S n)) k [] k.
  Proof. apply elem_ok. apply value_ok. Qed.

  (** ---- the work ---- *)

  Lemma array_least n : (forall em k, least G em (R_ y_first_block_array_element) (dashes (S n)) k (2 ^ n)) ->
    forall em k, least G em (R_ y_array) (dashes (S n)) k (2 ^ n).
  Proof.
    intros IH em k. apply least_rule. cbn [yaml_grammar fst snd emit_in].
    apply least_alt2; [apply dash_inline|].
    apply least_rule. cbn [yaml_grammar fst snd emit_in].
    eapply least_seq2; [apply dash_commentnls|].
    eapply least_seq2; [apply dash_blank|].
    eapply least_seq2; [apply RPush, dash_zs|].
    apply least_seq1. apply IH.
  Qed.

  Lemma element_least n : forall em k, least G em (R_ y_first_block_array_element) (dashes (S n)) k (2 ^ n).
  Proof.
    induction n as [|n IH]; intros em k.
    - change (2 ^ 0) with 1. apply least_rule1.
    - apply least_rule. cbn [yaml_grammar fst snd emit_in]. apply least_seq1.
      apply least_rule. cbn [yaml_grammar fst snd emit_in].
      eapply least_seq2; [apply (eval_sound G 20); reflexivity|].
      eapply least_seq2; [apply (eval_sound G 20); reflexivity|].
      apply least_rule. cbn [yaml_grammar fst snd emit_in].
      replace (2 ^ S n) with (2 ^ n + 2 ^ n) by (cbn [Nat.pow]; lia).
      apply least_alt; [apply alt_fails, value_ok| |].
      + apply least_rule. cbn [yaml_grammar fst snd emit_in].
        eapply least_seq2; [apply dash_alias|].
        apply least_alt2; [apply dash_althash|].
        apply least_rule. cbn [yaml_grammar fst snd emit_in].
        apply least_seq1. apply IH.
      + apply least_rule. cbn [yaml_grammar fst snd emit_in].
        eapply least_seq2; [apply dash_alias|].
        apply least_rule. cbn [yaml_grammar fst snd emit_in].
        apply least_alt2; [apply dash_hash|].
        intros r c Q. inversion Q; subst; try contradiction;
        match goal with Q1 : calls _ _ (R_ y_array) _ _ _ _ |- _ => apply (array_least n IH) in Q1 end; lia.
  Qed.
End Nested.
