(** The document read from nested sequences, and the work for whole files. *)
From Verif Require Import Base Ast Strings Format Num Peg PegFacts YamlGrammar Consume Reads ParseFacts Spec_Time
  TimeFacts TimeFacts2.
Import ListNotations.

Section Nested.
  Context (ut : unitab).
  Notation G := (yaml_grammar ut).
  Notation x_ := (Unquoted (lit "x")).
  Notation val n := (VAliased (mkA None (nested n x_))).
  Notation elm n := (VAData [AElem (mkA None (nested n x_))]).

  Lemma elem_gets n k : gets ut (R_ y_ba_aliased) (dashes n) k [(y_ba_aliased, val n)] [] k ->
    gets ut (R_ y_first_block_array_element) (dashes (S n)) k [(y_first_block_array_element, elm n)] [] k.
  Proof.
    intros V.
    apply gets_rule with (vs := [(y_block_array_element, VAElem (AElem (mkA None (nested n x_))))]); [reflexivity| |reflexivity].
    cbn [yaml_grammar snd].
    apply gets_seq with (v1 := [(y_block_array_element, VAElem (AElem (mkA None (nested n x_))))]) (s1 := []) (k1 := k) (v2 := []);
      [|apply (gets_opt0 ut); intros em; apply (eval_sound G 20); reflexivity|reflexivity].
    apply gets_rule with (vs := [(y_ba_aliased, val n)]); [reflexivity| |reflexivity].
    cbn [yaml_grammar snd dashes].
    eapply gets_seq0; [apply (eats_str ut (lit "-") (SP :: dashes n))|].
    eapply gets_seq0; [|exact V]. intros em. destruct n; apply (eval_sound G 20); reflexivity.
  Qed.

  Lemma no_comments s k : hd_error s = Some (chr "-") \/ s = [] ->
    gets ut (R_ y_commentnls) s k [(y_commentnls, VStrs [])] s k.
  Proof.
    intros H. destruct s as [|c s]; [|destruct H as [H|H]; [injection H as ->|discriminate]];
    (eexists _, _; split; [apply (eval_sound G 20); reflexivity|reflexivity]).
  Qed.

  Lemma array_gets n k : (forall k, gets ut (R_ y_ba_aliased) (dashes n) k [(y_ba_aliased, val n)] [] k) ->
    gets ut (R_ y_array) (dashes (S n)) k [(y_array, VYaml (nested (S n) x_))] [] k.
  Proof.
    intros V.
    apply gets_rule with (vs := [(y_block_array, VYaml (nested (S n) x_))]); [reflexivity| |reflexivity].
    cbn [yaml_grammar snd]. apply gets_alt2; [intros em; apply dash_inline|].
    apply gets_rule with (vs := [(y_commentnls, VStrs []); (y_first_block_array_element, elm n); (y_commentnls, VStrs [])]);
      [reflexivity| |reflexivity].
    cbn [yaml_grammar snd].
    apply gets_seq with (v1 := [(y_commentnls, VStrs [])]) (s1 := dashes (S n)) (k1 := k)
      (v2 := [(y_first_block_array_element, elm n); (y_commentnls, VStrs [])]); [apply no_comments; auto| |reflexivity].
    apply gets_seq0 with (t := []) (s1 := dashes (S n)) (k1 := k); [intros em; apply dash_blank|].
    apply gets_seq0 with (t := []) (s1 := dashes (S n)) (k1 := [] :: k); [apply eats_push; intros em; apply dash_zs|].
    apply gets_seq with (v1 := [(y_first_block_array_element, elm n)]) (s1 := []) (k1 := [] :: k)
      (v2 := [(y_commentnls, VStrs [])]); [apply elem_gets, V| |reflexivity].
    apply gets_seq0 with (t := []) (s1 := []) (k1 := [] :: k); [intros em; apply (eval_sound G 20); reflexivity|].
    apply gets_seq0 with (t := []) (s1 := []) (k1 := [] :: k); [intros em; destruct em; apply (eval_sound G 40); reflexivity|].
    apply gets_seq0 with (t := []) (s1 := []) (k1 := k); [apply eats_drop|].
    apply no_comments; auto.
  Qed.

  Lemma value_gets n : forall k, gets ut (R_ y_ba_aliased) (dashes n) k [(y_ba_aliased, val n)] [] k.
  Proof.
    induction n as [|n V]; intros k.
    - eexists _, _. split; [apply (eval_sound G 60); reflexivity|reflexivity].
    - apply gets_rule with (vs := [(y_aliased, val (S n))]); [reflexivity| |reflexivity].
      cbn [yaml_grammar snd]. apply gets_alt2; [intros em; apply alt_fails, value_ok|].
      apply gets_rule with (vs := [(y_yaml_value, VYaml (nested (S n) x_))]); [reflexivity| |reflexivity].
      cbn [yaml_grammar snd].
      apply gets_seq0 with (t := []) (s1 := dashes (S n)) (k1 := k); [intros em; apply dash_alias|].
      apply gets_rule with (vs := [(y_array, VYaml (nested (S n) x_))]); [reflexivity| |reflexivity].
      cbn [yaml_grammar snd]. apply gets_alt2; [intros em; apply dash_hash|]. apply gets_alt1.
      now apply array_gets.
  Qed.

  (** The text the crate writes for the nested sequences. *)
  Lemma inner_text n : forall sp, format (nested (S n) x_) sp (Some ParArray) = SP :: dashes (S n).
  Proof.
    induction n as [|n IH]; intros sp; [reflexivity|].
    change (format (nested (S (S n)) x_) sp (Some ParArray))
      with ((lit " -" ++ format (nested (S n) x_) (sp + 2) (Some ParArray)) ++ []).
    rewrite IH, app_nil_r. reflexivity.
  Qed.

  Lemma nested_text n : format_doc (rooted (nested (S n) x_)) = lit "---" ++ [NL] ++ dashes (S n).
  Proof.
    unfold format_doc, rooted. cbn [leading items flat_map format_docdata app]. rewrite app_nil_r. f_equal.
    change (format (nested (S n) x_) 0 None)
      with (([NL] ++ indent 0 ++ lit "-" ++ format (nested n x_) 2 (Some ParArray)) ++ []).
    rewrite app_nil_r. destruct n; [reflexivity|]. rewrite inner_text. reflexivity.
  Qed.

  Definition deep n := lit "---" ++ [NL] ++ dashes (S n).

  Lemma deep_parse n : parse_yaml ut (deep n) = CVal (rooted (nested (S n) x_)).
  Proof.
    apply parse_of_gets. unfold deep.
    apply gets_rule with (vs := [(y_leading_comments, VStrs []); (y_commentnls, VStrs []);
      (y_document, VYaml (nested (S n) x_)); (y_eoi, VUnit)]); [reflexivity| |reflexivity].
    cbn [yaml_grammar snd].
    apply gets_seq with (v1 := [(y_leading_comments, VStrs [])]) (s1 := deep n) (k1 := [])
      (v2 := [(y_commentnls, VStrs []); (y_document, VYaml (nested (S n) x_)); (y_eoi, VUnit)]); [| |reflexivity].
    { eexists _, _. split; [apply (eval_sound G 30); reflexivity|reflexivity]. }
    unfold deep.
    eapply gets_seq0; [apply (eats_str ut (lit "---"))|].
    apply gets_seq0 with (t := [NL]) (s1 := dashes (S n)) (k1 := []); [intros em; apply (eval_sound G 30); reflexivity|].
    apply gets_seq with (v1 := [(y_commentnls, VStrs [])]) (s1 := dashes (S n)) (k1 := [])
      (v2 := [(y_document, VYaml (nested (S n) x_)); (y_eoi, VUnit)]); [apply no_comments; auto| |reflexivity].
    apply gets_seq with (v1 := [(y_document, VYaml (nested (S n) x_))]) (s1 := []) (k1 := [])
      (v2 := [(y_eoi, VUnit)]); [|eexists _, _; split; [apply (eval_sound G 30); reflexivity|reflexivity]|reflexivity].
    apply gets_rule with (vs := [(y_array, VYaml (nested (S n) x_))]); [reflexivity| |reflexivity].
    cbn [yaml_grammar snd]. apply gets_alt2; [intros em; apply dash_hash|]. apply array_gets, value_gets.
  Qed.

  Lemma deep_least n em : least G em (R_ y_yaml) (deep n) [] (2 ^ n).
  Proof.
    apply least_rule. cbn [yaml_grammar fst snd emit_in].
    apply least_seq2 with (t := []) (ns := if em then [Node y_leading_comments [] []] else []) (s1 := deep n) (k1 := []).
    { apply (eval_sound G 30). destruct em; reflexivity. }
    eapply least_seq2; [apply (eats_str ut (lit "---"))|].
    apply least_seq2 with (t := [NL]) (ns := []) (s1 := dashes (S n)) (k1 := []); [apply (eval_sound G 30); reflexivity|].
    eapply least_seq2; [apply dash_commentnls|]. apply least_seq1.
    apply least_rule. cbn [yaml_grammar fst snd emit_in].
    apply least_alt2; [apply dash_hash|]. apply array_least. apply element_least.
  Qed.
End Nested.

(** A power of two beats every polynomial. *)
Lemma pow_above j : j + 1 <= 2 ^ j.
Proof. induction j; cbn [Nat.pow]; lia. Qed.

Lemma beats a k : exists n, a * (2 * n + 7) ^ k < 2 ^ n.
Proof.
  set (j := 4 * (k + 1) + a + 7). set (m := 2 * j). exists ((k + 1) * m).
  assert (P : 2 * ((k + 1) * m) + 7 <= 2 ^ m).
  { replace (2 ^ m) with (2 ^ j * 2 ^ j) by (unfold m; rewrite <- Nat.pow_add_r; f_equal; lia).
    pose proof (pow_above j). assert ((j + 1) * (j + 1) <= 2 ^ j * 2 ^ j) by (apply Nat.mul_le_mono; lia).
    assert (4 * (k + 1) * j <= j * j) by (apply Nat.mul_le_mono_r; unfold j; lia).
    replace (2 * ((k + 1) * m)) with (4 * (k + 1) * j) by (unfold m; lia).
    assert (7 <= j) by (unfold j; lia). lia. }
  assert (A : a < 2 ^ m). { pose proof (pow_above m). unfold m, j in *. lia. }
  rewrite Nat.mul_comm with (n := k + 1). rewrite Nat.pow_mul_r.
  replace (k + 1) with (S k) by lia. cbn [Nat.pow].
  replace (S k) with (k + 1) by lia. rewrite Nat.mul_comm with (n := m).
  apply Nat.le_lt_trans with (a * (2 ^ m) ^ k).
  - apply Nat.mul_le_mono_l. apply Nat.pow_le_mono_l. exact P.
  - apply Nat.mul_lt_mono_pos_r; [|exact A]. pose proof (Nat.pow_nonzero (2 ^ m) k). lia.
Qed.

Section Files.
  Context (ut : unitab).
  Notation G := (yaml_grammar ut).

  Lemma one_count s : exists r c, calls G true (PRule y_yaml) s [] r c /\ c < 2 ^ (369 * (length s + 1)) /\
    forall r' c', calls G true (PRule y_yaml) s [] r' c' -> r' = r /\ c' = c.
  Proof.
    destruct (yaml_total ut s) as [r [E _]]. destruct (calls_pow G _ _ _ _ _ _ E) as [c [C B]].
    exists r, c. split; [exact C|]. split.
    - revert B. unfold yaml_fuel, fuel. replace (S (length s) * ((8 + 1) * (40 + 1))) with (369 * (length s + 1)) by lia.
      generalize (2 ^ (369 * (length s + 1))). auto.
    - intros r' c' C'. split; [exact (runs_det G _ _ _ _ _ _ (calls_runs _ _ _ _ _ _ _ C') (calls_runs _ _ _ _ _ _ _ C))|].
      symmetry. exact (calls_det G _ _ _ _ _ _ C _ _ C').
  Qed.

  Lemma dashes_length n : length (dashes n) = 2 * n + 1.
  Proof. induction n; cbn [dashes length]; [reflexivity|lia]. Qed.

  Lemma nested_work n : let y := nested (S n) (Unquoted (lit "x")) in
    parse_yaml ut (format_doc (rooted y)) = CVal (rooted y) /\
    length (format_doc (rooted y)) = 2 * n + 7 /\
    forall r c, calls G true (PRule y_yaml) (format_doc (rooted y)) [] r c -> 2 ^ n <= c.
  Proof.
    intros y. unfold y. rewrite nested_text. split; [apply deep_parse|]. split.
    - cbn [lit app length]. rewrite dashes_length. cbn. lia.
    - intros r c C. exact (deep_least ut n true r c C).
  Qed.

  Lemma no_polynomial a k : exists s d r c,
    parse_yaml ut s = CVal d /\ calls G true (PRule y_yaml) s [] r c /\ a * length s ^ k < c.
  Proof.
    destruct (beats a k) as [n Hn]. destruct (nested_work n) as [P [L W]].
    set (s := format_doc (rooted (nested (S n) (Unquoted (lit "x"))))) in *.
    destruct (one_count s) as [r [c [C _]]]. exists s, (rooted (nested (S n) (Unquoted (lit "x")))), r, c.
    split; [exact P|]. split; [exact C|]. specialize (W _ _ C). rewrite L. lia.
  Qed.
End Files.
