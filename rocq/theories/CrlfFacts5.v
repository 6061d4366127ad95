(** CRLF: a text and its CR LF form are read alike. *)
From Coq Require Import ZArith.
From Verif Require Import Base Ast Num Peg PegFacts PegTree YamlGrammar Consume YamlTree YamlValues ParseFacts Spec_Crlf CrlfFacts CrlfFacts2 CrlfFacts3 CrlfFacts4.
Import ListNotations.

(** ---- block scalars ---- *)
Lemma onto_twice z : onto [] (onto [] z) = onto [] z.
Proof. destruct z as [|[|c l] z]; reflexivity. Qed.
Lemma fold_squeeze a z : fold_right onto z (squeeze a) = fold_right onto z a.
Proof.
  induction a as [|x a IH]; [reflexivity|]. cbn [squeeze fold_right] in *. fold (squeeze a) in *. rewrite <- IH.
  destruct x as [|c x]; [|reflexivity]. destruct (squeeze a) as [|[|d y] r]; [reflexivity| |reflexivity].
  change (onto [] (fold_right onto z r) = onto [] (onto [] (fold_right onto z r))). now rewrite onto_twice.
Qed.
Lemma squeeze_app a a' b b' : squeeze a' = squeeze a -> squeeze b' = squeeze b -> squeeze (a' ++ b') = squeeze (a ++ b).
Proof.
  intros E1 E2. unfold squeeze. rewrite !fold_right_app. fold (squeeze b) (squeeze b'). rewrite E2.
  now rewrite <- (fold_squeeze a), <- (fold_squeeze a'), E1.
Qed.
Lemma squeeze_head ls : hd_error (squeeze ls) = hd_error ls.
Proof. destruct ls as [|l ls]; [reflexivity|]. cbn [squeeze fold_right]. destruct l as [|c l]; [|reflexivity]. destruct (fold_right onto [] ls) as [|[|]]; reflexivity. Qed.

Lemma clean_squeeze n ls : cmap squeeze (clean_lines n ls) = cmap squeeze (clean_lines n (squeeze ls)).
Proof.
  induction ls as [|l ls IH]; [reflexivity|]. cbn [squeeze fold_right]. fold (squeeze ls). destruct l as [|c l].
  - cbn [clean_lines]. destruct (squeeze ls) as [|[|d y] r] eqn:E; cbn [onto].
    + cbn [clean_lines] in *. destruct (clean_lines n ls); cbn [cbind cmap] in *; try discriminate IH. inversion IH as [E1].
      cbn [squeeze fold_right]. fold (squeeze x). now rewrite E1.
    + cbn [clean_lines] in *. destruct (clean_lines n ls), (clean_lines n r); cbn [cbind cmap] in *; try discriminate IH; try reflexivity.
      assert (E1 : squeeze x = onto [] (squeeze x0)) by (inversion IH as [E0]; exact E0).
      change (CVal (onto [] (squeeze x)) = CVal (onto [] (squeeze x0))). now rewrite E1, onto_twice.
    + cbn [clean_lines] in *. destruct (clean_lines n ls); cbn [cbind cmap] in *.
      * destruct (slice_from n (d :: y)); [|discriminate IH]. destruct (clean_lines n r); cbn [cbind cmap] in *; try discriminate IH.
        inversion IH as [E1]. cbn [squeeze fold_right] in *. fold (squeeze x) (squeeze x0) in *. now rewrite E1.
      * destruct (slice_from n (d :: y)); [|discriminate IH]. now destruct (clean_lines n r).
      * destruct (slice_from n (d :: y)); [|reflexivity]. now destruct (clean_lines n r).
  - cbn [onto clean_lines]. destruct (slice_from n (c :: l)) as [x|]; [|reflexivity].
    destruct (clean_lines n ls), (clean_lines n (squeeze ls)); cbn [cbind cmap] in *; try discriminate; try reflexivity.
    inversion IH as [E]. cbn [squeeze fold_right]. fold (squeeze x0) (squeeze x1). now rewrite E.
Qed.
Lemma clean_rel n ls ls' : squeeze ls' = squeeze ls -> cmap squeeze (clean_lines n ls') = cmap squeeze (clean_lines n ls).
Proof. intros E. rewrite (clean_squeeze n ls), (clean_squeeze n ls'). now rewrite E. Qed.
Lemma clean_multi_rel i ls ls' : squeeze ls' = squeeze ls ->
  cmap squeeze (clean_multiline i ls') = cmap squeeze (clean_multiline i ls).
Proof.
  intros E. unfold clean_multiline. destruct i as [n|]; [now apply clean_rel|].
  pose proof (squeeze_head ls) as H. pose proof (squeeze_head ls') as H'. rewrite E, H in H'.
  destruct ls as [|l ls], ls' as [|l' ls']; try discriminate H'; [reflexivity|]. inversion H'; subst. now apply clean_rel.
Qed.

Lemma multi_rel (mk : list str -> chomp -> yaml) ls ls' c c' : (forall a b (c : chomp), squeeze a = squeeze b -> blur (mk a c) = blur (mk b c)) ->
  c' = c -> forall r, is_ml r = false ->
  cmap squeeze ls' = cmap squeeze ls ->
  rel r (cbind ls (fun x => CVal (VYaml (mk x c)))) (cbind ls' (fun x => CVal (VYaml (mk x c')))).
Proof.
  intros Hm -> r Hr E. apply rel_of_blur; [assumption|].
  destruct ls as [x| |], ls' as [x'| |]; cbn [cmap cbind] in *; try discriminate E; try reflexivity.
  inversion E as [E1]. cbn [blur_v]. now rewrite (Hm _ _ c E1).
Qed.

Lemma squeeze_empty a b : (a = 0 <-> b = 0) -> squeeze (repeat [] a) = squeeze (repeat [] b).
Proof.
  intros H. assert (S : forall n, squeeze (repeat [] (S n)) = [[]]).
  { induction n as [|n IH]; [reflexivity|]. change (squeeze (repeat [] (S (S n)))) with (onto [] (squeeze (repeat [] (S n)))). now rewrite IH. }
  destruct a, b; try lia; [reflexivity|]. now rewrite !S.
Qed.
Lemma concat_squeeze (ls ls' : list (list str)) : Forall2 (fun l l' => squeeze l' = squeeze l) ls ls' ->
  squeeze (concat ls') = squeeze (concat ls).
Proof. induction 1 as [|l l' ls ls' E _ IH]; [reflexivity|]. cbn [concat]. now apply squeeze_app. Qed.

Lemma many_ml l l' : Forall2 valrel l l' ->
  Forall2 (fun a a' => squeeze a' = squeeze a) (fst (many as_ml_part l)) (fst (many as_ml_part l')) /\
  Forall2 valrel (snd (many as_ml_part l)) (snd (many as_ml_part l')).
Proof.
  induction 1 as [|[q v] [q' v'] l l' [E R] H IH]; [split; constructor|]. cbn [fst snd] in *. subst q'.
  cbn [many]. destruct IH as [IH1 IH2].
  assert (D : (q = y_ml_part /\ exists a a', v = VStrs a /\ v' = VStrs a' /\ squeeze a' = squeeze a) \/
              (as_ml_part (q, v) = None /\ as_ml_part (q, v') = None)).
  { destruct q; try (right; split; reflexivity). left. now split. }
  destruct D as [(-> & a & a' & -> & -> & E)|[-> ->]]; cbn [as_ml_part].
  - destruct (many as_ml_part l), (many as_ml_part l'). cbn [fst snd] in *. split; [now constructor|assumption].
  - cbn [fst snd]. split; [constructor|]. constructor; [now split|assumption].
Qed.

Lemma utf8_zero t : utf8_len t = 0 <-> t = [].
Proof.
  split; [|now intros ->]. destruct t as [|c t]; [reflexivity|]. unfold utf8_len. cbn [map list_sum fold_right].
  assert (1 <= char_len c). { unfold char_len. repeat destruct (_ <? _)%N; lia. }
  lia.
Qed.
Lemma crlf_zero t : utf8_len t = 0 <-> utf8_len (crlf t) = 0.
Proof. rewrite !utf8_zero. split; [now intros ->|apply crlf_nil]. Qed.

Lemma nls_crlf t : filter (ceqb NL) (crlf t) = filter (ceqb NL) t.
Proof.
  induction t as [|c t IH]; [reflexivity|]. destruct (N.eq_dec c NL) as [-> |N].
  - rewrite crlf_nl. cbn [filter]. rewrite ceqb_refl. change (ceqb NL CR) with false. cbv iota. now rewrite IH.
  - rewrite crlf_cons by assumption. cbn [filter]. destruct (ceqb NL c); now rewrite IH.
Qed.

(** Rules whose text is used as it is. *)
Definition texty (r : yrule) : bool :=
  match r with
  | y_comment_text | y_alias_name | y_unquoted_string | y_unquoted_inline_string | y_block_string | y_chomping | y_ml_indent | y_hash_key | y_single_quote => true
  | _ => false
  end.

Lemma step_rel r t t' l l' : needed r = true -> t' = crlf t -> (texty r = true -> t' = t) -> Forall2 valrel l l' ->
  rel r (yact r t l) (yact r t' l').
Proof.
  intros Nr Et Ht F. destruct (plain_rule r) eqn:Pr.
  - assert (Hml : is_ml r = false) by (destruct r; try discriminate Pr; reflexivity).
    apply rel_of_blur; [assumption|]. rewrite <- !yact_natural by assumption. rewrite (valrel_blur _ _ F).
    destruct (texty r) eqn:T; [now rewrite Ht|].
    destruct r; try discriminate Nr; try discriminate T; try discriminate Hml; try reflexivity.
    cbn [yact]. subst t'. now rewrite nls_crlf.
  - destruct r; try discriminate Pr; try discriminate Nr; cbn [yact].
    + cbn [rel VR]. do 2 eexists. split; [reflexivity|]. split; [reflexivity|]. subst t'. apply squeeze_empty. symmetry. apply crlf_zero.
    + destruct F as [|[q v] [q' v'] l l' [E R] F]; [exact I|]. cbn [fst snd] in E, R. subst q'.
      destruct q; try exact I. cbn [VR] in R. destruct R as (a & b & -> & -> & Z).
      destruct F as [|[q v] [q' v'] l l' [E R] F]; [exact I|]. cbn [fst snd] in E, R. subst q'.
      destruct q; try exact I. cbn [VR] in R. destruct v; destruct v'; try discriminate R; try exact I.
      inversion R; subst. destruct F; [|exact I]. cbn [rel VR]. do 2 eexists. split; [reflexivity|]. split; [reflexivity|].
      now apply squeeze_app.
    + destruct F as [|[q v] [q' v'] l l' [E R] F]; [exact I|]. cbn [fst snd] in E, R. subst q'.
      destruct q; try exact I. cbn [VR] in R. destruct R as (a & b & -> & -> & Z).
      destruct F as [|[q v] [q' v'] l l' [E R] F]; [exact I|]. cbn [fst snd] in E, R. subst q'.
      destruct q; try exact I. cbn [VR] in R. destruct v; destruct v'; try discriminate R; try exact I.
      inversion R; subst. destruct (many_ml _ _ F) as [M1 M2].
      destruct (many as_ml_part l) as [bs w], (many as_ml_part l') as [bs' w']. cbn [fst snd] in *.
      destruct M2 as [|[q v] [q' v'] w w' [E R2] M2]; [exact I|]. cbn [fst snd] in E, R2. subst q'.
      destruct q; try exact I. cbn [VR] in R2. destruct v; destruct v'; try discriminate R2; try exact I.
      inversion R2; subst. destruct M2; [|exact I]. cbn [rel VR]. do 2 eexists. split; [reflexivity|]. split; [reflexivity|].
      apply squeeze_app; [assumption|]. apply (squeeze_app [s] [s]); [reflexivity|]. apply squeeze_app; [now apply concat_squeeze|reflexivity].
    + unfold multiline. destruct F as [|[q v] [q' v'] l l' [E R] F]; [exact I|]. cbn [fst snd] in E, R. subst q'.
      destruct q; try exact I; cbn [VR] in R; destruct v; destruct v'; try discriminate R; try exact I.
      * inversion R; subst.
        destruct F as [|[q v] [q' v'] l l' [E R3] F]; [exact I|]. cbn [fst snd] in E, R3. subst q'.
        destruct q; try exact I. cbn [VR] in R3. destruct R3 as (a & b & -> & -> & E1). destruct F; [|exact I].
        apply multi_rel; [|reflexivity|reflexivity|now apply clean_multi_rel]. intros x y c0 E. cbn [blur]. now rewrite E.
      * inversion R; subst.
        destruct F as [|[q v] [q' v'] l l' [E R3] F]; [exact I|]. cbn [fst snd] in E, R3. subst q'.
        destruct q; try exact I. cbn [VR] in R3. destruct v; destruct v'; try discriminate R3; try exact I. inversion R3; subst.
        destruct F as [|[q v] [q' v'] l l' [E R4] F]; [exact I|]. cbn [fst snd] in E, R4. subst q'.
        destruct q; try exact I. cbn [VR] in R4. destruct R4 as (a & b & -> & -> & E1). destruct F; [|exact I].
        apply multi_rel; [|reflexivity|reflexivity|now apply clean_multi_rel]. intros x y c1 E. cbn [blur]. now rewrite E.
    + unfold multiline. destruct F as [|[q v] [q' v'] l l' [E R] F]; [exact I|]. cbn [fst snd] in E, R. subst q'.
      destruct q; try exact I; cbn [VR] in R; destruct v; destruct v'; try discriminate R; try exact I.
      * inversion R; subst.
        destruct F as [|[q v] [q' v'] l l' [E R3] F]; [exact I|]. cbn [fst snd] in E, R3. subst q'.
        destruct q; try exact I. cbn [VR] in R3. destruct R3 as (a & b & -> & -> & E1). destruct F; [|exact I].
        apply multi_rel; [|reflexivity|reflexivity|now apply clean_multi_rel]. intros x y c0 E. cbn [blur]. now rewrite E.
      * inversion R; subst.
        destruct F as [|[q v] [q' v'] l l' [E R3] F]; [exact I|]. cbn [fst snd] in E, R3. subst q'.
        destruct q; try exact I. cbn [VR] in R3. destruct v; destruct v'; try discriminate R3; try exact I. inversion R3; subst.
        destruct F as [|[q v] [q' v'] l l' [E R4] F]; [exact I|]. cbn [fst snd] in E, R4. subst q'.
        destruct q; try exact I. cbn [VR] in R4. destruct R4 as (a & b & -> & -> & E1). destruct F; [|exact I].
        apply multi_rel; [|reflexivity|reflexivity|now apply clean_multi_rel]. intros x y c1 E. cbn [blur]. now rewrite E.
Qed.
