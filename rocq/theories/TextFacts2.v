(** Serialized and pretty printed values are canonical: values. *)
From Coq Require Import ZArith Decimal DecimalN DecimalFacts.
From Verif Require Import Base Ast Strings Format Num Pretty YamlGrammar Spec_Strings StringsFacts
  Spec_Pretty PrettyFacts PathGrammar Spec_Path PathFacts Ser De Spec_Serde SerdeFacts SerdeFacts2
  Spec_Parse Peg Consume Spec_Format FormatText FormatTree FromStr Spec_Text TextFacts.
Import ListNotations.

(** ---- numbers and words ---- *)

Definition calm_char (c : char) : bool :=
  ((48 <=? c) && (c <=? 57) || (65 <=? c) && (c <=? 90) || (97 <=? c) && (c <=? 122)
   || (c =? 45) || (c =? 46) || (c =? 126))%N.

Lemma calm_not c d : calm_char c = true -> calm_char d = false -> c <> d.
Proof. congruence. Qed.
Lemma calm_no s c : forallb calm_char s = true -> calm_char c = false -> ~ In c s.
Proof. rewrite forallb_forall. intros H N X. apply H in X. congruence. Qed.
Lemma zs_not_calm c : is_zs c = true -> calm_char c = false.
Proof.
  intros H. destruct (calm_char c) eqn:E; [|reflexivity]. exfalso.
  unfold is_zs, calm_char in *.
  repeat rewrite orb_true_iff in H. repeat rewrite orb_true_iff in E.
  repeat rewrite andb_true_iff in H. repeat rewrite andb_true_iff in E.
  repeat rewrite N.leb_le in H. repeat rewrite N.leb_le in E.
  repeat rewrite N.eqb_eq in H. repeat rewrite N.eqb_eq in E. lia.
Qed.
Lemma name_not ut c : c = chr "*" \/ c = chr "&" -> ~ name_char ut c.
Proof. intros [->| ->]; apply punct_not_name; reflexivity. Qed.

Lemma calm_text ut s : s <> [] -> s <> lit "-" -> forallb calm_char s = true ->
  block_text ut s /\ inline_text ut s /\ inline_breaking_chars s = false.
Proof.
  intros Hn Hd H. assert (No := fun c => calm_no s c H).
  assert (O : one_line s) by (split; now apply No).
  assert (SPE : forall r, s <> r ++ [SP]).
  { intros r E. apply (No SP eq_refl). rewrite E. apply in_or_app. right. now left. }
  assert (Hp : forall c, ~ has_pair (chr ":") c s).
  { intros c (u & v & E). apply (No (chr ":") eq_refl). rewrite E. apply in_or_app. right. now left. }
  assert (Hce : forall r, s <> r ++ [chr ":"]).
  { intros r E. apply (No (chr ":") eq_refl). rewrite E. apply in_or_app. right. now left. }
  destruct s as [|c r]; [congruence|].
  assert (Hc : calm_char c = true) by (cbn in H; now apply andb_true_iff in H).
  split; [|split].
  - split; [|split; [|split; [|split; [|split]]]]; auto.
    + exists c, r. split; [reflexivity|]. split.
      * destruct (is_zs c) eqn:Z; [|reflexivity]. apply zs_not_calm in Z. congruence.
      * intros X. cbn in X. repeat (destruct X as [<-|X]; [vm_compute in Hc; discriminate|]). exact X.
    + split; auto.
    + split; [exact Hd|]. intros a b r' E. split.
      * intros [[->| ->] _]; injection E as -> _; vm_compute in Hc; discriminate.
      * intros [_ Z]. apply zs_not_calm in Z. apply (No b Z). rewrite E. right. now left.
  - split; [|split; [|split; [|split; [|split; [|split]]]]]; auto.
    + exists c, r. split; [reflexivity|]. split; intros ->; vm_compute in Hc; discriminate.
    + intros d X. cbn in X. repeat (destruct X as [<-|X]; [now apply No|]). destruct X.
    + intros b r' E. injection E as -> _. vm_compute in Hc. discriminate.
  - destruct (inline_breaking_chars (c :: r)) eqn:B; [|reflexivity].
    apply breaking_spec in B as (d & Hi & Hb). exfalso. cbn in Hb.
    repeat (destruct Hb as [<-|Hb]; [eapply No; [|exact Hi]; reflexivity|]). exact Hb.
Qed.

Lemma digits_calm s : digits s -> forallb calm_char s = true.
Proof.
  intros [_ H]. apply forallb_forall. intros c Hc. destruct (H c Hc) as [H1 H2].
  apply N.leb_le in H1, H2. unfold calm_char. now rewrite H1, H2.
Qed.
Lemma digits_not_dash s : digits s -> s <> lit "-".
Proof. intros [_ H] ->. specialize (H _ (or_introl eq_refl)). vm_compute in H. destruct H. congruence. Qed.
Lemma dash_digits s : digits s -> chr "-" :: s <> lit "-".
Proof. intros [H _] E. injection E as E. auto. Qed.

Lemma show_Z_calm z : forallb calm_char (show_Z z) = true /\ show_Z z <> [] /\ show_Z z <> lit "-".
Proof.
  unfold show_Z. destruct (z <? 0)%Z; pose proof (show_N_spec (Z.abs_N z)) as A; pose proof (show_N_spec (Z.to_N z)) as B.
  - split; [|split; [discriminate|now apply dash_digits]]. cbn [forallb]. now rewrite digits_calm.
  - split; [now apply digits_calm|]. split; [apply B|now apply digits_not_dash].
Qed.

Lemma float_calm t : float_text t -> forallb calm_char t = true /\ t <> [] /\ t <> lit "-".
Proof.
  intros [->|[->|[->|(sg & ds & fr & -> & Hs & Hd & Hf)]]]; try (split; [reflexivity|split; discriminate]).
  split; [|split].
  - rewrite !forallb_app, (digits_calm ds Hd). cbn [andb].
    assert (F : forallb calm_char fr = true).
    { destruct Hf as [->|(fs & -> & Hf)]; [reflexivity|]. cbn [forallb].
      change (calm_char (chr ".")) with true. cbn [andb]. now apply digits_calm. }
    rewrite F. destruct Hs as [->| ->]; reflexivity.
  - destruct Hd as [Hd _], ds as [|d ds]; [congruence|]. destruct Hs as [->| ->]; discriminate.
  - intros E. destruct Hd as [Hd Hd'], ds as [|d ds]; [congruence|]. specialize (Hd' d (or_introl eq_refl)).
    destruct Hs as [->| ->]; cbn in E; injection E as E; [|discriminate].
    rewrite E in Hd'. vm_compute in Hd'. destruct Hd'. congruence.
Qed.

(** The number of digits. *)
Lemma horner_ge ds : forall a, (a * 10 ^ N.of_nat (length ds) <= fold_left (fun a c => 10 * a + (c - 48)) ds a)%N.
Proof.
  induction ds as [|c ds IH]; intros a; [cbn [length fold_left]; change (N.of_nat 0) with 0%N; rewrite N.pow_0_r; lia|].
  cbn [length fold_left]. eapply N.le_trans; [|apply IH]. rewrite Nnat.Nat2N.inj_succ, N.pow_succ_r'. nia.
Qed.
Lemma nzhead_not_D0 u u' : nzhead u <> D0 u'.
Proof. induction u; cbn; congruence. Qed.
Lemma show_N_lead n : n <> 0%N -> exists c s, show_N n = c :: s /\ (49 <= c <= 57)%N.
Proof.
  intros Hn. unfold show_N. pose proof (Unsigned.of_to n) as E. pose proof (Unsigned.to_of (N.to_uint n)) as E2.
  rewrite E in E2. destruct (nzhead (N.to_uint n)) eqn:Q.
  - exfalso. unfold unorm in E2. rewrite Q in E2. rewrite E2 in E. cbn in E. congruence.
  - now apply nzhead_not_D0 in Q.
  - unfold unorm in E2. rewrite Q in E2. rewrite E2. cbn. eexists _, _. split; [reflexivity|]. split; discriminate.
  - unfold unorm in E2. rewrite Q in E2. rewrite E2. cbn. eexists _, _. split; [reflexivity|]. split; discriminate.
  - unfold unorm in E2. rewrite Q in E2. rewrite E2. cbn. eexists _, _. split; [reflexivity|]. split; discriminate.
  - unfold unorm in E2. rewrite Q in E2. rewrite E2. cbn. eexists _, _. split; [reflexivity|]. split; discriminate.
  - unfold unorm in E2. rewrite Q in E2. rewrite E2. cbn. eexists _, _. split; [reflexivity|]. split; discriminate.
  - unfold unorm in E2. rewrite Q in E2. rewrite E2. cbn. eexists _, _. split; [reflexivity|]. split; discriminate.
  - unfold unorm in E2. rewrite Q in E2. rewrite E2. cbn. eexists _, _. split; [reflexivity|]. split; discriminate.
  - unfold unorm in E2. rewrite Q in E2. rewrite E2. cbn. eexists _, _. split; [reflexivity|]. split; discriminate.
  - unfold unorm in E2. rewrite Q in E2. rewrite E2. cbn. eexists _, _. split; [reflexivity|]. split; discriminate.
Qed.

Lemma digits_utf8 s : digits s -> utf8_len s = length s.
Proof.
  intros [_ H]. induction s as [|c s IH]; [reflexivity|]. cbn [utf8_len length].
  rewrite IH by (intros d Hd; apply H; now right). destruct (H c (or_introl eq_refl)) as [_ H2].
  unfold char_len. replace (c <? 128)%N with true; [reflexivity|]. symmetry. apply N.ltb_lt. lia.
Qed.

Lemma show_N_len n : (n < 10 ^ 20)%N -> utf8_len (show_N n) <= 20.
Proof.
  intros H. rewrite (digits_utf8 _ (show_N_spec n)).
  destruct (N.eq_dec n 0) as [->|Hn]; [vm_compute; lia|].
  destruct (show_N_lead n Hn) as (c & s & E & Hc).
  pose proof (parse_show_N n) as P. apply parse_digits_spec in P as [_ P]. rewrite E in P.
  unfold decimal_value in P. cbn [fold_left] in P.
  pose proof (horner_ge s (10 * 0 + (c - 48))%N) as G. rewrite <- P in G.
  rewrite E. cbn [length]. destruct (Nat.le_gt_cases (length s) 19) as [L|L]; [lia|]. exfalso.
  assert (X : (10 ^ 20 <= 10 ^ N.of_nat (length s))%N) by (apply N.pow_le_mono_r; lia).
  nia.
Qed.

Lemma show_Z_len z : (Z.abs z < 10 ^ 20)%Z -> utf8_len (show_Z z) <= 21.
Proof.
  intros H. unfold show_Z. destruct (z <? 0)%Z eqn:E.
  - change (utf8_len (chr "-" :: show_N (Z.abs_N z))) with (1 + utf8_len (show_N (Z.abs_N z))).
    assert (utf8_len (show_N (Z.abs_N z)) <= 20); [|lia]. apply show_N_len. lia.
  - apply Z.ltb_ge in E. assert (utf8_len (show_N (Z.to_N z)) <= 20); [|lia]. apply show_N_len. lia.
Qed.

Section Values.
  Variable ut : unitab.

(** ---- keys ---- *)

Lemma digit_name c : (48 <= c <= 57)%N -> name_char ut c.
Proof.
  intros [A B]. right; left. unfold YamlGrammar.is_number. replace (c <? 128)%N with true by (symmetry; apply N.ltb_lt; lia).
  unfold YamlGrammar.ascii_digit. apply N.leb_le in A, B. now rewrite A, B.
Qed.
Lemma digits_key s : digits s -> plain_key ut s.
Proof.
  intros [Hn Hd]. split; [|split].
  - destruct s as [|c s]; [congruence|]. exists c, s. split; [reflexivity|]. apply digit_name, Hd. now left.
  - intros c Hc. left. now apply digit_name, Hd.
  - intros r ->. specialize (Hd SP ltac:(apply in_or_app; right; now left)). unfold SP in Hd. lia.
Qed.

Lemma letters_key s : s <> [] -> forallb YamlGrammar.ascii_letter s = true -> plain_key ut s.
Proof.
  rewrite forallb_forall. intros Hn H.
  assert (L : forall c, In c s -> name_char ut c).
  { intros c Hc. left. apply H in Hc. unfold YamlGrammar.is_letter. replace (c <? 128)%N with true; [exact Hc|].
    symmetry. apply N.ltb_lt. unfold YamlGrammar.ascii_letter in Hc.
    rewrite orb_true_iff, !andb_true_iff, !N.leb_le in Hc. lia. }
  split; [|split].
  - destruct s as [|c s]; [congruence|]. exists c, s. split; [reflexivity|]. apply L. now left.
  - intros c Hc. left. now apply L.
  - intros r E. assert (X : In SP s) by (rewrite E; apply in_or_app; right; now left). apply H in X. discriminate.
Qed.

Lemma key_text v : forall y s, key_fits ut v -> ser v = Some y -> yaml_to_key_string y = Some s -> plain_key ut s.
Proof.
  assert (T : forall t s, plain_key ut t -> yaml_to_key_string (str_to_yaml t) = Some s -> plain_key ut s).
  { intros t s P K. pose proof (str_to_yaml_value t) as V.
    destruct (str_to_yaml t); try discriminate; cbn in K, V; congruence. }
  induction v using sval_ind'; intros y s' K E Y; cbn [key_fits ser] in *; try contradiction;
    try (injection E as <-); try (now apply (T _ _ K Y)); eauto.
  - cbn in Y. injection Y as <-. apply letters_key; destruct b; (discriminate || reflexivity).
  - cbn in Y. injection Y as <-. unfold show_Z. replace (z <? 0)%Z with false by (symmetry; apply Z.ltb_ge; lia).
    apply digits_key, show_N_spec.
  - cbn in Y. injection Y as <-. exact K.
Qed.

(** ---- plain texts ---- *)

Definition plain_yaml (y : yaml) : Prop :=
  exists s, y = Unquoted s /\ block_text ut s /\ inline_text ut s /\ inline_breaking_chars s = false.

Lemma calm_yaml s : forallb calm_char s = true /\ s <> [] /\ s <> lit "-" -> plain_yaml (Unquoted s).
Proof. intros (A & B & C). exists s. split; [reflexivity|]. now apply calm_text. Qed.

Lemma plain_pretty y inl c : plain_yaml y -> pretty_with inl c y = y.
Proof. intros (s & -> & _ & _ & B). now apply pretty_unq. Qed.
Lemma plain_inline y : plain_yaml y -> inline_canon ut y.
Proof. now intros (s & -> & _ & I & _). Qed.
Lemma plain_canon p q y : plain_yaml y -> canon ut p q None y.
Proof. intros (s & -> & B & _). now apply CFlow. Qed.
Lemma plain_long inl y : plain_yaml y -> long_ok inl y.
Proof. now intros (s & -> & _). Qed.
Lemma plain_inlineable y : plain_yaml y -> is_inlineable y = true.
Proof. now intros (s & -> & _). Qed.

Lemma bool_yaml (b : bool) : plain_yaml (Unquoted (if b then lit "true" else lit "false")).
Proof. apply calm_yaml. destruct b; repeat split; discriminate. Qed.
Lemma int_yaml z : plain_yaml (Unquoted (show_Z z)).
Proof. apply calm_yaml, show_Z_calm. Qed.
Lemma byte_yaml n : plain_yaml (Unquoted (show_N n)).
Proof. rewrite <- show_Z_of_N. apply int_yaml. Qed.
Lemma float_yaml t : float_text t -> plain_yaml (Unquoted t).
Proof. intros H. now apply calm_yaml, float_calm. Qed.
Lemma null_yaml : plain_yaml (Unquoted (lit "~")).
Proof. apply calm_yaml. repeat split; discriminate. Qed.

(** ---- inline ---- *)

Lemma long_inline y : long_ok true y.
Proof.
  induction y using yaml_ind'; cbn [long_ok]; try exact I; try (intros; discriminate).
  - induction H as [|[k v] l Hv _ IH]; cbn; auto.
  - induction H as [|d l Hv _ IH]; cbn; auto. split; [|exact IH]. destruct d as [?|?|[k [al v]]]; auto.
  - induction H as [|v l Hv _ IH]; cbn; auto.
  - induction H as [|d l Hv _ IH]; cbn; auto. split; [|exact IH]. destruct d as [?|?|[al v]]; auto.
Qed.

Lemma inline_array ys : Forall (inline_canon ut) ys -> inline_canon ut (InlineArray ys).
Proof. induction 1; cbn in *; auto. Qed.
Lemma inline_hash es : Forall (fun kv => plain_key ut (fst kv) /\ inline_canon ut (snd kv)) es ->
  inline_canon ut (InlineHash es).
Proof. induction 1 as [|[k v] es [A B] _ IH]; cbn in *; auto. Qed.

Lemma pretty_seq_inline ys : pretty_with true false (seq_yaml ys) = InlineArray (map (pretty_with true false) ys).
Proof.
  unfold seq_yaml. destruct ys as [|z ys]; [reflexivity|]. cbn [pretty_with map is_nil]. f_equal.
  change (AElem (unaliased z) :: map (fun y => AElem (unaliased y)) ys) with (map (fun y => AElem (unaliased y)) (z :: ys)).
  change (pretty_with true false z :: map (pretty_with true false) ys) with (map (pretty_with true false) (z :: ys)).
  generalize (z :: ys). clear. induction l as [|y l IH]; [reflexivity|]. cbn. now rewrite IH.
Qed.
Lemma pretty_map_inline es : pretty_with true false (map_yaml_of es) =
  InlineHash (map (fun kv => (fst kv, pretty_with true false (snd kv))) es).
Proof.
  unfold map_yaml_of. destruct es as [|z es]; [reflexivity|]. cbn [pretty_with map is_nil]. f_equal.
  change ((fst z, pretty_with true false (snd z)) :: map (fun kv => (fst kv, pretty_with true false (snd kv))) es)
    with (map (fun kv => (fst kv, pretty_with true false (snd kv))) (z :: es)).
  match goal with |- flat_map ?f (?a :: map ?g es) = _ => change (a :: map g es) with (map g (z :: es)) end.
  generalize (z :: es). clear. induction l as [|y l IH]; [reflexivity|]. cbn. now rewrite IH.
Qed.

Lemma pretty_text_inline c s : readable ut s -> pretty_with true c (str_to_yaml s) = str_to_yaml s.
Proof.
  intros R. rewrite <- (proj1 (text_inline ut s R)) at 2.
  destruct (text_written ut s R); reflexivity.
Qed.
Lemma pretty_text_block c s : readable ut s -> pretty_with false c (str_to_yaml s) = pretty_scalar false (str_to_yaml s).
Proof. intros R. destruct (text_written ut s R); reflexivity. Qed.

Lemma opt_map_forall {A B} (f : A -> option B) (Q : B -> Prop) l m : opt_map f l = Some m ->
  (forall x y, In x l -> f x = Some y -> Q y) -> Forall Q m.
Proof.
  revert m; induction l as [|x l IH]; cbn [opt_map]; intros m E H; [injection E as <-; constructor|].
  destruct (f x) as [y|] eqn:F; [|discriminate]. destruct (opt_map f l) as [ys|] eqn:O; [|discriminate].
  injection E as <-. constructor; [apply (H x); [now left|exact F]|]. apply IH; [reflexivity|].
  intros x' y' Hx. apply H. now right.
Qed.

Lemma fold_in {A} (P : A -> Prop) l : fold_right (fun v Q => P v /\ Q) True l -> forall v, In v l -> P v.
Proof. induction l as [|x l IH]; cbn; [tauto|]. intros [A1 A2] v [<-|H]; auto. Qed.

Lemma ser_inline v : forall y, inline_fits ut v -> ser v = Some y -> inline_canon ut (pretty_with true false y).
Proof.
  assert (P : forall y, plain_yaml y -> inline_canon ut (pretty_with true false y))
    by (intros y H; rewrite plain_pretty by exact H; now apply plain_inline).
  assert (T : forall s, readable ut s -> inline_canon ut (pretty_with true false (str_to_yaml s)))
    by (intros s R; rewrite pretty_text_inline by exact R; now apply text_inline).
  induction v using sval_ind'; intros y F E; cbn [inline_fits ser] in *; try contradiction; try (injection E as <-); eauto.
  - apply P, bool_yaml.
  - apply P, int_yaml.
  - now apply P, float_yaml.
  - rewrite pretty_seq_inline. apply inline_array. rewrite Forall_map. apply Forall_map.
    apply Forall_forall. intros b _. apply P, byte_yaml.
  - apply P, null_yaml.
  - apply P, null_yaml.
  - apply P, null_yaml.
  - destruct (opt_map ser l) as [ys|] eqn:O; [|discriminate]. injection E as <-. rewrite pretty_seq_inline.
    apply inline_array. rewrite Forall_map. rewrite Forall_forall in H.
    apply (opt_map_forall _ _ _ _ O). intros x y Hx Ex. apply (H x Hx); [|exact Ex]. now apply (fold_in _ _ F).
  - destruct (opt_map ser l) as [ys|] eqn:O; [|discriminate]. injection E as <-. cbn [pretty_with].
    apply inline_array. rewrite Forall_map. rewrite Forall_forall in H.
    apply (opt_map_forall _ _ _ _ O). intros x y Hx Ex. apply (H x Hx); [|exact Ex]. now apply (fold_in _ _ F).
  - destruct (opt_map _ l) as [es|] eqn:O; [|discriminate]. injection E as <-. rewrite pretty_map_inline.
    apply inline_hash. rewrite Forall_map. rewrite Forall_forall in H.
    apply (opt_map_forall _ _ _ _ O). intros [k x] [ks y] Hx Ex. destruct (H _ Hx) as [_ Hv].
    pose proof (fold_in _ _ F _ Hx) as [Fk Fv]. cbn [fst snd] in *.
    destruct (ser k) as [yk|] eqn:Sk; [|discriminate].
    destruct (yaml_to_key_string yk) as [ks'|] eqn:K; [|discriminate].
    destruct (ser x) as [y'|] eqn:Sx; [|discriminate]. injection Ex as <- <-.
    split; [eapply key_text; eassumption|]. now apply Hv.
  - destruct (opt_map _ l) as [es|] eqn:O; [|discriminate]. injection E as <-. rewrite pretty_map_inline.
    apply inline_hash. rewrite Forall_map. rewrite Forall_forall in H.
    apply (opt_map_forall _ _ _ _ O). intros [k x] [ks y] Hx Ex. specialize (H _ Hx).
    pose proof (fold_in _ _ F _ Hx) as [Fk Fv]. cbn [fst snd] in *.
    destruct (ser x) as [y'|] eqn:Sx; [|discriminate]. injection Ex as <- <-. auto.
Qed.

(** ---- widths ---- *)

Lemma inline_width ys ws : Forall2 (fun y w => utf8_len (format y 0 None) <= w) ys ws ->
  utf8_len (format (InlineArray ys) 0 None) <= fold_right (fun w n => w + 1 + n) 4 ws.
Proof.
  intros H. cbn [format].
  assert (G : forall idx, utf8_len (concat_mapi (fun idx x => (if 0 <? idx then lit "," else []) ++ format x 0 None) idx ys)
              + 4 <= fold_right (fun w n => w + 1 + n) 4 ws).
  { induction H as [|y w ys ws Hy _ IH]; intros idx; cbn [concat_mapi fold_right]; [cbn; lia|].
    specialize (IH (S idx)). rewrite !utf8_len_app.
    assert (utf8_len (if 0 <? idx then lit "," else []) <= 1) by (destruct (0 <? idx); cbn; lia). lia. }
  specialize (G 0). rewrite !utf8_len_app. change (utf8_len (lit " [")) with 2. change (utf8_len (lit "]")) with 1.
  assert (utf8_len (if is_nil ys then [] else lit " ") <= 1) by (destruct (is_nil ys); cbn; lia). lia.
Qed.

Lemma plain_width s : utf8_len (format (Unquoted s) 0 None) = 1 + utf8_len s.
Proof. cbn [format]. rewrite utf8_len_app. reflexivity. Qed.

Lemma opt_map_width (g : yaml -> yaml) l ys : opt_map ser l = Some ys ->
  (forall x y, In x l -> ser x = Some y -> utf8_len (format (g y) 0 None) <= width x) ->
  utf8_len (format (InlineArray (map g ys)) 0 None) <= fold_right (fun v n => width v + 1 + n) 4 l.
Proof.
  intros O H.
  replace (fold_right (fun v n => width v + 1 + n) 4 l) with (fold_right (fun w n => w + 1 + n) 4 (map width l))
    by (clear; induction l as [|x l IH]; cbn [map fold_right]; [reflexivity|now rewrite IH]).
  apply inline_width. revert ys O; induction l as [|x l IH]; cbn [opt_map]; intros ys O; [injection O as <-; constructor|].
  destruct (ser x) as [y|] eqn:F; [|discriminate]. destruct (opt_map ser l) as [zs|] eqn:Q; [|discriminate].
  injection O as <-. cbn [map]. constructor; [apply H; [now left|exact F]|]. apply IH; [|reflexivity].
  intros x' y' Hx. apply H. now right.
Qed.

Lemma text_width s : readable ut s -> utf8_len (format (str_to_yaml s) 0 None) <= 3 + 2 * utf8_len s.
Proof. intros R. eapply written_width, text_written, R. Qed.

Lemma narrow_inline v : forall y, inline_fits ut v -> narrow v -> ser v = Some y ->
  utf8_len (format (pretty_with true false y) 0 None) <= width v.
Proof.
  induction v using sval_ind'; intros y F N E; cbn [inline_fits narrow ser width] in *; try contradiction;
    try (injection E as <-);
    try (rewrite plain_pretty by apply null_yaml; rewrite plain_width; cbn; lia); try (now apply IHv).
  - rewrite plain_pretty by apply bool_yaml. rewrite plain_width. destruct b; cbn; lia.
  - rewrite plain_pretty by apply int_yaml. rewrite plain_width. pose proof (show_Z_len z N). lia.
  - rewrite plain_pretty by now apply float_yaml. now rewrite plain_width.
  - rewrite pretty_text_inline by exact F. now apply text_width.
  - rewrite pretty_text_inline by exact F. now apply text_width.
  - destruct (opt_map ser l) as [ys|] eqn:O; [|discriminate]. injection E as <-. rewrite pretty_seq_inline.
    apply opt_map_width; [exact O|]. rewrite Forall_forall in H. intros x y Hx Ex. destruct N as [_ N].
    apply (H x Hx); [now apply (fold_in _ _ F)|now apply (fold_in _ _ N)|exact Ex].
  - destruct (opt_map ser l) as [ys|] eqn:O; [|discriminate]. injection E as <-. cbn [pretty_with].
    apply opt_map_width; [exact O|]. rewrite Forall_forall in H. intros x y Hx Ex.
    apply (H x Hx); [now apply (fold_in _ _ F)|now apply (fold_in _ _ N)|exact Ex].
  - rewrite pretty_text_inline by exact F. now apply text_width.
Qed.

(** ---- block collections ---- *)

Lemma pretty_seq_block q ys : ys <> [] -> pretty_with false q (seq_yaml ys) =
  auto_inline q (map (fun y => AElem (mkA None (pretty_with false true y))) ys).
Proof.
  intros H. unfold seq_yaml. destruct ys as [|z ys]; [congruence|].
  cbn [pretty_with map is_nil unaliased]. f_equal. f_equal. rewrite map_map. reflexivity.
Qed.
Lemma pretty_map_block q es : es <> [] -> pretty_with false q (map_yaml_of es) =
  Hash (map (fun kv => HElem (mkHE (fst kv) (mkA None (pretty_with false false (snd kv))))) es).
Proof.
  intros H. unfold map_yaml_of. destruct es as [|z es]; [congruence|].
  cbn [pretty_with map is_nil unaliased]. f_equal. f_equal. rewrite map_map. reflexivity.
Qed.

Lemma can_inline_map ys : can_inline (map (fun y => AElem (mkA None y)) ys) = forallb is_inlineable ys.
Proof. unfold can_inline. induction ys as [|y ys IH]; [reflexivity|]. cbn in *. now rewrite IH. Qed.
Lemma array_elems_map ys : array_elems (map (fun y => AElem (mkA None y)) ys) = ys.
Proof. unfold array_elems. induction ys as [|y ys IH]; [reflexivity|]. cbn. now rewrite IH. Qed.

Lemma elements_map lead ys : ys <> [] -> Forall (canon ut Own true None) ys ->
  elements ut lead (map (fun y => AElem (mkA None y)) ys).
Proof.
  intros Hn F. revert lead. induction F as [|y ys Hy F IH]; [congruence|]. intros lead. cbn [map].
  destruct ys as [|z ys]; [now apply NLast|]. apply NCons; [exact Hy|]. apply IH. discriminate.
Qed.

(** The elements [ys] are already pretty. *)
Lemma array_canon p q ys : ys <> [] ->
  Forall (fun y => canon ut Own true None y /\ (is_inlineable y = true -> inline_canon ut y)) ys ->
  (q = true -> match ys with
               | [] => True
               | y :: ys' => canon ut (Head false) true None y /\
                   (ys' = [] -> is_inlineable y = true /\ utf8_len (format (InlineArray [y]) 0 None) <= 90)
               end) ->
  let y' := auto_inline q (map (fun y => AElem (mkA None y)) ys) in
  canon ut p q None y' /\ (is_inlineable y' = true -> inline_canon ut y').
Proof.
  intros Hn F Hq. unfold auto_inline. rewrite can_inline_map, array_elems_map. cbn zeta.
  destruct (q && forallb is_inlineable ys && (utf8_len (format (InlineArray ys) 0 None) <=? max_line_length)) eqn:E.
  - apply andb_true_iff in E as [E _]. apply andb_true_iff in E as [_ E]. rewrite forallb_forall in E.
    assert (X : inline_canon ut (InlineArray ys)).
    { apply inline_array. apply Forall_forall. intros y Hy. rewrite Forall_forall in F. now apply F, E. }
    split; [apply CFlow; [exact X|exact I]|auto].
  - split; [|discriminate].
    assert (FC : Forall (canon ut Own true None) ys) by (eapply Forall_impl; [|exact F]; cbn; tauto).
    destruct q.
    + specialize (Hq eq_refl). destruct ys as [|y ys]; [congruence|]. destruct Hq as [H1 H2].
      cbn [map]. inversion FC; subst. apply CArrayElem; cbn [a_alias a_value]; auto.
      * apply elements_map; [|assumption]. intros ->. destruct (H2 eq_refl) as [J4 J5].
        cbn [forallb andb] in E. rewrite J4 in E. cbn [andb] in E. apply Nat.leb_nle in E. contradiction.
      * exact I.
    + apply CArray. now apply elements_map.
Qed.

Lemma entries_map lead p es :
  match es with
  | [] => False
  | (k, y) :: es' => plain_key ut k /\ canon ut p false None y /\ (p = Head true -> es' = []) /\
      Forall (fun kv => plain_key ut (fst kv) /\ canon ut Own false None (snd kv)) es'
  end ->
  entries ut lead p (map (fun kv => HElem (mkHE (fst kv) (mkA None (snd kv)))) es).
Proof.
  destruct es as [|[k y] es]; [tauto|]. intros (K & C & Hp & F).
  cbn [map fst snd]. revert lead k y p K C Hp. induction F as [|[k' y'] es [K' C'] F IH]; intros lead k y p K C Hp.
  - now apply ELast.
  - cbn [map fst snd] in *. apply ECons; [exact K|exact C| |].
    + intros E. specialize (Hp E). discriminate.
    + apply IH; auto. discriminate.
Qed.

Lemma hash_canon p q es :
  match es with
  | [] => False
  | (k, y) :: es' => plain_key ut k /\ canon ut (first_place q p (length es)) false None y /\
      Forall (fun kv => plain_key ut (fst kv) /\ canon ut Own false None (snd kv)) es'
  end ->
  canon ut p q None (Hash (map (fun kv => HElem (mkHE (fst kv) (mkA None (snd kv)))) es)).
Proof.
  intros H. destruct es as [|[k y] es]; [tauto|]. destruct H as (K & C & F).
  destruct q; unfold first_place in C.
  - destruct p as [|[|]].
    + apply CHashElem with (b := (length ((k, y) :: es) =? 1)); [|now intros _].
      apply entries_map. split; [exact K|]. split; [exact C|]. split; [|exact F]. intros E. injection E as E. destruct es; [reflexivity|discriminate].
    + apply CHashElem with (b := (length ((k, y) :: es) =? 1)); [|now intros _].
      apply entries_map. split; [exact K|]. split; [exact C|]. split; [|exact F]. intros E. injection E as E. destruct es; [reflexivity|discriminate].
    + apply CHashElem with (b := false); [|discriminate].
      apply entries_map. split; [exact K|]. split; [exact C|]. split; [|exact F]. discriminate.
  - apply CHash. apply entries_map. split; [exact K|]. split; [exact C|]. split; [|exact F]. discriminate.
Qed.

Lemma long_seq ys : Forall (long_ok false) ys -> long_ok false (seq_yaml ys).
Proof. unfold seq_yaml. induction 1; cbn in *; auto. Qed.
Lemma long_map es : Forall (fun kv => long_ok false (snd kv)) es -> long_ok false (map_yaml_of es).
Proof. unfold map_yaml_of. induction 1; cbn in *; auto. Qed.

Lemma narrow_block v : forall p y, block_fits ut p true v -> narrow v -> ser v = Some y ->
  is_inlineable (pretty_with false true y) = true /\
  utf8_len (format (pretty_with false true y) 0 None) <= width v.
Proof.
  assert (T : forall p s, text_fits ut p s -> row_text s ->
    is_inlineable (pretty_with false true (str_to_yaml s)) = true /\
    utf8_len (format (pretty_with false true (str_to_yaml s)) 0 None) <= 3 + 2 * utf8_len s).
  { intros p s [R _] W. rewrite pretty_text_block by exact R. rewrite (proj1 (text_row ut s R W)).
    split; [now apply (text_inline ut)|now apply text_width]. }
  induction v using sval_ind'; intros p y F N E; cbn [block_fits narrow ser width] in *; try contradiction;
    try (injection E as <-);
    try (rewrite plain_pretty by apply null_yaml; rewrite plain_width; split; [reflexivity|cbn; lia]);
    try (now eapply IHv; eauto); try (now eapply T; eauto).
  - rewrite plain_pretty by apply bool_yaml. rewrite plain_width. split; [reflexivity|]. destruct b; cbn; lia.
  - rewrite plain_pretty by apply int_yaml. rewrite plain_width. split; [reflexivity|]. pose proof (show_Z_len z N). lia.
  - rewrite plain_pretty by now apply float_yaml. now rewrite plain_width.
  - destruct (opt_map ser l) as [ys|] eqn:O; [|discriminate]. injection E as <-. destruct N as [N0 N], F as [F _].
    rewrite Forall_forall in H.
    assert (W : utf8_len (format (InlineArray (map (pretty_with false true) ys)) 0 None)
                <= fold_right (fun v n => width v + 1 + n) 4 l).
    { apply opt_map_width; [exact O|]. intros x y Hx Ex.
      apply (H x Hx Own y); [now apply (fold_in _ _ F)|now apply (fold_in _ _ N)|exact Ex]. }
    assert (A : Forall (fun y => is_inlineable (pretty_with false true y) = true) ys).
    { apply (opt_map_forall _ _ _ _ O). intros x y Hx Ex.
      apply (H x Hx Own y); [now apply (fold_in _ _ F)|now apply (fold_in _ _ N)|exact Ex]. }
    destruct ys as [|z ys]; [split; [reflexivity|]; exact W|].
    rewrite pretty_seq_block by discriminate.
    rewrite <- (map_map (pretty_with false true) (fun y => AElem (mkA None y))).
    unfold auto_inline. rewrite can_inline_map, array_elems_map.
    replace (forallb is_inlineable (map (pretty_with false true) (z :: ys))) with true.
    2:{ symmetry. apply forallb_forall. intros y Hy. apply in_map_iff in Hy as (x & <- & Hx).
        rewrite Forall_forall in A. now apply A. }
    assert (L : (utf8_len (format (InlineArray (map (pretty_with false true) (z :: ys))) 0 None) <=? max_line_length) = true).
    { apply Nat.leb_le. unfold max_line_length. lia. }
    rewrite L. cbn [andb]. split; [reflexivity|exact W].
  - destruct (opt_map ser l) as [ys|] eqn:O; [|discriminate]. injection E as <-. cbn [pretty_with].
    split; [reflexivity|]. apply opt_map_width; [exact O|]. intros x y Hx Ex.
    apply narrow_inline; [now apply (fold_in _ _ F)|now apply (fold_in _ _ N)|exact Ex].
Qed.

Lemma opt_map_cons {A B} (f : A -> option B) x l m : opt_map f (x :: l) = Some m ->
  exists y ys, m = y :: ys /\ f x = Some y /\ opt_map f l = Some ys.
Proof.
  cbn [opt_map]. destruct (f x) as [y|]; [|discriminate]. destruct (opt_map f l) as [ys|]; [|discriminate].
  intros E. injection E as <-. eauto.
Qed.

Definition good (p : place) (q : bool) (y : yaml) : Prop :=
  canon ut p q None (pretty_with false q y) /\
  (is_inlineable (pretty_with false q y) = true -> inline_canon ut (pretty_with false q y)) /\
  long_ok false y.

Lemma plain_good p q y : plain_yaml y -> good p q y.
Proof.
  intros H. unfold good. rewrite plain_pretty by exact H. split; [now apply plain_canon|].
  split; [intros _; now apply plain_inline|now apply plain_long].
Qed.
Lemma text_good p q s : text_fits ut p s -> good p q (str_to_yaml s).
Proof. intros H. unfold good. rewrite pretty_text_block by apply H. now apply text_block. Qed.

Lemma seq_good p q ys : Forall (good Own true) ys ->
  (q = true -> match ys with
               | [] => True
               | y :: ys' => good (Head false) true y /\
                   (ys' = [] -> is_inlineable (pretty_with false true y) = true /\
                     utf8_len (format (InlineArray [pretty_with false true y]) 0 None) <= 90)
               end) -> good p q (seq_yaml ys).
Proof.
  intros F Hq. destruct ys as [|z ys].
  - repeat split; try exact I. apply CFlow; exact I.
  - unfold good. rewrite pretty_seq_block by discriminate.
    rewrite <- (map_map (pretty_with false true) (fun y => AElem (mkA None y))).
    assert (X := array_canon p q (map (pretty_with false true) (z :: ys))).
    destruct X as [X1 X2].
    + discriminate.
    + rewrite Forall_map. eapply Forall_impl; [|exact F]. intros y (A & B & _). auto.
    + intros E. destruct (Hq E) as [[A _] B]. cbn [map]. split; [exact A|].
      intros M. apply B. destruct ys; [reflexivity|discriminate].
    + split; [exact X1|]. split; [exact X2|]. apply long_seq. eapply Forall_impl; [|exact F]. now intros y (_ & _ & A).
Qed.

Lemma map_good p q k y es : plain_key ut k -> good (first_place q p (length ((k, y) :: es))) false y ->
  Forall (fun kv => plain_key ut (fst kv) /\ good Own false (snd kv)) es ->
  good p q (map_yaml_of ((k, y) :: es)).
Proof.
  intros K G F. unfold good. rewrite pretty_map_block by discriminate.
  rewrite <- (map_map (fun kv => (fst kv, pretty_with false false (snd kv)))
                (fun kv => HElem (mkHE (fst kv) (mkA None (snd kv))))).
  split; [|split; [discriminate|]].
  - apply hash_canon. cbn [map fst snd]. split; [exact K|]. split.
    + cbn [length]. rewrite map_length. apply G.
    + rewrite Forall_map. eapply Forall_impl; [|exact F]. intros [k' y'] [A (B & _)]. auto.
  - apply long_map. constructor; [apply G|]. eapply Forall_impl; [|exact F]. intros [k' y'] [_ (_ & _ & B)]. exact B.
Qed.

Lemma ser_good v : forall p q y, block_fits ut p q v -> ser v = Some y -> good p q y.
Proof.
  induction v using sval_ind'; intros p q y F E; cbn [block_fits ser] in *; try contradiction;
    try (injection E as <-); try (now apply text_good); eauto.
  - apply plain_good, bool_yaml.
  - apply plain_good, int_yaml.
  - now apply plain_good, float_yaml.
  - assert (W : forall b, In b l -> utf8_len (format (InlineArray [Unquoted (show_N b)]) 0 None) <= 90).
    { intros b Hb. eapply Nat.le_trans; [apply (inline_width _ [21]); constructor; [|constructor]|cbn; lia].
      rewrite plain_width. pose proof (show_N_len b). specialize (F b Hb). lia. }
    apply seq_good.
    + apply Forall_map. apply Forall_forall. intros b _. apply plain_good, byte_yaml.
    + intros _. destruct l as [|b l]; [exact I|]. cbn [map]. split; [apply plain_good, byte_yaml|].
      intros _. rewrite plain_pretty by apply byte_yaml. split; [reflexivity|]. apply W. now left.
  - apply plain_good, null_yaml.
  - apply plain_good, null_yaml.
  - apply plain_good, null_yaml.
  - destruct (opt_map ser l) as [ys|] eqn:O; [|discriminate]. injection E as <-. destruct F as [F Fq].
    rewrite Forall_forall in H. apply seq_good.
    + apply (opt_map_forall _ _ _ _ O). intros x y Hx Ex. apply (H x Hx Own true y); [|exact Ex].
      now apply (fold_in _ _ F).
    + intros Q. specialize (Fq Q). destruct l as [|x l]; [cbn in O; injection O as <-; exact I|].
      apply opt_map_cons in O as (y & ys' & -> & Ex & O). destruct Fq as [Fx Fn].
      split; [apply (H x); [now left|exact Fx|exact Ex]|]. intros ->.
      destruct l as [|x' l]; [|apply opt_map_cons in O as (? & ? & O & _); discriminate].
      destruct (Fn eq_refl) as [N W]. destruct (narrow_block x _ y Fx N Ex) as [A B]. split; [exact A|].
      eapply Nat.le_trans; [|exact W].
      apply (inline_width [pretty_with false true y] [width x]). constructor; [exact B|constructor].
  - destruct (opt_map ser l) as [ys|] eqn:O; [|discriminate]. injection E as <-.
    assert (X : inline_canon ut (InlineArray (map (pretty_with true false) ys))).
    { apply inline_array. rewrite Forall_map. apply (opt_map_forall _ _ _ _ O). intros x y Hx Ex.
      apply (ser_inline x y); [now apply (fold_in _ _ F)|exact Ex]. }
    split; [apply CFlow; [exact X|exact I]|]. split; [intros _; exact X|]. apply (long_inline (InlineArray ys)).
  - match type of E with option_map _ (opt_map ?f l) = _ => set (g := f) in * end.
    destruct (opt_map g l) as [es|] eqn:O; [|discriminate]. injection E as <-.
    assert (S : forall k x ks y, g (k, x) = Some (ks, y) -> key_fits ut k -> plain_key ut ks /\ ser x = Some y).
    { intros k x ks y Ex Fk. cbn in Ex. destruct (ser k) as [yk|] eqn:Sk; [|discriminate].
      destruct (yaml_to_key_string yk) as [ks'|] eqn:K; [|discriminate].
      destruct (ser x) as [y'|] eqn:Sx; [|discriminate]. injection Ex as <- <-.
      split; [eapply key_text; eassumption|reflexivity]. }
    destruct l as [|[k v] l].
    + injection O as <-. repeat split; try exact I. apply CFlow; exact I.
    + apply opt_map_cons in O as ([ks y] & es' & -> & Ex & O). destruct F as (Fk & Fv & Fl).
      destruct (S _ _ _ _ Ex Fk) as [Pk Sv]. rewrite Forall_forall in H.
      assert (Len : length es' = length l).
      { clear - O. revert es' O. induction l as [|x l IH]; intros es O; [injection O as <-; reflexivity|].
        apply opt_map_cons in O as (? & ? & -> & _ & O). cbn. f_equal. auto. }
      apply map_good; [exact Pk| |].
      * cbn [length]. rewrite Len. apply (H (k, v)); [now left|exact Fv|exact Sv].
      * apply (opt_map_forall _ _ _ _ O). intros [k' x] [ks' y'] Hx Ex'.
        destruct (fold_in _ _ Fl _ Hx) as [Fk' Fv']. destruct (S _ _ _ _ Ex' Fk') as [Pk' Sv'].
        split; [exact Pk'|]. apply (H (k', x)); [now right|exact Fv'|exact Sv'].
  - match type of E with option_map _ (opt_map ?f l) = _ => set (g := f) in * end.
    destruct (opt_map g l) as [es|] eqn:O; [|discriminate]. injection E as <-.
    assert (S : forall k x ks y, g (k, x) = Some (ks, y) -> ks = k /\ ser x = Some y).
    { intros k x ks y Ex. cbn in Ex. 
      destruct (ser x) as [y'|] eqn:Sx; [|discriminate]. injection Ex as <- <-. auto. }
    destruct l as [|[k v] l].
    + injection O as <-. repeat split; try exact I. apply CFlow; exact I.
    + apply opt_map_cons in O as ([ks y] & es' & -> & Ex & O). destruct F as (Fk & Fv & Fl).
      destruct (S _ _ _ _ Ex) as [-> Sv]. rewrite Forall_forall in H.
      assert (Len : length es' = length l).
      { clear - O. revert es' O. induction l as [|x l IH]; intros es O; [injection O as <-; reflexivity|].
        apply opt_map_cons in O as (? & ? & -> & _ & O). cbn. f_equal. auto. }
      apply map_good; [exact Fk| |].
      * cbn [length]. rewrite Len. apply (H (k, v)); [now left|exact Fv|exact Sv].
      * apply (opt_map_forall _ _ _ _ O). intros [k' x] [ks' y'] Hx Ex'.
        destruct (fold_in _ _ Fl _ Hx) as [Fk' Fv']. destruct (S _ _ _ _ Ex') as [-> Sv'].
        split; [exact Fk'|]. apply (H (k', x)); [now right|exact Fv'|exact Sv'].
Qed.

End Values.

(** ---- through text ---- *)

Lemma canon_text ut t v y y' : canon_doc ut (mkDoc [] [DYaml y']) -> from_yaml t y' = Some v -> y = y' ->
  from_yaml_str ut t (format_doc (mkDoc [] [DYaml y])) = CVal v.
Proof.
  intros C D ->. unfold from_yaml_str. rewrite (format_parse ut _ C). cbn [items first_yaml]. now rewrite D.
Qed.

Lemma entries_lead ut e l : entries ut true Own (HElem e :: l) -> entries ut false Own (HElem e :: l).
Proof.
  intros X. inversion X; subst.
  - now apply ELast.
  - now apply ELastC.
  - now apply ECons.
  - now apply EConsC.
Qed.

Lemma root_canon ut v : forall y, root_fits ut v -> ser v = Some y ->
  canon_doc ut (mkDoc [] [DYaml (pretty y)]) /\ long_ok false y.
Proof.
  assert (S : forall ys, ys <> [] -> Forall (good ut Own true) ys ->
    canon_doc ut (mkDoc [] [DYaml (pretty (seq_yaml ys))]) /\ long_ok false (seq_yaml ys)).
  { intros ys Hn G. split.
    - split; [constructor|]. exists [], (pretty (seq_yaml ys)), []. split; [reflexivity|].
      split; [constructor|]. split; [constructor|].
      unfold pretty. rewrite pretty_seq_block by exact Hn. unfold auto_inline. cbn [andb].
      rewrite <- (map_map (pretty_with false true) (fun y => AElem (mkA None y))).
      apply elements_map; [destruct ys; [congruence|discriminate]|].
      rewrite Forall_map. eapply Forall_impl; [|exact G]. intros y H. apply H.
    - apply long_seq. eapply Forall_impl; [|exact G]. intros y H. apply H. }
  assert (M : forall v y, (match v with SMap l => l <> [] | SStruct l => l <> [] | _ => False end) ->
    block_fits ut Own false v -> ser v = Some y ->
    canon_doc ut (mkDoc [] [DYaml (pretty y)]) /\ long_ok false y).
  { intros v' y Hv F E. destruct (ser_good ut v' Own false y F E) as (C & _ & L). split; [|exact L].
    split; [constructor|]. exists [], (pretty y), []. split; [reflexivity|].
    split; [constructor|]. split; [constructor|].
    unfold pretty. assert (X : exists es, es <> [] /\ y = map_yaml_of es).
    { destruct v'; try contradiction; cbn [ser] in E; (destruct (opt_map _ l) as [es|] eqn:O; [|discriminate]);
        injection E as <-; (destruct l as [|x l]; [congruence|]); apply opt_map_cons in O as (? & ? & -> & _);
        eexists; (split; [|reflexivity]); discriminate. }
    destruct X as (es & Hn & ->). rewrite pretty_map_block in C |- * by exact Hn.
    inversion C as [? ? ? ? X| | |? l0 X| | | | |]; subst; [destruct X|].
    destruct es as [|e es]; [congruence|]. cbn [map] in X |- *. now apply entries_lead. }
  induction v using sval_ind'; intros y F E; cbn [root_fits] in F; try contradiction; try (now apply IHv).
  - destruct F as [Hn F]. cbn [ser] in E. injection E as <-. apply S.
    + destruct l; [congruence|discriminate].
    + apply Forall_map. apply Forall_forall. intros b _. apply plain_good, byte_yaml.
  - destruct F as [Hn [F _]]. cbn [ser] in E. destruct (opt_map ser l) as [ys|] eqn:O; [|discriminate]. injection E as <-.
    apply S.
    + destruct l as [|x l]; [congruence|]. apply opt_map_cons in O as (? & ? & -> & _). discriminate.
    + apply (opt_map_forall _ _ _ _ O). intros x y Hx Ex. apply (ser_good ut x); [now apply (fold_in _ _ F)|exact Ex].
  - destruct F as [Hn F]. now apply (M (SMap l)).
  - destruct F as [Hn F]. now apply (M (SStruct l)).
Qed.

Lemma text_roundtrip ut t v y : has_ty t v -> faithful v -> ser v = Some y -> root_fits ut v ->
  from_yaml_str ut t (format_doc (mkDoc [] [DYaml (pretty y)])) = CVal v.
Proof.
  intros T F E R. destruct (root_canon ut v y R E) as [C L].
  eapply canon_text; [exact C|now apply from_pretty_ser|reflexivity].
Qed.

Lemma text_roundtrip_canonical ut t v y : has_ty t v -> faithful v -> ser v = Some y -> 
  canon_doc ut (mkDoc [] [DYaml y]) -> from_yaml_str ut t (format_doc (mkDoc [] [DYaml y])) = CVal v.
Proof. intros T F E C. eapply canon_text; [exact C|now apply from_ser|reflexivity]. Qed.
