(** Lemmas for C80: what a visitor is told. *)
From Coq Require Import ZArith.
From Verif Require Import Base Ast Num Strings Format Pretty Ser De DeErr DeCalls Hints SerdeFacts2 TypedFacts ErrFacts ErrFacts2 ErrFacts4 ErrFacts7 AttrFacts7
  Spec_Serde Spec_Look Spec_Typed Spec_Attr Spec_Refs Spec_Visit Spec_Reads Spec_Told.
Import ListNotations.

(** ---- references of references ---- *)
Lemma chain_app a y l m z : chain a y (l ++ m) z <-> exists x, chain a y l x /\ chain a x m z.
Proof.
  revert y. induction l as [|n l IH]; intros y; cbn [app]; split.
  - intros C. exists y. split; [constructor|exact C].
  - intros (x & C & D). inversion C; subst. exact D.
  - intros C. inversion C as [|? x ? ? N D]; subst. apply IH in D as (w & D & E). exists w. split; [econstructor; eauto|exact E].
  - intros (x & C & D). inversion C as [|? w ? ? N E]; subst. econstructor; [exact N|]. apply IH. eauto.
Qed.
Lemma newest_in a n y : newest a n y -> In n (map fst a).
Proof. intros (b & c & -> & _). rewrite map_app. apply in_or_app. right. left. reflexivity. Qed.
Lemma chain_names a y l z : chain a y l z -> incl l (map fst a).
Proof. induction 1 as [y|n y l z N C IH]; intros m [].  - subst. eapply newest_in; eauto. - now apply IH. Qed.
Lemma chain_head a y n l z : chain a y (n :: l) z -> y = Anchor n.
Proof. inversion 1; reflexivity. Qed.

Lemma behind_node k : forall y a z, behind k y a = Some (Some z) -> is_ref z = false /\ exists l, chain a y l z.
Proof.
  induction k as [|k IH]; intros y a z H; destruct y; cbn [behind] in H; try discriminate H;
    try (injection H as <-; split; [reflexivity|exists []; constructor]).
  destruct (resolve a s) as [w|] eqn:R; [|discriminate H]. apply IH in H as [H [l C]]. split; [exact H|].
  exists (s :: l). econstructor; [apply resolve_newest; eassumption|exact C].
Qed.
Lemma behind_lost k : forall y a, behind k y a = Some None -> exists l n, chain a y l (Anchor n) /\ ~ In n (map fst a).
Proof.
  induction k as [|k IH]; intros y a H; destruct y; cbn [behind] in H; try discriminate H.
  destruct (resolve a s) as [w|] eqn:R.
  - apply IH in H as (l & n & C & N). exists (s :: l), n. split; [|exact N]. econstructor; [apply resolve_newest; eassumption|exact C].
  - exists [], s. split; [constructor|]. now apply resolve_none.
Qed.
Lemma behind_more k : forall y a, behind k y a = None -> exists l z, chain a y l z /\ length l = k.
Proof.
  induction k as [|k IH]; intros y a H; [exists [], y; split; [constructor|reflexivity]|].
  destruct y; cbn [behind] in H; try discriminate H. destruct (resolve a s) as [w|] eqn:R; [|discriminate H].
  apply IH in H as (l & z & C & L). exists (s :: l), z. split; [econstructor; [apply resolve_newest; eassumption|exact C]|cbn; now rewrite L].
Qed.
Lemma behind_here k y a : is_ref y = false -> behind k y a = Some (Some y).
Proof. destruct k, y; cbn; intro H; try discriminate H; reflexivity. Qed.
Lemma chain_behind a y l z : chain a y l z -> forall k, behind (length l + k) y a = behind k z a.
Proof.
  induction 1 as [y|n y l z N C IH]; intros k; [reflexivity|]. cbn [length Nat.add behind]. apply resolve_newest in N. rewrite N. apply IH.
Qed.

(** More references than labels: a circle. *)
Lemma twice (l : list str) : NoDup l \/ exists n l1 l2 l3, l = l1 ++ n :: l2 ++ n :: l3.
Proof.
  induction l as [|x l [IH|(n & l1 & l2 & l3 & ->)]]; [left; constructor| |right; exists n, (x :: l1), l2, l3; reflexivity].
  destruct (in_dec (list_eq_dec N.eq_dec) x l) as [H|H]; [|left; now constructor].
  apply in_split in H as (l2 & l3 & ->). right. exists x, [], l2, l3. reflexivity.
Qed.
Lemma pigeon (l m : list str) : incl l m -> length m < length l -> exists n l1 l2 l3, l = l1 ++ n :: l2 ++ n :: l3.
Proof. intros I L. destruct (twice l) as [D|H]; [|exact H]. pose proof (NoDup_incl_length D I). lia. Qed.
Lemma circle a n l : chain a (Anchor n) (n :: l) (Anchor n) -> forall k, exists m z, chain a (Anchor n) m z /\ length m = k.
Proof.
  intros C k. assert (B : forall i, exists m, chain a (Anchor n) m (Anchor n) /\ i <= length m).
  { induction i as [|i (m & H & L)]; [exists []; split; [constructor|apply le_n]|]. exists (m ++ n :: l). split; [apply chain_app; eauto|].
    rewrite app_length. cbn. lia. }
  destruct (B k) as (m & H & L). rewrite <- (firstn_skipn k m) in H. apply chain_app in H as (x & H & _).
  exists (firstn k m), x. split; [exact H|]. now rewrite firstn_length_le.
Qed.
Lemma long_endless a y l z : chain a y l z -> length a < length l -> forall k, exists m w, chain a y m w /\ length m = k.
Proof.
  intros C L k. destruct (pigeon l (map fst a)) as (n & l1 & l2 & l3 & E); [eapply chain_names; eauto|rewrite map_length; exact L|].
  subst l. apply chain_app in C as (x & C1 & C2). pose proof (chain_head _ _ _ _ _ C2) as ->.
  change (n :: l2 ++ n :: l3) with ((n :: l2) ++ n :: l3) in C2. apply chain_app in C2 as (x & C2 & C3).
  pose proof (chain_head _ _ _ _ _ C3) as ->.
  destruct (le_lt_dec k (length l1)) as [H|H].
  - rewrite <- (firstn_skipn k l1) in C1. apply chain_app in C1 as (x & C1 & _). exists (firstn k l1), x. split; [exact C1|]. now rewrite firstn_length_le.
  - destruct (circle _ _ _ C2 (k - length l1)) as (m & w & H1 & H2). exists (l1 ++ m), w. split; [apply chain_app; eauto|]. rewrite app_length. lia.
Qed.
Lemma behind_none y a : behind (S (length a)) y a = None <-> forall k, exists l z, chain a y l z /\ length l = k.
Proof.
  split.
  - intros H k. apply behind_more in H as (l & z & C & L). apply (long_endless _ _ _ _ C). lia.
  - intros H. destruct (H (S (S (length a)))) as (l & z & C & L).
    assert (l <> []) by (intros ->; discriminate L). destruct (exists_last H0) as (l1 & n & ->).
    apply chain_app in C as (x & C1 & C2). pose proof (chain_head _ _ _ _ _ C2) as ->. rewrite app_length in L. cbn in L.
    assert (E : S (length a) = length l1 + 0) by lia. rewrite E, (chain_behind _ _ _ _ C1). reflexivity.
Qed.
Lemma behind_some y a z : behind (S (length a)) y a = Some (Some z) <-> is_ref z = false /\ exists l, chain a y l z.
Proof.
  split; [apply behind_node|]. intros [R [l C]]. destruct (behind (S (length a)) y a) as [[w|]|] eqn:B.
  - destruct (behind_node _ _ _ _ B) as [Rw [m D]]. pose proof (chain_behind _ _ _ _ C (length m)) as E1.
    pose proof (chain_behind _ _ _ _ D (length l)) as E2. rewrite (behind_here _ z) in E1 by assumption. rewrite (behind_here _ w) in E2 by assumption. rewrite Nat.add_comm in E2. congruence.
  - destruct (behind_lost _ _ _ B) as (m & n & D & N). pose proof (chain_behind _ _ _ _ C (S (length m))) as E1.
    pose proof (chain_behind _ _ _ _ D (S (length l))) as E2. rewrite (behind_here _ z) in E1 by assumption.
    cbn [behind] in E2. rewrite (proj2 (resolve_none _ _) N) in E2. replace (length m + S (length l)) with (length l + S (length m)) in E2 by lia. congruence.
  - rewrite behind_none in B. destruct (B (S (length l))) as (m & w & D & L).
    assert (m <> []) by (intros ->; discriminate L). destruct (exists_last H) as (m1 & n & ->).
    apply chain_app in D as (x & D1 & D2). pose proof (chain_head _ _ _ _ _ D2) as ->. rewrite app_length in L. cbn in L.
    pose proof (chain_behind _ _ _ _ C 0) as E1. pose proof (chain_behind _ _ _ _ D1 0) as E2. rewrite (behind_here _ z) in E1 by assumption.
    cbn [behind] in E2. replace (length m1) with (length l) in E2 by lia. congruence.
Qed.
Lemma behind_lost_iff y a : behind (S (length a)) y a = Some None <-> exists l n, chain a y l (Anchor n) /\ ~ In n (map fst a).
Proof.
  split; [apply behind_lost|]. intros (l & n & C & N). destruct (behind (S (length a)) y a) as [[w|]|] eqn:B; [|reflexivity|].
  - destruct (behind_node _ _ _ _ B) as [Rw [m D]]. pose proof (chain_behind _ _ _ _ D (S (length l))) as E1.
    pose proof (chain_behind _ _ _ _ C (S (length m))) as E2. rewrite (behind_here _ w) in E1 by assumption.
    cbn [behind] in E2. rewrite (proj2 (resolve_none _ _) N) in E2. replace (length m + S (length l)) with (length l + S (length m)) in E1 by lia. congruence.
  - rewrite behind_none in B. destruct (B (S (S (length l)))) as (m & w & D & L).
    assert (m <> []) by (intros ->; discriminate L). destruct (exists_last H) as (m1 & k & ->).
    apply chain_app in D as (x & D1 & D2). pose proof (chain_head _ _ _ _ _ D2) as ->. rewrite app_length in L. cbn in L.
    pose proof (chain_behind _ _ _ _ C 1) as E1. pose proof (chain_behind _ _ _ _ D1 0) as E2.
    cbn [behind] in E1, E2. rewrite (proj2 (resolve_none _ _) N) in E1. replace (length m1 + 0) with (length l + 1) in E2 by lia. congruence.
Qed.

(** ---- soundness and completeness ---- *)
Lemma res_target y a z : into_resolved y a = Some z <-> target a y z.
Proof. rewrite <- resolved_ok, <- resolved_erase. unfold erase. destruct (resolved_e y a); split; congruence. Qed.
Lemma res_none y a : into_resolved y a = None -> forall z, ~ target a y z.
Proof. intros H z T. apply res_target in T. congruence. Qed.

Definition any_said (v : anyv) : option said :=
  match v with
  | AnUnit => Some SayUnit | AnBool b => Some (SayBool b) | AnI64 z => Some (SayI64 z) | AnU64 z => Some (SayU64 z)
  | AnF64 s => Some (SayF64 s) | AnStr s => Some (SayString s) | AnSeq _ | AnMap _ => None
  end.
Lemma scalar_said_iff v m : scalar_said v m <-> any_said v = Some m.
Proof. destruct v; cbn; split; try congruence; try contradiction; discriminate. Qed.
Lemma word_told s a : exists m, any_said (any_unquoted s) = Some m /\
  (if is_null_word s then Says SayUnit a
   else if seqb s (lit "true") then Says (SayBool true) a
   else if seqb s (lit "false") then Says (SayBool false) a
   else match parse_i64 s with
        | Some i => Says (SayI64 i) a
        | None => match parse_u64 s with
                  | Some u => Says (SayU64 u) a
                  | None => if parse_f64_ok s then Says (SayF64 s) a else Says (SayString s) a
                  end
        end) = Says m a.
Proof.
  unfold any_unquoted. destruct (is_null_word s); [eexists; split; reflexivity|]. destruct (seqb s (lit "true")); [eexists; split; reflexivity|].
  destruct (seqb s (lit "false")); [eexists; split; reflexivity|]. destruct (parse_i64 s); [eexists; split; reflexivity|].
  destruct (parse_u64 s); [eexists; split; reflexivity|]. destruct (parse_f64_ok s); eexists; split; reflexivity.
Qed.

Lemma any_sound y a m b : tell_any y a = Says m b -> hears HAny y a m b.
Proof.
  unfold tell_any. destruct (behind (S (length a)) y a) as [[z|]|] eqn:B; try discriminate.
  apply behind_some in B as [R [l C]]. destruct z; intro H; try discriminate R.
  - injection H as <- <-. pose proof (HeAnyMap y l _ a C I) as X. rewrite inline_labels in X by eauto. exact X.
  - rewrite hash_parts in H. injection H as <- <-. exact (HeAnyMap y l _ a C I).
  - injection H as <- <-. pose proof (HeAnySeq y l _ a C I) as X. rewrite inline_labels in X by eauto.
    unfold elements_of in X. cbn [children] in X. rewrite map_map in X. cbn in X. rewrite map_id in X. exact X.
  - rewrite seq_parts in H. injection H as <- <-. exact (HeAnySeq y l _ a C I).
  - injection H as <- <-. eapply HeAnyText; [exact C|discriminate|]. now apply scalar_iff.
  - injection H as <- <-. eapply HeAnyText; [exact C|discriminate|]. now apply scalar_iff.
  - destruct (word_told s a) as (k & E1 & E2). rewrite E2 in H. injection H as <- <-.
    eapply HeAnyWord; [exact C|now apply key_value|]. now apply scalar_said_iff.
  - injection H as <- <-. eapply HeAnyText; [exact C|discriminate|]. now apply scalar_iff.
  - injection H as <- <-. eapply HeAnyText; [exact C|discriminate|]. now apply scalar_iff.
Qed.

Lemma text_sound f y a m b : tell_text f y a = Says m b -> exists z s, target a y z /\ scalar z s /\ f s = Some m /\ b = a.
Proof.
  unfold tell_text. destruct (into_resolved y a) as [z|] eqn:R; [|discriminate]. destruct (yaml_to_string z) as [s|] eqn:S; [|discriminate].
  destruct (f s) as [k|] eqn:F; [|discriminate]. intro H. injection H as -> <-. exists z, s. apply res_target in R. apply scalar_iff in S. auto.
Qed.
Lemma text_complete f y a z s m : target a y z -> scalar z s -> f s = Some m -> tell_text f y a = Says m a.
Proof. intros T S F. unfold tell_text. apply res_target in T. apply scalar_iff in S. now rewrite T, S, F. Qed.

Lemma option_parse {A} (p : option A) (f : A -> said) m : option_map f p = Some m -> exists z, p = Some z /\ m = f z.
Proof. destruct p; [|discriminate]. intro H. injection H as <-. eauto. Qed.

Lemma null_word_iff s : is_null_word s = true <-> In s null_words.
Proof.
  unfold is_null_word, null_words. rewrite !orb_true_iff, !seqb_eq. cbn [map In]. intuition congruence.
Qed.
Lemma null_node_iff s : null_node (Unquoted s) <-> In s null_words.
Proof. split; [intros (w & E & H); injection E as ->; exact H|]. intro H. exists s. split; [reflexivity|exact H]. Qed.

Lemma elements_inline l : elements_of (InlineArray l) = l.
Proof. unfold elements_of. cbn [children]. rewrite map_map. cbn. apply map_id. Qed.

Lemma seq_sound y a m b : tell_seq y a = Says m b -> exists z, target a y z /\ is_seq z /\ m = SaySeq (elements_of z) /\ b = entered a z.
Proof.
  unfold tell_seq. destruct (into_resolved y a) as [z|] eqn:R; [|discriminate]. apply res_target in R. destruct z; intro H; try discriminate H.
  - injection H as <- <-. exists (InlineArray l). rewrite elements_inline, inline_labels by eauto. split; [exact R|]. split; [exact I|]. auto.
  - rewrite seq_parts in H. injection H as <- <-. exists (Array l). split; [exact R|]. split; [exact I|]. auto.
Qed.
Lemma map_sound y a m b : tell_map y a = Says m b -> exists z, target a y z /\ is_map z /\ m = SayMap (entries_of z) /\ b = entered a z.
Proof.
  unfold tell_map. destruct (into_resolved y a) as [z|] eqn:R; [|discriminate]. apply res_target in R. destruct z; intro H; try discriminate H.
  - injection H as <- <-. exists (InlineHash l). rewrite inline_labels by eauto. split; [exact R|]. split; [exact I|]. auto.
  - rewrite hash_parts in H. injection H as <- <-. exists (Hash l). split; [exact R|]. split; [exact I|]. auto.
Qed.
Lemma enum_tell y a : match de_enum_e y a with inl (n, c, a1) => tell_enum y a = Says (SayEnum n c) a1 | inr _ => exists b, tell_enum y a = Fails b end.
Proof.
  pose proof (enum_erase y a) as E. unfold erase in E. unfold tell_enum. unfold de_enum_content in E.
  destruct (into_resolved y a) as [z|]; [|destruct (de_enum_e y a) as [[[? ?] ?]|]; [discriminate E|eauto]].
  destruct z; try (destruct (de_enum_e y a) as [[[? ?] ?]|]; [injection E as -> -> ->; reflexivity|discriminate E]);
    try (destruct (de_enum_e y a) as [[[? ?] ?]|]; [discriminate E|eauto]).
  - destruct l as [|[n v] [|e l]]; destruct (de_enum_e y a) as [[[? ?] ?]|]; try discriminate E; try injection E as -> -> ->; eauto.
  - destruct (hash_entries a l) as [es b]. destruct es as [|[n v] [|e es]]; destruct (de_enum_e y a) as [[[? ?] ?]|]; try discriminate E; try injection E as -> -> ->; eauto.
Qed.
Lemma enum_iff y a n c b : tell_enum y a = Says (SayEnum n c) b <-> picks a y n c b.
Proof.
  pose proof (enum_tell y a) as E. split.
  - intro H. destruct (enum_cases y a) as [(n' & c' & a1 & P & D)|(e & D & _)]; rewrite D in E.
    + rewrite E in H. injection H as -> -> ->. exact P.
    + destruct E as [? E]. congruence.
  - intro P. apply picks_read in P. rewrite P in E. exact E.
Qed.
Lemma enum_shape y a m b : tell_enum y a = Says m b -> exists n c, m = SayEnum n c.
Proof.
  intro H. pose proof (enum_tell y a) as E. destruct (de_enum_e y a) as [[[n c] a1]|].
  - rewrite E in H. injection H as <- _. eauto.
  - destruct E as [? E]. congruence.
Qed.

Lemma i64_parse s i : parse_i64 s = Some i <-> decimal_text I64 s i /\ fits I64 i.
Proof. apply i64_iff. unfold sgn. cbn. tauto. Qed.
Lemma u64_parse s i : parse_u64 s = Some i <-> decimal_text U64 s i /\ fits U64 i.
Proof. apply u64_iff. cbn. tauto. Qed.

Lemma told_sound h y a m b : tell h y a = Says m b -> hears h y a m b.
Proof.
  assert (Sg : forall h, signed_hint h -> tell_text (fun s => option_map SayI64 (parse_i64 s)) y a = Says m b -> hears h y a m b).
  { intros k K H. apply text_sound in H as (z & s & T & S & F & ->). apply option_parse in F as (i & F & ->). apply i64_parse in F as [F1 F2]. eapply HeSigned; eauto. }
  assert (Us : forall h, unsigned_hint h -> tell_text (fun s => option_map SayU64 (parse_u64 s)) y a = Says m b -> hears h y a m b).
  { intros k K H. apply text_sound in H as (z & s & T & S & F & ->). apply option_parse in F as (i & F & ->). apply u64_parse in F as [F1 F2]. eapply HeUnsigned; eauto. }
  assert (Fl : forall h, float_hint h -> tell_text (fun s => if parse_f64_ok s then Some (SayF64 s) else None) y a = Says m b -> hears h y a m b).
  { intros k K H. apply text_sound in H as (z & s & T & S & F & ->). destruct (parse_f64_ok s) eqn:P; [|discriminate F]. injection F as <-. apply float_spec in P. eapply HeFloat; eauto. }
  assert (Tx : forall h, text_hint h -> tell_text (fun s => Some (SayString s)) y a = Says m b -> hears h y a m b).
  { intros k K H. apply text_sound in H as (z & s & T & S & F & ->). injection F as <-. eapply HeText; eauto. }
  assert (Sq : forall h, seq_hint h -> tell_seq y a = Says m b -> hears h y a m b).
  { intros k K H. apply seq_sound in H as (z & T & S & -> & ->). now apply HeSeq. }
  assert (Mp : forall h, map_hint h -> tell_map y a = Says m b -> hears h y a m b).
  { intros k K H. apply map_sound in H as (z & T & S & -> & ->). now apply HeMap. }
  destruct h; cbn [tell]; try (apply Sg; cbn; tauto); try (apply Us; cbn; tauto); try (apply Fl; cbn; tauto); try (apply Tx; cbn; tauto);
    try (apply Sq; unfold seq_hint; cbn; solve [tauto|right; eauto]); try (apply Mp; cbn; tauto).
  - apply any_sound.
  - unfold tell_bool. intro H. destruct (into_resolved y a) as [z|] eqn:R; [|discriminate H]. apply res_target in R. destruct z; try discriminate H.
    match type of H with (if ?x then _ else _) = _ => destruct x eqn:B1 end.
    { injection H as <- <-. eapply HeBool; [exact R|]. now apply (words_iff true). }
    match type of H with (if ?x then _ else _) = _ => destruct x eqn:B2 end; [|discriminate H].
    injection H as <- <-. eapply HeBool; [exact R|]. now apply (words_iff false).
  - discriminate.
  - discriminate.
  - unfold tell_option. intro H. destruct (into_resolved y a) as [z|] eqn:R; [|discriminate H]. apply res_target in R.
    destruct z; try (injection H as <- <-; eapply HeSome; [exact R|intros (w & E & _); discriminate E]).
    destruct (is_null_word s) eqn:N.
    + injection H as <- <-. eapply HeNone; [exact R|]. apply null_node_iff. now apply null_word_iff.
    + injection H as <- <-. eapply HeSome; [exact R|]. intro X. apply (proj1 (null_node_iff s)), null_word_iff in X. congruence.
  - intro H. injection H as <- <-. apply HeUnit. cbn. tauto.
  - intro H. injection H as <- <-. apply HeUnit. cbn. tauto.
  - intro H. injection H as <- <-. apply HeNewtype.
  - intro H. destruct (enum_shape _ _ _ _ H) as (n & c & ->). apply HeEnum. now apply enum_iff.
  - intro H. injection H as <- <-. apply HeUnit. cbn. tauto.
Qed.

Lemma seq_complete y a z : target a y z -> is_seq z -> tell_seq y a = Says (SaySeq (elements_of z)) (entered a z).
Proof.
  intros T S. unfold tell_seq. apply res_target in T. rewrite T. destruct z; try contradiction S.
  - now rewrite elements_inline, inline_labels by eauto.
  - now rewrite seq_parts.
Qed.
Lemma map_complete y a z : target a y z -> is_map z -> tell_map y a = Says (SayMap (entries_of z)) (entered a z).
Proof.
  intros T S. unfold tell_map. apply res_target in T. rewrite T. destruct z; try contradiction S.
  - now rewrite inline_labels by eauto.
  - now rewrite hash_parts.
Qed.

Lemma told_complete h y a m b : hears h y a m b -> tell h y a = Says m b.
Proof.
  destruct 1 as [y l s v m a C K S|y l z s a C U S|y l z a C S|y l z a C S|y s b a T I|h y z s i a K T S D F|h y z s i a K T S D F|h y z s a K T S F
                |h y z s a K T S|y z a T N|y z a T N|h y a K|y a|h y z a K T S|h y z a K T S|y n c a b P].
  - cbn [tell]. unfold tell_any. rewrite (proj2 (behind_some y a (Unquoted s))) by eauto. apply key_value in K as ->. apply scalar_said_iff in S.
    destruct (word_told s a) as (k & E1 & E2). rewrite E2. congruence.
  - cbn [tell]. unfold tell_any. apply scalar_iff in S. rewrite (proj2 (behind_some y a z)) by (split; [destruct z; try discriminate S; reflexivity|eauto]).
    destruct z; try discriminate S; try (injection S as <-; reflexivity). destruct (U s0 eq_refl).
  - cbn [tell]. unfold tell_any. rewrite (proj2 (behind_some y a z)) by (split; [destruct z; try contradiction S; reflexivity|eauto]).
    destruct z; try contradiction S; [now rewrite elements_inline, inline_labels by eauto|now rewrite seq_parts].
  - cbn [tell]. unfold tell_any. rewrite (proj2 (behind_some y a z)) by (split; [destruct z; try contradiction S; reflexivity|eauto]).
    destruct z; try contradiction S; [now rewrite inline_labels by eauto|now rewrite hash_parts].
  - cbn [tell]. unfold tell_bool. apply res_target in T. rewrite T.
    destruct b; cbn [bool_words map In] in I; repeat (destruct I as [<-|I]; [vm_compute; reflexivity|]); contradiction.
  - assert (tell_text (fun s => option_map SayI64 (parse_i64 s)) y a = Says (SayI64 i) a) as E.
    { eapply text_complete; eauto. now rewrite (proj2 (i64_parse s i) (conj D F)). }
    unfold signed_hint in K. cbn [In] in K. destruct K as [<-|[<-|[<-|[<-|[]]]]]; exact E.
  - assert (tell_text (fun s => option_map SayU64 (parse_u64 s)) y a = Says (SayU64 i) a) as E.
    { eapply text_complete; eauto. now rewrite (proj2 (u64_parse s i) (conj D F)). }
    unfold unsigned_hint in K. cbn [In] in K. destruct K as [<-|[<-|[<-|[<-|[]]]]]; exact E.
  - assert (tell_text (fun s => if parse_f64_ok s then Some (SayF64 s) else None) y a = Says (SayF64 s) a) as E.
    { eapply text_complete; eauto. now rewrite (proj2 (float_spec s) F). }
    unfold float_hint in K. cbn [In] in K. destruct K as [<-|[<-|[]]]; exact E.
  - assert (tell_text (fun s => Some (SayString s)) y a = Says (SayString s) a) as E by (eapply text_complete; eauto).
    unfold text_hint in K. cbn [In] in K. destruct K as [<-|[<-|[<-|[<-|[]]]]]; exact E.
  - cbn [tell]. unfold tell_option. apply res_target in T. rewrite T. destruct N as (s & -> & N). apply null_word_iff in N. now rewrite N.
  - cbn [tell]. unfold tell_option. apply res_target in T. rewrite T. destruct z; try reflexivity.
    destruct (is_null_word s) eqn:E; [|reflexivity]. destruct N. apply null_node_iff. now apply null_word_iff.
  - unfold unit_hint in K. cbn [In] in K. destruct K as [<-|[<-|[<-|[]]]]; reflexivity.
  - reflexivity.
  - pose proof (seq_complete y a z T S) as E. destruct K as [K|[n [-> | ->]]]; [|exact E|exact E]. cbn [In] in K. destruct K as [<-|[<-|[<-|[]]]]; exact E.
  - pose proof (map_complete y a z T S) as E. unfold map_hint in K. cbn [In] in K. destruct K as [<-|[<-|[]]]; exact E.
  - now apply enum_iff.
Qed.
Lemma told_iff h y a m b : tell h y a = Says m b <-> hears h y a m b.
Proof. split; [apply told_sound|apply told_complete]. Qed.

(** ---- errors, and recursion without end ---- *)
Lemma any_endless y a : tell_any y a = Endless <-> behind (S (length a)) y a = None.
Proof.
  unfold tell_any. destruct (behind (S (length a)) y a) as [[z|]|] eqn:B; [|split; discriminate|split; reflexivity].
  split; [|discriminate]. destruct z; try discriminate; try (rewrite seq_parts || rewrite hash_parts; discriminate).
  destruct (word_told s a) as (k & _ & E). rewrite E. discriminate.
Qed.
Lemma any_fails y a b : tell_any y a = Fails b <-> b = a /\ behind (S (length a)) y a = Some None.
Proof.
  unfold tell_any. destruct (behind (S (length a)) y a) as [[z|]|] eqn:B.
  - split; [|intros [_ E]; discriminate E]. apply behind_some in B as [R _]. destruct z; try discriminate R; try discriminate; try (rewrite seq_parts || rewrite hash_parts; discriminate).
    destruct (word_told s a) as (k & _ & E). rewrite E. discriminate.
  - split; [intro E; injection E as ->; auto|intros [-> _]; reflexivity].
  - split; [discriminate|intros [_ E]; discriminate E].
Qed.
Lemma typed_ends h y a : h <> HAny -> tell h y a <> Endless.
Proof.
  assert (T : forall f, tell_text f y a <> Endless).
  { intros f. unfold tell_text. destruct (into_resolved y a) as [z|]; [|discriminate]. destruct (yaml_to_string z) as [s|]; [|discriminate]. destruct (f s); discriminate. }
  assert (S : tell_seq y a <> Endless).
  { unfold tell_seq. destruct (into_resolved y a) as [z|]; [|discriminate]. destruct z; try discriminate. rewrite seq_parts. discriminate. }
  assert (M : tell_map y a <> Endless).
  { unfold tell_map. destruct (into_resolved y a) as [z|]; [|discriminate]. destruct z; try discriminate. rewrite hash_parts. discriminate. }
  destruct h; intros N; cbn [tell]; try discriminate; try apply T; try exact S; try exact M.
  - now destruct N.
  - unfold tell_bool. destruct (into_resolved y a) as [z|]; [|discriminate]. destruct z; try discriminate. repeat (match goal with |- (if ?x then _ else _) <> _ => destruct x end; try discriminate).
  - unfold tell_option. destruct (into_resolved y a) as [z|]; [|discriminate]. destruct z; try discriminate. destruct (is_null_word s); discriminate.
  - pose proof (enum_tell y a) as E. destruct (de_enum_e y a) as [[[n c] a1]|]; [rewrite E; discriminate|]. destruct E as [b E]. rewrite E. discriminate.
Qed.
Lemma endless_iff h y a : tell h y a = Endless <-> h = HAny /\ forall k, exists l z, chain a y l z /\ length l = k.
Proof.
  split.
  - intro H. destruct h; try (exfalso; revert H; apply typed_ends; discriminate). split; [reflexivity|]. apply behind_none, any_endless, H.
  - intros [-> H]. apply any_endless, behind_none, H.
Qed.
Lemma any_fails_iff y a b : tell HAny y a = Fails b <-> b = a /\ exists l n, chain a y l (Anchor n) /\ ~ In n (map fst a).
Proof. cbn [tell]. rewrite any_fails, behind_lost_iff. reflexivity. Qed.

Lemma enum_left y a b : tell_enum y a = Fails b -> left_behind HEnum y a b.
Proof.
  unfold tell_enum, left_behind. destruct (into_resolved y a) as [z|] eqn:R.
  - apply res_target in R. destruct z; intro H; try discriminate H;
      try (injection H as <-; right; split; [|reflexivity]; intros w T; pose proof (target_fun _ _ _ _ R T) as <-; exact (fun x => x)).
    + left. exists (InlineHash l). split; [exact R|]. split; [exact I|]. rewrite inline_labels by eauto.
      destruct l as [|[n v] [|e l]]; try discriminate H; injection H as <-; reflexivity.
    + left. exists (Hash l). split; [exact R|]. split; [exact I|]. rewrite hash_parts in H.
      destruct (entries_of (Hash l)) as [|[n v] [|e es]]; try discriminate H; injection H as <-; reflexivity.
  - intro H. injection H as <-. right. split; [|reflexivity]. intros z T. destruct (res_none _ _ R _ T).
Qed.
Lemma left_fun h y a b c : left_behind h y a b -> left_behind h y a c -> b = c.
Proof.
  destruct h; cbn [left_behind]; intros H K; try congruence. destruct H as [(z & T & M & ->)|[N ->]], K as [(w & U & Q & ->)|[O ->]]; try reflexivity.
  - now rewrite (target_fun _ _ _ _ T U).
  - destruct (O _ T M).
  - destruct (N _ U Q).
Qed.
Lemma fails_left h y a b : h <> HAny -> tell h y a = Fails b -> left_behind h y a b.
Proof.
  intros N.
  assert (T : forall f, tell_text f y a = Fails b -> b = a).
  { intros f. unfold tell_text. destruct (into_resolved y a) as [z|]; [|congruence]. destruct (yaml_to_string z) as [s|]; [|congruence]. destruct (f s); congruence. }
  assert (S : tell_seq y a = Fails b -> b = a).
  { unfold tell_seq. destruct (into_resolved y a) as [z|]; [|congruence]. destruct z; try congruence. rewrite seq_parts. congruence. }
  assert (M : tell_map y a = Fails b -> b = a).
  { unfold tell_map. destruct (into_resolved y a) as [z|]; [|congruence]. destruct z; try congruence. rewrite hash_parts. congruence. }
  destruct h; cbn [tell left_behind]; try congruence; try apply T; try exact S; try exact M.
  - unfold tell_bool. destruct (into_resolved y a) as [z|]; [|congruence]. destruct z; try congruence. repeat (match goal with |- (if ?x then _ else _) = _ -> _ => destruct x end; try congruence).
  - unfold tell_option. destruct (into_resolved y a) as [z|]; [|congruence]. destruct z; try congruence. destruct (is_null_word s); congruence.
  - apply enum_left.
Qed.
Lemma fails_iff h y a b : h <> HAny -> (tell h y a = Fails b <-> (forall m c, ~ hears h y a m c) /\ left_behind h y a b).
Proof.
  intros N. split.
  - intro H. split; [|now apply fails_left]. intros m c C. apply told_complete in C. congruence.
  - intros [H L]. destruct (tell h y a) as [m c|c|] eqn:T.
    + destruct (H m c). now apply told_sound.
    + f_equal. apply (left_fun h y a); [|exact L]. now apply fails_left.
    + destruct (typed_ends h y a N T).
Qed.

(** ---- the untyped and the typed methods ---- *)
Lemma null_any y a b z : target a y z -> is_ref z = false -> (tell HAny y a = Says SayUnit b <-> tell HOption y a = Says SayNone b).
Proof.
  intros T R. assert (C : exists l, chain a y l z).
  { destruct T as [[_ ->]|(n & -> & N)]; [exists []; constructor|exists [n]; econstructor; [exact N|constructor]]. }
  cbn [tell]. unfold tell_any, tell_option. rewrite (proj2 (behind_some y a z)) by auto. rewrite (proj2 (res_target y a z) T).
  destruct z; try discriminate R; try (rewrite seq_parts || rewrite hash_parts); try (split; discriminate).
  destruct (is_null_word s); [split; intro H; injection H as <-; reflexivity|]. split; [|discriminate].
  repeat (match goal with |- (if ?x then _ else _) = _ -> _ => destruct x | |- match ?x with Some _ => _ | None => _ end = _ -> _ => destruct x end; try discriminate).
Qed.
Lemma any_typed y a z m b : target a y z -> is_ref z = false -> tell HAny y a = Says m b -> tell (asks_for m) y a = Says m b.
Proof.
  intros T R. assert (C : exists l, chain a y l z).
  { destruct T as [[_ ->]|(n & -> & N)]; [exists []; constructor|exists [n]; econstructor; [exact N|constructor]]. }
  pose proof (proj2 (res_target y a z) T) as E. intro H. cbn [tell] in H. unfold tell_any in H. rewrite (proj2 (behind_some y a z)) in H by auto.
  destruct z; try discriminate R; try (rewrite seq_parts in H || rewrite hash_parts in H); try (injection H as <- <-); cbn [asks_for tell]; unfold tell_seq, tell_map, tell_text; try rewrite E; cbn [yaml_to_string]; try (now rewrite ?seq_parts, ?hash_parts); try reflexivity.
  destruct (is_null_word s); [injection H as <- <-; reflexivity|].
  destruct (seqb s (lit "true")) eqn:B1; [injection H as <- <-; cbn [asks_for tell]; unfold tell_bool; rewrite E; apply seqb_eq in B1 as ->; reflexivity|].
  destruct (seqb s (lit "false")) eqn:B2; [injection H as <- <-; cbn [asks_for tell]; unfold tell_bool; rewrite E; apply seqb_eq in B2 as ->; reflexivity|].
  destruct (parse_i64 s) as [i|] eqn:P1; [injection H as <- <-; cbn [asks_for tell]; unfold tell_text; rewrite E; cbn [yaml_to_string]; rewrite P1; reflexivity|].
  destruct (parse_u64 s) as [u|] eqn:P2; [injection H as <- <-; cbn [asks_for tell]; unfold tell_text; rewrite E; cbn [yaml_to_string]; rewrite P2; reflexivity|].
  destruct (parse_f64_ok s) eqn:P3; injection H as <- <-; cbn [asks_for tell]; unfold tell_text; rewrite E; cbn [yaml_to_string]; rewrite ?P3; reflexivity.
Qed.
