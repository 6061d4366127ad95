(** References, integers and totality of serialization. *)
From Coq Require Import ZArith.
From Verif Require Import Base Ast Strings Format Num Pretty Spec_Strings StringsFacts
  Spec_Pretty PrettyFacts Peg PathGrammar Spec_Path PathFacts Ser De Spec_Serde SerdeFacts.
Import ListNotations.

(** ---- C41, C42 ---- *)

Lemma from_ser t v y : has_ty t v -> faithful v -> ser v = Some y -> from_yaml t y = Some v.
Proof.
  intros T F E. unfold from_yaml. rewrite (de_repr v t y [] T F); [reflexivity|].
  exact (ser_repr v t y T F E).
Qed.
Lemma from_pretty_ser t v y : has_ty t v -> faithful v -> ser v = Some y -> long_ok false y ->
  from_yaml t (pretty y) = Some v.
Proof.
  intros T F E L. unfold from_yaml. rewrite (de_repr v t (pretty y) [] T F); [reflexivity|].
  apply repr_pretty; [exact L|]. exact (ser_repr v t y T F E).
Qed.

(** ---- values with plain keys are serialized ---- *)

Lemma is_letter_range c : is_letter c = true -> (65 <= c <= 90 \/ 97 <= c <= 122)%N.
Proof. unfold is_letter. rewrite orb_true_iff, !andb_true_iff, !N.leb_le. lia. Qed.
Lemma word_char_range c : word_char c = true ->
  (65 <= c <= 90 \/ 97 <= c <= 122 \/ 48 <= c <= 57 \/ c = 95 \/ c = 45)%N.
Proof.
  unfold word_char. rewrite !orb_true_iff, andb_true_iff, !N.leb_le, !N.eqb_eq.
  intros [[[H|H]|H]|H]; [apply is_letter_range in H|..]; lia.
Qed.

Lemma word_has_char s c : (forall x, In x s -> word_char x = true) -> word_char c = false -> has_char c s = false.
Proof.
  intros H N. destruct (has_char c s) eqn:E; [|reflexivity]. apply has_char_true in E.
  rewrite (H c E) in N. discriminate.
Qed.

Lemma word_unquoted s : word s -> str_to_yaml s = Unquoted s.
Proof.
  intros ((c & s' & E & Hc) & W & R). unfold str_to_yaml.
  assert (X : can_be_unquoted_in_block s = true /\ inline_breaking_chars s = false); [|now destruct X as [X1 X2]; unfold needs_quoting; rewrite X1, X2].
  split.
  2:{ unfold inline_breaking_chars. rewrite !(word_has_char s) by (exact W || reflexivity). reflexivity. }
  unfold can_be_unquoted_in_block. rewrite E. rewrite <- E.
  assert (N1 : starts_with SP s = false).
  { rewrite E. unfold starts_with. apply ceqb_neq. intros ->. discriminate. }
  assert (N2 : ends_with SP s = false).
  { destruct (ends_with SP s) eqn:Z; [|reflexivity]. exfalso.
    assert (I : In SP s).
    { clear - Z. induction s as [|x s IH]; [discriminate|]. cbn in Z. destruct s as [|y s].
      - apply ceqb_eq in Z. now left.
      - right. now apply IH. }
    specialize (W _ I). discriminate. }
  rewrite N1, N2. cbn [orb].
  assert (N3 : bad_first c = false).
  { unfold bad_first. destruct (has_char c _) eqn:Z; [|reflexivity]. exfalso. apply has_char_true in Z.
    assert (Wc : word_char c = true) by (apply W; subst s; now left).
    vm_compute in Z. repeat (destruct Z as [<-|Z]; [vm_compute in Wc; discriminate|]). destruct Z. }
  rewrite N3.
  assert (N4 : has_sub (lit ": ") s = false).
  { destruct (has_sub (lit ": ") s) eqn:Z; [|reflexivity]. exfalso. apply has_sub_spec in Z as (x & y & Z).
    assert (I : In SP s) by (rewrite Z; apply in_or_app; right; right; now left).
    specialize (W _ I). discriminate. }
  rewrite N4, !(word_has_char s) by (exact W || reflexivity). cbn [orb].
  assert (F : parse_f64_ok s = false).
  { unfold parse_f64_ok. pose proof (is_letter_range c Hc) as Rc.
    assert (D : is_digit c = false).
    { unfold is_digit. destruct (andb _ _) eqn:Z; [|reflexivity].
      apply andb_true_iff in Z. rewrite !N.leb_le in Z. lia. }
    assert (K : skip_sign s = s).
    { subst s. cbn [skip_sign]. replace (ceqb c (chr "+")) with false by (symmetry; apply ceqb_neq; intros ->; discriminate).
      replace (ceqb c (chr "-")) with false by (symmetry; apply ceqb_neq; intros ->; discriminate). reflexivity. }
    rewrite K. change (map lower s) with (lower_word s).
    assert (Q : forall w, In w [lit "inf"; lit "infinity"; lit "nan"] -> seqb (lower_word s) w = false).
    { intros w Hw. apply seqb_neq. intros Z. apply R. rewrite Z. cbn in Hw |- *. tauto. }
    rewrite !Q by (cbn; tauto). cbn [orb]. unfold number_ok. subst s. cbn [skip_digits starts_digit]. rewrite D.
    replace (ceqb c (chr ".")) with false by (symmetry; apply ceqb_neq; intros ->; discriminate).
    reflexivity. }
  rewrite F. destruct (parse_i64 s) as [z|] eqn:P; [apply parse_int_f64 in P; congruence|].
  assert (T : forall w, In w [lit "true"; lit "false"; lit "null"] -> seqb s w = false).
  { intros w Hw. apply seqb_neq. intros Z. apply R. rewrite Z. cbn in Hw |- *.
    repeat (destruct Hw as [<-|Hw]; [vm_compute; tauto|]). destruct Hw. }
  rewrite !T by (cbn; tauto). replace (seqb s (lit "~")) with false; [reflexivity|].
  symmetry. apply seqb_neq. intros Z. rewrite Z in W. specialize (W _ (or_introl eq_refl)). discriminate.
Qed.

Lemma word_key_ser v : word_key v -> exists s, ser v = Some (Unquoted s).
Proof.
  induction v using sval_ind'; cbn; intros W; try contradiction; eauto.
  - exists s. f_equal. now apply word_unquoted.
  - exists n. f_equal. now apply word_unquoted.
Qed.

Lemma opt_map_total {A B} (f : A -> option B) l : (forall x, In x l -> f x <> None) -> exists m, opt_map f l = Some m.
Proof.
  induction l as [|x l IH]; intros H; [now exists []|]. cbn.
  destruct (f x) as [y|] eqn:E; [|exfalso; apply (H x); [now left|exact E]].
  destruct IH as [m ->]; [intros z Hz; apply H; now right|]. eauto.
Qed.

Lemma word_keys_ser v : word_keys v -> ser v <> None.
Proof.
  induction v using sval_ind'; cbn [word_keys ser]; intros W; try discriminate; auto.
  1,2,5: destruct (opt_map_total ser l) as [m ->]; [|discriminate];
    rewrite Forall_forall in H; intros x Hx; apply H; auto;
    clear H; induction l as [|z l IH]; [destruct Hx|]; cbn in W; destruct W as [W1 W2], Hx as [<-|Hx]; auto.
  - match goal with |- option_map _ (opt_map ?f l) <> None => destruct (opt_map_total f l) as [m ->]; [|discriminate] end.
    rewrite Forall_forall in H. intros [k x] Hx. destruct (H _ Hx) as [_ Hv]. cbn [fst snd] in *.
    assert (Q : word_key k /\ word_keys x).
    { clear H Hv. induction l as [|[k' z] l IH]; [destruct Hx|]. cbn in W. destruct W as [W1 W2], Hx as [E|Hx]; auto.
      injection E as <- <-. exact W1. }
    destruct Q as [Qk Qv]. destruct (word_key_ser k Qk) as [s ->]. cbn.
    destruct (ser x); [discriminate|]. now elim (Hv Qv).
  - match goal with |- option_map _ (opt_map ?f l) <> None => destruct (opt_map_total f l) as [m ->]; [|discriminate] end.
    rewrite Forall_forall in H. intros [k x] Hx. specialize (H _ Hx). cbn [fst snd] in *.
    assert (Q : word_keys x).
    { clear H. induction l as [|[k' z] l IH]; [destruct Hx|]. cbn in W. destruct W as [W1 W2], Hx as [E|Hx]; auto.
      injection E as <- <-. exact W1. }
    destruct (ser x); [discriminate|]. now elim (H Q).
  - match goal with |- option_map _ (opt_map ?f l) <> None => destruct (opt_map_total f l) as [m ->]; [|discriminate] end.
    rewrite Forall_forall in H. intros [k x] Hx. specialize (H _ Hx). cbn [fst snd] in *.
    assert (Q : word_keys x).
    { clear H. induction l as [|[k' z] l IH]; [destruct Hx|]. cbn in W. destruct W as [W1 W2], Hx as [E|Hx]; auto.
      injection E as <- <-. exact W1. }
    destruct (ser x); [discriminate|]. now elim (H Q).
Qed.

(** ---- references ---- *)

Lemma register_some a x n : a_alias x = Some n -> register a x = (n, a_value x) :: a.
Proof. unfold register. now intros ->. Qed.

Lemma resolve_register a x n : resolve (register a x) n =
  match a_alias x with
  | Some m => if seqb m n then Some (a_value x) else resolve a n
  | None => resolve a n
  end.
Proof. unfold register. destruct (a_alias x); reflexivity. Qed.

Lemma resolve_history h n y : resolve (fold_left register h []) n = Some y <->
  exists h1 x h2, h = h1 ++ x :: h2 /\ a_alias x = Some n /\ a_value x = y /\
    forall z, In z h2 -> a_alias z <> Some n.
Proof.
  induction h as [|x h IH] using rev_ind; cbn.
  - split; [discriminate|]. intros (h1 & x & h2 & E & _). destruct h1; discriminate.
  - rewrite fold_left_app. cbn [fold_left]. rewrite resolve_register.
    assert (K : forall (P : Prop), (a_alias x = Some n -> False) ->
       ((exists h1 x0 h2, h = h1 ++ x0 :: h2 /\ a_alias x0 = Some n /\ a_value x0 = y /\ (forall z, In z h2 -> a_alias z <> Some n)) <->
        (exists h1 x0 h2, h ++ [x] = h1 ++ x0 :: h2 /\ a_alias x0 = Some n /\ a_value x0 = y /\ (forall z, In z h2 -> a_alias z <> Some n)))).
    { intros _ N. split.
      - intros (h1 & x0 & h2 & -> & A & B & C). exists h1, x0, (h2 ++ [x]). rewrite <- app_assoc. repeat split; auto.
        intros z Hz. apply in_app_or in Hz as [Hz|[<-|[]]]; auto.
      - intros (h1 & x0 & h2 & E & A & B & C). destruct h2 as [|z h2 _] using rev_ind.
        + apply app_inj_tail in E as [-> ->]. contradiction.
        + change (x0 :: h2 ++ [z]) with ((x0 :: h2) ++ [z]) in E. rewrite app_assoc in E.
          apply app_inj_tail in E as [-> ->]. exists h1, x0, h2. repeat split; auto.
          intros w Hw. apply C, in_or_app. now left. }
    destruct (a_alias x) as [m|] eqn:A.
    + destruct (seqb m n) eqn:E.
      * apply seqb_eq in E. subst m. split.
        -- intros Q. injection Q as <-. exists h, x, []. repeat split; auto.
        -- intros (h1 & x0 & h2 & Q & B & C & D). destruct h2 as [|z h2 _] using rev_ind.
           ++ apply app_inj_tail in Q as [-> ->]. now rewrite C.
           ++ change (x0 :: h2 ++ [z]) with ((x0 :: h2) ++ [z]) in Q. rewrite app_assoc in Q.
              apply app_inj_tail in Q as [_ ->]. elim (D z); auto. apply in_or_app. right. now left.
      * apply seqb_neq in E. rewrite IH. apply (K True). congruence.
    + rewrite IH. apply (K True). discriminate.
Qed.

Lemma resolve_none h n : resolve (fold_left register h []) n = None <->
  forall x, In x h -> a_alias x <> Some n.
Proof.
  induction h as [|x h IH] using rev_ind; cbn; [split; [intros _ ? []|reflexivity]|].
  rewrite fold_left_app. cbn [fold_left]. rewrite resolve_register.
  split.
  - intros H z Hz. apply in_app_or in Hz as [Hz|[<-|[]]].
    + apply IH; [|exact Hz]. destruct (a_alias x) as [m|]; [destruct (seqb m n); [discriminate|]|]; exact H.
    + intros A. rewrite A, seqb_refl in H. discriminate.
  - intros H. assert (N : a_alias x <> Some n) by (apply H, in_or_app; right; now left).
    assert (R : resolve (fold_left register h []) n = None).
    { apply IH. intros z Hz. apply H, in_or_app. now left. }
    destruct (a_alias x) as [m|]; [|exact R]. destruct (seqb m n) eqn:E; [|exact R].
    apply seqb_eq in E. congruence.
Qed.

(** Collections register the aliases of their elements, in order. *)
Lemma hash_registers a l : snd (hash_entries a l) =
  fold_left register (flat_map (fun d => match d with HElem e => [he_value e] | _ => [] end) l) a.
Proof.
  revert a; induction l as [|[x|x|e] l IH]; intros a; cbn; auto.
  destruct (hash_entries (register a (he_value e)) l) as [es a'] eqn:E. cbn. rewrite <- IH, E. reflexivity.
Qed.
Lemma seq_registers a l : snd (seq_values a l) =
  fold_left register (flat_map (fun d => match d with AElem e => [e] | _ => [] end) l) a.
Proof.
  revert a; induction l as [|[x|x|e] l IH]; intros a; cbn; auto.
  destruct (seq_values (register a e) l) as [es a'] eqn:E. cbn. rewrite <- IH, E. reflexivity.
Qed.

Lemma de_anchor t n y a : resolve a n = Some y -> (forall m, y <> Anchor m) ->
  de t (Anchor n) a = de t y a.
Proof.
  intros R N.
  assert (I : forall n', into_resolved (Anchor n) a = into_resolved y a /\ n' = n -> True) by auto.
  assert (E : into_resolved (Anchor n) a = into_resolved y a).
  { cbn. rewrite R. destruct y; try reflexivity. now elim (N s). }
  clear I.
  induction t; cbn [de]; unfold de_bool, de_int, de_float, de_text, de_seq_values, de_map_entries,
    de_struct, de_map_entries, de_enum_content; rewrite ?E; try reflexivity.
  now rewrite IHt.
Qed.

Lemma de_anchor_undefined t n a : reads t -> resolve a n = None -> de t (Anchor n) a = None.
Proof.
  intros Hr R.
  assert (E : into_resolved (Anchor n) a = None) by exact R.
  induction t; try contradiction; cbn [de]; unfold de_bool, de_int, de_float, de_text, de_seq_values, de_map_entries,
    de_struct, de_map_entries, de_enum_content; rewrite ?E; try reflexivity.
  now rewrite (IHt Hr).
Qed.

(** ---- termination of the untyped deserializer ---- *)

Lemma any_self n a : resolve a n = Some (Anchor n) -> forall fuel, de_any fuel (Anchor n) a = More.
Proof. intros R. induction fuel as [|f IH]; [reflexivity|]. cbn. now rewrite R. Qed.

Lemma any_cycle (a : anchors) (C : str -> Prop) :
  (forall n, C n -> exists m, resolve a n = Some (Anchor m) /\ C m) ->
  forall fuel n, C n -> de_any fuel (Anchor n) a = More.
Proof.
  intros H. induction fuel as [|f IH]; intros n Hn; [reflexivity|].
  destruct (H n Hn) as (m & R & Hm). cbn. rewrite R. now apply IH.
Qed.

Lemma any_entry_self k n : forall fuel,
  de_any fuel (Hash [HElem (mkHE k (mkA (Some n) (Anchor n)))]) [] = More.
Proof.
  intros [|f]; [reflexivity|]. cbn [de_any hash_entries register a_alias a_value he_value he_key].
  rewrite any_self; [reflexivity|]. cbn. now rewrite seqb_refl.
Qed.

Lemma any_terminates fuel : forall y a, no_refs y -> depth y <= fuel -> de_any fuel y a <> More.
Proof.
  induction fuel as [|f IH]; intros y a N D; [destruct y; cbn in D; lia|].
  assert (El : forall l a, (forall y, In y l -> no_refs y /\ depth y <= f) ->
    (fix elems (l : list yaml) (a : anchors) : outcome (list anyv) :=
        match l with
        | [] => Done [] a
        | y :: l' =>
            match de_any f y a with
            | Done v a1 => match elems l' a1 with
                           | Done vs a2 => Done (v :: vs) a2
                           | Failed => Failed | More => More end
            | Failed => Failed | More => More
            end
        end) l a <> More).
  { induction l as [|z l IHl]; intros a' H; [discriminate|].
    destruct (H z (or_introl eq_refl)) as [Hn Hd]. specialize (IH z a' Hn Hd).
    destruct (de_any f z a') as [v a1| |]; try congruence.
    specialize (IHl a1 (fun y Hy => H y (or_intror Hy))).
    match goal with |- match ?m with _ => _ end <> _ => destruct m end; congruence. }
  assert (En : forall l a, (forall k y, In (k, y) l -> no_refs y /\ depth y <= f) ->
    (fix entries (l : list (str * yaml)) (a : anchors) : outcome (list (anyv * anyv)) :=
        match l with
        | [] => Done [] a
        | (k, y) :: l' =>
            match de_any f y a with
            | Done v a1 => match entries l' a1 with
                           | Done vs a2 => Done ((any_unquoted k, v) :: vs) a2
                           | Failed => Failed | More => More end
            | Failed => Failed | More => More
            end
        end) l a <> More).
  { induction l as [|[k z] l IHl]; intros a' H; [discriminate|].
    destruct (H k z (or_introl eq_refl)) as [Hn Hd]. specialize (IH z a' Hn Hd).
    destruct (de_any f z a') as [v a1| |]; try congruence.
    specialize (IHl a1 (fun k y Hy => H k y (or_intror Hy))).
    match goal with |- match ?m with _ => _ end <> _ => destruct m end; congruence. }
  destruct y as [l|l|l|l|ps|ps|s|ls ch|ls ch|s]; cbn [de_any]; try discriminate; [| | | |destruct N].
  - match goal with |- match ?m with _ => _ end <> _ => assert (Q : m <> More) end; [|match goal with |- match ?m with _ => _ end <> _ => destruct m end; congruence].
    apply En. intros k y Hy. clear - N D Hy. cbn in N, D.
    induction l as [|[k' z] l IHl]; [destruct Hy|]. cbn in N, D. destruct Hy as [E|Hy].
    + injection E as <- <-. split; [tauto|lia].
    + apply IHl; auto; [tauto|lia].
  - destruct (hash_entries a l) as [es a1] eqn:E.
    match goal with |- match ?m with _ => _ end <> _ => assert (Q : m <> More) end; [|match goal with |- match ?m with _ => _ end <> _ => destruct m end; congruence].
    apply En. intros k y Hy. clear - N D Hy E. cbn in N, D.
    revert a es a1 E Hy; induction l as [|[x|x|[k' [al z]]] l IHl]; intros a es a1 E Hy; cbn in N, D, E.
    + injection E as <- <-. destruct Hy.
    + eapply IHl; eauto. tauto.
    + eapply IHl; eauto. tauto.
    + destruct (hash_entries _ l) as [es' a'] eqn:E'. injection E as <- <-. destruct Hy as [Q|Hy].
      * injection Q as <- <-. split; [tauto|lia].
      * eapply IHl; eauto; [tauto|lia].
  - match goal with |- match ?m with _ => _ end <> _ => assert (Q : m <> More) end; [|match goal with |- match ?m with _ => _ end <> _ => destruct m end; congruence].
    apply El. intros y Hy. clear - N D Hy. cbn in N, D.
    induction l as [|z l IHl]; [destruct Hy|]. cbn in N, D. destruct Hy as [<-|Hy].
    + split; [tauto|lia].
    + apply IHl; auto; [tauto|lia].
  - destruct (seq_values a l) as [es a1] eqn:E.
    match goal with |- match ?m with _ => _ end <> _ => assert (Q : m <> More) end; [|match goal with |- match ?m with _ => _ end <> _ => destruct m end; congruence].
    apply El. intros y Hy. clear - N D Hy E. cbn in N, D.
    revert a es a1 E Hy; induction l as [|[x|x|[al z]] l IHl]; intros a es a1 E Hy; cbn in N, D, E.
    + injection E as <- <-. destruct Hy.
    + eapply IHl; eauto. tauto.
    + eapply IHl; eauto. tauto.
    + destruct (seq_values _ l) as [es' a'] eqn:E'. injection E as <- <-. destruct Hy as [<-|Hy].
      * split; [tauto|lia].
      * eapply IHl; eauto; [tauto|lia].
Qed.

(** ---- integers ---- *)

Lemma parse_digits_spec s n : parse_digits s = Some n <-> digits s /\ n = decimal_value s.
Proof.
  split.
  - intros H. pose proof (parse_digits_digits s n H) as [Hn Hd].
    assert (D : digits s).
    { split; [exact Hn|]. intros c Hc. rewrite forallb_forall in Hd. specialize (Hd c Hc).
      unfold is_digit in Hd. apply andb_true_iff in Hd. rewrite !N.leb_le in Hd. exact Hd. }
    split; [exact D|]. destruct (dec_uint s (proj2 D)) as (u & E1 & E2). unfold parse_digits in H.
    destruct s as [|c s]; [discriminate|]. rewrite E1 in H. cbn [option_map] in H. injection H as <-.
    rewrite of_uint_horner, E2. reflexivity.
  - intros [[Hn Hd] ->]. destruct (dec_uint s Hd) as (u & E1 & E2). unfold parse_digits.
    destruct s as [|c s]; [contradiction|]. rewrite E1. cbn [option_map]. rewrite of_uint_horner, E2. reflexivity.
Qed.

Lemma parse_int_spec k lo hi s z :
  parse_int (match k with I8 | I16 | I32 | I64 | I128 => true | _ => false end) lo hi s = Some z <->
  decimal_text k s z /\ (lo <= z <= hi)%Z.
Proof.
  set (sg := match k with I8 | I16 | I32 | I64 | I128 => true | _ => false end).
  assert (Sg : sg = true <-> signed_kind k).
  { unfold signed_kind, sg. destruct k; cbn; intuition discriminate. }
  clearbody sg. split.
  - intros P. split; [|exact (parse_int_range _ _ _ _ _ P)]. unfold parse_int in P.
    destruct s as [|c s]; [discriminate|].
    destruct (ceqb c (chr "+")) eqn:E1; [|destruct (sg && ceqb c (chr "-")) eqn:E2].
    + apply ceqb_eq in E1. subst c. destruct (parse_digits s) as [n|] eqn:D; [|discriminate].
      apply parse_digits_spec in D as [D ->]. match type of P with (if ?b then _ else _) = _ => destruct b; [|discriminate P] end.
      injection P as <-.
      exists s. split; [exact D|]. left. auto.
    + apply andb_true_iff in E2 as [S E2]. apply ceqb_eq in E2. subst c.
      destruct (parse_digits s) as [n|] eqn:D; [|discriminate].
      apply parse_digits_spec in D as [D ->]. match type of P with (if ?b then _ else _) = _ => destruct b; [|discriminate P] end.
      injection P as <-.
      exists s. split; [exact D|]. right. split; [now apply Sg|auto].
    + destruct (parse_digits (c :: s)) as [n|] eqn:D; [|discriminate].
      apply parse_digits_spec in D as [D ->]. match type of P with (if ?b then _ else _) = _ => destruct b; [|discriminate P] end.
      injection P as <-.
      exists (c :: s). split; [exact D|]. left. auto.
  - intros [(ds & D & H) [L U]]. apply Z.leb_le in L, U. unfold parse_int.
    assert (P : parse_digits ds = Some (decimal_value ds)) by now apply parse_digits_spec.
    destruct H as [[[->| ->] ->]|(S & -> & ->)].
    + pose proof (digits_b ds D) as B. destruct ds as [|c ds]; [now destruct D|].
      cbn in B. apply andb_true_iff in B as [B _]. destruct (digit_not_sign c B) as [S1 S2].
      rewrite S1, S2, andb_false_r, P, L, U. reflexivity.
    + change (ceqb (chr "+") (chr "+")) with true. cbn iota. rewrite P, L, U. reflexivity.
    + change (ceqb (chr "-") (chr "+")) with false. change (ceqb (chr "-") (chr "-")) with true.
      apply Sg in S. rewrite S. cbn [andb]. cbn iota. rewrite P, L, U. reflexivity.
Qed.

Lemma kind_fits k z : in_kind k z = true <-> fits k z.
Proof.
  unfold in_kind. rewrite andb_true_iff, !Z.leb_le.
  destruct k; cbn [fits ikind_min ikind_max]; try (cbn; lia). all: lia.
Qed.

Lemma de_int_spec k y s z a : k <> I128 -> k <> U128 -> as_string y = Some s ->
  (de (TInt k) y a = Some (SInt k z, a) <-> fits k z /\ decimal_text k s z).
Proof.
  intros N1 N2 E. cbn [de]. unfold de_int.
  rewrite (resolved_text y a s E).
  assert (Y : yaml_to_string y = Some s) by (destruct y; try discriminate; exact E). rewrite Y.
  assert (P : forall z', match k with
              | I8 | I16 | I32 | I64 => parse_i64 s
              | U8 | U16 | U32 | U64 => parse_u64 s
              | I128 | U128 => None
              end = Some z' <-> decimal_text k s z' /\
                (match k with I8 | I16 | I32 | I64 => i64_min <= z' <= i64_max | _ => 0 <= z' <= u64_max end)%Z).
  { intros z'. destruct k; try congruence;
      match goal with |- _ <-> decimal_text ?k _ _ /\ (?lo <= _ <= ?hi)%Z => exact (parse_int_spec k lo hi s z') end. }
  split.
  - match goal with |- match ?m with Some _ => _ | None => _ end = _ -> _ => destruct m as [z'|] eqn:M end; [|discriminate].
    destruct (proj1 (P z') eq_refl) as [D _]. destruct (in_kind k z') eqn:K; [|discriminate].
    intros Q. injection Q as <-. apply kind_fits in K. tauto.
  - intros [F D]. assert (M : decimal_text k s z /\
                (match k with I8 | I16 | I32 | I64 => i64_min <= z <= i64_max | _ => 0 <= z <= u64_max end)%Z).
    { split; [exact D|]. unfold i64_min, i64_max, u64_max. destruct k; cbn [fits] in F; try congruence; lia. }
    apply P in M. rewrite M. apply kind_fits in F. now rewrite F.
Qed.

Lemma de_int_result k y a v a' : de (TInt k) y a = Some (v, a') -> exists z, v = SInt k z /\ fits k z /\ a' = a.
Proof.
  cbn [de]. unfold de_int. destruct (into_resolved y a) as [y'|]; [|discriminate].
  destruct (yaml_to_string y') as [s|]; [|discriminate].
  match goal with |- match ?m with Some _ => _ | None => _ end = _ -> _ => destruct m as [z|] eqn:M end; [|discriminate].
  destruct (in_kind k z) eqn:K; [|discriminate]. intros Q. injection Q as <- <-.
  exists z. apply kind_fits in K. auto.
Qed.

Lemma show_decimal k z : fits k z -> decimal_text k (show_Z z) z.
Proof.
  intros F. unfold show_Z. destruct (Z.ltb_spec z 0).
  - exists (show_N (Z.abs_N z)). pose proof (proj1 (parse_digits_spec _ _) (parse_show_N (Z.abs_N z))) as [D V].
    split; [exact D|]. right. rewrite <- V. split; [|split; [reflexivity|lia]].
    unfold signed_kind. destruct k; cbn in *; try tauto; lia.
  - exists (show_N (Z.to_N z)). pose proof (proj1 (parse_digits_spec _ _) (parse_show_N (Z.to_N z))) as [D V].
    split; [exact D|]. left. rewrite <- V. split; [now left|lia].
Qed.
