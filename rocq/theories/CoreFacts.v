(** Proofs about the core schema of YAML and the crate's untyped reader. *)
From Coq Require Import ZArith Lia.
From Verif Require Import Base Ast Num Ser De Pretty Spec_Serde Spec_Look Spec_Typed Spec_Ser SerdeFacts SerdeFacts2 TypedFacts ToldFacts AttrFacts11 Spec_Core.
Import ListNotations.

Lemma base10_decimal s z : base10 s z <-> decimal_text I64 s z.
Proof.
  split.
  - intros (sg & ds & -> & S & D & ->). exists ds. split; [exact D|]. destruct S as [->|[->| ->]]; cbn.
    + left. split; [now left|reflexivity].
    + left. split; [now right|reflexivity].
    + right. split; [cbn; auto|]. now split.
  - intros (ds & D & [[[->| ->] ->]|[_ [-> ->]]]).
    + exists [], ds. split; [reflexivity|]. split; [now left|]. now split.
    + exists (lit "+"), ds. split; [reflexivity|]. split; [right; now left|]. now split.
    + exists (lit "-"), ds. split; [reflexivity|]. split; [right; now right|]. now split.
Qed.
Lemma literal_cases s : float_literal s <-> only_rust s \/ core_float s.
Proof.
  split.
  - intros (sg & r & -> & S & [W|(w & f & e & -> & D & F & X)]).
    + left. now exists sg, r.
    + right. exists sg, (w ++ f), e. rewrite <- app_assoc. split; [reflexivity|]. split; [exact S|]. split.
      * destruct F as [[-> N]|(fs & -> & Fd & [N|N])].
        -- rewrite app_nil_r. right. left. now split.
        -- right. right. now exists w, fs.
        -- destruct w as [|c w]; [left; exists fs; now split|]. right. right. exists (c :: w), fs. now split.
      * destruct X as [->|(x & sg' & ds & -> & Y & S' & D')]; [now left|]. right. exists x, sg', ds. refine (conj eq_refl (conj _ (conj S' D'))).
        destruct Y as [->| ->]; cbn; auto.
  - intros [(sg & r & -> & S & W)|(sg & m & e & -> & S & M & X)].
    + exists sg, r. split; [reflexivity|]. split; [exact S|]. now left.
    + assert (X' : e = [] \/ exists x sg' ds, e = x :: sg' ++ ds /\ (x = chr "e" \/ x = chr "E") /\ sign sg' /\ digits ds).
      { destruct X as [->|(x & sg' & ds & -> & Y & S' & D')]; [now left|]. right. exists x, sg', ds. refine (conj eq_refl (conj _ (conj S' D'))).
        destruct Y as [<-|[<-|[]]]; auto. }
      exists sg, (m ++ e). split; [reflexivity|]. split; [exact S|]. right. destruct M as [(ds & -> & D)|[D|(ds & fs & -> & D & F)]].
      * exists [], (chr "." :: ds), e. split; [reflexivity|]. split; [intros c []|]. split; [|exact X']. right. exists ds.
        destruct D as [N D]. split; [reflexivity|]. split; [exact D|]. now right.
      * exists m, [], e. split; [reflexivity|]. destruct D as [N D]. split; [exact D|]. split; [now left|exact X'].
      * exists ds, (chr "." :: fs), e. rewrite <- app_assoc. split; [reflexivity|]. destruct D as [N D]. split; [exact D|]. split; [|exact X'].
        right. exists fs. split; [reflexivity|]. split; [exact F|]. now left.
Qed.
Lemma base10_float s z : base10 s z -> core_float s.
Proof.
  intros (sg & ds & -> & S & D & _). exists sg, ds, []. rewrite app_nil_r. split; [reflexivity|]. split; [exact S|].
  split; [right; now left|now left].
Qed.

(** What the text of a number looks like. *)
Definition number_char (c : char) : bool := (is_digit c || has_char c (lit "+-.eE"))%bool.
Definition number_start (s : str) : bool :=
  match skip_sign s with c :: r => (is_digit c || ceqb c (chr ".") && starts_digit r)%bool | [] => false end.
Lemma digit_true c : (48 <= c <= 57)%N -> is_digit c = true.
Proof. intros [A B]. unfold is_digit. apply andb_true_iff. now rewrite !N.leb_le. Qed.
Lemma digits_chars s : all_digits s -> forallb number_char s = true.
Proof. intros H. apply forallb_forall. intros c I. apply H in I. unfold number_char. now rewrite (digit_true c I). Qed.
Lemma sign_chars s : sign s -> forallb number_char s = true.
Proof. intros [->|[->| ->]]; reflexivity. Qed.
Lemma float_chars s : core_float s -> forallb number_char s = true.
Proof.
  intros (sg & m & e & -> & S & M & X). rewrite !forallb_app, (sign_chars _ S). cbn [andb]. apply andb_true_iff. split.
  - destruct M as [(ds & -> & _ & D)|[[_ D]|(ds & fs & -> & [_ D] & F)]].
    + cbn [forallb]. now rewrite (digits_chars ds D).
    + now apply digits_chars.
    + rewrite forallb_app. cbn [forallb]. now rewrite (digits_chars ds D), (digits_chars fs F).
  - destruct X as [->|(x & sg' & ds & -> & Y & S' & _ & D)]; [reflexivity|]. cbn [forallb]. rewrite forallb_app, (sign_chars _ S'), (digits_chars ds D).
    cbn in Y. destruct Y as [<-|[<-|[]]]; reflexivity.
Qed.
Lemma float_start s : core_float s -> number_start s = true.
Proof.
  intros (sg & m & e & -> & S & M & X). unfold number_start.
  assert (H : exists c r, m = c :: r /\ (is_digit c = true \/ c = chr "." /\ starts_digit r = true)).
  { destruct M as [(ds & -> & N & D)|[[N D]|(ds & fs & -> & [N D] & F)]].
    - exists (chr "."), ds. split; [reflexivity|]. right. split; [reflexivity|]. destruct ds as [|d ds]; [easy|]. apply digit_true, D. now left.
    - destruct m as [|c r]; [easy|]. exists c, r. split; [reflexivity|]. left. apply digit_true, D. now left.
    - destruct ds as [|c r]; [easy|]. exists c, (r ++ chr "." :: fs). split; [reflexivity|]. left. apply digit_true, D. now left. }
  destruct H as (c & r & -> & H).
  assert (K : skip_sign (sg ++ (c :: r) ++ e) = (c :: r) ++ e).
  { destruct S as [->|[->| ->]]; try reflexivity. cbn [app skip_sign].
    destruct (ceqb c (chr "+")) eqn:E1; [unfold ceqb in E1; apply N.eqb_eq in E1; subst; destruct H as [H|[H _]]; discriminate|].
    destruct (ceqb c (chr "-")) eqn:E2; [unfold ceqb in E2; apply N.eqb_eq in E2; subst; destruct H as [H|[H _]]; discriminate|]. reflexivity. }
  rewrite K. cbn [app]. destruct H as [->|[-> H]]; [reflexivity|]. destruct r as [|d r]; [discriminate|]. cbn in *. now rewrite H.
Qed.
Lemma based_not s z : based s z -> forallb number_char s = false.
Proof. intros (ds & n & _ & [[-> _]|[-> _]]); reflexivity. Qed.
Lemma based_start s z : based s z -> exists a r, s = chr "0" :: a :: r /\ (a = chr "o" \/ a = chr "x").
Proof. intros (ds & n & _ & [[-> _]|[-> _]]); do 2 eexists; (split; [reflexivity|auto]). Qed.

(** The rows do not overlap. *)
Lemma in_all {A} (P : A -> Prop) l x : Forall P l -> In x l -> P x.
Proof. intros F. now apply Forall_forall. Qed.
Lemma word_not_float s : In s (nulls ++ trues ++ falses ++ nans) -> number_start s = false.
Proof. intros H. apply (in_all (fun s => number_start s = false) (nulls ++ trues ++ falses ++ nans) s); [|exact H]. repeat constructor. Qed.
Definition signed_infs : list str := flat_map (fun sg => map (app sg) infs) [[]; lit "+"; lit "-"].
Lemma inf_in sg r : sign sg -> In r infs -> In (sg ++ r) signed_infs.
Proof.
  intros S I. unfold signed_infs. apply in_flat_map. exists sg. split; [destruct S as [->|[->| ->]]; cbn; auto|]. now apply in_map.
Qed.
Lemma inf_not_float s : In s signed_infs -> number_start s = false.
Proof. intros H. apply (in_all (fun s => number_start s = false) signed_infs s); [|exact H]. repeat constructor. Qed.
Lemma inf_not_word s : In s signed_infs -> ~ In s (nulls ++ trues ++ falses ++ nans).
Proof.
  intros H. assert (E : existsb (seqb s) (nulls ++ trues ++ falses ++ nans) = false).
  { apply (in_all (fun s => existsb (seqb s) (nulls ++ trues ++ falses ++ nans) = false) signed_infs s); [|exact H]. repeat constructor. }
  intros I. assert (T : existsb (seqb s) (nulls ++ trues ++ falses ++ nans) = true); [|congruence].
  apply existsb_exists. exists s. split; [exact I|now apply seqb_eq].
Qed.
Lemma word_not_based s z : In s (nulls ++ trues ++ falses ++ nans) -> ~ based s z.
Proof.
  intros H B. destruct (based_start s z B) as (a & r & -> & [->| ->]); cbn in H; intuition discriminate.
Qed.
Lemma inf_not_based s z : In s signed_infs -> ~ based s z.
Proof.
  intros H B. destruct (based_start s z B) as (a & r & -> & [->| ->]); cbn in H; intuition discriminate.
Qed.
Lemma digit_one b c d e : digit_of b c d -> digit_of b c e -> d = e.
Proof. unfold digit_of. lia. Qed.
Lemma number_one b s n : number_in b s n -> forall m, number_in b s m -> n = m.
Proof.
  induction 1 as [c d D|s n c d N IH D]; intros m M; inversion M as [c' e E Q|s' n' c' e N' E Q]; subst.
  - eapply digit_one; eauto.
  - destruct s' as [|x s']; [inversion N'; subst; destruct s; discriminate|]. destruct s'; discriminate.
  - destruct s as [|x s]; [inversion N; subst; destruct s; discriminate|]. destruct s; discriminate.
  - apply app_inj_tail in Q as [-> ->]. rewrite (IH _ N'), (digit_one _ _ _ _ D E). reflexivity.
Qed.
Lemma based_one s z z' : based s z -> based s z' -> z = z'.
Proof.
  intros (ds & n & -> & [[-> N]|[-> N]]) (ds' & n' & -> & [[E N']|[E N']]); try discriminate E.
  - apply (app_inv_head (lit "0o")) in E. subst. f_equal. eapply number_one; eauto.
  - apply (app_inv_head (lit "0x")) in E. subst. f_equal. eapply number_one; eauto.
Qed.
Lemma base10_one s z z' : base10 s z -> base10 s z' -> z = z'.
Proof. rewrite !base10_decimal. apply decimal_inj. Qed.

Lemma float_not_word s : core_float s -> ~ In s (nulls ++ trues ++ falses ++ nans).
Proof. intros F H. apply float_start in F. apply word_not_float in H. congruence. Qed.
Lemma float_not_inf s : core_float s -> ~ In s signed_infs.
Proof. intros F H. apply float_start in F. apply inf_not_float in H. congruence. Qed.
Lemma float_not_based s z : core_float s -> ~ based s z.
Proof. intros F H. apply float_chars in F. apply based_not in H. congruence. Qed.
Lemma nulls_w s : In s nulls -> In s (nulls ++ trues ++ falses ++ nans).
Proof. intros. apply in_or_app. now left. Qed.
Lemma trues_w s : In s trues -> In s (nulls ++ trues ++ falses ++ nans).
Proof. intros. apply in_or_app. right. apply in_or_app. now left. Qed.
Lemma falses_w s : In s falses -> In s (nulls ++ trues ++ falses ++ nans).
Proof. intros. do 2 (apply in_or_app; right). apply in_or_app. now left. Qed.
Lemma nans_w s : In s nans -> In s (nulls ++ trues ++ falses ++ nans).
Proof. intros. do 3 (apply in_or_app; right). assumption. Qed.

Definition is_number (s : str) : Prop := (exists z, base10 s z \/ based s z) \/ core_float s.
Lemma number_not_word s : is_number s -> ~ In s (nulls ++ trues ++ falses ++ nans).
Proof.
  intros [(z & [B|B])|F] H; [apply base10_float in B; now apply float_not_word in B|now apply (word_not_based s z H)|now apply float_not_word in F].
Qed.
Lemma number_not_inf s : is_number s -> ~ In s signed_infs.
Proof.
  intros [(z & [B|B])|F] H; [apply base10_float in B; now apply float_not_inf in B|now apply (inf_not_based s z H)|now apply float_not_inf in F].
Qed.
Lemma core_special s m : core s m -> (m = MText s /\ ~ special s) \/ (special s /\ forall t, m <> MText t).
Proof.
  intros [ ]; unfold special; try (right; split; [|discriminate]).
  - left. now apply nulls_w.
  - left. now apply trues_w.
  - left. now apply falses_w.
  - right. left. eauto.
  - right. right. now left.
  - right. right. right. eauto.
  - left. now apply nans_w.
  - left. split; [reflexivity|exact H].
Qed.
Lemma core_one s m n : core s m -> core s n -> m = n.
Proof.
  intros H K. destruct (core_special s m H) as [[-> A]|[A N]], (core_special s n K) as [[-> B]|[B N']]; try contradiction; [reflexivity|].
  assert (NUM : forall u v, core u v -> is_number u -> (exists z, v = MInt z /\ (base10 u z \/ based u z)) \/ (v = MFloat u /\ core_float u /\ forall z, ~ base10 u z)).
  { intros u v [w I|w I|w I|w z I|w F Z|sg r S I|w I|w I] X; try (exfalso; apply (number_not_word _ X); auto using nulls_w, trues_w, falses_w, nans_w; fail); eauto.
    - exfalso. now apply (number_not_inf _ X), inf_in.
    - exfalso. apply I. destruct X as [X|X]; [right; now left|right; right; now left]. }
  assert (C : is_number s \/ ~ is_number s /\ (In s (nulls ++ trues ++ falses ++ nans) \/ In s signed_infs)).
  { destruct H as [w I|w I|w I|w z I|w F Z|sg r S I|w I|w I]; try (right; split; [intros X; now apply number_not_word in X; auto using nulls_w, trues_w, falses_w, nans_w|left; auto using nulls_w, trues_w, falses_w, nans_w]; fail).
    - left. left. eauto.
    - left. now right.
    - right. split; [|right; now apply inf_in]. intros X. now apply (number_not_inf _ X), inf_in.
    - contradiction. }
  destruct C as [C|[C W]].
  - destruct (NUM s m H C) as [(z & -> & Z)|(-> & F & Z)], (NUM s n K C) as [(z' & -> & Z')|(-> & F' & Z')].
    + f_equal. destruct Z as [Z|Z], Z' as [Z'|Z'].
      * eapply base10_one; eauto.
      * exfalso. apply base10_float in Z. now apply (float_not_based s z') in Z.
      * exfalso. apply base10_float in Z'. now apply (float_not_based s z) in Z'.
      * eapply based_one; eauto.
    + exfalso. destruct Z as [Z|Z]; [now apply (Z' z)|now apply (float_not_based s z) in F'].
    + exfalso. destruct Z' as [Z'|Z']; [now apply (Z z')|now apply (float_not_based s z') in F].
    + reflexivity.
  - assert (D : forall u v, core u v -> ~ is_number u -> (forall t, v <> MText t) ->
      (In u nulls /\ v = MNull) \/ (In u trues /\ v = MBool true) \/ (In u falses /\ v = MBool false) \/ (In u nans /\ v = MNan) \/
      (exists sg r, u = sg ++ r /\ sign sg /\ In r infs /\ v = MInf (seqb sg (lit "-")))).
    { intros u v [w I|w I|w I|w z I|w F Z|sg r S I|w I|w I] X T; auto 8.
      - destruct X. left. eauto.
      - destruct X. now right.
      - do 4 right. eauto 8.
      - now destruct (T w). }
    pose proof (D s m H C N) as D1. pose proof (D s n K C N') as D2. clear D NUM H K A B C W N N'.
    assert (X : forall v, ((In s nulls /\ v = MNull) \/ (In s trues /\ v = MBool true) \/ (In s falses /\ v = MBool false) \/ (In s nans /\ v = MNan) \/
      (exists sg r, s = sg ++ r /\ sign sg /\ In r infs /\ v = MInf (seqb sg (lit "-")))) ->
      In (s, v) (map (fun x => (x, MNull)) nulls ++ map (fun x => (x, MBool true)) trues ++ map (fun x => (x, MBool false)) falses ++ map (fun x => (x, MNan)) nans ++
                 flat_map (fun sg => map (fun r => (sg ++ r, MInf (seqb sg (lit "-")))) infs) [[]; lit "+"; lit "-"])).
    { intros v [[I ->]|[[I ->]|[[I ->]|[[I ->]|(sg & r & -> & S & I & ->)]]]]; rewrite !in_app_iff.
      - left. apply in_map_iff. eauto.
      - right. left. apply in_map_iff. eauto.
      - right. right. left. apply in_map_iff. eauto.
      - right. right. right. left. apply in_map_iff. eauto.
      - right. right. right. right. apply in_flat_map. exists sg. split; [destruct S as [->|[->| ->]]; cbn; auto|]. apply in_map_iff. eauto. }
    apply X in D1. apply X in D2. clear X. vm_compute in D1, D2.
    repeat (destruct D1 as [D1|D1]; [injection D1 as <- <-; clear - D2; repeat (destruct D2 as [D2|D2]; [try discriminate D2; now injection D2|]); destruct D2|]). destruct D1.
Qed.

(** ---- the crate's reader ---- *)

Lemma null_word s : is_null_word s = true <-> In s [lit "~"; lit "null"; lit "Null"; lit "NULL"].
Proof. unfold is_null_word. rewrite !orb_true_iff, !seqb_eq. cbn. intuition. Qed.
Lemma decimal_u s z : decimal_text U64 s z -> base10 s z.
Proof.
  intros (ds & D & [[[->| ->] ->]|[K _]]).
  - exists [], ds. split; [reflexivity|]. split; [now left|]. now split.
  - exists (lit "+"), ds. split; [reflexivity|]. split; [right; now left|]. now split.
  - cbn in K. intuition discriminate.
Qed.
Lemma fits_both s z : base10 s z -> fits U64 z -> decimal_text U64 s z \/ fits I64 z.
Proof.
  intros (sg & ds & -> & S & D & ->) F. destruct S as [->|[->| ->]]; cbn in *.
  - left. exists ds. split; [exact D|]. left. auto.
  - left. exists ds. split; [exact D|]. left. auto.
  - right. lia.
Qed.
(** The cases of the reader. *)
Lemma any_cases s : match any_unquoted s with
  | AnUnit => In s [lit "~"; lit "null"; lit "Null"; lit "NULL"]
  | AnBool b => s = if b then lit "true" else lit "false"
  | AnI64 z => base10 s z /\ fits I64 z
  | AnU64 z => base10 s z /\ fits U64 z
  | AnF64 t => t = s /\ float_literal s /\ forall z, base10 s z -> ~ fits I64 z /\ ~ fits U64 z
  | AnStr t => t = s /\ ~ float_literal s /\ ~ In s [lit "~"; lit "null"; lit "Null"; lit "NULL"; lit "true"; lit "false"]
  | _ => False
  end.
Proof.
  unfold any_unquoted. destruct (is_null_word s) eqn:N; [now apply null_word|].
  destruct (seqb s (lit "true")) eqn:T; [now apply seqb_eq|]. destruct (seqb s (lit "false")) eqn:F; [now apply seqb_eq|].
  destruct (parse_i64 s) as [z|] eqn:I; [apply i64_parse in I; now rewrite base10_decimal|].
  destruct (parse_u64 s) as [z|] eqn:U; [apply u64_parse in U; destruct U; split; [now apply decimal_u|assumption]|].
  assert (R : forall z, base10 s z -> ~ fits I64 z /\ ~ fits U64 z).
  { intros z Z. assert (A : ~ fits I64 z).
    { intros X. apply base10_decimal in Z. pose proof (proj2 (i64_parse s z) (conj Z X)). congruence. }
    split; [exact A|]. intros X. destruct (fits_both s z Z X) as [Y|Y]; [|contradiction].
    pose proof (proj2 (u64_parse s z) (conj Y X)). congruence. }
  destruct (parse_f64_ok s) eqn:P.
  - apply float_spec in P. auto.
  - split; [reflexivity|]. split; [intros X; apply float_spec in X; congruence|].
    intros X. assert (Y : In s [lit "~"; lit "null"; lit "Null"; lit "NULL"] \/ s = lit "true" \/ s = lit "false") by (cbn in *; intuition).
    destruct Y as [Y|[Y|Y]]; [apply null_word in Y; congruence|subst; discriminate|subst; discriminate].
Qed.

Definition rust_word (r : str) : Prop := In (lower_word r) [lit "inf"; lit "infinity"; lit "nan"].
Lemma rust_start sg r : sign sg -> rust_word r -> number_start (sg ++ r) = false /\ exists c x, r = c :: x /\ In (lower c) (lit "in").
Proof.
  intros S W. destruct r as [|c x]; [cbn in W; intuition discriminate|].
  assert (L : In (lower c) (lit "in")).
  { unfold rust_word, lower_word in W. cbn [map] in W. cbn. destruct W as [W|[W|[W|[]]]]; injection W as W _; unfold lower; rewrite <- W; auto. }
  assert (K : skip_sign (sg ++ c :: x) = c :: x).
  { destruct S as [->|[->| ->]]; try reflexivity. cbn [app skip_sign].
    destruct (ceqb c (chr "+")) eqn:E1; [unfold ceqb in E1; apply N.eqb_eq in E1; subst; cbn in L; intuition discriminate|].
    destruct (ceqb c (chr "-")) eqn:E2; [unfold ceqb in E2; apply N.eqb_eq in E2; subst; cbn in L; intuition discriminate|]. reflexivity. }
  split; [|eauto]. unfold number_start. rewrite K.
  destruct (is_digit c) eqn:D.
  - exfalso. unfold is_digit in D. apply andb_true_iff in D as [D1 D2]. apply N.leb_le in D1, D2.
    unfold lower in L. destruct ((65 <=? c)%N && (c <=? 90)%N)%bool eqn:Q; [apply andb_true_iff in Q as [Q _]; apply N.leb_le in Q; lia|].
    cbn in L. lia.
  - cbn [orb]. destruct (ceqb c (chr ".")) eqn:E; [|reflexivity]. unfold ceqb in E. apply N.eqb_eq in E. subst. cbn in L. intuition discriminate.
Qed.
Lemma rust_not_special s : only_rust s -> ~ special s.
Proof.
  intros (sg & r & -> & S & W). destruct (rust_start sg r S W) as (N & c & x & -> & L). intros [H|[(z & [H|H])|[H|H]]].
  - assert (K : forall w, In w (nulls ++ trues ++ falses ++ nans) -> forall sg c x, w = sg ++ c :: x -> sign sg -> rust_word (c :: x) -> False).
    { clear. intros w I sg c x E S W. unfold rust_word, lower_word in W.
      assert (Q : existsb (fun g => existsb (fun v => seqb (map lower w) (g ++ v)) [lit "inf"; lit "infinity"; lit "nan"]) [[]; lit "+"; lit "-"] = false).
      { apply (in_all (fun w => existsb (fun g => existsb (fun v => seqb (map lower w) (g ++ v)) [lit "inf"; lit "infinity"; lit "nan"]) [[]; lit "+"; lit "-"] = false) _ w) in I; [exact I|]. repeat constructor. }
      assert (T : existsb (fun g => existsb (fun v => seqb (map lower w) (g ++ v)) [lit "inf"; lit "infinity"; lit "nan"]) [[]; lit "+"; lit "-"] = true); [|congruence].
      apply existsb_exists. exists sg. split; [destruct S as [->|[->| ->]]; cbn; auto|]. apply existsb_exists. eexists. split; [exact W|].
      apply seqb_eq. subst w. rewrite map_app. f_equal. destruct S as [->|[->| ->]]; reflexivity. }
    exact (K _ H sg c x eq_refl S W).
  - apply base10_float, float_start in H. congruence.
  - destruct (based_start _ _ H) as (a & y & E & _). destruct S as [->|[->| ->]]; cbn in E; injection E as E _; try discriminate. subst. cbn in L. intuition discriminate.
  - apply float_start in H. congruence.
  - destruct H as (sg' & r' & E & S' & I). assert (J : exists y, r' = chr "." :: y) by (cbn in I; destruct I as [<-|[<-|[<-|[]]]]; eexists; reflexivity).
    destruct J as (y & ->). destruct S as [->|[->| ->]], S' as [->|[->| ->]]; cbn in E; injection E; intros; subst; try discriminate; cbn in L; intuition discriminate.
Qed.
Lemma yaml_not_float s : only_yaml s -> ~ float_literal s.
Proof.
  intros H F. apply literal_cases in F as [F|F].
  - apply rust_not_special in F. apply F. destruct H as [H|[(z & H)|H]].
    + left. cbn in *. intuition.
    + right. left. eauto.
    + right. right. now right.
  - destruct H as [H|[(z & H)|(sg & r & -> & S & I)]].
    + apply (float_not_word _ F). cbn in *. intuition.
    + now apply (float_not_based _ z) in F.
    + now apply (float_not_inf _ F), inf_in.
Qed.
Lemma yaml_text s : only_yaml s -> any_unquoted s = AnStr s /\ ~ core s (MText s).
Proof.
  intros H. pose proof (yaml_not_float s H) as F. split.
  - pose proof (any_cases s) as C. destruct (any_unquoted s); try contradiction.
    + exfalso. assert (X : In s (nulls ++ trues ++ falses ++ nans)) by (cbn in *; intuition).
      destruct H as [H|[(z & H)|(sg & r & -> & S & I)]]; [cbn in C, H; intuition (subst; discriminate)|now apply (word_not_based _ z X)|].
      now apply (inf_not_word _ (inf_in _ _ S I)).
    + exfalso. assert (X : In s (nulls ++ trues ++ falses ++ nans)) by (destruct b; subst; cbn; intuition).
      destruct H as [H|[(z & H)|(sg & r & -> & S & I)]]; [destruct b; subst; cbn in H; intuition discriminate|now apply (word_not_based _ z X)|].
      now apply (inf_not_word _ (inf_in _ _ S I)).
    + destruct F. apply literal_cases. right. destruct C as [C _]. now apply base10_float in C.
    + destruct F. apply literal_cases. right. destruct C as [C _]. now apply base10_float in C.
    + now destruct C as (_ & C & _).
    + now destruct C as (-> & _).
  - intros K. destruct (core_special _ _ K) as [[_ K']|[_ K']]; [|now apply (K' s)]. apply K'.
    destruct H as [H|[(z & H)|H]]; [left; cbn in *; intuition|right; left; eauto|right; right; now right].
Qed.
Lemma rust_float s : only_rust s -> any_unquoted s = AnF64 s /\ core s (MText s).
Proof.
  intros H. pose proof (rust_not_special s H) as N. split; [|now apply KText].
  pose proof (any_cases s) as C. destruct (any_unquoted s); try contradiction.
  - destruct N. left. cbn in *. intuition.
  - destruct N. left. destruct b; subst; cbn; intuition.
  - destruct N. right. left. destruct C. eauto.
  - destruct N. right. left. destruct C. eauto.
  - now destruct C as (-> & _).
  - destruct C as (_ & C & _). destruct C. apply literal_cases. now left.
Qed.
Lemma long_float s : too_long s -> any_unquoted s = AnF64 s /\ exists z, core s (MInt z).
Proof.
  intros (z & B & I & U). split; [|exists z; apply KInt; now left].
  pose proof (base10_float s z B) as F. pose proof (float_not_word s F) as N.
  pose proof (any_cases s) as C. destruct (any_unquoted s) as [|b|z'|z'|t|t| |]; try contradiction.
  - destruct N. cbn in *. intuition.
  - destruct N. destruct b; subst; cbn; intuition.
  - destruct C as [C X]. rewrite (base10_one _ _ _ C B) in X. contradiction.
  - destruct C as [C X]. rewrite (base10_one _ _ _ C B) in X. contradiction.
  - now destruct C as (-> & _).
  - destruct C as (_ & C & _). destruct C. apply literal_cases. now right.
Qed.
Lemma core_taken s m : ~ only_yaml s -> ~ only_rust s -> ~ too_long s -> (core s m <-> taken (any_unquoted s) m).
Proof.
  intros Y R L.
  assert (G : exists n, core s n /\ taken (any_unquoted s) n).
  { pose proof (any_cases s) as C. destruct (any_unquoted s) as [|b|z|z|t|t| |]; try contradiction.
    - exists MNull. split; [|exact I]. apply KNull. cbn in *. intuition.
    - exists (MBool b). split; [|reflexivity]. destruct b; subst; [apply KTrue|apply KFalse]; cbn; auto.
    - exists (MInt z). split; [|reflexivity]. apply KInt. now left.
    - exists (MInt z). split; [|reflexivity]. apply KInt. now left.
    - destruct C as (-> & F & Z). exists (MFloat s). split; [|reflexivity]. apply literal_cases in F as [F|F]; [contradiction|].
      apply KFloat; [exact F|]. intros z B. apply L. exists z. destruct (Z z B). auto.
    - destruct C as (-> & F & N). exists (MText s). split; [|reflexivity]. apply KText. intros [H|[(z & [H|H])|[H|H]]].
      + assert (J : In s ([[]; lit "True"; lit "TRUE"; lit "False"; lit "FALSE"] ++ nans) \/ In s [lit "~"; lit "null"; lit "Null"; lit "NULL"; lit "true"; lit "false"]) by (cbn in *; intuition).
        destruct J as [J|J]; [apply Y; now left|contradiction].
      + apply F, literal_cases. right. now apply base10_float in H.
      + apply Y. right. left. eauto.
      + apply F, literal_cases. now right.
      + apply Y. right. now right. }
  destruct G as (n & K & T). split; intros H.
  - now rewrite (core_one s m n H K).
  - assert (E : m = n); [|now subst]. destruct (any_unquoted s), m, n; cbn in *; try contradiction; congruence.
Qed.

(** ---- the serializer ---- *)

Lemma text_core s : plain_text s -> (core s (MText s) <-> ~ only_yaml s /\ ~ In s [lit "Null"; lit "NULL"]).
Proof.
  intros (NE & _ & _ & _ & _ & _ & _ & F & W). split.
  - intros K. split; intros H.
    + now apply (proj2 (yaml_text s H)).
    + destruct (core_special _ _ K) as [[_ N]|[_ N]]; [|now apply (N s)]. apply N. left. cbn in *. intuition.
  - intros [Y N]. apply KText. intros [H|[(z & [H|H])|[H|H]]].
    + assert (J : In s ([[]; lit "True"; lit "TRUE"; lit "False"; lit "FALSE"] ++ nans) \/ In s [lit "true"; lit "false"; lit "null"; lit "~"] \/ In s [lit "Null"; lit "NULL"])
        by (cbn in *; intuition).
      destruct J as [J|[J|J]]; [apply Y; now left|contradiction|contradiction].
    + apply F, literal_cases. right. now apply base10_float in H.
    + apply Y. right. left. eauto.
    + apply F, literal_cases. now right.
    + apply Y. right. now right.
Qed.
Lemma show_core z : core (show_Z z) (MInt z).
Proof.
  apply KInt. left. unfold show_Z. destruct (z <? 0)%Z eqn:E.
  - apply Z.ltb_lt in E. pose proof (proj1 (parse_digits_spec _ _) (parse_show_N (Z.abs_N z))) as [D V].
    exists (lit "-"), (show_N (Z.abs_N z)). split; [reflexivity|]. split; [right; now right|]. split; [exact D|].
    change (seqb (lit "-") (lit "-")) with true. cbn iota. rewrite <- V. lia.
  - apply Z.ltb_ge in E. pose proof (proj1 (parse_digits_spec _ _) (parse_show_N (Z.to_N z))) as [D V].
    exists [], (show_N (Z.to_N z)). split; [reflexivity|]. split; [now left|]. split; [exact D|].
    change (seqb [] (lit "-")) with false. cbn iota. rewrite <- V. lia.
Qed.
Lemma finite_core x : finite x -> core x (MFloat x) \/ exists z, core x (MInt z).
Proof.
  intros [[->|[->|[->|(sg & ds & fr & -> & S & D & F)]]] N]; try (destruct N; cbn; auto; fail).
  destruct F as [->|(fs & -> & [N1 F])].
  - right. eexists. apply KInt. left. rewrite app_nil_r. exists sg, ds. split; [reflexivity|]. split; [destruct S; subst; [now left|right; now right]|]. split; [exact D|reflexivity].
  - left. apply KFloat.
    + exists sg, (ds ++ chr "." :: fs), []. rewrite app_nil_r. split; [reflexivity|]. split; [destruct S; subst; [now left|right; now right]|].
      split; [|now left]. right. right. exists ds, fs. now split.
    + intros z (sg' & ds' & E & S' & [_ D'] & _).
      assert (I : In (chr ".") (sg' ++ ds')) by (rewrite <- E, !in_app_iff; right; right; now left).
      apply in_app_iff in I as [I|I]; [destruct S' as [->|[->| ->]]; cbn in I; intuition discriminate|].
      apply D' in I. destruct I as [I _]. now apply I.
Qed.

(** ---- every text has a meaning ---- *)

Definition digitv (base : N) (c : char) : option N :=
  let d := (if is_digit c then Some (c - 48) else if (97 <=? c) && (c <=? 102) then Some (c - 87)
            else if (65 <=? c) && (c <=? 70) then Some (c - 55) else None)%N%bool in
  match d with Some d => if (d <? base)%N then Some d else None | None => None end.
Lemma digitv_spec b c d : digitv b c = Some d <-> digit_of b c d.
Proof.
  unfold digitv, digit_of, is_digit. destruct (48 <=? c)%N eqn:A1, (c <=? 57)%N eqn:A2, (97 <=? c)%N eqn:A3, (c <=? 102)%N eqn:A4, (65 <=? c)%N eqn:A5, (c <=? 70)%N eqn:A6;
    cbn [andb]; rewrite ?N.leb_le, ?N.leb_gt in *; try (split; [discriminate|lia]); try lia;
    match goal with |- (if (?x <? b)%N then _ else _) = _ <-> _ => destruct (x <? b)%N eqn:L end; rewrite ?N.ltb_lt, ?N.ltb_ge in L;
    (split; [intros H; try discriminate H; injection H as <-; lia|intros H; try (f_equal; lia); lia]).
Qed.
Lemma number_dec b s : (exists n, number_in b s n) \/ forall n, ~ number_in b s n.
Proof.
  induction s as [|c s IH] using rev_ind; [right; intros n H; inversion H; destruct s; discriminate|].
  destruct (digitv b c) as [d|] eqn:D.
  - apply digitv_spec in D. destruct s as [|x s].
    + left. exists d. now constructor.
    + destruct IH as [(n & N)|N]; [left; eexists; eapply NI2; eauto|]. right. intros n H.
      inversion H as [c' e E Q|s' n' c' e N' E Q]; [destruct s; discriminate|]. apply (app_inj_tail s' (x :: s)) in Q as [-> ->]. exact (N _ N').
  - right. intros n H. inversion H as [c' e E Q|s' n' c' e N' E Q].
    + destruct s as [|x s]; [|destruct s; discriminate]. injection Q as ->. apply digitv_spec in E. congruence.
    + apply app_inj_tail in Q as [-> ->]. apply digitv_spec in E. congruence.
Qed.
Lemma based_dec s : (exists z, based s z) \/ forall z, ~ based s z.
Proof.
  destruct s as [|a [|x r]]; [right; intros z (ds & n & _ & [[E _]|[E _]]); discriminate..|].
  destruct (N.eq_dec a (chr "0")) as [->|A]; [|right; intros z (ds & n & _ & [[E _]|[E _]]); apply A; now injection E].
  destruct (N.eq_dec x (chr "o")) as [->|O].
  - destruct (number_dec 8 r) as [(n & N)|N].
    + left. exists (Z.of_N n), r, n. split; [reflexivity|]. now left.
    + right. intros z (ds & n & _ & [[E M]|[E _]]); [injection E as <-; exact (N n M)|discriminate].
  - destruct (N.eq_dec x (chr "x")) as [->|X].
    + destruct (number_dec 16 r) as [(n & N)|N].
      * left. exists (Z.of_N n), r, n. split; [reflexivity|]. now right.
      * right. intros z (ds & n & _ & [[E _]|[E M]]); [discriminate|injection E as <-; exact (N n M)].
    + right. intros z (ds & n & _ & [[E _]|[E _]]); [apply O|apply X]; now injection E.
Qed.
Lemma base10_dec s : (exists z, base10 s z) \/ forall z, ~ base10 s z.
Proof.
  destruct (sign_skip s) as (sg & E & S). destruct (parse_digits (skip_sign s)) as [n|] eqn:P.
  - left. apply parse_digits_spec in P as [D _]. eexists. exists sg, (skip_sign s). split; [exact E|]. split; [exact S|]. split; [exact D|reflexivity].
  - right. intros z (sg' & ds & E' & S' & D & _). assert (K : skip_sign s = ds).
    { rewrite E'. apply skip_sign_app; [exact S'|]. intros -> c r ->. destruct D as [_ D]. pose proof (D c (or_introl eq_refl)) as [X Y].
      split; intros ->; [now apply X|now apply X]. }
    rewrite K in P. pose proof (proj2 (parse_digits_spec ds _) (conj D eq_refl)). congruence.
Qed.
Lemma core_all s : exists m, core s m.
Proof.
  pose proof (any_cases s) as C. destruct (any_unquoted s) as [|b|z|z|t|t| |]; try contradiction.
  - exists MNull. apply KNull. cbn in *. intuition.
  - exists (MBool b). destruct b; subst; [apply KTrue|apply KFalse]; cbn; auto.
  - exists (MInt z). apply KInt. left. apply C.
  - exists (MInt z). apply KInt. left. apply C.
  - destruct C as (_ & F & _). apply literal_cases in F as [F|F]; [exists (MText s); apply KText; now apply rust_not_special|].
    destruct (base10_dec s) as [(z & Z)|Z]; [exists (MInt z); apply KInt; now left|]. exists (MFloat s). now apply KFloat.
  - destruct C as (_ & F & W). destruct (based_dec s) as [(z & Z)|Z]; [exists (MInt z); apply KInt; now right|].
    destruct (in_dec (list_eq_dec N.eq_dec) s nulls) as [I|I1]; [exists MNull; now apply KNull|].
    destruct (in_dec (list_eq_dec N.eq_dec) s trues) as [I|I2]; [exists (MBool true); now apply KTrue|].
    destruct (in_dec (list_eq_dec N.eq_dec) s falses) as [I|I3]; [exists (MBool false); now apply KFalse|].
    destruct (in_dec (list_eq_dec N.eq_dec) s nans) as [I|I4]; [exists MNan; now apply KNan|].
    destruct (in_dec (list_eq_dec N.eq_dec) s signed_infs) as [I|I5].
    + unfold signed_infs in I. apply in_flat_map in I as (sg & Sg & I). apply in_map_iff in I as (r & <- & I). eexists. apply KInf; [|exact I].
      cbn in Sg. destruct Sg as [<-|[<-|[<-|[]]]]; [now left|right; now left|right; now right].
    + exists (MText s). apply KText. intros [H|[(z & [H|H])|[H|H]]].
      * rewrite !in_app_iff in H. tauto.
      * apply F, literal_cases. right. now apply base10_float in H.
      * exact (Z z H).
      * apply F, literal_cases. now right.
      * destruct H as (sg & r & -> & S & I). now apply I5, inf_in.
Qed.
