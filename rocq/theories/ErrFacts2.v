(** The error is the complaint about the first wrong node. *)
From Coq Require Import ZArith Lia.
From Verif Require Import Base Ast Strings Format Num Pretty Ser De DeErr Spec_Pretty Spec_Serde Spec_Look Spec_Typed Spec_Refs Spec_Reads Spec_Err LookFacts TypedFacts SerdeFacts2 ErrFacts.
Import ListNotations.
Notation complaint := (complaint all_done).
Notation first_wrong := (first_wrong all_done).

(** ---- references ---- *)

Lemma resolve_newest a n y : resolve a n = Some y <-> newest a n y.
Proof.
  induction a as [|[m z] a IH]; cbn [resolve].
  - split; [discriminate|]. intros (b & c & E & _). destruct b; discriminate.
  - destruct (seqb m n) eqn:Q.
    + apply seqb_eq in Q. subst m. split.
      * intros E. injection E as ->. now exists [], a.
      * intros ([|[m w] b] & c & E & F); cbn in E; injection E as E; [congruence|]. subst. destruct F. now left.
    + rewrite IH. split.
      * intros (b & c & -> & F). exists ((m, z) :: b), c. split; [reflexivity|]. cbn. intros [->|K]; [now rewrite seqb_refl in Q|contradiction].
      * intros ([|[k w] b] & c & E & F); cbn in E; injection E as E; [subst; now rewrite seqb_refl in Q|]. subst.
        exists b, c. split; [reflexivity|]. intros K. apply F. now right.
Qed.
Lemma resolve_none a n : resolve a n = None <-> ~ In n (map fst a).
Proof.
  induction a as [|[m z] a IH]; cbn [resolve map In fst]; [tauto|]. destruct (seqb m n) eqn:Q.
  - apply seqb_eq in Q. subst. split; [discriminate|]. intros H. destruct H. now left.
  - rewrite IH. split; [|tauto]. intros H [->|K]; [now rewrite seqb_refl in Q|contradiction].
Qed.
Lemma resolved_ok y a y' : resolved_e y a = inl y' <-> target a y y'.
Proof.
  unfold target. destruct y; cbn [resolved_e is_ref]; try (split; [intros E; injection E as <-; now left|intros [[_ ->]|(n & E & _)]; [reflexivity|discriminate]]).
  destruct (resolve a s) as [w|] eqn:R.
  - split.
    + intros E. injection E as <-. right. exists s. split; [reflexivity|]. now apply resolve_newest.
    + intros [[E _]|(n & E & W)]; [discriminate|]. injection E as ->. apply resolve_newest in W. congruence.
  - split; [discriminate|]. intros [[E _]|(n & E & W)]; [discriminate|]. injection E as ->. apply resolve_newest in W. congruence.
Qed.
Lemma resolved_bad y a e : resolved_e y a = inr e <-> exists n, y = Anchor n /\ ~ In n (map fst a) /\ e = Own (EUndefined n).
Proof.
  destruct y; cbn [resolved_e]; try (split; [discriminate|intros (n & E & _); discriminate]).
  destruct (resolve a s) as [w|] eqn:R.
  - split; [discriminate|]. intros (n & E & K & _). injection E as ->. apply resolve_none in K. congruence.
  - apply resolve_none in R. split; [intros E; injection E as <-; eauto|]. intros (n & E & K & ->). now injection E as ->.
Qed.
Lemma resolved_cases y a : (exists y', resolved_e y a = inl y' /\ target a y y') \/
  (exists n, resolved_e y a = inr (Own (EUndefined n)) /\ y = Anchor n /\ ~ In n (map fst a)).
Proof.
  destruct (resolved_e y a) as [y'|e] eqn:R.
  - left. exists y'. split; [reflexivity|]. now apply resolved_ok.
  - right. destruct (proj1 (resolved_bad y a e) R) as (n & -> & K & ->). exists n. auto.
Qed.

(** ---- collections ---- *)

Lemma register_labels a e : register a e = match a_alias e with Some n => (n, a_value e) :: a | None => a end.
Proof. destruct e as [[n|] v]; reflexivity. Qed.
Lemma entered_cons e l a : rev (flat_map (fun e => match a_alias e with Some n => [(n, a_value e)] | None => [] end) (e :: l)) ++ a =
  rev (flat_map (fun e => match a_alias e with Some n => [(n, a_value e)] | None => [] end) l) ++ register a e.
Proof. rewrite register_labels. cbn [flat_map]. destruct (a_alias e); cbn [app rev]; [now rewrite <- app_assoc|reflexivity]. Qed.
Lemma seq_parts a l : seq_values a l = (elements_of (Array l), entered a (Array l)).
Proof.
  unfold elements_of, entered, labels_of. cbn [children]. revert a. induction l as [|[c|c|e] l IH]; intros a; cbn [seq_values]; [reflexivity|apply IH|apply IH|].
  rewrite IH. f_equal. exact (eq_sym (entered_cons e _ a)).
Qed.
Lemma hash_parts a l : hash_entries a l = (entries_of (Hash l), entered a (Hash l)).
Proof.
  unfold entries_of, entered, labels_of. cbn [children]. revert a. induction l as [|[c|c|e] l IH]; intros a; cbn [hash_entries]; [reflexivity|apply IH|apply IH|].
  rewrite IH. f_equal. exact (eq_sym (entered_cons (he_value e) _ a)).
Qed.
Lemma inline_labels a y : (exists l, y = InlineArray l) \/ (exists l, y = InlineHash l) -> entered a y = a.
Proof.
  intros [[l ->]|[l ->]]; unfold entered, labels_of; cbn [children]; induction l as [|x l IH]; try reflexivity; exact IH.
Qed.
Lemma seq_ok y a : (exists y', target a y y' /\ is_seq y' /\ de_seq_e y a = inl (elements_of y', entered a y')) \/
  (exists e, de_seq_e y a = inr e /\ ((exists n, y = Anchor n /\ ~ In n (map fst a) /\ e = Own (EUndefined n)) \/
                                     (exists y', target a y y' /\ ~ is_seq y' /\ e = Own ESequence))).
Proof.
  unfold de_seq_e. destruct (resolved_cases y a) as [(y' & R & T)|(n & R & E & K)]; rewrite R; cbn [ebind].
  - destruct y'; try (right; eexists; split; [reflexivity|right]; eexists; split; [exact T|]; split; [intros []|reflexivity]).
    all: left; eexists; split; [exact T|]; split; [exact I|]; try (now rewrite seq_parts).
    rewrite inline_labels by eauto. unfold elements_of. cbn [children]. rewrite map_map. cbn [a_value]. now rewrite map_id.
  - right. eexists. split; [reflexivity|left]. eauto.
Qed.
Lemma map_ok y a : (exists y', target a y y' /\ is_map y' /\ de_map_e y a = inl (entries_of y', entered a y')) \/
  (exists e, de_map_e y a = inr e /\ ((exists n, y = Anchor n /\ ~ In n (map fst a) /\ e = Own (EUndefined n)) \/
                                     (exists y', target a y y' /\ ~ is_map y' /\ e = Own EMap))).
Proof.
  unfold de_map_e. destruct (resolved_cases y a) as [(y' & R & T)|(n & R & E & K)]; rewrite R; cbn [ebind].
  - destruct y'; try (right; eexists; split; [reflexivity|right]; eexists; split; [exact T|]; split; [intros []|reflexivity]).
    all: left; eexists; split; [exact T|]; split; [exact I|]; first [now rewrite hash_parts|now rewrite inline_labels by eauto].
  - right. eexists. split; [reflexivity|left]. eauto.
Qed.
Lemma target_fun a y y1 y2 : target a y y1 -> target a y y2 -> y1 = y2.
Proof. rewrite <- !resolved_ok. congruence. Qed.
Lemma target_seq a y y' : target a y y' -> is_seq y' -> de_seq_e y a = inl (elements_of y', entered a y').
Proof.
  intros T S. destruct (seq_ok y a) as [(y2 & T2 & _ & E)|(e & E & [(n & -> & K & _)|(y2 & T2 & N & _)])].
  - now rewrite (target_fun _ _ _ _ T T2).
  - destruct T as [[Q _]|(m & Q & T)]; [discriminate|]. injection Q as <-. apply resolve_newest in T. apply resolve_none in K. congruence.
  - rewrite (target_fun _ _ _ _ T T2) in S. contradiction.
Qed.
Lemma target_map a y y' : target a y y' -> is_map y' -> de_map_e y a = inl (entries_of y', entered a y').
Proof.
  intros T S. destruct (map_ok y a) as [(y2 & T2 & _ & E)|(e & E & [(n & -> & K & _)|(y2 & T2 & N & _)])].
  - now rewrite (target_fun _ _ _ _ T T2).
  - destruct T as [[Q _]|(m & Q & T)]; [discriminate|]. injection Q as <-. apply resolve_newest in T. apply resolve_none in K. congruence.
  - rewrite (target_fun _ _ _ _ T T2) in S. contradiction.
Qed.
Lemma target_no_seq a y y' : target a y y' -> ~ is_seq y' -> de_seq_e y a = inr (Own ESequence).
Proof. intros T S. unfold de_seq_e. rewrite (proj2 (resolved_ok y a y') T). cbn [ebind]. destruct y'; try reflexivity; now destruct S. Qed.
Lemma target_no_map a y y' : target a y y' -> ~ is_map y' -> de_map_e y a = inr (Own EMap).
Proof. intros T S. unfold de_map_e. rewrite (proj2 (resolved_ok y a y') T). cbn [ebind]. destruct y'; try reflexivity; now destruct S. Qed.
Lemma undefined_res n a : ~ In n (map fst a) -> resolved_e (Anchor n) a = inr (Own (EUndefined n)).
Proof. intros K. cbn. apply resolve_none in K. now rewrite K. Qed.

(** ---- scalars ---- *)

Lemma scalar_iff y s : scalar y s <-> yaml_to_string y = Some s.
Proof.
  unfold scalar, text, seen. rewrite (look_text typed_word y). destruct (look typed_word y); cbn; split;
    try (intros [E|E]; congruence); try (intros E; discriminate); intros E; injection E as ->; auto.
Qed.
Lemma no_scalar_iff y : no_scalar y <-> yaml_to_string y = None.
Proof. destruct y; cbn; split; try discriminate; try tauto; reflexivity. Qed.
Lemma words_iff b s : one_of (bool_words b) s = true <-> In s (bool_words b).
Proof.
  unfold one_of. rewrite existsb_exists. split; [intros (x & I & E); apply seqb_eq in E; now subst|]. intros I. exists s. split; [exact I|apply seqb_refl].
Qed.
Lemma null_iff s : is_null_word s = true <-> In s null_words.
Proof.
  unfold is_null_word, null_words. rewrite !orb_true_iff, !seqb_eq. cbn [map In]. intuition congruence.
Qed.
Definition sgn (k : ikind) : Prop := In k [I8; I16; I32; I64].
Lemma i64_iff k s z : sgn k -> (parse_i64 s = Some z <-> decimal_text k s z /\ fits I64 z).
Proof.
  intros S. assert (E : parse_int true i64_min i64_max s = Some z <-> decimal_text k s z /\ (i64_min <= z <= i64_max)%Z).
  { pose proof (parse_int_spec k i64_min i64_max s z) as H. unfold sgn in S. cbn [In] in S. destruct S as [<-|[<-|[<-|[<-|[]]]]]; exact H. }
  unfold parse_i64. rewrite E. unfold i64_min, i64_max. cbn [fits]. split; intros [D F]; (split; [exact D|lia]).
Qed.
Lemma u64_iff k s z : In k [U8; U16; U32; U64] -> (parse_u64 s = Some z <-> decimal_text k s z /\ fits U64 z).
Proof.
  intros S. assert (E : parse_int false 0 u64_max s = Some z <-> decimal_text k s z /\ (0 <= z <= u64_max)%Z).
  { pose proof (parse_int_spec k 0 u64_max s z) as H. cbn [In] in S. destruct S as [<-|[<-|[<-|[<-|[]]]]]; exact H. }
  unfold parse_u64. rewrite E. unfold u64_max. cbn [fits]. split; intros [D F]; (split; [exact D|lia]).
Qed.
Lemma kind_no k z : in_kind k z = false <-> ~ fits k z.
Proof. rewrite <- kind_fits. destruct (in_kind k z); split; congruence. Qed.
Lemma int_cases k : sgn k \/ In k [U8; U16; U32; U64] \/ k = I128 \/ k = U128.
Proof. unfold sgn. destruct k; cbn; tauto. Qed.
Lemma sgn_not k : sgn k -> ~ In k [U8; U16; U32; U64] /\ k <> I128 /\ k <> U128.
Proof. unfold sgn. cbn. intros [<-|[<-|[<-|[<-|[]]]]]; repeat split; try congruence; intros [E|[E|[E|[E|[]]]]]; discriminate. Qed.
Lemma uns_not k : In k [U8; U16; U32; U64] -> ~ sgn k /\ k <> I128 /\ k <> U128.
Proof. unfold sgn. cbn. intros [<-|[<-|[<-|[<-|[]]]]]; repeat split; try congruence; intros [E|[E|[E|[E|[]]]]]; discriminate. Qed.
Lemma int_sgn k y a : sgn k -> de_int_e k y a = de_int_with parse_i64 EInteger k y a.
Proof. unfold sgn. cbn. intros [<-|[<-|[<-|[<-|[]]]]]; reflexivity. Qed.
Lemma int_uns k y a : In k [U8; U16; U32; U64] -> de_int_e k y a = de_int_with parse_u64 EUnsigned k y a.
Proof. cbn. intros [<-|[<-|[<-|[<-|[]]]]]; reflexivity. Qed.
Lemma follow_int k : sgn k \/ In k [U8; U16; U32; U64] -> follows (TInt k).
Proof. unfold sgn. destruct k; cbn; try tauto; intros [[E|[E|[E|[E|[]]]]]|[E|[E|[E|[E|[]]]]]]; discriminate. Qed.

Lemma int_wrong k y a e : de_int_e k y a = inr e -> complaint (TInt k) y a e.
Proof.
  intros H. destruct (int_cases k) as [K|[K|K]].
  - rewrite (int_sgn k y a K) in H. unfold de_int_with in H. destruct (resolved_cases y a) as [(y' & R & T)|(n & R & -> & N)]; rewrite R in H; cbn [ebind] in H.
    + destruct (sgn_not k K) as (KU & K1 & K2). destruct (yaml_to_string y') as [s|] eqn:S.
      * apply scalar_iff in S. destruct (parse_i64 s) as [z|] eqn:P.
        -- destruct (in_kind k z) eqn:F; [discriminate|]. injection H as <-. apply (i64_iff k s z K) in P. destruct P as [P Q]. apply kind_no in F.
           apply (CRange k y y' s z a T S K1 K2 P); try exact F; intros X; solve [contradiction|exact Q].
        -- injection H as <-. apply (CNotInteger k y y' s a T S K1 K2); intros z D X; [|contradiction]. intros F. rewrite (proj2 (i64_iff k s z K) (conj D F)) in P. discriminate.
      * injection H as <-. apply no_scalar_iff in S. eapply CInteger; eauto.
    + injection H as <-. apply CUndefined; [|exact N]. apply follow_int. now left.
  - rewrite (int_uns k y a K) in H. unfold de_int_with in H. destruct (resolved_cases y a) as [(y' & R & T)|(n & R & -> & N)]; rewrite R in H; cbn [ebind] in H.
    + destruct (uns_not k K) as (KU & K1 & K2). destruct (yaml_to_string y') as [s|] eqn:S.
      * apply scalar_iff in S. destruct (parse_u64 s) as [z|] eqn:P.
        -- destruct (in_kind k z) eqn:F; [discriminate|]. injection H as <-. apply (u64_iff k s z K) in P. destruct P as [P Q]. apply kind_no in F.
           apply (CRange k y y' s z a T S K1 K2 P); try exact F; intros X; solve [contradiction|exact Q].
        -- injection H as <-. apply (CNotInteger k y y' s a T S K1 K2); intros z D X; [contradiction|]. intros F. rewrite (proj2 (u64_iff k s z K) (conj D F)) in P. discriminate.
      * injection H as <-. apply no_scalar_iff in S. eapply CUnsigned; eauto.
    + injection H as <-. apply CUndefined; [|exact N]. apply follow_int. now right.
  - destruct K as [-> | ->]; injection H as <-; apply CUnsupported; auto.
Qed.

(** ---- lists of nodes ---- *)

Lemma read_app l1 l2 : forall a a2, all_done (l1 ++ l2) a a2 <-> exists a1, all_done l1 a a1 /\ all_done l2 a1 a2.
Proof.
  induction l1 as [|[t y] l1 IH]; intros a a2; cbn [app].
  - split; [intros H; exists a; split; [constructor|exact H]|]. intros (a1 & H & G). inversion H. now subst.
  - split.
    + intros H. inversion H as [|? ? ? v ? b ? D R]; subst. apply IH in R. destruct R as (a1 & R1 & R2). exists a1. split; [econstructor; eauto|exact R2].
    + intros (a1 & H & G). inversion H as [|? ? ? v ? b ? D R]; subst. econstructor; [exact D|]. apply IH. eauto.
Qed.
Lemma read_one t y v a a1 : de_e t y a = inl (v, a1) -> all_done [(t, y)] a a1.
Proof. intros H. econstructor; [apply de_ok; exact H|constructor]. Qed.
Lemma read_cons t y l v a a1 a2 : de_e t y a = inl (v, a1) -> all_done l a1 a2 -> all_done ((t, y) :: l) a a2.
Proof. intros H G. econstructor; [apply de_ok; exact H|exact G]. Qed.
Lemma read_inv t y l a a2 : all_done ((t, y) :: l) a a2 -> exists v a1, de_e t y a = inl (v, a1) /\ all_done l a1 a2.
Proof. intros H. inversion H as [|? ? ? v ? b ? D R]; subst. exists v, b. split; [now apply de_ok|exact R]. Qed.

(** [e] comes from reading one of the nodes. *)
Definition breaks (l : list (ty * yaml)) (a : anchors) (e : de_err) : Prop :=
  exists l1 t y l2 a1, l = l1 ++ (t, y) :: l2 /\ all_done l1 a a1 /\ de_e t y a1 = inr e.
Lemma breaks_here t y l a e : de_e t y a = inr e -> breaks ((t, y) :: l) a e.
Proof. intros H. exists [], t, y, l, a. repeat split; [constructor|exact H]. Qed.
Lemma breaks_later t y l v a a1 e : de_e t y a = inl (v, a1) -> breaks l a1 e -> breaks ((t, y) :: l) a e.
Proof. intros H (l1 & t1 & y1 & l2 & a2 & -> & R & E). exists ((t, y) :: l1), t1, y1, l2, a2. split; [reflexivity|]. split; [eapply read_cons; eauto|exact E]. Qed.
Lemma breaks_inv t y l a e : breaks ((t, y) :: l) a e -> de_e t y a = inr e \/ exists v a1, de_e t y a = inl (v, a1) /\ breaks l a1 e.
Proof.
  intros ([|[t1 y1] l1] & t2 & y2 & l2 & a2 & E & R & D); cbn in E; injection E as -> -> ->.
  - left. inversion R. now subst.
  - right. destruct (read_inv _ _ _ _ _ R) as (v & a1 & D1 & R1). exists v, a1. split; [exact D1|]. exists l1, t2, y2, l2, a2. auto.
Qed.
Lemma breaks_nil a e : ~ breaks [] a e.
Proof. intros ([|? ?] & ? & ? & ? & ? & E & _); discriminate. Qed.

Lemma elems_err t l : forall a e, de_elems_e (de_e t) l a = inr e <-> breaks (map (pair t) l) a e.
Proof.
  induction l as [|y l IH]; intros a e; cbn [de_elems_e map].
  - split; [discriminate|]. intros B. now apply breaks_nil in B.
  - destruct (de_e t y a) as [[v a1]|e1] eqn:D; cbn [ebind].
    + destruct (de_elems_e (de_e t) l a1) as [[vs a2]|e2] eqn:R; cbn [ebind].
      * split; [discriminate|]. intros B. apply breaks_inv in B. destruct B as [B|(w & b & D1 & B)]; [congruence|]. rewrite D in D1. injection D1 as <- <-.
        apply IH in B. congruence.
      * split; intros H.
        -- injection H as <-. apply (breaks_later _ _ _ _ _ _ _ D). now apply IH.
        -- apply breaks_inv in H. destruct H as [B|(w & b & D1 & B)]; [congruence|]. rewrite D in D1. injection D1 as <- <-. apply IH in B. congruence.
    + split; intros H; [injection H as <-; now apply breaks_here|]. apply breaks_inv in H. destruct H as [B|(w & b & D1 & B)]; congruence.
Qed.
Lemma tuple_err ts : forall l i a e, de_tuple_e i (map de_e ts) l a = inr e <->
  breaks (combine ts l) a e \/ (length l < length ts /\ (exists a1, all_done (combine ts l) a a1) /\ e = Foreign (FLength (i + length l))).
Proof.
  induction ts as [|t ts IH]; intros l i a e; cbn [de_tuple_e map combine length].
  - split; [discriminate|]. intros [B|(B & _)]; [now apply breaks_nil in B|lia].
  - destruct l as [|y l].
    + split.
      * intros H. injection H as <-. right. split; [cbn; lia|]. split; [exists a; constructor|]. now rewrite Nat.add_0_r.
      * intros [B|(_ & _ & ->)]; [now apply breaks_nil in B|]. now rewrite Nat.add_0_r.
    + destruct (de_e t y a) as [[v a1]|e1] eqn:D; cbn [ebind].
      * assert (X : de_tuple_e (S i) (map de_e ts) l a1 = inr e <->
           breaks ((t, y) :: combine ts l) a e \/ (length (y :: l) < S (length ts) /\ (exists a1, all_done ((t, y) :: combine ts l) a a1) /\ e = Foreign (FLength (i + length (y :: l))))).
        { rewrite IH. cbn [length]. split.
          - intros [B|(B & (a2 & R) & ->)].
            + left. eapply breaks_later; eauto.
            + right. split; [lia|]. split; [exists a2; eapply read_cons; eauto|]. do 2 f_equal. lia.
          - intros [B|(B & (a2 & R) & ->)].
            + left. apply breaks_inv in B. destruct B as [B|(w & b & D1 & B)]; [congruence|]. rewrite D in D1. injection D1 as <- <-. exact B.
            + right. split; [lia|]. apply read_inv in R. destruct R as (w & b & D1 & R). rewrite D in D1. injection D1 as <- <-. split; [eauto|]. do 2 f_equal. lia. }
        cbn [combine]. rewrite <- X. destruct (de_tuple_e (S i) (map de_e ts) l a1) as [[vs a2]|e2]; cbn [ebind]; split; congruence.
      * cbn [combine]. split; intros H; [injection H as <-; left; now apply breaks_here|].
        destruct H as [B|(_ & (a2 & R) & _)].
        -- apply breaks_inv in B. destruct B as [B|(w & b & D1 & B)]; congruence.
        -- apply read_inv in R. destruct R as (w & b & D1 & R). congruence.
Qed.
Lemma entries_err k v l : forall a e, de_entries_e (de_e k) (de_e v) l a = inr e <->
  breaks (flat_map (fun e => [(k, Unquoted (fst e)); (v, snd e)]) l) a e.
Proof.
  induction l as [|[n y] l IH]; intros a e; cbn [de_entries_e flat_map app fst snd].
  - split; [discriminate|]. intros B. now apply breaks_nil in B.
  - destruct (de_e k (Unquoted n) a) as [[x a1]|e1] eqn:D; cbn [ebind].
    + destruct (de_e v y a1) as [[w a2]|e2] eqn:D2; cbn [ebind].
      * assert (X : de_entries_e (de_e k) (de_e v) l a2 = inr e <-> breaks ((k, Unquoted n) :: (v, y) :: flat_map (fun e => [(k, Unquoted (fst e)); (v, snd e)]) l) a e).
        { rewrite IH. split; intros B; [eapply breaks_later; [exact D|]; eapply breaks_later; eauto|].
          apply breaks_inv in B. destruct B as [B|(p & b & D1 & B)]; [congruence|]. rewrite D in D1. injection D1 as <- <-.
          apply breaks_inv in B. destruct B as [B|(p & b & D1 & B)]; [congruence|]. rewrite D2 in D1. injection D1 as <- <-. exact B. }
        rewrite <- X. destruct (de_entries_e (de_e k) (de_e v) l a2) as [[vs a3]|e3]; cbn [ebind]; split; congruence.
      * split; intros H.
        -- injection H as <-. eapply breaks_later; [exact D|]. now apply breaks_here.
        -- apply breaks_inv in H. destruct H as [B|(p & b & D1 & B)]; [congruence|]. rewrite D in D1. injection D1 as <- <-.
           apply breaks_inv in B. destruct B as [B|(p & b & D1 & B)]; congruence.
    + split; intros H; [injection H as <-; now apply breaks_here|]. apply breaks_inv in H. destruct H as [B|(p & b & D1 & B)]; congruence.
Qed.
