(** General facts about the PEG engine: consumed text, termination, stack discipline. *)
From Verif Require Import Base Peg.
Import ListNotations.

Lemma strip_app p s rest : strip p s = Some rest <-> s = p ++ rest.
Proof.
  revert s. induction p as [|a p IH]; intros s; cbn.
  - split; [intros H; now inversion H|now intros ->].
  - destruct s as [|b s]; [split; discriminate|]. destruct (ceqb a b) eqn:E.
    + apply ceqb_eq in E. subst b. rewrite IH. split; [now intros ->|intros H; now inversion H].
    + apply ceqb_neq in E. split; [discriminate|]. intros H. inversion H. congruence.
Qed.

Lemma strip_self p rest : strip p (p ++ rest) = Some rest.
Proof. now apply strip_app. Qed.

Section PegFacts.
  Context {R : Type} (G : R -> rmode * pexp R).

  (** The matched text is what was removed from the input. *)
  Lemma runs_text em e s k x : runs G em e s k x ->
    forall t ns rest k', x = Ok t ns rest k' -> s = t ++ rest.
  Proof.
    induction 1; intros t' ns' rest' k' E;
      try match type of E with match ?x with _ => _ end = _ => destruct x end;
      try discriminate; try (subst; discriminate); try (inversion E; subst; clear E);
      try (now apply strip_app); try reflexivity; eauto;
      try (rewrite <- app_assoc, <- (IHruns2 _ _ _ _ eq_refl); now eauto).
  Qed.

  (** Without emission there are no nodes. *)
  Lemma runs_silent em e s k x : runs G em e s k x -> em = false ->
    forall t ns rest k', x = Ok t ns rest k' -> ns = [].
  Proof.
    induction 1; intros He t' ns' rest' k' E;
      try match type of E with match ?x with _ => _ end = _ => destruct x end;
      try discriminate; try (subst; discriminate); try (inversion E; subst; clear E);
      try reflexivity; eauto;
      try (rewrite (IHruns1 eq_refl _ _ _ _ eq_refl); now eauto).
    destruct (fst (G r)); cbn; try reflexivity. eapply IHruns; reflexivity.
  Qed.

  (** ---- termination ---- *)

  Section Termination.
    (** Over-approximation of "can match without consuming". *)
    Variable nulR : R -> bool.
    Fixpoint nulE (e : pexp R) : bool :=
      match e with
      | PStr p => is_nil p
      | PClass _ => false
      | PSeq a b => nulE a && nulE b
      | PAlt a b => nulE a || nulE b
      | PPush a => nulE a
      | PRule r => nulR r
      | _ => true
      end.

    (** Repetitions always consume. *)
    Fixpoint stars_ok (e : pexp R) : bool :=
      match e with
      | PSeq a b | PAlt a b => stars_ok a && stars_ok b
      | POpt a | PNot a | PAnd a | PPush a => stars_ok a
      | PStar a => negb (nulE a) && stars_ok a
      | _ => true
      end.

    (** Rules reached without consuming have rank below [k]. *)
    Variable rank : R -> nat.
    Fixpoint left_ok (k : nat) (e : pexp R) : bool :=
      match e with
      | PSeq a b => left_ok k a && (negb (nulE a) || left_ok k b)
      | PAlt a b => left_ok k a && left_ok k b
      | POpt a | PStar a | PNot a | PAnd a | PPush a => left_ok k a
      | PRule r => rank r <? k
      | _ => true
      end.

    Fixpoint size (e : pexp R) : nat :=
      match e with
      | PSeq a b | PAlt a b => S (size a + size b)
      | POpt a | PStar a | PNot a | PAnd a | PPush a => S (size a)
      | _ => 1
      end.

    Variables K M : nat.
    Definition rule_ok (r : R) : bool :=
      stars_ok (snd (G r)) && left_ok (rank r) (snd (G r)) && (size (snd (G r)) <=? M)
      && (rank r <? K) && (negb (nulE (snd (G r))) || nulR r).

    (** Enough fuel for every input of the given length. *)
    Definition fuel (len : nat) : nat := S len * ((K + 1) * (M + 1)).

    Hypothesis Hok : forall r, rule_ok r = true.

    Lemma rule_ok_parts r :
      stars_ok (snd (G r)) = true /\ left_ok (rank r) (snd (G r)) = true /\ size (snd (G r)) <= M
      /\ rank r < K /\ (nulE (snd (G r)) = true -> nulR r = true).
    Proof.
      pose proof (Hok r) as H. unfold rule_ok in H. rewrite !andb_true_iff in H.
      destruct H as ((((H1 & H2) & H3) & H4) & H5).
      apply Nat.leb_le in H3. apply Nat.ltb_lt in H4. repeat split; auto.
      intros E. rewrite E in H5. exact H5.
    Qed.

    Lemma runs_nul em e s k x : runs G em e s k x ->
      forall ns rest k', x = Ok [] ns rest k' -> nulE e = true.
    Proof.
      induction 1; intros ns' rest' k' E;
      try match type of E with match ?x with _ => _ end = _ => destruct x end;
      try discriminate; try (subst; discriminate); try (inversion E; subst; clear E);
        cbn [nulE]; try reflexivity; try discriminate; eauto.
      - match goal with H : _ ++ _ = [] |- _ => apply app_eq_nil in H as [-> ->] end.
        now rewrite (IHruns1 _ _ _ eq_refl), (IHruns2 _ _ _ eq_refl).
      - now rewrite (IHruns _ _ _ E).
      - rewrite (IHruns2 _ _ _ E). apply orb_true_r.
      - apply (rule_ok_parts r). eauto.
    Qed.

    Lemma left_ok_top e : left_ok K e = true.
    Proof.
      induction e; cbn; auto; rewrite ?IHe1, ?IHe2; auto.
      - destruct (nulE e1); reflexivity.
      - apply Nat.ltb_lt. apply rule_ok_parts.
    Qed.

    Lemma eval_ok_length n em e s k t ns rest k' :
      eval G n em e s k = Some (Ok t ns rest k') ->
      length rest < length s \/ (rest = s /\ nulE e = true).
    Proof.
      intros H. apply eval_sound in H. pose proof (runs_text _ _ _ _ _ H _ _ _ _ eq_refl) as E.
      destruct t as [|c t].
      - right. split; [now subst|]. eapply runs_nul; eauto.
      - left. subst s. cbn. rewrite app_length. lia.
    Qed.

    Lemma eval_total n : forall em e s k kk,
      stars_ok e = true -> left_ok kk e = true -> size e <= M -> kk <= K ->
      length s * ((K + 1) * (M + 1)) + kk * (M + 1) + size e <= n ->
      eval G n em e s k <> None.
    Proof.
      induction n as [|n IH]; intros em e s k kk Hs Hl Hz Hk Hn.
      { exfalso. destruct e; cbn in Hn; lia. }
      set (W := (K + 1) * (M + 1)) in *.
      assert (HW : K * (M + 1) + M < W) by (subst W; nia).
      assert (Hshort : forall em e s' k, stars_ok e = true -> size e <= M -> length s' < length s ->
                 eval G n em e s' k <> None).
      { intros em' e' s' k' A1 A2 A3. apply (IH _ _ _ _ K); auto; [apply left_ok_top|].
        assert (length s' * W + W <= length s * W) by nia. nia. }
      destruct e as [p|f|a b|a b|a|a|a|a|a| |j| | |q|q]; cbn [eval]; try discriminate;
        cbn [stars_ok left_ok size] in *.
      - apply andb_prop in Hs as [Hs1 Hs2]. apply andb_prop in Hl as [Hl1 Hl2].
        pose proof (IH em a s k kk Hs1 Hl1 ltac:(lia) Hk ltac:(lia)) as HA.
        destruct (eval G n em a s k) as [[t1 n1 s1 k1| |]|] eqn:E1; try discriminate; [|congruence].
        assert (HB : eval G n em b s1 k1 <> None).
        { apply eval_ok_length in E1 as [E1|[-> E1]].
          - apply Hshort; auto; lia.
          - rewrite E1 in Hl2. apply (IH _ _ _ _ kk); auto; lia. }
        destruct (eval G n em b s1 k1) as [[]|]; congruence.
      - apply andb_prop in Hs as [Hs1 Hs2]. apply andb_prop in Hl as [Hl1 Hl2].
        pose proof (IH em a s k kk Hs1 Hl1 ltac:(lia) Hk ltac:(lia)) as HA.
        pose proof (IH em b s k kk Hs2 Hl2 ltac:(lia) Hk ltac:(lia)) as HB.
        destruct (eval G n em a s k) as [[]|]; congruence.
      - pose proof (IH em a s k kk Hs Hl ltac:(lia) Hk ltac:(lia)) as HA.
        destruct (eval G n em a s k) as [[]|]; congruence.
      - apply andb_prop in Hs as [Hs1 Hs2].
        pose proof (IH em a s k kk Hs2 Hl ltac:(lia) Hk ltac:(lia)) as HA.
        destruct (eval G n em a s k) as [[t1 n1 s1 k1| |]|] eqn:E1; try discriminate; [|congruence].
        assert (HB : eval G n em (PStar a) s1 k1 <> None).
        { apply eval_ok_length in E1 as [E1|[-> E1]].
          - apply Hshort; auto; cbn [stars_ok]. now rewrite Hs1, Hs2.
          - now rewrite E1 in Hs1. }
        destruct (eval G n em (PStar a) s1 k1) as [[]|]; congruence.
      - pose proof (IH false a s k kk Hs Hl ltac:(lia) Hk ltac:(lia)) as HA.
        destruct (eval G n false a s k) as [[]|]; congruence.
      - pose proof (IH false a s k kk Hs Hl ltac:(lia) Hk ltac:(lia)) as HA.
        destruct (eval G n false a s k) as [[]|]; congruence.
      - pose proof (IH em a s k kk Hs Hl ltac:(lia) Hk ltac:(lia)) as HA.
        destruct (eval G n em a s k) as [[]|]; congruence.
      - apply Nat.ltb_lt in Hl. destruct (rule_ok_parts q) as (R1 & R2 & R3 & R4 & _).
        pose proof (IH (emit_in (fst (G q)) em) (snd (G q)) s k (rank q) R1 R2 R3 ltac:(lia)) as HA.
        assert (HB : eval G n (emit_in (fst (G q)) em) (snd (G q)) s k <> None) by (apply HA; nia).
        destruct (eval G n _ _ s k) as [[]|]; congruence.
    Qed.

    (** Running a rule always gives a result within the stated fuel. *)
    Theorem rule_total r s k : 1 <= M -> exists x, eval G (fuel (length s)) true (PRule r) s k = Some x.
    Proof.
      intros HM. destruct (eval G (fuel (length s)) true (PRule r) s k) as [x|] eqn:E; [eauto|].
      exfalso. revert E. apply (eval_total _ _ _ _ _ K); auto.
      - apply left_ok_top.
      - unfold fuel. cbn [size]. nia.
    Qed.

    Theorem runs_total r s k : 1 <= M -> exists x, runs G true (PRule r) s k x.
    Proof. intros HM. destruct (rule_total r s k HM) as [x Hx]. exists x. eapply eval_sound; eauto. Qed.
  End Termination.

  (** ---- stack discipline ---- *)

  Section Stack.
    (** How many stack entries a rule needs from its callers. *)
    Variable req : R -> nat.

    (** [d] entries were pushed locally, at least [q] more lie below. *)
    Fixpoint typed (q d : nat) (e : pexp R) : option nat :=
      match e with
      | PStr _ | PClass _ | PEOI _ | PPeekLast _ => Some d
      | PSeq a b => match typed q d a with Some d1 => typed q d1 b | None => None end
      | PAlt a b => match typed q d a, typed q d b with
                    | Some d1, Some d2 => if d1 =? d2 then Some d1 else None
                    | _, _ => None
                    end
      | POpt a | PStar a => match typed q d a with
                            | Some d1 => if d1 =? d then Some d else None
                            | None => None
                            end
      | PNot a | PAnd a => match typed q d a with Some _ => Some d | None => None end
      | PPush a => match typed q d a with Some d1 => Some (S d1) | None => None end
      | PPeek => if 1 <=? q + d then Some d else None
      | PPop | PDrop => match d with 0 => None | S d1 => Some d1 end
      | PRule r => if req r <=? q + d then Some d else None
      end.

    Definition rule_typed (r : R) : bool :=
      match typed (req r) 0 (snd (G r)) with Some 0 => true | _ => false end.

    Hypothesis Hty : forall r, rule_typed r = true.

    Definition stack_good (base : list str) (d : nat) (x : res R) : Prop :=
      match x with
      | Ok _ _ _ k => exists loc, k = loc ++ base /\ length loc = d
      | Fail => True
      | Crash => False
      end.

    Lemma typed_sound em e s k x : runs G em e s k x ->
      forall q d d' loc base, typed q d e = Some d' -> k = loc ++ base -> length loc = d ->
        q <= length base -> stack_good base d' x.
    Proof.
      induction 1; intros q d d' loc base T Ek El Hq; cbn [typed] in T.
      - inversion T; subst. exists loc; auto.
      - exact I.
      - inversion T; subst. exists loc; auto.
      - exact I.
      - exact I.
      - destruct (typed q d a) as [d1|] eqn:T1; [|discriminate].
        destruct (IHruns1 _ _ _ _ _ T1 Ek El Hq) as (l1 & -> & L1).
        exact (IHruns2 _ _ _ _ _ T eq_refl L1 Hq).
      - destruct (typed q d a) as [d1|] eqn:T1; [|discriminate].
        pose proof (IHruns _ _ _ _ _ T1 Ek El Hq) as X. now destruct r.
      - destruct (typed q d a) as [d1|] eqn:T1; [|discriminate].
        destruct (IHruns1 _ _ _ _ _ T1 Ek El Hq) as (l1 & -> & L1).
        exact (IHruns2 _ _ _ _ _ T eq_refl L1 Hq).
      - destruct (typed q d a) as [d1|] eqn:T1; [|discriminate].
        destruct (typed q d b) as [d2|] eqn:T2; [|discriminate].
        destruct (d1 =? d2) eqn:E; inversion T; subst. exact (IHruns _ _ _ _ _ T1 eq_refl eq_refl Hq).
      - destruct (typed q d a) as [d1|] eqn:T1; [|discriminate].
        destruct (typed q d b) as [d2|] eqn:T2; [|discriminate].
        destruct (d1 =? d2) eqn:E; inversion T; subst. apply Nat.eqb_eq in E. subst.
        exact (IHruns2 _ _ _ _ _ T2 eq_refl eq_refl Hq).
      - destruct (typed q d a) as [d1|] eqn:T1; [|discriminate].
        destruct (d1 =? d) eqn:E; inversion T; subst. apply Nat.eqb_eq in E. subst.
        exact (IHruns _ _ _ _ _ T1 eq_refl eq_refl Hq).
      - destruct (typed q d a) as [d1|] eqn:T1; [|discriminate].
        destruct (d1 =? d) eqn:E; inversion T; subst. exists loc; auto.
      - destruct (typed q d a) as [d1|] eqn:T1; [|discriminate].
        destruct (d1 =? d) eqn:E; inversion T; subst. exists loc; auto.
      - pose proof T as T'.
        destruct (typed q d a) as [d1|] eqn:T1; [|discriminate].
        destruct (d1 =? d) eqn:E; inversion T; subst. apply Nat.eqb_eq in E. subst.
        destruct (IHruns1 _ _ _ _ _ T1 eq_refl eq_refl Hq) as (l1 & -> & L1).
        refine (IHruns2 q _ _ l1 base _ eq_refl L1 Hq). cbn [typed]. rewrite T1, Nat.eqb_refl. reflexivity.
      - destruct (typed q d a) as [d1|] eqn:T1; [|discriminate].
        exact (IHruns _ _ _ _ _ T1 Ek El Hq).
      - destruct (typed q d a) as [d1|] eqn:T1; [|discriminate].
        destruct (d1 =? d) eqn:E; inversion T; subst. apply Nat.eqb_eq in E. subst.
        destruct (IHruns1 _ _ _ _ _ T1 eq_refl eq_refl Hq) as (l1 & -> & L1).
        refine (IHruns2 q _ _ l1 base _ eq_refl L1 Hq). cbn [typed]. rewrite T1, Nat.eqb_refl. reflexivity.
      - destruct (typed q d a) as [d1|] eqn:T1; [|discriminate].
        pose proof (IHruns _ _ _ _ _ T1 Ek El Hq) as X. inversion T; subst.
        destruct r; [exact I|exists loc; auto|exact X].
      - destruct (typed q d a) as [d1|] eqn:T1; [|discriminate].
        pose proof (IHruns _ _ _ _ _ T1 Ek El Hq) as X. inversion T; subst.
        destruct r; [exists loc; auto|exact I|exact X].
      - destruct (typed q d a) as [d1|] eqn:T1; [|discriminate].
        destruct (IHruns _ _ _ _ _ T1 Ek El Hq) as (l1 & -> & L1). inversion T; subst.
        exists (t :: l1). cbn. split; [reflexivity|lia].
      - destruct (typed q d a) as [d1|] eqn:T1; [|discriminate].
        pose proof (IHruns _ _ _ _ _ T1 Ek El Hq) as X. now destruct r.
      - destruct (1 <=? q + d); inversion T; subst. exists loc; auto.
      - exact I.
      - destruct (1 <=? q + d) eqn:E; [|discriminate]. apply Nat.leb_le in E.
        destruct loc; [|discriminate]. destruct base; [|discriminate]. cbn in *. lia.
      - inversion T; subst. exists loc; auto.
      - exact I.
      - exact I.
      - destruct d as [|d]; inversion T; subst. destruct loc as [|y loc]; [discriminate|].
        cbn in Ek. inversion Ek; subst. exists loc. split; [reflexivity|]. cbn in El. lia.
      - exact I.
      - destruct d as [|d]; inversion T; subst. destruct loc as [|y loc]; discriminate.
      - destruct d as [|d]; inversion T; subst. destruct loc as [|y loc]; [discriminate|].
        cbn in Ek. inversion Ek; subst. exists loc. split; [reflexivity|]. cbn in El. lia.
      - exact I.
      - inversion T; subst. exists loc; auto.
      - exact I.
      - destruct (req r <=? q + d) eqn:E; inversion T; subst. apply Nat.leb_le in E.
        pose proof (Hty r) as Hr. unfold rule_typed in Hr.
        destruct (typed (req r) 0 (snd (G r))) as [[|]|] eqn:Tr; try discriminate.
        destruct (IHruns _ _ _ [] _ Tr eq_refl eq_refl) as (l1 & E1 & L1).
        { rewrite app_length. lia. }
        destruct l1; [|discriminate]. exists loc. auto.
      - destruct (req r <=? q + d) eqn:E; inversion T; subst. apply Nat.leb_le in E.
        pose proof (Hty r) as Hr. unfold rule_typed in Hr.
        destruct (typed (req r) 0 (snd (G r))) as [[|]|] eqn:Tr; try discriminate.
        assert (X : stack_good (loc ++ base) 0 x).
        { apply (IHruns _ _ _ [] _ Tr eq_refl eq_refl). rewrite app_length. lia. }
        now destruct x.
    Qed.

    (** A rule never panics when enough entries are there, and leaves the stack as it was. *)
    Theorem rule_stack em r s k x : req r <= length k -> runs G em (PRule r) s k x ->
      match x with Ok _ _ _ k' => k' = k | Fail => True | Crash => False end.
    Proof.
      intros Hk H. assert (T : typed (length k) 0 (PRule r) = Some 0).
      { cbn [typed]. rewrite Nat.add_0_r. apply Nat.leb_le in Hk. now rewrite Hk. }
      pose proof (typed_sound _ _ _ _ _ H _ _ _ [] k T eq_refl eq_refl (le_n _)) as X.
      destruct x as [t ns rest k'| |]; [|exact I|exact X].
      destruct X as (loc & -> & L). now destruct loc.
    Qed.
  End Stack.
End PegFacts.
