(** Facts about the path parser. *)
From Coq Require Import ZArith Decimal.
From Verif Require Import Base Path Num Peg PegFacts PathGrammar Spec_Insert Spec_Path.
Import ListNotations.

Notation pruns := (runs path_grammar).

(** ---- building derivations ---- *)

Lemma run_seq em a b s k t1 n1 s1 k1 t2 n2 s2 k2 t n :
  pruns em a s k (Ok t1 n1 s1 k1) -> pruns em b s1 k1 (Ok t2 n2 s2 k2) ->
  t = t1 ++ t2 -> n = n1 ++ n2 -> pruns em (PSeq a b) s k (Ok t n s2 k2).
Proof. intros H1 H2 -> ->. econstructor; eauto. Qed.

Lemma run_star em e s k t1 n1 s1 k1 t2 n2 s2 k2 t n :
  pruns em e s k (Ok t1 n1 s1 k1) -> pruns em (PStar e) s1 k1 (Ok t2 n2 s2 k2) ->
  t = t1 ++ t2 -> n = n1 ++ n2 -> pruns em (PStar e) s k (Ok t n s2 k2).
Proof. intros H1 H2 -> ->. econstructor; eauto. Qed.

Lemma run_lit em x rest k : pruns em (PStr x) (x ++ rest) k (Ok x [] rest k).
Proof. constructor. apply strip_self. Qed.

Lemma run_lit_fail em c x s k : head s <> Some c -> pruns em (PStr (c :: x)) s k Fail.
Proof.
  intros H. constructor. destruct s as [|b s]; [reflexivity|]. cbn in *.
  replace (ceqb c b) with false; [reflexivity|]. symmetry. apply ceqb_neq. congruence.
Qed.

Definition ws_node : node prule := Node p_whitespace [SP] [].

Lemma skip_run n s k : head s <> Some SP ->
  pruns true p_skip (repeat SP n ++ s) k (Ok (repeat SP n) (repeat ws_node n) s k).
Proof.
  intros H. induction n as [|n IH]; cbn [repeat app].
  - apply RStar0. apply RRuleF; [|reflexivity]. cbn. now apply run_lit_fail.
  - change (SP :: repeat SP n) with ([SP] ++ repeat SP n).
    change (ws_node :: repeat ws_node n) with ([ws_node] ++ repeat ws_node n).
    eapply RStar1; [|exact IH].
    refine (RRule path_grammar true p_whitespace _ _ [SP] [] _ _ _).
    exact (run_lit true [SP] _ k).
Qed.

Lemma skip_none s k : head s <> Some SP -> pruns true p_skip s k (Ok [] [] s k).
Proof. intros H. exact (skip_run 0 s k H). Qed.

(** [a ~ b] when no space follows [a]. *)
Lemma run_pseq a b s k t1 n1 s1 k1 t2 n2 s2 k2 t n :
  pruns true a s k (Ok t1 n1 s1 k1) -> head s1 <> Some SP ->
  pruns true b s1 k1 (Ok t2 n2 s2 k2) ->
  t = t1 ++ t2 -> n = n1 ++ n2 -> pruns true (p_seq a b) s k (Ok t n s2 k2).
Proof.
  intros H1 Hs H2 -> ->. eapply run_seq; [exact H1| |reflexivity|reflexivity].
  eapply run_seq; [now apply skip_none|exact H2|reflexivity|reflexivity].
Qed.

(** ---- runs of plain characters ---- *)

Section Items.
  Variable E : pexp prule.
  Variable bad : str.
  Hypothesis Hsp : ~ In SP bad.
  Hypothesis H1 : forall c s k, c <> SP -> ~ In c bad -> pruns true E (c :: s) k (Ok [c] [] s k).
  Hypothesis H2 : forall c s k, In c bad -> pruns true E (c :: s) k Fail.
  Hypothesis H3 : forall k, pruns true E [] k Fail.

  Definition ends_at (rest : str) : Prop := rest = [] \/ exists c r, rest = c :: r /\ In c bad.

  Lemma ends_no_space rest : ends_at rest -> head rest <> Some SP.
  Proof. intros [->|(c & r & -> & Hc)]; cbn; [discriminate|]. intros X. inversion X. congruence. Qed.

  Lemma ends_fail rest k : ends_at rest -> pruns true E rest k Fail.
  Proof. intros [->|(c & r & -> & Hc)]; auto. Qed.

  Definition chunks (l : list (nat * char)) : str := flat_map (fun x => repeat SP (fst x) ++ [snd x]) l.

  Lemma chunks_of u : (forall c, In c u -> ~ In c bad) -> (forall r, u <> r ++ [SP]) ->
    exists l, u = chunks l /\ Forall (fun x => snd x <> SP /\ ~ In (snd x) bad) l.
  Proof.
    induction u as [|c u IH]; intros Hb Hl; [exists []; split; [reflexivity|constructor]|].
    destruct IH as (l & E1 & F).
    { intros x Hx. apply Hb. now right. }
    { intros r ->. apply (Hl (c :: r)). reflexivity. }
    destruct (N.eq_dec c SP) as [->|Hc].
    - destruct l as [|[n d] l].
      + exfalso. apply (Hl []). subst u. reflexivity.
      + exists ((S n, d) :: l). split; [|inversion F; constructor; auto].
        subst u. reflexivity.
    - exists ((0, c) :: l). split; [now subst u|]. constructor; [|exact F]. split; [exact Hc|]. apply Hb. now left.
  Qed.

  Lemma star_chunks l rest k : Forall (fun x => snd x <> SP /\ ~ In (snd x) bad) l -> ends_at rest ->
    exists ns, pruns true (PStar (PSeq p_skip E)) (chunks l ++ rest) k (Ok (chunks l) ns rest k).
  Proof.
    intros F Hr. induction F as [|[n c] l [Hc Hb] _ [ns IH]].
    - exists []. apply RStar0. eapply RSeq2; [apply skip_none; now apply ends_no_space| |reflexivity].
      now apply ends_fail.
    - cbn in Hc, Hb. eexists. cbn [chunks flat_map fst snd].
      change (flat_map (fun x => repeat SP (fst x) ++ [snd x]) l) with (chunks l).
      rewrite <- (app_assoc (repeat SP n ++ [c])).
      eapply RStar1; [|exact IH]. rewrite <- app_assoc.
      eapply RSeq; [apply skip_run; cbn; congruence|]. now apply H1.
  Qed.

  Lemma plus_plain t rest k : plain bad t -> ends_at rest ->
    exists ns, pruns true (p_plus E) (t ++ rest) k (Ok t ns rest k).
  Proof.
    intros (Hn & Hb & Hf & Hl) Hr. destruct t as [|c0 t]; [contradiction|].
    assert (Hc0 : c0 <> SP) by (intros ->; now apply (Hf t)).
    assert (Hb0 : ~ In c0 bad) by (apply Hb; now left).
    destruct (chunks_of t) as (l & -> & F).
    { intros x Hx. apply Hb. now right. }
    { intros r ->. apply (Hl (c0 :: r)). reflexivity. }
    destruct F as [|[n c] l [Hc Hbc] F].
    - exists []. cbn [chunks flat_map app]. eapply run_pseq; [now apply H1|now apply ends_no_space| |reflexivity|reflexivity].
      apply ROpt2. apply RSeq1; [now apply ends_fail|reflexivity].
    - cbn in Hc, Hbc. destruct (star_chunks l rest k F Hr) as [ns IH]. eexists.
      cbn [chunks flat_map fst snd app].
      change (flat_map (fun x => repeat SP (fst x) ++ [snd x]) l) with (chunks l).
      unfold p_plus, p_seq. eapply run_seq; [now apply H1| |reflexivity|reflexivity].
      rewrite <- !app_assoc.
      eapply run_seq; [apply skip_run; cbn; congruence| |reflexivity|reflexivity].
      apply ROpt1; [|discriminate].
      eapply run_seq; [now apply H1|exact IH|reflexivity|reflexivity].
  Qed.
End Items.

(** Items that are one character not in a set, guarded by a negative lookahead. *)
Lemma not_item (Nt : pexp prule) bad :
  (forall c s k, ~ In c bad -> pruns false Nt (c :: s) k Fail) ->
  (forall c s k, In c bad -> exists t n r k', pruns false Nt (c :: s) k (Ok t n r k')) ->
  (forall k, pruns false Nt [] k Fail) ->
  let E := p_seq (PNot Nt) (PClass any_char) in
  (forall c s k, c <> SP -> ~ In c bad -> pruns true E (c :: s) k (Ok [c] [] s k)) /\
  (forall c s k, In c bad -> pruns true E (c :: s) k Fail) /\
  (forall k, pruns true E [] k Fail).
Proof.
  intros A1 A2 A3 E. split; [|split].
  - intros c s k Hc Hb. eapply run_pseq.
    + exact (RNot path_grammar true Nt (c :: s) k Fail (A1 c s k Hb)).
    + cbn. congruence.
    + constructor. reflexivity.
    + reflexivity.
    + reflexivity.
  - intros c s k Hb. destruct (A2 c s k Hb) as (t & n & r & k' & X). apply RSeq1; [|reflexivity].
    exact (RNot path_grammar true Nt (c :: s) k _ X).
  - intros k. eapply RSeq2; [exact (RNot path_grammar true Nt [] k Fail (A3 k))| |reflexivity].
    eapply RSeq2; [now apply skip_none|constructor|reflexivity].
Qed.

Lemma lit1_ok em c s k : pruns em (PStr [c]) (c :: s) k (Ok [c] [] s k).
Proof. exact (run_lit em [c] s k). Qed.
Lemma lit1_no em c d s k : c <> d -> pruns em (PStr [c]) (d :: s) k Fail.
Proof. intros H. apply run_lit_fail. cbn. congruence. Qed.
Lemma lit1_nil em c k : pruns em (PStr [c]) [] k Fail.
Proof. apply run_lit_fail. discriminate. Qed.

Lemma alt_run em a b s k t n r k' :
  pruns em a s k (Ok t n r k') -> pruns em (PAlt a b) s k (Ok t n r k').
Proof. intros H. apply RAlt1; [exact H|discriminate]. Qed.

Lemma field_items :
  let E := p_seq (PNot (p_lit "=")) (PClass any_char) in
  (forall c s k, c <> SP -> ~ In c (lit "=") -> pruns true E (c :: s) k (Ok [c] [] s k)) /\
  (forall c s k, In c (lit "=") -> pruns true E (c :: s) k Fail) /\
  (forall k, pruns true E [] k Fail).
Proof.
  apply not_item.
  - intros c s k H. apply lit1_no. intros <-. apply H. now left.
  - intros c s k [<-|[]]. do 4 eexists. apply lit1_ok.
  - intros k. apply lit1_nil.
Qed.

Lemma value_items :
  let E := p_seq (PNot (PAlt (p_lit ".") (p_lit "|"))) (PClass any_char) in
  (forall c s k, c <> SP -> ~ In c (lit ".|") -> pruns true E (c :: s) k (Ok [c] [] s k)) /\
  (forall c s k, In c (lit ".|") -> pruns true E (c :: s) k Fail) /\
  (forall k, pruns true E [] k Fail).
Proof.
  apply not_item.
  - intros c s k H. repeat apply RAlt2; apply lit1_no; intros <-; apply H; cbn; tauto.
  - intros c s k Hc. cbn in Hc. destruct Hc as [<-|[<-|[]]]; do 4 eexists.
    + apply alt_run, lit1_ok.
    + apply RAlt2; [now apply lit1_no|apply lit1_ok].
  - intros k. repeat apply RAlt2; apply lit1_nil.
Qed.

Lemma key_items :
  let E := PRule p_key_items in
  (forall c s k, c <> SP -> ~ In c (lit "[].|") -> pruns true E (c :: s) k (Ok [c] [] s k)) /\
  (forall c s k, In c (lit "[].|") -> pruns true E (c :: s) k Fail) /\
  (forall k, pruns true E [] k Fail).
Proof.
  destruct (not_item (PAlt (p_lit "[") (PAlt (p_lit "]") (PAlt (p_lit ".") (p_lit "|")))) (lit "[].|")) as (A1 & A2 & A3).
  - intros c s k H. repeat apply RAlt2; apply lit1_no; intros <-; apply H; cbn; tauto.
  - intros c s k Hc. cbn in Hc. destruct Hc as [<-|[<-|[<-|[<-|[]]]]]; do 4 eexists;
      repeat (apply RAlt2; [now apply lit1_no|]); try apply alt_run; apply lit1_ok.
  - intros k. repeat apply RAlt2; apply lit1_nil.
  - cbn zeta in *. split; [|split].
    + intros c s k Hc Hb. exact (RRule path_grammar true p_key_items _ _ _ _ _ _ (A1 c s k Hc Hb)).
    + intros c s k Hb. apply RRuleF; [exact (A2 c s k Hb)|reflexivity].
    + intros k. apply RRuleF; [exact (A3 k)|reflexivity].
Qed.

Lemma pure_key_run t rest k : plain (lit "[].|") t -> ends_at (lit "[].|") rest ->
  exists ns, pruns true (PRule p_pure_key) (t ++ rest) k (Ok t [Node p_pure_key t ns] rest k).
Proof.
  intros Ht Hr. destruct key_items as (A1 & A2 & A3).
  destruct (plus_plain _ (lit "[].|") ltac:(cbn; intuition discriminate) A1 A2 A3 t rest k Ht Hr) as [ns H].
  exists ns. exact (RRule path_grammar true p_pure_key _ _ _ _ _ _ H).
Qed.

Lemma field_run t rest k : plain (lit "=") t -> ends_at (lit "=") rest ->
  exists ns, pruns true (PRule p_field) (t ++ rest) k (Ok t [Node p_field t ns] rest k).
Proof.
  intros Ht Hr. destruct field_items as (A1 & A2 & A3).
  destruct (plus_plain _ (lit "=") ltac:(cbn; intuition discriminate) A1 A2 A3 t rest k Ht Hr) as [ns H].
  exists ns. exact (RRule path_grammar true p_field _ _ _ _ _ _ H).
Qed.

Lemma value_run t rest k : plain (lit ".|") t -> ends_at (lit ".|") rest ->
  exists ns, pruns true (PRule p_value) (t ++ rest) k (Ok t [Node p_value t ns] rest k).
Proof.
  intros Ht Hr. destruct value_items as (A1 & A2 & A3).
  destruct (plus_plain _ (lit ".|") ltac:(cbn; intuition discriminate) A1 A2 A3 t rest k Ht Hr) as [ns H].
  exists ns. exact (RRule path_grammar true p_value _ _ _ _ _ _ H).
Qed.

(** ---- conditions ---- *)

Definition cond_node (c : condition) (n : node prule) : Prop :=
  label n = p_condition /\ fold_node path_act n = CVal (PVCond c).

Lemma plain_head bad t rest : plain bad t -> head (t ++ rest) <> Some SP.
Proof.
  intros (Hn & _ & Hf & _). destruct t as [|c t]; [contradiction|]. cbn. intros X. inversion X; subst.
  now apply (Hf t).
Qed.

Lemma plain_ne bad t : plain bad t -> t <> [].
Proof. now intros (H & _). Qed.

Lemma condition_run c rest k : cond_ok c -> ends_at (lit ".|") rest ->
  exists n, cond_node c n /\
    pruns true (p_seq (p_lit "|") (PRule p_condition)) (cond_text c ++ rest) k
      (Ok (cond_text c) [n] rest k).
Proof.
  intros [Hf Hv] Hr. unfold cond_text.
  destruct (field_run (c_field c) (lit "=" ++ c_value c ++ rest) k Hf) as [n1 X1].
  { right. do 2 eexists. split; [reflexivity|now left]. }
  destruct (value_run (c_value c) rest k Hv Hr) as [n2 X2].
  eexists. split; [|].
  2:{ rewrite <- !app_assoc. eapply run_pseq; [exact (run_lit true (lit "|") _ k)|now apply (plain_head _ _ _ Hf)| |reflexivity|reflexivity].
      apply (RRule path_grammar true p_condition). cbn [path_grammar snd fst emit_in].
      eapply run_pseq; [exact X1|cbn; discriminate| |reflexivity|reflexivity].
      eapply run_pseq; [exact (run_lit true (lit "=") _ k)|now apply (plain_head _ _ _ Hv)|exact X2|reflexivity|reflexivity]. }
  split; [reflexivity|]. destruct c; reflexivity.
Qed.

Lemma conds_run cs rest k : Forall cond_ok cs ->
  (cs <> [] -> ends_at (lit ".|") rest) -> head rest <> Some (chr "|") -> head rest <> Some SP ->
  exists ns, Forall2 cond_node cs ns /\
    pruns true p_conds (conds_text cs ++ rest) k (Ok (conds_text cs) ns rest k).
Proof.
  intros F Hr Hp Hs.
  assert (Fail1 : pruns true (p_seq (p_lit "|") (PRule p_condition)) rest k Fail).
  { apply RSeq1; [|reflexivity]. now apply run_lit_fail. }
  assert (Ends : forall cs', ends_at (lit ".|") rest -> ends_at (lit ".|") (conds_text cs' ++ rest)).
  { intros [|c' cs'] H; [exact H|]. right. do 2 eexists. split; [reflexivity|cbn; tauto]. }
  destruct cs as [|c cs].
  - exists []. split; [constructor|]. apply ROpt2. apply RSeq1; [exact Fail1|reflexivity].
  - specialize (Hr ltac:(discriminate)). inversion F as [|x l Hc Hcs]; subst.
    destruct (condition_run c (conds_text cs ++ rest) k Hc (Ends cs Hr)) as (n & Hn & X).
    assert (S : exists ns, Forall2 cond_node cs ns /\
      pruns true (PStar (PSeq p_skip (p_seq (p_lit "|") (PRule p_condition)))) (conds_text cs ++ rest) k
        (Ok (conds_text cs) ns rest k)).
    { clear c F Hc n Hn X. induction Hcs as [|c cs Hc Hcs IH].
      - exists []. split; [constructor|]. apply RStar0. eapply RSeq2; [now apply skip_none|exact Fail1|reflexivity].
      - destruct IH as (ns & Hns & IH).
        destruct (condition_run c (conds_text cs ++ rest) k Hc (Ends cs Hr)) as (n & Hn & X).
        exists (n :: ns). split; [now constructor|]. cbn [conds_text flat_map].
        rewrite <- app_assoc. eapply run_star;
          [eapply run_seq; [apply skip_none; discriminate|exact X|reflexivity|reflexivity]
          |exact IH|reflexivity|reflexivity]. }
    destruct S as (ns & Hns & IH). exists (n :: ns). split; [now constructor|].
    cbn [conds_text flat_map]. rewrite <- app_assoc. apply ROpt1; [|discriminate].
    eapply run_seq; [exact X|exact IH|reflexivity|reflexivity].
Qed.

Lemma cond_nodes cs ns : Forall2 cond_node cs ns ->
  exists vs, call_ (map (fun c => (label c, fold_node path_act c)) ns) = CVal vs /\ conds_of vs = Some cs
             /\ has_ws (map (fun c => (label c, fold_node path_act c)) ns) = false.
Proof.
  induction 1 as [|c n cs ns [Hl Hf] _ (vs & E1 & E2 & E3)]; [exists []; auto|].
  exists ((p_condition, PVCond c) :: vs). cbn. rewrite Hl, Hf, E1. cbn. rewrite E2. repeat split. exact E3.
Qed.

(** ---- keys, parts, paths ---- *)

Definition path_node (r : prule) (p : path) (n : node prule) : Prop :=
  label n = r /\ fold_node path_act n = CVal (PVPath p).

(** What may follow the conditions of a step. *)
Definition after_conds (cs : list condition) (rest : str) : Prop :=
  ends_at (lit "[].|") rest /\ head rest <> Some (chr "|") /\
  (cs <> [] -> ends_at (lit ".|") rest).

Lemma conds_head cs rest : head rest <> Some SP -> head (conds_text cs ++ rest) <> Some SP.
Proof. destruct cs; cbn; [auto|discriminate]. Qed.

Lemma key_run t cs rest k : plain (lit "[].|") t -> Forall cond_ok cs -> after_conds cs rest ->
  exists n, path_node p_key (PKey t cs None) n /\
    pruns true (PRule p_key) (t ++ conds_text cs ++ rest) k (Ok (t ++ conds_text cs) [n] rest k).
Proof.
  intros Ht F (Hr1 & Hr2 & Hr3).
  assert (Hs : head rest <> Some SP) by (eapply ends_no_space; [|exact Hr1]; cbn; intuition discriminate).
  destruct (pure_key_run t (conds_text cs ++ rest) k Ht) as [n1 X1].
  { destruct cs as [|c cs]; [exact Hr1|]. right. do 2 eexists. split; [reflexivity|cbn; tauto]. }
  destruct (conds_run cs rest k F Hr3 Hr2 Hs) as (ns & Hns & X2).
  destruct (cond_nodes _ _ Hns) as (vs & E1 & E2 & E3).
  eexists. split.
  2:{ apply (RRule path_grammar true p_key). cbn [path_grammar snd fst emit_in].
      eapply run_pseq; [exact X1|now apply conds_head|exact X2|reflexivity|reflexivity]. }
  split; [reflexivity|]. cbn [wrap app fold_node path_act map label has_ws existsb fst orb].
  fold (has_ws (map (fun c => (label c, fold_node path_act c)) ns)). rewrite E3.
  cbn [call_ cbind]. rewrite E1. cbn [cbind]. now rewrite E2.
Qed.

Definition step_path (s : step) : path :=
  match s with
  | SKey k cs => PKey k cs None
  | SIdx i cs => PIdx [i] cs None
  | SAll cs => PAll cs None
  end.

(** ---- numbers ---- *)

Lemma dec_digit c : (48 <= c <= 57)%N -> ascii_digit c = true.
Proof. intros H. unfold ascii_digit. apply andb_true_intro. split; apply N.leb_le; lia. Qed.

Lemma digits_run ds rest k : is_dec ds ->
  exists ns, pruns true (PRule p_index_number) (ds ++ lit "]" ++ rest) k (Ok ds [Node p_index_number ds ns] (lit "]" ++ rest) k).
Proof.
  intros [Hn Hd]. destruct ds as [|c ds]; [contradiction|].
  assert (Hc : ascii_digit c = true) by (apply dec_digit, Hd; now left).
  assert (Hsp : forall d, In d (c :: ds) -> d <> SP).
  { intros d Hx ->. specialize (Hd SP Hx). unfold SP in Hd. lia. }
  assert (Hh : forall ds', (forall x, In x ds' -> In x (c :: ds)) -> head (ds' ++ lit "]" ++ rest) <> Some SP).
  { intros [|d ds'] H; cbn; [discriminate|]. intros X. inversion X; subst. apply (Hsp SP); [apply H; now left|reflexivity]. }
  assert (S : forall ds', (forall x, In x ds' -> In x (c :: ds)) ->
     pruns true (PStar (PSeq p_skip (PClass ascii_digit))) (ds' ++ lit "]" ++ rest) k (Ok ds' [] (lit "]" ++ rest) k)).
  { induction ds' as [|d ds' IH]; intros H.
    - apply RStar0. eapply RSeq2; [apply skip_none; cbn; discriminate|now constructor|reflexivity].
    - refine (run_star true _ _ _ [d] [] (ds' ++ lit "]" ++ rest) k ds' [] _ _ _ _ _ _ _ _).
      + eapply run_seq; [apply skip_none, Hh, H|apply RClass; apply dec_digit, Hd, H; now left|reflexivity|reflexivity].
      + apply IH. intros x Hx. apply H. now right.
      + reflexivity.
      + reflexivity. }
  eexists. apply (RRule path_grammar true p_index_number). cbn [path_grammar snd fst emit_in].
  eapply run_pseq; [now constructor|apply Hh; intros; now right| |reflexivity|reflexivity].
  destruct ds as [|d ds].
  - apply ROpt2, RSeq1; [now constructor|reflexivity].
  - apply ROpt1; [|discriminate].
    eapply run_seq; [constructor; apply dec_digit, Hd; right; now left|apply S; intros; right; now right|reflexivity|reflexivity].
Qed.

Lemma acc_horner u acc : N.pos (Pos.of_uint_acc u acc)
  = fold_left (fun a c => (10 * a + digit_value c)%N) (uint_str u) (N.pos acc).
Proof.
  revert acc. induction u as [|u IH|u IH|u IH|u IH|u IH|u IH|u IH|u IH|u IH|u IH]; intros acc;
    [reflexivity|..]; cbn [Pos.of_uint_acc uint_str fold_left]; rewrite IH; apply f_equal;
    match goal with |- context [digit_value ?c] =>
      let v := eval vm_compute in (digit_value c) in change (digit_value c) with v end; lia.
Qed.

Lemma of_uint_horner u : N.of_uint u = dec_value (uint_str u).
Proof.
  unfold dec_value. induction u; [reflexivity| |..];
    try (unfold N.of_uint; cbn [Pos.of_uint uint_str fold_left]; rewrite acc_horner; f_equal; reflexivity).
  cbn [uint_str fold_left]. exact IHu.
Qed.

Lemma digit_str c u : (48 <= c <= 57)%N -> exists u', cons_digit c u = Some u' /\ uint_str u' = c :: uint_str u.
Proof.
  intros H. assert (D : (c = 48 \/ c = 49 \/ c = 50 \/ c = 51 \/ c = 52 \/ c = 53 \/ c = 54 \/ c = 55 \/ c = 56 \/ c = 57)%N) by lia.
  repeat destruct D as [->|D]; try (eexists; split; [reflexivity|reflexivity]). subst c.
  eexists; split; reflexivity.
Qed.

Lemma dec_uint ds : (forall c, In c ds -> (48 <= c <= 57)%N) -> exists u, str_uint ds = Some u /\ uint_str u = ds.
Proof.
  induction ds as [|c ds IH]; intros H; [exists Nil; auto|].
  destruct IH as (u & E1 & E2); [intros x Hx; apply H; now right|].
  destruct (digit_str c u) as (u' & E3 & E4); [apply H; now left|].
  exists u'. cbn. rewrite E1. split; [exact E3|congruence].
Qed.

Lemma parse_dec ds : is_dec ds -> (dec_value ds < 2 ^ 64)%N ->
  parse_usize ds = Some (Z.of_N (dec_value ds)).
Proof.
  intros [Hn Hd] Hb. destruct (dec_uint ds Hd) as (u & E1 & E2).
  assert (P : parse_digits ds = Some (dec_value ds)).
  { destruct ds; [contradiction|]. unfold parse_digits. rewrite E1. cbn [option_map].
    now rewrite of_uint_horner, E2. }
  unfold parse_usize, parse_u64, parse_int. destruct ds as [|c ds]; [contradiction|].
  assert (Hc : (48 <= c <= 57)%N) by (apply Hd; now left).
  destruct (digit_not_sign c) as [S1 S2].
  { unfold is_digit. apply andb_true_intro. split; apply N.leb_le; lia. }
  rewrite S1. cbn [andb]. rewrite P.
  assert (B : ((0 <=? Z.of_N (dec_value (c :: ds)))%Z && (Z.of_N (dec_value (c :: ds)) <=? u64_max)%Z)%bool = true).
  { apply andb_true_intro. change (2 ^ 64)%N with 18446744073709551616%N in Hb.
    split; apply Z.leb_le; unfold u64_max; lia. }
  now rewrite B.
Qed.

(** ---- parts ---- *)

Lemma part_run_key t cs rest k : plain (lit "[].|") t -> Forall cond_ok cs -> after_conds cs rest ->
  exists n, path_node p_part (PKey t cs None) n /\
    pruns true (PRule p_part) (lit "." ++ t ++ conds_text cs ++ rest) k
      (Ok (lit "." ++ t ++ conds_text cs) [n] rest k).
Proof.
  intros Ht F Hr. destruct (key_run t cs rest k Ht F Hr) as (n & [Hl Hf] & X).
  eexists. split.
  2:{ apply (RRule path_grammar true p_part). cbn [path_grammar snd fst emit_in]. apply alt_run.
      eapply run_pseq; [exact (run_lit true (lit ".") _ k)|now apply (plain_head _ _ _ Ht)|exact X|reflexivity|reflexivity]. }
  split; [reflexivity|]. cbn [wrap app fold_node map]. rewrite Hl, Hf. reflexivity.
Qed.

Lemma part_run_idx body inner cs rest k v :
  (exists n, pruns true (PAlt (PRule p_index_number) (PRule p_index_all)) (body ++ lit "]" ++ conds_text cs ++ rest) k
     (Ok body [n] (lit "]" ++ conds_text cs ++ rest) k) /\ label n = inner /\ fold_node path_act n = CVal v) ->
  head (body ++ lit "]" ++ conds_text cs ++ rest) <> Some SP ->
  Forall cond_ok cs -> after_conds cs rest ->
  (inner = p_index_all \/ (inner = p_index_number /\ exists l, v = PVIdx l)) ->
  exists n, path_node p_part (match v with PVIdx l => if match inner with p_index_number => true | _ => false end
                                             then PIdx l cs None else PAll cs None
                                       | _ => PAll cs None end) n /\
    pruns true (PRule p_part) (lit "[" ++ body ++ lit "]" ++ conds_text cs ++ rest) k
      (Ok (lit "[" ++ body ++ lit "]" ++ conds_text cs) [n] rest k).
Proof.
  intros (n1 & X1 & Hl & Hf) Hh F (Hr1 & Hr2 & Hr3) Hi.
  assert (Hs : head rest <> Some SP) by (eapply ends_no_space; [|exact Hr1]; cbn; intuition discriminate).
  destruct (conds_run cs rest k F Hr3 Hr2 Hs) as (ns & Hns & X2).
  destruct (cond_nodes _ _ Hns) as (vs & E1 & E2 & E3).
  eexists. split.
  2:{ apply (RRule path_grammar true p_part). cbn [path_grammar snd fst emit_in]. apply RAlt2.
      - apply RSeq1; [|reflexivity]. now apply lit1_no.
      - refine (RRule path_grammar true p_index _ _ _ _ _ _ _). cbn [path_grammar snd fst emit_in].
        eapply run_pseq; [exact (run_lit true (lit "[") _ k)|exact Hh| |reflexivity|reflexivity].
        eapply run_pseq; [exact X1|cbn; discriminate| |reflexivity|reflexivity].
        eapply run_pseq; [exact (run_lit true (lit "]") _ k)|now apply conds_head|exact X2|reflexivity|reflexivity]. }
  split; [reflexivity|]. cbn [wrap path_grammar fst app fold_node map]. rewrite Hl, Hf.
  destruct Hi as [->|[-> [l ->]]]; cbn [path_act has_ws existsb fst orb];
  fold (has_ws (map (fun c => (label c, fold_node path_act c)) ns)); rewrite E3;
  cbn [call_ cbind]; rewrite E1; cbn [cbind]; rewrite E2; cbn [or_err].
  - destruct v; reflexivity.
  - reflexivity.
Qed.

Lemma rest_after cs rest s : writes_rest rest s -> no_index_next cs rest -> after_conds cs s.
Proof.
  intros H Hn. unfold after_conds, ends_at.
  destruct H; cbn [no_index_next lit app head] in *.
  - repeat split; try discriminate; auto.
  - repeat split; try discriminate; try (intros _); right; do 2 eexists; (split; [reflexivity|cbn; tauto]).
  - destruct cs; [|contradiction]. repeat split; try discriminate; try congruence.
    right; do 2 eexists; (split; [reflexivity|cbn; tauto]).
  - destruct cs; [|contradiction]. repeat split; try discriminate; try congruence.
    right; do 2 eexists; (split; [reflexivity|cbn; tauto]).
Qed.

Lemma parts_run steps s : writes_rest steps s -> forall k,
  exists ns, Forall2 (fun st n => path_node p_part (step_path st) n) steps ns /\
    pruns true (PStar (PSeq p_skip (PRule p_part))) s k (Ok s ns [] k) /\
    pruns true (p_rep (PRule p_part)) s k (Ok s ns [] k).
Proof.
  assert (Combine : forall x s k n ns, head (x ++ s) <> Some SP ->
    pruns true (PRule p_part) (x ++ s) k (Ok x [n] s k) ->
    pruns true (PStar (PSeq p_skip (PRule p_part))) s k (Ok s ns [] k) ->
    pruns true (PStar (PSeq p_skip (PRule p_part))) (x ++ s) k (Ok (x ++ s) (n :: ns) [] k) /\
    pruns true (p_rep (PRule p_part)) (x ++ s) k (Ok (x ++ s) (n :: ns) [] k)).
  { intros x s0 k n ns Hh X1 X2. split.
    - refine (run_star true _ _ _ x [n] _ k s0 ns _ _ _ _ _ X2 eq_refl eq_refl).
      eapply run_seq; [now apply skip_none|exact X1|reflexivity|reflexivity].
    - apply ROpt1; [|discriminate]. eapply run_seq; [exact X1|exact X2|reflexivity|reflexivity]. }
  induction 1 as [|t cs rest s Ht F Hn Hw IH|ds cs rest s Hd Hb F Hn Hw IH|cs rest s F Hn Hw IH]; intros k.
  - exists []. split; [constructor|].
    assert (X : pruns true (PRule p_part) [] k Fail).
    { apply RRuleF; [|reflexivity]. apply RAlt2.
      - apply RSeq1; [apply lit1_nil|reflexivity].
      - apply RRuleF; [|reflexivity]. apply RSeq1; [apply lit1_nil|reflexivity]. }
    split.
    + apply RStar0. eapply RSeq2; [now apply skip_none|exact X|reflexivity].
    + apply ROpt2. apply RSeq1; [exact X|reflexivity].
  - destruct (IH k) as (ns & Hns & X & _).
    destruct (part_run_key t cs s k Ht F (rest_after cs rest s Hw Hn)) as (n & Hnode & X1).
    exists (n :: ns). split; [now constructor|].
    specialize (Combine (lit "." ++ t ++ conds_text cs) s k n ns). rewrite <- !app_assoc in Combine.
    apply Combine; [discriminate|exact X1|exact X].
  - destruct (IH k) as (ns & Hns & X & _).
    destruct (digits_run ds (conds_text cs ++ s) k Hd) as [nd Xd].
    destruct (part_run_idx ds p_index_number cs s k (PVIdx [N.to_nat (dec_value ds)])) as (n & Hnode & X1); auto.
    + eexists. split; [apply alt_run; exact Xd|]. split; [reflexivity|].
      cbn [fold_node path_act]. rewrite (parse_dec ds Hd Hb). do 3 f_equal. lia.
    + destruct Hd as [Hne Hd]. destruct ds as [|c ds]; [contradiction|]. cbn. intros E. inversion E; subst.
      specialize (Hd SP (or_introl eq_refl)). unfold SP in Hd. lia.
    + eapply rest_after; eauto.
    + right. split; [reflexivity|]. eauto.
    + exists (n :: ns). split; [now constructor|].
      specialize (Combine (lit "[" ++ ds ++ lit "]" ++ conds_text cs) s k n ns). rewrite <- !app_assoc in Combine.
      apply Combine; [discriminate|exact X1|exact X].
  - destruct (IH k) as (ns & Hns & X & _).
    destruct (part_run_idx (lit "*") p_index_all cs s k PVUnit) as (n & Hnode & X1); auto.
    + exists (Node p_index_all (lit "*") []). split; [|split; reflexivity].
      * apply RAlt2; [apply RRuleF; [|reflexivity]; apply RSeq1; [now constructor|reflexivity]|].
        refine (RRule path_grammar true p_index_all _ _ _ [] _ _ _). exact (run_lit true (lit "*") _ k).
    + discriminate.
    + eapply rest_after; eauto.
    + exists (n :: ns). split; [now constructor|].
      specialize (Combine (lit "[" ++ lit "*" ++ lit "]" ++ conds_text cs) s k n ns). rewrite <- !app_assoc in Combine.
      apply Combine; [discriminate|exact X1|exact X].
Qed.

Lemma part_nodes steps ns : Forall2 (fun st n => path_node p_part (step_path st) n) steps ns ->
  exists vs, call_ (map (fun c => (label c, fold_node path_act c)) ns) = CVal vs
             /\ parts_of vs = Some (map step_path steps)
             /\ has_ws (map (fun c => (label c, fold_node path_act c)) ns) = false.
Proof.
  induction 1 as [|st n cs ns [Hl Hf] _ (vs & E1 & E2 & E3)]; [exists []; auto|].
  exists ((p_part, PVPath (step_path st)) :: vs). cbn. rewrite Hl, Hf, E1. cbn. rewrite E2. repeat split. exact E3.
Qed.

Lemma insert_last st rest :
  fold_left path_insert (map step_path rest) (step_path st) = path_of (st :: rest).
Proof.
  assert (A : forall pre, pre <> [] ->
    fold_left path_insert (map step_path rest) (path_of pre) = path_of (pre ++ rest)).
  { induction rest as [|s rest IH]; intros pre Hp; cbn [map fold_left]; [now rewrite app_nil_r|].
    assert (B : path_insert (path_of pre) (step_path s) = path_of (pre ++ [s])).
    { clear IH. induction pre as [|x pre IHp]; [contradiction|].
      destruct pre as [|y pre].
      - destruct x; destruct s; reflexivity.
      - assert (C : y :: pre <> []) by discriminate. specialize (IHp C).
        destruct x; cbn [path_of app path_insert] in *; do 2 f_equal; exact IHp. }
    rewrite B, IH by (destruct pre; discriminate). now rewrite <- app_assoc. }
  specialize (A [st] ltac:(discriminate)). cbn [app] in A. rewrite <- A. now destruct st.
Qed.

Lemma parse_of_runs s t n rest k p :
  pruns true (PRule p_final_path) s [] (Ok t [n] rest k) ->
  fold_node path_act n = CVal (PVPath p) -> parse_path_res s = CVal p.
Proof.
  intros X Hf. unfold parse_path_res.
  destruct (rule_total path_grammar p_nul p_rank 7 64 path_grammar_ok p_final_path s [] ltac:(lia)) as [x E].
  fold (path_fuel s) in E. rewrite E. apply eval_sound in E.
  rewrite (runs_det _ _ _ _ _ _ _ E X). now rewrite Hf.
Qed.

Lemma parse_writes steps s : writes steps s -> parse_path_res s = CVal (path_of steps).
Proof.
  intros [t cs rest s' Ht F Hn Hw].
  destruct (key_run t cs s' [] Ht F (rest_after cs rest s' Hw Hn)) as (n & [Hl Hf] & X1).
  destruct (parts_run rest s' Hw []) as (ns & Hns & _ & X2).
  destruct (part_nodes _ _ Hns) as (vs & E1 & E2 & E3).
  assert (Hh : head s' <> Some SP).
  { destruct Hw; cbn; discriminate. }
  eapply parse_of_runs.
  - apply (RRule path_grammar true p_final_path). cbn [path_grammar snd fst emit_in].
    eapply run_pseq;
      [apply alt_run; apply (RRule path_grammar true p_path); cbn [path_grammar snd fst emit_in];
       eapply run_pseq; [exact X1|exact Hh|exact X2|reflexivity|reflexivity]
      |discriminate|exact (REOI path_grammar true p_eoi [])|reflexivity|reflexivity].
  - cbn [wrap path_grammar fst app fold_node map label]. rewrite Hl, Hf.
    cbn [path_act has_ws existsb fst orb].
    fold (has_ws (map (fun c => (label c, fold_node path_act c)) ns)). rewrite E3.
    cbn [call_ cbind]. rewrite E1. cbn [cbind]. rewrite E2. cbn [or_err cbind].
    rewrite <- (insert_last (SKey t cs) rest). reflexivity.
Qed.

Lemma parse_root cs : Forall cond_ok cs -> parse_path_res (conds_text cs) = CVal (PRoot cs).
Proof.
  intros F.
  destruct (conds_run cs [] [] F (fun _ => or_introl eq_refl) ltac:(discriminate) ltac:(discriminate))
    as (ns & Hns & X). rewrite app_nil_r in X.
  destruct (cond_nodes _ _ Hns) as (vs & E1 & E2 & E3).
  assert (Hh : head (conds_text cs) <> Some SP) by (destruct cs; cbn; discriminate).
  eapply parse_of_runs.
  - apply (RRule path_grammar true p_final_path). cbn [path_grammar snd fst emit_in].
    refine (run_pseq _ _ _ _ _ _ [] [] _ _ _ _ _ _ _ _ (REOI path_grammar true p_eoi []) eq_refl eq_refl); [|discriminate].
    apply RAlt2.
    + apply RRuleF; [|reflexivity]. apply RSeq1; [|reflexivity]. apply RRuleF; [|reflexivity].
      apply RSeq1; [|reflexivity]. apply RRuleF; [|reflexivity]. apply RSeq1; [|reflexivity].
      destruct key_items as (_ & A2 & A3). destruct cs as [|c cs]; [apply A3|].
      apply A2. cbn. tauto.
    + apply (RRule path_grammar true p_root). cbn [path_grammar snd fst emit_in].
      eapply run_pseq; [apply (RRule path_grammar true p_root_key); exact (run_lit true [] _ [])
                       |exact Hh|exact X|reflexivity|reflexivity].
  - cbn [wrap path_grammar fst app fold_node map label].
    cbn [path_act has_ws existsb fst orb].
    fold (has_ws (map (fun c => (label c, fold_node path_act c)) ns)). rewrite E3.
    cbn [call_ cbind]. rewrite E1. cbn [cbind]. rewrite E2. reflexivity.
Qed.

Lemma parse_single t : plain (lit "[].|") t -> parse_path t = Some (PKey t [] None).
Proof.
  intros Ht. unfold parse_path.
  assert (W : writes [SKey t []] (t ++ conds_text [] ++ [])) by (constructor; auto; constructor).
  cbn [conds_text flat_map] in W. rewrite !app_nil_r in W.
  now rewrite (parse_writes _ _ W).
Qed.

(** ---- keys never contain a separator (when there are no spaces) ---- *)

Ltac inv H := inversion H; subst; clear H.

Lemma seq_inv em a b s k t n s2 k2 : pruns em (PSeq a b) s k (Ok t n s2 k2) ->
  exists t1 n1 s1 k1 t2 n2, pruns em a s k (Ok t1 n1 s1 k1) /\ pruns em b s1 k1 (Ok t2 n2 s2 k2)
    /\ t = t1 ++ t2 /\ n = n1 ++ n2.
Proof. intros H. inv H; try discriminate. do 6 eexists. eauto. Qed.

Lemma rule_inv em r s k t n s2 k2 : pruns em (PRule r) s k (Ok t n s2 k2) ->
  exists ns, pruns (emit_in (fst (path_grammar r)) em) (snd (path_grammar r)) s k (Ok t ns s2 k2)
             /\ n = wrap (fst (path_grammar r)) em r t ns.
Proof. intros H. inv H; try discriminate. eauto. Qed.

(** Without spaces in the input the implicit whitespace matches nothing. *)
Lemma skip_inv s k t n s2 k2 : ~ In SP s -> pruns true p_skip s k (Ok t n s2 k2) -> t = [] /\ n = [] /\ s2 = s /\ k2 = k.
Proof.
  intros Hs H. assert (Hh : head s <> Some SP).
  { destruct s; cbn; [discriminate|]. intros X. inversion X; subst. apply Hs. now left. }
  pose proof (runs_det _ _ _ _ _ _ _ H (skip_none s k Hh)) as E. inversion E; auto.
Qed.

Lemma pseq_inv a b s k t n s2 k2 : ~ In SP s -> pruns true (p_seq a b) s k (Ok t n s2 k2) ->
  exists t1 n1 s1 k1 t2 n2, pruns true a s k (Ok t1 n1 s1 k1) /\ pruns true b s1 k1 (Ok t2 n2 s2 k2)
    /\ t = t1 ++ t2 /\ n = n1 ++ n2.
Proof.
  intros Hs H. apply seq_inv in H as (t1 & n1 & s1 & k1 & t2 & n2 & H1 & H & -> & ->).
  apply seq_inv in H as (t3 & n3 & s3 & k3 & t4 & n4 & H3 & H & -> & ->).
  assert (Hs1 : ~ In SP s1).
  { pose proof (runs_text _ _ _ _ _ _ H1 _ _ _ _ eq_refl) as E1. subst s. intros X. apply Hs. apply in_or_app. now right. }
  apply (skip_inv _ _ _ _ _ _ Hs1) in H3 as (-> & -> & -> & ->).
  do 6 eexists. eauto.
Qed.

Lemma suffix_no_sp em e s k t n s2 k2 : ~ In SP s -> pruns em e s k (Ok t n s2 k2) -> ~ In SP s2 /\ ~ In SP t.
Proof.
  intros Hs H. pose proof (runs_text _ _ _ _ _ _ H _ _ _ _ eq_refl) as E. subst s. split; intros X; apply Hs, in_or_app; auto.
Qed.

Lemma key_item_inv s k t n s2 k2 : ~ In SP s -> pruns true (PRule p_key_items) s k (Ok t n s2 k2) ->
  forall c, In c t -> ~ In c (lit "[].|").
Proof.
  intros Hs H c Hc Hb.
  assert (Ht : exists c', t = [c'] /\ exists s', s = c' :: s').
  { apply rule_inv in H as (ns & H & _). cbn [path_grammar snd fst emit_in] in H.
    apply pseq_inv in H as (t1 & n1 & s1 & k1 & t2 & n2 & H1 & H2 & -> & _); [|exact Hs].
    inv H2.
    inversion H1; subst. destruct r; try discriminate.
    match goal with H : _ = Ok _ _ _ _ |- _ => inversion H; subst end.
    eexists. split; [reflexivity|]. eexists. reflexivity. }
  destruct Ht as (c' & -> & s' & ->). destruct Hc as [<-|[]].
  destruct key_items as (_ & A2 & _).
  pose proof (runs_det _ _ _ _ _ _ _ H (A2 c' s' k Hb)). discriminate.
Qed.

Lemma pure_key_inv s k t n s2 k2 : ~ In SP s -> pruns true (PRule p_pure_key) s k (Ok t n s2 k2) ->
  (exists ns, n = [Node p_pure_key t ns]) /\ forall c, In c t -> ~ In c (lit "[].|").
Proof.
  intros Hs H. apply rule_inv in H as (ns & H & ->). split; [eexists; reflexivity|].
  cbn [path_grammar snd fst emit_in] in H. unfold p_plus in H.
  apply pseq_inv in H as (t1 & n1 & s1 & k1 & t2 & n2 & H1 & H2 & -> & _); [|exact Hs].
  destruct (suffix_no_sp _ _ _ _ _ _ _ _ Hs H1) as [Hs1 _].
  assert (St : forall e s k t n s2 k2, e = PStar (PSeq p_skip (PRule p_key_items)) ->
     pruns true e s k (Ok t n s2 k2) -> ~ In SP s -> forall c, In c t -> ~ In c (lit "[].|")).
  { clear. intros e s k t n s2 k2 Ee H. remember (Ok t n s2 k2) as x eqn:Ex. remember true as em eqn:Em.
    revert Ee t n s2 k2 Ex Em.
    induction H; intros Ee t' n' s2' k2' Ex Em Hs cc Hc; subst; try discriminate.
    - inversion Ex; subst. destruct Hc.
    - inversion Ex; subst. inversion Ee; subst.
      apply in_app_or in Hc as [Hc|Hc].
      + apply seq_inv in H as (u1 & m1 & r1 & q1 & u2 & m2 & G1 & G2 & -> & _).
        apply (skip_inv _ _ _ _ _ _ Hs) in G1 as (-> & -> & -> & ->).
        eapply key_item_inv; eauto.
      + eapply IHruns2; eauto. now apply (suffix_no_sp _ _ _ _ _ _ _ _ Hs H). }
  intros c Hc. apply in_app_or in Hc as [Hc|Hc]; [exact (key_item_inv _ _ _ _ _ _ Hs H1 c Hc)|].
  unfold p_rep in H2. inversion H2; subst; clear H2; [|destruct Hc].
  match goal with H : pruns true (PSeq _ _) _ _ _ |- _ =>
    apply seq_inv in H as (u1 & m1 & r1 & q1 & u2 & m2 & G1 & G2 & -> & _) end.
  apply in_app_or in Hc as [Hc|Hc]; [exact (key_item_inv _ _ _ _ _ _ Hs1 G1 c Hc)|].
  destruct (suffix_no_sp _ _ _ _ _ _ _ _ Hs1 G1) as [Hr1 _].
  exact (St _ _ _ _ _ _ _ eq_refl G2 Hr1 c Hc).
Qed.

Lemma insert_keeps_key ps : forall k cs nx, exists nx',
  fold_left path_insert ps (PKey k cs nx) = PKey k cs nx'.
Proof.
  induction ps as [|p ps IH]; intros k cs nx; cbn [fold_left]; [eauto|].
  cbn [path_insert]. destruct nx; apply IH.
Qed.

Lemma key_node_inv s k t n s2 k2 : ~ In SP s -> pruns true (PRule p_key) s k (Ok t n s2 k2) ->
  exists x, n = [x] /\ label x = p_key /\
    forall v, fold_node path_act x = CVal v ->
      exists key cs, v = PVPath (PKey key cs None) /\ forall c, In c key -> ~ In c (lit "[].|").
Proof.
  intros Hs H. apply rule_inv in H as (ns & H & ->). eexists. split; [reflexivity|]. split; [reflexivity|].
  cbn [path_grammar snd fst emit_in] in H.
  apply pseq_inv in H as (t1 & n1 & s1 & k1 & t2 & n2 & H1 & H2 & -> & ->); [|exact Hs].
  destruct (pure_key_inv _ _ _ _ _ _ Hs H1) as [[m ->] Hc].
  intros v. cbn [fold_node path_act map label app has_ws existsb fst orb].
  fold (has_ws (map (fun c => (label c, fold_node path_act c)) n2)).
  destruct (has_ws _); [discriminate|]. cbn [call_ cbind].
  destruct (call_ _) as [vs| |]; try discriminate. cbn [cbind].
  destruct (conds_of vs) as [cs|]; [|discriminate]. cbn [or_err].
  intros E. inversion E; subst. eauto.
Qed.

Lemma parse_path_runs s p : parse_path s = Some p ->
  exists t n rest k, pruns true (PRule p_final_path) s [] (Ok t [n] rest k) /\
    fold_node path_act n = CVal (PVPath p).
Proof.
  unfold parse_path, parse_path_res. generalize (path_fuel s) as f. intros f.
  destruct (eval path_grammar f true (PRule p_final_path) s []) as [x|] eqn:E; [|discriminate].
  apply eval_sound in E.
  destruct x as [t [|n [|n' ns]] rest k2| |]; try discriminate.
  destruct (fold_node path_act n) as [v| |] eqn:Ev; try discriminate.
  destruct v; try discriminate. intros X. inversion X; subst. do 4 eexists. eauto.
Qed.

Lemma path_node_inv s k t n s2 k2 : ~ In SP s -> pruns true (PRule p_path) s k (Ok t n s2 k2) ->
  exists x, n = [x] /\ label x = p_path /\ forall v, fold_node path_act x = CVal v ->
      exists key cs nx, v = PVPath (PKey key cs nx) /\ forall c, In c key -> ~ In c (lit "[].|").
Proof.
  intros Hs H. apply rule_inv in H as (m & G & ->). eexists. split; [reflexivity|]. split; [reflexivity|].
  cbn [path_grammar snd fst emit_in] in G.
  apply pseq_inv in G as (u1 & m1 & r1 & q1 & u2 & m2 & G1 & G2 & -> & ->); [|exact Hs].
  destruct (key_node_inv _ _ _ _ _ _ Hs G1) as (x & -> & Hl & Hx).
  intros v. cbn [app fold_node map]. rewrite Hl. cbn [path_act].
  destruct (has_ws _); [discriminate|]. cbn [call_].
  destruct (fold_node path_act x) as [v'| |] eqn:Ev; try discriminate.
  destruct (Hx v' eq_refl) as (key & cs' & -> & Hc). cbn [cbind].
  destruct (call_ _) as [vs| |]; try discriminate. cbn [cbind].
  destruct (parts_of vs) as [ps|]; [|discriminate]. cbn [or_err].
  destruct (insert_keeps_key ps key cs' None) as [nx' En]. rewrite En.
  intros X. inversion X; subst. do 3 eexists. split; [reflexivity|exact Hc].
Qed.

Lemma root_node_inv s k t n s2 k2 : ~ In SP s -> pruns true (PRule p_root) s k (Ok t n s2 k2) ->
  exists x, n = [x] /\ label x = p_root /\ forall v, fold_node path_act x = CVal v -> exists cs, v = PVPath (PRoot cs).
Proof.
  intros Hs H. apply rule_inv in H as (m & G & ->). eexists. split; [reflexivity|]. split; [reflexivity|].
  cbn [path_grammar snd fst emit_in] in G.
  apply pseq_inv in G as (u1 & m1 & r1 & q1 & u2 & m2 & G1 & G2 & -> & ->); [|exact Hs].
  apply rule_inv in G1 as (m & _ & ->).
  intros v. cbn [app fold_node map wrap path_grammar fst label path_act].
  destruct (has_ws _); [discriminate|]. cbn [call_ cbind].
  destruct (call_ _) as [vs| |]; try discriminate. cbn [cbind].
  destruct (conds_of vs) as [cs|]; [|discriminate]. cbn [or_err].
  intros X. inversion X; subst. eauto.
Qed.

Lemma parse_key_clean s k cs nx : ~ In SP s -> parse_path s = Some (PKey k cs nx) ->
  forall c, In c k -> ~ In c (lit "[].|").
Proof.
  intros Hs H. apply parse_path_runs in H as (t & n & rest & k0 & E & H).
  apply rule_inv in E as (ns & E & Ew). cbn [path_grammar snd fst emit_in wrap] in E, Ew.
  inversion Ew; subst. clear Ew.
  apply pseq_inv in E as (t1 & n1 & s1 & k1 & t2 & n2 & H1 & H2 & -> & ->); [|exact Hs].
  assert (N2 : n2 = [Node p_eoi [] []]) by (inversion H2; reflexivity). subst n2. clear H2.
  inversion H1; subst; clear H1.
  - match goal with H : pruns true (PRule p_path) _ _ _ |- _ =>
      apply (path_node_inv _ _ _ _ _ _ Hs) in H as (x & -> & Hl & Hx) end.
    revert H. cbn [app fold_node map]. rewrite Hl. cbn [path_act].
    destruct (has_ws _); [discriminate|]. cbn [call_].
    destruct (fold_node path_act x) as [v'| |]; try discriminate.
    destruct (Hx v' eq_refl) as (key & cs' & nx' & -> & Hc). cbn [cbind call_ label].
    intros X. inversion X; subst. exact Hc.
  - match goal with H : pruns true (PRule p_root) _ _ _ |- _ =>
      apply (root_node_inv _ _ _ _ _ _ Hs) in H as (x & -> & Hl & Hx) end.
    revert H. cbn [app fold_node map]. rewrite Hl. cbn [path_act].
    destruct (has_ws _); [discriminate|]. cbn [call_].
    destruct (fold_node path_act x) as [v'| |]; try discriminate.
    destruct (Hx v' eq_refl) as (cs' & ->). cbn [cbind call_ label]. discriminate.
Qed.

Lemma parse_not_single t : ~ In SP t -> (exists c, In c t /\ In c (lit "[].|")) ->
  parse_path t <> Some (PKey t [] None).
Proof. intros Hs (c & Hc & Hb) E. exact (parse_key_clean t t [] None Hs E c Hc Hb). Qed.

(** ---- termination ---- *)

Lemma path_typed r : rule_typed path_grammar (fun _ => 0) r = true.
Proof. destruct r; vm_compute; reflexivity. Qed.

Lemma path_decides s : exists x, pruns true (PRule p_final_path) s [] x /\ x <> Crash /\
  (forall x', pruns true (PRule p_final_path) s [] x' -> x' = x) /\
  (x = Fail -> parse_path_res s = CErr) /\
  (forall t n rest k, x = Ok t [n] rest k -> forall p, fold_node path_act n = CVal (PVPath p) -> parse_path_res s = CVal p).
Proof.
  destruct (rule_total path_grammar p_nul p_rank 7 64 path_grammar_ok p_final_path s [] ltac:(lia)) as [x E].
  exists x. pose proof (eval_sound _ _ _ _ _ _ _ E) as H. repeat split.
  - exact H.
  - pose proof (rule_stack path_grammar (fun _ => 0) path_typed true p_final_path s [] x ltac:(cbn; lia) H) as S.
    intros ->. exact S.
  - intros x' H'. exact (runs_det _ _ _ _ _ _ _ H' H).
  - intros ->. unfold parse_path_res. fold (path_fuel s) in E. now rewrite E.
  - intros t n rest k -> p Hp. eapply parse_of_runs; eauto.
Qed.

(** ---- packaged for the property file ---- *)

Lemma parse_path_writes steps s : writes steps s -> parse_path s = Some (path_of steps).
Proof. intros H. unfold parse_path. now rewrite (parse_writes _ _ H). Qed.

Lemma parse_path_root cs : Forall cond_ok cs -> parse_path (conds_text cs) = Some (PRoot cs).
Proof. intros H. unfold parse_path. now rewrite (parse_root _ H). Qed.

Lemma plain_b bad t : t <> [] -> forallb (fun c => negb (existsb (ceqb c) bad)) t = true ->
  head t <> Some SP -> head (rev t) <> Some SP -> plain bad t.
Proof.
  intros H1 H2 H3 H4. repeat split; [exact H1| | |].
  - intros c Hc Hb. rewrite forallb_forall in H2. specialize (H2 c Hc). apply negb_true_iff in H2.
    assert (X : existsb (ceqb c) bad = true).
    { apply existsb_exists. exists c. split; [exact Hb|apply ceqb_refl]. }
    congruence.
  - intros r ->. now apply H3.
  - intros r ->. rewrite rev_app_distr in H4. now apply H4.
Qed.

Lemma plain_example : plain (lit "[].|") (lit "first name-2").
Proof. apply plain_b; vm_compute; congruence. Qed.

Lemma cond_then_index : exists k c i, cond_ok c /\ plain (lit "[].|") k /\
    parse_path (k ++ cond_text c ++ lit "[" ++ [(48 + N.of_nat i)%N] ++ lit "]")
      <> Some (path_of [SKey k [c]; SIdx i []]).
Proof.
  exists (lit "a"), (mkC (lit "b") (lit "c")), 1. split; [split; apply plain_b; vm_compute; congruence|].
  split; [apply plain_b; vm_compute; congruence|]. vm_compute. discriminate.
Qed.

Lemma space_dot : exists name, In (chr ".") name /\ parse_path name = Some (PKey name [] None).
Proof. exists (lit " .a"). split; [cbn; tauto|vm_compute; reflexivity]. Qed.

Lemma empty_root : parse_path_res [] = CVal (PRoot []).
Proof. vm_compute. reflexivity. Qed.

Lemma huge_index : exists s, parse_path_res s = CPanic.
Proof. exists (lit "a[99999999999999999999]"). vm_compute. reflexivity. Qed.
