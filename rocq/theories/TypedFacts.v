(** What the deserializer returns for nodes without references. *)
From Coq Require Import ZArith Permutation.
From Verif Require Import Base Ast Strings Format Num Pretty Ser De Spec_Pretty Spec_Serde Spec_Look
  SerdeFacts SerdeFacts2 LookFacts Spec_Typed.
Import ListNotations.

(** ---- floats ---- *)

Lemma is_digit_iff c : is_digit c = true <-> (48 <= c <= 57)%N.
Proof. unfold is_digit. rewrite andb_true_iff, !N.leb_le. tauto. Qed.
Lemma all_digits_b s : all_digits s <-> forallb is_digit s = true.
Proof.
  rewrite forallb_forall. unfold all_digits. split; intros H c Hc.
  - apply is_digit_iff, H, Hc.
  - apply is_digit_iff, H, Hc.
Qed.
Lemma digits_split s : exists ds, s = ds ++ skip_digits s /\ all_digits ds /\ starts_digit (skip_digits s) = false /\
  (starts_digit s = false <-> ds = []).
Proof.
  induction s as [|c s (ds & E & D & N & Z)].
  - exists []. cbn. split; [reflexivity|]. split; [intros c []|]. tauto.
  - cbn [skip_digits starts_digit]. destruct (is_digit c) eqn:C.
    + exists (c :: ds). cbn. rewrite <- E. split; [reflexivity|].
      split; [intros x [<-|Hx]; [now apply is_digit_iff|now apply D]|]. split; [exact N|]. split; discriminate.
    + exists []. cbn. rewrite C. split; [reflexivity|]. split; [intros x []|]. tauto.
Qed.
Lemma digits_all s : digits s <-> s <> [] /\ all_digits s.
Proof. reflexivity. Qed.
Lemma lower_map s : map lower s = lower_word s.
Proof. reflexivity. Qed.
Lemma skip_all ds r : all_digits ds -> starts_digit r = false -> skip_digits (ds ++ r) = r.
Proof.
  intros D N. rewrite skip_digits_app by now apply all_digits_b.
  destruct r as [|c r]; [reflexivity|]. cbn in *. now rewrite N.
Qed.
Lemma starts_all ds r : all_digits ds -> ds <> [] -> starts_digit (ds ++ r) = true.
Proof. intros D N. apply starts_digit_app. split; assumption. Qed.

Lemma sign_skip s : exists sg, s = sg ++ skip_sign s /\ sign sg.
Proof.
  destruct s as [|c s]; [exists []; split; [reflexivity|now left]|]. cbn [skip_sign].
  destruct (ceqb c (chr "+")) eqn:P; [apply ceqb_eq in P; subst; exists (lit "+"); split; [reflexivity|right; now left]|].
  destruct (ceqb c (chr "-")) eqn:M; [apply ceqb_eq in M; subst; exists (lit "-"); split; [reflexivity|right; now right]|].
  cbn [orb]. exists []. split; [reflexivity|now left].
Qed.
Lemma skip_sign_app sg r : sign sg -> (sg = [] -> forall c r', r = c :: r' -> c <> chr "+" /\ c <> chr "-") -> skip_sign (sg ++ r) = r.
Proof.
  intros [->|[->| ->]] H; try reflexivity. cbn. destruct r as [|c r]; [reflexivity|].
  destruct (H eq_refl c r eq_refl) as [P M]. cbn [skip_sign].
  apply ceqb_neq in P, M. now rewrite P, M.
Qed.

Lemma exp_spec r : exp_ok r = true <->
  (r = [] \/ exists e sg ds, r = e :: sg ++ ds /\ (e = chr "e" \/ e = chr "E") /\ sign sg /\ digits ds).
Proof.
  destruct r as [|c r]; cbn [exp_ok]; [intuition|]. rewrite !andb_true_iff. split.
  - intros (E & S & N). right. destruct (sign_skip r) as (sg & R & Sg).
    destruct (digits_split (skip_sign r)) as (ds & D & A & _ & Z).
    exists c, sg, ds. destruct (skip_digits (skip_sign r)) as [|x y] eqn:K; [|discriminate].
    rewrite app_nil_r in D. split; [|split; [|split; [|split]]].
    + rewrite R at 1. now rewrite D.
    + unfold ceqb in E. apply N.eqb_eq in E. unfold lower in E. change (chr "e") with 101%N in *. change (chr "E") with 69%N in *.
      destruct ((65 <=? c)%N && (c <=? 90)%N) eqn:Q; [right|left; exact E].
      apply andb_true_iff in Q. rewrite !N.leb_le in Q. lia.
    + exact Sg.
    + intros ->. rewrite D in S. discriminate.
    + exact A.
  - intros [H|(e & sg & ds & H & E & Sg & D)]; [discriminate|]. injection H as -> ->.
    split; [destruct E as [->| ->]; reflexivity|].
    rewrite skip_sign_app; [|exact Sg|].
    + destruct D as [D1 D2]. split.
      * rewrite <- (app_nil_r ds). now apply starts_all.
      * rewrite <- (app_nil_r ds), skip_all; [reflexivity|exact D2|reflexivity].
    + intros _ c r' ->. destruct D as [_ D]. specialize (D c (or_introl eq_refl)).
      split; intros ->; cbn in D; lia.
Qed.

Lemma number_spec r : number_ok r = true <->
  exists whole frac ex, r = whole ++ frac ++ ex /\ all_digits whole /\
       ((frac = [] /\ whole <> []) \/
        exists fs, frac = chr "." :: fs /\ all_digits fs /\ (whole <> [] \/ fs <> [])) /\
       (ex = [] \/ exists e sg' ds, ex = e :: sg' ++ ds /\ (e = chr "e" \/ e = chr "E") /\ sign sg' /\ digits ds).
Proof.
  split.
  - intros H. destruct (digits_split r) as (w & R & W & N & Z). unfold number_ok in H.
    destruct (skip_digits r) as [|c k] eqn:K.
    + exists w, [], []. rewrite !app_nil_r in *. split; [exact R|]. split; [exact W|]. split; [|now left]. left. split; [reflexivity|].
      intros ->. subst r. discriminate.
    + destruct (ceqb c (chr ".")) eqn:C.
      * apply ceqb_eq in C. subst c. apply andb_true_iff in H as [H E].
        destruct (digits_split k) as (fs & F & FD & _ & FZ). apply exp_spec in E.
        exists w, (chr "." :: fs), (skip_digits k). split; [|split; [exact W|split; [|exact E]]].
        -- rewrite R. f_equal. cbn. now rewrite <- F.
        -- right. exists fs. split; [reflexivity|]. split; [exact FD|]. apply orb_true_iff in H as [H|H].
           ++ left. intros Q. apply Z in Q. congruence.
           ++ right. intros Q. apply FZ in Q. congruence.
      * apply andb_true_iff in H as [H E]. apply exp_spec in E. exists w, [], (c :: k). split; [exact R|]. split; [exact W|]. split; [|exact E].
        left. split; [reflexivity|]. intros Q. apply Z in Q. congruence.
  - intros (w & f & ex & -> & W & F & X).
    assert (XN : starts_digit ex = false).
    { destruct X as [->|(e & sg & ds & -> & [->| ->] & _)]; reflexivity. }
    assert (XP : forall k c, ex = c :: k -> ceqb c (chr ".") = false).
    { destruct X as [->|(e & sg & ds & -> & E & _)]; [discriminate|]. intros k c Q. injection Q as -> _.
      destruct E as [->| ->]; reflexivity. }
    pose proof (proj2 (exp_spec ex) X) as XE. unfold number_ok.
    destruct F as [[-> WN]|(fs & -> & FD & NE)].
    + cbn [app]. rewrite skip_all by assumption.
      destruct ex as [|c k]; [rewrite app_nil_r, <- (app_nil_r w); now apply starts_all|].
      rewrite (XP k c eq_refl), starts_all by assumption. exact XE.
    + rewrite skip_all; [|exact W|reflexivity]. cbn [app]. change (ceqb (chr ".") (chr ".")) with true. cbn iota.
      rewrite skip_all by assumption. rewrite XE, andb_true_r. apply orb_true_iff.
      destruct NE as [NE|NE]; [left|right]; now apply starts_all.
Qed.

Lemma float_spec s : parse_f64_ok s = true <-> float_literal s.
Proof.
  unfold parse_f64_ok. rewrite !orb_true_iff, lower_map, !seqb_eq. split.
  - intros H. destruct (sign_skip s) as (sg & E & Sg). exists sg, (skip_sign s). split; [exact E|]. split; [exact Sg|].
    destruct H as [[[H|H]|H]|H]; [left|left|left|right]; [rewrite H; cbn; auto..|]. now apply number_spec.
  - intros (sg & r & -> & Sg & H).
    assert (K : skip_sign (sg ++ r) = r).
    { apply skip_sign_app; [exact Sg|]. intros -> c r' ->. destruct H as [H|(w & f & ex & E & W & F & X)].
      - cbn [In lower_word map] in H. split; intros ->; cbn in H; intuition discriminate.
      - destruct w as [|x w].
        + destruct F as [[_ F]|(fs & -> & _)]; [contradiction|]. injection E as -> _. split; discriminate.
        + injection E as -> _. specialize (W x (or_introl eq_refl)). split; intros ->; cbn in W; lia. }
    rewrite K. destruct H as [[H|[H|[H|[]]]]|H]; [left; left; left|left; left; right|left; right|right]; auto.
    now apply number_spec.
Qed.
