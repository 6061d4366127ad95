(** C84: plain scalars under the core schema of YAML 1.2. *)
From Coq Require Import ZArith.
From Verif Require Import Base Ast Num Ser De Spec_Serde Spec_Look Spec_Typed Spec_Ser ExactSerFacts Spec_Core CoreFacts.
Import ListNotations.

(** The schema gives every text exactly one meaning. *)
Theorem C84_one : forall s, exists m, core s m /\ forall n, core s n -> n = m.
Proof. exact (fun s => match core_all s with ex_intro _ m H => ex_intro _ m (conj H (fun n K => core_one s n m K H)) end). Qed.
Print Assumptions C84_one.

(** The untyped reader gives a word that meaning, *)
Theorem C84_same : forall s m, ~ only_yaml s -> ~ only_rust s -> ~ too_long s -> (core s m <-> taken (any_unquoted s) m).
Proof. exact core_taken. Qed.
Print Assumptions C84_same.
Example C84_same_ex : core (lit "-017") (MInt (-17)) /\ core (lit ".5e+3") (MFloat (lit ".5e+3")) /\ core (lit "yes") (MText (lit "yes")) /\
  core (lit "Null") MNull /\ core (lit "1_000") (MText (lit "1_000")).
Proof.
  assert (B : forall s, (match s with c :: _ :: _ => negb (ceqb c (chr "0")) | _ => true end)%bool = true -> forall z, ~ based s z).
  { intros s H z Z. destruct (based_start s z Z) as (a & r & -> & _). discriminate H. }
  assert (Y : forall s, (match s with c :: _ :: _ => negb (ceqb c (chr "0")) | _ => true end)%bool = true ->
    existsb (seqb s) (([[]; lit "True"; lit "TRUE"; lit "False"; lit "FALSE"] ++ nans) ++ signed_infs) = false -> ~ only_yaml s).
  { intros s H E. assert (N : ~ In s (([[]; lit "True"; lit "TRUE"; lit "False"; lit "FALSE"] ++ nans) ++ signed_infs)).
    { intros I. assert (T : existsb (seqb s) (([[]; lit "True"; lit "TRUE"; lit "False"; lit "FALSE"] ++ nans) ++ signed_infs) = true); [|congruence].
      apply existsb_exists. exists s. split; [exact I|now apply seqb_eq]. }
    intros [K|[(z & K)|(sg & r & -> & S & K)]]; [apply N, in_or_app; now left|exact (B s H z K)|]. apply N, in_or_app. right. now apply inf_in. }
  assert (R : forall s, existsb (fun g => existsb (fun v => seqb (lower_word s) (g ++ v)) [lit "inf"; lit "infinity"; lit "nan"]) [[]; lit "+"; lit "-"] = false -> ~ only_rust s).
  { intros s E (sg & r & -> & S & W). assert (T : existsb (fun g => existsb (fun v => seqb (lower_word (sg ++ r)) (g ++ v)) [lit "inf"; lit "infinity"; lit "nan"]) [[]; lit "+"; lit "-"] = true); [|congruence].
    apply existsb_exists. exists sg. split; [destruct S as [->|[->| ->]]; cbn; auto|]. apply existsb_exists. exists (lower_word r). split; [exact W|].
    apply seqb_eq. unfold lower_word. rewrite map_app. f_equal. destruct S as [->|[->| ->]]; reflexivity. }
  assert (L : forall s, parse_i64 s <> None \/ parse_f64_ok s = false \/ existsb (ceqb (chr ".")) s = true -> ~ too_long s).
  { intros s C (z & Z & I & _). destruct C as [C|[C|C]].
    - destruct (parse_i64 s) as [z'|] eqn:E; [|easy]. apply ToldFacts.i64_parse in E as [E F]. apply base10_decimal in Z. now rewrite (AttrFacts11.decimal_inj _ _ _ _ E Z) in F.
    - apply base10_float in Z. assert (F : float_literal s) by (apply literal_cases; now right). apply TypedFacts.float_spec in F. congruence.
    - apply existsb_exists in C as (c & J & E). unfold ceqb in E. apply N.eqb_eq in E. subst c. destruct Z as (sg & ds & -> & S & [_ D] & _).
      apply in_app_iff in J as [J|J]; [destruct S as [->|[->| ->]]; cbn in J; intuition discriminate|]. apply D in J. destruct J as [J _]. now apply J. }
  repeat split; (apply C84_same; [apply Y; reflexivity|apply R; reflexivity|apply L; first [left; discriminate|right; left; reflexivity|right; right; reflexivity]|reflexivity]).
Qed.

(** and otherwise: text instead of a bool, a number or nothing; a float instead of text; a float
    instead of an integer. *)
Theorem C84_only_yaml : forall s, only_yaml s -> any_unquoted s = AnStr s /\ ~ core s (MText s).
Proof. exact yaml_text. Qed.
Print Assumptions C84_only_yaml.
Theorem C84_only_rust : forall s, only_rust s -> any_unquoted s = AnF64 s /\ core s (MText s).
Proof. exact rust_float. Qed.
Print Assumptions C84_only_rust.
Theorem C84_too_long : forall s, too_long s -> any_unquoted s = AnF64 s /\ exists z, core s (MInt z).
Proof. exact long_float. Qed.
Print Assumptions C84_too_long.
Lemma ex_based : based (lit "0x1F") 31.
Proof.
  exists (lit "1F"), 31%N. split; [reflexivity|]. right. split; [reflexivity|].
  apply (NI2 16 (lit "1") 1 (chr "F") 15); [apply NI1|]; (split; [|reflexivity]).
  - left. split; [split; discriminate|reflexivity].
  - right. right. split; [split; discriminate|reflexivity].
Qed.
Example C84_only_yaml_ex : any_unquoted (lit "0x1F") = AnStr (lit "0x1F") /\ core (lit "0x1F") (MInt 31).
Proof.
  split; [apply C84_only_yaml; right; left; exists 31%Z; exact ex_based|]. apply KInt. right. exact ex_based.
Qed.
Example C84_only_rust_ex : only_rust (lit "-Infinity").
Proof. exists (lit "-"), (lit "Infinity"). split; [reflexivity|]. split; [right; now right|]. right. now left. Qed.
Example C84_too_long_ex : too_long (lit "18446744073709551616").
Proof.
  exists 18446744073709551616%Z. split; [|split; intros [H1 H2]; cbn in *; now apply H2 || discriminate].
  exists [], (lit "18446744073709551616"). split; [reflexivity|]. split; [now left|]. split; [|reflexivity].
  split; [discriminate|]. intros c I. vm_compute in I. repeat (destruct I as [<-|I]; [split; discriminate|]). destruct I.
Qed.

(** What the serializer writes for integers, bools and nothing has the meaning meant. *)
Theorem C84_written : (forall k z, exists s, ser (SInt k z) = Some (Unquoted s) /\ core s (MInt z)) /\
  (forall b, exists s, ser (SBool b) = Some (Unquoted s) /\ core s (MBool b)) /\
  (forall v, In v [SNone; SUnit; SUnitStruct] -> exists s, ser v = Some (Unquoted s) /\ core s MNull) /\
  (forall x, finite x -> exists s m, ser (SFloat x) = Some (Unquoted s) /\ core s m /\ (m = MFloat x \/ exists z, m = MInt z)).
Proof.
  split; [exact (fun k z => ex_intro _ (show_Z z) (conj eq_refl (show_core z)))|]. split; [|split].
  - intros [|]; eexists; (split; [reflexivity|]); [apply KTrue|apply KFalse]; cbn; auto.
  - intros v I. exists (lit "~"). split; [|apply KNull; cbn; intuition]. destruct I as [<-|[<-|[<-|[]]]]; reflexivity.
  - intros x F. exists x. destruct (finite_core x F) as [H|(z & H)]; eexists; (split; [reflexivity|]; split; [exact H|]); eauto.
Qed.
Print Assumptions C84_written.
Example C84_written_ex : finite (lit "-12.50").
Proof.
  split; [|intros [H|[H|[H|[]]]]; discriminate]. do 3 right. exists (lit "-"), (lit "12"), (lit ".50"). split; [reflexivity|]. split; [now right|].
  assert (D : forall s, s <> [] -> forallb is_digit s = true -> digits s).
  { intros s N H. split; [exact N|]. intros c I. rewrite forallb_forall in H. apply H in I. unfold is_digit in I. apply andb_true_iff in I as [I1 I2].
    apply N.leb_le in I1, I2. now split. }
  split; [apply D; [discriminate|reflexivity]|]. right. exists (lit "50"). split; [reflexivity|]. apply D; [discriminate|reflexivity].
Qed.
(** A text that is written without quotes is a text, with exactly these exceptions. *)
Theorem C84_text : forall s, ser (SStr s) = Some (Unquoted s) -> (core s (MText s) <-> ~ only_yaml s /\ ~ In s [lit "Null"; lit "NULL"]).
Proof.
  intros s H. apply text_core. apply plain_b. cbn in H. unfold str_to_yaml in H.
  destruct (negb (needs_quoting s)); [reflexivity|]. destruct (negb (has_char NL s) && negb (has_char CR s))%bool; [|discriminate].
  destruct (has_char QUOTE s && negb (has_char DQUOTE s))%bool; discriminate.
Qed.
Print Assumptions C84_text.
Theorem C84_text_refuted : exists a b c d, Forall (fun s => ser (SStr s) = Some (Unquoted s)) [a; b; c; d] /\
  core a MNull /\ core b (MBool true) /\ core c (MInt 31) /\ core d MNan.
Proof.
  exists (lit "Null"), (lit "True"), (lit "0x1F"), (lit ".nan"). split; [repeat constructor|].
  split; [apply KNull; cbn; auto|]. split; [apply KTrue; cbn; auto|]. split; [apply KInt; right; exact ex_based|]. apply KNan. cbn. auto.
Qed.
Print Assumptions C84_text_refuted.
(** Infinity and NaN are written as YAML texts. *)
Theorem C84_infinity_refuted : exists x y, float_text x /\ float_text y /\
  ser (SFloat x) = Some (Unquoted x) /\ core x (MText x) /\ ser (SFloat y) = Some (Unquoted y) /\ core y (MText y).
Proof.
  exists (lit "inf"), (lit "NaN"). split; [right; now left|]. split; [now left|]. split; [reflexivity|]. split.
  { apply C84_only_rust. exists [], (lit "inf"). split; [reflexivity|]. split; [now left|]. now left. }
  split; [reflexivity|]. apply C84_only_rust. exists [], (lit "NaN"). split; [reflexivity|]. split; [now left|]. right. right. now left.
Qed.
Print Assumptions C84_infinity_refuted.
