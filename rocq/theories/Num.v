(** Numbers as the Rust standard library reads and writes them.

    This file models the std functions the crate calls ([str::parse] for the
    integer types and for f64, [ToString] for integers):
    /repo/src/yaml/deserializer.rs 159-166, 231, 250, 263;
    /repo/src/yaml/mod.rs 592; /repo/src/yaml/serializer.rs 178-207;
    /repo/src/path.rs 35.
    The value of a float is not modelled, only which texts are accepted. *)
From Coq Require Import ZArith Decimal DecimalN DecimalFacts.
From Verif Require Import Base.
Import ListNotations.

Definition is_digit (c : char) : bool := (48 <=? c)%N && (c <=? 57)%N.

(** Conversion between digit characters and stdlib decimal numbers. *)
Definition cons_digit (c : char) (u : uint) : option uint :=
  if ceqb c 48%N then Some (D0 u) else if ceqb c 49%N then Some (D1 u)
  else if ceqb c 50%N then Some (D2 u) else if ceqb c 51%N then Some (D3 u)
  else if ceqb c 52%N then Some (D4 u) else if ceqb c 53%N then Some (D5 u)
  else if ceqb c 54%N then Some (D6 u) else if ceqb c 55%N then Some (D7 u)
  else if ceqb c 56%N then Some (D8 u) else if ceqb c 57%N then Some (D9 u)
  else None.

Fixpoint str_uint (s : str) : option uint :=
  match s with
  | [] => Some Nil
  | c :: s' => match str_uint s' with Some u => cons_digit c u | None => None end
  end.

Fixpoint uint_str (u : uint) : str :=
  match u with
  | Nil => []
  | D0 u => 48%N :: uint_str u | D1 u => 49%N :: uint_str u
  | D2 u => 50%N :: uint_str u | D3 u => 51%N :: uint_str u
  | D4 u => 52%N :: uint_str u | D5 u => 53%N :: uint_str u
  | D6 u => 54%N :: uint_str u | D7 u => 55%N :: uint_str u
  | D8 u => 56%N :: uint_str u | D9 u => 57%N :: uint_str u
  end.

(** A nonempty run of ASCII digits, as a natural number. *)
Definition parse_digits (s : str) : option N :=
  match s with
  | [] => None
  | _ => option_map N.of_uint (str_uint s)
  end.

Definition show_N (n : N) : str := uint_str (N.to_uint n).

(** [i64::to_string] and friends. *)
Definition show_Z (z : Z) : str :=
  if (z <? 0)%Z then chr "-" :: show_N (Z.abs_N z) else show_N (Z.to_N z).

(** [<int>::from_str]: optional "+" (and "-" for signed types), at least one
    digit, value within [lo, hi]. *)
Definition parse_int (signed : bool) (lo hi : Z) (s : str) : option Z :=
  let '(neg, ds) :=
    match s with
    | c :: r => if ceqb c (chr "+") then (false, r)
                else if signed && ceqb c (chr "-") then (true, r)
                else (false, s)
    | [] => (false, s)
    end in
  match parse_digits ds with
  | None => None
  | Some n =>
      let z := if neg then (- Z.of_N n)%Z else Z.of_N n in
      if ((lo <=? z)%Z && (z <=? hi)%Z)%bool then Some z else None
  end.

Definition i64_min : Z := (- 9223372036854775808)%Z.
Definition i64_max : Z := 9223372036854775807%Z.
Definition u64_max : Z := 18446744073709551615%Z.

Definition parse_i64 : str -> option Z := parse_int true i64_min i64_max.
Definition parse_u64 : str -> option Z := parse_int false 0 u64_max.

(** [usize::from_str] on a 64-bit target (path.rs 35, parser.rs block scalar
    indentation indicator). *)
Definition parse_usize : str -> option Z := parse_u64.

(** ---- f64 ---- *)

Fixpoint skip_digits (s : str) : str :=
  match s with
  | c :: s' => if is_digit c then skip_digits s' else s
  | [] => []
  end.

Definition starts_digit (s : str) : bool :=
  match s with c :: _ => is_digit c | [] => false end.

(** ASCII lower case. *)
Definition lower (c : char) : char :=
  if (65 <=? c)%N && (c <=? 90)%N then (c + 32)%N else c.

(** Optional sign. *)
Definition skip_sign (s : str) : str :=
  match s with
  | c :: r => if ceqb c (chr "+") || ceqb c (chr "-") then r else s
  | [] => s
  end.

(** Exp ::= 'e' Sign? Digit+, to the end of the text. *)
Definition exp_ok (s : str) : bool :=
  match s with
  | [] => true
  | c :: r => ceqb (lower c) (chr "e") &&
              (let r' := skip_sign r in starts_digit r' && is_nil (skip_digits r'))
  end.

(** Number ::= ( Digit+ | Digit+ '.' Digit* | Digit* '.' Digit+ ) Exp? *)
Definition number_ok (s : str) : bool :=
  let r := skip_digits s in
  match r with
  | c :: r' =>
      if ceqb c (chr ".") then (starts_digit s || starts_digit r') && exp_ok (skip_digits r')
      else starts_digit s && exp_ok r
  | [] => starts_digit s
  end.

(** Texts accepted by [f64::from_str] (std documentation of dec2flt):
    Float ::= Sign? ( 'inf' | 'infinity' | 'nan' | Number ), letters in any case. *)
Definition parse_f64_ok (s : str) : bool :=
  let r := skip_sign s in
  let l := map lower r in
  seqb l (lit "inf") || seqb l (lit "infinity") || seqb l (lit "nan") || number_ok r.

(** ---- facts ---- *)

Lemma str_uint_str u : str_uint (uint_str u) = Some u.
Proof. induction u; cbn; try rewrite IHu; reflexivity. Qed.

Lemma show_N_ne n : show_N n <> [].
Proof.
  unfold show_N. destruct (N.to_uint n) eqn:E; cbn; try discriminate.
  pose proof (Unsigned.of_to n) as H. rewrite E in H. cbn in H. subst n. discriminate.
Qed.

Lemma parse_show_N n : parse_digits (show_N n) = Some n.
Proof.
  unfold parse_digits. pose proof (show_N_ne n) as H.
  destruct (show_N n) eqn:E; [congruence|]. rewrite <- E. unfold show_N.
  rewrite str_uint_str. cbn. now rewrite Unsigned.of_to.
Qed.

Lemma uint_str_digits u : forallb is_digit (uint_str u) = true.
Proof. induction u; cbn; auto. Qed.

Lemma show_N_digits n : forallb is_digit (show_N n) = true.
Proof. apply uint_str_digits. Qed.

Lemma digit_not_sign c : is_digit c = true -> ceqb c (chr "+") = false /\ ceqb c (chr "-") = false.
Proof.
  unfold is_digit, ceqb; cbn. intros H. apply andb_true_iff in H as [H1 H2].
  apply N.leb_le in H1. apply N.leb_le in H2. split; apply N.eqb_neq; intros ->; lia.
Qed.

Lemma parse_show_Z signed lo hi z :
  (lo <= z <= hi)%Z -> (signed = false -> (0 <= z)%Z) ->
  parse_int signed lo hi (show_Z z) = Some z.
Proof.
  intros Hr Hs. unfold show_Z, parse_int.
  destruct (z <? 0)%Z eqn:E.
  - apply Z.ltb_lt in E. destruct signed; [|specialize (Hs eq_refl); lia].
    cbn [ceqb chr andb]. cbn. rewrite parse_show_N.
    rewrite N2Z.inj_abs_N.
    replace (- Z.abs z)%Z with z by lia.
    destruct Hr as [H1 H2]. apply Z.leb_le in H1. apply Z.leb_le in H2.
    now rewrite H1, H2.
  - apply Z.ltb_ge in E.
    pose proof (show_N_digits (Z.to_N z)) as Hd. pose proof (show_N_ne (Z.to_N z)) as Hne.
    pose proof (parse_show_N (Z.to_N z)) as Hp.
    destruct (show_N (Z.to_N z)) as [|c r]; [congruence|].
    cbn in Hd. apply andb_true_iff in Hd as [Hc _].
    destruct (digit_not_sign c Hc) as [E1 E2]. rewrite E1, E2, andb_false_r, Hp.
    rewrite Z2N.id by lia.
    destruct Hr as [H1 H2]. apply Z.leb_le in H1. apply Z.leb_le in H2.
    now rewrite H1, H2.
Qed.

Lemma parse_int_range signed lo hi s z :
  parse_int signed lo hi s = Some z -> (lo <= z <= hi)%Z.
Proof.
  unfold parse_int. destruct (match s with [] => _ | _ => _ end) as [neg ds].
  destruct (parse_digits ds); [|discriminate].
  destruct (_ && _)%bool eqn:E; [|discriminate].
  intros H; inversion H; subst. apply andb_true_iff in E as [E1 E2].
  apply Z.leb_le in E1. apply Z.leb_le in E2. lia.
Qed.

Lemma cons_digit_is c u u' : cons_digit c u = Some u' -> is_digit c = true.
Proof.
  unfold cons_digit, ceqb, is_digit.
  repeat match goal with
         | |- context [(c =? ?k)%N] =>
             destruct (N.eqb_spec c k) as [->|?]; [intros; reflexivity|]
         end. discriminate.
Qed.

Lemma str_uint_digits s u : str_uint s = Some u -> forallb is_digit s = true.
Proof.
  revert u; induction s as [|c s IH]; cbn; intros u H; [reflexivity|].
  destruct (str_uint s) as [u0|]; [|discriminate].
  rewrite (cons_digit_is _ _ _ H). cbn. eapply IH; reflexivity.
Qed.

Lemma parse_digits_digits s n :
  parse_digits s = Some n -> s <> [] /\ forallb is_digit s = true.
Proof.
  unfold parse_digits. destruct s as [|c s]; [discriminate|].
  intros H. split; [discriminate|].
  destruct (str_uint (c :: s)) eqn:E; [|discriminate]. eapply str_uint_digits; eassumption.
Qed.

Lemma skip_digits_all s : forallb is_digit s = true -> skip_digits s = [].
Proof.
  induction s as [|c s IH]; cbn; [reflexivity|].
  intros H. apply andb_true_iff in H as [H1 H2]. rewrite H1. auto.
Qed.

Lemma all_digits_f64 s : s <> [] -> forallb is_digit s = true -> parse_f64_ok s = true.
Proof.
  intros Hne Hd. unfold parse_f64_ok.
  assert (Hs : skip_sign s = s).
  { destruct s as [|c s]; [reflexivity|]. cbn in Hd. apply andb_true_iff in Hd as [Hc _].
    destruct (digit_not_sign c Hc) as [E1 E2]. cbn [skip_sign]. now rewrite E1, E2. }
  rewrite Hs. unfold number_ok. rewrite (skip_digits_all s Hd).
  destruct s as [|c s]; [congruence|]. cbn in Hd. apply andb_true_iff in Hd as [Hc _].
  cbn [starts_digit]. rewrite Hc. now rewrite !orb_true_r.
Qed.

(** Everything an integer type reads, f64 reads too. *)
Lemma parse_int_f64 signed lo hi s z :
  parse_int signed lo hi s = Some z -> parse_f64_ok s = true.
Proof.
  unfold parse_int. destruct s as [|c s]; [discriminate|].
  destruct (ceqb c (chr "+")) eqn:E1; [|destruct (signed && ceqb c (chr "-")) eqn:E2].
  - destruct (parse_digits s) eqn:Ed; [|discriminate]. intros _.
    apply parse_digits_digits in Ed as [Hne Hd].
    unfold parse_f64_ok. cbn [skip_sign]. rewrite E1. cbn [orb].
    unfold number_ok. rewrite (skip_digits_all s Hd).
    destruct s as [|c' s]; [congruence|]. cbn in Hd. apply andb_true_iff in Hd as [Hc _].
    cbn [starts_digit]. rewrite Hc. now rewrite !orb_true_r.
  - destruct (parse_digits s) eqn:Ed; [|discriminate]. intros _.
    apply andb_true_iff in E2 as [_ E2].
    apply parse_digits_digits in Ed as [Hne Hd].
    unfold parse_f64_ok. cbn [skip_sign]. rewrite E2, orb_true_r.
    unfold number_ok. rewrite (skip_digits_all s Hd).
    destruct s as [|c' s]; [congruence|]. cbn in Hd. apply andb_true_iff in Hd as [Hc _].
    cbn [starts_digit]. rewrite Hc. now rewrite !orb_true_r.
  - destruct (parse_digits (c :: s)) eqn:Ed; [|discriminate]. intros _.
    apply parse_digits_digits in Ed as [Hne Hd]. now apply all_digits_f64.
Qed.
