(** Strings and small list functions used by the whole model.

    A Rust [char] is its code point ([N]); a Rust [String]/[&str] is a list of
    them.  Byte lengths ([String::len]) are given by [utf8_len]. *)
From Coq Require Export Strings.String Strings.Ascii.
From Coq Require Export List NArith Arith Bool Lia.
Import ListNotations.
#[global] Open Scope list_scope.

Notation char := N (only parsing).
Notation str := (list N) (only parsing).

(** ASCII literal, only used to write down constants. *)
Fixpoint lit (s : string) : str :=
  match s with
  | EmptyString => []
  | String a s' => N_of_ascii a :: lit s'
  end.

Definition chr (s : string) : char :=
  match s with String a _ => N_of_ascii a | EmptyString => 0%N end.

Definition NL : char := 10%N.
Definition CR : char := 13%N.
Definition TAB : char := 9%N.
Definition SP : char := 32%N.
Definition QUOTE : char := 39%N.
Definition DQUOTE : char := 34%N.
Definition BACKSLASH : char := 92%N.

Definition ceqb (a b : char) : bool := N.eqb a b.

Fixpoint seqb (a b : str) : bool :=
  match a, b with
  | [], [] => true
  | x :: a', y :: b' => ceqb x y && seqb a' b'
  | _, _ => false
  end.

Lemma ceqb_eq a b : ceqb a b = true <-> a = b.
Proof. apply N.eqb_eq. Qed.
Lemma ceqb_refl a : ceqb a a = true.
Proof. apply N.eqb_refl. Qed.
Lemma ceqb_neq a b : ceqb a b = false <-> a <> b.
Proof. apply N.eqb_neq. Qed.

Lemma ceqb_sym a b : ceqb a b = ceqb b a.
Proof. apply N.eqb_sym. Qed.

Lemma seqb_eq a b : seqb a b = true <-> a = b.
Proof.
  revert b; induction a as [|x a IH]; destruct b as [|y b]; cbn; try (split; congruence).
  rewrite andb_true_iff, ceqb_eq, IH. split.
  - intros [-> ->]; reflexivity.
  - intros H; inversion H; auto.
Qed.
Lemma seqb_refl a : seqb a a = true.
Proof. apply seqb_eq; reflexivity. Qed.
Lemma seqb_neq a b : seqb a b = false <-> a <> b.
Proof.
  destruct (seqb a b) eqn:E.
  - apply seqb_eq in E. split; congruence.
  - split; intros H; [intros ->; rewrite seqb_refl in E|]; congruence.
Qed.
Lemma seqb_sym a b : seqb a b = seqb b a.
Proof.
  destruct (seqb a b) eqn:E.
  - apply seqb_eq in E; subst. now rewrite seqb_refl.
  - apply seqb_neq in E. symmetry. apply seqb_neq. congruence.
Qed.

Definition str_eq_dec (a b : str) : {a = b} + {a <> b}.
Proof.
  destruct (seqb a b) eqn:E; [left|right].
  - now apply seqb_eq.
  - now apply seqb_neq.
Defined.

(** Number of bytes of a character in UTF-8 ([char::len_utf8]). *)
Definition char_len (c : char) : nat :=
  if (c <? 128)%N then 1 else if (c <? 2048)%N then 2
  else if (c <? 65536)%N then 3 else 4.

(** [String::len]. *)
Fixpoint utf8_len (s : str) : nat :=
  match s with [] => 0 | c :: s' => char_len c + utf8_len s' end.

Lemma utf8_len_app a b : utf8_len (a ++ b) = utf8_len a + utf8_len b.
Proof. induction a; cbn; lia. Qed.

Lemma char_len_pos c : 1 <= char_len c <= 4.
Proof. unfold char_len; repeat destruct (_ <? _)%N; lia. Qed.

(** [str::split(char)]: always at least one piece. *)
Fixpoint split (c : char) (s : str) : list str :=
  match s with
  | [] => [[]]
  | x :: s' =>
      if ceqb x c then [] :: split c s'
      else match split c s' with
           | h :: t => (x :: h) :: t
           | [] => [[x]]
           end
  end.

(** [[T]::join(sep)]. *)
Fixpoint join (sep : str) (l : list str) : str :=
  match l with
  | [] => []
  | [a] => a
  | a :: l' => a ++ sep ++ join sep l'
  end.

(** [str::contains(char)]. *)
Definition has_char (c : char) (s : str) : bool := existsb (ceqb c) s.

(** [str::starts_with(&str)]. *)
Fixpoint prefixb (p s : str) : bool :=
  match p, s with
  | [], _ => true
  | x :: p', y :: s' => ceqb x y && prefixb p' s'
  | _ :: _, [] => false
  end.

(** [str::contains(&str)]. *)
Fixpoint has_sub (p s : str) : bool :=
  prefixb p s || match s with [] => false | _ :: s' => has_sub p s' end.

(** [str::starts_with(char)], [str::ends_with(char)]. *)
Definition starts_with (c : char) (s : str) : bool :=
  match s with x :: _ => ceqb x c | [] => false end.
Fixpoint ends_with (c : char) (s : str) : bool :=
  match s with [] => false | [x] => ceqb x c | _ :: s' => ends_with c s' end.

(** [str::trim_end_matches(char)]. *)
Fixpoint trim_end (c : char) (s : str) : str :=
  match s with
  | [] => []
  | x :: s' => match trim_end c s' with
               | [] => if ceqb x c then [] else [x]
               | t => x :: t
               end
  end.

Definition is_nil {A} (l : list A) : bool := match l with [] => true | _ => false end.

Fixpoint repeat_char (c : char) (n : nat) : str :=
  match n with 0 => [] | S n' => c :: repeat_char c n' end.

(** ---- basic facts ---- *)

Lemma split_ne c s : split c s <> [].
Proof.
  destruct s as [|x s]; cbn; [discriminate|].
  destruct (ceqb x c); [discriminate|].
  destruct (split c s); discriminate.
Qed.

Lemma split_cons c x s :
  split c (x :: s) = if ceqb x c then [] :: split c s
                     else match split c s with h :: t => (x :: h) :: t | [] => [[x]] end.
Proof. reflexivity. Qed.

Lemma join_split c s : join [c] (split c s) = s.
Proof.
  induction s as [|x s IH]; [reflexivity|]. cbn [split].
  destruct (ceqb x c) eqn:E.
  - apply ceqb_eq in E; subst. cbn.
    pose proof (split_ne c s) as Hne.
    destruct (split c s) as [|h t] eqn:Es; [congruence|].
    cbn. now f_equal.
  - pose proof (split_ne c s) as Hne.
    destruct (split c s) as [|h t] eqn:Es; [congruence|].
    destruct t as [|h' t']; cbn in *; now rewrite IH.
Qed.

Lemma split_no c s : Forall (fun l => has_char c l = false) (split c s).
Proof.
  induction s as [|x s IH]; cbn [split]; [repeat constructor|].
  destruct (ceqb x c) eqn:E; [constructor; [reflexivity|assumption]|].
  destruct (split c s) as [|h t]; inversion IH; subst; constructor; auto; cbn.
  - unfold ceqb in *. now rewrite N.eqb_sym, E.
  - unfold ceqb in *. rewrite N.eqb_sym, E. assumption.
Qed.

Lemma split_app_no c a s :
  has_char c a = false ->
  split c (a ++ s) = match split c s with h :: t => (a ++ h) :: t | [] => [] end.
Proof.
  induction a as [|x a IH]; intros H; cbn [app].
  - now destruct (split c s).
  - cbn in H. apply orb_false_iff in H as [Hx Ha].
    cbn [split]. unfold ceqb in *. rewrite N.eqb_sym, Hx, IH by assumption.
    pose proof (split_ne c s). now destruct (split c s).
Qed.

Lemma split_no_char c a : has_char c a = false -> split c a = [a].
Proof.
  intros H. rewrite <- (app_nil_r a) at 1. rewrite split_app_no by assumption.
  cbn. now rewrite app_nil_r.
Qed.

Lemma split_join c ls :
  ls <> [] -> Forall (fun l => has_char c l = false) ls -> split c (join [c] ls) = ls.
Proof.
  induction ls as [|a ls IH]; intros Hne Hf; [congruence|].
  inversion Hf; subst. destruct ls as [|b ls].
  - cbn. now apply split_no_char.
  - change (join [c] (a :: b :: ls)) with (a ++ [c] ++ join [c] (b :: ls)). rewrite split_app_no by assumption. cbn [app split].
    rewrite ceqb_refl. change (split c (join [c] (b :: ls))) with (split c (join [c] (b :: ls))).
    rewrite IH; [now rewrite app_nil_r|discriminate|assumption].
Qed.

Lemma ends_with_app_one c s : ends_with c (s ++ [c]) = true.
Proof.
  induction s as [|x s IH]; cbn; [apply ceqb_refl|].
  destruct s as [|y s]; [apply ceqb_refl|]. apply IH.
Qed.

Lemma ends_with_inv c s : ends_with c s = true -> exists s', s = s' ++ [c].
Proof.
  induction s as [|x s IH]; cbn; [discriminate|].
  destruct s as [|y s].
  - intros H. apply ceqb_eq in H. subst. exists []. reflexivity.
  - intros H. destruct (IH H) as [s' Hs]. exists (x :: s'). now rewrite Hs.
Qed.

Lemma trim_end_app_one c s : trim_end c (s ++ [c]) = trim_end c s.
Proof.
  induction s as [|x s IH]; cbn.
  - now rewrite ceqb_refl.
  - now rewrite IH.
Qed.

Lemma trim_end_id c s : ends_with c s = false -> trim_end c s = s.
Proof.
  induction s as [|x s IH]; cbn; [reflexivity|].
  destruct s as [|y s].
  - intros H. cbn. now rewrite H.
  - intros H. rewrite (IH H). reflexivity.
Qed.

Lemma trim_end_not_ends c s : ends_with c (trim_end c s) = false.
Proof.
  induction s as [|x s IH]; cbn; [reflexivity|].
  destruct (trim_end c s) as [|y t] eqn:E.
  - destruct (ceqb x c) eqn:E2; cbn; auto.
  - exact IH.
Qed.

Lemma trim_end_decomp c s : exists n, s = trim_end c s ++ repeat_char c n.
Proof.
  induction s as [|x s [n IH]]; [exists 0; reflexivity|].
  cbn. destruct (trim_end c s) as [|y t] eqn:E.
  - destruct (ceqb x c) eqn:Ex.
    + apply ceqb_eq in Ex; subst. exists (S n). cbn in *. now f_equal.
    + exists n. cbn in *. now f_equal.
  - exists n. cbn in *. now f_equal.
Qed.

Lemma repeat_char_length c n : length (repeat_char c n) = n.
Proof. induction n; cbn; auto. Qed.

Lemma has_char_app c a b : has_char c (a ++ b) = has_char c a || has_char c b.
Proof. unfold has_char. apply existsb_app. Qed.

Lemma has_char_false c s : has_char c s = false <-> ~ In c s.
Proof.
  unfold has_char. split.
  - intros H Hin. assert (existsb (ceqb c) s = true) by
      (apply existsb_exists; exists c; split; [assumption|apply ceqb_refl]). congruence.
  - intros H. destruct (existsb (ceqb c) s) eqn:E; [|reflexivity].
    apply existsb_exists in E as [x [Hx Hc]]. apply ceqb_eq in Hc; subst. contradiction.
Qed.

Lemma has_char_true c s : has_char c s = true <-> In c s.
Proof.
  unfold has_char. rewrite existsb_exists. split.
  - intros [x [Hx Hc]]. apply ceqb_eq in Hc; now subst.
  - intros H; exists c; split; [assumption|apply ceqb_refl].
Qed.

Lemma prefixb_spec p s : prefixb p s = true <-> exists t, s = p ++ t.
Proof.
  revert s; induction p as [|x p IH]; intros s; cbn.
  - split; [intros _; now exists s|reflexivity].
  - destruct s as [|y s].
    + split; [discriminate|intros [t Ht]; discriminate].
    + rewrite andb_true_iff, ceqb_eq, IH. split.
      * intros [-> [t ->]]. now exists t.
      * intros [t Ht]. inversion Ht; subst. split; [reflexivity|now exists t].
Qed.

Lemma has_sub_spec p s : has_sub p s = true <-> exists a b, s = a ++ p ++ b.
Proof.
  induction s as [|x s IH]; cbn [has_sub].
  - rewrite orb_false_r, prefixb_spec. split.
    + intros [t Ht]. exists [], t. exact Ht.
    + intros (a & b & H). destruct a; [|discriminate]. cbn in H. now exists b.
  - rewrite orb_true_iff, prefixb_spec, IH. split.
    + intros [[t Ht]|(a & b & H)].
      * exists [], t. exact Ht.
      * exists (x :: a), b. cbn. now rewrite H.
    + intros (a & b & H). destruct a as [|y a].
      * left. exists b. exact H.
      * right. inversion H; subst. now exists a, b.
Qed.
