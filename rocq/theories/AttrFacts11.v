(** Types with serde attributes: a check that earlier variants do not read a value. *)
From Coq Require Import ZArith Lia.
From Verif Require Import Base Ast Strings Format Num Pretty Ser De Attr Spec_Serde SerdeFacts SerdeFacts2 Spec_Look Spec_Typed Spec_Attr AttrFacts AttrFacts2
  AttrFacts3 AttrFacts9 AttrFacts10.
Import ListNotations.

Lemma served_no_refs y : served y -> no_refs y.
Proof.
  intros S. induction S as [s|s|ys IH|ys IH|kys IH] using served_ind'; [exact I| | | |].
  - pose proof (str_shape s). destruct (str_to_yaml s); try contradiction; exact I.
  - unfold seq_yaml. cbn [no_refs]. induction IH; cbn; tauto.
  - cbn [no_refs]. induction IH; cbn; tauto.
  - unfold map_yaml_of. cbn [no_refs]. induction IH; cbn; tauto.
Qed.

Fixpoint before (vs : list (str * xvariant)) (n : str) : list (str * xvariant) :=
  match vs with
  | [] => []
  | x :: vs' => if seqb (fst x) n then [] else x :: before vs' n
  end.
Definition first_ok (vs : list (str * xvariant)) (v : sval) : bool :=
  match emit (XUntagged vs) v with
  | Some s => match ser s with
              | Some y => match read_yaml (depth y) (XUntagged (before vs (variant_name v))) y with Failed => true | _ => false end
              | None => true
              end
  | None => true
  end.
Lemma before_split vs pre n va post : NoDup (map fst vs) -> vs = pre ++ (n, va) :: post -> before vs n = pre.
Proof.
  intros N ->. revert N. induction pre as [|[m w] pre IH]; cbn [app map before fst]; intros N; [now rewrite seqb_refl|].
  inversion N as [|? ? H N']; subst. destruct (seqb m n) eqn:E; [|now rewrite IH].
  apply seqb_eq in E. subst m. elim H. rewrite map_app, in_app_iff. right. now left.
Qed.
Lemma first_ok_choice vs v : NoDup (map fst vs) -> first_ok vs v = true -> first_choice vs v.
Proof.
  intros N F pre va post s y fuel w a E Em Es R. unfold first_ok in F. rewrite Em, Es in F.
  rewrite (before_split vs pre _ va post N E) in F.
  assert (D : read_yaml (depth y) (XUntagged pre) y <> More) by (apply read_ends; [eauto using served_no_refs, ser_served|lia]).
  destruct (Nat.le_ge_cases fuel (depth y)) as [L|L].
  - pose proof (read_steps fuel (depth y) (XUntagged pre) y L) as X. rewrite R in X. rewrite X in F; discriminate.
  - pose proof (read_steps (depth y) fuel (XUntagged pre) y L D) as X. rewrite R in X. rewrite <- X in F. discriminate.
Qed.

Lemma decimal_inj k x z z' : decimal_text k x z -> decimal_text k x z' -> z = z'.
Proof.
  intros A B. pose proof (parse_int_spec k (Z.min z z') (Z.max z z') x z) as P1.
  pose proof (parse_int_spec k (Z.min z z') (Z.max z z') x z') as P2.
  assert (B1 : (Z.min z z' <= z <= Z.max z z')%Z) by (clear; lia). assert (B2 : (Z.min z z' <= z' <= Z.max z z')%Z) by (clear; lia).
  pose proof (proj2 P1 (conj A B1)). pose proof (proj2 P2 (conj B B2)). congruence.
Qed.
Lemma float_int z : fits I64 z -> plain_float (show_Z z).
Proof. intros F z' D. now rewrite (decimal_inj _ _ _ _ D (show_decimal I64 z F)). Qed.
Lemma float_dot x : In (chr ".") x -> plain_float x.
Proof.
  intros I z (ds & [_ D] & X). exfalso. assert (N : ~ In (chr ".") ds) by (intros J; apply D in J; vm_compute in J; intuition discriminate).
  destruct X as [[[-> | ->] _]|(_ & -> & _)]; try contradiction; destruct I as [E|I]; try contradiction; vm_compute in E; discriminate.
Qed.
