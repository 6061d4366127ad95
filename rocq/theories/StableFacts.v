(** Calm documents that were parsed are canonical. *)
From Verif Require Import Base Ast Format Peg YamlGrammar Consume Spec_Parse Spec_Format Spec_Stable
  ParseFacts ParsedNeat2 FormatTree.
Import ListNotations.

Lemma everywhere_and (P Q : yaml -> Prop) : forall y, everywhere P y -> everywhere Q y ->
  everywhere (fun y => P y /\ Q y) y.
Proof.
  fix IH 1. intros [l|l|l|l|ps|ps|s|ls b|ls b|a]; cbn; intros [H1 H2] [H3 H4]; split; auto.
  - clear H1 H3. revert H2 H4. induction l as [|[k v] l IHl]; cbn; [auto|]. intros [A B] [C D]. split; [|exact (IHl B D)]. exact (IH _ A C).
  - clear H1 H3. revert H2 H4. induction l as [|d l IHl]; cbn; [auto|]. intros [A B] [C D]. split; [|exact (IHl B D)].
    destruct d as [c|c|[k' [al v]]]; [exact I|exact I|exact (IH _ A C)].
  - clear H1 H3. revert H2 H4. induction l as [|v l IHl]; cbn; [auto|]. intros [A B] [C D]. split; [|exact (IHl B D)]. exact (IH _ A C).
  - clear H1 H3. revert H2 H4. induction l as [|d l IHl]; cbn; [auto|]. intros [A B] [C D]. split; [|exact (IHl B D)].
    destruct d as [c|c|[al v]]; [exact I|exact I|exact (IH _ A C)].
Qed.

Section Stable.
Context (ut : unitab).

(** What the parser guarantees at every node. *)
Definition parsed_node (y : yaml) : Prop :=
  (keys_plain ut y /\ inline_ok y) /\ (writable ut y /\ neat_node y).
Notation parsed := (everywhere parsed_node).

Lemma inline_from : forall y, parsed y -> inline_kind y -> inline_calm ut y -> inline_canon ut y.
Proof.
  fix IH 1. intros [l|l|l|l|ps|ps|s|ls b|ls b|a] [[[K O] [W N]] P] I C; cbn in I; try contradiction; cbn [inline_canon].
  - cbn in K, O, C. clear W N I. cbn in P. revert K O C P. induction l as [|[k v] l IHl]; cbn; [auto|].
    intros K O [C1 C2] [P1 P2]. split; [split|].
    + eapply K. left. reflexivity.
    + apply IH; auto. eapply O. left. reflexivity.
    + apply IHl; eauto.
  - cbn in O, C. clear W N I K. cbn in P. revert O C P. induction l as [|v l IHl]; cbn; [auto|].
    intros O [C1 C2] [P1 P2]. split.
    + apply IH; auto.
    + apply IHl; eauto.
  - split; assumption.
  - split; assumption.
  - exact C.
  - exact W.
Qed.

Lemma flow_from p q al y : parsed y -> inline_kind y -> calm ut p q al y -> flow_canon ut y.
Proof.
  intros P I C. destruct y; cbn in I; try contradiction; cbn [flow_canon].
  - now apply inline_from.
  - now apply inline_from.
  - apply inline_from; auto; exact Logic.I.
  - apply inline_from; auto; exact Logic.I.
  - exact C.
  - apply inline_from; auto; exact Logic.I.
Qed.

(** The lists of [calm], by themselves. *)
Fixpoint calm_entries (p : place) (l : list hashdata) : Prop :=
  match l with
  | [] => True
  | HElem (mkHE _ (mkA al v)) :: l' => calm ut p false al v /\ calm_entries Own l'
  | _ :: l' => calm_entries p l'
  end.
Fixpoint calm_elements (p : place) (l : list arraydata) : Prop :=
  match l with
  | [] => True
  | AElem (mkA al v) :: l' => calm ut p true al v /\ calm_elements Own l'
  | _ :: l' => calm_elements p l'
  end.
Lemma calm_hash p q al l : calm ut p q al (Hash l) =
  match q, al with
  | false, None => calm_entries Own l
  | _, _ => starts_plain (Hash l) /\ (al <> None -> one_entry l -> lastp p) /\ calm_entries (head_of p l) l
  end.
Proof. reflexivity. Qed.
Lemma calm_array p q al l : calm ut p q al (Array l) =
  match q, al with
  | false, None => calm_elements Own l
  | _, _ => two_elements l /\ calm_elements (Head false) l
  end.
Proof. reflexivity. Qed.

(** What is known of the items. *)
Definition becomes (y : yaml) : Prop :=
  parsed y /\ forall p q al, alias_canon ut al -> calm ut p q al y -> canon ut p q al y.
Definition hd_fit (d : hashdata) : Prop :=
  match d with
  | HElem (mkHE k (mkA al v)) => plain_key ut k /\ alias_canon ut al /\ becomes v
  | HComment c | HInlineC c => one_line c
  end.
Definition ad_fit (d : arraydata) : Prop :=
  match d with
  | AElem (mkA al v) => alias_canon ut al /\ becomes v
  | AComment c | AInlineC c => one_line c
  end.

Lemma becomes_flow p q al v : becomes v -> inline_kind v -> calm ut p q al v -> flow_canon ut v.
Proof. intros [P _] I C. eapply flow_from; eassumption. Qed.

Lemma placed_entry l : hash_placed l -> 1 <= length (filter is_entry l).
Proof. induction 1; cbn; lia. Qed.

Lemma entries_from l : hash_placed l -> forall lead p, Forall hd_fit l -> calm_entries p l ->
  (lead = true \/ exists e l', l = HElem e :: l') -> (p = Head true -> one_entry l) ->
  entries ut lead p l.
Proof.
  induction 1 as [c l H IH|[k [al v]]|[k [al v]] c I|[k [al v]] l H IH|[k [al v]] c l I H IH];
    intros lead p F C L O.
  - destruct L as [->|(e & l' & E)]; [|discriminate]. inversion F; subst. apply EComment; [assumption|].
    apply IH; auto.
  - inversion F as [|? ? X F']; subst. destruct X as (A & B & D). destruct C as [C _]. apply ELast; [exact A|]. now apply D.
  - inversion F as [|? ? X F']; subst. destruct X as (A & B & D). inversion F'; subst. destruct C as [C _].
    apply ELastC; auto. eapply becomes_flow; eassumption.
  - inversion F as [|? ? X F']; subst. destruct X as (A & B & D). destruct C as [C C']. apply ECons; [exact A|now apply D| |].
    + intros ->. specialize (O eq_refl). unfold one_entry in O. cbn in O. pose proof (placed_entry _ H). lia.
    + apply IH; auto. discriminate.
  - inversion F as [|? ? X F']; subst. destruct X as (A & B & D). inversion F'; subst. destruct C as [C C']. apply EConsC; auto.
    + eapply becomes_flow; eassumption.
    + intros ->. specialize (O eq_refl). unfold one_entry in O. cbn in O. pose proof (placed_entry _ H). lia.
    + apply IH; auto. discriminate.
Qed.

Lemma elements_from l : array_placed l -> forall lead, Forall ad_fit l -> calm_elements Own l ->
  (lead = true \/ exists x l', l = AElem x :: l') -> elements ut lead l.
Proof.
  induction 1 as [c l H IH|[al v]|[al v] c I|[al v] l H IH|[al v] c l I H IH];
    intros lead F C L.
  - destruct L as [->|(e & l' & E)]; [|discriminate]. inversion F; subst. apply NComment; [assumption|].
    apply IH; auto.
  - inversion F as [|? ? X F']; subst. destruct X as (B & D). destruct C as [C _]. apply NLast. now apply D.
  - inversion F as [|? ? X F']; subst. destruct X as (B & D). inversion F'; subst. destruct C as [C _].
    apply NLastC; auto. eapply becomes_flow; eassumption.
  - inversion F as [|? ? X F']; subst. destruct X as (B & D). destruct C as [C C']. apply NCons; [now apply D|].
    apply IH; auto.
  - inversion F as [|? ? X F']; subst. destruct X as (B & D). inversion F'; subst. destruct C as [C C']. apply NConsC; auto.
    eapply becomes_flow; eassumption.
Qed.

(** Block scalars. *)
Lemma block_from ls : ls <> [] /\ Forall one_line ls -> first_line_ok ls -> block_lines ls.
Proof. intros [_ A] B. split; assumption. Qed.

Lemma hash_from l p q al : hash_placed l -> Forall hd_fit l -> alias_canon ut al ->
  calm ut p q al (Hash l) -> canon ut p q al (Hash l).
Proof.
  intros H F A C. rewrite calm_hash in C.
  assert (X : starts_plain (Hash l) -> (al <> None -> one_entry l -> lastp p) ->
     calm_entries (head_of p l) l ->
     entries ut false (head_of p l) l /\ (((length (filter is_entry l) =? 1) && is_last p) = true -> lastp p)).
  { intros S O E. split.
    - apply entries_from; auto.
      + right. destruct l as [|[]]; try contradiction. eauto.
      + unfold head_of. intros X. inversion X as [Y]. apply andb_true_iff in Y as [Y _]. now apply Nat.eqb_eq.
    - intros Y. apply andb_true_iff in Y as [_ Y]. destruct p; [exact I|exact Y]. }
  destruct q, al as [a|].
  - destruct C as (S & O & E). destruct (X S O E) as [X1 X2]. eapply CHashAlias; try eassumption.
    apply O. discriminate.
  - destruct C as (S & O & E). destruct (X S O E) as [X1 X2]. eapply CHashElem; eassumption.
  - destruct C as (S & O & E). destruct (X S O E) as [X1 X2]. eapply CHashAlias; try eassumption.
    apply O. discriminate.
  - apply CHash. apply entries_from; auto. discriminate.
Qed.

Lemma array_from l p q al : array_placed l -> Forall ad_fit l -> alias_canon ut al ->
  calm ut p q al (Array l) -> canon ut p q al (Array l).
Proof.
  intros H F A C. rewrite calm_array in C.
  assert (X0 : q = true \/ al <> None -> two_elements l -> calm_elements (Head false) l ->
     canon ut p q al (Array l)).
  { clear C. intros Q T C. inversion H as [c l' H' E|x E|x c I E|[al1 v1] l' H' E|[al1 v1] c l' I H' E]; subst;
      try contradiction.
    - inversion F as [|? ? X F']; subst. destruct X as (B & D). destruct C as [C C'].
      destruct l' as [|d l']; [contradiction|]. destruct d as [c'|c'|x2].
      + inversion H'.
      + contradiction.
      + apply CArrayElem; [now apply D| |exact A|exact Q]. apply elements_from; auto. right. eauto.
    - inversion F as [|? ? X F']; subst. destruct X as (B & D). inversion F'; subst. destruct C as [C C'].
      destruct l' as [|d l']; [inversion H'|]. destruct d as [c'|c'|x2]; try contradiction.
      apply CArrayElemC; auto.
      + eapply becomes_flow; eassumption.
      + apply elements_from; auto. right. eauto. }
  destruct q, al as [a|]; try (destruct C as [T C]; apply X0; auto; right; discriminate).
  apply CArray. apply elements_from; auto.
Qed.

Lemma canon_from : forall y, parsed y -> becomes y.
Proof.
  fix IH 1. intros y P. split; [exact P|]. intros p q al A C.
  destruct y as [l|l|l|l|ps|ps|s|ls b|ls b|a]; destruct P as [[[K O] [W N]] P].
  - apply CFlow; [|exact A]. eapply flow_from; [split; [split; split; eassumption|exact P]|exact I|exact C].
  - apply hash_from; auto. cbn in K, W. destruct W as (_ & W1 & W2). clear C A N O. cbn in P.
    induction l as [|d l IHl]; [constructor|]. destruct P as [P1 P2]. constructor.
    + destruct d as [c|c|[k [al1 v]]].
      * apply W2. right. left. reflexivity.
      * apply W2. left. left. reflexivity.
      * split; [exact (K _ (or_introl eq_refl))|]. split; [|exact (IH v P1)].
        destruct al1 as [a1|]; [|exact I]. exact (W1 _ a1 (or_introl eq_refl) eq_refl).
    + apply IHl.
      * intros e He. apply K. now right.
      * intros e a1 He. apply W1. now right.
      * intros c Hc. apply W2. destruct Hc; [left|right]; now right.
      * exact P2.
  - apply CFlow; [|exact A]. eapply flow_from; [split; [split; split; eassumption|exact P]|exact I|exact C].
  - apply array_from; auto. cbn in W. destruct W as (_ & W1 & W2). clear C A N O K. cbn in P.
    induction l as [|d l IHl]; [constructor|]. destruct P as [P1 P2]. constructor.
    + destruct d as [c|c|[al1 v]].
      * apply W2. right. left. reflexivity.
      * apply W2. left. left. reflexivity.
      * split; [|exact (IH v P1)].
        destruct al1 as [a1|]; [|exact I]. exact (W1 _ a1 (or_introl eq_refl) eq_refl).
    + apply IHl.
      * intros e a1 He. apply W1. now right.
      * intros c Hc. apply W2. destruct Hc; [left|right]; now right.
      * exact P2.
  - apply CFlow; [|exact A]. eapply flow_from; [split; [split; split; eassumption|exact P]|exact I|exact C].
  - apply CFlow; [|exact A]. eapply flow_from; [split; [split; split; eassumption|exact P]|exact I|exact C].
  - apply CFlow; [|exact A]. eapply flow_from; [split; [split; split; eassumption|exact P]|exact I|exact C].
  - destruct C as [C1 C2]. apply CFolded; auto. now apply block_from.
  - destruct C as [C1 C2]. apply CLiteral; auto. now apply block_from.
  - apply CFlow; [|exact A]. eapply flow_from; [split; [split; split; eassumption|exact P]|exact I|exact C].
Qed.

Lemma parsed_nodes s d : parse_yaml ut s = CVal d -> doc_everywhere parsed_node d.
Proof.
  intros E y Hy. apply everywhere_and; apply everywhere_and.
  - exact (parsed_keys ut s d E y Hy).
  - exact (parsed_inline ut s d E y Hy).
  - exact (parsed_writable ut s d E y Hy).
  - exact (proj1 (parsed_neat ut s d E) y Hy).
Qed.

Theorem calm_canon s d : parse_yaml ut s = CVal d -> calm_doc ut d -> canon_doc ut d.
Proof.
  intros E C. destruct (parsed_shape ut s d E) as (L & a & y & b & Ei & Ha & Hb & K).
  assert (Hy : In (DYaml y) (items d)) by (rewrite Ei; apply in_or_app; right; now left).
  split; [exact L|]. exists a, y, b. split; [exact Ei|]. split; [exact Ha|]. split; [exact Hb|].
  destruct (C y Hy) as [R Cy]. pose proof (parsed_nodes s d E y Hy) as P.
  pose proof (proj2 (parsed_neat ut s d E) y Hy) as S.
  pose proof (proj2 (canon_from y P) Own false None I Cy) as X.
  destruct y as [l|l|l|l|ps|ps|s0|ls b0|ls b0|a0]; try contradiction.
  - destruct l as [|[c|c|e] l]; try contradiction. inversion X; subst.
    + match goal with F : flow_canon _ _ |- _ => destruct F end.
    + match goal with F : entries _ true Own _ |- _ => inversion F; subst; clear F end.
      * now apply ELast.
      * now apply ELastC.
      * now apply ECons.
      * now apply EConsC.
  - destruct l as [|[c|c|e] l]; try contradiction. inversion X; subst.
    + match goal with F : flow_canon _ _ |- _ => destruct F end.
    + match goal with F : elements _ true _ |- _ => inversion F; subst; clear F end.
      * now apply NLast.
      * now apply NLastC.
      * now apply NCons.
      * now apply NConsC.
    + match goal with F : _ \/ None <> None |- _ => destruct F; congruence end.
    + match goal with F : _ \/ None <> None |- _ => destruct F; congruence end.
Qed.

Theorem calm_stable s d : parse_yaml ut s = CVal d -> calm_doc ut d -> parse_yaml ut (format_doc d) = CVal d.
Proof. intros E C. apply format_parse. eapply calm_canon; eassumption. Qed.
End Stable.
