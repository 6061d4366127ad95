(** Deciding which texts are plain scalars of YAML. *)
From Verif Require Import Base Ast Spec_Yaml12.
Import ListNotations.
Local Open Scope bool_scope.

Definition btwb (a b c : N) : bool := (a <=? c)%N && (c <=? b)%N.
Definition printableb (c : char) : bool :=
  ceqb c TAB || ceqb c NL || ceqb c CR || btwb 32 126 c || ceqb c 133 || btwb 160 55295 c || btwb 57344 65533 c ||
  btwb 65536 1114111 c.
Definition nb_jsonb (c : char) : bool := ceqb c TAB || btwb 32 1114111 c.
Definition nb_charb (c : char) : bool := printableb c && negb (ceqb c NL) && negb (ceqb c CR) && negb (ceqb c 65279).
Definition whiteb (c : char) : bool := ceqb c SP || ceqb c TAB.
Definition ns_charb (c : char) : bool := nb_charb c && negb (whiteb c).
Definition inb (c : char) (l : str) : bool := existsb (ceqb c) l.
Definition indicatorb (c : char) : bool := inb c (lit "-?:,[]{}#&*!|>'%@`" ++ [DQUOTE]).
Definition flow_indicatorb (c : char) : bool := inb c (lit ",[]{}").

Lemma btwb_spec a b c : btwb a b c = true <-> between a b c.
Proof. unfold btwb, between. now rewrite andb_true_iff, !N.leb_le. Qed.
Lemma printableb_spec c : printableb c = true <-> printable c.
Proof.
  unfold printableb, printable. rewrite !orb_true_iff, !btwb_spec. unfold ceqb. rewrite !N.eqb_eq. tauto.
Qed.
Lemma nb_jsonb_spec c : nb_jsonb c = true <-> nb_json c.
Proof. unfold nb_jsonb, nb_json. rewrite orb_true_iff, btwb_spec. unfold ceqb. now rewrite N.eqb_eq. Qed.
Lemma neg_spec a b : negb (ceqb a b) = true <-> a <> b.
Proof. unfold ceqb. rewrite negb_true_iff, N.eqb_neq. reflexivity. Qed.
Lemma nb_charb_spec c : nb_charb c = true <-> nb_char c.
Proof. unfold nb_charb, nb_char. rewrite !andb_true_iff, !neg_spec, printableb_spec. tauto. Qed.
Lemma whiteb_spec c : whiteb c = true <-> white c.
Proof. unfold whiteb, white. rewrite orb_true_iff. unfold ceqb. now rewrite !N.eqb_eq. Qed.
Lemma negb_not b P : (b = true <-> P) -> (negb b = true <-> ~ P).
Proof. intros [A B]. destruct b; cbn; split; try easy; intros H; [destruct H; auto|]. intros p. now apply B in p. Qed.
Lemma ns_charb_spec c : ns_charb c = true <-> ns_char c.
Proof. unfold ns_charb, ns_char. rewrite andb_true_iff, nb_charb_spec, (negb_not _ _ (whiteb_spec c)). tauto. Qed.
Lemma inb_spec c l : inb c l = true <-> In c l.
Proof.
  unfold inb. rewrite existsb_exists. split.
  - intros (x & I & E). unfold ceqb in E. apply N.eqb_eq in E. now subst.
  - intros I. exists c. split; [exact I|apply N.eqb_refl].
Qed.
Lemma indicatorb_spec c : indicatorb c = true <-> indicator c.
Proof. apply inb_spec. Qed.
Lemma flow_indicatorb_spec c : flow_indicatorb c = true <-> flow_indicator c.
Proof. apply inb_spec. Qed.

Definition safeb (c : context) (x : char) : bool :=
  ns_charb x && match c with FlowOut => true | FlowIn => negb (flow_indicatorb x) end.
Lemma safeb_spec c x : safeb c x = true <-> plain_safe c x.
Proof.
  unfold safeb, plain_safe. rewrite andb_true_iff, ns_charb_spec. destruct c.
  - split; [intros [A _]; split; [exact A|discriminate]|tauto].
  - rewrite (negb_not _ _ (flow_indicatorb_spec x)). tauto.
Qed.
Fixpoint tailb (c : context) (p : char) (s : str) : bool :=
  match s with
  | [] => negb (whiteb p)
  | x :: r =>
      (if whiteb x then true
       else if ceqb x (chr "#") then ns_charb p
       else if ceqb x (chr ":") then match r with y :: _ => safeb c y | [] => false end
       else safeb c x) && tailb c x r
  end.
Lemma tailb_spec c s : forall p, tailb c p s = true <-> plain_tail c p s.
Proof.
  induction s as [|x r IH]; intros p; cbn [tailb].
  - rewrite (negb_not _ _ (whiteb_spec p)). split; [now constructor|now inversion 1].
  - rewrite andb_true_iff, IH. split.
    + intros [A T]. destruct (whiteb x) eqn:W.
      * apply PWhite; [now apply whiteb_spec|exact T].
      * destruct (ceqb x (chr "#")) eqn:E1.
        { unfold ceqb in E1. apply N.eqb_eq in E1. subst. apply PHash; [now apply ns_charb_spec|exact T]. }
        destruct (ceqb x (chr ":")) eqn:E2.
        { unfold ceqb in E2. apply N.eqb_eq in E2. subst. destruct r as [|y r]; [discriminate|]. apply PColon; [now apply safeb_spec|exact T]. }
        apply safeb_spec in A. apply PChar; auto; intros ->; unfold ceqb in *; rewrite N.eqb_refl in *; discriminate.
    + intros H. inversion H as [|? ? ? W T|? ? ? S N1 N2 T|? ? N T|? y ? S T]; subst; (split; [|assumption]).
      * apply whiteb_spec in W. now rewrite W.
      * assert (W : whiteb x = false).
        { destruct (whiteb x) eqn:W; [|reflexivity]. apply whiteb_spec in W. now destruct S as [[_ S] _]. }
        rewrite W. assert (E1 : ceqb x (chr "#") = false) by now apply N.eqb_neq. assert (E2 : ceqb x (chr ":") = false) by now apply N.eqb_neq.
        rewrite E1, E2. now apply safeb_spec.
      * apply ns_charb_spec in N. exact N.
      * apply safeb_spec in S. exact S.
Qed.
Definition plainb (c : context) (s : str) : bool :=
  match s with
  | [] => false
  | x :: r =>
      (if indicatorb x then inb x (lit "?:-") && match r with y :: _ => safeb c y | [] => false end else ns_charb x) &&
      tailb c x r
  end.
Lemma plainb_spec c s : plainb c s = true <-> plain c s.
Proof.
  destruct s as [|x r]; cbn [plainb]; [split; [discriminate|now inversion 1]|].
  rewrite andb_true_iff, tailb_spec. split.
  - intros [A T]. destruct (indicatorb x) eqn:I.
    + apply andb_true_iff in A as [A B]. apply inb_spec in A. destruct r as [|y r]; [discriminate|]. apply safeb_spec in B. now constructor.
    + apply ns_charb_spec in A. constructor; auto. intros H. apply indicatorb_spec in H. congruence.
  - intros H. inversion H as [? ? N I T|? y ? N S T]; subst; (split; [|assumption]).
    + assert (E : indicatorb x = false). { destruct (indicatorb x) eqn:E; [|reflexivity]. now apply indicatorb_spec in E. }
      rewrite E. now apply ns_charb_spec.
    + assert (E : indicatorb x = true). { apply indicatorb_spec. cbn in *. intuition. }
      rewrite E. apply andb_true_iff. split; [now apply inb_spec|now apply safeb_spec].
Qed.

Definition anchor_nameb (a : str) : bool := match a with [] => false | _ => forallb (fun c => ns_charb c && negb (flow_indicatorb c)) a end.
Lemma anchor_nameb_spec a : anchor_nameb a = true -> anchor_name a.
Proof.
  destruct a as [|x a]; [discriminate|]. unfold anchor_nameb. intros H. split; [discriminate|].
  apply Forall_forall. intros c I. rewrite forallb_forall in H. apply H in I. apply andb_true_iff in I as [A B].
  split; [now apply ns_charb_spec|]. now apply (negb_not _ _ (flow_indicatorb_spec c)).
Qed.
Lemma nb_lineb s : forallb nb_charb s = true -> Forall nb_char s.
Proof. intros H. apply Forall_forall. intros c I. rewrite forallb_forall in H. apply nb_charb_spec. auto. Qed.
Lemma nb_linesb l : forallb (forallb nb_charb) l = true -> Forall (Forall nb_char) l.
Proof. intros H. apply Forall_forall. intros c I. rewrite forallb_forall in H. apply nb_lineb. auto. Qed.

Lemma flow_content_first c y s : flow_content c y s -> exists x r, s = x :: r /\ x <> chr "*".
Proof.
  intros H. inversion H as [? ? P| | | |]; subst; try (do 2 eexists; split; [reflexivity|discriminate]).
  inversion P as [x t _ I|x z t I]; subst; do 2 eexists; (split; [reflexivity|]); intros ->.
  - apply I. cbn. intuition.
  - cbn in I. intuition discriminate.
Qed.
(** A reference cannot have a name of its own. *)
Lemma named_reference a b x : anchor_name a -> anchor_name b -> ~ flow_node FlowOut x (lit "&" ++ a ++ lit " *" ++ b).
Proof.
  intros A B H. remember (lit "&" ++ a ++ lit " *" ++ b) as t eqn:E. destruct H as [c n N|c y s C|c a' w y s A' W NE C].
  - discriminate E.
  - subst s. inversion C as [? ? P E'| | | |]; subst. inversion P as [? ? _ I|? ? ? I]; subst; [apply I; cbn; intuition|cbn in I; intuition discriminate].
  - assert (NS : forall n : str, anchor_name n -> ~ In SP n).
    { intros n [_ F] I. rewrite Forall_forall in F. apply F in I. destruct I as [[_ I] _]. apply I. now left. }
    apply (app_inv_head (lit "&")) in E. change (lit " *" ++ b) with (SP :: chr "*" :: b) in E. destruct w as [|w0 w]; [easy|]. inversion_clear W as [|? ? Wc Ww].
    destruct (flow_content_first _ _ _ C) as (z & r & -> & Z).
    destruct A as [_ FA], A' as [_ FA']. revert a' FA' E. induction FA as [|p a Pa _ IH]; intros a' FA' E.
    + destruct FA' as [|q a' Pq _]; cbn [app] in E.
      * injection E as -> E. destruct w as [|d w]; cbn [app] in E; injection E as -> E; [now apply Z|].
        inversion_clear Ww as [|? ? Wd _]. destruct Wd; discriminate.
      * injection E as -> E. destruct Pq as [[_ Pq] _]. apply Pq. now left.
    + destruct FA' as [|q a' _ FA']; cbn [app] in E; injection E as -> E.
      * destruct Pa as [[_ Pa] _]. now apply Pa.
      * apply (IH a' FA' E).
Qed.
