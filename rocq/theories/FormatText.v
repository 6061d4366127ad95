(** What the grammar reads from written text: names, comments, line breaks and scalars. *)
From Coq Require Import ZArith.
From Verif Require Import Base Ast Num Peg PegFacts YamlGrammar Consume Format Spec_Parse YamlTree
  Spec_Format Reads.
Import ListNotations.

(** ---- the first character ---- *)

(** ASCII characters that are not part of names. *)
Definition punct (d : char) : bool :=
  ((d <? 128)%N && negb (ascii_letter d || ascii_digit d || (d =? 95)%N))%bool.

Ltac scanc := apply (fails_scan _ 40); cbn [hd_error app]; vm_compute; reflexivity.
Ltac scans :=
  apply (fails_scan _ 40); cbn [hd_error app];
  lazy -[ceqb is_zs is_letter is_number];
  repeat (match goal with
          | H : ?x = false |- context [?x] => rewrite H
          | H : ?x = true |- context [?x] => rewrite H
          | H : forall d, _ -> ceqb d ?c = false |- context [ceqb ?e ?c] => rewrite (H e eq_refl)
          end; cbv beta iota zeta delta [negb orb andb fst snd]);
  reflexivity.

Section Text.
Context (ut : unitab).
Notation G := (yaml_grammar ut).
Notation gets := (gets ut).
Notation eats := (eats ut).
Notation eats0 := (eats0 ut).
Notation fails := (fails ut).

Lemma name_punct c : name_char ut c -> forall d, punct d = true -> ceqb d c = false.
Proof.
  intros H d Hd. apply ceqb_neq. intros ->. unfold punct in Hd.
  apply andb_true_iff in Hd as [Hd Hp]. apply negb_true_iff in Hp.
  apply orb_false_iff in Hp as [Hp Hu]. apply orb_false_iff in Hp as [Hl Hg].
  unfold name_char, is_letter, is_number in H. rewrite Hd, Hl, Hg in H.
  destruct H as [H|[H|H]]; try discriminate. subst. discriminate.
Qed.
Lemma zs_ws c : is_zs c = true -> is_ws c = true.
Proof.
  unfold is_zs, is_ws. intros H.
  repeat match goal with
  | H : (_ || _)%bool = true |- _ => apply orb_true_iff in H as [H|H]
  end; try (apply N.eqb_eq in H; subst; reflexivity).
  rewrite H. now rewrite !orb_true_r.
Qed.
Lemma name_zs c : name_char ut c -> is_zs c = false.
Proof.
  intros H. destruct (is_zs c) eqn:E; [|reflexivity]. apply zs_ws in E.
  now rewrite (name_not_ws ut c H) in E.
Qed.

(** ---- spaces and line breaks ---- *)

Definition no_zs (s : str) : Prop := match s with [] => True | c :: _ => is_zs c = false end.
(** No space separator and no line break first. *)
Definition solid (s : str) : Prop :=
  match s with [] => True | c :: _ => is_zs c = false /\ c <> NL /\ c <> CR end.

Lemma solid_zs s : solid s -> no_zs s.
Proof. destruct s; cbn; tauto. Qed.

Lemma fails_zs s k : no_zs s -> fails y_zs s k.
Proof. destruct s as [|c s]; intros H em; [apply RClassE|apply RClassF; exact H]. Qed.

Lemma eats_zss u s k : (forall c, In c u -> is_zs c = true) -> no_zs s -> eats y_zss (u ++ s) k u s k.
Proof.
  intros H Hs. induction u as [|c u IH]; cbn [app].
  - apply eats_star0, fails_zs, Hs.
  - eapply eats_star1; [apply eats_class, H; now left|apply IH; intros; apply H; now right|reflexivity].
Qed.
Lemma indent_zs n c : In c (indent n) -> is_zs c = true.
Proof. unfold indent. induction n; cbn; [tauto|]. intros [<-|H]; auto. Qed.
Lemma eats_indent n s k : no_zs s -> eats y_zss (indent n ++ s) k (indent n) s k.
Proof. apply eats_zss, indent_zs. Qed.
Lemma eats_zss0 s k : no_zs s -> eats y_zss s k [] s k.
Proof. intros H. apply (eats_zss [] s k); [intros c []|exact H]. Qed.
Lemma eats_sp s k : no_zs s -> eats (yplus y_zs) (SP :: s) k [SP] s k.
Proof.
  intros H. eapply eats_seq; [now apply eats_class|apply eats_zss0, H|reflexivity].
Qed.
Lemma fails_zsp s k : no_zs s -> fails (yplus y_zs) s k.
Proof. intros H. apply fails_seq1, fails_zs, H. Qed.

Lemma eats_nl s k : eats y_nl (NL :: s) k [NL] s k.
Proof. apply eats_alt1. exact (eats_str ut [NL] s k). Qed.
Lemma fails_nl s k : (forall c r, s = c :: r -> c <> NL /\ c <> CR) -> fails y_nl s k.
Proof.
  intros H. destruct s as [|c s]; [scanc|].
  destruct (H c s eq_refl) as [H1 H2].
  assert (E1 : ceqb NL c = false) by (apply ceqb_neq; congruence).
  assert (E2 : ceqb CR c = false) by (apply ceqb_neq; congruence).
  unfold NL, CR in *. scans.
Qed.
Lemma fails_nl_solid s k : solid s -> fails y_nl s k.
Proof. intros H. apply fails_nl. intros c r ->. cbn in H. tauto. Qed.

(** Spaces, then no line break. *)
Lemma fails_zsnl n s k : solid s -> fails (PSeq y_zss y_nl) (indent n ++ s) k.
Proof.
  intros H. eapply fails_seq0; [apply eats_indent, solid_zs, H|apply fails_nl_solid, H].
Qed.

Lemma eats_zsnl s k : eats (PSeq y_zss y_nl) (NL :: s) k [NL] s k.
Proof. eapply eats_seq; [apply eats_zss0; reflexivity|apply eats_nl|reflexivity]. Qed.

(** Any spaces, then no line break. *)
Lemma fails_zsnl_gen u s k : (forall c, In c u -> is_zs c = true) -> solid s ->
  fails (PSeq y_zss y_nl) (u ++ s) k.
Proof.
  intros Hu H. eapply fails_seq0; [apply eats_zss; [exact Hu|apply solid_zs, H]|apply fails_nl_solid, H].
Qed.

Lemma eats_blanknl_gen u s k : (forall c, In c u -> is_zs c = true) -> solid s ->
  eats (R_ y_blanknl) (NL :: u ++ s) k [NL] (u ++ s) k.
Proof.
  intros Hu H. apply eats_silent; [reflexivity|]. cbn [yaml_grammar snd]. apply eats_alt2.
  - eapply fails_seq0; [apply eats_zss0; reflexivity|].
    eapply fails_seq0; [apply eats_nl|]. apply fails_seq1, fails_zsnl_gen; assumption.
  - apply eats_zsnl.
Qed.
Lemma eats_blanknl n s k : solid s -> eats (R_ y_blanknl) (NL :: indent n ++ s) k [NL] (indent n ++ s) k.
Proof. apply eats_blanknl_gen, indent_zs. Qed.
Lemma eats_blank n s k : solid s -> eats (R_ y_blank) (NL :: indent n ++ s) k [NL] (indent n ++ s) k.
Proof.
  intros H. apply eats_silent; [reflexivity|]. cbn [yaml_grammar snd]. apply eats_alt2.
  - eapply fails_seq0; [apply eats_zss0; reflexivity|].
    eapply fails_seq0; [apply eats_nl|]. apply fails_seq1, fails_zsnl, H.
  - apply eats_opt1, eats_zsnl.
Qed.
Lemma eats_blank0 n s k : solid s -> eats (R_ y_blank) (indent n ++ s) k [] (indent n ++ s) k.
Proof.
  intros H. apply eats_silent; [reflexivity|]. cbn [yaml_grammar snd]. apply eats_alt2.
  - eapply fails_seq0; [apply eats_indent, solid_zs, H|]. apply fails_seq1, fails_nl_solid, H.
  - apply eats_opt0, fails_zsnl, H.
Qed.
Lemma fails_blanknl n s k : solid s -> fails (R_ y_blanknl) (indent n ++ s) k.
Proof.
  intros H. apply fails_rule. cbn [yaml_grammar snd]. apply fails_alt.
  - eapply fails_seq0; [apply eats_indent, solid_zs, H|]. apply fails_seq1, fails_nl_solid, H.
  - apply fails_zsnl, H.
Qed.

(** ---- comments ---- *)

Definition nl_or_end (s : str) : Prop := s = [] \/ exists r, s = NL :: r.

Lemma eats_line c s k : one_line c -> nl_or_end s ->
  eats (PStar (PNot y_nl ~~ y_any)%peg) (c ++ s) k c s k.
Proof.
  intros [H1 H2] Hs. induction c as [|x c IH]; cbn [app].
  - apply eats_star0. destruct Hs as [->|(r & ->)].
    + intros em. eapply RSeq2; [apply eats_not, fails_nl; intros; discriminate|apply RClassE|reflexivity].
    + apply fails_seq1. eapply fails_not. apply eats_nl.
  - eapply eats_star1; [|apply IH|].
    + eapply eats_seq; [apply eats_not, fails_nl|apply eats_class; reflexivity|reflexivity].
      intros y r E. inversion E; subst. split; intros ->; [apply H1|apply H2]; now left.
    + intros H. apply H1. now right.
    + intros H. apply H2. now right.
    + reflexivity.
Qed.

Lemma gets_comment_base u c s k : (forall x, In x u -> is_zs x = true) -> one_line c -> nl_or_end s ->
  gets (R_ y_comment_base) (u ++ lit "#" ++ c ++ s) k [(y_comment_text, VStr c)] s k.
Proof.
  intros Hu Hc Hs. apply gets_silent; [reflexivity|]. cbn [yaml_grammar snd].
  eapply gets_seq0; [apply eats_zss; [exact Hu|reflexivity]|].
  eapply gets_seq0; [exact (eats_str ut (lit "#") _ k)|].
  eapply gets_leaf; [reflexivity|apply eats_line; assumption|reflexivity].
Qed.
Lemma gets_comment u c s k : (forall x, In x u -> is_zs x = true) -> one_line c -> nl_or_end s ->
  gets (R_ y_comment) (u ++ lit "#" ++ c ++ s) k [(y_comment, VStr c)] s k.
Proof.
  intros Hu Hc Hs. eapply gets_rule; [reflexivity|apply gets_comment_base; eassumption|reflexivity].
Qed.
Lemma fails_comment_base n s k : solid s -> (forall r, s <> chr "#" :: r) ->
  fails (R_ y_comment_base) (indent n ++ s) k.
Proof.
  intros H Hs. apply fails_rule. cbn [yaml_grammar snd].
  eapply fails_seq0; [apply eats_indent, solid_zs, H|]. apply fails_seq1, fails_str.
  destruct s as [|c s]; [reflexivity|]. cbn [lit strip].
  destruct (ceqb _ c) eqn:E; [|reflexivity]. apply ceqb_eq in E. subst. now destruct (Hs s).
Qed.
Lemma fails_comment n s k : solid s -> (forall r, s <> chr "#" :: r) ->
  fails (R_ y_comment) (indent n ++ s) k.
Proof. intros H Hs. apply fails_rule. cbn [yaml_grammar snd]. now apply fails_comment_base. Qed.
Lemma fails_commentnl n s k : solid s -> (forall r, s <> chr "#" :: r) ->
  fails (R_ y_commentnl) (indent n ++ s) k.
Proof. intros H Hs. apply fails_rule. cbn [yaml_grammar snd]. apply fails_seq1. now apply fails_comment_base. Qed.
Lemma fails_comment_nl s k : nl_or_end s -> fails (R_ y_comment) s k.
Proof. intros [->|(r & ->)]; scanc. Qed.
Lemma fails_commentnl_nl s k : nl_or_end s -> fails (R_ y_commentnl) s k.
Proof. intros [->|(r & ->)]; scanc. Qed.

(** Comment lines, each with its line break at the end. *)
Definition clines (n : nat) (cs : list str) : str :=
  flat_map (fun c => indent n ++ lit "#" ++ c ++ [NL]) cs.

Lemma gets_commentnl n m c s k : one_line c -> solid s ->
  gets (R_ y_commentnl) (indent n ++ lit "#" ++ c ++ NL :: indent m ++ s) k [(y_commentnl, VStr c)]
    (indent m ++ s) k.
Proof.
  intros Hc Hs. eapply gets_rule; [reflexivity| |].
  - cbn [yaml_grammar snd].
    eapply gets_seq; [apply gets_comment_base; [apply indent_zs|exact Hc|right; eauto]
                     |apply eats_gets with (t := [NL]); apply eats_blank, Hs|reflexivity].
  - reflexivity.
Qed.

Lemma many_map {X Y} (f : yrule * yval -> option X) (g : Y -> yrule * yval) (h : Y -> X) l :
  (forall y, f (g y) = Some (h y)) -> many f (map g l) = (map h l, []).
Proof. intros H. induction l as [|y l IH]; [reflexivity|]. cbn [map many]. now rewrite H, IH. Qed.

Definition vcnl (cs : list str) : list (yrule * yval) := map (fun c => (y_commentnl, VStr c)) cs.
Lemma many_vcnl cs : many as_commentnl (vcnl cs) = (cs, []).
Proof. unfold vcnl. rewrite (many_map _ _ (fun c => c)) by reflexivity. now rewrite map_id. Qed.

(** Comments, then something else on a line of its own. *)
Lemma gets_comments_star n m cs s k : Forall one_line cs -> solid s -> (forall r, s <> chr "#" :: r) ->
  gets (PStar (R_ y_commentnl)) (clines n cs ++ indent m ++ s) k (vcnl cs) (indent m ++ s) k.
Proof.
  intros Hc Hs Hh. induction Hc as [|c cs H1 _ IH]; cbn [clines flat_map vcnl map].
  - apply gets_star0, fails_commentnl; assumption.
  - rewrite <- !app_assoc.
    assert (E : exists m' s', [NL] ++ clines n cs ++ indent m ++ s = NL :: indent m' ++ s'
                              /\ solid s' /\ clines n cs ++ indent m ++ s = indent m' ++ s').
    { destruct cs as [|c' cs].
      - exists m, s. repeat split; auto.
      - exists n, (lit "#" ++ (c' ++ [NL]) ++ clines n cs ++ indent m ++ s).
        cbn [clines flat_map]. rewrite <- !app_assoc. repeat split; discriminate. }
    destruct E as (m' & s' & E & Hs' & E2).
    fold (clines n cs). rewrite E.
    eapply gets_star1; [apply gets_commentnl; eassumption| |reflexivity].
    rewrite <- E2. apply IH.
Qed.
Lemma gets_comments n m cs s k : Forall one_line cs -> solid s -> (forall r, s <> chr "#" :: r) ->
  gets (R_ y_commentnls) (clines n cs ++ indent m ++ s) k [(y_commentnls, VStrs cs)] (indent m ++ s) k.
Proof.
  intros Hc Hs Hh. eapply gets_rule; [reflexivity|apply gets_comments_star; eassumption|].
  intros t _. cbn [yact]. now rewrite many_vcnl.
Qed.
Lemma gets_comments0 s k : nl_or_end s -> gets (R_ y_commentnls) s k [(y_commentnls, VStrs [])] s k.
Proof.
  intros H. eapply gets_rule; [reflexivity|apply gets_star0, fails_commentnl_nl, H|reflexivity].
Qed.

(** ---- names ---- *)

Lemma eats_star_class f u s k : (forall c, In c u -> f c = true) ->
  (forall c r, s = c :: r -> f c = false) -> eats (PStar (PClass f)) (u ++ s) k u s k.
Proof.
  intros H Hs. induction u as [|c u IH]; cbn [app].
  - apply eats_star0. intros em. destruct s as [|c s]; [apply RClassE|apply RClassF, (Hs c s eq_refl)].
  - eapply eats_star1; [apply eats_class, H; now left|apply IH; intros; apply H; now right|reflexivity].
Qed.

Definition name_alt : yexp := PAlt (y_letter ut) (PAlt (y_number ut) (yl "_")).

Lemma eats_name c s k : name_char ut c -> eats name_alt (c :: s) k [c] s k.
Proof.
  intros H. unfold name_alt. destruct (is_letter ut c) eqn:El.
  { apply eats_alt1, eats_class, El. }
  apply eats_alt2; [intros em; apply RClassF; exact El|].
  destruct (is_number ut c) eqn:En.
  { apply eats_alt1, eats_class, En. }
  apply eats_alt2; [intros em; apply RClassF; exact En|].
  destruct H as [H|[H|H]]; try congruence. subst. exact (eats_str ut (lit "_") s k).
Qed.
Lemma fails_name s k : (forall c r, s = c :: r -> ~ name_char ut c) -> fails name_alt s k.
Proof.
  intros H. destruct s as [|c s]; [scanc|]. specialize (H c s eq_refl).
  unfold name_alt. apply fails_alt; [|apply fails_alt].
  - intros em. apply RClassF. destruct (is_letter ut c) eqn:E; [|reflexivity]. destruct H. now left.
  - intros em. apply RClassF. destruct (is_number ut c) eqn:E; [|reflexivity]. destruct H. now right; left.
  - apply fails_str. cbn [lit strip]. destruct (ceqb _ c) eqn:E; [|reflexivity].
    apply ceqb_eq in E. subst. destruct H. now right; right.
Qed.

Definition key_alt : yexp :=
  PAlt (y_letter ut) (PAlt (y_number ut) (PAlt (yl "_") (PAlt (yl "-") (yl " ")))).
Definition key_char (c : char) : Prop := name_char ut c \/ c = chr "-" \/ c = SP.

Lemma eats_key c s k : key_char c -> eats key_alt (c :: s) k [c] s k.
Proof.
  intros H. unfold key_alt. destruct (is_letter ut c) eqn:El.
  { apply eats_alt1, eats_class, El. }
  apply eats_alt2; [intros em; apply RClassF; exact El|].
  destruct (is_number ut c) eqn:En.
  { apply eats_alt1, eats_class, En. }
  apply eats_alt2; [intros em; apply RClassF; exact En|].
  destruct H as [[H|[H|H]]|[H|H]]; try congruence; subst.
  - apply eats_alt1. exact (eats_str ut (lit "_") s k).
  - apply eats_alt2; [scanc|]. apply eats_alt1. exact (eats_str ut (lit "-") s k).
  - apply eats_alt2; [scanc|]. apply eats_alt2; [scanc|]. exact (eats_str ut (lit " ") s k).
Qed.
Lemma fails_key s k : (forall c r, s = c :: r -> ~ key_char c) -> fails key_alt s k.
Proof.
  intros H. destruct s as [|c s]; [scanc|]. specialize (H c s eq_refl).
  unfold key_alt. apply fails_alt; [|apply fails_alt; [|apply fails_alt; [|apply fails_alt]]].
  - intros em. apply RClassF. destruct (is_letter ut c) eqn:E; [|reflexivity]. destruct H. now left; left.
  - intros em. apply RClassF. destruct (is_number ut c) eqn:E; [|reflexivity]. destruct H. now left; right; left.
  - apply fails_str. cbn [lit strip]. destruct (ceqb _ c) eqn:E; [|reflexivity].
    apply ceqb_eq in E. subst. destruct H. now left; right; right.
  - apply fails_str. cbn [lit strip]. destruct (ceqb _ c) eqn:E; [|reflexivity].
    apply ceqb_eq in E. subst. destruct H. now right; left.
  - apply fails_str. cbn [lit strip]. destruct (ceqb _ c) eqn:E; [|reflexivity].
    apply ceqb_eq in E. subst. destruct H. now right; right.
Qed.

Lemma eats_names u s k : (forall c, In c u -> name_char ut c) -> (forall c r, s = c :: r -> ~ name_char ut c) ->
  eats (PStar name_alt) (u ++ s) k u s k.
Proof.
  intros H Hs. induction u as [|c u IH]; cbn [app].
  - apply eats_star0, fails_name, Hs.
  - eapply eats_star1; [apply eats_name, H; now left|apply IH; intros; apply H; now right|reflexivity].
Qed.
Lemma eats_keys u s k : (forall c, In c u -> key_char c) -> (forall c r, s = c :: r -> ~ key_char c) ->
  eats (PStar key_alt) (u ++ s) k u s k.
Proof.
  intros H Hs. induction u as [|c u IH]; cbn [app].
  - apply eats_star0, fails_key, Hs.
  - eapply eats_star1; [apply eats_key, H; now left|apply IH; intros; apply H; now right|reflexivity].
Qed.

Lemma gets_alias_name a s k : alias_ok ut a -> (forall c r, s = c :: r -> ~ name_char ut c) ->
  gets (R_ y_alias_name) (a ++ s) k [(y_alias_name, VStr a)] s k.
Proof.
  intros [Ha Hc] Hs. destruct a as [|c a]; [contradiction|]. cbn [app].
  eapply gets_leaf; [reflexivity| |reflexivity]. cbn [yaml_grammar snd]. unfold yplus.
  eapply eats_seq; [apply eats_name, Hc; now left|
                    apply eats_names; [intros; apply Hc; now right|exact Hs]|reflexivity].
Qed.
Lemma gets_alias a s k : alias_ok ut a -> (forall c r, s = c :: r -> ~ name_char ut c) ->
  gets (R_ y_alias) (lit "&" ++ a ++ s) k [(y_alias, VStr a)] s k.
Proof.
  intros Ha Hs. eapply gets_rule; [reflexivity| |].
  - cbn [yaml_grammar snd].
    eapply gets_seq0; [exact (eats_str ut (lit "&") _ k)|now apply gets_alias_name].
  - reflexivity.
Qed.

Lemma trim_end_by_id f s : (forall r c, s = r ++ [c] -> f c = false) -> trim_end_by f s = s.
Proof.
  intros H. unfold trim_end_by. destruct (rev s) as [|c r] eqn:E.
  - cbn. apply (f_equal (@rev _)) in E. rewrite rev_involutive in E. now subst.
  - assert (Es : s = rev r ++ [c]).
    { apply (f_equal (@rev _)) in E. rewrite rev_involutive in E. exact E. }
    cbn [drop_while]. rewrite (H _ _ Es), <- E. apply rev_involutive.
Qed.
Lemma trim_end_by_one f s c : f c = true -> trim_end_by f (s ++ [c]) = trim_end_by f s.
Proof. intros H. unfold trim_end_by. rewrite rev_unit. cbn [drop_while]. now rewrite H. Qed.

Lemma key_trim k : plain_key ut k -> trim_end k = k.
Proof.
  intros (_ & Hc & Hl). apply trim_end_by_id. intros r c E.
  destruct (Hc c) as [H|[H|H]].
  - rewrite E. apply in_or_app. right. now left.
  - now apply name_not_ws with (ut := ut).
  - now subst c.
  - subst c. now destruct (Hl r).
Qed.

Lemma punct_not_name c : punct c = true -> ~ name_char ut c.
Proof. intros H Hn. pose proof (name_punct c Hn c H) as E. now rewrite ceqb_refl in E. Qed.

Lemma gets_hash_key key s k : plain_key ut key -> (forall c r, s = c :: r -> ~ key_char c) ->
  gets (R_ y_hash_key) (key ++ s) k [(y_hash_key, VStr key)] s k.
Proof.
  intros Hk Hs. pose proof Hk as ((c & r & -> & Hc) & Hall & _).
  eapply gets_leaf; [reflexivity| |cbn [yact]; now rewrite key_trim]. cbn [yaml_grammar snd app].
  eapply eats_seq; [exact (eats_name c _ k Hc)|
                    apply (eats_keys r); [intros; apply Hall; now right|exact Hs]|reflexivity].
Qed.

End Text.
