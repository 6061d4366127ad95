(** What the grammar reads from written scalars and inline collections. *)
From Coq Require Import ZArith.
From Verif Require Import Base Ast Num Strings Peg PegFacts YamlGrammar Consume Format Spec_Parse YamlTree
  Spec_Format Reads FormatText.
Import ListNotations.

Section Scalars.
Context (ut : unitab).
Notation G := (yaml_grammar ut).
Notation gets := (gets ut).
Notation eats := (eats ut).
Notation eats0 := (eats0 ut).
Notation fails := (fails ut).

(** What follows a value on its line: in block position, in an inline collection. *)
Inductive btail : str -> Prop :=
| bt_end : btail []
| bt_nl r : btail (NL :: r)
| bt_comment r : btail (SP :: chr "#" :: r).
Inductive itail : str -> Prop :=
| it_comma r : itail (chr "," :: r)
| it_array r : itail (SP :: chr "]" :: r)
| it_hash r : itail (SP :: chr "}" :: r).

(** One leading space of the tail may be read together with the value. *)
Inductive after (s : str) : str -> Prop :=
| af_same : no_zs s -> after s s
| af_sp r : no_zs r -> s = SP :: r -> after s r.
Definition left_of (s r : str) : Prop := r = s \/ s = SP :: r.

Lemma after_left s r : after s r -> left_of s r.
Proof. intros [H|r' H E]; [now left|now right]. Qed.
Lemma btail_after s : btail s -> exists r, after s r.
Proof.
  intros [|r|r].
  - exists []. now constructor.
  - exists (NL :: r). now constructor.
  - exists (chr "#" :: r). now apply af_sp.
Qed.
Lemma itail_after s : itail s -> exists r, after s r.
Proof.
  intros [r|r|r].
  - exists (chr "," :: r). now constructor.
  - exists (chr "]" :: r). now apply af_sp.
  - exists (chr "}" :: r). now apply af_sp.
Qed.
Lemma eats_after s r k : after s r -> exists t, eats y_zss s k t r k.
Proof.
  intros [H|r' H ->].
  - exists []. now apply eats_zss0.
  - exists [SP]. apply (eats_zss ut [SP]); [|exact H]. now intros c [<-|[]].
Qed.

(** The tail does not start with a name character or a quote. *)
Definition inert (s : str) : Prop :=
  forall c r, s = c :: r -> ~ name_char ut c /\ c <> QUOTE /\ c <> DQUOTE.
Lemma btail_inert s : btail s -> inert s.
Proof.
  intros H c r E. destruct H; inversion E; subst; repeat split; try discriminate;
    apply punct_not_name; reflexivity.
Qed.
Lemma itail_inert s : itail s -> inert s.
Proof.
  intros H c r' E. destruct H; inversion E; subst; repeat split; try discriminate;
    apply punct_not_name; reflexivity.
Qed.

(** ---- single quoted ---- *)

Lemma fails_c1 d c z k : d <> c -> fails (yc d) (c :: z) k.
Proof.
  intros H. apply fails_str. cbn [strip]. now rewrite (proj2 (ceqb_neq d c) H).
Qed.
Lemma eats_c1 d z k : eats (yc d) (d :: z) k [d] z k.
Proof. exact (eats_str ut [d] z k). Qed.
Lemma fails_c0 d k : fails (yc d) [] k.
Proof. apply fails_str. reflexivity. Qed.

(** Neither a text nor a line break goes on. *)
Definition sq_stop (z : str) : Prop := exists c r, z = c :: r /\ (c = QUOTE \/ c = NL).
Definition nl_stop (z : str) : Prop := forall r, z <> NL :: r.

Lemma eats_sq_chars s z k : ~ In QUOTE s -> ~ In NL s -> sq_stop z ->
  eats (PStar (PNot (yc QUOTE // yc NL) ~~ y_any)%peg) (s ++ z) k s z k.
Proof.
  intros H1 H2 Hz. induction s as [|c s IH]; cbn [app].
  - apply eats_star0, fails_seq1. destruct Hz as (c & r & -> & [-> | ->]).
    + eapply fails_not. apply eats_alt1, eats_c1.
    + eapply fails_not. apply eats_alt2; [apply fails_c1; discriminate|apply eats_c1].
  - eapply eats_star1 with (t1 := [c]); [|apply IH; intros H; [apply H1|apply H2]; now right|reflexivity].
    eapply eats_seq; [apply eats_not, fails_alt; apply fails_c1; intros <-; [apply H1|apply H2]; now left
                     |now apply eats_class|reflexivity].
Qed.

Lemma eats_nls n z k : nl_stop z -> eats (PStar (yc NL)) (repeat_char NL n ++ z) k (repeat_char NL n) z k.
Proof.
  intros Hz. induction n as [|n IH]; cbn [repeat_char app].
  - apply eats_star0. destruct z as [|c z]; [apply fails_c0|apply fails_c1].
    intros <-. now destruct (Hz z).
  - eapply eats_star1; [apply eats_c1|exact IH|reflexivity].
Qed.

Lemma gets_blank_lines n z k : 1 <= n -> nl_stop z ->
  gets (R_ y_blank_lines) (repeat_char NL (n + 1) ++ z) k [(y_blank_lines, VNat n)] z k.
Proof.
  intros Hn Hz. destruct n as [|n]; [lia|]. cbn [Nat.add repeat_char app].
  eapply gets_leaf; [reflexivity| |].
  - cbn [yaml_grammar snd]. unfold yplus. rewrite Nat.add_1_r. cbn [repeat_char app].
    eapply eats_seq; [apply eats_c1| |reflexivity].
    eapply eats_seq; [apply eats_c1|apply eats_nls, Hz|reflexivity].
  - cbn [yact app length]. rewrite repeat_char_length. repeat f_equal; lia.
Qed.
Lemma fails_blank_lines1 z k : nl_stop z -> fails (R_ y_blank_lines) (NL :: z) k.
Proof.
  intros Hz. apply fails_rule. cbn [yaml_grammar snd].
  eapply fails_seq0; [apply eats_c1|]. apply fails_seq1.
  destruct z as [|c z]; [apply fails_c0|apply fails_c1]. intros <-. now destruct (Hz z).
Qed.

(** The text after a part. *)
Definition sq_next (p : sq_part) (z : str) : Prop :=
  match p with SQ_Str _ => sq_stop z | SQ_Quote => True | _ => nl_stop z end.

Lemma gets_sq_part p z k : sq_ok p -> sq_next p z ->
  gets (R_ y_sq_part) (format_sq_part p ++ z) k [(y_sq_part, VSq p)] z k.
Proof.
  intros Hp Hz. destruct p as [s| |n|]; cbn [sq_ok sq_next format_sq_part] in *.
  - destruct Hp as (Hne & Hq & Hnl). destruct s as [|c s]; [contradiction|].
    assert (Hc : c <> QUOTE /\ c <> NL) by (split; intros ->; [apply Hq|apply Hnl]; now left).
    cbn [app]. eapply gets_rule; [reflexivity| |].
    + cbn [yaml_grammar snd]. apply gets_alt2.
      { apply fails_rule. cbn [yaml_grammar snd]. apply fails_seq1, fails_c1. intros <-. tauto. }
      apply gets_alt2.
      { apply fails_rule. cbn [yaml_grammar snd]. apply fails_seq1, fails_c1. intros <-. tauto. }
      apply gets_alt2.
      { apply fails_rule. cbn [yaml_grammar snd]. apply fails_c1. intros <-. tauto. }
      eapply gets_leaf; [reflexivity| |reflexivity]. cbn [yaml_grammar snd]. unfold yplus.
      eapply eats_seq with (t1 := [c]); [|apply eats_sq_chars with (s := s); try exact Hz|].
      * eapply eats_seq; [apply eats_not, fails_alt; apply fails_c1; intros <-; tauto
                         |now apply eats_class|reflexivity].
      * intros H. apply Hq. now right.
      * intros H. apply Hnl. now right.
      * reflexivity.
    + reflexivity.
  - cbn [app]. eapply gets_rule; [reflexivity| |].
    + cbn [yaml_grammar snd]. apply gets_alt1. apply gets_silent; [reflexivity|].
      cbn [yaml_grammar snd]. eapply gets_seq0; [apply eats_c1|].
      eapply gets_leaf; [reflexivity|apply eats_c1|reflexivity].
    + reflexivity.
  - eapply gets_rule; [reflexivity| |].
    + cbn [yaml_grammar snd]. apply gets_alt2.
      { rewrite Nat.add_1_r. cbn [repeat_char app]. scanc. }
      apply gets_alt1. apply gets_blank_lines; assumption.
    + reflexivity.
  - cbn [app]. eapply gets_rule; [reflexivity| |].
    + cbn [yaml_grammar snd]. apply gets_alt2; [scanc|].
      apply gets_alt2; [apply fails_blank_lines1, Hz|].
      apply gets_alt1. eapply gets_leaf; [reflexivity|apply eats_c1|reflexivity].
    + reflexivity.
Qed.

Lemma sq_head ps z : Forall sq_ok ps -> no_neighbours sq_merge ps ->
  match ps with p :: ps' => sq_next p (flat_map format_sq_part ps' ++ QUOTE :: z) | [] => True end.
Proof.
  destruct ps as [|p ps]; [easy|]. intros Ho Hn. inversion Ho as [|? ? _ Ho']; subst.
  destruct ps as [|q ps]; cbn [flat_map app].
  - destruct p; cbn; try exact I; try (intros r; discriminate). unfold sq_stop. eauto.
  - destruct Hn as [Hn _]. inversion Ho' as [|? ? Hq _]; subst.
    destruct p, q; cbn [sq_merge sq_next format_sq_part sq_ok] in *; try tauto; rewrite <- ?app_assoc; cbn [app];
      unfold sq_stop, nl_stop; eauto.
    + rewrite Nat.add_1_r. cbn [repeat_char app]. eauto.
    + destruct Hq as (H1 & _ & H2). destruct s; [contradiction|]. intros r E. inversion E; subst.
      apply H2. now left.
    + discriminate.
    + destruct Hq as (H1 & _ & H2). destruct s; [contradiction|]. intros r E. inversion E; subst.
      apply H2. now left.
    + discriminate.
Qed.

Definition vsq (ps : list sq_part) : list (yrule * yval) := map (fun p => (y_sq_part, VSq p)) ps.
Lemma gets_sq_parts ps z k : sq_canon ps -> (forall r, z <> QUOTE :: r) ->
  gets (PStar (R_ y_sq_part)) (flat_map format_sq_part ps ++ QUOTE :: z) k (vsq ps) (QUOTE :: z) k.
Proof.
  intros [Ho Hn] Hz. induction ps as [|p ps IH]; cbn [flat_map app vsq map].
  - apply gets_star0, fails_rule. cbn [yaml_grammar snd]. apply fails_alt.
    { apply fails_rule. cbn [yaml_grammar snd]. eapply fails_seq0; [apply eats_c1|].
      apply fails_rule. cbn [yaml_grammar snd]. destruct z as [|c z]; [apply fails_c0|].
      apply fails_c1. intros <-. now destruct (Hz z). }
    apply fails_alt; [scanc|]. apply fails_alt; [scanc|].
    apply fails_rule. cbn [yaml_grammar snd]. apply fails_seq1, fails_seq1.
    eapply fails_not. apply eats_alt1, eats_c1.
  - pose proof (sq_head (p :: ps) z Ho Hn) as Hh. inversion Ho; subst. rewrite <- app_assoc.
    eapply gets_star1; [apply gets_sq_part; eassumption| |reflexivity].
    apply IH; [assumption|]. destruct ps; [exact I|apply Hn].
Qed.

Lemma gets_single ps z r k : sq_canon ps -> inert z -> after z r ->
  gets (R_ y_single_quoted) (QUOTE :: flat_map format_sq_part ps ++ QUOTE :: z) k
    [(y_single_quoted, VYaml (SingleQ ps))] r k.
Proof.
  intros Hp Hi Ha. eapply gets_rule; [reflexivity| |].
  - cbn [yaml_grammar snd]. eapply gets_seq0; [apply eats_push, eats_c1|].
    eapply gets_seq.
    + eapply gets_rule; [reflexivity|apply gets_sq_parts; [exact Hp|]|].
      * intros r' ->. now destruct (Hi _ _ eq_refl).
      * intros t _. cbn [yact]. unfold vsq. rewrite (many_map _ _ (fun c => c)) by reflexivity.
        rewrite map_id. reflexivity.
    + eapply gets_seq0; [exact (eats_pop ut [QUOTE] z k)|].
      destruct (eats_after z r k Ha) as (t & E). eapply eats_gets, E.
    + reflexivity.
  - reflexivity.
Qed.

(** ---- double quoted ---- *)

Definition dq_stop (z : str) : Prop := exists c r, z = c :: r /\ (c = DQUOTE \/ c = BACKSLASH \/ c = NL).

Lemma eats_dq_chars s z k : ~ In DQUOTE s -> ~ In BACKSLASH s -> ~ In NL s -> dq_stop z ->
  eats (PStar (PNot (yc DQUOTE // yc BACKSLASH // yc NL) ~~ y_any)%peg) (s ++ z) k s z k.
Proof.
  intros H1 H3 H2 Hz. induction s as [|c s IH]; cbn [app].
  - apply eats_star0, fails_seq1. destruct Hz as (c & r & -> & [-> | [-> | ->]]).
    + eapply fails_not. apply eats_alt1, eats_c1.
    + eapply fails_not. apply eats_alt2; [apply fails_c1; discriminate|]. apply eats_alt1, eats_c1.
    + eapply fails_not. apply eats_alt2; [apply fails_c1; discriminate|].
      apply eats_alt2; [apply fails_c1; discriminate|apply eats_c1].
  - eapply eats_star1 with (t1 := [c]); [|apply IH; intros H; [apply H1|apply H3|apply H2]; now right|reflexivity].
    eapply eats_seq; [apply eats_not, fails_alt; [|apply fails_alt]; apply fails_c1; intros <-;
                        [apply H1|apply H3|apply H2]; now left
                     |now apply eats_class|reflexivity].
Qed.

Definition dq_next (p : dq_part) (z : str) : Prop :=
  match p with DQ_Str _ => dq_stop z | DQ_Esc _ => True | _ => nl_stop z end.

Lemma gets_esc e z k : gets (R_ y_esc_value) (esc_char e :: z) k [(y_esc_value, VEsc e)] z k.
Proof.
  apply gets_leaf with (t := [esc_char e]); [reflexivity| |destruct e; reflexivity].
  cbn [yaml_grammar snd].
  destruct e; cbn [esc_char];
    repeat first [ apply eats_alt1; exact (eats_str ut [_] z k)
                 | exact (eats_str ut [_] z k)
                 | apply eats_alt2; [scanc|] ].
Qed.

Lemma gets_dq_part p z k : dq_ok p -> dq_next p z ->
  gets (R_ y_dq_part) (format_dq_part p ++ z) k [(y_dq_part, VDq p)] z k.
Proof.
  intros Hp Hz. destruct p as [s|e|n|]; cbn [dq_ok dq_next format_dq_part] in *.
  - destruct Hp as (Hne & Hq & Hb & Hnl). destruct s as [|c s]; [contradiction|].
    assert (Hc : c <> DQUOTE /\ c <> BACKSLASH /\ c <> NL)
      by (repeat split; intros ->; [apply Hq|apply Hb|apply Hnl]; now left).
    cbn [app]. eapply gets_rule; [reflexivity| |].
    + cbn [yaml_grammar snd]. apply gets_alt2.
      { apply fails_rule. cbn [yaml_grammar snd]. apply fails_seq1, fails_c1. intros <-. tauto. }
      apply gets_alt2.
      { apply fails_rule. cbn [yaml_grammar snd]. apply fails_seq1, fails_c1. intros <-. tauto. }
      apply gets_alt2.
      { apply fails_rule. cbn [yaml_grammar snd]. apply fails_c1. intros <-. tauto. }
      eapply gets_leaf; [reflexivity| |reflexivity]. cbn [yaml_grammar snd]. unfold yplus.
      eapply eats_seq with (t1 := [c]); [|apply eats_dq_chars with (s := s); try exact Hz|].
      * eapply eats_seq; [apply eats_not, fails_alt; [|apply fails_alt]; apply fails_c1; intros <-; tauto
                         |now apply eats_class|reflexivity].
      * intros H. apply Hq. now right.
      * intros H. apply Hb. now right.
      * intros H. apply Hnl. now right.
      * reflexivity.
    + reflexivity.
  - cbn [app]. eapply gets_rule; [reflexivity| |].
    + cbn [yaml_grammar snd]. apply gets_alt1. apply gets_silent; [reflexivity|].
      cbn [yaml_grammar snd]. eapply gets_seq0; [apply eats_c1|apply gets_esc].
    + reflexivity.
  - eapply gets_rule; [reflexivity| |].
    + cbn [yaml_grammar snd]. apply gets_alt2.
      { rewrite Nat.add_1_r. cbn [repeat_char app]. scanc. }
      apply gets_alt1. apply gets_blank_lines; assumption.
    + reflexivity.
  - cbn [app]. eapply gets_rule; [reflexivity| |].
    + cbn [yaml_grammar snd]. apply gets_alt2; [scanc|].
      apply gets_alt2; [apply fails_blank_lines1, Hz|].
      apply gets_alt1. eapply gets_leaf; [reflexivity|apply eats_c1|reflexivity].
    + reflexivity.
Qed.

Lemma dq_head ps z : Forall dq_ok ps -> no_neighbours dq_merge ps ->
  match ps with p :: ps' => dq_next p (flat_map format_dq_part ps' ++ DQUOTE :: z) | [] => True end.
Proof.
  destruct ps as [|p ps]; [easy|]. intros Ho Hn. inversion Ho as [|? ? _ Ho']; subst.
  destruct ps as [|q ps]; cbn [flat_map app].
  - destruct p; cbn; try exact I; try (intros r; discriminate). unfold dq_stop. eauto.
  - destruct Hn as [Hn _]. inversion Ho' as [|? ? Hq _]; subst.
    destruct p, q; cbn [dq_merge dq_next format_dq_part dq_ok] in *; try tauto; rewrite <- ?app_assoc; cbn [app];
      unfold dq_stop, nl_stop; eauto.
    + do 2 eexists. split; [reflexivity|tauto].
    + rewrite Nat.add_1_r. cbn [repeat_char app]. eauto 6.
    + do 2 eexists. split; [reflexivity|tauto].
    + destruct Hq as (H1 & _ & _ & H2). destruct s; [contradiction|]. intros r E. inversion E; subst.
      apply H2. now left.
    + discriminate.
    + destruct Hq as (H1 & _ & _ & H2). destruct s; [contradiction|]. intros r E. inversion E; subst.
      apply H2. now left.
    + discriminate.
Qed.

Definition vdq (ps : list dq_part) : list (yrule * yval) := map (fun p => (y_dq_part, VDq p)) ps.
Lemma gets_dq_parts ps z k : dq_canon ps ->
  gets (PStar (R_ y_dq_part)) (flat_map format_dq_part ps ++ DQUOTE :: z) k (vdq ps) (DQUOTE :: z) k.
Proof.
  intros [Ho Hn]. induction ps as [|p ps IH]; cbn [flat_map app vdq map].
  - apply gets_star0, fails_rule. cbn [yaml_grammar snd]. apply fails_alt; [scanc|].
    apply fails_alt; [scanc|]. apply fails_alt; [scanc|].
    apply fails_rule. cbn [yaml_grammar snd]. apply fails_seq1, fails_seq1.
    eapply fails_not. apply eats_alt1, eats_c1.
  - pose proof (dq_head (p :: ps) z Ho Hn) as Hh. inversion Ho; subst. rewrite <- app_assoc.
    eapply gets_star1; [apply gets_dq_part; eassumption| |reflexivity].
    apply IH; [assumption|]. destruct ps; [exact I|apply Hn].
Qed.

Lemma gets_double ps z r k : dq_canon ps -> after z r ->
  gets (R_ y_double_quoted) (DQUOTE :: flat_map format_dq_part ps ++ DQUOTE :: z) k
    [(y_double_quoted, VYaml (DoubleQ ps))] r k.
Proof.
  intros Hp Ha. eapply gets_rule; [reflexivity| |].
  - cbn [yaml_grammar snd]. eapply gets_seq0; [apply eats_push, eats_c1|].
    eapply gets_seq.
    + eapply gets_rule; [reflexivity|apply gets_dq_parts, Hp|].
      intros t _. cbn [yact]. unfold vdq. rewrite (many_map _ _ (fun c => c)) by reflexivity.
      rewrite map_id. reflexivity.
    + eapply gets_seq0; [exact (eats_pop ut [DQUOTE] z k)|].
      destruct (eats_after z r k Ha) as (t & E). eapply eats_gets, E.
    + reflexivity.
  - reflexivity.
Qed.

(** ---- anchors ---- *)

Lemma gets_anchor a z k : alias_ok ut a -> inert z ->
  gets (R_ y_anchor) (chr "*" :: a ++ z) k [(y_anchor, VYaml (Anchor a))] z k.
Proof.
  intros Ha Hz. eapply gets_rule; [reflexivity| |].
  - cbn [yaml_grammar snd]. eapply gets_seq0; [exact (eats_str ut (lit "*") _ k)|].
    apply gets_alias_name; [exact Ha|]. intros c r E. apply (Hz c r E).
  - reflexivity.
Qed.

(** ---- unquoted text ---- *)

Lemma fails_colon c z k : (c = chr ":" -> forall r, z <> SP :: r) -> fails (yl ": ") (c :: z) k.
Proof.
  intros H. apply fails_str. change (lit ": ") with [chr ":"; SP]. cbn [strip].
  destruct (ceqb _ c) eqn:E; [|reflexivity]. apply ceqb_eq in E. destruct z as [|d z]; [reflexivity|].
  destruct (ceqb SP d) eqn:E2; [|reflexivity]. apply ceqb_eq in E2. subst. now destruct (H eq_refl z).
Qed.
Lemma fails_nl1 c z k : c <> NL -> c <> CR -> fails y_nl (c :: z) k.
Proof. intros H1 H2. apply fails_nl. intros ? ? E. inversion E; subst. auto. Qed.

Ltac disallowed H :=
  repeat match goal with
  | |- fails (PAlt _ _) _ _ => apply fails_alt
  | |- fails (yl ": ") _ _ => apply fails_colon; assumption
  | |- fails y_nl _ _ => apply fails_nl1; assumption
  | |- fails (yc _) _ _ => apply fails_c1; intros <-; apply H; vm_compute; tauto
  | |- fails (yl ?s) (?c :: ?z) ?k =>
      apply (fails_c1 (chr s)); intros <-; apply H; vm_compute; tauto
  end.

Lemma fails_dis c z k : ~ In c (lit "#") -> c <> NL -> c <> CR -> (c = chr ":" -> forall r, z <> SP :: r) ->
  fails (R_ y_dis) (c :: z) k.
Proof. intros H H1 H2 H3. apply fails_rule. cbn [yaml_grammar snd]. disallowed H. Qed.
Lemma fails_dis_start c z k : ~ In c (lit "[]{}'#>|" ++ [DQUOTE]) -> c <> NL -> c <> CR ->
  (c = chr ":" -> forall r, z <> SP :: r) -> fails (R_ y_dis_start) (c :: z) k.
Proof. intros H H1 H2 H3. apply fails_rule. cbn [yaml_grammar snd]. disallowed H. Qed.
Lemma fails_dis_inline c z k : ~ In c (lit ",[]{}#>|" ++ [DQUOTE]) -> c <> NL -> c <> CR ->
  (c = chr ":" -> forall r, z <> SP :: r) -> fails (R_ y_dis_inline) (c :: z) k.
Proof. intros H H1 H2 H3. apply fails_rule. cbn [yaml_grammar snd]. disallowed H. Qed.
Lemma fails_dis_inline_start c z k : ~ In c (lit ",[]{}'#" ++ [DQUOTE]) -> c <> NL -> c <> CR ->
  (c = chr ":" -> forall r, z <> SP :: r) -> fails (R_ y_dis_inline_start) (c :: z) k.
Proof. intros H H1 H2 H3. apply fails_rule. cbn [yaml_grammar snd]. disallowed H. Qed.

Lemma eats0_unq item D u s k : snd (G item) = PSeq (PNot (R_ D)) y_any ->
  (forall a c b, u = a ++ c :: b -> fails (R_ D) (c :: b ++ s) k) ->
  fails (PSeq (PNot (R_ D)) y_any) s k ->
  eats0 (PStar (R_ item)) (u ++ s) k u s k.
Proof.
  intros Hi H Hs. induction u as [|c u IH]; cbn [app].
  - apply eats_0, eats_star0, fails_rule. rewrite Hi. exact Hs.
  - eapply eats0_star1; [|apply IH|].
    + apply eats0_rule. rewrite Hi. apply eats_0.
      eapply eats_seq; [apply eats_not, (H [] c u eq_refl)|now apply eats_class|reflexivity].
    + intros a d b E. apply (H (c :: a) d b). now rewrite E.
    + reflexivity.
Qed.

Lemma stop_end D k : fails (R_ D) [] k -> fails (PSeq (PNot (R_ D)) y_any) [] k.
Proof. intros H em. eapply RSeq2; [apply eats_not, H|apply RClassE|reflexivity]. Qed.
Lemma stop_at D s k t ns r k' : runs G false (R_ D) s k (Ok t ns r k') ->
  fails (PSeq (PNot (R_ D)) y_any) s k.
Proof. intros H. apply fails_seq1. eapply fails_not, H. Qed.

Lemma trim_same s : (forall r, s <> r ++ [SP]) -> trim_end_spaces s = s.
Proof.
  intros H. apply trim_end_by_id. intros r c E. apply ceqb_neq. intros <-. now destruct (H r).
Qed.
Lemma trim_one s : (forall r, s <> r ++ [SP]) -> trim_end_spaces (s ++ [SP]) = s.
Proof.
  intros H. unfold trim_end_spaces. rewrite trim_end_by_one by reflexivity. now apply trim_same.
Qed.

Lemma gets_unq r start D0 item D c u s k :
  fst (G r) = Atomic -> snd (G r) = PSeq (R_ start) (PStar (R_ item)) ->
  snd (G start) = PSeq (PNot (R_ D0)) y_any -> snd (G item) = PSeq (PNot (R_ D)) y_any ->
  (forall t, yact r t [] = CVal (VYaml (Unquoted (trim_end_spaces t)))) ->
  fails (R_ D0) (c :: u ++ s) k ->
  (forall a d b, u = a ++ d :: b -> fails (R_ D) (d :: b ++ s) k) ->
  fails (PSeq (PNot (R_ D)) y_any) s k ->
  gets (R_ r) (c :: u ++ s) k [(r, VYaml (Unquoted (trim_end_spaces (c :: u))))] s k.
Proof.
  intros Hm Hr Hst Hit Hv H0 H Hs. eapply gets_atomic; [exact Hm| |apply Hv]. rewrite Hr.
  eapply eats0_seq with (t1 := [c]); [|eapply eats0_unq; eassumption|reflexivity].
  apply eats0_rule. rewrite Hst. apply eats_0.
  eapply eats_seq; [apply eats_not, H0|now apply eats_class|reflexivity].
Qed.

(** A colon inside is not followed by a space, whatever comes next. *)
Lemma colon_next s z : (forall r, s <> r ++ [chr ":"]) -> ~ has_pair (chr ":") SP s ->
  forall a c b, s = a ++ c :: b -> c = chr ":" -> forall r, b ++ z <> SP :: r.
Proof.
  intros H1 H2 a c b E -> r Er. destruct b as [|d b].
  - now destruct (H1 a).
  - inversion Er; subst. apply H2. now exists a, b.
Qed.

Lemma one_line_at s a c b : one_line s -> s = a ++ c :: b -> c <> NL /\ c <> CR.
Proof.
  intros [H1 H2] ->. split; intros ->; [apply H1|apply H2]; apply in_or_app; right; now left.
Qed.

Lemma gets_unquoted s z : block_text ut s -> btail z ->
  exists r, left_of z r /\ forall k,
    gets (R_ y_unquoted_string) (s ++ z) k [(y_unquoted_string, VYaml (Unquoted s))] r k.
Proof.
  intros ((c & u & Es & Hzs & Hc) & Hl & Hh & Hsp & (Hc1 & Hc2) & _) Hz.
  assert (Hp : ~ has_pair (chr ":") SP s) by (apply Hc2; reflexivity).
  assert (Hdis : forall k z' a d b, s = a ++ d :: b -> fails (R_ y_dis) (d :: b ++ z') k).
  { intros k z' a d b E. destruct (one_line_at s a d b Hl E). apply fails_dis; try assumption.
    - intros [<-|[]]. apply Hh. rewrite E. apply in_or_app. right. now left.
    - now apply (colon_next s z' Hc1 Hp a d b). }
  assert (Hst : forall k z', fails (R_ y_dis_start) (c :: u ++ z') k).
  { intros k z'. destruct (one_line_at s [] c u Hl Es). apply fails_dis_start; try assumption.
    - intros H1. apply Hc. clear - H1 Hh Es.
      cbn [lit app In] in *. repeat (destruct H1 as [H1|H1]; [try tauto|]); try tauto.
      exfalso. apply Hh. rewrite Es. left. symmetry. exact H1.
    - now apply (colon_next s z' Hc1 Hp [] c u). }
  assert (Hend : forall k x, x = [] \/ (exists r, x = NL :: r) \/ (exists r, x = chr "#" :: r) ->
                   fails (PSeq (PNot (R_ y_dis)) y_any) x k).
  { intros k x [->|[(r & ->)|(r & ->)]].
    - apply stop_end. scanc.
    - eapply stop_at. eapply RRule. cbn [yaml_grammar snd].
      apply eats_alt2; [scanc|]. apply eats_alt2; [scanc|]. apply eats_nl.
    - eapply stop_at. eapply RRule. cbn [yaml_grammar snd].
      apply eats_alt2; [scanc|]. apply eats_alt1. exact (eats_str ut (lit "#") r k). }
  destruct Hz as [|r|r].
  - exists []. split; [now left|]. intros k. rewrite <- (trim_same s Hsp) at 2. subst s. cbn [app].
    eapply gets_unq; try reflexivity; [apply Hst| |apply Hend; auto].
    intros a d b E. apply (Hdis k [] (c :: a)). now rewrite E.
  - exists (NL :: r). split; [now left|]. intros k. rewrite <- (trim_same s Hsp) at 2. subst s. cbn [app].
    eapply gets_unq; try reflexivity; [apply Hst| |apply Hend; eauto].
    intros a d b E. apply (Hdis k _ (c :: a)). now rewrite E.
  - exists (chr "#" :: r). split; [now right|]. intros k. rewrite <- (trim_one s Hsp) at 2. subst s. cbn [app].
    change (c :: u ++ SP :: chr "#" :: r) with (c :: u ++ [SP] ++ chr "#" :: r).
    rewrite app_assoc.
    eapply gets_unq; try reflexivity; [rewrite <- app_assoc; apply Hst| |apply Hend; eauto].
    intros a d b E. destruct b as [|d' b'] using rev_ind.
    + apply app_inj_tail in E as [_ <-]. apply fails_dis; try discriminate. intros [H|[]]. discriminate.
    + rewrite <- app_assoc. rewrite app_comm_cons, app_assoc in E. apply app_inj_tail in E as [E <-].
      apply (Hdis k _ (c :: a)). now rewrite E.
Qed.

Lemma gets_unquoted_inline s z : inline_text ut s -> itail z ->
  exists r, left_of z r /\ forall k,
    gets (R_ y_unquoted_inline_string) (s ++ z) k [(y_unquoted_inline_string, VYaml (Unquoted s))] r k.
Proof.
  intros ((c & u & Es & Hzs & Hc) & Hl & Hsp & Hh & Hc1 & Hp & _) Hz.
  assert (Hdis : forall k z' a d b, s = a ++ d :: b -> fails (R_ y_dis_inline) (d :: b ++ z') k).
  { intros k z' a d b E. destruct (one_line_at s a d b Hl E). apply fails_dis_inline; try assumption.
    - intros H1. apply (Hh d H1). rewrite E. apply in_or_app. right. now left.
    - now apply (colon_next s z' Hc1 Hp a d b). }
  assert (Hst : forall k z', fails (R_ y_dis_inline_start) (c :: u ++ z') k).
  { intros k z'. destruct (one_line_at s [] c u Hl Es). apply fails_dis_inline_start; try assumption.
    - intros H1. assert (Hin : In c s) by (rewrite Es; now left).
      assert (Hnot : ~ In c (lit ",[]{}#>|" ++ [DQUOTE])) by (intros H2; now apply (Hh c)).
      clear - H1 Hc Hnot. cbn [lit app In] in *.
      repeat (destruct H1 as [H1|H1]; [try tauto|]); try tauto. apply Hc. now subst.
    - now apply (colon_next s z' Hc1 Hp [] c u). }
  assert (Hend : forall k x r, x = chr "," :: r \/ x = chr "]" :: r \/ x = chr "}" :: r ->
                   fails (PSeq (PNot (R_ y_dis_inline)) y_any) x k).
  { intros k x r [->|[->| ->]].
    - eapply stop_at. eapply RRule. cbn [yaml_grammar snd].
      apply eats_alt1. exact (eats_str ut (lit ",") r k).
    - eapply stop_at. eapply RRule. cbn [yaml_grammar snd].
      apply eats_alt2; [scanc|]. apply eats_alt2; [scanc|].
      apply eats_alt1. exact (eats_str ut (lit "]") r k).
    - eapply stop_at. eapply RRule. cbn [yaml_grammar snd].
      apply eats_alt2; [scanc|]. apply eats_alt2; [scanc|]. apply eats_alt2; [scanc|].
      apply eats_alt2; [scanc|]. apply eats_alt1. exact (eats_str ut (lit "}") r k). }
  assert (Hsps : forall k x r, x = chr "]" :: r \/ x = chr "}" :: r ->
    gets (R_ y_unquoted_inline_string) (s ++ SP :: x) k [(y_unquoted_inline_string, VYaml (Unquoted s))] x k).
  { intros k x r Hx. rewrite <- (trim_one s Hsp) at 2. subst s. cbn [app].
    change (c :: u ++ SP :: x) with (c :: u ++ [SP] ++ x). rewrite app_assoc.
    eapply gets_unq; try reflexivity; [rewrite <- app_assoc; apply Hst| |apply (Hend k x r); tauto].
    intros a d b E. destruct b as [|d' b'] using rev_ind.
    + apply app_inj_tail in E as [_ <-]. apply fails_dis_inline; try discriminate.
      intros H. vm_compute in H. repeat destruct H as [H|H]; try discriminate; exact H.
    + rewrite <- app_assoc. rewrite app_comm_cons, app_assoc in E. apply app_inj_tail in E as [E <-].
      apply (Hdis k _ (c :: a)). now rewrite E. }
  destruct Hz as [r|r|r].
  - exists (chr "," :: r). split; [now left|]. intros k. rewrite <- (trim_same s Hsp) at 2. subst s. cbn [app].
    eapply gets_unq; try reflexivity; [apply Hst| |apply (Hend k _ r); auto].
    intros a d b E. apply (Hdis k _ (c :: a)). now rewrite E.
  - exists (chr "]" :: r). split; [now right|]. intros k. apply (Hsps k _ r). auto.
  - exists (chr "}" :: r). split; [now right|]. intros k. apply (Hsps k _ r). auto.
Qed.

End Scalars.
