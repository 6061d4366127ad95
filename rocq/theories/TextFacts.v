(** Serialized and pretty printed values are canonical: texts. *)
From Coq Require Import ZArith.
From Verif Require Import Base Ast Strings Format Num Pretty YamlGrammar Spec_Strings StringsFacts
  Spec_Pretty PrettyFacts Ser Spec_Serde SerdeFacts Spec_Parse Spec_Format FormatText Spec_Text.
Import ListNotations.

(** ---- quoted parts are canonical ---- *)

Lemma nn_snoc {A} (bad : A -> A -> Prop) l x : no_neighbours bad l ->
  (forall l' y, l = l' ++ [y] -> ~ bad y x) -> no_neighbours bad (l ++ [x]).
Proof.
  induction l as [|a l IH]; intros N H; [exact I|]. destruct l as [|b l].
  - cbn. split; [|exact I]. exact (H [] a eq_refl).
  - destruct N as [N1 N2]. change ((a :: b :: l) ++ [x]) with (a :: b :: (l ++ [x])).
    split; [exact N1|]. apply IH; [exact N2|]. intros l' y E. apply (H (a :: l') y). now rewrite E.
Qed.

Definition sq_simple (p : sq_part) : Prop := match p with SQ_Str _ | SQ_Quote => sq_ok p | _ => False end.
Definition dq_simple (p : dq_part) : Prop := match p with DQ_Str _ | DQ_Esc _ => dq_ok p | _ => False end.

Lemma sq_loop_canon s : forall parts buf, ~ In NL s -> ~ In NL buf -> ~ In QUOTE buf ->
  Forall sq_simple parts -> no_neighbours sq_merge parts ->
  (forall l y, parts = l ++ [y] -> y = SQ_Quote) ->
  let '(parts', buf') := sq_loop s parts buf in
  ~ In NL buf' /\ ~ In QUOTE buf' /\ Forall sq_simple parts' /\ no_neighbours sq_merge parts' /\
  (forall l y, parts' = l ++ [y] -> y = SQ_Quote).
Proof.
  induction s as [|c s IH]; intros parts buf Hn Hb Hq HF HN HL; cbn [sq_loop]; [auto|].
  assert (Hs : ~ In NL s) by (intros X; apply Hn; now right).
  assert (Hc : c <> NL) by (intros ->; apply Hn; now left).
  destruct (ceqb c QUOTE) eqn:E.
  - apply IH; try assumption; try (now intros []).
    + apply Forall_app. split; [|now constructor]. destruct buf as [|b buf]; cbn [is_nil]; [exact HF|].
      apply Forall_app. split; [exact HF|]. constructor; [|constructor]. cbn. repeat split; auto. discriminate.
    + apply nn_snoc.
      * destruct buf as [|b buf]; cbn [is_nil]; [exact HN|]. apply nn_snoc; [exact HN|].
        intros l' y El. rewrite (HL _ _ El). cbn. auto.
      * intros l' y _ B. destruct y; exact B.
    + intros l y El. apply app_inj_tail in El as [_ <-]. reflexivity.
  - apply ceqb_neq in E. apply IH; try assumption; intros X; apply in_app_or in X as [X|[X|[]]]; auto.
Qed.

Lemma sq_parts_simple s : ~ In NL s -> Forall sq_simple (str_to_single_quoted_parts s) /\
  no_neighbours sq_merge (str_to_single_quoted_parts s).
Proof.
  intros Hn. unfold str_to_single_quoted_parts.
  pose proof (sq_loop_canon s [] [] Hn (fun x => x) (fun x => x) (Forall_nil _) I) as H.
  specialize (H (fun l y E => match app_cons_not_nil l [] y E with end)).
  destruct (sq_loop s [] []) as [parts buf]. destruct H as (A & B & C & D & E).
  destruct buf as [|b buf]; cbn [is_nil]; [auto|]. split.
  - apply Forall_app. split; [exact C|]. constructor; [|constructor]. cbn. repeat split; auto. discriminate.
  - apply nn_snoc; [exact D|]. intros l' y El. rewrite (E _ _ El). cbn. auto.
Qed.

Lemma dq_loop_canon esc s : (forall c, In c s -> esc c = None -> c <> DQUOTE /\ c <> BACKSLASH /\ c <> NL) ->
  forall parts buf, ~ In DQUOTE buf -> ~ In BACKSLASH buf -> ~ In NL buf ->
  Forall dq_simple parts -> no_neighbours dq_merge parts ->
  (forall l y, parts = l ++ [y] -> exists e, y = DQ_Esc e) ->
  let '(parts', buf') := dq_loop esc s parts buf in
  ~ In DQUOTE buf' /\ ~ In BACKSLASH buf' /\ ~ In NL buf' /\ Forall dq_simple parts' /\
  no_neighbours dq_merge parts' /\
  (forall l y, parts' = l ++ [y] -> exists e, y = DQ_Esc e).
Proof.
  induction s as [|c s IH]; intros Hs parts buf H1 H2 H3 HF HN HL; cbn [dq_loop]; [tauto|].
  assert (Hs' : forall c, In c s -> esc c = None -> c <> DQUOTE /\ c <> BACKSLASH /\ c <> NL)
    by (intros d Hd; apply Hs; now right).
  destruct (esc c) as [e|] eqn:E.
  - apply IH; try assumption; try (now intros []).
    + apply Forall_app. split; [|now constructor]. destruct buf as [|b buf]; cbn [is_nil]; [exact HF|].
      apply Forall_app. split; [exact HF|]. constructor; [|constructor]. cbn. repeat split; auto. discriminate.
    + apply nn_snoc.
      * destruct buf as [|b buf]; cbn [is_nil]; [exact HN|]. apply nn_snoc; [exact HN|].
        intros l' y El. destruct (HL _ _ El) as [e' ->]. cbn. auto.
      * intros l' y _ B. destruct y; exact B.
    + intros l y El. apply app_inj_tail in El as [_ <-]. eauto.
  - destruct (Hs c (or_introl eq_refl) E) as (D1 & D2 & D3).
    apply IH; try assumption; intros X; apply in_app_or in X as [X|[X|[]]]; auto.
Qed.

Lemma dq_parts_simple esc s : (forall c, In c s -> esc c = None -> c <> DQUOTE /\ c <> BACKSLASH /\ c <> NL) ->
  Forall dq_simple (dq_parts esc s) /\ no_neighbours dq_merge (dq_parts esc s).
Proof.
  intros Hs. unfold dq_parts.
  pose proof (dq_loop_canon esc s Hs [] [] (fun x => x) (fun x => x) (fun x => x) (Forall_nil _) I) as H.
  specialize (H (fun l y E => match app_cons_not_nil l [] y E with end)).
  destruct (dq_loop esc s [] []) as [parts buf]. destruct H as (A & B & A' & C & D & E).
  destruct buf as [|b buf]; cbn [is_nil]; [auto|]. split.
  - apply Forall_app. split; [exact C|]. constructor; [|constructor]. cbn. repeat split; auto. discriminate.
  - apply nn_snoc; [exact D|]. intros l' y El. destruct (E _ _ El) as [e ->]. cbn. auto.
Qed.

Lemma sq_simple_canon ps : Forall sq_simple ps -> no_neighbours sq_merge ps -> sq_canon ps.
Proof.
  intros F N. split; [|exact N]. eapply Forall_impl; [|exact F]. intros p Hp. destruct p; cbn in *; tauto.
Qed.
Lemma dq_simple_canon ps : Forall dq_simple ps -> no_neighbours dq_merge ps -> dq_canon ps.
Proof.
  intros F N. split; [|exact N]. eapply Forall_impl; [|exact F]. intros p Hp. destruct p; cbn in *; tauto.
Qed.

(** Escapes among the parts. *)
Lemma dq_loop_esc esc s : forall parts buf,
  let '(parts', buf') := dq_loop esc s parts buf in
  has_escape parts' = has_escape parts || existsb (fun c => match esc c with Some _ => true | None => false end) s.
Proof.
  unfold has_escape.
  induction s as [|c s IH]; intros parts buf; cbn [dq_loop existsb]; [now rewrite orb_false_r|].
  destruct (esc c) as [e|].
  - specialize (IH ((if is_nil buf then parts else parts ++ [DQ_Str buf]) ++ [DQ_Esc e]) []).
    destruct (dq_loop _ _ _ _) as [p b]. rewrite IH, existsb_app. cbn. rewrite orb_true_r.
    symmetry. apply orb_true_r.
  - specialize (IH parts (buf ++ [c])). destruct (dq_loop _ _ _ _) as [p b]. rewrite IH. reflexivity.
Qed.
Lemma dq_parts_esc esc s :
  has_escape (dq_parts esc s) = existsb (fun c => match esc c with Some _ => true | None => false end) s.
Proof.
  unfold dq_parts. pose proof (dq_loop_esc esc s [] []) as H. destruct (dq_loop esc s [] []) as [p b].
  cbn in H. rewrite <- H. destruct b as [|x b]; cbn [is_nil]; [reflexivity|].
  unfold has_escape. rewrite existsb_app. cbn. apply orb_false_r.
Qed.

(** ---- what the serializer writes for a text ---- *)

Lemma needs_quoting_false s : needs_quoting s = false ->
  can_be_unquoted_in_block s = true /\ inline_breaking_chars s = false.
Proof. unfold needs_quoting. intros H. apply orb_false_iff in H as [H1 H2]. now apply negb_false_iff in H1. Qed.

Lemma unquoted_facts s : can_be_unquoted_in_block s = true ->
  (exists c r, s = c :: r /\ ~ In c (lit "[]{}'>|#" ++ [DQUOTE]))
  /\ one_line s /\ ~ In (chr "#") s /\ (forall r, s <> SP :: r) /\ (forall r, s <> r ++ [SP])
  /\ ~ has_pair (chr ":") SP s.
Proof.
  unfold can_be_unquoted_in_block. destruct s as [|c r]; [discriminate|]. set (s := c :: r) in *.
  destruct (starts_with SP s || ends_with SP s) eqn:E1; [discriminate|].
  destruct (bad_first c) eqn:E2; [discriminate|].
  destruct (has_sub (lit ": ") s || has_char (chr "#") s || has_char NL s || has_char CR s) eqn:E3; [discriminate|].
  intros _. apply orb_false_iff in E1 as [E1 E1'].
  apply orb_false_iff in E3 as [E3 E3c]. apply orb_false_iff in E3 as [E3 E3b]. apply orb_false_iff in E3 as [E3 E3a].
  apply has_char_false in E3a, E3b, E3c.
  split; [|split; [|split; [|split; [|split]]]].
  - exists c, r. split; [reflexivity|]. intros X. unfold bad_first in E2. apply has_char_false in E2. apply E2.
    cbn in X |- *. tauto.
  - split; assumption.
  - exact E3a.
  - intros r' E. rewrite E in E1. cbn in E1. discriminate.
  - intros r' E. rewrite E, ends_with_app_one in E1'. discriminate.
  - intros (u & v & E). assert (X : has_sub (lit ": ") s = true); [|congruence].
    apply has_sub_spec. exists u, v. exact E.
Qed.

Lemma quoted_needs s : quoted_text s -> needs_quoting s = true.
Proof.
  intros Q. destruct (needs_quoting s) eqn:E; [reflexivity|]. exfalso.
  apply needs_quoting_false in E as [E1 E2]. apply unquoted_facts in E1 as ((c & r & Hs & Hc) & [H1 H2] & H3 & H4 & H5 & H6).
  assert (B : ~ breaking s) by (intros B; apply breaking_spec in B; congruence).
  destruct Q as [->|[(d & Hd & Hi)|[(r' & Hr)|[(r' & Hr)|[(r' & Hr)|Q]]]]].
  - discriminate.
  - apply in_app_or in Hi as [Hi|[<-|[<-|[<-|[]]]]]; try tauto.
    + cbn in Hi.
      repeat (destruct Hi as [Hi|Hi];
        [subst d; first [exact (H3 Hd)|apply B; eexists; split; [exact Hd|cbn; tauto]]|]). exact Hi.
    + apply B. eexists; split; [exact Hd|cbn; tauto].
  - rewrite Hr in Hs. injection Hs as <- _. apply Hc. cbn. tauto.
  - eapply H4, Hr.
  - eapply H5, Hr.
  - exact (H6 Q).
Qed.

Section Texts.
  Variable ut : unitab.

Lemma readable_block s : readable ut s -> needs_quoting s = false -> block_text ut s /\ inline_text ut s.
Proof.
  intros R E. destruct R as [R|(R1 & R2 & R3)]; [rewrite quoted_needs in E; [discriminate|exact R]|].
  apply needs_quoting_false in E as [E1 E2].
  apply unquoted_facts in E1 as ((c & r & Hs & Hc) & H1 & H3 & H4 & H5 & H6).
  assert (B : ~ breaking s) by (intros B; apply breaking_spec in B; congruence).
  split.
  - split; [|split; [|split; [|split; [|split]]]]; try assumption.
    exists c, r. split; [exact Hs|]. split; [exact (R1 _ _ Hs)|]. intros X. apply Hc.
    apply in_app_or in X as [X|X]; apply in_or_app; [left|right; exact X]. cbn in X |- *. tauto.
  - destruct R2 as [R2 R2'].
    split; [|split; [|split; [|split; [|split; [|split]]]]]; try assumption.
    + exists c, r. split; [exact Hs|]. split; intros ->; [exact (H4 _ Hs)|]. apply Hc. cbn. tauto.
    + intros d Hd Hi. apply in_app_or in Hd as [Hd|[<-|[]]].
      * cbn in Hd.
        repeat (destruct Hd as [Hd|Hd];
          [subst d; first [exact (H3 Hi)|apply B; eexists; split; [exact Hi|cbn; tauto]]|]). exact Hd.
      * apply B. eexists; split; [exact Hi|cbn; tauto].
    + intros b r' Er. destruct R3 as [_ R3]. destruct (R3 _ _ _ Er) as [R3a _]. intros Nm. apply R3a. auto.
Qed.

(** The three ways of writing a text. *)
Inductive written (s : str) : yaml -> Prop :=
| WPlain : block_text ut s -> inline_text ut s -> inline_breaking_chars s = false -> written s (Unquoted s)
| WSingle ps : ~ In NL s -> ~ In CR s -> Forall sq_simple ps -> no_neighbours sq_merge ps ->
    parse_single_quoted ps = s -> has_blank ps = false -> needs_quoting s = true -> written s (SingleQ ps)
| WDouble ps : Forall dq_simple ps -> no_neighbours dq_merge ps -> parse_double_quoted ps = s ->
    (one_line s -> has_escape ps = true -> In BACKSLASH s /\ In QUOTE s /\ ~ In DQUOTE s) ->
    (In NL s -> has_escape ps = true) -> written s (DoubleQ ps).

Lemma text_written s : readable ut s -> written s (str_to_yaml s).
Proof.
  intros R. unfold str_to_yaml. destruct (negb (needs_quoting s)) eqn:E.
  - apply negb_true_iff in E. destruct (readable_block s R E) as [B1 B2]. constructor; auto.
    now apply needs_quoting_false in E.
  - apply negb_false_iff in E. destruct (negb (has_char NL s) && negb (has_char CR s)) eqn:E1.
    + apply andb_true_iff in E1 as [E1 E1']. apply negb_true_iff, has_char_false in E1, E1'.
      destruct (has_char QUOTE s && negb (has_char DQUOTE s)) eqn:E2.
      * apply andb_true_iff in E2 as [E2 E2']. apply has_char_true in E2. apply negb_true_iff, has_char_false in E2'.
        destruct (dq_parts_simple esc_backslash s) as [P1 P2].
        { intros c Hc Hn. unfold esc_backslash in Hn. destruct (ceqb c BACKSLASH) eqn:Q; [discriminate|].
          apply ceqb_neq in Q. repeat split; congruence. }
        constructor; auto.
        -- apply dq_parts_value, esc_backslash_ok.
        -- intros _. rewrite dq_parts_esc. intros X. apply existsb_exists in X as (c & Hc & X).
           unfold esc_backslash in X. destruct (ceqb c BACKSLASH) eqn:Q; [|discriminate].
           apply ceqb_eq in Q. subst c. auto.
      * destruct (sq_parts_simple s E1) as [P1 P2]. constructor; auto.
        -- apply single_quoted_lossless.
        -- apply sq_parts_no_blank.
    + destruct (dq_parts_simple esc_all s) as [P1 P2].
      { intros c Hc Hn. unfold esc_all in Hn.
        destruct (ceqb c NL) eqn:Q1; [discriminate|]. destruct (ceqb c CR) eqn:Q2; [discriminate|].
        destruct (ceqb c DQUOTE) eqn:Q3; [discriminate|]. destruct (ceqb c BACKSLASH) eqn:Q4; [discriminate|].
        apply ceqb_neq in Q1, Q3, Q4. auto. }
      constructor; auto.
      * apply dq_parts_value, esc_all_ok.
      * intros [X1 X2]. apply has_char_false in X1, X2. rewrite X1, X2 in E1. discriminate.
      * intros X. rewrite dq_parts_esc. apply existsb_exists. exists NL. split; [exact X|reflexivity].
Qed.

(** ---- inside inline collections ---- *)

Lemma text_inline s : readable ut s -> pretty_scalar true (str_to_yaml s) = str_to_yaml s /\
  inline_canon ut (str_to_yaml s) /\ is_inlineable (str_to_yaml s) = true.
Proof.
  intros R. destruct (text_written s R) as [B1 B2 B3|ps N1 N2 F N V Hb Hq|ps F N V He Hn];
    cbn [pretty_scalar inline_canon is_inlineable andb negb].
  - rewrite B3. auto.
  - unfold has_blank in Hb. rewrite Hb. split; [reflexivity|]. split; [now apply sq_simple_canon|reflexivity].
  - split; [reflexivity|]. split; [now apply dq_simple_canon|reflexivity].
Qed.

(** ---- lines ---- *)

Lemma in_join c ls : forall x l, In l ls -> In x l -> In x (join [c] ls).
Proof.
  intros x l. induction ls as [|a ls IH]; [intros []|]. intros H Hx.
  destruct ls as [|b ls]; [destruct H as [<-|[]]; exact Hx|].
  change (join [c] (a :: b :: ls)) with (a ++ [c] ++ join [c] (b :: ls)).
  apply in_or_app. destruct H as [<-|H]; [now left|right]. apply in_or_app. right. now apply IH.
Qed.

Lemma pop_incl l : forall x, In x (pop_if_empty l) -> In x l.
Proof.
  induction l as [|a l IH]; intros x H; [exact H|]. cbn in H. destruct a as [|c a].
  - destruct l as [|b l]; [destruct H|]. destruct H as [<-|H]; [now left|right; now apply IH].
  - destruct H as [<-|H]; [now left|right; now apply IH].
Qed.

Lemma literal_lines s : ~ In CR s -> (exists c r, s = c :: r /\ is_ws c = false) ->
  block_lines (create_literal s) /\ (forall l ls, create_literal s <> (SP :: l) :: ls).
Proof.
  intros Hcr (c & r & -> & Hc).
  assert (Hnl : ceqb c NL = false) by (apply ceqb_neq; intros ->; discriminate).
  assert (Hsp : c <> SP) by (intros ->; discriminate).
  assert (E : exists l ls, create_literal (c :: r) = (c :: l) :: ls).
  { unfold create_literal. cbn [split]. rewrite Hnl. destruct (split NL r) as [|l ls] eqn:Er.
    - now apply split_ne in Er.
    - destruct (ends_with NL (c :: r)); cbn [pop_if_empty]; eauto. }
  destruct E as (l & ls & E). split.
  - split.
    + apply Forall_forall. intros x Hx.
      assert (Hi : In x (split NL (c :: r))).
      { unfold create_literal in Hx. destruct (ends_with NL (c :: r)); [now apply pop_incl|exact Hx]. }
      pose proof (split_no NL (c :: r)) as Hno. rewrite Forall_forall in Hno.
      split; [apply has_char_false; now apply Hno|].
      intros X. apply Hcr. rewrite <- (join_split NL (c :: r)). now apply (in_join NL _ CR x).
    + exists c, l, ls. split; [exact E|]. split; [now right|]. exists c. split; [now left|].
      destruct (is_zs c) eqn:Z; [|reflexivity]. apply zs_ws in Z. congruence.
  - intros l' ls'. rewrite E. intros X. injection X as X _ _. auto.
Qed.

Lemma folded_lines s : one_line s -> (exists c r, s = c :: r /\ is_ws c = false) -> foldable_text 90 s ->
  block_lines (create_folded s 90) /\ (forall l ls, create_folded s 90 <> (SP :: l) :: ls).
Proof.
  intros [Hn Hcr] (c & r & Es & Hc) F. apply foldable_spec in F. unfold foldable in F.
  apply has_char_false in Hn. rewrite (split_no_char NL s Hn) in F. apply andb_true_iff in F as [F _].
  assert (Hsp : c <> SP) by (intros ->; discriminate).
  rewrite Es in F at 2. assert (Q : ceqb c SP = false) by now apply ceqb_neq. rewrite Q in F. cbn [andb] in F.
  rewrite orb_false_r in F. destruct (split_on_length_ok 90 s F) as (h & t & E & Hh & Ht & Hj).
  assert (Ec : create_folded s 90 = (h :: t) ++ [[]]).
  { unfold create_folded. rewrite (split_no_char NL s Hn). cbn [flat_map]. rewrite app_nil_r, E.
    destruct (ends_with NL s) eqn:Z; [|reflexivity]. apply ends_with_inv in Z as [s' Z].
    apply has_char_false in Hn. exfalso. apply Hn. rewrite Z. apply in_or_app. right. now left. }
  rewrite Ec.
  assert (Eh : exists h', h = c :: h').
  { destruct h as [|d h]; [congruence|]. rewrite join_flat_map, Es in Hj. injection Hj as -> _. eauto. }
  destruct Eh as [h' ->]. split.
  - split.
    + apply Forall_app. split; [|constructor; [split; intros []|constructor]].
      apply Forall_forall. intros x Hx. apply has_char_false in Hn.
      split; intros X; [apply Hn|apply Hcr]; rewrite <- Hj; eapply in_join; eassumption.
    + exists c, h', (t ++ [[]]). split; [reflexivity|]. split; [now right|]. exists c. split; [now left|].
      destruct (is_zs c) eqn:Z; [|reflexivity]. apply zs_ws in Z. congruence.
  - intros l ls X. injection X as X _ _. auto.
Qed.

(** ---- lengths ---- *)

Lemma sq_width ps : Forall sq_simple ps ->
  utf8_len (flat_map format_sq_part ps) <= 2 * utf8_len (parse_single_quoted ps).
Proof.
  unfold parse_single_quoted. induction 1 as [|p ps Hp _ IH]; [cbn; lia|]. cbn [flat_map].
  rewrite !utf8_len_app. destruct p; cbn [format_sq_part sq_part_str] in *; try contradiction; try lia.
  change (utf8_len [QUOTE; QUOTE]) with 2. change (utf8_len [QUOTE]) with 1. lia.
Qed.
Lemma dq_width ps : Forall dq_simple ps ->
  utf8_len (flat_map format_dq_part ps) <= 2 * utf8_len (parse_double_quoted ps).
Proof.
  unfold parse_double_quoted. induction 1 as [|p ps Hp _ IH]; [cbn; lia|]. cbn [flat_map].
  rewrite !utf8_len_app. destruct p as [s|e|n|]; cbn [format_dq_part dq_part_str] in *; try contradiction; try lia.
  assert (utf8_len [BACKSLASH; esc_char e] = 2) by (destruct e; reflexivity).
  assert (utf8_len [esc_real_char e] = 1) by (destruct e; reflexivity). lia.
Qed.

Lemma written_width s y : written s y -> utf8_len (format y 0 None) <= 3 + 2 * utf8_len s.
Proof.
  intros [B1 B2 B3|ps N1 N2 F N V Hb Hq|ps F N V He Hn]; cbn [format]; rewrite !utf8_len_app.
  - change (utf8_len (lit " ")) with 1. lia.
  - pose proof (sq_width ps F) as W. rewrite V in W.
    change (utf8_len [SP; QUOTE]) with 2. change (utf8_len [QUOTE]) with 1. lia.
  - pose proof (dq_width ps F) as W. rewrite V in W.
    change (utf8_len [SP; DQUOTE]) with 2. change (utf8_len [DQUOTE]) with 1. lia.
Qed.

(** ---- in block collections ---- *)

Lemma place_block p ls : p <> Head false -> (forall l ls', ls <> (SP :: l) :: ls') ->
  p = Own \/ p = Head true /\ (forall l ls', ls <> (SP :: l) :: ls').
Proof. intros Hp H. destruct p as [|[|]]; auto. congruence. Qed.

Lemma text_row s : readable ut s -> row_text s ->
  pretty_scalar false (str_to_yaml s) = str_to_yaml s /\ long_ok false (str_to_yaml s).
Proof.
  intros R (R1 & R2 & R3). assert (L : max_line_length <? utf8_len s = false) by now apply Nat.ltb_ge.
  destruct (text_written s R) as [B1 B2 B3|ps N1 N2 F N V Hb Hq|ps F N V He Hn];
    cbn [pretty_scalar andb negb long_ok].
  - auto.
  - rewrite V. unfold has_blank in Hb. rewrite Hb, L. split; [|intros _ _ X; lia].
    replace (can_be_unquoted_in_block s && negb (inline_breaking_chars s)) with (negb (needs_quoting s)).
    + now rewrite Hq.
    + unfold needs_quoting. now rewrite negb_orb, negb_involutive.
  - rewrite V, L. split; [|intros _ _ X; lia].
    destruct (existsb _ ps) eqn:X; [|reflexivity]. destruct (He R1 X) as (X1 & X2 & X3). tauto.
Qed.

Lemma text_block p q s : text_fits ut p s ->
  canon ut p q None (pretty_scalar false (str_to_yaml s)) /\
  (is_inlineable (pretty_scalar false (str_to_yaml s)) = true ->
   inline_canon ut (pretty_scalar false (str_to_yaml s))) /\
  long_ok false (str_to_yaml s).
Proof.
  intros [R [T|[Hp (T1 & T2 & T3)]]].
  - destruct (text_row s R T) as [E L]. rewrite E. split; [|split; [intros _; now apply text_inline|exact L]].
    apply CFlow; [|exact I]. destruct (text_written s R); [assumption|now apply sq_simple_canon|now apply dq_simple_canon].
  - assert (FL : one_line s -> max_line_length <? utf8_len s = true -> foldable_text 90 s).
    { intros [X _] Y. apply Nat.ltb_lt in Y. unfold max_line_length in Y. destruct T3 as [T3|[T3|T3]]; [tauto|lia|exact T3]. }
    destruct (literal_lines s T1 T2) as [L1 L2].
    assert (CL : forall c, canon ut p q None (Literal (create_literal s) c))
      by (intros c; apply CLiteral; [exact L1|exact I|now apply place_block]).
    assert (CF : forall c, one_line s -> max_line_length <? utf8_len s = true ->
                 canon ut p q None (Folded (create_folded s max_line_length) c)).
    { intros c X Y. destruct (folded_lines s X T2 (FL X Y)) as [F1 F2].
      apply CFolded; [exact F1|exact I|now apply place_block]. }
    destruct (text_written s R) as [B1 B2 B3|ps N1 N2 F N V Hb Hq|ps F N V He Hn];
      cbn [pretty_scalar andb negb long_ok].
    + split; [now apply CFlow|auto].
    + rewrite V. unfold has_blank in *. rewrite Hb.
      replace (can_be_unquoted_in_block s && negb (inline_breaking_chars s)) with (negb (needs_quoting s))
        by (unfold needs_quoting; now rewrite negb_orb, negb_involutive).
      rewrite Hq. cbn [negb andb].
      destruct (max_line_length <? utf8_len s) eqn:L.
      * split; [now apply CF|]. split; [discriminate|]. intros _ _ X. now apply FL.
      * split; [apply CFlow; [now apply sq_simple_canon|exact I]|]. split; [intros _; now apply sq_simple_canon|].
        intros _ _ X. apply Nat.ltb_ge in L. unfold max_line_length in L. lia.
    + rewrite V. unfold has_escape in *. destruct (existsb _ ps) eqn:X.
      * split; [apply CL|]. split; [discriminate|]. congruence.
      * assert (O : one_line s) by (split; [intros Y; apply Hn in Y; congruence|exact T1]).
        destruct (max_line_length <? utf8_len s) eqn:L.
        -- split; [now apply CF|]. split; [discriminate|]. intros _ _ Y. now apply FL.
        -- split; [apply CFlow; [now apply dq_simple_canon|exact I]|]. split; [intros _; now apply dq_simple_canon|].
           intros _ _ Y. apply Nat.ltb_ge in L. unfold max_line_length in L. lia.
Qed.

End Texts.
