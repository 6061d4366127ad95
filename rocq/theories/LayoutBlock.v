(** Where block collections end and what the grammar reads from block scalars, with blank
    lines, comments and trailing spaces. *)
From Coq Require Import ZArith.
From Verif Require Import Base Ast Num Strings Peg PegFacts YamlGrammar Consume Format Spec_Parse YamlTree
  Spec_Format Reads FormatText FormatScalars FormatFlow FormatBlock Spec_Layout LayoutText LayoutFlow.
Import ListNotations.

Section Block.
Context (ut : unitab).
Notation G := (yaml_grammar ut).
Notation gets := (gets ut).
Notation eats := (eats ut).
Notation eats0 := (eats0 ut).
Notation fails := (fails ut).

(** The text after a value that ends as [b]: the end of the file, or a line with a key at
    an indentation below [K], a dash below [D] or a comment.  After a block scalar it must not
    start with a blank line, and a comment must be indented by less than [C]. *)
Inductive follow (K D C : nat) : ending -> str -> Prop :=
| f_end b : b <> Scalar true -> follow K D C b []
| f_final b : follow K D C b [NL]
| f_blank ws i : follow K D C Plain (NL :: blank_lines ws ++ indent i)
| f_key b ws m c r : m < K -> name_char ut c -> (b <> Plain -> ws = []) ->
    follow K D C b (NL :: blank_lines ws ++ indent m ++ c :: r)
| f_dash b ws m r : m < D -> (b <> Plain -> ws = []) ->
    follow K D C b (NL :: blank_lines ws ++ indent m ++ chr "-" :: r)
| f_comment b ws m t r : (b <> Plain -> ws = [] /\ m < C) -> one_line t -> follow K D C Plain r ->
    follow K D C b (NL :: blank_lines ws ++ indent m ++ chr "#" :: t ++ r).

Lemma follow_mono K D C K' D' C' b r : follow K D C b r -> K <= K' -> D <= D' -> C <= C' -> follow K' D' C' b r.
Proof.
  induction 1 as [b H1|b|ws i|b ws m c r H1 H2 H3|b ws m r H1 H2|b ws m t r H1 H2 H3 IH]; intros.
  - now apply f_end.
  - apply f_final.
  - apply f_blank.
  - apply f_key; auto; lia.
  - apply f_dash; auto; lia.
  - apply f_comment; auto. intros Hb. destruct (H1 Hb). split; [assumption|lia].
Qed.
Lemma follow_nl K D C b r : follow K D C b r -> nl_or_end r.
Proof. intros H. destruct H; [now left| | | | |]; right; eauto. Qed.
Lemma nl_stop z : nl_or_end z -> stop z.
Proof. intros [->|(r & ->)]; [now left|right; left; eauto]. Qed.

Definition line (K D : nat) (s : str) : Prop :=
  (exists i, s = indent i) \/ (exists m c r, s = indent m ++ c :: r /\ name_char ut c /\ m < K)
  \/ (exists m r, s = indent m ++ chr "-" :: r /\ m < D).

Lemma bare_pad i : bare (indent i).
Proof. exists i, []. rewrite app_nil_r. repeat split. intros r E. discriminate. Qed.
Lemma headed_pad i : headed (indent i).
Proof. apply bare_headed, bare_pad. Qed.
Lemma bare_name m c r : name_char ut c -> bare (indent m ++ c :: r).
Proof. intros H. apply bare_indent; [now apply (name_solid ut)|now apply (name_not_comment ut)]. Qed.
Lemma bare_dash m r : bare (indent m ++ chr "-" :: r).
Proof. apply bare_indent; [cbn; repeat split; discriminate|intros x E; discriminate]. Qed.

Lemma follow_line K D C b s : follow K D C b s ->
  s = [] \/ exists ws X, s = NL :: blank_lines ws ++ X /\ headed X /\
    exists cs r, (forall k, gets (PStar (R_ y_commentnl)) X k (vcnl cs) r k) /\ line K D r.
Proof.
  induction 1 as [b Hb|b|ws i|b ws m c r Hm Hc Hw|b ws m r Hm Hw|b ws m t r Hw Ht Hr IH]; [now left| | | | |]; right.
  - exists [], []. split; [reflexivity|]. split; [apply headed_nil|]. exists [], []. split.
    + intros k. apply gets_star0. scanc.
    + left. now exists 0.
  - exists ws, (indent i). split; [reflexivity|]. split; [apply headed_pad|]. exists [], (indent i). split.
    + intros k. apply gets_star0, bare_fails, bare_pad.
    + left. now exists i.
  - exists ws, (indent m ++ c :: r). split; [reflexivity|]. split; [now apply bare_headed, bare_name|].
    exists [], (indent m ++ c :: r). split; [|right; left; eauto 7].
    intros k. now apply gets_star0, bare_fails, bare_name.
  - exists ws, (indent m ++ chr "-" :: r). split; [reflexivity|]. split; [apply bare_headed, bare_dash|].
    exists [], (indent m ++ chr "-" :: r). split; [|right; right; eauto 7].
    intros k. apply gets_star0, bare_fails, bare_dash.
  - exists ws, (indent m ++ chr "#" :: t ++ r). split; [reflexivity|].
    split; [apply headed_indent; cbn; repeat split; discriminate|].
    destruct IH as [->|(ws' & X & -> & HX & cs & r' & G1 & Hl)].
    + exists [t], []. split; [|left; now exists 0]. intros k. rewrite app_nil_r.
      eapply gets_star1 with (v1 := [(y_commentnl, VStr t)]); [|apply gets_star0; scanc|reflexivity].
      exact (gets_commentnl_end ut m t k Ht).
    + exists (t :: cs), r'. split; [|exact Hl]. intros k.
      eapply gets_star1 with (v1 := [(y_commentnl, VStr t)]); [|apply G1|reflexivity].
      exact (gets_commentnl_ws ut m t ws' X k Ht HX).
Qed.

(** The same with trailing spaces before it: what [blanknl] leaves. *)
Lemma follow_pad K D C b s i : follow K D C b s ->
  s = [] \/ exists X t, (forall k, eats (R_ y_blanknl) (indent i ++ s) k t X k)
    /\ (forall k, eats (R_ y_blank) (indent i ++ s) k t X k)
    /\ exists cs r, (forall k, gets (PStar (R_ y_commentnl)) X k (vcnl cs) r k) /\ line K D r.
Proof.
  intros H. destruct (follow_line _ _ _ _ _ H) as [->|(ws & X & -> & HX & Hr)]; [now left|]. right.
  exists X, (indent i ++ NL :: blank_lines ws). split; [intros k; now apply eats_blanknl_ws|].
  split; [intros k; now apply eats_blank_ws|exact Hr].
Qed.
Lemma no_blanknl_end i k : fails (R_ y_blanknl) (indent i ++ []) k.
Proof. rewrite app_nil_r. apply headed_fails_blanknl, headed_pad. Qed.

Lemma strip_pad n m : m < n -> strip (indent n) (indent m) = None.
Proof.
  unfold indent. revert m. induction n as [|n IH]; intros m Hm; [lia|].
  destruct m as [|m]; cbn [repeat_char strip]; [reflexivity|]. rewrite ceqb_refl. apply IH. lia.
Qed.
Lemma pad_split n m : n <= m -> indent m = indent n ++ indent (m - n).
Proof.
  intros H. rewrite <- (app_nil_r (indent m)), (indent_split n m [] H), app_nil_r. reflexivity.
Qed.

Lemma line_no_key K D r n k e : line K D r -> K <= n -> fails (PPeek ~~ R_ y_hash_element ~~ e)%peg r (indent n :: k).
Proof.
  intros [(i & ->)|[(m' & c & r' & -> & Hc & Hm)|(m' & r' & -> & Hm)]] Hn.
  - destruct (le_lt_dec n i) as [Hle|Hlt].
    + rewrite (pad_split n i Hle). eapply fails_seq0; [apply eats_peek|]. apply fails_seq1.
      destruct (i - n); scanc.
    + apply fails_seq1, fails_peek, strip_pad, Hlt.
  - apply fails_seq1, fails_peek, strip_short; [lia|now apply (name_not_sp ut)].
  - destruct (le_lt_dec n m') as [Hle|Hlt].
    + rewrite (indent_split n m' _ Hle). eapply fails_seq0; [apply eats_peek|].
      apply fails_seq1, no_key_dash.
    + apply fails_seq1, fails_peek, strip_short; [lia|discriminate].
Qed.
Lemma line_no_dash K D r n k e : line K D r -> D <= n ->
  fails (PPeek ~~ R_ y_block_array_element ~~ e)%peg r (indent n :: k).
Proof.
  intros [(i & ->)|[(m' & c & r' & -> & Hc & Hm)|(m' & r' & -> & Hm)]] Hn.
  - destruct (le_lt_dec n i) as [Hle|Hlt].
    + rewrite (pad_split n i Hle). eapply fails_seq0; [apply eats_peek|]. apply fails_seq1.
      destruct (i - n); scanc.
    + apply fails_seq1, fails_peek, strip_pad, Hlt.
  - destruct (le_lt_dec n m') as [Hle|Hlt].
    + rewrite (indent_split n m' _ Hle). eapply fails_seq0; [apply eats_peek|].
      apply fails_seq1. now apply no_dash_key.
    + apply fails_seq1, fails_peek, strip_short; [lia|now apply (name_not_sp ut)].
  - apply fails_seq1, fails_peek, strip_short; [lia|discriminate].
Qed.

Lemma end_hash_data K D C b n s i k : follow K D C b s -> K <= n ->
  fails (R_ y_hash_element_data) (indent i ++ s) (indent n :: k).
Proof.
  intros H Hn. apply fails_rule. cbn [yaml_grammar snd].
  destruct (follow_pad _ _ _ _ _ i H) as [->|(X & t & E1 & _ & cs & r & G1 & Hl)].
  - apply fails_seq1, no_blanknl_end.
  - eapply fails_seq0; [apply E1|]. eapply fails_seq2; [apply gets_commentnls_of, G1|].
    now apply (line_no_key K D).
Qed.

Lemma end_array_data K D C b n s i k : follow K D C b s -> D <= n ->
  fails (R_ y_blank ~~ R_ y_block_array_data)%peg (indent i ++ s) (indent n :: k)
  /\ fails (R_ y_blanknl ~~ R_ y_block_array_data)%peg (indent i ++ s) (indent n :: k).
Proof.
  intros H Hn.
  assert (F : forall X cs r, (forall k, gets (PStar (R_ y_commentnl)) X k (vcnl cs) r k) -> line K D r ->
    fails (R_ y_block_array_data) X (indent n :: k)).
  { intros X cs r G1 Hl. apply fails_rule. cbn [yaml_grammar snd].
    eapply fails_seq2; [apply gets_commentnls_of, G1|]. now apply (line_no_dash K D). }
  destruct (follow_pad _ _ _ _ _ i H) as [->|(X & t & E1 & E2 & cs & r & G1 & Hl)].
  - split; [|apply fails_seq1, no_blanknl_end]. rewrite app_nil_r.
    eapply fails_seq0; [apply headed_blank0, headed_pad|].
    eapply F with (cs := []) (r := indent i); [intros k'; apply gets_star0, bare_fails, bare_pad|left; eauto].
  - split; (eapply fails_seq0; [first [apply E1|apply E2]|]); now apply (F X cs r).
Qed.

Lemma end_alt_cont K D C b t s i k : follow K D C b s -> K <= t + 1 ->
  fails (R_ y_alt_hash_cont) (indent i ++ s) (indent t :: k).
Proof.
  intros H Hn. apply fails_rule. cbn [yaml_grammar snd].
  destruct (follow_pad _ _ _ _ _ i H) as [->|(X & tx & E1 & _ & cs & r & G1 & Hl)].
  - apply fails_seq1, no_blanknl_end.
  - eapply fails_seq0; [apply E1|]. eapply fails_seq2; [apply gets_commentnls_of, G1|].
    assert (Dash : forall m' x, no_zs x -> (forall k, fails (R_ y_hash_element) x k) ->
      m' <= t \/ t < m' -> (forall c y, x = c :: y -> c <> SP) ->
      fails (PAnd (PPeek ~~ yplus y_zs) ~~ PPush y_zss ~~ R_ y_first_hash_element ~~
                 PStar (R_ y_hash_element_data) ~~ PDrop)%peg (indent m' ++ x) (indent t :: k)).
    { intros m' x Hx Fx Hm Hsp. destruct (lt_eq_lt_dec m' t) as [[Hlt|Heq]|Hgt].
      - apply fails_seq1, fails_and, fails_seq1, fails_peek. destruct x as [|c y].
        + rewrite app_nil_r. now apply strip_pad.
        + apply strip_short; [lia|now apply (Hsp c y)].
      - subst m'. apply fails_seq1, fails_and. eapply fails_seq0; [apply eats_peek|]. now apply fails_zsp.
      - assert (Ed : exists d, m' - t = S d) by (exists (m' - t - 1); lia). destruct Ed as (d & Ed).
        eapply fails_seq0.
        { eapply eats_and. rewrite (indent_split t m') by lia. rewrite Ed.
          eapply eats_seq; [apply eats_peek| |reflexivity]. cbn [indent repeat_char app].
          eapply eats_seq; [now apply eats_class|exact (eats_indent ut d x _ Hx)|reflexivity]. }
        eapply fails_seq0; [apply eats_push; exact (eats_indent ut m' x _ Hx)|].
        apply fails_seq1, fails_first_hash, Fx. }
    destruct Hl as [(j & ->)|[(m' & c & r' & -> & Hc & Hm)|(m' & r' & -> & Hm)]].
    + rewrite <- (app_nil_r (indent j)). apply Dash; [exact I|intros k'; scanc|lia|intros; discriminate].
    + apply fails_seq1, fails_and. destruct (Nat.eq_dec m' t) as [-> | Hne].
      * eapply fails_seq0; [apply eats_peek|]. apply fails_zsp. now apply name_zs with (ut := ut).
      * apply fails_seq1, fails_peek, strip_short; [lia|now apply (name_not_sp ut)].
    + apply Dash; [reflexivity|intros k'; exact (no_key_dash ut 0 r' k')|lia|].
      intros c y E. inversion E; subst. discriminate.
Qed.

(** ---- block scalars ---- *)

Lemma repeat_nl_snoc e s : repeat_char NL e ++ NL :: s = NL :: repeat_char NL e ++ s.
Proof. induction e as [|e IH]; cbn [repeat_char app]; [reflexivity|]. now rewrite IH. Qed.
Lemma nl_utf8 e : utf8_len (repeat_char NL e) = e.
Proof. induction e as [|e IH]; [reflexivity|]. cbn [repeat_char]. change (utf8_len (NL :: ?x)) with (S (utf8_len x)). now rewrite IH. Qed.
Lemma eats_nls e s k : (forall c r, s = c :: r -> c <> NL /\ c <> CR) ->
  eats (PStar y_nl) (repeat_char NL e ++ s) k (repeat_char NL e) s k.
Proof.
  intros H. induction e as [|e IH]; cbn [repeat_char app]; [now apply eats_no_nl|].
  eapply eats_star1; [apply eats_nl|exact IH|reflexivity].
Qed.
Lemma gets_empties e s k : (forall c r, s = c :: r -> c <> NL /\ c <> CR) ->
  gets (R_ y_block_empty_lines) (repeat_char NL e ++ s) k [(y_block_empty_lines, VStrs (repeat [] e))] s k.
Proof.
  intros H. eapply gets_atomic; [reflexivity|apply eats_0, eats_nls, H|]. cbn [yact]. now rewrite nl_utf8.
Qed.

Lemma pad_no_nl m s : 1 <= m -> forall c r, indent m ++ s = c :: r -> c <> NL /\ c <> CR.
Proof. intros H c r E. destruct m; [lia|]. cbn in E. inversion E; split; discriminate. Qed.

(** One further line: blank lines, then [t + 1 + j] spaces and the text. *)
Lemma gets_part e t j l s k : one_line l -> 1 <= j -> nl_or_end s ->
  gets (R_ y_ml_part) (repeat_char NL e ++ NL :: indent (t + 1 + j) ++ l ++ s) ([SP] :: indent t :: k)
    [(y_ml_part, VStrs (repeat [] e ++ [indent j ++ l]))] s ([SP] :: indent t :: k).
Proof.
  intros Hl Hj Hs. rewrite repeat_nl_snoc. eapply gets_rule; [reflexivity| |].
  - cbn [yaml_grammar snd]. eapply gets_seq0; [apply eats_nl|].
    eapply gets_seq with (v2 := [(y_block_string, VStr (indent j ++ l))]); [| |reflexivity].
    + apply gets_empties, pad_no_nl. lia.
    + rewrite <- !indent_app, <- !app_assoc. change (indent 1) with [SP].
      rewrite (app_assoc (indent t) [SP]).
      eapply gets_seq0; [apply eats_peek2|]. rewrite app_assoc.
      apply gets_block_string; [now apply indent_one_line| |exact Hs].
      destruct j; [lia|discriminate].
  - reflexivity.
Qed.

(** After the last line. *)
Lemma scalar_rest K D C fl z t : follow K D C (Scalar fl) z -> K <= t + 1 -> D <= t + 1 -> C <= t + 1 ->
  (z = [] /\ fl = false) \/ z = [NL] \/
  exists m c r, z = NL :: indent m ++ c :: r /\ m <= t /\ c <> SP /\ c <> NL /\ c <> CR.
Proof.
  intros H HK HD HC. remember (Scalar fl) as b eqn:Eb.
  assert (Hb : b <> Plain) by (rewrite Eb; discriminate).
  destruct H as [b H|b|ws i|b ws m c r Hm Hc Hw|b ws m r Hm Hw|b ws m u r Hw Hu Hr].
  - left. split; [reflexivity|]. destruct fl; [congruence|reflexivity].
  - right. now left.
  - congruence.
  - right. right. rewrite (Hw Hb). exists m, c, r. pose proof (name_solid ut c r Hc) as Hs. cbn in Hs.
    pose proof (name_not_sp ut c Hc). repeat split; tauto || lia.
  - right. right. rewrite (Hw Hb). exists m, (chr "-"), r. repeat split; try discriminate. lia.
  - right. right. destruct (Hw Hb) as [-> Hm]. exists m, (chr "#"), (u ++ r). repeat split; try discriminate. lia.
Qed.

Lemma end_part e z t k : (z = [] /\ e = 0) \/ z = [NL] \/
    (exists m c r, z = NL :: indent m ++ c :: r /\ m <= t /\ c <> SP /\ c <> NL /\ c <> CR) ->
  fails (R_ y_ml_part) (repeat_char NL e ++ z) ([SP] :: indent t :: k).
Proof.
  intros H. apply fails_rule. cbn [yaml_grammar snd].
  destruct H as [(-> & ->)|[->|(m & c & r & -> & Hm & Hc & H1 & H2)]].
  - apply fails_seq1. apply fails_nl. intros; discriminate.
  - rewrite repeat_nl_snoc. eapply fails_seq0; [apply eats_nl|]. eapply fails_seq2.
    { apply gets_empties. intros; discriminate. }
    apply fails_seq1, fails_peek2. change [SP] with (indent 1). rewrite indent_app, Nat.add_comm. reflexivity.
  - rewrite repeat_nl_snoc. eapply fails_seq0; [apply eats_nl|]. eapply fails_seq2.
    { apply gets_empties. intros d r' E. destruct m; cbn in E; inversion E; subst; [auto|split; discriminate]. }
    apply fails_seq1, fails_peek2. change [SP] with (indent 1). rewrite indent_app.
    apply strip_short; [lia|exact Hc].
Qed.

Lemma gets_trailing e z t k : (z = [] /\ e = 0) \/ z = [NL] \/
    (exists m c r, z = NL :: indent m ++ c :: r /\ m <= t /\ c <> SP /\ c <> NL /\ c <> CR) ->
  gets (R_ y_ml_trailing) (repeat_char NL e ++ z) k [(y_ml_trailing, VStrs (repeat [] e))] z k.
Proof.
  intros H. eapply gets_atomic with (t := repeat_char NL e); [reflexivity| |].
  - apply eats_0. cbn [yaml_grammar snd].
    assert (F : fails (PSeq y_nl (PAnd y_nl)) z k).
    { destruct H as [(-> & ->)|[->|(m & c & r & -> & Hm & Hc & H1 & H2)]].
      - apply fails_seq1, fails_nl. intros; discriminate.
      - eapply fails_seq0; [apply eats_nl|]. apply fails_and, fails_nl. intros; discriminate.
      - eapply fails_seq0; [apply eats_nl|]. apply fails_and, fails_nl.
        intros d r' E. destruct m; cbn in E; inversion E; subst; [auto|split; discriminate]. }
    assert (Hz : e <> 0 -> exists x, z = NL :: x).
    { intros He. destruct H as [(-> & ->)|[->|(m & c & r & -> & _)]]; [congruence|eauto|eauto]. }
    clear H. induction e as [|e IH]; cbn [repeat_char app]; [now apply eats_star0|].
    assert (Hnl : exists x, repeat_char NL e ++ z = NL :: x).
    { destruct e; [apply Hz; discriminate|cbn; eauto]. }
    eapply eats_star1 with (t1 := [NL]); [|apply IH; intros _; apply Hz; discriminate|reflexivity].
    eapply eats_seq; [apply eats_nl| |reflexivity]. destruct Hnl as (x & ->). eapply eats_and, eats_nl.
  - cbn [yact]. do 2 f_equal. clear. induction e as [|e IH]; [reflexivity|]. cbn [repeat_char].
    change (filter (ceqb NL) (NL :: repeat_char NL e)) with (NL :: filter (ceqb NL) (repeat_char NL e)).
    cbn [map repeat]. now rewrite IH.
Qed.

Lemma clean_app n a b la lb : clean_lines n a = CVal la -> clean_lines n b = CVal lb ->
  clean_lines n (a ++ b) = CVal (la ++ lb).
Proof.
  revert la. induction a as [|x a IH]; intros la Ha Hb; cbn [clean_lines app] in *.
  - inversion Ha; subst. exact Hb.
  - destruct (match x with [] => _ | _ => _ end) as [y|]; [|discriminate].
    destruct (clean_lines n a) as [l| |] eqn:E; cbn in Ha; try discriminate. inversion Ha; subst.
    rewrite (IH l eq_refl Hb). reflexivity.
Qed.
Lemma clean_empties n e : clean_lines n (repeat [] e) = CVal (repeat [] e).
Proof. induction e as [|e IH]; [reflexivity|]. cbn [repeat clean_lines]. now rewrite IH. Qed.

Lemma gets_scalar_lines t j ls fl s : scalar_lines (t + 1 + j) ls fl s -> 1 <= j ->
  forall K D C z, follow K D C (Scalar fl) z -> K <= t + 1 -> D <= t + 1 -> C <= t + 1 ->
  nl_or_end (s ++ z) /\
  exists vs r tr gs,
    (forall k, gets (PStar (R_ y_ml_part)) (s ++ z) ([SP] :: indent t :: k) vs r ([SP] :: indent t :: k))
    /\ (forall k, gets (R_ y_ml_trailing) r k [(y_ml_trailing, VStrs tr)] z k)
    /\ many as_ml_part (vs ++ [(y_ml_trailing, VStrs tr)]) = (gs, [(y_ml_trailing, VStrs tr)])
    /\ clean_lines (N.of_nat j) (concat gs ++ tr) = CVal ls.
Proof.
  intros H Hj K D C z. induction H as [e|e l ls fl s Hl _ IH]; intros Hf HK HD HC.
  - assert (H : (z = [] /\ e = 0) \/ z = [NL] \/
      (exists m c r, z = NL :: indent m ++ c :: r /\ m <= t /\ c <> SP /\ c <> NL /\ c <> CR)).
    { destruct (scalar_rest _ _ _ _ _ t Hf HK HD HC) as [[-> E]|[->|H]]; [left|right; now left|right; now right].
      split; [reflexivity|]. destruct e; [reflexivity|discriminate]. }
    split.
    { destruct e; cbn [repeat_char app]; [now apply (follow_nl K D C (Scalar (negb (0 =? 0))))|right; eauto]. }
    exists [], (repeat_char NL e ++ z), (repeat [] e), []. split; [|split; [|split]].
    + intros k. now apply gets_star0, end_part.
    + intros k. now apply (gets_trailing e z t).
    + reflexivity.
    + apply clean_empties.
  - destruct (IH Hf HK HD HC) as (Hnl & vs & r & tr & gs & G1 & G2 & M & E). split.
    { destruct e; cbn [repeat_char app]; right; eauto. }
    exists ((y_ml_part, VStrs (repeat [] e ++ [indent j ++ l])) :: vs), r, tr, ((repeat [] e ++ [indent j ++ l]) :: gs).
    split; [|split; [exact G2|split]].
    + intros k. rewrite <- !app_assoc.
      eapply gets_star1; [exact (gets_part e t j l (s ++ z) k Hl Hj Hnl)|apply G1|reflexivity].
    + cbn [app many as_ml_part]. rewrite M. reflexivity.
    + cbn [concat]. rewrite <- !app_assoc.
      change (repeat [] e ++ l :: ls) with (repeat (A := str) [] e ++ [l] ++ ls).
      apply clean_app; [apply clean_empties|]. apply clean_app; [|exact E].
      exact (clean_indented j [l] Hj).
Qed.

Lemma gets_content t j c l ls fl s K D C z k : let first := c :: l in
  one_line first -> (exists d, In d first /\ is_zs d = false) -> 1 <= j ->
  scalar_lines (t + 1 + j) ls fl s -> follow K D C (Scalar fl) z -> K <= t + 1 -> D <= t + 1 -> C <= t + 1 ->
  exists content, clean_lines (N.of_nat j) content = CVal ls /\
    gets (R_ y_ml_content) (NL :: indent (t + 1 + j) ++ first ++ s ++ z) (indent t :: k)
      [(y_ml_content, VStrs ((indent j ++ first) :: content))] z (indent t :: k).
Proof.
  intros first Hl (d & Hd & Hz) Hj Hs Hf HK HD HC.
  destruct (gets_scalar_lines t j ls fl s Hs Hj K D C z Hf HK HD HC) as (Hnl & vs & r & tr & gs & G1 & G2 & M & E).
  exists (concat gs ++ tr). split; [exact E|]. clearbody first.
  eapply gets_rule; [reflexivity| |].
  - cbn [yaml_grammar snd].
    assert (Ew : exists u w, indent (t + 1 + j) ++ first = u ++ w /\ (forall c, In c u -> is_zs c = true)
              /\ solid w /\ w <> []).
    { assert (X : forall l, one_line l -> In d l -> exists u w, l = u ++ w /\ (forall c, In c u -> is_zs c = true) /\ solid w /\ w <> []).
      { clear - Hz. induction l as [|c l IH]; intros Ho Hi; [destruct Hi|].
        destruct (is_zs c) eqn:Ec.
        - destruct Hi as [->|Hi]; [congruence|].
          destruct IH as (u & w & -> & Hu & Hw); [|exact Hi|].
          { destruct Ho as [Ha Hb]. split; intros Hx; [apply Ha|apply Hb]; now right. }
          exists (c :: u), w. repeat split; try tauto. intros x [<-|Hx]; auto.
        - exists [], (c :: l). repeat split; [intros x []|exact Ec| | |discriminate].
          + intros ->. apply (proj1 Ho). now left.
          + intros ->. apply (proj2 Ho). now left. }
      apply X; [now apply indent_one_line|]. apply in_or_app. now right. }
    destruct Ew as (u & w & Euw & Hu & Hw & Hne).
    eapply gets_seq0.
    { rewrite app_assoc, Euw, <- app_assoc. apply eats_blanknl_gen; [exact Hu|].
      destruct w; [contradiction|exact Hw]. }
    rewrite app_assoc, <- Euw, <- app_assoc.
    eapply gets_seq; [exact (gets_empties 0 _ _ (pad_no_nl (t + 1 + j) _ ltac:(lia)))| |reflexivity].
    assert (Ei : indent (t + 1 + j) ++ first ++ s ++ z = indent t ++ [SP] ++ (indent j ++ first) ++ s ++ z).
    { rewrite <- !indent_app. change (indent 1) with [SP]. rewrite <- !app_assoc. reflexivity. }
    rewrite Ei. clear Ei.
    eapply gets_seq.
    { eapply gets_seq0; [apply eats_peek|]. eapply gets_seq0; [apply eats_push; exact (eats_str ut [SP] _ _)|].
      apply gets_block_string; [now apply indent_one_line|destruct j; [lia|discriminate]|exact Hnl]. }
    2:{ reflexivity. }
    eapply gets_seq; [apply G1| |reflexivity].
    eapply gets_seq; [apply G2|eapply eats_gets, eats_drop|reflexivity].
  - intros x _. cbn [yact app repeat]. rewrite M. reflexivity.
Qed.

Lemma gets_scalar (lit_ : bool) t j ch c l ls fl s K D C z k : let first := c :: l in
  one_line first -> (c = SP /\ j = 1 \/ is_ws c = false) -> (exists d, In d first /\ is_zs d = false) ->
  1 <= j -> scalar_lines (t + 1 + j) ls fl s ->
  follow K D C (Scalar fl) z -> K <= t + 1 -> D <= t + 1 -> C <= t + 1 ->
  gets (R_ y_yaml_value)
    ((if lit_ then lit "|" else lit ">") ++ chomp_sign ch ++ (if ceqb c SP then lit "2" else []) ++
     NL :: indent (t + 1 + j) ++ first ++ s ++ z) (indent t :: k)
    [(y_yaml_value, VYaml ((if lit_ then Literal else Folded) (first :: ls) ch))] z (indent t :: k).
Proof.
  intros first Hl Hc Hd Hj Hs Hf HK HD HC.
  destruct (gets_content t j c l ls fl s K D C z k Hl Hd Hj Hs Hf HK HD HC) as (content & Hcl & Hco).
  fold first in Hco. set (txt := NL :: indent (t + 1 + j) ++ first ++ s ++ z) in *.
  assert (Etxt : exists x, txt = NL :: x) by (unfold txt; eauto).
  assert (Hfirst : clean_lines (N.of_nat j) ((indent j ++ first) :: content) = CVal (first :: ls))
    by exact (clean_app _ [_] _ _ _ (clean_indented j [first] Hj) Hcl).
  set (ind := if ceqb c SP then lit "2" else []).
  assert (Hind : exists i, gets (R_ y_ml_indent) (ind ++ txt) (indent t :: k) [(y_ml_indent, VIndent i)] txt (indent t :: k)
                           /\ clean_multiline i ((indent j ++ first) :: content) = CVal (first :: ls)).
  { unfold ind. destruct (ceqb c SP) eqn:E.
    - apply ceqb_eq in E. subst c. exists (Some 1%N). split.
      + eapply gets_leaf with (t := lit "2"); [reflexivity| |reflexivity]. cbn [yaml_grammar snd].
        destruct Etxt as (x & ->). change (lit "2" ++ NL :: x) with ([chr "2"] ++ NL :: x).
        eapply eats_star1; [| |symmetry; apply app_nil_r].
        * eapply eats_seq with (t1 := [chr "2"]); [apply eats_class; reflexivity| |reflexivity].
          apply eats_star0. scanc.
        * apply eats_star0. scanc.
      + destruct Hc as [[_ ->]|Hc]; [|discriminate]. exact Hfirst.
    - exists None. split.
      + eapply gets_leaf with (t := []); [reflexivity| |reflexivity]. cbn [yaml_grammar snd app].
        apply eats_star0. destruct Etxt as (x & ->). scanc.
      + destruct Hc as [[-> _]|Hc]; [discriminate|].
        cbn [clean_multiline]. unfold first at 1. rewrite count_indent by exact Hc. exact Hfirst. }
  destruct Hind as (i & Gi & Ci).
  assert (Hi0 : forall x y, ind ++ txt = x :: y -> x <> chr "-" /\ x <> chr "+").
  { unfold ind. destruct (ceqb c SP); intros x y E; destruct Etxt as (w & Ez).
    - inversion E. split; discriminate.
    - rewrite Ez in E. inversion E. split; discriminate. }
  assert (Gch : gets (POpt (R_ y_chomping)) (chomp_sign ch ++ ind ++ txt) (indent t :: k)
                  (match ch with Clip => [] | _ => [(y_chomping, VChomp ch)] end) (ind ++ txt) (indent t :: k)).
  { destruct ch; cbn [chomp_sign app].
    - apply gets_opt0. apply fails_rule. cbn [yaml_grammar snd].
      destruct (ind ++ txt) as [|x y]; [scanc|]. destruct (Hi0 x y eq_refl).
      apply fails_alt; [apply (fails_c1 ut (chr "-"))|apply (fails_c1 ut (chr "+"))]; congruence.
    - apply gets_opt1. apply gets_leaf with (t := lit "-"); [reflexivity| |reflexivity].
      cbn [yaml_grammar snd]. apply eats_alt1, (eats_str ut (lit "-")).
    - apply gets_opt1. apply gets_leaf with (t := lit "+"); [reflexivity| |reflexivity].
      cbn [yaml_grammar snd]. apply eats_alt2; [scanc|]. apply (eats_str ut (lit "+")). }
  assert (M : forall mk, multiline mk ((match ch with Clip => [] | _ => [(y_chomping, VChomp ch)] end)
     ++ [(y_ml_indent, VIndent i)] ++ [(y_ml_content, VStrs ((indent j ++ first) :: content))])
     = CVal (VYaml (mk (first :: ls) ch))).
  { intros mk. destruct ch; cbn [app multiline]; rewrite Ci; reflexivity. }
  destruct lit_.
  - eapply gets_rule with (vs := [(y_ml_literal, VYaml (Literal (first :: ls) ch))]); [reflexivity| |reflexivity].
    cbn [yaml_grammar snd]. apply gets_alt2; [scanc|]. apply gets_alt2; [scanc|]. apply gets_alt1.
    eapply gets_rule; [reflexivity| |intros x _; exact (M Literal)]. cbn [yaml_grammar snd].
    eapply gets_seq0; [exact (eats_str ut (lit "|") _ _)|].
    eapply gets_seq; [exact Gch| |reflexivity]. eapply gets_seq; [exact Gi|exact Hco|reflexivity].
  - eapply gets_rule with (vs := [(y_ml_folded, VYaml (Folded (first :: ls) ch))]); [reflexivity| |reflexivity].
    cbn [yaml_grammar snd]. apply gets_alt2; [scanc|]. apply gets_alt2; [scanc|].
    apply gets_alt2; [scanc|]. apply gets_alt1.
    eapply gets_rule; [reflexivity| |intros x _; exact (M Folded)]. cbn [yaml_grammar snd].
    eapply gets_seq0; [exact (eats_str ut (lit ">") _ _)|].
    eapply gets_seq; [exact Gch| |reflexivity]. eapply gets_seq; [exact Gi|exact Hco|reflexivity].
Qed.

End Block.
