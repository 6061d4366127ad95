(** What the grammar reads from scalars in block position, and where block collections end. *)
From Coq Require Import ZArith.
From Verif Require Import Base Ast Num Strings Peg PegFacts YamlGrammar Consume Format Spec_Parse YamlTree
  Spec_Format Reads FormatText FormatScalars FormatFlow.
Import ListNotations.

Section Block.
Context (ut : unitab).
Notation G := (yaml_grammar ut).
Notation gets := (gets ut).
Notation eats := (eats ut).
Notation eats0 := (eats0 ut).
Notation fails := (fails ut).

Definition not_comment (s : str) : Prop := forall r, s <> chr "#" :: r.

(** ---- what is not a block collection ---- *)

Lemma fails_first_hash s k : fails (R_ y_hash_element) s k -> fails (R_ y_first_hash_element) s k.
Proof. intros H. apply fails_rule. cbn [yaml_grammar snd]. now apply fails_seq1. Qed.
Lemma fails_alternative_hash s k : fails (R_ y_hash_element) s k -> fails (R_ y_alternative_hash) s k.
Proof. intros H. apply fails_rule. cbn [yaml_grammar snd]. now apply fails_seq1, fails_first_hash. Qed.
Lemma fails_first_array s k : fails (R_ y_block_array_element) s k -> fails (R_ y_first_block_array_element) s k.
Proof. intros H. apply fails_rule. cbn [yaml_grammar snd]. now apply fails_seq1. Qed.
Lemma fails_alternative_array s k : fails (R_ y_block_array_element) s k -> fails (R_ y_alternative_array) s k.
Proof. intros H. apply fails_rule. cbn [yaml_grammar snd]. now apply fails_seq1, fails_first_array. Qed.

Lemma line_no_nl n cs m s k : solid s -> fails y_nl (clines n cs ++ indent m ++ s) k.
Proof.
  intros H. apply fails_nl. intros c r E.
  destruct cs as [|c' cs]; cbn [clines flat_map app] in E.
  - destruct m; cbn in E; [|inversion E; split; discriminate].
    subst s. cbn in H. tauto.
  - destruct n; cbn in E; inversion E; split; discriminate.
Qed.

Lemma fails_hash n cs m s k : Forall one_line cs -> solid s -> not_comment s ->
  (forall k, fails (R_ y_hash_element) s k) -> fails (R_ y_hash) (clines n cs ++ indent m ++ s) k.
Proof.
  intros Hcs Hs Hc Hf. apply fails_rule. cbn [yaml_grammar snd].
  eapply fails_seq0; [apply eats_opt0, line_no_nl, Hs|].
  eapply fails_seq2; [apply gets_comments; eassumption|].
  eapply fails_seq0; [apply eats_blank0, Hs|].
  eapply fails_seq0; [apply eats_push, eats_indent, solid_zs, Hs|].
  apply fails_seq1, fails_first_hash, Hf.
Qed.
Lemma fails_hash0 s k : solid s -> not_comment s -> (forall k, fails (R_ y_hash_element) s k) ->
  fails (R_ y_hash) s k.
Proof. intros Hs Hc Hf. exact (fails_hash 0 [] 0 s k (Forall_nil _) Hs Hc Hf). Qed.
Lemma fails_block_array s k : solid s -> not_comment s -> (forall k, fails (R_ y_block_array_element) s k) ->
  fails (R_ y_block_array) s k.
Proof.
  intros Hs Hc Hf. apply fails_rule. cbn [yaml_grammar snd].
  eapply fails_seq2; [exact (gets_comments ut 0 0 [] s k (Forall_nil _) Hs Hc)|].
  eapply fails_seq0; [exact (eats_blank0 ut 0 s k Hs)|].
  eapply fails_seq0; [apply eats_push; exact (eats_indent ut 0 s k (solid_zs s Hs))|].
  apply fails_seq1, fails_first_array, Hf.
Qed.

(** A value that is not a block collection, with its alias. *)
Definition alias_text (al : option str) : str := match al with Some a => lit "&" ++ a ++ [SP] | None => [] end.

Lemma sp_not_name (z : str) : forall c r, SP :: z = c :: r -> ~ name_char ut c.
Proof. intros c r E. inversion E; subst. apply punct_not_name. reflexivity. Qed.

Lemma gets_ba_aliased al y s r k : alias_canon ut al -> solid s ->
  (forall k, fails (R_ y_hash_element) s k) -> (forall k, fails (R_ y_block_array_element) s k) ->
  (forall k, fails (R_ y_alias) s k) ->
  gets (R_ y_yaml_value) s k [(y_yaml_value, VYaml y)] r k ->
  gets (R_ y_ba_aliased) (alias_text al ++ s) k [(y_ba_aliased, VAliased (mkA al y))] r k.
Proof.
  intros Ha Hs Hh Hb Hna Hv.
  assert (Hfirm : firm s).
  { intros c r' ->. cbn in Hs. destruct Hs as (H1 & H2 & H3). repeat split; try assumption.
    intros ->. discriminate. }
  eapply gets_rule with (vs := [(y_aliased, VAliased (mkA al y))]); [reflexivity| |reflexivity].
  cbn [yaml_grammar snd]. apply gets_alt2.
  - apply fails_rule. cbn [yaml_grammar snd]. destruct al as [a|]; cbn [alias_text app].
    + rewrite <- !app_assoc. eapply fails_seq2.
      * apply gets_opt1. eapply gets_seq; [apply gets_alias; [exact Ha|apply sp_not_name]
          |eapply eats_gets, eats_spaces1, Hfirm|reflexivity].
      * apply fails_alt; [apply fails_alternative_hash, Hh|apply fails_alternative_array, Hb].
    + eapply fails_seq0; [apply eats_opt0, fails_seq1, Hna|].
      apply fails_alt; [apply fails_alternative_hash, Hh|apply fails_alternative_array, Hb].
  - destruct al as [a|]; cbn [alias_text app].
    + rewrite <- !app_assoc.
      eapply gets_rule with (vs := [(y_alias, VStr a); (y_yaml_value, VYaml y)]); [reflexivity| |reflexivity].
      cbn [yaml_grammar snd]. eapply gets_seq; [|exact Hv|].
      * apply gets_opt1. eapply gets_seq; [apply gets_alias; [exact Ha|apply sp_not_name]| |].
        -- eapply eats_gets. apply (eats_zss ut [SP]); [now intros c [<-|[]]|apply solid_zs, Hs].
        -- rewrite app_nil_r. reflexivity.
      * reflexivity.
    + eapply gets_rule with (vs := [(y_yaml_value, VYaml y)]); [reflexivity| |reflexivity].
      cbn [yaml_grammar snd]. eapply gets_seq0; [apply eats_opt0, fails_seq1, Hna|exact Hv].
Qed.

(** ---- values written on one line ---- *)

Lemma key_prefix (s : str) : exists u w, s = u ++ w /\ (forall c, In c u -> key_char ut c)
  /\ (forall c r, w = c :: r -> ~ key_char ut c).
Proof.
  induction s as [|c s (u & w & -> & H1 & H2)].
  - exists [], []. repeat split; [intros c []|intros c r E; discriminate].
  - assert (D : key_char ut c \/ ~ key_char ut c).
    { unfold key_char, name_char. destruct (is_letter ut c); [left; tauto|].
      destruct (is_number ut c); [left; tauto|].
      destruct (N.eq_dec c (chr "_")); [left; tauto|]. destruct (N.eq_dec c (chr "-")); [left; tauto|].
      destruct (N.eq_dec c SP); [left; tauto|]. right. intuition congruence. }
    destruct D as [D|D].
    + exists (c :: u), w. repeat split; [|exact H2]. intros d [<-|Hd]; auto.
    + exists [], (c :: u ++ w). repeat split; [intros d []|]. intros d r E. inversion E; subst. exact D.
Qed.

Lemma punct_not_key c : punct c = true -> c <> chr "-" -> c <> SP -> ~ key_char ut c.
Proof. intros H H1 H2 [H3|[H3|H3]]; try congruence. revert H3. now apply punct_not_name. Qed.

Lemma gets_key_any c u w k : name_char ut c -> (forall d, In d u -> key_char ut d) ->
  (forall d r, w = d :: r -> ~ key_char ut d) ->
  gets (R_ y_hash_key) (c :: u ++ w) k [(y_hash_key, VStr (trim_end (c :: u)))] w k.
Proof.
  intros Hc Hu Hw. eapply gets_leaf with (t := c :: u); [reflexivity| |reflexivity].
  cbn [yaml_grammar snd]. eapply eats_seq; [exact (eats_name ut c _ k Hc)|now apply (eats_keys ut u)|reflexivity].
Qed.

Lemma text_no_hash s z k : block_text ut s -> btail z -> fails (R_ y_hash_element) (s ++ z) k.
Proof.
  intros ((c & r & Es & Hzs & Hc) & Hl & Hh & Hsp & (Hc1 & Hc2) & _) Hz.
  apply fails_rule. cbn [yaml_grammar snd].
  assert (D : name_char ut c \/ ~ name_char ut c).
  { unfold name_char. destruct (is_letter ut c); [left; tauto|]. destruct (is_number ut c); [left; tauto|].
    destruct (N.eq_dec c (chr "_")); [left; tauto|]. right. intuition congruence. }
  destruct D as [D|D].
  2:{ subst s. apply fails_seq1. cbn [app]. apply fails_rule. cbn [yaml_grammar snd]. apply fails_seq1.
      apply (fails_name ut). intros d r' E. inversion E; subst. exact D. }
  destruct (key_prefix r) as (u & w & Er & Hu & Hw).
  destruct w as [|d w].
  - rewrite app_nil_r in Er. subst r.
    destruct Hz as [|x|x].
    + eapply fails_seq2.
      { subst s. cbn [app]. apply gets_key_any; [exact D|exact Hu|intros d r E; discriminate]. }
      apply fails_seq1. scanc.
    + eapply fails_seq2.
      { subst s. cbn [app]. apply gets_key_any; [exact D|exact Hu|].
        intros d r E. inversion E; subst. now apply punct_not_key. }
      apply fails_seq1. scanc.
    + eapply fails_seq2.
      { subst s. change (c :: u ++ SP :: chr "#" :: x) with (c :: u ++ [SP] ++ chr "#" :: x).
        cbn [app]. change (c :: u ++ SP :: chr "#" :: x) with (c :: u ++ [SP] ++ chr "#" :: x).
        rewrite app_assoc. apply gets_key_any; [exact D| |].
        - intros d Hd. apply in_app_or in Hd as [Hd|[<-|[]]]; [auto|]. right. now right.
        - intros d r E. inversion E; subst. now apply punct_not_key. }
      apply fails_seq1. scanc.
  - eapply fails_seq2.
    { subst s r. cbn [app]. rewrite <- app_assoc. apply gets_key_any; [exact D|exact Hu|].
      intros d' r E. cbn [app] in E. inversion E; subst. now apply (Hw d' w). }
    cbn [app].
    destruct (N.eq_dec d (chr ":")) as [-> | Hne].
    2:{ apply fails_seq1. apply (fails_c1 ut (chr ":")). congruence. }
    eapply fails_seq0; [exact (eats_str ut (lit ":") _ k)|].
    destruct w as [|b w].
    { exfalso. apply (Hc1 (c :: u)). now rewrite Es, Er. }
    assert (Hb : is_zs b = false).
    { destruct (is_zs b) eqn:Eb; [|reflexivity]. exfalso. apply (Hc2 b Eb).
      exists (c :: u), w. now rewrite Es, Er. }
    assert (Hbn : b <> NL /\ b <> CR).
    { apply (one_line_at s (c :: u ++ [chr ":"]) b w Hl). rewrite Es, Er. cbn [app]. now rewrite <- app_assoc. }
    apply fails_seq1, fails_alt.
    + apply fails_zsp. exact Hb.
    + apply (fails_blanknl ut 0). cbn. tauto.
Qed.

Lemma text_no_array s z k : block_text ut s -> btail z -> fails (R_ y_block_array_element) (s ++ z) k.
Proof.
  intros ((c & r & -> & Hzs & Hc) & Hl & Hh & Hsp & _ & (Hm1 & Hm2)) Hz.
  apply fails_rule. cbn [yaml_grammar snd app].
  destruct (N.eq_dec c (chr "-")) as [-> | Hne].
  2:{ apply fails_seq1. apply (fails_c1 ut (chr "-")). congruence. }
  eapply fails_seq0; [exact (eats_str ut (lit "-") _ k)|]. apply fails_seq1, fails_zsp.
  destruct r as [|b r]; [now destruct Hm1|]. cbn.
  destruct (is_zs b) eqn:Eb; [|reflexivity]. destruct (Hm2 _ _ _ eq_refl) as [_ Hm]. now destruct Hm.
Qed.

Lemma text_no_mark (m : string) s z k : block_text ut s -> btail z -> (m = "*" \/ m = "&")%string ->
  fails (yl m ~~ R_ y_alias_name)%peg (s ++ z) k.
Proof.
  intros ((c & r & -> & Hzs & Hc) & Hl & Hh & Hsp & _ & (Hm1 & Hm2)) Hz Hm.
  cbn [app]. assert (Em : lit m = [chr m]) by (destruct Hm as [-> | ->]; reflexivity).
  unfold yl. rewrite Em. destruct (N.eq_dec c (chr m)) as [-> | Hne].
  2:{ apply fails_seq1. apply (fails_c1 ut (chr m)). congruence. }
  eapply fails_seq0; [apply eats_c1|]. apply fails_rule, fails_seq1. apply (fails_name ut). intros d r' E Hd.
  destruct r as [|b r].
  - destruct (btail_inert ut z Hz d r' E) as [Hn _]. now apply Hn.
  - inversion E; subst. destruct (Hm2 _ _ _ eq_refl) as [Hn _]. apply Hn.
    split; [|exact Hd]. destruct Hm as [-> | ->]; auto.
Qed.

Record flow_facts (y : yaml) : Prop := {
  ff_text : forall n par, format y n par = SP :: body y;
  ff_solid : forall z, solid (body y ++ z);
  ff_hash : forall z k, btail z -> fails (R_ y_hash_element) (body y ++ z) k;
  ff_array : forall z k, btail z -> fails (R_ y_block_array_element) (body y ++ z) k;
  ff_alias : forall z k, btail z -> fails (R_ y_alias) (body y ++ z) k;
  ff_value : forall z, btail z -> exists r, left_of z r /\ forall k,
    gets (R_ y_yaml_value) (body y ++ z) k [(y_yaml_value, VYaml y)] r k }.

(** A value that starts with one of the signs. *)
Definition sign_body (y : yaml) (d : char) : Prop := exists u, body y = d :: u.

Lemma gets_via_inline_value y s r k v : fails (R_ y_hash) s k -> fails (R_ y_array) s k ->
  fails (R_ y_ml_literal) s k -> fails (R_ y_ml_folded) s k ->
  gets (R_ y_inline_value) s k [(y_inline_value, v)] r k -> v = VYaml y ->
  gets (R_ y_yaml_value) s k [(y_yaml_value, VYaml y)] r k.
Proof.
  intros H1 H2 H3 H4 H5 ->. eapply gets_rule with (vs := [(y_inline_value, VYaml y)]); [reflexivity| |reflexivity].
  cbn [yaml_grammar snd]. repeat (apply gets_alt2; [assumption|]). exact H5.
Qed.
Lemma fails_unq s k t ns r k' : runs G false (R_ y_dis_start) s k (Ok t ns r k') ->
  fails (R_ y_unquoted_string) s k.
Proof.
  intros H. apply fails_rule. cbn [yaml_grammar snd]. apply fails_seq1, fails_rule. cbn [yaml_grammar snd].
  apply fails_seq1. eapply fails_not, H.
Qed.

Lemma inline_facts y d : sign_body y d -> In d (lit "[{*'" ++ [DQUOTE]) ->
  (forall n par, format y n par = SP :: body y) ->
  (forall z, btail z -> exists r, left_of z r /\ forall k,
    gets (R_ y_yaml_value) (body y ++ z) k [(y_yaml_value, VYaml y)] r k) -> flow_facts y.
Proof.
  intros (u & Eu) Hd Ht Hv.
  assert (Hd' : d = chr "[" \/ d = chr "{" \/ d = chr "*" \/ d = QUOTE \/ d = DQUOTE)
    by (vm_compute in Hd |- *; intuition congruence).
  split; try assumption; rewrite Eu; cbn [app]; intros z.
  - cbn. decompose [or] Hd'; subst; repeat split; discriminate.
  - intros k _. decompose [or] Hd'; subst; scanc.
  - intros k _. decompose [or] Hd'; subst; scanc.
  - intros k _. decompose [or] Hd'; subst; scanc.
Qed.

Lemma gets_all_items l : Forall (inline_canon ut) l ->
  Forall (item_ok ut (R_ y_inline_array_value) body (fun y => (y_inline_array_value, VYaml y))) l.
Proof. intros H. eapply Forall_impl; [|exact H]. intros y. apply gets_inline. Qed.
Lemma gets_all_pairs l : Forall (pair_canon ut) l ->
  Forall (item_ok ut (R_ y_inline_hash_element) pair_text
            (fun kv => (y_inline_hash_element, VPair (fst kv) (snd kv)))) l.
Proof.
  intros H. eapply Forall_impl; [|exact H]. intros kv Hk. apply gets_pair; [exact Hk|].
  apply gets_inline. apply Hk.
Qed.

Lemma flow_facts_ok y : flow_canon ut y -> flow_facts y.
Proof.
  intros H. destruct y as [l|l|l|l|ps|ps|s|ls ch|ls ch|s]; cbn [flow_canon inline_canon] in H;
    try contradiction.
  - assert (Hc : Forall (pair_canon ut) l).
    { induction l as [|[k v] l IHl]; cbn [fold_right] in H; constructor; [apply H|apply IHl, H]. }
    assert (Hb : exists u, body (InlineHash l) = chr "{" :: u).
    { destruct l as [|x xs]; [now exists (lit "}")|]. rewrite (inline_hash_text ut x xs Hc). eauto. }
    apply (inline_facts _ (chr "{")); [exact Hb|vm_compute; tauto|reflexivity|].
    intros z Hz. exists z. split; [now left|]. intros k.
    destruct Hb as (u & Eb).
    eapply gets_via_inline_value; [rewrite Eb; scanc| rewrite Eb; scanc| rewrite Eb; scanc| rewrite Eb; scanc| |].
    + eapply gets_rule; [reflexivity| |].
      * cbn [yaml_grammar snd]. apply gets_alt2; [rewrite Eb; scanc|]. apply gets_alt2; [rewrite Eb; scanc|].
        apply gets_alt1, gets_inline_hash; [apply gets_all_pairs, Hc|exact Hc].
      * reflexivity.
    + reflexivity.
  - apply fold_right_Forall in H.
    assert (Hb : exists u, body (InlineArray l) = chr "[" :: u).
    { destruct l as [|x xs]; [now exists (lit "]")|]. rewrite (inline_array_text ut x xs H). eauto. }
    apply (inline_facts _ (chr "[")); [exact Hb|vm_compute; tauto|reflexivity|].
    intros z Hz. exists z. split; [now left|]. intros k. destruct Hb as (u & Eb).
    eapply gets_rule with (vs := [(y_array, VYaml (InlineArray l))]); [reflexivity| |reflexivity].
    cbn [yaml_grammar snd]. apply gets_alt2; [rewrite Eb; scanc|]. apply gets_alt1.
    eapply gets_rule; [reflexivity| |].
    + cbn [yaml_grammar snd]. apply gets_alt1, gets_inline_array; [apply gets_all_items, H|exact H].
    + reflexivity.
  - apply (inline_facts _ QUOTE); [now eexists|vm_compute; tauto|reflexivity|].
    intros z Hz. destruct (btail_after z Hz) as (r & Hr). exists r. split; [now apply after_left|]. intros k.
    rewrite single_text. eapply gets_via_inline_value; [scanc|scanc|scanc|scanc| |].
    + eapply gets_rule; [reflexivity| |].
      * cbn [yaml_grammar snd]. do 3 (apply gets_alt2; [scanc|]).
        eapply gets_rule; [reflexivity| |].
        -- cbn [yaml_grammar snd]. apply gets_alt2.
           { eapply fails_unq. eapply RRule. cbn [yaml_grammar snd].
             do 6 (apply eats_alt2; [scanc|]). apply eats_alt1. exact (eats_str ut (lit "'") _ k). }
           apply gets_alt2; [scanc|]. apply gets_single; [exact H|now apply btail_inert|exact Hr].
        -- reflexivity.
      * reflexivity.
    + reflexivity.
  - apply (inline_facts _ DQUOTE); [now eexists|vm_compute; tauto|reflexivity|].
    intros z Hz. destruct (btail_after z Hz) as (r & Hr). exists r. split; [now apply after_left|]. intros k.
    rewrite double_text. eapply gets_via_inline_value; [scanc|scanc|scanc|scanc| |].
    + eapply gets_rule; [reflexivity| |].
      * cbn [yaml_grammar snd]. do 3 (apply gets_alt2; [scanc|]).
        eapply gets_rule; [reflexivity| |].
        -- cbn [yaml_grammar snd]. apply gets_alt2.
           { eapply fails_unq. eapply RRule. cbn [yaml_grammar snd].
             do 5 (apply eats_alt2; [scanc|]). apply eats_alt1, eats_c1. }
           apply gets_alt1. apply gets_double; [exact H|exact Hr].
        -- reflexivity.
      * reflexivity.
    + reflexivity.
  - pose proof H as ((c & u & Es & Hzs & Hc) & Hl & Hh & _).
    destruct (one_line_at s [] c u Hl Es) as [Hn1 Hn2].
    assert (Hns : forall z, solid (s ++ z)) by (intros z; subst s; cbn; tauto).
    assert (Hnc : forall z, not_comment (s ++ z)).
    { intros z r E. subst s. cbn [app] in E. inversion E; subst. apply Hh. now left. }
    assert (Hsign : forall d e z k, In d (lit "[]{}'>|" ++ [DQUOTE]) -> fails (yc d ~~ e)%peg (s ++ z) k).
    { intros d e z k Hd. subst s. cbn [app]. apply fails_seq1, fails_c1. intros <-. now apply Hc. }
    split; try reflexivity; change (body (Unquoted s)) with s.
    + exact Hns.
    + intros z k Hz. now apply text_no_hash.
    + intros z k Hz. now apply text_no_array.
    + intros z k Hz. apply fails_rule. cbn [yaml_grammar snd]. apply text_no_mark; auto.
    + intros z Hz. destruct (gets_unquoted ut s z H Hz) as (r & Hr & Gr). exists r. split; [exact Hr|].
      intros k. eapply gets_via_inline_value.
      * apply fails_hash0; [apply Hns|apply Hnc|]. intros k'. now apply text_no_hash.
      * apply fails_rule. cbn [yaml_grammar snd]. apply fails_alt.
        -- apply fails_rule. cbn [yaml_grammar snd]. apply (Hsign (chr "[")). vm_compute. tauto.
        -- apply fails_block_array; [apply Hns|apply Hnc|]. intros k'. now apply text_no_array.
      * apply fails_rule. cbn [yaml_grammar snd]. apply (Hsign (chr "|")). vm_compute. tauto.
      * apply fails_rule. cbn [yaml_grammar snd]. apply (Hsign (chr ">")). vm_compute. tauto.
      * eapply gets_rule; [reflexivity| |].
        -- cbn [yaml_grammar snd]. apply gets_alt2.
           { apply fails_rule. cbn [yaml_grammar snd]. apply text_no_mark; auto. }
           apply gets_alt2.
           { apply fails_rule. cbn [yaml_grammar snd]. apply (Hsign (chr "[")). vm_compute. tauto. }
           apply gets_alt2.
           { apply fails_rule. cbn [yaml_grammar snd]. apply (Hsign (chr "{")). vm_compute. tauto. }
           eapply gets_rule; [reflexivity|cbn [yaml_grammar snd]; apply gets_alt1, Gr|reflexivity].
        -- reflexivity.
      * reflexivity.
  - apply (inline_facts _ (chr "*")); [now eexists|vm_compute; tauto|reflexivity|].
    intros z Hz. exists z. split; [now left|]. intros k. rewrite anchor_text.
    eapply gets_via_inline_value; [scanc|scanc|scanc|scanc| |].
    + eapply gets_rule; [reflexivity|cbn [yaml_grammar snd]; apply gets_alt1, gets_anchor|];
        [exact H|now apply btail_inert|reflexivity].
    + reflexivity.
Qed.

(** ---- where block collections end ---- *)

(** The rest of the text after a block collection: the end, possibly after a final line
    break, or a line with a key at an indentation below [K], a dash below [D] or a comment below [C]. *)
Inductive follow (K D C : nat) : str -> Prop :=
| f_end : follow K D C []
| f_final : follow K D C [NL]
| f_key m c r : m < K -> name_char ut c -> follow K D C (NL :: indent m ++ c :: r)
| f_dash m r : m < D -> follow K D C (NL :: indent m ++ chr "-" :: r)
| f_comment m t r : m < C -> one_line t -> follow K D C r ->
    follow K D C (NL :: indent m ++ chr "#" :: t ++ r).

Lemma follow_mono K D C K' D' C' r : follow K D C r -> K <= K' -> D <= D' -> C <= C' -> follow K' D' C' r.
Proof.
  induction 1; intros; [constructor|constructor|constructor; [lia|assumption]|constructor; lia|].
  constructor; auto; lia.
Qed.
Lemma follow_nl K D C r : follow K D C r -> nl_or_end r.
Proof. intros H. destruct H; [now left| | | |]; right; eauto. Qed.
Lemma follow_btail K D C r : follow K D C r -> btail r.
Proof. intros H. destruct H; constructor. Qed.
Lemma nl_left r r' : nl_or_end r -> left_of r r' -> r' = r.
Proof. intros [->|(x & ->)] [E|E]; try discriminate; exact E. Qed.

Definition line (K D : nat) (s : str) : Prop :=
  s = [] \/ (exists m c r, s = indent m ++ c :: r /\ name_char ut c /\ m < K)
  \/ (exists m r, s = indent m ++ chr "-" :: r /\ m < D).

Lemma name_solid c r : name_char ut c -> solid (c :: r).
Proof.
  intros H. cbn. pose proof (name_punct ut c H) as Hp. split; [now apply name_zs with (ut := ut)|].
  split; intros ->; [discriminate (Hp NL eq_refl)|discriminate (Hp CR eq_refl)].
Qed.
Lemma name_not_comment c r : name_char ut c -> not_comment (c :: r).
Proof.
  intros H r' E. inversion E; subst. discriminate (name_punct ut _ H (chr "#") eq_refl).
Qed.

Lemma follow_line K D C s : follow K D C s ->
  s = [] \/ exists m x, s = NL :: indent m ++ x /\ solid x /\
    exists cs r, (forall k, gets (PStar (R_ y_commentnl)) (indent m ++ x) k (vcnl cs) r k) /\ line K D r.
Proof.
  induction 1 as [| |m c r Hm Hc|m r Hm|m t r Hm Ht Hr IH]; [now left| | | |]; right.
  - exists 0, []. split; [reflexivity|]. split; [exact I|]. exists [], []. split; [|now left].
    intros k. apply gets_star0. scanc.
  - exists m, (c :: r). split; [reflexivity|]. split; [now apply name_solid|].
    exists [], (indent m ++ c :: r). split; [|right; left; eauto 7].
    intros k. apply gets_star0, fails_commentnl; [now apply name_solid|now apply name_not_comment].
  - exists m, (chr "-" :: r). split; [reflexivity|]. split; [cbn; repeat split; discriminate|].
    exists [], (indent m ++ chr "-" :: r). split; [|right; right; eauto 7].
    intros k. apply gets_star0, fails_commentnl; [cbn; repeat split; discriminate|intros x E; discriminate].
  - exists m, (chr "#" :: t ++ r). split; [reflexivity|]. split; [cbn; repeat split; discriminate|].
    destruct IH as [->|(m' & x & -> & Hx & cs & r' & G1 & Hl)].
    + exists [t], []. split; [|now left]. intros k.
      eapply gets_star1 with (v1 := [(y_commentnl, VStr t)]); [| |reflexivity].
      * eapply gets_rule; [reflexivity| |].
        -- cbn [yaml_grammar snd]. eapply gets_seq; [apply (gets_comment_base ut (indent m) t []);
             [apply indent_zs|exact Ht|now left]| |].
           ++ eapply eats_gets. exact (eats_blank0 ut 0 [] k I).
           ++ reflexivity.
        -- reflexivity.
      * apply gets_star0. scanc.
    + exists (t :: cs), r'. split; [|exact Hl]. intros k.
      eapply gets_star1 with (v1 := [(y_commentnl, VStr t)]); [|apply G1|reflexivity].
      exact (gets_commentnl ut m m' t x k Ht Hx).
Qed.

Lemma gets_commentnls_of s k cs r : gets (PStar (R_ y_commentnl)) s k (vcnl cs) r k ->
  gets (R_ y_commentnls) s k [(y_commentnls, VStrs cs)] r k.
Proof.
  intros H. eapply gets_rule; [reflexivity|exact H|]. intros t _. cbn [yact]. now rewrite many_vcnl.
Qed.

(** Indentation. *)
Lemma strip_short n m c r : m < n -> c <> SP -> strip (indent n) (indent m ++ c :: r) = None.
Proof.
  unfold indent. revert m. induction n as [|n IH]; intros m Hm Hc; [lia|].
  destruct m as [|m]; cbn [repeat_char app strip].
  - rewrite (proj2 (ceqb_neq SP c)) by congruence. reflexivity.
  - rewrite ceqb_refl. apply IH; [lia|exact Hc].
Qed.
Lemma indent_split n m s : n <= m -> indent m ++ s = indent n ++ indent (m - n) ++ s.
Proof.
  unfold indent. revert m. induction n as [|n IH]; intros m Hm; cbn [repeat_char app].
  - now rewrite Nat.sub_0_r.
  - destruct m as [|m]; [lia|]. cbn [repeat_char app]. rewrite (IH m) by lia. now rewrite Nat.sub_succ.
Qed.
Lemma strip_indent_nil n : strip (indent (S n)) [] = None.
Proof. reflexivity. Qed.
Lemma name_not_sp c : name_char ut c -> c <> SP.
Proof. intros H ->. discriminate (name_punct ut _ H SP eq_refl). Qed.

Lemma no_key_dash m s k : fails (R_ y_hash_element) (indent m ++ chr "-" :: s) k.
Proof. destruct m; scanc. Qed.
Lemma no_dash_key m c s k : name_char ut c -> fails (R_ y_block_array_element) (indent m ++ c :: s) k.
Proof.
  intros H. destruct m as [|m]; [|scanc]. cbn [indent repeat_char app].
  apply fails_rule. cbn [yaml_grammar snd]. apply fails_seq1, (fails_c1 ut (chr "-")).
  intros <-. discriminate (name_punct ut _ H (chr "-") eq_refl).
Qed.

Lemma end_hash_data K D C n s k : follow K D C s -> K <= n -> fails (R_ y_hash_element_data) s (indent n :: k).
Proof.
  intros H Hn. apply fails_rule. cbn [yaml_grammar snd].
  destruct (follow_line _ _ _ _ H) as [->|(m & x & -> & Hx & cs & r & G1 & Hl)].
  - apply fails_seq1. exact (fails_blanknl ut 0 [] _ I).
  - eapply fails_seq0; [apply eats_blanknl, Hx|].
    eapply fails_seq2; [apply gets_commentnls_of, G1|].
    destruct Hl as [->|[(m' & c & r' & -> & Hc & Hm)|(m' & r' & -> & Hm)]].
    + destruct n as [|n]; [|apply fails_seq1, fails_peek, strip_indent_nil].
      eapply fails_seq0; [exact (eats_peek ut [] [] k)|]. apply fails_seq1. scanc.
    + apply fails_seq1, fails_peek, strip_short; [lia|now apply name_not_sp].
    + destruct (le_lt_dec n m') as [Hle|Hlt].
      * rewrite (indent_split n m' _ Hle). eapply fails_seq0; [apply eats_peek|].
        apply fails_seq1, no_key_dash.
      * apply fails_seq1, fails_peek, strip_short; [lia|discriminate].
Qed.

Lemma end_array_data K D C n s k : follow K D C s -> D <= n ->
  fails (R_ y_blank ~~ R_ y_block_array_data)%peg s (indent n :: k)
  /\ fails (R_ y_blanknl ~~ R_ y_block_array_data)%peg s (indent n :: k).
Proof.
  intros H Hn.
  destruct (follow_line _ _ _ _ H) as [->|(m & x & -> & Hx & cs & r & G1 & Hl)].
  - split.
    + eapply fails_seq0; [exact (eats_blank0 ut 0 [] _ I)|]. apply fails_rule. cbn [yaml_grammar snd].
      eapply fails_seq2; [apply gets_comments0; now left|].
      destruct n as [|n]; [|apply fails_seq1, fails_peek, strip_indent_nil].
      eapply fails_seq0; [exact (eats_peek ut [] [] k)|]. apply fails_seq1. scanc.
    + apply fails_seq1. exact (fails_blanknl ut 0 [] _ I).
  - assert (F : fails (R_ y_block_array_data) (indent m ++ x) (indent n :: k)).
    { apply fails_rule. cbn [yaml_grammar snd].
      eapply fails_seq2; [apply gets_commentnls_of, G1|].
      destruct Hl as [->|[(m' & c & r' & -> & Hc & Hm)|(m' & r' & -> & Hm)]].
      + destruct n as [|n]; [|apply fails_seq1, fails_peek, strip_indent_nil].
        eapply fails_seq0; [exact (eats_peek ut [] [] k)|]. apply fails_seq1. scanc.
      + destruct (le_lt_dec n m') as [Hle|Hlt].
        * rewrite (indent_split n m' _ Hle). eapply fails_seq0; [apply eats_peek|].
          apply fails_seq1, no_dash_key, Hc.
        * apply fails_seq1, fails_peek, strip_short; [lia|now apply name_not_sp].
      + apply fails_seq1, fails_peek, strip_short; [lia|discriminate]. }
    split; (eapply fails_seq0; [|exact F]); [apply eats_blank, Hx|apply eats_blanknl, Hx].
Qed.

Lemma end_alt_cont K D C t s k : follow K D C s -> K <= t + 1 -> fails (R_ y_alt_hash_cont) s (indent t :: k).
Proof.
  intros H Hn. apply fails_rule. cbn [yaml_grammar snd].
  destruct (follow_line _ _ _ _ H) as [->|(m & x & -> & Hx & cs & r & G1 & Hl)].
  - apply fails_seq1. exact (fails_blanknl ut 0 [] _ I).
  - eapply fails_seq0; [apply eats_blanknl, Hx|].
    eapply fails_seq2; [apply gets_commentnls_of, G1|].
    destruct Hl as [->|[(m' & c & r' & -> & Hc & Hm)|(m' & r' & -> & Hm)]].
    + apply fails_seq1, fails_and. destruct t as [|t]; [|apply fails_seq1, fails_peek, strip_indent_nil].
      eapply fails_seq0; [exact (eats_peek ut [] [] k)|]. scanc.
    + apply fails_seq1, fails_and. destruct (Nat.eq_dec m' t) as [-> | Hne].
      * eapply fails_seq0; [apply eats_peek|]. apply fails_zsp. now apply name_zs with (ut := ut).
      * apply fails_seq1, fails_peek, strip_short; [lia|now apply name_not_sp].
    + destruct (lt_eq_lt_dec m' t) as [[Hlt|Heq]|Hgt].
      * apply fails_seq1, fails_and, fails_seq1, fails_peek, strip_short; [lia|discriminate].
      * subst m'. apply fails_seq1, fails_and. eapply fails_seq0; [apply eats_peek|].
        apply fails_zsp. reflexivity.
      * assert (Ed : exists d, m' - t = S d) by (exists (m' - t - 1); lia). destruct Ed as (d & Ed).
        eapply fails_seq0.
        { eapply eats_and. rewrite (indent_split t m') by lia. rewrite Ed.
          eapply eats_seq; [apply eats_peek| |reflexivity]. cbn [indent repeat_char app].
          eapply eats_seq; [now apply eats_class|exact (eats_indent ut d (chr "-" :: r') _ eq_refl)|reflexivity]. }
        eapply fails_seq0; [apply eats_push; exact (eats_indent ut m' (chr "-" :: r') _ eq_refl)|].
        apply fails_seq1, fails_first_hash. exact (no_key_dash 0 _ _).
Qed.

(** ---- block scalars ---- *)

Lemma indent_app n m : indent n ++ indent m = indent (n + m).
Proof. unfold indent. induction n; cbn [repeat_char app Nat.add]; [reflexivity|]. now rewrite IHn. Qed.

Lemma eats_no_nl s k : (forall c r, s = c :: r -> c <> NL /\ c <> CR) -> eats (PStar y_nl) s k [] s k.
Proof. intros H. apply eats_star0, fails_nl, H. Qed.

Lemma gets_empty_lines s k : (forall c r, s = c :: r -> c <> NL /\ c <> CR) ->
  gets (R_ y_block_empty_lines) s k [(y_block_empty_lines, VStrs [])] s k.
Proof.
  intros H. eapply gets_atomic; [reflexivity|apply eats_0, eats_no_nl, H|reflexivity].
Qed.

Lemma gets_block_string l s k : one_line l -> l <> [] -> nl_or_end s ->
  gets (R_ y_block_string) (l ++ s) k [(y_block_string, VStr l)] s k.
Proof.
  intros Hl Hne Hs. eapply gets_atomic; [reflexivity| |reflexivity]. apply eats_0.
  cbn [yaml_grammar snd]. apply eats_alt1. destruct l as [|c l]; [contradiction|]. cbn [app].
  destruct (one_line_at _ [] c l Hl eq_refl) as [H1 H2].
  eapply eats_seq with (t1 := [c]); [|apply eats_line with (c := l); [|exact Hs]|reflexivity].
  - eapply eats_seq; [apply eats_not, fails_nl1; assumption|now apply eats_class|reflexivity].
  - destruct Hl as [Ha Hb]. split; intros H; [apply Ha|apply Hb]; now right.
Qed.

Lemma sp_no_nl s : forall c r, SP :: s = c :: r -> c <> NL /\ c <> CR.
Proof. intros c r E. inversion E; split; discriminate. Qed.

Lemma indent_one_line n l : one_line l -> one_line (indent n ++ l).
Proof.
  intros [H1 H2]. split; intros H; apply in_app_or in H as [H|H]; try contradiction;
    apply indent_zs in H; discriminate.
Qed.

(** One further line: [t + 1 + j] spaces, then the text. *)
Lemma gets_ml_part t j l s k : one_line l -> 1 <= j -> nl_or_end s ->
  gets (R_ y_ml_part) (NL :: indent (t + 1 + j) ++ l ++ s) ([SP] :: indent t :: k)
    [(y_ml_part, VStrs [indent j ++ l])] s ([SP] :: indent t :: k).
Proof.
  intros Hl Hj Hs. eapply gets_rule; [reflexivity| |].
  - cbn [yaml_grammar snd]. eapply gets_seq0; [apply eats_nl|].
    eapply gets_seq with (v2 := [(y_block_string, VStr (indent j ++ l))]); [| |reflexivity].
    + apply gets_empty_lines. rewrite <- Nat.add_assoc, Nat.add_comm. cbn [Nat.add].
      cbn [indent repeat_char app]. apply sp_no_nl.
    + rewrite <- !indent_app, <- !app_assoc. change (indent 1) with [SP].
      rewrite (app_assoc (indent t) [SP]).
      eapply gets_seq0; [apply eats_peek2|]. rewrite app_assoc.
      apply gets_block_string; [now apply indent_one_line| |exact Hs].
      destruct j; [lia|discriminate].
  - reflexivity.
Qed.

Definition vpart (l : str) : yrule * yval := (y_ml_part, VStrs [l]).

Lemma end_ml_part K D C t s k : follow K D C s -> K <= t + 1 -> D <= t + 1 -> C <= t + 1 ->
  fails (R_ y_ml_part) s ([SP] :: indent t :: k).
Proof.
  intros H HK HD HC. apply fails_rule. cbn [yaml_grammar snd].
  assert (E : (s = [] \/ s = [NL]) \/ exists m c r, s = NL :: indent m ++ c :: r /\ m <= t /\ c <> SP /\ c <> NL /\ c <> CR).
  { destruct H as [| |m c r Hm Hc|m r Hm|m u r Hm Hu Hr]; [now left; left|now left; right| | |]; right.
    - exists m, c, r. pose proof (name_solid c r Hc) as Hs. cbn in Hs.
      pose proof (name_not_sp c Hc). repeat split; tauto || lia.
    - exists m, (chr "-"), r. repeat split; try discriminate. lia.
    - exists m, (chr "#"), (u ++ r). repeat split; try discriminate. lia. }
  destruct E as [[-> | ->]|(m & c & r & -> & Hm & Hc & H1 & H2)].
  - apply fails_seq1. apply fails_nl. intros; discriminate.
  - eapply fails_seq0; [apply eats_nl|]. eapply fails_seq2.
    { apply gets_empty_lines. intros; discriminate. }
    apply fails_seq1, fails_peek2. change [SP] with (indent 1). rewrite indent_app, Nat.add_comm. reflexivity.
  - eapply fails_seq0; [apply eats_nl|]. eapply fails_seq2.
    { apply gets_empty_lines. intros d r' E. destruct m; cbn in E; inversion E; subst; [auto|split; discriminate]. }
    apply fails_seq1, fails_peek2. change [SP] with (indent 1). rewrite indent_app.
    apply strip_short; [lia|exact Hc].
Qed.

Lemma gets_ml_trailing K D C s k : follow K D C s ->
  gets (R_ y_ml_trailing) s k [(y_ml_trailing, VStrs [])] s k.
Proof.
  intros H. eapply gets_atomic with (t := []); [reflexivity| |reflexivity]. apply eats_0. cbn [yaml_grammar snd].
  apply eats_star0.
  destruct (follow_line _ _ _ _ H) as [->|(m & x & -> & Hx & _)].
  - apply fails_seq1, fails_nl. intros; discriminate.
  - eapply fails_seq0; [apply eats_nl|]. apply fails_and.
    exact (line_no_nl 0 [] m x k Hx).
Qed.

Lemma gets_ml_parts K D C t j ls s k : follow K D C s -> K <= t + 1 -> D <= t + 1 -> C <= t + 1 ->
  Forall one_line ls -> 1 <= j ->
  gets (PStar (R_ y_ml_part)) (flat_map (fun l => NL :: indent (t + 1 + j) ++ l) ls ++ s)
    ([SP] :: indent t :: k) (map (fun l => vpart (indent j ++ l)) ls) s ([SP] :: indent t :: k).
Proof.
  intros H HK HD HC Hls Hj. induction Hls as [|l ls Hl _ IH]; cbn [flat_map map app].
  - apply gets_star0. now apply (end_ml_part K D C).
  - rewrite <- !app_assoc. eapply gets_star1; [apply gets_ml_part; try eassumption|exact IH|reflexivity].
    destruct ls; cbn [flat_map app]; [now apply (follow_nl K D C)|right; eauto].
Qed.

Definition lines_text (n : nat) (ls : list str) : str := flat_map (fun l => NL :: indent n ++ l) ls.

Lemma gets_ml_content K D C t j l ls s k : follow K D C s -> K <= t + 1 -> D <= t + 1 -> C <= t + 1 ->
  Forall one_line (l :: ls) -> 1 <= j -> (exists d, In d l /\ is_zs d = false) ->
  gets (R_ y_ml_content) (lines_text (t + 1 + j) (l :: ls) ++ s) (indent t :: k)
    [(y_ml_content, VStrs (map (fun l => indent j ++ l) (l :: ls)))] s (indent t :: k).
Proof.
  intros H HK HD HC Hls Hj (d & Hd & Hz). inversion Hls as [|? ? Hl Hls']; subst.
  cbn [lines_text flat_map app]. rewrite <- app_assoc. fold (lines_text (t + 1 + j) ls).
  eapply gets_rule; [reflexivity| |].
  - cbn [yaml_grammar snd].
    (* the blanks at the start of the first line *)
    assert (E : exists u w, indent (t + 1 + j) ++ l = u ++ w /\ (forall c, In c u -> is_zs c = true)
              /\ solid w /\ w <> []).
    { assert (E : forall l, one_line l -> In d l -> exists u w, l = u ++ w /\ (forall c, In c u -> is_zs c = true) /\ solid w /\ w <> []).
      { clear - Hz. induction l as [|c l IH]; intros Ho Hi; [destruct Hi|].
        destruct (is_zs c) eqn:Ec.
        - destruct Hi as [->|Hi]; [congruence|].
          destruct IH as (u & w & -> & Hu & Hw); [|exact Hi|].
          { destruct Ho as [Ha Hb]. split; intros Hx; [apply Ha|apply Hb]; now right. }
          exists (c :: u), w. repeat split; try tauto. intros x [<-|Hx]; auto.
        - exists [], (c :: l). repeat split; [intros x []|exact Ec| | |discriminate].
          + intros ->. apply (proj1 Ho). now left.
          + intros ->. apply (proj2 Ho). now left. }
      apply E; [now apply indent_one_line|]. apply in_or_app. now right. }
    destruct E as (u & w & Euw & Hu & Hw & Hne).
    eapply gets_seq0.
    { rewrite Euw, <- app_assoc. apply eats_blanknl_gen; [exact Hu|].
      destruct w; [contradiction|exact Hw]. }
    rewrite app_assoc, <- Euw, <- app_assoc.
    eapply gets_seq.
    { apply gets_empty_lines. rewrite <- Nat.add_assoc, Nat.add_comm. cbn [Nat.add indent repeat_char app].
      apply sp_no_nl. }
    2:{ reflexivity. }
    eapply gets_seq.
    { rewrite <- !indent_app, <- !app_assoc. change (indent 1) with [SP].
      eapply gets_seq0; [apply eats_peek|]. eapply gets_seq0; [apply eats_push; exact (eats_str ut [SP] _ _)|].
      rewrite app_assoc. apply gets_block_string; [now apply indent_one_line|destruct j; [lia|discriminate]|].
      destruct ls; cbn [lines_text flat_map app]; [now apply (follow_nl K D C)|right; eauto]. }
    2:{ reflexivity. }
    eapply gets_seq; [apply (gets_ml_parts K D C); eassumption| |reflexivity].
    eapply gets_seq; [apply (gets_ml_trailing K D C); exact H|eapply eats_gets, eats_drop|reflexivity].
  - intros x _. cbn [yact app].
    assert (M : forall vs : list str, many as_ml_part (map (fun l => vpart (indent j ++ l)) ls ++ [(y_ml_trailing, VStrs vs)])
                = (map (fun l => [indent j ++ l]) ls, [(y_ml_trailing, VStrs vs)])).
    { intros vs. clear. induction ls as [|a ls IH]; [reflexivity|]. cbn [map app many as_ml_part vpart].
      change (many _ _) with (many as_ml_part (map (fun l => vpart (indent j ++ l)) ls ++ [(y_ml_trailing, VStrs vs)])).
      now rewrite IH. }
    rewrite M. cbn [app map]. rewrite app_nil_r. do 3 f_equal.
    clear. induction ls as [|a ls IH]; [reflexivity|]. cbn [map concat app]. now rewrite IH.
Qed.

Lemma slice_indent j l : slice_from (N.of_nat j) (indent j ++ l) = Some l.
Proof.
  unfold indent. induction j as [|j IH].
  - cbn [repeat_char app]. destruct l; reflexivity.
  - cbn [repeat_char app]. rewrite Nat2N.inj_succ. cbn [slice_from].
    destruct (N.eqb_spec (N.succ (N.of_nat j)) 0); [lia|].
    change (N.of_nat (char_len SP)) with 1%N. cbn zeta.
    destruct (N.leb_spec 1 (N.succ (N.of_nat j))); [|lia].
    replace (N.succ (N.of_nat j) - 1)%N with (N.of_nat j) by lia. exact IH.
Qed.
Lemma clean_indented j ls : 1 <= j -> clean_lines (N.of_nat j) (map (fun l => indent j ++ l) ls) = CVal ls.
Proof.
  intros Hj. induction ls as [|l ls IH]; [reflexivity|]. cbn [map clean_lines].
  replace (match indent j ++ l with [] => Some [] | _ => slice_from (N.of_nat j) (indent j ++ l) end)
    with (Some l).
  - rewrite IH. reflexivity.
  - destruct j; [lia|]. rewrite <- (slice_indent (S j) l). reflexivity.
Qed.
Lemma count_indent j c l : is_ws c = false -> count_ws (indent j ++ c :: l) = N.of_nat j.
Proof.
  intros H. unfold indent. induction j as [|j IH]; cbn [repeat_char app count_ws].
  - now rewrite H.
  - change (is_ws SP && negb (ceqb SP NL))%bool with true. cbn iota. rewrite IH.
    change (N.of_nat (char_len SP)) with 1%N. lia.
Qed.

(** [head] is the sign, [mk] the node. *)
Lemma gets_ml r (sign : char) mk K D C t j ls c s k :
  (r = y_ml_literal /\ sign = chr "|" /\ mk = Literal) \/ (r = y_ml_folded /\ sign = chr ">" /\ mk = Folded) ->
  follow K D C s -> K <= t + 1 -> D <= t + 1 -> C <= t + 1 -> block_lines ls -> 1 <= j ->
  (j = 1 \/ forall l ls', ls <> (SP :: l) :: ls') ->
  gets (R_ r) (sign :: chomp_str c ++ (if starts_with SP (hd [] ls) then lit "2" else []) ++
               lines_text (t + 1 + j) ls ++ s) (indent t :: k)
    [(r, VYaml (mk ls c))] s (indent t :: k).
Proof.
  intros Hr H HK HD HC (Hls & ch & l & ls' & -> & Hch & Hd) Hj Hi.
  assert (Hc : gets (R_ y_ml_content) (lines_text (t + 1 + j) ((ch :: l) :: ls') ++ s) (indent t :: k)
    [(y_ml_content, VStrs (map (fun l => indent j ++ l) ((ch :: l) :: ls')))] s (indent t :: k))
    by (apply (gets_ml_content K D C); assumption).
  revert Hc. set (content := map (fun l => indent j ++ l) ((ch :: l) :: ls')).
  set (txt := lines_text (t + 1 + j) ((ch :: l) :: ls') ++ s). intros Hc.
  assert (Etxt : exists x, txt = NL :: x) by (unfold txt; cbn; eauto).
  set (ind := if starts_with SP (hd [] ((ch :: l) :: ls')) then lit "2" else []).
  assert (Hind : exists i, gets (R_ y_ml_indent) (ind ++ txt) (indent t :: k) [(y_ml_indent, VIndent i)] txt (indent t :: k)
                           /\ clean_multiline i content = CVal ((ch :: l) :: ls')).
  { unfold ind. cbn [hd starts_with]. destruct (ceqb ch SP) eqn:E.
    - apply ceqb_eq in E. subst ch. exists (Some 1%N). split.
      + eapply gets_leaf with (t := lit "2"); [reflexivity| |reflexivity]. cbn [yaml_grammar snd].
        destruct Etxt as (x & ->). change (lit "2" ++ NL :: x) with ([chr "2"] ++ NL :: x).
        eapply eats_star1; [| |symmetry; apply app_nil_r].
        * eapply eats_seq with (t1 := [chr "2"]); [apply eats_class; reflexivity| |reflexivity].
          apply eats_star0. scanc.
        * apply eats_star0. scanc.
      + destruct Hi as [->|Hi]; [|now destruct (Hi l ls')]. cbn [clean_multiline].
        exact (clean_indented 1 _ (le_n 1)).
    - exists None. split.
      + eapply gets_leaf with (t := []); [reflexivity| |reflexivity]. cbn [yaml_grammar snd app].
        apply eats_star0. destruct Etxt as (x & ->). scanc.
      + destruct Hch as [->|Hch]; [discriminate|].
        unfold content. cbn [map clean_multiline]. rewrite count_indent by exact Hch.
        exact (clean_indented j ((ch :: l) :: ls') Hj). }
  destruct Hind as (i & Gi & Ci).
  assert (Hi0 : forall x y, ind ++ txt = x :: y -> x <> chr "-" /\ x <> chr "+").
  { unfold ind. destruct (starts_with _ _); intros x y E; destruct Etxt as (z & Ez).
    - inversion E. split; discriminate.
    - rewrite Ez in E. inversion E. split; discriminate. }
  assert (Gch : gets (POpt (R_ y_chomping)) (chomp_str c ++ ind ++ txt) (indent t :: k)
                  (match c with Clip => [] | _ => [(y_chomping, VChomp c)] end) (ind ++ txt) (indent t :: k)).
  { destruct c; cbn [chomp_str app].
    - apply gets_opt0. apply fails_rule. cbn [yaml_grammar snd].
      destruct (ind ++ txt) as [|x y]; [scanc|]. destruct (Hi0 x y eq_refl).
      apply fails_alt; [apply (fails_c1 ut (chr "-"))|apply (fails_c1 ut (chr "+"))]; congruence.
    - apply gets_opt1. apply gets_leaf with (t := lit "-"); [reflexivity| |reflexivity].
      cbn [yaml_grammar snd]. apply eats_alt1, (eats_str ut (lit "-")).
    - apply gets_opt1. apply gets_leaf with (t := lit "+"); [reflexivity| |reflexivity].
      cbn [yaml_grammar snd]. apply eats_alt2; [scanc|]. apply (eats_str ut (lit "+")). }
  assert (M : multiline mk ((match c with Clip => [] | _ => [(y_chomping, VChomp c)] end)
     ++ [(y_ml_indent, VIndent i)] ++ [(y_ml_content, VStrs content)]) = CVal (VYaml (mk ((ch :: l) :: ls') c))).
  { destruct c; cbn [app multiline]; rewrite Ci; reflexivity. }
  destruct Hr as [(-> & -> & ->)|(-> & -> & ->)].
  - eapply gets_rule; [reflexivity| |intros x _; exact M]. cbn [yaml_grammar snd].
    eapply gets_seq0; [exact (eats_str ut (lit "|") _ _)|].
    eapply gets_seq; [exact Gch| |reflexivity]. eapply gets_seq; [exact Gi|exact Hc|reflexivity].
  - eapply gets_rule; [reflexivity| |intros x _; exact M]. cbn [yaml_grammar snd].
    eapply gets_seq0; [exact (eats_str ut (lit ">") _ _)|].
    eapply gets_seq; [exact Gch| |reflexivity]. eapply gets_seq; [exact Gi|exact Hc|reflexivity].
Qed.

Lemma gets_ml_value r (sign : char) mk K D C t j ls c s k :
  (r = y_ml_literal /\ sign = chr "|" /\ mk = Literal) \/ (r = y_ml_folded /\ sign = chr ">" /\ mk = Folded) ->
  follow K D C s -> K <= t + 1 -> D <= t + 1 -> C <= t + 1 -> block_lines ls -> 1 <= j ->
  (j = 1 \/ forall l ls', ls <> (SP :: l) :: ls') ->
  gets (R_ y_yaml_value) (sign :: chomp_str c ++ (if starts_with SP (hd [] ls) then lit "2" else []) ++
               lines_text (t + 1 + j) ls ++ s) (indent t :: k)
    [(y_yaml_value, VYaml (mk ls c))] s (indent t :: k).
Proof.
  intros Hr H HK HD HC Hls Hj Hi.
  pose proof (gets_ml r sign mk K D C t j ls c s k Hr H HK HD HC Hls Hj Hi) as Gm.
  destruct Hr as [(-> & -> & ->)|(-> & -> & ->)].
  - eapply gets_rule; [reflexivity| |].
    + cbn [yaml_grammar snd]. apply gets_alt2; [scanc|]. apply gets_alt2; [scanc|]. apply gets_alt1, Gm.
    + reflexivity.
  - eapply gets_rule; [reflexivity| |].
    + cbn [yaml_grammar snd]. apply gets_alt2; [scanc|]. apply gets_alt2; [scanc|].
      apply gets_alt2; [scanc|]. apply gets_alt1, Gm.
    + reflexivity.
Qed.

End Block.
