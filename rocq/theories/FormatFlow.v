(** What the grammar reads from inline collections and from values written on one line. *)
From Coq Require Import ZArith.
From Verif Require Import Base Ast Num Strings Peg PegFacts YamlGrammar Consume Format Spec_Parse YamlTree
  Spec_Format Reads FormatText FormatScalars.
Import ListNotations.

Section Flow.
Context (ut : unitab).
Notation G := (yaml_grammar ut).
Notation gets := (gets ut).
Notation eats := (eats ut).
Notation eats0 := (eats0 ut).
Notation fails := (fails ut).

(** Neither a space nor a line break first. *)
Definition firm (s : str) : Prop := forall c r, s = c :: r -> c <> SP /\ c <> NL /\ c <> CR.

Lemma fails_space s k : firm s -> fails (R_ y_space) s k.
Proof.
  intros H. apply fails_rule. cbn [yaml_grammar snd]. destruct s as [|c s]; [scanc|].
  destruct (H c s eq_refl) as (H1 & H2 & H3). apply fails_alt.
  - apply (fails_c1 ut SP). congruence.
  - now apply fails_nl1.
Qed.
Lemma eats_space s k : eats (R_ y_space) (SP :: s) k [SP] s k.
Proof. apply eats_silent; [reflexivity|]. apply eats_alt1. exact (eats_str ut [SP] s k). Qed.
Lemma eats_space_nl s k : eats (R_ y_space) (NL :: s) k [NL] s k.
Proof.
  apply eats_silent; [reflexivity|]. cbn [yaml_grammar snd]. apply eats_alt2; [scanc|]. apply eats_nl.
Qed.
Lemma eats_spaces0 s k : firm s -> eats (R_ y_spaces) s k [] s k.
Proof. intros H. apply eats_silent; [reflexivity|]. apply eats_star0, fails_space, H. Qed.
Lemma eats_space_star n s k : firm s -> eats (PStar (R_ y_space)) (indent n ++ s) k (indent n) s k.
Proof.
  intros H. unfold indent. induction n as [|n IH]; cbn [repeat_char app].
  - apply eats_star0, fails_space, H.
  - eapply eats_star1; [apply eats_space|exact IH|reflexivity].
Qed.
Lemma eats_spaces1 s k : firm s -> eats (R_ y_spaces) (SP :: s) k [SP] s k.
Proof. intros H. apply eats_silent; [reflexivity|]. exact (eats_space_star 1 s k H). Qed.
Lemma eats_spaces_nl n s k : firm s -> eats (R_ y_spaces) (NL :: indent n ++ s) k (NL :: indent n) s k.
Proof.
  intros H. apply eats_silent; [reflexivity|]. cbn [yaml_grammar snd].
  eapply eats_star1; [apply eats_space_nl|now apply eats_space_star|reflexivity].
Qed.
Lemma firm_cons c r : c <> SP -> c <> NL -> c <> CR -> firm (c :: r).
Proof. intros H1 H2 H3 d r' E. inversion E; subst. auto. Qed.

(** ---- items of an inline collection ---- *)

Section Items.
  Context {X : Type} (e : yexp) (f : X -> str) (g : X -> yrule * yval) (close : char).
  Hypothesis Hclose : close = chr "]" \/ close = chr "}".

  Definition item_ok (x : X) : Prop :=
    (forall z, firm (f x ++ z)) /\
    (forall z, itail z -> exists r, left_of z r /\ forall k, gets e (f x ++ z) k [g x] r k).

  Definition more : yexp := PStar (R_ y_spaces ~~ yl "," ~~ R_ y_spaces ~~ e)%peg.
  Definition ends (z : str) : str := SP :: close :: z.
  Definition rest_text (xs : list X) : str := flat_map (fun x => chr "," :: SP :: f x) xs.

  Lemma itail_ends xs z : itail (rest_text xs ++ ends z).
  Proof.
    destruct xs; cbn [rest_text flat_map app].
    - destruct Hclose as [E|E]; unfold ends; rewrite E; constructor.
    - constructor.
  Qed.
  Lemma close_firm z : firm (close :: z).
  Proof. destruct Hclose as [-> | ->]; apply firm_cons; discriminate. Qed.
  Lemma eats_close z r k : left_of (ends z) r -> exists t, eats (R_ y_spaces) r k t (close :: z) k.
  Proof.
    intros [-> | H].
    - exists [SP]. apply eats_spaces1, close_firm.
    - inversion H; subst. exists []. apply eats_spaces0, close_firm.
  Qed.
  Lemma gets_more xs : Forall item_ok xs -> forall z r, left_of (rest_text xs ++ ends z) r ->
    exists r', left_of (ends z) r' /\ forall k, gets more r k (map g xs) r' k.
  Proof.
    intros H. induction H as [|x xs [Hf Hx] _ IH]; intros z r Hr; cbn [rest_text flat_map app map] in *.
    - exists r. split; [exact Hr|]. intros k. apply gets_star0.
      destruct (eats_close z r k Hr) as (t & E). eapply fails_seq0; [exact E|].
      apply fails_seq1. apply (fails_c1 ut (chr ",")). destruct Hclose as [-> | ->]; discriminate.
    - destruct Hr as [-> | Hr]; [|discriminate]. fold (rest_text xs).
      rewrite <- app_assoc.
      destruct (Hx (rest_text xs ++ ends z) (itail_ends xs z)) as (r1 & Hr1 & G1).
      destruct (IH z r1 Hr1) as (r2 & Hr2 & G2). exists r2. split; [exact Hr2|]. intros k.
      eapply gets_star1 with (v1 := [g x]); [|apply G2|reflexivity].
      eapply gets_seq0; [apply eats_spaces0; apply firm_cons; discriminate|].
      eapply gets_seq0; [exact (eats_str ut (lit ",") _ k)|].
      eapply gets_seq0; [apply eats_spaces1, Hf|]. apply G1.
  Qed.
  Lemma gets_items x xs : item_ok x -> Forall item_ok xs -> forall z,
    exists r, left_of (ends z) r /\ forall k,
      gets (R_ y_spaces ~~ e ~~ more)%peg (SP :: f x ++ rest_text xs ++ ends z) k (map g (x :: xs)) r k.
  Proof.
    intros [Hf Hx] Hxs z.
    destruct (Hx (rest_text xs ++ ends z) (itail_ends xs z)) as (r1 & Hr1 & G1).
    destruct (gets_more xs Hxs z r1 Hr1) as (r2 & Hr2 & G2). exists r2. split; [exact Hr2|]. intros k.
    eapply gets_seq0; [apply eats_spaces1, Hf|]. eapply gets_seq; [apply G1|apply G2|reflexivity].
  Qed.
End Items.

(** The text of a value without its leading space. *)
Definition body (y : yaml) : str := tl (format y 0 None).

Lemma concat_mapi_S {A} (f : nat -> A -> str) g l : (forall i x, f (S i) x = g x) ->
  forall i, concat_mapi f (S i) l = flat_map g l.
Proof. intros H. induction l as [|x l IH]; intros i; cbn; [reflexivity|]. now rewrite H, IH. Qed.

Definition inline_head (y : yaml) : Prop :=
  exists c r, body y = c :: r /\ c <> SP /\ c <> NL /\ c <> CR.

Lemma format_body y : inline_canon ut y -> forall n par, format y n par = SP :: body y.
Proof. destruct y; cbn [inline_canon]; try contradiction; reflexivity. Qed.
Lemma inline_firm y z : inline_canon ut y -> firm (body y ++ z).
Proof.
  intros H. destruct y; cbn [inline_canon] in H; try contradiction.
  1-4,6: try (apply firm_cons; discriminate).
  destruct H as ((c & r & -> & H1 & H2) & [H3 H4] & _).
  apply firm_cons; [assumption|intros ->; apply H3; now left|intros ->; apply H4; now left].
Qed.

Lemma inline_array_text x xs : Forall (inline_canon ut) (x :: xs) ->
  body (InlineArray (x :: xs)) = chr "[" :: SP :: body x ++ rest_text body xs ++ [SP; chr "]"].
Proof.
  intros H. inversion H as [|? ? Hx Hxs]; subst. unfold body at 1. cbn [format tl].
  change (tl (lit " [" ++ ?x)) with (lit "[" ++ x). cbn [is_nil].
  cbn [concat_mapi]. change (0 <? 0) with false. cbn iota. cbn [app].
  rewrite (format_body x Hx). rewrite (concat_mapi_S _ (fun x => lit "," ++ format x 0 None)) by reflexivity.
  replace (flat_map (fun x => lit "," ++ format x 0 None) xs) with (rest_text body xs).
  - rewrite <- !app_assoc. reflexivity.
  - unfold rest_text. clear H Hx. induction Hxs as [|a l Ha _ IH]; [reflexivity|].
    cbn [flat_map]. rewrite IH, (format_body a Ha). reflexivity.
Qed.

Definition pair_text (kv : str * yaml) : str := fst kv ++ lit ": " ++ body (snd kv).
Definition pair_canon (kv : str * yaml) : Prop := plain_key ut (fst kv) /\ inline_canon ut (snd kv).
Lemma inline_hash_text x xs : Forall pair_canon (x :: xs) ->
  body (InlineHash (x :: xs)) = chr "{" :: SP :: pair_text x ++ rest_text pair_text xs ++ [SP; chr "}"].
Proof.
  intros H. inversion H as [|? ? Hx Hxs]; subst. unfold body at 1. cbn [format tl].
  change (tl (lit " {" ++ ?x)) with (lit "{" ++ x). cbn [is_nil].
  cbn [concat_mapi]. destruct x as [k v]. change (0 <? 0) with false. cbn iota. cbn [app].
  destruct Hx as [_ Hx]. cbn [snd] in Hx. rewrite (format_body v Hx).
  rewrite (concat_mapi_S _ (fun kv => lit ", " ++ fst kv ++ lit ":" ++ format (snd kv) 0 None))
    by (intros i [a b]; reflexivity).
  replace (flat_map (fun kv => lit ", " ++ fst kv ++ lit ":" ++ format (snd kv) 0 None) xs)
    with (rest_text pair_text xs).
  - change (pair_text (k, v)) with (k ++ lit ": " ++ body v). rewrite <- !app_assoc. reflexivity.
  - unfold rest_text. clear H Hx. induction Hxs as [|[a b] l [_ Ha] _ IH]; [reflexivity|].
    cbn [flat_map]. cbn [fst snd] in *. rewrite IH, (format_body b Ha). unfold pair_text.
    cbn [fst snd]. change (lit ", ") with [chr ","; SP]. cbn [app]. rewrite <- !app_assoc. reflexivity.
Qed.

Lemma fold_right_Forall {A} (P : A -> Prop) l : fold_right (fun x Q => P x /\ Q) True l <-> Forall P l.
Proof.
  induction l as [|a l IH]; cbn [fold_right]; split; intros H.
  - constructor.
  - exact I.
  - constructor; tauto.
  - inversion H; tauto.
Qed.

Lemma fails_unq_inline s k t ns r k' : runs G false (R_ y_dis_inline_start) s k (Ok t ns r k') ->
  fails (R_ y_unquoted_inline_string) s k.
Proof.
  intros H. apply fails_rule. cbn [yaml_grammar snd]. apply fails_seq1, fails_rule. cbn [yaml_grammar snd].
  apply fails_seq1. eapply fails_not, H.
Qed.
Lemma no_value_bracket z k : fails (R_ y_inline_array_value) (lit "]" ++ z) k.
Proof.
  apply fails_rule. cbn [yaml_grammar snd]. do 3 (apply fails_alt; [scanc|]).
  apply fails_rule. cbn [yaml_grammar snd]. apply fails_alt; [|apply fails_alt; scanc].
  eapply fails_unq_inline. eapply RRule. cbn [yaml_grammar snd].
  do 2 (apply eats_alt2; [scanc|]). apply eats_alt1, eats_str.
Qed.

Lemma gets_inline_array l : Forall (item_ok (R_ y_inline_array_value) body (fun y => (y_inline_array_value, VYaml y))) l ->
  Forall (inline_canon ut) l -> forall z k,
  gets (R_ y_inline_array) (body (InlineArray l) ++ z) k [(y_inline_array, VYaml (InlineArray l))] z k.
Proof.
  intros Hi Hc z k. destruct l as [|x xs].
  - change (body (InlineArray []) ++ z) with (lit "[" ++ lit "]" ++ z).
    eapply gets_rule; [reflexivity| |].
    + cbn [yaml_grammar snd]. eapply gets_seq0; [apply eats_str|].
      eapply gets_seq0.
      { apply eats_opt0. eapply fails_seq0; [apply eats_spaces0, firm_cons; discriminate|].
        apply fails_seq1, no_value_bracket. }
      eapply gets_seq0; [apply eats_spaces0, firm_cons; discriminate|].
      eapply eats_gets, eats_str.
    + reflexivity.
  - rewrite (inline_array_text x xs Hc). inversion Hi as [|? ? Hx Hxs]; subst.
    destruct (gets_items _ _ _ (chr "]") (or_introl eq_refl) x xs Hx Hxs z) as (r & Hr & Gr).
    cbn [app]. rewrite <- !app_assoc.
    eapply gets_rule; [reflexivity| |].
    + cbn [yaml_grammar snd]. eapply gets_seq0; [exact (eats_str ut (lit "[") _ k)|].
      eapply gets_seq; [apply gets_opt1, Gr| |rewrite app_nil_r; reflexivity].
      destruct (eats_close (chr "]") (or_introl eq_refl) z r k Hr) as (t & E).
      eapply gets_seq0; [exact E|]. eapply eats_gets. exact (eats_str ut (lit "]") z k).
    + intros t _. cbn [yact]. rewrite (many_map _ _ (fun c => c)) by reflexivity. now rewrite map_id.
Qed.

Lemma gets_pair kv : pair_canon kv ->
  item_ok (R_ y_inline_array_value) body (fun y => (y_inline_array_value, VYaml y)) (snd kv) ->
  item_ok (R_ y_inline_hash_element) pair_text (fun kv => (y_inline_hash_element, VPair (fst kv) (snd kv))) kv.
Proof.
  destruct kv as [key v]. intros [Hk Hc] [Hf Hv]. cbn [fst snd] in *. split.
  - intros z. unfold pair_text. destruct Hk as ((c & r & -> & Hn) & _). cbn [fst app].
    pose proof (name_punct ut c Hn) as Hp.
    apply firm_cons; intros ->; [discriminate (Hp SP eq_refl)|discriminate (Hp NL eq_refl)|discriminate (Hp CR eq_refl)].
  - intros z Hz. destruct (Hv z Hz) as (r & Hr & Gr). exists r. split; [exact Hr|]. intros k.
    unfold pair_text. cbn [fst snd]. rewrite <- !app_assoc.
    eapply gets_rule; [reflexivity| |].
    + cbn [yaml_grammar snd]. eapply gets_seq.
      * apply gets_hash_key; [exact Hk|]. intros c r' E. inversion E; subst.
        intros [H|[H|H]]; try discriminate. revert H. apply punct_not_name. reflexivity.
      * eapply gets_seq0; [apply eats_spaces0, firm_cons; discriminate|].
        eapply gets_seq0; [exact (eats_str ut (lit ":") _ k)|].
        eapply gets_seq0; [apply eats_spaces1, Hf|]. apply Gr.
      * reflexivity.
    + reflexivity.
Qed.

Lemma gets_inline_hash l :
  Forall (item_ok (R_ y_inline_hash_element) pair_text
            (fun kv => (y_inline_hash_element, VPair (fst kv) (snd kv)))) l ->
  Forall pair_canon l -> forall z k,
  gets (R_ y_inline_hash) (body (InlineHash l) ++ z) k [(y_inline_hash, VYaml (InlineHash l))] z k.
Proof.
  intros Hi Hc z k. destruct l as [|x xs].
  - change (body (InlineHash []) ++ z) with (lit "{" ++ lit "}" ++ z).
    eapply gets_rule; [reflexivity| |].
    + cbn [yaml_grammar snd]. eapply gets_seq0; [apply eats_str|].
      eapply gets_seq0.
      { apply eats_opt0. eapply fails_seq0; [apply eats_spaces0, firm_cons; discriminate|].
        apply fails_seq1. scanc. }
      eapply gets_seq0; [apply eats_spaces0, firm_cons; discriminate|].
      eapply eats_gets, eats_str.
    + reflexivity.
  - rewrite (inline_hash_text x xs Hc). inversion Hi as [|? ? Hx Hxs]; subst.
    destruct (gets_items _ _ _ (chr "}") (or_intror eq_refl) x xs Hx Hxs z) as (r & Hr & Gr).
    cbn [app]. rewrite <- !app_assoc.
    eapply gets_rule; [reflexivity| |].
    + cbn [yaml_grammar snd]. eapply gets_seq0; [exact (eats_str ut (lit "{") _ k)|].
      eapply gets_seq; [apply gets_opt1, Gr| |rewrite app_nil_r; reflexivity].
      destruct (eats_close (chr "}") (or_intror eq_refl) z r k Hr) as (t & E).
      eapply gets_seq0; [exact E|]. eapply eats_gets. exact (eats_str ut (lit "}") z k).
    + intros t _. cbn [yact]. rewrite (many_map _ _ (fun c => c)) by (intros [a b]; reflexivity).
      now rewrite map_id.
Qed.

Lemma single_text ps z : body (SingleQ ps) ++ z = QUOTE :: flat_map format_sq_part ps ++ QUOTE :: z.
Proof. unfold body. cbn [format tl app]. now rewrite <- app_assoc. Qed.
Lemma double_text ps z : body (DoubleQ ps) ++ z = DQUOTE :: flat_map format_dq_part ps ++ DQUOTE :: z.
Proof. unfold body. cbn [format tl app]. now rewrite <- app_assoc. Qed.
Lemma anchor_text a z : body (Anchor a) ++ z = chr "*" :: a ++ z.
Proof. reflexivity. Qed.

Notation vitem := (fun y : yaml => (y_inline_array_value, VYaml y)).

Lemma gets_inline y : inline_canon ut y -> item_ok (R_ y_inline_array_value) body vitem y.
Proof.
  induction y as [l IH|l IH|l IH|l IH|ps|ps|s|ls ch|ls ch|s] using yaml_ind'; intros H;
    (split; [intros z; apply (inline_firm _ z H)|]); cbn [inline_canon] in H; try contradiction;
    intros z Hz.
  - assert (Hc : Forall pair_canon l).
    { clear IH. induction l as [|[k v] l IHl]; cbn [fold_right] in H; constructor; [apply H|apply IHl, H]. }
    exists z. split; [now left|]. intros k.
    eapply gets_rule; [reflexivity| |].
    + cbn [yaml_grammar snd]. apply gets_alt2.
      { destruct l as [|x xs]; [scanc|rewrite (inline_hash_text x xs Hc); scanc]. }
      apply gets_alt2.
      { destruct l as [|x xs]; [scanc|rewrite (inline_hash_text x xs Hc); scanc]. }
      apply gets_alt1. apply gets_inline_hash; [|exact Hc].
      rewrite Forall_forall in *. intros [a b] Hin. apply gets_pair; [now apply Hc|].
      apply (IH (a, b) Hin). now apply (Hc (a, b)).
    + reflexivity.
  - apply fold_right_Forall in H. exists z. split; [now left|]. intros k.
    eapply gets_rule; [reflexivity| |].
    + cbn [yaml_grammar snd]. apply gets_alt2.
      { destruct l as [|x xs]; [scanc|rewrite (inline_array_text x xs H); scanc]. }
      apply gets_alt1. apply gets_inline_array; [|exact H].
      rewrite Forall_forall in *. auto.
    + reflexivity.
  - destruct (itail_after z Hz) as (r & Hr). exists r. split; [now apply after_left|]. intros k.
    rewrite single_text. eapply gets_rule; [reflexivity| |].
    + cbn [yaml_grammar snd]. apply gets_alt2; [scanc|]. apply gets_alt2; [scanc|]. apply gets_alt2; [scanc|].
      eapply gets_rule; [reflexivity| |].
      * cbn [yaml_grammar snd]. apply gets_alt2.
        { eapply fails_unq_inline. eapply RRule. cbn [yaml_grammar snd].
          do 7 (apply eats_alt2; [scanc|]). apply eats_alt1. exact (eats_str ut (lit "'") _ k). }
        apply gets_alt2; [scanc|]. apply gets_single; [exact H|now apply itail_inert|exact Hr].
      * reflexivity.
    + reflexivity.
  - destruct (itail_after z Hz) as (r & Hr). exists r. split; [now apply after_left|]. intros k.
    rewrite double_text. eapply gets_rule; [reflexivity| |].
    + cbn [yaml_grammar snd]. apply gets_alt2; [scanc|]. apply gets_alt2; [scanc|]. apply gets_alt2; [scanc|].
      eapply gets_rule; [reflexivity| |].
      * cbn [yaml_grammar snd]. apply gets_alt2.
        { eapply fails_unq_inline. eapply RRule. cbn [yaml_grammar snd].
          do 6 (apply eats_alt2; [scanc|]). apply eats_alt1. apply eats_c1. }
        apply gets_alt1; apply gets_double; [exact H|exact Hr].
      * reflexivity.
    + reflexivity.
  - destruct (gets_unquoted_inline ut s z H Hz) as (r & Hr & Gr). exists r. split; [exact Hr|]. intros k.
    change (body (Unquoted s)) with s.
    pose proof H as ((c & u & Es & H1 & H2) & Hl & _ & Hh & _ & _ & Hm).
    assert (Hc : In c s) by (rewrite Es; now left).
    eapply gets_rule; [reflexivity| |].
    + cbn [yaml_grammar snd]. apply gets_alt2.
      { apply fails_rule. cbn [yaml_grammar snd]. subst s. cbn [app].
        destruct (N.eq_dec c (chr "*")) as [-> | Hne].
        - eapply fails_seq0; [exact (eats_str ut (lit "*") _ k)|]. apply fails_rule, fails_seq1.
          apply (fails_name ut). intros d r' E. destruct u as [|b u].
          + apply (itail_inert ut z Hz d r' E).
          + inversion E; subst. now apply (Hm d u).
        - apply fails_seq1, (fails_c1 ut (chr "*")). congruence. }
      apply gets_alt2.
      { apply fails_rule. cbn [yaml_grammar snd]. subst s. cbn [app].
        apply fails_seq1, (fails_c1 ut (chr "[")). intros <-. apply (Hh (chr "[")); [vm_compute; tauto|exact Hc]. }
      apply gets_alt2.
      { apply fails_rule. cbn [yaml_grammar snd]. subst s. cbn [app].
        apply fails_seq1, (fails_c1 ut (chr "{")). intros <-. apply (Hh (chr "{")); [vm_compute; tauto|exact Hc]. }
      eapply gets_rule; [reflexivity|cbn [yaml_grammar snd]; apply gets_alt1, Gr|reflexivity].
    + reflexivity.
  - exists z. split; [now left|]. intros k. rewrite anchor_text.
    eapply gets_rule; [reflexivity|cbn [yaml_grammar snd]; apply gets_alt1, gets_anchor|reflexivity];
      [exact H|now apply itail_inert].
Qed.

End Flow.
