(** CRLF: the content of quoted scalars. *)
From Verif Require Import Base Ast Peg PegFacts YamlGrammar Consume YamlTree Spec_Crlf CrlfFacts.
Import ListNotations.

(** Pieces of the content of a quoted scalar: an escape, one line break, several line breaks,
    ordinary text. *)
Inductive chunk : Type := KEsc (c : char) | KNl | KBlank (n : nat) | KText (w : str).

Section Quote.
  Context (ut : unitab).
  Notation G := (yaml_grammar ut).
  (** The closing character, the character that starts an escape, the characters that end
      one, and the rule of a piece. *)
  Context (q e1 : char) (esc : char -> bool) (part : yrule) (node_of : chunk -> node yrule).
  Definition nds (em : bool) (n : node yrule) : list (node yrule) := if em then [n] else [].
  Definition ctext (x : chunk) : str :=
    match x with KEsc c => [e1; c] | KNl => [NL] | KBlank n => repeat NL (S (S n)) | KText w => w end.
  Definition ctexts (l : list chunk) : str := concat (map ctext l).
  Definition nodes (em : bool) (l : list chunk) : list (node yrule) := concat (map (fun x => nds em (node_of x)) l).
  Definition ord (c : char) : Prop := c <> q /\ c <> e1 /\ c <> NL.
  Definition no_nl_head (s : str) : Prop := match s with [] => True | c :: _ => c <> NL end.
  Definition no_ord_head (s : str) : Prop := match s with [] => True | c :: _ => ~ ord c end.
  Definition stop (s : str) : Prop :=
    match s with
    | [] => True
    | c :: s' => (c = q /\ q <> e1) \/ (c = e1 /\ match s' with [] => True | d :: _ => esc d = false end)
    end.
  Context (He1 : e1 <> NL) (Hq : q <> NL) (HeC : e1 <> CR) (HqC : q <> CR) (HescC : esc CR = false).
  Context (part_esc : forall em c s k, esc c = true -> runs G em (PRule part) (e1 :: c :: s) k (Ok [e1; c] (nds em (node_of (KEsc c))) s k)).
  Context (part_nl : forall em s k, no_nl_head s -> runs G em (PRule part) (NL :: s) k (Ok [NL] (nds em (node_of KNl)) s k)).
  Context (part_blank : forall em n s k, no_nl_head s ->
    runs G em (PRule part) (repeat NL (S (S n)) ++ s) k (Ok (repeat NL (S (S n))) (nds em (node_of (KBlank n))) s k)).
  Context (part_text : forall em w s k, w <> [] -> Forall ord w -> no_ord_head s ->
    runs G em (PRule part) (w ++ s) k (Ok w (nds em (node_of (KText w))) s k)).
  Context (part_stop : forall em s k, stop s -> runs G em (PRule part) s k Fail).

  Inductive wf : str -> Prop :=
  | WNil : wf []
  | WEsc c t : esc c = true -> wf t -> wf (e1 :: c :: t)
  | WChar c t : c <> q -> c <> e1 -> wf t -> wf (c :: t).

  Fixpoint cwf (l : list chunk) : Prop :=
    match l with
    | [] => True
    | KEsc c :: l => esc c = true /\ cwf l
    | KNl :: l => no_nl_head (ctexts l) /\ cwf l
    | KBlank _ :: l => no_nl_head (ctexts l) /\ cwf l
    | KText w :: l => w <> [] /\ Forall ord w /\ no_ord_head (ctexts l) /\ cwf l
    end.

  Lemma split_content s : exists t rest, s = t ++ rest /\ wf t /\ stop rest.
  Proof.
    remember (length s) as n eqn:E. assert (L : length s <= n) by lia. clear E. revert s L.
    induction n as [|n IH]; intros s L.
    { destruct s; [|cbn in L; lia]. exists [], []. repeat constructor. }
    destruct s as [|c s]; [exists [], []; repeat constructor|]. cbn [length] in L.
    destruct (N.eq_dec c e1) as [-> |N1].
    - destruct s as [|d s].
      + exists [], [e1]. split; [reflexivity|]. split; [constructor|]. right. now split.
      + destruct (esc d) eqn:E.
        * cbn [length] in L. destruct (IH s ltac:(lia)) as (t & rest & -> & W & S). exists (e1 :: d :: t), rest. repeat split; [now constructor|assumption].
        * exists [], (e1 :: d :: s). split; [reflexivity|]. split; [constructor|]. right. now split.
    - destruct (N.eq_dec c q) as [-> |N2].
      + exists [], (q :: s). split; [reflexivity|]. split; [constructor|]. left. split; congruence.
      + destruct (IH s ltac:(lia)) as (t & rest & -> & W & S). exists (c :: t), rest. repeat split; [now constructor|assumption].
  Qed.

  Lemma wf_chunks t : wf t -> exists l, ctexts l = t /\ cwf l.
  Proof.
    induction 1 as [|c t E W (l & <- & C)|c t N1 N2 W (l & <- & C)].
    - exists []. now split.
    - exists (KEsc c :: l). now split.
    - destruct (N.eq_dec c NL) as [-> |N3].
      + destruct l as [|[d| |n|w] l].
        * exists [KNl]. repeat split.
        * exists (KNl :: KEsc d :: l). split; [reflexivity|]. split; [exact He1|exact C].
        * exists (KBlank 0 :: l). split; [reflexivity|]. exact C.
        * exists (KBlank (S n) :: l). split; [reflexivity|]. exact C.
        * exists (KNl :: KText w :: l). split; [reflexivity|]. split; [|exact C]. destruct C as (C1 & C2 & _).
          destruct w as [|x w]; [congruence|]. inversion C2; subst. cbn. unfold ord in *; tauto.
      + destruct l as [|[d| |n|w] l].
        * exists [KText [c]]. split; [reflexivity|]. split; [discriminate|]. split; [constructor; [split; tauto|constructor]|]. split; exact I.
        * exists (KText [c] :: KEsc d :: l). split; [reflexivity|]. split; [discriminate|]. split; [constructor; [split; tauto|constructor]|].
          split; [|exact C]. cbn. unfold ord. tauto.
        * exists (KText [c] :: KNl :: l). split; [reflexivity|]. split; [discriminate|]. split; [constructor; [split; tauto|constructor]|].
          split; [|exact C]. cbn. unfold ord. tauto.
        * exists (KText [c] :: KBlank n :: l). split; [reflexivity|]. split; [discriminate|]. split; [constructor; [split; tauto|constructor]|].
          split; [|exact C]. cbn. unfold ord. tauto.
        * exists (KText (c :: w) :: l). split; [reflexivity|]. destruct C as (C1 & C2 & C3 & C4).
          split; [discriminate|]. split; [constructor; [split; tauto|assumption]|]. now split.
  Qed.

  Lemma stop_no_nl a s : stop s -> no_nl_head a -> no_nl_head (a ++ s).
  Proof. intros S H. destruct a; [|exact H]. destruct s as [|c s]; [exact I|]. destruct S as [[-> _]|[-> _]]; cbn; assumption. Qed.
  Lemma stop_no_ord a s : stop s -> no_ord_head a -> no_ord_head (a ++ s).
  Proof. intros S H. destruct a; [|exact H]. destruct s as [|c s]; [exact I|]. cbn. unfold ord. destruct S as [[-> _]|[-> _]]; tauto. Qed.

  Lemma chunks_run em l rest k : cwf l -> stop rest ->
    runs G em (PStar (PRule part)) (ctexts l ++ rest) k (Ok (ctexts l) (nodes em l) rest k).
  Proof.
    intros C S. induction l as [|x l IH].
    - apply RStar0. now apply part_stop.
    - unfold ctexts, nodes. cbn [map concat]. fold (ctexts l) (nodes em l). rewrite <- app_assoc.
      apply RStar1 with (s1 := ctexts l ++ rest) (k1 := k).
      + destruct x as [c| |n|w]; cbn [cwf ctext] in *.
        * apply part_esc, C.
        * apply part_nl, stop_no_nl; tauto.
        * apply part_blank, stop_no_nl; tauto.
        * apply part_text; try tauto. apply stop_no_ord; tauto.
      + apply IH. destruct x; cbn [cwf] in C; tauto.
  Qed.

  (** No escape ends in a line break. *)
  Definition no_esc_nl (s : str) : Prop := forall a b, s = a ++ e1 :: NL :: b -> esc NL = false.
  Lemma no_esc_app a b : no_esc_nl (a ++ b) -> no_esc_nl a /\ no_esc_nl b.
  Proof.
    intros H. split; intros x y ->; [apply (H x (y ++ b)); now rewrite <- app_assoc|apply (H (a ++ x) y); now rewrite app_assoc].
  Qed.
  Lemma wf_crlf t : wf t -> no_esc_nl t -> wf (crlf t).
  Proof.
    induction 1 as [|c t E W IH|c t N1 N2 W IH]; intros H.
    - constructor.
    - assert (c <> NL). { intros ->. rewrite (H [] t eq_refl) in E. discriminate. }
      rewrite !crlf_cons by assumption. constructor; [assumption|]. apply IH. now apply (no_esc_app [e1; c]) in H.
    - assert (W' : wf (crlf t)) by (apply IH; now apply (no_esc_app [c]) in H).
      destruct (N.eq_dec c NL) as [-> |N3].
      + rewrite crlf_nl. repeat constructor; congruence.
      + rewrite crlf_cons by assumption. now constructor.
  Qed.
  Lemma stop_crlf s : stop s -> no_esc_nl s -> stop (crlf s).
  Proof.
    destruct s as [|c s]; [trivial|]. intros [[-> N]|[-> S]] H; rewrite crlf_cons by assumption.
    - left. now split.
    - right. split; [reflexivity|]. destruct s as [|d s]; [exact I|]. destruct (N.eq_dec d NL) as [-> |N3].
      + exact HescC.
      + now rewrite crlf_cons.
  Qed.

  Lemma content_sim s : no_esc_nl s -> exists l l' rest,
    s = ctexts l ++ rest /\ ctexts l' = crlf (ctexts l) /\ cwf l /\ cwf l' /\
    (l' = l \/ (In NL (ctexts l) /\ In NL (ctexts l'))) /\
    (forall em k, runs G em (PStar (PRule part)) s k (Ok (ctexts l) (nodes em l) rest k)) /\
    (forall em k, runs G em (PStar (PRule part)) (crlf s) k (Ok (ctexts l') (nodes em l') (crlf rest) k)).
  Proof.
    intros H. destruct (split_content s) as (t & rest & -> & W & S).
    apply no_esc_app in H as [H1 H2].
    destruct (wf_chunks t W) as (l & <- & C). pose proof (stop_crlf _ S H2) as S'.
    destruct (in_dec N.eq_dec NL (ctexts l)) as [I|I].
    - destruct (wf_chunks _ (wf_crlf _ W H1)) as (l' & E & C').
      exists l, l', rest. split; [reflexivity|]. split; [exact E|]. split; [exact C|]. split; [exact C'|].
      split.
      { right. split; [exact I|]. rewrite E. unfold crlf. apply in_flat_map. exists NL. split; [exact I|]. right. now left. }
      split; intros em k; [now apply chunks_run|]. rewrite crlf_app, <- E. now apply chunks_run.
    - exists l, l, rest. split; [reflexivity|]. split; [symmetry; now apply crlf_flat|]. split; [exact C|]. split; [exact C|].
      split; [now left|]. split; intros em k; [now apply chunks_run|]. rewrite crlf_app, crlf_flat by assumption. now apply chunks_run.
  Qed.
End Quote.

Section Kinds.
  Context (ut : unitab).
  Notation G := (yaml_grammar ut).
  Notation runs := (runs G).

  Definition lit_fail (x : yexp) (c : char) : Prop := forall em s k, runs em x (c :: s) k Fail.
  Definition lit_ok (x : yexp) (c : char) : Prop := forall em s k, exists t r, runs em x (c :: s) k (Ok t [] r k).

  Lemma one_char_ok x em c s k : lit_fail x c -> runs em (PSeq (PNot x) y_any) (c :: s) k (Ok [c] [] s k).
  Proof.
    intros H. change [c] with ([] ++ [c]). change (@nil (node yrule)) with (@nil (node yrule) ++ []).
    eapply RSeq; [exact (RNot G em x (c :: s) k Fail (H _ _ _))|now constructor].
  Qed.
  Lemma one_char_fail x em s k : (forall em k, runs em x [] k Fail) -> match s with [] => True | c :: _ => lit_ok x c end ->
    runs em (PSeq (PNot x) y_any) s k Fail.
  Proof.
    intros H0 H. destruct s as [|c s].
    - eapply RSeq2; [exact (RNot G em x [] k Fail (H0 _ _))|constructor|reflexivity].
    - destruct (H false s k) as (t & r & R). apply RSeq1; [exact (RNot G em x (c :: s) k _ R)|reflexivity].
  Qed.
  Lemma chars_run x em w s k : (forall em k, runs em x [] k Fail) -> Forall (lit_fail x) w -> match s with [] => True | c :: _ => lit_ok x c end ->
    runs em (PStar (PSeq (PNot x) y_any)) (w ++ s) k (Ok w [] s k).
  Proof.
    intros H0 W S. induction W as [|c w C W IH].
    - apply RStar0. now apply one_char_fail.
    - exact (RStar1 G em _ _ _ [c] [] _ _ w [] _ _ (one_char_ok x em c (w ++ s) k C) IH).
  Qed.
  Lemma char_fail em x c s k : c <> x -> runs em (yc x) (c :: s) k Fail.
  Proof. intros N. constructor. cbn [strip]. apply ceqb_neq in N. rewrite ceqb_sym in N. now rewrite N. Qed.
  Lemma char_fail_nil em x k : runs em (yc x) [] k Fail.
  Proof. now constructor. Qed.
  Lemma char_ok em x s k : runs em (yc x) (x :: s) k (Ok [x] [] s k).
  Proof. constructor. cbn [strip]. now rewrite ceqb_refl. Qed.
  Lemma rule_nds em r t ch s rest k : fst (G r) = Normal -> runs em (snd (G r)) s k (Ok t (nds em ch) rest k) ->
    runs em (PRule r) s k (Ok t (nds em (Node r t [ch])) rest k).
  Proof.
    intros E H. pose proof (RRule G em r s k t (nds em ch) rest k) as R. rewrite E in R. specialize (R H).
    destruct em; exact R.
  Qed.

  Lemma nls_run em n s k : no_nl_head s -> runs em (PStar (yc NL)) (repeat NL n ++ s) k (Ok (repeat NL n) [] s k).
  Proof.
    intros H. induction n as [|n IH].
    - apply RStar0. destruct s as [|c s]; [apply char_fail_nil|now apply char_fail].
    - change (repeat NL (S n)) with ([NL] ++ repeat NL n). change (@nil (node yrule)) with (@nil (node yrule) ++ []).
      rewrite <- app_assoc. eapply RStar1; [apply char_ok|exact IH].
  Qed.
  Lemma blank_run em n s k : no_nl_head s ->
    runs em (PRule y_blank_lines) (repeat NL (S (S n)) ++ s) k (Ok (repeat NL (S (S n))) (nds em (Node y_blank_lines (repeat NL (S (S n))) [])) s k).
  Proof.
    intros H. unfold nds. refine (RRule G em y_blank_lines _ k _ [] _ k _). cbn [yaml_grammar fst snd emit_in].
    change (repeat NL (S (S n))) with ([NL] ++ [NL] ++ repeat NL n).
    change (@nil (node yrule)) with (@nil (node yrule) ++ ([] ++ [])). rewrite <- !app_assoc.
    eapply RSeq; [apply char_ok|]. eapply RSeq; [apply char_ok|]. now apply nls_run.
  Qed.
  Lemma blank_fail em s k : no_nl_head s -> runs em (PRule y_blank_lines) (NL :: s) k Fail.
  Proof.
    intros H. apply RRuleF; [|reflexivity]. cbn [yaml_grammar fst snd].
    eapply RSeq2; [apply char_ok| |reflexivity]. apply RSeq1; [|reflexivity].
    destruct s as [|c s]; [apply char_fail_nil|now apply char_fail].
  Qed.
  Lemma remove_run em s k : runs em (PRule y_removable_newline) (NL :: s) k (Ok [NL] (nds em (Node y_removable_newline [NL] [])) s k).
  Proof. refine (RRule G em y_removable_newline _ k _ [] _ k _). apply char_ok. Qed.
  Lemma blank_fail2 em s k : no_nl_head s -> runs em (PRule y_blank_lines) s k Fail.
  Proof.
    intros H. apply RRuleF; [|reflexivity]. apply RSeq1; [|reflexivity].
    destruct s as [|c s]; [apply char_fail_nil|now apply char_fail].
  Qed.
  Lemma remove_fail em s k : no_nl_head s -> runs em (PRule y_removable_newline) s k Fail.
  Proof.
    intros H. apply RRuleF; [|reflexivity]. destruct s as [|c s]; [apply char_fail_nil|now apply char_fail].
  Qed.

  (** ---- double quotes ---- *)
  Definition desc (c : char) : bool :=
    ceqb c (chr "n") || ceqb c BACKSLASH || ceqb c (chr "r") || ceqb c (chr "t") || ceqb c DQUOTE || ceqb c NL.
  Definition dnode (x : chunk) : node yrule :=
    match x with
    | KEsc c => Node y_dq_part [BACKSLASH; c] [Node y_esc_value [c] []]
    | KNl => Node y_dq_part [NL] [Node y_removable_newline [NL] []]
    | KBlank n => Node y_dq_part (repeat NL (S (S n))) [Node y_blank_lines (repeat NL (S (S n))) []]
    | KText w => Node y_dq_part w [Node y_dq_text w []]
    end.
  Lemma dtext_lit c : ord DQUOTE BACKSLASH c -> lit_fail (PAlt (yc DQUOTE) (PAlt (yc BACKSLASH) (yc NL))) c.
  Proof. intros (A & B & C) em s k. repeat apply RAlt2; now apply char_fail. Qed.
  Lemma dtext_stop c : ~ ord DQUOTE BACKSLASH c -> lit_ok (PAlt (yc DQUOTE) (PAlt (yc BACKSLASH) (yc NL))) c.
  Proof.
    intros H em s k. destruct (N.eq_dec c DQUOTE) as [-> |N1]; [do 2 eexists; apply RAlt1; [apply char_ok|discriminate]|].
    destruct (N.eq_dec c BACKSLASH) as [-> |N2]; [do 2 eexists; apply RAlt2; [now apply char_fail|]; apply RAlt1; [apply char_ok|discriminate]|].
    destruct (N.eq_dec c NL) as [-> |N3]; [|exfalso; apply H; now repeat split].
    do 2 eexists. apply RAlt2; [now apply char_fail|]. apply RAlt2; [now apply char_fail|]. apply char_ok.
  Qed.
  Lemma dtext_nil em k : runs em (PAlt (yc DQUOTE) (PAlt (yc BACKSLASH) (yc NL))) [] k Fail.
  Proof. repeat apply RAlt2; apply char_fail_nil. Qed.
  Lemma ord_head q e s : no_ord_head q e s -> match s with [] => True | c :: _ => ~ ord q e c end.
  Proof. destruct s; trivial. Qed.

  Lemma desc_fail em c s k : desc c = false -> runs em (snd (G y_esc_value)) (c :: s) k Fail.
  Proof.
    unfold desc. rewrite !orb_false_iff, !ceqb_neq. intros (((((A & B) & C) & D) & E) & F).
    cbn [yaml_grammar snd]. repeat apply RAlt2; now apply char_fail.
  Qed.
  Lemma desc_ok em c s k : desc c = true -> runs em (snd (G y_esc_value)) (c :: s) k (Ok [c] [] s k).
  Proof.
    unfold desc. rewrite !orb_true_iff, !ceqb_eq. cbn [yaml_grammar snd].
    intros [[[[[-> | ->] | ->] | ->] | ->] | ->];
    repeat first [apply RAlt1; [apply char_ok|discriminate] | apply RAlt2; [apply char_fail; discriminate|]]; apply char_ok.
  Qed.
  Lemma escc_fail em s k : match s with [] => True | c :: s' => c <> BACKSLASH \/ match s' with [] => True | d :: _ => desc d = false end end ->
    runs em (PRule y_esc_char) s k Fail.
  Proof.
    intros H. apply RRuleF; [|reflexivity]. cbn [yaml_grammar snd fst emit_in].
    destruct s as [|c s]; [apply RSeq1; [apply char_fail_nil|reflexivity]|].
    destruct (N.eq_dec c BACKSLASH) as [-> |N]; [|apply RSeq1; [now apply char_fail|reflexivity]].
    destruct H as [H|H]; [congruence|]. eapply RSeq2; [apply char_ok| |reflexivity]. apply RRuleF; [|reflexivity].
    destruct s as [|d s]; [|now apply desc_fail]. cbn [yaml_grammar snd]. repeat apply RAlt2; apply char_fail_nil.
  Qed.
  Lemma dtext_run em w s k : w <> [] -> Forall (ord DQUOTE BACKSLASH) w -> no_ord_head DQUOTE BACKSLASH s ->
    runs em (PRule y_dq_text) (w ++ s) k (Ok w (nds em (Node y_dq_text w [])) s k).
  Proof.
    intros W F H. refine (RRule G em y_dq_text _ k _ [] _ k _). cbn [yaml_grammar snd fst emit_in].
    destruct F as [|c w C F]; [congruence|]. refine (RSeq G em _ _ _ _ [c] [] _ _ w [] _ _ (one_char_ok _ em c (w ++ s) k (dtext_lit c C)) _).
    apply chars_run; [intros; apply dtext_nil| |].
    - eapply Forall_impl; [|exact F]. apply dtext_lit.
    - destruct s; [exact I|]. apply dtext_stop, H.
  Qed.
  Lemma dtext_fail em s k : no_ord_head DQUOTE BACKSLASH s -> runs em (PRule y_dq_text) s k Fail.
  Proof.
    intros H. apply RRuleF; [|reflexivity]. apply RSeq1; [|reflexivity].
    apply one_char_fail; [intros; apply dtext_nil|]. destruct s; [exact I|]. apply dtext_stop, H.
  Qed.

  Lemma dpart_esc em c s k : desc c = true -> runs em (PRule y_dq_part) (BACKSLASH :: c :: s) k (Ok [BACKSLASH; c] (nds em (dnode (KEsc c))) s k).
  Proof.
    intros H. apply (rule_nds em y_dq_part); [reflexivity|].
    cbn [yaml_grammar snd fst emit_in]. apply RAlt1; [|discriminate].
    refine (RRule G em y_esc_char _ k _ (if em then [Node y_esc_value [c] []] else []) _ k _). cbn [yaml_grammar snd fst emit_in].
    change [BACKSLASH; c] with ([BACKSLASH] ++ [c]). change (if em then [Node y_esc_value [c] []] else []) with ([] ++ wrap Normal em y_esc_value [c] []).
    eapply RSeq; [apply char_ok|]. refine (RRule G em y_esc_value _ k _ [] _ k _). now apply desc_ok.
  Qed.
  Lemma dpart_nl em s k : no_nl_head s -> runs em (PRule y_dq_part) (NL :: s) k (Ok [NL] (nds em (dnode KNl)) s k).
  Proof.
    intros H. apply (rule_nds em y_dq_part); [reflexivity|].
    cbn [yaml_grammar snd fst emit_in]. apply RAlt2; [apply escc_fail; left; discriminate|].
    apply RAlt2; [now apply blank_fail|]. apply RAlt1; [apply remove_run|discriminate].
  Qed.
  Lemma dpart_blank em n s k : no_nl_head s ->
    runs em (PRule y_dq_part) (repeat NL (S (S n)) ++ s) k (Ok (repeat NL (S (S n))) (nds em (dnode (KBlank n))) s k).
  Proof.
    intros H. apply (rule_nds em y_dq_part); [reflexivity|].
    cbn [yaml_grammar snd fst emit_in]. apply RAlt2; [apply escc_fail; left; discriminate|].
    apply RAlt1; [now apply blank_run|discriminate].
  Qed.
  Lemma dpart_text em w s k : w <> [] -> Forall (ord DQUOTE BACKSLASH) w -> no_ord_head DQUOTE BACKSLASH s ->
    runs em (PRule y_dq_part) (w ++ s) k (Ok w (nds em (dnode (KText w))) s k).
  Proof.
    intros W F H. apply (rule_nds em y_dq_part); [reflexivity|].
    cbn [yaml_grammar snd fst emit_in].
    assert (O : exists c u, w = c :: u /\ ord DQUOTE BACKSLASH c) by (destruct F; [congruence|eauto]).
    destruct O as (c & u & E & O1 & O2 & O3).
    assert (N : no_nl_head (w ++ s)) by (rewrite E; exact O3).
    apply RAlt2; [apply escc_fail; rewrite E; now left|]. apply RAlt2; [now apply blank_fail2|].
    apply RAlt2; [now apply remove_fail|]. now apply dtext_run.
  Qed.
  Lemma dpart_stop em s k : stop DQUOTE BACKSLASH desc s -> runs em (PRule y_dq_part) s k Fail.
  Proof.
    intros S. apply RRuleF; [|reflexivity]. cbn [yaml_grammar snd fst emit_in].
    assert (N : no_nl_head s) by (destruct s as [|c s]; [exact I|]; destruct S as [[-> _]|[-> _]]; discriminate).
    assert (O : no_ord_head DQUOTE BACKSLASH s) by (destruct s as [|c s]; [exact I|]; cbn; unfold ord; destruct S as [[-> _]|[-> _]]; tauto).
    apply RAlt2; [|apply RAlt2; [now apply blank_fail2|apply RAlt2; [now apply remove_fail|now apply dtext_fail]]].
    apply escc_fail. destruct s as [|c s]; [exact I|]. destruct S as [[-> _]|[-> S]]; [left; discriminate|now right].
  Qed.

  (** ---- single quotes ---- *)
  Definition sesc (c : char) : bool := ceqb c QUOTE.
  Definition snode (x : chunk) : node yrule :=
    match x with
    | KEsc c => Node y_sq_part [QUOTE; c] [Node y_single_quote [c] []]
    | KNl => Node y_sq_part [NL] [Node y_removable_newline [NL] []]
    | KBlank n => Node y_sq_part (repeat NL (S (S n))) [Node y_blank_lines (repeat NL (S (S n))) []]
    | KText w => Node y_sq_part w [Node y_sq_text w []]
    end.
  Lemma stext_lit c : ord QUOTE QUOTE c -> lit_fail (PAlt (yc QUOTE) (yc NL)) c.
  Proof. intros (A & B & C) em s k. repeat apply RAlt2; now apply char_fail. Qed.
  Lemma stext_stop c : ~ ord QUOTE QUOTE c -> lit_ok (PAlt (yc QUOTE) (yc NL)) c.
  Proof.
    intros H em s k. destruct (N.eq_dec c QUOTE) as [-> |N1]; [do 2 eexists; apply RAlt1; [apply char_ok|discriminate]|].
    destruct (N.eq_dec c NL) as [-> |N3]; [|exfalso; apply H; now repeat split].
    do 2 eexists. apply RAlt2; [now apply char_fail|]. apply char_ok.
  Qed.
  Lemma stext_nil em k : runs em (PAlt (yc QUOTE) (yc NL)) [] k Fail.
  Proof. repeat apply RAlt2; apply char_fail_nil. Qed.
  Lemma sescc_fail em s k : match s with [] => True | c :: s' => c <> QUOTE \/ match s' with [] => True | d :: _ => sesc d = false end end ->
    runs em (PRule y_single_quote_char) s k Fail.
  Proof.
    intros H. apply RRuleF; [|reflexivity]. cbn [yaml_grammar snd fst emit_in].
    destruct s as [|c s]; [apply RSeq1; [apply char_fail_nil|reflexivity]|].
    destruct (N.eq_dec c QUOTE) as [-> |N]; [|apply RSeq1; [now apply char_fail|reflexivity]].
    destruct H as [H|H]; [congruence|]. eapply RSeq2; [apply char_ok| |reflexivity]. apply RRuleF; [|reflexivity].
    destruct s as [|d s]; [apply char_fail_nil|]. apply ceqb_neq in H. now apply char_fail.
  Qed.
  Lemma stext_run em w s k : w <> [] -> Forall (ord QUOTE QUOTE) w -> no_ord_head QUOTE QUOTE s ->
    runs em (PRule y_sq_text) (w ++ s) k (Ok w (nds em (Node y_sq_text w [])) s k).
  Proof.
    intros W F H. refine (RRule G em y_sq_text _ k _ [] _ k _). cbn [yaml_grammar snd fst emit_in].
    destruct F as [|c w C F]; [congruence|]. refine (RSeq G em _ _ _ _ [c] [] _ _ w [] _ _ (one_char_ok _ em c (w ++ s) k (stext_lit c C)) _).
    apply chars_run; [intros; apply stext_nil| |].
    - eapply Forall_impl; [|exact F]. apply stext_lit.
    - destruct s; [exact I|]. apply stext_stop, H.
  Qed.
  Lemma stext_fail em s k : no_ord_head QUOTE QUOTE s -> runs em (PRule y_sq_text) s k Fail.
  Proof.
    intros H. apply RRuleF; [|reflexivity]. apply RSeq1; [|reflexivity].
    apply one_char_fail; [intros; apply stext_nil|]. destruct s; [exact I|]. apply stext_stop, H.
  Qed.
  Lemma spart_esc em c s k : sesc c = true -> runs em (PRule y_sq_part) (QUOTE :: c :: s) k (Ok [QUOTE; c] (nds em (snode (KEsc c))) s k).
  Proof.
    intros H. apply ceqb_eq in H as ->. apply (rule_nds em y_sq_part); [reflexivity|].
    cbn [yaml_grammar snd fst emit_in]. apply RAlt1; [|discriminate].
    refine (RRule G em y_single_quote_char _ k _ (if em then [Node y_single_quote [QUOTE] []] else []) _ k _). cbn [yaml_grammar snd fst emit_in].
    change [QUOTE; QUOTE] with ([QUOTE] ++ [QUOTE]).
    change (if em then [Node y_single_quote [QUOTE] []] else []) with ([] ++ wrap Normal em y_single_quote [QUOTE] []).
    eapply RSeq; [apply char_ok|]. refine (RRule G em y_single_quote _ k _ [] _ k _). apply char_ok.
  Qed.
  Lemma spart_nl em s k : no_nl_head s -> runs em (PRule y_sq_part) (NL :: s) k (Ok [NL] (nds em (snode KNl)) s k).
  Proof.
    intros H. apply (rule_nds em y_sq_part); [reflexivity|].
    cbn [yaml_grammar snd fst emit_in]. apply RAlt2; [apply sescc_fail; left; discriminate|].
    apply RAlt2; [now apply blank_fail|]. apply RAlt1; [apply remove_run|discriminate].
  Qed.
  Lemma spart_blank em n s k : no_nl_head s ->
    runs em (PRule y_sq_part) (repeat NL (S (S n)) ++ s) k (Ok (repeat NL (S (S n))) (nds em (snode (KBlank n))) s k).
  Proof.
    intros H. apply (rule_nds em y_sq_part); [reflexivity|].
    cbn [yaml_grammar snd fst emit_in]. apply RAlt2; [apply sescc_fail; left; discriminate|].
    apply RAlt1; [now apply blank_run|discriminate].
  Qed.
  Lemma spart_text em w s k : w <> [] -> Forall (ord QUOTE QUOTE) w -> no_ord_head QUOTE QUOTE s ->
    runs em (PRule y_sq_part) (w ++ s) k (Ok w (nds em (snode (KText w))) s k).
  Proof.
    intros W F H. apply (rule_nds em y_sq_part); [reflexivity|].
    cbn [yaml_grammar snd fst emit_in].
    assert (O : exists c u, w = c :: u /\ ord QUOTE QUOTE c) by (destruct F; [congruence|eauto]).
    destruct O as (c & u & E & O1 & O2 & O3).
    assert (N : no_nl_head (w ++ s)) by (rewrite E; exact O3).
    apply RAlt2; [apply sescc_fail; rewrite E; now left|]. apply RAlt2; [now apply blank_fail2|].
    apply RAlt2; [now apply remove_fail|]. now apply stext_run.
  Qed.
  Lemma spart_stop em s k : stop QUOTE QUOTE sesc s -> runs em (PRule y_sq_part) s k Fail.
  Proof.
    intros S. apply RRuleF; [|reflexivity]. cbn [yaml_grammar snd fst emit_in].
    assert (N : no_nl_head s) by (destruct s as [|c s]; [exact I|]; destruct S as [[-> _]|[-> _]]; discriminate).
    assert (O : no_ord_head QUOTE QUOTE s) by (destruct s as [|c s]; [exact I|]; cbn; unfold ord; destruct S as [[-> _]|[-> _]]; tauto).
    apply RAlt2; [|apply RAlt2; [now apply blank_fail2|apply RAlt2; [now apply remove_fail|now apply stext_fail]]].
    apply sescc_fail. destruct s as [|c s]; [exact I|]. destruct S as [[-> S]|[-> S]]; [congruence|now right].
  Qed.

  (** ---- both ---- *)
  Definition dcontent := content_sim ut DQUOTE BACKSLASH desc y_dq_part dnode
    ltac:(discriminate) ltac:(discriminate) ltac:(discriminate) ltac:(discriminate) eq_refl dpart_esc dpart_nl dpart_blank dpart_text dpart_stop.
  Definition scontent := content_sim ut QUOTE QUOTE sesc y_sq_part snode
    ltac:(discriminate) ltac:(discriminate) ltac:(discriminate) ltac:(discriminate) eq_refl spart_esc spart_nl spart_blank spart_text spart_stop.

  (** The consumer on these nodes. *)
  Lemma dvals l : cwf DQUOTE BACKSLASH desc l -> exists ps,
    call_ (map (fun c => (label c, fold_node yaml_act c)) (map dnode l)) = CVal (map (fun p => (y_dq_part, VDq p)) ps) /\
    (In NL (ctexts BACKSLASH l) -> existsb dq_break ps = true) /\
    concat (map dq_raw ps) = ctexts BACKSLASH l.
  Proof.
    induction l as [|x l IH]; intros C.
    - exists []. split; [reflexivity|]. split; [intros []|reflexivity].
    - assert (C2 : cwf DQUOTE BACKSLASH desc l) by (destruct x; cbn [cwf] in C; tauto).
      destruct (IH C2) as (ps & E & B & W). unfold ctexts in *. cbn [map concat call_ label] in *.
      assert (X : exists p, fold_node yaml_act (dnode x) = CVal (VDq p) /\ (In NL (ctext BACKSLASH x) -> dq_break p = true) /\ dq_raw p = ctext BACKSLASH x).
      { destruct x as [c| |n|w].
        - destruct C as [C _]. unfold desc in C. rewrite !orb_true_iff, !ceqb_eq in C.
          destruct C as [[[[[-> | ->] | ->] | ->] | ->] | ->]; eexists; (split; [reflexivity|]); (split; [|reflexivity]); cbn; intros H; try reflexivity; exfalso;
            destruct H as [H|[H|[]]]; discriminate H.
        - eexists. split; [reflexivity|]. split; reflexivity.
        - eexists. split; [reflexivity|]. split; [reflexivity|]. cbn [ctext dq_raw sq_raw]. rewrite repeat_length. reflexivity.
        - eexists. split; [reflexivity|]. split; [|reflexivity]. destruct C as (_ & C & _). cbn [ctext]. intros H. rewrite Forall_forall in C. apply C in H. destruct H as (_ & _ & H). congruence. }
      destruct X as (p & X1 & X2 & X3). exists (p :: ps). rewrite X1. cbn [cbind]. rewrite E. cbn [cbind]. split; [|split].
      + destruct x; reflexivity.
      + intros H. cbn [existsb]. apply orb_true_iff. apply in_app_or in H as [H|H]; [left; now apply X2|right; now apply B].
      + cbn [map concat]. now rewrite X3, W.
  Qed.
  Lemma svals l : cwf QUOTE QUOTE sesc l -> exists ps,
    call_ (map (fun c => (label c, fold_node yaml_act c)) (map snode l)) = CVal (map (fun p => (y_sq_part, VSq p)) ps) /\
    (In NL (ctexts QUOTE l) -> existsb sq_break ps = true) /\
    concat (map sq_raw ps) = ctexts QUOTE l.
  Proof.
    induction l as [|x l IH]; intros C.
    - exists []. split; [reflexivity|]. split; [intros []|reflexivity].
    - assert (C2 : cwf QUOTE QUOTE sesc l) by (destruct x; cbn [cwf] in C; tauto).
      destruct (IH C2) as (ps & E & B & W). unfold ctexts in *. cbn [map concat call_ label] in *.
      assert (X : exists p, fold_node yaml_act (snode x) = CVal (VSq p) /\ (In NL (ctext QUOTE x) -> sq_break p = true) /\ sq_raw p = ctext QUOTE x).
      { destruct x as [c| |n|w].
        - destruct C as [C _]. apply ceqb_eq in C as ->. eexists. split; [reflexivity|]. split; [|reflexivity]. cbn. intros [H|[H|[]]]; discriminate H.
        - eexists. split; [reflexivity|]. split; reflexivity.
        - eexists. split; [reflexivity|]. split; [reflexivity|]. cbn [ctext dq_raw sq_raw]. rewrite repeat_length. reflexivity.
        - eexists. split; [reflexivity|]. split; [|reflexivity]. destruct C as (_ & C & _). cbn [ctext]. intros H. rewrite Forall_forall in C. apply C in H. destruct H as (_ & _ & H). congruence. }
      destruct X as (p & X1 & X2 & X3). exists (p :: ps). rewrite X1. cbn [cbind]. rewrite E. cbn [cbind]. split; [|split].
      + destruct x; reflexivity.
      + intros H. cbn [existsb]. apply orb_true_iff. apply in_app_or in H as [H|H]; [left; now apply X2|right; now apply B].
      + cbn [map concat]. now rewrite X3, W.
  Qed.

  Definition SP (r : yrule) (t : str) (ch ch' : list (node yrule)) : Prop :=
    ch' = ch \/ exists y y', consume (Node r t ch) = CVal (VYaml y) /\ consume (Node r (crlf t) ch') = CVal (VYaml y') /\ blur y' = blur y.

  Lemma zss_sim s : exists w r, s = w ++ r /\ crlf w = w /\
    (forall em k, runs em y_zss s k (Ok w [] r k)) /\ (forall em k, runs em y_zss (crlf s) k (Ok w [] (crlf r) k)).
  Proof.
    induction s as [|c s (w & r & -> & E & R1 & R2)].
    - exists [], []. repeat split; intros; apply RStar0; constructor.
    - destruct (is_zs c) eqn:Z.
      + assert (c <> NL) by (intros ->; discriminate Z). exists (c :: w), r. split; [reflexivity|]. split; [rewrite crlf_cons by assumption; now f_equal|].
        split; intros em k.
        * exact (RStar1 G em y_zs _ _ [c] [] _ _ w [] _ _ (RClass G em is_zs c _ k Z) (R1 em k)).
        * rewrite crlf_cons by assumption. exact (RStar1 G em y_zs _ _ [c] [] _ _ w [] _ _ (RClass G em is_zs c _ k Z) (R2 em k)).
      + exists [], (c :: w ++ r). split; [reflexivity|]. split; [reflexivity|]. split; intros em k; apply RStar0.
        * now constructor.
        * destruct (N.eq_dec c NL) as [-> |N]; [rewrite crlf_nl; now constructor|]. rewrite crlf_cons by assumption. now constructor.
  Qed.
End Kinds.
