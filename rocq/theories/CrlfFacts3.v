(** CRLF: quoted scalars run alike, and the consumer makes of alike trees values that differ
    only in line breaks. *)
From Coq Require Import ZArith.
From Verif Require Import Base Ast Num Peg PegFacts PegTree YamlGrammar Consume YamlTree YamlValues Spec_Crlf CrlfFacts CrlfFacts2.
Import ListNotations.

Section Quoted.
  Context (ut : unitab).
  Notation G := (yaml_grammar ut).
  Notation runs := (runs G).

  (** A quoted scalar: opening character, content, the same character, spaces. *)
  Section One.
    Context (q : char) (r c part : yrule).
    Context (Gr : G r = (Normal, PSeq (PPush (yc q)) (PSeq (PRule c) (PSeq PPop y_zss)))).
    Context (Gc : G c = (Normal, PStar (PRule part))).
    Context (Hq : q <> NL) (HqC : q <> CR) (Hr : special r = true) (Hc : special c = false).

    Lemma open_fail em s k : match s with [] => True | x :: _ => x <> q end -> runs em (PRule r) s k Fail.
    Proof.
      intros H. apply RRuleF; [|reflexivity]. rewrite Gr. cbn [snd fst emit_in]. apply RSeq1; [|reflexivity].
      apply RPushF; [|reflexivity]. destruct s as [|x s]; [apply char_fail_nil|now apply char_fail].
    Qed.
    Lemma close_fail em t ns u rest k : (forall em k, runs em (PStar (PRule part)) u k (Ok t (ns em) rest k)) ->
      match rest with [] => True | x :: _ => x <> q end -> runs em (PRule r) (q :: u) k Fail.
    Proof.
      intros C H. apply RRuleF; [|reflexivity]. rewrite Gr. cbn [snd fst emit_in].
      eapply RSeq2; [apply RPush, char_ok| |reflexivity].
      eapply RSeq2; [apply RRule; rewrite Gc; apply C| |reflexivity].
      apply RSeq1; [|reflexivity]. apply RPopF. destruct rest as [|x rest]; [reflexivity|]. cbn [strip].
      apply ceqb_neq in H. rewrite ceqb_sym in H. now rewrite H.
    Qed.
    Lemma quote_ok em t ns u w v k : (forall em k, runs em (PStar (PRule part)) u k (Ok t (ns em) (q :: w ++ v) k)) ->
      (forall em k, runs em y_zss (w ++ v) k (Ok w [] v k)) ->
      runs em (PRule r) (q :: u) k (Ok (q :: t ++ q :: w) (nds em (Node r (q :: t ++ q :: w) [Node c t (ns em)])) v k).
    Proof.
      intros C Z. apply rule_nds; [now rewrite Gr|]. rewrite Gr. cbn [snd].
      change (q :: t ++ q :: w) with ([q] ++ t ++ [q] ++ w).
      assert (E : nds em (Node c t (ns em)) = [] ++ wrap Normal em c t (ns em) ++ [] ++ []) by (now rewrite !app_nil_r).
      rewrite E. eapply RSeq; [apply RPush, char_ok|]. eapply RSeq.
      - pose proof (RRule G em c u ([q] :: k) t (ns em) (q :: w ++ v) ([q] :: k)) as R. rewrite Gc in R. apply R, C.
      - eapply RSeq; [|apply Z]. apply RPop. cbn [strip]. now rewrite ceqb_refl.
    Qed.

    Lemma quote_sim em u k x t t' ns ns' rest : flats k ->
      u = t ++ rest -> t' = crlf t ->
      (forall em k, runs em (PStar (PRule part)) u k (Ok t (ns em) rest k)) ->
      (forall em k, runs em (PStar (PRule part)) (crlf u) k (Ok t' (ns' em) (crlf rest) k)) ->
      (forall w, SP r w [Node c t (ns true)] [Node c t' (ns' true)]) ->
      runs em (PRule r) (q :: u) k x -> sim ut SP em (PRule r) (q :: u) k x.
    Proof.
      intros F Eu Et C C' S X. unfold sim. rewrite crlf_cons by assumption.
      destruct (match rest with [] => true | d :: _ => negb (ceqb d q) end) eqn:D.
      - assert (H : match rest with [] => True | d :: _ => d <> q end).
        { destruct rest; [exact I|]. apply ceqb_neq. now destruct (ceqb n q). }
        assert (H' : match crlf rest with [] => True | d :: _ => d <> q end).
        { destruct rest as [|d rest]; [exact I|]. destruct (N.eq_dec d NL) as [-> |N]; [rewrite crlf_nl; congruence|now rewrite crlf_cons]. }
        rewrite (runs_det _ _ _ _ _ _ _ X (close_fail em t ns u rest k C H)). exists Fail.
        split; [exact (close_fail em t' ns' (crlf u) (crlf rest) k C' H')|]. split; exact I.
      - destruct rest as [|d rest]; [discriminate|]. assert (d = q) as -> by (apply ceqb_eq; now destruct (ceqb d q)).
        destruct (zss_sim ut rest) as (w & v & -> & Ew & Z & Z').
        rewrite crlf_cons in C' by assumption. rewrite crlf_app, Ew in C', Z'.
        rewrite (runs_det _ _ _ _ _ _ _ X (quote_ok em t ns u w v k C Z)).
        eexists. split; [exact (quote_ok em t' ns' (crlf u) w (crlf v) k C' Z')|]. split; [|exact F].
        assert (E : q :: t' ++ q :: w = crlf (q :: t ++ q :: w)).
        { rewrite crlf_cons, crlf_app, crlf_cons, Ew by assumption. now subst t'. }
        split; [exact E|]. split; [|split; reflexivity]. destruct em; [|exact I].
        unfold nds. cbn [all_alike]. split; [|exact I]. cbn [alike]. rewrite Hr. split; [reflexivity|]. split; [exact E|]. apply S.
    Qed.
  End One.

  Lemma drop_crlf s : drop_cr (crlf s) = drop_cr s.
  Proof.
    unfold drop_cr. induction s as [|c s IH]; [reflexivity|]. destruct (N.eq_dec c NL) as [-> |N].
    - rewrite crlf_nl. cbn [filter]. rewrite IH. reflexivity.
    - rewrite crlf_cons by assumption. cbn [filter]. now rewrite IH.
  Qed.
  Lemma nodes_true node_of l : nodes node_of true l = map node_of l.
  Proof. induction l as [|x l IH]; [reflexivity|]. unfold nodes in *. cbn [map concat]. now rewrite IH. Qed.

  Lemma many_dq ps : many as_dq (map (fun p => (y_dq_part, VDq p)) ps) = (ps, []).
  Proof. induction ps as [|p ps IH]; [reflexivity|]. cbn [map many as_dq]. now rewrite IH. Qed.
  Lemma many_sq ps : many as_sq (map (fun p => (y_sq_part, VSq p)) ps) = (ps, []).
  Proof. induction ps as [|p ps IH]; [reflexivity|]. cbn [map many as_sq]. now rewrite IH. Qed.

  Lemma dconsume w t l : cwf DQUOTE BACKSLASH desc l -> In NL (ctexts BACKSLASH l) ->
    exists y, consume (Node y_double_quoted w [Node y_dq_content t (map dnode l)]) = CVal (VYaml y) /\ blur y = DoubleQ [DQ_RemNl; DQ_Str (drop_cr (ctexts BACKSLASH l))].
  Proof.
    intros C I. destruct (dvals l C) as (ps & E & B & W). exists (DoubleQ ps). split.
    - unfold consume. cbn [fold_node map label]. unfold yaml_act at 1. cbn [call_]. unfold yaml_act at 1. rewrite E. cbn [cbind yact].
      rewrite many_dq. reflexivity.
    - cbn [blur]. now rewrite (B I), W.
  Qed.
  Lemma sconsume w t l : cwf QUOTE QUOTE sesc l -> In NL (ctexts QUOTE l) ->
    exists y, consume (Node y_single_quoted w [Node y_sq_content t (map snode l)]) = CVal (VYaml y) /\ blur y = SingleQ [SQ_RemNl; SQ_Str (drop_cr (ctexts QUOTE l))].
  Proof.
    intros C I. destruct (svals l C) as (ps & E & B & W). exists (SingleQ ps). split.
    - unfold consume. cbn [fold_node map label]. unfold yaml_act at 1. cbn [call_]. unfold yaml_act at 1. rewrite E. cbn [cbind yact].
      rewrite many_sq. reflexivity.
    - cbn [blur]. now rewrite (B I), W.
  Qed.

  Lemma quoted em r s k x : special r = true -> plainly s -> flats k -> runs em (PRule r) s k x -> sim ut SP em (PRule r) s k x.
  Proof.
    intros Hr P F X. destruct r; try discriminate Hr.
    - destruct (match s with [] => true | d :: _ => negb (ceqb d DQUOTE) end) eqn:D.
      + assert (H : match s with [] => True | d :: _ => d <> DQUOTE end).
        { destruct s; [exact I|]. apply ceqb_neq. now destruct (ceqb n DQUOTE). }
        assert (H' : match crlf s with [] => True | d :: _ => d <> DQUOTE end).
        { destruct s as [|d s]; [exact I|]. destruct (N.eq_dec d NL) as [-> |N]; [rewrite crlf_nl; discriminate|now rewrite crlf_cons]. }
        pose proof (fun s k => open_fail DQUOTE y_double_quoted y_dq_content eq_refl em s k) as O.
        rewrite (runs_det _ _ _ _ _ _ _ X (O s k H)). exists Fail. split; [now apply O|]. split; exact I.
      + destruct s as [|d u]; [discriminate|]. assert (d = DQUOTE) as -> by (apply ceqb_eq; now destruct (ceqb d DQUOTE)).
        assert (N : no_esc_nl BACKSLASH desc u).
        { intros a b ->. exfalso. destruct P as [_ P]. apply (P (DQUOTE :: a) b eq_refl). now left. }
        destruct (dcontent ut u N) as (l & l' & rest & E1 & E2 & C & C' & Q & R & R').
        eapply (quote_sim DQUOTE y_double_quoted y_dq_content y_dq_part) with (ns := fun em => nodes dnode em l) (ns' := fun em => nodes dnode em l');
          try eassumption; try reflexivity; try discriminate.
        intros w. rewrite !nodes_true. destruct Q as [-> |[Q1 Q2]].
        * left. reflexivity.
        * right. destruct (dconsume w (ctexts BACKSLASH l) l C Q1) as (y & Y1 & Y2).
          destruct (dconsume (crlf w) (ctexts BACKSLASH l') l' C' Q2) as (y' & Y1' & Y2').
          exists y, y'. split; [exact Y1|]. split; [exact Y1'|]. rewrite Y2, Y2', E2. now rewrite drop_crlf.
    - destruct (match s with [] => true | d :: _ => negb (ceqb d QUOTE) end) eqn:D.
      + assert (H : match s with [] => True | d :: _ => d <> QUOTE end).
        { destruct s; [exact I|]. apply ceqb_neq. now destruct (ceqb n QUOTE). }
        assert (H' : match crlf s with [] => True | d :: _ => d <> QUOTE end).
        { destruct s as [|d s]; [exact I|]. destruct (N.eq_dec d NL) as [-> |N]; [rewrite crlf_nl; discriminate|now rewrite crlf_cons]. }
        pose proof (fun s k => open_fail QUOTE y_single_quoted y_sq_content eq_refl em s k) as O.
        rewrite (runs_det _ _ _ _ _ _ _ X (O s k H)). exists Fail. split; [now apply O|]. split; exact I.
      + destruct s as [|d u]; [discriminate|]. assert (d = QUOTE) as -> by (apply ceqb_eq; now destruct (ceqb d QUOTE)).
        assert (N : no_esc_nl QUOTE sesc u).
        { intros a b ->. reflexivity. }
        destruct (scontent ut u N) as (l & l' & rest & E1 & E2 & C & C' & Q & R & R').
        eapply (quote_sim QUOTE y_single_quoted y_sq_content y_sq_part) with (ns := fun em => nodes snode em l) (ns' := fun em => nodes snode em l');
          try eassumption; try reflexivity; try discriminate.
        intros w. rewrite !nodes_true. destruct Q as [-> |[Q1 Q2]].
        * left. reflexivity.
        * right. destruct (sconsume w (ctexts QUOTE l) l C Q1) as (y & Y1 & Y2).
          destruct (sconsume (crlf w) (ctexts QUOTE l') l' C' Q2) as (y' & Y1' & Y2').
          exists y, y'. split; [exact Y1|]. split; [exact Y1'|]. rewrite Y2, Y2', E2. now rewrite drop_crlf.
  Qed.
End Quoted.
