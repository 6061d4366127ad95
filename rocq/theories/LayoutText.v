(** What the grammar reads from blank lines, comment lines and trailing spaces. *)
From Coq Require Import ZArith.
From Verif Require Import Base Ast Num Strings Peg PegFacts YamlGrammar Consume Format Spec_Parse YamlTree
  Spec_Format Reads FormatText FormatScalars FormatFlow FormatBlock Spec_Layout.
Import ListNotations.

Section Layout.
Context (ut : unitab).
Notation G := (yaml_grammar ut).
Notation gets := (gets ut).
Notation eats := (eats ut).
Notation eats0 := (eats0 ut).
Notation fails := (fails ut).

(** Spaces, then no blank. *)
Definition headed (s : str) : Prop := exists m x, s = indent m ++ x /\ solid x.
Lemma headed_indent m x : solid x -> headed (indent m ++ x).
Proof. intros H. exists m, x. auto. Qed.
Lemma headed_solid x : solid x -> headed x.
Proof. exact (headed_indent 0 x). Qed.
Lemma headed_nil : headed [].
Proof. apply headed_solid. exact I. Qed.
Lemma headed_no_nl s : headed s -> forall c r, s = c :: r -> c <> NL /\ c <> CR.
Proof.
  intros (m & x & -> & H) c r E. destruct m as [|m]; cbn in E.
  - subst x. cbn in H. tauto.
  - inversion E. split; discriminate.
Qed.
Lemma headed_fails_zsnl s k : headed s -> fails (PSeq y_zss y_nl) s k.
Proof. intros (m & x & -> & H). now apply fails_zsnl. Qed.
Lemma headed_fails_blanknl s k : headed s -> fails (R_ y_blanknl) s k.
Proof. intros (m & x & -> & H). now apply fails_blanknl. Qed.
Lemma headed_fails_nl s k : headed s -> fails y_nl s k.
Proof. intros H. apply fails_nl, headed_no_nl, H. Qed.
Lemma headed_blank0 s k : headed s -> eats (R_ y_blank) s k [] s k.
Proof. intros (m & x & -> & H). now apply eats_blank0. Qed.

Lemma comment_lines_cons c cs X :
  comment_lines (c :: cs) ++ X
  = indent (cl_indent c) ++ lit "#" ++ cl_text c ++ NL :: blank_lines (cl_blank c) ++ comment_lines cs ++ X.
Proof. unfold comment_lines. cbn [flat_map]. rewrite <- !app_assoc. reflexivity. Qed.
Lemma comment_lines_headed cs X : headed X -> headed (comment_lines cs ++ X).
Proof.
  intros H. destruct cs as [|c cs]; [exact H|]. rewrite comment_lines_cons. apply headed_indent.
  cbn. repeat split; discriminate.
Qed.
Lemma blank_lines_cons i ws X : blank_lines (i :: ws) ++ X = indent i ++ NL :: blank_lines ws ++ X.
Proof. unfold blank_lines. cbn [flat_map]. rewrite <- !app_assoc. reflexivity. Qed.

(** ---- blank lines ---- *)

Lemma eats_zsnl_i i s k : eats (PSeq y_zss y_nl) (indent i ++ NL :: s) k (indent i ++ [NL]) s k.
Proof. eapply eats_seq; [apply eats_indent; reflexivity|apply eats_nl|reflexivity]. Qed.

Lemma eats_blanks ws X k : headed X ->
  eats (PStar (PSeq y_zss y_nl)) (blank_lines ws ++ X) k (blank_lines ws) X k.
Proof.
  intros H. induction ws as [|i ws IH]; [apply eats_star0, headed_fails_zsnl, H|].
  rewrite blank_lines_cons. eapply eats_star1; [apply eats_zsnl_i|exact IH|reflexivity].
Qed.
Lemma eats_many i j ws X k : headed X ->
  eats (PSeq y_zss (PSeq y_nl (yplus (PSeq y_zss y_nl)))) (indent i ++ NL :: blank_lines (j :: ws) ++ X) k
    (indent i ++ NL :: blank_lines (j :: ws)) X k.
Proof.
  intros H. eapply eats_seq; [apply eats_indent; reflexivity| |reflexivity].
  eapply eats_seq; [apply eats_nl| |reflexivity]. rewrite blank_lines_cons.
  eapply eats_seq; [apply eats_zsnl_i|apply eats_blanks, H|reflexivity].
Qed.
Lemma fails_many i X k : headed X ->
  fails (PSeq y_zss (PSeq y_nl (yplus (PSeq y_zss y_nl)))) (indent i ++ NL :: X) k.
Proof.
  intros H. eapply fails_seq0; [apply eats_indent; reflexivity|].
  eapply fails_seq0; [apply eats_nl|]. apply fails_seq1, headed_fails_zsnl, H.
Qed.
Lemma eats_blanknl_ws i ws X k : headed X ->
  eats (R_ y_blanknl) (indent i ++ NL :: blank_lines ws ++ X) k (indent i ++ NL :: blank_lines ws) X k.
Proof.
  intros H. apply eats_silent; [reflexivity|]. cbn [yaml_grammar snd]. destruct ws as [|j ws].
  - cbn [blank_lines flat_map app]. apply eats_alt2; [apply fails_many, H|apply eats_zsnl_i].
  - apply eats_alt1, eats_many, H.
Qed.
Lemma eats_blank_ws i ws X k : headed X ->
  eats (R_ y_blank) (indent i ++ NL :: blank_lines ws ++ X) k (indent i ++ NL :: blank_lines ws) X k.
Proof.
  intros H. apply eats_silent; [reflexivity|]. cbn [yaml_grammar snd]. destruct ws as [|j ws].
  - cbn [blank_lines flat_map app]. apply eats_alt2; [apply fails_many, H|apply eats_opt1, eats_zsnl_i].
  - apply eats_alt1, eats_many, H.
Qed.
Lemma eats_blank_lines0 ws X k : headed X -> eats (R_ y_blank) (blank_lines ws ++ X) k (blank_lines ws) X k.
Proof.
  intros H. destruct ws as [|i ws]; [now apply headed_blank0|]. rewrite blank_lines_cons.
  assert (E : blank_lines (i :: ws) = indent i ++ NL :: blank_lines ws)
    by (rewrite <- (app_nil_r (blank_lines (i :: ws))), blank_lines_cons, app_nil_r; reflexivity).
  rewrite E. now apply eats_blank_ws.
Qed.

(** ---- comment lines ---- *)

Lemma gets_commentnl_ws n c ws X k : one_line c -> headed X ->
  gets (R_ y_commentnl) (indent n ++ lit "#" ++ c ++ NL :: blank_lines ws ++ X) k [(y_commentnl, VStr c)] X k.
Proof.
  intros Hc HX. eapply gets_rule; [reflexivity| |].
  - cbn [yaml_grammar snd].
    eapply gets_seq; [apply gets_comment_base; [apply indent_zs|exact Hc|right; eauto]
                     |eapply eats_gets; exact (eats_blank_ws 0 ws X k HX)|reflexivity].
  - reflexivity.
Qed.
(** A comment at the end of the file. *)
Lemma gets_commentnl_end n c k : one_line c ->
  gets (R_ y_commentnl) (indent n ++ lit "#" ++ c) k [(y_commentnl, VStr c)] [] k.
Proof.
  intros Hc. rewrite <- (app_nil_r (lit "#" ++ c)), <- app_assoc. eapply gets_rule; [reflexivity| |].
  - cbn [yaml_grammar snd].
    eapply gets_seq; [apply gets_comment_base; [apply indent_zs|exact Hc|now left]
                     |eapply eats_gets; exact (headed_blank0 [] k headed_nil)|reflexivity].
  - reflexivity.
Qed.

(** Spaces, then neither a blank nor a comment. *)
Definition bare (s : str) : Prop := exists m x, s = indent m ++ x /\ solid x /\ not_comment x.
Lemma bare_headed s : bare s -> headed s.
Proof. intros (m & x & -> & H & _). now apply headed_indent. Qed.
Lemma bare_fails s k : bare s -> fails (R_ y_commentnl) s k.
Proof. intros (m & x & -> & H & H2). now apply fails_commentnl. Qed.
Lemma bare_indent m x : solid x -> not_comment x -> bare (indent m ++ x).
Proof. intros. exists m, x. auto. Qed.

Lemma gets_clines_star cs X k : comments_ok cs -> bare X ->
  gets (PStar (R_ y_commentnl)) (comment_lines cs ++ X) k (vcnl (map cl_text cs)) X k.
Proof.
  intros Hc HX. induction Hc as [|c cs H1 _ IH]; cbn [map vcnl].
  - apply gets_star0, bare_fails, HX.
  - rewrite comment_lines_cons.
    eapply gets_star1; [apply gets_commentnl_ws; [exact H1|]|exact IH|reflexivity].
    apply comment_lines_headed, bare_headed, HX.
Qed.
Lemma gets_clines cs X k : comments_ok cs -> bare X ->
  gets (R_ y_commentnls) (comment_lines cs ++ X) k [(y_commentnls, VStrs (map cl_text cs))] X k.
Proof. intros Hc HX. apply gets_commentnls_of, gets_clines_star; assumption. Qed.

(** Trailing spaces, then a line break or the end: no comment there. *)
Lemma fails_comment_pad i z k : nl_or_end z ->
  fails (R_ y_comment) (indent i ++ z) k /\ fails (R_ y_commentnl) (indent i ++ z) k.
Proof.
  intros H. assert (F : fails (R_ y_comment_base) (indent i ++ z) k).
  { apply fails_rule. cbn [yaml_grammar snd].
    eapply fails_seq0; [apply eats_indent|apply fails_seq1]; destruct H as [->|(r & ->)]; try reflexivity; scanc. }
  split; apply fails_rule; cbn [yaml_grammar snd]; [exact F|apply fails_seq1, F].
Qed.
Lemma gets_comments_pad i z k : nl_or_end z ->
  gets (R_ y_commentnls) (indent i ++ z) k [(y_commentnls, VStrs [])] (indent i ++ z) k.
Proof.
  intros H. eapply gets_rule; [reflexivity|apply gets_star0, fails_comment_pad, H|reflexivity].
Qed.
Lemma nl_zs z : nl_or_end z -> no_zs z.
Proof. intros [->|(r & ->)]; [exact I|reflexivity]. Qed.

(** ---- white space in inline collections ---- *)

Lemma eats_white w s k : white w -> firm s -> eats (R_ y_spaces) (w ++ s) k w s k.
Proof.
  intros Hw Hs. apply eats_silent; [reflexivity|]. cbn [yaml_grammar snd].
  induction w as [|c w IH]; cbn [app]; [apply eats_star0, fails_space, Hs|].
  eapply eats_star1 with (t1 := [c]); [|apply IH; intros d Hd; apply Hw; now right|reflexivity].
  destruct (Hw c (or_introl eq_refl)) as [-> | ->]; [apply eats_space|apply eats_space_nl].
Qed.

(** Every character of a text of spaces. *)
Lemma indent_in i c : In c (indent i) -> c = SP.
Proof. unfold indent. induction i as [|i IH]; cbn; [tauto|]. intros [<-|H]; auto. Qed.

Lemma trim_pad s i : (forall r, s <> r ++ [SP]) -> trim_end_spaces (s ++ indent i) = s.
Proof.
  intros H. induction i as [|i IH]; [cbn; rewrite app_nil_r; now apply trim_same|].
  assert (E : s ++ indent (S i) = (s ++ indent i) ++ [SP]).
  { rewrite <- app_assoc. f_equal. change [SP] with (indent 1). rewrite indent_app. f_equal. lia. }
  rewrite E. unfold trim_end_spaces in *. rewrite trim_end_by_one by reflexivity. exact IH.
Qed.

(** A key and the spaces after it. *)
Lemma gets_key_pad key i s k : plain_key ut key -> (forall c r, s = c :: r -> ~ key_char ut c) ->
  gets (R_ y_hash_key) (key ++ indent i ++ s) k [(y_hash_key, VStr key)] s k.
Proof.
  intros Hk Hs. pose proof Hk as ((c & r & E & Hc) & Hall & _).
  assert (Et : trim_end (key ++ indent i) = key).
  { rewrite <- (key_trim ut key Hk) at 2. clear. induction i as [|i IH]; [cbn; now rewrite app_nil_r|].
    assert (E : key ++ indent (S i) = (key ++ indent i) ++ [SP]).
    { rewrite <- app_assoc. f_equal. change [SP] with (indent 1). rewrite indent_app. f_equal. lia. }
    rewrite E. unfold trim_end in *. rewrite trim_end_by_one by reflexivity. exact IH. }
  rewrite <- Et at 2. subst key. rewrite app_assoc. cbn [app]. apply gets_key_any; [exact Hc| |exact Hs].
  intros d Hd. apply in_app_or in Hd as [Hd|Hd].
  - destruct (Hall d (or_intror Hd)) as [H|[H|H]]; [now left|now right; left|now right; right].
  - apply indent_in in Hd. subst. now right; right.
Qed.

End Layout.
