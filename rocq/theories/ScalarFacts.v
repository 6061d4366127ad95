(** Proofs about the meaning of scalars. *)
From Coq Require Import Lia.
From Verif Require Import Base Ast Num Strings StringsFacts Peg YamlGrammar Consume Format Spec_Parse Spec_Format
  Spec_Scalar Reads FormatText FormatTree.
Import ListNotations.

Lemma repeat_char_repeat c n : repeat_char c n = repeat c n.
Proof. induction n; cbn; congruence. Qed.

(** ---- quoted ---- *)

Lemma sq_parts s v : sq_means s v ->
  exists ps, sq_canon ps /\ flat_map format_sq_part ps = s /\ parse_single_quoted ps = v.
Proof.
  induction 1 as [|c s v Hq Hn _ (ps & [Ho Hc] & E1 & E2)|s v _ (ps & [Ho Hc] & E1 & E2)
                 |n s v Hs _ (ps & [Ho Hc] & E1 & E2)].
  - exists []. repeat split; constructor.
  - destruct ps as [|[t| |m|] ps].
    + exists [SQ_Str [c]]. cbn in *. subst. repeat split; try reflexivity.
      constructor; [|constructor]. cbn. repeat split; [discriminate| |]; intros [E|[]]; congruence.
    + exists (SQ_Str (c :: t) :: ps). cbn [flat_map format_sq_part app parse_single_quoted sq_part_str] in *.
      inversion Ho as [|? ? Ht Ho']; subst. repeat split; try reflexivity.
      * constructor; [|assumption]. cbn in *. destruct Ht as (_ & H1 & H2).
        repeat split; [discriminate| |]; intros [E|E]; try congruence; contradiction.
      * destruct ps; assumption.
    + exists (SQ_Str [c] :: SQ_Quote :: ps). cbn in *. subst. repeat split; try reflexivity; try easy.
      constructor; [|assumption]. cbn. repeat split; [discriminate| |]; intros [E|[]]; congruence.
    + exists (SQ_Str [c] :: SQ_Blank m :: ps). cbn in *. subst. repeat split; try reflexivity; try easy.
      constructor; [|assumption]. cbn. repeat split; [discriminate| |]; intros [E|[]]; congruence.
    + exists (SQ_Str [c] :: SQ_RemNl :: ps). cbn in *. subst. repeat split; try reflexivity; try easy.
      constructor; [|assumption]. cbn. repeat split; [discriminate| |]; intros [E|[]]; congruence.
  - exists (SQ_Quote :: ps). cbn in *. subst. repeat split; try reflexivity.
    + constructor; [exact I|assumption].
    + destruct ps; [exact I|]. split; [intros []|assumption].
  - assert (Hh : match ps with (SQ_Blank _ | SQ_RemNl) :: _ => False | _ => True end).
    { destruct ps as [|[t| |m|] ps]; try exact I; subst s; cbn in Hs.
      - rewrite Nat.add_comm in Hs. cbn in Hs. now eapply Hs.
      - now eapply Hs. }
    destruct n as [|n].
    + exists (SQ_RemNl :: ps). cbn in *. subst. repeat split; try reflexivity.
      * constructor; [exact I|assumption].
      * destruct ps as [|p ps]; [exact I|]. split; [destruct p; tauto|assumption].
    + exists (SQ_Blank (S n) :: ps). cbn [flat_map format_sq_part parse_single_quoted sq_part_str].
      rewrite !repeat_char_repeat, Nat.add_comm. subst. repeat split; try reflexivity.
      * constructor; [cbn; lia|assumption].
      * destruct ps as [|p ps]; [exact I|]. split; [destruct p; tauto|assumption].
Qed.

Lemma escape_part e c : escape e c -> exists p, esc_char p = e /\ esc_real_char p = c.
Proof.
  destruct 1; [exists E_Newline|exists E_CR|exists E_Tab|exists E_Backslash|exists E_Quote|exists E_RealNewline];
    now split.
Qed.

Lemma dq_parts s v : dq_means s v ->
  exists ps, dq_canon ps /\ flat_map format_dq_part ps = s /\ parse_double_quoted ps = v.
Proof.
  induction 1 as [|c s v Hq Hb Hn _ (ps & [Ho Hc] & E1 & E2)|e c s v He _ (ps & [Ho Hc] & E1 & E2)
                 |n s v Hs _ (ps & [Ho Hc] & E1 & E2)].
  - exists []. repeat split; constructor.
  - assert (Hok : dq_ok (DQ_Str [c])).
    { cbn. repeat split; [discriminate| | |]; intros [E|[]]; congruence. }
    destruct ps as [|[t|e|m|] ps].
    + exists [DQ_Str [c]]. cbn in *. subst. repeat split; try reflexivity. constructor; [exact Hok|constructor].
    + exists (DQ_Str (c :: t) :: ps). cbn [flat_map format_dq_part app parse_double_quoted dq_part_str] in *.
      inversion Ho as [|? ? Ht Ho']; subst. repeat split; try reflexivity.
      * constructor; [|assumption]. cbn in *. destruct Ht as (_ & H1 & H2 & H3).
        repeat split; [discriminate| | |]; intros [E|E]; try congruence; contradiction.
      * destruct ps; assumption.
    + exists (DQ_Str [c] :: DQ_Esc e :: ps). cbn [flat_map format_dq_part app parse_double_quoted dq_part_str] in *.
      subst. repeat split; try reflexivity; try (cbn; tauto). constructor; assumption.
    + exists (DQ_Str [c] :: DQ_Blank m :: ps). cbn [flat_map format_dq_part app parse_double_quoted dq_part_str] in *.
      subst. repeat split; try reflexivity; try (cbn; tauto). constructor; assumption.
    + exists (DQ_Str [c] :: DQ_RemNl :: ps). cbn [flat_map format_dq_part app parse_double_quoted dq_part_str] in *.
      subst. repeat split; try reflexivity; try (cbn; tauto). constructor; assumption.
  - destruct (escape_part e c He) as (p & <- & <-). exists (DQ_Esc p :: ps). cbn in *. subst.
    repeat split; try reflexivity.
    + constructor; [exact I|assumption].
    + destruct ps; [exact I|]. split; [intros []|assumption].
  - assert (Hh : match ps with (DQ_Blank _ | DQ_RemNl) :: _ => False | _ => True end).
    { destruct ps as [|[t|e|m|] ps]; try exact I; subst s; cbn in Hs.
      - rewrite Nat.add_comm in Hs. cbn in Hs. now eapply Hs.
      - now eapply Hs. }
    destruct n as [|n].
    + exists (DQ_RemNl :: ps). cbn in *. subst. repeat split; try reflexivity.
      * constructor; [exact I|assumption].
      * destruct ps as [|p ps]; [exact I|]. split; [destruct p; tauto|assumption].
    + exists (DQ_Blank (S n) :: ps). cbn [flat_map format_dq_part parse_double_quoted dq_part_str].
      rewrite !repeat_char_repeat, Nat.add_comm. subst. repeat split; try reflexivity.
      * constructor; [cbn; lia|assumption].
      * destruct ps as [|p ps]; [exact I|]. split; [destruct p; tauto|assumption].
Qed.

(** ---- files with one entry ---- *)

Lemma entry_canon ut k y : plain_key ut k -> canon ut Own false None y -> canon_doc ut (entry_doc k y).
Proof.
  intros Hk Hy. split; [constructor|]. exists [], (Hash [HElem (mkHE k (mkA None y))]), [].
  repeat split; try constructor; assumption.
Qed.

Lemma entry_parse ut k y : plain_key ut k -> canon ut Own false None y ->
  parse_yaml ut (entry_file k (format y 2 (Some ParHash))) = CVal (entry_doc k y).
Proof.
  intros Hk Hy. rewrite <- (format_newline_parse ut _ (entry_canon ut k y Hk Hy)). f_equal.
  unfold entry_file, format_doc, entry_doc. cbn [leading items flat_map format_docdata format is_nil concat_mapi same_line app indent repeat_char].
  rewrite !app_nil_r, <- !app_assoc. cbn [app]. rewrite <- !app_assoc. reflexivity.
Qed.

Theorem double_quoted_meaning ut k s v : plain_key ut k -> dq_means s v ->
  exists y, parse_yaml ut (entry_file k ([SP; DQUOTE] ++ s ++ [DQUOTE])) = CVal (entry_doc k y)
    /\ as_string y = Some v.
Proof.
  intros Hk (ps & Hc & <- & <-)%dq_parts. exists (DoubleQ ps). split; [|reflexivity].
  apply (entry_parse ut k (DoubleQ ps) Hk). constructor; [exact Hc|exact I].
Qed.

Theorem single_quoted_meaning ut k s v : plain_key ut k -> sq_means s v ->
  exists y, parse_yaml ut (entry_file k ([SP; QUOTE] ++ s ++ [QUOTE])) = CVal (entry_doc k y)
    /\ as_string y = Some v.
Proof.
  intros Hk (ps & Hc & <- & <-)%sq_parts. exists (SingleQ ps). split; [|reflexivity].
  apply (entry_parse ut k (SingleQ ps) Hk). constructor; [exact Hc|exact I].
Qed.

Theorem unquoted_meaning ut k s : plain_key ut k -> block_text ut s ->
  parse_yaml ut (entry_file k (SP :: s)) = CVal (entry_doc k (Unquoted s)).
Proof.
  intros Hk Hs. apply (entry_parse ut k (Unquoted s) Hk). constructor; [exact Hs|exact I].
Qed.

(** ---- block scalars ---- *)

Lemma block_format head c ls : ls <> [] -> (forall l ls', ls <> (SP :: l) :: ls') ->
  format_block_lines (lit (String " "%char head)) ls c 2 = block_source head c ls.
Proof.
  intros Hne Hsp. unfold format_block_lines, block_source. destruct ls as [|l ls]; [contradiction|].
  cbn [concat_mapi Nat.eqb flat_map].
  assert (E : starts_with SP l = false).
  { destruct l as [|c0 l]; [reflexivity|]. cbn. apply ceqb_neq. intros ->. now apply (Hsp l ls). }
  rewrite E. replace (chomp_str c) with (chomping c) by now destruct c.
  assert (F : forall i, concat_mapi (fun idx line =>
    (if idx =? 0 then lit (String " " head) ++ chomping c ++ (if starts_with SP line then lit "2" else []) else [])
    ++ [NL] ++ indent 2 ++ line) (S i) ls = flat_map (fun l => [NL; SP; SP] ++ l) ls).
  { clear. induction ls as [|l ls IH]; intros i; [reflexivity|]. cbn [concat_mapi Nat.eqb flat_map app]. now rewrite IH. }
  rewrite F. change (lit (String " " head)) with (lit " " ++ lit head). rewrite app_nil_r, <- !app_assoc. reflexivity.
Qed.

Lemma separated_join ls : separated ls = join [NL] ls.
Proof. induction ls as [|l [|l' ls] IH]; [reflexivity..|]. cbn [separated join] in *. now rewrite IH. Qed.

Lemma ended_separated ls : ls <> [] -> ended ls = separated ls ++ [NL].
Proof.
  induction ls as [|l [|l' ls] IH]; intros H; [contradiction|cbn; now rewrite app_nil_r|].
  cbn [ended flat_map separated] in *. rewrite IH by discriminate. now rewrite <- !app_assoc.
Qed.

Lemma trim_end_repeat c s n : (forall r, s <> r ++ [c]) -> Base.trim_end c (s ++ repeat c n) = s.
Proof.
  intros H. induction n as [|n IH].
  - rewrite app_nil_r. apply trim_end_id. destruct (ends_with c s) eqn:E; [|reflexivity].
    apply ends_with_spec in E as (r & ->). now destruct (H r).
  - replace (repeat c (S n)) with (repeat c n ++ [c]) by (clear; induction n; cbn in *; congruence).
    rewrite app_assoc, trim_end_app_one. exact IH.
Qed.

Lemma join_empties body n : body <> [] -> join [NL] (body ++ repeat [] n) = separated body ++ repeat NL n.
Proof.
  induction body as [|l body IH]; intros H; [contradiction|].
  destruct body as [|l' body].
  - clear. cbn [app separated]. revert l. induction n as [|n IH]; intros l; [cbn; now rewrite app_nil_r|].
    specialize (IH []). cbn [app] in IH. cbn [repeat] in *. change (join [NL] (l :: [] :: repeat [] n)) with (l ++ [NL] ++ join [NL] ([] :: repeat [] n)).
    now rewrite IH.
  - rewrite <- app_comm_cons. cbn [separated join]. specialize (IH ltac:(discriminate)).
    cbn [app] in *. rewrite IH. rewrite <- !app_assoc. reflexivity.
Qed.

Lemma ends_tail (a b r : str) c : b <> [] -> a ++ b = r ++ [c] -> exists r', b = r' ++ [c].
Proof.
  intros Hb E. destruct (@exists_last _ b Hb) as (r' & d & ->). exists r'.
  rewrite app_assoc in E. apply app_inj_tail in E as [_ ->]. reflexivity.
Qed.

Lemma separated_last body : Forall one_line body -> (forall l, body <> l ++ [[]]) ->
  forall r, separated body <> r ++ [NL].
Proof.
  induction 1 as [|l body Hl Hb IH]; intros Hlast r E.
  - now destruct r.
  - destruct body as [|l' body].
    + cbn in E. destruct Hl as [Hl _]. apply Hl. subst. apply in_or_app. right. now left.
    + change (separated (l :: l' :: body)) with (l ++ [NL] ++ separated (l' :: body)) in E.
      rewrite app_assoc in E. destruct (separated (l' :: body)) as [|x y] eqn:Es.
      * destruct body as [|l2 body].
        -- cbn in Es. subst l'. now apply (Hlast [l]).
        -- cbn [separated] in Es. destruct l'; discriminate.
      * apply ends_tail in E as (r' & E); [|discriminate]. revert E. apply IH.
        intros z Ez. apply (Hlast (l :: z)). now rewrite Ez.
Qed.

Lemma literal_value body n c : body <> [] -> Forall one_line body -> (forall l, body <> l ++ [[]]) ->
  parse_literal (body ++ repeat [] n) c = literal_means body n c.
Proof.
  intros Hne H1 Hl. unfold parse_literal. rewrite join_empties by exact Hne.
  pose proof (separated_last body H1 Hl) as Hs.
  destruct c; cbn [handle_ending_newlines literal_means].
  all: rewrite ?trim_end_repeat by exact Hs; rewrite ?ended_separated by exact Hne; try reflexivity.
  rewrite <- !app_assoc. f_equal. clear. induction n; cbn in *; congruence.
Qed.

Lemma folds_head ls v : folds ls v -> exists c l ls', ls = (c :: l) :: ls' /\ c <> SP.
Proof. destruct 1; eauto 6. Qed.

Lemma fold_empties p b n : n <> 0 -> fold_left fold_step (repeat [] n) (p, b) = (p ++ repeat NL n, true).
Proof.
  revert p b. induction n as [|n IH]; intros p b H; [contradiction|].
  cbn [repeat fold_left fold_step is_nil]. destruct n; [reflexivity|].
  rewrite IH by discriminate. now rewrite <- app_assoc.
Qed.

Lemma fold_text p c l b : c <> SP ->
  fold_step (p, b) (c :: l) = ((if b then p else p ++ [SP]) ++ c :: l, false).
Proof. intros H. cbn. now rewrite (proj2 (ceqb_neq c SP)) by exact H. Qed.

Lemma folds_fold ls v : folds ls v -> forall p,
  fold_left fold_step (tl ls) (p ++ hd [] ls, false) = (p ++ v, false).
Proof.
  induction 1 as [c l Hc|c l ls v Hc Hf IH|c l n ls v Hc Hf IH]; intros p; [reflexivity| |]; cbn [tl hd].
  - destruct (folds_head ls v Hf) as (c' & l' & ls' & -> & Hc'). cbn [fold_left].
    rewrite fold_text by exact Hc'. specialize (IH (p ++ (c :: l) ++ [SP])). cbn [tl hd] in IH.
    rewrite <- !app_assoc in *. cbn [app] in *. rewrite IH. reflexivity.
  - rewrite fold_left_app, fold_empties by discriminate.
    destruct (folds_head ls v Hf) as (c' & l' & ls' & -> & Hc'). cbn [fold_left].
    rewrite fold_text by exact Hc'. specialize (IH (p ++ (c :: l) ++ repeat NL (S n))). cbn [tl hd] in IH.
    rewrite <- !app_assoc in *. rewrite IH. reflexivity.
Qed.

Lemma folds_last ls v : folds ls v -> Forall one_line ls -> forall r, v <> r ++ [NL].
Proof.
  assert (Hv : forall ls v, folds ls v -> v <> []) by (intros ? ? []; discriminate).
  induction 1 as [c l Hc|c l ls v Hc Hf IH|c l n ls v Hc Hf IH]; intros H1 r E; inversion H1 as [|? ? Hl Hls]; subst.
  - destruct Hl as [Hl _]. apply Hl. rewrite E. apply in_or_app. right. now left.
  - change ((c :: l) ++ SP :: v) with ((c :: l) ++ [SP] ++ v) in E. rewrite app_assoc in E.
    apply ends_tail in E as (r' & E); [|eapply Hv, Hf]. now apply (IH Hls r').
  - rewrite app_assoc in E. apply ends_tail in E as (r' & E); [|eapply Hv, Hf].
    inversion Hls as [|? ? _ Hls2]; subst. apply Forall_app in Hls2 as [_ Hls2]. now apply (IH Hls2 r').
Qed.

Lemma folded_value ls v n c : folds ls v -> Forall one_line ls ->
  parse_folded (ls ++ repeat [] n) c = folded_means v n c.
Proof.
  intros Hf H1. pose proof (folds_last ls v Hf H1) as Hl.
  pose proof (folds_fold ls v Hf []) as E. cbn [app] in E.
  destruct (folds_head ls v Hf) as (c0 & l0 & ls' & -> & _). cbn [tl hd] in E.
  unfold parse_folded. cbn [app]. rewrite fold_left_app, E.
  assert (F : fst (fold_left fold_step (repeat [] n) (v, false)) = v ++ repeat NL n).
  { destruct n; [cbn; now rewrite app_nil_r|]. now rewrite fold_empties. }
  rewrite F. destruct c; cbn [handle_ending_newlines folded_means].
  all: rewrite ?trim_end_repeat by exact Hl; try reflexivity.
  rewrite <- !app_assoc. f_equal. clear. induction n; cbn in *; congruence.
Qed.

Lemma block_lines_empties body n : block_lines body -> block_lines (body ++ repeat [] n).
Proof.
  intros (H1 & c & l & ls & -> & H2 & H3). split.
  - apply Forall_app. split; [exact H1|]. apply Forall_forall. intros x Hx. apply repeat_spec in Hx. subst.
    split; intros [].
  - exists c, l, (ls ++ repeat [] n). split; [reflexivity|]. now split.
Qed.

Lemma head_empties body n : block_lines body -> (forall l ls, body <> (SP :: l) :: ls) ->
  forall l ls, body ++ repeat [] n <> (SP :: l) :: ls.
Proof. intros (_ & c & l & ls & -> & _) H l' ls' E. inversion E; subst. now apply (H l' ls). Qed.

Theorem literal_meaning ut k body n c :
  plain_key ut k -> block_lines body -> (forall l ls, body <> (SP :: l) :: ls) -> (forall l, body <> l ++ [[]]) ->
  exists y, parse_yaml ut (entry_file k (block_source "|" c (body ++ repeat [] n))) = CVal (entry_doc k y)
    /\ as_string y = Some (literal_means body n c).
Proof.
  intros Hk Hb Hsp Hl. exists (Literal (body ++ repeat [] n) c).
  pose proof (block_lines_empties body n Hb) as Hb'.
  assert (Hne : body <> []) by (destruct Hb as (_ & ? & ? & ? & -> & _); discriminate). split.
  - rewrite <- block_format.
    + apply (entry_parse ut k (Literal _ c) Hk). constructor; [exact Hb'|exact I|now left].
    + destruct body; [contradiction|discriminate].
    + now apply head_empties.
  - cbn [as_string]. now rewrite literal_value by (try apply Hb; assumption).
Qed.

Theorem folded_meaning ut k body v n c :
  plain_key ut k -> block_lines body -> folds body v ->
  exists y, parse_yaml ut (entry_file k (block_source ">" c (body ++ repeat [] n))) = CVal (entry_doc k y)
    /\ as_string y = Some (folded_means v n c).
Proof.
  intros Hk Hb Hf. exists (Folded (body ++ repeat [] n) c).
  pose proof (block_lines_empties body n Hb) as Hb'.
  destruct (folds_head body v Hf) as (c0 & l0 & ls0 & E0 & Hc0). split.
  - rewrite <- block_format.
    + apply (entry_parse ut k (Folded _ c) Hk). constructor; [exact Hb'|exact I|now left].
    + subst; discriminate.
    + apply head_empties; [exact Hb|]. intros l ls E. rewrite E in E0. inversion E0. now subst.
  - cbn [as_string]. now rewrite (folded_value body v n c Hf) by apply Hb.
Qed.

(** ---- witnesses ---- *)

Lemma line_break_dropped :
  exists src y, (forall ut, parse_yaml ut (entry_file (lit "k") src) = CVal (entry_doc (lit "k") y))
    /\ src = lit " 'a" ++ [NL] ++ lit "b'" /\ as_string y = Some (lit "ab").
Proof.
  exists (lit " 'a" ++ [NL] ++ lit "b'"), (SingleQ [SQ_Str (lit "a"); SQ_RemNl; SQ_Str (lit "b")]).
  split; [|now split]. intros ut. vm_compute. reflexivity.
Qed.

Lemma indentation_kept :
  exists src y, (forall ut, parse_yaml ut (entry_file (lit "k") src) = CVal (entry_doc (lit "k") y))
    /\ src = lit " 'a" ++ [NL; NL] ++ lit "  b'" /\ as_string y = Some (lit "a" ++ [NL] ++ lit "  b").
Proof.
  exists (lit " 'a" ++ [NL; NL] ++ lit "  b'"), (SingleQ [SQ_Str (lit "a"); SQ_Blank 1; SQ_Str (lit "  b")]).
  split; [|now split]. intros ut. vm_compute. reflexivity.
Qed.

Lemma escaped_break_kept :
  exists src y, (forall ut, parse_yaml ut (entry_file (lit "k") src) = CVal (entry_doc (lit "k") y))
    /\ src = [SP; DQUOTE] ++ lit "a\" ++ [NL] ++ lit "b" ++ [DQUOTE] /\ as_string y = Some (lit "a" ++ [NL] ++ lit "b").
Proof.
  exists ([SP; DQUOTE] ++ lit "a\" ++ [NL] ++ lit "b" ++ [DQUOTE]),
         (DoubleQ [DQ_Str (lit "a"); DQ_Esc E_RealNewline; DQ_Str (lit "b")]).
  split; [|now split]. intros ut. vm_compute. reflexivity.
Qed.

Lemma leading_line_lost :
  exists src y, (forall ut, parse_yaml ut (entry_file (lit "k") src) = CVal (entry_doc (lit "k") y))
    /\ src = lit " |" ++ [NL; NL] ++ lit "  a" /\ as_string y = Some (lit "a" ++ [NL]).
Proof.
  exists (lit " |" ++ [NL; NL] ++ lit "  a"), (Literal [lit "a"] Clip).
  split; [|now split]. intros ut. vm_compute. reflexivity.
Qed.

Lemma indented_lines_spread :
  exists src y, (forall ut, parse_yaml ut (entry_file (lit "k") src) = CVal (entry_doc (lit "k") y))
    /\ src = lit " >" ++ [NL] ++ lit "  a" ++ [NL] ++ lit "    b" ++ [NL] ++ lit "    c"
    /\ as_string y = Some (lit "a" ++ [NL] ++ lit "  b" ++ [NL; NL] ++ lit "  c" ++ [NL]).
Proof.
  exists (lit " >" ++ [NL] ++ lit "  a" ++ [NL] ++ lit "    b" ++ [NL] ++ lit "    c"),
         (Folded [lit "a"; lit "  b"; lit "  c"] Clip).
  split; [|now split]. intros ut. vm_compute. reflexivity.
Qed.

Lemma short_line_lost :
  exists src y, (forall ut, parse_yaml ut (entry_file (lit "k") src) = CVal (entry_doc (lit "k") y))
    /\ src = lit " |" ++ [NL] ++ lit "    a" ++ [NL] ++ lit "   b" /\ as_string y = Some (lit "a" ++ [NL]).
Proof.
  exists (lit " |" ++ [NL] ++ lit "    a" ++ [NL] ++ lit "   b"), (Literal [lit "a"; []] Clip).
  split; [|now split]. intros ut. vm_compute. reflexivity.
Qed.

Lemma crlf_block :
  exists src y z, (forall ut, parse_yaml ut (entry_file (lit "k") src) = CVal (entry_doc (lit "k") y)
                           /\ parse_yaml ut (crlf (entry_file (lit "k") src)) = CVal (entry_doc (lit "k") z))
    /\ src = lit " |" ++ [NL] ++ lit "  a" ++ [NL; NL] ++ lit "  b"
    /\ as_string y = Some (lit "a" ++ [NL; NL] ++ lit "b" ++ [NL])
    /\ as_string z = Some (lit "a" ++ [NL; NL; NL] ++ lit "b" ++ [NL]).
Proof.
  exists (lit " |" ++ [NL] ++ lit "  a" ++ [NL; NL] ++ lit "  b"),
         (Literal [lit "a"; []; lit "b"] Clip), (Literal [lit "a"; []; []; lit "b"] Clip).
  split; [|now repeat split]. intros ut. split; vm_compute; reflexivity.
Qed.

Lemma crlf_quoted :
  exists src y z, (forall ut, parse_yaml ut (entry_file (lit "k") src) = CVal (entry_doc (lit "k") y)
                           /\ parse_yaml ut (crlf (entry_file (lit "k") src)) = CVal (entry_doc (lit "k") z))
    /\ src = lit " 'a" ++ [NL; NL] ++ lit "b'"
    /\ as_string y = Some (lit "a" ++ [NL] ++ lit "b")
    /\ as_string z = Some (lit "a" ++ [CR; CR] ++ lit "b").
Proof.
  exists (lit " 'a" ++ [NL; NL] ++ lit "b'"),
         (SingleQ [SQ_Str (lit "a"); SQ_Blank 1; SQ_Str (lit "b")]),
         (SingleQ [SQ_Str (lit "a" ++ [CR]); SQ_RemNl; SQ_Str [CR]; SQ_RemNl; SQ_Str (lit "b")]).
  split; [|now repeat split]. intros ut. split; vm_compute; reflexivity.
Qed.
