(** Property theorems C01-C04 (string codecs). *)
From Verif Require Import Base Ast Strings Pretty Spec_Strings StringsFacts.
Import ListNotations.

(** C01: literal blocks are lossless with the chomping the writer picks. *)
Theorem C01_literal_lossless :
  forall s c, chomp_for s c -> parse_literal (create_literal s) c = s.
Proof. exact literal_lossless_spec. Qed.
Print Assumptions C01_literal_lossless.

Example C01_example :
  chomp_for (lit "a" ++ [NL; NL] ++ lit " b" ++ [NL; NL]) Keep /\
  create_literal (lit "a" ++ [NL; NL] ++ lit " b" ++ [NL; NL])
  = [lit "a"; []; lit " b"; []].
Proof. split; [left; split; [reflexivity|]; eexists (lit "a" ++ [NL; NL] ++ lit " b" ++ [NL]); reflexivity|reflexivity]. Qed.

(** The choice of chomping is total and unique: it is the one [pretty] makes. *)
Theorem C01_chomp_choice :
  forall s c, chomp_for s c <-> c = pretty_chomp s.
Proof. exact chomp_for_choice. Qed.
Print Assumptions C01_chomp_choice.

(** C02: folded blocks are lossless on foldable text. *)
Theorem C02_folded_lossless :
  forall len s c, foldable_text len s -> chomp_for s c ->
  parse_folded (create_folded s len) c = s.
Proof. exact folded_lossless_spec. Qed.
Print Assumptions C02_folded_lossless.

Example C02_example :
  foldable_text 8 (lit "ab cd efg" ++ [NL; NL] ++ lit "h") /\
  chomp_for (lit "ab cd efg" ++ [NL; NL] ++ lit "h") Strip /\
  create_folded (lit "ab cd efg" ++ [NL; NL] ++ lit "h") 8
  = [lit "ab cd"; lit "efg"; []; []; lit "h"; []].
Proof.
  split; [|split].
  - exists false, [lit "ab"; lit "cd"; lit "efg"], [[]; [lit "h"]].
    split; [discriminate|]. split; [|reflexivity].
    repeat (apply Forall_cons || apply Forall_nil); unfold fits_word; repeat apply conj;
      try discriminate; try (cbn; lia);
      cbn; intros H; repeat (destruct H as [H|H]; try discriminate); contradiction.
  - apply chomp_for_choice. reflexivity.
  - reflexivity.
Qed.

(** Without the side condition the folded codec changes text, at the width (90)
    the writer uses.  An over-long word: *)
Theorem C02_long_word_refuted :
  exists s c, chomp_for s c /\ parse_folded (create_folded s 90) c <> s.
Proof. exact (folded_differs fold_bad_word Strip eq_refl eq_refl). Qed.
Print Assumptions C02_long_word_refuted.

(** A double space at a wrap point: *)
Theorem C02_double_space_refuted :
  exists s c, chomp_for s c /\ parse_folded (create_folded s 90) c <> s.
Proof. exact (folded_differs fold_bad_space Strip eq_refl eq_refl). Qed.
Print Assumptions C02_double_space_refuted.

(** A text starting with a newline: *)
Theorem C02_leading_newline_refuted :
  exists s c, chomp_for s c /\ parse_folded (create_folded s 90) c <> s.
Proof. exact (folded_differs fold_bad_lead Strip eq_refl eq_refl). Qed.
Print Assumptions C02_leading_newline_refuted.

(** A later line starting with a space: *)
Theorem C02_indented_line_refuted :
  exists s c, chomp_for s c /\ parse_folded (create_folded s 90) c <> s.
Proof. exact (folded_differs fold_bad_indent Strip eq_refl eq_refl). Qed.
Print Assumptions C02_indented_line_refuted.

(** C03: chomping of literal and folded blocks. *)
Theorem C03_literal_chomping :
  forall ls, exists body n, (~ exists t, body = t ++ [NL]) /\
    sep_concat NL ls = body ++ repeat NL n /\
    parse_literal ls Strip = body /\
    parse_literal ls Clip = body ++ [NL] /\
    parse_literal ls Keep = sep_concat NL ls ++ [NL].
Proof. exact literal_chomping. Qed.
Print Assumptions C03_literal_chomping.

Theorem C03_folded_chomping :
  forall l ls, exists text body n, (~ exists t, body = t ++ [NL]) /\
    text = body ++ repeat NL n /\
    parse_folded (l :: ls) Strip = body /\
    parse_folded (l :: ls) Clip = body ++ [NL] /\
    parse_folded (l :: ls) Keep = text ++ [NL].
Proof. exact folded_chomping. Qed.
Print Assumptions C03_folded_chomping.

Example C03_example :
  parse_literal [lit "a"; []; []] Strip = lit "a" /\
  parse_literal [lit "a"; []; []] Clip = lit "a" ++ [NL] /\
  parse_literal [lit "a"; []; []] Keep = lit "a" ++ [NL; NL; NL].
Proof. repeat split. Qed.

(** C04: single quoting is lossless and escapes every quote. *)
Theorem C04_single_quote_lossless :
  forall s, parse_single_quoted (str_to_single_quoted_parts s) = s.
Proof. exact single_quoted_lossless. Qed.
Print Assumptions C04_single_quote_lossless.

Theorem C04_single_quote_parts_clean :
  forall s, Forall (fun p => match p with
                             | SQ_Str t => t <> [] /\ ~ In QUOTE t
                             | SQ_Quote => True
                             | _ => False
                             end) (str_to_single_quoted_parts s).
Proof. exact single_quoted_clean_spec. Qed.
Print Assumptions C04_single_quote_parts_clean.

Example C04_example :
  str_to_single_quoted_parts (lit "it's ''") =
  [SQ_Str (lit "it"); SQ_Quote; SQ_Str (lit "s "); SQ_Quote; SQ_Quote].
Proof. reflexivity. Qed.
