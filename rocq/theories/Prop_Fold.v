(** Property theorems C66 (what folding long text may change). *)
From Verif Require Import Base Ast Strings Format Pretty Spec_Pretty Spec_Fold FoldFacts.
Import ListNotations.

(** C66: the text that is read back from folded lines is the text that was folded, except for
    spaces and line breaks; whatever the text, the width and the chomping. *)
Theorem C66_visible : forall s len c, visible (parse_folded (create_folded s len) c) = visible s.
Proof. exact folded_visible. Qed.
Print Assumptions C66_visible.

(** Pretty printing keeps all data except for spaces and line breaks in text. *)
Theorem C66_pretty : forall inl child y, visible_data (view (pretty_with inl child y)) = visible_data (view y).
Proof. exact (fun inl child y => pretty_visible y inl child). Qed.
Print Assumptions C66_pretty.

Theorem C66_document : forall d, map visible_data (doc_views (pretty_doc d)) = map visible_data (doc_views d).
Proof. exact doc_visible. Qed.
Print Assumptions C66_document.

(** A line is at most as wide as asked for, unless it is a single word. *)
Theorem C66_width : forall s len l, In l (create_folded s len) -> utf8_len l <= len \/ word_of s l.
Proof. exact folded_width. Qed.
Print Assumptions C66_width.

Theorem C66_pretty_width : forall inl child y ls ch l,
  is_scalar y = true -> (forall ls' ch', y <> Folded ls' ch') ->
  pretty_with inl child y = Folded ls ch -> In l ls ->
  utf8_len l <= 90 \/ exists s, as_string y = Some s /\ word_of s l.
Proof. exact pretty_folded_width. Qed.
Print Assumptions C66_pretty_width.

(** A line ends only where the next word does not fit. *)
Theorem C66_full : forall s len p l1 l2 q, create_folded s len = p ++ l1 :: l2 :: q -> l1 <> [] -> l2 <> [] ->
  exists w r, word_of s w /\ l2 = w ++ r /\ len < utf8_len l1 + utf8_len w + 1.
Proof. exact folded_full. Qed.
Print Assumptions C66_full.

(** A word that is too long, two spaces, a line break, and text that is folded by pretty printing. *)
Example C66_example :
  create_folded (lit "one two  three verylongword" ++ [NL] ++ lit "x") 10 =
    [lit "one two "; lit "three"; lit "verylongword"; []; lit "x"; []] /\
  word_of (lit "one two  three verylongword" ++ [NL] ++ lit "x") (lit "verylongword") /\
  parse_folded (create_folded (lit "one two  three verylongword" ++ [NL] ++ lit "x") 10) Strip =
    lit "one two  three verylongword" ++ [NL] ++ lit "x" /\
  let y := SingleQ [SQ_Str (lit "a  b " ++ repeat (chr "w") 100 ++ lit " c d")] in
  pretty y = Folded [lit "a  b"; repeat (chr "w") 100; lit "c d"; []] Strip /\ view (pretty y) = view y.
Proof.
  split; [vm_compute; reflexivity|]. split.
  - split; [intros c I [-> | ->]; vm_compute in I; decompose [or] I; discriminate || contradiction|].
    exists (lit "one two  three "), ([NL] ++ lit "x"). split; [reflexivity|].
    split; right; [exists (lit "one two  three"), SP|exists NL, (lit "x")]; split; try reflexivity; [now left|now right].
  - split; [vm_compute; reflexivity|]. split; vm_compute; reflexivity.
Qed.

(** Folding does not keep the words: after a first word that is too long, the next words are
    glued together. *)
Theorem C66_words_refuted : exists s len w,
  word_of (parse_folded (create_folded s len) Strip) w /\ ~ word_of s w.
Proof.
  exists (lit "wxyz b c"), 4, (lit "bc"). split.
  - split; [intros c I [-> | ->]; vm_compute in I; decompose [or] I; discriminate || contradiction|].
    exists (lit " wxyz "), []. split; [vm_compute; reflexivity|]. split; [right|now left].
    exists (lit " wxyz"), SP. split; [reflexivity|now left].
  - intros [_ (a & b & E & _)].
    repeat (destruct a as [|? a]; [discriminate|]; try discriminate; apply (f_equal (@tl char)) in E; cbn in E).
Qed.
Print Assumptions C66_words_refuted.
