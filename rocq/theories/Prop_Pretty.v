(** Property theorems C07-C14 (pretty printing, mapping, visiting). *)
From Verif Require Import Base Ast Strings Format Num Pretty Spec_Strings StringsFacts
  Spec_Pretty PrettyFacts VisitFacts.
Import ListNotations.

(** C07: pretty printing keeps the value of every scalar. *)
Theorem C07_pretty_scalar_value :
  forall inl child y, is_scalar y = true -> long_ok inl y ->
  as_string (pretty_with inl child y) = as_string y.
Proof. exact pretty_with_scalar_value. Qed.
Print Assumptions C07_pretty_scalar_value.

(** A 95-byte quoted string that is re-styled as a folded block. *)
Example C07_example :
  let s := sep_concat SP (repeat (lit "abcd") 19) in
  long_ok false (SingleQ [SQ_Str s]) /\
  (exists l, pretty_with false false (SingleQ [SQ_Str s]) = Folded l Strip).
Proof.
  cbn zeta. split; [|eexists; vm_compute; reflexivity].
  intros _ _ _. exists false, (repeat (lit "abcd") 19), []. split; [discriminate|]. split; [|reflexivity].
  constructor; [|constructor]. apply Forall_forall. intros w Hw. apply repeat_spec in Hw. subst w.
  repeat split; try discriminate; try (cbn; intuition discriminate). vm_compute. lia.
Qed.

(** Without the proviso the value of a quoted string with an over-long word is lost. *)
Theorem C07_unfoldable_refuted :
  exists y, is_scalar y = true /\ as_string (pretty y) <> as_string y.
Proof. exact pretty_unfoldable. Qed.
Print Assumptions C07_unfoldable_refuted.

(** C08: pretty printing keeps the data of whole trees and documents. *)
Theorem C08_pretty_view :
  forall inl child y, long_ok inl y -> view (pretty_with inl child y) = view y.
Proof. exact pretty_view_flip. Qed.
Print Assumptions C08_pretty_view.

Theorem C08_pretty_document :
  forall d, doc_all (long_ok false) d -> doc_views (pretty_doc d) = doc_views d.
Proof. exact doc_view. Qed.
Print Assumptions C08_pretty_document.

Example C08_example :
  let y := Hash [HComment (lit "c");
                 HElem (mkHE (lit "k") (mkA (Some (lit "x")) (Array
                   [AElem (mkA None (Array [AElem (mkA None (SingleQ [SQ_Str (lit "a")]));
                                            AElem (mkA None (Anchor (lit "r")))]));
                    AElem (mkA None (Array [AElem (mkA None (DoubleQ [DQ_Str (lit "b")]))]))])))] in
  long_ok false y /\ pretty y <> y /\
  view y = DMap [(lit "k", DSeq [DSeq [DStr (lit "a"); DRef (lit "r")]; DSeq [DStr (lit "b")]])].
Proof.
  cbn zeta. split; [|split; [discriminate|reflexivity]].
  repeat split; cbn; intros; exfalso; lia.
Qed.

(** C09: comments and alias definitions are kept, in order, unless a block collection
    sits inside an inline one. *)
Theorem C09_pretty_keeps_comments_and_aliases :
  forall inl child y, inline_no_block inl y = true ->
  comments (pretty_with inl child y) = comments y /\
  alias_names (pretty_with inl child y) = alias_names y.
Proof. exact pretty_keeps_flip. Qed.
Print Assumptions C09_pretty_keeps_comments_and_aliases.

Theorem C09_pretty_document :
  forall d, doc_all (fun y => inline_no_block false y = true) d ->
  doc_comments (pretty_doc d) = doc_comments d /\ doc_aliases (pretty_doc d) = doc_aliases d.
Proof. exact doc_keeps. Qed.
Print Assumptions C09_pretty_document.

(** They also keep their place among the keys and elements, and stay on their own line or
    at the end of a line. *)
Theorem C09_pretty_keeps_places :
  forall inl child y, inline_no_block inl y = true -> marks (pretty_with inl child y) = marks y.
Proof. exact pretty_marks_flip. Qed.
Print Assumptions C09_pretty_keeps_places.

Theorem C09_pretty_document_places :
  forall d, doc_all (fun y => inline_no_block false y = true) d -> doc_marks (pretty_doc d) = doc_marks d.
Proof. exact doc_keeps_marks. Qed.
Print Assumptions C09_pretty_document_places.

Example C09_example_places :
  let y := Array [AComment (lit "one");
                  AElem (mkA (Some (lit "x")) (Array [AElem (mkA None (DoubleQ [DQ_Str (lit "a"); DQ_Esc E_Tab]));
                                                      AInlineC (lit "two")]))] in
  inline_no_block false y = true
  /\ pretty y <> y
  /\ marks y = [MOpen; MOwnLine (lit "one"); MDash; MAlias (lit "x"); MOpen; MDash; MScalar;
                MEndOfLine (lit "two"); MClose; MClose].
Proof. repeat split; try reflexivity. discriminate. Qed.

Example C09_example :
  let y := Array [AComment (lit "one");
                  AElem (mkA (Some (lit "x")) (Array [AElem (mkA None (Unquoted (lit "a")));
                                                      AInlineC (lit "two")]))] in
  inline_no_block false y = true /\ comments y = [lit "one"; lit "two"] /\ alias_names y = [lit "x"].
Proof. repeat split; reflexivity. Qed.

(** Inside an inline collection both are dropped. *)
Theorem C09_block_in_inline_refuted :
  exists y, comments (pretty y) <> comments y /\ alias_names (pretty y) <> alias_names y.
Proof. exact pretty_drops. Qed.
Print Assumptions C09_block_in_inline_refuted.

(** C10: pretty printing is idempotent when no unquoted scalar with an inline-breaking
    character is an element of a sequence nested in a sequence. *)
Theorem C10_pretty_idempotent :
  forall y, stable false false y -> pretty (pretty y) = pretty y.
Proof. exact pretty_idempotent. Qed.
Print Assumptions C10_pretty_idempotent.

Theorem C10_pretty_document_idempotent :
  forall d, doc_all (stable false false) d -> pretty_doc (pretty_doc d) = pretty_doc d.
Proof. exact doc_idem. Qed.
Print Assumptions C10_pretty_document_idempotent.

Example C10_example :
  let y := Array [AElem (mkA None (Array [AElem (mkA None (SingleQ [SQ_Str (lit "x, y")]));
                                          AElem (mkA None (Unquoted (lit "a")))]));
                  AElem (mkA None (Unquoted (lit "b, c")))] in
  stable false false y /\ pretty y <> y.
Proof.
  cbn zeta. split; [|vm_compute; discriminate]. cbn. repeat split; try discriminate.
  intros _ (c & [<-|[]] & H). cbn in H. intuition discriminate.
Qed.

Theorem C10_pretty_idempotent_refuted : exists y, pretty (pretty y) <> pretty y.
Proof. exact pretty_not_idempotent. Qed.
Print Assumptions C10_pretty_idempotent_refuted.

(** C11: exactly when a block sequence is turned into an inline one. *)
Theorem C11_auto_inline_iff :
  forall child v l, v <> [] ->
  (pretty_with false child (Array v) = InlineArray l <->
   child = true /\
   exists ys, v = map (fun y => AElem (mkA None y)) ys /\
     l = map (pretty_with false true) ys /\
     Forall one_line_style l /\
     utf8_len (format (InlineArray l) 0 None) <= 90).
Proof. exact array_inlined_spec. Qed.
Print Assumptions C11_auto_inline_iff.

Example C11_example :
  pretty_with false true (Array [AElem (mkA None (SingleQ [SQ_Str (lit "a")]));
                                 AElem (mkA None (Unquoted (lit "b")))])
  = InlineArray [Unquoted (lit "a"); Unquoted (lit "b")].
Proof. reflexivity. Qed.

(** C12: inline collections end up free of block style. *)
Theorem C12_inline_stays_inline :
  forall child y, inline_scalars_ok false y = true ->
  inline_clean false (pretty_with false child y) = true.
Proof. exact pretty_clean_block. Qed.
Print Assumptions C12_inline_stays_inline.

Example C12_example :
  let y := InlineArray [Hash [HElem (mkHE (lit "k") (mkA None (Array [AElem (mkA None (Unquoted (lit "a")))])))]] in
  inline_scalars_ok false y = true /\ inline_clean false y = false.
Proof. split; reflexivity. Qed.

Theorem C12_inline_stays_inline_refuted :
  exists y, inline_clean false y = true /\ inline_clean false (pretty y) = false.
Proof. exact pretty_unclean. Qed.
Print Assumptions C12_inline_stays_inline_refuted.

(** C13: the visitor meets every aliased value exactly once, in document order. *)
Theorem C13_visit_order :
  forall y, exists addrs, enumerates before (fun a => aliased_at a y) addrs (visit_yaml y).
Proof. exact visit_enumerates. Qed.
Print Assumptions C13_visit_order.

Example C13_example :
  let y := Hash [HElem (mkHE (lit "k") (mkA None (Array [AElem (mkA None (Unquoted (lit "a")))])));
                 HElem (mkHE (lit "l") (mkA None (Unquoted (lit "b"))))] in
  map (@a_value yaml) (visit_yaml y)
  = [Array [AElem (mkA None (Unquoted (lit "a")))]; Unquoted (lit "a"); Unquoted (lit "b")].
Proof. reflexivity. Qed.

(** C14: the mapper calls the closure once per node, children first, in document order,
    on the node with its children already replaced; keys, aliases and comments stay. *)
Theorem C14_map_order :
  forall S (f : yaml -> S -> yaml * S) y s, exists addrs nodes out,
    enumerates before_post (fun a => node_at a y) addrs nodes /\
    calls f (map (input_at y out) addrs) s (map out addrs) (snd (map_yaml f y s)) /\
    out [] = fst (map_yaml f y s).
Proof. exact @map_yaml_calls. Qed.
Print Assumptions C14_map_order.

(** A closure that returns its argument leaves the tree as it was. *)
Theorem C14_map_identity :
  forall y S (g : yaml -> S -> S) s, fst (map_yaml (fun y s => (y, g y s)) y s) = y.
Proof. exact map_yaml_id. Qed.
Print Assumptions C14_map_identity.

Example C14_example :
  let y := Array [AElem (mkA None (InlineArray [Unquoted (lit "a")])); AComment (lit "c");
                  AElem (mkA (Some (lit "x")) (Unquoted (lit "b")))] in
  map_yaml (fun y s => (match y with Unquoted t => Unquoted (t ++ lit "!") | y => y end, s ++ [y])) y []
  = (Array [AElem (mkA None (InlineArray [Unquoted (lit "a!")])); AComment (lit "c");
            AElem (mkA (Some (lit "x")) (Unquoted (lit "b!")))],
     [Unquoted (lit "a"); InlineArray [Unquoted (lit "a!")]; Unquoted (lit "b");
      Array [AElem (mkA None (InlineArray [Unquoted (lit "a!")])); AComment (lit "c");
             AElem (mkA (Some (lit "x")) (Unquoted (lit "b!")))]]).
Proof. reflexivity. Qed.
