(** C82: files put together and files cut off. *)
From Verif Require Import Base Ast Format Peg YamlGrammar Consume Spec_Parse Spec_Format FormatExample JoinFacts Spec_Join Spec_Layout.
Import ListNotations.

(** The text of a second file from "---" on, put after the text of a first: the collections
    are joined, in order, with the comments between them. *)
Theorem C82_append : forall ut d e f, joined d e f -> canon_doc ut d -> canon_doc ut e ->
  exists r, format_doc e = lit "---" ++ r /\ format_doc f = format_doc d ++ r /\ parse_yaml ut (format_doc d ++ r) = CVal f.
Proof. exact joined_reads. Qed.
Print Assumptions C82_append.
(** If writing stopped after an entry of the collection, the file is read as the entries
    written so far. *)
Theorem C82_cut : forall ut d e, canon_doc ut d -> cut d e ->
  exists r, format_doc d = format_doc e ++ r /\ parse_yaml ut (format_doc e) = CVal e.
Proof. exact cut_reads. Qed.
Print Assumptions C82_cut.
(** Hand-written files with the same indentation, likewise. *)
Theorem C82_hand_maps : forall ut cs0 i ws cs n l b s ws' cs' l' b' s' cs1 z, comments_ok cs0 -> comments_ok cs ->
  Spec_Layout.entries ut n l b s -> gap_ok n b ws' cs' -> Spec_Layout.entries ut n l' b' s' -> closing n b' cs1 z ->
  parse_yaml ut (comment_lines cs0 ++ lit "---" ++ spaces i ++ gap ws cs ++ spaces n ++ s ++ gap ws' cs' ++ spaces n ++ s' ++ z) =
    CVal (mkDoc (map cl_text cs0) (map (fun c => DComment (cl_text c)) cs ++ DYaml (Hash (l ++ hcomments_of cs' ++ l')) :: map DComment cs1)).
Proof. exact hand_maps. Qed.
Print Assumptions C82_hand_maps.
Theorem C82_hand_seqs : forall ut cs0 i ws cs n l b s ws' cs' l' b' s' cs1 z, comments_ok cs0 -> comments_ok cs ->
  Spec_Layout.elements ut n l b s -> gap_ok n b ws' cs' -> Spec_Layout.elements ut n l' b' s' -> closing n b' cs1 z ->
  parse_yaml ut (comment_lines cs0 ++ lit "---" ++ spaces i ++ gap ws cs ++ spaces n ++ s ++ gap ws' cs' ++ spaces n ++ s' ++ z) =
    CVal (mkDoc (map cl_text cs0) (map (fun c => DComment (cl_text c)) cs ++ DYaml (Array (l ++ acomments_of cs' ++ l')) :: map DComment cs1)).
Proof. exact hand_seqs. Qed.
Print Assumptions C82_hand_seqs.

(** A cut elsewhere is not noticed either: a number that is half written is another number. *)
Definition plain_tables : unitab := mkUni (fun _ => false) (fun _ => false).
Theorem C82_half_refuted : exists ut d e t r, canon_doc ut d /\ format_doc d = t ++ r /\ r <> [] /\ parse_yaml ut t = CVal e /\
  ~ cut d e /\ t <> format_doc d.
Proof.
  exists plain_tables, (mkDoc [] (map DComment [] ++ DYaml (Array [AElem (mkA None (Unquoted (lit "125")))]) :: map DComment [])),
    (mkDoc [] [DYaml (Array [AElem (mkA None (Unquoted (lit "12")))])]), (lit "---" ++ [NL] ++ lit "- 12"), (lit "5").
  split.
  { apply canon_parts. repeat split; try constructor; cbn [a_alias a_value]. constructor; [|exact I]. cbn [flow_canon].
    split; [exists (chr "1"), (lit "25"); split; [reflexivity|]; split; [reflexivity|vm_compute; intuition discriminate]|].
    split; [vm_compute; intuition (subst; discriminate)|]. split; [vm_compute; intuition discriminate|].
    split; [intros r H; apply (f_equal (@rev _)) in H; rewrite rev_app_distr in H; discriminate H|].
    split; [split; [intros r H; apply (f_equal (@rev _)) in H; rewrite rev_app_distr in H; discriminate H|]|].
    - intros c _ H. unfold has_pair in H. cbn in H. destruct H as (a & b & H). destruct a as [|? [|? [|? [|? a]]]]; discriminate H.
    - split; [discriminate|]. intros a b r H. injection H as <- <- _. split; intros [A B]; [destruct A as [A|A]; discriminate A|discriminate A]. }
  split; [vm_compute; reflexivity|]. split; [discriminate|]. split; [vm_compute; reflexivity|]. split; [|vm_compute; discriminate].
  intros C. match type of C with cut ?x ?y => remember x as d eqn:D; remember y as e eqn:E end.
  destruct C as [cs a l r z W|cs a l r z W]; destruct a as [|c a]; try discriminate D. cbn [map app] in D, E.
  injection D as _ D _. injection E as _ E. rewrite E in D. discriminate D.
Qed.
Print Assumptions C82_half_refuted.

Definition more_doc : document :=
  mkDoc [] (map DComment [lit " later"] ++ DYaml (Hash [scalar "a" "1"; HInlineC (lit " x"); scalar "b" "2"]) :: map DComment [lit "stop"]).
Lemma more_canon ut : canon_doc ut more_doc.
Proof.
  split; [constructor|]. exists [lit " later"], (Hash [scalar "a" "1"; HInlineC (lit " x"); scalar "b" "2"]), [lit "stop"].
  split; [reflexivity|]. split; [lines_ok|]. split; [lines_ok|].
  apply EConsC; [key_ok|text_ok|exact I|line_ok|discriminate|]. apply Spec_Format.ELast; [key_ok|]. apply CFlow; [text_ok|exact I].
Qed.
Example C82_append_ex : forall ut, exists f, joined big_doc more_doc f /\ canon_doc ut big_doc /\ canon_doc ut more_doc.
Proof. intros ut. eexists. split; [apply JMap|]. split; [apply big_doc_canon|apply more_canon]. Qed.
Example C82_cut_ex : forall ut, canon_doc ut big_doc /\ cut big_doc (mkDoc [lit " before"] (map DComment [lit " top"; lit " two"] ++ [DYaml (Hash (firstn 5 big_hash))])).
Proof.
  intros ut. split; [apply big_doc_canon|]. unfold big_doc. rewrite <- (firstn_skipn 5 big_hash) at 1. apply CutMap.
  change (firstn 5 big_hash) with (firstn 4 big_hash ++ [HElem (mkHE (lit "folded key") (mkA None (Folded [lit " one"; lit "two"] Strip)))]).
  apply WEntry. intros c r H. discriminate H.
Qed.
Example C82_hand_maps_ex : forall ut,
  Spec_Layout.entries ut 1 [HElem (mkHE (lit "k") (mkA None (Unquoted (lit "v")))); HInlineC (lit "c")] Plain (lit "k :  v #c") /\
  gap_ok 1 Plain [3; 0] [mkCL 4 (lit "then") []].
Proof.
  intros ut. split; [|split; [repeat constructor; not_in|exact I]].
  apply (Spec_Layout.ELast ut 1 (lit "k") 1 (mkA None (Unquoted (lit "v"))) (Some (lit "c")) Plain (lit "  v #c")); [key_ok|].
  apply (VLine ut 1 1 true false None 0 (Unquoted (lit "v")) (Some (lit "c")) 1 1 (lit "v")); [split; [text_ok|reflexivity]|exact I|].
  split; [apply le_n|line_ok].
Qed.
Example C82_hand_seqs_ex : forall ut,
  Spec_Layout.elements ut 2 [AElem (mkA None (Anchor (lit "r")))] Plain (lit "-   *r") /\ gap_ok 2 Plain [] [].
Proof.
  intros ut. split; [|split; [constructor|exact I]].
  apply (Spec_Layout.NLast ut 2 (mkA None (Anchor (lit "r"))) None Plain (lit "   *r")).
  apply (VLine ut 2 2 true true None 0 (Anchor (lit "r")) None 2 0 (lit "*r")); [|exact I|exact I].
  apply (FRef ut (lit "r")). alias_ok_t.
Qed.
