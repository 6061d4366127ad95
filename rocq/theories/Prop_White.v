(** C89: collections can be indented with any white space, and every line has to repeat it. *)
From Coq Require Import Permutation.
From Verif Require Import Base Ast Strings Peg YamlGrammar Consume Spec_Parse Spec_Format FormatExample Spec_White WhiteFacts.
Import ListNotations.

Theorem C89_read : forall ut t z, ~ leaf t -> white ut t -> z = [] \/ z = [NL] ->
  parse_yaml ut (white_file t ++ z) = CVal (mkDoc [] [DYaml (wnode t)]).
Proof. exact white_parse. Qed.
Print Assumptions C89_read.

Definition no_tables : unitab := mkUni (fun _ => false) (fun _ => false).
(** Ideographic and no-break spaces; the inner collections are indented differently. *)
Definition wide : wtree := WMap [12288; 32]%N
  [ (lit "first key", WBlock false Keep [lit "a: b # no comment"; []; lit "  deeper"]);
    (lit "x", WMap [160]%N [ (lit "y", WWord (lit "a word")); (lit "z", WMap [8192; 32]%N [(lit "t", WBlock true Clip [lit "folded"; lit "text"])]) ]);
    (lit "last", WSeq [32; 8202]%N [WWord (lit "12"); WBlock false Clip [lit "- no element"]; WWord (lit "-x")]) ].
Ltac line_t := split; let H := fresh in intros H; cbn in H; repeat (destruct H as [H|H]; [discriminate H|]); destruct H.
Ltac block_t := split; [repeat (apply Forall_cons; [line_t|]); apply Forall_nil|do 3 eexists; split; reflexivity].
Ltac zs_t := let c := fresh in let H := fresh in intros c H; cbn in H; repeat (destruct H as [<-|H]; [first [left; cbn; tauto|right; split; discriminate]|]); destruct H.
Example C89_example : forall ut, ~ leaf wide /\ white ut wide.
Proof.
  intros ut. split; [exact (fun H => H)|]. split; [zs_t|]. split; [discriminate|].
  split; [split; [key_ok|split; [exact I|block_t]]|]. split; [split; [key_ok|split; [discriminate|]]|].
  - split; [zs_t|]. split; [discriminate|]. split; [split; [key_ok|split; [exact I|text_ok]]|]. split; [|exact I]. split; [key_ok|]. split; [discriminate|].
    split; [zs_t|]. split; [discriminate|]. split; [|exact I]. split; [key_ok|]. split; [exact I|block_t].
  - split; [|exact I]. split; [key_ok|]. split; [discriminate|]. split; [zs_t|]. split; [discriminate|].
    split; [split; [exact I|text_ok]|]. split; [split; [exact I|block_t]|]. split; [split; [exact I|text_ok]|exact I].
Qed.

(** The same characters in another order are not the same indentation. *)
Theorem C89_order_refuted : exists w v, Permutation w v /\ (forall c, In c (w ++ v) -> space_separator c) /\
  parse_yaml no_tables (lit "---" ++ NL :: w ++ lit "k: |" ++ NL :: w ++ lit "  a" ++ NL :: w ++ lit "  b") =
    CVal (mkDoc [] [DYaml (Hash [HElem (mkHE (lit "k") (mkA None (Literal [lit "a"; lit "b"] Clip)))])]) /\
  parse_yaml no_tables (lit "---" ++ NL :: w ++ lit "k: |" ++ NL :: w ++ lit "  a" ++ NL :: v ++ lit "  b") = CErr.
Proof.
  exists [12288; 32]%N, [32; 12288]%N. split; [apply perm_swap|]. split; [intros c [<-|[<-|[<-|[<-|[]]]]]; left; cbn; auto 8|].
  split; vm_compute; reflexivity.
Qed.
Print Assumptions C89_order_refuted.
(** A tab is no indentation. *)
Theorem C89_tab_refuted : parse_yaml no_tables (lit "---" ++ NL :: TAB :: lit "k: |" ++ NL :: TAB :: lit "  a") = CErr.
Proof. vm_compute. reflexivity. Qed.
Print Assumptions C89_tab_refuted.
