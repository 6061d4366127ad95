(** C78: what comes before the collection of a file does not change how the collection is read. *)
From Verif Require Import Base Ast Peg YamlGrammar Consume Spec_Parse Spec_Format Spec_Layout Spec_Flow Spec_Heading HeadFacts.
Import ListNotations.

(** The rest [X] of a file gives the same outcome (items, error or panic) after every heading;
    the heading adds its comments, nothing else. *)
Theorem C78_heading : forall ut X, begins X -> exists o, forall cs0 cs h, heading cs0 cs h -> parse_yaml ut (h ++ X) = headed cs0 cs o.
Proof. exact head_free. Qed.
Print Assumptions C78_heading.

(** Every text that is not rejected has a heading. *)
Theorem C78_only : forall ut s, parse_yaml ut s <> CErr -> exists cs0 cs h X, s = h ++ X /\ heading cs0 cs h /\ begins X.
Proof. exact head_only. Qed.
Print Assumptions C78_only.

(** So reading files reduces to reading files that start with a bare line "---". *)
Theorem C78_split : forall ut s d, parse_yaml ut s = CVal d <->
  exists cs0 cs h X its, s = h ++ X /\ heading cs0 cs h /\ begins X /\
    parse_yaml ut (lit "---" ++ [NL] ++ X) = CVal (mkDoc [] its) /\ d = mkDoc cs0 (map DComment cs ++ its).
Proof. exact heading_split. Qed.
Print Assumptions C78_split.

(** A comment line before an accepted file is read as one more leading comment. *)
Theorem C78_comment_line : forall ut s d c, one_line c -> parse_yaml ut s = CVal d ->
  parse_yaml ut (lit "#" ++ c ++ [NL] ++ s) = CVal (mkDoc (c :: leading d) (items d)).
Proof. exact comment_before. Qed.
Print Assumptions C78_comment_line.

Definition ascii_tables : unitab := mkUni (fun _ => false) (fun _ => false).
Definition body : str := lit "a: [1, 2]" ++ [NL] ++ lit "b: |" ++ [NL] ++ lit "  x" ++ [NL].
Definition busy : str := [SP; NL] ++ lit "#one" ++ [CR; NL; NL] ++ lit "  # two" ++ [NL] ++ lit "---" ++ [SP; NL; NL] ++ lit "#three" ++ [NL].
Example C78_busy : heading [lit "one"; lit " two"] [lit "three"] busy.
Proof.
  refine (HLead [SP; NL] [lit "one"; lit " two"] (lit "#one" ++ [CR; NL; NL] ++ lit "  # two" ++ [NL]) [SP; NL; NL] [lit "three"] (lit "#three" ++ [NL]) _ _ _ _ _ _); try discriminate.
  - apply (BLine [SP] NL []); [intros c [<-|[]]; reflexivity|now left|constructor].
  - apply (MLine [] (lit "one") [CR; NL; NL] [lit " two"] (lit "  # two" ++ [NL])).
    + intros c [].
    + split; intros H; cbn in H; intuition discriminate.
    + apply (BLine [] CR [NL; NL]); [intros c []|now right|]. apply (BLine [] NL [NL]); [intros c []|now left|].
      apply (BLine [] NL []); [intros c []|now left|constructor].
    + exists CR, [NL; NL]. auto.
    + apply (MLine [SP; SP] (lit " two") [NL] [] []).
      * intros c [<-|[<-|[]]]; reflexivity.
      * split; intros H; cbn in H; intuition discriminate.
      * apply (BLine [] NL []); [intros c []|now left|constructor].
      * exists NL, []. auto.
      * constructor.
  - apply (BLine [SP] NL [NL]); [intros c [<-|[]]; reflexivity|now left|]. apply (BLine [] NL []); [intros c []|now left|constructor].
  - apply (MLine [] (lit "three") [NL] [] []).
    + intros c [].
    + split; intros H; cbn in H; intuition discriminate.
    + apply (BLine [] NL []); [intros c []|now left|constructor].
    + exists NL, []. auto.
    + constructor.
Qed.
Example C78_heading_ex : begins body /\ parse_yaml ascii_tables (lit "---" ++ [NL] ++ body) <> CErr /\
  parse_yaml ascii_tables (busy ++ body) = CVal (mkDoc [lit "one"; lit " two"] [DComment (lit "three");
    DYaml (Hash [HElem (mkHE (lit "a") (mkA None (InlineArray [Unquoted (lit "1"); Unquoted (lit "2")])));
                 HElem (mkHE (lit "b") (mkA None (Literal [lit "x"] Clip)))])]).
Proof.
  split; [apply begins_iff; split; [intros c r E; injection E as <- _; split; discriminate|intros r E; discriminate]|].
  split; vm_compute; [discriminate|reflexivity].
Qed.
Example C78_comment_line_ex : one_line (lit " new") /\ exists d, parse_yaml ascii_tables (busy ++ body) = CVal d.
Proof. split; [split; intros H; cbn in H; intuition discriminate|eexists; vm_compute; reflexivity]. Qed.

(** Blank lines alone before "---" are rejected: with a comment line before them they are not. *)
Theorem C78_blank_refuted : exists ut s c d, one_line c /\ parse_yaml ut s = CErr /\ parse_yaml ut (lit "#" ++ c ++ [NL] ++ s) = CVal d.
Proof.
  exists ascii_tables, ([NL] ++ lit "---" ++ [NL] ++ body), (lit "c"). eexists.
  split; [split; intros H; cbn in H; intuition discriminate|]. split; vm_compute; reflexivity.
Qed.
Print Assumptions C78_blank_refuted.
