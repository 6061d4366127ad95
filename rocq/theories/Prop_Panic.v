(** C68: exactly which accepted texts make the parser panic. *)
From Verif Require Import Base Ast Peg PegFacts YamlGrammar Consume Spec_Panic PanicFacts.
Import ListNotations.

Theorem C68_panics : forall ut s, parse_yaml ut s = CPanic <->
  exists t n rest k m, runs (yaml_grammar ut) true (PRule y_yaml) s [] (Ok t [n] rest k) /\ below n m /\ bad_block m.
Proof. exact parse_panics. Qed.
Print Assumptions C68_panics.

(** So a text whose block scalars are all good is converted. *)
Theorem C68_converts : forall ut s t n rest k, runs (yaml_grammar ut) true (PRule y_yaml) s [] (Ok t [n] rest k) ->
  ((forall m, below n m -> ~ bad_block m) <-> exists d, parse_yaml ut s = CVal d).
Proof. exact parse_converts. Qed.
Print Assumptions C68_converts.

Definition some_tables : unitab := mkUni (fun _ => false) (fun c => (c =? 178)%N).
Definition doc_of (head body : str) : str := lit "---" ++ [NL] ++ lit "k: " ++ head ++ [NL] ++ body.

(** An indicator 0, one that is no decimal number (a superscript two), a line that is too
    short for the indicator, one with less white space than the first line, and a
    character that would be cut in two. *)
Example C68_panics_ex : forall s, In s
  [doc_of (lit "|0") (lit "  a"); doc_of (lit "|" ++ [178%N]) (lit "  a"); doc_of (lit ">-6") (lit "  abc"); doc_of (lit "|") (lit "    a" ++ [NL] ++ lit "  b");
   doc_of (lit "|3") (lit "  " ++ [233%N; 97%N; NL] ++ lit "  a" ++ [233%N])] ->
  exists t n rest k m, runs (yaml_grammar some_tables) true (PRule y_yaml) s [] (Ok t [n] rest k) /\ below n m /\ bad_block m.
Proof. intros s H. apply C68_panics. cbn [In] in H. repeat destruct H as [<-|H]; try contradiction; vm_compute; reflexivity. Qed.
(** Good block scalars: a longer margin later, empty lines, an indicator within the line. *)
Example C68_converts_ex : forall s, In s
  [doc_of (lit "|") (lit "  a" ++ [NL] ++ lit "    b"); doc_of (lit "|") ([NL] ++ lit "  a" ++ [NL; NL] ++ lit "   b"); doc_of (lit ">2") (lit "  abc")] ->
  exists d, parse_yaml some_tables s = CVal d.
Proof. intros s H. cbn [In] in H. repeat destruct H as [<-|H]; try contradiction; eexists; vm_compute; reflexivity. Qed.
