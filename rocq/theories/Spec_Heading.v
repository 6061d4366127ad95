(** Specification vocabulary for the part of a file before its collection. *)
From Verif Require Import Base Ast Peg YamlGrammar Spec_Parse Spec_Format Spec_Layout Spec_Flow.
Import ListNotations.

(** Neither a blank line nor a comment comes first. *)
Definition begins (X : str) : Prop :=
  forall z c r, X = z ++ c :: r -> seps z -> ~ In c [NL; CR; chr "#"].

(** The outcome for a file with the comments [cs0] before the line "---" and [cs] after it, when
    the rest of the file gives [o]. *)
Definition headed (cs0 cs : list str) (o : cres (list docdata)) : cres document :=
  match o with
  | CVal its => CVal (mkDoc cs0 (map DComment cs ++ its))
  | CErr => CErr
  | CPanic => CPanic
  end.
