(** Specification vocabulary: what a build without overflow checks reads differently. *)
From Verif Require Import Base Peg YamlGrammar Spec_Path Spec_Panic.
Import ListNotations.

(** A block scalar with the indentation indicator 0 none of whose lines has text.  (In the
    release build the width to cut is 2^64 - 1 bytes; no string of a real program is that
    long, but lists have no bound.) *)
Definition spared (m : node yrule) : Prop :=
  exists i c, child y_ml_indent m i /\ child y_ml_content m c /\ is_dec (text i) /\ dec_value (text i) = 0%N /\
    forall b, content_line c b -> b = [] \/ cuttable (2 ^ 64 - 1) b.
