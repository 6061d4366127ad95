(** Specification vocabulary: the block scalars in a parse tree that cannot be converted. *)
From Verif Require Import Base Peg YamlGrammar Spec_Path.
Import ListNotations.

Definition kids (n : node yrule) : list (node yrule) := match n with Node _ _ ch => ch end.
Definition child (r : yrule) (n c : node yrule) : Prop := In c (kids n) /\ label c = r.
(** [m] is [n] or a node below it. *)
Inductive below (n : node yrule) : node yrule -> Prop :=
| below_here : below n n
| below_kid c m : In c (kids n) -> below c m -> below n m.

(** The indentation indicator [t] (the digits after [|] or [>]) asks to cut [w] bytes. *)
Definition indicator (t : str) (w : N) : Prop :=
  is_dec t /\ (1 <= dec_value t < 2 ^ 64)%N /\ w = (dec_value t - 1)%N.
(** The lines of a content node that may have text, without the indentation the grammar
    itself has consumed. *)
Definition content_line (c : node yrule) (b : str) : Prop :=
  (exists x, child y_block_string c x /\ text x = b) \/
  (exists p x, child y_ml_part c p /\ child y_block_string p x /\ text x = b).
(** The first line: empty, if line breaks come first (there are none, since the rule
    before takes them). *)
Definition first_line (c : node yrule) (b : str) : Prop :=
  exists e x rest, kids c = e :: x :: rest /\
    ((text e = [] /\ b = text x) \/ (text e <> [] /\ b = [])).
(** [w] bytes of white space at the start of the line [b]. *)
Definition margin (b : str) (w : N) : Prop :=
  exists u v, b = u ++ v /\ (forall c, In c u -> is_ws c = true) /\
    match v with [] => True | c :: _ => is_ws c = false end /\ w = N.of_nat (utf8_len u).
(** How many bytes are cut from each line. *)
Definition cut_width (t : str) (c : node yrule) (w : N) : Prop :=
  (t <> [] /\ indicator t w) \/ (t = [] /\ exists l, first_line c l /\ margin l w).
(** The first [w] bytes of [b] are whole characters. *)
Definition cuttable (w : N) (b : str) : Prop := exists u v, b = u ++ v /\ N.of_nat (utf8_len u) = w.

Definition bad_block (m : node yrule) : Prop :=
  (label m = y_ml_literal \/ label m = y_ml_folded) /\
  exists i c, child y_ml_indent m i /\ child y_ml_content m c /\
    ((text i <> [] /\ ~ exists w, indicator (text i) w) \/
     (exists w b, cut_width (text i) c w /\ content_line c b /\ b <> [] /\ ~ cuttable w b)).
