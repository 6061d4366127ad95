(** Specification vocabulary: what folding long text may change. *)
From Verif Require Import Base Ast Spec_Pretty.
Import ListNotations.

(** The text without spaces and line breaks. *)
Definition visible (s : str) : str := filter (fun c => negb (ceqb c SP || ceqb c NL)) s.
Fixpoint visible_data (d : data) : data :=
  match d with
  | DMap l => DMap (map (fun kv => match kv with (k, d) => (k, visible_data d) end) l)
  | DSeq l => DSeq (map visible_data l)
  | DStr s => DStr (visible s)
  | DRef n => DRef n
  end.

(** [w] is a word of [s]: a longest piece without spaces and line breaks. *)
Definition blank (c : char) : Prop := c = SP \/ c = NL.
Definition word_of (s w : str) : Prop :=
  (forall c, In c w -> ~ blank c) /\
  exists a b, s = a ++ w ++ b /\
    (a = [] \/ exists a' c, a = a' ++ [c] /\ blank c) /\ (b = [] \/ exists c b', b = c :: b' /\ blank c).
