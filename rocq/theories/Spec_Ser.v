(** Specification vocabulary: the node a value is serialized to. *)
From Coq Require Import ZArith.
From Verif Require Import Base Ast Ser Spec_Serde Spec_Look Spec_Typed.
Import ListNotations.

(** The shortest decimal text of a number. *)
Definition shortest (z : Z) (s : str) : Prop :=
  exists ds, digits ds /\ (ds = lit "0" \/ ~ exists r, ds = chr "0" :: r) /\
    ((0 <= z)%Z /\ s = ds /\ z = Z.of_N (decimal_value ds) \/
     (z < 0)%Z /\ s = chr "-" :: ds /\ z = (- Z.of_N (decimal_value ds))%Z).

(** Text that is written without quotes. *)
Definition plain_text (s : str) : Prop :=
  s <> [] /\
  (forall r, s <> SP :: r) /\ (forall r, s <> r ++ [SP]) /\
  (forall r, s <> QUOTE :: r) /\
  (forall a b, s <> a ++ lit ": " ++ b) /\
  (forall c, In c (lit ",[]{}""#>|" ++ [NL; CR]) -> ~ In c s) /\
  (forall z, fits I64 z -> ~ decimal_text I64 s z) /\
  ~ float_literal s /\
  ~ In s [lit "true"; lit "false"; lit "null"; lit "~"].

Definition one_line (s : str) : Prop := ~ In NL s /\ ~ In CR s.
(** Text with a quote and without a double quote. *)
Definition apostrophes (s : str) : Prop := In QUOTE s /\ ~ In DQUOTE s.
(** Text that is written in single quotes. *)
Definition single_quoted (s : str) : Prop := ~ plain_text s /\ one_line s /\ ~ apostrophes s.

Section Pieces.
  Context {P : Type} (text : str -> P) (special : char -> option P).
  (** The special characters one by one, and the longest texts between them. *)
  Inductive pieces : str -> list P -> Prop :=
  | PcEnd : pieces [] []
  | PcText t : t <> [] -> (forall c, In c t -> special c = None) -> pieces t [text t]
  | PcFirst c p rest ps : special c = Some p -> pieces rest ps -> pieces (c :: rest) (p :: ps)
  | PcNext t c p rest ps : t <> [] -> (forall c, In c t -> special c = None) -> special c = Some p ->
      pieces rest ps -> pieces (t ++ c :: rest) (text t :: p :: ps).
End Pieces.

Fixpoint one_of_chars {P} (l : list (char * P)) (c : char) : option P :=
  match l with [] => None | (d, p) :: l' => if ceqb c d then Some p else one_of_chars l' c end.

(** The scalar for a text. *)
Definition text_node (s : str) (y : yaml) : Prop :=
  (plain_text s /\ y = Unquoted s) \/
  (single_quoted s /\ exists ps, y = SingleQ ps /\ pieces SQ_Str (one_of_chars [(QUOTE, SQ_Quote)]) s ps) \/
  (~ plain_text s /\ one_line s /\ apostrophes s /\
     exists ps, y = DoubleQ ps /\ pieces DQ_Str (one_of_chars [(BACKSLASH, DQ_Esc E_Backslash)]) s ps) \/
  (~ one_line s /\
     exists ps, y = DoubleQ ps /\
       pieces DQ_Str (one_of_chars [(NL, DQ_Esc E_Newline); (CR, DQ_Esc E_CR); (DQUOTE, DQ_Esc E_Quote);
                                    (BACKSLASH, DQ_Esc E_Backslash)]) s ps).

(** The mapping key for a value. *)
Fixpoint key_text (v : sval) (s : str) : Prop :=
  match v with
  | SBool b => s = lit (if b then "true" else "false")
  | SInt _ z => shortest z s
  | SFloat t => s = t
  | SChar c => s = [c] /\ ~ single_quoted [c]
  | SStr t | SUnitV t => s = t /\ ~ single_quoted t
  | SNone | SUnit | SUnitStruct => s = lit "~"
  | SSome v | SNewtype v | SNewV _ v => key_text v s
  | _ => False
  end.

(** The value [v] is written as the node [y]. *)
Fixpoint writes (v : sval) (y : yaml) {struct v} : Prop :=
  match v with
  | SBool b => y = Unquoted (lit (if b then "true" else "false"))
  | SInt _ z => exists s, y = Unquoted s /\ shortest z s
  | SFloat t => y = Unquoted t
  | SChar c => text_node [c] y
  | SStr s | SUnitV s => text_node s y
  | SBytes l =>
      exists es, y = Array es /\
        all2 (fun b e => exists s, e = AElem (mkA None (Unquoted s)) /\ shortest (Z.of_N b) s) l es
  | SNone | SUnit | SUnitStruct => y = Unquoted (lit "~")
  | SSome v | SNewtype v | SNewV _ v => writes v y
  | SSeq l => exists es, y = Array es /\ all2 (fun v e => exists z, e = AElem (mkA None z) /\ writes v z) l es
  | STuple l | STupV _ l => exists es, y = InlineArray es /\ all2 (fun v e => writes v e) l es
  | SMap l =>
      exists es, y = Hash es /\
        all2 (fun kv e => match kv with (k, v) =>
                exists s z, e = HElem (mkHE s (mkA None z)) /\ key_text k s /\ writes v z end) l es
  | SStruct l | SStructV _ l =>
      exists es, y = Hash es /\
        all2 (fun kv e => match kv with (k, v) => exists z, e = HElem (mkHE k (mkA None z)) /\ writes v z end) l es
  end.

(** A mapping key that is text in single quotes, or a collection. *)
Fixpoint bad_key (k : sval) : Prop :=
  match k with
  | SChar c => single_quoted [c]
  | SStr s | SUnitV s => single_quoted s
  | SSome k | SNewtype k | SNewV _ k => bad_key k
  | SBytes _ | SSeq _ | STuple _ | STupV _ _ | SMap _ | SStruct _ | SStructV _ _ => True
  | _ => False
  end.
(** Somewhere in the value a map has such a key. *)
Fixpoint has_bad_key (v : sval) : Prop :=
  match v with
  | SSome v | SNewtype v | SNewV _ v => has_bad_key v
  | SSeq l | STuple l | STupV _ l => any (fun v => has_bad_key v) l
  | SMap l => any (fun kv => match kv with (k, v) => bad_key k \/ has_bad_key v end) l
  | SStruct l | SStructV _ l => any (fun kv => match kv with (_, v) => has_bad_key v end) l
  | _ => False
  end.
