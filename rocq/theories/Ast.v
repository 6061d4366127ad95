(** Data types of the document tree. *)
From Verif Require Import Base.
Import ListNotations.

(** [SingleQuotedStringPart] and [SingleQuotedStringEscapedChar]:
    /repo/src/yaml/string.rs 119-130.  The escape enum has one value, so it is
    folded into the constructor [SQ_Quote]. *)
Inductive sq_part : Type :=
| SQ_Str (s : str)
| SQ_Quote
| SQ_Blank (n : nat)
| SQ_RemNl.

(** [DoubleQuotedStringEscapedChar]: /repo/src/yaml/string.rs 165-173. *)
Inductive dq_esc : Type :=
| E_Quote | E_Backslash | E_Tab | E_CR | E_Newline | E_RealNewline.

(** [DoubleQuotedStringPart]: /repo/src/yaml/string.rs 157-163. *)
Inductive dq_part : Type :=
| DQ_Str (s : str)
| DQ_Esc (e : dq_esc)
| DQ_Blank (n : nat)
| DQ_RemNl.

(** [BlockChomping]: /repo/src/yaml/mod.rs 743-748. *)
Inductive chomp : Type := Clip | Strip | Keep.

(** [AliasedYaml]: /repo/src/yaml/aliased.rs 10-14 (parametric in the node type so
    that the tree is one nested inductive). *)
Record aliased_ (Y : Type) : Type := mkA { a_alias : option str; a_value : Y }.
Arguments mkA {Y}. Arguments a_alias {Y}. Arguments a_value {Y}.

(** [HashElement]: /repo/src/yaml/hash_element.rs 7-11. *)
Record hash_element_ (Y : Type) : Type := mkHE { he_key : str; he_value : aliased_ Y }.
Arguments mkHE {Y}. Arguments he_key {Y}. Arguments he_value {Y}.

(** [HashData]: /repo/src/yaml/hash_data.rs 7-12. *)
Inductive hashdata_ (Y : Type) : Type :=
| HInlineC (c : str)
| HComment (c : str)
| HElem (e : hash_element_ Y).
Arguments HInlineC {Y}. Arguments HComment {Y}. Arguments HElem {Y}.

(** [ArrayData]: /repo/src/yaml/array_data.rs 8-13. *)
Inductive arraydata_ (Y : Type) : Type :=
| AInlineC (c : str)
| AComment (c : str)
| AElem (a : aliased_ Y).
Arguments AInlineC {Y}. Arguments AComment {Y}. Arguments AElem {Y}.

(** [Yaml]: /repo/src/yaml/mod.rs 43-55. *)
Inductive yaml : Type :=
| InlineHash (l : list (str * yaml))
| Hash (l : list (hashdata_ yaml))
| InlineArray (l : list yaml)
| Array (l : list (arraydata_ yaml))
| SingleQ (ps : list sq_part)
| DoubleQ (ps : list dq_part)
| Unquoted (s : str)
| Folded (ls : list str) (c : chomp)
| Literal (ls : list str) (c : chomp)
| Anchor (s : str).

Notation aliased := (aliased_ yaml).
Notation hash_element := (hash_element_ yaml).
Notation hashdata := (hashdata_ yaml).
Notation arraydata := (arraydata_ yaml).

(** [DocumentData], [Document]: /repo/src/yaml/document.rs 7-11, 44-48. *)
Inductive docdata : Type :=
| DComment (c : str)
| DYaml (y : yaml).

Record document : Type := mkDoc { leading : list str; items : list docdata }.

(** ---- induction principle ---- *)

Definition hd_P (P : yaml -> Prop) (d : hashdata) : Prop :=
  match d with HElem e => P (a_value (he_value e)) | _ => True end.
Definition ad_P (P : yaml -> Prop) (d : arraydata) : Prop :=
  match d with AElem a => P (a_value a) | _ => True end.

Section YamlInd.
  Context (P : yaml -> Prop)
  (fIH : forall l, Forall (fun kv => P (snd kv)) l -> P (InlineHash l))
  (fH : forall l, Forall (hd_P P) l -> P (Hash l))
  (fIA : forall l, Forall P l -> P (InlineArray l))
  (fA : forall l, Forall (ad_P P) l -> P (Array l))
  (fSQ : forall ps, P (SingleQ ps))
  (fDQ : forall ps, P (DoubleQ ps))
  (fU : forall s, P (Unquoted s))
  (fF : forall ls c, P (Folded ls c))
  (fL : forall ls c, P (Literal ls c))
  (fAn : forall s, P (Anchor s)).

  Fixpoint yaml_ind' (y : yaml) : P y.
  Proof.
    destruct y as [l|l|l|l|ps|ps|s|ls c|ls c|s].
    - apply fIH. induction l as [|[k v] l IH]; constructor; [apply yaml_ind'|exact IH].
    - apply fH. induction l as [|[c|c|[k [al v]]] l IH]; constructor; try exact IH; try exact I.
      apply yaml_ind'.
    - apply fIA. induction l as [|v l IH]; constructor; [apply yaml_ind'|exact IH].
    - apply fA. induction l as [|[c|c|[al v]] l IH]; constructor; try exact IH; try exact I.
      apply yaml_ind'.
    - apply fSQ.
    - apply fDQ.
    - apply fU.
    - apply fF.
    - apply fL.
    - apply fAn.
  Qed.
End YamlInd.

(** A scalar node: everything that is not a collection. *)
Definition is_scalar (y : yaml) : bool :=
  match y with
  | InlineHash _ | Hash _ | InlineArray _ | Array _ => false
  | _ => true
  end.
