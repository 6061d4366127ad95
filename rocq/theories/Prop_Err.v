(** C73: which error the typed reader returns. *)
From Coq Require Import ZArith.
From Verif Require Import Base Ast Num Ser De DeErr Spec_Serde Spec_Look Spec_Typed Spec_Refs Spec_Reads Spec_Err ErrFacts ErrFacts5 ErrFacts7.
Import ListNotations.

(** The model with errors reads what the model without reads. *)
Theorem C73_same : forall t y a v b, de_e t y a = inl (v, b) <-> de t y a = Some (v, b).
Proof. exact (fun t y a v b => de_ok t y a (v, b)). Qed.
Print Assumptions C73_same.

(** The error is the complaint about the first wrong node, in the order of reading. *)
Theorem C73_first : forall t y e, distinct t -> (from_yaml_e t y = inr e <-> first_complaint t y [] e).
Proof. exact (fun t y e D => iff_trans (from_err t y e) (complaint_iff t y [] e D)). Qed.
Print Assumptions C73_first.

(** So a node has a first complaint exactly when nothing is read, and only one. *)
Theorem C73_one : forall t y, distinct t ->
  ((from_yaml t y = None <-> exists e, first_complaint t y [] e) /\
   forall e f, first_complaint t y [] e -> first_complaint t y [] f -> e = f).
Proof. exact complaint_one. Qed.
Print Assumptions C73_one.

(** An undefined anchor is reported only for a reference in the document, and never if
    every reference is to a label of a collection around it. *)
Theorem C73_undefined : forall t y n, distinct t -> from_yaml_e t y = inr (Own (EUndefined n)) -> refers y n.
Proof. exact undefined_refers. Qed.
Print Assumptions C73_undefined.
Theorem C73_in_scope : forall t y n, distinct t -> in_scope y -> from_yaml_e t y <> inr (Own (EUndefined n)).
Proof. exact in_scope_defined. Qed.
Print Assumptions C73_in_scope.

(** One of the messages (deserializer.rs 386) is never used. *)
Theorem C73_unused : forall t y, distinct t -> from_yaml_e t y <> inr (Own EVariantName).
Proof. exact variant_name_unused. Qed.
Print Assumptions C73_unused.

(** Different errors of the crate have different messages, if the [Debug] forms of
    different strings differ. *)
Theorem C73_messages : forall debug, (forall s s', debug s = debug s' -> s = s') ->
  forall e e', own_text debug e = own_text debug e' -> e = e'.
Proof. exact own_text_inj. Qed.
Print Assumptions C73_messages.
(** And each message says what was expected of the node, or names the label. *)
Theorem C73_says : forall debug t y a e, complaint all_read t y a (Own e) -> says debug t y a (own_text debug e).
Proof. exact complaint_says. Qed.
Print Assumptions C73_says.
Example C73_says_ex : complaint all_read (TInt U8) (Array []) [] (Own EUnsigned) /\
  own_text (fun s => s) EUnsigned = lit "expected unsigned integer".
Proof.
  split; [|reflexivity]. apply (CUnsigned U8 (Array []) (Array []) []); [now left|exact I|now left].
Qed.
Example C73_messages_ex : own_text (fun s => s) EBool <> own_text (fun s => s) (EBoolGot []).
Proof. intro H. apply C73_messages in H; [discriminate H|trivial]. Qed.

(** A struct whose second field is wrong in two ways, both of which come after an unknown
    field and an element that is read. *)
Definition server : ty := TStruct [(lit "name", TStr); (lit "ports", TSeq (TInt U8)); (lit "mode", TEnum [(lit "on", VaUnit); (lit "at", VaNew TBool)])].
Definition entry (k : str) (al : option str) (y : yaml) : hashdata := HElem (mkHE k (mkA al y)).
Definition wrong_port : yaml := Hash
  [entry (lit "other") None (Anchor (lit "nowhere"));
   entry (lit "ports") None (Array [AElem (mkA None (Unquoted (lit "7"))); AElem (mkA (Some (lit "p")) (Unquoted (lit "300"))); AElem (mkA None (Unquoted (lit "x")))]);
   entry (lit "mode") None (InlineHash [(lit "at", Unquoted (lit "5"))])].
Example C73_range_ex : distinct server /\ first_complaint server wrong_port [] (Foreign (FRange U8 300)) /\ from_yaml_e server wrong_port = inr (Foreign (FRange U8 300)).
Proof.
  assert (D : distinct server).
  { cbn [distinct server]. repeat split; try exact I; repeat constructor; cbn; intuition discriminate. }
  assert (R : from_yaml_e server wrong_port = inr (Foreign (FRange U8 300))) by (vm_compute; reflexivity).
  split; [exact D|]. split; [|exact R]. now apply C73_first.
Qed.
Example C73_texts :
  from_yaml_e server (Hash [entry (lit "name") None (Unquoted (lit "a")); entry (lit "mode") None (InlineHash [(lit "at", Unquoted (lit "maybe"))])])
    = inr (Own (EBoolGot (lit "maybe"))) /\
  from_yaml_e server (Hash [entry (lit "ports") None (Array []); entry (lit "mode") None (Unquoted (lit "on"))]) = inr (Foreign (FMissing (lit "name"))) /\
  from_yaml_e server (Hash [entry (lit "name") None (Anchor (lit "n"))]) = inr (Own (EUndefined (lit "n"))) /\
  own_text (fun s => s) (EUndefined (lit "n")) = lit "undefined anchor: n".
Proof. vm_compute. repeat split; reflexivity. Qed.
Example C73_undefined_ex : refers (Hash [entry (lit "name") None (Anchor (lit "n"))]) (lit "n").
Proof.
  apply (C73_undefined server); [|vm_compute; reflexivity].
  cbn [distinct server]. repeat split; try exact I; repeat constructor; cbn; intuition discriminate.
Qed.
Definition labelled : yaml := Hash [entry (lit "name") (Some (lit "p")) (Unquoted (lit "a")); entry (lit "ports") None (Array [AElem (mkA None (Anchor (lit "p")))])].
Example C73_in_scope_ex : in_scope labelled /\ from_yaml_e server labelled = inr (Foreign (FNotInteger (lit "a"))).
Proof.
  split; [|vm_compute; reflexivity]. apply ScNode; [reflexivity|]. intros e [<-|[<-|[]]].
  - apply ScNode; [reflexivity|]. intros e [].
  - apply ScNode; [reflexivity|]. intros e [<-|[]]. apply ScRef. left. right. eexists. split; [left; reflexivity|reflexivity].
Qed.
