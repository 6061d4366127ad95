(** C85: what is serialized is read by YAML 1.2 readers as what was meant. *)
From Coq Require Import ZArith Lia.
From Verif Require Import Base Ast Num Format Ser Spec_Serde Spec_Look Spec_Typed Spec_Ser Spec_Yaml12 Spec_Portable PlainFacts Spec_Core CoreFacts
  ExactSerFacts Spec_Export ExportFacts.
Import ListNotations.

(** The text of the file, with a line feed after it, follows the grammar of YAML 1.2.2, and with
    the core schema the data in it is the value. *)
Theorem C85_read : forall v y, ser v = Some y -> exports v ->
  exists n x, yaml_file n (format_doc (mkDoc [] [DYaml y]) ++ [NL]) /\ resolved n x /\ intends v x.
Proof. exact export_file. Qed.
Print Assumptions C85_read.

(** The data that YAML finds in a node is unique. *)
Theorem C85_one : forall n x z, resolved n x -> resolved n z -> x = z.
Proof. exact resolved_one. Qed.
Print Assumptions C85_one.

(** Which texts are fine, character by character. *)
Theorem C85_texts : forall s, text_exports s <->
  Forall (fun c => nb_json c \/ c = NL \/ c = CR) s /\
  (ser (SStr s) = Some (Unquoted s) -> ~ awkward s /\ ~ only_yaml s /\ ~ In s [lit "Null"; lit "NULL"]).
Proof. exact text_exports_iff. Qed.
Print Assumptions C85_texts.

(** Every text that is written with quotes is fine, if it has no control characters. *)
Theorem C85_quoted : forall s, Forall (fun c => nb_json c \/ c = NL \/ c = CR) s -> ser (SStr s) <> Some (Unquoted s) -> text_exports s.
Proof. exact quoted_exports. Qed.
Print Assumptions C85_quoted.

Definition order : sval :=
  SStruct
    [ (lit "customer", SStr (lit "Ann, Bob & co"))
    ; (lit "note", SStr (lit "two" ++ [NL] ++ lit "lines ""here"" \"))
    ; (lit "said", SStr (lit "it's 'fine', ok"))
    ; (lit "page", SStr (lit "http://x.org:80/a-b"))
    ; (lit "empty", SStr [])
    ; (lit "number text", SStr (lit "-12"))
    ; (lit "paid", SBool true)
    ; (lit "count", SInt I64 (-42))
    ; (lit "price", SFloat (lit "12.50"))
    ; (lit "voucher", SNone)
    ; (lit "address", SSome (SStruct [(lit "street", SStr (lit "#1 road")); (lit "tags", SSeq [])]))
    ; (lit "items", SSeq [STuple [SInt U8 1; SStr (lit "a, b"); STuple [SUnit; SStr (lit "c d")]]; SMap [(SInt I64 7, SBool false); (SStr (lit "k"), SUnit)]; SUnitV (lit "Done")])
    ; (lit "raw", SBytes [1; 255]%N)
    ].
Ltac fine_chars := repeat (apply Forall_cons; [first [left; apply nb_jsonb_spec; reflexivity|right; left; reflexivity|right; right; reflexivity]|]); apply Forall_nil.
Ltac quoted_t := apply C85_quoted; [fine_chars|discriminate].
Ltac word_t := apply word_is_text; reflexivity.
Ltac name_t := split; [split; [apply plainb_spec; reflexivity|split; [apply Nat.leb_le; reflexivity|intros ? ? ? [->| ->] [->| ->]; discriminate]]|word_t].
Ltac text_t := first [solve [quoted_t]|split; [fine_chars|intros _; split; [apply plainb_spec; reflexivity|word_t]]].
Ltac export_t :=
  match goal with
  | |- True => exact I
  | |- name_exports _ => name_t
  | |- text_exports _ => text_t
  | |- finite _ => idtac
  | |- forall _, _ => intros ? H; apply shortest_show in H; subst; apply Nat.leb_le; reflexivity
  | |- _ /\ _ => split; export_t
  end.
Example C85_example : exports order.
Proof.
  cbn [order exports flat fold_right key_exports]. export_t. split; [|intros [H|[H|[H|[]]]]; discriminate].
  do 3 right. exists [], (lit "12"), (lit ".50"). split; [reflexivity|]. split; [now left|].
  assert (D : forall s, s <> [] -> forallb is_digit s = true -> digits s).
  { intros s N H. split; [exact N|]. intros c I. rewrite forallb_forall in H. apply H in I. unfold is_digit in I. apply andb_true_iff in I as [I1 I2].
    apply N.leb_le in I1, I2. now split. }
  split; [apply D; [discriminate|reflexivity]|]. right. exists (lit "50"). split; [reflexivity|]. apply D; [discriminate|reflexivity].
Qed.
Example C85_example_read : exists y n x, ser order = Some y /\ yaml_file n (format_doc (mkDoc [] [DYaml y]) ++ [NL]) /\ resolved n x /\ intends order x.
Proof.
  assert (S : exists y, ser order = Some y) by (eexists; vm_compute; reflexivity).
  destruct S as (y & S). destruct (C85_read order y S C85_example) as (n & x & H). exists y, n, x. now split.
Qed.
Example C85_example_text : exists y n x, ser (SSome (SStr (lit "it's 5: #"))) = Some y /\ yaml_file n (format_doc (mkDoc [] [DYaml y]) ++ [NL]) /\
  resolved n x /\ intends (SStr (lit "it's 5: #")) x.
Proof.
  assert (S : exists y, ser (SSome (SStr (lit "it's 5: #"))) = Some y) by (eexists; vm_compute; reflexivity).
  destruct S as (y & S). assert (E : exports (SSome (SStr (lit "it's 5: #")))) by (cbn [exports]; export_t).
  destruct (C85_read _ y S E) as (n & x & H). exists y, n, x. now split.
Qed.
Example C85_texts_ex : awkward (lit "@home") /\ awkward (lit "- x") /\ awkward (lit "a:") /\ ~ awkward (lit "a:b -c").
Proof.
  split; [right; left; exists (chr "@"), (lit "home"); split; [reflexivity|cbn; intuition]|].
  split; [do 3 right; left; exists (chr "-"); split; [cbn; auto|]; right; exists SP, (lit "x"); split; [now left|reflexivity]|].
  split; [right; right; left; exists (chr ":"), (lit "a"); split; [reflexivity|cbn; auto]|].
  apply plain_iff; [apply plain_b; reflexivity|apply plainb_spec; reflexivity].
Qed.

(** Other texts are lost: YAML finds nothing in the place of this text. *)
Theorem C85_read_refuted : exists v y n x, ser v = Some y /\
  yaml_file n (format_doc (mkDoc [] [DYaml y]) ++ [NL]) /\ resolved n x /\ ~ intends v x.
Proof.
  exists (SStruct [(lit "name", SStr (lit "Null"))]), (Hash [HElem (mkHE (lit "name") (mkA None (Unquoted (lit "Null"))))]).
  exists (Node None (Mapping [(Node None (Scalar true (lit "name")), Node None (Scalar true (lit "Null")))])).
  exists (VDict [(VScalar (MText (lit "name")), VScalar MNull)]). split; [reflexivity|]. split.
  - apply (PortableFacts.doc_wrote _ (Hash [HElem (mkHE (lit "name") (mkA None (Unquoted (lit "Null"))))])). apply (PDoc [] [] _ []); [constructor..| |exact I]. apply PHash; [exact I| |].
    + apply MREntry; [|apply PLine; split; [apply plainb_spec; reflexivity|split; [exact I|reflexivity]]|apply MR0].
      split; [apply plainb_spec; reflexivity|split; [apply Nat.leb_le; reflexivity|intros ? ? ? [->| ->] [->| ->]; discriminate]].
    + eexists. now left.
  - split; [apply RMap, RPair; [apply RPlain; word_t|apply RPlain, KNull; cbn; auto|apply RNone]|].
    intros (es & E & A). injection E as <-. cbn in A. destruct A as [[_ A] _]. discriminate A.
Qed.
Print Assumptions C85_read_refuted.
