(** Property theorems C65 (what the serializer writes, exactly). *)
From Coq Require Import ZArith.
From Verif Require Import Base Ast Ser Spec_Serde Spec_Typed Spec_Ser ExactSerFacts.
Import ListNotations.

(** C65: a value is serialized to the node it is written as, and to no other. *)
Theorem C65_written : forall v y, ser v = Some y <-> writes v y.
Proof. exact (fun v y => ser_iff v y). Qed.
Print Assumptions C65_written.

(** Every style of scalar; the empty text and numbers in text are quoted. *)
Example C65_example :
  let v := SStruct [(lit "a", SSeq [SStr (lit "x y"); SStr []; SStr (lit "-1"); SStr (lit "it's, \ "); SStr (lit "'"""); SStr (lit "p" ++ [NL] ++ lit """")]);
                    (lit "b", SMap [(SInt I8 (-5), STuple [SNone; SSome (SBool true)]); (SStr (lit "k, 'l'"), SUnit)]);
                    (lit "c", SStructV (lit "V") [(lit "d", SBytes [0%N; 255%N])])] in
  let y := Hash [HElem (mkHE (lit "a") (mkA None (Array
                   [AElem (mkA None (Unquoted (lit "x y"))); AElem (mkA None (SingleQ [])); AElem (mkA None (SingleQ [SQ_Str (lit "-1")]));
                    AElem (mkA None (DoubleQ [DQ_Str (lit "it's, "); DQ_Esc E_Backslash; DQ_Str (lit " ")]));
                    AElem (mkA None (SingleQ [SQ_Quote; SQ_Str (lit """")]));
                    AElem (mkA None (DoubleQ [DQ_Str (lit "p"); DQ_Esc E_Newline; DQ_Esc E_Quote]))])));
                 HElem (mkHE (lit "b") (mkA None (Hash
                   [HElem (mkHE (lit "-5") (mkA None (InlineArray [Unquoted (lit "~"); Unquoted (lit "true")])));
                    HElem (mkHE (lit "k, 'l'") (mkA None (Unquoted (lit "~"))))])));
                 HElem (mkHE (lit "c") (mkA None (Hash [HElem (mkHE (lit "d") (mkA None (Array
                   [AElem (mkA None (Unquoted (lit "0"))); AElem (mkA None (Unquoted (lit "255")))])))])))] in
  ser v = Some y /\ writes v y /\ plain_text (lit "x y") /\ single_quoted (lit "-1") /\ ~ plain_text [].
Proof.
  intros v y. assert (E : ser v = Some y) by (vm_compute; reflexivity). split; [exact E|]. split; [now apply C65_written|].
  split; [|split].
  - assert (W : writes (SStr (lit "x y")) (Unquoted (lit "x y"))) by (apply C65_written; vm_compute; reflexivity).
    destruct W as [[W _]|[[_ (ps & W & _)]|[(_ & _ & _ & ps & W & _)|[_ (ps & W & _)]]]]; [exact W|discriminate..].
  - assert (W : writes (SStr (lit "-1")) (SingleQ [SQ_Str (lit "-1")])) by (apply C65_written; vm_compute; reflexivity).
    destruct W as [[_ W]|[[W _]|[(_ & _ & _ & ps & W & _)|[_ (ps & W & _)]]]]; [discriminate|exact W|discriminate..].
  - intros [N _]. now apply N.
Qed.

(** Serialization fails exactly if some map key is a collection or text that is written in
    single quotes. *)
Theorem C65_fails : forall v, ser v = None <-> has_bad_key v.
Proof. exact ser_none. Qed.
Print Assumptions C65_fails.

Example C65_fails_example :
  has_bad_key (SSeq [SUnit; SMap [(SStr (lit "a"), SUnit); (SSome (SStr (lit "a: b")), SUnit)]]) /\
  has_bad_key (SMap [(STuple [SInt U8 1], SUnit)]) /\ ~ has_bad_key (SStruct [(lit "a: b", SUnit)]) /\
  ~ has_bad_key (SMap [(SStr (lit "it's: b"), SUnit)]).
Proof.
  rewrite <- !C65_fails. repeat split; vm_compute; try reflexivity; discriminate.
Qed.

(** Text that is accepted as the name of a struct field need not be accepted as a map key:
    the words for bools and numbers are not. *)
Theorem C65_text_key_refuted : exists k v y, ser (SStruct [(k, v)]) = Some y /\ k = lit "true" /\
  writes (SStruct [(k, v)]) y /\ forall z, ~ writes (SMap [(SStr k, v)]) z.
Proof.
  exists (lit "true"), SUnit, (Hash [HElem (mkHE (lit "true") (mkA None (Unquoted (lit "~"))))]).
  split; [vm_compute; reflexivity|]. split; [reflexivity|]. split; [apply C65_written; vm_compute; reflexivity|].
  intros z W. apply C65_written in W. vm_compute in W. discriminate.
Qed.
Print Assumptions C65_text_key_refuted.
