(** References are read as what they refer to (C70). *)
From Coq Require Import ZArith Lia.
From Verif Require Import Base Ast Ser De Attr Peg YamlGrammar Consume FromStr Spec_Serde Spec_Look Spec_Typed Spec_Attr Spec_Buffer Spec_Refs
  AttrExample RefsFacts3 RefsFacts4.
Import ListNotations.

(** What is read is what is read from the tree with the references replaced. *)
Theorem C70_sound : forall r r' t v, unique r -> unfolds (defines r) r r' ->
  from_yaml t r = Some v -> from_yaml t r' = Some v.
Proof. exact (fun r r' t v Un U => refs_sound r r' Un U t v). Qed.
Print Assumptions C70_sound.

(** If every reference is to a label of a collection around it, both read the same. *)
Theorem C70_complete : forall r r' t, unique r -> unfolds (defines r) r r' -> in_scope r ->
  from_yaml t r = from_yaml t r'.
Proof. exact (fun r r' t Un U Sc => refs_complete r r' Un U Sc t). Qed.
Print Assumptions C70_complete.

(** The same for types with attributes. *)
Theorem C70_sound_attributes : forall r r' fuel t v a, unique r -> unfolds (defines r) r r' ->
  read_yaml fuel t r = Done v a -> exists b, read_yaml fuel t r' = Done v b.
Proof. exact (fun r r' fuel t v a Un U => refs_sound_read r r' Un U fuel t v a). Qed.
Print Assumptions C70_sound_attributes.

Theorem C70_complete_attributes : forall r r' fuel t v, unique r -> unfolds (defines r) r r' -> in_scope r ->
  2 * depth r' <= fuel ->
  ((exists a, read_yaml fuel t r = Done v a) <-> (exists a, read_yaml fuel t r' = Done v a)).
Proof. exact (fun r r' fuel t v Un U Sc => refs_complete_read r r' Un U Sc fuel t v). Qed.
Print Assumptions C70_complete_attributes.

(** And for the untyped reader. *)
Theorem C70_sound_untyped : forall r r' fuel v a, unique r -> unfolds (defines r) r r' ->
  de_any fuel r [] = Done v a -> exists b, de_any fuel r' [] = Done v b.
Proof. exact (fun r r' fuel v a Un U => refs_sound_any r r' Un U fuel v a). Qed.
Print Assumptions C70_sound_untyped.

Theorem C70_complete_untyped : forall r r' fuel v, unique r -> unfolds (defines r) r r' -> in_scope r ->
  2 * depth r' <= fuel ->
  ((exists a, de_any fuel r [] = Done v a) <-> (exists a, de_any fuel r' [] = Done v a)).
Proof. exact (fun r r' fuel v Un U Sc => refs_complete_any r r' Un U Sc fuel v). Qed.
Print Assumptions C70_complete_untyped.

(** There is at most one replaced tree, it has no references and no labels, and there is
    one if every reference has a label and there is no cycle. *)
Theorem C70_one : forall r y z, unique r -> unfolds (defines r) r y -> unfolds (defines r) r z -> y = z.
Proof. exact (fun r y z Un H G => unfolds_one (defines r) Un r y H z G). Qed.
Print Assumptions C70_one.

Theorem C70_replaced : forall D y y', unfolds D y y' -> no_refs y' /\ forall n x, ~ defines y' n x.
Proof. exact unfolds_no_refs. Qed.
Print Assumptions C70_replaced.

Theorem C70_exists : forall r, defined r -> acyclic r -> exists r', unfolds (defines r) r r'.
Proof. exact unfolds_exists. Qed.
Print Assumptions C70_exists.

(** If every reference comes after the value it refers to, wherever that is, the untyped
    reader succeeds, with what the replaced tree holds. *)
Theorem C70_earlier : forall r, unique r -> no_chains r -> backward_refs r ->
  exists r', unfolds (defines r) r r' /\
    forall fuel, 2 * depth r' <= fuel -> exists v a b, de_any fuel r [] = Done v a /\ de_any fuel r' [] = Done v b.
Proof. exact refs_earlier. Qed.
Print Assumptions C70_earlier.

(** With C55 and C63: exactly the meaning of the replaced tree. *)
Theorem C70_meaning : forall r r' t v, unique r -> unfolds (defines r) r r' -> in_scope r -> distinct t ->
  (from_yaml t r = Some v <-> means t (seen r') v).
Proof. exact (fun r r' t v Un U Sc => refs_means r r' Un U Sc t v). Qed.
Print Assumptions C70_meaning.

Theorem C70_meaning_attributes : forall r r' fuel t v, unique r -> unfolds (defines r) r r' -> in_scope r ->
  plain_type t -> 2 * depth r' <= fuel ->
  ((exists a, read_yaml fuel t r = Done v a) <-> xmeans t (look any_word r') v).
Proof. exact (fun r r' fuel t v Un U Sc => refs_xmeans r r' Un U Sc fuel t v). Qed.
Print Assumptions C70_meaning_attributes.

Theorem C70_file : forall ut t s d cs y rest y', parse_yaml ut s = CVal d -> items d = map DComment cs ++ DYaml y :: rest ->
  unique y -> in_scope y -> unfolds (defines y) y y' -> distinct t ->
  forall v, from_yaml_str ut t s = CVal v <-> means t (seen y') v.
Proof. exact refs_file. Qed.
Print Assumptions C70_file.

(** A label on a collection, used twice: once before it, once inside an inline sequence. *)
Definition target : yaml := Hash [HElem (mkHE (lit "host") (mkA None (Unquoted (lit "h")))); HElem (mkHE (lit "port") (mkA None (Unquoted (lit "80"))))].
Definition other : yaml := InlineHash [(lit "host", Unquoted (lit "i")); (lit "port", Unquoted (lit "81"))].
Definition with_refs : yaml :=
  Hash [HElem (mkHE (lit "main") (mkA None (Anchor (lit "b"))));
        HElem (mkHE (lit "base") (mkA (Some (lit "b")) target));
        HElem (mkHE (lit "all") (mkA None (InlineArray [Anchor (lit "b"); other])))].
Definition without_refs : yaml :=
  Hash [HElem (mkHE (lit "main") (mkA None target));
        HElem (mkHE (lit "base") (mkA None target));
        HElem (mkHE (lit "all") (mkA None (InlineArray [target; other])))].
Definition endpoint : ty := TStruct [(lit "host", TStr); (lit "port", TInt U16)].
Definition endpoints : ty := TStruct [(lit "main", endpoint); (lit "all", TSeq endpoint)].
Definition text_refs : str :=
  lit "---" ++ [NL] ++ lit "main: *b" ++ [NL] ++ lit "base: &b" ++ [NL] ++ lit "  host: h" ++ [NL] ++ lit "  port: 80" ++ [NL] ++
  lit "all: [*b, {host: i, port: 81}]" ++ [NL].

Ltac unf := repeat first [apply UScalar; reflexivity|apply UHash|apply UHElem|apply UHNil|apply UInlineArray|apply ULElem|apply ULNil|apply UInlineHash|apply UIElem|apply UINil].
Ltac kids C := repeat (destruct C as [<-|C]; [|]); try destruct C.
Lemma with_refs_def n y : defines with_refs n y -> n = lit "b" /\ y = target.
Proof. intros H. apply defs_in in H. destruct H as [H|[]]. now injection H as <- <-. Qed.
Lemma with_refs_b : defines with_refs (lit "b") target.
Proof. apply (DHere with_refs (mkA (Some (lit "b")) target)); [right; now left|reflexivity]. Qed.
Lemma target_self D : unfolds D target target.
Proof. unfold target. unf. Qed.
Lemma target_scoped N : scoped N target.
Proof. constructor 2; [reflexivity|]. intros e C. cbn in C. kids C; (constructor 2; [reflexivity|]; intros e []). Qed.

Example C70_example :
  unique with_refs /\ unfolds (defines with_refs) with_refs without_refs /\ in_scope with_refs /\
  defined with_refs /\ acyclic with_refs /\
  from_yaml endpoints with_refs =
    Some (let e := SStruct [(lit "host", SStr (lit "h")); (lit "port", SInt U16 80)] in
          SStruct [(lit "main", e); (lit "all", SSeq [e; SStruct [(lit "host", SStr (lit "i")); (lit "port", SInt U16 81)]])]) /\
  from_yaml endpoints without_refs = from_yaml endpoints with_refs.
Proof.
  split; [|split; [|split; [|split; [|split; [|split; vm_compute; reflexivity]]]]].
  - intros n y z H G. apply with_refs_def in H, G. destruct H as [_ ->], G as [_ ->]. reflexivity.
  - assert (R : unfolds (defines with_refs) (Anchor (lit "b")) target)
      by exact (URef _ _ _ _ with_refs_b eq_refl (target_self _)).
    unfold with_refs, without_refs, other. unf; try exact R; apply target_self.
  - constructor 2; [reflexivity|]. intros e C. cbn in C. kids C.
    + constructor. right. exists (mkA (Some (lit "b")) target). split; [right; now left|reflexivity].
    + apply target_scoped.
    + constructor 2; [reflexivity|]. intros e C. cbn in C. kids C; [|constructor 2; [reflexivity|]; intros e C; cbn in C; kids C; (constructor 2; [reflexivity|]; intros e [])].
      constructor. left. right. exists (mkA (Some (lit "b")) target). split; [right; now left|reflexivity].
  - intros n H. exists target. split; [|reflexivity].
    assert (n = lit "b") as ->; [|exact with_refs_b].
    apply refs_in in H. cbn in H. destruct H as [<-|[<-|[]]]; reflexivity.
  - exists (fun _ => 0). intros n y m H F. apply with_refs_def in H. destruct H as [_ ->].
    apply refs_in in F. destruct F.
Qed.
Example C70_file_example : forall ut, parse_yaml ut text_refs = CVal (mkDoc [] [DYaml with_refs]).
Proof. intros ut. vm_compute. reflexivity. Qed.

(** A label deep inside an earlier entry. *)
Definition nested_label : yaml :=
  Hash [HElem (mkHE (lit "a") (mkA None (Array [AElem (mkA (Some (lit "x")) (Unquoted (lit "1")))])));
        HElem (mkHE (lit "b") (mkA (Some (lit "y")) (InlineArray [Anchor (lit "x")])));
        HElem (mkHE (lit "c") (mkA None (Anchor (lit "y"))))].
Example C70_earlier_example : unique nested_label /\ no_chains nested_label /\ backward_refs nested_label /\
  exists a, de_any 9 nested_label [] =
    Done (AnMap [(AnStr (lit "a"), AnSeq [AnI64 1]); (AnStr (lit "b"), AnSeq [AnI64 1]); (AnStr (lit "c"), AnSeq [AnI64 1])]) a.
Proof.
  assert (G : forall n y, defines nested_label n y -> (n = lit "x" /\ y = Unquoted (lit "1")) \/ (n = lit "y" /\ y = InlineArray [Anchor (lit "x")])).
  { intros n y H. apply defs_in in H. destruct H as [H|[H|[]]]; injection H as <- <-; [left|right]; split; reflexivity. }
  split; [|split; [|split]].
  - intros n y z H K. apply G in H, K. destruct H as [[-> ->]|[-> ->]], K as [[E ->]|[E ->]]; try discriminate; reflexivity.
  - intros n y H. apply G in H. destruct H as [[_ ->]|[_ ->]]; reflexivity.
  - eexists. constructor 2; [reflexivity|]. cbn [nested_label children flat_map app he_value].
    eapply BCons; [|eapply BCons; [|eapply BCons; [|apply BNil]]]; cbn [a_value a_alias].
    + apply BNode; [reflexivity|]. cbn [children flat_map app]. eapply BCons; [|apply BNil]. apply BNode; [reflexivity|apply BNil].
    + apply BNode; [reflexivity|]. cbn [children map]. eapply BCons; [|apply BNil]. apply BRef. left. now right.
    + apply BRef. now right.
  - eexists. vm_compute. reflexivity.
Qed.

(** A definition inside a value that the type ignores is not seen. *)
Theorem C70_ignored_refuted : exists t r r' v, unique r /\ unfolds (defines r) r r' /\
  from_yaml t r' = Some v /\ from_yaml t r = None.
Proof.
  exists (TStruct [(lit "b", TInt U8)]),
    (Hash [HElem (mkHE (lit "a") (mkA None (Hash [HElem (mkHE (lit "c") (mkA (Some (lit "x")) (Unquoted (lit "1"))))])));
           HElem (mkHE (lit "b") (mkA None (Anchor (lit "x"))))]),
    (Hash [HElem (mkHE (lit "a") (mkA None (Hash [HElem (mkHE (lit "c") (mkA None (Unquoted (lit "1"))))])));
           HElem (mkHE (lit "b") (mkA None (Unquoted (lit "1"))))]),
    (SStruct [(lit "b", SInt U8 1)]).
  set (r := Hash _). split; [|split; [|split; vm_compute; reflexivity]].
  - assert (G : forall n y, defines r n y -> y = Unquoted (lit "1")).
    { intros n y H. apply defs_in in H. destruct H as [H|[]]. now injection H as <- <-. }
    intros n y z H K. now rewrite (G n y H), (G n z K).
  - unfold r at 2. unf. apply (URef _ _ (Unquoted (lit "1"))); [|reflexivity|now constructor].
    apply (DDeep r (mkA None (Hash [HElem (mkHE (lit "c") (mkA (Some (lit "x")) (Unquoted (lit "1"))))]))); [now left|].
    apply (DHere _ (mkA (Some (lit "x")) (Unquoted (lit "1")))); [now left|reflexivity].
Qed.
Print Assumptions C70_ignored_refuted.

(** Of two labels of a collection the last one counts, also for a reference between them. *)
Theorem C70_redefined_refuted : exists l n x z, x <> z /\
  from_yaml (TSeq (TInt U8)) (Array (map AElem l)) = Some (SSeq [SInt U8 1; SInt U8 2; SInt U8 2]) /\
  l = [mkA (Some n) x; mkA None (Anchor n); mkA (Some n) z] /\
  from_yaml (TInt U8) x = Some (SInt U8 1) /\ from_yaml (TInt U8) z = Some (SInt U8 2).
Proof.
  exists [mkA (Some (lit "x")) (Unquoted (lit "1")); mkA None (Anchor (lit "x")); mkA (Some (lit "x")) (Unquoted (lit "2"))],
    (lit "x"), (Unquoted (lit "1")), (Unquoted (lit "2")).
  split; [discriminate|]. repeat split; vm_compute; reflexivity.
Qed.
Print Assumptions C70_redefined_refuted.

(** A reference to a reference is read without a type, but not with one. *)
Theorem C70_chain_refuted : exists y v a, de_any 9 y [] = Done (AnSeq [v; v; v]) a /\ from_yaml (TSeq (TInt U8)) y = None /\
  y = Array [AElem (mkA (Some (lit "p")) (Unquoted (lit "1"))); AElem (mkA (Some (lit "q")) (Anchor (lit "p")));
             AElem (mkA None (Anchor (lit "q")))].
Proof. eexists _, _, _. repeat split. - vm_compute. reflexivity. - vm_compute. reflexivity. Qed.
Print Assumptions C70_chain_refuted.
