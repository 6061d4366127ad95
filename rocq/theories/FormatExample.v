(** A document in canonical form that uses every kind of node. *)
From Verif Require Import Base Ast YamlGrammar Format Spec_Parse Spec_Format.
Import ListNotations.

Fixpoint colons_ok (s : str) : bool :=
  match s with
  | [] => true
  | c :: r => (if ceqb c (chr ":") then match r with d :: _ => negb (is_zs d) | [] => false end else true) && colons_ok r
  end%bool.
Lemma colons_ok_inside s : colons_ok s = true -> colons_inside s.
Proof.
  induction s as [|c s IH]; cbn [colons_ok]; intros H.
  - split; [intros [|] ; discriminate|]. intros c _ ([|] & v & E); discriminate.
  - apply andb_true_iff in H as [H1 H2]. destruct (IH H2) as [I1 I2]. split.
    + intros [|d r] E; cbn in E; inversion E; subst; [|now apply (I1 r)].
      rewrite ceqb_refl in H1. discriminate.
    + intros d Hd ([|x u] & v & E); cbn in E; inversion E; subst.
      * rewrite ceqb_refl, Hd in H1. discriminate.
      * apply (I2 d Hd). now exists u, v.
Qed.

Ltac not_in := let H := fresh in intro H; vm_compute in H; intuition discriminate.
Ltac line_ok := split; not_in.
Ltac lines_ok := repeat (apply Forall_cons; [line_ok|]); apply Forall_nil.
Ltac no_suffix :=
  let r := fresh in let E := fresh in
  intros r E; apply (f_equal (@rev _)) in E; rewrite rev_app_distr in E; vm_compute in E; discriminate.
Ltac name_ok := first [left; reflexivity | right; left; reflexivity | right; right; reflexivity].
Ltac key_ok :=
  split; [do 2 eexists; split; [reflexivity|name_ok]|split; [|no_suffix]];
  let c := fresh in let H := fresh in
  intros c H; vm_compute in H;
  repeat (destruct H as [<-|H]; [first [left; name_ok|right; left; reflexivity|right; right; reflexivity]|]);
  destruct H.
Ltac alias_ok_t :=
  split; [discriminate|];
  let c := fresh in let H := fresh in
  intros c H; vm_compute in H; repeat (destruct H as [<-|H]; [name_ok|]); destruct H.
Ltac text_ok :=
  split; [do 2 eexists; split; [reflexivity|split; [reflexivity|not_in]]|];
  split; [line_ok|]; split; [not_in|]; split; [no_suffix|];
  split; [apply colons_ok_inside; reflexivity|];
  split; [discriminate|];
  let a := fresh in let b := fresh in let r := fresh in let E := fresh in
  intros a b r E; vm_compute in E;
  first [discriminate E|inversion E; subst; split; [intros [[?|?] ?]; discriminate|intros [? ?]; discriminate]].
Ltac itext_ok :=
  split; [do 2 eexists; split; [reflexivity|split; discriminate]|];
  split; [line_ok|]; split; [no_suffix|];
  split; [let c := fresh in let H := fresh in let I := fresh in
          intros c H I; vm_compute in H; vm_compute in I; intuition (subst; discriminate)|];
  split; [no_suffix|]; split;
  [apply colons_ok_inside; reflexivity|intros ? ? ?; discriminate].

Notation scalar k s := (HElem (mkHE (lit k) (mkA None (Unquoted (lit s))))).

Definition big_hash : list hashdata :=
  [ HElem (mkHE (lit "title") (mkA None (Unquoted (lit "see http://x.org:80, -really"))))
  ; HInlineC (lit " inline")
  ; HComment (lit " a comment")
  ; HElem (mkHE (lit "text") (mkA (Some (lit "t1")) (Literal [lit "one"; lit "  two"; []; lit "# three"] Keep)))
  ; HElem (mkHE (lit "folded key") (mkA None (Folded [lit " one"; lit "two"] Strip)))
  ; HElem (mkHE (lit "map") (mkA None (Hash
      [ HComment (lit "first")
      ; scalar "a" "1"
      ; HElem (mkHE (lit "b") (mkA (Some (lit "here")) (Hash [scalar "c" "2"; scalar "d" "3"]))) ])))
  ; HElem (mkHE (lit "list") (mkA None (Array
      [ AComment (lit "start")
      ; AElem (mkA None (Hash [scalar "x" "1"; HElem (mkHE (lit "y") (mkA None
            (Array [AElem (mkA None (Unquoted (lit "deep"))); AElem (mkA None (Anchor (lit "here")))])))]))
      ; AElem (mkA None (Array [AElem (mkA None (SingleQ [SQ_Str (lit "it"); SQ_Quote; SQ_Str (lit "s")]))
                               ; AElem (mkA None (DoubleQ [DQ_Str (lit "tab"); DQ_Esc E_Tab])); AInlineC (lit "c")]))
      ; AElem (mkA None (InlineHash [(lit "p", InlineArray [Unquoted (lit "q"); Unquoted (lit "*")]); (lit "r", InlineHash [])]))
      ; AElem (mkA (Some (lit "z")) (Array [AElem (mkA None (Unquoted (lit "m"))); AElem (mkA None (Unquoted (lit "n")))]))
      ])))
  ].

Definition big_doc : document :=
  mkDoc [lit " before"] (map DComment [lit " top"; lit " two"] ++ DYaml (Hash big_hash) :: map DComment [lit "end"]).

Lemma big_doc_canon ut : canon_doc ut big_doc.
Proof.
  split; [lines_ok|]. exists [lit " top"; lit " two"], (Hash big_hash), [lit "end"].
  split; [reflexivity|]. split; [lines_ok|]. split; [lines_ok|].
  unfold big_hash.
  apply EConsC; [key_ok|text_ok|exact I|line_ok|discriminate|].
  apply EComment; [line_ok|].
  apply ECons; [key_ok| |discriminate|].
  { cbn. apply CLiteral; [|alias_ok_t|now left].
    split; [lines_ok|]. do 3 eexists. split; [reflexivity|].
    split; [now right|]. exists (chr "o"). split; [now left|reflexivity]. }
  apply ECons; [key_ok| |discriminate|].
  { cbn. apply CFolded; [|exact I|now left].
    split; [lines_ok|]. do 3 eexists. split; [reflexivity|].
    split; [now left|]. exists (chr "o"). split; [right; now left|reflexivity]. }
  apply ECons; [key_ok| |discriminate|].
  { cbn. apply CHash. apply EComment; [line_ok|].
    apply ECons; [key_ok|apply CFlow; [text_ok|exact I]|discriminate|].
    apply ELast; [key_ok|]. cbn. apply CHashAlias with (b := false).
    - apply ECons; [key_ok|apply CFlow; [text_ok|exact I]|discriminate|].
      apply ELast; [key_ok|apply CFlow; [text_ok|exact I]].
    - discriminate.
    - discriminate.
    - alias_ok_t. }
  apply ELast; [key_ok|]. cbn. apply CArray. apply NComment; [line_ok|].
  apply NCons.
  { cbn. apply CHashElem with (b := false); [|discriminate].
    apply ECons; [key_ok|apply CFlow; [text_ok|exact I]|discriminate|].
    apply ELast; [key_ok|]. cbn. apply CArray.
    apply NCons; [apply CFlow; [text_ok|exact I]|]. apply NLast. apply CFlow; [alias_ok_t|exact I]. }
  apply NCons.
  { cbn. apply CArrayElem; [|apply NLastC; [|exact I|line_ok]|exact I|now left].
    - apply CFlow; [|exact I]. split; [repeat constructor; try discriminate; not_in|cbn; tauto].
    - split; [repeat constructor; try discriminate; not_in|cbn; tauto]. }
  apply NCons.
  { apply CFlow; [|exact I]. cbn [flow_canon inline_canon fold_right].
    split; [split; [key_ok|split; [itext_ok|split; [itext_ok|exact I]]]|].
    split; [split; [key_ok|exact I]|exact I]. }
  apply NLast. cbn. apply CArrayElem; [apply CFlow; [text_ok|exact I]| |alias_ok_t|now left].
  apply NLast. apply CFlow; [text_ok|exact I].
Qed.
