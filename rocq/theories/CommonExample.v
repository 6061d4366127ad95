(** A hand-written file in the common layout, and files that break one condition of it. *)
From Coq Require Import Lia.
From Verif Require Import Base Ast Num Peg YamlGrammar Consume Spec_Parse Spec_Format FormatExample Spec_Yaml12 Spec_Portable PlainFacts
  PortableFacts Spec_Layout LayoutTree LayoutExample Spec_Common CommonFacts.
Import ListNotations.

Definition shared_text : str :=
  lit "  # settings" ++ [NL] ++
  [NL] ++
  lit "---  " ++ [NL] ++
  lit " " ++ [NL] ++
  lit "    # top" ++ [NL] ++
  lit "name  :   my app   # its name" ++ [NL] ++
  lit "ports:" ++ [NL] ++
  lit "- 80" ++ [NL] ++
  [NL] ++
  lit "-   443 # tls" ++ [NL] ++
  lit "  # maps" ++ [NL] ++
  lit "nested: " ++ [NL] ++
  lit "   " ++ [NL] ++
  lit "     key: |-" ++ [NL] ++
  lit "            one" ++ [NL] ++
  [NL] ++
  lit "              two" ++ [NL] ++
  lit "     other: &x  {a : [ 1,  2 ] , b: 'it''s'}" ++ [NL] ++
  lit "list:" ++ [NL] ++
  lit "    -   a: 1" ++ [NL] ++
  lit "        # then" ++ [NL] ++
  lit "        b:" ++ [NL] ++
  lit "          c: *x" ++ [NL] ++
  lit "    - &y" ++ [NL] ++
  lit "      - p" ++ [NL] ++
  lit "      - q " ++ [NL] ++
  lit "  " ++ [NL] ++
  lit " # end" ++ [NL].

Definition shared_root : yaml := Hash
        [ scalar "name" "my app"; HInlineC (lit " its name")
        ; HElem (mkHE (lit "ports") (mkA None (Array
            [ AElem (mkA None (Unquoted (lit "80"))); AElem (mkA None (Unquoted (lit "443"))); AInlineC (lit " tls") ])))
        ; HComment (lit " maps")
        ; HElem (mkHE (lit "nested") (mkA None (Hash
            [ HElem (mkHE (lit "key") (mkA None (Literal [lit "one"; []; lit "  two"] Strip)))
            ; HElem (mkHE (lit "other") (mkA (Some (lit "x")) (InlineHash
                [ (lit "a", InlineArray [Unquoted (lit "1"); Unquoted (lit "2")])
                ; (lit "b", SingleQ [SQ_Str (lit "it"); SQ_Quote; SQ_Str (lit "s")]) ]))) ])))
        ; HElem (mkHE (lit "list") (mkA None (Array
            [ AElem (mkA None (Hash
                [ scalar "a" "1"; HComment (lit " then")
                ; HElem (mkHE (lit "b") (mkA None (Hash [HElem (mkHE (lit "c") (mkA None (Anchor (lit "x"))))]))) ]))
            ; AElem (mkA (Some (lit "y")) (Array
                [AElem (mkA None (Unquoted (lit "p"))); AElem (mkA None (Unquoted (lit "q")))])) ]))) ].
Definition shared_doc : document :=
  mkDoc [lit " settings"] [ DComment (lit " top"); DYaml shared_root; DComment (lit " end") ].

Lemma common_eq ut d d' y s s' : common ut d y s -> d = d' -> s = s' -> common ut d' y s'.
Proof. now intros H -> ->. Qed.

Ltac chars_t := repeat (apply Forall_cons; [cbn; repeat split; try discriminate; try (apply nb_jsonb_spec; reflexivity)|]); apply Forall_nil.
Ltac note_t := apply nb_lineb; reflexivity.
Ltac notes_t := repeat (apply Forall_cons; [note_t|]); apply Forall_nil.
Ltac plain_t := apply plainb_spec; reflexivity.
Ltac both_key_t := split; [key_ok|split; [plain_t|apply Nat.leb_le; reflexivity]].
Ltac both_name_t := split; [alias_ok_t|apply anchor_nameb_spec; reflexivity].
Ltac both_line j_ i_ oc_ t :=
  apply CLine with (j := j_) (ja := 0) (al := None) (i := i_) (oc := oc_) (y := Unquoted t) (s := t);
  [split; [text_ok|split; [plain_t|reflexivity]]|exact I|intros []|first [exact I|split; [lia|note_t]]].

Lemma shared_common ut : common ut shared_doc shared_root shared_text.
Proof.
  eapply common_eq.
  - eapply Common with (cs0 := [mkCL 2 (lit " settings") [0]]) (i := 2) (ws := [1]) (cs := [mkCL 4 (lit " top") []])
      (n := 0) (b := Plain) (cs1 := [lit " end"]) (y := shared_root); [notes_t|notes_t| |].
    2:{ apply (CZComment 0 Plain [2] 1 (lit " end") [] [NL]); [congruence|note_t|]. now apply CZLine. }
    eapply CRMap.
    eapply (CECons ut 0 (lit "name") 2 _ (Some (lit " its name")) Plain _ [] []); [both_key_t| |gap0|apply Forall_nil|].
    { both_line 2 3 (Some (lit " its name")) (lit "my app"). }
    eapply (CECons ut 0 (lit "ports") 0 _ None Plain _ [] [mkCL 2 (lit " maps") []]); [both_key_t| |split; [lines_ok|exact I]|notes_t|].
    { eapply (CSeq ut 0 0 true false 0 [] [] 0); [lia|discriminate|now left|apply Forall_nil|].
      eapply (CNCons ut 0 _ None Plain _ [0] []); [|gap0|apply Forall_nil|].
      - both_line 0 0 (@None str) (lit "80").
      - eapply (CNLast ut 0 _ (Some (lit " tls"))). both_line 2 1 (Some (lit " tls")) (lit "443"). }
    eapply (CECons ut 0 (lit "nested") 0 _ None Plain _ [] []); [both_key_t| |gap0|apply Forall_nil|].
    { eapply (CMap ut 0 0 true false 1 [3] [] 5); [lia|lia|now right; right|apply Forall_nil|].
      eapply (CECons ut 5 (lit "key") 0 _ None (Scalar false) _ [] []); [both_key_t| |gap0|apply Forall_nil|].
      - apply (CScalar ut 5 5 false None 0 0 12 true Strip (chr "o") (lit "ne") [[]; lit "  two"]); [now right| |lia|lia|exact I| | |discriminate].
        + exists (chr "o"). split; [now left|reflexivity].
        + apply (SLine 12 1 (lit "  two")); [line_ok|]. apply (SEnd 12 0).
        + apply nb_linesb. reflexivity.
      - eapply (CELast ut 5 (lit "other") 0 _ None); [both_key_t|].
        eapply (CLine ut 5 5 true false (Some (lit "x")) 1 (InlineHash _) None 0 0); [|both_name_t|intros []|exact I].
        eapply CFHash.
        eapply (CPairs ut (lit "a") _ _ 0 1 0 1); [key_ok|plain_t| |].
        + eapply CFArray. eapply (CItems ut _ _ 1 0).
          * apply (CFText ut (lit "1")); [itext_ok|plain_t].
          * eapply (CItem ut _ _ 2 1). apply (CFText ut (lit "2")); [itext_ok|plain_t].
        + eapply (CPair ut (lit "b") _ _ 1 0 0 0); [key_ok|plain_t|].
          apply (CFSingle ut [SQ_Str (lit "it"); SQ_Quote; SQ_Str (lit "s")]).
          * split; [repeat constructor; try discriminate; not_in|cbn; tauto].
          * repeat (apply Forall_cons; [first [chars_t|exact I]|]); apply Forall_nil. }
    eapply (CELast ut 0 (lit "list") 0 _ None); [both_key_t|].
    eapply (CSeq ut 0 0 true false 0 [] [] 4); [lia|discriminate|now left|apply Forall_nil|].
    eapply (CNCons ut 4 _ None Plain _ [] []); [|gap0|apply Forall_nil|].
    + eapply (CMore ut 4 4 true true None _ (lit "a") 0 8 _ None Plain _ [] [mkCL 8 (lit " then") []]); [apply (OnDash ut 4 2)|both_key_t| |split; [lines_ok|exact I]|notes_t|].
      * both_line 0 0 (@None str) (lit "1").
      * eapply (CELast ut 8 (lit "b") 0 _ None); [both_key_t|].
        eapply (CMap ut 8 8 true false 0 [] [] 10); [lia|discriminate|now left|apply Forall_nil|].
        eapply (CELast ut 10 (lit "c") 0 _ None); [both_key_t|].
        eapply (CLine ut 10 10 true false None 0 (Anchor _) None 0 0); [|exact I|reflexivity|exact I].
        apply (CFRef ut (lit "x")). both_name_t.
    + eapply (CNLast ut 4 _ None).
      eapply (CSeqs ut 4 4 true true (Some (lit "y")) _ 6 _ None Plain _ []); [apply (Named ut 4 true (lit "y") 0 0 [] 6); [both_name_t|lia]| |gap0|].
      * both_line 0 0 (@None str) (lit "p").
      * eapply (CNLast ut 6 _ None). both_line 0 1 (@None str) (lit "q").
  - reflexivity.
  - vm_compute. reflexivity.
Qed.

(** ---- texts that break one condition ---- *)

Ltac ns_t := apply ns_charb_spec; reflexivity.
Ltac whites_t := repeat (apply Forall_cons; [now left|]); apply Forall_nil.
Ltac forbid_t :=
  let a := fresh "a" in let m := fresh "m" in let b := fresh "b" in let E := fresh "E" in let M := fresh "M" in
  intros (a & m & b & E & M & _);
  repeat (destruct a as [|? a]; [cbn in E; destruct M; subst m; cbn in E; discriminate E|injection E as _ E]); destruct a; discriminate E.
Lemma sl_nl : sl_comments [NL].
Proof. exact (SL [NL] [] (SB0 [] (Forall_nil _)) LC0). Qed.
Lemma one_flow k out : block_node k out (Node None (Spec_Yaml12.Scalar true (lit "1"))) (lit " 1" ++ [NL]).
Proof.
  apply (BFlow k out [SP] _ (lit "1") [NL]); [whites_t|discriminate| |exact sl_nl]. apply FContent, FPlain. plain_t.
Qed.

(** [- &a k: 1] *)
Lemma name_at_dash : exists d y x s,
  s = lit "---" ++ [NL] ++ lit "- &a k: 1" ++ [NL] /\
  items d = [DYaml y] /\ x <> Node None (content_of y) /\ (forall ut, parse_yaml ut s = CVal d) /\ yaml_file x s.
Proof.
  set (y := Array [AElem (mkA (Some (lit "a")) (Hash [scalar "k" "1"]))]).
  exists (mkDoc [] [DYaml y]), y,
    (Node None (Sequence [Node None (Mapping [(Node (Some (lit "a")) (Spec_Yaml12.Scalar true (lit "k")), Node None (Spec_Yaml12.Scalar true (lit "1")))])])),
    (lit "---" ++ [NL] ++ lit "- &a k: 1" ++ [NL]).
  split; [reflexivity|]. split; [reflexivity|]. split; [discriminate|]. split; [intros ut; vm_compute; reflexivity|].
  apply (File [] _ ([NL] ++ lit "- &a k: 1" ++ [NL])); [constructor| |forbid_t].
  apply (BSeq 0 false None [] [NL] 0 _ (lit "- &a k: 1" ++ [NL])); [constructor|exact sl_nl|cbn; lia|discriminate|].
  apply (BS1 0 _ (lit "- &a k: 1" ++ [NL]) [] []); [|constructor].
  apply (BEntry 0 _ (lit " &a k: 1" ++ [NL])); [|intros c r E; injection E as <- _; intros [_ N]; apply N; now left].
  apply (BCompactMap 0 1 _ [] (lit "&a k: 1" ++ [NL]) []); [|constructor].
  apply (BNamedPair 2 (lit "a") [SP] (lit "k") [] _ (lit " 1" ++ [NL])); [apply anchor_nameb_spec; reflexivity|whites_t|discriminate|plain_t|constructor|apply Nat.leb_le; reflexivity|apply one_flow].
Qed.

Definition text_of (v : str) : node := Node None (Spec_Yaml12.Scalar false v).
Definition key_node (k : str) : node := Node None (Spec_Yaml12.Scalar true k).
(** A block scalar in the first entry at a dash: the lines of the next entry are read as lines
    of it, without their first characters. *)
Lemma scalar_at_dash : exists d y x s,
  s = lit "---" ++ [NL] ++ lit "- a: |" ++ [NL] ++ lit "   x" ++ [NL] ++ lit "  b: 1" ++ [NL] /\
  items d = [DYaml y] /\ x <> Node None (content_of y) /\ (forall ut, parse_yaml ut s = CVal d) /\ yaml_file x s.
Proof.
  set (y := Array [AElem (mkA None (Hash [HElem (mkHE (lit "a") (mkA None (Literal [lit "x"; lit ": 1"] Clip)))]))]).
  exists (mkDoc [] [DYaml y]), y,
    (Node None (Sequence [Node None (Mapping [(key_node (lit "a"), text_of (lit "x" ++ [NL])); (key_node (lit "b"), Node None (Spec_Yaml12.Scalar true (lit "1")))])])),
    (lit "---" ++ [NL] ++ lit "- a: |" ++ [NL] ++ lit "   x" ++ [NL] ++ lit "  b: 1" ++ [NL]).
  split; [reflexivity|]. split; [reflexivity|]. split; [discriminate|]. split; [intros ut; vm_compute; reflexivity|].
  apply (File [] _ ([NL] ++ lit "- a: |" ++ [NL] ++ lit "   x" ++ [NL] ++ lit "  b: 1" ++ [NL])); [constructor| |forbid_t].
  apply (BSeq 0 false None [] [NL] 0 _ (lit "- a: |" ++ [NL] ++ lit "   x" ++ [NL] ++ lit "  b: 1" ++ [NL])); [constructor|exact sl_nl|cbn; lia|discriminate|].
  apply (BS1 0 _ (lit "- a: |" ++ [NL] ++ lit "   x" ++ [NL] ++ lit "  b: 1" ++ [NL]) [] []); [|constructor].
  apply (BEntry 0 _ (lit " a: |" ++ [NL] ++ lit "   x" ++ [NL] ++ lit "  b: 1" ++ [NL])); [|intros c r E; injection E as <- _; intros [_ N]; apply N; now left].
  apply (BCompactMap 0 1 _ [(key_node (lit "b"), Node None (Spec_Yaml12.Scalar true (lit "1")))] (lit "a: |" ++ [NL] ++ lit "   x" ++ [NL]) (lit "  b: 1" ++ [NL])).
  - apply (BPair 2 (lit "a") [] _ (lit " |" ++ [NL] ++ lit "   x" ++ [NL])); [plain_t|constructor|apply Nat.leb_le; reflexivity|].
    apply (BScalar 3 true None [] [SP] _ (lit "|" ++ [NL] ++ lit "   x" ++ [NL])); [constructor|whites_t|discriminate|].
    apply (BLiteral 3 3 [] Clip [] [NL] (lit "x") [] (lit "   x" ++ [NL]) 0 [] []).
    + apply Detected; [lia|intros r E; discriminate E].
    + now left.
    + apply (SB0 []). constructor.
    + apply (CLText 3 (lit "x") [] []); [discriminate|note_t|constructor].
    + discriminate.
    + intros [|? [|? r]] E; discriminate E.
    + constructor.
    + constructor.
  - apply (BM1 2 _ (lit "b: 1" ++ [NL]) [] []); [|constructor].
    apply (BPair 2 (lit "b") [] _ (lit " 1" ++ [NL])); [plain_t|constructor|apply Nat.leb_le; reflexivity|apply one_flow].
Qed.
(** A digit after the sign of a block scalar at a dash: the crate counts from the dash, YAML
    from the key. *)
Lemma digit_at_dash : exists d y x s,
  s = lit "---" ++ [NL] ++ lit "- a: |2" ++ [NL] ++ lit "     x" ++ [NL] /\
  items d = [DYaml y] /\ x <> Node None (content_of y) /\ (forall ut, parse_yaml ut s = CVal d) /\ yaml_file x s.
Proof.
  set (y := Array [AElem (mkA None (Hash [HElem (mkHE (lit "a") (mkA None (Literal [lit "   x"] Clip)))]))]).
  exists (mkDoc [] [DYaml y]), y,
    (Node None (Sequence [Node None (Mapping [(key_node (lit "a"), text_of (lit " x" ++ [NL]))])])),
    (lit "---" ++ [NL] ++ lit "- a: |2" ++ [NL] ++ lit "     x" ++ [NL]).
  split; [reflexivity|]. split; [reflexivity|]. split; [discriminate|]. split; [intros ut; vm_compute; reflexivity|].
  apply (File [] _ ([NL] ++ lit "- a: |2" ++ [NL] ++ lit "     x" ++ [NL])); [constructor| |forbid_t].
  apply (BSeq 0 false None [] [NL] 0 _ (lit "- a: |2" ++ [NL] ++ lit "     x" ++ [NL])); [constructor|exact sl_nl|cbn; lia|discriminate|].
  apply (BS1 0 _ (lit "- a: |2" ++ [NL] ++ lit "     x" ++ [NL]) [] []); [|constructor].
  apply (BEntry 0 _ (lit " a: |2" ++ [NL] ++ lit "     x" ++ [NL])); [|intros c r E; injection E as <- _; intros [_ N]; apply N; now left].
  apply (BCompactMap 0 1 _ [] (lit "a: |2" ++ [NL] ++ lit "     x" ++ [NL]) []); [|constructor].
  apply (BPair 2 (lit "a") [] _ (lit " |2" ++ [NL] ++ lit "     x" ++ [NL])); [plain_t|constructor|apply Nat.leb_le; reflexivity|].
  apply (BScalar 3 true None [] [SP] _ (lit "|2" ++ [NL] ++ lit "     x" ++ [NL])); [constructor|whites_t|discriminate|].
  apply (BLiteral 3 4 (lit "2") Clip (lit "2") [NL] (lit " x") [] (lit "     x" ++ [NL]) 0 [] []).
  + apply (Given 3 4 (lit " x") 2); lia.
  + now left.
  + apply (SB0 []). constructor.
  + apply (CLText 4 (lit " x") [] []); [discriminate|note_t|constructor].
  + discriminate.
  + intros [|? [|? r]] E; discriminate E.
  + constructor.
  + constructor.
Qed.
