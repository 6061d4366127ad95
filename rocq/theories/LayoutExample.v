(** A hand-written file and the document it lays out. *)
From Verif Require Import Base Ast Num Peg YamlGrammar Consume Spec_Parse Spec_Format FormatExample LayoutTree Spec_Layout.
Import ListNotations.

Definition hand_text : str :=
  lit "  # settings" ++ [NL] ++
  [NL] ++
  lit "---  " ++ [NL] ++
  lit " " ++ [NL] ++
  lit "    # top" ++ [NL] ++
  lit "name  :   my app   # its name" ++ [NL] ++
  lit "ports:" ++ [NL] ++
  lit "- 80" ++ [NL] ++
  [NL] ++
  lit "-   443 # tls" ++ [NL] ++
  lit "  # maps" ++ [NL] ++
  lit "nested: " ++ [NL] ++
  lit "   " ++ [NL] ++
  lit "     key: |-" ++ [NL] ++
  lit "            one" ++ [NL] ++
  [NL] ++
  lit "              two" ++ [NL] ++
  lit "     other: &x  {a : [" ++ [NL] ++
  lit "       1,  2 ] , b: 'it''s'}" ++ [NL] ++
  lit "list:" ++ [NL] ++
  lit "    -   a: 1" ++ [NL] ++
  lit "        # then" ++ [NL] ++
  lit "        b:" ++ [NL] ++
  lit "          c: *x" ++ [NL] ++
  lit "    - &y" ++ [NL] ++
  lit "      - p" ++ [NL] ++
  lit "      - q " ++ [NL] ++
  lit "  " ++ [NL] ++
  lit " # end".

Definition hand_doc : document :=
  mkDoc [lit " settings"]
    [ DComment (lit " top")
    ; DYaml (Hash
        [ scalar "name" "my app"; HInlineC (lit " its name")
        ; HElem (mkHE (lit "ports") (mkA None (Array
            [ AElem (mkA None (Unquoted (lit "80"))); AElem (mkA None (Unquoted (lit "443"))); AInlineC (lit " tls") ])))
        ; HComment (lit " maps")
        ; HElem (mkHE (lit "nested") (mkA None (Hash
            [ HElem (mkHE (lit "key") (mkA None (Literal [lit "one"; []; lit "  two"] Strip)))
            ; HElem (mkHE (lit "other") (mkA (Some (lit "x")) (InlineHash
                [ (lit "a", InlineArray [Unquoted (lit "1"); Unquoted (lit "2")])
                ; (lit "b", SingleQ [SQ_Str (lit "it"); SQ_Quote; SQ_Str (lit "s")]) ]))) ])))
        ; HElem (mkHE (lit "list") (mkA None (Array
            [ AElem (mkA None (Hash
                [ scalar "a" "1"; HComment (lit " then")
                ; HElem (mkHE (lit "b") (mkA None (Hash [HElem (mkHE (lit "c") (mkA None (Anchor (lit "x"))))]))) ]))
            ; AElem (mkA (Some (lit "y")) (Array
                [AElem (mkA None (Unquoted (lit "p"))); AElem (mkA None (Unquoted (lit "q")))])) ]))) ])
    ; DComment (lit " end") ].

Lemma layout_eq ut d d' s s' : layout ut d s -> d = d' -> s = s' -> layout ut d' s'.
Proof. now intros H -> ->. Qed.

Ltac white_ok := let c := fresh in let H := fresh in intros c H; vm_compute in H; intuition auto.
Ltac plain_line j_ i_ oc_ t :=
  apply VLine with (j := j_) (ja := 0) (al := None) (i := i_) (oc := oc_) (y := Unquoted t) (s := t);
  [split; [text_ok|reflexivity]|exact I|first [exact I|split; [lia|line_ok]]].
Ltac gap0 := split; [apply Forall_nil|first [exact I|split; [reflexivity|exact I]]].

Lemma hand_layout ut : layout ut hand_doc hand_text.
Proof.
  eapply layout_eq.
  - eapply Layout with (cs0 := [mkCL 2 (lit " settings") [0]]) (i := 2) (ws := [1]) (cs := [mkCL 4 (lit " top") []])
      (n := 0) (b := Plain) (cs1 := [lit " end"]); [lines_ok|lines_ok| |].
    2:{ apply (ZComment 0 Plain [2] 1 (lit " end") [] []); [congruence|line_ok|]. now apply ZEnd. }
    eapply RMap.
    eapply ECons with (b1 := Plain) (k := lit "name") (i := 2) (ws := []) (cs := []); [key_ok| |gap0|].
    { plain_line 2 3 (Some (lit " its name")) (lit "my app"). }
    eapply ECons with (b1 := Plain) (k := lit "ports") (i := 0) (ws := []) (cs := [mkCL 2 (lit " maps") []]); [key_ok| |split; [lines_ok|exact I]|].
    { eapply VSeq with (j := 0) (ws := []) (cs := []) (m := 0); [lia|discriminate|now left|apply Forall_nil|].
      eapply NCons with (b1 := Plain) (ws := [0]) (cs := []); [|gap0|].
      - plain_line 0 0 (@None str) (lit "80").
      - eapply NLast. plain_line 2 1 (Some (lit " tls")) (lit "443"). }
    eapply ECons with (b1 := Plain) (k := lit "nested") (i := 0) (ws := []) (cs := []); [key_ok| |gap0|].
    { eapply VMap with (j := 1) (ws := [3]) (cs := []) (m := 5); [lia|lia|now right; right|apply Forall_nil|].
      eapply ECons with (b1 := Scalar false) (k := lit "key") (i := 0) (ws := []) (cs := []); [key_ok| |gap0|].
      - eapply VScalar with (j := 0) (ja := 0) (al := None) (m := 12) (lit_ := true) (ch := Strip)
          (c := chr "o") (l := lit "ne"); [line_ok|now right| |lia|exact I|].
        + exists (chr "o"). split; [now left|reflexivity].
        + apply (SLine 12 1 (lit "  two")); [line_ok|]. apply (SEnd 12 0).
      - eapply ELast with (k := lit "other") (i := 0); [key_ok|].
        eapply VLine with (j := 0) (ja := 1) (al := Some (lit "x")) (i := 0) (oc := None) (y := InlineHash _); [|alias_ok_t|exact I].
        eapply FHash.
        eapply FPairs with (k := lit "a") (i := 1) (w := []) (wv := [SP]) (w' := [SP]); [white_ok|key_ok|white_ok|discriminate| |white_ok|].
        + eapply FArray. eapply FItems with (w := NL :: repeat_char SP 7) (w' := []); [white_ok| |white_ok|].
          * apply (FText ut (lit "1")). itext_ok.
          * eapply FItem with (w := [SP; SP]) (w' := [SP]); [white_ok| |white_ok].
            apply (FText ut (lit "2")). itext_ok.
        + eapply FPair with (k := lit "b") (i := 0) (w := [SP]) (wv := [SP]) (w' := []);
            [white_ok|key_ok|white_ok|discriminate| |white_ok].
          apply FSingle with (ps := [SQ_Str (lit "it"); SQ_Quote; SQ_Str (lit "s")]).
          split; [repeat constructor; try discriminate; not_in|cbn; tauto]. }
    eapply ELast with (k := lit "list") (i := 0); [key_ok|].
    eapply VSeq with (j := 0) (ws := []) (cs := []) (m := 4); [lia|discriminate|now left|apply Forall_nil|].
    eapply NCons with (b1 := Plain) (ws := []) (cs := []); [|gap0|].
    + eapply VMore with (a := []) (j := 2) (k := lit "a") (i := 0) (m := 8) (ws := []) (cs := [mkCL 8 (lit " then") []])
        (al := None) (oc := None) (b1 := Plain); [constructor|now left|lia|key_ok| |split; [lines_ok|exact I]|].
      * plain_line 0 0 (@None str) (lit "1").
      * eapply ELast with (k := lit "b") (i := 0); [key_ok|].
        eapply VMap with (j := 0) (ws := []) (cs := []) (m := 10); [lia|lia|now left|apply Forall_nil|].
        eapply ELast with (k := lit "c") (i := 0); [key_ok|].
        eapply VLine with (j := 0) (ja := 0) (al := None) (i := 0) (oc := None) (y := Anchor _); [|exact I|exact I].
        apply (FRef ut (lit "x")). alias_ok_t.
    + eapply NLast.
      eapply VSeqs with (al := Some (lit "y")) (a := lit "&" ++ lit "y" ++ [NL; SP; SP; SP; SP; SP; SP]) (j := 0) (m := 6)
        (oc := None) (b1 := Plain) (ws := []); [constructor; [alias_ok_t|white_ok|discriminate]|now left|lia| |gap0|].
      * plain_line 0 0 (@None str) (lit "p").
      * eapply NLast. plain_line 0 1 (@None str) (lit "q").
  - reflexivity.
  - vm_compute. reflexivity.
Qed.

(** ---- texts that break one condition ---- *)

Lemma layout_unique ut d e s : layout ut d s -> layout ut e s -> d = e.
Proof. intros H1 H2. apply layout_parse in H1. apply layout_parse in H2. congruence. Qed.

Lemma blank_after_scalar : exists d e s1 s2, d <> e /\
  (forall ut, layout ut d (s1 ++ s2)) /\ forall ut, parse_yaml ut (s1 ++ [NL] ++ s2) = CVal e.
Proof.
  exists (mkDoc [] [DYaml (Hash [HElem (mkHE (lit "a") (mkA None (Literal [lit "x"] Clip))); scalar "b" "1"])]).
  exists (mkDoc [] [DYaml (Hash [HElem (mkHE (lit "a") (mkA None (Literal [lit "x"; []] Clip))); scalar "b" "1"])]).
  exists (lit "---" ++ [NL] ++ lit "a: |" ++ [NL] ++ lit "  x" ++ [NL]), (lit "b: 1").
  split; [discriminate|]. split; intros ut; [|vm_compute; reflexivity].
  eapply layout_eq.
  - apply Layout with (cs0 := []) (i := 0) (ws := []) (cs := []) (n := 0) (b := Plain) (cs1 := []);
      [apply Forall_nil|apply Forall_nil| |now apply ZEnd].
    eapply RMap, ECons with (b1 := Scalar false) (k := lit "a") (i := 0) (ws := []) (cs := []); [key_ok| |gap0|].
    + apply VScalar with (j := 0) (ja := 0) (al := None) (m := 2) (lit_ := true) (ch := Clip) (c := chr "x") (l := []);
        [line_ok|now right| |lia|exact I|exact (SEnd 2 0)].
      exists (chr "x"). split; [now left|reflexivity].
    + eapply ELast with (k := lit "b") (i := 0); [key_ok|]. plain_line 0 0 (@None str) (lit "1").
  - reflexivity.
  - vm_compute. reflexivity.
Qed.

Lemma comment_after_scalar : exists d e s1 s2, d <> e /\
  (forall ut, layout ut d (s1 ++ s2)) /\ forall ut, parse_yaml ut (s1 ++ lit "  " ++ s2) = CVal e.
Proof.
  exists (mkDoc [] [DYaml (Hash [HElem (mkHE (lit "a") (mkA None (Literal [lit "x"] Clip))); HComment (lit "c"); scalar "b" "1"])]).
  exists (mkDoc [] [DYaml (Hash [HElem (mkHE (lit "a") (mkA None (Literal [lit "x"; lit "#c"] Clip))); scalar "b" "1"])]).
  exists (lit "---" ++ [NL] ++ lit "a: |" ++ [NL] ++ lit "  x" ++ [NL]), (lit "#c" ++ [NL] ++ lit "b: 1").
  split; [discriminate|]. split; intros ut; [|vm_compute; reflexivity].
  eapply layout_eq.
  - apply Layout with (cs0 := []) (i := 0) (ws := []) (cs := []) (n := 0) (b := Plain) (cs1 := []);
      [apply Forall_nil|apply Forall_nil| |now apply ZEnd].
    eapply RMap, ECons with (b1 := Scalar false) (k := lit "a") (i := 0) (ws := []) (cs := [mkCL 0 (lit "c") []]);
      [key_ok| |split; [lines_ok|split; [reflexivity|exact (le_n 0)]]|].
    + apply VScalar with (j := 0) (ja := 0) (al := None) (m := 2) (lit_ := true) (ch := Clip) (c := chr "x") (l := []);
        [line_ok|now right| |lia|exact I|exact (SEnd 2 0)].
      exists (chr "x"). split; [now left|reflexivity].
    + eapply ELast with (k := lit "b") (i := 0); [key_ok|]. plain_line 0 0 (@None str) (lit "1").
  - reflexivity.
  - vm_compute. reflexivity.
Qed.

Lemma space_blank_comment : exists d s1 s2,
  (forall ut, layout ut d (s1 ++ s2)) /\ forall ut, parse_yaml ut (s1 ++ lit " " ++ s2) = CErr.
Proof.
  exists (mkDoc [] [DYaml (Hash [HElem (mkHE (lit "a") (mkA None (Hash [HComment (lit "c"); scalar "b" "1"])))])]).
  exists (lit "---" ++ [NL] ++ lit "a:"), ([NL; NL] ++ lit "#c" ++ [NL] ++ lit "  b: 1").
  split; intros ut; [|vm_compute; reflexivity].
  eapply layout_eq.
  - apply Layout with (cs0 := []) (i := 0) (ws := []) (cs := []) (n := 0) (b := Plain) (cs1 := []);
      [apply Forall_nil|apply Forall_nil| |now apply ZEnd].
    eapply RMap, ELast with (k := lit "a") (i := 0); [key_ok|].
    eapply VMap with (j := 0) (ws := [0]) (cs := [mkCL 0 (lit "c") []]) (m := 2); [lia|discriminate|now left|lines_ok|].
    eapply ELast with (k := lit "b") (i := 0); [key_ok|]. plain_line 0 0 (@None str) (lit "1").
  - reflexivity.
  - vm_compute. reflexivity.
Qed.
