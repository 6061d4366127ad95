(** C69: exactly which files with an inline (flow) collection are read, and as what. *)
From Verif Require Import Base Ast Peg YamlGrammar Consume Spec_Parse Spec_Format Spec_Layout Spec_Flow FlowExact.
Import ListNotations.

(** A file is read as a document with an inline sequence exactly if it is one of the texts
    of [flow_file]. *)
Theorem C69_read : forall ut cs0 cs l cs1 s,
  parse_yaml ut s = CVal (mkDoc cs0 (map DComment cs ++ DYaml (InlineArray l) :: map DComment cs1)) <->
  flow_file ut (mkDoc cs0 (map DComment cs ++ DYaml (InlineArray l) :: map DComment cs1)) s.
Proof. exact flow_read_iff. Qed.
Print Assumptions C69_read.

(** A file whose collection starts with a bracket never panics, and it is an error exactly
    if it is not one of these texts. *)
Theorem C69_error : forall ut cs0 cs h r, heading cs0 cs h ->
  parse_yaml ut (h ++ lit "[" ++ r) <> CPanic /\
  (parse_yaml ut (h ++ lit "[" ++ r) = CErr <-> forall d, ~ flow_file ut d (h ++ lit "[" ++ r)).
Proof. exact flow_error_iff. Qed.
Print Assumptions C69_error.

(** A file whose collection is an inline mapping is always an error. *)
Theorem C69_no_mapping : forall ut cs0 cs h r, heading cs0 cs h -> parse_yaml ut (h ++ lit "{" ++ r) = CErr.
Proof. exact flow_brace. Qed.
Print Assumptions C69_no_mapping.

(** No text is two documents, and every text that is not an error starts with a heading. *)
Theorem C69_unique : forall ut d e s, flow_file ut d s -> flow_file ut e s -> d = e.
Proof. exact flow_unique. Qed.
Print Assumptions C69_unique.
Theorem C69_headed : forall ut s, parse_yaml ut s <> CErr ->
  exists cs0 cs h c X, s = h ++ c :: X /\ heading cs0 cs h /\ c <> chr "{".
Proof. exact accepted_headed. Qed.
Print Assumptions C69_headed.

Definition plain_tables : unitab := mkUni (fun _ => false) (fun _ => false).
Definition NBSP : char := 160%N.

(** A file in an untidy layout: comments, line breaks of all kinds, a no-break space after
    a quote, a colon before a line break, a text that starts with a sign. *)
Definition untidy : str :=
  [SP; NL] ++ lit "#top" ++ [CR; NL] ++ lit "---" ++ [NL; NBSP; NL] ++ lit " #in" ++ [NL]
  ++ lit "[ a:" ++ [CR] ++ lit ", 'x'" ++ [NBSP; NL] ++ lit ",{k " ++ [NL] ++ lit ": *r,q:[ ]} ,>b c" ++ [SP; CR; NL] ++ lit "]"
  ++ [NL] ++ lit "  #end".
Definition untidy_doc : document :=
  mkDoc [lit "top"] ([DComment (lit "in")] ++
    DYaml (InlineArray [Unquoted (lit "a:"); SingleQ [SQ_Str (lit "x")];
       InlineHash [(lit "k", Anchor (lit "r")); (lit "q", InlineArray [])]; Unquoted (lit ">b c")])
    :: [DComment (lit "end")]).
Example C69_read_ex : flow_file plain_tables untidy_doc untidy.
Proof. apply (C69_read plain_tables [lit "top"] [lit "in"] _ [lit "end"]). vm_compute. reflexivity. Qed.

Lemma short_heading : heading [] [] (lit "---" ++ [NL]).
Proof.
  apply (HPlain [NL] [] []); [|discriminate|constructor].
  apply (BLine [] NL []); [intros c []|now left|constructor].
Qed.
(** A comma at the end, a comma at the start, no comma, a comment inside, an open bracket, an
    empty value, a tab after a quote, two values at the top. *)
Example C69_error_ex : forall r, In r
  [lit "a,]"; lit ",a]"; lit "'a' b]"; lit "a #c" ++ [NL] ++ lit "]"; lit "a"; lit "{k: }]"; lit "'a'" ++ [TAB] ++ lit "]"; lit "a] [b]"] ->
  forall d, ~ flow_file plain_tables d (lit "---" ++ [NL] ++ lit "[" ++ r).
Proof.
  intros r H. apply (C69_error plain_tables [] [] (lit "---" ++ [NL]) r short_heading).
  cbn [In] in H. repeat destruct H as [<-|H]; try contradiction; vm_compute; reflexivity.
Qed.
Example C69_no_mapping_ex : parse_yaml plain_tables (lit "---" ++ [NL] ++ lit "{a: b}") = CErr.
Proof. exact (C69_no_mapping plain_tables [] [] (lit "---" ++ [NL]) (lit "a: b}") short_heading). Qed.
Example C69_unique_ex : forall e, flow_file plain_tables e untidy -> e = untidy_doc.
Proof. intros e H. exact (C69_unique _ _ _ _ H C69_read_ex). Qed.
Example C69_headed_ex : exists cs0 cs h c X, untidy = h ++ c :: X /\ heading cs0 cs h /\ c <> chr "{".
Proof. apply (C69_headed plain_tables). vm_compute. discriminate. Qed.
