(** Example for C56: a type with the three attributes. *)
From Coq Require Import ZArith Lia.
From Verif Require Import Base Ast Strings Format Num Pretty Peg YamlGrammar Consume Ser De FromStr Attr Spec_Pretty Spec_Strings Spec_Parse Spec_Format
  Spec_Serde Spec_Text Spec_Look Spec_Typed Spec_Attr AttrFacts AttrFacts11 TextFacts2 FormatExample TextExample.
Import ListNotations.

(** A type with all three attributes and a value of it. *)
Definition source : xty :=
  XTagged (lit "type")
    [(lit "Dir", XVStruct [(lit "path", XStr); (lit "deep", XOption XBool)]);
     (lit "Url", XVNew (XStruct [(lit "host", (false, XStr)); (lit "more", (true, XMap XStr (XInt I8)))]));
     (lit "Null", XVUnit)].
Definition word : xty := XUntagged [(lit "N", XVNew (XInt I64)); (lit "T", XVNew XStr); (lit "P", XVTup [XChar; XFloat])].
Definition config : xty :=
  XStruct [(lit "words", (false, XSeq word)); (lit "from", (false, XSeq source)); (lit "rest", (true, XMap XStr XFloat))].
Definition config_value : sval :=
  SStruct [(lit "words", SSeq [SNewV (lit "T") (SStr (lit "12")); SNewV (lit "N") (SInt I64 (-12));
                               STupV (lit "P") [SChar (chr "x"); SFloat (lit "0.5")]]);
           (lit "from", SSeq [SStructV (lit "Dir") [(lit "path", SStr (lit "a b")); (lit "deep", SNone)];
                              SNewV (lit "Url") (SStruct [(lit "host", SStr (lit "h"));
                                                          (lit "more", SMap [(SStr (lit "port"), SInt I8 80)])])]);
           (lit "rest", SMap [(SStr (lit "x"), SFloat (lit "12.5")); (SStr (lit "y"), SFloat (lit "-2"))])].
Definition config_calls : sval :=
  SMap [(SStr (lit "words"), SSeq [SStr (lit "12"); SInt I64 (-12); STuple [SChar (chr "x"); SFloat (lit "0.5")]]);
        (SStr (lit "from"), SSeq [SStruct [(lit "type", SStr (lit "Dir")); (lit "path", SStr (lit "a b")); (lit "deep", SNone)];
                                  SMap [(SStr (lit "type"), SStr (lit "Url")); (SStr (lit "host"), SStr (lit "h"));
                                        (SStr (lit "port"), SInt I8 80)]]);
        (SStr (lit "x"), SFloat (lit "12.5")); (SStr (lit "y"), SFloat (lit "-2"))].

Ltac names := repeat (constructor; cbn [map fst In]; try (intuition discriminate)).
Ltac plain := cbn [map fst In]; intros ? X; repeat (destruct X as [<-|X]; [vm_compute; reflexivity|]); destruct X.
Ltac first_var := apply first_ok_choice; [names|vm_compute; reflexivity].
Ltac one_char :=
  right; split; [intros ? ? E; vm_compute in E; injection E as <- _; reflexivity|];
  split; [apply colons_ok_inside; reflexivity|]; split; [discriminate|]; intros a b r E; vm_compute in E; discriminate.
Ltac digits := split; [discriminate|]; cbn; intros ? X; repeat (destruct X as [<-|X]; [split; discriminate|]); destruct X.
Ltac with_point s d f := split; [do 3 right; exists s, d, (chr "." :: f); split; [reflexivity|]; split; [auto|];
  split; [digits|right; eexists; split; [reflexivity|digits]]|apply float_dot; vm_compute; auto 10].
Lemma config_carried : carried config config_value /\ emit config config_value = Some config_calls /\
  (exists y, ser config_calls = Some y /\ depth y = 4) /\
  (forall ut, root_fits ut config_calls).
Proof.
  split; [|split; [vm_compute; reflexivity|split]].
  { cbn [carried config config_value].
    split; [names|]. split; [plain|]. split; [vm_compute; repeat constructor|].
    cbn [all2 snd]. split; [split; [|discriminate]|split; [split; [|discriminate]|split; [split|exact I]]].
    - intros v [<-|[<-|[<-|[]]]]; cbn [carried word]; (split; [names|]); (split; [first_var|]); cbn [any variant_name].
      + right; left. split; [reflexivity|]. split; discriminate.
      + left. split; [reflexivity|]. cbn [carried]. split; [discriminate|]. split; [discriminate|]. split; discriminate || reflexivity.
      + do 2 right. left. split; [reflexivity|]. cbn [all2 carried]. split; [exact I|]. split; [|exact I]. with_point (@nil N) (lit "0") (lit "5").
    - intros v [<-|[<-|[]]]; cbn [carried source variant_name]; (split; [names|]); (split; [vm_compute; reflexivity|]);
        (split; [split; discriminate|]); cbn [any].
      + left. split; [reflexivity|]. split.
        * split; [names|]. split; [plain|]. cbn [all2 carried snd]. repeat split; discriminate.
        * cbn [map fst In]. intuition discriminate.
      + right. left. split; [reflexivity|]. split.
        * split; [names|]. split; [plain|]. split; [vm_compute; repeat constructor|]. cbn [all2 carried snd fst].
          split; [split; [split; discriminate|discriminate]|]. split; [split|exact I].
          -- intros p [<-|[]]. cbn [fst snd carried]. split; [split; discriminate|]. split; [discriminate|]. split; [discriminate|].
             split; discriminate || reflexivity.
          -- intros _. eexists _, _. split; [vm_compute; reflexivity|]. split; [vm_compute; reflexivity|].
             intros k [<-|[]]. split; [vm_compute; reflexivity|]. intros [X|[]]. discriminate.
        * eexists _, _. split; [vm_compute; reflexivity|]. split; [vm_compute; reflexivity|].
          intros k [<-|[<-|[]]]; discriminate.
    - intros p [<-|[<-|[]]]; cbn [fst snd carried]; (split; [split; discriminate|]).
      + with_point (@nil N) (lit "12") (lit "5").
      + split; [do 3 right; exists (lit "-"), (lit "2"), []; split; [reflexivity|]; split; [auto|]; split; [digits|now left]|].
        apply (float_int (-2)). split; discriminate || reflexivity.
    - intros _. eexists _, _. split; [vm_compute; reflexivity|]. split; [vm_compute; reflexivity|].
      intros k [<-|[<-|[]]]; (split; [vm_compute; reflexivity|]); intros [X|[X|[]]]; discriminate. }
  - eexists. split; [vm_compute; reflexivity|]. vm_compute. reflexivity.
  - intros ut. split; [discriminate|].
    cbn [block_fits inline_fits fold_right first_place key_fits config_calls length Nat.eqb].
    repeat match goal with
           | |- plain_key _ _ => key_ok
           | |- _ /\ _ => split
           | |- true = true -> _ => intros _
           | |- false = true -> _ => discriminate
           | |- _ :: _ = [] -> _ => discriminate
           | |- text_fits _ _ _ => split; [first [by_char|plain_text|one_char]|left; row]
           | |- readable _ _ => first [by_char|plain_text|one_char]
           | |- float_text _ => idtac
           | |- True => exact I
           end.
    + do 3 right; exists [], (lit "0"), (lit ".5"); split; [reflexivity|]; split; [auto|]; split; [digits|right; eexists; split; [reflexivity|digits]].
    + do 3 right; exists [], (lit "12"), (lit ".5"); split; [reflexivity|]; split; [auto|]; split; [digits|right; eexists; split; [reflexivity|digits]].
    + do 3 right; exists (lit "-"), (lit "2"), []; split; [reflexivity|]; split; [auto|]; split; [digits|now left].
Qed.

Lemma config_long (ut : unitab) : match ser config_calls with Some y => long_ok false y | None => False end.
Proof.
  destruct config_carried as (_ & _ & _ & R). specialize (R ut).
  destruct (ser config_calls) as [y|] eqn:E; [|vm_compute in E; discriminate]. exact (proj2 (root_canon ut _ y R E)).
Qed.

(** What comes back for a value. *)
Definition back (t : xty) (v : sval) (r : outcome sval) : Prop :=
  exists s y, emit t v = Some s /\ ser s = Some y /\ read_yaml 9 t y = r.
Ltac back := eexists _, _; (split; [vm_compute; reflexivity|]); (split; [vm_compute; reflexivity|]); vm_compute; reflexivity.
