(** A value that survives text, and what it means not to survive. *)
From Coq Require Import ZArith.
From Verif Require Import Base Ast Format Pretty Peg YamlGrammar Consume Ser De FromStr
  Spec_Strings Spec_Pretty Spec_Serde Spec_Parse Spec_Format Spec_Text FormatExample.
Import ListNotations.

(** A struct with a text over two lines, sequences of structs and of sequences, a tuple
    and a mapping. *)
Definition point : ty := TStruct [(lit "x", TInt I8); (lit "label", TOption TStr)].
Definition text_type : ty :=
  TStruct [(lit "note", TStr); (lit "points", TSeq point); (lit "rows", TSeq (TSeq (TInt I64)));
           (lit "pair", TTuple [TStr; TSeq TBool]); (lit "map", TMap TStr (TSeq TStr))].
Definition text_value : sval :=
  SStruct
    [ (lit "note", SStr (lit "two" ++ [NL] ++ lit "lines: here" ++ [NL]))
    ; (lit "points", SSeq [ SStruct [(lit "x", SInt I8 (-5)); (lit "label", SSome (SStr (lit "42, or so")))]
                          ; SStruct [(lit "x", SInt I8 7); (lit "label", SNone)] ])
    ; (lit "rows", SSeq [SSeq [SInt I64 1]; SSeq []; SSeq [SInt I64 2; SInt I64 (-3)]])
    ; (lit "pair", STuple [SStr (lit "it's [x]"); SSeq [SBool true; SBool false]])
    ; (lit "map", SMap [(SStr (lit "empty"), SSeq []); (SStr (lit "k"), SSeq [SStr []; SStr (lit "a:b")])]) ].

Ltac has_c c := exists c; split; [vm_compute; tauto|cbn; tauto].
Ltac by_char := left; right; left; first [has_c NL|has_c (chr ",")|has_c (chr "[")].
Ltac row := split; [line_ok|split; [let H := fresh in intros H; vm_compute in H; intuition discriminate|vm_compute; lia]].
Ltac plain_text :=
  right; split; [intros ? ? E; vm_compute in E; injection E as <- _; reflexivity|];
  split; [apply colons_ok_inside; reflexivity|]; split; [discriminate|];
  intros a b r E; vm_compute in E; injection E as <- <- _;
  split; [intros [[?|?] ?]; discriminate|intros [? ?]; discriminate].

(** The text of the pretty printed value [v] of type [t] is read as [r]. *)
Definition read_as (t : ty) (v : sval) (r : cres sval) : Prop :=
  has_ty t v /\ faithful v /\
  match ser v with
  | Some y => long_ok false y /\
      forall ut, from_yaml_str ut t (format_doc (mkDoc [] [DYaml (pretty y)])) = r
  | None => False
  end.

Ltac typed :=
  cbn [has_ty all2 fst snd any];
  repeat match goal with
         | |- NoDup _ => repeat constructor; cbn; intuition discriminate
         | |- _ /\ _ => split
         | |- forall v, In v _ -> _ => let v := fresh in let H := fresh in
             intros v H; cbn in H; repeat (destruct H as [<-|H]); [..|destruct H]; cbn [has_ty all2 fst snd any]
         | |- fits _ _ => cbn; lia
         | |- _ => try reflexivity; try exact I
         end.
Ltac read_as :=
  split; [typed|split; [vm_compute; tauto|split; [vm_compute; intuition (exfalso; lia)|intros ut; vm_compute; reflexivity]]].
