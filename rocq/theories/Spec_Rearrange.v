(** Specification vocabulary for removing and moving entries of files. *)
From Verif Require Import Base Ast Strings YamlGrammar Spec_Parse.
Import ListNotations.

(** The same value with every empty block mapping, which is written [{}], as an empty
    inline mapping. *)
Fixpoint closed (y : yaml) : yaml :=
  match y with
  | Hash [] => InlineHash []
  | Hash l => Hash (map (fun d => match d with
                                  | HElem (mkHE k (mkA al v)) => HElem (mkHE k (mkA al (closed v)))
                                  | _ => d
                                  end) l)
  | Array l => Array (map (fun d => match d with
                                    | AElem (mkA al v) => AElem (mkA al (closed v))
                                    | _ => d
                                    end) l)
  | _ => y
  end.

Definition closed_doc (d : document) : document :=
  mkDoc (leading d) (map (fun it => match it with DYaml y => DYaml (closed y) | DComment c => DComment c end) (items d)).

(** The document has an entry at the top. *)
Definition rooted (d : document) : Prop := ~ In (DYaml (Hash [])) (items d).

(** Every non-empty text stored under [sel] in a block mapping can be used as a key. *)
Definition names_under (ut : unitab) (sel : str) (y : yaml) : Prop :=
  match y with
  | Hash l => forall a s, In (HElem (mkHE sel a)) l -> as_string (a_value a) = Some s -> s <> [] -> plain_key ut s
  | _ => True
  end.
