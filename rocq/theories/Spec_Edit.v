(** Specification vocabulary for editing files: the documents in which an entry can be
    added anywhere. *)
From Verif Require Import Base Ast Path YamlGrammar Spec_Parse Spec_Format.
Import ListNotations.

(** Whether the first value of a collection stands on the line of a dash or after an alias. *)
Definition on_line (in_seq : bool) (al : option str) : bool :=
  match in_seq, al with false, None => false | _, _ => true end.

(** [firm head in_seq al y]: in [y], a value with alias [al] of a mapping entry or (if
    [in_seq]) a sequence element, the first value of a collection that starts on the line
    of a dash or after an alias is neither a block scalar nor an aliased mapping with one
    entry.  [head]: [y] is such a first value. *)
Fixpoint firm (head in_seq : bool) (al : option str) (y : yaml) : Prop :=
  match y with
  | Literal _ _ | Folded _ _ => head = false
  | Hash l =>
      (head = true -> al <> None -> ~ one_entry l) /\
      (fix go h l :=
        match l with
        | [] => True
        | HElem (mkHE _ (mkA al v)) :: l' => firm h false al v /\ go false l'
        | _ :: l' => go h l'
        end) (on_line in_seq al) l
  | Array l =>
      (fix go h l :=
        match l with
        | [] => True
        | AElem (mkA al v) :: l' => firm h true al v /\ go false l'
        | _ :: l' => go h l'
        end) (on_line in_seq al) l
  | _ => True
  end.

Definition firm_doc (d : document) : Prop :=
  forall y, In (DYaml y) (items d) -> firm false false None y.

(** The key a path ends with. *)
Fixpoint last_key (p : path) : option str :=
  match p with
  | PRoot _ | PIdx _ _ None | PAll _ None => None
  | PKey k _ None => Some k
  | PKey _ _ (Some o) | PIdx _ _ (Some o) | PAll _ (Some o) => last_key o
  end.

(** No inline comment among the items of a node. *)
Definition no_inline_comment (y : yaml) : Prop :=
  match y with
  | Hash l => forall c, ~ In (HInlineC c) l
  | Array l => forall c, ~ In (AInlineC c) l
  | _ => True
  end.

(** No comment at all among the items of a node. *)
Definition no_comment (y : yaml) : Prop :=
  match y with
  | Hash l => forall d, In d l -> is_entry d = true
  | Array l => forall d, In d l -> exists a, d = AElem a
  | _ => True
  end.

(** The root is the only YAML item of the document. *)
Definition root_of (d : document) (y : yaml) : Prop :=
  exists a b, items d = map DComment a ++ DYaml y :: map DComment b.

(** Not the empty block mapping (which is written as an inline one). *)
Definition filled (y : yaml) : Prop := y <> Hash [].
