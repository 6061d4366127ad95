(** Specification vocabulary for the stability of parsed documents: what the parser
    guarantees about comments and quoted scalars, and the documents that formatting does
    not change. *)
From Verif Require Import Base Ast YamlGrammar Spec_Parse Spec_Format.
Import ListNotations.

(** ---- comments ---- *)

(** In a parsed collection every comment on its own line is followed by an entry, and a
    comment on the line of an entry follows a value written on one line. *)
Inductive hash_placed : list hashdata -> Prop :=
| HP_comment c l : hash_placed l -> hash_placed (HComment c :: l)
| HP_last e : hash_placed [HElem e]
| HP_last_comment e c : inline_kind (a_value (he_value e)) -> hash_placed [HElem e; HInlineC c]
| HP_entry e l : hash_placed l -> hash_placed (HElem e :: l)
| HP_entry_comment e c l :
    inline_kind (a_value (he_value e)) -> hash_placed l -> hash_placed (HElem e :: HInlineC c :: l).

Inductive array_placed : list arraydata -> Prop :=
| AP_comment c l : array_placed l -> array_placed (AComment c :: l)
| AP_last x : array_placed [AElem x]
| AP_last_comment x c : inline_kind (a_value x) -> array_placed [AElem x; AInlineC c]
| AP_element x l : array_placed l -> array_placed (AElem x :: l)
| AP_element_comment x c l :
    inline_kind (a_value x) -> array_placed l -> array_placed (AElem x :: AInlineC c :: l).

(** One node: comments are placed so; no two texts and no two runs of line breaks of a
    quoted scalar are next to each other. *)
Definition neat_node (y : yaml) : Prop :=
  match y with
  | Hash l => hash_placed l
  | Array l => array_placed l
  | SingleQ ps => no_neighbours sq_merge ps
  | DoubleQ ps => no_neighbours dq_merge ps
  | _ => True
  end.

(** The first item of a collection is not a comment. *)
Definition starts_plain (y : yaml) : Prop :=
  match y with
  | Hash (HElem _ :: _) | Array (AElem _ :: _) | InlineArray _ => True
  | _ => False
  end.

(** ---- documents that formatting does not change ---- *)

(** Unquoted scalars of inline collections keep their reading. *)
Fixpoint inline_calm (ut : unitab) (y : yaml) : Prop :=
  match y with
  | Unquoted s => inline_text ut s
  | InlineArray l => fold_right (fun v Q => inline_calm ut v /\ Q) True l
  | InlineHash l => fold_right (fun kv Q => (match kv with (_, v) => inline_calm ut v end) /\ Q) True l
  | _ => True
  end.

(** The first line of a block scalar is not blank and does not start with white space
    other than the space. *)
Definition first_line_ok (ls : list str) : Prop :=
  exists c l ls', ls = (c :: l) :: ls' /\ (c = SP \/ is_ws c = false)
    /\ exists d, In d (c :: l) /\ is_zs d = false.

(** Where the first value of a mapping stands that starts on the line of a dash or after
    an alias. *)
Definition is_last (p : place) : bool := match p with Own => true | Head b => b end.
Definition head_of (p : place) (l : list hashdata) : place :=
  Head ((length (filter is_entry l) =? 1) && is_last p).

(** The first two elements follow each other. *)
Definition two_elements (l : list arraydata) : Prop :=
  match l with
  | AElem _ :: AElem _ :: _ | AElem _ :: AInlineC _ :: AElem _ :: _ => True
  | _ => False
  end.

(** [calm p in_seq al y]: the value [y] with alias [al], of a mapping entry or (if
    [in_seq]) a sequence element, can be written at [p] without being read differently.
    - An unquoted scalar does not look like something else.
    - A block scalar has a good first line and stands where the parser knows its
      indentation.
    - A mapping on the line of a dash or after an alias does not start with a comment; if
      it is after an alias and has one entry, nothing follows.
    - A sequence there has two elements with no comment line between them. *)
Fixpoint calm (ut : unitab) (p : place) (in_seq : bool) (al : option str) (y : yaml) : Prop :=
  match y with
  | Unquoted s => block_text ut s
  | InlineArray _ | InlineHash _ => inline_calm ut y
  | Literal ls _ | Folded ls _ =>
      first_line_ok ls /\ (p = Own \/ p = Head true /\ forall l ls', ls <> (SP :: l) :: ls')
  | Hash l =>
      let entries := fix go p l :=
        match l with
        | [] => True
        | HElem (mkHE _ (mkA al v)) :: l' => calm ut p false al v /\ go Own l'
        | _ :: l' => go p l'
        end in
      match in_seq, al with
      | false, None => entries Own l
      | _, _ => starts_plain y /\ (al <> None -> one_entry l -> lastp p) /\ entries (head_of p l) l
      end
  | Array l =>
      let elements := fix go p l :=
        match l with
        | [] => True
        | AElem (mkA al v) :: l' => calm ut p true al v /\ go Own l'
        | _ :: l' => go p l'
        end in
      match in_seq, al with
      | false, None => elements Own l
      | _, _ => two_elements l /\ elements (Head false) l
      end
  | _ => True
  end.

(** The root is a block collection and calm. *)
Definition calm_doc (ut : unitab) (d : document) : Prop :=
  forall y, In (DYaml y) (items d) ->
    match y with Hash _ | Array _ => True | _ => False end /\ calm ut Own false None y.
