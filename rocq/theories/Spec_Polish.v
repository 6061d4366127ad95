(** Specification vocabulary for pretty printing files: the documents whose pretty form
    can be written and read back. *)
From Verif Require Import Base Ast Strings Peg YamlGrammar Consume Format Pretty Spec_Strings Spec_Pretty Spec_Parse Spec_Format Spec_Text
  Spec_Stable.
Import ListNotations.

(** Text that may become a block scalar at [p]; [com]: a comment follows on the line. *)
Definition may_be_block (p : place) (com : bool) (s : str) : Prop :=
  com = false /\ p <> Head false /\ ~ In CR s /\ exists c r, s = c :: r /\ is_ws c = false.

(** Inline collections have no quoted scalar that is spread over blank lines. *)
Fixpoint inline_polish (y : yaml) : Prop :=
  match y with
  | SingleQ ps => has_blank ps = false
  | InlineArray l => fold_right (fun v Q => inline_polish v /\ Q) True l
  | InlineHash l => fold_right (fun kv Q => (match kv with (_, v) => inline_polish v end) /\ Q) True l
  | _ => True
  end.

(** [polish p in_seq al com nested y]: the value [y] with alias [al] at [p] ([in_seq], [al]:
    as in [calm]; [com]: a comment follows on its line; [nested]: it is an element of a
    sequence that is a sequence element itself) can change its style.
    - An unquoted scalar that may be moved into an inline sequence keeps its reading.
    - A single-quoted scalar can lose its quotes.
    - A quoted scalar that becomes a block scalar starts with a visible character, stands
      where the parser knows its indentation, and no comment follows.  If it is wrapped,
      it can be. *)
Fixpoint polish (ut : unitab) (p : place) (in_seq : bool) (al : option str) (com nested : bool) (y : yaml) : Prop :=
  match y with
  | Unquoted s => nested = true -> inline_text ut s
  | SingleQ ps =>
      let s := parse_single_quoted ps in
      (has_blank ps = true -> may_be_block p com s) /\
      (has_blank ps = false -> readable ut s /\
        (90 < utf8_len s -> may_be_block p com s /\ foldable_text 90 s))
  | DoubleQ ps =>
      let s := parse_double_quoted ps in
      (has_escape ps = true -> may_be_block p com s) /\
      (has_escape ps = false -> 90 < utf8_len s -> may_be_block p com s /\ foldable_text 90 s)
  | InlineArray _ | InlineHash _ => inline_polish y
  | Hash l =>
      (fix go p l :=
        match l with
        | [] => True
        | HElem (mkHE _ (mkA al v)) :: l' =>
            polish ut p false al (match l' with HInlineC _ :: _ => true | _ => false end) false v /\ go Own l'
        | _ :: l' => go p l'
        end) (match in_seq, al with false, None => Own | _, _ => head_of p l end) l
  | Array l =>
      (fix go p l :=
        match l with
        | [] => True
        | AElem (mkA al v) :: l' =>
            polish ut p true al (match l' with AInlineC _ :: _ => true | _ => false end) in_seq v /\ go Own l'
        | _ :: l' => go p l'
        end) (match in_seq, al with false, None => Own | _, _ => Head false end) l
  | _ => True
  end.

Definition polish_doc (ut : unitab) (d : document) : Prop :=
  forall y, In (DYaml y) (items d) -> polish ut Own false None false false y.

(** The text is that of a calm document whose pretty text is parsed to a document with
    other data. *)
Definition changes (s : str) (d : document) : Prop :=
  forall ut, parse_yaml ut s = CVal d /\ calm_doc ut d /\
    exists d', parse_yaml ut (format_doc (pretty_doc d)) = CVal d' /\ doc_views d' <> doc_views d.
