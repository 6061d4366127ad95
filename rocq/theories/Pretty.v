(** Model of the [Pretty], [MapYaml] and [VisitYaml] impls. *)
From Verif Require Import Base Ast Strings Format Num.
Import ListNotations.

(** [is_inlineable]: /repo/src/yaml/mod.rs 553-562. *)
Definition is_inlineable (y : yaml) : bool :=
  match y with
  | Unquoted _ | DoubleQ _ | SingleQ _ | InlineArray _ | InlineHash _ => true
  | _ => false
  end.

(** First-character test of [can_be_unquoted_in_block]: mod.rs 585-588. *)
Definition bad_first (c : char) : bool := has_char c (lit "[]{}""'#>|").

(** [can_be_unquoted_in_block]: mod.rs 581-594. *)
Definition can_be_unquoted_in_block (s : str) : bool :=
  match s with
  | [] => false
  | c :: _ =>
      if starts_with SP s || ends_with SP s then false
      else if bad_first c then false
      else if has_sub (lit ": ") s || has_char (chr "#") s || has_char NL s || has_char CR s
      then false
      else negb (match parse_i64 s with Some _ => true | None => false end)
           && negb (parse_f64_ok s)
           && negb (seqb s (lit "true") || seqb s (lit "false") || seqb s (lit "null")
                    || seqb s (lit "~"))
  end.

(** [inline_breaking_chars]: mod.rs 596-600. *)
Definition inline_breaking_chars (s : str) : bool :=
  has_char (chr ",") s || has_char (chr "[") s || has_char (chr "]") s
  || has_char (chr "{") s || has_char (chr "}") s || has_char DQUOTE s
  || has_char (chr ">") s || has_char (chr "|") s.

(** Loop of [str_to_single_quoted_parts]: mod.rs 605-614; [buf] is the pending text. *)
Fixpoint sq_loop (s : str) (parts : list sq_part) (buf : str) : list sq_part * str :=
  match s with
  | [] => (parts, buf)
  | ch :: s' =>
      if ceqb ch QUOTE then
        sq_loop s' ((if is_nil buf then parts else parts ++ [SQ_Str buf]) ++ [SQ_Quote]) []
      else sq_loop s' parts (buf ++ [ch])
  end.

(** [str_to_single_quoted_parts]: mod.rs 602-619. *)
Definition str_to_single_quoted_parts (s : str) : list sq_part :=
  let '(parts, buf) := sq_loop s [] [] in
  if is_nil buf then parts else parts ++ [SQ_Str buf].

(** [max_line_length]: mod.rs 623. *)
Definition max_line_length : nat := 90.

(** The chomping chosen at mod.rs 705 and 720. *)
Definition pretty_chomp (s : str) : chomp := if ends_with NL s then Keep else Strip.

(** Scalar arms of [Yaml::pretty_with_options]: mod.rs 689-738. *)
Definition pretty_scalar (in_inline : bool) (y : yaml) : yaml :=
  match y with
  | Unquoted s =>
      if in_inline && inline_breaking_chars s then SingleQ (str_to_single_quoted_parts s)
      else Unquoted s
  | DoubleQ ps =>
      if in_inline then DoubleQ ps
      else
        let s := parse_double_quoted ps in
        if existsb (fun p => match p with DQ_Esc _ => true | _ => false end) ps
        then Literal (create_literal s) (pretty_chomp s)
        else if max_line_length <? utf8_len s
        then Folded (create_folded s max_line_length) (pretty_chomp s)
        else DoubleQ ps
  | SingleQ ps =>
      let s := parse_single_quoted ps in
      if existsb (fun p => match p with SQ_Blank _ => true | _ => false end) ps
      then Literal (create_literal s) (pretty_chomp s)
      else if negb in_inline && can_be_unquoted_in_block s
              && negb (inline_breaking_chars s) && (utf8_len s <=? max_line_length)
      then Unquoted s
      else if in_inline then SingleQ ps
      else if max_line_length <? utf8_len s
      then Folded (create_folded s max_line_length) (pretty_chomp s)
      else SingleQ ps
  | other => other
  end.

(** "prettied.iter().all(...)": mod.rs 666-669. *)
Definition can_inline (l : list arraydata) : bool :=
  forallb (fun d => match d with
                    | AElem a => match a_alias a with None => is_inlineable (a_value a) | Some _ => false end
                    | _ => false
                    end) l.

(** "filter_map" keeping the elements: mod.rs 671-677. *)
Definition array_elems (l : list arraydata) : list yaml :=
  flat_map (fun d => match d with AElem a => [a_value a] | _ => [] end) l.

(** Auto-inlining of a non-empty block array whose children are already pretty:
    mod.rs 665-687. *)
Definition auto_inline (child_of_array : bool) (prettied : list arraydata) : yaml :=
  if child_of_array && can_inline prettied
     && (utf8_len (format (InlineArray (array_elems prettied)) 0 None) <=? max_line_length)
  then InlineArray (array_elems prettied)
  else Array prettied.

(** [Yaml::pretty_with_options]: mod.rs 621-741, with the impls for
    [AliasedYaml] (aliased.rs 79-86), [HashElement] (hash_element.rs 52-59),
    [HashData] (hash_data.rs 53-60), [ArrayData] (array_data.rs 74-81) and
    [Vec<T>] (mod.rs 564-568) inlined. *)
Fixpoint pretty_with (in_inline child_of_array : bool) (y : yaml) {struct y} : yaml :=
  match y with
  | InlineHash h =>
      InlineHash (map (fun kv => match kv with (k, v) => (k, pretty_with true false v) end) h)
  | Hash v =>
      if is_nil v then InlineHash []
      else if in_inline then
        InlineHash (flat_map (fun d => match d with
                                       | HElem (mkHE k (mkA _ x)) => [(k, pretty_with true false x)]
                                       | _ => []
                                       end) v)
      else Hash (map (fun d => match d with
                               | HElem (mkHE k (mkA al x)) =>
                                   HElem (mkHE k (mkA al (pretty_with false false x)))
                               | HComment c => HComment c
                               | HInlineC c => HInlineC c
                               end) v)
  | InlineArray v => InlineArray (map (pretty_with true false) v)
  | Array v =>
      if is_nil v then InlineArray []
      else if in_inline then
        InlineArray (flat_map (fun d => match d with
                                        | AElem (mkA _ x) => [pretty_with true false x]
                                        | _ => []
                                        end) v)
      else auto_inline child_of_array
             (map (fun d => match d with
                            | AElem (mkA al x) => AElem (mkA al (pretty_with false true x))
                            | AComment c => AComment c
                            | AInlineC c => AInlineC c
                            end) v)
  | scalar => pretty_scalar in_inline scalar
  end.

(** [Pretty::pretty]: mod.rs 480-485. *)
Definition pretty (y : yaml) : yaml := pretty_with false false y.

(** [Pretty for DocumentData], [Pretty for Document]: document.rs 35-42, 92-99. *)
Definition pretty_docdata (d : docdata) : docdata :=
  match d with DComment c => DComment c | DYaml y => DYaml (pretty_with false false y) end.
Definition pretty_doc (d : document) : document :=
  mkDoc (leading d) (map pretty_docdata (items d)).

(** ---- map_yaml ---- *)

(** [Vec::map_yaml] (mod.rs 495-499) with the closure's mutable state threaded
    explicitly: elements are processed left to right. *)
Section MapState.
  Context {S A B : Type} (f : A -> S -> B * S).
  Fixpoint map_state (l : list A) (s : S) : list B * S :=
    match l with
    | [] => ([], s)
    | x :: l' => let '(y, s1) := f x s in let '(ys, s2) := map_state l' s1 in (y :: ys, s2)
    end.
End MapState.

(** [MapYaml for Yaml]: mod.rs 501-514, with [AliasedYaml] (aliased.rs 73-77),
    [HashElement] (hash_element.rs 46-50), [HashData] (hash_data.rs 44-51) and
    [ArrayData] (array_data.rs 65-72) inlined.  The [FnMut] closure is a function
    from node and state to node and state. *)
Fixpoint map_yaml {S : Type} (f : yaml -> S -> yaml * S) (y : yaml) (s : S) {struct y} : yaml * S :=
  match y with
  | Hash l =>
      let '(l', s') := map_state (fun d s =>
        match d with
        | HElem (mkHE k (mkA al x)) =>
            let '(x', s') := map_yaml f x s in (HElem (mkHE k (mkA al x')), s')
        | HComment c => (HComment c, s)
        | HInlineC c => (HInlineC c, s)
        end) l s in
      f (Hash l') s'
  | InlineHash l =>
      let '(l', s') := map_state (fun kv s =>
        match kv with (k, x) => let '(x', s') := map_yaml f x s in ((k, x'), s') end) l s in
      f (InlineHash l') s'
  | Array l =>
      let '(l', s') := map_state (fun d s =>
        match d with
        | AElem (mkA al x) => let '(x', s') := map_yaml f x s in (AElem (mkA al x'), s')
        | AComment c => (AComment c, s)
        | AInlineC c => (AInlineC c, s)
        end) l s in
      f (Array l') s'
  | InlineArray l =>
      let '(l', s') := map_state (map_yaml f) l s in
      f (InlineArray l') s'
  | leaf => f leaf s
  end.

(** ---- visit_yaml ---- *)

(** [VisitYaml for Yaml]: mod.rs 528-551 (with aliased.rs 66-71, hash_data.rs
    36-42, array_data.rs 57-63): the sequence of nodes passed to the closure. *)
Fixpoint visit_yaml (y : yaml) : list aliased :=
  match y with
  | Hash l => flat_map (fun d => match d with
                                 | HElem (mkHE _ (mkA al x)) => mkA al x :: visit_yaml x
                                 | _ => []
                                 end) l
  | InlineHash l => flat_map (fun kv => match kv with (_, x) => visit_yaml x end) l
  | Array l => flat_map (fun d => match d with
                                  | AElem (mkA al x) => mkA al x :: visit_yaml x
                                  | _ => []
                                  end) l
  | InlineArray l => flat_map visit_yaml l
  | _ => []
  end.
