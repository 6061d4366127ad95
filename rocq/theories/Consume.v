(** Model of /repo/src/yaml/parser.rs: the consumer functions that turn the parse tree
    into a [document], and the entry point [parse_yaml_file].

    Arithmetic is checked (a debug build): [given - 1] with [given = 0] panics.  Error
    positions and messages are not modelled. *)
From Coq Require Import ZArith.
From Verif Require Import Base Ast Num Peg PegFacts YamlGrammar.
Import ListNotations.

(** Values of the consumer functions. *)
Inductive yval : Type :=
| VUnit
| VStr (s : str)
| VNat (n : nat)
| VIndent (i : option N)
| VStrs (l : list str)
| VEsc (e : dq_esc)
| VDq (p : dq_part)
| VDqs (l : list dq_part)
| VSq (p : sq_part)
| VSqs (l : list sq_part)
| VChomp (c : chomp)
| VYaml (y : yaml)
| VPair (k : str) (y : yaml)
| VAliased (a : aliased)
| VHElem (e : hash_element)
| VHData (l : list hashdata)
| VAElem (a : arraydata)
| VAData (l : list arraydata)
| VDoc (d : document).

(** [str::trim_end] and [trim_end_matches(" ")]. *)
Fixpoint drop_while (f : char -> bool) (s : str) : str :=
  match s with [] => [] | c :: s' => if f c then drop_while f s' else s end.
Definition trim_end_by (f : char -> bool) (s : str) : str := rev (drop_while f (rev s)).
Definition trim_end : str -> str := trim_end_by is_ws.
Definition trim_end_spaces : str -> str := trim_end_by (ceqb SP).

(** Byte slice [x[n..]]: panics ([None]) past the end or inside a character. *)
Fixpoint slice_from (n : N) (s : str) : option str :=
  match s with
  | [] => if (n =? 0)%N then Some [] else None
  | c :: s' =>
      if (n =? 0)%N then Some s
      else let l := N.of_nat (char_len c) in
           if (l <=? n)%N then slice_from (n - l) s' else None
  end.

(** [count_whitespace_bytes_at_start]: parser.rs 547-553. *)
Fixpoint count_ws (s : str) : N :=
  match s with
  | [] => 0%N
  | c :: s' => if is_ws c && negb (ceqb c NL) then (N.of_nat (char_len c) + count_ws s')%N else 0%N
  end.

(** [clean_multiline_strings]: parser.rs 555-568. *)
Fixpoint clean_lines (n : N) (ls : list str) : cres (list str) :=
  match ls with
  | [] => CVal []
  | l :: ls' =>
      match (match l with [] => Some [] | _ => slice_from n l end) with
      | None => CPanic
      | Some x => cbind (clean_lines n ls') (fun xs => CVal (x :: xs))
      end
  end.
Definition clean_multiline (indent : option N) (ls : list str) : cres (list str) :=
  match indent, ls with
  | Some n, _ => clean_lines n ls
  | None, [] => CPanic                                                   (* lines[0] *)
  | None, l :: _ => clean_lines (count_ws l) ls
  end.

(** Values of the longest prefix of children of the given shape; [pattern(x)..] *)
Fixpoint many {X} (f : yrule * yval -> option X) (l : list (yrule * yval))
  : list X * list (yrule * yval) :=
  match l with
  | [] => ([], [])
  | x :: l' => match f x with
               | Some v => let '(vs, rest) := many f l' in (v :: vs, rest)
               | None => ([], l)
               end
  end.

Definition as_pair (x : yrule * yval) : option (str * yaml) :=
  match x with (y_inline_hash_element, VPair k v) => Some (k, v) | _ => None end.
Definition as_inline_value (x : yrule * yval) : option yaml :=
  match x with (y_inline_array_value, VYaml y) => Some y | _ => None end.
Definition as_dq (x : yrule * yval) : option dq_part :=
  match x with (y_dq_part, VDq p) => Some p | _ => None end.
Definition as_sq (x : yrule * yval) : option sq_part :=
  match x with (y_sq_part, VSq p) => Some p | _ => None end.
Definition as_ml_part (x : yrule * yval) : option (list str) :=
  match x with (y_ml_part, VStrs l) => Some l | _ => None end.
Definition as_hdata (x : yrule * yval) : option (list hashdata) :=
  match x with (y_hash_element_data, VHData l) => Some l | _ => None end.
Definition as_adata (x : yrule * yval) : option (list arraydata) :=
  match x with (y_block_array_data, VAData l) => Some l | _ => None end.
Definition as_commentnl (x : yrule * yval) : option str :=
  match x with (y_commentnl, VStr s) => Some s | _ => None end.
Definition as_comment (x : yrule * yval) : option str :=
  match x with (y_comment, VStr s) => Some s | _ => None end.

Definition hcomments (l : list str) : list hashdata := map HComment l.
Definition acomments (l : list str) : list arraydata := map AComment l.
Definition dcomments (l : list str) : list docdata := map DComment l.

(** [string_multiline_folded], [string_multiline_literal]: parser.rs 282-302. *)
Definition multiline (mk : list str -> chomp -> yaml) (l : list (yrule * yval)) : cres yval :=
  match l with
  | [(y_ml_indent, VIndent i); (y_ml_content, VStrs cs)] =>
      cbind (clean_multiline i cs) (fun ls => CVal (VYaml (mk ls Clip)))
  | [(y_chomping, VChomp c); (y_ml_indent, VIndent i); (y_ml_content, VStrs cs)] =>
      cbind (clean_multiline i cs) (fun ls => CVal (VYaml (mk ls c)))
  | _ => CErr
  end.

(** The consumer functions: parser.rs 47-535, on the text of the node and the values of
    its children.  A child list no pattern of [match_nodes!] covers is an error; a rule
    without a consumer function never emits a node here and gives a panic. *)
Definition yact (r : yrule) (txt : str) (l : list (yrule * yval)) : cres yval :=
  match r with
  | y_eoi => CVal VUnit                                                        (* 47 *)
  | y_comment_text => CVal (VStr txt)                                          (* 51 *)
  | y_comment | y_commentnl =>                                                 (* 55-65 *)
      match l with [(y_comment_text, VStr s)] => CVal (VStr s) | _ => CErr end
  | y_alias =>                                                                 (* 67 *)
      match l with [(y_alias_name, VStr s)] => CVal (VStr s) | _ => CErr end
  | y_alias_name => CVal (VStr txt)                                            (* 73 *)
  | y_anchor =>                                                                (* 77 *)
      match l with [(y_alias_name, VStr s)] => CVal (VYaml (Anchor s)) | _ => CErr end
  | y_inline_hash_element =>                                                   (* 83 *)
      match l with
      | [(y_hash_key, VStr k); (y_inline_array_value, VYaml v)] => CVal (VPair k v)
      | _ => CErr
      end
  | y_inline_hash =>                                                           (* 91 *)
      match many as_pair l with
      | (kvs, []) => CVal (VYaml (InlineHash kvs))
      | _ => CErr
      end
  | y_unquoted_string | y_unquoted_inline_string =>                            (* 101-111 *)
      CVal (VYaml (Unquoted (trim_end_spaces txt)))
  | y_esc_value =>                                                             (* 113 *)
      match txt with
      | [] => CPanic
      | c :: _ =>
          if ceqb c (chr "n") then CVal (VEsc E_Newline)
          else if ceqb c NL then CVal (VEsc E_RealNewline)
          else if ceqb c (chr "r") then CVal (VEsc E_CR)
          else if ceqb c (chr "t") then CVal (VEsc E_Tab)
          else if ceqb c BACKSLASH then CVal (VEsc E_Backslash)
          else if ceqb c DQUOTE then CVal (VEsc E_Quote)
          else CPanic
      end
  | y_dq_text | y_sq_text => CVal (VStr txt)                                   (* 127, 167 *)
  | y_removable_newline => CVal VUnit                                          (* 131 *)
  | y_blank_lines => CVal (VNat (length txt - 1))                              (* 135; the text is "\n\n..." *)
  | y_dq_part =>                                                               (* 139 *)
      match l with
      | [(y_esc_value, VEsc e)] => CVal (VDq (DQ_Esc e))
      | [(y_dq_text, VStr s)] => CVal (VDq (DQ_Str s))
      | [(y_blank_lines, VNat n)] => CVal (VDq (DQ_Blank n))
      | [(y_removable_newline, _)] => CVal (VDq DQ_RemNl)
      | _ => CErr
      end
  | y_dq_content =>                                                            (* 148 *)
      match many as_dq l with (ps, []) => CVal (VDqs ps) | _ => CErr end
  | y_double_quoted =>                                                         (* 154 *)
      match l with [(y_dq_content, VDqs ps)] => CVal (VYaml (DoubleQ ps)) | _ => CErr end
  | y_single_quote =>                                                          (* 160 *)
      match txt with
      | [] => CPanic
      | c :: _ => if ceqb c QUOTE then CVal VUnit else CPanic
      end
  | y_sq_part =>                                                               (* 171 *)
      match l with
      | [(y_single_quote, _)] => CVal (VSq SQ_Quote)
      | [(y_sq_text, VStr s)] => CVal (VSq (SQ_Str s))
      | [(y_blank_lines, VNat n)] => CVal (VSq (SQ_Blank n))
      | [(y_removable_newline, _)] => CVal (VSq SQ_RemNl)
      | _ => CErr
      end
  | y_sq_content =>                                                            (* 180 *)
      match many as_sq l with (ps, []) => CVal (VSqs ps) | _ => CErr end
  | y_single_quoted =>                                                         (* 186 *)
      match l with [(y_sq_content, VSqs ps)] => CVal (VYaml (SingleQ ps)) | _ => CErr end
  | y_inline_array_string =>                                                   (* 192 *)
      match l with
      | [((y_unquoted_inline_string | y_double_quoted | y_single_quoted), VYaml y)] =>
          CVal (VYaml y)
      | _ => CErr
      end
  | y_inline_array_value =>                                                    (* 199 *)
      match l with
      | [((y_anchor | y_inline_array | y_inline_hash | y_inline_array_string), VYaml y)] =>
          CVal (VYaml y)
      | _ => CErr
      end
  | y_inline_array =>                                                          (* 207 *)
      match many as_inline_value l with
      | (vs, []) => CVal (VYaml (InlineArray vs))
      | _ => CErr
      end
  | y_string =>                                                                (* 217 *)
      match l with
      | [((y_unquoted_string | y_double_quoted | y_single_quoted), VYaml y)] => CVal (VYaml y)
      | _ => CErr
      end
  | y_inline_value =>                                                          (* 224 *)
      match l with
      | [((y_anchor | y_inline_array | y_inline_hash | y_string), VYaml y)] => CVal (VYaml y)
      | _ => CErr
      end
  | y_block_string => CVal (VStr txt)                                          (* 232 *)
  | y_block_empty_lines => CVal (VStrs (repeat [] (utf8_len txt)))             (* 236 *)
  | y_chomping =>                                                              (* 243 *)
      if seqb txt (lit "+") then CVal (VChomp Keep)
      else if seqb txt (lit "-") then CVal (VChomp Strip)
      else CPanic
  | y_ml_indent =>                                                             (* 251 *)
      match txt with
      | [] => CVal (VIndent None)
      | _ => match parse_usize txt with
             | None => CPanic
             | Some g => if (g =? 0)%Z then CPanic else CVal (VIndent (Some (Z.to_N (g - 1))))
             end
      end
  | y_ml_part =>                                                               (* 260 *)
      match l with
      | [(y_block_empty_lines, VStrs es); (y_block_string, VStr b)] => CVal (VStrs (es ++ [b]))
      | _ => CErr
      end
  | y_ml_trailing => CVal (VStrs (map (fun _ => []) (filter (ceqb NL) txt)))   (* 267 *)
  | y_ml_content =>                                                            (* 271 *)
      match l with
      | (y_block_empty_lines, VStrs es) :: (y_block_string, VStr b) :: l' =>
          match many as_ml_part l' with
          | (bs, [(y_ml_trailing, VStrs t)]) => CVal (VStrs (es ++ [b] ++ concat bs ++ t))
          | _ => CErr
          end
      | _ => CErr
      end
  | y_ml_folded => multiline Folded l                                          (* 282 *)
  | y_ml_literal => multiline Literal l                                        (* 294 *)
  | y_yaml_value =>                                                            (* 304 *)
      match l with
      | [((y_hash | y_array | y_ml_literal | y_ml_folded | y_inline_value), VYaml y)] =>
          CVal (VYaml y)
      | _ => CErr
      end
  | y_aliased =>                                                               (* 313 *)
      match l with
      | [(y_alias, VStr a); (y_yaml_value, VYaml y)] => CVal (VAliased (mkA (Some a) y))
      | [(y_yaml_value, VYaml y)] => CVal (VAliased (mkA None y))
      | _ => CErr
      end
  | y_ba_aliased =>                                                            (* 325 *)
      match l with
      | [((y_alt_aliased | y_aliased), VAliased a)] => CVal (VAliased a)
      | _ => CErr
      end
  | y_alt_aliased =>                                                           (* 331 *)
      match l with
      | [(y_alias, VStr a); ((y_alternative_hash | y_alternative_array), VYaml y)] =>
          CVal (VAliased (mkA (Some a) y))
      | [((y_alternative_hash | y_alternative_array), VYaml y)] => CVal (VAliased (mkA None y))
      | _ => CErr
      end
  | y_hash_key => CVal (VStr (trim_end txt))                                   (* 351 *)
  | y_hash_element =>                                                          (* 355 *)
      match l with
      | [(y_hash_key, VStr k); (y_ba_aliased, VAliased a)] => CVal (VHElem (mkHE k a))
      | _ => CErr
      end
  | y_first_hash_element =>                                                    (* 362 *)
      match l with
      | [(y_hash_element, VHElem e); (y_comment, VStr c)] => CVal (VHData [HElem e; HInlineC c])
      | [(y_hash_element, VHElem e)] => CVal (VHData [HElem e])
      | _ => CErr
      end
  | y_hash_element_data =>                                                     (* 372 *)
      match l with
      | [(y_commentnls, VStrs cs); (y_hash_element, VHElem e); (y_comment, VStr c)] =>
          CVal (VHData (hcomments cs ++ [HElem e; HInlineC c]))
      | [(y_commentnls, VStrs cs); (y_hash_element, VHElem e)] =>
          CVal (VHData (hcomments cs ++ [HElem e]))
      | _ => CErr
      end
  | y_hash =>                                                                  (* 389 *)
      match l with
      | (y_commentnls, VStrs cs) :: (y_first_hash_element, VHData e1) :: l' =>
          match many as_hdata l' with
          | (es, [(y_commentnls, VStrs cs2)]) =>
              CVal (VYaml (Hash (hcomments cs ++ e1 ++ concat es ++ hcomments cs2)))
          | _ => CErr
          end
      | _ => CErr
      end
  | y_alt_hash_cont =>                                                         (* 404 *)
      match l with
      | (y_commentnls, VStrs cs) :: (y_first_hash_element, VHData e1) :: l' =>
          match many as_hdata l' with
          | (es, []) => CVal (VHData (hcomments cs ++ e1 ++ concat es))
          | _ => CErr
          end
      | _ => CErr
      end
  | y_alternative_hash =>                                                      (* 415 *)
      match l with
      | [(y_first_hash_element, VHData e1); (y_alt_hash_cont, VHData c); (y_commentnls, VStrs cs)] =>
          CVal (VYaml (Hash (e1 ++ c ++ hcomments cs)))
      | [(y_first_hash_element, VHData e1); (y_commentnls, VStrs cs)] =>
          CVal (VYaml (Hash (e1 ++ hcomments cs)))
      | _ => CErr
      end
  | y_block_array_element =>                                                   (* 435 *)
      match l with [(y_ba_aliased, VAliased a)] => CVal (VAElem (AElem a)) | _ => CErr end
  | y_first_block_array_element =>                                             (* 441 *)
      match l with
      | [(y_block_array_element, VAElem e); (y_comment, VStr c)] => CVal (VAData [e; AInlineC c])
      | [(y_block_array_element, VAElem e)] => CVal (VAData [e])
      | _ => CErr
      end
  | y_block_array_data =>                                                      (* 448 *)
      match l with
      | [(y_commentnls, VStrs cs); (y_block_array_element, VAElem e); (y_comment, VStr c)] =>
          CVal (VAData (acomments cs ++ [e; AInlineC c]))
      | [(y_commentnls, VStrs cs); (y_block_array_element, VAElem e)] =>
          CVal (VAData (acomments cs ++ [e]))
      | _ => CErr
      end
  | y_array =>                                                                 (* 463 *)
      match l with
      | [((y_inline_array | y_block_array), VYaml y)] => CVal (VYaml y)
      | _ => CErr
      end
  | y_block_array =>                                                           (* 470 *)
      match l with
      | (y_commentnls, VStrs cs) :: (y_first_block_array_element, VAData e1) :: l' =>
          match many as_adata l' with
          | (es, [(y_commentnls, VStrs cs2)]) =>
              CVal (VYaml (Array (acomments cs ++ e1 ++ concat es ++ acomments cs2)))
          | _ => CErr
          end
      | _ => CErr
      end
  | y_alternative_array =>                                                     (* 483 *)
      match l with
      | (y_first_block_array_element, VAData e1) :: (y_first_block_array_element, VAData e2) :: l' =>
          match many as_adata l' with
          | (es, [(y_commentnls, VStrs cs)]) =>
              CVal (VYaml (Array (e1 ++ e2 ++ concat es ++ acomments cs)))
          | _ => CErr
          end
      | _ => CErr
      end
  | y_commentnls | y_leading_comments =>                                       (* 496-516 *)
      match many as_commentnl l with (cs, []) => CVal (VStrs cs) | _ => CErr end
  | y_document =>                                                              (* 518 *)
      match l with [((y_hash | y_array), VYaml y)] => CVal (VYaml y) | _ => CErr end
  | y_yaml =>                                                                  (* 524 *)
      match l with
      | (y_leading_comments, VStrs before) :: (y_commentnls, VStrs cs)
        :: (y_document, VYaml v) :: l' =>
          match many as_comment l' with
          | (cs2, [(y_eoi, _)]) =>
              CVal (VDoc (mkDoc before (dcomments cs ++ [DYaml v] ++ dcomments cs2)))
          | _ => CErr
          end
      | _ => CErr
      end
  | _ => CPanic
  end.

(** Consumer functions call those of the children first. *)
Definition yaml_act (r : yrule) (txt : str) (ch : list (yrule * cres yval)) : cres yval :=
  cbind (call_ ch) (yact r txt).

(** The consumer on a whole tree. *)
Definition consume : node yrule -> cres yval := fold_node yaml_act.

(** [parse_yaml_file]: parser.rs 538-545. *)
Definition parse_yaml (ut : unitab) (s : str) : cres document :=
  match eval (yaml_grammar ut) (yaml_fuel s) true (PRule y_yaml) s [] with
  | Some (Ok _ [n] _ _) =>
      match consume n with
      | CVal (VDoc d) => CVal d
      | CVal _ => CErr
      | CErr => CErr
      | CPanic => CPanic
      end
  | Some Crash => CPanic
  | _ => CErr
  end.
