(** Model of /repo/src/yaml.pest.

    The built-in rules LETTER and NUMBER are Unicode tables of pest.  Outside ASCII they
    are kept abstract ([unitab]); the only fact used is that no white space character is a
    letter or a number.  ANY, NEWLINE, SPACE_SEPARATOR are exact.
    Two rules no other rule uses ([number] 6-11, [string_value] 22) are left out. *)
From Verif Require Import Base Peg PegFacts.
Import ListNotations.

(** Rule names of yaml.pest (1-96) and [EOI]. *)
Inductive yrule : Type :=
| y_space | y_spaces | y_hash_key | y_alias_name
| y_dis_inline_start | y_dis_inline | y_unq_inline_elements | y_unq_inline_start
| y_unquoted_inline_string
| y_dis_start | y_dis | y_unq_elements | y_unq_start | y_unquoted_string
| y_esc_value | y_esc_char | y_dq_text | y_dq_part | y_dq_content | y_double_quoted
| y_single_quote | y_single_quote_char | y_blank_lines | y_removable_newline
| y_sq_text | y_sq_part | y_sq_content | y_single_quoted
| y_string | y_inline_array_string
| y_block_string | y_block_empty_lines | y_ml_part | y_ml_trailing | y_ml_content
| y_ml_indent | y_ml_folded | y_ml_literal | y_chomping
| y_anchor | y_alias | y_inline_value | y_inline_array_value
| y_inline_array | y_block_array_element | y_first_block_array_element
| y_block_array_data | y_block_array | y_array | y_alternative_array
| y_ba_aliased | y_alt_aliased | y_yaml_value | y_aliased
| y_hash_element | y_first_hash_element | y_hash_element_data | y_hash
| y_alt_hash_cont | y_alternative_hash
| y_inline_hash_element | y_inline_hash
| y_comment_text | y_comment_base | y_commentnl | y_comment | y_commentnls
| y_leading_comments | y_blank | y_blanknl | y_document | y_yaml | y_eoi.

(** [char::is_whitespace]: the Unicode property White_Space. *)
Definition is_ws (c : char) : bool :=
  ((9 <=? c) && (c <=? 13) || (c =? 32) || (c =? 133) || (c =? 160) || (c =? 5760)
   || (8192 <=? c) && (c <=? 8202) || (c =? 8232) || (c =? 8233) || (c =? 8239)
   || (c =? 8287) || (c =? 12288))%N.

(** SPACE_SEPARATOR: the Unicode category Zs. *)
Definition is_zs (c : char) : bool :=
  ((c =? 32) || (c =? 160) || (c =? 5760) || (8192 <=? c) && (c <=? 8202)
   || (c =? 8239) || (c =? 8287) || (c =? 12288))%N.

(** Membership of code points above 127 in the Unicode categories L and N. *)
Record unitab : Type := mkUni { nonascii_letter : char -> bool; nonascii_number : char -> bool }.

Definition ascii_letter (c : char) : bool :=
  ((65 <=? c) && (c <=? 90) || (97 <=? c) && (c <=? 122))%N.
Definition ascii_digit (c : char) : bool := ((48 <=? c) && (c <=? 57))%N.

(** LETTER and NUMBER. *)
Definition is_letter (ut : unitab) (c : char) : bool :=
  if (c <? 128)%N then ascii_letter c else nonascii_letter ut c && negb (is_ws c).
Definition is_number (ut : unitab) (c : char) : bool :=
  if (c <? 128)%N then ascii_digit c else nonascii_number ut c && negb (is_ws c).

Notation yexp := (pexp yrule).

(** Grammar notation: literals, [a ~ b], [a | b], [e+]. *)
Definition yl (s : string) : yexp := PStr (lit s).
Definition yc (c : char) : yexp := PStr [c].
Definition yplus (e : yexp) : yexp := PSeq e (PStar e).
Declare Scope peg_scope.
Delimit Scope peg_scope with peg.
Notation "a ~~ b" := (PSeq a b) (at level 41, right associativity) : peg_scope.
Notation "a // b" := (PAlt a b) (at level 42, right associativity) : peg_scope.
Definition R_ (r : yrule) : yexp := PRule r.

(** Built-in rules: NEWLINE, ANY, SPACE_SEPARATOR. *)
Definition y_any : yexp := PClass (fun _ => true).
Definition y_nl : yexp := PAlt (PStr [NL]) (PAlt (PStr [CR; NL]) (PStr [CR])).
Definition y_zs : yexp := PClass is_zs.
Definition y_zss : yexp := PStar y_zs.

Section Grammar.
  Variable ut : unitab.
  Definition y_letter : yexp := PClass (is_letter ut).
  Definition y_number : yexp := PClass (is_number ut).
  Local Open Scope peg_scope.

  (** yaml.pest 1-96, one branch per rule. *)
  Definition yaml_grammar (r : yrule) : rmode * yexp :=
    match r with
    | y_space => (Silent, yl " " // y_nl)                                              (* 1 *)
    | y_spaces => (Silent, PStar (R_ y_space))                                         (* 2 *)
    | y_hash_key =>                                                                    (* 3 *)
        (Normal, (y_letter // y_number // yl "_") ~~
                 PStar (y_letter // y_number // yl "_" // yl "-" // yl " "))
    | y_alias_name => (Normal, yplus (y_letter // y_number // yl "_"))                 (* 4 *)
    | y_dis_inline_start =>                                                            (* 12 *)
        (Normal, yl "," // yl "[" // yl "]" // yl "{" // yl "}" // yl ": " // yc DQUOTE
                 // yl "'" // yl "#" // y_nl)
    | y_dis_inline =>                                                                  (* 13 *)
        (Normal, yl "," // yl "[" // yl "]" // yl "{" // yl "}" // yl ": " // yc DQUOTE
                 // yl "#" // yl ">" // yl "|" // y_nl)
    | y_unq_inline_elements => (Normal, PNot (R_ y_dis_inline) ~~ y_any)               (* 14 *)
    | y_unq_inline_start => (Normal, PNot (R_ y_dis_inline_start) ~~ y_any)            (* 15 *)
    | y_unquoted_inline_string =>                                                      (* 16 *)
        (Atomic, R_ y_unq_inline_start ~~ PStar (R_ y_unq_inline_elements))
    | y_dis_start =>                                                                   (* 17 *)
        (Normal, yl "[" // yl "]" // yl "{" // yl "}" // yl ": " // yc DQUOTE // yl "'"
                 // yl "#" // yl ">" // yl "|" // y_nl)
    | y_dis => (Normal, yl ": " // yl "#" // y_nl)                                     (* 18 *)
    | y_unq_elements => (Normal, PNot (R_ y_dis) ~~ y_any)                             (* 19 *)
    | y_unq_start => (Normal, PNot (R_ y_dis_start) ~~ y_any)                          (* 20 *)
    | y_unquoted_string => (Atomic, R_ y_unq_start ~~ PStar (R_ y_unq_elements))       (* 21 *)
    | y_esc_value =>                                                                   (* 24 *)
        (Normal, yl "n" // yc BACKSLASH // yl "r" // yl "t" // yc DQUOTE // yc NL)
    | y_esc_char => (Silent, yc BACKSLASH ~~ R_ y_esc_value)                           (* 25 *)
    | y_dq_text =>                                                                     (* 26 *)
        (Normal, yplus (PNot (yc DQUOTE // yc BACKSLASH // yc NL) ~~ y_any))
    | y_dq_part =>                                                                     (* 27 *)
        (Normal, R_ y_esc_char // R_ y_blank_lines // R_ y_removable_newline // R_ y_dq_text)
    | y_dq_content => (Normal, PStar (R_ y_dq_part))                                   (* 28 *)
    | y_double_quoted =>                                                               (* 29 *)
        (Normal, PPush (yc DQUOTE) ~~ R_ y_dq_content ~~ PPop ~~ y_zss)
    | y_single_quote => (Normal, yc QUOTE)                                             (* 31 *)
    | y_single_quote_char => (Silent, yc QUOTE ~~ R_ y_single_quote)                   (* 32 *)
    | y_blank_lines => (Normal, yc NL ~~ yplus (yc NL))                                (* 33 *)
    | y_removable_newline => (Normal, yc NL)                                           (* 34 *)
    | y_sq_text => (Normal, yplus (PNot (yc QUOTE // yc NL) ~~ y_any))                 (* 35 *)
    | y_sq_part =>                                                                     (* 36 *)
        (Normal, R_ y_single_quote_char // R_ y_blank_lines // R_ y_removable_newline
                 // R_ y_sq_text)
    | y_sq_content => (Normal, PStar (R_ y_sq_part))                                   (* 37 *)
    | y_single_quoted =>                                                               (* 38 *)
        (Normal, PPush (yc QUOTE) ~~ R_ y_sq_content ~~ PPop ~~ y_zss)
    | y_string =>                                                                      (* 40 *)
        (Normal, R_ y_unquoted_string // R_ y_double_quoted // R_ y_single_quoted)
    | y_inline_array_string =>                                                         (* 41 *)
        (Normal, R_ y_unquoted_inline_string // R_ y_double_quoted // R_ y_single_quoted)
    | y_block_string => (Atomic, yplus (PNot y_nl ~~ y_any) // yl "")                  (* 43 *)
    | y_block_empty_lines => (Atomic, PStar y_nl)                                      (* 44 *)
    | y_ml_part =>                                                                     (* 45 *)
        (Normal, y_nl ~~ R_ y_block_empty_lines ~~ PPeekLast 2 ~~ R_ y_block_string)
    | y_ml_trailing => (Atomic, PStar (y_nl ~~ PAnd y_nl))                             (* 46 *)
    | y_ml_content =>                                                                  (* 47 *)
        (Normal, R_ y_blanknl ~~ R_ y_block_empty_lines ~~
                 (PPeek ~~ PPush (yl " ") ~~ R_ y_block_string) ~~
                 PStar (R_ y_ml_part) ~~ R_ y_ml_trailing ~~ PDrop)
    | y_ml_indent => (Normal, PStar (yplus y_number))                                  (* 48 *)
    | y_ml_folded =>                                                                   (* 49 *)
        (Normal, yl ">" ~~ POpt (R_ y_chomping) ~~ R_ y_ml_indent ~~ R_ y_ml_content)
    | y_ml_literal =>                                                                  (* 50 *)
        (Normal, yl "|" ~~ POpt (R_ y_chomping) ~~ R_ y_ml_indent ~~ R_ y_ml_content)
    | y_chomping => (Normal, yl "-" // yl "+")                                         (* 52 *)
    | y_anchor => (Normal, yl "*" ~~ R_ y_alias_name)                                  (* 54 *)
    | y_alias => (Normal, yl "&" ~~ R_ y_alias_name)                                   (* 55 *)
    | y_inline_value =>                                                                (* 56 *)
        (Normal, R_ y_anchor // R_ y_inline_array // R_ y_inline_hash // R_ y_string)
    | y_inline_array_value =>                                                          (* 57 *)
        (Normal, R_ y_anchor // R_ y_inline_array // R_ y_inline_hash
                 // R_ y_inline_array_string)
    | y_inline_array =>                                                                (* 59 *)
        (Normal, yl "[" ~~
           POpt (R_ y_spaces ~~ R_ y_inline_array_value ~~
                 PStar (R_ y_spaces ~~ yl "," ~~ R_ y_spaces ~~ R_ y_inline_array_value)) ~~
           R_ y_spaces ~~ yl "]")
    | y_block_array_element =>                                                         (* 60 *)
        (Normal, yl "-" ~~ yplus y_zs ~~ R_ y_ba_aliased)
    | y_first_block_array_element =>                                                   (* 61 *)
        (Normal, R_ y_block_array_element ~~ POpt (R_ y_comment))
    | y_block_array_data =>                                                            (* 62 *)
        (Normal, R_ y_commentnls ~~ PPeek ~~ R_ y_block_array_element ~~ POpt (R_ y_comment))
    | y_block_array =>                                                                 (* 63 *)
        (Normal, R_ y_commentnls ~~ R_ y_blank ~~ PPush y_zss ~~
                 R_ y_first_block_array_element ~~ y_zss ~~
                 PStar (R_ y_blank ~~ R_ y_block_array_data) ~~ PDrop ~~ R_ y_commentnls)
    | y_array => (Normal, R_ y_inline_array // R_ y_block_array)                       (* 64 *)
    | y_alternative_array =>                                                           (* 65 *)
        (Normal, R_ y_first_block_array_element ~~ R_ y_blanknl ~~ PPush y_zss ~~
                 R_ y_first_block_array_element ~~ y_zss ~~
                 PStar (R_ y_blanknl ~~ R_ y_block_array_data) ~~ PDrop ~~ R_ y_commentnls)
    | y_ba_aliased => (Normal, R_ y_alt_aliased // R_ y_aliased)                       (* 67 *)
    | y_alt_aliased =>                                                                 (* 68 *)
        (Normal, POpt (R_ y_alias ~~ R_ y_spaces) ~~
                 (R_ y_alternative_hash // R_ y_alternative_array))
    | y_yaml_value =>                                                                  (* 70 *)
        (Normal, R_ y_hash // R_ y_array // R_ y_ml_literal // R_ y_ml_folded
                 // R_ y_inline_value)
    | y_aliased => (Normal, POpt (R_ y_alias ~~ y_zss) ~~ R_ y_yaml_value)             (* 71 *)
    | y_hash_element =>                                                                (* 72 *)
        (Normal, R_ y_hash_key ~~ yl ":" ~~ (yplus y_zs // R_ y_blanknl) ~~ R_ y_ba_aliased)
    | y_first_hash_element => (Normal, R_ y_hash_element ~~ POpt (R_ y_comment))       (* 73 *)
    | y_hash_element_data =>                                                           (* 74 *)
        (Normal, R_ y_blanknl ~~ R_ y_commentnls ~~ PPeek ~~ R_ y_hash_element ~~
                 POpt (R_ y_comment))
    | y_hash =>                                                                        (* 75 *)
        (Normal, POpt y_nl ~~ R_ y_commentnls ~~ R_ y_blank ~~ PPush y_zss ~~
                 R_ y_first_hash_element ~~ PStar (R_ y_hash_element_data) ~~ PDrop ~~
                 R_ y_commentnls)
    | y_alt_hash_cont =>                                                               (* 77 *)
        (Normal, R_ y_blanknl ~~ R_ y_commentnls ~~ PAnd (PPeek ~~ yplus y_zs) ~~
                 PPush y_zss ~~ R_ y_first_hash_element ~~
                 PStar (R_ y_hash_element_data) ~~ PDrop)
    | y_alternative_hash =>                                                            (* 78 *)
        (Normal, R_ y_first_hash_element ~~ POpt (R_ y_alt_hash_cont) ~~ R_ y_commentnls)
    | y_inline_hash_element =>                                                         (* 81 *)
        (Normal, R_ y_hash_key ~~ R_ y_spaces ~~ yl ":" ~~ R_ y_spaces ~~
                 R_ y_inline_array_value)
    | y_inline_hash =>                                                                 (* 82 *)
        (Normal, yl "{" ~~
           POpt (R_ y_spaces ~~ R_ y_inline_hash_element ~~
                 PStar (R_ y_spaces ~~ yl "," ~~ R_ y_spaces ~~ R_ y_inline_hash_element)) ~~
           R_ y_spaces ~~ yl "}")
    | y_comment_text => (Normal, PStar (PNot y_nl ~~ y_any))                           (* 84 *)
    | y_comment_base => (Silent, y_zss ~~ yl "#" ~~ R_ y_comment_text)                 (* 85 *)
    | y_commentnl => (Normal, R_ y_comment_base ~~ R_ y_blank)                         (* 86 *)
    | y_comment => (Normal, R_ y_comment_base)                                         (* 87 *)
    | y_commentnls => (Normal, PStar (R_ y_commentnl))                                 (* 88 *)
    | y_leading_comments =>                                                            (* 90 *)
        (Normal, PStar (PStar (R_ y_blanknl) ~~ R_ y_commentnl ~~ PStar (R_ y_blanknl)))
    | y_blank =>                                                                       (* 92 *)
        (Silent, y_zss ~~ y_nl ~~ yplus (y_zss ~~ y_nl) // POpt (y_zss ~~ y_nl))
    | y_blanknl =>                                                                     (* 93 *)
        (Silent, y_zss ~~ y_nl ~~ yplus (y_zss ~~ y_nl) // y_zss ~~ y_nl)
    | y_document => (Normal, R_ y_hash // R_ y_array)                                  (* 95 *)
    | y_yaml =>                                                                        (* 96; SOI holds at the start *)
        (Normal, R_ y_leading_comments ~~ yl "---" ~~ R_ y_blanknl ~~ R_ y_commentnls ~~
                 R_ y_document ~~ R_ y_blank ~~ PStar (R_ y_comment ~~ R_ y_blank) ~~
                 R_ y_spaces ~~ PEOI y_eoi)
    | y_eoi => (Normal, PEOI y_eoi)
    end.
End Grammar.

(** Tables for the termination check. *)
Definition y_nul (r : yrule) : bool :=
  match r with
  | y_spaces | y_dq_content | y_sq_content | y_block_string | y_block_empty_lines
  | y_ml_trailing | y_ml_indent | y_comment_text | y_commentnls | y_leading_comments
  | y_blank | y_eoi => true
  | _ => false
  end.
Definition y_rank (r : yrule) : nat :=
  match r with
  | y_spaces | y_unq_inline_elements | y_unq_inline_start | y_unq_elements | y_unq_start
  | y_inline_hash_element | y_hash_element | y_first_block_array_element | y_ml_content
  | y_dq_part | y_sq_part | y_hash_element_data | y_alt_hash_cont | y_commentnl
  | y_comment => 1
  | y_unquoted_inline_string | y_unquoted_string | y_dq_content | y_sq_content
  | y_first_hash_element | y_alternative_array | y_commentnls | y_leading_comments => 2
  | y_string | y_inline_array_string | y_block_array_data | y_block_array | y_hash
  | y_alternative_hash | y_yaml => 3
  | y_inline_value | y_inline_array_value | y_array | y_alt_aliased => 4
  | y_yaml_value | y_document => 5
  | y_aliased => 6
  | y_ba_aliased => 7
  | _ => 0
  end.

Lemma yaml_grammar_ok ut r : rule_ok (yaml_grammar ut) y_nul y_rank 8 40 r = true.
Proof. destruct r; vm_compute; reflexivity. Qed.

(** Number of indentation strings a rule needs on the stack. *)
Definition y_req (r : yrule) : nat :=
  match r with
  | y_ml_content | y_ml_folded | y_ml_literal | y_block_array_data | y_hash_element_data
  | y_alt_hash_cont | y_alternative_hash | y_yaml_value | y_aliased | y_alt_aliased
  | y_ba_aliased | y_block_array_element | y_first_block_array_element | y_hash_element
  | y_first_hash_element | y_alternative_array => 1
  | _ => 0
  end.

Lemma yaml_grammar_typed ut r : rule_typed (yaml_grammar ut) y_req r = true.
Proof. destruct r; vm_compute; reflexivity. Qed.

Definition yaml_fuel (s : str) : nat := fuel 8 40 (length s).
