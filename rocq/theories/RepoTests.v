(** The snapshot tests of the repository (/repo/src/lib.rs 17-330, 805-938 with the
    expected values in /repo/src/snapshots) run on the model.  Generated from the files
    there; the equalities are checked by the kernel. *)
From Verif Require Import Base Ast Path Format Pretty Insert Peg PathGrammar YamlGrammar Consume.
Import ListNotations.

(** insta compares texts up to newlines at the end. *)
Definition trim_nl (s : str) : str := trim_end_by (ceqb NL) s.

Definition in_basic : str := lit "---
# test
k: &anch test
# hi
v: &ok
   - &ok2 test
# comment
   - *test
v: test # maybe
k: [5, 10, ""e""]
variable_groups: []
double_quoted: ""test

now a space \n vs \\n
""
single_quoted: 'test escaping ''

now a space \n vs \\n
'
l:
 - 'sqrt( {d}^({r*n+m}m+{p}) * x^({r*a+p})  * y^{b*r+q} )'
 - Read the values of the cyclometric numbers off of the circle. <br/> {gon_circle}

# after
".
Definition doc_basic : document := (mkDoc [] [DComment (lit " test"); DYaml (Hash [HElem (mkHE (lit "k") (mkA (Some (lit "anch")) (Unquoted (lit "test")))); HComment (lit " hi"); HElem (mkHE (lit "v") (mkA (Some (lit "ok")) (Array [AElem (mkA (Some (lit "ok2")) (Unquoted (lit "test"))); AComment (lit " comment"); AElem (mkA None (Anchor (lit "test")))]))); HElem (mkHE (lit "v") (mkA None (Unquoted (lit "test")))); HInlineC (lit " maybe"); HElem (mkHE (lit "k") (mkA None (InlineArray [(Unquoted (lit "5")); (Unquoted (lit "10")); (DoubleQ [DQ_Str (lit "e")])]))); HElem (mkHE (lit "variable_groups") (mkA None (InlineArray []))); HElem (mkHE (lit "double_quoted") (mkA None (DoubleQ [DQ_Str (lit "test"); DQ_Blank 1; DQ_Str (lit "now a space "); DQ_Esc E_Newline; DQ_Str (lit " vs "); DQ_Esc E_Backslash; DQ_Str (lit "n"); DQ_RemNl]))); HElem (mkHE (lit "single_quoted") (mkA None (SingleQ [SQ_Str (lit "test escaping "); SQ_Quote; SQ_Blank 1; SQ_Str (lit "now a space \n vs \\n"); SQ_RemNl]))); HElem (mkHE (lit "l") (mkA None (Array [AElem (mkA None (SingleQ [SQ_Str (lit "sqrt( {d}^({r*n+m}m+{p}) * x^({r*a+p})  * y^{b*r+q} )")])); AElem (mkA None (Unquoted (lit "Read the values of the cyclometric numbers off of the circle. <br/> {gon_circle}")))])))]); DComment (lit " after")]).
Example parse_basic ut : parse_yaml ut in_basic = CVal doc_basic.
Proof. vm_compute. reflexivity. Qed.
Example format_basic :
  trim_nl (format_doc (doc_basic)) =
  trim_nl (lit "---
# test
k: &anch test
# hi
v: &ok
  - &ok2 test
  # comment
  - *test
v: test # maybe
k: [ 5, 10, ""e"" ]
variable_groups: []
double_quoted: ""test

now a space \n vs \\n
""
single_quoted: 'test escaping ''

now a space \n vs \\n
'
l:
  - 'sqrt( {d}^({r*n+m}m+{p}) * x^({r*a+p})  * y^{b*r+q} )'
  - Read the values of the cyclometric numbers off of the circle. <br/> {gon_circle}
# after").
Proof. vm_compute. reflexivity. Qed.

Definition in_inline_hash : str := lit "---
field: &test {}
item: {}
item2: { key: ""value"", other: [a, b]}
other: # check
  combine: { key: { key: [l, {a: ""b""}]} }
  item: {}
".
Definition doc_inline_hash : document := (mkDoc [] [DYaml (Hash [HElem (mkHE (lit "field") (mkA (Some (lit "test")) (InlineHash []))); HElem (mkHE (lit "item") (mkA None (InlineHash []))); HElem (mkHE (lit "item2") (mkA None (InlineHash [((lit "key"), (DoubleQ [DQ_Str (lit "value")])); ((lit "other"), (InlineArray [(Unquoted (lit "a")); (Unquoted (lit "b"))]))]))); HElem (mkHE (lit "other") (mkA None (Hash [HComment (lit " check"); HElem (mkHE (lit "combine") (mkA None (InlineHash [((lit "key"), (InlineHash [((lit "key"), (InlineArray [(Unquoted (lit "l")); (InlineHash [((lit "a"), (DoubleQ [DQ_Str (lit "b")]))])]))]))]))); HElem (mkHE (lit "item") (mkA None (InlineHash [])))])))])]).
Example parse_inline_hash ut : parse_yaml ut in_inline_hash = CVal doc_inline_hash.
Proof. vm_compute. reflexivity. Qed.
Example format_inline_hash :
  trim_nl (format_doc (doc_inline_hash)) =
  trim_nl (lit "---
field: &test {}
item: {}
item2: { key: ""value"", other: [ a, b ] }
other:
  # check
  combine: { key: { key: [ l, { a: ""b"" } ] } }
  item: {}").
Proof. vm_compute. reflexivity. Qed.

Definition in_block_delimiters_in_text : str := lit "---
content: When you press <em>Submit part</em>.
abs: An absolute value is written as |x|
".
Definition doc_block_delimiters_in_text : document := (mkDoc [] [DYaml (Hash [HElem (mkHE (lit "content") (mkA None (Unquoted (lit "When you press <em>Submit part</em>.")))); HElem (mkHE (lit "abs") (mkA None (Unquoted (lit "An absolute value is written as |x|"))))])]).
Example parse_block_delimiters_in_text ut : parse_yaml ut in_block_delimiters_in_text = CVal doc_block_delimiters_in_text.
Proof. vm_compute. reflexivity. Qed.
Example format_block_delimiters_in_text :
  trim_nl (format_doc (doc_block_delimiters_in_text)) =
  trim_nl (lit "---
content: When you press <em>Submit part</em>.
abs: An absolute value is written as |x|").
Proof. vm_compute. reflexivity. Qed.

Definition in_array_delimiters_in_text : str := lit "---
default_value:  random(-9 .. 9 except [0, a])    
".
Definition doc_array_delimiters_in_text : document := (mkDoc [] [DYaml (Hash [HElem (mkHE (lit "default_value") (mkA None (Unquoted (lit "random(-9 .. 9 except [0, a])"))))])]).
Example parse_array_delimiters_in_text ut : parse_yaml ut in_array_delimiters_in_text = CVal doc_array_delimiters_in_text.
Proof. vm_compute. reflexivity. Qed.
Example format_array_delimiters_in_text :
  trim_nl (format_doc (doc_array_delimiters_in_text)) =
  trim_nl (lit "---
default_value: random(-9 .. 9 except [0, a])").
Proof. vm_compute. reflexivity. Qed.

Definition in_comments_before_start : str := lit "
# a comment
# another one

---
x: 5

  ".
Definition doc_comments_before_start : document := (mkDoc [(lit " a comment"); (lit " another one")] [DYaml (Hash [HElem (mkHE (lit "x") (mkA None (Unquoted (lit "5"))))])]).
Example parse_comments_before_start ut : parse_yaml ut in_comments_before_start = CVal doc_comments_before_start.
Proof. vm_compute. reflexivity. Qed.
Example format_comments_before_start :
  trim_nl (format_doc (doc_comments_before_start)) =
  trim_nl (lit "# a comment
# another one
---
x: 5").
Proof. vm_compute. reflexivity. Qed.

Definition in_elab : str := lit "---
# test
k: &anch test
# hi

v: &ok
   - &ok2 test
# comment
   - *test # an anchor
v: test # maybe
k: &kk [5, 10, ""e""]
# after
y: - x: 5
     z: &zfield 6 # yess

   - n: 8

   - j
# between
z: - *kk

   - ke
k: - - j
     - k

     - l
   - - m
     - z: k


       t: - m: l # comment
            p: 4 # comment
          - m # after m
# wow
# something else
".
Definition doc_elab : document := (mkDoc [] [DComment (lit " test"); DYaml (Hash [HElem (mkHE (lit "k") (mkA (Some (lit "anch")) (Unquoted (lit "test")))); HComment (lit " hi"); HElem (mkHE (lit "v") (mkA (Some (lit "ok")) (Array [AElem (mkA (Some (lit "ok2")) (Unquoted (lit "test"))); AComment (lit " comment"); AElem (mkA None (Anchor (lit "test"))); AInlineC (lit " an anchor")]))); HElem (mkHE (lit "v") (mkA None (Unquoted (lit "test")))); HInlineC (lit " maybe"); HElem (mkHE (lit "k") (mkA (Some (lit "kk")) (InlineArray [(Unquoted (lit "5")); (Unquoted (lit "10")); (DoubleQ [DQ_Str (lit "e")])]))); HComment (lit " after"); HElem (mkHE (lit "y") (mkA None (Array [AElem (mkA None (Hash [HElem (mkHE (lit "x") (mkA None (Unquoted (lit "5")))); HElem (mkHE (lit "z") (mkA (Some (lit "zfield")) (Unquoted (lit "6")))); HInlineC (lit " yess")])); AElem (mkA None (Hash [HElem (mkHE (lit "n") (mkA None (Unquoted (lit "8"))))])); AElem (mkA None (Unquoted (lit "j")))]))); HComment (lit " between"); HElem (mkHE (lit "z") (mkA None (Array [AElem (mkA None (Anchor (lit "kk"))); AElem (mkA None (Unquoted (lit "ke")))]))); HElem (mkHE (lit "k") (mkA None (Array [AElem (mkA None (Array [AElem (mkA None (Unquoted (lit "j"))); AElem (mkA None (Unquoted (lit "k"))); AElem (mkA None (Unquoted (lit "l")))])); AElem (mkA None (Array [AElem (mkA None (Unquoted (lit "m"))); AElem (mkA None (Hash [HElem (mkHE (lit "z") (mkA None (Unquoted (lit "k")))); HElem (mkHE (lit "t") (mkA None (Array [AElem (mkA None (Hash [HElem (mkHE (lit "m") (mkA None (Unquoted (lit "l")))); HInlineC (lit " comment"); HElem (mkHE (lit "p") (mkA None (Unquoted (lit "4")))); HInlineC (lit " comment")])); AElem (mkA None (Unquoted (lit "m"))); AInlineC (lit " after m")])))]))]))])))]); DComment (lit " wow"); DComment (lit " something else")]).
Example parse_elab ut : parse_yaml ut in_elab = CVal doc_elab.
Proof. vm_compute. reflexivity. Qed.
Example format_elab :
  trim_nl (format_doc (doc_elab)) =
  trim_nl (lit "---
# test
k: &anch test
# hi
v: &ok
  - &ok2 test
  # comment
  - *test # an anchor
v: test # maybe
k: &kk [ 5, 10, ""e"" ]
# after
y:
  - x: 5
    z: &zfield 6 # yess
  - n: 8
  - j
# between
z:
  - *kk
  - ke
k:
  - - j
    - k
    - l
  - - m
    - z: k
      t:
        - m: l # comment
          p: 4 # comment
        - m # after m
# wow
# something else").
Proof. vm_compute. reflexivity. Qed.

Definition in_block_scalars : str := lit "---
        newlines: &newline |
                  Several lines of text,
                  with some ""quotes"" of various 'types',
                  and also a blank line:
                  
                  and some text with
                    extra indentation
                  on the next line,
                  plus another line at the end.
                  
        folded: &folded >
                  Several lines of text,
                  with some ""quotes"" of various 'types',
                  and also a blank line:
                  
                  and some text with
                    extra indentation
                  on the next line,
                  plus another line at the end.
                  
                  
                  
        test: 5".
Definition doc_block_scalars : document := (mkDoc [] [DYaml (Hash [HElem (mkHE (lit "newlines") (mkA (Some (lit "newline")) (Literal [(lit "Several lines of text,"); (lit "with some ""quotes"" of various 'types',"); (lit "and also a blank line:"); (lit ""); (lit "and some text with"); (lit "  extra indentation"); (lit "on the next line,"); (lit "plus another line at the end."); (lit "")] Clip))); HElem (mkHE (lit "folded") (mkA (Some (lit "folded")) (Folded [(lit "Several lines of text,"); (lit "with some ""quotes"" of various 'types',"); (lit "and also a blank line:"); (lit ""); (lit "and some text with"); (lit "  extra indentation"); (lit "on the next line,"); (lit "plus another line at the end."); (lit ""); (lit ""); (lit "")] Clip))); HElem (mkHE (lit "test") (mkA None (Unquoted (lit "5"))))])]).
Example parse_block_scalars ut : parse_yaml ut in_block_scalars = CVal doc_block_scalars.
Proof. vm_compute. reflexivity. Qed.
Example format_block_scalars :
  trim_nl (format_doc (doc_block_scalars)) =
  trim_nl (lit "---
newlines: &newline |
  Several lines of text,
  with some ""quotes"" of various 'types',
  and also a blank line:
  
  and some text with
    extra indentation
  on the next line,
  plus another line at the end.
  
folded: &folded >
  Several lines of text,
  with some ""quotes"" of various 'types',
  and also a blank line:
  
  and some text with
    extra indentation
  on the next line,
  plus another line at the end.
  
  
  
test: 5").
Proof. vm_compute. reflexivity. Qed.

Definition in_block_scalars_with_chomping : str := lit "---
        newlines: &newline |-
                  Several lines of text,
                  with some ""quotes"" of various 'types',
                  and also a blank line:
                  
                  and some text with
                    extra indentation
                  on the next line,
                  plus another line at the end.
                  
        folded: &folded >+
                  Several lines of text,
                  with some ""quotes"" of various 'types',
                  and also a blank line:
                  
                  and some text with
                    extra indentation
                  on the next line,
                  plus another line at the end.
                  
                  
                  
        test: 5".
Definition doc_block_scalars_with_chomping : document := (mkDoc [] [DYaml (Hash [HElem (mkHE (lit "newlines") (mkA (Some (lit "newline")) (Literal [(lit "Several lines of text,"); (lit "with some ""quotes"" of various 'types',"); (lit "and also a blank line:"); (lit ""); (lit "and some text with"); (lit "  extra indentation"); (lit "on the next line,"); (lit "plus another line at the end."); (lit "")] Strip))); HElem (mkHE (lit "folded") (mkA (Some (lit "folded")) (Folded [(lit "Several lines of text,"); (lit "with some ""quotes"" of various 'types',"); (lit "and also a blank line:"); (lit ""); (lit "and some text with"); (lit "  extra indentation"); (lit "on the next line,"); (lit "plus another line at the end."); (lit ""); (lit ""); (lit "")] Keep))); HElem (mkHE (lit "test") (mkA None (Unquoted (lit "5"))))])]).
Example parse_block_scalars_with_chomping ut : parse_yaml ut in_block_scalars_with_chomping = CVal doc_block_scalars_with_chomping.
Proof. vm_compute. reflexivity. Qed.
Example format_block_scalars_with_chomping :
  trim_nl (format_doc (doc_block_scalars_with_chomping)) =
  trim_nl (lit "---
newlines: &newline |-
  Several lines of text,
  with some ""quotes"" of various 'types',
  and also a blank line:
  
  and some text with
    extra indentation
  on the next line,
  plus another line at the end.
  
folded: &folded >+
  Several lines of text,
  with some ""quotes"" of various 'types',
  and also a blank line:
  
  and some text with
    extra indentation
  on the next line,
  plus another line at the end.
  
  
  
test: 5").
Proof. vm_compute. reflexivity. Qed.

Definition in_block_scalars_with_indent : str := lit "---
        newlines: &newline |10
                    Several lines of text,
                  with some ""quotes"" of various 'types',
                  and also a blank line:
                  
                  and some text with
                    extra indentation
                  on the next line,
                  plus another line at the end.
                  
        folded: &folded >10
                    Several lines of text,
                  with some ""quotes"" of various 'types',
                  and also a blank line:
                  
                  and some text with
                    extra indentation
                  on the next line,
                  plus another line at the end.
                  
                  
                  
        test: 5".
Definition doc_block_scalars_with_indent : document := (mkDoc [] [DYaml (Hash [HElem (mkHE (lit "newlines") (mkA (Some (lit "newline")) (Literal [(lit "  Several lines of text,"); (lit "with some ""quotes"" of various 'types',"); (lit "and also a blank line:"); (lit ""); (lit "and some text with"); (lit "  extra indentation"); (lit "on the next line,"); (lit "plus another line at the end."); (lit "")] Clip))); HElem (mkHE (lit "folded") (mkA (Some (lit "folded")) (Folded [(lit "  Several lines of text,"); (lit "with some ""quotes"" of various 'types',"); (lit "and also a blank line:"); (lit ""); (lit "and some text with"); (lit "  extra indentation"); (lit "on the next line,"); (lit "plus another line at the end."); (lit ""); (lit ""); (lit "")] Clip))); HElem (mkHE (lit "test") (mkA None (Unquoted (lit "5"))))])]).
Example parse_block_scalars_with_indent ut : parse_yaml ut in_block_scalars_with_indent = CVal doc_block_scalars_with_indent.
Proof. vm_compute. reflexivity. Qed.
Example format_block_scalars_with_indent :
  trim_nl (format_doc (doc_block_scalars_with_indent)) =
  trim_nl (lit "---
newlines: &newline |2
    Several lines of text,
  with some ""quotes"" of various 'types',
  and also a blank line:
  
  and some text with
    extra indentation
  on the next line,
  plus another line at the end.
  
folded: &folded >2
    Several lines of text,
  with some ""quotes"" of various 'types',
  and also a blank line:
  
  and some text with
    extra indentation
  on the next line,
  plus another line at the end.
  
  
  
test: 5").
Proof. vm_compute. reflexivity. Qed.

Definition in_block_scalars_with_indent_and_empty_lines : str := lit "---
        newlines: &newline |10
                    Several lines of text,
                  with some ""quotes"" of various 'types',
                  and also a blank line:

                  and some text with
                    extra indentation
                  on the next line,
                  plus another line at the end.
                  
        folded: &folded >10
                    Several lines of text,
                  with some ""quotes"" of various 'types',
                  and also a blank line:

                  and some text with
                    extra indentation
                  on the next line,
                  plus another line at the end.
                  
                  
                  
        test: 5".
Definition doc_block_scalars_with_indent_and_empty_lines : document := (mkDoc [] [DYaml (Hash [HElem (mkHE (lit "newlines") (mkA (Some (lit "newline")) (Literal [(lit "  Several lines of text,"); (lit "with some ""quotes"" of various 'types',"); (lit "and also a blank line:"); (lit ""); (lit "and some text with"); (lit "  extra indentation"); (lit "on the next line,"); (lit "plus another line at the end."); (lit "")] Clip))); HElem (mkHE (lit "folded") (mkA (Some (lit "folded")) (Folded [(lit "  Several lines of text,"); (lit "with some ""quotes"" of various 'types',"); (lit "and also a blank line:"); (lit ""); (lit "and some text with"); (lit "  extra indentation"); (lit "on the next line,"); (lit "plus another line at the end."); (lit ""); (lit ""); (lit "")] Clip))); HElem (mkHE (lit "test") (mkA None (Unquoted (lit "5"))))])]).
Example parse_block_scalars_with_indent_and_empty_lines ut : parse_yaml ut in_block_scalars_with_indent_and_empty_lines = CVal doc_block_scalars_with_indent_and_empty_lines.
Proof. vm_compute. reflexivity. Qed.
Example format_block_scalars_with_indent_and_empty_lines :
  trim_nl (format_doc (doc_block_scalars_with_indent_and_empty_lines)) =
  trim_nl (lit "---
newlines: &newline |2
    Several lines of text,
  with some ""quotes"" of various 'types',
  and also a blank line:
  
  and some text with
    extra indentation
  on the next line,
  plus another line at the end.
  
folded: &folded >2
    Several lines of text,
  with some ""quotes"" of various 'types',
  and also a blank line:
  
  and some text with
    extra indentation
  on the next line,
  plus another line at the end.
  
  
  
test: 5").
Proof. vm_compute. reflexivity. Qed.

Definition in_block_scalars_deeper : str := lit "---
parts:
  - 
    type: gapfill
    marks: 0
    prompt:
      content: test
      other: |
        8
        10".
Definition doc_block_scalars_deeper : document := (mkDoc [] [DYaml (Hash [HElem (mkHE (lit "parts") (mkA None (Array [AElem (mkA None (Hash [HElem (mkHE (lit "type") (mkA None (Unquoted (lit "gapfill")))); HElem (mkHE (lit "marks") (mkA None (Unquoted (lit "0")))); HElem (mkHE (lit "prompt") (mkA None (Hash [HElem (mkHE (lit "content") (mkA None (Unquoted (lit "test")))); HElem (mkHE (lit "other") (mkA None (Literal [(lit "8"); (lit "10")] Clip)))])))]))])))])]).
Example parse_block_scalars_deeper ut : parse_yaml ut in_block_scalars_deeper = CVal doc_block_scalars_deeper.
Proof. vm_compute. reflexivity. Qed.
Example format_block_scalars_deeper :
  trim_nl (format_doc (doc_block_scalars_deeper)) =
  trim_nl (lit "---
parts:
  - type: gapfill
    marks: 0
    prompt:
      content: test
      other: |
        8
        10").
Proof. vm_compute. reflexivity. Qed.

Definition in_commas_in_unquoted_string : str := lit "---
inline_array: [test, 5, hi]
s: &key test, 5, hi
".
Definition doc_commas_in_unquoted_string : document := (mkDoc [] [DYaml (Hash [HElem (mkHE (lit "inline_array") (mkA None (InlineArray [(Unquoted (lit "test")); (Unquoted (lit "5")); (Unquoted (lit "hi"))]))); HElem (mkHE (lit "s") (mkA (Some (lit "key")) (Unquoted (lit "test, 5, hi"))))])]).
Example parse_commas_in_unquoted_string ut : parse_yaml ut in_commas_in_unquoted_string = CVal doc_commas_in_unquoted_string.
Proof. vm_compute. reflexivity. Qed.
Example format_commas_in_unquoted_string :
  trim_nl (format_doc (doc_commas_in_unquoted_string)) =
  trim_nl (lit "---
inline_array: [ test, 5, hi ]
s: &key test, 5, hi").
Proof. vm_compute. reflexivity. Qed.

Definition in_alternative_hash_comment_between_first_and_second : str := lit "---
parts:
- type: choose_one
  # prompt: ""file:statement-wrong.html""
  answer_data: tmp 
  ".
Definition doc_alternative_hash_comment_between_first_and_second : document := (mkDoc [] [DYaml (Hash [HElem (mkHE (lit "parts") (mkA None (Array [AElem (mkA None (Hash [HElem (mkHE (lit "type") (mkA None (Unquoted (lit "choose_one")))); HComment (lit " prompt: ""file:statement-wrong.html"""); HElem (mkHE (lit "answer_data") (mkA None (Unquoted (lit "tmp"))))]))])))])]).
Example parse_alternative_hash_comment_between_first_and_second ut : parse_yaml ut in_alternative_hash_comment_between_first_and_second = CVal doc_alternative_hash_comment_between_first_and_second.
Proof. vm_compute. reflexivity. Qed.
Example format_alternative_hash_comment_between_first_and_second :
  trim_nl (format_doc (doc_alternative_hash_comment_between_first_and_second)) =
  trim_nl (lit "---
parts:
  - type: choose_one
    # prompt: ""file:statement-wrong.html""
    answer_data: tmp").
Proof. vm_compute. reflexivity. Qed.

Definition in_comment_before_first_key : str := lit "---
default_value:
    content: 
      # NOTE: the 'original' non-shuffled array advr is used, rather than x_advr !!!
      # Better advice to be written ...? This one does not correctly extend to users of this template!!
      nl: ""Gebruik het merkwaardig product {if(a*b>0, advr[0], advr[1])}""
      en: ""Use the special product {if(a*b>0, advr[0], advr[1])}""".
Definition doc_comment_before_first_key : document := (mkDoc [] [DYaml (Hash [HElem (mkHE (lit "default_value") (mkA None (Hash [HElem (mkHE (lit "content") (mkA None (Hash [HComment (lit " NOTE: the 'original' non-shuffled array advr is used, rather than x_advr !!!"); HComment (lit " Better advice to be written ...? This one does not correctly extend to users of this template!!"); HElem (mkHE (lit "nl") (mkA None (DoubleQ [DQ_Str (lit "Gebruik het merkwaardig product {if(a*b>0, advr[0], advr[1])}")]))); HElem (mkHE (lit "en") (mkA None (DoubleQ [DQ_Str (lit "Use the special product {if(a*b>0, advr[0], advr[1])}")])))])))])))])]).
Example parse_comment_before_first_key ut : parse_yaml ut in_comment_before_first_key = CVal doc_comment_before_first_key.
Proof. vm_compute. reflexivity. Qed.
Example format_comment_before_first_key :
  trim_nl (format_doc (doc_comment_before_first_key)) =
  trim_nl (lit "---
default_value:
  content:
    # NOTE: the 'original' non-shuffled array advr is used, rather than x_advr !!!
    # Better advice to be written ...? This one does not correctly extend to users of this template!!
    nl: ""Gebruik het merkwaardig product {if(a*b>0, advr[0], advr[1])}""
    en: ""Use the special product {if(a*b>0, advr[0], advr[1])}""").
Proof. vm_compute. reflexivity. Qed.

Definition in_neg_number_in_list : str := lit "---
vset_range:
  - -10
  - 10
vset_range_points: 20
".
Definition doc_neg_number_in_list : document := (mkDoc [] [DYaml (Hash [HElem (mkHE (lit "vset_range") (mkA None (Array [AElem (mkA None (Unquoted (lit "-10"))); AElem (mkA None (Unquoted (lit "10")))]))); HElem (mkHE (lit "vset_range_points") (mkA None (Unquoted (lit "20"))))])]).
Example parse_neg_number_in_list ut : parse_yaml ut in_neg_number_in_list = CVal doc_neg_number_in_list.
Proof. vm_compute. reflexivity. Qed.
Example format_neg_number_in_list :
  trim_nl (format_doc (doc_neg_number_in_list)) =
  trim_nl (lit "---
vset_range:
  - -10
  - 10
vset_range_points: 20").
Proof. vm_compute. reflexivity. Qed.

Definition in_pretty_long_double_quoted_string : str := lit "---
default_value: ""import math\ndef schuine_zijde(a,b):\n  pytha = math.sqrt(a**2+b**2)\n  return pytha\nprint(schuine_zijde(6,7))""   
".
Definition doc_pretty_long_double_quoted_string : document := (mkDoc [] [DYaml (Hash [HElem (mkHE (lit "default_value") (mkA None (DoubleQ [DQ_Str (lit "import math"); DQ_Esc E_Newline; DQ_Str (lit "def schuine_zijde(a,b):"); DQ_Esc E_Newline; DQ_Str (lit "  pytha = math.sqrt(a**2+b**2)"); DQ_Esc E_Newline; DQ_Str (lit "  return pytha"); DQ_Esc E_Newline; DQ_Str (lit "print(schuine_zijde(6,7))")])))])]).
Example parse_pretty_long_double_quoted_string ut : parse_yaml ut in_pretty_long_double_quoted_string = CVal doc_pretty_long_double_quoted_string.
Proof. vm_compute. reflexivity. Qed.
Example format_pretty_long_double_quoted_string :
  trim_nl (format_doc (pretty_doc doc_pretty_long_double_quoted_string)) =
  trim_nl (lit "---
default_value: |-
  import math
  def schuine_zijde(a,b):
    pytha = math.sqrt(a**2+b**2)
    return pytha
  print(schuine_zijde(6,7))").
Proof. vm_compute. reflexivity. Qed.

Definition in_pretty_long_double_quoted_string_deeper_level : str := lit "---
submission_id: 0195d1a3-9c41-7203-aad8-29603034fd9c
datetime_rfc3339: ""2025-03-26T09:48:35.393+01:00""
type_with_data:
  Programming:
    content:
      code: ""import math\ndef schuine_zijde(a,b):\n  c = math.sqrt(a.a + b.b)\n  return c""".
Definition doc_pretty_long_double_quoted_string_deeper_level : document := (mkDoc [] [DYaml (Hash [HElem (mkHE (lit "submission_id") (mkA None (Unquoted (lit "0195d1a3-9c41-7203-aad8-29603034fd9c")))); HElem (mkHE (lit "datetime_rfc3339") (mkA None (DoubleQ [DQ_Str (lit "2025-03-26T09:48:35.393+01:00")]))); HElem (mkHE (lit "type_with_data") (mkA None (Hash [HElem (mkHE (lit "Programming") (mkA None (Hash [HElem (mkHE (lit "content") (mkA None (Hash [HElem (mkHE (lit "code") (mkA None (DoubleQ [DQ_Str (lit "import math"); DQ_Esc E_Newline; DQ_Str (lit "def schuine_zijde(a,b):"); DQ_Esc E_Newline; DQ_Str (lit "  c = math.sqrt(a.a + b.b)"); DQ_Esc E_Newline; DQ_Str (lit "  return c")])))])))])))])))])]).
Example parse_pretty_long_double_quoted_string_deeper_level ut : parse_yaml ut in_pretty_long_double_quoted_string_deeper_level = CVal doc_pretty_long_double_quoted_string_deeper_level.
Proof. vm_compute. reflexivity. Qed.
Example format_pretty_long_double_quoted_string_deeper_level :
  trim_nl (format_doc (pretty_doc doc_pretty_long_double_quoted_string_deeper_level)) =
  trim_nl (lit "---
submission_id: 0195d1a3-9c41-7203-aad8-29603034fd9c
datetime_rfc3339: ""2025-03-26T09:48:35.393+01:00""
type_with_data:
  Programming:
    content:
      code: |-
        import math
        def schuine_zijde(a,b):
          c = math.sqrt(a.a + b.b)
          return c").
Proof. vm_compute. reflexivity. Qed.

(** The tests of the path operations: lib.rs 333-804, 818-913. *)
Section Operations.
  Context (ut : unitab).

  (** The test: parse, apply the operation at the path, compare with the parsed
      expectation and with the expected count. *)
  Definition passes {A} (op : path -> document -> A * document) (p inp out : str) (n : A) : Prop :=
    match parse_path p, parse_yaml ut inp, parse_yaml ut out with
    | Some pa, CVal d, CVal d' => op pa d = (n, d')
    | _, _, _ => False
    end.
  Definition mts sub names p d :=
    for_hash_doc (Some 0) opt_add (on_elem_value (mts_r parse_path sub names))
      (mts_r parse_path sub names) p d.
  Definition mtm old sel new keeps p d :=
    for_hash_doc (Some 0) opt_add (on_elem_value (mtm_r parse_path old sel new keeps))
      (mtm_r parse_path old sel new keeps) p d.
  Definition plain_value (s : str) : aliased := mkA None (Unquoted s).
  Definition dq_value (s : str) : aliased := mkA None (DoubleQ [DQ_Str s]).

  Example op_insert_hash_top :
    passes (fun p => insert_into_hash_doc p (plain_value (lit "value")) false) (lit "new")
      (lit "---
inline_array: [test, 5, hi]
s: &key test, 5, hi
item:
 key: value
")
      (lit "---
inline_array: [test, 5, hi]
s: &key test, 5, hi
item:
 key: value
new: value
") 1.
  Proof. vm_compute. reflexivity. Qed.

  Example op_insert_hash :
    passes (fun p => insert_into_hash_doc p (dq_value (lit "test")) false) (lit "item.key2")
      (lit "---
inline_array: [test, 5, hi]
s: &key test, 5, hi
item:
 key: value
")
      (lit "---
inline_array: [test, 5, hi]
s: &key test, 5, hi
item:
 key: value
 key2: ""test""
") 1.
  Proof. vm_compute. reflexivity. Qed.

  Example op_insert_hash_2 :
    passes (fun p => insert_into_hash_doc p (dq_value (lit "test2")) false) (lit "item.key2")
      (lit "---
inline_array: [test, 5, hi]
s: &key test, 5, hi
item:
 key: value
 key2: ""test""
")
      (lit "---
inline_array: [test, 5, hi]
s: &key test, 5, hi
item:
 key: value
 key2: ""test""
") 0.
  Proof. vm_compute. reflexivity. Qed.

  Example op_insert_hash_3 :
    passes (fun p => insert_into_hash_doc p (dq_value (lit "test2")) true) (lit "item.key2")
      (lit "---
inline_array: [test, 5, hi]
s: &key test, 5, hi
item:
 key: value
 key2: ""test""
")
      (lit "---
inline_array: [test, 5, hi]
s: &key test, 5, hi
item:
 key: value
 key2: ""test2""
") 1.
  Proof. vm_compute. reflexivity. Qed.

  Example op_rename_field :
    passes (fun p => rename_field_doc p (lit "newkey")) (lit "item.key")
      (lit "---
inline_array: [test, 5, hi]
s: &key test, 5, hi
item:
 key: value
")
      (lit "---
inline_array: [test, 5, hi]
s: &key test, 5, hi
item:
 newkey: value
") 1.
  Proof. vm_compute. reflexivity. Qed.

  Example op_rename_field_list_in_list :
    passes (fun p => rename_field_doc p (lit "new_name")) (lit "parts[*]|type=gapfill.gaps[*].old_name")
      (lit "---
parts:
  - type: gapfill
    gaps:
      - type: jme
        old_name: value
      - type: jme
        old_name: value
  - type: random 
    gaps:
      - type: jme
        old_name: value
      - type: jme
        old_name: value
  - type: gapfill
    gaps:
      - type: jme
        old_name: value
      - type: jme
        old_name: value
")
      (lit "---
parts:
  - type: gapfill
    gaps:
      - type: jme
        new_name: value
      - type: jme
        new_name: value
  - type: random 
    gaps:
      - type: jme
        old_name: value
      - type: jme
        old_name: value
  - type: gapfill
    gaps:
      - type: jme
        new_name: value
      - type: jme
        new_name: value
") 4.
  Proof. vm_compute. reflexivity. Qed.

  Example op_to_object :
    passes (fun p => to_object_doc p (lit "subkey")) (lit "item.key")
      (lit "---
inline_array: [test, 5, hi]
s: &key test, 5, hi
item:
 key: value
")
      (lit "---
inline_array: [test, 5, hi]
s: &key test, 5, hi
item:
 key: 
   subkey: value
") 1.
  Proof. vm_compute. reflexivity. Qed.

  Example op_to_object_with_condition :
    passes (fun p => to_object_doc p (lit "subkey")) (lit "item.key|key=value")
      (lit "---
inline_array: [test, 5, hi]
s: &key test, 5, hi
item:
 key: value
")
      (lit "---
inline_array: [test, 5, hi]
s: &key test, 5, hi
item:
 key: 
   subkey: value
") 1.
  Proof. vm_compute. reflexivity. Qed.

  Example op_to_object_with_condition_2 :
    passes (fun p => to_object_doc p (lit "subkey")) (lit "item.key|key=other")
      (lit "---
inline_array: [test, 5, hi]
s: &key test, 5, hi
item:
 key: value
")
      (lit "---
inline_array: [test, 5, hi]
s: &key test, 5, hi
item:
 key: value
") 0.
  Proof. vm_compute. reflexivity. Qed.

  Example op_remove_from_hash :
    passes (remove_from_hash_doc) (lit "item")
      (lit "---
inline_array: [test, 5, hi]
s: &key test, 5, hi
item:
 key: value
")
      (lit "---
inline_array: [test, 5, hi]
s: &key test, 5, hi
") 1.
  Proof. vm_compute. reflexivity. Qed.

  Example op_remove_from_hash_deeper :
    passes (remove_from_hash_doc) (lit "item.key.item")
      (lit "---
inline_array: [test, 5, hi]
s: &key test, 5, hi
item:
 key:
  item: 5
  item2: 6
")
      (lit "---
inline_array: [test, 5, hi]
s: &key test, 5, hi
item:
  key:
    item2: 6
") 1.
  Proof. vm_compute. reflexivity. Qed.

  Example op_remove_from_hash_deeper_with_condition :
    passes (remove_from_hash_doc) (lit "item|type=test.key.item")
      (lit "---
type: test
inline_array: [test, 5, hi]
s: &key test, 5, hi
item:
 key:
  item: 5
  item2: 6
")
      (lit "---
type: test
inline_array: [test, 5, hi]
s: &key test, 5, hi
item:
  key:
    item2: 6
") 1.
  Proof. vm_compute. reflexivity. Qed.

  Example op_remove_from_hash_deeper_with_condition_2 :
    passes (remove_from_hash_doc) (lit "item|type=other.key.item")
      (lit "---
type: test
inline_array: [test, 5, hi]
s: &key test, 5, hi
item:
 key:
  item: 5
  item2: 6
")
      (lit "---
type: test
inline_array: [test, 5, hi]
s: &key test, 5, hi
item:
 key:
  item: 5
  item2: 6
") 0.
  Proof. vm_compute. reflexivity. Qed.

  Example op_move_to_subfield_in_root :
    passes (mts (lit "sub") [lit "e"; lit "b"; lit "d"]) (lit "")
      (lit "---
a: vala
b: valb
c: valc
d: vald
e: vale
")
      (lit "---
a: vala
c: valc
sub:
    e: vale
    b: valb
    d: vald
") (Some 1).
  Proof. vm_compute. reflexivity. Qed.

  Example op_move_to_subfield :
    passes (mts (lit "sub") [lit "e"; lit "b"; lit "d"]) (lit "k")
      (lit "---
k:
  a: vala
  b: valb
  c: valc
  d: vald
  e: vale
")
      (lit "---
k:
  a: vala
  c: valc
  sub:
    e: vale
    b: valb
    d: vald
") (Some 1).
  Proof. vm_compute. reflexivity. Qed.

  Example op_move_to_existing_subfield :
    passes (mts (lit "l") [lit "e"; lit "b"; lit "d"; lit "kk"]) (lit "k")
      (lit "---
k:
  a: vala
  b: valb
  c: valc
  d: vald
  e: vale
  l:
    z: valz
")
      (lit "---
k:
  a: vala
  c: valc
  l:
    z: valz
    e: vale
    b: valb
    d: vald
") (Some 1).
  Proof. vm_compute. reflexivity. Qed.

  Example op_move_to_subfield_list :
    passes (mts (lit "result") [lit "item1"]) (lit "k[*]")
      (lit "---
k:
  - item1: test0
    result:
      yes: three
  - item1: test1
")
      (lit "---
k:
  - result:
      yes: three
      item1: test0
  - result:
      item1: test1
") (Some 2).
  Proof. vm_compute. reflexivity. Qed.

  Example op_move_to_subfield_list_item :
    passes (mts (lit "result") [lit "item1"]) (lit "k[0]")
      (lit "---
k:
  - item1: test0
    result:
      yes: three
  - item1: test1
")
      (lit "---
k:
  - result:
      yes: three
      item1: test0
  - item1: test1
") (Some 1).
  Proof. vm_compute. reflexivity. Qed.

  Example op_move_to_subfield_list_filter :
    passes (mts (lit "result") [lit "item1"]) (lit "k[*]|item1=test1")
      (lit "---
k:
  - item1: test0
    result:
      yes: three
  - item1: test1
")
      (lit "---
k:
  - item1: test0
    result:
      yes: three      
  - result:
      item1: test1
") (Some 1).
  Proof. vm_compute. reflexivity. Qed.

  Example op_move_to_map :
    passes (mtm (lit "variables") (lit "group") (lit "grouped_variables") [lit "keep"]) (lit "k[*].item1")
      (lit "---
k:
    - item1: 
        variables:
            # this specifies the test
            test: value
            ke:
              # comments
              definition: result
              group: keep
            # this one will be moved
            other:
              definition: result
              group: different
            k: 
              definition: value
              group: """"
            main:
              definiton: field
              group: other
            other2:
              definition: result2
              group: different
    - item2:
        variables:
            # this specifies the test
            test: value
        grouped_variables: anything
")
      (lit "---
k:
- item1: 
        variables:
            # this specifies the test
            test: value
            ke:
              # comments
              definition: result
            k: 
              definition: value
        grouped_variables:
            different:
                # this one will be moved
                other:
                    definition: result
                other2:
                    definition: result2
            other:
                main:
                    definiton: field
- item2:
    variables:
        # this specifies the test
        test: value
    grouped_variables: anything
") (Some 1).
  Proof. vm_compute. reflexivity. Qed.

  Example op_find :
    passes (find_values_doc) (lit "k[*].item1")
      (lit "---
k:
  - item1: test0
    result:
      yes: three
  - item1: test1
")
      (lit "---
k:
  - item1: test0
    result:
      yes: three
  - item1: test1
") [Unquoted (lit "test0"); Unquoted (lit "test1")].
  Proof. vm_compute. reflexivity. Qed.

End Operations.

(** lib.rs 940-990. *)
Definition pretty_text (s out : str) : Prop :=
  forall ut, match parse_yaml ut s with
             | CVal d => format_doc (pretty_doc d) = out
             | _ => False
             end.
Example pretty_dequotes_single_quoted_in_block :
  pretty_text (lit "---
k: 'hello world'
") (lit "---
k: hello world").
Proof. intros ut. vm_compute. reflexivity. Qed.
Example pretty_keeps_quotes_for_comma_in_block :
  pretty_text (lit "---
k: 'a, b'
") (lit "---
k: 'a, b'").
Proof. intros ut. vm_compute. reflexivity. Qed.
Example pretty_requotes_brace_in_inline_array :
  pretty_text (lit "---
items:
  - ['$\\binom{1}{1}$', hello]
") (lit "---
items:
  - [ '$\\binom{1}{1}$', hello ]").
Proof. intros ut. vm_compute. reflexivity. Qed.
