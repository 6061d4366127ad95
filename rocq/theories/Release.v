(** The parser built without overflow checks (cargo's release profile; Cargo.toml sets no
    profile).  The only unsigned subtraction whose operand can be too small is [given - 1]
    in [string_multiline_indent]; without the check it wraps around. *)
From Coq Require Import ZArith.
From Verif Require Import Base Ast Num Peg YamlGrammar Consume.
Import ListNotations.

(** [given - 1] on [usize] (64 bits) without overflow check: parser.rs 251-258. *)
Definition minus_one_wrapping (g : Z) : Z := ((g - 1) mod 2 ^ 64)%Z.

(** The consumer functions: parser.rs 47-535; all but one are as in [Consume.yact]. *)
Definition yact_release (r : yrule) (txt : str) (l : list (yrule * yval)) : cres yval :=
  match r with
  | y_ml_indent =>                                                             (* 251 *)
      match txt with
      | [] => CVal (VIndent None)
      | _ => match parse_usize txt with
             | None => CPanic
             | Some g => CVal (VIndent (Some (Z.to_N (minus_one_wrapping g))))
             end
      end
  | _ => yact r txt l
  end.
Definition yaml_act_release (r : yrule) (txt : str) (ch : list (yrule * cres yval)) : cres yval :=
  cbind (call_ ch) (yact_release r txt).
Definition consume_release : node yrule -> cres yval := fold_node yaml_act_release.

(** [parse_yaml_file]: parser.rs 538-545, as [Consume.parse_yaml]. *)
Definition parse_yaml_release (ut : unitab) (s : str) : cres document :=
  match eval (yaml_grammar ut) (yaml_fuel s) true (PRule y_yaml) s [] with
  | Some (Ok _ [n] _ _) =>
      match consume_release n with
      | CVal (VDoc d) => CVal d
      | CVal _ => CErr
      | CErr => CErr
      | CPanic => CPanic
      end
  | Some Crash => CPanic
  | _ => CErr
  end.
