(** [from_yaml_str]: /repo/src/yaml/deserializer.rs 126-138. *)
From Coq Require Import ZArith.
From Verif Require Import Base Ast Peg YamlGrammar Consume Ser De.
Import ListNotations.

(** The first item that is not a comment: deserializer.rs 129-136. *)
Fixpoint first_yaml (l : list docdata) : option yaml :=
  match l with
  | [] => None
  | DYaml y :: _ => Some y
  | DComment _ :: l' => first_yaml l'
  end.

(** deserializer.rs 126-138; a panic of the parser stays a panic. *)
Definition from_yaml_str (ut : unitab) (t : ty) (s : str) : cres sval :=
  match parse_yaml ut s with
  | CVal d =>
      match first_yaml (items d) with
      | Some y => match from_yaml t y with Some v => CVal v | None => CErr end
      | None => CErr
      end
  | CErr => CErr
  | CPanic => CPanic
  end.
