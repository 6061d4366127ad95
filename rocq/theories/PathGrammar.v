(** Model of /repo/src/path.pest and of the consumer in /repo/src/path.rs. *)
From Coq Require Import ZArith.
From Verif Require Import Base Path Num Peg PegFacts.
Import ListNotations.

(** Rule names of path.pest (1-20) and [EOI]. *)
Inductive prule : Type :=
| p_whitespace | p_key_items | p_pure_key | p_field | p_value | p_condition | p_key
| p_index_number | p_index_all | p_index | p_part | p_path | p_root_key | p_root
| p_final_path | p_eoi.

(** ANY, ASCII_DIGIT: pest built-ins. *)
Definition any_char (c : char) : bool := true.
Definition ascii_digit (c : char) : bool := (48 <=? c)%N && (c <=? 57)%N.

(** Implicit whitespace (path.pest 1): pest inserts it between the items of every
    sequence and between repetitions, because no rule here is atomic.  The tokens are
    visible because the rule is not silent. *)
Definition p_skip : pexp prule := PStar (PRule p_whitespace).
(** [a ~ b] *)
Definition p_seq (a b : pexp prule) : pexp prule := PSeq a (PSeq p_skip b).
(** [e*] *)
Definition p_rep (e : pexp prule) : pexp prule := POpt (PSeq e (PStar (PSeq p_skip e))).
(** [e+] *)
Definition p_plus (e : pexp prule) : pexp prule := p_seq e (p_rep e).

Definition p_lit (s : string) : pexp prule := PStr (lit s).
(** ["|" ~ condition]* *)
Definition p_conds : pexp prule := p_rep (p_seq (p_lit "|") (PRule p_condition)).

(** path.pest 1-20. *)
Definition path_grammar (r : prule) : rmode * pexp prule :=
  match r with
  | p_whitespace => (Normal, p_lit " ")
  | p_key_items =>
      (Silent, p_seq (PNot (PAlt (p_lit "[") (PAlt (p_lit "]") (PAlt (p_lit ".") (p_lit "|")))))
                     (PClass any_char))
  | p_pure_key => (Normal, p_plus (PRule p_key_items))
  | p_field => (Normal, p_plus (p_seq (PNot (p_lit "=")) (PClass any_char)))
  | p_value => (Normal, p_plus (p_seq (PNot (PAlt (p_lit ".") (p_lit "|"))) (PClass any_char)))
  | p_condition => (Normal, p_seq (PRule p_field) (p_seq (p_lit "=") (PRule p_value)))
  | p_key => (Normal, p_seq (PRule p_pure_key) p_conds)
  | p_index_number => (Normal, p_plus (PClass ascii_digit))
  | p_index_all => (Normal, p_lit "*")
  | p_index =>
      (Silent, p_seq (p_lit "[") (p_seq (PAlt (PRule p_index_number) (PRule p_index_all))
                 (p_seq (p_lit "]") p_conds)))
  | p_part => (Normal, PAlt (p_seq (p_lit ".") (PRule p_key)) (PRule p_index))
  | p_path => (Normal, p_seq (PRule p_key) (p_rep (PRule p_part)))
  | p_root_key => (Normal, PStr [])
  | p_root => (Normal, p_seq (PRule p_root_key) p_conds)
  | p_final_path => (Normal, p_seq (PAlt (PRule p_path) (PRule p_root)) (PEOI p_eoi))
  | p_eoi => (Normal, PEOI p_eoi)
  end.

(** Values of the consumer functions. *)
Inductive pval : Type :=
| PVUnit
| PVStr (s : str)
| PVIdx (l : list nat)
| PVCond (c : condition)
| PVPath (p : path).

(** "condition(cs)..": all remaining children are conditions. *)
Fixpoint conds_of (l : list (prule * pval)) : option (list condition) :=
  match l with
  | [] => Some []
  | (p_condition, PVCond c) :: l' => option_map (cons c) (conds_of l')
  | _ => None
  end.
(** "part(vals)..". *)
Fixpoint parts_of (l : list (prule * pval)) : option (list path) :=
  match l with
  | [] => Some []
  | (p_part, PVPath p) :: l' => option_map (cons p) (parts_of l')
  | _ => None
  end.

Definition or_err {X} (o : option X) (f : X -> pval) : cres pval :=
  match o with Some x => CVal (f x) | None => CErr end.

(** A WHITESPACE node among matched children makes [match_nodes!] panic: the rule has no
    consumer function. *)
Definition has_ws (l : list (prule * cres pval)) : bool :=
  existsb (fun x => match fst x with p_whitespace => true | _ => false end) l.

(** The consumer functions, path.rs 11-74.  A child error is reported before a pattern
    mismatch. *)
Definition path_act (r : prule) (t : str) (ch : list (prule * cres pval)) : cres pval :=
  match r with
  | p_eoi | p_index_all | p_root_key => CVal PVUnit                (* 11-13, 37-39, 59-61 *)
  | p_pure_key | p_field | p_value => CVal (PVStr t)               (* 14-22 *)
  | p_index_number =>                                              (* 34-36; unwrap *)
      match parse_usize t with Some n => CVal (PVIdx [Z.to_nat n]) | None => CPanic end
  | p_whitespace | p_key_items | p_index => CPanic                 (* no function *)
  | _ =>
      if has_ws ch then CPanic else
      cbind (call_ ch) (fun vs =>
        match r, vs with
        | p_condition, [(p_field, PVStr f); (p_value, PVStr v)] => CVal (PVCond (mkC f v))  (* 23-27 *)
        | p_key, (p_pure_key, PVStr k) :: cs =>                    (* 28-32 *)
            or_err (conds_of cs) (fun cs => PVPath (PKey k cs None))
        | p_part, (p_index_all, _) :: cs =>                        (* 40-47 *)
            or_err (conds_of cs) (fun cs => PVPath (PAll cs None))
        | p_part, (p_index_number, PVIdx l) :: cs =>
            or_err (conds_of cs) (fun cs => PVPath (PIdx l cs None))
        | p_part, [(p_key, PVPath p)] => CVal (PVPath p)
        | p_path, (p_key, PVPath p) :: ps =>                       (* 48-58 *)
            or_err (parts_of ps) (fun ps => PVPath (fold_left path_insert ps p))
        | p_root, (p_root_key, _) :: cs =>                         (* 62-68 *)
            or_err (conds_of cs) (fun cs => PVPath (PRoot cs))
        | p_final_path, [(p_path, PVPath p); (p_eoi, _)] => CVal (PVPath p)   (* 69-74 *)
        | p_final_path, [(p_root, PVPath p); (p_eoi, _)] => CVal (PVPath p)
        | _, _ => CErr
        end)
  end.

(** Tables for the termination check. *)
Definition p_nul (r : prule) : bool :=
  match r with p_root_key | p_root | p_final_path | p_eoi => true | _ => false end.
Definition p_rank (r : prule) : nat :=
  match r with
  | p_whitespace | p_index_all | p_root_key | p_eoi => 0
  | p_key_items | p_field | p_value | p_index_number => 1
  | p_pure_key | p_condition | p_index => 2
  | p_key => 3
  | p_part => 4
  | p_path | p_root => 5
  | p_final_path => 6
  end.

Lemma path_grammar_ok r : rule_ok path_grammar p_nul p_rank 7 64 r = true.
Proof. destruct r; vm_compute; reflexivity. Qed.

Definition path_fuel (s : str) : nat := fuel 7 64 (length s).

(** [parse]: path.rs 77-84. *)
Definition parse_path_res (s : str) : cres path :=
  match eval path_grammar (path_fuel s) true (PRule p_final_path) s [] with
  | Some (Ok _ [n] _ _) =>
      match fold_node path_act n with
      | CVal (PVPath p) => CVal p
      | CVal _ => CErr
      | CErr => CErr
      | CPanic => CPanic
      end
  | Some Crash => CPanic
  | _ => CErr
  end.

Definition parse_path (s : str) : option path :=
  match parse_path_res s with CVal p => Some p | _ => None end.
