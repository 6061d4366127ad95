(** Specification vocabulary for the work a parser does. *)
From Verif Require Import Base Ast Peg.
Import ListNotations.

Section Calls.
  Context {R : Type} (G : R -> rmode * pexp R).

  (** A run of the parser together with the number of rules it calls, failed attempts
      included.  pest compiles every rule to one function and remembers nothing between
      calls, so this number counts the calls of these functions. *)
  Inductive calls : bool -> pexp R -> str -> list str -> res R -> nat -> Prop :=
  | CBase em e s k r :
      match e with
      | PStr _ | PClass _ | PPeek | PPeekLast _ | PPop | PDrop | PEOI _ => True
      | _ => False
      end -> runs G em e s k r -> calls em e s k r 0
  | CSeq em a b s k t1 n1 s1 k1 t2 n2 s2 k2 c d :
      calls em a s k (Ok t1 n1 s1 k1) c -> calls em b s1 k1 (Ok t2 n2 s2 k2) d ->
      calls em (PSeq a b) s k (Ok (t1 ++ t2) (n1 ++ n2) s2 k2) (c + d)
  | CSeq1 em a b s k r c : calls em a s k r c -> is_ok r = false -> calls em (PSeq a b) s k r c
  | CSeq2 em a b s k t1 n1 s1 k1 r c d :
      calls em a s k (Ok t1 n1 s1 k1) c -> calls em b s1 k1 r d -> is_ok r = false ->
      calls em (PSeq a b) s k r (c + d)
  | CAlt1 em a b s k r c : calls em a s k r c -> r <> Fail -> calls em (PAlt a b) s k r c
  | CAlt2 em a b s k r c d :
      calls em a s k Fail c -> calls em b s k r d -> calls em (PAlt a b) s k r (c + d)
  | COpt1 em a s k r c : calls em a s k r c -> r <> Fail -> calls em (POpt a) s k r c
  | COpt2 em a s k c : calls em a s k Fail c -> calls em (POpt a) s k (Ok [] [] s k) c
  | CStar0 em a s k c : calls em a s k Fail c -> calls em (PStar a) s k (Ok [] [] s k) c
  | CStar1 em a s k t1 n1 s1 k1 t2 n2 s2 k2 c d :
      calls em a s k (Ok t1 n1 s1 k1) c -> calls em (PStar a) s1 k1 (Ok t2 n2 s2 k2) d ->
      calls em (PStar a) s k (Ok (t1 ++ t2) (n1 ++ n2) s2 k2) (c + d)
  | CStarC em a s k c : calls em a s k Crash c -> calls em (PStar a) s k Crash c
  | CStarC1 em a s k t1 n1 s1 k1 c d :
      calls em a s k (Ok t1 n1 s1 k1) c -> calls em (PStar a) s1 k1 Crash d ->
      calls em (PStar a) s k Crash (c + d)
  | CNot em a s k r c :
      calls false a s k r c ->
      calls em (PNot a) s k (match r with Ok _ _ _ _ => Fail | Fail => Ok [] [] s k | Crash => Crash end) c
  | CAnd em a s k r c :
      calls false a s k r c ->
      calls em (PAnd a) s k (match r with Ok _ _ _ _ => Ok [] [] s k | r => r end) c
  | CPush em a s k t n s1 k1 c :
      calls em a s k (Ok t n s1 k1) c -> calls em (PPush a) s k (Ok t n s1 (t :: k1)) c
  | CPushF em a s k r c : calls em a s k r c -> is_ok r = false -> calls em (PPush a) s k r c
  | CRule em r s k t ns s1 k1 c :
      calls (emit_in (fst (G r)) em) (snd (G r)) s k (Ok t ns s1 k1) c ->
      calls em (PRule r) s k (Ok t (wrap (fst (G r)) em r t ns) s1 k1) (S c)
  | CRuleF em r s k x c :
      calls (emit_in (fst (G r)) em) (snd (G r)) s k x c -> is_ok x = false ->
      calls em (PRule r) s k x (S c).
End Calls.

(** [n] sequences of one element, one inside the other, and a word. *)
Fixpoint nested (n : nat) (y : yaml) : yaml :=
  match n with 0 => y | S n => Array [AElem (mkA None (nested n y))] end.

(** The document with one root node. *)
Definition rooted (y : yaml) : document := mkDoc [] [DYaml y].
