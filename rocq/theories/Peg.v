(** The PEG engine: operational semantics of pest expressions.

    Written from the pest documentation; it models what the code generated by
    [#[derive(Parser)] #[grammar = "..."]] (/repo/src/path.rs 5-7,
    /repo/src/yaml/parser.rs 40-42) does with a grammar.  The stack of [PUSH]ed strings
    is restored whenever an alternative, option or repetition step fails.
    Error positions and messages are not modelled. *)
From Verif Require Import Base.
Import ListNotations.

(** Remaining text after the literal [p]. *)
Fixpoint strip (p s : str) : option str :=
  match p, s with
  | [], _ => Some s
  | a :: p', b :: s' => if ceqb a b then strip p' s' else None
  | _ :: _, [] => None
  end.

Section Peg.
  (** Rule names. *)
  Context {R : Type}.

  (** Pest expressions.  [e+] is [PSeq e (PStar e)], as in pest's unroller. *)
  Inductive pexp : Type :=
  | PStr (s : str)                  (* "..." *)
  | PClass (f : char -> bool)       (* ANY, ASCII_DIGIT, LETTER, ... : one character *)
  | PSeq (a b : pexp)               (* a ~ b without implicit whitespace *)
  | PAlt (a b : pexp)               (* a | b *)
  | POpt (a : pexp)                 (* a? *)
  | PStar (a : pexp)                (* a* *)
  | PNot (a : pexp)                 (* !a *)
  | PAnd (a : pexp)                 (* &a *)
  | PPush (a : pexp)                (* PUSH(a) *)
  | PPeek                           (* PEEK *)
  | PPeekLast (n : nat)             (* PEEK[-n..] *)
  | PPop                            (* POP *)
  | PDrop                           (* DROP *)
  | PEOI (r : R)                    (* EOI, emitting a node of rule r *)
  | PRule (r : R).

  (** Rule modifiers: none, [_], [@]. *)
  Inductive rmode : Type := Normal | Silent | Atomic.

  (** A node of the parse tree: rule, matched text, children. *)
  Inductive node : Type := Node (r : R) (txt : str) (ch : list node).

  Definition label (n : node) : R := match n with Node r _ _ => r end.
  Definition text (n : node) : str := match n with Node _ t _ => t end.

  (** Result of running an expression: the matched text, the emitted nodes, the
      remaining text and the stack; or failure; or a panic. *)
  Inductive res : Type :=
  | Ok (t : str) (ns : list node) (rest : str) (stk : list str)
  | Fail
  | Crash.

  Definition is_ok (r : res) : bool := match r with Ok _ _ _ _ => true | _ => false end.

  Variable G : R -> rmode * pexp.

  (** What a rule makes of the nodes of its body. *)
  Definition wrap (m : rmode) (emit : bool) (r : R) (t : str) (ns : list node) : list node :=
    match m with
    | Silent => ns
    | Normal => if emit then [Node r t ns] else []
    | Atomic => if emit then [Node r t []] else []
    end.
  Definition emit_in (m : rmode) (emit : bool) : bool :=
    match m with Atomic => false | _ => emit end.

  (** The text that [PEEK[-n..]] matches, bottom to top. *)
  Definition peek_last (n : nat) (stk : list str) : option str :=
    if length stk <? n then None else Some (concat (rev (firstn n stk))).

  (** Big-step semantics.  [emit]: nodes are produced (not inside an atomic rule or a
      lookahead). *)
  Inductive runs : bool -> pexp -> str -> list str -> res -> Prop :=
  | RStr em p s k rest : strip p s = Some rest -> runs em (PStr p) s k (Ok p [] rest k)
  | RStrF em p s k : strip p s = None -> runs em (PStr p) s k Fail
  | RClass em f c s k : f c = true -> runs em (PClass f) (c :: s) k (Ok [c] [] s k)
  | RClassF em f c s k : f c = false -> runs em (PClass f) (c :: s) k Fail
  | RClassE em f k : runs em (PClass f) [] k Fail
  | RSeq em a b s k t1 n1 s1 k1 t2 n2 s2 k2 :
      runs em a s k (Ok t1 n1 s1 k1) -> runs em b s1 k1 (Ok t2 n2 s2 k2) ->
      runs em (PSeq a b) s k (Ok (t1 ++ t2) (n1 ++ n2) s2 k2)
  | RSeq1 em a b s k r : runs em a s k r -> is_ok r = false -> runs em (PSeq a b) s k r
  | RSeq2 em a b s k t1 n1 s1 k1 r :
      runs em a s k (Ok t1 n1 s1 k1) -> runs em b s1 k1 r -> is_ok r = false ->
      runs em (PSeq a b) s k r
  | RAlt1 em a b s k r : runs em a s k r -> r <> Fail -> runs em (PAlt a b) s k r
  | RAlt2 em a b s k r : runs em a s k Fail -> runs em b s k r -> runs em (PAlt a b) s k r
  | ROpt1 em a s k r : runs em a s k r -> r <> Fail -> runs em (POpt a) s k r
  | ROpt2 em a s k : runs em a s k Fail -> runs em (POpt a) s k (Ok [] [] s k)
  | RStar0 em a s k : runs em a s k Fail -> runs em (PStar a) s k (Ok [] [] s k)
  | RStar1 em a s k t1 n1 s1 k1 t2 n2 s2 k2 :
      runs em a s k (Ok t1 n1 s1 k1) -> runs em (PStar a) s1 k1 (Ok t2 n2 s2 k2) ->
      runs em (PStar a) s k (Ok (t1 ++ t2) (n1 ++ n2) s2 k2)
  | RStarC em a s k : runs em a s k Crash -> runs em (PStar a) s k Crash
  | RStarC1 em a s k t1 n1 s1 k1 :
      runs em a s k (Ok t1 n1 s1 k1) -> runs em (PStar a) s1 k1 Crash ->
      runs em (PStar a) s k Crash
  | RNot em a s k r :
      runs false a s k r ->
      runs em (PNot a) s k (match r with Ok _ _ _ _ => Fail | Fail => Ok [] [] s k | Crash => Crash end)
  | RAnd em a s k r :
      runs false a s k r ->
      runs em (PAnd a) s k (match r with Ok _ _ _ _ => Ok [] [] s k | r => r end)
  | RPush em a s k t n s1 k1 :
      runs em a s k (Ok t n s1 k1) -> runs em (PPush a) s k (Ok t n s1 (t :: k1))
  | RPushF em a s k r : runs em a s k r -> is_ok r = false -> runs em (PPush a) s k r
  | RPeek em s x k rest : strip x s = Some rest -> runs em PPeek s (x :: k) (Ok x [] rest (x :: k))
  | RPeekF em s x k : strip x s = None -> runs em PPeek s (x :: k) Fail
  | RPeekC em s : runs em PPeek s [] Crash
  | RPeekL em n s k x rest :
      peek_last n k = Some x -> strip x s = Some rest -> runs em (PPeekLast n) s k (Ok x [] rest k)
  | RPeekLF em n s k x :
      peek_last n k = Some x -> strip x s = None -> runs em (PPeekLast n) s k Fail
  | RPeekLE em n s k : peek_last n k = None -> runs em (PPeekLast n) s k Fail
  | RPop em s x k rest : strip x s = Some rest -> runs em PPop s (x :: k) (Ok x [] rest k)
  | RPopF em s x k : strip x s = None -> runs em PPop s (x :: k) Fail
  | RPopC em s : runs em PPop s [] Crash
  | RDrop em s x k : runs em PDrop s (x :: k) (Ok [] [] s k)
  | RDropE em s : runs em PDrop s [] Fail
  | REOI em r k : runs em (PEOI r) [] k (Ok [] (if em then [Node r [] []] else []) [] k)
  | REOIF em r c s k : runs em (PEOI r) (c :: s) k Fail
  | RRule em r s k t ns s1 k1 :
      runs (emit_in (fst (G r)) em) (snd (G r)) s k (Ok t ns s1 k1) ->
      runs em (PRule r) s k (Ok t (wrap (fst (G r)) em r t ns) s1 k1)
  | RRuleF em r s k x :
      runs (emit_in (fst (G r)) em) (snd (G r)) s k x -> is_ok x = false ->
      runs em (PRule r) s k x.

  (** The same as a program; [None]: out of fuel. *)
  Fixpoint eval (n : nat) (em : bool) (e : pexp) (s : str) (k : list str) {struct n} : option res :=
    match n with
    | 0 => None
    | S n =>
        match e with
        | PStr p => Some (match strip p s with Some rest => Ok p [] rest k | None => Fail end)
        | PClass f => Some (match s with
                            | c :: s' => if f c then Ok [c] [] s' k else Fail
                            | [] => Fail
                            end)
        | PSeq a b =>
            match eval n em a s k with
            | Some (Ok t1 n1 s1 k1) =>
                match eval n em b s1 k1 with
                | Some (Ok t2 n2 s2 k2) => Some (Ok (t1 ++ t2) (n1 ++ n2) s2 k2)
                | x => x
                end
            | x => x
            end
        | PAlt a b =>
            match eval n em a s k with
            | Some Fail => eval n em b s k
            | x => x
            end
        | POpt a =>
            match eval n em a s k with
            | Some Fail => Some (Ok [] [] s k)
            | x => x
            end
        | PStar a =>
            match eval n em a s k with
            | Some Fail => Some (Ok [] [] s k)
            | Some (Ok t1 n1 s1 k1) =>
                match eval n em (PStar a) s1 k1 with
                | Some (Ok t2 n2 s2 k2) => Some (Ok (t1 ++ t2) (n1 ++ n2) s2 k2)
                | x => x
                end
            | x => x
            end
        | PNot a =>
            match eval n false a s k with
            | Some (Ok _ _ _ _) => Some Fail
            | Some Fail => Some (Ok [] [] s k)
            | x => x
            end
        | PAnd a =>
            match eval n false a s k with
            | Some (Ok _ _ _ _) => Some (Ok [] [] s k)
            | x => x
            end
        | PPush a =>
            match eval n em a s k with
            | Some (Ok t ns s1 k1) => Some (Ok t ns s1 (t :: k1))
            | x => x
            end
        | PPeek => Some (match k with
                         | [] => Crash
                         | x :: _ => match strip x s with Some rest => Ok x [] rest k | None => Fail end
                         end)
        | PPeekLast m => Some (match peek_last m k with
                               | None => Fail
                               | Some x => match strip x s with Some rest => Ok x [] rest k | None => Fail end
                               end)
        | PPop => Some (match k with
                        | [] => Crash
                        | x :: k' => match strip x s with Some rest => Ok x [] rest k' | None => Fail end
                        end)
        | PDrop => Some (match k with [] => Fail | _ :: k' => Ok [] [] s k' end)
        | PEOI r => Some (match s with
                          | [] => Ok [] (if em then [Node r [] []] else []) [] k
                          | _ => Fail
                          end)
        | PRule r =>
            match eval n (emit_in (fst (G r)) em) (snd (G r)) s k with
            | Some (Ok t ns s1 k1) => Some (Ok t (wrap (fst (G r)) em r t ns) s1 k1)
            | x => x
            end
        end
    end.

  (** ---- adequacy ---- *)

  Lemma eval_sound n : forall em e s k r, eval n em e s k = Some r -> runs em e s k r.
  Proof.
    induction n as [|n IH]; intros em e s k r H; [discriminate|].
    destruct e as [p|f|a b|a b|a|a|a|a|a| |m| | |q|q]; cbn [eval] in H.
    - destruct (strip p s) eqn:E; inversion H; subst; now constructor.
    - destruct s as [|c s']; [inversion H; constructor|]. destruct (f c) eqn:E; inversion H; subst; now constructor.
    - destruct (eval n em a s k) as [[t1 n1 s1 k1| |]|] eqn:E1; try discriminate.
      + destruct (eval n em b s1 k1) as [[t2 n2 s2 k2| |]|] eqn:E2; inversion H; subst.
        * eapply RSeq; eauto.
        * eapply RSeq2; eauto.
        * eapply RSeq2; eauto.
      + inversion H; subst. apply RSeq1; auto.
      + inversion H; subst. apply RSeq1; auto.
    - destruct (eval n em a s k) as [[t1 n1 s1 k1| |]|] eqn:E1; try discriminate.
      + inversion H; subst. apply RAlt1; auto. discriminate.
      + apply RAlt2; auto.
      + inversion H; subst. apply RAlt1; auto. discriminate.
    - destruct (eval n em a s k) as [[t1 n1 s1 k1| |]|] eqn:E1; try discriminate; inversion H; subst.
      + apply ROpt1; auto. discriminate.
      + apply ROpt2; auto.
      + apply ROpt1; auto. discriminate.
    - destruct (eval n em a s k) as [[t1 n1 s1 k1| |]|] eqn:E1; try discriminate.
      + destruct (eval n em (PStar a) s1 k1) as [[t2 n2 s2 k2| |]|] eqn:E2; inversion H; subst.
        * eapply RStar1; eauto.
        * exfalso. clear - E2. destruct n; [discriminate|]. cbn [eval] in E2.
          destruct (eval n em a s1 k1) as [[? ? s2 k2| |]|]; try discriminate.
          revert s2 k2 E2. clear. intros s2 k2 E2.
          enough (forall n s k, eval n em (PStar a) s k <> Some Fail) as X.
          { destruct (eval n em (PStar a) s2 k2) as [[]|] eqn:E; try discriminate. exact (X _ _ _ E). }
          clear. induction n as [|n IH]; intros s k; cbn [eval]; [discriminate|].
          destruct (eval n em a s k) as [[? ? s1 k1| |]|]; try discriminate.
          specialize (IH s1 k1). destruct (eval n em (PStar a) s1 k1) as [[]|]; congruence.
        * eapply RStarC1; eauto.
      + inversion H; subst. apply RStar0; auto.
      + inversion H; subst. apply RStarC; auto.
    - destruct (eval n false a s k) as [x|] eqn:E1; [|discriminate].
      replace r with (match x with Ok _ _ _ _ => Fail | Fail => Ok [] [] s k | Crash => Crash end)
        by (destruct x; congruence).
      apply RNot; auto.
    - destruct (eval n false a s k) as [x|] eqn:E1; [|discriminate].
      replace r with (match x with Ok _ _ _ _ => Ok [] [] s k | r => r end)
        by (destruct x; congruence).
      apply RAnd; auto.
    - destruct (eval n em a s k) as [[t1 n1 s1 k1| |]|] eqn:E1; try discriminate; inversion H; subst.
      + eapply RPush; eauto.
      + eapply RPushF; eauto.
      + eapply RPushF; eauto.
    - destruct k as [|x k]; [inversion H; constructor|].
      destruct (strip x s) eqn:E; inversion H; subst; now constructor.
    - destruct (peek_last m k) eqn:E; [|inversion H; subst; now apply RPeekLE].
      destruct (strip l s) eqn:E2; inversion H; subst; [eapply RPeekL|eapply RPeekLF]; eauto.
    - destruct k as [|x k]; [inversion H; constructor|].
      destruct (strip x s) eqn:E; inversion H; subst; now constructor.
    - destruct k; inversion H; subst; constructor.
    - destruct s; inversion H; subst; constructor.
    - destruct (eval n _ _ s k) as [[t1 n1 s1 k1| |]|] eqn:E1; try discriminate; inversion H; subst.
      + apply RRule; auto.
      + apply RRuleF; auto.
      + apply RRuleF; auto.
  Qed.

  Lemma eval_mono n : forall m em e s k r, eval n em e s k = Some r -> n <= m -> eval m em e s k = Some r.
  Proof.
    induction n as [|n IH]; intros m em e s k r H Hm; [discriminate|].
    destruct m as [|m]; [lia|]. assert (Hm' : n <= m) by lia.
    destruct e as [p|f|a b|a b|a|a|a|a|a| |j| | |q|q]; cbn [eval] in *; try exact H.
    - destruct (eval n em a s k) as [x|] eqn:E1; [|discriminate]. rewrite (IH _ _ _ _ _ _ E1 Hm').
      destruct x as [t1 n1 s1 k1| |]; try exact H.
      destruct (eval n em b s1 k1) as [y|] eqn:E2; [|discriminate]. now rewrite (IH _ _ _ _ _ _ E2 Hm').
    - destruct (eval n em a s k) as [x|] eqn:E1; [|discriminate]. rewrite (IH _ _ _ _ _ _ E1 Hm').
      destruct x; try exact H. now apply (IH _ _ _ _ _ _ H Hm').
    - destruct (eval n em a s k) as [x|] eqn:E1; [|discriminate]. now rewrite (IH _ _ _ _ _ _ E1 Hm').
    - destruct (eval n em a s k) as [x|] eqn:E1; [|discriminate]. rewrite (IH _ _ _ _ _ _ E1 Hm').
      destruct x as [t1 n1 s1 k1| |]; try exact H.
      destruct (eval n em (PStar a) s1 k1) as [y|] eqn:E2; [|discriminate]. now rewrite (IH _ _ _ _ _ _ E2 Hm').
    - destruct (eval n false a s k) as [x|] eqn:E1; [|discriminate]. now rewrite (IH _ _ _ _ _ _ E1 Hm').
    - destruct (eval n false a s k) as [x|] eqn:E1; [|discriminate]. now rewrite (IH _ _ _ _ _ _ E1 Hm').
    - destruct (eval n em a s k) as [x|] eqn:E1; [|discriminate]. now rewrite (IH _ _ _ _ _ _ E1 Hm').
    - destruct (eval n _ _ s k) as [x|] eqn:E1; [|discriminate]. now rewrite (IH _ _ _ _ _ _ E1 Hm').
  Qed.

  Lemma eval_complete em e s k r : runs em e s k r -> exists n, eval n em e s k = Some r.
  Proof.
    induction 1;
      repeat match goal with H : exists n, eval n _ _ _ _ = _ |- _ => destruct H as [? ?] end;
      repeat match goal with
             | H1 : eval ?a _ _ _ _ = _, H2 : eval ?b _ _ _ _ = _ |- _ =>
                 lazymatch a with
                 | b => fail
                 | _ =>
                   apply (fun H => eval_mono _ (a + b) _ _ _ _ _ H (Nat.le_add_r a b)) in H1;
                   apply (fun H => eval_mono _ (a + b) _ _ _ _ _ H (Nat.le_add_l b a)) in H2;
                   generalize dependent (a + b); intros
                 end
             end;
      try match goal with H1 : eval ?a _ _ _ _ = _ |- _ => exists (S a); cbn [eval]; rewrite H1 end;
      try (exists 1; cbn [eval]);
      repeat match goal with H : strip _ _ = _ |- _ => rewrite H
                             | H : peek_last _ _ = _ |- _ => rewrite H
                             | H : _ = true |- _ => rewrite H
                             | H : ?f ?c = false |- context [?f ?c] => rewrite H
                             | H1 : eval ?a _ _ _ _ = _ |- context [eval ?a _ _ _ _] => rewrite H1 end;
      try reflexivity;
      try (destruct r; try reflexivity; try discriminate; congruence);
      try (destruct x; try reflexivity; try discriminate; congruence).
  Qed.

  Lemma runs_det em e s k r1 r2 : runs em e s k r1 -> runs em e s k r2 -> r1 = r2.
  Proof.
    intros H1 H2. apply eval_complete in H1 as [n1 H1]. apply eval_complete in H2 as [n2 H2].
    apply (fun H => eval_mono _ (n1 + n2) _ _ _ _ _ H (Nat.le_add_r n1 n2)) in H1.
    apply (fun H => eval_mono _ (n1 + n2) _ _ _ _ _ H (Nat.le_add_l n2 n1)) in H2.
    congruence.
  Qed.
End Peg.

Arguments pexp : clear implicits.
Arguments node : clear implicits.
Arguments res : clear implicits.

(** Bottom-up evaluation of a parse tree; each child is given with its rule. *)
Fixpoint fold_node {R X : Type} (act : R -> str -> list (R * X) -> X) (n : node R) : X :=
  match n with
  | Node r t ch => act r t (map (fun c => (label c, fold_node act c)) ch)
  end.

(** Outcome of a consumer function: a value, a returned error, or a panic. *)
Inductive cres (X : Type) : Type :=
| CVal (x : X)
| CErr
| CPanic.
Arguments CVal {X} x.
Arguments CErr {X}.
Arguments CPanic {X}.

Definition cbind {X Y} (c : cres X) (f : X -> cres Y) : cres Y :=
  match c with CVal x => f x | CErr => CErr | CPanic => CPanic end.

(** Values of all children, or the first error. *)
Fixpoint call_ {R X : Type} (l : list (R * cres X)) : cres (list (R * X)) :=
  match l with
  | [] => CVal []
  | (r, c) :: l' => cbind c (fun x => cbind (call_ l') (fun xs => CVal ((r, x) :: xs)))
  end.
