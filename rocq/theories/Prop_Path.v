(** Property theorems C32-C34 (path syntax). *)
From Verif Require Import Base Path Peg PathGrammar Spec_Insert Spec_Path PathFacts.
Import ListNotations.

(** C32: a written path parses to the path it stands for. *)
Theorem C32_path_round_trip :
  forall steps s, writes steps s -> parse_path s = Some (path_of steps).
Proof. exact parse_path_writes. Qed.
Print Assumptions C32_path_round_trip.

Theorem C32_root_round_trip :
  forall cs, Forall cond_ok cs -> parse_path (conds_text cs) = Some (PRoot cs).
Proof. exact parse_path_root. Qed.
Print Assumptions C32_root_round_trip.

Example C32_example :
  writes [SKey (lit "my key") [mkC (lit "a b") (lit "[x]")]; SKey (lit "c") []; SIdx 12 []; SAll [mkC (lit "k") (lit "v=w")]]
    (lit "my key|a b=[x].c[012][*]|k=v=w").
Proof.
  refine (w_path (lit "my key") [mkC (lit "a b") (lit "[x]")] _ (lit ".c[012][*]|k=v=w") _ _ _ _).
  - apply plain_b; vm_compute; congruence.
  - constructor; [|constructor]. split; apply plain_b; vm_compute; congruence.
  - exact I.
  - refine (wr_key (lit "c") [] _ (lit "[012][*]|k=v=w") _ _ _ _).
    + apply plain_b; vm_compute; congruence.
    + constructor.
    + exact I.
    + refine (wr_idx (lit "012") [] _ (lit "[*]|k=v=w") _ _ _ _ _).
      * split; [discriminate|]. vm_compute. intuition (subst; discriminate).
      * vm_compute. reflexivity.
      * constructor.
      * exact I.
      * refine (wr_all [mkC (lit "k") (lit "v=w")] [] [] _ _ _).
        -- constructor; [|constructor]. split; apply plain_b; vm_compute; congruence.
        -- exact I.
        -- constructor.
Qed.

(** The proviso on conditions is needed: the bracket after a condition is read as part of
    its value. *)
Theorem C32_condition_then_index_refuted :
  exists k c i, cond_ok c /\ plain (lit "[].|") k /\
    parse_path (k ++ cond_text c ++ lit "[" ++ [(48 + N.of_nat i)%N] ++ lit "]")
      <> Some (path_of [SKey k [c]; SIdx i []]).
Proof. exact cond_then_index. Qed.
Print Assumptions C32_condition_then_index_refuted.

(** C33: a plain name is the one-key path. *)
Theorem C33_plain_name :
  forall name, plain (lit "[].|") name -> parse_path name = Some (PKey name [] None).
Proof. exact parse_single. Qed.
Print Assumptions C33_plain_name.

Example C33_example : plain (lit "[].|") (lit "first name-2").
Proof. exact plain_example. Qed.

(** A name with a separator is not (unless it has spaces). *)
Theorem C33_separator :
  forall name, ~ In SP name -> (exists c, In c name /\ In c (lit "[].|")) ->
  parse_path name <> Some (PKey name [] None).
Proof. exact parse_not_single. Qed.
Print Assumptions C33_separator.

Example C33_separator_example :
  ~ In SP (lit "a.b") /\ (exists c, In c (lit "a.b") /\ In c (lit "[].|")) /\
  parse_path (lit "a.b") = Some (PKey (lit "a") [] (Some (PKey (lit "b") [] None))).
Proof.
  split; [cbn; intuition discriminate|]. split; [|vm_compute; reflexivity].
  exists (chr "."). split; cbn; tauto.
Qed.

(** With a leading space the separator does become part of the key. *)
Theorem C33_separator_after_space_refuted :
  exists name, In (chr ".") name /\ parse_path name = Some (PKey name [] None).
Proof. exact space_dot. Qed.
Print Assumptions C33_separator_after_space_refuted.

(** C34: the grammar decides every string, in exactly one way, without a stack panic, and
    the parser reports that decision. *)
Theorem C34_path_decides :
  forall s, exists x, runs path_grammar true (PRule p_final_path) s [] x /\ x <> Crash /\
    (forall x', runs path_grammar true (PRule p_final_path) s [] x' -> x' = x) /\
    (x = Fail -> parse_path_res s = CErr) /\
    (forall t n rest k, x = Ok t [n] rest k ->
       forall p, fold_node path_act n = CVal (PVPath p) -> parse_path_res s = CVal p).
Proof. exact path_decides. Qed.
Print Assumptions C34_path_decides.

Theorem C34_empty_is_root : parse_path_res [] = CVal (PRoot []).
Proof. exact empty_root. Qed.
Print Assumptions C34_empty_is_root.

(** "Never panics" is false: an index that does not fit in a usize. *)
Theorem C34_no_panic_refuted : exists s, parse_path_res s = CPanic.
Proof. exact huge_index. Qed.
Print Assumptions C34_no_panic_refuted.

Example C34_example :
  parse_path_res (lit "a[") = CErr /\ parse_path_res (lit "a[1].b|c=d") =
    CVal (PKey (lit "a") [] (Some (PIdx [1] [] (Some (PKey (lit "b") [mkC (lit "c") (lit "d")] None))))).
Proof. split; vm_compute; reflexivity. Qed.
