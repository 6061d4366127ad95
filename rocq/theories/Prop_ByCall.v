(** Property C60: insertions whose value comes from a closure.  Specification vocabulary:
    Spec_Insert.v and Spec_ByCall.v.  The closure reads and changes a state [S]. *)
From Verif Require Import Base Ast Strings Path Insert Spec_Insert ByCall Spec_ByCall ByCallFacts.
Import ListNotations.

(** A closure that numbers its answers 0, 1, 2, ... *)
Definition numbering (n : nat) : aliased * nat := (mkA None (Unquoted [N.of_nat (48 + n)]), S n).
Definition entry (k v : string) : hashdata := HElem (mkHE (lit k) (mkA None (Unquoted (lit v)))).
Definition table (l : list hashdata) : arraydata := AElem (mkA None (Hash l)).
Definition three : yaml :=
  Array [table [entry "a" "x"]; AComment (lit "c"); table [entry "k" "old"; entry "a" "x"]; table [entry "a" "y"]].
Definition all_k (cs : list condition) : list step := [SAll cs; SKey (lit "k") []].

(** With a closure that always answers [v] this is [insert_into_hash] with [v]. *)
Theorem C60_pure : forall S p v ow y (h : S -> aliased * S) s, (forall s, fst (h s) = v) ->
  fst (insert_into_hash_by_call p h ow y s) = insert_into_hash p v ow y.
Proof. exact @by_call_pure. Qed.
Print Assumptions C60_pure.

Example C60_pure_example :
  insert_into_hash_by_call (path_of (all_k [])) (fun n => (mkA None (Unquoted (lit "z")), S n)) true three 0
  = (3, Array [table [entry "a" "x"; entry "k" "z"]; AComment (lit "c"); table [entry "k" "z"; entry "a" "x"];
               table [entry "a" "y"; entry "k" "z"]], 3).
Proof. vm_compute. reflexivity. Qed.

(** The closure is called once for every mapping the path leads to, whether or not something is
    inserted there; the count returned is the number of mappings that changed. *)
Theorem C60_calls : forall S (h : S -> aliased * S) ow steps k cs y s, inline_ok y = true ->
  let r := insert_into_hash_by_call (path_of (steps ++ [SKey k cs])) h ow y s in
  snd r = snd (answers h (length (targets steps cs y)) s) /\
  fst (fst r) = length (inserted ow k (targets steps cs y)).
Proof.
  exact (fun S h ow steps k cs y s H => conj (by_call_calls h ow steps k cs y s H) (by_call_count h ow steps k cs y s H)).
Qed.
Print Assumptions C60_calls.

Example C60_calls_example :
  let cs := [mkC (lit "a") (lit "x")] in
  let r := insert_into_hash_by_call (path_of (all_k cs)) numbering false three 0 in
  snd r = 2 /\ fst (fst r) = 1 /\ inline_ok three = true.
Proof. vm_compute. repeat split; reflexivity. Qed.

(** Without conditions on the way: the mappings get the answers in document order.  A mapping
    that keeps its old value uses up an answer as well. *)
Theorem C60_values : forall S (h : S -> aliased * S) ow steps k y s, inline_ok y = true -> cond_free steps ->
  let r := insert_into_hash_by_call (path_of (steps ++ [SKey k []])) h ow y s in
  let ts := targets steps [] y in
  nodes (steps ++ [SKey k []]) (snd (fst r)) = map (filled ow k) (combine ts (fst (answers h (length ts) s))).
Proof. exact @by_call_values. Qed.
Print Assumptions C60_values.

Example C60_values_example :
  let r ow := snd (fst (insert_into_hash_by_call (path_of (all_k [])) numbering ow three 0)) in
  nodes (all_k []) (r true) = map Unquoted [lit "0"; lit "1"; lit "2"] /\
  nodes (all_k []) (r false) = map Unquoted [lit "0"; lit "old"; lit "2"] /\ cond_free [SAll []].
Proof. vm_compute. repeat split; try reflexivity. now repeat constructor. Qed.

(** Whole documents: the roots are visited in order, with one state. *)
Theorem C60_document : forall S (h : S -> aliased * S) ow steps k cs d s,
  (forall y, In (DYaml y) (items d) -> inline_ok y = true) ->
  let r := insert_into_hash_by_call_doc (path_of (steps ++ [SKey k cs])) h ow d s in
  let ts := flat_map (targets steps cs) (roots d) in
  snd r = snd (answers h (length ts) s) /\ fst (fst r) = length (inserted ow k ts).
Proof. exact @by_call_doc. Qed.
Print Assumptions C60_document.

Example C60_document_example :
  let d := mkDoc [] [DYaml three; DComment (lit "c"); DYaml three] in
  let r := insert_into_hash_by_call_doc (path_of (all_k [])) numbering false d 0 in
  snd r = 6 /\ fst (fst r) = 4.
Proof. vm_compute. split; reflexivity. Qed.

(** "The closure is called as often as a value is inserted": false without overwriting. *)
Theorem C60_call_per_insertion_refuted :
  exists steps k y, inline_ok y = true /\
    let r := insert_into_hash_by_call (path_of (steps ++ [SKey k []])) numbering false y 0 in
    snd r = 1 /\ fst (fst r) = 0.
Proof. exact (ex_intro _ [] (ex_intro _ (lit "k") (ex_intro _ (Hash [entry "k" "v"]) (conj eq_refl (conj eq_refl eq_refl))))). Qed.
Print Assumptions C60_call_per_insertion_refuted.
