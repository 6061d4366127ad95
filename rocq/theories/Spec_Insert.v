(** Specification vocabulary for the path operations, independent of the traversals
    of Insert.v. *)
From Verif Require Import Base Ast Strings Path.
Import ListNotations.

(** Value of the first entry named [k]. *)
Fixpoint first_value (k : str) (l : list hashdata) : option aliased :=
  match l with
  | HElem (mkHE k' v) :: l' => if seqb k' k then Some v else first_value k l'
  | _ :: l' => first_value k l'
  | [] => None
  end.

(** Elements of a block sequence, comments skipped. *)
Fixpoint elements (l : list arraydata) : list yaml :=
  match l with
  | AElem a :: l' => a_value a :: elements l'
  | _ :: l' => elements l'
  | [] => []
  end.

(** A node satisfies "field=value" when the first entry with that field is a scalar
    with that string value. *)
Definition satisfies1 (y : yaml) (c : condition) : Prop :=
  exists l a s, y = Hash l /\ first_value (c_field c) l = Some a
                /\ as_string (a_value a) = Some s /\ s = c_value c.
Definition satisfies (y : yaml) (cs : list condition) : Prop := Forall (satisfies1 y) cs.

Definition satisfies_b (y : yaml) (cs : list condition) : bool :=
  match y with
  | Hash l => forallb (fun c => match first_value (c_field c) l with
                                | Some a => match as_string (a_value a) with
                                            | Some s => seqb s (c_value c)
                                            | None => false
                                            end
                                | None => false
                                end) cs
  | _ => match cs with [] => true | _ => false end
  end.

(** A path as the list of its steps. *)
Inductive step : Type :=
| SKey (k : str) (cs : list condition)
| SIdx (i : nat) (cs : list condition)
| SAll (cs : list condition).

Fixpoint path_of (steps : list step) : path :=
  let rest r := match r with [] => None | _ => Some (path_of r) end in
  match steps with
  | [] => PRoot []
  | SKey k cs :: r => PKey k cs (rest r)
  | SIdx i cs :: r => PIdx [i] cs (rest r)
  | SAll cs :: r => PAll cs (rest r)
  end.

(** The nodes a list of steps leads to, in document order. *)
Fixpoint nodes (steps : list step) (y : yaml) : list yaml :=
  match steps with
  | [] => [y]
  | SKey k cs :: r =>
      match y with
      | Hash l => if satisfies_b y cs
                  then match first_value k l with Some a => nodes r (a_value a) | None => [] end
                  else []
      | _ => []
      end
  | SIdx i cs :: r =>
      match y with
      | Array l => match nth_error (elements l) i with
                   | Some v => if satisfies_b v cs then nodes r v else []
                   | None => []
                   end
      | _ => []
      end
  | SAll cs :: r =>
      match y with
      | Array l => flat_map (fun v => if satisfies_b v cs then nodes r v else []) (elements l)
      | _ => []
      end
  end.

Definition step_conds (s : step) : list condition :=
  match s with SKey _ cs | SIdx _ cs | SAll cs => cs end.
Definition cond_free (steps : list step) : Prop := Forall (fun s => step_conds s = []) steps.

(** No block mapping or block sequence strictly inside an inline sequence (what the
    text format can express). *)
Fixpoint flat_inline (y : yaml) : bool :=
  match y with
  | InlineArray l => forallb flat_inline l
  | Hash _ | Array _ => false
  | _ => true
  end.

Fixpoint inline_ok (y : yaml) : bool :=
  match y with
  | InlineArray l => forallb flat_inline l
  | Hash l => forallb (fun d => match d with HElem e => inline_ok (a_value (he_value e)) | _ => true end) l
  | Array l => forallb (fun d => match d with AElem a => inline_ok (a_value a) | _ => true end) l
  | _ => true
  end.

Definition is_block_hash (y : yaml) : bool := match y with Hash _ => true | _ => false end.

(** Entry [k: h] appended at the end of one mapping of the tree which had no key [k];
    everything else equal. *)
Inductive append1 (h : aliased) : yaml -> yaml -> Prop :=
| A_here l k : first_value k l = None ->
    append1 h (Hash l) (Hash (l ++ [HElem (mkHE k h)]))
| A_hash a k al v v' b : append1 h v v' ->
    append1 h (Hash (a ++ HElem (mkHE k (mkA al v)) :: b)) (Hash (a ++ HElem (mkHE k (mkA al v')) :: b))
| A_array a al v v' b : append1 h v v' ->
    append1 h (Array (a ++ AElem (mkA al v) :: b)) (Array (a ++ AElem (mkA al v') :: b))
| A_inline a v v' b : append1 h v v' ->
    append1 h (InlineArray (a ++ v :: b)) (InlineArray (a ++ v' :: b)).

Inductive appends (h : aliased) : nat -> yaml -> yaml -> Prop :=
| A_zero y : appends h 0 y y
| A_more n y y1 y2 : append1 h y y1 -> appends h n y1 y2 -> appends h (S n) y y2.

(** The tree with all keys of block mappings erased. *)
Fixpoint erase_keys (y : yaml) : yaml :=
  match y with
  | Hash l => Hash (map (fun d => match d with
                                  | HElem e => HElem (mkHE [] (mkA (a_alias (he_value e))
                                                                   (erase_keys (a_value (he_value e)))))
                                  | _ => d
                                  end) l)
  | Array l => Array (map (fun d => match d with
                                    | AElem a => AElem (mkA (a_alias a) (erase_keys (a_value a)))
                                    | _ => d
                                    end) l)
  | InlineArray l => InlineArray (map erase_keys l)
  | _ => y
  end.

(** The last step of the path is a key. *)
Fixpoint ends_in_key (p : path) : bool :=
  match p with
  | PRoot _ => false
  | PKey _ _ None => true
  | PAll _ None | PIdx _ _ None => false
  | PKey _ _ (Some o) | PAll _ (Some o) | PIdx _ _ (Some o) => ends_in_key o
  end.

(** No index list selects the same position twice (parsed paths have one-element lists). *)
Fixpoint indexes_distinct (p : path) : Prop :=
  let go r := match r with Some o => indexes_distinct o | None => True end in
  match p with
  | PRoot _ => True
  | PKey _ _ r | PAll _ r => go r
  | PIdx is_ _ r => NoDup is_ /\ go r
  end.

Fixpoint no_conditions (p : path) : Prop :=
  let go r := match r with Some o => no_conditions o | None => True end in
  match p with
  | PRoot cs => cs = []
  | PKey _ cs r | PAll cs r | PIdx _ cs r => cs = [] /\ go r
  end.

(** Every "root" part of the path is free of conditions (parsed paths have a root part
    only when they consist of nothing else). *)
Fixpoint root_free (p : path) : Prop :=
  let go r := match r with Some o => root_free o | None => True end in
  match p with
  | PRoot cs => cs = []
  | PKey _ _ r | PAll _ r | PIdx _ _ r => go r
  end.

(** Steps without conditions and wildcards: they lead to at most one node. *)
Definition single_steps (steps : list step) : Prop :=
  Forall (fun s => step_conds s = [] /\ match s with SAll _ => False | _ => True end) steps.

(** Applying an operation to a document: leading comments and comment items stay,
    every YAML item gets the operation, the counts are summed. *)
Definition doc_result (op : yaml -> nat * yaml) (d : document) (r : nat * document) : Prop :=
  leading (snd r) = leading d
  /\ items (snd r) = map (fun it => match it with DYaml y => DYaml (snd (op y)) | DComment c => DComment c end) (items d)
  /\ fst r = list_sum (map (fun it => match it with DYaml y => fst (op y) | DComment _ => 0 end) (items d)).

(** Comments and elements that do not satisfy the conditions are unchanged. *)
Definition filtered (cs : list condition) (d d' : arraydata) : Prop :=
  match d with
  | AElem a => satisfies_b (a_value a) cs = false -> d' = d
  | _ => d' = d
  end.

(** An operation on a block sequence that leaves those elements alone. *)
Definition filtering (cs : list condition) (op : yaml -> yaml) (els : list arraydata) : Prop :=
  exists els', op (Array els) = Array els' /\ Forall2 (filtered cs) els els'.
