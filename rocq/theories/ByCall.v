(** [insert_into_hash_by_call] with a closure that has effects.

    The closure is an [Fn], which may still change state behind a [Cell] or read a clock.
    It is modelled as a function of a state: it returns the value and the next state.
    The traversal is that of [edit_hash] (Insert.v) with this state threaded through. *)
From Verif Require Import Base Ast Strings Path Insert.
Import ListNotations.

Section ByCall.
  Context {S : Type}.

  (** The index loop, mod.rs 246-257 and 258-273. *)
  Fixpoint idx_loop_by {X L : Type} (get : nat -> L -> option X) (set : nat -> X -> L -> L)
    (g : X -> option (S -> nat * X * S)) (idxs : list nat) (acc : nat) (l : L) (s : S) : nat * L * S :=
    match idxs with
    | [] => (acc, l, s)
    | i :: is' =>
        match get i l with
        | Some x => match g x with
                    | Some step => let '(a, x', s') := step s in
                                   idx_loop_by get set g is' (acc + a) (set i x' l) s'
                    | None => idx_loop_by get set g is' acc l s
                    end
        | None => idx_loop_by get set g is' acc l s
        end
    end.

  (** The loop over all elements, mod.rs 277-285 and 286-299. *)
  Fixpoint all_loop_by {X : Type} (g : X -> option (S -> nat * X * S)) (acc : nat) (l : list X) (s : S)
    : nat * list X * S :=
    match l with
    | [] => (acc, [], s)
    | x :: l' =>
        match g x with
        | Some step => let '(a, x', s') := step s in
                       let '(b, l2, s2) := all_loop_by g (acc + a) l' s' in (b, x' :: l2, s2)
        | None => let '(b, l2, s2) := all_loop_by g acc l' s in (b, x :: l2, s2)
        end
    end.

  (** [AliasedYaml::edit_hash_structure]: aliased.rs 29-34. *)
  Definition edit_value_by (h : yaml -> S -> nat * yaml * S) (a : aliased) (s : S) : nat * aliased * S :=
    let '(x, y', s') := h (a_value a) s in (x, mkA (a_alias a) y', s').

  Context (f : list hashdata -> str -> option nat -> S -> nat * list hashdata * S).

  (** [Yaml::edit_hash_structure]: mod.rs 219-304, as in [edit_hash]. *)
  Fixpoint edit_hash_by (p : path) (y : yaml) (s : S) {struct p} : nat * yaml * S :=
    match p with
    | PRoot _ => (0, y, s)
    | PKey k cs rest =>
        if fits_conditions y cs then
          match y with
          | Hash data =>
              match rest with
              | Some o =>
                  match key_index data k with
                  | Some i =>
                      match nth_error data i with
                      | Some (HElem e) =>
                          let '(n, v, s') := edit_value_by (edit_hash_by o) (he_value e) s in
                          (n, Hash (set_nth i (HElem (mkHE (he_key e) v)) data), s')
                      | _ => (0, y, s)
                      end
                  | None => (0, y, s)
                  end
              | None => let '(n, data', s') := f data k (key_index data k) s in (n, Hash data', s')
              end
          | _ => (0, y, s)
          end
        else (0, y, s)
    | PIdx is_ cs (Some o) =>
        match y with
        | InlineArray els =>
            let '(n, els', s') :=
              idx_loop_by (fun i l => nth_error l i) set_nth
                (fun e => if fits_conditions e cs then Some (edit_hash_by o e) else None) is_ 0 els s in
            (n, InlineArray els', s')
        | Array els =>
            let '(n, els', s') :=
              idx_loop_by get_elem set_elem
                (fun e => if fits_conditions (a_value e) cs
                          then Some (edit_value_by (edit_hash_by o) e) else None) is_ 0 els s in
            (n, Array els', s')
        | _ => (0, y, s)
        end
    | PAll cs (Some o) =>
        match y with
        | InlineArray els =>
            let '(n, els', s') :=
              all_loop_by
                (fun e => if fits_conditions e cs then Some (edit_hash_by o e) else None) 0 els s in
            (n, InlineArray els', s')
        | Array els =>
            let '(n, els', s') :=
              all_loop_by
                (fun d => match d with
                          | AElem e => if fits_conditions (a_value e) cs
                                       then Some (fun s => let '(n, e', s') := edit_value_by (edit_hash_by o) e s in
                                                           (n, AElem e', s'))
                                       else None
                          | _ => None
                          end) 0 els s in
            (n, Array els', s')
        | _ => (0, y, s)
        end
    | PIdx _ _ None | PAll _ None => (0, y, s)
    end.
End ByCall.

(** Closure of [insert_into_hash_by_call]: insert.rs 80-95.  [h()] is evaluated first,
    whatever happens to its value. *)
Definition by_call_f {S} (h : S -> aliased * S) (overwrite : bool) (data : list hashdata) (key : str)
  (idx : option nat) (s : S) : nat * list hashdata * S :=
  let '(v, s') := h s in
  let value := HElem (mkHE key v) in
  match idx with
  | None => (1, data ++ [value], s')
  | Some i => if overwrite then (1, set_nth i value data, s') else (0, data, s')
  end.

(** [insert_into_hash_by_call]: insert.rs 76-97. *)
Definition insert_into_hash_by_call {S} (p : path) (h : S -> aliased * S) (overwrite : bool) (y : yaml) (s : S)
  : nat * yaml * S :=
  edit_hash_by (by_call_f h overwrite) p y s.

(** [Document::edit_hash_structure]: document.rs 51-59 with [DocumentData] 14-21. *)
Definition insert_into_hash_by_call_doc {S} (p : path) (h : S -> aliased * S) (overwrite : bool) (d : document) (s : S)
  : nat * document * S :=
  let '(n, its, s') :=
    all_loop_by (fun x => match x with
                          | DYaml y => Some (fun s => let '(n, y', s') := insert_into_hash_by_call p h overwrite y s in
                                                      (n, DYaml y', s'))
                          | DComment _ => None
                          end) 0 (items d) s in
  (n, mkDoc (leading d) its, s').
