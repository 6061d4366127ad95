(** Model of the path operations: [YamlInsert] (/repo/src/yaml/insert.rs) and its
    impls for every receiver. *)
From Verif Require Import Base Ast Strings Path.
Import ListNotations.

(** The "key == k" test on one entry (mod.rs 63-66, 74-75). *)
Definition hd_is_key (k : str) (d : hashdata) : bool :=
  match d with HElem e => seqb (he_key e) k | _ => false end.

(** [Yaml::key_index] on the entries of a [Hash]: mod.rs 58-70. *)
Fixpoint key_index (data : list hashdata) (k : str) : option nat :=
  match data with
  | [] => None
  | d :: data' => if hd_is_key k d then Some 0 else option_map S (key_index data' k)
  end.

(** [Yaml::key_value] / [key_value_owned]: mod.rs 71-100. *)
Fixpoint key_value_l (data : list hashdata) (k : str) : option aliased :=
  match data with
  | [] => None
  | HElem e :: data' => if seqb (he_key e) k then Some (he_value e) else key_value_l data' k
  | _ :: data' => key_value_l data' k
  end.

Definition key_value (y : yaml) (k : str) : option aliased :=
  match y with Hash data => key_value_l data k | _ => None end.

(** [Yaml::fits_conditions]: mod.rs 116-132. *)
Definition fits_conditions (y : yaml) (cs : list condition) : bool :=
  forallb (fun c =>
    match key_value y (c_field c) with
    | Some a => match as_string (a_value a) with
                | Some s => seqb s (c_value c)
                | None => false
                end
    | None => false
    end) cs.

(** [ArrayData::fits_conditions]: array_data.rs 49-54. *)
Definition ad_fits (d : arraydata) (cs : list condition) : bool :=
  match d with AElem a => fits_conditions (a_value a) cs | _ => false end.

(** List access: [Vec::get_mut] and assignment through the reference. *)
Fixpoint set_nth {X} (n : nat) (x : X) (l : list X) : list X :=
  match l, n with
  | [], _ => []
  | _ :: l', 0 => x :: l'
  | y :: l', S n' => y :: set_nth n' x l'
  end.

(** The n-th [ArrayData::Element] of a block array (mod.rs 177-184: comments are
    filtered out before indexing). *)
Fixpoint get_elem (n : nat) (l : list arraydata) : option aliased :=
  match l with
  | [] => None
  | AElem a :: l' => match n with 0 => Some a | S n' => get_elem n' l' end
  | _ :: l' => get_elem n l'
  end.

Fixpoint set_elem (n : nat) (x : aliased) (l : list arraydata) : list arraydata :=
  match l with
  | [] => []
  | AElem a :: l' => match n with 0 => AElem x :: l' | S n' => AElem a :: set_elem n' x l' end
  | d :: l' => d :: set_elem n x l'
  end.

(** How deeply inline arrays are nested in each other, from the root of [y] down. *)
Fixpoint inline_depth (y : yaml) : nat :=
  match y with
  | InlineArray l => S (list_max (map inline_depth l))
  | _ => 0
  end.

Section Loops.
  Context {A : Type} (add : A -> A -> A).

  (** "for index in indexes { if let Some(e) = get(index) { if fits { count = count + ... } } }",
      mod.rs 165-174 and 181-190.  [g] returns [None] when the element does not fit. *)
  Fixpoint idx_loop {X L : Type} (get : nat -> L -> option X) (set : nat -> X -> L -> L)
    (g : X -> option (A * X)) (idxs : list nat) (acc : A) (l : L) : A * L :=
    match idxs with
    | [] => (acc, l)
    | i :: is' =>
        match get i l with
        | Some x => match g x with
                    | Some (a, x') => idx_loop get set g is' (add acc a) (set i x' l)
                    | None => idx_loop get set g is' acc l
                    end
        | None => idx_loop get set g is' acc l
        end
    end.

  (** "for element in elements.iter_mut() { if fits { count = count + ... } }",
      mod.rs 197-203 and 206-212. *)
  Fixpoint all_loop {X : Type} (g : X -> option (A * X)) (acc : A) (l : list X) : A * list X :=
    match l with
    | [] => (acc, [])
    | x :: l' =>
        match g x with
        | Some (a, x') => let '(b, l2) := all_loop g (add acc a) l' in (b, x' :: l2)
        | None => let '(b, l2) := all_loop g acc l' in (b, x :: l2)
        end
    end.
End Loops.

Section ForHash.
  (** The accumulator ([Additive], insert.rs 7-31) and the two closures. *)
  Context {A : Type} (zero : A) (add : A -> A -> A).
  Context (f : hash_element -> A * hash_element) (r : yaml -> A * yaml).

  Definition on_value (h : yaml -> A * yaml) (a : aliased) : A * aliased :=
    let '(x, y') := h (a_value a) in (x, mkA (a_alias a) y').

  (** Body of an index step ([Indexes], mod.rs 163-193, when [sel] is a list, or
      [AllIndexes], mod.rs 195-215) at one node.  [elem] is what [ArrayData::for_hash]
      (array_data.rs 25-42) does with the remaining path; for inline arrays the Rust
      code calls itself on the element with the SAME path, which is the recursion on
      [n] (always called with enough [n], see [for_hash_all_eq], [for_hash_idx_eq]). *)
  Fixpoint idx_step (sel : option (list nat)) (cs : list condition)
    (elem : yaml -> A * yaml) (n : nat) (y : yaml) {struct n} : A * yaml :=
    match y with
    | InlineArray els =>
        match n with
        | 0 => (zero, y)
        | S n' =>
            let g := fun e => if fits_conditions e cs then Some (idx_step sel cs elem n' e) else None in
            let '(a, els') :=
              match sel with
              | Some is_ => idx_loop add (fun i l => nth_error l i) set_nth g is_ zero els
              | None => all_loop add g zero els
              end in
            (a, InlineArray els')
        end
    | Array els =>
        let '(a, els') :=
          match sel with
          | Some is_ =>
              idx_loop add get_elem set_elem
                (fun e => if fits_conditions (a_value e) cs then Some (on_value elem e) else None)
                is_ zero els
          | None =>
              all_loop add
                (fun d => match d with
                          | AElem e => if fits_conditions (a_value e) cs
                                       then let '(a, e') := on_value elem e in Some (a, AElem e')
                                       else None
                          | _ => None
                          end) zero els
          end in
        (a, Array els')
    | _ => (zero, y)
    end.

  (** [Yaml::for_hash]: mod.rs 135-217, with [HashData::for_hash] (hash_data.rs 24-33),
      [HashElement::for_hash] (hash_element.rs 20-37), [ArrayData::for_hash]
      (array_data.rs 25-42) and [AliasedYaml::for_hash] (aliased.rs 35-41) inlined. *)
  Fixpoint for_hash (p : path) (y : yaml) {struct p} : A * yaml :=
    match p with
    | PRoot cs => if fits_conditions y cs then r y else (zero, y)
    | PKey k cs rest =>
        if fits_conditions y cs then
          match y with
          | Hash data =>
              match key_index data k with
              | Some i =>
                  match nth_error data i with
                  | Some (HElem e) =>
                      let '(a, e') :=
                        match rest with
                        | None => if seqb k (he_key e) then f e else (zero, e)
                        | Some o => let '(a, v) := on_value (for_hash o) (he_value e) in
                                    (a, mkHE (he_key e) v)
                        end in
                      (a, Hash (set_nth i (HElem e') data))
                  | _ => (zero, y)
                  end
              | None => (zero, y)
              end
          | _ => (zero, y)
          end
        else (zero, y)
    | PIdx is_ cs rest =>
        idx_step (Some is_) cs (match rest with Some o => for_hash o | None => r end)
                 (inline_depth y) y
    | PAll cs rest =>
        idx_step None cs (match rest with Some o => for_hash o | None => r end)
                 (inline_depth y) y
    end.

  (** [AliasedYaml::for_hash]: aliased.rs 35-41. *)
  Definition for_hash_aliased (p : path) (a : aliased) : A * aliased := on_value (for_hash p) a.

  (** [HashElement::for_hash]: hash_element.rs 20-37. *)
  Definition for_hash_elem (p : path) (e : hash_element) : A * hash_element :=
    match p with
    | PRoot _ => f e
    | PKey k _ None => if seqb k (he_key e) then f e else (zero, e)
    | PKey _ _ (Some o) => let '(a, v) := for_hash_aliased o (he_value e) in (a, mkHE (he_key e) v)
    | _ => (zero, e)
    end.

  (** [HashData::for_hash]: hash_data.rs 24-33. *)
  Definition for_hash_hashdata (p : path) (d : hashdata) : A * hashdata :=
    match d with
    | HElem e => let '(a, e') := for_hash_elem p e in (a, HElem e')
    | _ => (zero, d)
    end.

  (** [ArrayData::for_hash]: array_data.rs 25-42. *)
  Definition for_hash_arraydata (p : path) (d : arraydata) : A * arraydata :=
    match d with
    | AElem a =>
        match p with
        | PRoot _ => (zero, d)
        | PKey _ _ None => let '(x, a') := for_hash_aliased p a in (x, AElem a')
        | PAll _ (Some o) => let '(x, a') := for_hash_aliased o a in (x, AElem a')
        | PAll _ None => let '(x, a') := for_hash_aliased (PRoot []) a in (x, AElem a')
        | PIdx _ _ (Some o) => let '(x, a') := for_hash_aliased o a in (x, AElem a')
        | PIdx _ _ None => let '(x, a') := for_hash_aliased (PRoot []) a in (x, AElem a')
        | PKey _ _ (Some _) => (zero, d)
        end
    | _ => (zero, d)
    end.

  (** [DocumentData::for_hash]: document.rs 23-32. *)
  Definition for_hash_docdata (p : path) (d : docdata) : A * docdata :=
    match d with
    | DYaml y => let '(a, y') := for_hash p y in (a, DYaml y')
    | DComment _ => (zero, d)
    end.

  (** [Document::for_hash]: document.rs 61-71. *)
  Definition for_hash_doc (p : path) (d : document) : A * document :=
    let '(a, its) := all_loop add (fun x => Some (for_hash_docdata p x)) zero (items d) in
    (a, mkDoc (leading d) its).
End ForHash.

Section EditHash.
  (** The editing closure: entries, key, index of the key. *)
  Context (f : list hashdata -> str -> option nat -> nat * list hashdata).

  Definition edit_value (h : yaml -> nat * yaml) (a : aliased) : nat * aliased :=
    let '(x, y') := h (a_value a) in (x, mkA (a_alias a) y').

  (** [Yaml::edit_hash_structure]: mod.rs 219-304, with the impls for [HashData]
      (hash_data.rs 15-23), [HashElement] (hash_element.rs 14-19), [ArrayData]
      (array_data.rs 16-24) and [AliasedYaml] (aliased.rs 29-34) inlined. *)
  Fixpoint edit_hash (p : path) (y : yaml) {struct p} : nat * yaml :=
    match p with
    | PRoot _ => (0, y)
    | PKey k cs rest =>
        if fits_conditions y cs then
          match y with
          | Hash data =>
              match rest with
              | Some o =>
                  match key_index data k with
                  | Some i =>
                      match nth_error data i with
                      | Some (HElem e) =>
                          let '(n, v) := edit_value (edit_hash o) (he_value e) in
                          (n, Hash (set_nth i (HElem (mkHE (he_key e) v)) data))
                      | _ => (0, y)
                      end
                  | None => (0, y)
                  end
              | None => let '(n, data') := f data k (key_index data k) in (n, Hash data')
              end
          | _ => (0, y)
          end
        else (0, y)
    | PIdx is_ cs (Some o) =>
        match y with
        | InlineArray els =>
            let '(n, els') :=
              idx_loop Nat.add (fun i l => nth_error l i) set_nth
                (fun e => if fits_conditions e cs then Some (edit_hash o e) else None) is_ 0 els in
            (n, InlineArray els')
        | Array els =>
            let '(n, els') :=
              idx_loop Nat.add get_elem set_elem
                (fun e => if fits_conditions (a_value e) cs
                          then Some (edit_value (edit_hash o) e) else None) is_ 0 els in
            (n, Array els')
        | _ => (0, y)
        end
    | PAll cs (Some o) =>
        match y with
        | InlineArray els =>
            let '(n, els') :=
              all_loop Nat.add
                (fun e => if fits_conditions e cs then Some (edit_hash o e) else None) 0 els in
            (n, InlineArray els')
        | Array els =>
            let '(n, els') :=
              all_loop Nat.add
                (fun d => match d with
                          | AElem e => if fits_conditions (a_value e) cs
                                       then let '(n, e') := edit_value (edit_hash o) e in
                                            Some (n, AElem e')
                                       else None
                          | _ => None
                          end) 0 els in
            (n, Array els')
        | _ => (0, y)
        end
    | PIdx _ _ None | PAll _ None => (0, y)
    end.

  (** [DocumentData::edit_hash_structure], [Document::edit_hash_structure]:
      document.rs 14-22, 51-60. *)
  Definition edit_hash_docdata (p : path) (d : docdata) : nat * docdata :=
    match d with
    | DYaml y => let '(n, y') := edit_hash p y in (n, DYaml y')
    | DComment _ => (0, d)
    end.
  Definition edit_hash_doc (p : path) (d : document) : nat * document :=
    let '(n, its) := all_loop Nat.add (fun x => Some (edit_hash_docdata p x)) 0 (items d) in
    (n, mkDoc (leading d) its).
End EditHash.

(** ---- the operations ---- *)

(** Closures of [find_values]: insert.rs 45-46. *)
Definition find_f (e : hash_element) : list yaml * hash_element := ([a_value (he_value e)], e).
Definition find_r (y : yaml) : list yaml * yaml := ([y], y).

(** [find_values]: insert.rs 44-48.  The receiver is [&mut], so the tree after the
    call is part of the result. *)
Definition find_values_st (p : path) (y : yaml) : list yaml * yaml :=
  for_hash [] (@app yaml) find_f find_r p y.
Definition find_values (p : path) (y : yaml) : list yaml := fst (find_values_st p y).

(** Closure of [insert_into_hash]: insert.rs 54-72 (and 80-95 for
    [insert_into_hash_by_call] with a pure closure). *)
Definition insert_f (h : aliased) (overwrite : bool) (data : list hashdata) (key : str)
  (idx : option nat) : nat * list hashdata :=
  let value := HElem (mkHE key h) in
  match idx with
  | None => (1, data ++ [value])
  | Some i => if overwrite then (1, set_nth i value data) else (0, data)
  end.

(** [insert_into_hash]: insert.rs 53-74. *)
Definition insert_into_hash (p : path) (h : aliased) (overwrite : bool) (y : yaml) : nat * yaml :=
  edit_hash (insert_f h overwrite) p y.

(** [Vec::remove]. *)
Fixpoint remove_nth {X} (n : nat) (l : list X) : list X :=
  match l, n with
  | [], _ => []
  | _ :: l', 0 => l'
  | y :: l', S n' => y :: remove_nth n' l'
  end.

(** Closure of [remove_from_hash]: insert.rs 99-106. *)
Definition remove_f (data : list hashdata) (key : str) (idx : option nat) : nat * list hashdata :=
  match idx with
  | Some i => (1, remove_nth i data)
  | None => (0, data)
  end.

(** [remove_from_hash]: insert.rs 98-108. *)
Definition remove_from_hash (p : path) (y : yaml) : nat * yaml := edit_hash remove_f p y.

(** [rename_field]: insert.rs 109-116. *)
Definition rename_f (new_name : str) (e : hash_element) : nat * hash_element :=
  (1, mkHE new_name (he_value e)).
Definition zero_r (y : yaml) : nat * yaml := (0, y).
Definition rename_field (p : path) (new_name : str) (y : yaml) : nat * yaml :=
  for_hash 0 Nat.add (rename_f new_name) zero_r p y.

(** [to_object]: insert.rs 117-132. *)
Definition to_object_f (object_key : str) (e : hash_element) : nat * hash_element :=
  (1, mkHE (he_key e) (mkA None (Hash [HElem (mkHE object_key (he_value e))]))).
Definition to_object (p : path) (object_key : str) (y : yaml) : nat * yaml :=
  for_hash 0 Nat.add (to_object_f object_key) zero_r p y.

(** Document versions (the trait methods are shared by all receivers). *)
Definition find_values_doc (p : path) (d : document) : list yaml * document :=
  for_hash_doc [] (@app yaml) find_f find_r p d.
Definition insert_into_hash_doc (p : path) (h : aliased) (overwrite : bool) (d : document) :=
  edit_hash_doc (insert_f h overwrite) p d.
Definition remove_from_hash_doc (p : path) (d : document) := edit_hash_doc remove_f p d.
Definition rename_field_doc (p : path) (new_name : str) (d : document) :=
  for_hash_doc 0 Nat.add (rename_f new_name) zero_r p d.
Definition to_object_doc (p : path) (object_key : str) (d : document) :=
  for_hash_doc 0 Nat.add (to_object_f object_key) zero_r p d.

(** ---- movers ---- *)

(** Counts with panic: [None] is a panic (an [unwrap] of a failed path parse) and
    absorbs everything. *)
Definition opt_add (a b : option nat) : option nat :=
  match a, b with Some x, Some y => Some (x + y) | _, _ => None end.

Section Movers.
  (** [str::parse::<YamlPath>().unwrap()]; [None] is the panic. *)
  Context (parse : str -> option path).

  (** [key_value_mut] followed by an update of the referenced value: replaces the
      value of the first entry with that key (mod.rs 101-115). *)
  Fixpoint set_key_value (data : list hashdata) (k : str) (v : aliased) : list hashdata :=
    match data with
    | [] => []
    | HElem e :: data' =>
        if seqb (he_key e) k then HElem (mkHE (he_key e) v) :: data'
        else HElem e :: set_key_value data' k v
    | d :: data' => d :: set_key_value data' k v
    end.

  (** insert.rs 148-151: insert every field into the existing subfield value. *)
  Fixpoint insert_fields (fields : list (str * aliased)) (sub : aliased) : option aliased :=
    match fields with
    | [] => Some sub
    | (key, value) :: fields' =>
        match parse key with
        | Some p => insert_fields fields' (mkA (a_alias sub) (snd (insert_into_hash p value true (a_value sub))))
        | None => None
        end
    end.

  (** insert.rs 170-172: remove every moved field. *)
  Fixpoint remove_fields (fields : list (str * aliased)) (y : yaml) : option yaml :=
    match fields with
    | [] => Some y
    | (key, _) :: fields' =>
        match parse key with
        | Some p => remove_fields fields' (snd (remove_from_hash p y))
        | None => None
        end
    end.

  (** insert.rs 141-144. *)
  Definition fields_of (data : list hashdata) (names : list str) : list (str * aliased) :=
    flat_map (fun key => match key_value_l data key with Some v => [(key, v)] | None => [] end) names.

  Definition panic (y : yaml) : option nat * yaml := (None, y).

  (** Closure [r] of [move_to_subfield]: insert.rs 139-179. *)
  Definition mts_r (subfield : str) (names : list str) (y : yaml) : option nat * yaml :=
    match y with
    | Hash data =>
        let fields := fields_of data names in
        if is_nil fields then (Some 0, y)
        else
          let after_insert : option yaml :=
            match key_value_l data subfield with
            | Some sub =>
                match insert_fields fields sub with
                | Some sub' => Some (Hash (set_key_value data subfield sub'))
                | None => None
                end
            | None =>
                let value := Hash (map (fun kv => HElem (mkHE (fst kv) (snd kv))) fields) in
                match parse subfield with
                | Some p => Some (snd (insert_into_hash p (mkA None value) false y))
                | None => None
                end
            end in
          match after_insert with
          | Some y1 => match remove_fields fields y1 with
                       | Some y2 => (Some 1, y2)
                       | None => panic y
                       end
          | None => panic y
          end
    | _ => (Some 0, y)
    end.

  (** Closure [f] shared by both movers: insert.rs 180-183, 300-303. *)
  Definition on_elem_value (r : yaml -> option nat * yaml) (e : hash_element) : option nat * hash_element :=
    let '(n, y') := r (a_value (he_value e)) in
    (n, mkHE (he_key e) (mkA (a_alias (he_value e)) y')).

  (** [move_to_subfield]: insert.rs 133-186. *)
  Definition move_to_subfield (p : path) (subfield : str) (names : list str) (y : yaml)
    : option nat * yaml :=
    for_hash (Some 0) opt_add (on_elem_value (mts_r subfield names)) (mts_r subfield names) p y.

  (** [String]'s [Ord] (byte order of UTF-8, which is code point order). *)
  Fixpoint str_ltb (a b : str) : bool :=
    match a, b with
    | [], [] => false
    | [], _ :: _ => true
    | _ :: _, [] => false
    | x :: a', y :: b' => (x <? y)%N || (ceqb x y && str_ltb a' b')
    end.

  (** [BTreeMap<String, Vec<HashData>>] as a sorted association list: the branch
      "contains_key / extend, else insert" of insert.rs 227-237. *)
  Fixpoint bt_extend (m : list (str * list hashdata)) (k : str) (v : list hashdata)
    : list (str * list hashdata) :=
    match m with
    | [] => [(k, v)]
    | (k', v') :: m' =>
        if seqb k' k then (k', v' ++ v) :: m'
        else if str_ltb k k' then (k, v) :: (k', v') :: m'
        else (k', v') :: bt_extend m' k v
    end.

  (** Loop state of insert.rs 199-202. *)
  Record mm_state : Type := mkMM {
    mm_new : list (str * list hashdata);
    mm_old : list hashdata;
    mm_comments : list hashdata;
    mm_last : option str }.

  Definition str_mem (s : str) (l : list str) : bool := existsb (seqb s) l.

  Definition mm_keep (st : mm_state) (d : hashdata) : mm_state :=
    mkMM (mm_new st) (mm_old st ++ mm_comments st ++ [d]) [] None.

  (** Loop body: insert.rs 203-257. *)
  Definition mm_step (selector : str) (keeps : list str) (st : mm_state) (d : hashdata)
    : option mm_state :=
    match d with
    | HElem e =>
        match key_value (a_value (he_value e)) selector with
        | Some key =>
            match as_string (a_value key) with
            | Some s =>
                match parse selector with
                | None => None
                | Some p =>
                    let value := mkA (a_alias (he_value e))
                                     (snd (remove_from_hash p (a_value (he_value e)))) in
                    let d' := HElem (mkHE (he_key e) value) in
                    if str_mem s keeps || is_nil s then Some (mm_keep st d')
                    else Some (mkMM (bt_extend (mm_new st) s (mm_comments st ++ [d']))
                                    (mm_old st) [] (Some s))
                end
            | None => Some (mm_keep st d)
            end
        | None => Some (mm_keep st d)
        end
    | _ => Some (mkMM (mm_new st) (mm_old st) (mm_comments st ++ [d]) (mm_last st))
    end.

  Fixpoint mm_loop (selector : str) (keeps : list str) (st : mm_state) (l : list hashdata)
    : option mm_state :=
    match l with
    | [] => Some st
    | d :: l' => match mm_step selector keeps st d with
                 | Some st' => mm_loop selector keeps st' l'
                 | None => None
                 end
    end.

  (** insert.rs 258-262: trailing comments go where the last entry went. *)
  Definition mm_finish (st : mm_state) : mm_state :=
    match mm_last st with
    | Some s => mkMM (bt_extend (mm_new st) s (mm_comments st)) (mm_old st) [] (mm_last st)
    | None => mkMM (mm_new st) (mm_old st ++ mm_comments st) [] None
    end.

  (** Closure [r] of [move_to_map_with_field_as_key]: insert.rs 195-299. *)
  Definition mtm_r (old_map_name selector new_map_name : str) (keeps : list str) (y : yaml)
    : option nat * yaml :=
    match y with
    | Hash data =>
        match key_value_l data old_map_name with
        | Some result =>
            match a_value result with
            | Hash entries =>
                match mm_loop selector keeps (mkMM [] [] [] None) entries with
                | None => panic y
                | Some st0 =>
                    let st := mm_finish st0 in
                    if is_nil (mm_new st) then (Some 0, y)
                    else
                      let new := mkA (a_alias result)
                                     (Hash (map (fun kv => HElem (mkHE (fst kv) (mkA None (Hash (snd kv)))))
                                                (mm_new st))) in
                      let old := mkA (a_alias result) (Hash (mm_old st)) in
                      match parse new_map_name, parse old_map_name with
                      | Some pn, Some po =>
                          let y1 := snd (insert_into_hash pn new false y) in
                          let y2 := snd (insert_into_hash po old true y1) in
                          (Some 1, y2)
                      | _, _ => panic y
                      end
                end
            | _ => (Some 0, y)
            end
        | None => (Some 0, y)
        end
    | _ => (Some 0, y)
    end.

  (** [move_to_map_with_field_as_key]: insert.rs 187-306. *)
  Definition move_to_map (p : path) (old_map_name selector new_map_name : str) (keeps : list str)
    (y : yaml) : option nat * yaml :=
    for_hash (Some 0) opt_add
      (on_elem_value (mtm_r old_map_name selector new_map_name keeps))
      (mtm_r old_map_name selector new_map_name keeps) p y.
End Movers.
