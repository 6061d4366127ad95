(** Specification vocabulary for move_to_subfield and move_to_map_with_field_as_key. *)
From Verif Require Import Base Ast Strings Spec_Insert.
Import ListNotations.

(** The entries without the first one named [k]. *)
Fixpoint drop_first (k : str) (l : list hashdata) : list hashdata :=
  match l with
  | HElem (mkHE k' v) :: l' => if seqb k' k then l' else HElem (mkHE k' v) :: drop_first k l'
  | d :: l' => d :: drop_first k l'
  | [] => []
  end.
Definition drop_all (names : list str) (l : list hashdata) : list hashdata :=
  fold_left (fun l k => drop_first k l) names l.

(** The entries with the first one named [k] set to [v], or [k: v] appended. *)
Fixpoint put (k : str) (v : aliased) (l : list hashdata) : list hashdata :=
  match l with
  | HElem (mkHE k' v') :: l' => if seqb k' k then HElem (mkHE k v) :: l' else HElem (mkHE k' v') :: put k v l'
  | d :: l' => d :: put k v l'
  | [] => [HElem (mkHE k v)]
  end.
Definition put_all (fields : list (str * aliased)) (l : list hashdata) : list hashdata :=
  fold_left (fun l f => put (fst f) (snd f) l) fields l.

(** The named fields that exist, with their first values. *)
Definition chosen (names : list str) (l : list hashdata) : list (str * aliased) :=
  flat_map (fun k => match first_value k l with Some v => [(k, v)] | None => [] end) names.

Definition entry_of (f : str * aliased) : hashdata := HElem (mkHE (fst f) (snd f)).

(** All values stored under [k], in order. *)
Definition values (k : str) (l : list hashdata) : list aliased :=
  flat_map (fun d => match d with HElem (mkHE k' v) => if seqb k' k then [v] else [] | _ => [] end) l.

Definition is_comment (d : hashdata) : bool := match d with HElem _ => false | _ => true end.

(** [after] is [before] with the first entry of every name in [names] moved into the
    mapping under [sub]: nothing else changes, nothing is lost. *)
Definition moved_under (sub : str) (names : list str) (before after : list hashdata) : Prop :=
  filter is_comment after = filter is_comment before /\
  (forall k, k <> sub -> values k after =
     if existsb (seqb k) names then tl (values k before) else values k before) /\
  exists al inner, first_value sub after = Some (mkA al (Hash inner)) /\
    tl (values sub after) = tl (values sub before) /\
    (forall k, In k names -> first_value k before <> None -> first_value k inner = first_value k before) /\
    (forall k, ~ In k names \/ first_value k before = None ->
       values k inner = match first_value sub before with
                        | Some (mkA _ (Hash old)) => values k old
                        | _ => []
                        end).

(** ---- grouping ---- *)

(** The group an entry goes to: its selector value, unless empty or kept. *)
Definition selector_string (sel : str) (e : hash_element) : option str :=
  match a_value (he_value e) with
  | Hash l => match first_value sel l with Some a => as_string (a_value a) | None => None end
  | _ => None
  end.
Definition group_of (sel : str) (keeps : list str) (e : hash_element) : option str :=
  match selector_string sel e with
  | Some [] => None
  | Some s => if existsb (seqb s) keeps then None else Some s
  | None => None
  end.

(** The entry without its selector field (when the selector is a string). *)
Definition unselect (sel : str) (d : hashdata) : hashdata :=
  match d with
  | HElem e =>
      match selector_string sel e, a_value (he_value e) with
      | Some _, Hash l => HElem (mkHE (he_key e) (mkA (a_alias (he_value e)) (Hash (drop_first sel l))))
      | _, _ => d
      end
  | _ => d
  end.

(** The group of the next entry, if there is one. *)
Fixpoint next_group (sel : str) (keeps : list str) (l : list hashdata) : option (option str) :=
  match l with
  | [] => None
  | HElem e :: _ => Some (group_of sel keeps e)
  | _ :: l' => next_group sel keeps l'
  end.

(** Where every entry goes ([None]: stays).  Comments go with the entry they precede;
    trailing comments with the last entry. *)
Fixpoint placed (sel : str) (keeps : list str) (last : option str) (l : list hashdata)
  : list (hashdata * option str) :=
  match l with
  | [] => []
  | HElem e :: l' =>
      (unselect sel (HElem e), group_of sel keeps e) :: placed sel keeps (group_of sel keeps e) l'
  | d :: l' =>
      (d, match next_group sel keeps l' with Some g => g | None => last end)
      :: placed sel keeps last l'
  end.

Definition same_group (g g' : option str) : bool :=
  match g, g' with
  | None, None => true
  | Some a, Some b => seqb a b
  | _, _ => false
  end.
Definition members (g : option str) (l : list (hashdata * option str)) : list hashdata :=
  map fst (filter (fun x => same_group (snd x) g) l).

(** Order of code points, lexicographic. *)
Inductive lex_lt : str -> str -> Prop :=
| lex_nil c s : lex_lt [] (c :: s)
| lex_head c d s t : (c < d)%N -> lex_lt (c :: s) (d :: t)
| lex_tail c s t : lex_lt s t -> lex_lt (c :: s) (c :: t).
