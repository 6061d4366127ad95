(** Specification vocabulary: files put together, and files cut off. *)
From Verif Require Import Base Ast.
Import ListNotations.

(** The document of two files of which the second, from the line "---" on, is put after the
    first: one collection, with the comments that stood between the two in the middle. *)
Inductive joined : document -> document -> document -> Prop :=
| JMap cs a l z a' l' z' : joined
    (mkDoc cs (map DComment a ++ DYaml (Hash l) :: map DComment z))
    (mkDoc [] (map DComment a' ++ DYaml (Hash l') :: map DComment z'))
    (mkDoc cs (map DComment a ++ DYaml (Hash (l ++ map HComment (z ++ a') ++ l')) :: map DComment z'))
| JSeq cs a l z a' l' z' : joined
    (mkDoc cs (map DComment a ++ DYaml (Array l) :: map DComment z))
    (mkDoc [] (map DComment a' ++ DYaml (Array l') :: map DComment z'))
    (mkDoc cs (map DComment a ++ DYaml (Array (l ++ map AComment (z ++ a') ++ l')) :: map DComment z')).

(** The items of a collection end with an entry (with the comment on its line, if any): no
    comment on its own line is last, and the comment of the last entry does not follow. *)
Inductive whole_entries : list hashdata -> list hashdata -> Prop :=
| WEntry l e r : (forall c r', r <> HInlineC c :: r') -> whole_entries (l ++ [HElem e]) r
| WEntryC l e c r : whole_entries (l ++ [HElem e; HInlineC c]) r.
Inductive whole_elements : list arraydata -> list arraydata -> Prop :=
| WElement l e r : (forall c r', r <> AInlineC c :: r') -> whole_elements (l ++ [AElem e]) r
| WElementC l e c r : whole_elements (l ++ [AElem e; AInlineC c]) r.

(** The document as far as it was written when writing stopped after an entry of the
    collection. *)
Inductive cut : document -> document -> Prop :=
| CutMap cs a l r z : whole_entries l r -> cut
    (mkDoc cs (map DComment a ++ DYaml (Hash (l ++ r)) :: map DComment z))
    (mkDoc cs (map DComment a ++ [DYaml (Hash l)]))
| CutSeq cs a l r z : whole_elements l r -> cut
    (mkDoc cs (map DComment a ++ DYaml (Array (l ++ r)) :: map DComment z))
    (mkDoc cs (map DComment a ++ [DYaml (Array l)])).
