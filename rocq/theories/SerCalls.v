(** Model of /repo/src/yaml/serializer.rs at the level of calls: a [Serialize] impl written
    by hand may call the methods of a map serializer in any order.  [Ser.v] is the case of
    derived impls and those of std, which call key and value in turn.
    Simplification: the impl returns the first error it gets (the [?] operator), and it
    calls [end] once, last, as the types force it to. *)
From Verif Require Import Base Ast Strings Format Num Pretty Ser Peg.
Import ListNotations.

(** What an impl calls. *)
Inductive script : Type :=
| QOne (v : sval)                    (* a value whose impl is derived or from std *)
| QSeq (l : list script)             (* serialize_seq, then serialize_element for each: 263, 317-338 *)
| QTuple (l : list script)           (* serialize_tuple and the like: 268-288, 346-388 *)
| QMap (l : list (bool * script))    (* serialize_map, then serialize_key ([true]) and serialize_value ([false]) *)
| QStruct (l : list (str * script)). (* serialize_struct, then serialize_field: 295-309, 431-465 *)

Section Calls.
  Context (run : script -> cres yaml).
  Fixpoint run_all (l : list script) : cres (list yaml) :=
    match l with
    | [] => CVal []
    | p :: l' => match run p with
                 | CVal y => match run_all l' with CVal ys => CVal (y :: ys) | CErr => CErr | CPanic => CPanic end
                 | CErr => CErr | CPanic => CPanic
                 end
    end.
  (** [MapSerializer]: [current_key] and [entries]; [serialize_key] 401-405,
      [serialize_value] 407-414 ([expect] panics before the value is serialized). *)
  Fixpoint run_map (key : option str) (entries : list (str * yaml)) (l : list (bool * script)) : cres (list (str * yaml)) :=
    match l with
    | [] => CVal entries
    | (true, p) :: l' =>
        match run p with
        | CVal y => match yaml_to_key_string y with
                    | Some k => run_map (Some k) entries l'
                    | None => CErr
                    end
        | CErr => CErr | CPanic => CPanic
        end
    | (false, p) :: l' =>
        match key with
        | None => CPanic
        | Some k => match run p with
                    | CVal y => run_map None (entries ++ [(k, y)]) l'
                    | CErr => CErr | CPanic => CPanic
                    end
        end
    end.
  (** [serialize_field]: 435-443. *)
  Fixpoint run_fields (l : list (str * script)) : cres (list (str * yaml)) :=
    match l with
    | [] => CVal []
    | (k, p) :: l' => match run p with
                      | CVal y => match run_fields l' with CVal ys => CVal ((k, y) :: ys) | CErr => CErr | CPanic => CPanic end
                      | CErr => CErr | CPanic => CPanic
                      end
    end.
End Calls.
Definition cmap {A B} (f : A -> B) (x : cres A) : cres B :=
  match x with CVal v => CVal (f v) | CErr => CErr | CPanic => CPanic end.

(** [Serialize::serialize(YamlSerializer)]: serializer.rs 162-465. *)
Fixpoint run (p : script) : cres yaml :=
  match p with
  | QOne v => match ser v with Some y => CVal y | None => CErr end
  | QSeq l => cmap seq_yaml (run_all run l)
  | QTuple l => cmap InlineArray (run_all run l)
  | QMap l => cmap map_yaml_of (run_map run None [] l)
  | QStruct l => cmap map_yaml_of (run_fields run l)
  end.
