(** Model of /repo/src/yaml/deserializer.rs at the level of calls: a [Deserialize] impl
    written by hand may call the methods of a map or sequence access in any order, stop
    early, choose the type of the next item by what it has read, and go on after an error.
    [De.v] is the case of derived impls and those of std.
    Simplifications: the items an impl reads have one type [V]; errors are one value. *)
From Verif Require Import Base Ast Ser De.
Import ListNotations.

(** The outcome of one call and the registrations afterwards ([Anchors] is shared, 54: what
    was registered before an error stays). *)
Inductive got (A : Type) : Type := Got (x : A) (a : anchors) | GErr (a : anchors) | GPanic.
Arguments Got {A}. Arguments GErr {A}. Arguments GPanic {A}.

(** [DeserializeSeed::deserialize(YamlDeserializer::with(yaml, anchors))]. *)
Notation seed V := (yaml -> anchors -> got V).

(** [Visitor::visit_map]: what the impl does, by the results of its calls.  [None]: the call
    gave an error. *)
Inductive visit (V W : Type) : Type :=
| Return (w : W)
| Refuse
| Key (d : seed V) (f : option (option V) -> visit V W)
| Value (d : seed V) (f : option V -> visit V W).
Arguments Return {V W}. Arguments Refuse {V W}. Arguments Key {V W}. Arguments Value {V W}.

(** [VecMapAccess]: [iter], [pending_value] (460-474); [next_key_seed] 479-492 (sets the
    pending value before the key is read, leaves it at the end), [next_value_seed] 494-503
    (takes it before the value is read; [expect] panics). *)
Fixpoint serve {V W} (v : visit V W) (iter : list (str * yaml)) (pending : option yaml) (a : anchors) : got W :=
  match v with
  | Return w => Got w a
  | Refuse => GErr a
  | Key d f =>
      match iter with
      | [] => serve (f (Some None)) [] pending a
      | (k, y) :: iter' =>
          match d (Unquoted k) a with
          | Got x a1 => serve (f (Some (Some x))) iter' (Some y) a1
          | GErr a1 => serve (f None) iter' (Some y) a1
          | GPanic => GPanic
          end
      end
  | Value d f =>
      match pending with
      | None => GPanic
      | Some y =>
          match d y a with
          | Got x a1 => serve (f (Some x)) iter None a1
          | GErr a1 => serve (f None) iter None a1
          | GPanic => GPanic
          end
      end
  end.

(** [Visitor::visit_seq], and [VecSeqAccess::next_element_seed]: 433-456. *)
Inductive walk (V W : Type) : Type :=
| WReturn (w : W)
| WRefuse
| Element (d : seed V) (f : option (option V) -> walk V W).
Arguments WReturn {V W}. Arguments WRefuse {V W}. Arguments Element {V W}.
Fixpoint serve_seq {V W} (v : walk V W) (iter : list yaml) (a : anchors) : got W :=
  match v with
  | WReturn w => Got w a
  | WRefuse => GErr a
  | Element d f =>
      match iter with
      | [] => serve_seq (f (Some None)) [] a
      | y :: iter' =>
          match d y a with
          | Got x a1 => serve_seq (f (Some (Some x))) iter' a1
          | GErr a1 => serve_seq (f None) iter' a1
          | GPanic => GPanic
          end
      end
  end.

(** [deserialize_map] 349-359 and [deserialize_seq] 320-330 with such a visitor; the
    registrations do not change before the error (62-68, 95-103). *)
Definition visit_map {V W} (v : visit V W) : seed W := fun y a =>
  match de_map_entries y a with Some (l, a1) => serve v l None a1 | None => GErr a end.
Definition visit_seq {V W} (v : walk V W) : seed W := fun y a =>
  match de_seq_values y a with Some (l, a1) => serve_seq v l a1 | None => GErr a end.
