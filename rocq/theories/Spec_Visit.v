(** Specification vocabulary: [Deserialize] impls that call the methods of a map access in
    any order. *)
From Verif Require Import Base Ast Ser De DeCalls Spec_Refs.
Import ListNotations.

(** The registrations say, last, that [n] is the label of [z] (newest first). *)
Definition latest (a : anchors) (n : str) (z : yaml) : Prop := exists a1 a2, a = a1 ++ (n, z) :: a2 /\ ~ In n (map fst a1).
(** The node itself, or what it refers to. *)
Definition stands_for (y : yaml) (a : anchors) (z : yaml) : Prop :=
  match y with Anchor n => latest a n z | _ => z = y end.
(** The labels of a collection, in order. *)
Definition labels (z : yaml) : anchors :=
  flat_map (fun e => match a_alias e with Some n => [(n, a_value e)] | None => [] end) (children z).
(** The node is, or refers to, a mapping with these entries; its labels are registered. *)
Inductive opens : yaml -> anchors -> list (str * yaml) -> anchors -> Prop :=
| Opens y a z l : stands_for y a z ->
    match z with
    | Hash d => l = flat_map (fun x => match x with HElem e => [(he_key e, a_value (he_value e))] | _ => [] end) d
    | InlineHash d => l = d
    | _ => False
    end -> opens y a l (rev (labels z) ++ a).
(** Likewise a sequence. *)
Inductive lists : yaml -> anchors -> list yaml -> anchors -> Prop :=
| Lists y a z l : stands_for y a z ->
    match z with
    | Array d => l = flat_map (fun x => match x with AElem e => [a_value e] | _ => [] end) d
    | InlineArray d => l = d
    | _ => False
    end -> lists y a l (rev (labels z) ++ a).

(** What the calls were served with: the key of the entry with this number (from 0), the news
    that there is no further entry, or the value of the entry with this number. *)
Inductive event : Type := GaveKey (i : nat) | GaveEnd | GaveValue (i : nat).
Definition is_key (e : event) : bool := match e with GaveKey _ => true | _ => false end.
Definition keys (p : list event) : nat := length (filter is_key p).

(** Keys are given in the order of the entries, each once; a value is that of the last key
    given, once. *)
Definition possible (n : nat) (p : list event) : Prop :=
  (forall p1 i p2, p = p1 ++ GaveKey i :: p2 -> i = keys p1 /\ i < n) /\
  (forall p1 p2, p = p1 ++ GaveEnd :: p2 -> keys p1 = n) /\
  (forall p1 i p2, p = p1 ++ GaveValue i :: p2 -> keys p1 = S i /\ ~ In (GaveValue i) p1).

(** What a call read at a node gives the impl. *)
Inductive reads_as {V} (d : seed V) (y : yaml) (a : anchors) : option V -> anchors -> Prop :=
| ReadsOk x a1 : d y a = Got x a1 -> reads_as d y a (Some x) a1
| ReadsErr a1 : d y a = GErr a1 -> reads_as d y a None a1.

(** Served with these, the impl gets from one point to the other. *)
Inductive follows {V W} (l : list (str * yaml)) : visit V W -> anchors -> list event -> visit V W -> anchors -> Prop :=
| FHere v a : follows l v a [] v a
| FKey d f a i k y o a1 p v' a' : nth_error l i = Some (k, y) -> reads_as d (Unquoted k) a o a1 ->
    follows l (f (option_map Some o)) a1 p v' a' -> follows l (Key d f) a (GaveKey i :: p) v' a'
| FEnd d f a p v' a' : follows l (f (Some None)) a p v' a' -> follows l (Key d f) a (GaveEnd :: p) v' a'
| FValue d f a i k y o a1 p v' a' : nth_error l i = Some (k, y) -> reads_as d y a o a1 ->
    follows l (f o) a1 p v' a' -> follows l (Value d f) a (GaveValue i :: p) v' a'.
Definition reaches {V W} (l : list (str * yaml)) (v : visit V W) (a : anchors) (p : list event) (v' : visit V W) (a' : anchors) : Prop :=
  possible (length l) p /\ follows l v a p v' a'.

(** There is no value to give: no key was given yet, or the value of the last was. *)
Definition spent (p : list event) : Prop := keys p = 0 \/ In (GaveValue (pred (keys p))) p.

(** The call the impl makes here panics. *)
Inductive trips {V W} (l : list (str * yaml)) (p : list event) : visit V W -> anchors -> Prop :=
| TripSpent d f a : spent p -> trips l p (Value d f) a
| TripKey d f a k y : nth_error l (keys p) = Some (k, y) -> d (Unquoted k) a = GPanic -> trips l p (Key d f) a
| TripValue d f a k y : ~ spent p -> nth_error l (pred (keys p)) = Some (k, y) -> d y a = GPanic -> trips l p (Value d f) a.

(** An impl that asks for a value only directly after it was given a key, and whose items
    never panic.  [true]: it was. *)
Inductive polite {V W} : bool -> visit V W -> Prop :=
| PolReturn b w : polite b (Return w)
| PolRefuse b : polite b Refuse
| PolKey b d f : (forall y a, d y a <> GPanic) -> (forall x, polite true (f (Some (Some x)))) ->
    polite false (f (Some None)) -> polite false (f None) -> polite b (Key d f)
| PolValue d f : (forall y a, d y a <> GPanic) -> (forall o, polite false (f o)) -> polite true (Value d f).

(** The element calls of a sequence, one after the other. *)
Inductive treads {V W} : walk V W -> list yaml -> anchors -> walk V W -> list yaml -> anchors -> Prop :=
| TrHere v l a : treads v l a v l a
| TrElem d f y l a o a1 v' l' a' : reads_as d y a o a1 -> treads (f (option_map Some o)) l a1 v' l' a' ->
    treads (Element d f) (y :: l) a v' l' a'
| TrEnd d f a v' l' a' : treads (f (Some None)) [] a v' l' a' -> treads (Element d f) [] a v' l' a'.

(** The impl reads what a derived one reads; its errors are errors. *)
Definition agrees {A} (g : got A) (r : dres A) : Prop :=
  match r with Some (x, a) => g = Got x a | None => exists a, g = GErr a end.

(** The reading of an item, likewise. *)
Definition matches {A} (s : seed A) (d : yaml -> anchors -> dres A) : Prop := forall y a, agrees (s y a) (d y a).

(** An impl wraps what its visitor returns. *)
Definition gmap {A B} (f : A -> B) (g : got A) : got B :=
  match g with Got x a => Got (f x) a | GErr a => GErr a | GPanic => GPanic end.

(** The visitors of std and of serde_derive; [n]: how many calls at most. *)
Section Derived.
  Context {V : Type}.
  (** [Vec<T>]. *)
  Fixpoint vec_walk (n : nat) (d : seed V) (acc : list V) : walk V (list V) :=
    match n with
    | 0 => WRefuse
    | S n => Element d (fun o => match o with
               | None => WRefuse
               | Some None => WReturn (rev acc)
               | Some (Some x) => vec_walk n d (x :: acc)
               end)
    end.
  (** A tuple. *)
  Fixpoint tuple_walk (ds : list (seed V)) (acc : list V) : walk V (list V) :=
    match ds with
    | [] => WReturn (rev acc)
    | d :: ds' => Element d (fun o => match o with
               | Some (Some x) => tuple_walk ds' (x :: acc)
               | _ => WRefuse
               end)
    end.
  (** A map. *)
  Fixpoint map_visit (n : nat) (dk dv : seed V) (acc : list (V * V)) : visit V (list (V * V)) :=
    match n with
    | 0 => Refuse
    | S n => Key dk (fun o => match o with
               | None => Refuse
               | Some None => Return (rev acc)
               | Some (Some k) => Value dv (fun r => match r with
                     | None => Refuse
                     | Some v => map_visit n dk dv ((k, v) :: acc)
                     end)
               end)
    end.
End Derived.
(** A struct: the name of the field (422-424), then its value; the value of an unknown field is
    not looked at (426-428). *)
Record slot : Type := mkSlot { s_name : str; s_seed : seed sval; s_opt : bool; s_val : option sval }.
Definition name_seed : seed sval := fun y a => match de_text y a with Some s => Got (SStr s) a | None => GErr a end.
Definition skip_seed : seed sval := fun _ a => Got SUnit a.
Definition slot_value (s : slot) : option (str * sval) :=
  match s_val s with
  | Some v => Some (s_name s, v)
  | None => if s_opt s then Some (s_name s, SNone) else None
  end.
Fixpoint find_slot (ss : list slot) (k : str) : option slot :=
  match ss with [] => None | s :: ss' => if seqb (s_name s) k then Some s else find_slot ss' k end.
Fixpoint fill (ss : list slot) (k : str) (v : sval) : list slot :=
  match ss with
  | [] => []
  | s :: ss' => if seqb (s_name s) k then mkSlot (s_name s) (s_seed s) (s_opt s) (Some v) :: ss' else s :: fill ss' k v
  end.
Fixpoint struct_visit (n : nat) (ss : list slot) : visit sval (list (str * sval)) :=
  match n with
  | 0 => Refuse
  | S n => Key name_seed (fun o => match o with
             | Some (Some (SStr k)) =>
                 match find_slot ss k with
                 | None => Value skip_seed (fun r => match r with None => Refuse | Some _ => struct_visit n ss end)
                 | Some s => match s_val s with
                             | Some _ => Refuse
                             | None => Value (s_seed s) (fun r => match r with None => Refuse | Some v => struct_visit n (fill ss k v) end)
                             end
                 end
             | Some None => match opt_map slot_value ss with Some vs => Return vs | None => Refuse end
             | _ => Refuse
             end)
  end.
