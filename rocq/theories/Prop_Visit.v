(** C77: impls of [Deserialize] that call the methods of a map access in any order. *)
From Coq Require Import ZArith.
From Verif Require Import Base Ast Ser De DeCalls Spec_Refs Spec_Visit AccessFacts.
Import ListNotations.

(** What the impl returns, exactly: whatever it does, it is given the keys in order, each once,
    and with a value that of the last key given, once. *)
Theorem C77_value : forall {V W} (v : visit V W) y a w a', visit_map v y a = Got w a' <->
  exists l a1 p, opens y a l a1 /\ reaches l v a1 p (Return w) a'.
Proof. exact (@map_value). Qed.
Print Assumptions C77_value.
Theorem C77_error : forall {V W} (v : visit V W) y a a', visit_map v y a = GErr a' <->
  (a' = a /\ ~ exists l a1, opens y a l a1) \/ exists l a1 p, opens y a l a1 /\ reaches l v a1 p Refuse a'.
Proof. exact (@map_error). Qed.
Print Assumptions C77_error.
(** It panics exactly if it gets to a call that does: for a value when there is none to give,
    or with an item that panics. *)
Theorem C77_panic : forall {V W} (v : visit V W) y a, visit_map v y a = GPanic <->
  exists l a1 p v' a', opens y a l a1 /\ reaches l v a1 p v' a' /\ trips l p v' a'.
Proof. exact (@map_panic). Qed.
Print Assumptions C77_panic.
Theorem C77_safe : forall {V W} (v : visit V W), polite false v -> forall y a, visit_map v y a <> GPanic.
Proof. exact (@map_safe). Qed.
Print Assumptions C77_safe.

(** Sequences: the elements in order, each once. *)
Theorem C77_sequence : forall {V W} (v : walk V W) y a w a', visit_seq v y a = Got w a' <->
  exists l a1 l', lists y a l a1 /\ treads v l a1 (WReturn w) l' a'.
Proof. exact (@walk_value). Qed.
Print Assumptions C77_sequence.
Theorem C77_sequence_panic : forall {V W} (v : walk V W) y a, visit_seq v y a = GPanic <->
  exists l a1 d f z l' a', lists y a l a1 /\ treads v l a1 (Element d f) (z :: l') a' /\ d z a' = GPanic.
Proof. exact (@walk_panic). Qed.
Print Assumptions C77_sequence_panic.

(** The visitors of std and of derived impls read what [De.v] says. *)
Theorem C77_vec : forall t s, matches s (de t) -> forall y a, exists n0, forall n, n0 <= n ->
  agrees (gmap SSeq (visit_seq (vec_walk n s []) y a)) (de (TSeq t) y a).
Proof. exact vec_derived. Qed.
Print Assumptions C77_vec.
Theorem C77_tuple : forall ts ss, Forall2 (fun s t => matches s (de t)) ss ts -> forall y a,
  agrees (gmap STuple (visit_seq (tuple_walk ss []) y a)) (de (TTuple ts) y a).
Proof. exact tuple_derived. Qed.
Print Assumptions C77_tuple.
Theorem C77_map : forall tk tv sk sv, matches sk (de tk) -> matches sv (de tv) -> forall y a, exists n0, forall n, n0 <= n ->
  agrees (gmap SMap (visit_map (map_visit n sk sv []) y a)) (de (TMap tk tv) y a).
Proof. exact map_derived. Qed.
Print Assumptions C77_map.
Theorem C77_struct : forall fs ss,
  Forall2 (fun s nt => s_name s = fst nt /\ matches (s_seed s) (de (snd nt)) /\ s_opt s = is_option (snd nt) /\ s_val s = None) ss fs ->
  forall y a, exists n0, forall n, n0 <= n ->
  agrees (gmap SStruct (visit_map (struct_visit n ss) y a)) (de (TStruct fs) y a).
Proof. exact struct_derived. Qed.
Print Assumptions C77_struct.
Theorem C77_polite : forall n sk sv ss, (forall y a, sk y a <> GPanic) -> (forall y a, sv y a <> GPanic) ->
  Forall (fun s => forall y a, s_seed s y a <> GPanic) ss ->
  polite false (map_visit n sk sv [] : visit sval _) /\ polite false (struct_visit n ss).
Proof. exact (fun n sk sv ss K D F => conj (map_polite n sk sv [] K D) (struct_polite n ss F)). Qed.
Print Assumptions C77_polite.

(** An impl that reads two keys as text, is told that there are no more entries, and asks for a
    value then: it gets that of the second key. *)
Definition item (t : ty) : seed sval := fun y a => match de t y a with Some (x, a1) => Got x a1 | None => GErr a end.
Definition late : visit sval sval := Key (item TStr) (fun _ => Key (item TBool) (fun _ => Key (item TStr) (fun _ =>
  Value (item TStr) (fun o => match o with Some x => Return x | None => Refuse end)))).
Definition two : list (str * yaml) := [(lit "a", Unquoted (lit "1")); (lit "b", Unquoted (lit "2"))].
Example C77_value_ex : reaches two late [] [GaveKey 0; GaveKey 1; GaveEnd; GaveValue 1] (Return (SStr (lit "2"))) [].
Proof.
  split.
  - change (possible 2 ((((([] ++ [GaveKey 0]) ++ [GaveKey 1]) ++ [GaveEnd]) ++ [GaveValue 1]))). rewrite !possible_snoc.
    split; [split; [split; [split|]|]|]; [apply possible_nil| | | |]; cbn; repeat split; auto. intros [H|[H|[H|[]]]]; discriminate.
  - eapply FKey with (o := Some (SStr (lit "a"))) (a1 := []); [reflexivity|constructor; reflexivity|].
    eapply FKey with (o := None) (a1 := []); [reflexivity|constructor; reflexivity|]. apply FEnd.
    eapply FValue with (o := Some (SStr (lit "2"))) (a1 := []); [reflexivity|constructor; reflexivity|]. constructor.
Qed.
(** An impl that wants two values for one key. *)
Definition greedy : visit sval sval := Key (item TStr) (fun _ => Value (item TStr) (fun _ => Value (item TStr) (fun _ => Refuse))).
Example C77_panic_ex : exists l a1 p v' a', opens (InlineHash two) [] l a1 /\ reaches l greedy a1 p v' a' /\ trips l p v' a'.
Proof. apply C77_panic. vm_compute. reflexivity. Qed.
Example C77_opens_ex : opens (Anchor (lit "m")) [(lit "m", Hash [HComment (lit "c"); HElem (mkHE (lit "a") (mkA (Some (lit "n")) (Unquoted (lit "1"))))])]
  [(lit "a", Unquoted (lit "1"))] ((lit "n", Unquoted (lit "1")) :: [(lit "m", Hash [HComment (lit "c"); HElem (mkHE (lit "a") (mkA (Some (lit "n")) (Unquoted (lit "1"))))])]).
Proof. apply opens_iff. vm_compute. reflexivity. Qed.
Example C77_sequence_ex :
  serve_seq (Element (item TBool) (fun o => Element (item TStr) (fun r => match o, r with
    | None, Some (Some x) => WReturn x | _, _ => WRefuse end))) [Unquoted (lit "x"); Unquoted (lit "y"); Anchor (lit "z")] [] =
  Got (SStr (lit "y")) [].
Proof. vm_compute. reflexivity. Qed.
Example C77_struct_ex :
  visit_map (struct_visit 3 [mkSlot (lit "b") (item TBool) false None; mkSlot (lit "c") (item (TOption TStr)) true None])
    (InlineHash [(lit "x", Anchor (lit "nowhere")); (lit "b", Unquoted (lit "yes"))]) [] =
  Got [(lit "b", SBool true); (lit "c", SNone)] [].
Proof. vm_compute. reflexivity. Qed.

(** Asking for a value after the last entry need not panic. *)
Theorem C77_after_end_refuted : exists (f : option sval -> visit sval sval) w,
  serve (Key (item TStr) (fun _ => Key (item TStr) (fun o => match o with Some None => Value (item TStr) f | _ => Refuse end)))
    [(lit "a", Unquoted (lit "1"))] None [] = Got w [].
Proof. exists (fun o => match o with Some x => Return x | None => Refuse end). eexists. vm_compute. reflexivity. Qed.
Print Assumptions C77_after_end_refuted.
