(** Two edits in a row. *)
From Coq Require Import Lia.
From Verif Require Import Base Ast Strings Path Insert Spec_Insert Spec_Edit Spec_Compose InsertFacts InsertFacts2 InsertFacts3 InsertFacts4.
Import ListNotations.

(** ---- loops ---- *)
Section Fuse.
  Context {X L : Type} (get : nat -> L -> option X) (set : nat -> X -> L -> L).
  Context (get_set_eq : forall i x y l, get i l = Some y -> get i (set i x l) = Some x).
  Context (get_set_neq : forall i j x l, i <> j -> get j (set i x l) = get j l).
  Context (set_comm : forall i j x y l, i <> j -> set j y (set i x l) = set i x (set j y l)).
  Context (set_set : forall i x y l, set i x (set i y l) = set i x l).
  Context (g1 g2 g3 : X -> option (nat * X)).
  Context (fuse : forall x, match g1 x with
                            | Some (_, x') => g2 x' = g3 x /\ g3 x <> None
                            | None => g2 x = None /\ g3 x = None
                            end).
  Notation loop := (idx_loop Nat.add get set).
  Lemma idx_loop_fuse is_ l : NoDup is_ -> loop g2 is_ 0 (snd (loop g1 is_ 0 l)) = loop g3 is_ 0 l.
  Proof.
    intros Hd. revert l; induction Hd as [|i is_ Hi Hd IH]; intros l; [reflexivity|]. cbn [idx_loop].
    destruct (get i l) as [x|] eqn:E.
    - specialize (fuse x). destruct (g1 x) as [[n x']|] eqn:Eg.
      + destruct fuse as [F F3]. destruct (g3 x) as [[m x3]|]; [|congruence].
        rewrite (idx_loop_acc get set g1 is_ (0 + n)). cbn [fst snd].
        assert (Hget : get i (snd (loop g1 is_ 0 (set i x' l))) = Some x').
        { rewrite (idx_loop_get Nat.add g1 get set get_set_eq get_set_neq) by assumption.
          rewrite (get_set_eq _ _ _ _ E). destruct (in_dec Nat.eq_dec i is_); [contradiction|reflexivity]. }
        rewrite Hget, F. rewrite (idx_loop_set_comm Nat.add g1 get set get_set_neq set_comm is_ 0 l i x' Hi).
        specialize (IH (set i x3 l)). rewrite (idx_loop_set_comm Nat.add g1 get set get_set_neq set_comm is_ 0 l i x3 Hi) in IH.
        destruct (loop g1 is_ 0 l) as [q l'] eqn:El. cbn [fst snd] in *. rewrite set_set.
        rewrite (idx_loop_acc get set g2 is_ (0 + m)), (idx_loop_acc get set g3 is_ (0 + m)). now rewrite IH.
      + destruct fuse as [F F3]. rewrite F3.
        assert (Hget : get i (snd (loop g1 is_ 0 l)) = Some x).
        { rewrite (idx_loop_get Nat.add g1 get set get_set_eq get_set_neq) by assumption.
          rewrite E. destruct (in_dec Nat.eq_dec i is_); [contradiction|reflexivity]. }
        rewrite Hget, F. apply IH.
    - assert (Hget : get i (snd (loop g1 is_ 0 l)) = None).
      { rewrite (idx_loop_get Nat.add g1 get set get_set_eq get_set_neq) by assumption. now rewrite E. }
      rewrite Hget. apply IH.
  Qed.
End Fuse.
Lemma all_loop_fuse {X} (g1 g2 g3 : X -> option (nat * X)) l :
  (forall x, match g1 x with Some (_, x') => g2 x' = g3 x /\ g3 x <> None | None => g2 x = None /\ g3 x = None end) ->
  all_loop Nat.add g2 0 (snd (all_loop Nat.add g1 0 l)) = all_loop Nat.add g3 0 l.
Proof.
  intros F. induction l as [|x l IH]; [reflexivity|]. cbn [all_loop]. specialize (F x). destruct (g1 x) as [[n x']|].
  - destruct F as [F F3]. destruct (g3 x) as [[m x3]|]; [|congruence].
    rewrite (all_loop_acc g1 (0 + n)). cbn [fst snd all_loop]. rewrite F.
    rewrite (all_loop_acc g2 (0 + m)), (all_loop_acc g3 (0 + m)), IH. reflexivity.
  - destruct F as [F ->]. destruct (all_loop Nat.add g1 0 l) as [n l1]. cbn [fst snd all_loop] in *. rewrite F, IH. reflexivity.
Qed.
Lemma set_set_elem i x y l : set_elem i x (set_elem i y l) = set_elem i x l.
Proof. revert i; induction l as [|[c|c|d] l IH]; intros i; cbn; auto; try (f_equal; auto). destruct i; cbn; f_equal; auto. Qed.

(** ---- the fused edit ---- *)
Notation closure := (list hashdata -> str -> option nat -> nat * list hashdata).
Definition act (f : closure) (k : str) (l : list hashdata) : nat * list hashdata := f l k (key_index l k).

Section Edits.
  Context (f g : closure) (k2 : str).
  Definition fused : closure := fun l k i => act g k2 (snd (f l k i)).
  Definition keeps (cs : list condition) (k : str) : Prop := forall l,
    fits_conditions (Hash l) cs = true -> fits_conditions (Hash (snd (act f k l))) cs = true.
  Definition ends (cs : list condition) (o : path) : Prop := match o with PKey k _ None => keeps cs k | _ => True end.
  Fixpoint stable (p : path) : Prop :=
    match p with
    | PKey k cs None => keeps cs k
    | PKey _ _ (Some o) => stable o
    | PAll cs (Some o) | PIdx _ cs (Some o) => stable o /\ ends cs o
    | _ => True
    end.
  Lemma edit_fits o cs v : ends cs o -> fits_conditions v cs = true -> fits_conditions (snd (edit_hash f o v)) cs = true.
  Proof.
    intros Hk Hf. destruct o as [cs'|k cs' rest|cs' rest|is_ cs' rest]; cbn [edit_hash ends] in *.
    - exact Hf.
    - destruct (fits_conditions v cs'); [|exact Hf]. destruct v; try exact Hf. destruct rest as [o|].
      + destruct (key_index l k) as [i|] eqn:Ei; [|exact Hf].
        destruct (key_index_split _ _ _ Ei) as (l1 & [al x] & l2 & -> & <- & _). rewrite nth_error_app_mid. unfold edit_value. cbn [he_value a_value a_alias he_key].
        pose proof (edit_hash_as_string f o x) as Es. destruct (edit_hash f o x) as [n x']. cbn [snd] in *. rewrite set_nth_app.
        now rewrite <- (fits_set_value _ _ _ _ _ _ _ Es).
      + specialize (Hk l Hf). unfold act in Hk. destruct (f l k (key_index l k)). exact Hk.
    - destruct rest; [|exact Hf]. destruct v; try exact Hf; destruct (all_loop _ _ _ _); cbn [snd]; destruct cs; auto; discriminate.
    - destruct rest; [|exact Hf]. destruct v; try exact Hf; destruct (idx_loop _ _ _ _ _ _ _); cbn [snd]; destruct cs; auto; discriminate.
  Qed.
  Theorem edits_fuse p : forall y, indexes_distinct p -> stable p ->
    edit_hash g (with_key k2 p) (snd (edit_hash f p y)) = edit_hash fused p y.
  Proof.
    induction p as [cs|k cs rest IH|cs rest IH|is_ cs rest IH] using path_ind'; intros y Hd Hs.
    - reflexivity.
    - destruct rest as [o|].
      + cbn [with_key edit_hash]. destruct (fits_conditions y cs) eqn:Ef; [|cbn [snd]; now rewrite Ef].
        destruct y as [|l| | | | | | | | ]; try (cbn [snd]; now rewrite Ef).
        destruct (key_index l k) as [i|] eqn:Ei; [|cbn [snd]; now rewrite Ef, Ei].
        destruct (key_index_split _ _ _ Ei) as (l1 & [al v] & l2 & -> & <- & Hk). rewrite nth_error_app_mid.
        unfold edit_value. cbn [he_value a_value a_alias he_key].
        pose proof (edit_hash_as_string f o v) as Es. specialize (IH v Hd Hs).
        destruct (edit_hash f o v) as [n v']. cbn [fst snd] in *. rewrite set_nth_app.
        rewrite <- (fits_set_value _ _ _ _ _ _ _ Es), Ef. rewrite (key_index_app _ _ _ _ Hk), nth_error_app_mid.
        cbn [he_value he_key a_value a_alias]. rewrite IH. destruct (edit_hash fused o v) as [n2 v2]. now rewrite !set_nth_app.
      + cbn [with_key edit_hash]. destruct (fits_conditions y cs) eqn:Ef; [|cbn [snd]; now rewrite Ef].
        destruct y as [|l| | | | | | | | ]; try (cbn [snd]; now rewrite Ef).
        pose proof (Hs l Ef) as Hf. unfold fused, act in *. destruct (f l k (key_index l k)) as [n l']. cbn [snd] in *. now rewrite Hf.
    - destruct rest as [o|]; [|reflexivity]. cbn in IH, Hd. destruct Hs as [Hs He]. cbn [with_key edit_hash]. destruct y; try reflexivity.
      + pose proof (all_loop_fuse (fun e => if fits_conditions e cs then Some (edit_hash f o e) else None)
          (fun e => if fits_conditions e cs then Some (edit_hash g (with_key k2 o) e) else None)
          (fun e => if fits_conditions e cs then Some (edit_hash fused o e) else None) l) as U.
        match type of U with ?P -> _ => assert (HP : P) end.
        { intros x. destruct (fits_conditions x cs) eqn:Ef; [|now split].
          specialize (IH x Hd Hs). pose proof (edit_fits o cs x He Ef) as Ef2. destruct (edit_hash f o x) as [n x']. cbn [snd] in *.
          rewrite Ef2, IH. split; [reflexivity|discriminate]. }
        specialize (U HP). destruct (all_loop Nat.add _ 0 l) as [n1 l1]. cbn [snd] in *. rewrite U. reflexivity.
      + pose proof (all_loop_fuse
          (fun d => match d with AElem e => if fits_conditions (a_value e) cs then let '(n, e') := edit_value (edit_hash f o) e in Some (n, AElem e') else None | _ => None end)
          (fun d => match d with AElem e => if fits_conditions (a_value e) cs then let '(n, e') := edit_value (edit_hash g (with_key k2 o)) e in Some (n, AElem e') else None | _ => None end)
          (fun d => match d with AElem e => if fits_conditions (a_value e) cs then let '(n, e') := edit_value (edit_hash fused o) e in Some (n, AElem e') else None | _ => None end) l) as U.
        match type of U with ?P -> _ => assert (HP : P) end.
        { intros [c|c|[al x]]; try (split; reflexivity). cbn [a_value]. destruct (fits_conditions x cs) eqn:Ef; [|now split].
          specialize (IH x Hd Hs). pose proof (edit_fits o cs x He Ef) as Ef2. unfold edit_value. cbn [a_value a_alias].
          destruct (edit_hash f o x) as [n x']. cbn [snd a_value a_alias] in *.
          rewrite Ef2, IH. destruct (edit_hash fused o x). split; [reflexivity|discriminate]. }
        specialize (U HP). destruct (all_loop Nat.add _ 0 l) as [n1 l1]. cbn [snd] in *. rewrite U. reflexivity.
    - destruct rest as [o|]; [|reflexivity]. cbn in IH, Hd. destruct Hd as [Hn Hd]. destruct Hs as [Hs He]. cbn [with_key edit_hash]. destruct y; try reflexivity.
      + pose proof (idx_loop_fuse (fun i l => nth_error l i) set_nth (fun i x y l E => nth_error_set_nth_eq i x y l E) (fun i j x l E => nth_error_set_nth_neq i j x l E)
             (fun i j x y l E => nth_set_comm i j x y l E) (fun i x y l => set_nth_set_nth i x y l)
          (fun e => if fits_conditions e cs then Some (edit_hash f o e) else None)
          (fun e => if fits_conditions e cs then Some (edit_hash g (with_key k2 o) e) else None)
          (fun e => if fits_conditions e cs then Some (edit_hash fused o e) else None)) as U.
        match type of U with ?P -> _ => assert (HP : P) end.
        { intros x. destruct (fits_conditions x cs) eqn:Ef; [|now split].
          specialize (IH x Hd Hs). pose proof (edit_fits o cs x He Ef) as Ef2. destruct (edit_hash f o x) as [n x']. cbn [snd] in *.
          rewrite Ef2, IH. split; [reflexivity|discriminate]. }
        specialize (U HP is_ l Hn). destruct (idx_loop Nat.add _ _ _ _ 0 l) as [n1 l1]. cbn [snd] in *. rewrite U. reflexivity.
      + pose proof (idx_loop_fuse get_elem set_elem (fun i x y l E => get_set_elem_eq i x y l E) (fun i j x l E => get_set_elem_neq i j x l E)
             (fun i j x y l E => elem_set_comm i j x y l E) set_set_elem
          (fun e => if fits_conditions (a_value e) cs then Some (edit_value (edit_hash f o) e) else None)
          (fun e => if fits_conditions (a_value e) cs then Some (edit_value (edit_hash g (with_key k2 o)) e) else None)
          (fun e => if fits_conditions (a_value e) cs then Some (edit_value (edit_hash fused o) e) else None)) as U.
        match type of U with ?P -> _ => assert (HP : P) end.
        { intros [al x]. cbn [a_value]. destruct (fits_conditions x cs) eqn:Ef; [|now split].
          specialize (IH x Hd Hs). pose proof (edit_fits o cs x He Ef) as Ef2. unfold edit_value. cbn [a_value a_alias].
          destruct (edit_hash f o x) as [n x']. cbn [snd a_value a_alias] in *.
          rewrite Ef2, IH. split; [reflexivity|discriminate]. }
        specialize (U HP is_ l Hn). destruct (idx_loop Nat.add _ _ _ _ 0 l) as [n1 l1]. cbn [snd] in *. rewrite U. reflexivity.
  Qed.
End Edits.

(** Two closures that do the same to every mapping. *)
Section Same.
  Context (R : nat -> nat -> Prop) (R0 : R 0 0) (Radd : forall a b c d, R a b -> R c d -> R (a + c) (b + d)).
  Context (f g : closure) (k k2 : str).
  Context (E : forall l, R (fst (act f k l)) (fst (act g k2 l)) /\ snd (act f k l) = snd (act g k2 l)).
  Definition alike {X} (x y : nat * X) : Prop := R (fst x) (fst y) /\ snd x = snd y.
  Definition oalike {X} (x y : option (nat * X)) : Prop :=
    match x, y with Some a, Some b => alike a b | None, None => True | _, _ => False end.
  Lemma all_loop_alike {X} (g1 g2 : X -> option (nat * X)) : (forall x, oalike (g1 x) (g2 x)) ->
    forall l a b, R a b -> alike (all_loop Nat.add g1 a l) (all_loop Nat.add g2 b l).
  Proof.
    intros H. induction l as [|x l IH]; intros a b Rab; [split; auto|]. cbn [all_loop]. specialize (H x).
    destruct (g1 x) as [[n x1]|], (g2 x) as [[m x2]|]; try contradiction.
    - destruct H as [Rn Ex]. cbn in Rn, Ex. subst. specialize (IH (a + n) (b + m) (Radd _ _ _ _ Rab Rn)).
      destruct (all_loop _ _ (a + n) l), (all_loop _ _ (b + m) l), IH as [I1 I2]; cbn in *. subst. now split.
    - specialize (IH a b Rab). destruct (all_loop _ _ a l), (all_loop _ _ b l), IH as [I1 I2]; cbn in *. subst. now split.
  Qed.
  Lemma idx_loop_alike {X L} get set (g1 g2 : X -> option (nat * X)) : (forall x, oalike (g1 x) (g2 x)) ->
    forall is_ (l : L) a b, R a b -> alike (idx_loop Nat.add get set g1 is_ a l) (idx_loop Nat.add get set g2 is_ b l).
  Proof.
    intros H. induction is_ as [|i is_ IH]; intros l a b Rab; [split; auto|]. cbn [idx_loop].
    destruct (get i l) as [x|]; [|auto]. specialize (H x). destruct (g1 x) as [[n x1]|], (g2 x) as [[m x2]|]; try contradiction; [|auto].
    destruct H as [Rn Ex]. cbn in Rn, Ex. subst. apply IH. auto.
  Qed.
  Lemma value_alike (e1 e2 : yaml -> nat * yaml) a : (forall y, alike (e1 y) (e2 y)) -> alike (edit_value e1 a) (edit_value e2 a).
  Proof. intros H. unfold edit_value. destruct (H (a_value a)) as [H1 H2]. destruct (e1 _), (e2 _); cbn in *. subst. now split. Qed.
  Lemma alike_wrap {X Y} (w : X -> Y) a b : alike a b -> alike (let '(n, x) := a in (n, w x)) (let '(n, x) := b in (n, w x)).
  Proof. destruct a, b. intros [H1 H2]. cbn in *. subst. now split. Qed.
  Lemma edit_alike p : last_key p = Some k -> forall y, alike (edit_hash f p y) (edit_hash g (with_key k2 p) y).
  Proof.
    assert (Z : forall y : yaml, alike (0, y) (0, y)) by (split; auto).
    induction p as [cs|k0 cs rest IH|cs rest IH|is_ cs rest IH] using path_ind'; intros Lk y.
    - discriminate.
    - destruct rest as [o|]; cbn [with_key edit_hash last_key] in *.
      + destruct (fits_conditions y cs); [|apply Z]. destruct y; try apply Z. destruct (key_index l k0) as [i|]; [|apply Z].
        destruct (nth_error l i) as [[]|]; try apply Z.
        pose proof (value_alike _ _ (he_value e) (IH Lk)) as [V1 V2]. destruct (edit_value _ _), (edit_value _ _); cbn in *. subst. now split.
      + injection Lk as ->. destruct (fits_conditions y cs); [|apply Z]. destruct y; try apply Z. destruct (E l) as [E1 E2]. unfold act in *.
        destruct (f l k _), (g l k2 _); cbn in *. subst. now split.
    - destruct rest as [o|]; [|discriminate]. cbn [with_key edit_hash last_key] in *. specialize (IH Lk). destruct y; try apply Z.
      + pose proof (all_loop_alike (fun e => if fits_conditions e cs then Some (edit_hash f o e) else None)
          (fun e => if fits_conditions e cs then Some (edit_hash g (with_key k2 o) e) else None)) as U.
        refine (alike_wrap InlineArray _ _ (U _ l 0 0 R0)). intros x; destruct (fits_conditions x cs); [apply IH|exact I].
      + pose proof (all_loop_alike 
          (fun d => match d with AElem e => if fits_conditions (a_value e) cs then let '(n, e') := edit_value (edit_hash f o) e in Some (n, AElem e') else None | _ => None end)
          (fun d => match d with AElem e => if fits_conditions (a_value e) cs then let '(n, e') := edit_value (edit_hash g (with_key k2 o)) e in Some (n, AElem e') else None | _ => None end)) as U.
        refine (alike_wrap Array _ _ (U _ l 0 0 R0)). { intros [c|c|e]; try exact I. destruct (fits_conditions (a_value e) cs); [|exact I]. pose proof (value_alike _ _ e IH) as [V1 V2].
          destruct (edit_value _ _), (edit_value _ _); cbn in *. subst. now split. }
    - destruct rest as [o|]; [|discriminate]. cbn [with_key edit_hash last_key] in *. specialize (IH Lk). destruct y; try apply Z.
      + pose proof (idx_loop_alike (fun i l => nth_error l i) set_nth (fun e => if fits_conditions e cs then Some (edit_hash f o e) else None)
          (fun e => if fits_conditions e cs then Some (edit_hash g (with_key k2 o) e) else None)) as U.
        refine (alike_wrap InlineArray _ _ (U _ is_ l 0 0 R0)). intros x; destruct (fits_conditions x cs); [apply IH|exact I].
      + pose proof (idx_loop_alike get_elem set_elem (fun e => if fits_conditions (a_value e) cs then Some (edit_value (edit_hash f o) e) else None)
          (fun e => if fits_conditions (a_value e) cs then Some (edit_value (edit_hash g (with_key k2 o)) e) else None)) as U.
        refine (alike_wrap Array _ _ (U _ is_ l 0 0 R0)). intros x; destruct (fits_conditions (a_value x) cs); [apply (value_alike _ _ x IH)|exact I].
  Qed.
End Same.
Lemma edit_same f g k p : last_key p = Some k -> (forall l, act f k l = act g k l) -> forall y, edit_hash f p y = edit_hash g p y.
Proof.
  intros Lk H y. destruct (edit_alike eq eq_refl (fun a b c d E1 E2 => f_equal2 Nat.add E1 E2) f g k k) with (p := p) (y := y) as [E1 E2].
  - intros l. rewrite H. auto.
  - exact Lk.
  - assert (W : with_key k p = p).
    { clear - Lk. induction p as [cs|k0 cs [o|] IH|cs [o|] IH|is_ cs [o|] IH] using path_ind'; cbn in *; try discriminate; try congruence; now rewrite IH. }
    rewrite W in *. destruct (edit_hash f p y), (edit_hash g p y); cbn in *; congruence.
Qed.

(** ---- what the closures do to one mapping ---- *)
Fixpoint rem (k : str) (l : list hashdata) : nat * list hashdata :=
  match l with
  | [] => (0, [])
  | HElem e :: t => if seqb (he_key e) k then (1, t) else let '(n, t') := rem k t in (n, HElem e :: t')
  | d :: t => let '(n, t') := rem k t in (n, d :: t')
  end.
Fixpoint ins (k : str) (h : aliased) (ow : bool) (l : list hashdata) : nat * list hashdata :=
  match l with
  | [] => (1, [HElem (mkHE k h)])
  | HElem e :: t => if seqb (he_key e) k then (if ow then (1, HElem (mkHE k h) :: t) else (0, l))
                    else let '(n, t') := ins k h ow t in (n, HElem e :: t')
  | d :: t => let '(n, t') := ins k h ow t in (n, d :: t')
  end.
Lemma key_index_cons d l k : key_index (d :: l) k = if hd_is_key k d then Some 0 else option_map S (key_index l k).
Proof. reflexivity. Qed.
Lemma act_remove k l : act remove_f k l = rem k l.
Proof.
  unfold act. induction l as [|d l IH]; [reflexivity|]. rewrite key_index_cons.
  destruct d as [c|c|[k' v]]; cbn [hd_is_key rem he_key]; try (rewrite <- IH; destruct (key_index l k); reflexivity).
  destruct (seqb k' k); [reflexivity|]. rewrite <- IH. destruct (key_index l k); reflexivity.
Qed.
Lemma act_insert k h ow l : act (insert_f h ow) k l = ins k h ow l.
Proof.
  unfold act. induction l as [|d l IH]; [reflexivity|]. rewrite key_index_cons.
  destruct d as [c|c|[k' v]]; cbn [hd_is_key ins he_key]; try (rewrite <- IH; destruct (key_index l k); [destruct ow|]; reflexivity).
  destruct (seqb k' k); [destruct ow; reflexivity|]. rewrite <- IH. destruct (key_index l k); [destruct ow|]; reflexivity.
Qed.
Ltac pairs := repeat match goal with
  | |- context [rem ?k ?l] => is_var l; let E := fresh in let n := fresh "n" in let t := fresh "t" in destruct (rem k l) as [n t] eqn:E
  | |- context [ins ?k ?h ?o ?l] => is_var l; let E := fresh in let n := fresh "n" in let t := fresh "t" in destruct (ins k h o l) as [n t] eqn:E
  end; cbn [fst snd] in *.
Lemma first_rem k a l : a <> k -> first_value a (snd (rem k l)) = first_value a l.
Proof.
  intros N. induction l as [|[c|c|[k' v]] l IH]; cbn [rem he_key first_value] in *; try reflexivity; try (destruct (rem k l); exact IH).
  destruct (seqb k' k) eqn:E1; cbn [snd].
  - apply seqb_eq in E1 as ->. assert (seqb k a = false) as -> by (apply seqb_neq; congruence). reflexivity.
  - destruct (rem k l). cbn [snd first_value] in *. now rewrite IH.
Qed.
Lemma first_ins k h ow a l : a <> k -> first_value a (snd (ins k h ow l)) = first_value a l.
Proof.
  intros N. assert (Ek : seqb k a = false) by (apply seqb_neq; congruence).
  induction l as [|[c|c|[k' v]] l IH]; cbn [ins he_key first_value] in *; try (cbn [snd first_value]; now rewrite ?Ek); try (destruct (ins k h ow l); exact IH).
  destruct (seqb k' k) eqn:E1; cbn [snd].
  - apply seqb_eq in E1 as ->. destruct ow; cbn [snd first_value]; now rewrite Ek.
  - destruct (ins k h ow l). cbn [snd first_value] in *. now rewrite IH.
Qed.
Lemma fits_avoid l l' cs : (forall a, In a (map c_field cs) -> first_value a l' = first_value a l) ->
  fits_conditions (Hash l') cs = fits_conditions (Hash l) cs.
Proof.
  intros H. rewrite !fits_satisfies. unfold satisfies_b. induction cs as [|c cs IH]; [reflexivity|]. cbn [forallb map In] in *.
  rewrite (H (c_field c)) by auto. rewrite IH; [reflexivity|]. intros a Ha. apply H. auto.
Qed.
Lemma keeps_remove cs k : ~ In k (map c_field cs) -> keeps remove_f cs k.
Proof.
  intros N l H. rewrite act_remove. rewrite (fits_avoid l); [exact H|]. intros a Ha. apply first_rem. intros ->. contradiction.
Qed.
Lemma keeps_insert h ow cs k : ~ In k (map c_field cs) -> keeps (insert_f h ow) cs k.
Proof.
  intros N l H. rewrite act_insert. rewrite (fits_avoid l); [exact H|]. intros a Ha. apply first_ins. intros ->. contradiction.
Qed.
Lemma keeps_false h cs k : keeps (insert_f h false) cs k.
Proof.
  intros l H. rewrite act_insert. revert H. rewrite !fits_satisfies. apply (satisfies_b_first (Hash l) _ l _ cs eq_refl eq_refl).
  intros a v Hv. exists v. split; [|reflexivity]. clear cs. induction l as [|[c|c|[k' w]] l IH]; cbn [ins he_key first_value] in *; try discriminate;
    try (destruct (ins k h false l); auto).
  destruct (seqb k' k); [exact Hv|]. destruct (ins k h false l). cbn [snd first_value] in *. destruct (seqb k' a); auto.
Qed.
Lemma stable_from f p k : last_key p = Some k -> (forall cs, (forall c, In c cs -> In c (last_conditions p)) -> keeps f cs k) -> stable f p.
Proof.
  induction p as [cs|k0 cs [o|] IH|cs [o|] IH|is_ cs [o|] IH] using path_ind'; cbn [last_key last_conditions stable]; intros Lk H; try discriminate; auto.
  - injection Lk as ->. auto.
  - split; [apply IH; [exact Lk|]; intros cs' Hc; apply H; intros c Hin; apply in_or_app; auto|].
    destruct o as [cs'|k' cs' [o|]|cs' o|is' cs' o]; try exact I. injection Lk as ->. cbn. apply H. intros c Hc. apply in_or_app; auto.
  - split; [apply IH; [exact Lk|]; intros cs' Hc; apply H; intros c Hin; apply in_or_app; auto|].
    destruct o as [cs'|k' cs' [o|]|cs' o|is' cs' o]; try exact I. injection Lk as ->. cbn. apply H. intros c Hc. apply in_or_app; auto.
Qed.
Lemma avoid_sub p k cs : unconditional p k -> (forall c, In c cs -> In c (last_conditions p)) -> ~ In k (map c_field cs).
Proof. intros U H Hk. apply in_map_iff in Hk as (c & E & Hc). apply U. apply in_map_iff. exists c. auto. Qed.
Lemma with_same k p : last_key p = Some k -> with_key k p = p.
Proof. induction p as [cs|k0 cs [o|] IH|cs [o|] IH|is_ cs [o|] IH] using path_ind'; cbn; intros Lk; try discriminate; try congruence; now rewrite IH. Qed.
Lemma with_last k p k0 : last_key p = Some k0 -> last_key (with_key k p) = Some k.
Proof. induction p as [cs|k1 cs [o|] IH|cs [o|] IH|is_ cs [o|] IH] using path_ind'; cbn; intros Lk; try discriminate; auto. Qed.
Lemma with_with k k2 p : with_key k (with_key k2 p) = with_key k p.
Proof. induction p as [cs|k1 cs [o|] IH|cs [o|] IH|is_ cs [o|] IH] using path_ind'; cbn; auto; now rewrite IH. Qed.
Lemma with_distinct k p : indexes_distinct (with_key k p) <-> indexes_distinct p.
Proof. induction p as [cs|k1 cs [o|] IH|cs [o|] IH|is_ cs [o|] IH] using path_ind'; cbn in *; tauto. Qed.
Lemma with_conditions k p : last_conditions (with_key k p) = last_conditions p.
Proof.
  induction p as [cs|k1 cs [o|] IH|cs [o|] IH|is_ cs [o|] IH] using path_ind'; cbn; auto; rewrite IH; f_equal; destruct o as [|? ? []|? []|? ? []]; reflexivity.
Qed.
(** An edit along a path without a last key does nothing. *)
Lemma no_last f p y : last_key p = None -> edit_hash f p y = (0, y).
Proof.
  revert y; induction p as [cs|k1 cs [o|] IH|cs [o|] IH|is_ cs [o|] IH] using path_ind'; cbn [last_key edit_hash]; intros y Lk; try discriminate; try reflexivity.
  - destruct (fits_conditions y cs); [|reflexivity]. destruct y; try reflexivity. destruct (key_index l k1) as [i|] eqn:Ei; [|reflexivity].
    destruct (key_index_split _ _ _ Ei) as (l1 & [al v] & l2 & -> & <- & _). rewrite nth_error_app_mid. unfold edit_value. cbn. rewrite IH by assumption. now rewrite set_nth_app.
  - cbn in IH. destruct y; try reflexivity.
    + assert (Q : forall l, all_loop Nat.add (fun e => if fits_conditions e cs then Some (edit_hash f o e) else None) 0 l = (0, l)); [|now rewrite Q].
      induction l0 as [|x l0 I0]; [reflexivity|]. cbn. rewrite (IH x Lk). destruct (fits_conditions x cs); now rewrite I0.
    + match goal with |- context [all_loop Nat.add ?g 0 l] => assert (Q : forall l, all_loop Nat.add g 0 l = (0, l)); [|now rewrite Q] end.
      induction l0 as [|[c|c|[al x]] l0 I0]; [reflexivity| | | ]; cbn [all_loop a_value]; try now rewrite I0.
      assert (EV : edit_value (edit_hash f o) (mkA al x) = (0, mkA al x)) by (unfold edit_value; cbn [a_value a_alias]; now rewrite (IH x Lk)); cbn [a_value]; rewrite ?EV. destruct (fits_conditions x cs); cbn [Nat.add]; now rewrite I0.
  - cbn in IH. destruct y; try reflexivity.
    + match goal with |- context [idx_loop Nat.add ?g ?s ?h is_ 0 l] => assert (Q : forall is_ l, idx_loop Nat.add g s h is_ 0 l = (0, l)); [|now rewrite Q] end.
      induction is_0 as [|i is0 I0]; intros l0; [reflexivity|]. cbn [idx_loop]. destruct (nth_error l0 i) as [x|] eqn:E; [|apply I0].
      rewrite (IH x Lk). destruct (fits_conditions x cs); [|apply I0]. cbn [Nat.add]. rewrite set_nth_same by assumption. apply I0.
    + match goal with |- context [idx_loop Nat.add ?g ?s ?h is_ 0 l] => assert (Q : forall is_ l, idx_loop Nat.add g s h is_ 0 l = (0, l)); [|now rewrite Q] end.
      induction is_0 as [|i is0 I0]; intros l0; [reflexivity|]. cbn [idx_loop]. destruct (get_elem i l0) as [[al x]|] eqn:E; [|apply I0].
      assert (EV : edit_value (edit_hash f o) (mkA al x) = (0, mkA al x)) by (unfold edit_value; cbn [a_value a_alias]; now rewrite (IH x Lk)); cbn [a_value]; rewrite ?EV. destruct (fits_conditions x cs); [|apply I0]. cbn [Nat.add]. rewrite get_elem_set_same by assumption. apply I0.
Qed.
