(** A reader follows a simulation between trees and registrations. *)
From Coq Require Import ZArith Lia.
From Verif Require Import Base Ast Strings Format Num Pretty Ser De Attr Spec_Pretty Spec_Serde Spec_Look Spec_Attr LookFacts LookFacts2 AttrFacts AttrFacts2.
Import ListNotations.

Lemma any_elems_list n l : forall a, any_elems n l a = any_list (de_any n) l a.
Proof.
  induction l as [|y l IH]; intros a; cbn; [reflexivity|]. destruct (de_any n y a); cbn; try reflexivity.
  change (match any_elems n l a0 with Done vs a2 => Done (x :: vs) a2 | Failed => Failed | More => More end =
          o_map (cons x) (any_list (de_any n) l a0)).
  rewrite IH. now destruct (any_list _ _ _).
Qed.

Section Sim.
  Context (W : Type) (le : W -> W -> Prop) (A : W -> anchors -> anchors -> Prop) (R : W -> yaml -> yaml -> Prop).
  Context (A_le : forall w w' a b, le w w' -> A w' a b -> A w a b).
  Context (R_word : forall w s, R w (Unquoted s) (Unquoted s)).
  Context (R_res : forall w y z a b y', R w y z -> A w a b -> into_resolved y a = Some y' ->
    exists z', into_resolved z b = Some z' /\ R w y' z' /\ (forall m, y' <> Anchor m) /\ (forall m, z' <> Anchor m)).
  Notation plain y := (forall m, y <> Anchor m).
  Definition erw (w : W) (p q : str * yaml) : Prop := fst p = fst q /\ R w (snd p) (snd q).
  Context (R_seq : forall w y z a b, R w y z -> A w a b -> plain y -> plain z ->
    match read_seq y a, read_seq z b with
    | Some (l, a1), Some (m, b1) => exists w', le w w' /\ Forall2 (R w') l m /\ A w' a1 b1
    | None, None => True
    | _, _ => False
    end).
  Context (R_map : forall w y z a b, R w y z -> A w a b -> plain y -> plain z ->
    match read_map y a, read_map z b with
    | Some (l, a1), Some (m, b1) => exists w', le w w' /\ Forall2 (erw w') l m /\ A w' a1 b1
    | None, None => True
    | _, _ => False
    end).
  Context (R_scalar : forall w y z, R w y z -> plain y -> plain z -> seq_items y = None -> map_items y = None -> y = z).

  Definition oo1 {X} (w : W) (r s : outcome X) : Prop :=
    match r with Done x a1 => exists b1, s = Done x b1 /\ A w a1 b1 | _ => True end.
  Definition aok1 {X} (d : yaml -> anchors -> outcome X) : Prop :=
    forall w y z a b, R w y z -> A w a b -> oo1 w (d y a) (d z b).

  Definition aok2 {X} (d e : yaml -> anchors -> outcome X) : Prop :=
    forall w y z a b, R w y z -> A w a b -> oo1 w (d y a) (e z b).

  Lemma s_done {X} w (x : X) a b : A w a b -> oo1 w (Done x a) (Done x b).
  Proof. intros H. exists b. now split. Qed.
  Lemma s_bind {X Y} w (r s : outcome X) (f g : X -> anchors -> outcome Y) : oo1 w r s ->
    (forall x a1 b1, A w a1 b1 -> oo1 w (f x a1) (g x b1)) -> oo1 w (o_bind r f) (o_bind s g).
  Proof. intros H G. destruct r; cbn in *; try exact I. destruct H as (b1 & -> & H). now apply G. Qed.
  Lemma s_map {X Y} w (r s : outcome X) (f : X -> Y) : oo1 w r s -> oo1 w (o_map f r) (o_map f s).
  Proof. intros H. destruct r; cbn in *; try exact I. destruct H as (b1 & -> & H). now exists b1. Qed.
  Lemma s_le {X} w w' (r s : outcome X) : le w w' -> oo1 w' r s -> oo1 w r s.
  Proof. intros L H. destruct r; cbn in *; try exact I. destruct H as (b1 & -> & H). exists b1. eauto. Qed.

  Lemma s_text w y z a b t : R w y z -> A w a b -> de_text y a = Some t -> de_text z b = Some t.
  Proof.
    intros E B T. unfold de_text in *. destruct (into_resolved y a) as [y'|] eqn:F; [|discriminate].
    destruct (R_res _ _ _ _ _ _ E B F) as (z' & -> & E' & Py & Pz).
    assert (y' = z') as <-; [|exact T]. apply (R_scalar w); auto; now destruct y'.
  Qed.
  Lemma s_seq {X} w y z a b (f g : list yaml -> anchors -> outcome X) : R w y z -> A w a b ->
    (forall w' l m a1 b1, le w w' -> Forall2 (R w') l m -> A w' a1 b1 -> oo1 w' (f l a1) (g m b1)) ->
    oo1 w (match de_seq_values y a with Some (l, a1) => f l a1 | None => Failed end)
          (match de_seq_values z b with Some (l, a1) => g l a1 | None => Failed end).
  Proof.
    intros E B H. rewrite !de_seq_eq. destruct (into_resolved y a) as [y'|] eqn:F; [|exact I].
    destruct (R_res _ _ _ _ _ _ E B F) as (z' & -> & E' & Py & Pz).
    assert (G := R_seq w y' z' a b E' B Py Pz). destruct (read_seq y' a) as [[l a1]|]; [|exact I].
    destruct (read_seq z' b) as [[m b1]|]; [|contradiction]. destruct G as (w' & L & G & B1).
    apply (s_le w w' _ _ L). auto.
  Qed.
  Lemma s_entries_of {X} w y z a b (f g : list (str * yaml) -> anchors -> outcome X) : R w y z -> A w a b ->
    (forall w' l m a1 b1, le w w' -> Forall2 (erw w') l m -> A w' a1 b1 -> oo1 w' (f l a1) (g m b1)) ->
    oo1 w (match de_map_entries y a with Some (l, a1) => f l a1 | None => Failed end)
          (match de_map_entries z b with Some (l, a1) => g l a1 | None => Failed end).
  Proof.
    intros E B H. rewrite !de_map_eq. destruct (into_resolved y a) as [y'|] eqn:F; [|exact I].
    destruct (R_res _ _ _ _ _ _ E B F) as (z' & -> & E' & Py & Pz).
    assert (G := R_map w y' z' a b E' B Py Pz). destruct (read_map y' a) as [[l a1]|]; [|exact I].
    destruct (read_map z' b) as [[m b1]|]; [|contradiction]. destruct G as (w' & L & G & B1).
    apply (s_le w w' _ _ L). auto.
  Qed.

  (** Scalars. *)
  Lemma s_scalar d : stays d -> (forall y a, into_resolved y a = None -> d y a = None) ->
    (forall y a y', into_resolved y a = Some y' -> (plain y') -> d y a = d y' a) ->
    (forall y a, plain y -> option_map fst (d y a) = option_map fst (d y [])) ->
    (forall y a l, seq_items y = Some l -> d y a = None) -> (forall y a l, map_items y = Some l -> d y a = None) ->
    aok1 (fun y a => of_opt (d y a)).
  Proof.
    intros S N D P Q M w y z a b E B. destruct (d y a) as [[v a1]|] eqn:F; [|exact I].
    assert (a1 = a) as -> by exact (S _ _ _ _ F).
    destruct (into_resolved y a) as [y'|] eqn:G; [|rewrite (N _ _ G) in F; discriminate].
    destruct (R_res _ _ _ _ _ _ E B G) as (z' & G' & E' & Py & Pz).
    rewrite (D _ _ _ G Py) in F.
    assert (y' = z') as <-.
    { apply (R_scalar w); auto.
      - destruct (seq_items y') eqn:X; [|reflexivity]. rewrite (Q _ a _ X) in F. discriminate.
      - destruct (map_items y') eqn:X; [|reflexivity]. rewrite (M _ a _ X) in F. discriminate. }
    cbn. rewrite (D _ _ _ G' Pz). assert (P1 := P y' a Py). assert (P2 := P y' b Py). rewrite F in P1. cbn in P1.
    rewrite <- P1 in P2. destruct (d y' b) as [[v' b']|] eqn:X; cbn in P2; [|discriminate]. injection P2 as ->.
    assert (b' = b) as -> by exact (S _ _ _ _ X). cbn. exists b. now split.
  Qed.
  Lemma s_bool : aok1 (fun y a => of_opt (de_bool y a)).
  Proof.
    apply s_scalar; [apply stays_bool| | | | |]; unfold de_bool.
    - intros y a ->. reflexivity.
    - intros y a y' -> P. destruct y'; try reflexivity. now elim (P s).
    - intros y a P. destruct y; try reflexivity; [|now elim (P s)]. cbn.
      repeat match goal with |- context [if ?b then _ else _] => destruct b end; reflexivity.
    - intros y a l H. destruct y; try discriminate; reflexivity.
    - intros y a l H. destruct y; try discriminate; reflexivity.
  Qed.
  Lemma s_int k : aok1 (fun y a => of_opt (de_int k y a)).
  Proof.
    apply s_scalar; [apply stays_int| | | | |]; unfold de_int.
    - intros y a ->. reflexivity.
    - intros y a y' -> P. destruct y'; try reflexivity. now elim (P s).
    - intros y a P. replace (into_resolved y a) with (Some y) by (destruct y; try reflexivity; now elim (P s)).
      replace (into_resolved y []) with (Some y) by (destruct y; try reflexivity; now elim (P s)).
      destruct (yaml_to_string y); [|reflexivity]. destruct (match k with I8 => _ | _ => _ end); [|reflexivity].
      now destruct (in_kind k z).
    - intros y a l H. destruct y; try discriminate; reflexivity.
    - intros y a l H. destruct y; try discriminate; reflexivity.
  Qed.
  Lemma s_float : aok1 (fun y a => of_opt (de_float y a)).
  Proof.
    apply s_scalar; [apply stays_float| | | | |]; unfold de_float.
    - intros y a ->. reflexivity.
    - intros y a y' -> P. destruct y'; try reflexivity. now elim (P s).
    - intros y a P. replace (into_resolved y a) with (Some y) by (destruct y; try reflexivity; now elim (P s)).
      replace (into_resolved y []) with (Some y) by (destruct y; try reflexivity; now elim (P s)).
      destruct (yaml_to_string y); [|reflexivity]. now destruct (parse_f64_ok l).
    - intros y a l H. destruct y; try discriminate; reflexivity.
    - intros y a l H. destruct y; try discriminate; reflexivity.
  Qed.

  (** Combinators. *)
  Lemma s_elems d : aok1 d -> forall w l m a b, Forall2 (R w) l m -> A w a b -> oo1 w (n_elems d l a) (n_elems d m b).
  Proof.
    intros D w l m a b F. revert a b. induction F as [|y z l m E F IH]; intros a b B; cbn; [now apply s_done|].
    apply s_bind; [now apply D|]. intros v a1 b1 B1. apply s_map. now apply IH.
  Qed.
  Lemma s_list d e : aok2 d e -> forall w l m a b, Forall2 (R w) l m -> A w a b -> oo1 w (any_list d l a) (any_list e m b).
  Proof.
    intros D w l m a b F. revert a b. induction F as [|y z l m E F IH]; intros a b B; cbn; [now apply s_done|].
    apply s_bind; [now apply D|]. intros v a1 b1 B1. apply s_map. now apply IH.
  Qed.
  Lemma s_tuple ds : Forall aok1 ds -> forall w l m a b, Forall2 (R w) l m -> A w a b -> oo1 w (n_tuple ds l a) (n_tuple ds m b).
  Proof.
    intros D. induction D as [|d ds D Ds IH]; intros w l m a b F B; [destruct F; now apply s_done|].
    destruct F as [|y z l m E F]; cbn; [exact I|].
    apply s_bind; [now apply D|]. intros v a1 b1 B1. apply s_map. now apply IH.
  Qed.
  Lemma s_entries dk dv : aok1 dk -> aok1 dv ->
    forall w l m a b, Forall2 (erw w) l m -> A w a b -> oo1 w (n_entries dk dv l a) (n_entries dk dv m b).
  Proof.
    intros K D w l m a b F. revert a b. induction F as [|[k y] [k' z] l m [E X] F IH]; intros a b B; cbn; [now apply s_done|].
    cbn in E, X. subst k'. apply s_bind; [now apply K|]. intros vk a1 b1 B1.
    apply s_bind; [now apply D|]. intros v a2 b2 B2. apply s_map. now apply IH.
  Qed.
  Definition xok1 (f : xfield) : Prop := aok1 (r_node (x_read f)).
  Lemma s_field fs : Forall xok1 fs -> forall w k y z a b, R w y z -> A w a b ->
    oo1 w (n_field fs k y a) (n_field fs k z b) /\
    match n_field fs k y a with Done gs _ => Forall xok1 gs | _ => True end.
  Proof.
    intros D. induction D as [|f fs D Ds IH]; intros w k y z a b E B; cbn; [split; [now apply s_done|constructor]|].
    destruct (seqb (x_name f) k).
    - destruct (x_val f); [split; exact I|]. assert (H := D w y z a b E B). split; [now apply s_map|].
      destruct (r_node (x_read f) y a); cbn; try exact I. constructor; [exact D|exact Ds].
    - destruct (IH w k y z a b E B) as [H G]. split; [now apply s_map|].
      destruct (n_field fs k y a); cbn; try exact I. now constructor.
  Qed.
  Lemma s_fields w l m : Forall2 (erw w) l m -> forall fs a b, Forall xok1 fs -> A w a b ->
    oo1 w (n_fields fs l a) (n_fields fs m b).
  Proof.
    intros F. induction F as [|[k y] [k' z] l m [E X] F IH]; intros fs a b D B; cbn; [now apply s_done|].
    cbn in E, X. subst k'. destruct (s_field fs D w k y z a b X B) as [H G].
    destruct (n_field fs k y a) as [gs a1| |]; cbn in H |- *; try exact I.
    destruct H as (b1 & -> & B1). cbn. now apply IH.
  Qed.
  Lemma s_collect any w l m : aok1 any -> Forall2 (erw w) l m -> forall fs a b, Forall xok1 fs -> A w a b ->
    oo1 w (n_collect any fs l a) (n_collect any fs m b).
  Proof.
    intros N F. induction F as [|[k y] [k' z] l m [E X] F IH]; intros fs a b D B; cbn [n_collect]; [now apply s_done|].
    cbn in E, X. subst k'. destruct (x_known fs k).
    - destruct (s_field fs D w k y z a b X B) as [H G].
      destruct (n_field fs k y a) as [gs a1| |]; cbn in H |- *; try exact I.
      destruct H as (b1 & -> & B1). cbn. now apply IH.
    - apply s_bind; [now apply N|]. intros c a1 b1 B1. apply s_map. now apply IH.
  Qed.
  Lemma s_tag any any' tag w l m : aok2 any any' -> Forall2 (erw w) l m -> forall seen a b, A w a b ->
    oo1 w (n_tag any tag seen l a) (n_tag any' tag seen m b).
  Proof.
    intros N F. induction F as [|[k y] [k' z] l m [E X] F IH]; intros sn a b B; cbn [n_tag]; [now apply s_done|].
    cbn in E, X. subst k'.
    assert (G : forall k, oo1 w (o_bind (any y a) (fun c a1 => o_map (fun r => (fst r, (k, c) :: snd r)) (n_tag any tag sn l a1)))
                (o_bind (any' z b) (fun c a1 => o_map (fun r => (fst r, (k, c) :: snd r)) (n_tag any' tag sn m a1)))).
    { intros k'. apply s_bind; [now apply N|]. intros c a1 b1 B1. apply s_map. now apply IH. }
    destruct (any_unquoted k); try apply G. destruct (seqb s tag); [|apply G].
    destruct sn; [exact I|]. destruct (de_text y a) eqn:T; [|exact I]. rewrite (s_text w y z a b _ X B T). now apply IH.
  Qed.
  Definition seqs_ok (w : W) (y z : yaml) (a b : anchors) : Prop :=
    match read_seq y a, read_seq z b with
    | Some (l, a1), Some (m, b1) => exists w', le w w' /\ Forall2 (R w') l m /\ A w' a1 b1
    | None, None => True
    | _, _ => False
    end.
  Definition maps_ok (w : W) (y z : yaml) (a b : anchors) : Prop :=
    match read_map y a, read_map z b with
    | Some (l, a1), Some (m, b1) => exists w', le w w' /\ Forall2 (erw w') l m /\ A w' a1 b1
    | None, None => True
    | _, _ => False
    end.
  Lemma s_tagged_at any any' tag w y z a b : aok2 any any' -> maps_ok w y z a b -> seqs_ok w y z a b ->
    oo1 w (tagged_at any tag y a) (tagged_at any' tag z b).
  Proof.
    intros N M S. unfold tagged_at, maps_ok, seqs_ok in *.
    destruct (read_map y a) as [[l a1]|], (read_map z b) as [[m b1]|]; try contradiction.
    - destruct M as (w' & L & F & A1). apply (s_le w w' _ _ L).
      unfold n_tagged_map. apply s_bind; [apply s_tag; assumption|].
      intros [[s|] es] a2 b2 B2; [now apply s_done|exact I].
    - destruct (read_seq y a) as [[l a1]|], (read_seq z b) as [[m b1]|]; try contradiction; [|exact I].
      destruct S as (w' & L & F & A1). apply (s_le w w' _ _ L).
      unfold n_tagged_seq. destruct F as [|x x' l m X F]; [exact I|].
      destruct (de_text x a1) eqn:T; [|exact I]. rewrite (s_text w' x x' a1 b1 _ X A1 T).
      apply s_map. now apply s_list.
  Qed.
  Lemma any_entries_case n n' w l m : aok2 (de_any n) (de_any n') -> Forall2 (erw w) l m -> forall a b, A w a b ->
    oo1 w (any_entries n l a) (any_entries n' m b).
  Proof.
    intros N F. induction F as [|[k y] [k' z] l m [E X] F IH]; intros a b B; cbn; [now apply s_done|].
    cbn in E, X. subst k'. assert (H := N w y z a b X B). destruct (de_any n y a) as [c a1| |]; cbn in H |- *; try exact I.
    destruct H as (b1 & -> & B1). assert (G := IH a1 b1 B1).
    fold (any_entries n l a1). fold (any_entries n' m b1).
    destruct (any_entries n l a1) as [cs a2| |]; cbn in G |- *; try exact I. destruct G as (b2 & -> & B2). now exists b2.
  Qed.
  Lemma s_any_at n n' w y z a b : aok2 (de_any n) (de_any n') -> A w a b -> maps_ok w y z a b -> seqs_ok w y z a b ->
    (seq_items y = None -> map_items y = None -> y = z) ->
    oo1 w (any_at n y a) (any_at n' z b).
  Proof.
    intros N B M S C. unfold any_at, maps_ok, seqs_ok in *.
    destruct (read_seq y a) as [[l a1]|] eqn:Sy, (read_seq z b) as [[m b1]|] eqn:Sz; try contradiction.
    - destruct S as (w' & L & F & A1). apply (s_le w w' _ _ L). rewrite !any_elems_list.
      assert (H := s_list _ _ N w' l m a1 b1 F A1). destruct (any_list _ l a1) as [cs a2| |]; cbn in H |- *; try exact I.
      destruct H as (b2 & -> & B2). now exists b2.
    - destruct (read_map y a) as [[l a1]|] eqn:My, (read_map z b) as [[m b1]|] eqn:Mz; try contradiction.
      + destruct M as (w' & L & F & A1). apply (s_le w w' _ _ L).
        assert (H := any_entries_case n n' w' l m N F a1 b1 A1). destruct (any_entries n l a1) as [cs a2| |]; cbn in H |- *; try exact I.
        destruct H as (b2 & -> & B2). now exists b2.
      + assert (y = z) as <-; [|now apply s_done].
        apply C.
        * unfold read_seq in Sy. destruct (seq_items y); [discriminate|reflexivity].
        * unfold read_map in My. destruct (map_items y); [discriminate|reflexivity].
  Qed.

  Lemma s_xoks fuel (fs : list (str * xty)) : Forall (fun nt => aok1 (r_node (read fuel (snd nt)))) fs ->
    Forall xok1 (map (fun f => match f with (n, t) => mkX n (read fuel t) (is_xoption t) None end) fs).
  Proof. intros H. induction H as [|[n t] fs H Hs IH]; cbn; constructor; assumption. Qed.
  Lemma s_own fuel fs : Forall (fun nt => aok1 (r_node (read fuel (snd (snd nt))))) fs -> Forall xok1 (own_fields fuel fs).
  Proof.
    intros H. unfold own_fields. induction H as [|[n [[] t]] fs H Hs IH]; cbn; [constructor|exact IH|]. constructor; assumption.
  Qed.
  Lemma s_tups fuel ts : Forall (fun t => aok1 (r_node (read fuel t))) ts -> Forall aok1 (map r_node (map (read fuel) ts)).
  Proof. intros H. induction H; cbn; constructor; assumption. Qed.
  Lemma s_variant fuel n v : xv_P (fun t => aok1 (r_node (read fuel t))) v -> aok1 (n_variant n (rvar fuel v)).
  Proof.
    intros P w y z a b E B. destruct v as [|t|ts|fs]; cbn [rvar n_variant xv_P] in *.
    - now apply s_done.
    - apply s_map. now apply P.
    - apply (s_seq w y z a b _ _ E B). intros. apply s_map. apply s_tuple; [now apply s_tups|assumption|assumption].
    - apply (s_entries_of w y z a b _ _ E B). intros.
      apply s_bind; [apply s_fields; [assumption|now apply s_xoks|assumption]|].
      intros gs a2 b2 B2. destruct (opt_map x_value gs); [now apply s_done|exact I].
  Qed.
  Lemma s_enum {X} w y z a b (f : str -> yaml -> anchors -> outcome X) : R w y z -> A w a b ->
    (forall n, aok1 (f n)) ->
    oo1 w (match de_enum_content y a with Some (n, c, a1) => f n c a1 | None => Failed end)
          (match de_enum_content z b with Some (n, c, a1) => f n c a1 | None => Failed end).
  Proof.
    intros E B H.
    assert (G : forall w a, de_enum_content w a =
      match into_resolved w a with
      | None => None
      | Some w => match read_map w a with
                  | Some ([(n, v)], a1) => Some (n, v, a1)
                  | Some _ => None
                  | None => match yaml_to_string w with Some s => Some (s, Unquoted (lit "~"), a) | None => None end
                  end
      end).
    { clear. intros w a. unfold de_enum_content, read_map. destruct (into_resolved w a) as [[]|]; cbn [map_items]; try reflexivity.
      - rewrite register_none_map, entries_id. destruct l as [|[n v] [|]]; reflexivity.
      - rewrite hash_entries_items. cbn. destruct (map _ _) as [|[n v] [|]]; reflexivity. }
    rewrite !G. destruct (into_resolved y a) as [y'|] eqn:F; [|exact I].
    destruct (R_res _ _ _ _ _ _ E B F) as (z' & -> & E' & Py & Pz).
    assert (M := R_map w y' z' a b E' B Py Pz).
    destruct (read_map y' a) as [[l a1]|] eqn:My, (read_map z' b) as [[m b1]|] eqn:Mz; try contradiction.
    - destruct M as (w' & L & Fl & A1). destruct Fl as [|[n v] [n' v'] l m [K V] Fl]; [exact I|].
      destruct Fl; [|exact I]. cbn in K, V. subst n'. apply (s_le w w' _ _ L). now apply H.
    - destruct (yaml_to_string y') eqn:T; [|exact I].
      assert (y' = z') as <-.
      { apply (R_scalar w); auto; now destruct y'. }
      rewrite T. apply H; auto.
  Qed.
  Lemma s_option w y z a b (d : yaml -> anchors -> outcome sval) : aok1 d -> R w y z -> A w a b ->
    let g := fun y a => match into_resolved y a with
                      | None => Failed
                      | Some (Unquoted s) => if is_null_word s then Done SNone a else o_map SSome (d (Unquoted s) a)
                      | Some y => o_map SSome (d y a)
                      end in oo1 w (g y a) (g z b).
  Proof.
    intros D E B g. unfold g. destruct (into_resolved y a) as [y'|] eqn:F; [|exact I].
    destruct (R_res _ _ _ _ _ _ E B F) as (z' & -> & E' & Py & Pz).
    assert (C : (exists s, y' = Unquoted s /\ z' = Unquoted s) \/
                ((forall s, y' <> Unquoted s) /\ (forall s, z' <> Unquoted s))).
    { assert (S := R_seq w y' z' a b E' B Py Pz). assert (M := R_map w y' z' a b E' B Py Pz).
      assert (C := R_scalar w y' z' E' Py Pz). unfold read_seq, read_map in *.
      destruct (seq_items y') as [l|] eqn:Sy.
      - destruct (seq_items z') as [l'|] eqn:Sz; [|contradiction]. right. split; intros s ->; discriminate.
      - destruct (map_items y') as [l|] eqn:My.
        + destruct (map_items z') as [l'|] eqn:Mz; [|contradiction]. right. split; intros s ->; discriminate.
        + rewrite <- (C eq_refl eq_refl). destruct y'; try (right; split; intros s0; discriminate). left. eauto. }
    destruct C as [(s & -> & ->)|[Ny Nz]].
    - destruct (is_null_word s); [now apply s_done|]. apply s_map. now apply D.
    - replace (match y' with Unquoted s => if is_null_word s then Done SNone a else o_map SSome (d (Unquoted s) a) | y => o_map SSome (d y a) end)
        with (o_map SSome (d y' a)) by (destruct y'; try reflexivity; now elim (Ny s)).
      replace (match z' with Unquoted s => if is_null_word s then Done SNone b else o_map SSome (d (Unquoted s) b) | y => o_map SSome (d y b) end)
        with (o_map SSome (d z' b)) by (destruct z'; try reflexivity; now elim (Nz s)).
      apply s_map. now apply D.
  Qed.

  (** Types with attributes. *)
  Section Read.
    Context (fuel : nat) (s_any : aok1 (de_any fuel)) (s_tagged : forall tag, aok1 (n_tagged fuel tag)).
    Lemma s_read t : aok1 (r_node (read fuel t)).
    Proof.
      induction t using xty_ind'; intros w y z a b E B.
      - now apply s_bool.
      - now apply s_int.
      - now apply s_float.
      - cbn. destruct (de_text y a) as [s|] eqn:T; [|exact I]. rewrite (s_text w y z a b _ E B T).
        destruct s as [|c [|]]; try exact I. now apply s_done.
      - cbn. destruct (de_text y a) as [s|] eqn:T; [|exact I]. rewrite (s_text w y z a b _ E B T). now apply s_done.
      - now apply s_done.
      - exact (s_option w y z a b _ IHt E B).
      - cbn [read r_node]. apply s_map. now apply IHt.
      - cbn [read r_node]. apply (s_seq w y z a b _ _ E B). intros. apply s_map. now apply s_elems.
      - cbn [read r_node]. apply (s_seq w y z a b _ _ E B). intros. apply s_map. apply s_tuple; [now apply s_tups|assumption|assumption].
      - cbn [read r_node]. apply (s_entries_of w y z a b _ _ E B). intros. apply s_map. now apply s_entries.
      - rewrite read_struct. destruct (flattens fs); cbn [r_node]; apply (s_entries_of w y z a b _ _ E B); intros.
        + apply s_bind; [apply s_collect; [exact s_any|assumption|now apply s_own|assumption]|].
          intros r a2 b2 B2. destruct (finish _ _ r); [now apply s_done|exact I].
        + apply s_bind; [apply s_fields; [assumption|now apply s_own|assumption]|].
          intros gs a2 b2 B2. destruct (opt_map x_value gs); [now apply s_done|exact I].
      - rewrite read_enum. cbn [r_node].
        apply (s_enum w y z a b (fun n c a1 => match pick (rvars fuel vs) n with Some v => n_variant n v c a1 | None => Failed end) E B).
        intros n. intros w' y' z' a' b' E' B'. induction H as [|[m v] vs V Vs IH]; [exact I|].
        cbn [rvars map pick]. destruct (seqb m n); [|exact IH]. now apply s_variant.
      - rewrite read_untagged. cbn [r_node]. apply s_bind; [now apply s_any|].
        intros c a1 b1 B1. destruct (first_of _ _); [now apply s_done|exact I].
      - rewrite read_tagged. cbn [r_node]. apply s_bind; [now apply s_tagged|].
        intros r a1 b1 B1. destruct (t_variant _ r); [now apply s_done|exact I].
    Qed.
  End Read.

  (** Types without attributes. *)
  Definition dr (d : decoder) : reader := mkR (fun y a => of_opt (d y a)) (fun _ _ => None) no_flat.
  Lemma of_map {X Y} (f : X -> Y) (r : dres X) :
    of_opt (match r with Some (v, a1) => Some (f v, a1) | None => None end) = o_map f (of_opt r).
  Proof. now destruct r as [[]|]. Qed.
  Lemma dr_tuple ts l a : of_opt (de_tuple (map de ts) l a) = n_tuple (map (fun t y a => of_opt (de t y a)) ts) l a.
  Proof.
    revert l a. induction ts as [|t ts IH]; intros l a; cbn; [now destruct l|]. destruct l as [|y l]; [reflexivity|].
    destruct (de t y a) as [[v a1]|]; cbn; [|reflexivity]. rewrite <- IH. now destruct (de_tuple _ _ _) as [[]|].
  Qed.
  Lemma dr_tups ts : Forall (fun t => aok1 (fun y a => of_opt (de t y a))) ts ->
    Forall aok1 (map (fun t y a => of_opt (de t y a)) ts).
  Proof. intros H. induction H; cbn; constructor; assumption. Qed.
  Definition drf (f : field) : xfield := mkX (f_name f) (dr (f_de f)) (f_opt f) (f_val f).
  Lemma drf_same fs : Forall2 fsame fs (map drf fs).
  Proof. induction fs; cbn; constructor; [now repeat split|assumption]. Qed.
  Lemma dr_struct {X} (mk : list (str * sval) -> X) fs : Forall (fun nt => aok1 (fun y a => of_opt (de (snd nt) y a))) fs ->
    forall w y z a b, R w y z -> A w a b ->
    let d := fun y a => of_opt (match de_struct (map (fun nt : str * ty => match nt with (n, t) => mkF n (de t) (is_option t) None end) fs) y a with
                          | Some (vs, a1) => Some (mk vs, a1) | None => None end) in
    oo1 w (d y a) (d z b).
  Proof.
    intros H w y z a b E B d. unfold d. clear d.
    set (gs := map _ fs). rewrite <- !(bare_struct mk gs (map drf gs)) by apply drf_same.
    apply (s_entries_of w y z a b _ _ E B). intros. apply s_bind.
    - apply s_fields; [assumption| |assumption]. unfold gs. clear - H. induction H as [|[n t] fs H Hs IH]; cbn; constructor; assumption.
    - intros hs a2 b2 B2. destruct (opt_map x_value hs); [now apply s_done|exact I].
  Qed.

  Lemma s_de t : aok1 (fun y a => of_opt (de t y a)).
  Proof.
    induction t using ty_ind'; intros w y z a b E B.
    - now apply s_bool.
    - now apply s_int.
    - now apply s_float.
    - cbn. destruct (de_text y a) as [s|] eqn:T; [|exact I]. rewrite (s_text w y z a b _ E B T).
      destruct s as [|c [|]]; try exact I. now apply s_done.
    - cbn. destruct (de_text y a) as [s|] eqn:T; [|exact I]. rewrite (s_text w y z a b _ E B T). now apply s_done.
    - cbn [de].
      assert (G : forall y a, of_opt (match de_seq_values y a with
          | Some (l, a1) => match de_elems (de_int U8) l a1 with
             | Some (vs, a2) => Some (SBytes (map (fun v => match v with SInt _ z => Z.to_N z | _ => 0%N end) vs), a2)
             | None => None end
          | None => None end) =
        match de_seq_values y a with
        | Some (l, a1) => o_map (fun vs => SBytes (map (fun v => match v with SInt _ z => Z.to_N z | _ => 0%N end) vs))
                            (n_elems (r_node (dr (de_int U8))) l a1)
        | None => Failed end).
      { intros y' a'. destruct (de_seq_values y' a') as [[l a1]|]; [|reflexivity].
        rewrite (bare_elems (de_int U8)) by reflexivity. apply of_map. }
      rewrite !G. apply (s_seq w y z a b _ _ E B). intros. apply s_map. apply s_elems; [apply s_int|assumption|assumption].
    - assert (G : forall y a, of_opt (de (TOption t) y a) = match into_resolved y a with
          | None => Failed
          | Some (Unquoted s) => if is_null_word s then Done SNone a else o_map SSome (of_opt (de t (Unquoted s) a))
          | Some y => o_map SSome (of_opt (de t y a))
          end).
      { intros y' a'. cbn [de]. destruct (into_resolved y' a') as [[]|]; try reflexivity; try apply of_map.
        destruct (is_null_word s); [reflexivity|apply of_map]. }
      rewrite !G. exact (s_option w y z a b (fun y a => of_opt (de t y a)) IHt E B).
    - now apply s_done.
    - now apply s_done.
    - cbn [de]. rewrite !of_map. apply s_map. now apply IHt.
    - cbn [de].
      assert (G : forall y a, of_opt (match de_seq_values y a with
          | Some (l, a1) => match de_elems (de t) l a1 with Some (vs, a2) => Some (SSeq vs, a2) | None => None end
          | None => None end) =
        match de_seq_values y a with
        | Some (l, a1) => o_map SSeq (n_elems (r_node (dr (de t))) l a1)
        | None => Failed end).
      { intros y' a'. destruct (de_seq_values y' a') as [[l a1]|]; [|reflexivity].
        rewrite (bare_elems (de t)) by reflexivity. apply of_map. }
      rewrite !G. apply (s_seq w y z a b _ _ E B). intros. apply s_map. apply s_elems; [apply IHt|assumption|assumption].
    - cbn [de].
      assert (G : forall y a, of_opt (match de_seq_values y a with
          | Some (l, a1) => match de_tuple (map de ts) l a1 with Some (vs, a2) => Some (STuple vs, a2) | None => None end
          | None => None end) =
        match de_seq_values y a with
        | Some (l, a1) => o_map STuple (n_tuple (map (fun t y a => of_opt (de t y a)) ts) l a1)
        | None => Failed end).
      { intros y' a'. destruct (de_seq_values y' a') as [[l a1]|]; [|reflexivity]. rewrite <- dr_tuple. apply of_map. }
      rewrite !G. apply (s_seq w y z a b _ _ E B). intros. apply s_map. apply s_tuple; [now apply dr_tups|assumption|assumption].
    - cbn [de].
      assert (G : forall y a, of_opt (match de_map_entries y a with
          | Some (l, a1) => match de_entries (de t1) (de t2) l a1 with Some (vs, a2) => Some (SMap vs, a2) | None => None end
          | None => None end) =
        match de_map_entries y a with
        | Some (l, a1) => o_map SMap (n_entries (r_node (dr (de t1))) (r_node (dr (de t2))) l a1)
        | None => Failed end).
      { intros y' a'. destruct (de_map_entries y' a') as [[l a1]|]; [|reflexivity].
        rewrite (bare_entries (de t1) (de t2)) by reflexivity. apply of_map. }
      rewrite !G. apply (s_entries_of w y z a b _ _ E B). intros. apply s_map. apply s_entries; assumption.
    - cbn [de]. exact (dr_struct SStruct fs H w y z a b E B).
    - cbn [de].
      set (ds := map _ vs).
      assert (G : forall y a, of_opt (match de_enum_content y a with Some (n, c, a1) => de_variant ds n c a1 | None => None end) =
         match de_enum_content y a with Some (n, c, a1) => of_opt (de_variant ds n c a1) | None => Failed end).
      { intros y' a'. now destruct (de_enum_content y' a') as [[[]]|]. }
      rewrite !G. apply (s_enum w y z a b (fun n c a1 => of_opt (de_variant ds n c a1)) E B).
      intros n w' y' z' a' b' E' B'. unfold ds. clear - H E' B' A_le R_word R_res R_seq R_map R_scalar.
      induction H as [|[m v] vs H Hs IH]; [exact I|]. cbn [map de_variant]. destruct (seqb m n); [|exact IH].
      destruct v as [|t|ts|fs]; cbn in H.
      + now apply s_done.
      + rewrite !of_map. apply s_map. now apply H.
      + assert (G : forall y a, of_opt (match de_seq_values y a with
            | Some (l, a1) => match de_tuple (map de ts) l a1 with Some (vs, a2) => Some (STupV m vs, a2) | None => None end
            | None => None end) =
          match de_seq_values y a with
          | Some (l, a1) => o_map (STupV m) (n_tuple (map (fun t y a => of_opt (de t y a)) ts) l a1)
          | None => Failed end).
        { intros y a. destruct (de_seq_values y a) as [[l a1]|]; [|reflexivity]. rewrite <- dr_tuple. apply of_map. }
        rewrite !G. apply (s_seq w' y' z' a' b' _ _ E' B'). intros. apply s_map. apply s_tuple; [now apply dr_tups|assumption|assumption].
      + exact (dr_struct (SStructV m) fs H w' y' z' a' b' E' B').
  Qed.
End Sim.
