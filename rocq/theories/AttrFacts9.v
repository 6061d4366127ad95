(** Types with serde attributes: a longer run gives the same result. *)
From Coq Require Import ZArith Lia.
From Verif Require Import Base Ast Strings Format Num Pretty Ser De Attr Spec_Look LookFacts LookFacts2 Spec_Attr AttrFacts AttrFacts2.
Import ListNotations.

(** [o'] is [o], unless [o] ran out of steps. *)
Definition later {X Y} (R : X -> Y -> Prop) (o : outcome X) (o' : outcome Y) : Prop :=
  match o with
  | More => True
  | Failed => o' = Failed
  | Done x a => exists x', o' = Done x' a /\ R x x'
  end.
Lemma later_bind {X Y Z W} (R : X -> Y -> Prop) (S : Z -> W -> Prop) o o' f g : later R o o' ->
  (forall x y a, R x y -> later S (f x a) (g y a)) -> later S (o_bind o f) (o_bind o' g).
Proof.
  intros L H. destruct o as [x a| |]; cbn [later o_bind] in *; [destruct L as (x' & -> & E)|subst o'|exact I]; cbn [o_bind]; auto.
Qed.
Lemma later_map {X Y Z W} (R : X -> Y -> Prop) (S : Z -> W -> Prop) f g o o' : later R o o' ->
  (forall x y, R x y -> S (f x) (g y)) -> later S (o_map f o) (o_map g o').
Proof.
  intros L H. destruct o as [x a| |]; cbn [later o_map] in *; [destruct L as (x' & -> & E)|subst o'|exact I]; cbn [o_map]; eauto.
Qed.
Lemma later_eq {X} (o o' : outcome X) : later eq o o' <-> o = More \/ o' = o.
Proof.
  destruct o as [x a| |]; cbn [later].
  - split; [intros (x' & -> & <-); now right|intros [E| ->]; [discriminate|eauto]].
  - split; [now right|intros [E|E]; [discriminate|exact E]].
  - split; auto.
Qed.
Lemma later_refl {X} (o : outcome X) : later eq o o.
Proof. apply later_eq. now right. Qed.

Section Steps.
  Context (n m : nat) (Hnm : n <= m).

  Lemma any_later k : forall j, k <= j -> forall y a, later eq (de_any k y a) (de_any j y a).
  Proof.
    induction k as [|k IH]; intros j Hj y a; [exact I|]. destruct j as [|j]; [lia|]. apply le_S_n in Hj. specialize (IH j Hj).
    assert (El : forall l a, later eq (any_elems k l a) (any_elems j l a)).
    { induction l as [|z l IHl]; intros b; cbn [any_elems]; [apply later_refl|]. specialize (IH z b). apply later_eq in IH.
      destruct IH as [->| ->]; [exact I|]. destruct (de_any k z b) as [v b1| |]; [|reflexivity|exact I].
      specialize (IHl b1). apply later_eq in IHl. destruct IHl as [->| ->]; [exact I|]. apply later_refl. }
    assert (En : forall l a, later eq (any_entries k l a) (any_entries j l a)).
    { induction l as [|[key z] l IHl]; intros b; cbn [any_entries]; [apply later_refl|]. specialize (IH z b). apply later_eq in IH.
      destruct IH as [->| ->]; [exact I|]. destruct (de_any k z b) as [v b1| |]; [|reflexivity|exact I].
      specialize (IHl b1). apply later_eq in IHl. destruct IHl as [->| ->]; [exact I|]. apply later_refl. }
    rewrite !de_any_eq.
    assert (G : later eq
      (match read_seq y a with
       | Some (l, a1) => match any_elems k l a1 with Done xs a2 => Done (AnSeq xs) a2 | Failed => Failed | More => More end
       | None => match read_map y a with
                 | Some (l, a1) => match any_entries k l a1 with Done xs a2 => Done (AnMap xs) a2 | Failed => Failed | More => More end
                 | None => Done (any_scalar y) a end end)
      (match read_seq y a with
       | Some (l, a1) => match any_elems j l a1 with Done xs a2 => Done (AnSeq xs) a2 | Failed => Failed | More => More end
       | None => match read_map y a with
                 | Some (l, a1) => match any_entries j l a1 with Done xs a2 => Done (AnMap xs) a2 | Failed => Failed | More => More end
                 | None => Done (any_scalar y) a end end)).
    { destruct (read_seq y a) as [[l a1]|].
      - specialize (El l a1). apply later_eq in El. destruct El as [->| ->]; [exact I|]. apply later_refl.
      - destruct (read_map y a) as [[l a1]|]; [|apply later_refl].
        specialize (En l a1). apply later_eq in En. destruct En as [->| ->]; [exact I|]. apply later_refl. }
    destruct y; try exact G. destruct (resolve a s); [apply IH|reflexivity].
  Qed.

  Definition rrel (r s : reader) : Prop :=
    (forall y a, later eq (r_node r y a) (r_node s y a)) /\
    (forall own c, r_buf r own c = r_buf s own c) /\ (forall l, r_flat r l = r_flat s l).
  Definition xrel (f g : xfield) : Prop :=
    x_name f = x_name g /\ x_opt f = x_opt g /\ x_val f = x_val g /\ rrel (x_read f) (x_read g).
  Definition frel (x y : option (list xfield)) : Prop :=
    match x, y with Some fs, Some gs => Forall2 xrel fs gs | None, None => True | _, _ => False end.

  Lemma elems_later r s l : rrel r s -> forall a, later eq (n_elems (r_node r) l a) (n_elems (r_node s) l a).
  Proof.
    intros [H _]. induction l as [|y l IH]; intros a; cbn [n_elems]; [apply later_refl|].
    apply (later_bind eq); [apply H|]. intros x ? b <-. apply (later_map eq); [apply IH|congruence].
  Qed.
  Lemma tuple_later rs ss : Forall2 rrel rs ss -> forall l a, later eq (n_tuple (map r_node rs) l a) (n_tuple (map r_node ss) l a).
  Proof.
    intros F. induction F as [|r s rs ss [H _] F IH]; intros [|y l] a; cbn [map n_tuple]; try apply later_refl.
    apply (later_bind eq); [apply H|]. intros x ? b <-. apply (later_map eq); [apply IH|congruence].
  Qed.
  Lemma entries_later rk rv sk sv l : rrel rk sk -> rrel rv sv -> forall a,
    later eq (n_entries (r_node rk) (r_node rv) l a) (n_entries (r_node sk) (r_node sv) l a).
  Proof.
    intros [K _] [V _]. induction l as [|[k y] l IH]; intros a; cbn [n_entries]; [apply later_refl|].
    apply (later_bind eq); [apply K|]. intros x ? b <-. apply (later_bind eq); [apply V|]. intros x' ? b' <-.
    apply (later_map eq); [apply IH|congruence].
  Qed.
  Lemma set_rel f g v : xrel f g -> xrel (x_set f v) (x_set g v).
  Proof. intros (A & B & C & D). now repeat split; try apply D. Qed.
  Lemma field_later fs gs : Forall2 xrel fs gs -> forall k y a, later (Forall2 xrel) (n_field fs k y a) (n_field gs k y a).
  Proof.
    intros F. induction F as [|f g fs gs H F IH]; intros k y a; cbn [n_field]; [cbn [later]; eauto|].
    pose proof H as (N & O & V & R). rewrite N, V. destruct (seqb (x_name g) k).
    - destruct (x_val g); [reflexivity|]. apply (later_map eq); [apply R|]. intros x ? <-. constructor; [now apply set_rel|exact F].
    - apply (later_map (Forall2 xrel)); [apply IH|]. intros x y' E. now constructor.
  Qed.
  Lemma fields_later l : forall fs gs a, Forall2 xrel fs gs -> later (Forall2 xrel) (n_fields fs l a) (n_fields gs l a).
  Proof.
    induction l as [|[k y] l IH]; intros fs gs a F; cbn [n_fields]; [cbn [later]; eauto|].
    apply (later_bind (Forall2 xrel)); [now apply field_later|]. intros; now apply IH.
  Qed.
  Lemma bfield_rel own fs gs : Forall2 xrel fs gs -> forall k c, frel (b_field own fs k c) (b_field own gs k c).
  Proof.
    intros F. induction F as [|f g fs gs H F IH]; intros k c; cbn [b_field]; [constructor|].
    pose proof H as (N & O & V & R). rewrite N, V. destruct (seqb (x_name g) k).
    - destruct (x_val g); [exact I|]. destruct R as (_ & R & _). rewrite R. destruct (r_buf (x_read g) own c); [|exact I].
      constructor; [now apply set_rel|exact F].
    - specialize (IH k c). destruct (b_field own fs k c), (b_field own gs k c); cbn [frel option_map] in *; try tauto. now constructor.
  Qed.
  Lemma bfields_rel own l : forall fs gs, Forall2 xrel fs gs -> frel (b_fields own fs l) (b_fields own gs l).
  Proof.
    induction l as [|[k c] l IH]; intros fs gs F; cbn [b_fields]; [exact F|]. destruct k; try exact I; [now apply IH|].
    pose proof (bfield_rel own fs gs F s c) as H. destruct (b_field own fs s c), (b_field own gs s c); cbn [frel] in H; try tauto. now apply IH.
  Qed.
  Lemma values_rel fs gs : Forall2 xrel fs gs -> opt_map x_value fs = opt_map x_value gs.
  Proof.
    intros F. induction F as [|f g fs gs (N & O & V & _) F IH]; cbn [opt_map]; [reflexivity|].
    unfold x_value at 1 3. now rewrite N, O, V, IH.
  Qed.
  Lemma names_rel fs gs : Forall2 xrel fs gs -> map x_name fs = map x_name gs.
  Proof. intros F. induction F as [|f g fs gs (N & _) F IH]; cbn; [reflexivity|]. now rewrite N, IH. Qed.
  Lemma known_rel fs gs k : Forall2 xrel fs gs -> x_known fs k = x_known gs k.
  Proof. intros F. unfold x_known. induction F as [|f g fs gs (N & _) F IH]; cbn; [reflexivity|]. now rewrite N, IH. Qed.
  Lemma btuple_rel own rs ss : Forall2 rrel rs ss -> forall l, b_tuple own rs l = b_tuple own ss l.
  Proof.
    intros F. induction F as [|r s rs ss (_ & B & _) F IH]; intros [|c l]; cbn [b_tuple]; try reflexivity. now rewrite B, IH.
  Qed.
  Lemma reads_rel fs gs : Forall2 xrel fs gs -> Forall2 rrel (map x_read fs) (map x_read gs).
  Proof. intros F. induction F as [|f g fs gs (_ & _ & _ & R) F IH]; cbn; now constructor. Qed.
  Lemma bstructmap_rel own fs gs l : Forall2 xrel fs gs -> b_struct_map own fs l = b_struct_map own gs l.
  Proof.
    intros F. unfold b_struct_map. pose proof (bfields_rel own l fs gs F) as H.
    destruct (b_fields own fs l), (b_fields own gs l); cbn [frel] in H; try tauto. now apply values_rel.
  Qed.
  Lemma bstruct_rel own fs gs c : Forall2 xrel fs gs -> b_struct own fs c = b_struct own gs c.
  Proof.
    intros F. unfold b_struct. destruct c; try reflexivity.
    - now rewrite (names_rel fs gs F), (btuple_rel own _ _ (reads_rel fs gs F)).
    - now apply bstructmap_rel.
  Qed.
  Lemma bentries_rel own rk rv sk sv l : rrel rk sk -> rrel rv sv -> b_entries own rk rv l = b_entries own sk sv l.
  Proof.
    intros (_ & K & _) (_ & V & _). unfold b_entries. induction l as [|e l IH]; cbn [opt_map]; [reflexivity|]. now rewrite K, V, IH.
  Qed.
  Lemma ffields_rel l : forall fs gs, Forall2 xrel fs gs ->
    frel (fst (f_fields fs l)) (fst (f_fields gs l)) /\ snd (f_fields fs l) = snd (f_fields gs l).
  Proof.
    induction l as [|e l IH]; intros fs gs F; cbn [f_fields]; [split; [exact F|reflexivity]|].
    assert (G : frel (fst (let '(r, l1) := f_fields fs l in (r, e :: l1))) (fst (let '(r, l1) := f_fields gs l in (r, e :: l1))) /\
                snd (let '(r, l1) := f_fields fs l in (r, e :: l1)) = snd (let '(r, l1) := f_fields gs l in (r, e :: l1))).
    { destruct (IH fs gs F) as [A B]. destruct (f_fields fs l), (f_fields gs l). cbn [fst snd] in *. now subst. }
    destruct e as [[k c]|]; [|exact G]. destruct k; try exact G. rewrite (known_rel fs gs s F). destruct (x_known gs s); [|exact G].
    pose proof (bfield_rel true fs gs F s c) as H. destruct (b_field true fs s c) as [fs1|], (b_field true gs s c) as [gs1|]; cbn [frel] in H; try tauto.
    destruct (IH fs1 gs1 H) as [A B]. destruct (f_fields fs1 l), (f_fields gs1 l). cbn [fst snd] in *. now subst.
  Qed.
  Lemma fall_rel rs ss : Forall2 (fun r s : str * reader => fst r = fst s /\ rrel (snd r) (snd s)) rs ss -> forall l, f_all rs l = f_all ss l.
  Proof.
    intros F. induction F as [|[k r] [k' s] rs ss [E (_ & _ & R)] F IH]; intros l; cbn [f_all fst snd] in *; [reflexivity|].
    subst k'. rewrite R. destruct (r_flat s l) as [[v|] l1]; [|reflexivity]. now rewrite IH.
  Qed.
  Definition crel (x y : list xfield * list (anyv * anyv)) : Prop := Forall2 xrel (fst x) (fst y) /\ snd x = snd y.
  Lemma collect_later l : forall fs gs a, Forall2 xrel fs gs ->
    later crel (n_collect (de_any n) fs l a) (n_collect (de_any m) gs l a).
  Proof.
    induction l as [|[k y] l IH]; intros fs gs a F; cbn [n_collect]; [cbn [later]; eexists; split; [reflexivity|]; now split|].
    rewrite (known_rel fs gs k F). destruct (x_known gs k).
    - apply (later_bind (Forall2 xrel)); [now apply field_later|]. intros; now apply IH.
    - apply (later_bind eq); [now apply any_later|]. intros c ? b <-. apply (later_map crel); [now apply IH|].
      intros x z [A B]. split; cbn [fst snd]; [exact A|congruence].
  Qed.
  Lemma bcollect_rel own l : forall fs gs, Forall2 xrel fs gs ->
    match b_collect own fs l, b_collect own gs l with Some x, Some y => crel x y | None, None => True | _, _ => False end.
  Proof.
    induction l as [|[k c] l IH]; intros fs gs F; cbn [b_collect]; [now split|].
    assert (G : match option_map (fun r : list xfield * list (anyv * anyv) => (fst r, (k, c) :: snd r)) (b_collect own fs l),
                      option_map (fun r : list xfield * list (anyv * anyv) => (fst r, (k, c) :: snd r)) (b_collect own gs l) with
                Some x, Some y => crel x y | None, None => True | _, _ => False end).
    { specialize (IH fs gs F). destruct (b_collect own fs l), (b_collect own gs l); cbn [option_map]; try tauto.
      destruct IH as [A B]. split; cbn [fst snd]; [exact A|congruence]. }
    destruct k; try exact I; try exact G. rewrite (known_rel fs gs s F). destruct (x_known gs s); [|exact G].
    pose proof (bfield_rel own fs gs F s c) as H. destruct (b_field own fs s c), (b_field own gs s c); cbn [frel] in H; try tauto. now apply IH.
  Qed.
  Lemma finish_rel decl rs ss x y : Forall2 (fun r s : str * reader => fst r = fst s /\ rrel (snd r) (snd s)) rs ss -> crel x y ->
    finish decl rs x = finish decl ss y.
  Proof. intros F [A B]. unfold finish. now rewrite (values_rel _ _ A), B, (fall_rel rs ss F). Qed.

  Lemma tag_later j k tag l : j <= k -> forall sn a, later eq (n_tag (de_any j) tag sn l a) (n_tag (de_any k) tag sn l a).
  Proof.
    intros H. induction l as [|[key y] l IH]; intros sn a; cbn [n_tag]; [apply later_refl|].
    assert (G : forall q, later eq
        (o_bind (de_any j y a) (fun c a1 => o_map (fun r => (fst r, (q, c) :: snd r)) (n_tag (de_any j) tag sn l a1)))
        (o_bind (de_any k y a) (fun c a1 => o_map (fun r => (fst r, (q, c) :: snd r)) (n_tag (de_any k) tag sn l a1)))).
    { intros q. apply (later_bind eq); [now apply any_later|]. intros c ? b <-. apply (later_map eq); [apply IH|congruence]. }
    destruct (any_unquoted key); try apply G. destruct (seqb s tag); [|apply G].
    destruct sn; [reflexivity|]. destruct (de_text y a); [apply IH|reflexivity].
  Qed.
  Lemma list_later j k l : j <= k -> forall a, later eq (any_list (de_any j) l a) (any_list (de_any k) l a).
  Proof.
    intros H. induction l as [|y l IH]; intros a; cbn [any_list]; [apply later_refl|].
    apply (later_bind eq); [now apply any_later|]. intros c ? b <-. apply (later_map eq); [apply IH|congruence].
  Qed.
  Lemma tagged_later tag j : forall k, j <= k -> forall y a, later eq (n_tagged j tag y a) (n_tagged k tag y a).
  Proof.
    induction j as [|j IH]; intros k H y a; [exact I|]. destruct k as [|k]; [lia|]. apply le_S_n in H.
    assert (M : forall l a, later eq (n_tagged_map (de_any j) tag l a) (n_tagged_map (de_any k) tag l a)).
    { intros l b. apply (later_bind eq); [now apply tag_later|]. intros x ? b' <-. apply later_refl. }
    assert (S : forall l a, later eq (n_tagged_seq (de_any j) l a) (n_tagged_seq (de_any k) l a)).
    { intros [|z l] b; [reflexivity|]. cbn [n_tagged_seq]. destruct (de_text z b); [|reflexivity].
      apply (later_map eq); [now apply list_later|congruence]. }
    cbn [n_tagged]. destruct y; try reflexivity; try apply M; try apply S.
    - destruct (hash_entries a l). apply M.
    - destruct (seq_values a l). apply S.
    - destruct (resolve a s); [now apply IH|reflexivity].
  Qed.

  Definition vrel (v w : rvariant) : Prop :=
    match v, w with
    | RUnit, RUnit => True
    | RNew r, RNew s => rrel r s
    | RTup rs, RTup ss => Forall2 rrel rs ss
    | RStruct fs, RStruct gs => Forall2 xrel fs gs
    | _, _ => False
    end.
  Lemma pick_rel vs ws k : Forall2 (fun v w : str * rvariant => fst v = fst w /\ vrel (snd v) (snd w)) vs ws ->
    match pick vs k, pick ws k with Some v, Some w => vrel v w | None, None => True | _, _ => False end.
  Proof.
    intros F. induction F as [|[x v] [x' w] vs ws [E R] F IH]; cbn [pick fst snd] in *; [exact I|]. subst x'. now destruct (seqb x k).
  Qed.
  Lemma nvariant_later k v w y a : vrel v w -> later eq (n_variant k v y a) (n_variant k w y a).
  Proof.
    destruct v, w; cbn [vrel]; try tauto; intros R; cbn [n_variant].
    - apply later_refl.
    - apply (later_map eq); [apply R|congruence].
    - destruct (de_seq_values y a) as [[l a1]|]; [|reflexivity]. apply (later_map eq); [now apply tuple_later|congruence].
    - destruct (de_map_entries y a) as [[l a1]|]; [|reflexivity]. apply (later_bind (Forall2 xrel)); [now apply fields_later|].
      intros x z b X. rewrite (values_rel x z X). apply later_refl.
  Qed.
  Lemma bvariant_rel own k v w c : vrel v w -> b_variant own k v c = b_variant own k w c.
  Proof.
    destruct v, w; cbn [vrel]; try tauto; intros R; destruct c as [c|]; cbn [b_variant]; try reflexivity.
    - destruct R as (_ & R & _). now rewrite R.
    - destruct c; try reflexivity. now rewrite (btuple_rel own rs rs0 R).
    - now rewrite (bstruct_rel own fs fs0 c R).
  Qed.
  Lemma uvariant_rel c v w : fst v = fst w /\ vrel (snd v) (snd w) -> u_variant c v = u_variant c w.
  Proof.
    destruct v as [k v], w as [k' w]. cbn [fst snd]. intros [<- R]. unfold u_variant. cbn [fst snd].
    destruct v, w; cbn [vrel] in R; try tauto.
    - destruct R as (_ & R & _). now rewrite R.
    - destruct c; try reflexivity. now rewrite (btuple_rel false rs rs0 R).
    - destruct c; try reflexivity. now rewrite (bstructmap_rel false fs fs0 l R).
  Qed.
  Lemma first_rel c vs ws : Forall2 (fun v w : str * rvariant => fst v = fst w /\ vrel (snd v) (snd w)) vs ws ->
    first_of (u_variant c) vs = first_of (u_variant c) ws.
  Proof. intros F. induction F as [|v w vs ws R F IH]; cbn [first_of]; [reflexivity|]. now rewrite (uvariant_rel c v w R), IH. Qed.
  Lemma tvariant_rel vs ws r : Forall2 (fun v w : str * rvariant => fst v = fst w /\ vrel (snd v) (snd w)) vs ws ->
    t_variant vs r = t_variant ws r.
  Proof.
    intros F. unfold t_variant. pose proof (pick_rel vs ws (fst r) F) as P.
    destruct (pick vs (fst r)) as [v|], (pick ws (fst r)) as [w|]; try tauto. destruct v, w; cbn [vrel] in P; try tauto.
    - destruct P as (_ & P & _). now rewrite P.
    - now rewrite (bstruct_rel true fs fs0 (snd r) P).
  Qed.

  Lemma xrel_new k t : rrel (read n t) (read m t) -> xrel (mkX k (read n t) (is_xoption t) None) (mkX k (read m t) (is_xoption t) None).
  Proof. intros H. repeat split; apply H. Qed.
  Lemma vrel_read v : xv_P (fun t => rrel (read n t) (read m t)) v -> vrel (rvar n v) (rvar m v).
  Proof.
    destruct v; cbn [xv_P rvar vrel]; intros H; try exact I; try exact H.
    - induction H; cbn; now constructor.
    - induction H as [|[k t] fs H F IH]; cbn; constructor; [now apply xrel_new|exact IH].
  Qed.
  Lemma rvars_rel vs : Forall (fun x => xv_P (fun t => rrel (read n t) (read m t)) (snd x)) vs ->
    Forall2 (fun v w : str * rvariant => fst v = fst w /\ vrel (snd v) (snd w)) (rvars n vs) (rvars m vs).
  Proof.
    intros H. induction H as [|[k v] vs H F IH]; cbn; constructor; [|exact IH]. split; [reflexivity|]. now apply vrel_read.
  Qed.
  Lemma own_rel fs : Forall (fun nt => rrel (read n (snd (snd nt))) (read m (snd (snd nt)))) fs -> Forall2 xrel (own_fields n fs) (own_fields m fs).
  Proof.
    intros H. unfold own_fields. induction H as [|[k [[] t]] fs H F IH]; cbn; [constructor|exact IH|]. constructor; [now apply xrel_new|exact IH].
  Qed.
  Lemma flat_rel fs : Forall (fun nt => rrel (read n (snd (snd nt))) (read m (snd (snd nt)))) fs ->
    Forall2 (fun r s : str * reader => fst r = fst s /\ rrel (snd r) (snd s)) (flat_fields n fs) (flat_fields m fs).
  Proof.
    intros H. unfold flat_fields. induction H as [|[k [[] t]] fs H F IH]; cbn; [constructor| |exact IH]. constructor; [now split|exact IH].
  Qed.

  Lemma read_later t : rrel (read n t) (read m t).
  Proof.
    induction t using xty_ind'; try (split; [|split]; intros; [apply later_refl|reflexivity|reflexivity]).
    - (* option *) destruct IHt as (N & B & F). split; [|split].
      + intros y a. cbn [read r_node]. destruct (into_resolved y a) as [z|]; [|reflexivity].
        assert (G : later eq (o_map SSome (r_node (read n t) z a)) (o_map SSome (r_node (read m t) z a))) by (apply (later_map eq); [apply N|congruence]).
        destruct z; try exact G. destruct (is_null_word s); [apply later_refl|exact G].
      + intros own c. cbn [read r_buf]. destruct c; try reflexivity; now rewrite B.
      + intros l. cbn [read r_flat]. now rewrite F.
    - destruct IHt as (N & B & F). split; [|split].
      + intros y a. cbn [read r_node]. apply (later_map eq); [apply N|congruence].
      + intros own c. cbn [read r_buf]. now rewrite B.
      + intros l. cbn [read r_flat]. now rewrite F.
    - split; [|split].
      + intros y a. cbn [read r_node]. destruct (de_seq_values y a) as [[l a1]|]; [|reflexivity]. apply (later_map eq); [now apply elems_later|congruence].
      + intros own c. cbn [read r_buf]. destruct c; try reflexivity. f_equal. destruct IHt as (_ & B & _).
        induction l as [|x l IH]; cbn [opt_map]; [reflexivity|]. now rewrite B, IH.
      + reflexivity.
    - assert (R : Forall2 rrel (map (read n) ts) (map (read m) ts)) by (induction H; cbn; now constructor). split; [|split].
      + intros y a. cbn [read r_node]. destruct (de_seq_values y a) as [[l a1]|]; [|reflexivity]. apply (later_map eq); [now apply tuple_later|congruence].
      + intros own c. cbn [read r_buf]. destruct c; try reflexivity. now rewrite (btuple_rel own _ _ R).
      + reflexivity.
    - split; [|split].
      + intros y a. cbn [read r_node]. destruct (de_map_entries y a) as [[l a1]|]; [|reflexivity]. apply (later_map eq); [now apply entries_later|congruence].
      + intros own c. cbn [read r_buf]. destruct c; try reflexivity. now rewrite (bentries_rel own _ _ _ _ l IHt1 IHt2).
      + intros l. cbn [read r_flat]. now rewrite (bentries_rel false _ _ _ _ (remaining l) IHt1 IHt2).
    - rewrite !read_struct. pose proof (own_rel fs H) as O. pose proof (flat_rel fs H) as Fl. destruct (flattens fs); (split; [|split]).
      + intros y a. cbn [r_node]. destruct (de_map_entries y a) as [[l a1]|]; [|reflexivity].
        apply (later_bind crel); [now apply collect_later|]. intros x z b X. rewrite (finish_rel _ _ _ x z Fl X). apply later_refl.
      + intros own c. cbn [r_buf]. destruct c; try reflexivity. pose proof (bcollect_rel own l _ _ O) as X.
        destruct (b_collect own (own_fields n fs) l), (b_collect own (own_fields m fs) l); try tauto. now apply finish_rel.
      + intros l. cbn [r_flat]. f_equal. pose proof (bcollect_rel false (remaining l) _ _ O) as X.
        destruct (b_collect false (own_fields n fs) (remaining l)), (b_collect false (own_fields m fs) (remaining l)); try tauto. now apply finish_rel.
      + intros y a. cbn [r_node]. destruct (de_map_entries y a) as [[l a1]|]; [|reflexivity].
        apply (later_bind (Forall2 xrel)); [now apply fields_later|]. intros x z b X. rewrite (values_rel x z X). apply later_refl.
      + intros own c. cbn [r_buf]. now rewrite (bstruct_rel own _ _ c O).
      + intros l. cbn [r_flat]. destruct (ffields_rel l _ _ O) as [A B]. destruct (f_fields (own_fields n fs) l) as [x l1], (f_fields (own_fields m fs) l) as [z l2].
        cbn [fst snd] in *. subst l2. destruct x, z; cbn [frel] in A; try tauto. now rewrite (values_rel _ _ A).
    - rewrite !read_enum. pose proof (rvars_rel vs H) as R. split; [|split].
      + intros y a. cbn [r_node]. destruct (de_enum_content y a) as [[[k c] a1]|]; [|reflexivity]. pose proof (pick_rel _ _ k R) as P.
        destruct (pick (rvars n vs) k), (pick (rvars m vs) k); try tauto; [now apply nvariant_later|reflexivity].
      + intros own c. cbn [r_buf]. destruct (b_enum c) as [[k c']|]; [|reflexivity]. pose proof (pick_rel _ _ k R) as P.
        destruct (pick (rvars n vs) k), (pick (rvars m vs) k); try tauto. now apply bvariant_rel.
      + intros l. cbn [r_flat]. destruct (f_take (map fst vs) l) as [[[k c]|] l1]; [|reflexivity]. pose proof (pick_rel _ _ k R) as P.
        destruct (pick (rvars n vs) k), (pick (rvars m vs) k); try tauto. now rewrite (bvariant_rel true k _ _ (Some c) P).
    - rewrite !read_untagged. pose proof (rvars_rel vs H) as R. split; [|split].
      + intros y a. cbn [r_node]. apply (later_bind eq); [now apply any_later|]. intros c ? b <-. rewrite (first_rel c _ _ R). apply later_refl.
      + intros own c. apply first_rel, R.
      + intros l. cbn [r_flat]. now rewrite (first_rel _ _ _ R).
    - rewrite !read_tagged. pose proof (rvars_rel vs H) as R. split; [|split].
      + intros y a. cbn [r_node]. apply (later_bind eq); [now apply tagged_later|]. intros c ? b <-. rewrite (tvariant_rel _ _ c R). apply later_refl.
      + intros own c. cbn [r_buf]. destruct (b_tagged tag c); [now apply tvariant_rel|reflexivity].
      + intros l. cbn [r_flat]. f_equal. destruct (b_tagged tag (AnMap (remaining l))); [now apply tvariant_rel|reflexivity].
  Qed.
End Steps.

Lemma read_steps n m t y : n <= m -> read_yaml n t y <> More -> read_yaml m t y = read_yaml n t y.
Proof.
  intros H N. destruct (read_later n m H t) as (L & _). specialize (L y []). apply later_eq in L. destruct L as [L|L]; [contradiction|exact L].
Qed.
