(** Types with serde attributes: only [look] matters. *)
From Coq Require Import ZArith.
From Verif Require Import Base Ast Strings Format Num Pretty Ser De Attr Spec_Strings StringsFacts Spec_Pretty PrettyFacts
  Spec_Serde SerdeFacts Spec_Look LookFacts LookFacts2 LookFacts3 Spec_Attr AttrFacts.
Import ListNotations.

(** ---- fewer special words ---- *)

Section Relook.
  Context (w : str -> bool).
  Fixpoint relook (l : looks) : looks :=
    match l with
    | LWord s => if w s then LWord s else LText s
    | LText s => LText s
    | LMap l => LMap (map (fun kv => match kv with (k, (al, v)) => (k, (al, relook v)) end) l)
    | LSeq l => LSeq (map (fun v => match v with (al, v) => (al, relook v) end) l)
    | LRef n => LRef n
    end.
  Lemma look_less W y : (forall s, w s = true -> W s = true) -> look w y = relook (look W y).
  Proof.
    intros H. induction y as [l IH|l IH|l IH|l IH|ps|ps|s|ls ch|ls ch|s] using yaml_ind'; try reflexivity; cbn [look].
    - cbn [relook]. f_equal. rewrite map_map. induction IH as [|[k v] l E _ IHl]; [reflexivity|]. cbn in E |- *. now rewrite E, IHl.
    - cbn [relook]. f_equal. induction IH as [|[x|x|[k [al v]]] l E _ IHl]; [reflexivity|exact IHl|exact IHl|].
      cbn in E |- *. now rewrite E, IHl.
    - cbn [relook]. f_equal. rewrite map_map. induction IH as [|v l E _ IHl]; [reflexivity|]. cbn in E |- *. now rewrite E, IHl.
    - cbn [relook]. f_equal. induction IH as [|[x|x|[al v]] l E _ IHl]; [reflexivity|exact IHl|exact IHl|].
      cbn in E |- *. now rewrite E, IHl.
    - destruct (W s) eqn:F; cbn; [reflexivity|]. destruct (w s) eqn:G; [|reflexivity]. apply H in G. congruence.
  Qed.
End Relook.

Section Words.
  Context (W : str -> bool).
  Context (Wt : forall s, typed_word s = true -> W s = true).
  Context (Wu : forall s, untyped_word s = true -> W s = true).
  Notation R := (yrel W). Notation A := (arel W).

  Lemma yrel_less w y z : (forall s, w s = true -> W s = true) -> R y z -> yrel w y z.
  Proof. intros H E. unfold yrel. rewrite !(look_less w W) by exact H. unfold yrel in E. now rewrite E. Qed.
  Lemma arel_less w a b : (forall s, w s = true -> W s = true) -> A a b -> arel w a b.
  Proof.
    intros H E. induction E as [|[k x] [k' x'] a b [K X] E IH]; constructor; [|exact IH].
    split; [exact K|]. now apply yrel_less.
  Qed.

  Definition oo {X} (r s : outcome X) : Prop :=
    match r, s with
    | Done x a, Done y b => x = y /\ A a b
    | Failed, Failed => True
    | More, More => True
    | _, _ => False
    end.
  Lemma oo_bind {X Y} (r s : outcome X) (f g : X -> anchors -> outcome Y) :
    oo r s -> (forall x a b, A a b -> oo (f x a) (g x b)) -> oo (o_bind r f) (o_bind s g).
  Proof. destruct r, s; cbn; intros H F; try contradiction; try exact I. destruct H as [<- H]. now apply F. Qed.
  Lemma oo_map {X Y} (r s : outcome X) (f : X -> Y) : oo r s -> oo (o_map f r) (o_map f s).
  Proof. destruct r, s; cbn; intros H; try contradiction; try exact I. destruct H as [<- H]. now split. Qed.
  Lemma oo_done {X} (x : X) a b : A a b -> oo (Done x a) (Done x b).
  Proof. intros H. now split. Qed.

  Definition aok {X} (d : yaml -> anchors -> outcome X) : Prop :=
    forall y z a b, R y z -> A a b -> oo (d y a) (d z b).

  (** The untyped reader. *)
  Lemma any_elems_oo n : aok (de_any n) -> forall l m a b, Forall2 R l m -> A a b -> oo (any_elems n l a) (any_elems n m b).
  Proof.
    intros IH l m a b F. revert a b. induction F as [|y z l m X F IHl]; intros a b E; cbn [any_elems]; [now split|].
    assert (H := IH y z a b X E). destruct (de_any n y a), (de_any n z b); cbn in H |- *; try contradiction; try exact I.
    destruct H as [<- A1]. assert (H := IHl _ _ A1).
    destruct (any_elems n l a0), (any_elems n m a1); cbn in H |- *; try contradiction; try exact I.
    destruct H as [<- A2]. now split.
  Qed.
  Lemma any_entries_oo n : aok (de_any n) ->
    forall l m a b, Forall2 (erel W) l m -> A a b -> oo (any_entries n l a) (any_entries n m b).
  Proof.
    intros IH l m a b F. revert a b. induction F as [|[k y] [k' z] l m [K X] F IHl]; intros a b E; cbn [any_entries]; [now split|].
    cbn in K, X. subst k'.
    assert (H := IH y z a b X E). destruct (de_any n y a), (de_any n z b); cbn in H |- *; try contradiction; try exact I.
    destruct H as [<- A1]. assert (H := IHl _ _ A1).
    destruct (any_entries n l a0), (any_entries n m a1); cbn in H |- *; try contradiction; try exact I.
    destruct H as [<- A2]. now split.
  Qed.
  Lemma anchor_rel y z m : R y z -> y = Anchor m -> z = Anchor m.
  Proof.
    intros E ->. unfold yrel in E. cbn in E. destruct z; try discriminate; cbn in E; [destruct (W s); discriminate|congruence].
  Qed.
  Lemma anchor_rel' y z m : R y z -> z = Anchor m -> y = Anchor m.
  Proof. intros E. apply anchor_rel. now symmetry. Qed.
  Definition any_at (n : nat) (w : yaml) (a : anchors) : outcome anyv :=
    match read_seq w a with
    | Some (l, a1) => match any_elems n l a1 with Done xs a2 => Done (AnSeq xs) a2 | Failed => Failed | More => More end
    | None =>
      match read_map w a with
      | Some (l, a1) => match any_entries n l a1 with Done xs a2 => Done (AnMap xs) a2 | Failed => Failed | More => More end
      | None => Done (any_scalar w) a
      end
    end.
  Lemma any_at_eq n w a : (forall m, w <> Anchor m) -> de_any (S n) w a = any_at n w a.
  Proof. intros N. unfold any_at. rewrite de_any_eq. destruct w; try reflexivity. now elim (N s). Qed.
  Lemma any_oo fuel : aok (de_any fuel).
  Proof.
    induction fuel as [|n IH]; intros y z a b E B; [exact I|].
    destruct (anchor_dec y) as [[m ->]|Ny].
    - rewrite (anchor_rel _ z m E eq_refl), !de_any_eq. assert (H := arel_resolve _ a b m B).
      destruct (resolve a m), (resolve b m); try contradiction; [|exact I]. now apply IH.
    - assert (Nz : forall m, z <> Anchor m) by (intros m F; exact (Ny m (anchor_rel' y z m E F))).
      rewrite !any_at_eq by assumption. unfold any_at.
      assert (S := read_seq_rel _ y z a b E B).
      destruct (read_seq y a) as [[l a1]|] eqn:Ey, (read_seq z b) as [[m b1]|] eqn:Ez; cbn in S; try contradiction.
      + destruct S as [F A1]. assert (H := any_elems_oo n IH l m a1 b1 F A1).
        destruct (any_elems n l a1), (any_elems n m b1); cbn in H |- *; try contradiction; try exact I.
        destruct H as [<- A2]. now split.
      + assert (M := read_map_rel _ y z a b E B).
        destruct (read_map y a) as [[l a1]|] eqn:Fy, (read_map z b) as [[m b1]|] eqn:Fz; cbn in M; try contradiction.
        * destruct M as [F A1]. assert (H := any_entries_oo n IH l m a1 b1 F A1).
          destruct (any_entries n l a1), (any_entries n m b1); cbn in H |- *; try contradiction; try exact I.
          destruct H as [<- A2]. now split.
        * cbn. split; [|exact B]. apply (scalar_rel y z (look untyped_word z)).
          -- unfold read_seq in Ey. destruct (seq_items y); [discriminate|reflexivity].
          -- unfold read_map in Fy. destruct (map_items y); [discriminate|reflexivity].
          -- apply (yrel_less untyped_word y z Wu E).
          -- reflexivity.
  Qed.

  (** Scalars. *)
  Definition stays (d : decoder) : Prop := forall y a v a1, d y a = Some (v, a1) -> a1 = a.
  Lemma scalar_oo d : stays d -> ok typed_word d -> aok (fun y a => of_opt (d y a)).
  Proof.
    intros S O y z a b E B. assert (H := O y z a b (yrel_less _ _ _ Wt E) (arel_less _ _ _ Wt B)).
    destruct (d y a) as [[v a1]|] eqn:F, (d z b) as [[v' b1]|] eqn:G; cbn in H |- *; try contradiction; [|exact I].
    destruct H as [<- _]. apply S in F. apply S in G. subst. now split.
  Qed.
  Lemma stays_bool : stays de_bool.
  Proof.
    intros y a v a1 E. unfold de_bool in E. destruct (into_resolved y a) as [[]|]; try discriminate.
    repeat match type of E with context [if ?b then _ else _] => destruct b end; congruence.
  Qed.
  Lemma stays_int k : stays (de_int k).
  Proof.
    intros y a v a1 E. unfold de_int in E. destruct (into_resolved y a) as [z|]; [|discriminate].
    destruct (yaml_to_string z); [|discriminate]. destruct (match k with I8 => _ | _ => _ end); [|discriminate].
    destruct (in_kind k z0); congruence.
  Qed.
  Lemma stays_float : stays de_float.
  Proof.
    intros y a v a1 E. unfold de_float in E. destruct (into_resolved y a) as [z|]; [|discriminate].
    destruct (yaml_to_string z); [|discriminate]. destruct (parse_f64_ok l); congruence.
  Qed.

  (** Combinators. *)
  Lemma elems_oo d : aok d -> forall l m a b, Forall2 R l m -> A a b -> oo (n_elems d l a) (n_elems d m b).
  Proof.
    intros D l m a b F. revert a b. induction F as [|y z l m E F IH]; intros a b B; cbn; [now split|].
    apply oo_bind; [now apply D|]. intros v a1 b1 B1. apply oo_map. now apply IH.
  Qed.
  Lemma list_oo d : aok d -> forall l m a b, Forall2 R l m -> A a b -> oo (any_list d l a) (any_list d m b).
  Proof.
    intros D l m a b F. revert a b. induction F as [|y z l m E F IH]; intros a b B; cbn; [now split|].
    apply oo_bind; [now apply D|]. intros v a1 b1 B1. apply oo_map. now apply IH.
  Qed.
  Lemma tuple_oo ds : Forall aok ds -> forall l m a b, Forall2 R l m -> A a b -> oo (n_tuple ds l a) (n_tuple ds m b).
  Proof.
    intros D. induction D as [|d ds D Ds IH]; intros l m a b F B; [destruct F; now split|].
    destruct F as [|y z l m E F]; cbn; [exact I|].
    apply oo_bind; [now apply D|]. intros v a1 b1 B1. apply oo_map. now apply IH.
  Qed.
  Lemma entries_oo dk dv : aok dk -> aok dv ->
    forall l m a b, Forall2 (erel W) l m -> A a b -> oo (n_entries dk dv l a) (n_entries dk dv m b).
  Proof.
    intros K D l m a b F. revert a b. induction F as [|[k y] [k' z] l m [E X] F IH]; intros a b B; cbn; [now split|].
    cbn in E, X. subst k'. apply oo_bind; [now apply K|]. intros vk a1 b1 B1.
    apply oo_bind; [now apply D|]. intros v a2 b2 B2. apply oo_map. now apply IH.
  Qed.

  Definition xok (f : xfield) : Prop := aok (r_node (x_read f)).
  Definition oof (P : list xfield -> Prop) (r s : outcome (list xfield)) : Prop :=
    oo r s /\ match r with Done x _ => P x | _ => True end.
  Lemma field_oo fs : Forall xok fs -> forall k y z a b, R y z -> A a b ->
    oof (fun gs => Forall xok gs) (n_field fs k y a) (n_field fs k z b).
  Proof.
    intros D. induction D as [|f fs D Ds IH]; intros k y z a b E B; cbn; [split; [now split|constructor]|].
    destruct (seqb (x_name f) k).
    - destruct (x_val f); [split; exact I|]. assert (H := D y z a b E B). split; [now apply oo_map|].
      destruct (r_node (x_read f) y a); cbn; try exact I. constructor; [exact D|exact Ds].
    - destruct (IH k y z a b E B) as [H G]. split; [now apply oo_map|].
      destruct (n_field fs k y a); cbn; try exact I. now constructor.
  Qed.
  Lemma fields_oo l m : Forall2 (erel W) l m -> forall fs a b, Forall xok fs -> A a b ->
    oo (n_fields fs l a) (n_fields fs m b).
  Proof.
    intros F. induction F as [|[k y] [k' z] l m [E X] F IH]; intros fs a b D B; cbn; [now split|].
    cbn in E, X. subst k'. destruct (field_oo fs D k y z a b X B) as [H G].
    destruct (n_field fs k y a), (n_field fs k z b); cbn in H |- *; try contradiction; try exact I.
    destruct H as [<- B1]. now apply IH.
  Qed.
  Lemma collect_oo any l m : aok any -> Forall2 (erel W) l m -> forall fs a b, Forall xok fs -> A a b ->
    oo (n_collect any fs l a) (n_collect any fs m b).
  Proof.
    intros N F. induction F as [|[k y] [k' z] l m [E X] F IH]; intros fs a b D B; cbn [n_collect]; [now split|].
    cbn in E, X. subst k'. destruct (x_known fs k).
    - destruct (field_oo fs D k y z a b X B) as [H G].
      destruct (n_field fs k y a), (n_field fs k z b); cbn in H |- *; try contradiction; try exact I.
      destruct H as [<- B1]. now apply IH.
    - apply oo_bind; [now apply N|]. intros c a1 b1 B1. apply oo_map. now apply IH.
  Qed.
  Lemma tag_oo any tag l m : aok any -> Forall2 (erel W) l m -> forall seen a b, A a b ->
    oo (n_tag any tag seen l a) (n_tag any tag seen m b).
  Proof.
    intros N F. induction F as [|[k y] [k' z] l m [E X] F IH]; intros sn a b B; cbn [n_tag]; [now split|].
    cbn in E, X. subst k'.
    assert (G : forall k, oo (o_bind (any y a) (fun c a1 => o_map (fun r => (fst r, (k, c) :: snd r)) (n_tag any tag sn l a1)))
                (o_bind (any z b) (fun c a1 => o_map (fun r => (fst r, (k, c) :: snd r)) (n_tag any tag sn m a1)))).
    { intros k'. apply oo_bind; [now apply N|]. intros c a1 b1 B1. apply oo_map. now apply IH. }
    destruct (any_unquoted k); try apply G. destruct (seqb s tag); [|apply G].
    destruct sn; [exact I|]. rewrite (de_text_rel _ y z a b X B). destruct (de_text z b); [|exact I]. now apply IH.
  Qed.
  Definition tagged_at (any : yaml -> anchors -> outcome anyv) (tag : str) (y : yaml) (a : anchors) : outcome (str * anyv) :=
    match read_map y a with
    | Some (es, a1) => n_tagged_map any tag es a1
    | None => match read_seq y a with Some (vs, a1) => n_tagged_seq any vs a1 | None => Failed end
    end.
  Lemma tagged_eq n tag y a : (forall m, y <> Anchor m) -> n_tagged (S n) tag y a = tagged_at (de_any n) tag y a.
  Proof.
    intros N. unfold tagged_at, read_map, read_seq. destruct y; cbn [n_tagged map_items seq_items]; try reflexivity.
    - now rewrite register_none_map, entries_id.
    - now rewrite hash_entries_items.
    - rewrite register_none, map_map. cbn. now rewrite map_id.
    - now rewrite seq_values_items.
    - now elim (N s).
  Qed.
  Lemma tagged_oo fuel tag : aok (n_tagged fuel tag).
  Proof.
    induction fuel as [|n IH]; intros y z a b E B; [exact I|].
    destruct (anchor_dec y) as [[m ->]|Ny].
    - rewrite (anchor_rel _ z m E eq_refl). cbn [n_tagged]. assert (H := arel_resolve _ a b m B).
      destruct (resolve a m), (resolve b m); try contradiction; [|exact I]. now apply IH.
    - assert (Nz : forall m, z <> Anchor m) by (intros m F; exact (Ny m (anchor_rel' y z m E F))).
      rewrite !tagged_eq by assumption. unfold tagged_at.
      assert (M := read_map_rel _ y z a b E B).
      destruct (read_map y a) as [[l a1]|], (read_map z b) as [[m b1]|]; cbn in M; try contradiction.
      + destruct M as [F A1]. unfold n_tagged_map. apply oo_bind; [apply tag_oo; [apply any_oo|exact F|exact A1]|].
        intros [[s|] es] a2 b2 B2; [now split|exact I].
      + assert (S := read_seq_rel _ y z a b E B).
        destruct (read_seq y a) as [[l a1]|], (read_seq z b) as [[m b1]|]; cbn in S; try contradiction; [|exact I].
        destruct S as [F A1]. unfold n_tagged_seq. destruct F as [|x x' l m X F]; [exact I|].
        rewrite (de_text_rel _ x x' a1 b1 X A1). destruct (de_text x' b1); [|exact I].
        apply oo_map. apply list_oo; [apply any_oo|exact F|exact A1].
  Qed.

  Ltac seq_case E B :=
    match goal with |- oo (match de_seq_values ?y ?a with _ => _ end) (match de_seq_values ?z ?b with _ => _ end) =>
      let H := fresh in assert (H := de_seq_rel _ y z a b E B);
      destruct (de_seq_values y a) as [[? ?]|], (de_seq_values z b) as [[? ?]|]; cbn in H; try contradiction; [destruct H|exact I]
    end.
  Ltac map_case E B :=
    match goal with |- oo (match de_map_entries ?y ?a with _ => _ end) (match de_map_entries ?z ?b with _ => _ end) =>
      let H := fresh in assert (H := de_map_rel _ y z a b E B);
      destruct (de_map_entries y a) as [[? ?]|], (de_map_entries z b) as [[? ?]|]; cbn in H; try contradiction; [destruct H|exact I]
    end.

  Lemma xoks fuel (fs : list (str * xty)) : Forall (fun nt => aok (r_node (read fuel (snd nt)))) fs ->
    Forall xok (map (fun f => match f with (n, t) => mkX n (read fuel t) (is_xoption t) None end) fs).
  Proof. intros H. induction H as [|[n t] fs H Hs IH]; cbn; constructor; assumption. Qed.
  Lemma own_oks fuel fs : Forall (fun nt => aok (r_node (read fuel (snd (snd nt))))) fs -> Forall xok (own_fields fuel fs).
  Proof.
    intros H. unfold own_fields. induction H as [|[n [[] t]] fs H Hs IH]; cbn; [constructor|exact IH|]. constructor; assumption.
  Qed.
  Lemma tup_oks fuel ts : Forall (fun t => aok (r_node (read fuel t))) ts -> Forall aok (map r_node (map (read fuel) ts)).
  Proof. intros H. induction H; cbn; constructor; assumption. Qed.

  Lemma variant_oo fuel n v : xv_P (fun t => aok (r_node (read fuel t))) v -> aok (n_variant n (rvar fuel v)).
  Proof.
    intros P y z a b E B. destruct v as [|t|ts|fs]; cbn [rvar n_variant xv_P] in *.
    - now split.
    - apply oo_map. now apply P.
    - seq_case E B. apply oo_map. apply tuple_oo; [now apply tup_oks|assumption|assumption].
    - map_case E B. apply oo_bind; [apply fields_oo; [assumption|now apply xoks|assumption]|].
      intros gs a2 b2 B2. destruct (opt_map x_value gs); [now split|exact I].
  Qed.

  Lemma read_oo fuel t : aok (r_node (read fuel t)).
  Proof.
    induction t using xty_ind'; intros y z a b E B.
    - exact (scalar_oo _ stays_bool (de_look TBool) y z a b E B).
    - exact (scalar_oo _ (stays_int k) (de_look (TInt k)) y z a b E B).
    - exact (scalar_oo _ stays_float (de_look TFloat) y z a b E B).
    - cbn. rewrite (de_text_rel _ y z a b E B). destruct (de_text z b) as [[|c [|]]|]; try exact I. now split.
    - cbn. rewrite (de_text_rel _ y z a b E B). destruct (de_text z b); [now split|exact I].
    - now split.
    - cbn [read r_node]. assert (H := resolved_rel _ y z a b E B).
      destruct (into_resolved y a) as [y'|], (into_resolved z b) as [z'|]; try contradiction; [|exact I].
      assert (N : forall w (a : anchors), (forall s, w = Unquoted s -> typed_word s = false) ->
        match w with
        | Unquoted s => if is_null_word s then Done SNone a else o_map SSome (r_node (read fuel t) (Unquoted s) a)
        | w => o_map SSome (r_node (read fuel t) w a)
        end = o_map SSome (r_node (read fuel t) w a)).
      { clear. intros w a N. destruct w; try reflexivity. specialize (N s eq_refl).
        unfold typed_word in N. cbn [map existsb] in N. rewrite !orb_false_iff in N. unfold is_null_word.
        decompose [and] N. clear N. repeat match goal with E : seqb _ _ = false |- _ => rewrite E; clear E end. reflexivity. }
      destruct (match y' with Unquoted s => typed_word s | _ => false end) eqn:F.
      + destruct y'; try discriminate. apply Wt in F. rewrite (word_rel _ _ z' s H eq_refl F).
        destruct (is_null_word s); [now split|]. apply oo_map. now apply IHt.
      + destruct (match z' with Unquoted s => typed_word s | _ => false end) eqn:F'.
        * destruct z'; try discriminate. symmetry in H. rewrite (word_rel _ _ y' s H eq_refl (Wt _ F')) in F. cbv beta iota in F. congruence.
        * rewrite !N by (intros s ->; assumption). apply oo_map. now apply IHt.
    - cbn [read r_node]. apply oo_map. now apply IHt.
    - cbn [read r_node]. seq_case E B. apply oo_map. now apply elems_oo.
    - cbn [read r_node]. seq_case E B. apply oo_map. apply tuple_oo; [now apply tup_oks|assumption|assumption].
    - cbn [read r_node]. map_case E B. apply oo_map. now apply entries_oo.
    - rewrite read_struct. destruct (flattens fs); cbn [r_node]; map_case E B.
      + apply oo_bind; [apply collect_oo; [apply any_oo|assumption|now apply own_oks|assumption]|].
        intros r a2 b2 B2. destruct (finish _ _ r); [now split|exact I].
      + apply oo_bind; [apply fields_oo; [assumption|now apply own_oks|assumption]|].
        intros gs a2 b2 B2. destruct (opt_map x_value gs); [now split|exact I].
    - rewrite read_enum. cbn [r_node]. assert (G := enum_rel _ y z a b E B).
      destruct (de_enum_content y a) as [[[n c] a1]|], (de_enum_content z b) as [[[n' c'] b1]|]; try contradiction; [|exact I].
      destruct G as (<- & C & B1). induction H as [|[m v] vs V Vs IH]; [exact I|].
      cbn [rvars map pick]. destruct (seqb m n); [|exact IH]. now apply variant_oo.
    - rewrite read_untagged. cbn [r_node]. apply oo_bind; [now apply any_oo|].
      intros c a1 b1 B1. destruct (first_of _ _); [now split|exact I].
    - rewrite read_tagged. cbn [r_node]. apply oo_bind; [now apply tagged_oo|].
      intros r a1 b1 B1. destruct (t_variant _ r); [now split|exact I].
  Qed.
End Words.

Lemma read_look fuel t y z : look any_word y = look any_word z ->
  outcome_of (read_yaml fuel t y) = outcome_of (read_yaml fuel t z).
Proof.
  intros E. unfold read_yaml.
  assert (H : oo any_word (r_node (read fuel t) y []) (r_node (read fuel t) z [])).
  { apply read_oo; [| |exact E|constructor]; intros s F; unfold any_word; rewrite F; [reflexivity|apply orb_true_r]. }
  destruct (r_node (read fuel t) y []), (r_node (read fuel t) z []); cbn in H |- *; try contradiction; try reflexivity.
  now destruct H as [-> _].
Qed.

Lemma any_word_break s : inline_breaking_chars s = true -> any_word s = false.
Proof. intros H. unfold any_word. now rewrite (typed_break _ H), (untyped_break _ H). Qed.
Lemma any_word_can s : any_word s = true -> can_be_unquoted_in_block s = true -> any_loose s = true.
Proof.
  unfold any_word, any_loose. intros H C. apply orb_true_iff in H as [H|H].
  - now rewrite (typed_can _ H C).
  - rewrite (untyped_can _ H C). apply orb_true_r.
Qed.
Lemma read_pretty fuel t y : long_ok false y -> inline_no_block false y = true -> no_quoted any_loose y ->
  outcome_of (read_yaml fuel t (pretty y)) = outcome_of (read_yaml fuel t y).
Proof. intros L B Q. apply read_look. apply (pretty_look _ any_loose any_word_break any_word_can); auto. Qed.
