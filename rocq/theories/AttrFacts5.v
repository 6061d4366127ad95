(** Facts about types with serde attributes: what is written is read back. *)
From Coq Require Import ZArith Lia.
From Verif Require Import Base Ast Strings Format Num Pretty Ser De Attr Spec_Attr Spec_Serde Spec_Look
  LookFacts LookFacts2 SerdeFacts SerdeFacts2 AttrFacts AttrFacts2 AttrFacts3 AttrFacts4.
Import ListNotations.

Lemma any_in {A} (P : A -> Prop) l : any P l -> exists x, In x l /\ P x.
Proof. induction l as [|x l IH]; cbn; [tauto|]. intros [H|H]; [eauto|]. destruct (IH H) as (z & I & Z). eauto. Qed.

(** Entries of a mapping value. *)
Definition ser_entry (kv : sval * sval) : option (str * yaml) :=
  match kv with
  | (k, v) => match ser k with
              | Some yk => match yaml_to_key_string yk with
                           | Some ks => option_map (fun y => (ks, y)) (ser v)
                           | None => None
                           end
              | None => None
              end
  end.
Definition ser_field (kv : str * sval) : option (str * yaml) :=
  match kv with (k, v) => option_map (fun y => (k, y)) (ser v) end.
Lemma ser_map l : ser (SMap l) = option_map map_yaml_of (opt_map ser_entry l).
Proof. reflexivity. Qed.
Lemma ser_struct l : ser (SStruct l) = option_map map_yaml_of (opt_map ser_field l).
Proof. reflexivity. Qed.
Lemma ser_entry_str n v e : ser_entry (SStr n, v) = Some e -> exists y, ser v = Some y /\ e = (n, y).
Proof.
  cbn. destruct (yaml_to_key_string (str_to_yaml n)) as [ks|] eqn:K; [|discriminate]. apply key_str in K. subst ks.
  destruct (ser v); [|discriminate]. cbn. intros E. injection E as <-. eauto.
Qed.
Lemma opt_map_app {A B} (f : A -> option B) l m r : opt_map f (l ++ m) = Some r ->
  exists r1 r2, r = r1 ++ r2 /\ opt_map f l = Some r1 /\ opt_map f m = Some r2.
Proof.
  revert r. induction l as [|x l IH]; cbn; intros r E; [exists [], r; auto|].
  destruct (f x) as [y|]; [|discriminate]. destruct (opt_map f (l ++ m)) as [ys|]; [|discriminate].
  injection E as <-. destruct (IH _ eq_refl) as (r1 & r2 & -> & -> & ->). exists (y :: r1), r2. auto.
Qed.
Lemma opt_map_step {A B} (f : A -> option B) x l r : opt_map f (x :: l) = Some r ->
  exists y ys, r = y :: ys /\ f x = Some y /\ opt_map f l = Some ys.
Proof.
  cbn. destruct (f x) as [y|]; [|discriminate]. destruct (opt_map f l) as [ys|]; [|discriminate].
  intros E. injection E as <-. eauto.
Qed.
Lemma map_yaml_inj l m : map_yaml_of l = map_yaml_of m -> l = m.
Proof.
  intros E. pose proof (map_at l []) as A. rewrite E, map_at in A. congruence.
Qed.

(** The entries a flattened field writes are those of its mapping. *)
Lemma flat_ser s : forall ks es kys, entry_names s = Some ks -> flat_entries s = Some es -> opt_map ser_entry es = Some kys ->
  ser s = Some (map_yaml_of kys) /\ map fst kys = ks.
Proof.
  induction s using sval_ind'; intros ks es kys N F E; try discriminate; cbn [entry_names flat_entries] in N, F; try (cbn [ser]; eapply IHs; eauto; fail).
  - injection F as <-. rewrite ser_map, E. split; [reflexivity|].
    clear H. revert ks kys N E. induction l as [|[k v] l IH]; intros ks kys N E; [cbn in N, E; injection N as <-; injection E as <-; reflexivity|].
    apply opt_map_step in E as (e & es & -> & E1 & E2). cbn [opt_map fst] in N. destruct k; try discriminate.
    destruct (opt_map _ l) as [ns|] eqn:O; [|discriminate]. injection N as <-.
    apply ser_entry_str in E1 as (y & _ & ->). cbn [map fst]. f_equal. now apply IH.
  - injection F as <-. injection N as <-. rewrite ser_struct. clear H.
    assert (G : opt_map ser_field l = Some kys /\ map fst kys = map fst l).
    { revert kys E. induction l as [|[k v] l IH]; intros kys E; [cbn in E; injection E as <-; now split|].
      cbn [map fst snd] in E. apply opt_map_step in E as (e & es & -> & E1 & E2).
      apply ser_entry_str in E1 as (y & Ey & ->). destruct (IH _ E2) as [El Em]. cbn [opt_map ser_field]. rewrite Ey. cbn [option_map].
      rewrite El. cbn [map fst]. now rewrite Em. }
    destruct G as [-> ->]. now split.
Qed.

(** A tagged mapping is the mapping with the tag in front. *)
Lemma tagged_ser tag n s : forall ks s' y, entry_names s = Some ks -> tagged tag n s = Some s' -> ser s' = Some y ->
  exists kys, y = map_yaml_of ((tag, str_to_yaml n) :: kys) /\ ser s = Some (map_yaml_of kys) /\ map fst kys = ks.
Proof.
  induction s using sval_ind'; intros ks s' y N F E; try discriminate; cbn [entry_names tagged] in N, F; try (cbn [ser]; eapply IHs; eauto; fail).
  - injection F as <-. rewrite ser_map in E. destruct (opt_map ser_entry _) as [es|] eqn:O; [|discriminate].
    injection E as <-. apply opt_map_step in O as (e & kys & -> & E1 & E2). apply ser_entry_str in E1 as (yt & Et & ->).
    cbn in Et. injection Et as <-. exists kys. split; [reflexivity|].
    destruct (flat_ser (SMap l) ks l kys N eq_refl E2) as [A B]. now split.
  - injection F as <-. rewrite ser_struct in E. destruct (opt_map ser_field _) as [es|] eqn:O; [|discriminate].
    injection E as <-. apply opt_map_step in O as (e & kys & -> & E1 & E2). cbn in E1. injection E1 as <-. exists kys. split; [reflexivity|].
    rewrite ser_struct, E2. split; [reflexivity|]. cbn in N. injection N as <-.
    clear H. revert kys E2. induction l as [|[k v] l IH]; intros kys E; [cbn in E; injection E as <-; reflexivity|].
    apply opt_map_step in E as (e & es & -> & E1 & E2). cbn in E1. destruct (ser v); [|discriminate]. injection E1 as <-.
    cbn. f_equal. now apply IH.
Qed.

(** Reading a scalar registers nothing. *)
Lemma scalar_stays fuel t : forall y a v b, as_string y <> None -> r_node (read fuel t) y a = Done v b -> b = a.
Proof.
  assert (Sq : forall y a, as_string y <> None -> de_seq_values y a = None) by (intros [] a H; cbn in *; congruence).
  assert (Mp : forall y a, as_string y <> None -> de_map_entries y a = None) by (intros [] a H; cbn in *; congruence).
  assert (O : forall d y a v b, stays d -> of_opt (d y a) = Done v b -> b = a).
  { intros d y a v b S H. destruct (d y a) as [[v' a']|] eqn:E; [|discriminate]. cbn in H. injection H as <- <-. exact (S _ _ _ _ E). }
  induction t using xty_ind'; intros y a v b Y H'; try rewrite read_struct in H'; try rewrite read_enum in H'; cbn [read r_node] in H'; rewrite ?Sq, ?Mp in H' by exact Y; try discriminate.
  - exact (O _ _ _ _ _ stays_bool H').
  - exact (O _ _ _ _ _ (stays_int k) H').
  - exact (O _ _ _ _ _ stays_float H').
  - destruct (de_text y a) as [[|c [|]]|]; try discriminate. congruence.
  - destruct (de_text y a); [|discriminate]. congruence.
  - congruence.
  - assert (G : forall z, as_string z <> None -> o_map SSome (r_node (read fuel t) z a) = Done v b -> b = a).
    { intros z Z H. destruct (r_node (read fuel t) z a) eqn:E; try discriminate. cbn in H. injection H as _ <-. exact (IHt _ _ _ _ Z E). }
    destruct y; cbn in Y; try congruence; cbn [into_resolved] in H'; try (eapply G; [|exact H']; discriminate).
    destruct (is_null_word s); [congruence|]. eapply G; [|exact H']. discriminate.
  - destruct (r_node (read fuel t) y a) eqn:E; try discriminate. cbn in H'. injection H' as _ <-. exact (IHt _ _ _ _ Y E).
  - destruct (flattens fs); cbn [r_node] in H'; rewrite Mp in H' by exact Y; discriminate.
  - destruct (de_enum_content y a) as [[[n c] a1]|] eqn:E; [|discriminate].
    assert (c = Unquoted (lit "~") /\ a1 = a) as [-> ->].
    { destruct y; cbn in Y; try congruence; cbn in E; injection E as <- <- <-; auto. }
    induction H as [|[m va] vs V _ IH]; [discriminate|]. cbn [rvars map pick] in H'. destruct (seqb m n); [|exact (IH H')].
    destruct va as [|t|ts|fs]; cbn [rvar n_variant] in H'.
    + congruence.
    + cbn in V. destruct (r_node (read fuel t) _ a) eqn:F; try discriminate. cbn in H'. injection H' as _ <-.
      eapply V; [|exact F]. discriminate.
    + discriminate.
    + discriminate.
  - destruct (de_any fuel y a) as [c a1| |] eqn:E; try discriminate. cbn [o_bind] in H'.
    destruct (first_of _ _); [|discriminate]. injection H' as _ <-.
    destruct fuel as [|n]; [discriminate|]. destruct y; cbn in Y; try congruence; cbn in E; congruence.
  - destruct (n_tagged fuel tag y a) as [c a1| |] eqn:E; try discriminate.
    destruct fuel as [|n]; [discriminate|]. destruct y; cbn in Y; try congruence; cbn in E; discriminate.
Qed.

Section RT.
  Context (fuel : nat).

  Definition Pt (t : xty) : Prop := forall v s y, emit t v = Some s -> carried t v -> ser s = Some y -> depth y <= fuel ->
    (forall a, r_node (read fuel t) y a = Done v a) /\
    (forall own, r_buf (read fuel t) own (content y) = Some v) /\
    (forall kys l, y = map_yaml_of kys -> Forall (fun kv => plain_name (fst kv)) kys -> remaining l = map bentry kys ->
      fst (r_flat (read fuel t) l) = Some v) /\
    (~ nullish s -> not_null y).

  (** A scalar is not flattened. *)
  Lemma str_not_map s kys : str_to_yaml s <> map_yaml_of kys.
  Proof. pose proof (str_shape s) as H. intros E. rewrite E in H. exact H. Qed.

  (** ---- tuples ---- *)
  Lemma tuple_rt ts : Forall Pt ts -> forall l ss ys, all2 carried ts l -> write_list (map emit ts) l = Some ss ->
    opt_map ser ss = Some ys -> Forall (fun y => depth y <= fuel) ys ->
    (forall a, n_tuple (map r_node (map (read fuel) ts)) ys a = Done l a) /\
    (forall own, b_tuple own (map (read fuel) ts) (map content ys) = Some l).
  Proof.
    induction 1 as [|t ts T _ IH]; intros [|v l] ss ys C W E D; cbn [all2 map write_list] in C, W; try contradiction; try discriminate.
    - injection W as <-. cbn in E. injection E as <-. split; reflexivity.
    - destruct (emit t v) as [s|] eqn:Es; [|discriminate]. destruct (write_list (map emit ts) l) as [ss'|] eqn:Ws; [|discriminate].
      injection W as <-. apply opt_map_step in E as (y & ys' & -> & Ey & Eys). inversion D; subst. destruct C as [C1 C2].
      destruct (T v s y Es C1 Ey H1) as (N & B & _). destruct (IH l ss' ys' C2 Ws Eys H2) as [N' B'].
      split; intros; cbn [map n_tuple b_tuple].
      + rewrite N. cbn [o_bind]. now rewrite N'.
      + now rewrite B, B'.
  Qed.
  Lemma seq_rt t : Pt t -> forall l ss ys, (forall v, In v l -> carried t v) -> opt_map (emit t) l = Some ss ->
    opt_map ser ss = Some ys -> Forall (fun y => depth y <= fuel) ys ->
    (forall a, n_elems (r_node (read fuel t)) ys a = Done l a) /\
    (forall own, opt_map (r_buf (read fuel t) own) (map content ys) = Some l).
  Proof.
    intros T l. induction l as [|v l IH]; intros ss ys C W E D.
    - cbn in W. injection W as <-. cbn in E. injection E as <-. split; reflexivity.
    - apply opt_map_step in W as (s & ss' & -> & Es & Ws). apply opt_map_step in E as (y & ys' & -> & Ey & Eys).
      inversion D; subst.
      destruct (T v s y Es (C v (or_introl eq_refl)) Ey H1) as (N & B & _).
      destruct (IH ss' ys' (fun v I => C v (or_intror I)) Ws Eys H2) as [N' B'].
      split; intros; cbn [map n_elems opt_map].
      + rewrite N. cbn [o_bind]. now rewrite N'.
      + now rewrite B, B'.
  Qed.

  (** ---- mappings ---- *)
  Lemma key_rt t : Pt t -> forall v s y ks, emit t v = Some s -> carried t v -> ser s = Some y -> 1 <= fuel ->
    yaml_to_key_string y = Some ks ->
    (forall a, r_node (read fuel t) (Unquoted ks) a = Done v a) /\
    (forall own, r_buf (read fuel t) own (any_unquoted ks) = Some v).
  Proof.
    intros T v s y ks Es C Ey F K. destruct y as [| | | | |ps|u| | |]; try discriminate; cbn in K; injection K as <-.
    - destruct (ser_dq s _ ps Ey eq_refl) as [x X]. symmetry in X. pose proof (dq_not_word _ _ X) as W.
      pose proof (str_to_yaml_value x) as V. rewrite X in V. cbn in V. injection V as V.
      destruct (T v s _ Es C Ey F) as (N & B & _). rewrite V. split.
      + intros a.
        assert (O : oo any_word (r_node (read fuel t) (DoubleQ ps) a) (r_node (read fuel t) (Unquoted x) a)).
        { assert (R : forall a : anchors, arel any_word a a) by (induction a0 as [|[] a0]; constructor; auto; now split).
          apply read_oo; [| | |apply R].
          - intros w H. unfold any_word. now rewrite H.
          - intros w H. unfold any_word. rewrite H. apply orb_true_r.
          - unfold yrel. cbn [look]. now rewrite W, V. }
        rewrite N in O. destruct (r_node (read fuel t) (Unquoted x) a) eqn:Q; cbn in O; try contradiction.
        destruct O as [<- _]. f_equal. eapply scalar_stays; [|exact Q]. discriminate.
      + intros own. specialize (B own). cbn [content] in B. rewrite V in B.
        unfold any_word in W. apply orb_false_iff in W as [_ W]. now rewrite (plain_any _ W).
    - destruct (T v s _ Es C Ey F) as (N & B & _). now split.
  Qed.

  Lemma entries_rt k w : Pt k -> Pt w -> forall l ss kys,
    (forall p, In p l -> carried k (fst p) /\ carried w (snd p)) ->
    opt_map (fun kv : sval * sval => match kv with (x, y) =>
        match emit k x, emit w y with Some x, Some y => Some (x, y) | _, _ => None end end) l = Some ss ->
    opt_map ser_entry ss = Some kys -> 1 <= fuel -> Forall (fun kv => depth (snd kv) <= fuel) kys ->
    (forall a, n_entries (r_node (read fuel k)) (r_node (read fuel w)) kys a = Done l a) /\
    (forall own, b_entries own (read fuel k) (read fuel w) (map bentry kys) = Some l).
  Proof.
    intros K V l. induction l as [|[x z] l IH]; intros ss kys C W E F D.
    - cbn in W. injection W as <-. cbn in E. injection E as <-. split; reflexivity.
    - apply opt_map_step in W as ([sx sz] & ss' & -> & Es & Ws). apply opt_map_step in E as ([kx y] & ys' & -> & Ey & Eys).
      inversion D; subst. destruct (C (x, z) (or_introl eq_refl)) as [Cx Cz]. cbn [fst snd] in Cx, Cz, H1.
      destruct (emit k x) as [sx'|] eqn:Ex; [|discriminate]. destruct (emit w z) as [sz'|] eqn:Ez; [|discriminate].
      injection Es as <- <-. cbn [ser_entry] in Ey. destruct (ser sx') as [yx|] eqn:Yx; [|discriminate].
      destruct (yaml_to_key_string yx) as [ks|] eqn:Ks; [|discriminate]. destruct (ser sz') as [yz|] eqn:Yz; [|discriminate].
      injection Ey as <- <-.
      destruct (key_rt k K x sx' yx ks Ex Cx Yx F Ks) as [N B]. destruct (V z sz' yz Ez Cz Yz H1) as (N1 & B1 & _).
      destruct (IH ss' ys' (fun p I => C p (or_intror I)) Ws Eys F H2) as [N' B'].
      split; intros; cbn [n_entries].
      + rewrite N. cbn [o_bind]. rewrite N1. cbn [o_bind]. now rewrite N'.
      + unfold b_entries in B' |- *. cbn [map opt_map bentry fst snd]. now rewrite B, B1, B'.
  Qed.

  (** ---- fields ---- *)
  Definition unset (n : str) (t : xty) : xfield := mkX n (read fuel t) (is_xoption t) None.
  Lemma fields_rt (fs : list (str * xty)) : Forall (fun nt => Pt (snd nt)) fs -> forall l ss kys,
    all2 (fun f (x : str * sval) => match f with (_, t) => carried t (snd x) end) fs l ->
    write_fields (map (fun f => match f with (n, t) => (n, emit t) end) fs) l = Some ss ->
    opt_map ser_field ss = Some kys -> Forall (fun kv => depth (snd kv) <= fuel) kys ->
    exists items, map fld items = map (fun f => match f with (n, t) => unset n t end) fs /\
      map ientry items = kys /\ map (fun i => (x_name (fld i), ival i)) items = l /\ Forall good items.
  Proof.
    induction 1 as [|[n t] fs T _ IH]; intros [|[m v] l] ss kys C W E D; cbn [all2 map write_fields] in C, W; try contradiction; try discriminate.
    - injection W as <-. cbn in E. injection E as <-. exists []. repeat split; constructor.
    - destruct (seqb n m) eqn:Em; [|discriminate]. apply seqb_eq in Em. subst m. cbn [snd] in *.
      destruct (emit t v) as [s|] eqn:Es; [|discriminate]. destruct (write_fields _ l) as [ss'|] eqn:Ws; [|discriminate].
      injection W as <-. apply opt_map_step in E as (e & ys' & -> & Ey & Eys). cbn in Ey.
      destruct (ser s) as [y|] eqn:Ys; [|discriminate]. injection Ey as <-. inversion D; subst. destruct C as [C1 C2].
      destruct (T v s y Es C1 Ys H1) as (N & B & _). destruct (IH l ss' ys' C2 Ws Eys H2) as (items & A1 & A2 & A3 & A4).
      exists ((unset n t, (v, y)) :: items). cbn [map]. rewrite A1, A2, A3. repeat split. constructor; [|exact A4].
      now repeat split.
  Qed.

  (** The values of the own and of the flattened fields. *)
  Fixpoint own_part (fs : list (str * (bool * xty))) (l : list (str * sval)) : list (str * sval) :=
    match fs, l with
    | (_, (true, _)) :: fs', _ :: l' => own_part fs' l'
    | (_, (false, _)) :: fs', x :: l' => x :: own_part fs' l'
    | _, _ => []
    end.
  Fixpoint flat_part (fs : list (str * (bool * xty))) (l : list (str * sval)) : list (str * sval) :=
    match fs, l with
    | (_, (true, _)) :: fs', x :: l' => x :: flat_part fs' l'
    | (_, (false, _)) :: fs', _ :: l' => flat_part fs' l'
    | _, _ => []
    end.
  Lemma merge_parts fs : forall l, length fs = length l -> merge (decl_of fs) (own_part fs l) (flat_part fs l) = l.
  Proof.
    induction fs as [|[n [[] t]] fs IH]; intros [|x l] L; try discriminate; [reflexivity| |]; cbn in L |- *;
      f_equal; apply IH; lia.
  Qed.

  Definition ws_of (fs : list (str * (bool * xty))) : list (str * (bool * (sval -> option sval))) :=
    map (fun f => match f with (n, (fl, t)) => (n, (fl, emit t)) end) fs.
  Lemma flat_rt (names : list str) fs : Forall (fun nt => Pt (snd (snd nt))) fs -> forall l es kys,
    all2 (fun f (x : str * sval) => match f with (_, (fl, t)) =>
            carried t (snd x) /\
            (fl = true -> written_names t (snd x) (fun k => plain_name k /\ ~ In k names)) end) fs l ->
    length (filter (fun f => fst (snd f)) fs) <= 1 ->
    write_flat (ws_of fs) l = Some es -> opt_map ser_entry es = Some kys ->
    Forall (fun kv => depth (snd kv) < fuel) kys -> 1 <= fuel ->
    length fs = length l /\
    exists ps, map pentry ps = kys /\ map fld (owns ps) = own_fields fuel fs /\ Forall good (owns ps) /\
      map (fun i => (x_name (fld i), ival i)) (owns ps) = own_part fs l /\
      Forall (fun e => plain_name (fst e) /\ ~ In (fst e) names) (others ps) /\
      (filter (fun f => fst (snd f)) fs = [] -> others ps = []) /\
      (forall sl, remaining sl = map bentry (others ps) -> f_all (flat_fields fuel fs) sl = Some (flat_part fs l)).
  Proof.
    induction 1 as [|[n [fl t]] fs T _ IH]; intros [|[m v] l] es kys C L W E D F; cbn [all2] in C; try contradiction.
    - cbn in W. injection W as <-. cbn in E. injection E as <-. split; [reflexivity|]. exists []. repeat split; constructor.
    - cbn [ws_of map write_flat] in W. fold (ws_of fs) in W. cbn [snd] in T.
      destruct (seqb n m) eqn:Em; [|discriminate]. apply seqb_eq in Em. subst m. cbn [snd] in C. destruct C as [[C1 C1'] C2].
      destruct (emit t v) as [s|] eqn:Es; [|discriminate]. destruct (write_flat (ws_of fs) l) as [es'|] eqn:Ws; [|discriminate].
      destruct fl.
      + destruct (flat_entries s) as [es1|] eqn:Fs; [|discriminate]. injection W as <-.
        apply opt_map_app in E as (k1 & k2 & -> & E1 & E2). apply Forall_app in D as [D1 D2].
        cbn [filter fst snd length] in L.
        destruct (IH l es' k2 C2) as (Len & ps & A1 & A2 & A3 & A4 & A5 & A6 & A7); [lia|exact Ws|exact E2|exact D2|exact F|].
        assert (Nil : filter (fun f : str * (bool * xty) => fst (snd f)) fs = [])
          by (destruct (filter _ fs); [reflexivity|cbn in L; lia]).
        specialize (A6 Nil).
        destruct (C1' eq_refl) as (s' & ks & Es' & En & Hk). rewrite Es in Es'. injection Es' as <-.
        destruct (flat_ser s ks es1 k1 En Fs E1) as [Ys Kn].
        assert (Dy : depth (map_yaml_of k1) <= fuel).
        { rewrite depth_map. clear - D1 F. assert (fold_right (fun kv n => Nat.max (depth (snd kv)) n) 0 k1 < fuel); [|lia].
          induction D1 as [|kv k1 H _ IH1]; cbn; lia. }
        destruct (T v s _ Es C1 Ys Dy) as (_ & _ & Fl & _).
        assert (Ow : owns (map inr k1 ++ ps) = owns ps).
        { unfold owns. rewrite flat_map_app. clear. induction k1; [reflexivity|]. exact IHk1. }
        assert (Ot : others (map inr k1 ++ ps) = k1).
        { unfold others. rewrite flat_map_app. fold (others ps). rewrite A6, app_nil_r. clear. induction k1; [reflexivity|]. cbn. f_equal. exact IHk1. }
        split; [cbn; lia|]. exists (map inr k1 ++ ps). rewrite Ow, Ot. repeat split.
        * rewrite map_app, map_map, A1. cbn [pentry]. now rewrite map_id.
        * exact A2.
        * exact A3.
        * exact A4.
        * rewrite Forall_forall. intros e He. apply Hk. rewrite <- Kn. now apply in_map.
        * intros X. discriminate.
        * intros sl R. cbn [flat_fields filter map fst snd f_all]. 
          specialize (Fl k1 sl eq_refl). rewrite Forall_forall in Fl.
          assert (Fp : fst (r_flat (read fuel t) sl) = Some v).
          { apply Fl; [|exact R]. intros e He. destruct (Hk (fst e)) as [P _]; [rewrite <- Kn; now apply in_map|exact P]. }
          destruct (r_flat (read fuel t) sl) as [r sl1]. cbn [fst] in Fp. subst r.
          rewrite Nil. cbn [map f_all option_map flat_part]. f_equal. f_equal.
          assert (N : flat_part fs l = []); [|now rewrite N].
          clear - Nil. revert l. induction fs as [|[m [[] t']] fs IHf]; intros [|x l]; cbn in Nil |- *; try reflexivity; [discriminate|].
          now apply IHf.
      + injection W as <-. apply opt_map_step in E as (e & k2 & -> & E1 & E2). apply ser_entry_str in E1 as (y & Ys & ->).
        inversion D; subst. cbn [snd] in H1. cbn [filter fst snd] in L.
        destruct (IH l es' k2 C2 L Ws E2 H2 F) as (Len & ps & A1 & A2 & A3 & A4 & A5 & A6 & A7).
        destruct (T v s y Es C1 Ys ltac:(lia)) as (N & B & _).
        split; [cbn; lia|]. exists (inl (unset n t, (v, y)) :: ps).
        cbn [map pentry owns others flat_map app]. fold (owns ps). fold (others ps). repeat split.
        * now rewrite A1.
        * cbn [map fld fst]. rewrite A2. reflexivity.
        * constructor; [now repeat split|exact A3].
        * cbn [map own_part]. rewrite A4. reflexivity.
        * exact A5.
        * exact A6.
        * exact A7.
  Qed.

  (** ---- variants ---- *)
  Lemma variant_at vs n va : NoDup (map fst vs) -> In (n, va) vs ->
    pick (rvars fuel vs) n = Some (rvar fuel va) /\
    forall (f : str * xvariant -> sval -> option sval) v,
      write_variant (map (fun x => (fst x, f x)) vs) n v = f (n, va) v.
  Proof.
    induction vs as [|[m vb] vs IH]; cbn [map fst In]; intros N I; [contradiction|]. inversion N; subst.
    destruct I as [E|I].
    - injection E as -> ->. cbn [rvars map pick write_variant fst]. rewrite seqb_refl. now split.
    - assert (m <> n) by (intros ->; apply H1; apply in_map_iff; exists (n, va); now split).
      cbn [rvars map pick write_variant fst]. rewrite (proj2 (seqb_neq m n)) by assumption. now apply IH.
  Qed.
  Lemma write_variant_map vs (f : str -> xvariant -> sval -> option sval) n v :
    write_variant (map (fun x : str * xvariant => match x with (n, va) => (n, f n va) end) vs) n v =
    write_variant (map (fun x => (fst x, f (fst x) (snd x))) vs) n v.
  Proof. induction vs as [|[m vb] vs IH]; cbn; [reflexivity|]. now rewrite IH. Qed.

  (** ---- the tag ---- *)
  Lemma n_tag_rest any tag seen kys : Forall (fun kv => fst kv <> tag /\ forall a, any (snd kv) a = Done (content (snd kv)) a) kys ->
    forall a, n_tag any tag seen kys a = Done (seen, map bentry kys) a.
  Proof.
    induction 1 as [|[k y] kys [K A] _ IH]; intros a; [reflexivity|]. cbn [fst snd] in K, A. cbn [n_tag].
    assert (G : forall k', any_unquoted k = k' -> o_bind (any y a) (fun c a1 =>
              o_map (fun r => (fst r, (k', c) :: snd r)) (n_tag any tag seen kys a1)) =
            Done (seen, map bentry ((k, y) :: kys)) a).
    { intros k' <-. rewrite A. cbn [o_bind]. rewrite IH. reflexivity. }
    destruct (any_unquoted k) eqn:U; try exact (G _ eq_refl).
    rewrite (proj2 (seqb_neq s tag)); [exact (G _ eq_refl)|]. intros ->. apply K.
    unfold any_unquoted in U. destruct (is_null_word k); [discriminate|]. destruct (seqb k _); [discriminate|].
    destruct (seqb k _); [discriminate|]. destruct (parse_i64 k); [discriminate|]. destruct (parse_u64 k); [discriminate|].
    destruct (parse_f64_ok k); [discriminate|]. congruence.
  Qed.
  Lemma b_tag_rest tag kys : Forall (fun kv : str * yaml => fst kv <> tag) kys ->
    b_tag tag (map bentry kys) = Some (None, map bentry kys).
  Proof.
    induction 1 as [|[k y] kys K _ IH]; [reflexivity|]. cbn [fst] in K. change (map bentry ((k, y) :: kys)) with ((any_unquoted k, content y) :: map bentry kys). cbn [b_tag]. rewrite IH.
    destruct (any_unquoted k) eqn:U; try reflexivity.
    rewrite (proj2 (seqb_neq s tag)); [reflexivity|]. intros ->. apply K.
    unfold any_unquoted in U. destruct (is_null_word k); [discriminate|]. destruct (seqb k _); [discriminate|].
    destruct (seqb k _); [discriminate|]. destruct (parse_i64 k); [discriminate|]. destruct (parse_u64 k); [discriminate|].
    destruct (parse_f64_ok k); [discriminate|]. congruence.
  Qed.
  Lemma tagged_at_rt tag n kys a : plain_name tag -> Forall (fun kv => fst kv <> tag) kys ->
    Forall (fun kv => served (snd kv)) kys -> depth (map_yaml_of ((tag, str_to_yaml n) :: kys)) <= fuel ->
    n_tagged fuel tag (map_yaml_of ((tag, str_to_yaml n) :: kys)) a = Done (n, AnMap (map bentry kys)) a.
  Proof.
    intros P K S D. destruct fuel as [|m]; [rewrite depth_map in D; lia|].
    rewrite depth_map in D. cbn [fold_right snd] in D.
    assert (D' : fold_right (fun kv n => Nat.max (depth (snd kv)) n) 0 kys <= m) by lia.
    apply (max_in (fun kv => depth (snd kv))) in D'.
    unfold map_yaml_of at 1. cbn [n_tagged]. rewrite hash_entries_map. unfold n_tagged_map. cbn [n_tag].
    rewrite (plain_any _ P), seqb_refl.
    assert (T : de_text (str_to_yaml n) a = Some n) by (apply text_read, str_to_yaml_value). rewrite T.
    rewrite n_tag_rest; [reflexivity|]. rewrite Forall_forall in *. intros kv I. split; [auto|]. intros b. apply any_content; auto.
  Qed.
  Lemma b_tagged_rt tag n kys : plain_name tag -> not_null_text n -> Forall (fun kv => fst kv <> tag) kys ->
    b_tagged tag (content (map_yaml_of ((tag, str_to_yaml n) :: kys))) = Some (n, AnMap (map bentry kys)).
  Proof.
    intros P N K. rewrite content_entries. cbn [map]. rewrite bentry_plain by exact P. cbn [b_tagged b_tag fst snd].
    rewrite (b_tag_rest tag kys K), seqb_refl. now rewrite content_str.
  Qed.
End RT.
