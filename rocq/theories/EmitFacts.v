(** Proofs: the nodes of values of types with serde attributes. *)
From Coq Require Import ZArith.
From Verif Require Import Base Ast Strings Num Ser De Attr StringsFacts SerdeFacts AttrFacts Spec_Look Spec_Ser ExactSerFacts Spec_Emit.
Import ListNotations.

Scheme node_mut := Minimality for node_for Sort Prop
  with rows_mut := Minimality for rows_for Sort Prop
  with fields_mut := Minimality for fields_for Sort Prop
  with flat_mut := Minimality for flat_for Sort Prop
  with nodes_mut := Minimality for nodes_for Sort Prop
  with entries_mut := Minimality for entries_for Sort Prop.
Combined Scheme emit_all from node_mut, rows_mut, fields_mut, flat_mut, nodes_mut, entries_mut.

Definition srow (kv : str * sval) : option (str * yaml) := match kv with (k, v) => option_map (fun y => (k, y)) (ser v) end.
Definition mrow (kv : sval * sval) : option (str * yaml) :=
  match kv with (k, v) =>
    match ser k with
    | Some yk => match yaml_to_key_string yk with Some ks => option_map (fun y => (ks, y)) (ser v) | None => None end
    | None => None
    end
  end.
Lemma ser_struct l : ser (SStruct l) = option_map map_yaml_of (opt_map srow l).
Proof. reflexivity. Qed.
Lemma ser_map l : ser (SMap l) = option_map map_yaml_of (opt_map mrow l).
Proof. reflexivity. Qed.

Lemma opt_cons {A B} (f : A -> option B) x l ys : opt_map f (x :: l) = Some ys <-> exists y zs, f x = Some y /\ opt_map f l = Some zs /\ ys = y :: zs.
Proof.
  cbn [opt_map]. destruct (f x) as [y|]; [destruct (opt_map f l) as [zs|]|]; split; try discriminate; try (intros (? & ? & ? & ? & ?); discriminate).
  - intros H. injection H as <-. eauto.
  - intros (? & ? & E1 & E2 & ->). congruence.
Qed.
Lemma srow_iff n v e : srow (n, v) = Some e <-> exists y, ser v = Some y /\ e = (n, y).
Proof. unfold srow. destruct (ser v) as [z|]; cbn; split; try discriminate; [intros H; injection H as <-; eauto|intros (y & H & ->); congruence|intros (y & H & _); discriminate]. Qed.
Lemma mrow_iff k v e : mrow (k, v) = Some e <-> exists yk s y, ser k = Some yk /\ yaml_to_key_string yk = Some s /\ ser v = Some y /\ e = (s, y).
Proof.
  unfold mrow. destruct (ser k) as [yk|]; [|split; [discriminate|intros (? & ? & ? & H & _); discriminate]].
  destruct (yaml_to_key_string yk) as [s|] eqn:K; [|split; [discriminate|intros (? & ? & ? & H & H' & _); congruence]].
  destruct (ser v) as [y|]; cbn; split; try discriminate.
  - intros H. injection H as <-. exists yk, s, y. auto.
  - intros (? & ? & ? & H1 & H2 & H3 & ->). congruence.
  - intros (? & ? & ? & _ & _ & H & _). discriminate.
Qed.
Lemma mrow_name n v e : mrow (SStr n, v) = Some e <-> name_fits n /\ exists y, ser v = Some y /\ e = (n, y).
Proof.
  rewrite mrow_iff. split.
  - intros (yk & s & y & K & T & V & ->). injection K as <-. apply text_key in T as [-> N]. split; [exact N|eauto].
  - intros (N & y & V & ->). exists (str_to_yaml n), n, y. split; [reflexivity|]. split; [now apply text_key|auto].
Qed.
Lemma mrow_names l es : opt_map mrow (map (fun kv => (SStr (fst kv), snd kv)) l) = Some es <-> opt_map srow l = Some es /\ Forall (fun e => name_fits (fst e)) es.
Proof.
  revert es. induction l as [|[n v] l IH]; intros es; cbn [map fst snd].
  - split; [intros H; injection H as <-; split; [reflexivity|constructor]|intros [H _]; exact H].
  - rewrite !opt_cons. split.
    + intros (y & zs & M & R & ->). apply mrow_name in M as (N & y' & S & ->). apply IH in R as [R F]. split.
      * exists (n, y'), zs. split; [apply srow_iff; eauto|auto].
      * now constructor.
    + intros [(y & zs & M & R & ->) F]. apply srow_iff in M as (y' & S & ->). inversion F; subst. exists (n, y'), zs.
      split; [apply mrow_name; eauto|]. split; [now apply IH|reflexivity].
Qed.

(** ---- the calls that make entries ---- *)

Fixpoint shape (how : place) (s : sval) (m : bool) (es : rows) : Prop :=
  match s with
  | SStruct l => m = false /\ opt_map srow l = Some es
  | SMap l => m = true /\ opt_map mrow l = Some es
  | SNewtype s => shape how s m es
  | SSome s => how = Flat /\ shape how s m es
  | SNone => how = Flat /\ m = true /\ es = []
  | SUnit => how <> Whole /\ m = true /\ es = []
  | SUnitV n => how <> Whole /\ m = true /\ name_fits n /\ es = [(n, Unquoted (lit "~"))]
  | SNewV n v => how <> Whole /\ m = true /\ name_fits n /\ exists y, ser v = Some y /\ es = [(n, y)]
  | STupV n l => how <> Whole /\ m = true /\ name_fits n /\ exists y, ser (STuple l) = Some y /\ es = [(n, y)]
  | SStructV n l => (how <> Whole /\ m = true /\ name_fits n /\ exists y, ser (SStruct l) = Some y /\ es = [(n, y)]) \/
                    (how = Whole /\ m = false /\ opt_map srow l = Some es)
  | _ => False
  end.
Lemma shape_ser : forall s m es, shape Whole s m es -> ser s = Some (Hash (map row es)).
Proof.
  fix IH 1. intros s m es H. destruct s; cbn [shape] in H; try contradiction; try (destruct H as [H _]; now destruct H); try discriminate (proj1 H).
  - exact (IH _ _ _ H).
  - destruct H as [_ H]. now rewrite ser_map, H.
  - destruct H as [_ H]. now rewrite ser_struct, H.
  - destruct H as [[H _]|(_ & _ & H)]; [now destruct H|]. change (option_map map_yaml_of (opt_map srow l) = Some (Hash (map row es))). now rewrite H.
Qed.
Lemma one_name n v es : opt_map mrow [(SStr n, v)] = Some es <-> name_fits n /\ exists y, ser v = Some y /\ es = [(n, y)].
Proof.
  rewrite opt_cons. split.
  - intros (e & zs & M & Z & ->). injection Z as <-. apply mrow_name in M as (N & y & S & ->). eauto.
  - intros (N & y & S & ->). exists (n, y), []. split; [apply mrow_name; eauto|]. now split.
Qed.
Lemma tag_rows tag n r es' : opt_map mrow ((SStr tag, SStr n) :: r) = Some es' <->
  name_fits tag /\ exists es, opt_map mrow r = Some es /\ es' = (tag, str_to_yaml n) :: es.
Proof.
  rewrite opt_cons. split.
  - intros (e & zs & M & Z & ->). apply mrow_name in M as (N & y & S & ->). injection S as <-. eauto.
  - intros (N & es & S & ->). exists (tag, str_to_yaml n), es. split; [apply mrow_name; split; [exact N|]; eexists; split; reflexivity|]. split; [exact S|reflexivity].
Qed.
Lemma tagged_shape how tag n m es' : forall s, (exists s', tagged tag n s = Some s' /\ shape how s' m es') <->
  exists es, es' = (tag, str_to_yaml n) :: es /\ shape Beside s m es /\ (m = true -> name_fits tag).
Proof.
  assert (NW : Beside <> Whole) by discriminate.
  assert (MAP : forall l Q, (forall es, Q es <-> m = true /\ opt_map mrow l = Some es) ->
    (exists s', Some (SMap ((SStr tag, SStr n) :: l)) = Some s' /\ shape how s' m es') <-> exists es, es' = (tag, str_to_yaml n) :: es /\ Q es /\ (m = true -> name_fits tag)).
  { intros l Q E. split.
    - intros (s' & H & S). injection H as <-. destruct S as [-> S]. apply tag_rows in S as (N & es & S & ->). exists es. split; [reflexivity|]. split; [now apply E|auto].
    - intros (es & -> & H & N). apply E in H as [-> H]. eexists. split; [reflexivity|]. split; [reflexivity|]. apply tag_rows. eauto. }
  intros s. induction s using sval_ind'; try clear H; cbn [tagged shape];
    try (split; [intros (? & H & _); discriminate|intros (? & _ & H & _); contradiction || discriminate (proj1 H)]).
  - apply MAP. intros es. split; [intros (_ & -> & ->); now split|intros (-> & H); injection H as <-; auto].
  - apply IHs.
  - apply MAP. reflexivity.
  - split.
    + intros (s' & H & S). injection H as <-. destruct S as [-> S]. apply opt_cons in S as (e & zs & M & Z & ->). apply srow_iff in M as (y & S & ->).
      injection S as <-. exists zs. split; [reflexivity|]. split; [now split|discriminate].
    + intros (es & -> & [-> H] & _). eexists. split; [reflexivity|]. split; [reflexivity|]. apply opt_cons. exists (tag, str_to_yaml n), es.
      split; [reflexivity|]. now split.
  - apply MAP. intros es. rewrite one_name. split; [intros (_ & -> & N & ->); split; [reflexivity|]; split; [exact N|]; eexists; split; reflexivity|].
    intros (-> & N & y & H & ->). injection H as <-. auto.
  - apply MAP. intros es. rewrite one_name. tauto.
  - apply MAP. intros es. rewrite one_name. tauto.
  - apply MAP. intros es. rewrite one_name. split; [intros [H|[H _]]; [tauto|discriminate]|]. intros H. left. tauto.
Qed.
Lemma flat_shape es : forall s, (exists l, flat_entries s = Some l /\ opt_map mrow l = Some es) <->
  exists m, shape Flat s m es /\ (m = false -> Forall (fun e => name_fits (fst e)) es).
Proof.
  assert (NW : Flat <> Whole) by discriminate.
  assert (MAP : forall l Q, (forall m, Q m <-> m = true /\ opt_map mrow l = Some es) ->
    (exists l', Some l = Some l' /\ opt_map mrow l' = Some es) <-> exists m, Q m /\ (m = false -> Forall (fun e => name_fits (fst e)) es)).
  { intros l Q E. split.
    - intros (l' & H & S). injection H as <-. exists true. split; [now apply E|discriminate].
    - intros (m & H & _). apply E in H as [_ H]. eauto. }
  intros s. induction s using sval_ind'; try clear H; cbn [flat_entries shape];
    try (split; [intros (? & H & _); discriminate|intros (? & H & _); contradiction || discriminate (proj1 H)]).
  - apply MAP. intros m. split; [intros (_ & -> & ->); now split|intros (-> & H); injection H as <-; auto].
  - rewrite IHs. split; intros (m & H & F); exists m; tauto.
  - apply MAP. intros m. split; [intros (_ & -> & ->); now split|intros (-> & H); injection H as <-; auto].
  - apply IHs.
  - apply MAP. reflexivity.
  - split.
    + intros (l' & H & S). injection H as <-. apply mrow_names in S as [S F]. exists false. auto.
    + intros (m & [-> H] & F). eexists. split; [reflexivity|]. apply mrow_names. auto.
  - apply MAP. intros m. rewrite one_name. split; [intros (_ & -> & N & ->); split; [reflexivity|]; split; [exact N|]; eexists; split; reflexivity|].
    intros (-> & N & y & H & ->). injection H as <-. auto.
  - apply MAP. intros m. rewrite one_name. tauto.
  - apply MAP. intros m. rewrite one_name. tauto.
  - apply MAP. intros m. rewrite one_name. split; [intros [H|[H _]]; [tauto|discriminate]|]. intros H. left. tauto.
Qed.

(** ---- variants ---- *)

Lemma variant_iff (F : str -> xvariant -> sval -> option sval) vs n v s :
  write_variant (map (fun x : str * xvariant => match x with (n, va) => (n, F n va) end) vs) n v = Some s <->
  exists va, variant vs n va /\ F n va v = Some s.
Proof.
  induction vs as [|[m vb] vs IH]; cbn [map write_variant].
  - split; [discriminate|]. intros (va & (pre & post & E & _) & _). destruct pre; discriminate.
  - destruct (seqb m n) eqn:B.
    + apply seqb_eq in B as ->. split.
      * intros H. exists vb. split; [|exact H]. exists [], vs. auto.
      * intros (va & (pre & post & E & N) & H). destruct pre as [|p pre]; [injection E as <- _; exact H|].
        injection E as <- _. destruct N. now left.
    + rewrite IH. split; intros (va & (pre & post & E & N) & H); exists va; (split; [|exact H]).
      * exists ((m, vb) :: pre), post. rewrite E. split; [reflexivity|]. intros [X|X]; [|contradiction]. cbn in X. subst. now rewrite seqb_refl in B.
      * destruct pre as [|p pre]; [injection E as -> _ _; now rewrite seqb_refl in B|]. injection E as _ E. exists pre, post. split; [exact E|].
        intros X. apply N. now right.
Qed.
Lemma list_cons w ws v vs s : write_list (w :: ws) (v :: vs) = Some s <-> exists x l, w v = Some x /\ write_list ws vs = Some l /\ s = x :: l.
Proof.
  cbn [write_list]. destruct (w v) as [x|]; [destruct (write_list ws vs) as [l|]|]; split; try discriminate; try (intros (? & ? & ? & ? & ?); discriminate).
  - intros H. injection H as <-. eauto.
  - intros (? & ? & E1 & E2 & ->). congruence.
Qed.
Lemma fields_cons n w ws m v vs s : write_fields ((n, w) :: ws) ((m, v) :: vs) = Some s <->
  n = m /\ exists x l, w v = Some x /\ write_fields ws vs = Some l /\ s = (n, x) :: l.
Proof.
  cbn [write_fields]. destruct (seqb n m) eqn:B; [apply seqb_eq in B as ->|split; [discriminate|intros [-> _]; now rewrite seqb_refl in B]].
  destruct (w v) as [x|]; [destruct (write_fields ws vs) as [l|]|]; split; try discriminate; try (intros (? & ? & ? & ? & ? & ?); discriminate).
  - intros H. injection H as <-. eauto 6.
  - intros (_ & ? & ? & E1 & E2 & ->). congruence.
Qed.
Lemma flat_cons n (fl : bool) w ws m v vs s : write_flat ((n, (fl, w)) :: ws) ((m, v) :: vs) = Some s <->
  n = m /\ exists x l, w v = Some x /\ write_flat ws vs = Some l /\
    if fl then exists es, flat_entries x = Some es /\ s = es ++ l else s = (SStr n, x) :: l.
Proof.
  cbn [write_flat]. destruct (seqb n m) eqn:B; [apply seqb_eq in B as ->|split; [discriminate|intros [-> _]; now rewrite seqb_refl in B]].
  destruct (w v) as [x|]; [destruct (write_flat ws vs) as [l|]|]; try (split; [discriminate|intros (_ & ? & ? & ? & ? & _); discriminate]).
  destruct fl; [destruct (flat_entries x) as [es|] eqn:F|]; (split; [try discriminate|]).
  - intros H. injection H as <-. split; [reflexivity|]. exists x, l. eauto 6.
  - intros (_ & ? & ? & E1 & E2 & es' & E3 & ->). congruence.
  - intros (_ & ? & ? & E1 & E2 & es' & E3 & ->). congruence.
  - intros H. injection H as <-. split; [reflexivity|]. exists x, l. auto.
  - intros (_ & ? & ? & E1 & E2 & ->). congruence.
Qed.
Lemma list_repeat t l : write_list (map emit (repeat t (length l))) l = opt_map (emit t) l.
Proof. induction l as [|v l IH]; [reflexivity|]. cbn [length repeat map write_list opt_map]. rewrite IH. destruct (emit t v); [|reflexivity]. now destruct (opt_map (emit t) l). Qed.
Lemma opt_app {A B} (f : A -> option B) a b ys : opt_map f (a ++ b) = Some ys <-> exists us vs, opt_map f a = Some us /\ opt_map f b = Some vs /\ ys = us ++ vs.
Proof.
  revert ys. induction a as [|x a IH]; intros ys; cbn [app].
  - split; [intros H; exists [], ys; auto|intros (us & vs & H & V & ->); injection H as <-; exact V].
  - rewrite opt_cons. split.
    + intros (y & zs & X & Z & ->). apply IH in Z as (us & vs & U & V & ->). exists (y :: us), vs. split; [apply opt_cons; eauto|auto].
    + intros (us & vs & U & V & ->). apply opt_cons in U as (y & zs & X & Z & ->). exists y, (zs ++ vs). split; [exact X|]. split; [apply IH; eauto|reflexivity].
Qed.

(** ---- keys ---- *)

Lemma ser_text s : forall ps, ser s = Some (DoubleQ ps) -> text_node (parse_double_quoted ps) (DoubleQ ps).
Proof.
  induction s using sval_ind'; try clear H; intros ps E; try discriminate E; try (now apply IHs).
  - injection E as E. pose proof (str_to_yaml_value [c]) as V. rewrite E in V. injection V as ->. apply text_iff. now symmetry.
  - injection E as E. pose proof (str_to_yaml_value s) as V. rewrite E in V. injection V as ->. apply text_iff. now symmetry.
  - cbn [ser] in E. destruct (opt_map ser l); discriminate.
  - cbn [ser] in E. destruct (opt_map ser l); discriminate.
  - rewrite ser_map in E. destruct (opt_map mrow l); discriminate.
  - rewrite ser_struct in E. destruct (opt_map srow l); discriminate.
  - injection E as E. pose proof (str_to_yaml_value n) as V. rewrite E in V. injection V as ->. apply text_iff. now symmetry.
  - cbn [ser] in E. destruct (opt_map ser l); discriminate.
  - change (option_map map_yaml_of (opt_map srow l) = Some (DoubleQ ps)) in E. destruct (opt_map srow l); discriminate.
Qed.
Lemma key_node k y s : ser k = Some y -> (yaml_to_key_string y = Some s <-> as_key y s).
Proof.
  intros E. unfold as_key. destruct y; cbn [yaml_to_key_string]; try (split; [discriminate|intros [H|(? & H & _)]; discriminate]).
  - split; [intros H; injection H as <-; right; eexists; split; [reflexivity|now apply (ser_text k)]|]. intros [H|(qs & H & T)]; [discriminate|].
    apply text_iff in T. pose proof (str_to_yaml_value s) as V. rewrite <- T in V. injection V as ->. reflexivity.
  - split; [intros H; injection H as <-; now left|]. intros [H|(ps & H & _)]; [congruence|discriminate].
Qed.

(** ---- soundness ---- *)

Definition emits (t : xty) (v : sval) (y : yaml) : Prop := exists s, emit t v = Some s /\ ser s = Some y.
Lemma omap {A B} (f : A -> B) x y : option_map f x = Some y <-> exists z, x = Some z /\ y = f z.
Proof. destruct x as [z|]; cbn; split; try discriminate; [intros H; injection H as <-; eauto|intros (? & H & ->); congruence|intros (? & H & _); discriminate]. Qed.
Lemma has_flat (fs : list (str * (bool * xty))) : existsb (fun f => fst (snd f)) fs = true <-> exists n t, In (n, (true, t)) fs.
Proof.
  rewrite existsb_exists. split.
  - intros ([n [fl t]] & I & E). cbn in E. subst. eauto.
  - intros (n & t & I). eexists. split; [exact I|reflexivity].
Qed.
Lemma no_flat (fs : list (str * (bool * xty))) : existsb (fun f => fst (snd f)) fs = false <-> forall n f t, In (n, (f, t)) fs -> f = false.
Proof.
  split.
  - intros E n f t I. destruct f; [|reflexivity]. rewrite (proj2 (has_flat fs)) in E by eauto. discriminate.
  - intros H. destruct (existsb _ fs) eqn:E; [|reflexivity]. apply has_flat in E as (n & t & I). now specialize (H _ _ _ I).
Qed.
Definition fld (f : str * xty) : str * (sval -> option sval) := match f with (n, t) => (n, emit t) end.
Definition ffl (f : str * (bool * xty)) : str * (bool * (sval -> option sval)) := match f with (n, (fl, t)) => (n, (fl, emit t)) end.
Definition ent (k w : xty) (kv : sval * sval) : option (sval * sval) :=
  match kv with (x, y) => match emit k x, emit w y with Some x, Some y => Some (x, y) | _, _ => None end end.
Lemma struct_emit fs l : emit (XStruct fs) (SStruct l) =
  if existsb (fun f => fst (snd f)) fs then option_map SMap (write_flat (map ffl fs) l)
  else option_map SStruct (write_fields (map fld (map (fun f => (fst f, snd (snd f))) fs)) l).
Proof.
  cbn [emit]. destruct (existsb _ fs); [reflexivity|]. rewrite !map_map. f_equal. f_equal. apply map_ext. now intros [n [fl t]].
Qed.
Lemma map_emit k w l : emit (XMap k w) (SMap l) = option_map SMap (opt_map (ent k w) l).
Proof. reflexivity. Qed.
Definition enum_f (n : str) (va : xvariant) (v : sval) : option sval :=
  match va, v with
  | XVUnit, SUnitV _ => Some (SUnitV n)
  | XVNew t, SNewV _ v => option_map (SNewV n) (emit t v)
  | XVTup ts, STupV _ l => option_map (STupV n) (write_list (map emit ts) l)
  | XVStruct fs, SStructV _ l => option_map (SStructV n) (write_fields (map fld fs) l)
  | _, _ => None
  end.
Definition untagged_f (n : str) (va : xvariant) (v : sval) : option sval :=
  match va, v with
  | XVUnit, SUnitV _ => Some SUnit
  | XVNew t, SNewV _ v => emit t v
  | XVTup ts, STupV _ l => option_map STuple (write_list (map emit ts) l)
  | XVStruct fs, SStructV _ l => option_map SStruct (write_fields (map fld fs) l)
  | _, _ => None
  end.
Definition tagged_f (tag n : str) (va : xvariant) (v : sval) : option sval :=
  match va, v with
  | XVUnit, SUnitV _ => Some (SStruct [(tag, SStr n)])
  | XVNew t, SNewV _ v => match emit t v with Some s => tagged tag n s | None => None end
  | XVStruct fs, SStructV _ l => option_map (fun l => SStruct ((tag, SStr n) :: l)) (write_fields (map fld fs) l)
  | _, _ => None
  end.
Lemma enum_emit vs v s : emit (XEnum vs) v = Some s <-> exists va, variant vs (variant_name v) va /\ enum_f (variant_name v) va v = Some s.
Proof. exact (variant_iff enum_f vs (variant_name v) v s). Qed.
Lemma untagged_emit vs v s : emit (XUntagged vs) v = Some s <-> exists va, variant vs (variant_name v) va /\ untagged_f (variant_name v) va v = Some s.
Proof. exact (variant_iff untagged_f vs (variant_name v) v s). Qed.
Lemma tagged_emit tag vs v s : emit (XTagged tag vs) v = Some s <-> exists va, variant vs (variant_name v) va /\ tagged_f tag (variant_name v) va v = Some s.
Proof. exact (variant_iff (tagged_f tag) vs (variant_name v) v s). Qed.
Lemma int_emit k k' z s : emit (XInt k) (SInt k' z) = Some s <-> k' = k /\ s = SInt k z.
Proof. destruct k, k'; cbn; split; try discriminate; try (intros H; injection H as <-; now split); try (intros [_ ->]; reflexivity); intros [H _]; discriminate H. Qed.

Lemma emit_sound :
  (forall t v y, node_for t v y -> emits t v y) /\
  (forall how t v m es, rows_for how t v m es -> exists s, emit t v = Some s /\ shape how s m es) /\
  (forall fs l es, fields_for fs l es -> exists l', write_fields (map fld fs) l = Some l' /\ opt_map srow l' = Some es) /\
  (forall fs l es, flat_for fs l es -> exists l', write_flat (map ffl fs) l = Some l' /\ opt_map mrow l' = Some es) /\
  (forall ts l ys, nodes_for ts l ys -> exists l', write_list (map emit ts) l = Some l' /\ opt_map ser l' = Some ys) /\
  (forall k w l es, entries_for k w l es -> exists l', opt_map (ent k w) l = Some l' /\ opt_map mrow l' = Some es).
Proof.
  apply emit_all; unfold emits.
  - intros b. eexists. split; [reflexivity|]. now destruct b.
  - intros k z s H. exists (SInt k z). split; [now apply int_emit|]. apply shortest_show in H as ->. reflexivity.
  - intros x. eexists. split; reflexivity.
  - intros c y T. eexists. split; [reflexivity|]. apply text_iff in T as ->. reflexivity.
  - intros s y T. eexists. split; [reflexivity|]. apply text_iff in T as ->. reflexivity.
  - eexists. split; reflexivity.
  - intros t. eexists. split; reflexivity.
  - intros t v y _ (s & E & S). exists (SSome s). split; [cbn [emit]; now rewrite E|exact S].
  - intros t v y _ (s & E & S). exists (SNewtype s). split; [cbn [emit]; now rewrite E|exact S].
  - intros t l ys _ (l' & W & S). rewrite list_repeat in W. exists (SSeq l'). cbn [emit ser]. rewrite W, S. split; [reflexivity|].
    cbn. unfold seq_yaml. reflexivity.
  - intros ts l ys _ (l' & W & S). exists (STuple l'). cbn [emit ser]. now rewrite W, S.
  - intros t v m es _ (s & E & S). exists s. split; [exact E|]. now apply (shape_ser _ m).
  - intros vs n y V T. exists (SUnitV n). split; [apply enum_emit; exists XVUnit; now split|]. apply text_iff in T as ->. reflexivity.
  - intros vs n t v y V _ (s & E & S). exists (SNewV n s). split; [apply enum_emit; exists (XVNew t); split; [exact V|cbn; now rewrite E]|exact S].
  - intros vs n ts l ys V _ (l' & W & S). exists (STupV n l'). split; [apply enum_emit; exists (XVTup ts); split; [exact V|cbn [enum_f variant_name]; now rewrite W]|]. cbn [ser]. now rewrite S.
  - intros vs n V. exists SUnit. split; [apply untagged_emit; exists XVUnit; now split|reflexivity].
  - intros vs n t v y V _ (s & E & S). exists s. split; [apply untagged_emit; exists (XVNew t); split; [exact V|exact E]|exact S].
  - intros vs n ts l ys V _ (l' & W & S). exists (STuple l'). split; [apply untagged_emit; exists (XVTup ts); split; [exact V|cbn [untagged_f variant_name]; now rewrite W]|]. cbn [ser]. now rewrite S.
  (* entries *)
  - intros how fs l es N _ (l' & W & S). exists (SStruct l'). split; [|now split]. rewrite struct_emit. apply no_flat in N. rewrite N, W. reflexivity.
  - intros how fs l es n t I _ (l' & W & S). exists (SMap l'). split; [|now split]. rewrite struct_emit. rewrite (proj2 (has_flat fs)) by eauto. now rewrite W.
  - intros how k w l es _ (l' & W & S). exists (SMap l'). split; [|now split]. rewrite map_emit. now rewrite W.
  - intros how t v m es _ (s & E & S). exists (SNewtype s). split; [cbn [emit]; now rewrite E|exact S].
  - intros how N. exists SUnit. now repeat split.
  - intros t. exists SNone. now repeat split.
  - intros t v m es _ (s & E & S). exists (SSome s). split; [cbn [emit]; now rewrite E|now split].
  - intros how vs n N V F. exists (SUnitV n). split; [apply enum_emit; exists XVUnit; now split|]. now repeat split.
  - intros how vs n t v y N V F _ (s & E & S). exists (SNewV n s). split; [apply enum_emit; exists (XVNew t); split; [exact V|cbn; now rewrite E]|]. repeat split; eauto.
  - intros how vs n ts l ys N V F _ (l' & W & S). exists (STupV n l'). split; [apply enum_emit; exists (XVTup ts); split; [exact V|cbn [enum_f variant_name]; now rewrite W]|].
    split; [exact N|]. split; [reflexivity|]. split; [exact F|]. exists (InlineArray ys). split; [|reflexivity]. cbn [ser]. now rewrite S.
  - intros how vs n fs l es N V F _ (l' & W & S). exists (SStructV n l'). split; [apply enum_emit; exists (XVStruct fs); split; [exact V|cbn [enum_f variant_name]; now rewrite W]|].
    left. split; [exact N|]. split; [reflexivity|]. split; [exact F|]. eexists. split; [|reflexivity]. rewrite ser_struct. now rewrite S.
  - intros vs n fs l es V _ (l' & W & S). exists (SStructV n l'). split; [apply enum_emit; exists (XVStruct fs); split; [exact V|cbn [enum_f variant_name]; now rewrite W]|].
    right. now repeat split.
  - intros how vs n N V. exists SUnit. split; [apply untagged_emit; exists XVUnit; now split|]. now repeat split.
  - intros how vs n t v m es V _ (s & E & S). exists s. split; [apply untagged_emit; exists (XVNew t); split; [exact V|exact E]|exact S].
  - intros how vs n fs l es V _ (l' & W & S). exists (SStruct l'). split; [apply untagged_emit; exists (XVStruct fs); split; [exact V|cbn [untagged_f variant_name]; now rewrite W]|]. now split.
  - intros how tag vs n y V T. apply text_iff in T as ->. exists (SStruct [(tag, SStr n)]). split; [apply tagged_emit; exists XVUnit; now split|]. now split.
  - intros how tag vs n t v m es y V T _ (s & E & S) N. apply text_iff in T as ->.
    destruct (proj2 (tagged_shape how tag n m ((tag, str_to_yaml n) :: es) s)) as (s' & E' & S'); [exists es; auto|].
    exists s'. split; [|exact S']. apply tagged_emit. exists (XVNew t). split; [exact V|]. cbn. now rewrite E.
  - intros how tag vs n fs l es y V T _ (l' & W & S). apply text_iff in T as ->. exists (SStruct ((tag, SStr n) :: l')).
    split; [apply tagged_emit; exists (XVStruct fs); split; [exact V|cbn [tagged_f variant_name]; now rewrite W]|]. split; [reflexivity|].
    apply opt_cons. exists (tag, str_to_yaml n), es. now repeat split.
  (* fields *)
  - exists []. now split.
  - intros n t v y fs l es _ (s & E & S) _ (l' & W & R). exists ((n, s) :: l'). split.
    + cbn [map fld]. apply fields_cons. split; [reflexivity|]. eauto.
    + apply opt_cons. exists (n, y), es. split; [apply srow_iff; eauto|now split].
  - exists []. now split.
  - intros n t v y fs l es _ (s & E & S) F _ (l' & W & R). exists ((SStr n, s) :: l'). split.
    + cbn [map ffl]. apply flat_cons. split; [reflexivity|]. eauto 6.
    + apply opt_cons. exists (n, y), es. split; [apply mrow_name; eauto|now split].
  - intros n t v m fs l es' es _ (s & E & S) F _ (l' & W & R).
    destruct (proj2 (flat_shape es' s)) as (l0 & E0 & R0); [eauto|]. exists (l0 ++ l'). split.
    + cbn [map ffl]. apply flat_cons. split; [reflexivity|]. eauto 8.
    + apply opt_app. eauto.
  - exists []. now split.
  - intros t v y ts l ys _ (s & E & S) _ (l' & W & R). exists (s :: l'). split; [cbn [map]; apply list_cons; eauto|apply opt_cons; eauto].
  - intros k w. exists []. now split.
  - intros k w x kx s v y l es _ (sk & Ek & Sk) K _ (sv & Ev & Sv) _ (l' & W & R). exists ((sk, sv) :: l'). split.
    + apply opt_cons. exists (sk, sv), l'. split; [cbn; now rewrite Ek, Ev|now split].
    + apply opt_cons. exists (s, y), es. split; [|now split]. apply mrow_iff. exists kx, s, y. split; [exact Sk|]. split; [now apply (key_node sk)|now split].
Qed.

(** ---- completeness ---- *)

Definition known (t : xty) : Prop := forall v s, emit t v = Some s ->
  (forall y, ser s = Some y -> node_for t v y) /\ (forall how m es, shape how s m es -> rows_for how t v m es).
Lemma known_list ts : Forall known ts -> forall l l' ys, write_list (map emit ts) l = Some l' -> opt_map ser l' = Some ys -> nodes_for ts l ys.
Proof.
  induction 1 as [|t ts K _ IH]; intros [|v l] l' ys W S; try discriminate W.
  - injection W as <-. injection S as <-. constructor.
  - cbn [map] in W. apply list_cons in W as (x & r & E & W & ->). apply opt_cons in S as (y & zs & Y & Z & ->). constructor; [now apply (K v x E)|eauto].
Qed.
Lemma known_fields fs : Forall (fun f => known (snd f)) fs -> forall l l' es, write_fields (map fld fs) l = Some l' -> opt_map srow l' = Some es -> fields_for fs l es.
Proof.
  induction 1 as [|[n t] fs K _ IH]; intros [|[m v] l] l' es W S; try discriminate W.
  - injection W as <-. injection S as <-. constructor.
  - cbn [map fld] in W. apply fields_cons in W as (<- & x & r & E & W & ->). apply opt_cons in S as (y & zs & Y & Z & ->).
    apply srow_iff in Y as (y' & Y & ->). constructor; [now apply (K v x E)|eauto].
Qed.
Lemma known_flat fs : Forall (fun f => known (snd (snd f))) fs -> forall l l' es, write_flat (map ffl fs) l = Some l' -> opt_map mrow l' = Some es -> flat_for fs l es.
Proof.
  induction 1 as [|[n [fl t]] fs K _ IH]; intros [|[m v] l] l' es W S; try discriminate W.
  - injection W as <-. injection S as <-. constructor.
  - cbn [map ffl] in W. apply flat_cons in W as (<- & x & r & E & W & H). destruct fl.
    + destruct H as (es' & F & ->). apply opt_app in S as (us & ws & U & V & ->).
      destruct (proj1 (flat_shape us x)) as (m & Sh & Fi); [eauto|]. eapply LFlat; [apply (K v x E); exact Sh|exact Fi|eauto].
    + subst l'. apply opt_cons in S as (y & zs & Y & Z & ->). apply mrow_name in Y as (N & y' & Y & ->). constructor; [now apply (K v x E)|exact N|eauto].
Qed.
Lemma ent_iff k w x v e : ent k w (x, v) = Some e <-> exists a b, emit k x = Some a /\ emit w v = Some b /\ e = (a, b).
Proof.
  unfold ent. destruct (emit k x) as [a|]; [destruct (emit w v) as [b|]|]; split; try discriminate; try (intros (? & ? & ? & ? & ?); discriminate).
  - intros H. injection H as <-. eauto.
  - intros (? & ? & E1 & E2 & ->). congruence.
Qed.
Lemma known_entries k w : known k -> known w -> forall l l' es, opt_map (ent k w) l = Some l' -> opt_map mrow l' = Some es -> entries_for k w l es.
Proof.
  intros K W. induction l as [|[x v] l IH]; intros l' es E S.
  - injection E as <-. injection S as <-. constructor.
  - apply opt_cons in E as (e & r & E & R & ->). apply ent_iff in E as (a & b & Ea & Eb & ->). apply opt_cons in S as (y & zs & Y & Z & ->).
    apply mrow_iff in Y as (yk & s & y' & Yk & Ks & Y & ->). econstructor; [apply (K x a Ea); exact Yk|apply (key_node a); [exact Yk|exact Ks]|now apply (W v b Eb)|eauto].
Qed.
Lemma variant_known vs n va : Forall (fun nv => xv_P known (snd nv)) vs -> variant vs n va -> xv_P known va.
Proof. intros F (pre & post & -> & _). apply Forall_app in F as [_ F]. now inversion F. Qed.
Lemma Forall_repeat t (P : xty -> Prop) k : P t -> Forall P (repeat t k).
Proof. intros H. induction k; constructor; auto. Qed.
Lemma struct_whole l y : ser (SStruct l) = Some y -> exists es, opt_map srow l = Some es /\ y = Hash (map row es).
Proof. rewrite ser_struct. intros H. apply omap in H as (es & H & ->). eauto. Qed.
Lemma map_whole l y : ser (SMap l) = Some y -> exists es, opt_map mrow l = Some es /\ y = Hash (map row es).
Proof. rewrite ser_map. intros H. apply omap in H as (es & H & ->). eauto. Qed.

Lemma emit_complete : forall t, known t.
Proof.
  induction t using xty_ind'; unfold known; intros x s E.
  - destruct x; try discriminate E. injection E as <-. split; [intros y H; injection H as <-; destruct b; [apply (NBool true)|apply (NBool false)]|intros ? ? ? []].
  - destruct x; try (destruct k; discriminate E). apply int_emit in E as [-> ->]. split; [|intros ? ? ? []]. intros y H. injection H as <-. constructor. now apply shortest_show.
  - destruct x; try discriminate E. injection E as <-. split; [intros y H; injection H as <-; constructor|intros ? ? ? []].
  - destruct x; try discriminate E. injection E as <-. split; [intros y H; injection H as <-; constructor; now apply text_iff|intros ? ? ? []].
  - destruct x; try discriminate E. injection E as <-. split; [intros y H; injection H as <-; constructor; now apply text_iff|intros ? ? ? []].
  - destruct x; try discriminate E. injection E as <-. split; [intros y H; injection H as <-; constructor|intros how m es (H & -> & ->); now constructor].
  - destruct x; try discriminate E.
    + injection E as <-. split; [intros y H; injection H as <-; constructor|intros how m es (-> & -> & ->); constructor].
    + cbn [emit] in E. apply omap in E as (z & E & ->). destruct (IHt _ _ E) as [K1 K2]. split; [intros y H; constructor; now apply K1|].
      intros how m es [-> H]. constructor. now apply K2.
  - destruct x; try discriminate E. cbn [emit] in E. apply omap in E as (z & E & ->). destruct (IHt _ _ E) as [K1 K2].
    split; [intros y H; constructor; now apply K1|intros how m es H; constructor; now apply K2].
  - destruct x; try discriminate E. cbn [emit] in E. apply omap in E as (z & E & ->). split; [|intros ? ? ? []].
    intros y H. cbn [ser] in H. apply omap in H as (ys & H & ->). apply (NSeq t l ys). rewrite <- list_repeat in E.
    eapply known_list; [now apply Forall_repeat|exact E|exact H].
  - destruct x; try discriminate E. cbn [emit] in E. apply omap in E as (z & E & ->). split; [|intros ? ? ? []].
    intros y Y. cbn [ser] in Y. apply omap in Y as (ys & Y & ->). constructor. eapply known_list; eauto.
  - destruct x; try discriminate E. rewrite map_emit in E. apply omap in E as (z & E & ->).
    assert (R : forall how es, opt_map mrow z = Some es -> rows_for how (XMap t1 t2) (SMap l) true es) by (intros how es S; constructor; eapply known_entries; eauto).
    split; [|intros how m es [-> S]; now apply R]. intros y Y. apply map_whole in Y as (es & Y & ->). eapply NRows; eauto.
  - destruct x; try discriminate E. rewrite struct_emit in E. destruct (existsb _ fs) eqn:B.
    + apply has_flat in B as (n & t & I). apply omap in E as (z & E & ->).
      assert (R : forall how es, opt_map mrow z = Some es -> rows_for how (XStruct fs) (SStruct l) true es) by (intros how es S; eapply WFlat; [exact I|eapply known_flat; eauto]).
      split; [|intros how m es [-> S]; now apply R]. intros y Y. apply map_whole in Y as (es & Y & ->). eapply NRows; eauto.
    + pose proof (proj1 (no_flat fs) B) as N. apply omap in E as (z & E & ->).
      assert (R : forall how es, opt_map srow z = Some es -> rows_for how (XStruct fs) (SStruct l) false es).
      { intros how es S. apply WFields; [exact N|]. eapply known_fields; [|exact E|exact S]. apply Forall_forall. intros f I. apply in_map_iff in I as (g & <- & I).
        rewrite Forall_forall in H. exact (H g I). }
      split; [|intros how m es [-> S]; now apply R]. intros y Y. apply struct_whole in Y as (es & Y & ->). eapply NRows; eauto.
  - apply enum_emit in E as (va & V & E). pose proof (variant_known _ _ _ H V) as K.
    destruct va, x; try discriminate E; cbn [enum_f variant_name] in *.
    + injection E as <-. split; [intros y Y; injection Y as <-; apply NUnitV; [exact V|now apply text_iff]|]. intros how m es (N & -> & F & ->). now apply WUnitV.
    + apply omap in E as (z & E & ->). destruct (K _ _ E) as [K1 K2]. split; [intros y Y; eapply NNewV; eauto|].
      intros how m es (N & -> & F & y & Y & ->). eapply WNewV; eauto.
    + apply omap in E as (z & E & ->). split.
      * intros y Y. cbn [ser] in Y. apply omap in Y as (ys & Y & ->). eapply NTupV; [exact V|eapply known_list; eauto].
      * intros how m es (N & -> & F & y & Y & ->). cbn [ser] in Y. apply omap in Y as (ys & Y & ->). eapply WTupV; eauto. eapply known_list; eauto.
    + apply omap in E as (z & E & ->).
      assert (R : forall es, opt_map srow z = Some es -> fields_for fs l es) by (intros es S; eapply known_fields; eauto).
      split.
      * intros y Y. apply struct_whole in Y as (es & Y & ->). apply (NRows _ _ false). eapply WStructW; eauto.
      * intros how m es [(N & -> & F & y & Y & ->)|(-> & -> & S)].
        -- apply struct_whole in Y as (es & Y & ->). eapply WStructV; eauto.
        -- eapply WStructW; eauto.
  - apply untagged_emit in E as (va & V & E). pose proof (variant_known _ _ _ H V) as K.
    destruct va, x; try discriminate E; cbn [untagged_f variant_name] in *.
    + injection E as <-. split; [intros y Y; injection Y as <-; now apply NUUnit|]. intros how m es (N & -> & ->). now apply WUUnit.
    + destruct (K _ _ E) as [K1 K2]. split; [intros y Y; eapply NUNew; eauto|]. intros how m es S. eapply WUNew; eauto.
    + apply omap in E as (z & E & ->). split; [|intros ? ? ? []].
      intros y Y. cbn [ser] in Y. apply omap in Y as (ys & Y & ->). eapply NUTup; [exact V|eapply known_list; eauto].
    + apply omap in E as (z & E & ->).
      assert (R : forall how es, opt_map srow z = Some es -> rows_for how (XUntagged vs) (SStructV name l) false es) by (intros how es S; eapply WUStruct; [exact V|]; eapply known_fields; eauto).
      split; [|intros how m es [-> S]; now apply R]. intros y Y. apply struct_whole in Y as (es & Y & ->). eapply NRows; eauto.
  - apply tagged_emit in E as (va & V & E). pose proof (variant_known _ _ _ H V) as K.
    destruct va, x; try discriminate E; cbn [tagged_f variant_name] in *.
    + injection E as <-.
      assert (R : forall how es, opt_map srow [(tag, SStr name)] = Some es -> rows_for how (XTagged tag vs) (SUnitV name) false es)
        by (intros how es S; injection S as <-; apply WTUnit; [exact V|now apply text_iff]).
      split; [|intros how m es [-> S]; now apply R]. intros y Y. apply struct_whole in Y as (es & Y & ->). eapply NRows; eauto.
    + destruct (emit t x) as [z|] eqn:E'; [|discriminate]. destruct (K _ _ E') as [K1 K2].
      assert (R : forall how m es, shape how s m es -> rows_for how (XTagged tag vs) (SNewV name x) m es).
      { intros how m es S. destruct (proj1 (tagged_shape how tag name m es z)) as (es0 & -> & S0 & N); [eauto|]. eapply WTNew; eauto. now apply text_iff. }
      split; [|exact R]. intros y Y.
      assert (T : (exists l, s = SStruct l) \/ exists l, s = SMap l).
      { clear - E. revert E. induction z using sval_ind'; cbn [tagged]; intros E; try discriminate E; try (injection E as <-; eauto); auto. }
      destruct T as [[l ->]|[l ->]]; [apply struct_whole in Y as (es & Y & ->); apply (NRows _ _ false)|apply map_whole in Y as (es & Y & ->); apply (NRows _ _ true)]; apply R; now split.
    + apply omap in E as (z & E & ->).
      assert (R : forall how es, opt_map srow ((tag, SStr name) :: z) = Some es -> rows_for how (XTagged tag vs) (SStructV name l) false es).
      { intros how es S. apply opt_cons in S as (e & zs & Y & Z & ->). injection Y as <-. eapply WTStruct; [exact V|now apply text_iff|]. eapply known_fields; eauto. }
      split; [|intros how m es [-> S]; now apply R]. intros y Y. apply struct_whole in Y as (es & Y & ->). eapply NRows; eauto.
Qed.

Theorem emit_exact t v y : (exists s, emit t v = Some s /\ ser s = Some y) <-> node_for t v y.
Proof. split; [intros (s & E & S); now apply (emit_complete t v s E)|apply emit_sound]. Qed.
Theorem node_unique t v y z : node_for t v y -> node_for t v z -> y = z.
Proof. intros (s & E & S)%emit_exact (s' & E' & S')%emit_exact. congruence. Qed.
Theorem tag_first tag vs v y : node_for (XTagged tag vs) v y -> exists m es, text_node (variant_name v) m /\ y = Hash (row (tag, m) :: map row es).
Proof.
  intros H. inversion H as [| | | | | | | | | | |? ? m es R| | | | | |]; subst.
  inversion R as [| | | | | | | | | | | | | | |? ? ? ? m' V T|? ? ? ? ? ? ? ? m' V T|? ? ? ? ? ? ? m' V T]; subst; cbn [variant_name]; exists m'; eexists; (split; [exact T|]);
    first [reflexivity|exact (eq_refl (Hash (map row [(tag, m')])))].
Qed.
