(** Types tell different nodes apart. *)
From Coq Require Import ZArith.
From Verif Require Import Base Ast Strings Format Num Pretty Ser De Spec_Strings StringsFacts Spec_Pretty PrettyFacts
  Spec_Serde SerdeFacts Spec_Look LookFacts LookFacts2.
Import ListNotations.

Section LooksInd.
  Context (P : looks -> Prop)
    (fW : forall s, P (LWord s)) (fT : forall s, P (LText s))
    (fM : forall l, Forall (fun kv => P (snd (snd kv))) l -> P (LMap l))
    (fS : forall l, Forall (fun v => P (snd v)) l -> P (LSeq l))
    (fR : forall n, P (LRef n)).
  Fixpoint looks_ind' (l : looks) : P l.
  Proof.
    destruct l as [s|s|l|l|n].
    - apply fW.
    - apply fT.
    - apply fM. induction l as [|[k [al v]] l IH]; constructor; [apply looks_ind'|exact IH].
    - apply fS. induction l as [|[al v] l IH]; constructor; [apply looks_ind'|exact IH].
    - apply fR.
  Qed.
End LooksInd.

Notation lk := (look typed_word).
Definition val {A} (r : dres A) : option A := option_map fst r.
Definition apart (t : ty) (y z : yaml) : Prop := forall a b, val (de t y a) <> val (de t z b).

Lemma simple_resolved y a : simple (lk y) -> into_resolved y a = Some y.
Proof. destruct y; try reflexivity. intros []. Qed.

Lemma seq_unit y a : simple (lk y) -> val (de (TSeq TUnit) y a) =
  option_map (fun l => SSeq (map (fun _ => SUnit) l)) (seq_items y).
Proof.
  intros S. cbn [de]. rewrite de_seq_eq, (simple_resolved y a S). unfold read_seq.
  destruct (seq_items y) as [l|]; [|reflexivity].
  assert (G : forall (l : list yaml) a, de_elems (de TUnit) l a = Some (map (fun _ => SUnit) l, a)).
  { clear. induction l as [|x l IH]; intros a; [reflexivity|]. cbn. now rewrite IH. }
  rewrite G. cbn. now rewrite map_map.
Qed.
Lemma map_unit y a : simple (lk y) -> val (de (TMap TStr TUnit) y a) =
  option_map (fun l => SMap (map (fun e => (SStr (he_key e), SUnit)) l)) (map_items y).
Proof.
  intros S. cbn [de]. rewrite de_map_eq, (simple_resolved y a S). unfold read_map.
  destruct (map_items y) as [l|]; [|reflexivity].
  assert (G : forall (l : list (str * yaml)) a,
            de_entries (de TStr) (de TUnit) l a = Some (map (fun p => (SStr (fst p), SUnit)) l, a)).
  { clear. induction l as [|[k x] l IH]; intros a; [reflexivity|].
    change (match de_entries (de TStr) (de TUnit) l a with Some (vs, a3) => Some ((SStr k, SUnit) :: vs, a3) | None => None end
            = Some (map (fun p => (SStr (fst p), SUnit)) ((k, x) :: l), a)).
    now rewrite IH. }
  cbn [de] in G |- *. rewrite G. cbn. now rewrite map_map.
Qed.
Lemma str_read y a : simple (lk y) -> val (de TStr y a) = option_map SStr (yaml_to_string y).
Proof.
  intros S. cbn [de]. unfold de_text. rewrite (simple_resolved y a S). now destruct (yaml_to_string y).
Qed.

(** The element at a position. *)
Lemma tuple_units n t ys y zs a : length ys = n ->
  exists a', val (de_tuple (map de (repeat TUnit n ++ [t])) (ys ++ y :: zs) a) =
             option_map (fun v => repeat SUnit n ++ [v]) (val (de t y a')).
Proof.
  revert ys a. induction n as [|n IH]; intros [|x ys] a E; try discriminate.
  - exists a. cbn. destruct (de t y a) as [[v a1]|]; reflexivity.
  - destruct (IH ys a) as [a' H]; [now injection E|]. exists a'. cbn.
    destruct (de_tuple (map de (repeat TUnit n ++ [t])) (ys ++ y :: zs) a) as [[vs a2]|]; cbn in H |- *;
      destruct (de t y a') as [[v a3]|]; cbn in H |- *; congruence.
Qed.

(** The entry with a key. *)
Lemma one_field k t es y fs a : ~ In k (map fst es) -> ~ In k (map fst fs) ->
  exists a', val (de_fields [mkF k (de t) (is_option t) None] (es ++ (k, y) :: fs) a) =
             option_map (fun v => [mkF k (de t) (is_option t) (Some v)]) (val (de t y a')).
Proof.
  intros N1 N2. revert a. induction es as [|[m x] es IH]; intros a; cbn [app de_fields de_field f_name].
  - rewrite seqb_refl. cbn [f_val f_de]. exists a. destruct (de t y a) as [[v a1]|]; [|reflexivity].
    cbn [val option_map fst].
    assert (G : forall fs a f, ~ In k (map fst fs) -> f_name f = k -> val (de_fields [f] fs a) = Some [f]).
    { clear. induction fs as [|[m x] fs IH]; intros a f N E; [reflexivity|]. cbn [de_fields de_field].
      destruct (seqb (f_name f) m) eqn:Q; [exfalso; apply N; left; apply seqb_eq in Q; cbn; congruence|].
      apply IH; [|exact E]. intros H. apply N. now right. }
    now rewrite G.
  - destruct (seqb k m) eqn:Q; [exfalso; apply N1; left; apply seqb_eq in Q; cbn; congruence|].
    apply IH. intros H. apply N1. now right.
Qed.

Lemma val_some {A} (r : dres A) : val r = match r with Some (x, _) => Some x | None => None end.
Proof. now destruct r as [[]|]. Qed.

(** Tuples and structs tell elements apart. *)
Lemma seq_apart y z ls xs ms l' x' m' t :
  simple (lk y) -> simple (lk z) ->
  seq_items y = Some (ls ++ xs :: ms) -> seq_items z = Some (l' ++ x' :: m') -> length ls = length l' ->
  apart t (a_value xs) (a_value x') -> apart (TTuple (repeat TUnit (length ls) ++ [t])) y z.
Proof.
  intros Sy Sz Ey Ez L A a b. cbn [de]. rewrite !de_seq_eq, !simple_resolved by assumption. unfold read_seq. rewrite Ey, Ez.
  rewrite !map_app. cbn [map].
  destruct (tuple_units (length ls) t (map a_value ls) (a_value xs) (map a_value ms) (fold_left register (ls ++ xs :: ms) a)) as [a1 H1];
    [now rewrite map_length|].
  destruct (tuple_units (length ls) t (map a_value l') (a_value x') (map a_value m') (fold_left register (l' ++ x' :: m') b)) as [b1 H2];
    [now rewrite map_length|].
  specialize (A a1 b1). rewrite map_app in H1, H2. cbn [map] in H1, H2.
  destruct (de_tuple _ _ (fold_left register (ls ++ xs :: ms) a)) as [[v1 c1]|];
    destruct (de_tuple _ _ (fold_left register (l' ++ x' :: m') b)) as [[v2 c2]|]; cbn [val option_map fst] in H1, H2 |- *;
    destruct (de t (a_value xs) a1) as [[w1 d1]|], (de t (a_value x') b1) as [[w2 d2]|]; cbn in H1, H2, A |- *; try congruence.
  injection H1 as ->. injection H2 as ->. intros E. injection E as E. apply app_inv_head in E. congruence.
Qed.

Lemma map_apart y z ls e ms l' e' m' t :
  simple (lk y) -> simple (lk z) ->
  map_items y = Some (ls ++ e :: ms) -> map_items z = Some (l' ++ e' :: m') -> he_key e = he_key e' ->
  NoDup (map he_key (ls ++ e :: ms)) -> NoDup (map he_key (l' ++ e' :: m')) ->
  apart t (a_value (he_value e)) (a_value (he_value e')) -> apart (TStruct [(he_key e, t)]) y z.
Proof.
  intros Sy Sz Ey Ez K Ny Nz A a b.
  assert (G : forall y ls e ms a, simple (lk y) -> map_items y = Some (ls ++ e :: ms) -> NoDup (map he_key (ls ++ e :: ms)) ->
    exists a1, val (de (TStruct [(he_key e, t)]) y a) =
               option_map (fun v => SStruct [(he_key e, v)]) (val (de t (a_value (he_value e)) a1))).
  { clear. intros y ls e ms a S E N. cbn [de map]. unfold de_struct. rewrite de_map_eq, simple_resolved by assumption.
    unfold read_map. rewrite E. rewrite (map_app (fun e : hash_element => _)). cbn [map].
    set (a0 := fold_left _ _ a). rewrite map_app in N. cbn [map] in N.
    assert (N1 := NoDup_remove_2 _ _ _ N). rewrite in_app_iff in N1.
    destruct (one_field (he_key e) t (map (fun e => (he_key e, a_value (he_value e))) ls) (a_value (he_value e))
                (map (fun e => (he_key e, a_value (he_value e))) ms) a0) as [a1 H].
    - rewrite map_map. cbn. tauto.
    - rewrite map_map. cbn. tauto.
    - exists a1. destruct (de_fields _ _ a0) as [[fs c]|]; cbn in H |- *;
        destruct (de t _ a1) as [[v d]|]; cbn in H |- *; try congruence. injection H as ->. reflexivity. }
  destruct (G y ls e ms a Sy Ey Ny) as [a1 H1]. destruct (G z l' e' m' b Sz Ez Nz) as [b1 H2]. rewrite <- K in H2.
  specialize (A a1 b1). rewrite H1, H2.
  destruct (de t _ a1) as [[w1 d1]|], (de t _ b1) as [[w2 d2]|]; cbn in A |- *; congruence.
Qed.

(** ---- finding the type ---- *)

Definition same_or_apart (y : yaml) : Prop :=
  simple (lk y) -> forall z, simple (lk z) -> lk y = lk z \/ exists t, apart t y z.

Lemma apart_sym t y z : apart t y z -> apart t z y.
Proof. intros A a b E. exact (A b a (eq_sym E)). Qed.

Lemma word_apart s z : typed_word s = true -> lk z = LText s -> exists t, apart t (Unquoted s) z.
Proof.
  intros W E.
  assert (Nz : forall t, z = Unquoted t -> False).
  { intros t ->. cbn [look] in E. destruct (typed_word t) eqn:T; [discriminate|]. congruence. }
  assert (Sz : simple (lk z)) by (rewrite E; exact I).
  assert (D : is_null_word s = true \/ exists v, forall a, de TBool (Unquoted s) a = Some (v, a)).
  { apply in_words in W. cbn [map In] in W.
    repeat (destruct W as [<-|W]; [solve [left; reflexivity|right; eexists; intros a; reflexivity]|]). destruct W. }
  destruct D as [D|[v D]].
  - exists (TOption TStr). intros a b. cbn [de into_resolved]. rewrite D. rewrite (simple_resolved z b Sz).
    assert (T : yaml_to_string z = Some s) by (rewrite (look_text typed_word), E; reflexivity).
    destruct z; try discriminate; try (now elim (Nz s0)); cbn in T |- *; discriminate.
  - exists TBool. intros a b. rewrite D. cbn [de]. unfold de_bool. rewrite (simple_resolved z b Sz).
    destruct z; try (cbn; discriminate). now elim (Nz s0).
Qed.

Lemma kinds y z : simple (lk y) -> simple (lk z) ->
  match lk y, lk z with
  | (LWord s | LText s), (LWord t | LText t) => s = t
  | LMap _, LMap _ | LSeq _, LSeq _ => True
  | _, _ => False
  end \/ exists t, apart t y z.
Proof.
  intros Sy Sz.
  assert (Q : forall y z, simple (lk y) -> simple (lk z) -> forall l, lk y = LSeq l -> (forall m, lk z <> LSeq m) -> exists t, apart t y z).
  { clear. intros y z Sy Sz l E N. exists (TSeq TUnit). intros a b. rewrite !seq_unit by assumption.
    apply look_seq_inv in E as [m ->]. destruct (seq_items z) eqn:F; [|discriminate]. apply (look_seq typed_word) in F. now elim (N _ F). }
  assert (M : forall y z, simple (lk y) -> simple (lk z) -> forall l, lk y = LMap l -> (forall m, lk z <> LMap m) -> exists t, apart t y z).
  { clear. intros y z Sy Sz l E N. exists (TMap TStr TUnit). intros a b. rewrite !map_unit by assumption.
    apply look_map_inv in E as [m ->]. destruct (map_items z) eqn:F; [|discriminate]. apply (look_map typed_word) in F. now elim (N _ F). }
  assert (T : forall s t, text_of (lk y) = Some s -> text_of (lk z) = Some t -> s = t \/ exists t, apart t y z).
  { intros s t E F. destruct (seqb s t) eqn:B; [left; now apply seqb_eq|]. right. exists TStr. intros a b.
    rewrite !str_read by assumption. rewrite !(look_text typed_word), E, F. cbn. apply seqb_neq in B. congruence. }
  assert (SW : (exists t, apart t z y) -> exists t, apart t y z).
  { intros [t A]. exists t. now apply apart_sym. }
  destruct (lk y) eqn:Ly, (lk z) eqn:Lz; try contradiction; try (now left);
    try (apply (T s s0); reflexivity); right;
    first [ eapply (Q y z); [rewrite Ly; exact Sy|rewrite Lz; exact Sz|exact Ly|intros ? X; rewrite Lz in X; discriminate]
          | eapply (M y z); [rewrite Ly; exact Sy|rewrite Lz; exact Sz|exact Ly|intros ? X; rewrite Lz in X; discriminate]
          | apply SW; first
            [ eapply (Q z y); [rewrite Lz; exact Sz|rewrite Ly; exact Sy|exact Lz|intros ? X; rewrite Ly in X; discriminate]
            | eapply (M z y); [rewrite Lz; exact Sz|rewrite Ly; exact Sy|exact Lz|intros ? X; rewrite Ly in X; discriminate] ] ].
Qed.

Lemma tell_apart y : forall z, simple (lk y) -> simple (lk z) -> lk y = lk z \/ exists t, apart t y z.
Proof.
  remember (lk y) as L eqn:EL. revert y EL.
  induction L as [s|s|l IH|l IH|n] using looks_ind'; intros y EL z Sy Sz.
  - assert (Sy' : simple (lk y)) by (rewrite <- EL; exact Sy).
    destruct (kinds y z Sy' Sz) as [K|K]; [|now right]. rewrite <- EL in K.
    destruct (lk z) as [t|t|m|m|m] eqn:Ez; try contradiction; subst t; [now left|]. right.
    assert (Ey : y = Unquoted s /\ typed_word s = true).
    { destruct y; try discriminate. cbn [look] in EL. destruct (typed_word s0) eqn:W; [|discriminate]. injection EL as ->. now split. }
    destruct Ey as [-> W]. now apply word_apart.
  - assert (Sy' : simple (lk y)) by (rewrite <- EL; exact Sy).
    destruct (kinds y z Sy' Sz) as [K|K]; [|now right]. rewrite <- EL in K.
    destruct (lk z) as [t|t|m|m|m] eqn:Ez; try contradiction; subst t; [|now left]. right.
    assert (E : z = Unquoted s /\ typed_word s = true).
    { destruct z; try discriminate. cbn [look] in Ez. destruct (typed_word s0) eqn:W; [|discriminate]. injection Ez as ->. now split. }
    destruct E as [-> W]. destruct (word_apart s y W (eq_sym EL)) as [t A]. exists t. now apply apart_sym.
  - assert (Sy' : simple (lk y)) by (rewrite <- EL; exact Sy).
    destruct (kinds y z Sy' Sz) as [K|K]; [|now right]. rewrite <- EL in K.
    destruct (lk z) as [t|t|m|m|m] eqn:Ez; try contradiction. clear K.
    destruct (look_map_inv _ _ _ (eq_sym EL)) as [ys Ey]. destruct (look_map_inv _ _ _ Ez) as [zs Fz].
    pose proof (look_map typed_word _ _ Ey) as LY. pose proof (look_map typed_word _ _ Fz) as LZ.
    rewrite <- EL in LY. rewrite Ez in LZ. injection LY as ->. injection LZ as ->.
    destruct (list_eq_dec (list_eq_dec N.eq_dec) (map he_key ys) (map he_key zs)) as [K|K].
    2:{ right. exists (TMap TStr TUnit). intros a b. rewrite !map_unit by (assumption || (rewrite Ez; exact Sz)). rewrite Ey, Fz. cbn.
        intros X. injection X as X. apply K. clear - X. revert zs X.
        induction ys as [|e ys IH]; intros [|f zs] X; try discriminate; [reflexivity|]. cbn in X |- *. injection X as -> X. f_equal. now apply IH. }
    assert (Fst : forall l, map fst (map (hlook typed_word) l) = map he_key l).
    { intros l. rewrite map_map. reflexivity. }
    destruct Sy as [Ny Sy], Sz as [Nz Sz]. rewrite Fst in Ny, Nz.
    assert (G : forall ls ys l' zs, Forall (fun kv => forall y, snd (snd kv) = lk y -> forall z, simple (snd (snd kv)) -> simple (lk z) ->
                  snd (snd kv) = lk z \/ exists t, apart t y z) (map (hlook typed_word) ys) ->
              map he_key ys = map he_key zs ->
              map_items y = Some (ls ++ ys) -> map_items z = Some (l' ++ zs) ->
              NoDup (map he_key (ls ++ ys)) -> NoDup (map he_key (l' ++ zs)) ->
              fold_right (fun kv P => (match kv with (_, (al, v)) => al = None /\ simple v end) /\ P) True (map (hlook typed_word) ys) ->
              fold_right (fun kv P => (match kv with (_, (al, v)) => al = None /\ simple v end) /\ P) True (map (hlook typed_word) zs) ->
              map (hlook typed_word) ys = map (hlook typed_word) zs \/ exists t, apart t y z).
    { assert (Sz' : simple (lk z)) by (rewrite Ez; split; [now rewrite Fst|exact Sz]).
      clear - Sy' Sz'. intros ls ys. revert ls. induction ys as [|e ys IHy]; intros ls l' zs IH K Ey Fz Ny Nz Sy Sz.
      - left. destruct zs; [reflexivity|discriminate].
      - destruct zs as [|f zs]; [discriminate|]. cbn in K. injection K as K1 K2.
        cbn [map] in IH. inversion IH as [|? ? H1 H2]; subst. clear IH.
        destruct e as [k [al v]], f as [k' [al' v']]. cbn in K1. subst k'. cbn in Sy, Sz.
        destruct Sy as [[-> Sv] Sy], Sz as [[-> Sv'] Sz].
        destruct (H1 v eq_refl v' Sv Sv') as [E|[t A]].
        + destruct (IHy (ls ++ [mkHE k (mkA None v)]) (l' ++ [mkHE k (mkA None v')]) zs) as [E2|E2]; try assumption;
            rewrite <- ?app_assoc; try assumption; [|now right].
          left. cbn in E |- *. unfold hlook at 1 3, alook. cbn. now rewrite E, E2.
        + right. exists (TStruct [(k, t)]).
          apply (map_apart y z ls (mkHE k (mkA None v)) ys l' (mkHE k (mkA None v')) zs t Sy' Sz' Ey Fz eq_refl Ny Nz A). }
    destruct (G [] ys [] zs IH K Ey Fz Ny Nz Sy Sz) as [E|E]; [|now right]. left. now rewrite E.
  - assert (Sy' : simple (lk y)) by (rewrite <- EL; exact Sy).
    destruct (kinds y z Sy' Sz) as [K|K]; [|now right]. rewrite <- EL in K.
    destruct (lk z) as [t|t|m|m|m] eqn:Ez; try contradiction. clear K.
    destruct (look_seq_inv _ _ _ (eq_sym EL)) as [ys Ey]. destruct (look_seq_inv _ _ _ Ez) as [zs Fz].
    pose proof (look_seq typed_word _ _ Ey) as LY. pose proof (look_seq typed_word _ _ Fz) as LZ.
    rewrite <- EL in LY. rewrite Ez in LZ. injection LY as ->. injection LZ as ->.
    destruct (Nat.eq_dec (length ys) (length zs)) as [K|K].
    2:{ right. exists (TSeq TUnit). intros a b. rewrite !seq_unit by (assumption || (rewrite Ez; exact Sz)). rewrite Ey, Fz. cbn.
        intros X. injection X as X. apply K. apply (f_equal (@length _)) in X. now rewrite !map_length in X. }
    assert (G : forall ls ys l' zs, Forall (fun v => forall y, snd v = lk y -> forall z, simple (snd v) -> simple (lk z) ->
                  snd v = lk z \/ exists t, apart t y z) (map (alook typed_word) ys) ->
              length ys = length zs -> length ls = length l' ->
              seq_items y = Some (ls ++ ys) -> seq_items z = Some (l' ++ zs) ->
              fold_right (fun v P => (match v with (al, v) => al = None /\ simple v end) /\ P) True (map (alook typed_word) ys) ->
              fold_right (fun v P => (match v with (al, v) => al = None /\ simple v end) /\ P) True (map (alook typed_word) zs) ->
              map (alook typed_word) ys = map (alook typed_word) zs \/ exists t, apart t y z).
    { assert (Sz' : simple (lk z)) by (rewrite Ez; exact Sz).
      clear - Sy' Sz'. intros ls ys. revert ls. induction ys as [|e ys IHy]; intros ls l' zs IH K L Ey Fz Sy Sz.
      - left. destruct zs; [reflexivity|discriminate].
      - destruct zs as [|f zs]; [discriminate|]. cbn in K. injection K as K.
        cbn [map] in IH. inversion IH as [|? ? H1 H2]; subst. clear IH.
        destruct e as [al v], f as [al' v']. cbn in Sy, Sz.
        destruct Sy as [[-> Sv] Sy], Sz as [[-> Sv'] Sz].
        destruct (H1 v eq_refl v' Sv Sv') as [E|[t A]].
        + destruct (IHy (ls ++ [mkA None v]) (l' ++ [mkA None v']) zs) as [E2|E2]; try assumption;
            rewrite <- ?app_assoc; try assumption; [rewrite !app_length; cbn; lia| |now right].
          left. cbn in E |- *. unfold alook at 1 3. cbn. now rewrite E, E2.
        + right. exists (TTuple (repeat TUnit (length ls) ++ [t])).
          apply (seq_apart y z ls (mkA None v) ys l' (mkA None v') zs t Sy' Sz' Ey Fz L A). }
    destruct (G [] ys [] zs IH K eq_refl Ey Fz Sy Sz) as [E|E]; [|now right]. left. now rewrite E.
  - destruct Sy.
Qed.

Lemma full_abstraction y z : simple (look typed_word y) -> simple (look typed_word z) ->
  ((forall t, from_yaml t y = from_yaml t z) <-> look typed_word y = look typed_word z).
Proof.
  intros Sy Sz. split.
  - intros H. destruct (tell_apart y z Sy Sz) as [E|[t A]]; [exact E|]. exfalso. exact (A [] [] (H t)).
  - intros E t. now apply from_yaml_look.
Qed.

(** ---- files ---- *)
From Verif Require Import Peg YamlGrammar Consume FromStr Spec_Parse Spec_Format Spec_Stable StableFacts Spec_Polish PolishFacts.

Lemma first_pretty l : first_yaml (map pretty_docdata l) = option_map pretty (first_yaml l).
Proof. induction l as [|[c|y] l IH]; cbn; auto. Qed.
Lemma first_in l y : first_yaml l = Some y -> In (DYaml y) l.
Proof. induction l as [|[c|z] l IH]; cbn; intros E; [discriminate|right; auto|left; congruence]. Qed.

Lemma read_pretty_file ut t s d : parse_yaml ut s = CVal d -> calm_doc ut d -> polish_doc ut d ->
  doc_all (no_quoted typed_loose) d ->
  from_yaml_str ut t (format_doc (pretty_doc d)) = from_yaml_str ut t s.
Proof.
  intros E C P Q. pose proof (calm_canon ut s d E C) as K. destruct (doc_side ut d K P) as (H1 & H2 & H3).
  unfold from_yaml_str. rewrite (pretty_parse ut d K P), E. unfold pretty_doc. cbn [items]. rewrite first_pretty.
  destruct (first_yaml (items d)) as [y|] eqn:F; [|reflexivity]. apply first_in in F. cbn [option_map].
  rewrite typed_pretty; [reflexivity|now apply H1|now apply H3|now apply Q].
Qed.

Lemma read_format_file ut t s d : parse_yaml ut s = CVal d -> calm_doc ut d ->
  from_yaml_str ut t (format_doc d) = from_yaml_str ut t s.
Proof.
  intros E C. unfold from_yaml_str. now rewrite (calm_stable ut s d E C), E.
Qed.
