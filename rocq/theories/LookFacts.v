(** Deserialization depends only on [look]. *)
From Coq Require Import ZArith.
From Verif Require Import Base Ast Strings Format Num Pretty Ser De Spec_Pretty Spec_Serde Spec_Look.
Import ListNotations.

(** ---- induction over types ---- *)

Definition va_P (P : ty -> Prop) (v : variant) : Prop :=
  match v with
  | VaUnit => True
  | VaNew t => P t
  | VaTup ts => Forall P ts
  | VaStruct fs => Forall (fun nt => P (snd nt)) fs
  end.

Section TyInd.
  Context (P : ty -> Prop)
  (fBool : P TBool) (fInt : forall k, P (TInt k)) (fFloat : P TFloat) (fChar : P TChar)
  (fStr : P TStr) (fBytes : P TBytes)
  (fOption : forall t, P t -> P (TOption t))
  (fUnit : P TUnit) (fUnitS : P TUnitStruct)
  (fNew : forall t, P t -> P (TNewtype t))
  (fSeq : forall t, P t -> P (TSeq t))
  (fTuple : forall ts, Forall P ts -> P (TTuple ts))
  (fMap : forall k v, P k -> P v -> P (TMap k v))
  (fStruct : forall fs, Forall (fun nt => P (snd nt)) fs -> P (TStruct fs))
  (fEnum : forall vs, Forall (fun nv => va_P P (snd nv)) vs -> P (TEnum vs)).
  Fixpoint ty_ind' (t : ty) : P t.
  Proof.
    destruct t.
    - exact fBool.
    - apply fInt.
    - exact fFloat.
    - exact fChar.
    - exact fStr.
    - exact fBytes.
    - apply fOption, ty_ind'.
    - exact fUnit.
    - exact fUnitS.
    - apply fNew, ty_ind'.
    - apply fSeq, ty_ind'.
    - apply fTuple. induction ts as [|t ts IH]; constructor; [apply ty_ind'|exact IH].
    - apply fMap; apply ty_ind'.
    - apply fStruct. induction fs as [|[n t] fs IH]; constructor; [apply ty_ind'|exact IH].
    - apply fEnum. induction vs as [|[n v] vs IH]; constructor; [|exact IH]. cbn.
      destruct v as [|t|ts|fs]; cbn; [exact I|apply ty_ind'| |].
      + induction ts as [|t ts IHt]; constructor; [apply ty_ind'|exact IHt].
      + induction fs as [|[m t] fs IHf]; constructor; [apply ty_ind'|exact IHf].
  Qed.
End TyInd.

(** ---- relations ---- *)

Section Rel.
  Context (word : str -> bool).
  Notation lk := (look word).
  Definition yrel (y1 y2 : yaml) : Prop := lk y1 = lk y2.
  Definition erel (p q : str * yaml) : Prop := fst p = fst q /\ yrel (snd p) (snd q).
  Definition arel (a b : anchors) : Prop := Forall2 erel a b.
  Definition drel {A} (R : A -> A -> Prop) (r s : dres A) : Prop :=
    match r, s with
    | None, None => True
    | Some (x, a), Some (y, b) => R x y /\ arel a b
    | _, _ => False
    end.
  Definition ok (d : decoder) : Prop :=
    forall y1 y2 a1 a2, yrel y1 y2 -> arel a1 a2 -> drel eq (d y1 a1) (d y2 a2).

  Lemma arel_resolve a b n : arel a b ->
    match resolve a n, resolve b n with
    | None, None => True | Some x, Some y => yrel x y | _, _ => False end.
  Proof.
    intros H. induction H as [|[m x] [m' x'] a b [E R] H IH]; cbn; [exact I|]. cbn in E, R. subst m'.
    destruct (seqb m n); [exact R|exact IH].
  Qed.
  Lemma arel_register a b x y : arel a b -> a_alias x = a_alias y -> yrel (a_value x) (a_value y) ->
    arel (register a x) (register b y).
  Proof.
    intros H E R. unfold register. rewrite E. destruct (a_alias y); [|exact H].
    constructor; [split; [reflexivity|exact R]|exact H].
  Qed.

  Lemma look_word s : lk (Unquoted s) = LWord s \/ lk (Unquoted s) = LText s.
  Proof. cbn. destruct (word s); auto. Qed.

  Lemma unquoted_map s l : lk (Unquoted s) = LMap l -> False.
  Proof. cbn. destruct (word s); discriminate. Qed.
  Lemma unquoted_seq s l : lk (Unquoted s) = LSeq l -> False.
  Proof. cbn. destruct (word s); discriminate. Qed.
  Lemma unquoted_ref s n : lk (Unquoted s) = LRef n -> False.
  Proof. cbn. destruct (word s); discriminate. Qed.

  (** Sequences and mappings as lists of aliased values. *)
  Definition seq_items (y : yaml) : option (list aliased) :=
    match y with
    | Array l => Some (flat_map (fun d => match d with AElem e => [e] | _ => [] end) l)
    | InlineArray l => Some (map (mkA None) l)
    | _ => None
    end.
  Definition map_items (y : yaml) : option (list hash_element) :=
    match y with
    | Hash l => Some (flat_map (fun d => match d with HElem e => [e] | _ => [] end) l)
    | InlineHash l => Some (map (fun kv => mkHE (fst kv) (mkA None (snd kv))) l)
    | _ => None
    end.
  Definition alook (x : aliased) : option str * looks := (a_alias x, lk (a_value x)).
  Definition hlook (e : hash_element) : str * (option str * looks) := (he_key e, alook (he_value e)).
  Lemma look_seq y l : seq_items y = Some l -> lk y = LSeq (map alook l).
  Proof.
    destruct y; try discriminate; intros E; injection E as <-; cbn [look]; f_equal.
    - rewrite map_map. reflexivity.
    - induction l0 as [|[c|c|[al v]] l0 IH]; cbn; [reflexivity|exact IH|exact IH|]. now rewrite IH.
  Qed.
  Lemma look_map y l : map_items y = Some l -> lk y = LMap (map hlook l).
  Proof.
    destruct y; try discriminate; intros E; injection E as <-; cbn [look]; f_equal.
    - rewrite map_map. apply map_ext. intros [k v]. reflexivity.
    - induction l0 as [|[c|c|[k [al v]]] l0 IH]; cbn; [reflexivity|exact IH|exact IH|]. now rewrite IH.
  Qed.
  Lemma look_seq_inv y l : lk y = LSeq l -> exists m, seq_items y = Some m.
  Proof. destruct y; try discriminate; intros E; cbn; eauto. now apply unquoted_seq in E. Qed.
  Lemma look_map_inv y l : lk y = LMap l -> exists m, map_items y = Some m.
  Proof. destruct y; try discriminate; intros E; cbn; eauto. now apply unquoted_map in E. Qed.

  (** Reading the items. *)
  Lemma seq_values_items a l :
    seq_values a l = (map a_value (flat_map (fun d => match d with AElem e => [e] | _ => [] end) l),
                      fold_left register (flat_map (fun d => match d with AElem e => [e] | _ => [] end) l) a).
  Proof.
    revert a. induction l as [|[c|c|e] l IH]; intros a; cbn; [reflexivity|apply IH|apply IH|].
    rewrite IH. reflexivity.
  Qed.
  Lemma hash_entries_items a l :
    hash_entries a l = (map (fun e => (he_key e, a_value (he_value e))) (flat_map (fun d => match d with HElem e => [e] | _ => [] end) l),
                        fold_left register (map he_value (flat_map (fun d => match d with HElem e => [e] | _ => [] end) l)) a).
  Proof.
    revert a. induction l as [|[c|c|e] l IH]; intros a; cbn; [reflexivity|apply IH|apply IH|].
    rewrite IH. reflexivity.
  Qed.
  Lemma register_none a (l : list yaml) : fold_left register (map (mkA None) l) a = a.
  Proof. induction l; cbn; auto. Qed.

  Definition read_seq (y : yaml) (a : anchors) : option (list yaml * anchors) :=
    match seq_items y with Some l => Some (map a_value l, fold_left register l a) | None => None end.
  Definition read_map (y : yaml) (a : anchors) : option (list (str * yaml) * anchors) :=
    match map_items y with
    | Some l => Some (map (fun e => (he_key e, a_value (he_value e))) l, fold_left register (map he_value l) a)
    | None => None end.
  Lemma de_seq_eq y a : de_seq_values y a = match into_resolved y a with Some z => read_seq z a | None => None end.
  Proof.
    unfold de_seq_values, read_seq. destruct (into_resolved y a) as [[]|]; cbn; try reflexivity.
    - rewrite register_none, map_map. cbn. now rewrite map_id.
    - now rewrite seq_values_items.
  Qed.
  Lemma register_none_map a (l : list (str * yaml)) :
    fold_left register (map he_value (map (fun kv => mkHE (fst kv) (mkA None (snd kv))) l)) a = a.
  Proof. induction l; cbn; auto. Qed.
  Lemma entries_id (l : list (str * yaml)) :
    map (fun e => (he_key e, a_value (he_value e))) (map (fun kv => mkHE (fst kv) (mkA None (snd kv))) l) = l.
  Proof. rewrite map_map. cbn. rewrite <- (map_id l) at 2. apply map_ext. now intros []. Qed.
  Lemma de_map_eq y a : de_map_entries y a = match into_resolved y a with Some z => read_map z a | None => None end.
  Proof.
    unfold de_map_entries, read_map. destruct (into_resolved y a) as [[]|]; cbn [map_items]; try reflexivity.
    - now rewrite register_none_map, entries_id.
    - now rewrite hash_entries_items.
  Qed.

  Lemma alook_rel l m : map alook l = map alook m ->
    Forall2 (fun x y => a_alias x = a_alias y /\ yrel (a_value x) (a_value y)) l m.
  Proof.
    revert m; induction l as [|x l IH]; intros [|y m] E; try discriminate; constructor.
    - injection E as E1 E2 E3. split; assumption.
    - apply IH. now injection E.
  Qed.
  Lemma hlook_rel l m : map hlook l = map hlook m ->
    Forall2 (fun x y => he_key x = he_key y /\ a_alias (he_value x) = a_alias (he_value y) /\
                        yrel (a_value (he_value x)) (a_value (he_value y))) l m.
  Proof.
    revert m; induction l as [|x l IH]; intros [|y m] E; try discriminate; constructor.
    - injection E as E1 E2 E3 E4. repeat split; assumption.
    - apply IH. now injection E.
  Qed.

  Lemma registers_rel l m a b : arel a b ->
    Forall2 (fun x y => a_alias x = a_alias y /\ yrel (a_value x) (a_value y)) l m ->
    arel (fold_left register l a) (fold_left register m b).
  Proof.
    intros A F. revert a b A. induction F as [|x y l m [E R] F IH]; intros a b A; cbn; [exact A|].
    apply IH. now apply arel_register.
  Qed.

  Lemma read_seq_rel y z a b : yrel y z -> arel a b -> drel (Forall2 yrel) (read_seq y a) (read_seq z b).
  Proof.
    intros R A. unfold read_seq.
    destruct (seq_items y) as [l|] eqn:E; destruct (seq_items z) as [m|] eqn:F; cbn; [| | |exact I].
    - apply look_seq in E, F. unfold yrel in R. rewrite E, F in R. injection R as R. apply alook_rel in R. split.
      + clear - R. induction R as [|x y l m [_ R] F IH]; cbn; constructor; assumption.
      + now apply registers_rel.
    - apply look_seq in E. unfold yrel in R. rewrite E in R. symmetry in R. apply look_seq_inv in R as [m' R]. congruence.
    - apply look_seq in F. unfold yrel in R. rewrite F in R. apply look_seq_inv in R as [m' R]. congruence.
  Qed.
  Lemma read_map_rel y z a b : yrel y z -> arel a b -> drel (Forall2 erel) (read_map y a) (read_map z b).
  Proof.
    intros R A. unfold read_map.
    destruct (map_items y) as [l|] eqn:E; destruct (map_items z) as [m|] eqn:F; cbn; [| | |exact I].
    - apply look_map in E, F. unfold yrel in R. rewrite E, F in R. injection R as R. apply hlook_rel in R. split.
      + clear - R. induction R as [|x y l m (K & _ & R) F IH]; cbn; constructor; [split|]; assumption.
      + apply registers_rel; [exact A|]. clear - R. induction R as [|x y l m (K & E & R) F IH]; cbn; constructor; [split|]; assumption.
    - apply look_map in E. unfold yrel in R. rewrite E in R. symmetry in R. apply look_map_inv in R as [m' R]. congruence.
    - apply look_map in F. unfold yrel in R. rewrite F in R. apply look_map_inv in R as [m' R]. congruence.
  Qed.

  Lemma resolved_rel y z a b : yrel y z -> arel a b ->
    match into_resolved y a, into_resolved z b with
    | None, None => True | Some x, Some w => yrel x w | _, _ => False end.
  Proof.
    intros R A. assert (R' := R). unfold yrel in R.
    destruct y; destruct z; cbn in R; try discriminate; try exact R';
      try (destruct (word s); discriminate); try (destruct (word s0); discriminate).
    injection R as <-. apply arel_resolve, A.
  Qed.
  Lemma de_seq_rel y z a b : yrel y z -> arel a b -> drel (Forall2 yrel) (de_seq_values y a) (de_seq_values z b).
  Proof.
    intros R A. rewrite !de_seq_eq. assert (H := resolved_rel y z a b R A).
    destruct (into_resolved y a), (into_resolved z b); try contradiction; [|exact I]. now apply read_seq_rel.
  Qed.
  Lemma de_map_rel y z a b : yrel y z -> arel a b -> drel (Forall2 erel) (de_map_entries y a) (de_map_entries z b).
  Proof.
    intros R A. rewrite !de_map_eq. assert (H := resolved_rel y z a b R A).
    destruct (into_resolved y a), (into_resolved z b); try contradiction; [|exact I]. now apply read_map_rel.
  Qed.

  (** Text. *)
  Definition text_of (l : looks) : option str := match l with LWord s | LText s => Some s | _ => None end.
  Lemma look_text y : yaml_to_string y = text_of (lk y).
  Proof. destruct y; cbn; try reflexivity. now destruct (word s). Qed.
  Lemma text_rel y z : yrel y z -> yaml_to_string y = yaml_to_string z.
  Proof. intros R. now rewrite !look_text, R. Qed.
  Lemma de_text_rel y z a b : yrel y z -> arel a b -> de_text y a = de_text z b.
  Proof.
    intros R A. unfold de_text. assert (H := resolved_rel y z a b R A).
    destruct (into_resolved y a), (into_resolved z b); try contradiction; [|reflexivity]. now apply text_rel.
  Qed.
  Lemma word_rel y z s : yrel y z -> y = Unquoted s -> word s = true -> z = Unquoted s.
  Proof.
    intros R -> W. unfold yrel in R. cbn in R. rewrite W in R.
    destruct z; try discriminate. cbn in R. destruct (word s0); congruence.
  Qed.
  Lemma drel_same {A} (r : A) a b : arel a b -> drel eq (Some (r, a)) (Some (r, b)).
  Proof. intros H. now split. Qed.

  (** Combinators. *)
  Lemma ok_elems d : ok d -> forall l m a b, Forall2 yrel l m -> arel a b ->
    drel eq (de_elems d l a) (de_elems d m b).
  Proof.
    intros D l m a b F. revert a b. induction F as [|y z l m R F IH]; intros a b A; cbn; [now split|].
    assert (H := D y z a b R A). destruct (d y a) as [[v a1]|], (d z b) as [[w b1]|]; cbn in H |- *; try contradiction; [|exact I].
    destruct H as [<- A1]. assert (H := IH a1 b1 A1).
    destruct (de_elems d l a1) as [[vs a2]|], (de_elems d m b1) as [[ws b2]|]; cbn in H |- *; try contradiction; [|exact I].
    destruct H as [<- A2]. now split.
  Qed.
  Lemma ok_tuple ds : Forall ok ds -> forall l m a b, Forall2 yrel l m -> arel a b ->
    drel eq (de_tuple ds l a) (de_tuple ds m b).
  Proof.
    intros D. induction D as [|d ds D Ds IH]; intros l m a b F A; cbn; [now split|].
    destruct F as [|y z l m R F]; [exact I|].
    assert (H := D y z a b R A). destruct (d y a) as [[v a1]|], (d z b) as [[w b1]|]; cbn in H |- *; try contradiction; [|exact I].
    destruct H as [<- A1]. assert (H := IH l m a1 b1 F A1).
    destruct (de_tuple ds l a1) as [[vs a2]|], (de_tuple ds m b1) as [[ws b2]|]; cbn in H |- *; try contradiction; [|exact I].
    destruct H as [<- A2]. now split.
  Qed.
  Lemma ok_entries dk dv : ok dk -> ok dv -> forall l m a b, Forall2 erel l m -> arel a b ->
    drel eq (de_entries dk dv l a) (de_entries dk dv m b).
  Proof.
    intros K D l m a b F. revert a b. induction F as [|[k y] [k' z] l m [E R] F IH]; intros a b A; cbn; [now split|].
    cbn in E, R. subst k'.
    assert (H := K (Unquoted k) (Unquoted k) a b eq_refl A).
    destruct (dk (Unquoted k) a) as [[v a1]|], (dk (Unquoted k) b) as [[w b1]|]; cbn in H |- *; try contradiction; [|exact I].
    destruct H as [<- A1]. assert (H := D y z a1 b1 R A1).
    destruct (dv y a1) as [[x a2]|], (dv z b1) as [[x' b2]|]; cbn in H |- *; try contradiction; [|exact I].
    destruct H as [<- A2]. assert (H := IH a2 b2 A2).
    destruct (de_entries dk dv l a2) as [[vs a3]|], (de_entries dk dv m b2) as [[ws b3]|]; cbn in H |- *; try contradiction; [|exact I].
    destruct H as [<- A3]. now split.
  Qed.
  Lemma ok_field fs : Forall (fun f => ok (f_de f)) fs -> forall k y z a b, yrel y z -> arel a b ->
    drel eq (de_field fs k y a) (de_field fs k z b) /\
    match de_field fs k y a with Some (fs', _) => Forall (fun f => ok (f_de f)) fs' | None => True end.
  Proof.
    intros D. induction D as [|f fs D Ds IH]; intros k y z a b R A; cbn; [repeat split; auto|].
    destruct (seqb (f_name f) k).
    - destruct (f_val f); [split; exact I|].
      assert (H := D y z a b R A). destruct (f_de f y a) as [[v a1]|], (f_de f z b) as [[w b1]|]; cbn in H |- *; try contradiction; [|split; exact I].
      destruct H as [<- A1]. repeat split; auto.
    - destruct (IH k y z a b R A) as [H G].
      destruct (de_field fs k y a) as [[v a1]|], (de_field fs k z b) as [[w b1]|]; cbn in H |- *; try contradiction; [|split; exact I].
      destruct H as [<- A1]. repeat split; auto.
  Qed.
  Lemma ok_fields l m : Forall2 erel l m -> forall fs a b, Forall (fun f => ok (f_de f)) fs -> arel a b ->
    drel eq (de_fields fs l a) (de_fields fs m b).
  Proof.
    intros F. induction F as [|[k y] [k' z] l m [E R] F IH]; intros fs a b D A; cbn; [now split|].
    cbn in E, R. subst k'. destruct (ok_field fs D k y z a b R A) as [H G].
    destruct (de_field fs k y a) as [[v a1]|], (de_field fs k z b) as [[w b1]|]; cbn in H |- *; try contradiction; [|exact I].
    destruct H as [<- A1]. now apply IH.
  Qed.
  Lemma ok_struct fs y z a b : Forall (fun f => ok (f_de f)) fs -> yrel y z -> arel a b ->
    drel eq (de_struct fs y a) (de_struct fs z b).
  Proof.
    intros D R A. unfold de_struct. assert (H := de_map_rel y z a b R A).
    destruct (de_map_entries y a) as [[l a1]|], (de_map_entries z b) as [[m b1]|]; cbn in H |- *; try contradiction; [|exact I].
    destruct H as [F A1]. assert (H := ok_fields l m F fs a1 b1 D A1).
    destruct (de_fields fs l a1) as [[v a2]|], (de_fields fs m b1) as [[w b2]|]; cbn in H |- *; try contradiction; [|exact I].
    destruct H as [<- A2]. destruct (opt_map field_value v); [now split|exact I].
  Qed.
  Lemma ok_variant vs n : Forall (fun p => ok (snd p)) vs -> ok (de_variant vs n).
  Proof.
    intros D. induction D as [|[m d] vs D Ds IH]; cbn; [intros ? ? ? ? _ _; exact I|].
    destruct (seqb m n); assumption.
  Qed.
  Lemma enum_rel y z a b : yrel y z -> arel a b ->
    match de_enum_content y a, de_enum_content z b with
    | None, None => True
    | Some (n, c, a1), Some (m, d, b1) => n = m /\ yrel c d /\ arel a1 b1
    | _, _ => False
    end.
  Proof.
    intros R A.
    assert (G : forall w a, de_enum_content w a =
      match into_resolved w a with
      | None => None
      | Some w => match read_map w a with
                  | Some ([(n, v)], a1) => Some (n, v, a1)
                  | Some _ => None
                  | None => match yaml_to_string w with
                            | Some s => Some (s, Unquoted (lit "~"), a) | None => None end
                  end
      end).
    { clear. intros w a. unfold de_enum_content. destruct (into_resolved w a) as [[]|]; try reflexivity.
      - unfold read_map. cbn [map_items]. rewrite register_none_map, entries_id. destruct l as [|[] [|]]; reflexivity.
      - unfold read_map. cbn [map_items]. rewrite hash_entries_items. cbn [fst snd].
        destruct (map _ _) as [|[] [|]]; reflexivity. }
    rewrite !G. assert (H := resolved_rel y z a b R A).
    destruct (into_resolved y a) as [y'|], (into_resolved z b) as [z'|]; try contradiction; [|exact I].
    assert (M := read_map_rel y' z' a b H A). rewrite <- (text_rel _ _ H).
    destruct (read_map y' a) as [[l a1]|], (read_map z' b) as [[m b1]|]; cbn in M; try contradiction.
    - destruct M as [F A1]. destruct F as [|[k v] [k' v'] l m [E V] F]; [exact I|]. destruct F; [|exact I]. auto.
    - destruct (yaml_to_string y'); [|exact I]. repeat split; auto.
  Qed.
End Rel.

Lemma ok_fields_map word (fs : list (str * ty)) : Forall (fun nt => ok word (de (snd nt))) fs ->
  Forall (fun f => ok word (f_de f))
    (map (fun nt => match nt with (n, t) => mkF n (de t) (is_option t) None end) fs).
Proof. intros H. induction H as [|[n t] fs H Hs IH]; cbn; constructor; assumption. Qed.
Lemma ok_map word ts : Forall (fun t => ok word (de t)) ts -> Forall (ok word) (map de ts).
Proof. intros H. induction H; cbn; constructor; assumption. Qed.

Ltac rel_case H :=
  match type of H with drel _ _ ?x ?y => destruct x as [[? ?]|], y as [[? ?]|] end;
  cbn in H |- *; try contradiction; [|exact I].

(** The second halves of the bool and option readers. *)
Definition bool_at (w : yaml) (a : anchors) : dres sval :=
  match w with
  | Unquoted s =>
      if one_of [lit "true"; lit "True"; lit "TRUE"; lit "yes"; lit "Yes"; lit "YES";
                 lit "on"; lit "On"; lit "ON"] s then Some (SBool true, a)
      else if one_of [lit "false"; lit "False"; lit "FALSE"; lit "no"; lit "No"; lit "NO";
                      lit "off"; lit "Off"; lit "OFF"] s then Some (SBool false, a)
      else None
  | _ => None
  end.
Definition opt_at (d : decoder) (w : yaml) (a : anchors) : dres sval :=
  match w with
  | Unquoted s =>
      if is_null_word s then Some (SNone, a)
      else match d (Unquoted s) a with Some (v, a1) => Some (SSome v, a1) | None => None end
  | w => match d w a with Some (v, a1) => Some (SSome v, a1) | None => None end
  end.

Lemma de_look t : ok typed_word (de t).
Proof.
  induction t using ty_ind'; intros y z a b R A; cbn [de].
  - unfold de_bool. assert (H := resolved_rel _ y z a b R A).
    destruct (into_resolved y a) as [y'|], (into_resolved z b) as [z'|]; try contradiction; [|exact I].
    assert (N : forall w (a : anchors), (forall s, w = Unquoted s -> typed_word s = false) -> bool_at w a = None).
    { clear. intros w a N. unfold bool_at. destruct w; try reflexivity. specialize (N s eq_refl).
      unfold typed_word in N. cbn [map existsb] in N. rewrite !orb_false_iff in N. unfold one_of. cbn [existsb].
      decompose [and] N. clear N. repeat match goal with E : seqb _ _ = false |- _ => rewrite E; clear E end. reflexivity. }
    destruct (match y' with Unquoted s => typed_word s | _ => false end) eqn:W.
    + destruct y'; try discriminate. rewrite (word_rel _ _ z' s H eq_refl W). unfold drel.
      repeat match goal with |- context [if ?b then _ else _] => destruct b end; repeat split; exact A.
    + destruct (match z' with Unquoted s => typed_word s | _ => false end) eqn:W'.
      * destruct z'; try discriminate. symmetry in H. rewrite (word_rel _ _ y' s H eq_refl W') in W. cbv beta iota in W. congruence.
      * change (drel typed_word eq (bool_at y' a) (bool_at z' b)). rewrite !N; [exact I| |].
        -- intros s ->. exact W'.
        -- intros s ->. exact W.
  - unfold de_int. assert (H := resolved_rel _ y z a b R A).
    destruct (into_resolved y a) as [y'|], (into_resolved z b) as [z'|]; try contradiction; [|exact I].
    rewrite (text_rel _ _ _ H). destruct (yaml_to_string z'); [|exact I].
    destruct (match k with I8 => _ | _ => _ end); [|exact I]. destruct (in_kind k z0); [now split|exact I].
  - unfold de_float. assert (H := resolved_rel _ y z a b R A).
    destruct (into_resolved y a) as [y'|], (into_resolved z b) as [z'|]; try contradiction; [|exact I].
    rewrite (text_rel _ _ _ H). destruct (yaml_to_string z'); [|exact I].
    destruct (parse_f64_ok l); [now split|exact I].
  - rewrite (de_text_rel _ y z a b R A). destruct (de_text z b) as [[|c [|]]|]; try exact I. now split.
  - rewrite (de_text_rel _ y z a b R A). destruct (de_text z b); [now split|exact I].
  - assert (H := de_seq_rel _ y z a b R A). rel_case H. destruct H as [F A1].
    assert (O : ok typed_word (de_int U8)).
    { clear. intros y z a b R A. unfold de_int. assert (H := resolved_rel _ y z a b R A).
      destruct (into_resolved y a) as [y'|], (into_resolved z b) as [z'|]; try contradiction; [|exact I].
      rewrite (text_rel _ _ _ H). destruct (yaml_to_string z'); [|exact I].
      destruct (parse_u64 l); [|exact I]. destruct (in_kind U8 z0); [now split|exact I]. }
    assert (H := ok_elems _ _ O _ _ _ _ F A1). rel_case H. destruct H as [<- A2]. now split.
  - assert (H := resolved_rel _ y z a b R A).
    destruct (into_resolved y a) as [y'|], (into_resolved z b) as [z'|]; try contradiction; [|exact I].
    assert (N : forall w (a : anchors), (forall s, w = Unquoted s -> typed_word s = false) ->
              opt_at (de t) w a = match de t w a with Some (v, a1) => Some (SSome v, a1) | None => None end).
    { clear. intros w a N. unfold opt_at. destruct w; try reflexivity. specialize (N s eq_refl).
      unfold typed_word in N. cbn [map existsb] in N. rewrite !orb_false_iff in N. unfold is_null_word.
      decompose [and] N. clear N. repeat match goal with E : seqb _ _ = false |- _ => rewrite E; clear E end. reflexivity. }
    destruct (match y' with Unquoted s => typed_word s | _ => false end) eqn:W.
    + destruct y'; try discriminate. rewrite (word_rel _ _ z' s H eq_refl W).
      destruct (is_null_word s); [now split|]. assert (G := IHt (Unquoted s) (Unquoted s) a b eq_refl A). rel_case G.
      destruct G as [<- A1]. now split.
    + destruct (match z' with Unquoted s => typed_word s | _ => false end) eqn:W'.
      * destruct z'; try discriminate. symmetry in H. rewrite (word_rel _ _ y' s H eq_refl W') in W. cbv beta iota in W. congruence.
      * change (drel typed_word eq (opt_at (de t) y' a) (opt_at (de t) z' b)). rewrite !N.
        -- assert (G := IHt y' z' a b H A). rel_case G. destruct G as [<- A1]. now split.
        -- intros s ->. exact W'.
        -- intros s ->. exact W.
  - now split.
  - now split.
  - assert (G := IHt y z a b R A). rel_case G. destruct G as [<- A1]. now split.
  - assert (H := de_seq_rel _ y z a b R A). rel_case H. destruct H as [F A1].
    assert (H := ok_elems _ _ IHt _ _ _ _ F A1). rel_case H. destruct H as [<- A2]. now split.
  - assert (G := de_seq_rel _ y z a b R A). rel_case G. destruct G as [F A1].
    assert (G := ok_tuple _ _ (ok_map _ _ H) _ _ _ _ F A1). rel_case G. destruct G as [<- A2]. now split.
  - assert (H := de_map_rel _ y z a b R A). rel_case H. destruct H as [F A1].
    assert (H := ok_entries _ _ _ IHt1 IHt2 _ _ _ _ F A1). rel_case H. destruct H as [<- A2]. now split.
  - assert (G := ok_struct _ _ y z a b (ok_fields_map _ _ H) R A). rel_case G. destruct G as [<- A1]. now split.
  - assert (G := enum_rel _ y z a b R A).
    destruct (de_enum_content y a) as [[[n c] a1]|], (de_enum_content z b) as [[[n' c'] b1]|]; try contradiction; [|exact I].
    destruct G as (<- & C & A1). refine (ok_variant _ _ n _ c c' a1 b1 C A1).
    clear - H. induction H as [|[m v] vs H Hs IH]; cbn [map]; constructor; [|exact IH]. cbn [snd] in *.
    destruct v as [|t|ts|fs]; cbn in H; intros y z a b R A.
    + now split.
    + assert (G := H y z a b R A). rel_case G. destruct G as [<- A1]. now split.
    + assert (G := de_seq_rel _ y z a b R A). rel_case G. destruct G as [F A1].
      assert (G := ok_tuple _ _ (ok_map _ _ H) _ _ _ _ F A1). rel_case G. destruct G as [<- A2]. now split.
    + assert (G := ok_struct _ _ y z a b (ok_fields_map _ _ H) R A). rel_case G. destruct G as [<- A1]. now split.
Qed.

Lemma from_yaml_look t y z : look typed_word y = look typed_word z -> from_yaml t y = from_yaml t z.
Proof.
  intros R. unfold from_yaml. assert (H := de_look t y z [] [] R (Forall2_nil _)).
  destruct (de t y []) as [[v a]|], (de t z []) as [[w b]|]; cbn in H |- *; try contradiction; [|reflexivity].
  now destruct H as [-> _].
Qed.
