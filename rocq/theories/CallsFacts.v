(** The serializer at the level of calls. *)
From Verif Require Import Base Ast Strings Ser De Peg SerCalls Spec_Serde Spec_Look Spec_Typed Spec_Ser ExactSerFacts SerdeFacts ErrFacts2 Spec_Refs Spec_Reads Spec_Calls.
Import ListNotations.

Section Ind.
  Context (P : script -> Prop).
  Context (H1 : forall v, P (QOne v)) (H2 : forall l, Forall P l -> P (QSeq l)) (H3 : forall l, Forall P l -> P (QTuple l))
    (H4 : forall l, Forall (fun c => P (snd c)) l -> P (QMap l)) (H5 : forall l, Forall (fun c => P (snd c)) l -> P (QStruct l)).
  Fixpoint script_ind' (p : script) : P p :=
    match p with
    | QOne v => H1 v
    | QSeq l => H2 l ((fix go l : Forall P l := match l with [] => Forall_nil _ | p :: l' => Forall_cons _ (script_ind' p) (go l') end) l)
    | QTuple l => H3 l ((fix go l : Forall P l := match l with [] => Forall_nil _ | p :: l' => Forall_cons _ (script_ind' p) (go l') end) l)
    | QMap l => H4 l ((fix go l : Forall (fun c => P (snd c)) l :=
        match l with [] => Forall_nil _ | c :: l' => Forall_cons _ (script_ind' (snd c)) (go l') end) l)
    | QStruct l => H5 l ((fix go l : Forall (fun c => P (snd c)) l :=
        match l with [] => Forall_nil _ | c :: l' => Forall_cons _ (script_ind' (snd c)) (go l') end) l)
    end.
End Ind.

Lemma as_key_iff y s : as_key y s <-> yaml_to_key_string y = Some s.
Proof.
  destruct y; cbn [as_key yaml_to_key_string]; try (split; [intros []|discriminate]).
  - rewrite scalar_iff. cbn [De.yaml_to_string]. reflexivity.
  - split; [intros ->; reflexivity|intros E; now injection E].
Qed.

(** ---- values ---- *)

Lemma all_iff l : Forall (fun p => forall y, run p = CVal y <-> makes p y) l ->
  forall ys, run_all run l = CVal ys <-> Forall2 makes l ys.
Proof.
  intros H. induction H as [|p l Hp _ IH]; intros ys; cbn [run_all].
  - split; [intros E; injection E as <-; constructor|intros F; now inversion F].
  - split.
    + destruct (run p) as [y| |] eqn:R; try discriminate. destruct (run_all run l) as [zs| |] eqn:A; try discriminate.
      intros E. injection E as <-. constructor; [now apply Hp|now apply IH].
    + intros F. inversion F as [|? y ? zs M Ms]; subst. apply Hp in M. apply IH in Ms. now rewrite M, Ms.
Qed.
Lemma fields_iff l : Forall (fun c => forall y, run (snd c) = CVal y <-> makes (snd c) y) l ->
  forall xs, run_fields run l = CVal xs <-> Forall2 (fun (f : str * script) x => fst x = fst f /\ makes (snd f) (snd x)) l xs.
Proof.
  intros H. induction H as [|[n p] l Hp _ IH]; intros xs; cbn [run_fields].
  - split; [intros E; injection E as <-; constructor|intros F; now inversion F].
  - cbn [snd] in Hp. split.
    + destruct (run p) as [y| |] eqn:R; try discriminate. destruct (run_fields run l) as [zs| |] eqn:A; try discriminate.
      intros E. injection E as <-. constructor; [split; [reflexivity|now apply Hp]|now apply IH].
    + intros F. inversion F as [|? [m y] ? zs [E M] Ms]; subst. cbn [fst snd] in *. subst m. apply Hp in M. apply IH in Ms. now rewrite M, Ms.
Qed.

Notation well c := (exists y, makes (snd c) y /\ (fst c = true -> exists s, as_key y s)) (only parsing).
Definition ent (e : script * script) (x : str * yaml) : Prop := (exists y, makes (fst e) y /\ as_key y (fst x)) /\ makes (snd e) (snd x).

Lemma map_iff l : Forall (fun c => forall y, run (snd c) = CVal y <-> makes (snd c) y) l ->
  (forall en zs, run_map run None en l = CVal zs <->
     exists es xs, zs = en ++ xs /\ kept l es /\ Forall (fun c => well c) l /\ Forall2 ent es xs) /\
  (forall k yk s en zs, (forall y, run k = CVal y <-> makes k y) -> run k = CVal yk -> yaml_to_key_string yk = Some s ->
     (run_map run (Some s) en l = CVal zs <->
      exists es xs, zs = en ++ xs /\ kept ((true, k) :: l) es /\ Forall (fun c => well c) l /\ Forall2 ent es xs)).
Proof.
  intros H. induction H as [|[b p] l Hp Hl [IHn IHs]]; cbn [run_map].
  - split.
    + intros en zs. split.
      * intros E. injection E as <-. exists [], []. rewrite app_nil_r. repeat split; constructor.
      * intros (es & xs & -> & K & _ & F). inversion K; subst. inversion F; subst. now rewrite app_nil_r.
    + intros k yk s en zs _ _ _. split.
      * intros E. injection E as <-. exists [], []. rewrite app_nil_r. repeat split; constructor.
      * intros (es & xs & -> & K & _ & F). inversion K; subst. inversion F; subst. now rewrite app_nil_r.
  - cbn [snd] in Hp.
    assert (W : forall y s, b = true -> run p = CVal y -> yaml_to_key_string y = Some s -> well (b, p)).
    { intros y s _ R Y. exists y. split; [now apply Hp|]. intros _. exists s. now apply as_key_iff. }
    assert (Key : forall zs en, b = true ->
      match run p with CVal y => match yaml_to_key_string y with Some k => run_map run (Some k) en l | None => CErr end
                     | CErr => CErr | CPanic => CPanic end = CVal zs <->
      exists es xs, zs = en ++ xs /\ kept ((true, p) :: l) es /\ Forall (fun c => well c) ((b, p) :: l) /\ Forall2 ent es xs).
    { intros zs en Eb. split.
      - destruct (run p) as [y| |] eqn:R; try discriminate. destruct (yaml_to_key_string y) as [s|] eqn:Y; [|discriminate].
        intros E. apply (IHs p y s en zs) in E; [|rewrite R; exact Hp|exact R|exact Y]. destruct E as (es & xs & -> & K & F & G).
        exists es, xs. split; [reflexivity|]. split; [exact K|]. split; [|exact G]. constructor; [exact (W y s Eb eq_refl Y)|exact F].
      - intros (es & xs & -> & K & F & G). inversion F as [|? ? (y & M & Ky) F']; subst. cbn [fst snd] in *.
        apply Hp in M. destruct (Ky eq_refl) as [s Q]. apply as_key_iff in Q. rewrite M, Q.
        apply (IHs p y s en (en ++ xs)); [exact Hp|exact M|exact Q|]. eauto 6. }
    destruct b.
    + split.
      * intros en zs. rewrite (Key zs en eq_refl). reflexivity.
      * intros k yk s en zs Hk Rk Yk. rewrite (Key zs en eq_refl). split; intros (es & xs & -> & K & F & G); exists es, xs.
        -- split; [reflexivity|]. split; [now constructor|]. auto.
        -- split; [reflexivity|]. split; [now inversion K|]. auto.
    + split.
      * intros en zs. split; [discriminate|]. intros (es & xs & _ & K & _). inversion K.
      * intros k yk s en zs Hk Rk Yk. split.
        -- destruct (run p) as [y| |] eqn:R; try discriminate. intros E. apply IHn in E as (es & xs & -> & K & F & G).
           exists ((k, p) :: es), ((s, y) :: xs). rewrite <- app_assoc. split; [reflexivity|]. split; [now constructor|].
           split; [constructor; [|exact F]; exists y; split; [now apply Hp|discriminate]|].
           constructor; [|exact G]. split; [exists yk; split; [now apply Hk|now apply as_key_iff]|now apply Hp].
        -- intros (es & xs & -> & K & F & G). inversion K as [|? ? ? es' K' | |]; subst.
           inversion F as [|? ? _ F']; subst. inversion G as [|? [s' y] ? xs' [(y0 & M0 & A0) M] G']; subst. cbn [fst snd] in *.
           apply Hp in M. rewrite M. apply Hk in M0. assert (y0 = yk) by congruence. subst y0. apply as_key_iff in A0.
           assert (s' = s) by congruence. subst s'. apply IHn. exists es', xs'. rewrite <- app_assoc. auto.
Qed.

Lemma run_iff p : forall y, run p = CVal y <-> makes p y.
Proof.
  induction p as [v|l IH|l IH|l IH|l IH] using script_ind'; intros y; cbn [run].
  - destruct (ser v) as [z|] eqn:S.
    + apply ser_iff in S. split; [intros E; injection E as <-; now constructor|].
      intros M. inversion M as [? ? W| | | |]; subst. apply ser_iff in S, W. congruence.
    + split; [discriminate|]. intros M. inversion M as [? ? W| | | |]; subst. apply ser_iff in W. congruence.
  - split.
    + destruct (run_all run l) as [ys| |] eqn:A; cbn [cmap]; try discriminate. intros E. injection E as <-. constructor. now apply (all_iff l IH).
    + intros M. inversion M as [|? ys F| | |]; subst. apply (all_iff l IH) in F. now rewrite F.
  - split.
    + destruct (run_all run l) as [ys| |] eqn:A; cbn [cmap]; try discriminate. intros E. injection E as <-. constructor. now apply (all_iff l IH).
    + intros M. inversion M as [| |? ys F| |]; subst. apply (all_iff l IH) in F. now rewrite F.
  - split.
    + destruct (run_map run None [] l) as [xs| |] eqn:A; cbn [cmap]; try discriminate. intros E. injection E as <-.
      apply (proj1 (map_iff l IH)) in A as (es & xs' & -> & K & F & G). exact (MkMap l es xs' K F G).
    + intros M. inversion M as [| | |? es xs K F G|]; subst.
      assert (A : run_map run None [] l = CVal ([] ++ xs)) by (apply (proj1 (map_iff l IH)); eauto 7). now rewrite A.
  - split.
    + destruct (run_fields run l) as [xs| |] eqn:A; cbn [cmap]; try discriminate. intros E. injection E as <-. constructor. now apply (fields_iff l IH).
    + intros M. inversion M as [| | | |? xs F]; subst. apply (fields_iff l IH) in F. now rewrite F.
Qed.

(** ---- panics ---- *)

Lemma well_iff p : (exists y, makes p y) <-> exists y, run p = CVal y.
Proof. split; intros [y H]; exists y; now apply run_iff. Qed.
Lemma all_panic l : run_all run l = CPanic <-> exists l1 p l2, l = l1 ++ p :: l2 /\ Forall (fun q => exists y, makes q y) l1 /\ run p = CPanic.
Proof.
  induction l as [|p l IH]; cbn [run_all]; [split; [discriminate|intros ([|] & ? & ? & E & _); discriminate]|]. split.
  - destruct (run p) as [y| |] eqn:R; try discriminate.
    + destruct (run_all run l) as [ys| |]; try discriminate. intros _. destruct (proj1 IH eq_refl) as (l1 & q & l2 & -> & F & P).
      exists (p :: l1), q, l2. split; [reflexivity|]. split; [|exact P]. constructor; [exists y; now apply run_iff|exact F].
    + intros _. exists [], p, l. auto.
  - intros (l1 & q & l2 & E & F & P). destruct l1 as [|p' l1]; cbn [app] in E; injection E as -> E.
    + now rewrite P.
    + inversion F as [|? ? [y M] F']; subst. apply run_iff in M. rewrite M. now rewrite (proj2 IH) by eauto 6.
Qed.
Lemma fields_panic (l : list (str * script)) : run_fields run l = CPanic <->
  exists l1 n p l2, l = l1 ++ (n, p) :: l2 /\ Forall (fun f => exists y, makes (snd f) y) l1 /\ run p = CPanic.
Proof.
  induction l as [|[n p] l IH]; cbn [run_fields]; [split; [discriminate|intros ([|] & ? & ? & ? & E & _); discriminate]|]. split.
  - destruct (run p) as [y| |] eqn:R; try discriminate.
    + destruct (run_fields run l) as [ys| |]; try discriminate. intros _. destruct (proj1 IH eq_refl) as (l1 & m & q & l2 & -> & F & P).
      exists ((n, p) :: l1), m, q, l2. split; [reflexivity|]. split; [|exact P]. constructor; [exists y; now apply run_iff|exact F].
    + intros _. exists [], n, p, l. auto.
  - intros (l1 & m & q & l2 & E & F & P). destruct l1 as [|p' l1]; cbn [app] in E; [injection E as -> -> ->|injection E as <- ->].
    + now rewrite P.
    + inversion F as [|? ? [y M] F']; subst. apply run_iff in M. cbn [snd] in M. rewrite M. now rewrite (proj2 IH) by eauto 7.
Qed.

(** Whether a key is pending after the calls. *)
Definition pend (b : bool) (l : list (bool * script)) : bool := fold_left (fun _ c => fst c) l b.
Lemma pend_last b l c : pend b (l ++ [c]) = fst c.
Proof. unfold pend. now rewrite fold_left_app. Qed.
Lemma keyless_iff l : keyless l <-> pend false l = false.
Proof.
  split.
  - intros [->|(l0 & p & ->)]; [reflexivity|now rewrite pend_last].
  - destruct l as [|c l] using rev_ind; [now left|]. rewrite pend_last. destruct c as [b p]. cbn. intros ->. right. eauto.
Qed.
Definition turn (b : bool) (l : list (bool * script)) : Prop := forall l1 p l2, l = l1 ++ (false, p) :: l2 -> pend b l1 = true.
Lemma in_turn_iff l : in_turn l <-> turn false l.
Proof.
  split; intros H l1 p l2 E.
  - destruct (pend false l1) eqn:Q; [reflexivity|]. apply keyless_iff in Q. elim (H l1 p l2 E Q).
  - intros K. apply keyless_iff in K. specialize (H l1 p l2 E). congruence.
Qed.
Lemma turn_cons b c l : turn b (c :: l) <-> (fst c = false -> b = true) /\ turn (fst c) l.
Proof.
  split.
  - intros H. split.
    + intros E. destruct c as [c p]. cbn in E. subst c. exact (H [] p l eq_refl).
    + intros l1 p l2 E. exact (H (c :: l1) p l2 (f_equal (cons c) E)).
  - intros [A B] [|c' l1] p l2 E; cbn [app] in E.
    + injection E as -> ->. now apply A.
    + injection E as <- E. exact (B l1 p l2 E).
Qed.

Lemma map_panic l : forall key en, run_map run key en l = CPanic <->
  let b := match key with Some _ => true | None => false end in
  exists l1 c l2, l = l1 ++ c :: l2 /\ turn b l1 /\ Forall (fun c => well c) l1 /\
    ((fst c = false /\ pend b l1 = false) \/ ((fst c = false -> pend b l1 = true) /\ run (snd c) = CPanic)).
Proof.
  cbn zeta. assert (T0 : forall b, turn b []) by (intros b [|c0 l0] q0 l2 E; discriminate).
  induction l as [|[b p] l IH]; intros key en; cbn [run_map]; [split; [discriminate|intros ([|] & ? & ? & E & _); discriminate]|].
  set (kb := match key with Some _ => true | None => false end). destruct b.
  - split.
    + destruct (run p) as [y| |] eqn:R; try discriminate.
      * destruct (yaml_to_key_string y) as [s|] eqn:Y; [|discriminate]. intros E. apply IH in E as (l1 & c & l2 & -> & T & F & D).
        exists ((true, p) :: l1), c, l2. split; [reflexivity|]. split; [apply turn_cons; split; [discriminate|exact T]|]. split; [|exact D].
        constructor; [|exact F]. exists y. split; [now apply run_iff|]. intros _. exists s. now apply as_key_iff.
      * intros _. exists [], (true, p), l. split; [reflexivity|]. split; [apply T0|]. split; [constructor|]. right. split; [discriminate|exact R].
    + intros (l1 & c & l2 & E & T & F & D). destruct l1 as [|c' l1]; cbn [app] in E; injection E as E1 E.
      * subst c. destruct D as [[D _]|[_ D]]; [discriminate|]. cbn [snd] in D. now rewrite D.
      * subst c'. inversion F as [|? ? (y & M & K) F']; subst. cbn [fst snd] in *. apply run_iff in M. destruct (K eq_refl) as [s Q].
        apply as_key_iff in Q. rewrite M, Q. apply IH. exists l1, c, l2. apply turn_cons in T as [_ T]. auto.
  - destruct key as [k|]; subst kb.
    + split.
      * destruct (run p) as [y| |] eqn:R; try discriminate.
        -- intros E. apply IH in E as (l1 & c & l2 & -> & T & F & D).
           exists ((false, p) :: l1), c, l2. split; [reflexivity|]. split; [apply turn_cons; split; [reflexivity|exact T]|]. split; [|exact D].
           constructor; [|exact F]. exists y. split; [now apply run_iff|discriminate].
        -- intros _. exists [], (false, p), l. split; [reflexivity|]. split; [apply T0|]. split; [constructor|]. right. split; [reflexivity|exact R].
      * intros (l1 & c & l2 & E & T & F & D). destruct l1 as [|c' l1]; cbn [app] in E; injection E as E1 E.
        -- subst c. destruct D as [[_ D]|[_ D]]; [discriminate|]. cbn [snd] in D. now rewrite D.
        -- subst c'. inversion F as [|? ? (y & M & K) F']; subst. cbn [fst snd] in *. apply run_iff in M. rewrite M. apply IH.
           exists l1, c, l2. apply turn_cons in T as [_ T]. auto.
    + split; [|reflexivity]. intros _. exists [], (false, p), l. split; [reflexivity|]. split; [apply T0|]. split; [constructor|]. left. now split.
Qed.

Lemma panic_iff p : run p = CPanic <-> misuses p.
Proof.
  induction p as [v|l IH|l IH|l IH|l IH] using script_ind'; cbn [run].
  - split; [destruct (ser v); discriminate|intros M; inversion M].
  - split.
    + destruct (run_all run l) as [ys| |] eqn:A; cbn [cmap]; try discriminate. intros _. apply all_panic in A as (l1 & p & l2 & -> & F & P).
      apply MisSeq; [exact F|]. apply Forall_elt in IH. now apply IH.
    + intros M. inversion M as [| | |l1 p l2 F P| |]; subst. apply Forall_elt in IH. apply IH in P.
      now rewrite (proj2 (all_panic _)) by eauto 6.
  - split.
    + destruct (run_all run l) as [ys| |] eqn:A; cbn [cmap]; try discriminate. intros _. apply all_panic in A as (l1 & p & l2 & -> & F & P).
      apply MisTuple; [exact F|]. apply Forall_elt in IH. now apply IH.
    + intros M. inversion M as [| | | |l1 p l2 F P|]; subst. apply Forall_elt in IH. apply IH in P.
      now rewrite (proj2 (all_panic _)) by eauto 6.
  - split.
    + destruct (run_map run None [] l) as [xs| |] eqn:A; cbn [cmap]; try discriminate. intros _.
      apply map_panic in A as (l1 & [b p] & l2 & -> & T & F & D). apply Forall_elt in IH. cbn [fst snd] in *.
      assert (W : all_well l1) by (split; [now apply in_turn_iff|exact F]).
      destruct D as [[-> D]|[D P]]; [apply MisHere; [exact W|now apply keyless_iff]|]. destruct b.
      * apply MisKey; [exact W|now apply IH].
      * apply MisValue; [exact W| |now apply IH]. rewrite keyless_iff, D by reflexivity. discriminate.
    + intros M. assert (A : run_map run None [] l = CPanic); [|now rewrite A]. apply map_panic. cbn zeta.
      inversion M as [l1 v l2 [T F] K|l1 k l2 [T F] P|l1 v l2 [T F] K P| | |]; subst; apply in_turn_iff in T; apply Forall_elt in IH; cbn [snd] in IH.
      * exists l1, (false, v), l2. split; [reflexivity|]. split; [exact T|]. split; [exact F|]. left. split; [reflexivity|now apply keyless_iff].
      * exists l1, (true, k), l2. split; [reflexivity|]. split; [exact T|]. split; [exact F|]. right. split; [discriminate|now apply IH].
      * exists l1, (false, v), l2. split; [reflexivity|]. split; [exact T|]. split; [exact F|]. right. split; [|now apply IH].
        intros _. destruct (pend false l1) eqn:Q; [reflexivity|]. now apply keyless_iff in Q.
  - split.
    + destruct (run_fields run l) as [ys| |] eqn:A; cbn [cmap]; try discriminate. intros _. apply fields_panic in A as (l1 & n & p & l2 & -> & F & P).
      apply MisStruct; [exact F|]. apply Forall_elt in IH. now apply IH.
    + intros M. inversion M as [| | | | |l1 n p l2 F P]; subst. apply Forall_elt in IH. apply IH in P.
      now rewrite (proj2 (fields_panic _)) by eauto 7.
Qed.

Lemma orderly_safe p : orderly p -> ~ misuses p.
Proof.
  induction p as [v|l IH|l IH|l IH|l IH] using script_ind'; intros O M; inversion O; subst; inversion M; subst;
    try (match goal with H : in_turn _ |- _ => eelim H; [reflexivity|assumption] end);
    apply Forall_elt in IH; cbn [snd] in IH;
    match goal with H : Forall _ (_ ++ _ :: _) |- _ => apply Forall_elt in H; cbn [snd] in H; now apply IH end.
Qed.

(** ---- derived impls ---- *)

Definition res (o : option yaml) : cres yaml := match o with Some y => CVal y | None => CErr end.
Lemma all_ser l : Forall (fun v => run (calls_of v) = res (ser v)) l ->
  run_all run (map calls_of l) = match opt_map ser l with Some ys => CVal ys | None => CErr end.
Proof.
  intros H. induction H as [|v l Hv _ IH]; cbn [map run_all opt_map]; [reflexivity|]. rewrite Hv, IH.
  destruct (ser v); cbn [res]; [|reflexivity]. destruct (opt_map ser l); reflexivity.
Qed.
Lemma fields_ser (l : list (str * sval)) : Forall (fun f => run (calls_of (snd f)) = res (ser (snd f))) l ->
  run_fields run (map (fun f => match f with (n, v) => (n, calls_of v) end) l) =
  match opt_map (fun kv => match kv with (k, v) => option_map (fun y => (k, y)) (ser v) end) l with Some ys => CVal ys | None => CErr end.
Proof.
  intros H. induction H as [|[n v] l Hv _ IH]; cbn [map run_fields opt_map]; [reflexivity|]. cbn [snd] in Hv. rewrite Hv, IH.
  destruct (ser v); cbn [res option_map]; [|reflexivity].
  destruct (opt_map (fun kv => match kv with (k, v) => option_map (fun y => (k, y)) (ser v) end) l); reflexivity.
Qed.
Lemma map_ser (l : list (sval * sval)) : Forall (fun kv => run (calls_of (fst kv)) = res (ser (fst kv)) /\ run (calls_of (snd kv)) = res (ser (snd kv))) l ->
  forall en, run_map run None en (flat_map (fun kv => match kv with (k, v) => [(true, calls_of k); (false, calls_of v)] end) l) =
  match opt_map (fun kv => match kv with
                            | (k, v) =>
                                match ser k with
                                | Some yk =>
                                    match yaml_to_key_string yk with
                                    | Some ks => option_map (fun y => (ks, y)) (ser v)
                                    | None => None
                                    end
                                | None => None
                                end
                            end) l with Some ys => CVal (en ++ ys) | None => CErr end.
Proof.
  intros H. induction H as [|[k v] l [Hk Hv] _ IH]; intros en; cbn [flat_map app run_map opt_map]; [now rewrite app_nil_r|].
  cbn [fst snd] in Hk, Hv. rewrite Hk. destruct (ser k) as [yk|]; cbn [res]; [|reflexivity].
  destruct (yaml_to_key_string yk) as [s|]; [|reflexivity]. rewrite Hv. destruct (ser v) as [y|]; cbn [res option_map]; [|reflexivity].
  rewrite IH.
  match goal with |- context [opt_map ?f l] => destruct (opt_map f l) end; [|reflexivity]. now rewrite <- app_assoc.
Qed.
Lemma calls_ser v : run (calls_of v) = res (ser v).
Proof.
  induction v using sval_ind'; try reflexivity; cbn [calls_of run ser]; try assumption.
  - rewrite (all_ser l H). destruct (opt_map ser l); reflexivity.
  - rewrite (all_ser l H). destruct (opt_map ser l); reflexivity.
  - rewrite (map_ser l H). match goal with |- context [opt_map ?f l] => destruct (opt_map f l) end; reflexivity.
  - rewrite (fields_ser l H). match goal with |- context [opt_map ?f l] => destruct (opt_map f l) end; reflexivity.
  - rewrite (all_ser l H). destruct (opt_map ser l); reflexivity.
  - rewrite (fields_ser l H). match goal with |- context [opt_map ?f l] => destruct (opt_map f l) end; reflexivity.
Qed.
Lemma calls_orderly v : orderly (calls_of v).
Proof.
  induction v using sval_ind'; cbn [calls_of]; try apply OrdOne; try assumption.
  - constructor. induction H; constructor; assumption.
  - constructor. induction H; constructor; assumption.
  - constructor.
    + apply in_turn_iff. induction H as [|[k v] l _ _ IH]; cbn [flat_map app].
      * intros [|c0 l0] q0 l2 E; discriminate.
      * apply turn_cons. split; [discriminate|]. apply turn_cons. split; [reflexivity|exact IH].
    + induction H as [|[k v] l [Hk Hv] _ IH]; cbn [flat_map app]; [constructor|]. constructor; [exact Hk|]. constructor; [exact Hv|exact IH].
  - constructor. induction H as [|[k v] l Hv _ IH]; constructor; assumption.
  - constructor. induction H; constructor; assumption.
  - constructor. induction H as [|[k v] l Hv _ IH]; constructor; assumption.
Qed.
