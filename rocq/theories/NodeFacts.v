(** Reading nodes as types with serde attributes: collections and fields. *)
From Coq Require Import ZArith Lia.
From Verif Require Import Base Ast Strings Num Ser De Attr Spec_Pretty Spec_Serde Spec_Look Spec_Typed Spec_Attr Spec_Buffer
  LookFacts TypedFacts TypedFacts2 TypedFacts3 AttrFacts AttrFacts2 AttrFacts3 AttrFacts7 BufferFacts BufferFacts2 BufferFacts3.
Import ListNotations.

Definition gives {A} (o : outcome A) (v : A) : Prop := exists a, o = Done v a.
Lemma gives_opt {A} (o : dres A) v : gives (of_opt o) v <-> exists a, o = Some (v, a).
Proof. unfold gives. destruct o as [[x a]|]; cbn; split; intros (b & E); try discriminate; injection E as -> ->; eauto. Qed.
Lemma gives_map {A B} (f : A -> B) o w : gives (o_map f o) w <-> exists v, gives o v /\ w = f v.
Proof.
  unfold gives. destruct o as [x a| |]; cbn; split.
  - intros (b & E). injection E as <- <-. eauto.
  - intros (v & (b & E) & ->). injection E as -> ->. eauto.
  - intros (b & E); discriminate.
  - intros (v & (b & E) & _); discriminate.
  - intros (b & E); discriminate.
  - intros (v & (b & E) & _); discriminate.
Qed.
Lemma gives_bind {A B} (o : outcome A) (f : A -> anchors -> outcome B) w :
  gives (o_bind o f) w <-> exists v a, o = Done v a /\ gives (f v a) w.
Proof.
  unfold gives. destruct o as [x a| |]; cbn; split.
  - eauto.
  - intros (v & a0 & E & H). injection E as -> ->. exact H.
  - intros (b & E); discriminate.
  - intros (v & a0 & E & _); discriminate.
  - intros (b & E); discriminate.
  - intros (v & a0 & E & _); discriminate.
Qed.
Lemma gives_done {A} (x : A) a v : gives (Done x a) v <-> v = x.
Proof. unfold gives. split; [intros (b & E); congruence|intros ->; eauto]. Qed.
Lemma gives_failed {A} (v : A) : ~ gives Failed v.
Proof. intros (a & E); discriminate. Qed.

Notation see := (look any_word).

Section Nodes.
  Context (fuel : nat).
  Definition ok (y : yaml) : Prop := no_refs y /\ depth y <= fuel.
  Definition goodn (d : yaml -> anchors -> outcome sval) (M : looks -> sval -> Prop) : Prop :=
    forall y a v, ok y -> (gives (d y a) v <-> M (see y) v).

  (** ---- views ---- *)
  Lemma seq_see y a : ok y ->
    match see y with
    | LSeq es => exists ys a', de_seq_values y a = Some (ys, a') /\ Forall ok ys /\ map see ys = map snd es
    | _ => de_seq_values y a = None
    end.
  Proof.
    intros [N D]. rewrite de_seq_eq, (resolved y a N). pose proof (read_seq_elts y a) as R.
    destruct (elts y) as [es|] eqn:E.
    - destruct R as (a' & ->). destruct (elts_facts y es E N) as (F & _ & L). destruct (L any_word) as (als & -> & Q).
      exists es, a'. split; [reflexivity|]. split; [|now symmetry]. eapply Forall_impl; [|exact F]. intros v [A B]. split; [exact A|lia].
    - rewrite R. destruct y; cbn [elts] in E; try discriminate; cbn [look]; try reflexivity. now destruct (any_word s).
  Qed.
  Lemma map_see y a : ok y ->
    match see y with
    | LMap es => exists ys a', de_map_entries y a = Some (ys, a') /\ Forall (fun kv => ok (snd kv)) ys /\
                   map (fun kv => (fst kv, see (snd kv))) ys = map (fun e => (fst e, snd (snd e))) es
    | _ => de_map_entries y a = None
    end.
  Proof.
    intros [N D]. rewrite de_map_eq, (resolved y a N). pose proof (read_map_ents y a) as R.
    destruct (ents y) as [es|] eqn:E.
    - destruct R as (a' & ->). destruct (ents_facts y es E N) as (F & _ & L). destruct (L any_word) as (als & -> & Q).
      exists es, a'. split; [reflexivity|]. split; [|now symmetry]. eapply Forall_impl; [|exact F]. intros v [A B]. split; [exact A|lia].
    - rewrite R. destruct y; cbn [ents] in E; try discriminate; cbn [look]; try reflexivity. now destruct (any_word s).
  Qed.
  Lemma text_see y a s : ok y -> de_text y a = Some s <-> text (see y) s.
  Proof. intros [N D]. rewrite (text_look y a N). apply node_text_iff. Qed.
  Lemma see_key k : see (Unquoted k) = key_look k.
  Proof. reflexivity. Qed.
  Lemma ok_key k y : ok y -> ok (Unquoted k).
  Proof. intros [_ D]. split; [exact I|]. pose proof (depth_pos y). cbn. lia. Qed.

  Lemma enum_view y a : ok y -> de_enum_content y a =
    match de_map_entries y a with
    | Some ([(n, v)], a1) => Some (n, v, a1)
    | Some _ => None
    | None => match de_text y a with Some s => Some (s, Unquoted (lit "~"), a) | None => None end
    end.
  Proof.
    intros [N D]. unfold de_enum_content, de_map_entries, de_text. rewrite (resolved y a N).
    destruct y as [l| | | | | | | | |]; try reflexivity.
  Qed.
  Lemma names_see y a n : ok y ->
    (forall c a1, de_enum_content y a = Some (n, c, a1) -> ok c /\ names (see y) n (see c)) /\
    (forall l, names (see y) n l -> exists c a1, de_enum_content y a = Some (n, c, a1) /\ ok c /\ see c = l).
  Proof.
    intros O. rewrite (enum_view y a O). pose proof (map_see y a O) as V. pose proof (fun s => text_see y a s O) as T. split.
    - intros c a1 E.
      assert (X : forall q, de_map_entries y a = None -> (q : Prop) -> ok c /\ names (see y) n (see c)).
      { intros q M _. rewrite M in E. destruct (de_text y a) as [s|] eqn:Es; [|discriminate]. injection E as <- <- <-.
        split; [eapply ok_key; exact O|]. left. split; [now apply T|reflexivity]. }
      destruct (see y) as [s|s|es|es|r] eqn:S; try (apply (X True V I)).
      destruct V as (ys & a' & D & F & Q). rewrite D in E. destruct ys as [|[k v] [|]]; try discriminate. injection E as <- <- <-.
      inversion F; subst. split; [assumption|]. right. destruct es as [|[k' [al w]] [|]]; try discriminate. cbn in Q. injection Q as -> ->. eauto.
    - intros l [[Tx ->]|(al & S)].
      + assert (M : de_map_entries y a = None) by (destruct Tx as [S|S]; rewrite S in V; exact V).
        rewrite M. apply T in Tx. rewrite Tx. exists (Unquoted (lit "~")), a. split; [reflexivity|]. split; [eapply ok_key; exact O|reflexivity].
      + rewrite S in V. destruct V as (ys & a' & -> & F & Q). destruct ys as [|[k v] [|]]; try discriminate. cbn in Q. injection Q as -> <-.
        inversion F; subst. eauto.
  Qed.

  (** ---- collections ---- *)
  Lemma elems_iff d M : goodn d M -> forall ys a vs, Forall ok ys -> (gives (n_elems d ys a) vs <-> all2 M (map see ys) vs).
  Proof.
    intros G ys. induction ys as [|y ys IH]; intros a vs F; cbn [n_elems map].
    - rewrite gives_done. split; [intros ->; exact I|]. now destruct vs.
    - inversion F; subst. rewrite gives_bind. split.
      + intros (v & a1 & D & H). apply gives_map in H as (ws & H & ->). cbn. split; [apply (G y a v); [assumption|exists a1; exact D]|].
        now apply IH in H.
      + destruct vs as [|v vs]; [easy|]. cbn. intros [A B]. apply (G y a v) in A as (a1 & E); [|assumption].
        exists v, a1. split; [exact E|]. apply gives_map. exists vs. split; [|reflexivity]. now apply IH.
  Qed.
  Lemma tuplen_iff (d : xty -> yaml -> anchors -> outcome sval) (M : xty -> looks -> sval -> Prop) ts : Forall (fun t => goodn (d t) (M t)) ts ->
    forall ys a vs, Forall ok ys -> (gives (n_tuple (map d ts) ys a) vs <-> exists es rest, map see ys = es ++ rest /\ all3 M ts es vs).
  Proof.
    induction 1 as [|t ts G _ IH]; intros ys a vs F; cbn [n_tuple map].
    - rewrite gives_done. split.
      + intros ->. exists [], (map see ys). split; [reflexivity|exact I].
      + intros (es & rest & _ & H). destruct es, vs; easy.
    - destruct ys as [|y ys].
      + split; [intros H; destruct (gives_failed _ H)|]. intros (es & rest & E & H). destruct es; [destruct H|discriminate].
      + inversion F; subst. cbn [map]. rewrite gives_bind. split.
        * intros (v & a1 & D & H). apply gives_map in H as (ws & H & ->). apply IH in H as (es & rest & E & H); [|assumption].
          exists (see y :: es), rest. split; [now rewrite E|]. cbn. split; [|exact H]. apply (G y a v); [assumption|exists a1; exact D].
        * intros (es & rest & E & H). destruct es as [|e es]; [destruct H|]. destruct vs as [|v vs]; [destruct H|].
          injection E as <- E. destruct H as [A B]. apply (G y a v) in A as (a1 & D); [|assumption].
          exists v, a1. split; [exact D|]. apply gives_map. exists vs. split; [|reflexivity]. apply IH; [assumption|eauto].
  Qed.
  Lemma entriesn_iff dk dv K V : goodn dk K -> goodn dv V -> forall ys a vs, Forall (fun kv => ok (snd kv)) ys ->
    (gives (n_entries dk dv ys a) vs <->
     all2 (fun e x => K (key_look (fst e)) (fst x) /\ V (snd e) (snd x)) (map (fun kv => (fst kv, see (snd kv))) ys) vs).
  Proof.
    intros GK GV. induction ys as [|[k y] ys IH]; intros a vs F; cbn [n_entries map].
    - rewrite gives_done. split; [intros ->; exact I|]. now destruct vs.
    - inversion F as [|? ? Oy Os]; subst. cbn [fst snd] in *. pose proof (ok_key k y Oy) as Ok. rewrite gives_bind. split.
      + intros (vk & a0 & D0 & H). apply gives_bind in H as (v & a1 & D & H). apply gives_map in H as (ws & H & ->). cbn. split; [split|].
        * rewrite <- see_key. apply (GK _ a vk Ok). exists a0; exact D0.
        * apply (GV _ a0 v Oy). exists a1; exact D.
        * now apply IH in H.
      + destruct vs as [|[vk v] vs]; [easy|]. cbn. intros [[A B] C]. rewrite <- see_key in A. apply (GK _ a vk Ok) in A as (a0 & D0).
        apply (GV _ a0 v Oy) in B as (a1 & D). exists vk, a0. split; [exact D0|]. apply gives_bind. exists v, a1. split; [exact D|].
        apply gives_map. exists vs. split; [|reflexivity]. now apply IH.
  Qed.

  (** ---- fields ---- *)
  Definition steady (r : reader) : Prop := forall y a v, ok y -> (gives (r_node r y a) v <-> gives (r_node r y []) v).
  Definition nafter (l : list (str * yaml)) (f g : xfield) : Prop :=
    x_name g = x_name f /\ x_read g = x_read f /\ x_opt g = x_opt f /\
    ((~ In (x_name f) (map fst l) /\ x_val g = x_val f) \/
     (exists y v, only l (x_name f) y /\ x_val f = None /\ gives (r_node (x_read f) y []) v /\ x_val g = Some v)).
  Lemma only_in {A} (l : list (str * A)) n c : only l n c -> In n (map fst l).
  Proof. intros (b & d & -> & _). rewrite map_app, in_app_iff. right. now left. Qed.
  Lemma only_cons {A} e (l : list (str * A)) n c : only (e :: l) n c <-> (e = (n, c) /\ ~ In n (map fst l)) \/ (fst e <> n /\ only l n c).
  Proof.
    split.
    - intros ([|e' b] & d & E & Nb & Nd); cbn in E; injection E as -> ->.
      + left. auto.
      + right. cbn in Nb. split; [tauto|]. exists b, d. tauto.
    - intros [[-> N]|[N (b & d & -> & Nb & Nd)]].
      + exists [], l. auto.
      + exists (e :: b), d. cbn. tauto.
  Qed.
  Lemma only_nil {A} n (c : A) : ~ only [] n c.
  Proof. intros ([|] & d & E & _); discriminate. Qed.
  Lemma nafter_none l f g : ~ In (x_name f) (map fst l) -> nafter l f g <-> g = f.
  Proof.
    intros N. split.
    - intros (E1 & E2 & E3 & [[_ E4]|(c & v & O & _)]); [|destruct (N (only_in _ _ _ O))].
      destruct f, g; cbn in *. congruence.
    - intros ->. repeat split. now left.
  Qed.
  Lemma nafter_cons e l f h : nafter (e :: l) f h <-> exists g, nafter [e] f g /\ nafter l g h.
  Proof.
    destruct e as [k c0]. split.
    - intros (E1 & E2 & E3 & [[N E4]|(c & v & O & E5 & E6 & E7)]).
      + cbn in N. exists f. split; [apply nafter_none; [cbn; tauto|reflexivity]|]. repeat split; auto. left. tauto.
      + apply only_cons in O as [[Ek N]|[N O]].
        * injection Ek as -> ->. exists (x_set f v). split.
          -- repeat split. right. exists c, v. split; [apply only_cons; left; split; [reflexivity|tauto]|auto].
          -- repeat split; auto.
        * exists f. split; [apply nafter_none; [cbn in *; tauto|reflexivity]|]. repeat split; auto. right. exists c, v. auto.
    - intros (g & (E1 & E2 & E3 & H1) & (F1 & F2 & F3 & H2)). rewrite E1, E2, E3 in *. repeat split; auto.
      destruct H1 as [[N1 V1]|(c & v & O1 & V0 & R1 & V1)]; destruct H2 as [[N2 V2]|(c2 & v2 & O2 & V3 & R2 & V2)].
      + left. split; [cbn in *; tauto|congruence].
      + right. exists c2, v2. split; [apply only_cons; right; cbn in *; tauto|]. rewrite V1 in V3. auto.
      + right. exists c, v. split; [|rewrite V2, V1; auto]. apply only_cons in O1 as [[-> _]|[_ O1]]; [|destruct (only_nil _ _ O1)].
        apply only_cons. left. auto.
      + congruence.
  Qed.
  Lemma nafter_same l fs gs : Forall2 (nafter l) fs gs -> map x_name gs = map x_name fs /\ map x_read gs = map x_read fs.
  Proof. induction 1 as [|f g fs gs (E1 & E2 & _) _ [IH1 IH2]]; cbn; [auto|]. now rewrite IH1, IH2, E1, E2. Qed.
  Lemma nafter_id l fs gs : (forall f, In f fs -> ~ In (x_name f) (map fst l)) -> Forall2 (nafter l) fs gs <-> gs = fs.
  Proof.
    revert gs. induction fs as [|f fs IH]; intros gs H.
    - split; [now inversion 1|intros ->; constructor].
    - split.
      + intros F. inversion F as [|? g ? gs' Hg Hs]; subst. apply nafter_none in Hg as ->; [|apply H; now left].
        apply IH in Hs as ->; [reflexivity|]. intros; apply H; now right.
      + intros ->. constructor; [apply nafter_none; [apply H; now left|reflexivity]|]. apply IH; [|reflexivity]. intros; apply H; now right.
  Qed.
  Lemma field_nafter n y a fs : ok y -> Forall (fun f => steady (x_read f)) fs -> NoDup (map x_name fs) -> forall gs,
    gives (n_field fs n y a) gs <-> Forall2 (nafter [(n, y)]) fs gs.
  Proof.
    intros Oy. induction 1 as [|f fs S _ IH]; intros ND gs; cbn [n_field].
    - rewrite gives_done. split; [intros ->; constructor|now inversion 1].
    - cbn [map] in ND. inversion ND as [|? ? N ND']; subst. destruct (seqb (x_name f) n) eqn:E.
      + apply seqb_eq in E. subst n.
        assert (Hid : forall gs, Forall2 (nafter [(x_name f, y)]) fs gs <-> gs = fs).
        { intros q. apply nafter_id. intros f' Hf'. cbn. intros [X|[]]. apply N. rewrite X. now apply in_map. }
        split.
        * destruct (x_val f) eqn:V; [intros X; destruct (gives_failed _ X)|]. rewrite gives_map. intros (v & R & ->).
          apply S in R; [|exact Oy]. constructor; [|now apply Hid]. repeat split. right. exists y, v.
          split; [apply only_cons; left; split; [reflexivity|tauto]|auto].
        * intros F. inversion F as [|? g ? gs' Hg Hs]; subst. apply Hid in Hs as ->.
          destruct Hg as (E1 & E2 & E3 & [[X _]|(c' & v & O & V & R & V')]); [cbn in X; tauto|].
          apply only_cons in O as [[X _]|[_ O]]; [|destruct (only_nil _ _ O)]. injection X as <-.
          rewrite V. apply gives_map. exists v. split; [now apply S|]. replace (x_set f v) with g; [reflexivity|].
          unfold x_set. destruct f, g; cbn in *; congruence.
      + apply seqb_neq in E. rewrite gives_map. split.
        * intros (gs' & B & ->). constructor; [apply nafter_none; [cbn; intros [Y|[]]; congruence|reflexivity]|]. now apply IH.
        * intros F. inversion F as [|? g ? gs' Hg Hs]; subst. apply IH in Hs; [|exact ND']. exists gs'. split; [exact Hs|].
          apply nafter_none in Hg as ->; [reflexivity|]. cbn. intros [Y|[]]; congruence.
  Qed.
  Lemma keep_steady l fs gs : Forall2 (nafter l) fs gs -> Forall (fun f => steady (x_read f)) fs -> Forall (fun f => steady (x_read f)) gs.
  Proof. intros F H. apply nafter_same in F as [_ E]. rewrite <- (Forall_map x_read) in H |- *. now rewrite E. Qed.
  Lemma fields_nafter l : Forall (fun kv => ok (snd kv)) l -> forall fs a,
    Forall (fun f => steady (x_read f)) fs -> NoDup (map x_name fs) -> forall gs,
    gives (n_fields fs l a) gs <-> Forall2 (nafter l) fs gs.
  Proof.
    induction 1 as [|[k y] l Oy _ IH]; intros fs a S ND gs; cbn [n_fields].
    - rewrite gives_done. symmetry. now apply nafter_id.
    - rewrite gives_bind, (Forall2_comp _ _ _ (nafter_cons (k, y) l)). cbn in Oy. split.
      + intros (ms & a1 & D & H). assert (F : Forall2 (nafter [(k, y)]) fs ms) by (apply (field_nafter k y a); auto; exists a1; exact D).
        exists ms. split; [exact F|]. apply (IH ms a1); [eapply keep_steady; eauto| |exact H]. now rewrite (proj1 (nafter_same _ _ _ F)).
      + intros (ms & F & H). pose proof F as F'. apply (field_nafter k y a) in F' as (a1 & D); auto.
        exists ms, a1. split; [exact D|]. apply IH; [eapply keep_steady; eauto| |exact H]. now rewrite (proj1 (nafter_same _ _ _ F)).
  Qed.
  Definition unknown (names : list str) (l : list (str * yaml)) : list entry :=
    map (fun kv => (AnStr (fst kv), content (snd kv))) (filter (fun kv => negb (existsb (seqb (fst kv)) names)) l).
  Lemma collect_nafter l : Forall (fun kv => ok (snd kv)) l -> forall fs a,
    Forall (fun f => steady (x_read f)) fs -> NoDup (map x_name fs) -> forall gs rest,
    gives (n_collect (de_any fuel) fs l a) (gs, rest) <-> Forall2 (nafter l) fs gs /\ rest = unknown (map x_name fs) l.
  Proof.
    induction 1 as [|[k y] l Oy _ IH]; intros fs a S ND gs rest; cbn [n_collect].
    - rewrite gives_done. split.
      + intros E. injection E as -> ->. split; [now apply nafter_id|reflexivity].
      + intros [F ->]. apply nafter_id in F; [|auto]. now subst.
    - rewrite (Forall2_comp _ _ _ (nafter_cons (k, y) l)). rewrite known_names. unfold unknown. cbn [filter fst snd] in *.
      destruct (existsb (seqb k) (map x_name fs)) eqn:Kn; cbn [negb].
      + rewrite gives_bind. split.
        * intros (ms & a1 & D & H). assert (F : Forall2 (nafter [(k, y)]) fs ms) by (apply (field_nafter k y a); auto; exists a1; exact D).
          pose proof (proj1 (nafter_same _ _ _ F)) as Nm. apply IH in H as [H ->]; [|eapply keep_steady; eauto|now rewrite Nm].
          rewrite Nm. split; [eauto|reflexivity].
        * intros [(ms & F & H) ->]. pose proof F as F'. apply (field_nafter k y a) in F' as (a1 & D); auto.
          pose proof (proj1 (nafter_same _ _ _ F)) as Nm. exists ms, a1. split; [exact D|].
          apply IH; [eapply keep_steady; eauto|now rewrite Nm|]. rewrite Nm. auto.
      + assert (Hid : forall q, Forall2 (nafter [(k, y)]) fs q <-> q = fs).
        { intros q. apply nafter_id. intros f Hf [X|[]]. cbn in X. assert (Y : existsb (seqb k) (map x_name fs) = true); [|congruence].
          apply known_iff. rewrite X. now apply in_map. }
        destruct (any_done fuel y a (proj1 Oy) (proj2 Oy)) as [a1 ->]. cbn [o_bind]. rewrite gives_map. split.
        * intros ([gs' r] & H & E). cbn in E. injection E as -> ->. apply IH in H as [H ->]; auto. split; [|reflexivity].
          exists fs. split; [now apply Hid|exact H].
        * intros [(ms & F & H) ->]. apply Hid in F as ->. exists (gs, unknown (map x_name fs) l). split; [|reflexivity]. apply IH; auto.
  Qed.

  Definition goodx (t : xty) : Prop := goodn (r_node (read fuel t)) (xmeans t).
  Lemma good_steady t : goodx t -> steady (read fuel t).
  Proof. intros G y a v O. rewrite (G y a v O), (G y [] v O). reflexivity. Qed.

  Definition field_x (es : list (str * (option str * looks))) (n : str) (t : xty) (x : str * sval) : Prop :=
    n = fst x /\
    ((exists al w, only es n (al, w) /\ xmeans t w (snd x)) \/
     (~ In n (map fst es) /\ is_xoption t = true /\ snd x = SNone)).
  Section Values.
    Context (ys : list (str * yaml)) (es : list (str * (option str * looks))) (Oys : Forall (fun kv => ok (snd kv)) ys)
      (E : map (fun kv => (fst kv, see (snd kv))) ys = map (fun e => (fst e, snd (snd e))) es).
    Lemma keys_eq : map fst ys = map fst es.
    Proof. pose proof E as Q. apply (f_equal (map fst)) in Q. rewrite !map_map in Q. exact Q. Qed.
    Lemma only_eq n w : (exists y, only ys n y /\ see y = w) <-> exists al, only es n (al, w).
    Proof.
      rewrite <- (only_map see), E, (only_map snd). split.
      - intros ([al w'] & O & <-). eauto.
      - intros (al & O). exists (al, w). auto.
    Qed.
    Lemma only_ok n y : only ys n y -> ok y.
    Proof.
      intros (b & c & -> & _). apply (proj1 (Forall_forall _ _) Oys (n, y)). rewrite in_app_iff. right. now left.
    Qed.
    Lemma value_x n t : goodx t -> forall x, (exists g, nafter ys (mk fuel (n, t)) g /\ x_value g = Some x) <-> field_x es n t x.
    Proof.
      intros G [m v]. unfold field_x. cbn [fst snd]. split.
      - intros (g & (E1 & E2 & E3 & H) & V). unfold x_value in V. cbn in E1, E2, E3, H. rewrite E1, E3 in V.
        destruct H as [[N W]|(y & w & O & _ & R & W)]; rewrite W in V.
        + destruct (is_xoption t) eqn:Op; [|discriminate]. injection V as <- <-. rewrite keys_eq in N. auto.
        + injection V as <- <-. split; [reflexivity|]. left. destruct (proj1 (only_eq n (see y))) as (al & O'); [eauto|].
          exists al, (see y). split; [exact O'|]. apply (G y [] w); [eapply only_ok; eauto|exact R].
      - intros [-> [(al & w & O & B)|(N & Op & ->)]].
        + destruct (proj2 (only_eq m w)) as (y & Oy & <-); [eauto|]. apply (G y [] v) in B; [|eapply only_ok; eauto].
          exists (mkX m (read fuel t) (is_xoption t) (Some v)). split; [|reflexivity]. repeat split. right. exists y, v. cbn. auto.
        + exists (mk fuel (m, t)). split; [apply nafter_none; [cbn; now rewrite keys_eq|reflexivity]|]. unfold x_value. cbn. now rewrite Op.
    Qed.
    Lemma values_x fs : Forall (fun f => goodx (snd f)) fs -> forall vs,
      (exists gs, Forall2 (nafter ys) (map (mk fuel) fs) gs /\ opt_map x_value gs = Some vs) <->
      all2 (fun f x => match f with (n, t) => field_x es n t x end) fs vs.
    Proof.
      induction 1 as [|[n t] fs G _ IH]; intros vs; cbn [map].
      - split.
        + intros (gs & F & V). inversion F; subst. cbn in V. injection V as <-. exact I.
        + destruct vs; [|easy]. intros _. exists []. split; [constructor|reflexivity].
      - cbn in G. split.
        + intros (gs & F & V). inversion F as [|? g ? gs' Hg Hs]; subst. cbn in V.
          destruct (x_value g) as [x|] eqn:X; [|discriminate]. destruct (opt_map x_value gs') as [xs|] eqn:Xs; [|discriminate].
          injection V as <-. cbn. split; [apply value_x; eauto|apply IH; eauto].
        + destruct vs as [|x vs]; [easy|]. cbn. intros [H1 H2]. apply value_x in H1 as (g & A & X); [|exact G].
          apply IH in H2 as (gs & F & Xs). exists (g :: gs). split; [constructor; auto|]. cbn. now rewrite X, Xs.
    Qed.
  End Values.
  Lemma mk_steady fs : Forall (fun f => goodx (snd f)) fs -> Forall (fun f => steady (x_read f)) (map (mk fuel) fs).
  Proof. intros G. apply Forall_map. eapply Forall_impl; [|exact G]. intros [n t] H. now apply good_steady. Qed.
  Lemma records_iff fs : Forall (fun f => goodx (snd f)) fs -> NoDup (map fst fs) -> forall y a vs, ok y ->
    (exists ys a1 gs a2, de_map_entries y a = Some (ys, a1) /\ n_fields (map (mk fuel) fs) ys a1 = Done gs a2 /\ opt_map x_value gs = Some vs) <->
    exists es, see y = LMap es /\ all2 (fun f x => match f with (n, t) => field_x es n t x end) fs vs.
  Proof.
    intros G ND y a vs O. pose proof (map_see y a O) as V. pose proof (mk_steady fs G) as St.
    assert (ND' : NoDup (map x_name (map (mk fuel) fs))) by now rewrite mk_names. split.
    - intros (ys & a1 & gs & a2 & D & N & X). destruct (see y) as [s|s|es|es|r] eqn:S; try (rewrite V in D; discriminate).
      destruct V as (ys' & a' & D' & F & E). rewrite D' in D. injection D as -> ->. exists es. split; [reflexivity|].
      apply (values_x ys es F E fs G). exists gs. split; [|exact X]. apply (fields_nafter ys F _ a1 St ND'). exists a2; exact N.
    - intros (es & S & A). rewrite S in V. destruct V as (ys & a1 & D & F & E).
      apply (values_x ys es F E fs G) in A as (gs & H & X). apply (fields_nafter ys F _ a1 St ND') in H as (a2 & N).
      exists ys, a1, gs, a2. auto.
  Qed.
End Nodes.
