(** References mean what they refer to. *)
From Coq Require Import ZArith Lia Wf_nat.
From Verif Require Import Base Ast Strings Format Num Pretty Ser De Attr Peg YamlGrammar Consume FromStr Spec_Pretty Spec_Serde Spec_Look Spec_Typed Spec_Attr Spec_Buffer Spec_Refs
  LookFacts LookFacts2 AttrFacts AttrFacts2 AttrFacts3 TypedFacts TypedFacts3 TypedFacts4 NodeFacts2 RefsFacts RefsFacts2.
Import ListNotations.

Scheme unfolds_i := Minimality for unfolds Sort Prop
  with unfolds_hash_i := Minimality for unfolds_hash Sort Prop
  with unfolds_inline_i := Minimality for unfolds_inline Sort Prop
  with unfolds_array_i := Minimality for unfolds_array Sort Prop
  with unfolds_list_i := Minimality for unfolds_list Sort Prop.

Lemma unfolds_one (D : str -> yaml -> Prop) (fun_D : forall n y z, D n y -> D n z -> y = z) y z : unfolds D y z -> forall z', unfolds D y z' -> z = z'.
Proof.
  intros H. revert y z H.
  refine (unfolds_i D (fun y z => forall z', unfolds D y z' -> z = z')
    (fun l m => forall m', unfolds_hash D l m' -> m = m') (fun l m => forall m', unfolds_inline D l m' -> m = m')
    (fun l m => forall m', unfolds_array D l m' -> m = m') (fun l m => forall m', unfolds_list D l m' -> m = m')
    _ _ _ _ _ _ _ _ _ _ _ _ _ _ _ _ _ _).
  - intros y S z' H. inversion H; subst; try discriminate. reflexivity.
  - intros n y y' Dy P _ IH z' H. inversion H as [? S|? x ? Dx Px G| | | | ]; subst; [discriminate|].
    rewrite (fun_D n x y Dx Dy) in G. now apply IH.
  - intros l l' _ IH z' H. inversion H; subst; [discriminate|]. f_equal. now apply IH.
  - intros l l' _ IH z' H. inversion H; subst; [discriminate|]. f_equal. now apply IH.
  - intros l l' _ IH z' H. inversion H; subst; [discriminate|]. f_equal. now apply IH.
  - intros l l' _ IH z' H. inversion H; subst; [discriminate|]. f_equal. now apply IH.
  - intros m' H. now inversion H.
  - intros c l l' _ IH m' H. inversion H; subst. f_equal. now apply IH.
  - intros c l l' _ IH m' H. inversion H; subst. f_equal. now apply IH.
  - intros k al y y' l l' _ IH1 _ IH2 m' H. inversion H; subst. f_equal; [|now apply IH2]. do 3 f_equal. now apply IH1.
  - intros m' H. now inversion H.
  - intros k y y' l l' _ IH1 _ IH2 m' H. inversion H; subst. f_equal; [|now apply IH2]. f_equal. now apply IH1.
  - intros m' H. now inversion H.
  - intros c l l' _ IH m' H. inversion H; subst. f_equal. now apply IH.
  - intros c l l' _ IH m' H. inversion H; subst. f_equal. now apply IH.
  - intros al y y' l l' _ IH1 _ IH2 m' H. inversion H; subst. f_equal; [|now apply IH2]. do 2 f_equal. now apply IH1.
  - intros m' H. now inversion H.
  - intros y y' l l' _ IH1 _ IH2 m' H. inversion H; subst. f_equal; [now apply IH1|now apply IH2].
Qed.

(** Nothing is left to replace. *)
Lemma unfolds_no_refs D y z : unfolds D y z -> no_refs z /\ forall n x, ~ defines z n x.
Proof.
  intros H.
  assert (G : no_refs z /\ (forall e, In e (children z) -> a_alias e = None /\ forall n x, ~ defines (a_value e) n x)).
  { revert y z H.
    assert (K : forall e : yaml, (forall e', In e' (children e) -> a_alias e' = None /\ forall n x, ~ defines (a_value e') n x) ->
                forall n x, ~ defines e n x).
    { intros e C n x F. destruct F as [r e' n I E|r e' n u I F]; destruct (C e' I) as [N X]; [congruence|exact (X _ _ F)]. }
    refine (unfolds_i D (fun y z => no_refs z /\ (forall e, In e (children z) -> a_alias e = None /\ forall n x, ~ defines (a_value e) n x))
      (fun l m => no_refs (Hash m) /\ (forall e, In e (children (Hash m)) -> a_alias e = None /\ forall n x, ~ defines (a_value e) n x))
      (fun l m => no_refs (InlineHash m) /\ (forall e, In e (children (InlineHash m)) -> a_alias e = None /\ forall n x, ~ defines (a_value e) n x))
      (fun l m => no_refs (Array m) /\ (forall e, In e (children (Array m)) -> a_alias e = None /\ forall n x, ~ defines (a_value e) n x))
      (fun l m => no_refs (InlineArray m) /\ (forall e, In e (children (InlineArray m)) -> a_alias e = None /\ forall n x, ~ defines (a_value e) n x))
      _ _ _ _ _ _ _ _ _ _ _ _ _ _ _ _ _ _); try (intros; assumption).
    - intros y S. destruct y; try discriminate; split; try exact I; intros e [].
    - split; [exact I|]. intros e [].
    - intros c l l' _ [R C]. split; [split; [exact I|exact R]|exact C].
    - intros c l l' _ [R C]. split; [split; [exact I|exact R]|exact C].
    - intros k al y y' l l' _ [R1 C1] _ [R2 C2]. split; [split; assumption|].
      intros e [<-|X]; [|now apply C2]. split; [reflexivity|now apply K].
    - split; [exact I|]. intros e [].
    - intros k y y' l l' _ [R1 C1] _ [R2 C2]. split; [split; assumption|].
      intros e [<-|X]; [|now apply C2]. split; [reflexivity|now apply K].
    - split; [exact I|]. intros e [].
    - intros c l l' _ [R C]. split; [split; [exact I|exact R]|exact C].
    - intros c l l' _ [R C]. split; [split; [exact I|exact R]|exact C].
    - intros al y y' l l' _ [R1 C1] _ [R2 C2]. split; [split; assumption|].
      intros e [<-|X]; [|now apply C2]. split; [reflexivity|now apply K].
    - split; [exact I|]. intros e [].
    - intros y y' l l' _ [R1 C1] _ [R2 C2]. split; [split; assumption|].
      intros e [<-|X]; [|now apply C2]. split; [reflexivity|now apply K]. }
  destruct G as [R C]. split; [exact R|]. intros n x F.
  destruct F as [r e' n I E|r e' n u I F]; destruct (C e' I) as [N X]; [congruence|exact (X _ _ F)].
Qed.

Lemma defines_refers r n x m : defines r n x -> refers x m -> refers r m.
Proof. intros H G. induction H as [r e n H E|r e n y H F IH]; [exact (RefDeep r e m H G)|exact (RefDeep r e m H (IH G))]. Qed.

Lemma unfolds_exists r : defined r -> acyclic r -> exists r', unfolds (defines r) r r'.
Proof.
  intros Df [rank Hr].
  assert (G : forall k y, (forall m, refers y m -> refers r m /\ rank m < k) -> exists y', unfolds (defines r) y y').
  { induction k as [k IHk] using lt_wf_ind.
    - induction y using yaml_ind'; intros N; try (eexists; constructor; reflexivity).
      + assert (E : exists l', unfolds_inline (defines r) l l').
        { assert (C : forall kv, In kv l -> forall m, refers (snd kv) m -> refers r m /\ rank m < k).
          { intros kv I m F. apply (N m). apply (RefDeep _ (mkA None (snd kv))); [|exact F]. cbn.
            exact (in_map (fun kv => mkA None (snd kv)) l kv I). }
          clear N. induction H as [|[k' v] l H Hs IH]; [eexists; constructor|].
          destruct IH as [l' IH]; [intros kv I; apply C; now right|].
          destruct (H (C _ (or_introl eq_refl))) as [v' V]. exists ((k', v') :: l'). now constructor. }
        destruct E as [l' E]. exists (InlineHash l'). now constructor.
      + assert (E : exists l', unfolds_hash (defines r) l l').
        { assert (C : forall e, In (HElem e) l -> forall m, refers (a_value (he_value e)) m -> refers r m /\ rank m < k).
          { intros e I m F. apply (N m). apply (RefDeep _ (he_value e)); [|exact F]. cbn.
            apply in_flat_map. exists (HElem e). split; [exact I|now left]. }
          clear N. induction H as [|d l H Hs IH]; [eexists; constructor|].
          destruct IH as [l' IH]; [intros e I; apply C; now right|].
          destruct d as [c|c|[k' [al v]]]; [eexists; constructor; exact IH|eexists; constructor; exact IH|].
          destruct (H (C _ (or_introl eq_refl))) as [v' V]. eexists. constructor; [exact V|exact IH]. }
        destruct E as [l' E]. exists (Hash l'). now constructor.
      + assert (E : exists l', unfolds_list (defines r) l l').
        { assert (C : forall v, In v l -> forall m, refers v m -> refers r m /\ rank m < k).
          { intros v I m F. apply (N m). apply (RefDeep _ (mkA None v)); [|exact F]. cbn.
            exact (in_map (mkA None) l v I). }
          clear N. induction H as [|v l H Hs IH]; [eexists; constructor|].
          destruct IH as [l' IH]; [intros x I; apply C; now right|].
          destruct (H (C _ (or_introl eq_refl))) as [v' V]. exists (v' :: l'). now constructor. }
        destruct E as [l' E]. exists (InlineArray l'). now constructor.
      + assert (E : exists l', unfolds_array (defines r) l l').
        { assert (C : forall e, In (AElem e) l -> forall m, refers (a_value e) m -> refers r m /\ rank m < k).
          { intros e I m F. apply (N m). apply (RefDeep _ e); [|exact F]. cbn.
            apply in_flat_map. exists (AElem e). split; [exact I|now left]. }
          clear N. induction H as [|d l H Hs IH]; [eexists; constructor|].
          destruct IH as [l' IH]; [intros e I; apply C; now right|].
          destruct d as [c|c|[al v]]; [eexists; constructor; exact IH|eexists; constructor; exact IH|].
          destruct (H (C _ (or_introl eq_refl))) as [v' V]. eexists. constructor; [exact V|exact IH]. }
        destruct E as [l' E]. exists (Array l'). now constructor.
      + destruct (N s (RefHere s)) as [Rs Ls]. destruct (Df s Rs) as (x & Dx & Px).
        destruct (IHk (rank s) Ls x) as [x' X].
        { intros m F. split; [exact (defines_refers r s x m Dx F)|exact (Hr s x m Dx F)]. }
        exists x'. exact (URef _ s x x' Dx Px X). }
  assert (B : exists k, forall m, refers r m -> rank m < k).
  { clear G Df Hr. induction r using yaml_ind'.
    - assert (E : exists k, forall kv, In kv l -> forall m, refers (snd kv) m -> rank m < k).
      { induction H as [|kv l [k Hk] Hs [k' IH]]; [exists 0; intros ? []|]. exists (k + k').
        intros x [<-|X] m F; [specialize (Hk m F)|specialize (IH x X m F)]; lia. }
      destruct E as [k E]. exists k. intros m F. inversion F as [|? e ? I G]; subst. cbn in I. apply in_map_iff in I as (kv & <- & I). exact (E kv I m G).
    - assert (E : exists k, forall e, In (HElem e) l -> forall m, refers (a_value (he_value e)) m -> rank m < k).
      { induction H as [|d l Hd Hs [k' IH]]; [exists 0; intros ? []|]. destruct d as [c|c|e].
        1,2: exists k'; intros x [X|X]; [discriminate|now apply IH]. destruct Hd as [k Hk]. exists (k + k').
        intros x [X|X] m F; [injection X as <-; specialize (Hk m F)|specialize (IH x X m F)]; lia. }
      destruct E as [k E]. exists k. intros m F. inversion F as [|? e ? I G]; subst. cbn in I.
      apply in_flat_map in I as ([c|c|e'] & I & X); [destruct X|destruct X|]. destruct X as [<-|[]]. exact (E e' I m G).
    - assert (E : exists k, forall v, In v l -> forall m, refers v m -> rank m < k).
      { induction H as [|kv l [k Hk] Hs [k' IH]]; [exists 0; intros ? []|]. exists (k + k').
        intros x [<-|X] m F; [specialize (Hk m F)|specialize (IH x X m F)]; lia. }
      destruct E as [k E]. exists k. intros m F. inversion F as [|? e ? I G]; subst. cbn in I. apply in_map_iff in I as (kv & <- & I). exact (E kv I m G).
    - assert (E : exists k, forall e, In (AElem e) l -> forall m, refers (a_value e) m -> rank m < k).
      { induction H as [|d l Hd Hs [k' IH]]; [exists 0; intros ? []|]. destruct d as [c|c|e].
        1,2: exists k'; intros x [X|X]; [discriminate|now apply IH]. destruct Hd as [k Hk]. exists (k + k').
        intros x [X|X] m F; [injection X as <-; specialize (Hk m F)|specialize (IH x X m F)]; lia. }
      destruct E as [k E]. exists k. intros m F. inversion F as [|? e ? I G]; subst. cbn in I.
      apply in_flat_map in I as ([c|c|e'] & I & X); [destruct X|destruct X|]. destruct X as [<-|[]]. exact (E e' I m G).
    - exists 0. intros m F. inversion F as [?|? ? ? X]; destruct X.
    - exists 0. intros m F. inversion F as [?|? ? ? X]; destruct X.
    - exists 0. intros m F. inversion F as [?|? ? ? X]; destruct X.
    - exists 0. intros m F. inversion F as [?|? ? ? X]; destruct X.
    - exists 0. intros m F. inversion F as [?|? ? ? X]; destruct X.
    - exists (S (rank s)). intros m F. inversion F as [?|? ? ? X]; subst; [lia|destruct X]. }
  destruct B as [k B]. apply (G k). intros m F. split; [exact F|now apply B].
Qed.

(** Both readers, from the root. *)
Section Root.
  Context (r r' : yaml) (Un : unique r) (U : unfolds (defines r) r r').
  Lemma root_f : Rf (defines r) tt r r'.
  Proof. split; [intros n x H; exact H|exact U]. Qed.
  Lemma closed_root n y m z : defines r n y -> defines y m z -> defines r m z.
  Proof. apply defines_trans. Qed.
  Lemma refs_sound t v : from_yaml t r = Some v -> from_yaml t r' = Some v.
  Proof.
    intros H. unfold from_yaml in *. assert (G := f_de (defines r) Un closed_root t tt r r' [] [] root_f (fun n x X => match X : False with end)).
    cbv beta in G. destruct (de t r []) as [[w a]|]; [|discriminate]. injection H as ->. cbn in G. destruct G as (b & G & _).
    destruct (de t r' []) as [[w b']|]; cbn in G; [|discriminate]. now injection G as ->.
  Qed.
  Lemma refs_sound_read fuel t v a : read_yaml fuel t r = Done v a -> exists b, read_yaml fuel t r' = Done v b.
  Proof.
    intros H. unfold read_yaml in *. assert (G := f_read (defines r) Un closed_root fuel t tt r r' [] [] root_f (fun n x X => match X : False with end)).
    rewrite H in G. destruct G as (b & G & _). now exists b.
  Qed.
  Lemma refs_sound_any fuel v a : de_any fuel r [] = Done v a -> exists b, de_any fuel r' [] = Done v b.
  Proof.
    intros H. assert (G := f_any (defines r) Un closed_root fuel fuel (le_n _) tt r r' [] [] root_f (fun n x X => match X : False with end)).
    rewrite H in G. destruct G as (b & G & _). now exists b.
  Qed.
  Context (Sc : in_scope r).
  Lemma good0 : good (defines r) (fun _ => False).
  Proof. intros n x []. Qed.
  Definition w0 : world (defines r) := exist _ (fun _ => False) good0.
  Lemma root_b : Rb (defines r) (depth r') w0 r' r.
  Proof. split; [intros n x H; exact H|]. split; [exact U|]. split; [exact Sc|apply le_n]. Qed.
  Lemma root_Ab : Ab (defines r) w0 [] [].
  Proof. split; [intros n x []|intros n []]. Qed.
  Lemma refs_complete t : from_yaml t r = from_yaml t r'.
  Proof.
    destruct (from_yaml t r') as [v|] eqn:H.
    - unfold from_yaml in *.
      assert (G := b_de (defines r) Un closed_root (depth r') t (depth_pos r') w0 r' r [] [] root_b root_Ab).
      cbv beta in G. destruct (de t r' []) as [[w a]|]; [|discriminate]. injection H as ->. cbn in G. destruct G as (b & G & _).
      destruct (de t r []) as [[w b']|]; cbn in G; [|discriminate]. cbn. now injection G as ->.
    - destruct (from_yaml t r) as [v|] eqn:F; [|reflexivity]. rewrite (refs_sound t v F) in H. discriminate.
  Qed.
  Lemma refs_complete_read fuel t v : 2 * depth r' <= fuel ->
    ((exists a, read_yaml fuel t r = Done v a) <-> (exists a, read_yaml fuel t r' = Done v a)).
  Proof.
    intros L. split; intros [a H]; [exact (refs_sound_read fuel t v a H)|]. unfold read_yaml in *.
    assert (G := b_read (defines r) Un closed_root fuel (depth r') t (depth_pos r') L w0 r' r [] [] root_b root_Ab).
    rewrite H in G. destruct G as (b & G & _). now exists b.
  Qed.
  Lemma refs_complete_any fuel v : 2 * depth r' <= fuel ->
    ((exists a, de_any fuel r [] = Done v a) <-> (exists a, de_any fuel r' [] = Done v a)).
  Proof.
    intros L. split; intros [a H]; [exact (refs_sound_any fuel v a H)|].
    assert (G := b_any (defines r) Un closed_root fuel (depth r') fuel L w0 r' r [] [] root_b root_Ab).
    rewrite H in G. destruct G as (b & G & _). now exists b.
  Qed.
  Lemma refs_means t v : distinct t -> (from_yaml t r = Some v <-> means t (seen r') v).
  Proof. intros Dt. rewrite refs_complete. apply from_means; [exact Dt|]. exact (proj1 (unfolds_no_refs _ _ _ U)). Qed.
  Lemma refs_xmeans fuel t v : plain_type t -> 2 * depth r' <= fuel ->
    ((exists a, read_yaml fuel t r = Done v a) <-> xmeans t (look any_word r') v).
  Proof.
    intros P L. rewrite (refs_complete_read fuel t v L). apply read_means; [exact P| |lia].
    exact (proj1 (unfolds_no_refs _ _ _ U)).
  Qed.
End Root.

Lemma refs_file ut t s d cs y rest y' : parse_yaml ut s = CVal d -> items d = map DComment cs ++ DYaml y :: rest ->
  unique y -> in_scope y -> unfolds (defines y) y y' -> distinct t ->
  forall v, from_yaml_str ut t s = CVal v <-> means t (seen y') v.
Proof.
  intros P E Un Sc U D v. unfold from_yaml_str. rewrite P, E, first_yaml_comments, <- (refs_means y y' Un U Sc t v D).
  destruct (from_yaml t y); split; intros H; try discriminate; injection H as ->; reflexivity.
Qed.

(** Lists of the labels and references of a tree, for examples. *)
Definition own_def (e : aliased) : list (str * yaml) := match a_alias e with Some n => [(n, a_value e)] | None => [] end.
Fixpoint defs (y : yaml) : list (str * yaml) :=
  match y with
  | Hash l => flat_map (fun d => match d with HElem (mkHE _ (mkA al v)) => own_def (mkA al v) ++ defs v | _ => [] end) l
  | InlineHash l => flat_map (fun kv => match kv with (_, v) => defs v end) l
  | Array l => flat_map (fun d => match d with AElem (mkA al v) => own_def (mkA al v) ++ defs v | _ => [] end) l
  | InlineArray l => flat_map defs l
  | _ => []
  end.
Lemma defs_child y e : In e (children y) -> incl (own_def e ++ defs (a_value e)) (defs y).
Proof.
  intros H x I. destruct y; cbn in H; try destruct H; cbn [defs].
  - apply in_map_iff in H as ([k v] & <- & H). apply in_flat_map. exists (k, v). split; [exact H|exact I].
  - apply in_flat_map in H as ([c|c|[k [al v]]] & H & E); try destruct E as [<-|[]]; try destruct E.
    apply in_flat_map. eexists. split; [exact H|exact I].
  - apply in_map_iff in H as (v & <- & H). apply in_flat_map. exists v. split; [exact H|exact I].
  - apply in_flat_map in H as ([c|c|[al v]] & H & E); try destruct E as [<-|[]]; try destruct E.
    apply in_flat_map. eexists. split; [exact H|exact I].
Qed.
Lemma defs_in y n x : defines y n x -> In (n, x) (defs y).
Proof.
  intros H. induction H as [r e n H E|r e n y H F IH]; apply (defs_child r e H); apply in_or_app.
  - left. unfold own_def. rewrite E. now left.
  - now right.
Qed.
Fixpoint refs (y : yaml) : list str :=
  match y with
  | Hash l => flat_map (fun d => match d with HElem (mkHE _ (mkA al v)) => refs v | _ => [] end) l
  | InlineHash l => flat_map (fun kv => match kv with (_, v) => refs v end) l
  | Array l => flat_map (fun d => match d with AElem (mkA al v) => refs v | _ => [] end) l
  | InlineArray l => flat_map refs l
  | Anchor n => [n]
  | _ => []
  end.
Lemma refs_child y e : In e (children y) -> incl (refs (a_value e)) (refs y).
Proof.
  intros H x I. destruct y; cbn in H; try destruct H; cbn [refs].
  - apply in_map_iff in H as ([k v] & <- & H). apply in_flat_map. exists (k, v). split; [exact H|exact I].
  - apply in_flat_map in H as ([c|c|[k [al v]]] & H & E); try destruct E as [<-|[]]; try destruct E.
    apply in_flat_map. eexists. split; [exact H|exact I].
  - apply in_map_iff in H as (v & <- & H). apply in_flat_map. exists v. split; [exact H|exact I].
  - apply in_flat_map in H as ([c|c|[al v]] & H & E); try destruct E as [<-|[]]; try destruct E.
    apply in_flat_map. eexists. split; [exact H|exact I].
Qed.
Lemma refs_in y n : refers y n -> In n (refs y).
Proof. intros H. induction H as [n|r e n H F IH]; [now left|]. exact (refs_child r e H n IH). Qed.
