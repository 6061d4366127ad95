(** Consequences: results are typed, the order of entries and unknown fields do not matter. *)
From Coq Require Import ZArith Permutation.
From Verif Require Import Base Ast Strings Format Num Pretty Ser De Peg YamlGrammar Consume FromStr Spec_Pretty Spec_Serde Spec_Look
  SerdeFacts SerdeFacts2 LookFacts Spec_Typed TypedFacts TypedFacts2 TypedFacts3.
Import ListNotations.

(** ---- typing, also with references ---- *)

Definition sound (d : decoder) (P : sval -> Prop) : Prop := forall y a v a', d y a = Some (v, a') -> P v.

Lemma sound_elems d P : sound d P -> forall ys a vs a', de_elems d ys a = Some (vs, a') -> forall v, In v vs -> P v.
Proof.
  intros S. induction ys as [|y ys IH]; cbn; intros a vs a' H v I; [injection H as <- <-; destruct I|].
  destruct (d y a) as [[w a1]|] eqn:D; [|discriminate]. destruct (de_elems d ys a1) as [[ws a2]|] eqn:D2; [|discriminate].
  injection H as <- <-. destruct I as [<-|I]; [eapply S; eauto|eapply IH; eauto].
Qed.
Lemma sound_tuple ts : Forall (fun t => sound (de t) (of_ty t)) ts -> forall ys a vs a',
  de_tuple (map de ts) ys a = Some (vs, a') -> all2 of_ty ts vs.
Proof.
  induction 1 as [|t ts St S IH]; cbn; intros ys a vs a' H; [injection H as <- <-; exact I|].
  destruct ys as [|y ys]; [discriminate|]. destruct (de t y a) as [[w a1]|] eqn:D; [|discriminate].
  destruct (de_tuple (map de ts) ys a1) as [[ws a2]|] eqn:D2; [|discriminate]. injection H as <- <-.
  cbn. split; [eapply St; eauto|eapply IH; eauto].
Qed.
Lemma sound_entries dk dv K V : sound dk K -> sound dv V -> forall ys a vs a', de_entries dk dv ys a = Some (vs, a') ->
  forall p, In p vs -> K (fst p) /\ V (snd p).
Proof.
  intros SK SV. induction ys as [|[k y] ys IH]; cbn; intros a vs a' H p I; [injection H as <- <-; destruct I|].
  destruct (dk (Unquoted k) a) as [[u a0]|] eqn:D0; [|discriminate].
  destruct (dv y a0) as [[w a1]|] eqn:D; [|discriminate]. destruct (de_entries dk dv ys a1) as [[ws a2]|] eqn:D2; [|discriminate].
  injection H as <- <-. destruct I as [<-|I]; [split; [eapply SK; eauto|eapply SV; eauto]|eapply IH; eauto].
Qed.

Definition field_inv (nt : str * ty) (f : field) : Prop :=
  f_name f = fst nt /\ f_opt f = is_option (snd nt) /\ f_de f = de (snd nt) /\
  (forall v, f_val f = Some v -> of_ty (snd nt) v).
Lemma sound_field nts : Forall (fun nt => sound (de (snd nt)) (of_ty (snd nt))) nts -> forall fs k y a fs' a',
  Forall2 field_inv nts fs -> de_field fs k y a = Some (fs', a') -> Forall2 field_inv nts fs'.
Proof.
  induction 1 as [|[n t] nts Sn S IH]; intros fs k y a fs' a' F H; inversion F as [|? f ? fs0 Hf Hs]; subst; cbn in H.
  - injection H as <- <-. constructor.
  - destruct Hf as (E1 & E2 & E3 & E4). cbn in *. destruct (seqb (f_name f) k).
    + destruct (f_val f); [discriminate|]. destruct (f_de f y a) as [[v a1]|] eqn:D; [|discriminate].
      injection H as <- <-. constructor; [|exact Hs]. unfold field_inv; cbn. repeat split; auto.
      intros w Q. injection Q as <-. rewrite E3 in D. eapply Sn; eauto.
    + destruct (de_field fs0 k y a) as [[fs1 a1]|] eqn:D; [|discriminate]. injection H as <- <-.
      constructor; [repeat split; auto|]. eapply IH; eauto.
Qed.
Lemma sound_fields nts : Forall (fun nt => sound (de (snd nt)) (of_ty (snd nt))) nts -> forall l fs a fs' a',
  Forall2 field_inv nts fs -> de_fields fs l a = Some (fs', a') -> Forall2 field_inv nts fs'.
Proof.
  intros S. induction l as [|[k y] l IH]; cbn; intros fs a fs' a' F H; [now injection H as <- <-|].
  destruct (de_field fs k y a) as [[fs1 a1]|] eqn:D; [|discriminate]. eapply IH; [|eauto]. eapply sound_field; eauto.
Qed.
Lemma option_none t : is_option t = true -> of_ty t SNone.
Proof. destruct t; try discriminate. intros _. exact I. Qed.
Lemma sound_struct nts : Forall (fun nt => sound (de (snd nt)) (of_ty (snd nt))) nts -> forall y a vs a',
  de_struct (map (fun nt : str * ty => match nt with (n, t) => mkF n (de t) (is_option t) None end) nts) y a = Some (vs, a') ->
  all2 (fun f x => match f with (n, t) => n = fst x /\ of_ty t (snd x) end) nts vs.
Proof.
  intros S y a vs a' H. unfold de_struct in H. destruct (de_map_entries y a) as [[l a1]|]; [|discriminate].
  destruct (de_fields _ l a1) as [[fs1 a2]|] eqn:D; [|discriminate].
  assert (F : Forall2 field_inv nts fs1).
  { eapply (sound_fields nts S l); [|exact D]. clear. induction nts as [|[n t] nts IH]; constructor; [|exact IH].
    unfold field_inv; cbn. repeat split; auto. discriminate. }
  destruct (opt_map field_value fs1) as [ws|] eqn:W; [|discriminate]. injection H as <- <-.
  clear - F W. revert ws W. induction F as [|[n t] f nts fs Hf F IH]; intros ws W; cbn in W.
  - injection W as <-. exact I.
  - destruct Hf as (E1 & E2 & E3 & E4). cbn in *. unfold field_value in W. destruct (f_val f) as [v|].
    + destruct (opt_map _ fs) as [us|]; [|discriminate]. injection W as <-. cbn. split; [auto|]. now apply IH.
    + rewrite E2 in W. destruct (is_option t) eqn:O; [|discriminate].
      destruct (opt_map _ fs) as [us|]; [|discriminate]. injection W as <-. cbn.
      split; [split; [auto|now apply option_none]|]. now apply IH.
Qed.

Lemma bytes_bound vs : (forall v, In v vs -> exists z, v = SInt U8 z /\ fits U8 z) ->
  forall b, In b (map (fun v => match v with SInt _ z => Z.to_N z | _ => 0%N end) vs) -> (b < 256)%N.
Proof.
  intros H b I. apply in_map_iff in I as (v & <- & I). destruct (H v I) as (z & -> & F). cbn in F. lia.
Qed.

Lemma de_typed t : sound (de t) (of_ty t).
Proof.
  induction t as [| k | | | | |t IH| | |t IH|t IH|ts IH|tk tv IHk IHv|fs IH|vs IH] using ty_ind'; intros y a v a' H.
  - cbn [de] in H. unfold de_bool in H. destruct (into_resolved y a) as [y0|]; [|discriminate]. destruct y0 as [?|?|?|?|?|?|s|? ?|? ?|?]; try discriminate.
    destruct (one_of _ s); [injection H as <- <-; exact I|]. destruct (one_of _ s); [injection H as <- <-; exact I|discriminate].
  - destruct (de_int_result k y a v a' H) as (z & -> & F & _). cbn. auto.
  - cbn [de] in H. unfold de_float in H. destruct (into_resolved y a) as [y0|]; [|discriminate]. destruct (yaml_to_string y0) as [s|]; [|discriminate].
    destruct (parse_f64_ok s) eqn:P; [|discriminate]. injection H as <- <-. now apply float_spec.
  - cbn [de] in H. destruct (de_text y a) as [[|c [|]]|]; try discriminate. injection H as <- <-. exact I.
  - cbn [de] in H. destruct (de_text y a); try discriminate. injection H as <- <-. exact I.
  - cbn [de] in H. destruct (de_seq_values y a) as [[l a1]|]; [|discriminate].
    destruct (de_elems (de_int U8) l a1) as [[vs a2]|] eqn:D; [|discriminate]. injection H as <- <-.
    cbn [of_ty]. apply bytes_bound. eapply (sound_elems (de_int U8)); [|exact D].
    intros y' b v b' H. destruct (de_int_result U8 y' b v b' H) as (z & -> & F & _). eauto.
  - cbn [de] in H. destruct (into_resolved y a) as [y'|]; [|discriminate].
    assert (Q : (v = SNone) \/ exists w b b', de t y' b = Some (w, b') /\ v = SSome w).
    { destruct y'; try (right; destruct (de t _ a) as [[w b']|] eqn:D; [|discriminate]; injection H as <- <-; eauto; fail).
      destruct (is_null_word s); [injection H as <- <-; auto|].
      right; destruct (de t _ a) as [[w b']|] eqn:D; [|discriminate]; injection H as <- <-; eauto. }
    destruct Q as [->|(w & b & b' & D & ->)]; [exact I|]. cbn. eapply IH; eauto.
  - cbn in H. injection H as <- <-. exact I.
  - cbn in H. injection H as <- <-. exact I.
  - cbn [de] in H. destruct (de t y a) as [[w b]|] eqn:D; [|discriminate]. injection H as <- <-. cbn. eapply IH; eauto.
  - cbn [de] in H. destruct (de_seq_values y a) as [[l a1]|]; [|discriminate].
    destruct (de_elems (de t) l a1) as [[vs a2]|] eqn:D; [|discriminate]. injection H as <- <-. cbn. eapply sound_elems; eauto.
  - cbn [de] in H. destruct (de_seq_values y a) as [[l a1]|]; [|discriminate].
    destruct (de_tuple (map de ts) l a1) as [[vs a2]|] eqn:D; [|discriminate]. injection H as <- <-. cbn. eapply sound_tuple; eauto.
  - cbn [de] in H. destruct (de_map_entries y a) as [[l a1]|]; [|discriminate].
    destruct (de_entries (de tk) (de tv) l a1) as [[vs a2]|] eqn:D; [|discriminate]. injection H as <- <-. cbn.
    eapply (sound_entries (de tk) (de tv)); eauto.
  - cbn [de] in H. apply (wrap_inv _ SStruct) in H as (vs & (b & H) & ->). cbn. eapply sound_struct; eauto.
  - rewrite de_enum_eq in H. destruct (de_enum_content y a) as [[[n c] a1]|]; [|discriminate].
    apply variant_some in H as (d & I & H). apply in_map_iff in I as ([m w] & E & I). unfold variant_de in E. injection E as -> <-.
    rewrite Forall_forall in IH. pose proof (IH _ I) as Hw. destruct w as [|t|ts|fs]; cbn [snd va_P] in Hw.
    + injection H as <- <-. exact I.
    + apply (wrap_inv _ (SNewV n)) in H as (u & (b & H) & ->). cbn. apply any_ex. exists (n, VaNew t). split; [exact I|].
      split; [reflexivity|]. eapply Hw; eauto.
    + destruct (de_seq_values c a1) as [[l a2]|]; [|discriminate].
      apply (wrap_inv _ (STupV n)) in H as (u & (b & H) & ->). cbn. apply any_ex. exists (n, VaTup ts). split; [exact I|].
      split; [reflexivity|]. eapply sound_tuple; eauto.
    + apply (wrap_inv _ (SStructV n)) in H as (u & (b & H) & ->). cbn. apply any_ex. exists (n, VaStruct fs). split; [exact I|].
      split; [reflexivity|]. eapply sound_struct; eauto.
Qed.
Lemma from_typed t y v : from_yaml t y = Some v -> of_ty t v.
Proof.
  unfold from_yaml. destruct (de t y []) as [[w a]|] eqn:D; cbn; [|discriminate]. intros E. injection E as <-.
  eapply de_typed; eauto.
Qed.

(** ---- the order of entries ---- *)

Lemma only_filter {A} (es : list (str * A)) n x : only es n x <-> filter (fun e => seqb (fst e) n) es = [(n, x)].
Proof.
  assert (Z : forall es : list (str * A), filter (fun e => seqb (fst e) n) es = [] <-> ~ In n (map fst es)).
  { induction es0 as [|[k z] l IH]; cbn; [tauto|]. destruct (seqb k n) eqn:E.
    - apply seqb_eq in E. subst. split; [discriminate|]. intros H. exfalso; auto.
    - rewrite IH. assert (k <> n) by (intros ->; rewrite (proj2 (seqb_eq n n) eq_refl) in E; discriminate). tauto. }
  induction es as [|[k z] l IH]; cbn.
  - split; [|discriminate]. intros (b & c & E & _). destruct b; discriminate.
  - destruct (seqb k n) eqn:E.
    + apply seqb_eq in E. subst k. split.
      * intros ([|e b] & c & Q & Nb & Nc).
        -- injection Q as -> ->. f_equal. now apply Z.
        -- injection Q as <- Q. exfalso. apply Nb. now left.
      * intros Q. injection Q as -> Q. apply Z in Q. exists [], l. cbn. auto.
    + assert (K : k <> n) by (intros ->; rewrite (proj2 (seqb_eq n n) eq_refl) in E; discriminate).
      rewrite <- IH. split.
      * intros ([|e b] & c & Q & Nb & Nc); [injection Q as Q _; congruence|]. injection Q as <- ->. exists b, c. cbn in Nb. tauto.
      * intros (b & c & -> & Nb & Nc). exists ((k, z) :: b), c. cbn. tauto.
Qed.
Lemma filter_perm {A} (f : A -> bool) l m : Permutation l m -> Permutation (filter f l) (filter f m).
Proof.
  induction 1; cbn; auto.
  - destruct (f x); auto.
  - destruct (f x), (f y); auto. apply perm_swap.
  - eapply perm_trans; eauto.
Qed.
Lemma only_perm {A} (l m : list (str * A)) n x : Permutation l m -> only l n x -> only m n x.
Proof.
  intros P. rewrite !only_filter. intros E. apply (filter_perm (fun e => seqb (fst e) n)) in P. rewrite E in P.
  now apply Permutation_length_1_inv in P.
Qed.
Lemma only_rel {A B} (R : A -> B -> Prop) l m n x : Forall2 (fun e f => fst e = fst f /\ R (snd e) (snd f)) l m ->
  only l n x -> exists z, only m n z /\ R x z.
Proof.
  intros F (b & c & -> & Nb & Nc). apply Forall2_app_inv_l in F as (b' & c' & Fb & Fc & ->).
  inversion Fc as [|? [k z] ? c1 H F1]; subst. cbn in H. destruct H as [<- H].
  assert (K : forall (l : list (str * A)) (m : list (str * B)), Forall2 (fun e f => fst e = fst f /\ R (snd e) (snd f)) l m -> map fst l = map fst m).
  { clear. induction 1 as [|? ? ? ? [E _] _ IH]; cbn; [reflexivity|]. now rewrite E, IH. }
  exists z. split; [|exact H]. exists b', c1. rewrite <- (K _ _ Fb), <- (K _ _ F1). auto.
Qed.
Lemma all2_F2 {A B} (P : A -> B -> Prop) l m : all2 P l m <-> Forall2 P l m.
Proof.
  revert m; induction l as [|x l IH]; intros [|y m]; cbn; split; intros H; try contradiction; try (inversion H; fail).
  - constructor.
  - exact I.
  - destruct H as [H1 H2]. constructor; [exact H1|now apply IH].
  - inversion H; subst. split; [assumption|now apply IH].
Qed.
Lemma F2_perm {A B} (P : A -> B -> Prop) l l' m : Permutation l l' -> Forall2 P l m ->
  exists m', Permutation m m' /\ Forall2 P l' m'.
Proof.
  intros H. revert m. induction H as [|x l l' H IH|x y l|l l' l'' H1 IH1 H2 IH2]; intros m F.
  - inversion F; subst. exists []. auto.
  - inversion F as [|? b ? m0 Hx Hl]; subst. destruct (IH m0 Hl) as (m' & Pm & F'). exists (b :: m'). auto.
  - inversion F as [|? b ? m0 Hx Hl]; subst. inversion Hl as [|? b' ? m1 Hy Hl']; subst.
    exists (b' :: b :: m1). split; [apply perm_swap|auto].
  - destruct (IH1 m F) as (m1 & P1 & F1). destruct (IH2 m1 F1) as (m2 & P2 & F2). exists m2. split; [eapply perm_trans; eauto|exact F2].
Qed.

Lemma sh_text_iff l m s : shuffled l m -> text l s -> text m s.
Proof. intros S. destruct S; unfold text; intros [E|E]; try discriminate E; auto. Qed.
Lemma sh_null l m : shuffled l m -> null l <-> null m.
Proof. intros S. destruct S; unfold null; split; intros (s' & E & I); try discriminate E; eauto. Qed.
Lemma sh_names l m n c : shuffled l m -> names l n c -> exists c', names m n c' /\ shuffled c c'.
Proof.
  intros S [[T ->]|(al & ->)].
  - exists (LWord (lit "~")). split; [|constructor]. left. split; [now apply (sh_text_iff l m)|reflexivity].
  - inversion S as [| | |? l' m' P F]; subst. apply Permutation_length_1_inv in P. subst l'.
    inversion F as [|? [k [al' w]] ? ? [E Hw] F']; subst. inversion F'; subst. cbn in *. subst k.
    exists w. split; [|exact Hw]. right. eauto.
Qed.
Lemma sh_seq_inv es m : shuffled (LSeq es) m -> exists es', m = LSeq es' /\ Forall2 (fun x y => shuffled (snd x) (snd y)) es es'.
Proof. intros S. inversion S; subst. eauto. Qed.
Lemma sh_map_inv es m : shuffled (LMap es) m -> exists l' es', m = LMap es' /\ Permutation es l' /\
  Forall2 (fun x y => fst x = fst y /\ shuffled (snd (snd x)) (snd (snd y))) l' es'.
Proof. intros S. inversion S; subst. eauto. Qed.

Definition kept (M : looks -> sval -> Prop) : Prop :=
  forall l m v, shuffled l m -> M l v -> exists w, M m w /\ same_value v w.

Lemma kept_all2 M es es' vs : kept M -> Forall2 (fun x y => shuffled (snd x) (snd y)) es es' ->
  all2 (fun (e : option str * looks) v => M (snd e) v) es vs ->
  exists ws, all2 (fun (e : option str * looks) v => M (snd e) v) es' ws /\ Forall2 same_value vs ws.
Proof.
  intros K F. revert vs. induction F as [|x y es es' S F IH]; intros [|v vs] A; cbn in A; try contradiction.
  - exists []. split; [exact I|constructor].
  - destruct A as [A1 A2]. destruct (K _ _ _ S A1) as (w & Mw & Sw). destruct (IH vs A2) as (ws & Aw & Fw).
    exists (w :: ws). cbn. auto.
Qed.
Lemma kept_all3 ts es es' vs : Forall (fun t => kept (means t)) ts -> Forall2 (fun x y => shuffled (snd x) (snd y)) es es' ->
  all3 (fun t (e : option str * looks) v => means t (snd e) v) ts es vs ->
  exists ws, all3 (fun t (e : option str * looks) v => means t (snd e) v) ts es' ws /\ Forall2 same_value vs ws.
Proof.
  intros K F. revert ts K vs. induction F as [|x y es es' S F IH]; intros [|t ts] K [|v vs] A; cbn in A; try contradiction.
  - exists []. split; [exact I|constructor].
  - inversion K as [|? ? K1 K2]; subst. destruct A as [A1 A2]. destruct (K1 _ _ _ S A1) as (w & Mw & Sw). destruct (IH ts K2 vs A2) as (ws & Aw & Fw).
    exists (w :: ws). cbn. auto.
Qed.
Lemma kept_fields fs es l' es' vs : Forall (fun f => kept (means (snd f))) fs -> Permutation es l' ->
  Forall2 (fun x y => fst x = fst y /\ shuffled (snd (snd x)) (snd (snd y))) l' es' ->
  all2 (field_is means es) fs vs ->
  exists ws, all2 (field_is means es') fs ws /\ Forall2 (fun x y => fst x = fst y /\ same_value (snd x) (snd y)) vs ws.
Proof.
  intros K P F. revert vs. induction K as [|[n t] fs K1 K IH]; intros [|[m v] vs] A; cbn in A; try contradiction.
  - exists []. split; [exact I|constructor].
  - destruct A as [[-> A1] A2]. destruct (IH vs A2) as (ws & Aw & Fw). destruct A1 as [(al & w & O & M)|(N & Op & ->)].
    + apply (only_perm es l') in O; [|exact P]. apply (only_rel (fun x y => shuffled (snd x) (snd y)) l' es') in O as ([al' w'] & O & S); [|exact F].
      cbn in S. destruct (K1 _ _ _ S M) as (u & Mu & Su). exists ((m, u) :: ws). split; [|constructor; auto].
      cbn. split; [|exact Aw]. split; [reflexivity|]. left. eauto.
    + exists ((m, SNone) :: ws). split; [|constructor; [split; [reflexivity|apply sv_refl]|exact Fw]].
      cbn. split; [|exact Aw]. split; [reflexivity|]. right. split; [|auto].
      assert (Q : map fst l' = map fst es').
      { clear - F. induction F as [|? ? ? ? [E _] _ IH]; cbn; [reflexivity|]. now rewrite E, IH. }
      rewrite <- Q. intros H. apply N. apply (Permutation_in _ (Permutation_sym (Permutation_map fst P)) H).
Qed.

Lemma means_kept t : kept (means t).
Proof.
  induction t as [| k | | | | |t IH| | |t IH|t IH|ts IH|tk tv IHk IHv|fs IH|vs IH] using ty_ind'; intros l m v S M;
    try (destruct v; cbn [means] in M; try contradiction).
  - exists (SBool b). split; [|apply sv_refl]. destruct M as (s & -> & H). inversion S; subst. exists s. auto.
  - destruct M as (-> & K1 & K2 & s & T & D). exists (SInt k z). split; [|apply sv_refl]. cbn. repeat split; auto.
    exists s. split; [now apply (sh_text_iff l m)|exact D].
  - exists (SFloat t). split; [|apply sv_refl]. destruct M as [T D]. split; [now apply (sh_text_iff l m)|exact D].
  - exists (SChar c). split; [|apply sv_refl]. now apply (sh_text_iff l m).
  - exists (SStr s). split; [|apply sv_refl]. now apply (sh_text_iff l m).
  - exists (SBytes l0). split; [|apply sv_refl]. destruct M as (es & -> & A). apply sh_seq_inv in S as (es' & -> & F).
    cbn [means]. exists es'. split; [reflexivity|]. clear - A F. revert l0 A.
    induction F as [|x y es es' S F IH]; intros [|b l0] A; cbn [all2] in *; try contradiction; [exact I|].
    destruct A as [(L & s & T & D) A]. split; [|now apply IH]. split; [exact L|]. exists s. split; [now apply (sh_text_iff (snd x))|exact D].
  - exists SNone. split; [|apply sv_refl]. now apply (sh_null l m).
  - destruct M as [N M]. destruct (IH _ _ _ S M) as (w & Mw & Sw). exists (SSome w). split; [|now apply sv_some].
    cbn. split; [|exact Mw]. intros Q. now apply N, (sh_null l m).
  - exists SUnit. split; [exact I|apply sv_refl].
  - exists SUnitStruct. split; [exact I|apply sv_refl].
  - destruct (IH _ _ _ S M) as (w & Mw & Sw). exists (SNewtype w). split; [exact Mw|now apply sv_newtype].
  - destruct M as (es & -> & A). apply sh_seq_inv in S as (es' & -> & F).
    destruct (kept_all2 _ _ _ _ IH F A) as (ws & Aw & Fw). exists (SSeq ws). split; [|now apply sv_seq]. cbn. eauto.
  - destruct M as (es & rest & -> & A). apply sh_seq_inv in S as (es' & -> & F).
    apply Forall2_app_inv_l in F as (e1 & e2 & F1 & F2 & ->).
    destruct (kept_all3 _ _ _ _ IH F1 A) as (ws & Aw & Fw). exists (STuple ws). split; [|now apply sv_tuple]. cbn. eauto.
  - destruct M as (es & -> & A). apply sh_map_inv in S as (l' & es' & -> & P & F).
    apply all2_F2 in A. destruct (F2_perm _ _ _ _ P A) as (l1 & P1 & A1).
    assert (Q : exists ws, Forall2 (fun e x => means tk (seen_key (fst e)) (fst x) /\ means tv (snd (snd e)) (snd x)) es' ws /\
                Forall2 (fun x y => same_value (fst x) (fst y) /\ same_value (snd x) (snd y)) l1 ws).
    { clear - IHv F A1. revert l1 A1. induction F as [|x y l' es' [E S] F IH]; intros l1 A1; inversion A1 as [|? [vk v] ? vs [Mk Mv] A2]; subst.
      - exists []. split; constructor.
      - destruct (IHv _ _ _ S Mv) as (w & Mw & Sw). destruct (IH vs A2) as (ws & Aw & Fw).
        exists ((vk, w) :: ws). split; constructor; auto.
        + split; [|exact Mw]. now rewrite <- E.
        + split; [apply sv_refl|exact Sw]. }
    destruct Q as (ws & Aw & Fw). exists (SMap ws). split; [|eapply sv_map; eauto]. cbn. exists es'. split; [reflexivity|]. now apply all2_F2.
  - destruct M as (es & -> & A). apply sh_map_inv in S as (l' & es' & -> & P & F).
    destruct (kept_fields fs es l' es' l0 IH P F A) as (ws & Aw & Fw). exists (SStruct ws). split; [|now apply sv_struct].
    cbn. exists es'. split; [reflexivity|exact Aw].
  - destruct M as ((c & Hn) & I). exists (SUnitV name). split; [|apply sv_refl]. cbn.
    destruct (sh_names _ _ _ _ S Hn) as (c' & Hn' & _). eauto.
  - destruct M as (c & Hn & Q). apply any_ex in Q as ([k w] & I & Q). destruct w as [|t| |]; try contradiction. destruct Q as [-> Q].
    destruct (sh_names _ _ _ _ S Hn) as (c' & Hn' & S'). rewrite Forall_forall in IH. pose proof (IH _ I) as K. cbn in K.
    destruct (K _ _ _ S' Q) as (u & Mu & Su). exists (SNewV name u). split; [|now apply sv_newv]. cbn. exists c'. split; [exact Hn'|].
    apply any_ex. eexists. split; [exact I|]. cbn. auto.
  - destruct M as (es & rest & Hn & Q). apply any_ex in Q as ([k w] & I & Q). destruct w as [| |ts|]; try contradiction. destruct Q as [-> Q].
    destruct (sh_names _ _ _ _ S Hn) as (c' & Hn' & S'). rewrite Forall_forall in IH. pose proof (IH _ I) as K. cbn in K.
    apply sh_seq_inv in S' as (es' & -> & F). apply Forall2_app_inv_l in F as (e1 & e2 & F1 & F2 & ->).
    destruct (kept_all3 _ _ _ _ K F1 Q) as (ws & Aw & Fw). exists (STupV name ws). split; [|now apply sv_tupv]. cbn. exists e1, e2. split; [exact Hn'|].
    apply any_ex. eexists. split; [exact I|]. cbn. auto.
  - destruct M as (es & Hn & Q). apply any_ex in Q as ([k w] & I & Q). destruct w as [| | |fs]; try contradiction. destruct Q as [-> Q].
    destruct (sh_names _ _ _ _ S Hn) as (c' & Hn' & S'). rewrite Forall_forall in IH. pose proof (IH _ I) as K. cbn in K.
    apply sh_map_inv in S' as (l' & es' & -> & P & F).
    destruct (kept_fields fs es l' es' l0 K P F Q) as (ws & Aw & Fw). exists (SStructV name ws). split; [|now apply sv_structv].
    cbn. exists es'. split; [exact Hn'|]. apply any_ex. eexists. split; [exact I|]. cbn. auto.
Qed.

Lemma from_shuffled t y z v : distinct t -> no_refs y -> no_refs z -> shuffled (seen y) (seen z) ->
  from_yaml t y = Some v -> exists w, from_yaml t z = Some w /\ same_value v w.
Proof.
  intros D Ny Nz S H. apply (from_means t y v D Ny) in H. destruct (means_kept t _ _ _ S H) as (w & M & Sv).
  exists w. split; [|exact Sv]. now apply from_means.
Qed.

(** ---- unknown fields ---- *)

Lemma only_known {A} (keep : str -> bool) (es : list (str * A)) n x : keep n = true ->
  only (filter (fun e => keep (fst e)) es) n x <-> only es n x.
Proof.
  intros K. rewrite !only_filter.
  assert (E : filter (fun e => seqb (fst e) n) (filter (fun e : str * A => keep (fst e)) es) = filter (fun e => seqb (fst e) n) es).
  { induction es as [|[k z] es IH]; cbn; [reflexivity|]. destruct (seqb k n) eqn:Q.
    - apply seqb_eq in Q. subst. rewrite K. cbn. now rewrite (proj2 (seqb_eq n n) eq_refl), IH.
    - destruct (keep k); cbn; [rewrite Q|]; exact IH. }
  now rewrite E.
Qed.
Lemma from_unknown fs y z es keep : distinct (TStruct fs) -> no_refs y -> no_refs z ->
  (forall n, In n (map fst fs) -> keep n = true) ->
  seen y = LMap es -> seen z = LMap (filter (fun e => keep (fst e)) es) ->
  from_yaml (TStruct fs) z = from_yaml (TStruct fs) y.
Proof.
  intros D Ny Nz K Sy Sz.
  assert (Q : forall v, means (TStruct fs) (seen z) v <-> means (TStruct fs) (seen y) v).
  { intros v. rewrite Sy, Sz. destruct v; cbn [means]; try tauto.
    assert (E : forall l, all2 (field_is means (filter (fun e => keep (fst e)) es)) fs l <-> all2 (field_is means es) fs l).
    { intros l0. apply all2_iff. intros [n t] [m v] I. unfold field_is.
      assert (Kn : keep n = true) by (apply K, in_map_iff; exists (n, t); auto).
      assert (N : ~ In n (map fst (filter (fun e => keep (fst e)) es)) <-> ~ In n (map fst es)).
      { rewrite !in_map_iff. split; intros H ([k x] & <- & J); apply H; exists (k, x); (split; [reflexivity|]).
        - apply filter_In. auto.
        - now apply filter_In in J as [J _]. }
      rewrite N. setoid_rewrite (fun al w => only_known keep es n (al, w) Kn). tauto. }
    split; intros (e & E1 & E2); injection E1 as <-; eexists; (split; [reflexivity|]); apply E, E2. }
  destruct (from_yaml (TStruct fs) y) as [v|] eqn:Hy.
  - apply from_means; [assumption..|]. apply Q. now apply from_means.
  - destruct (from_yaml (TStruct fs) z) as [v|] eqn:Hz; [|reflexivity].
    apply from_means in Hz; [|assumption..]. apply Q in Hz. apply from_means in Hz; [|assumption..]. congruence.
Qed.

(** ---- files ---- *)

Lemma first_yaml_comments cs y rest : first_yaml (map DComment cs ++ DYaml y :: rest) = Some y.
Proof. induction cs; auto. Qed.
Lemma read_file ut t s d cs y rest v : distinct t -> parse_yaml ut s = CVal d ->
  items d = map DComment cs ++ DYaml y :: rest -> no_refs y ->
  (from_yaml_str ut t s = CVal v <-> means t (seen y) v).
Proof.
  intros D P E N. unfold from_yaml_str. rewrite P, E, first_yaml_comments, <- (from_means t y v D N).
  destruct (from_yaml t y); split; intros H; try discriminate; injection H as ->; reflexivity.
Qed.
