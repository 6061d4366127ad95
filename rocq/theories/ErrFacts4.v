(** The error of any type. *)
From Coq Require Import ZArith Lia.
From Verif Require Import Base Ast Strings Format Num Pretty Ser De DeErr Spec_Pretty Spec_Serde Spec_Look Spec_Typed Spec_Refs Spec_Reads Spec_Err LookFacts TypedFacts SerdeFacts2 ErrFacts ErrFacts2 ErrFacts3.
Import ListNotations.

(** ---- enums ---- *)

Notation variants vs := (map (fun nv => match nv with (n, v) =>
        (n, match v with
            | VaUnit => fun _ a => inl (SUnitV n, a)
            | VaNew t => fun y a => let! (v, a1) := de_e t y a in inl (SNewV n v, a1)
            | VaTup ts => fun y a =>
                let! (l, a1) := de_seq_e y a in
                let! (vs, a2) := de_tuple_e 0 (map de_e ts) l a1 in
                inl (STupV n vs, a2)
            | VaStruct fs => fun y a =>
                let! (vs, a1) := de_struct_e (map (fun nt => match nt with (n, t) => mkEF n (de_e t) (is_option t) None end) fs) y a in
                inl (SStructV n vs, a1)
            end) end) vs).
Lemma variant_err vs n c a e : de_variant_e (variants vs) n c a = inr e <->
  (finds vs n = None /\ e = Foreign (FVariant n)) \/
  (exists v t, finds vs n = Some (n, v) /\ content_type v = Some t /\ de_e t c a = inr e).
Proof.
  induction vs as [|[m v] vs IH]; cbn [map de_variant_e find fst].
  - split; [intros E; injection E as <-; auto|]. intros [[_ ->]|(v & t & E & _)]; [reflexivity|discriminate].
  - destruct (seqb m n) eqn:Q; [|exact IH]. apply seqb_eq in Q. subst m. transitivity (exists t, content_type v = Some t /\ de_e t c a = inr e).
    + destruct v as [|t|ts|fs]; cbn [content_type].
      * split; [discriminate|]. intros (t & E & _). discriminate.
      * transitivity (de_e t c a = inr e); [destruct (de_e t c a) as [[w a1]|]; cbn [ebind]; split; congruence|].
        split; [eauto|]. intros (u & E & D). now injection E as ->.
      * transitivity (de_e (TTuple ts) c a = inr e).
        -- cbn [de_e]. destruct (de_seq_e c a) as [[l a1]|]; cbn [ebind]; [|reflexivity]. destruct (de_tuple_e 0 (map de_e ts) l a1) as [[ws a2]|]; cbn [ebind]; split; congruence.
        -- split; [eauto|]. intros (u & E & D). now injection E as <-.
      * transitivity (de_e (TStruct fs) c a = inr e).
        -- cbn [de_e]. match goal with |- context [de_struct_e ?f c a] => destruct (de_struct_e f c a) as [[ws a1]|]; cbn [ebind]; split; congruence end.
        -- split; [eauto|]. intros (u & E & D). now injection E as <-.
    + split.
      * intros (t & E & D). right. exists v, t. auto.
      * intros [[E _]|(w & t & E & C & D)]; [discriminate|]. injection E as <-. eauto.
Qed.

Lemma enum_cases y a :
  (exists n c a1, picks a y n c a1 /\ de_enum_e y a = inl (n, c, a1)) \/
  (exists e, de_enum_e y a = inr e /\ forall vs, complaint (TEnum vs) y a e).
Proof.
  unfold de_enum_e. destruct (resolved_cases y a) as [(y' & R & T)|(n & R & -> & K)]; rewrite R; cbn [ebind].
  - assert (Scal : forall s, yaml_to_string y' = Some s -> picks a y s (Unquoted (lit "~")) a).
    { intros s E. exists y'. split; [exact T|]. left. apply scalar_iff in E. auto. }
    destruct y'; try (left; do 3 eexists; split; [apply Scal; reflexivity|reflexivity]).
    + destruct l as [|[n v] [|? ?]].
      * right. eexists. split; [reflexivity|]. intros vs. eapply CSingleKeyInline; [exact T|]. discriminate.
      * left. exists n, v, a. split; [|reflexivity]. eexists. split; [exact T|]. right. split; [exact I|]. split; [reflexivity|].
        symmetry. apply inline_labels. eauto.
      * right. eexists. split; [reflexivity|]. intros vs. eapply CSingleKeyInline; [exact T|]. discriminate.
    + rewrite hash_parts. destruct (entries_of (Hash l)) as [|[n v] [|? ?]] eqn:E.
      * right. eexists. split; [reflexivity|]. intros vs. eapply CSingleKey; [exact T|]. now rewrite E.
      * left. exists n, v, (entered a (Hash l)). split; [|reflexivity]. eexists. split; [exact T|]. right. split; [exact I|]. auto.
      * right. eexists. split; [reflexivity|]. intros vs. eapply CSingleKey; [exact T|]. now rewrite E.
    + right. eexists. split; [reflexivity|]. intros vs. eapply CEnum; [exact T|]. left. exact I.
    + right. eexists. split; [reflexivity|]. intros vs. eapply CEnum; [exact T|]. left. exact I.
    + right. eexists. split; [reflexivity|]. intros vs. eapply CEnum; [exact T|]. now right.
  - right. eexists. split; [reflexivity|]. intros vs. now apply CUndefined.
Qed.
Lemma picks_read y a n c a1 : picks a y n c a1 -> de_enum_e y a = inl (n, c, a1).
Proof.
  intros (y' & T & W). unfold de_enum_e. rewrite (proj2 (resolved_ok _ _ _) T). cbn [ebind]. destruct W as [(S & -> & ->)|(M & E & ->)].
  - apply scalar_iff in S. destruct y'; try discriminate S; now rewrite S.
  - destruct y'; try contradiction M.
    + cbn in E. subst l. now rewrite inline_labels by eauto.
    + rewrite hash_parts. cbn in E |- *. now rewrite E.
Qed.

(** ---- one level ---- *)

Definition inside t (y : yaml) (a : anchors) e : Prop :=
  exists l1 t1 y1 l2 a0 a1, asks t y a (l1 ++ (t1, y1) :: l2) a0 /\ all_done l1 a0 a1 /\ de_e t1 y1 a1 = inr e.
Lemma inside_breaks t y a l a0 e : asks t y a l a0 -> breaks l a0 e -> inside t y a e.
Proof. intros A (l1 & t1 & y1 & l2 & a1 & -> & R & D). exists l1, t1, y1, l2, a0, a1. auto. Qed.

Lemma level_wrong t y a e : distinct t -> de_e t y a = inr e -> complaint t y a e \/ inside t y a e.
Proof.
  intros Dt H. destruct t; cbn [de_e] in H.
  - left. unfold de_bool_e in H. destruct (resolved_cases y a) as [(y' & R & T)|(n & R & -> & K)]; rewrite R in H; cbn [ebind] in H; [|injection H as <-; now apply CUndefined].
    destruct y'; try (injection H as <-; eapply CBool; [exact T|discriminate]).
    destruct (one_of [lit "true"; lit "True"; lit "TRUE"; lit "yes"; lit "Yes"; lit "YES"; lit "on"; lit "On"; lit "ON"] s) eqn:B1; [discriminate|].
    destruct (one_of [lit "false"; lit "False"; lit "FALSE"; lit "no"; lit "No"; lit "NO"; lit "off"; lit "Off"; lit "OFF"] s) eqn:B2; [discriminate|].
    injection H as <-. apply CBoolGot; [exact T| |]; intros X.
    + apply (proj2 (words_iff true s)) in X. change (one_of (bool_words true) s = false) in B1. congruence.
    + apply (proj2 (words_iff false s)) in X. change (one_of (bool_words false) s = false) in B2. congruence.
  - left. now apply int_wrong.
  - left. unfold de_float_e in H. destruct (resolved_cases y a) as [(y' & R & T)|(n & R & -> & K)]; rewrite R in H; cbn [ebind] in H; [|injection H as <-; now apply CUndefined].
    destruct (yaml_to_string y') as [s|] eqn:S.
    + apply scalar_iff in S. destruct (parse_f64_ok s) eqn:P; [discriminate|]. injection H as <-. apply (CNotFloat y y' s a T S). intros F. apply float_spec in F. congruence.
    + injection H as <-. apply no_scalar_iff in S. exact (CFloat y y' a T S).
  - left. unfold de_text_e in H. destruct (resolved_cases y a) as [(y' & R & T)|(n & R & -> & K)]; rewrite R in H; cbn [ebind] in H; [|injection H as <-; now apply CUndefined].
    destruct (yaml_to_string y') as [s|] eqn:S; cbn [ebind] in H.
    + apply scalar_iff in S. destruct s as [|c [|d s]]; try discriminate; injection H as <-; eapply CChar; eauto; discriminate.
    + injection H as <-. apply no_scalar_iff in S. eapply CString; eauto.
  - left. unfold de_text_e in H. destruct (resolved_cases y a) as [(y' & R & T)|(n & R & -> & K)]; rewrite R in H; cbn [ebind] in H; [|injection H as <-; now apply CUndefined].
    destruct (yaml_to_string y') as [s|] eqn:S; cbn [ebind] in H; [discriminate|].
    injection H as <-. apply no_scalar_iff in S. eapply CString; eauto.
  - destruct (seq_ok y a) as [(y' & T & M & E)|(e' & E & W)]; rewrite E in H; cbn [ebind] in H.
    + right. apply (inside_breaks _ _ _ _ _ _ (AskBytes y y' a T M)). apply elems_err. cbn [de_e].
      destruct (de_elems_e (de_int_e U8) (elements_of y') (entered a y')) as [[vs a2]|]; [discriminate|injection H as <-; reflexivity].
    + left. injection H as <-. destruct W as [(n & -> & K & ->)|(y' & T & M & ->)]; [now apply CUndefined|]. exact (CSequence TBytes y y' a I T M).
  - destruct (resolved_cases y a) as [(y' & R & T)|(n & R & -> & K)]; rewrite R in H; cbn [ebind] in H; [|left; injection H as <-; now apply CUndefined].
    right. assert (X : ~ null_node y' /\ de_e t y' a = inr e).
    { assert (G : (let! (v, a1) := de_e t y' a in inl (SSome v, a1)) = inr e -> de_e t y' a = inr e) by (destruct (de_e t y' a) as [[v a1]|]; [discriminate|trivial]).
      destruct y'; try (split; [intros (s1 & Q & _); discriminate|now apply G]; fail). destruct (is_null_word s) eqn:B; [discriminate|]. split; [|now apply G].
      intros (s1 & Q & I). injection Q as <-. apply null_iff in I. congruence. }
    destruct X as [X Y]. exists [], t, y', [], a, a. split; [now apply AskSome|]. split; [constructor|exact Y].
  - discriminate.
  - discriminate.
  - right. exists [], t, y, [], a, a. split; [apply AskNew|]. split; [constructor|]. destruct (de_e t y a) as [[v a1]|]; [discriminate|injection H as <-; reflexivity].
  - destruct (seq_ok y a) as [(y' & T & M & E)|(e' & E & W)]; rewrite E in H; cbn [ebind] in H.
    + right. apply (inside_breaks _ _ _ _ _ _ (AskSeq t y y' a T M)). apply elems_err.
      destruct (de_elems_e (de_e t) (elements_of y') (entered a y')) as [[vs a2]|]; [discriminate|injection H as <-; reflexivity].
    + left. injection H as <-. destruct W as [(n & -> & K & ->)|(y' & T & M & ->)]; [now apply CUndefined|]. exact (CSequence (TSeq t) y y' a I T M).
  - destruct (seq_ok y a) as [(y' & T & M & E)|(e' & E & W)]; rewrite E in H; cbn [ebind] in H.
    + assert (G : de_tuple_e 0 (map de_e ts) (elements_of y') (entered a y') = inr e).
      { destruct (de_tuple_e 0 (map de_e ts) (elements_of y') (entered a y')) as [[vs a2]|]; [discriminate|injection H as <-; reflexivity]. }
      apply tuple_err in G. destruct G as [G|(L & (a1 & R) & ->)].
      * right. exact (inside_breaks _ _ _ _ _ _ (AskTuple ts y y' a T M) G).
      * left. exact (CLength ts y y' a a1 T M L R).
    + left. injection H as <-. destruct W as [(n & -> & K & ->)|(y' & T & M & ->)]; [now apply CUndefined|]. exact (CSequence (TTuple ts) y y' a I T M).
  - destruct (map_ok y a) as [(y' & T & M & E)|(e' & E & W)]; rewrite E in H; cbn [ebind] in H.
    + right. apply (inside_breaks _ _ _ _ _ _ (AskMap t1 t2 y y' a T M)). apply entries_err.
      destruct (de_entries_e (de_e t1) (de_e t2) (entries_of y') (entered a y')) as [[vs a2]|]; [discriminate|injection H as <-; reflexivity].
    + left. injection H as <-. destruct W as [(n & -> & K & ->)|(y' & T & M & ->)]; [now apply CUndefined|]. exact (CMap (TMap t1 t2) y y' a I T M).
  - destruct Dt as [N _]. assert (G : struct_complaint fs y a e).
    { apply (struct_wrong fs y a e N). match goal with |- ?x = _ => destruct x as [[vs a1]|]; [discriminate|injection H as <-; reflexivity] end. }
    destruct G as [(l1 & t1 & y1 & l2 & a0 & a1 & A & R & _ & D)|C]; [right|now left]. exists l1, t1, y1, l2, a0, a1. auto.
  - destruct (enum_cases y a) as [(n & c & a1 & P & E)|(e' & E & W)]; rewrite E in H; cbn [ebind] in H; [|left; injection H as <-; apply W].
    apply variant_err in H. destruct H as [[F ->]|(v & t & F & C & D)].
    + left. apply (CVariant vs y a n c a1 P). now apply finds_none.
    + right. exists [], t, c, [], a1, a1. split; [exact (AskEnum vs y a n c a1 v t P F C)|]. split; [constructor|exact D].
Qed.

Lemma level_inside t y a e : distinct t -> inside t y a e -> de_e t y a = inr e.
Proof.
  intros Dt (l1 & t1 & y1 & l2 & a0 & a1 & A & R & D).
  assert (B : breaks (l1 ++ (t1, y1) :: l2) a0 e) by (exists l1, t1, y1, l2, a1; auto).
  remember (l1 ++ (t1, y1) :: l2) as l eqn:L.
  destruct A as [t y y' a T X|t y a|y y' a T M|t y y' a T M|ts y y' a T M|k v y y' a T M|fs y y' a es rest T M E U|vs y a n c b v t P F C]; cbn [de_e].
  - rewrite (proj2 (resolved_ok _ _ _) T). cbn [ebind]. apply breaks_inv in B. destruct B as [B|(w & b & _ & B)]; [|now apply breaks_nil in B].
    destruct y'; try (now rewrite B). destruct (is_null_word s) eqn:Q; [|now rewrite B]. destruct X. exists s. split; [reflexivity|]. now apply null_iff.
  - apply breaks_inv in B. destruct B as [B|(w & b & _ & B)]; [|now apply breaks_nil in B]. now rewrite B.
  - rewrite (target_seq _ _ _ T M). cbn [ebind]. apply elems_err in B. change (de_elems_e (de_int_e U8) (elements_of y') (entered a y') = inr e) in B. now rewrite B.
  - rewrite (target_seq _ _ _ T M). cbn [ebind]. apply elems_err in B. now rewrite B.
  - rewrite (target_seq _ _ _ T M). cbn [ebind]. rewrite (proj2 (tuple_err ts _ 0 _ e) (or_introl B)). reflexivity.
  - rewrite (target_map _ _ _ T M). cbn [ebind]. apply entries_err in B. now rewrite B.
  - destruct Dt as [N _]. rewrite (struct_right fs y a e N); [reflexivity|]. left. exists l1, t1, y1, l2, (entered a y'), a1. rewrite <- L.
    split; [exact (AskStruct fs y y' a es rest T M E U)|]. split; [exact R|]. split; [|exact D].
    destruct (known_split fs es _ _ _ _ L) as (e1 & k & e2 & _ & _ & F). apply finds_key in F. destruct F as [_ F]. exact (in_map snd _ _ F).
  - rewrite (picks_read _ _ _ _ _ P). cbn [ebind]. apply variant_err. right. exists v, t. split; [exact F|]. split; [exact C|].
    apply breaks_inv in B. destruct B as [B|(w & b' & _ & B)]; [exact B|now apply breaks_nil in B].
Qed.

Lemma level_here t y a e : distinct t -> complaint t y a e -> de_e t y a = inr e.
Proof.
  intros Dt C. destruct C; cbn [de_e].
  - destruct t; cbn [follows de_e] in *; try contradiction;
      try (unfold de_bool_e, de_float_e, de_text_e, de_seq_e, de_map_e, de_enum_e, de_struct_e; unfold de_map_e; rewrite undefined_res by assumption; reflexivity).
    + unfold de_int_e, de_int_with. rewrite undefined_res by assumption. destruct k; try reflexivity; contradiction.
  - unfold de_bool_e. rewrite (proj2 (resolved_ok _ _ _) H). cbn [ebind].
    destruct (one_of [lit "true"; lit "True"; lit "TRUE"; lit "yes"; lit "Yes"; lit "YES"; lit "on"; lit "On"; lit "ON"] s) eqn:B1; [now apply (words_iff true) in B1|].
    destruct (one_of [lit "false"; lit "False"; lit "FALSE"; lit "no"; lit "No"; lit "NO"; lit "off"; lit "Off"; lit "OFF"] s) eqn:B2; [now apply (words_iff false) in B2|].
    reflexivity.
  - unfold de_bool_e. rewrite (proj2 (resolved_ok _ _ _) H). cbn [ebind]. destruct y'; try reflexivity. now elim (H0 s).
  - rewrite (int_sgn _ _ _ H1). unfold de_int_with. rewrite (proj2 (resolved_ok _ _ _) H). cbn [ebind]. apply no_scalar_iff in H0. now rewrite H0.
  - rewrite (int_uns _ _ _ H1). unfold de_int_with. rewrite (proj2 (resolved_ok _ _ _) H). cbn [ebind]. apply no_scalar_iff in H0. now rewrite H0.
  - apply scalar_iff in H0. destruct (int_cases k) as [K|[K|[K|K]]]; try contradiction.
    + rewrite (int_sgn _ _ _ K). unfold de_int_with. rewrite (proj2 (resolved_ok _ _ _) H). cbn [ebind]. rewrite H0. destruct (parse_i64 s) as [z|] eqn:P; [|reflexivity].
      apply (i64_iff k s z K) in P. destruct P as [P Q]. now elim (H3 z P K).
    + rewrite (int_uns _ _ _ K). unfold de_int_with. rewrite (proj2 (resolved_ok _ _ _) H). cbn [ebind]. rewrite H0. destruct (parse_u64 s) as [z|] eqn:P; [|reflexivity].
      apply (u64_iff k s z K) in P. destruct P as [P Q]. now elim (H4 z P K).
  - apply scalar_iff in H0. apply kind_no in H6. destruct (int_cases k) as [K|[K|[K|K]]]; try contradiction.
    + rewrite (int_sgn _ _ _ K). unfold de_int_with. rewrite (proj2 (resolved_ok _ _ _) H). cbn [ebind]. rewrite H0.
      rewrite (proj2 (i64_iff k s z K) (conj H3 (H4 K))). now rewrite H6.
    + rewrite (int_uns _ _ _ K). unfold de_int_with. rewrite (proj2 (resolved_ok _ _ _) H). cbn [ebind]. rewrite H0.
      rewrite (proj2 (u64_iff k s z K) (conj H3 (H5 K))). now rewrite H6.
  - destruct H as [-> | ->]; reflexivity.
  - unfold de_float_e. rewrite (proj2 (resolved_ok _ _ _) H). cbn [ebind]. apply no_scalar_iff in H0. now rewrite H0.
  - unfold de_float_e. rewrite (proj2 (resolved_ok _ _ _) H). cbn [ebind]. apply scalar_iff in H0. rewrite H0. destruct (parse_f64_ok s) eqn:P; [|reflexivity].
    apply float_spec in P. contradiction.
  - destruct H as [-> | ->]; cbn [de_e]; unfold de_text_e; rewrite (proj2 (resolved_ok _ _ _) H0); cbn [ebind]; apply no_scalar_iff in H1; now rewrite H1.
  - unfold de_text_e. rewrite (proj2 (resolved_ok _ _ _) H). cbn [ebind]. apply scalar_iff in H0. rewrite H0. cbn [ebind].
    destruct s as [|c [|d s]]; try reflexivity. now elim H1.
  - destruct t; try contradiction; cbn [de_e]; now rewrite (target_no_seq _ _ _ H0 H1).
  - rewrite (target_seq _ _ _ H H0). cbn [ebind]. rewrite (proj2 (tuple_err ts _ 0 _ _) (or_intror (conj H1 (conj (ex_intro _ a1 H2) eq_refl)))). reflexivity.
  - destruct t; try contradiction; cbn [de_e]; unfold de_struct_e; now rewrite (target_no_map _ _ _ H0 H1).
  - destruct Dt as [N _]. rewrite (struct_right fs y a (Foreign (FDuplicate n)) N); [reflexivity|]. right. eapply CDuplicate; eauto.
  - destruct Dt as [N _]. rewrite (struct_right fs y a (Foreign (FMissing n)) N); [reflexivity|]. right. eapply CMissing; eauto.
  - unfold de_enum_e. rewrite (proj2 (resolved_ok _ _ _) H). cbn [ebind]. rewrite hash_parts. destruct (entries_of (Hash l)) as [|[n v] [|? ?]]; try reflexivity. now elim H0.
  - unfold de_enum_e. rewrite (proj2 (resolved_ok _ _ _) H). cbn [ebind]. destruct l as [|[n v] [|? ?]]; try reflexivity. now elim H0.
  - unfold de_enum_e. rewrite (proj2 (resolved_ok _ _ _) H). cbn [ebind]. destruct H0 as [S|S]; destruct y'; try contradiction S; try discriminate S; reflexivity.
  - rewrite (picks_read _ _ _ _ _ H). cbn [ebind]. apply variant_err. left. split; [now apply finds_none|reflexivity].
Qed.

(** ---- all levels ---- *)

Fixpoint tsize (t : ty) : nat :=
  match t with
  | TBool | TInt _ | TFloat | TChar | TStr | TUnit | TUnitStruct => 1
  | TBytes => 2
  | TOption t | TNewtype t | TSeq t => S (tsize t)
  | TTuple ts => S (list_sum (map tsize ts))
  | TMap k v => S (tsize k + tsize v)
  | TStruct fs => S (list_sum (map (fun f => match f with (_, t) => tsize t end) fs))
  | TEnum vs => S (list_sum (map (fun x => match x with
                     | (_, VaUnit) => 1
                     | (_, VaNew t) => tsize t
                     | (_, VaTup ts) => S (list_sum (map tsize ts))
                     | (_, VaStruct fs) => S (list_sum (map (fun f => match f with (_, t) => tsize t end) fs))
                     end) vs))
  end.
Lemma sum_in {A} (f : A -> nat) x l : In x l -> f x <= list_sum (map f l).
Proof. induction l as [|y l IH]; cbn; [contradiction|]. intros [->|I]; [lia|]. specialize (IH I). unfold list_sum in IH. lia. Qed.
Lemma fold_in {A} (P : A -> Prop) x l : fold_right (fun x Q => P x /\ Q) True l -> In x l -> P x.
Proof. induction l as [|y l IH]; cbn; [contradiction|]. intros [H1 H2] [->|I]; auto. Qed.
Lemma asks_sub t y a l a0 t1 y1 : asks t y a l a0 -> In (t1, y1) l -> distinct t -> distinct t1 /\ tsize t1 < tsize t.
Proof.
  intros A I Dt. destruct A as [t y y' a T X|t y a|y y' a T M|t y y' a T M|ts y y' a T M|k v y y' a T M|fs y y' a es rest T M E U|vs y a n c b v t P F C]; cbn [distinct tsize] in *.
  - destruct I as [I|[]]. injection I as <- <-. split; [exact Dt|lia].
  - destruct I as [I|[]]. injection I as <- <-. split; [exact Dt|lia].
  - apply in_map_iff in I. destruct I as (x & I & _). injection I as <- <-. cbn. split; [exact Logic.I|lia].
  - apply in_map_iff in I. destruct I as (x & I & _). injection I as <- <-. split; [exact Dt|lia].
  - apply in_combine_l in I. split; [exact (fold_in distinct t1 ts Dt I)|]. apply (sum_in tsize) in I. lia.
  - apply in_flat_map in I. destruct I as (x & _ & [I|[I|[]]]); injection I as <- <-; (split; [tauto|lia]).
  - apply in_map_iff in I. destruct I as ([n [t y2]] & Q & I). cbn in Q. injection Q as -> ->.
    unfold known in I. apply in_flat_map in I. destruct I as ([k z] & _ & I). cbn [fst snd] in I. destruct (finds fs k) as [[m u]|] eqn:F; [|contradiction].
    destruct I as [I|[]]. injection I as -> -> ->. apply finds_key in F. destruct F as [-> F]. destruct Dt as [_ Dt].
    split; [exact (fold_in (fun f : str * ty => match f with (_, t) => distinct t end) (k, t1) fs Dt F)|].
    apply (sum_in (fun f : str * ty => match f with (_, t) => tsize t end)) in F. lia.
  - destruct I as [I|[]]. injection I as -> ->. apply finds_key in F. destruct F as [_ F]. destruct Dt as [_ Dt]. apply (fun D => fold_in _ _ _ D F) in Dt.
    match goal with |- context [map ?f vs] => apply (sum_in f) in F end. destruct v as [|u|ts|fs]; cbn [content_type] in C; try discriminate; injection C as <-; cbn [distinct tsize] in *; (split; [exact Dt|]); lia.
Qed.
Lemma first_right t y a e : first_wrong t y a e -> distinct t -> de_e t y a = inr e.
Proof.
  induction 1 as [t y a e C|t y a l1 t1 y1 l2 a0 a1 e A R W IH]; intros D; [now apply level_here|].
  apply level_inside; [exact D|]. exists l1, t1, y1, l2, a0, a1. split; [exact A|]. split; [exact R|]. apply IH.
  apply (asks_sub _ _ _ _ _ t1 y1 A); [|exact D]. apply in_app_iff. right. now left.
Qed.
Lemma wrong_first n : forall t y a e, tsize t <= n -> distinct t -> de_e t y a = inr e -> first_wrong t y a e.
Proof.
  induction n as [|n IH]; intros t y a e Sz D H; [destruct t; cbn in Sz; lia|].
  destruct (level_wrong t y a e D H) as [C|(l1 & t1 & y1 & l2 & a0 & a1 & A & R & E)]; [now apply Here|].
  apply (Inside t y a l1 t1 y1 l2 a0 a1 e A R). destruct (asks_sub _ _ _ _ _ t1 y1 A) as [D1 S1]; [apply in_app_iff; right; now left|exact D|].
  apply IH; [lia|exact D1|exact E].
Qed.
Theorem first_iff t y a e : distinct t -> (de_e t y a = inr e <-> first_wrong t y a e).
Proof. intros D. split; [now apply (wrong_first (tsize t))|intros W; now apply first_right]. Qed.
