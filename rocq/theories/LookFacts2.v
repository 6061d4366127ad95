(** The untyped reader, and pretty printing. *)
From Coq Require Import ZArith.
From Verif Require Import Base Ast Strings Format Num Pretty Ser De Spec_Strings StringsFacts Spec_Pretty PrettyFacts
  Spec_Serde SerdeFacts Spec_Look LookFacts.
Import ListNotations.

(** ---- untyped ---- *)

Definition orel {A} (r s : outcome A) : Prop :=
  match r, s with
  | Done x a, Done y b => x = y /\ arel untyped_word a b
  | Failed, Failed => True
  | More, More => True
  | _, _ => False
  end.

Lemma plain_any s : untyped_word s = false -> any_unquoted s = AnStr s.
Proof.
  unfold untyped_word. cbn [map existsb]. rewrite !orb_false_iff.
  intros ((E1 & E2 & E3 & E4 & E5 & E6 & _) & F). unfold any_unquoted, is_null_word.
  rewrite E1, E2, E3, E4, E5, E6, F. cbn [orb].
  destruct (parse_i64 s) eqn:Ei; [apply parse_int_f64 in Ei; congruence|].
  destruct (parse_u64 s) eqn:Eu; [apply parse_int_f64 in Eu; congruence|]. reflexivity.
Qed.

Section Any.
  Context (n : nat).
  Fixpoint any_elems (l : list yaml) (a : anchors) : outcome (list anyv) :=
    match l with
    | [] => Done [] a
    | y :: l' =>
        match de_any n y a with
        | Done v a1 => match any_elems l' a1 with
                       | Done vs a2 => Done (v :: vs) a2
                       | Failed => Failed | More => More end
        | Failed => Failed | More => More
        end
    end.
  Fixpoint any_entries (l : list (str * yaml)) (a : anchors) : outcome (list (anyv * anyv)) :=
    match l with
    | [] => Done [] a
    | (k, y) :: l' =>
        match de_any n y a with
        | Done v a1 => match any_entries l' a1 with
                       | Done vs a2 => Done ((any_unquoted k, v) :: vs) a2
                       | Failed => Failed | More => More end
        | Failed => Failed | More => More
        end
    end.
  Definition any_scalar (y : yaml) : anyv :=
    match y with Unquoted s => any_unquoted s | _ => match yaml_to_string y with Some s => AnStr s | None => AnUnit end end.
  Lemma de_any_eq y a : de_any (S n) y a =
    match y with
    | Anchor m => match resolve a m with Some y' => de_any n y' a | None => Failed end
    | _ =>
      match read_seq y a with
      | Some (l, a1) => match any_elems l a1 with Done xs a2 => Done (AnSeq xs) a2 | Failed => Failed | More => More end
      | None =>
        match read_map y a with
        | Some (l, a1) => match any_entries l a1 with Done xs a2 => Done (AnMap xs) a2 | Failed => Failed | More => More end
        | None => Done (any_scalar y) a
        end
      end
    end.
  Proof.
    destruct y; try reflexivity; unfold read_seq, read_map; cbn [seq_items map_items].
    - rewrite register_none_map, entries_id. reflexivity.
    - pose proof (hash_entries_items a l) as E.
      change (de_any (S n) (Hash l) a) with
        (let '(es, a1) := hash_entries a l in
         match any_entries es a1 with Done xs a2 => Done (AnMap xs) a2 | Failed => Failed | More => More end).
      rewrite E. reflexivity.
    - rewrite register_none, map_map. cbn [a_value]. rewrite map_id. reflexivity.
    - pose proof (seq_values_items a l) as E.
      change (de_any (S n) (Array l) a) with
        (let '(es, a1) := seq_values a l in
         match any_elems es a1 with Done xs a2 => Done (AnSeq xs) a2 | Failed => Failed | More => More end).
      rewrite E. reflexivity.
  Qed.
End Any.

Notation ur := (yrel untyped_word).
Lemma scalar_rel y z l : seq_items y = None -> map_items y = None -> look untyped_word y = l -> look untyped_word z = l ->
  any_scalar y = any_scalar z.
Proof.
  intros S M E F.
  assert (G : forall w, any_scalar w = match look untyped_word w with LWord s => any_unquoted s | LText s => AnStr s | _ => AnUnit end).
  { intros w. destruct w; try reflexivity. cbn [look any_scalar]. destruct (untyped_word s) eqn:W; [reflexivity|]. now apply plain_any. }
  now rewrite !G, E, F.
Qed.

Lemma any_elems_rel n : (forall y z a b, ur y z -> arel untyped_word a b -> orel (de_any n y a) (de_any n z b)) ->
  forall l m a b, Forall2 ur l m -> arel untyped_word a b -> orel (any_elems n l a) (any_elems n m b).
Proof.
  intros IH l m a b F. revert a b. induction F as [|y z l m R F IHl]; intros a b A; cbn [any_elems]; [now split|].
  assert (H := IH y z a b R A). destruct (de_any n y a), (de_any n z b); cbn in H |- *; try contradiction; try exact I.
  destruct H as [<- A1]. assert (H := IHl _ _ A1).
  destruct (any_elems n l a0), (any_elems n m a1); cbn in H |- *; try contradiction; try exact I.
  destruct H as [<- A2]. now split.
Qed.
Lemma any_entries_rel n : (forall y z a b, ur y z -> arel untyped_word a b -> orel (de_any n y a) (de_any n z b)) ->
  forall l m a b, Forall2 (erel untyped_word) l m -> arel untyped_word a b -> orel (any_entries n l a) (any_entries n m b).
Proof.
  intros IH l m a b F. revert a b. induction F as [|[k y] [k' z] l m [K R] F IHl]; intros a b A; cbn [any_entries]; [now split|].
  cbn in K, R. subst k'.
  assert (H := IH y z a b R A). destruct (de_any n y a), (de_any n z b); cbn in H |- *; try contradiction; try exact I.
  destruct H as [<- A1]. assert (H := IHl _ _ A1).
  destruct (any_entries n l a0), (any_entries n m a1); cbn in H |- *; try contradiction; try exact I.
  destruct H as [<- A2]. now split.
Qed.

Lemma anchor_dec y : (exists n, y = Anchor n) \/ (forall n, y <> Anchor n).
Proof. destruct y; try (right; intros; discriminate). left. eauto. Qed.

Lemma de_any_look fuel : forall y z a b, ur y z -> arel untyped_word a b -> orel (de_any fuel y a) (de_any fuel z b).
Proof.
  induction fuel as [|n IH]; intros y z a b R A; [exact I|].
  destruct (anchor_dec y) as [[m ->]|Ny].
  - assert (E : z = Anchor m).
    { unfold yrel in R. cbn in R. destruct z; try discriminate; cbn in R; [destruct (untyped_word s); discriminate|congruence]. }
    subst z. rewrite !de_any_eq. assert (H := arel_resolve _ a b m A).
    destruct (resolve a m), (resolve b m); try contradiction; [|exact I]. now apply IH.
  - assert (Nz : forall m, z <> Anchor m).
    { intros m ->. unfold yrel in R. cbn in R. destruct y; try discriminate; cbn in R; [destruct (untyped_word s); discriminate|].
      injection R as ->. now apply (Ny m). }
    assert (G : forall w a, (forall m, w <> Anchor m) -> de_any (S n) w a =
      match read_seq w a with
      | Some (l, a1) => match any_elems n l a1 with Done xs a2 => Done (AnSeq xs) a2 | Failed => Failed | More => More end
      | None =>
        match read_map w a with
        | Some (l, a1) => match any_entries n l a1 with Done xs a2 => Done (AnMap xs) a2 | Failed => Failed | More => More end
        | None => Done (any_scalar w) a
        end
      end).
    { clear. intros w a N. rewrite de_any_eq. destruct w; try reflexivity. now elim (N s). }
    rewrite !G by assumption.
    assert (S := read_seq_rel _ y z a b R A).
    destruct (read_seq y a) as [[l a1]|] eqn:Ey, (read_seq z b) as [[m b1]|] eqn:Ez; cbn in S; try contradiction.
    + destruct S as [F A1]. assert (H := any_elems_rel n IH l m a1 b1 F A1).
      destruct (any_elems n l a1), (any_elems n m b1); cbn in H |- *; try contradiction; try exact I.
      destruct H as [<- A2]. now split.
    + clear S. assert (S := read_map_rel _ y z a b R A).
      destruct (read_map y a) as [[l a1]|] eqn:My, (read_map z b) as [[m b1]|] eqn:Mz; cbn in S; try contradiction.
      * destruct S as [F A1]. assert (H := any_entries_rel n IH l m a1 b1 F A1).
        destruct (any_entries n l a1), (any_entries n m b1); cbn in H |- *; try contradiction; try exact I.
        destruct H as [<- A2]. now split.
      * split; [|exact A]. unfold read_seq in Ey. unfold read_map in My.
        apply (scalar_rel y z (look untyped_word y)); [|..]; try reflexivity.
        -- now destruct (seq_items y).
        -- now destruct (map_items y).
        -- now symmetry.
Qed.

(** The value read, without the registrations. *)
Definition any_result (o : outcome anyv) : outcome anyv :=
  match o with Done v _ => Done v [] | Failed => Failed | More => More end.
Lemma any_look fuel y z : look untyped_word y = look untyped_word z ->
  any_result (de_any fuel y []) = any_result (de_any fuel z []).
Proof.
  intros R. assert (H := de_any_look fuel y z [] [] R (Forall2_nil _)).
  destruct (de_any fuel y []), (de_any fuel z []); cbn in H |- *; try contradiction; try reflexivity. now destruct H as [-> _].
Qed.

(** ---- pretty printing ---- *)

Section Pretty.
  Context (word loose : str -> bool).
  Context (word_break : forall s, inline_breaking_chars s = true -> word s = false).
  Context (word_loose : forall s, word s = true -> can_be_unquoted_in_block s = true -> loose s = true).
  Notation lk := (look word).

  Lemma scalar_lk y s : as_string y = Some s -> (forall t, y <> Unquoted t) -> lk y = LText s.
  Proof. destruct y; intros E N; try discriminate; try (cbn in E |- *; congruence). now elim (N s0). Qed.

  Lemma look_pretty_scalar inl y : is_scalar y = true -> long_ok inl y -> (inl = false -> no_quoted loose y) ->
    lk (pretty_scalar inl y) = lk y.
  Proof.
    intros Hs Hl Hq. pose proof (pretty_scalar_value inl y Hs Hl) as E.
    destruct y as [l|l|l|l|ps|ps|s|ls c|ls c|s]; try discriminate; try reflexivity.
    - cbn [pretty_scalar] in *. destruct (existsb _ ps); [cbn in E |- *; congruence|].
      destruct (negb inl && can_be_unquoted_in_block (parse_single_quoted ps) && _ && _) eqn:B.
      + rewrite !andb_true_iff in B. destruct B as [[[B1 B2] _] _]. cbn [look].
        destruct (word (parse_single_quoted ps)) eqn:W; [|reflexivity].
        destruct inl; [discriminate|]. specialize (Hq eq_refl). cbn in Hq. rewrite (word_loose _ W B2) in Hq. discriminate.
      + destruct inl; [reflexivity|]. destruct (_ <? _); [|reflexivity]. cbn in E |- *. congruence.
    - cbn [pretty_scalar] in *. destruct inl; [reflexivity|]. destruct (existsb _ ps); [cbn in E |- *; congruence|].
      destruct (_ <? _); [|reflexivity]. cbn in E |- *. congruence.
    - cbn [pretty_scalar] in *. destruct (inl && inline_breaking_chars s) eqn:B; [|reflexivity].
      apply andb_true_iff in B as [_ B]. cbn [look]. rewrite (word_break _ B). cbn in E. congruence.
  Qed.

  Lemma look_auto_inline c l : lk (auto_inline c l) = lk (Array l).
  Proof.
    unfold auto_inline. destruct (c && can_inline l && _) eqn:B; [|reflexivity].
    rewrite !andb_true_iff in B. destruct B as [[_ B] _]. unfold can_inline in B.
    cbn [look]. f_equal. unfold array_elems.
    induction l as [|[x|x|[al v]] l IH]; cbn in B |- *; [reflexivity|discriminate|discriminate|].
    destruct al; [discriminate|]. apply andb_true_iff in B as [_ B]. now rewrite (IH B).
  Qed.

  Lemma pretty_look y : forall inl c, long_ok inl y -> inline_no_block inl y = true -> (inl = false -> no_quoted loose y) ->
    lk (pretty_with inl c y) = lk y.
  Proof.
    induction y as [l IH|l IH|l IH|l IH|ps|ps|s|ls ch|ls ch|s] using yaml_ind'; intros inl c Hl Hb Hq;
      try (apply look_pretty_scalar; [reflexivity|exact Hl|exact Hq]).
    - cbn [pretty_with look]. f_equal. cbn [long_ok inline_no_block] in Hl, Hb. clear Hq.
      induction IH as [|[k v] l H _ IHl]; [reflexivity|].
      cbn in Hl, Hb |- *. destruct Hl as [H1 H2]. apply andb_true_iff in Hb as [Hb1 Hb2].
      cbn in H. rewrite H; [|exact H1|exact Hb1|discriminate]. f_equal. now apply IHl.
    - cbn [pretty_with]. destruct l as [|d0 l0]; [reflexivity|]. cbn [is_nil].
      revert IH Hl Hb Hq. generalize (d0 :: l0) as l. intros l IH Hl Hb Hq. cbn [long_ok inline_no_block] in Hl, Hb.
      destruct inl; [discriminate|]. specialize (Hq eq_refl). cbn [negb andb no_quoted] in Hb, Hq. cbn [look]. f_equal.
      induction IH as [|[x|x|[k [al v]]] l H _ IHl]; [reflexivity| | |]; cbn in Hl, Hb, Hq |- *;
        destruct Hl as [H1 H2], Hq as [H3 H4]; [now apply IHl|now apply IHl|].
      apply andb_true_iff in Hb as [Hb1 Hb2].
      cbn in H. rewrite H; [|exact H1|exact Hb1|intros _; exact H3]. f_equal. now apply IHl.
    - cbn [pretty_with look]. f_equal. cbn [long_ok inline_no_block] in Hl, Hb. clear Hq.
      induction IH as [|v l H _ IHl]; [reflexivity|].
      cbn in Hl, Hb |- *. destruct Hl as [H1 H2]. apply andb_true_iff in Hb as [Hb1 Hb2].
      rewrite H; [|exact H1|exact Hb1|discriminate]. f_equal. now apply IHl.
    - cbn [pretty_with]. destruct l as [|d0 l0]; [reflexivity|]. cbn [is_nil].
      revert IH Hl Hb Hq. generalize (d0 :: l0) as l. intros l IH Hl Hb Hq. cbn [long_ok inline_no_block] in Hl, Hb.
      destruct inl; [discriminate|]. specialize (Hq eq_refl). cbn [negb andb no_quoted] in Hb, Hq.
      rewrite look_auto_inline. cbn [look]. f_equal.
      induction IH as [|[x|x|[al v]] l H _ IHl]; [reflexivity| | |]; cbn in Hl, Hb, Hq |- *;
        destruct Hl as [H1 H2], Hq as [H3 H4]; [now apply IHl|now apply IHl|].
      apply andb_true_iff in Hb as [Hb1 Hb2].
      cbn in H. rewrite H; [|exact H1|exact Hb1|intros _; exact H3]. f_equal. now apply IHl.
  Qed.
End Pretty.

(** ---- the two readers ---- *)

Lemma in_words (l : list str) s : existsb (seqb s) l = true -> In s l.
Proof. intros E. apply existsb_exists in E as (x & Hx & E). apply seqb_eq in E. now subst. Qed.

Lemma typed_break s : inline_breaking_chars s = true -> typed_word s = false.
Proof.
  intros B. destruct (typed_word s) eqn:W; [|reflexivity]. apply in_words in W.
  cbn [map In] in W. repeat (destruct W as [<-|W]; [vm_compute in B; discriminate|]). destruct W.
Qed.
Lemma typed_can s : typed_word s = true -> can_be_unquoted_in_block s = true -> typed_loose s = true.
Proof.
  intros W B. apply in_words in W.
  cbn [map In] in W. repeat (destruct W as [<-|W]; [vm_compute in B; try discriminate; reflexivity|]). destruct W.
Qed.

Definition num_char (c : char) : bool := negb (has_char c (lit ",[]{}"">|")).
Lemma num_chars_break s : forallb num_char s = true -> inline_breaking_chars s = false.
Proof.
  intros F. rewrite forallb_forall in F. unfold inline_breaking_chars.
  assert (G : forall c, has_char c (lit ",[]{}"">|") = true -> has_char c s = false).
  { intros c H. destruct (has_char c s) eqn:E; [|reflexivity]. apply has_char_true in E. apply F in E.
    unfold num_char in E. rewrite H in E. discriminate. }
  rewrite !G by reflexivity. reflexivity.
Qed.
Lemma digit_num c : is_digit c = true -> num_char c = true.
Proof.
  unfold is_digit. rewrite andb_true_iff, !N.leb_le. intros H. unfold num_char, has_char. cbn.
  assert (G : forall k, (k < 48 \/ 57 < k)%N -> ceqb k c = false) by (intros k K; apply ceqb_neq; lia).
  assert (G' : forall k, (k < 48 \/ 57 < k)%N -> ceqb c k = false) by (intros k K; apply ceqb_neq; lia).
  rewrite ?G, ?G' by (vm_compute; tauto). reflexivity.
Qed.
Lemma skip_digits_num s : forallb num_char (skip_digits s) = true -> forallb num_char s = true.
Proof.
  induction s as [|c s IH]; [reflexivity|]. cbn. destruct (is_digit c) eqn:D; [|auto].
  intros H. now rewrite (digit_num c D), (IH H).
Qed.
Lemma skip_sign_num s : forallb num_char (skip_sign s) = true -> forallb num_char s = true.
Proof.
  destruct s as [|c s]; [reflexivity|]. cbn.
  destruct (ceqb c _ || ceqb c _) eqn:E; [|auto]. intros H. cbn. rewrite H.
  apply orb_true_iff in E as [E|E]; apply ceqb_eq in E; subst c; reflexivity.
Qed.
Lemma lower_num c x : lower c = x -> num_char x = true -> num_char c = true.
Proof.
  intros <-. unfold lower. destruct (_ && _) eqn:E; [|auto]. intros _.
  rewrite andb_true_iff, !N.leb_le in E. unfold num_char, has_char. cbn.
  assert (G : forall k, (k < 65 \/ 90 < k)%N -> ceqb k c = false) by (intros k K; apply ceqb_neq; lia).
  assert (G' : forall k, (k < 65 \/ 90 < k)%N -> ceqb c k = false) by (intros k K; apply ceqb_neq; lia).
  rewrite ?G, ?G' by (vm_compute; tauto). reflexivity.
Qed.
Lemma exp_num s : exp_ok s = true -> forallb num_char s = true.
Proof.
  destruct s as [|c s]; [reflexivity|]. cbn [exp_ok]. rewrite !andb_true_iff. intros (E & _ & N).
  apply ceqb_eq in E. cbn. rewrite (lower_num _ _ E eq_refl). apply skip_sign_num, skip_digits_num.
  destruct (skip_digits (skip_sign s)); [reflexivity|discriminate].
Qed.
Lemma number_num s : number_ok s = true -> forallb num_char s = true.
Proof.
  unfold number_ok. intros H. apply skip_digits_num. destruct (skip_digits s) as [|c r]; [reflexivity|].
  destruct (ceqb c (chr ".")) eqn:E.
  - apply ceqb_eq in E. subst c. apply andb_true_iff in H as [_ H]. apply exp_num in H. apply skip_digits_num in H. exact H.
  - apply andb_true_iff in H as [_ H]. now apply exp_num.
Qed.
Lemma word_num s (w : str) : seqb (map lower s) w = true -> forallb num_char w = true -> forallb num_char s = true.
Proof.
  intros E. apply seqb_eq in E. subst w. induction s as [|c s IH]; [reflexivity|]. cbn. rewrite !andb_true_iff.
  intros [A B]. split; [exact (lower_num _ _ eq_refl A)|now apply IH].
Qed.
Lemma float_chars s : parse_f64_ok s = true -> inline_breaking_chars s = false.
Proof.
  intros H. apply num_chars_break, skip_sign_num. unfold parse_f64_ok in H. rewrite !orb_true_iff in H.
  destruct H as [[[H|H]|H]|H]; [exact (word_num _ _ H eq_refl)..|now apply number_num].
Qed.

Lemma untyped_break s : inline_breaking_chars s = true -> untyped_word s = false.
Proof.
  intros B. destruct (untyped_word s) eqn:W; [|reflexivity]. apply orb_true_iff in W as [W|W].
  - apply in_words in W. cbn [map In] in W. repeat (destruct W as [<-|W]; [vm_compute in B; discriminate|]). destruct W.
  - apply float_chars in W. congruence.
Qed.
Lemma untyped_can s : untyped_word s = true -> can_be_unquoted_in_block s = true -> untyped_loose s = true.
Proof.
  intros W B. apply orb_true_iff in W as [W|W].
  - apply in_words in W. cbn [map In] in W.
    repeat (destruct W as [<-|W]; [vm_compute in B; try discriminate; reflexivity|]). destruct W.
  - exfalso. unfold can_be_unquoted_in_block in B. destruct s as [|c s]; [discriminate|].
    destruct (_ || _); [discriminate|]. destruct (bad_first c); [discriminate|]. destruct (_ || _); [discriminate|].
    rewrite W in B. rewrite andb_false_r in B. discriminate.
Qed.

Lemma typed_pretty t y : long_ok false y -> inline_no_block false y = true -> no_quoted typed_loose y ->
  from_yaml t (pretty y) = from_yaml t y.
Proof.
  intros L B Q. apply from_yaml_look. apply (pretty_look _ typed_loose typed_break typed_can); auto.
Qed.
Lemma any_pretty fuel y : long_ok false y -> inline_no_block false y = true -> no_quoted untyped_loose y ->
  any_result (de_any fuel (pretty y) []) = any_result (de_any fuel y []).
Proof.
  intros L B Q. apply any_look. apply (pretty_look _ untyped_loose untyped_break untyped_can); auto.
Qed.
