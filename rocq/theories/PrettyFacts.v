(** Facts about the pretty printer: data, comments, aliases, stability, inline shape. *)
From Verif Require Import Base Ast Strings Format Num Pretty Spec_Strings StringsFacts Spec_Pretty.
Import ListNotations.

(** ---- data ---- *)

Lemma pretty_scalar_value inl y :
  is_scalar y = true -> long_ok inl y -> as_string (pretty_scalar inl y) = as_string y.
Proof.
  destruct y as [l|l|l|l|ps|ps|s|ls c|ls c|s]; intros Hs Hl; try discriminate; cbn [pretty_scalar].
  - cbn [long_ok] in Hl. unfold has_blank in Hl.
    destruct (existsb _ ps).
    + cbn [as_string]. f_equal. apply literal_lossless_spec. now apply chomp_for_choice.
    + destruct (_ && _); [reflexivity|]. destruct inl; [reflexivity|].
      unfold max_line_length. destruct (90 <? _) eqn:E; [|reflexivity].
      cbn [as_string]. f_equal. apply folded_lossless_spec.
      * apply Hl; auto. now apply Nat.ltb_lt.
      * now apply chomp_for_choice.
  - cbn [long_ok] in Hl. unfold has_escape in Hl. destruct inl; [reflexivity|].
    destruct (existsb _ ps).
    + cbn [as_string]. f_equal. apply literal_lossless_spec. now apply chomp_for_choice.
    + unfold max_line_length. destruct (90 <? _) eqn:E; [|reflexivity].
      cbn [as_string]. f_equal. apply folded_lossless_spec.
      * apply Hl; auto. now apply Nat.ltb_lt.
      * now apply chomp_for_choice.
  - destruct (_ && _); [|reflexivity]. cbn [as_string]. f_equal. apply single_quoted_lossless.
  - reflexivity.
  - reflexivity.
  - reflexivity.
Qed.

Lemma pretty_scalar_scalar inl y : is_scalar y = true -> is_scalar (pretty_scalar inl y) = true.
Proof.
  destruct y; intros Hs; try discriminate; cbn [pretty_scalar];
    repeat match goal with |- context [if ?b then _ else _] => destruct b end; reflexivity.
Qed.

Lemma view_scalar y : is_scalar y = true ->
  view y = match y with Anchor s => DRef s | _ => str_data (as_string y) end.
Proof. destruct y; intros H; try discriminate; reflexivity. Qed.

Lemma view_pretty_scalar inl y :
  is_scalar y = true -> long_ok inl y -> view (pretty_scalar inl y) = view y.
Proof.
  intros Hs Hl. pose proof (pretty_scalar_value inl y Hs Hl) as E.
  destruct y as [l|l|l|l|ps|ps|s|ls c|ls c|s]; try discriminate; try reflexivity;
    cbn [view] in *; rewrite <- E;
    (rewrite view_scalar; [|now apply pretty_scalar_scalar]);
    cbn [pretty_scalar];
    repeat match goal with |- context [if ?b then _ else _] => destruct b end; reflexivity.
Qed.

Lemma view_auto_inline c l : view (auto_inline c l) = view (Array l).
Proof.
  unfold auto_inline. destruct (_ && _); [|reflexivity].
  cbn [view]. f_equal. unfold array_elems.
  induction l as [|[x|x|[al v]] l IH]; cbn; [reflexivity|exact IH|exact IH|now rewrite IH].
Qed.

Lemma pretty_view y : forall inl c, long_ok inl y -> view (pretty_with inl c y) = view y.
Proof.
  induction y as [l IH|l IH|l IH|l IH|ps|ps|s|ls ch|ls ch|s] using yaml_ind'; intros inl c Hl;
    try (apply view_pretty_scalar; [reflexivity|exact Hl]).
  - cbn [pretty_with view]. f_equal. cbn [long_ok] in Hl.
    induction IH as [|[k v] l H _ IHl]; [reflexivity|].
    cbn in Hl |- *. destruct Hl as [H1 H2]. rewrite H by exact H1. f_equal. now apply IHl.
  - cbn [pretty_with]. destruct l as [|d0 l0]; [reflexivity|]. cbn [is_nil].
    revert IH Hl. generalize (d0 :: l0) as l. intros l IH Hl. cbn [long_ok] in Hl.
    destruct inl; cbn [view]; f_equal;
      (induction IH as [|[x|x|[k [al v]]] l H _ IHl]; [reflexivity| | |]; cbn in Hl |- *;
       destruct Hl as [H1 H2]; [now apply IHl|now apply IHl|];
       cbn in H; rewrite H by exact H1; f_equal; now apply IHl).
  - cbn [pretty_with view]. f_equal. cbn [long_ok] in Hl.
    induction IH as [|v l H _ IHl]; [reflexivity|].
    cbn in Hl |- *. destruct Hl as [H1 H2]. rewrite H by exact H1. f_equal. now apply IHl.
  - cbn [pretty_with]. destruct l as [|d0 l0]; [reflexivity|]. cbn [is_nil].
    revert IH Hl. generalize (d0 :: l0) as l. intros l IH Hl. cbn [long_ok] in Hl.
    destruct inl; [|rewrite view_auto_inline]; cbn [view]; f_equal;
      (induction IH as [|[x|x|[al v]] l H _ IHl]; [reflexivity| | |]; cbn in Hl |- *;
       destruct Hl as [H1 H2]; [now apply IHl|now apply IHl|];
       cbn in H; rewrite H by exact H1; f_equal; now apply IHl).
Qed.

(** ---- comments and aliases ---- *)

Lemma comments_auto_inline c l : comments (auto_inline c l) = comments (Array l).
Proof.
  unfold auto_inline. destruct (c && can_inline l) eqn:E; [|reflexivity].
  apply andb_prop in E as [_ E]. cbn [andb]. destruct (_ <=? _); [|reflexivity].
  cbn [comments]. unfold array_elems.
  induction l as [|[x|x|[al v]] l IH]; [reflexivity|discriminate|discriminate|].
  cbn in E |- *. apply andb_prop in E as [_ E]. now rewrite (IH E).
Qed.

Lemma aliases_auto_inline c l : alias_names (auto_inline c l) = alias_names (Array l).
Proof.
  unfold auto_inline. destruct (c && can_inline l) eqn:E; [|reflexivity].
  apply andb_prop in E as [_ E]. cbn [andb]. destruct (_ <=? _); [|reflexivity].
  cbn [alias_names]. unfold array_elems.
  induction l as [|[x|x|[al v]] l IH]; [reflexivity|discriminate|discriminate|].
  cbn in E |- *. apply andb_prop in E as [E1 E]. destruct al; [discriminate|]. cbn.
  now rewrite (IH E).
Qed.

Lemma scalar_no_comments y : is_scalar y = true -> comments y = [] /\ alias_names y = [].
Proof. destruct y; intros H; try discriminate; auto. Qed.

Lemma pretty_keeps y : forall inl c, inline_no_block inl y = true ->
  comments (pretty_with inl c y) = comments y /\ alias_names (pretty_with inl c y) = alias_names y.
Proof.
  induction y as [l IH|l IH|l IH|l IH|ps|ps|s|ls ch|ls ch|s] using yaml_ind'; intros inl c Hl;
    try (apply (scalar_no_comments (pretty_scalar inl _)), pretty_scalar_scalar; reflexivity).
  - cbn [pretty_with comments alias_names]. cbn [inline_no_block] in Hl.
    induction IH as [|[k v] l H _ IHl]; [now split|].
    cbn in Hl |- *. apply andb_prop in Hl as [H1 H2].
    cbn [snd] in H; destruct (H true false H1) as [-> ->]. destruct (IHl H2) as [E1 E2]. split; (assumption || (f_equal; assumption)).
  - cbn [pretty_with]. destruct l as [|d0 l0]; [now split|]. cbn [is_nil].
    revert IH Hl. generalize (d0 :: l0) as l. intros l IH Hl. cbn [inline_no_block] in Hl.
    destruct inl; [discriminate|]. cbn [negb andb] in Hl. cbn [comments alias_names].
    induction IH as [|[x|x|[k [al v]]] l H _ IHl]; [now split| | |]; cbn in Hl |- *.
    + destruct (IHl Hl) as [E1 E2]. split; (assumption || (f_equal; assumption)).
    + destruct (IHl Hl) as [E1 E2]. split; (assumption || (f_equal; assumption)).
    + apply andb_prop in Hl as [H1 H2]. cbn in H.
      destruct (H false false H1) as [-> ->]. destruct (IHl H2) as [E1 E2]. split; (assumption || (f_equal; assumption)).
  - cbn [pretty_with comments alias_names]. cbn [inline_no_block] in Hl.
    induction IH as [|v l H _ IHl]; [now split|].
    cbn in Hl |- *. apply andb_prop in Hl as [H1 H2].
    cbn [snd] in H; destruct (H true false H1) as [-> ->]. destruct (IHl H2) as [E1 E2]. split; (assumption || (f_equal; assumption)).
  - cbn [pretty_with]. destruct l as [|d0 l0]; [now split|]. cbn [is_nil].
    revert IH Hl. generalize (d0 :: l0) as l. intros l IH Hl. cbn [inline_no_block] in Hl.
    destruct inl; [discriminate|]. cbn [negb andb] in Hl.
    rewrite comments_auto_inline, aliases_auto_inline. cbn [comments alias_names].
    induction IH as [|[x|x|[al v]] l H _ IHl]; [now split| | |]; cbn in Hl |- *.
    + destruct (IHl Hl) as [E1 E2]. split; (assumption || (f_equal; assumption)).
    + destruct (IHl Hl) as [E1 E2]. split; (assumption || (f_equal; assumption)).
    + apply andb_prop in Hl as [H1 H2]. cbn in H.
      destruct (H false true H1) as [-> ->]. destruct (IHl H2) as [E1 E2]. split; (assumption || (f_equal; assumption)).
Qed.

Lemma marks_auto_inline c l : marks (auto_inline c l) = marks (Array l).
Proof.
  unfold auto_inline. destruct (c && can_inline l) eqn:E; [|reflexivity].
  apply andb_prop in E as [_ E]. cbn [andb]. destruct (_ <=? _); [|reflexivity].
  cbn [marks]. unfold array_elems. do 2 f_equal.
  induction l as [|[x|x|[al v]] l IH]; [reflexivity|discriminate|discriminate|].
  cbn in E |- *. apply andb_prop in E as [E1 E]. destruct al; [discriminate|]. cbn.
  now rewrite (IH E).
Qed.

Lemma scalar_marks y : is_scalar y = true -> marks y = [MScalar].
Proof. destruct y; intros H; try discriminate; auto. Qed.

Lemma pretty_marks y : forall inl c, inline_no_block inl y = true ->
  marks (pretty_with inl c y) = marks y.
Proof.
  induction y as [l IH|l IH|l IH|l IH|ps|ps|s|ls ch|ls ch|s] using yaml_ind'; intros inl c Hl;
    try (apply (scalar_marks (pretty_scalar inl _)), pretty_scalar_scalar; reflexivity).
  - cbn [pretty_with marks]. cbn [inline_no_block] in Hl. do 2 f_equal.
    induction IH as [|[k v] l H _ IHl]; [reflexivity|].
    cbn in Hl |- *. apply andb_prop in Hl as [H1 H2].
    cbn [snd] in H. now rewrite (H true false H1), (IHl H2).
  - cbn [pretty_with]. destruct l as [|d0 l0]; [reflexivity|]. cbn [is_nil].
    revert IH Hl. generalize (d0 :: l0) as l. intros l IH Hl. cbn [inline_no_block] in Hl.
    destruct inl; [discriminate|]. cbn [negb andb] in Hl. cbn [marks]. do 2 f_equal.
    induction IH as [|[x|x|[k [al v]]] l H _ IHl]; [reflexivity| | |]; cbn in Hl |- *.
    + now rewrite (IHl Hl).
    + now rewrite (IHl Hl).
    + apply andb_prop in Hl as [H1 H2]. cbn in H. now rewrite (H false false H1), (IHl H2).
  - cbn [pretty_with marks]. cbn [inline_no_block] in Hl. do 2 f_equal.
    induction IH as [|v l H _ IHl]; [reflexivity|].
    cbn in Hl |- *. apply andb_prop in Hl as [H1 H2].
    now rewrite (H true false H1), (IHl H2).
  - cbn [pretty_with]. destruct l as [|d0 l0]; [reflexivity|]. cbn [is_nil].
    revert IH Hl. generalize (d0 :: l0) as l. intros l IH Hl. cbn [inline_no_block] in Hl.
    destruct inl; [discriminate|]. cbn [negb andb] in Hl.
    rewrite marks_auto_inline. cbn [marks]. do 2 f_equal.
    induction IH as [|[x|x|[al v]] l H _ IHl]; [reflexivity| | |]; cbn in Hl |- *.
    + now rewrite (IHl Hl).
    + now rewrite (IHl Hl).
    + apply andb_prop in Hl as [H1 H2]. cbn in H. now rewrite (H false true H1), (IHl H2).
Qed.

(** ---- stability ---- *)

Lemma sq_parts_no_blank s :
  existsb (fun p => match p with SQ_Blank _ => true | _ => false end) (str_to_single_quoted_parts s) = false.
Proof.
  pose proof (single_quoted_clean_spec s) as H. induction H as [|p l Hp _ IH]; [reflexivity|].
  cbn. rewrite IH. destruct p; auto. contradiction.
Qed.

Lemma breaking_spec s : inline_breaking_chars s = true <-> breaking s.
Proof.
  unfold inline_breaking_chars, breaking. rewrite !orb_true_iff, !has_char_true. split.
  - intros H. repeat destruct H as [H|H];
      match type of H with In ?c _ => exists c; split; [exact H|cbn; tauto] end.
  - intros (c & Hc & Hin). cbn in Hin.
    repeat destruct Hin as [<-|Hin]; try tauto; contradiction.
Qed.

Lemma map_fix_in {X} (f : X -> X) l : (forall x, In x l -> f x = x) -> map f l = l.
Proof. intros H. rewrite (map_ext_in f (fun x => x)), map_id; auto. Qed.

Lemma inline_scalar_idem y c :
  is_scalar y = true ->
  pretty_with true c (pretty_scalar true y) = pretty_scalar true y.
Proof.
  intros Hs.
  destruct y as [l|l|l|l|ps|ps|s|ls ch|ls ch|s]; try discriminate; cbn [pretty_scalar].
  - destruct (existsb _ ps) eqn:E; [reflexivity|]. cbn. now rewrite E.
  - reflexivity.
  - destruct (inline_breaking_chars s) eqn:E; cbn [andb].
    + cbn. now rewrite sq_parts_no_blank.
    + cbn. now rewrite E.
  - reflexivity.
  - reflexivity.
  - reflexivity.
Qed.

Lemma inline_idem y : forall c c', pretty_with true c (pretty_with true c' y) = pretty_with true c' y.
Proof.
  induction y as [l IH|l IH|l IH|l IH|ps|ps|s|ls ch|ls ch|s] using yaml_ind'; intros c c';
    try (apply (inline_scalar_idem _ c); reflexivity).
  - cbn [pretty_with]. f_equal. rewrite map_map. 
    induction IH as [|[k v] l H _ IHl]; [reflexivity|]. cbn. rewrite H. now f_equal.
  - cbn [pretty_with]. destruct l as [|d0 l0]; [reflexivity|]. cbn [is_nil].
    revert IH. generalize (d0 :: l0) as l. intros l IH. cbn [pretty_with]. f_equal.
    induction IH as [|[x|x|[k [al v]]] l H _ IHl]; [reflexivity|exact IHl|exact IHl|].
    cbn in H |- *. rewrite H. now f_equal.
  - cbn [pretty_with]. f_equal. rewrite map_map.
    induction IH as [|v l H _ IHl]; [reflexivity|]. cbn. rewrite H. now f_equal.
  - cbn [pretty_with]. destruct l as [|d0 l0]; [reflexivity|]. cbn [is_nil].
    revert IH. generalize (d0 :: l0) as l. intros l IH. cbn [pretty_with]. f_equal.
    induction IH as [|[x|x|[al v]] l H _ IHl]; [reflexivity|exact IHl|exact IHl|].
    cbn in H |- *. rewrite H. now f_equal.
Qed.

(** Elements pulled into an inline array are fixed points of inline printing. *)
Lemma inlined_stable y : forall child c',
  stable child true y -> is_inlineable (pretty_with false child y) = true ->
  pretty_with true c' (pretty_with false child y) = pretty_with false child y.
Proof.
  induction y as [l IH|l IH|l IH|l IH|ps|ps|s|ls ch|ls ch|s] using yaml_ind'; intros child c' Hs Hi.
  - cbn [pretty_with]. f_equal. rewrite map_map. apply map_ext. intros [k v]. now rewrite inline_idem.
  - cbn [pretty_with] in *. destruct l as [|d0 l0]; [reflexivity|]. discriminate.
  - cbn [pretty_with]. f_equal. rewrite map_map. apply map_ext. intros v. apply inline_idem.
  - cbn [pretty_with] in *. destruct l as [|d0 l0]; [reflexivity|]. cbn [is_nil] in *.
    revert IH Hs Hi. generalize (d0 :: l0) as l. intros l IH Hs Hi.
    unfold auto_inline in *.
    match type of Hi with context [if ?b then _ else _] => destruct b eqn:E end; [|discriminate].
    apply andb_prop in E as [E _]. apply andb_prop in E as [Ec E]. subst child.
    cbn [pretty_with]. f_equal. clear Hi. cbn [stable] in Hs. unfold array_elems.
    induction IH as [|[x|x|[al v]] l H _ IHl]; [reflexivity|discriminate|discriminate|].
    cbn in H, E, Hs |- *. apply andb_prop in E as [E1 E2]. destruct Hs as [S1 S2].
    destruct al; [discriminate|]. rewrite H by assumption. f_equal. now apply IHl.
  - cbn [pretty_with pretty_scalar negb andb] in *.
    destruct (existsb _ ps) eqn:E; [discriminate|].
    destruct (can_be_unquoted_in_block _ && negb (inline_breaking_chars (parse_single_quoted ps))) eqn:E1;
      cbn [andb] in *.
    + destruct (_ <=? _).
      * apply andb_prop in E1 as [_ E1]. cbn. now rewrite (proj1 (negb_true_iff _) E1).
      * destruct (_ <? _); [discriminate|]. cbn. now rewrite E.
    + destruct (_ <? _); [discriminate|]. cbn. now rewrite E.
  - cbn [pretty_with pretty_scalar] in *. destruct (existsb _ ps); [discriminate|].
    destruct (_ <? _); [discriminate|]. reflexivity.
  - cbn in Hs |- *. destruct (inline_breaking_chars s) eqn:E; [|reflexivity].
    exfalso. apply (Hs eq_refl). now apply breaking_spec.
  - discriminate.
  - discriminate.
  - discriminate.
Qed.

Lemma block_scalar_idem y c : is_scalar y = true ->
  pretty_with false c (pretty_scalar false y) = pretty_scalar false y.
Proof.
  intros Hs.
  destruct y as [l|l|l|l|ps|ps|s|ls ch|ls ch|s]; try discriminate; try reflexivity; cbn [pretty_scalar].
  - destruct (existsb _ ps) eqn:E; [reflexivity|].
    match goal with |- context [if ?b then Unquoted _ else _] => destruct b eqn:E1 end; [reflexivity|].
    destruct (_ <? _) eqn:E2; [reflexivity|]. cbn [pretty_with pretty_scalar]. now rewrite E, E1, E2.
  - destruct (existsb _ ps) eqn:E; [reflexivity|].
    destruct (_ <? _) eqn:E2; [reflexivity|]. cbn [pretty_with pretty_scalar]. now rewrite E, E2.
Qed.

Lemma stable_weaken y : forall child, stable child true y -> stable child false y.
Proof. destruct y; cbn; intros; auto; discriminate. Qed.

Lemma pretty_idem y : forall child, stable child false y ->
  pretty_with false child (pretty_with false child y) = pretty_with false child y.
Proof.
  induction y as [l IH|l IH|l IH|l IH|ps|ps|s|ls ch|ls ch|s] using yaml_ind'; intros child Hs;
    try (apply block_scalar_idem; reflexivity).
  - cbn [pretty_with]. f_equal. rewrite map_map. apply map_ext. intros [k v]. now rewrite inline_idem.
  - cbn [pretty_with]. destruct l as [|d0 l0] eqn:El; [reflexivity|]. cbn [is_nil]. rewrite <- El in *.
    cbn [pretty_with]. replace (is_nil (map _ l)) with false by now rewrite El.
    f_equal. rewrite map_map. clear El. cbn [stable] in Hs.
    induction IH as [|[x|x|[k [al v]]] l H _ IHl]; [reflexivity| | |]; cbn in H, Hs |- *;
      destruct Hs as [S1 S2]; [f_equal; now apply IHl|f_equal; now apply IHl|].
    rewrite H by assumption. f_equal. now apply IHl.
  - cbn [pretty_with]. f_equal. rewrite map_map. apply map_ext. intros v. apply inline_idem.
  - cbn [pretty_with]. destruct l as [|d0 l0] eqn:El; [reflexivity|]. cbn [is_nil]. rewrite <- El in *.
    match goal with |- context [auto_inline child ?m] => set (p := m) end.
    assert (Hp : p <> []) by (unfold p; rewrite El; discriminate).
    assert (Hfix : map (fun d => match d with
                            | AElem (mkA al x) => AElem (mkA al (pretty_with false true x))
                            | AComment c => AComment c
                            | AInlineC c => AInlineC c
                            end) p = p).
    { unfold p. rewrite map_map. clear p Hp El. cbn [stable] in Hs.
      induction IH as [|[x|x|[al v]] l H _ IHl]; [reflexivity| | |]; cbn in H, Hs |- *;
        destruct Hs as [S1 S2]; [f_equal; now apply IHl|f_equal; now apply IHl|].
      rewrite H; [f_equal; now apply IHl|]. destruct child; [now apply stable_weaken|assumption]. }
    unfold auto_inline.
    match goal with |- context [if ?b then _ else _] => destruct b eqn:E end.
    + apply andb_prop in E as [E _]. apply andb_prop in E as [Ec E]. subst child.
      cbn [pretty_with]. f_equal. unfold array_elems, p in *. clear Hp Hfix p El. cbn [stable] in Hs. clear IH.
      induction l as [|[x|x|[al v]] l IHl]; [reflexivity|discriminate|discriminate|].
      cbn in E, Hs |- *. apply andb_prop in E as [E1 E2]. destruct Hs as [S1 S2].
      destruct al; [discriminate|]. rewrite inlined_stable by assumption. f_equal. now apply IHl.
    + cbn [pretty_with]. rewrite Hfix. destruct p; [contradiction|]. cbn [is_nil].
      unfold auto_inline. now rewrite E.
Qed.

(** ---- auto inlining ---- *)

Lemma array_inlined_iff child v l : v <> [] ->
  (pretty_with false child (Array v) = InlineArray l <->
   child = true /\
   exists ys, v = map (fun y => AElem (mkA None y)) ys /\
     l = map (pretty_with false true) ys /\
     Forall (fun y => is_inlineable y = true) l /\
     utf8_len (format (InlineArray l) 0 None) <= 90).
Proof.
  intros Hv. cbn [pretty_with]. destruct v as [|d0 v0] eqn:Ev; [contradiction|]. cbn [is_nil].
  rewrite <- Ev in *. clear Ev d0 v0.
  unfold auto_inline. set (p := map _ v). split.
  - intros H. match type of H with context [if ?b then _ else _] => destruct b eqn:E end; [|discriminate].
    apply andb_prop in E as [E E3]. apply andb_prop in E as [E1 E2].
    assert (El : l = array_elems p) by congruence. split; [exact E1|].
    exists (array_elems v).
    assert (A : v = map (fun y => AElem (mkA None y)) (array_elems v) /\
                array_elems p = map (pretty_with false true) (array_elems v) /\
                Forall (fun y => is_inlineable y = true) (array_elems p)).
    { subst p. clear - E2.
      induction v as [|[x|x|[al y]] v IH]; [repeat split; constructor|discriminate|discriminate|].
      cbn in E2. apply andb_prop in E2 as [E1 E2]. destruct al; [discriminate|].
      destruct (IH E2) as (A1 & A2 & A3). cbn. split; [|split].
      - f_equal. exact A1.
      - f_equal. exact A2.
      - constructor; assumption. }
    destruct A as (A1 & A2 & A3). split; [exact A1|]. split; [congruence|]. split; [congruence|].
    rewrite El. now apply Nat.leb_le.
  - intros (-> & ys & E & -> & Hi & Hlen).
    assert (Ep : array_elems p = map (pretty_with false true) ys /\ can_inline p = true).
    { subst p. rewrite E. clear - Hi. induction ys as [|y ys IH]; [now split|].
      cbn in Hi. inversion Hi as [|a b C D]; subst. destruct (IH D) as [I1 I2]. cbn. split.
      - f_equal. exact I1.
      - rewrite C. exact I2. }
    destruct Ep as [-> ->]. apply Nat.leb_le in Hlen. unfold max_line_length. now rewrite Hlen.
Qed.

(** ---- inline stays inline ---- *)

Lemma pretty_scalar_clean inl y :
  is_scalar y = true -> inline_scalars_ok inl y = true -> inline_clean inl (pretty_scalar inl y) = true.
Proof.
  destruct y as [l|l|l|l|ps|ps|s|ls ch|ls ch|s]; intros Hs H; try discriminate; cbn in H |- *;
    destruct inl; cbn in *; try reflexivity; try exact H;
    unfold has_blank in *;
    repeat match goal with |- context [if ?b then _ else _] => destruct b end;
    try reflexivity; try discriminate.
Qed.

Lemma clean_inlineable y : inline_clean false y = true -> is_inlineable y = true -> inline_clean true y = true.
Proof. destruct y; cbn; intros; auto; discriminate. Qed.

Lemma pretty_clean y : forall inl c, inline_scalars_ok inl y = true ->
  inline_clean inl (pretty_with inl c y) = true.
Proof.
  induction y as [l IH|l IH|l IH|l IH|ps|ps|s|ls ch|ls ch|s] using yaml_ind'; intros inl c Hl;
    try (apply (pretty_scalar_clean inl); [reflexivity|exact Hl]).
  - cbn [pretty_with inline_clean]. cbn [inline_scalars_ok] in Hl.
    induction IH as [|[k v] l H _ IHl]; [reflexivity|].
    cbn in Hl |- *. apply andb_prop in Hl as [H1 H2]. now rewrite H, IHl.
  - cbn [pretty_with]. destruct l as [|d0 l0]; [reflexivity|]. cbn [is_nil].
    revert IH Hl. generalize (d0 :: l0) as l. intros l IH Hl. cbn [inline_scalars_ok] in Hl.
    destruct inl; cbn [inline_clean negb andb];
      (induction IH as [|[x|x|[k [al v]]] l H _ IHl]; [reflexivity| | |]; cbn in Hl |- *;
       [now apply IHl|now apply IHl|]; apply andb_prop in Hl as [H1 H2]; cbn in H;
       rewrite H by assumption; now apply IHl).
  - cbn [pretty_with inline_clean]. cbn [inline_scalars_ok] in Hl.
    induction IH as [|v l H _ IHl]; [reflexivity|].
    cbn in Hl |- *. apply andb_prop in Hl as [H1 H2]. now rewrite H, IHl.
  - cbn [pretty_with]. destruct l as [|d0 l0]; [reflexivity|]. cbn [is_nil].
    revert IH Hl. generalize (d0 :: l0) as l. intros l IH Hl. cbn [inline_scalars_ok] in Hl.
    destruct inl.
    + cbn [inline_clean].
      induction IH as [|[x|x|[al v]] l H _ IHl]; [reflexivity| | |]; cbn in Hl |- *;
       [now apply IHl|now apply IHl|]; apply andb_prop in Hl as [H1 H2]; cbn in H;
       rewrite H by assumption; now apply IHl.
    + assert (A : inline_clean false (Array (map (fun d => match d with
                            | AElem (mkA al x) => AElem (mkA al (pretty_with false true x))
                            | AComment c => AComment c
                            | AInlineC c => AInlineC c
                            end) l)) = true).
      { cbn [inline_clean negb andb].
        induction IH as [|[x|x|[al v]] l H _ IHl]; [reflexivity| | |]; cbn in Hl |- *;
          [now apply IHl|now apply IHl|]; apply andb_prop in Hl as [H1 H2]; cbn in H;
          rewrite H by assumption; now apply IHl. }
      unfold auto_inline.
      match goal with |- context [if ?b then _ else _] => destruct b eqn:E end; [|exact A].
      apply andb_prop in E as [E _]. apply andb_prop in E as [_ E]. revert E A.
      generalize (map (fun d => match d with
                            | AElem (mkA al x) => AElem (mkA al (pretty_with false true x))
                            | AComment c => AComment c
                            | AInlineC c => AInlineC c
                            end) l) as p. clear.
      intros p E A. cbn [inline_clean negb andb] in *. unfold array_elems.
      induction p as [|[x|x|[al v]] p IHp]; [reflexivity|discriminate|discriminate|].
      cbn in E, A |- *. apply andb_prop in E as [E1 E2]. apply andb_prop in A as [A1 A2].
      destruct al; [discriminate|]. rewrite clean_inlineable by assumption. now apply IHp.
Qed.

(** ---- documents ---- *)

Lemma doc_all_cons P d l ld : doc_all P (mkDoc ld (d :: l)) ->
  (forall y, d = DYaml y -> P y) /\ doc_all P (mkDoc ld l).
Proof. intros H. split; [intros y ->; apply H; now left|]. intros y Hy. apply H. now right. Qed.

Lemma doc_view d : doc_all (long_ok false) d -> doc_views (pretty_doc d) = doc_views d.
Proof.
  destruct d as [ld l]. unfold doc_views, pretty_doc. cbn [items].
  induction l as [|[c|y] l IH]; intros H; [reflexivity| |]; apply doc_all_cons in H as [H1 H2]; cbn.
  - now apply IH.
  - rewrite pretty_view by now apply H1. f_equal. now apply IH.
Qed.

Lemma doc_keeps d : doc_all (fun y => inline_no_block false y = true) d ->
  doc_comments (pretty_doc d) = doc_comments d /\ doc_aliases (pretty_doc d) = doc_aliases d.
Proof.
  destruct d as [ld l]. unfold doc_comments, doc_aliases, pretty_doc. cbn [items leading].
  induction l as [|[c|y] l IH]; intros H; [now split| |]; apply doc_all_cons in H as [H1 H2]; cbn;
    destruct (IH H2) as [I1 I2]; apply app_inv_head in I1.
  - rewrite I1, I2. now split.
  - destruct (pretty_keeps y false false (H1 y eq_refl)) as [-> ->]. rewrite I1, I2. now split.
Qed.

Lemma doc_keeps_marks d : doc_all (fun y => inline_no_block false y = true) d ->
  doc_marks (pretty_doc d) = doc_marks d.
Proof.
  destruct d as [ld l]. unfold doc_marks, pretty_doc. cbn [items leading]. intros H. f_equal.
  induction l as [|[c|y] l IH]; [reflexivity| |]; apply doc_all_cons in H as [H1 H2]; cbn.
  - f_equal. now apply IH.
  - rewrite (pretty_marks y false false (H1 y eq_refl)). f_equal. now apply IH.
Qed.

Lemma doc_idem d : doc_all (stable false false) d -> pretty_doc (pretty_doc d) = pretty_doc d.
Proof.
  destruct d as [ld l]. unfold pretty_doc. cbn [items leading]. intros H. f_equal.
  induction l as [|[c|y] l IH]; [reflexivity| |]; apply doc_all_cons in H as [H1 H2]; cbn.
  - f_equal. now apply IH.
  - rewrite pretty_idem by now apply H1. f_equal. now apply IH.
Qed.

(** ---- forms used by the property file, and witnesses ---- *)

Lemma pretty_with_scalar_value inl child y :
  is_scalar y = true -> long_ok inl y -> as_string (pretty_with inl child y) = as_string y.
Proof.
  intros Hs Hl. rewrite <- (pretty_scalar_value inl y Hs Hl). destruct y; try discriminate; reflexivity.
Qed.

Lemma pretty_view_flip inl child y : long_ok inl y -> view (pretty_with inl child y) = view y.
Proof. apply pretty_view. Qed.

Lemma pretty_keeps_flip inl child y : inline_no_block inl y = true ->
  comments (pretty_with inl child y) = comments y /\
  alias_names (pretty_with inl child y) = alias_names y.
Proof. apply pretty_keeps. Qed.

Lemma pretty_marks_flip inl child y : inline_no_block inl y = true ->
  marks (pretty_with inl child y) = marks y.
Proof. apply pretty_marks. Qed.

Lemma pretty_idempotent y : stable false false y -> pretty (pretty y) = pretty y.
Proof. apply pretty_idem. Qed.

Lemma pretty_clean_block child y :
  inline_scalars_ok false y = true -> inline_clean false (pretty_with false child y) = true.
Proof. apply pretty_clean. Qed.

(** A word longer than a line. *)
Lemma pretty_unfoldable : exists y, is_scalar y = true /\ as_string (pretty y) <> as_string y.
Proof.
  exists (DoubleQ [DQ_Str (fold_bad_word ++ lit " x")]). split; [reflexivity|].
  intros H. assert (E : option_map (@length N) (as_string (pretty (DoubleQ [DQ_Str (fold_bad_word ++ lit " x")])))
                        = option_map (@length N) (as_string (DoubleQ [DQ_Str (fold_bad_word ++ lit " x")]))) by now rewrite H.
  vm_compute in E. discriminate.
Qed.

Lemma pretty_drops : exists y, comments (pretty y) <> comments y /\ alias_names (pretty y) <> alias_names y.
Proof.
  exists (InlineArray [Array [AComment (lit "c"); AElem (mkA (Some (lit "x")) (Unquoted (lit "a")))]]).
  split; discriminate.
Qed.

Lemma pretty_not_idempotent : exists y, pretty (pretty y) <> pretty y.
Proof.
  exists (Array [AElem (mkA None (Array [AElem (mkA None (Unquoted (lit "a, b")))]))]).
  vm_compute. discriminate.
Qed.

Lemma pretty_unclean : exists y, inline_clean false y = true /\ inline_clean false (pretty y) = false.
Proof. exists (InlineArray [SingleQ [SQ_Str (lit "a"); SQ_Blank 1; SQ_Str (lit "b")]]). split; reflexivity. Qed.

Lemma inlineable_spec y : is_inlineable y = true <-> one_line_style y.
Proof. split; [destruct y; try discriminate; intros _; constructor|now destruct 1]. Qed.

Lemma array_inlined_spec child v l : v <> [] ->
  (pretty_with false child (Array v) = InlineArray l <->
   child = true /\
   exists ys, v = map (fun y => AElem (mkA None y)) ys /\
     l = map (pretty_with false true) ys /\
     Forall one_line_style l /\
     utf8_len (format (InlineArray l) 0 None) <= 90).
Proof.
  intros Hv. rewrite (array_inlined_iff child v l Hv).
  assert (E : Forall (fun y => is_inlineable y = true) l <-> Forall one_line_style l).
  { split; apply Forall_impl; intros y; apply inlineable_spec. }
  now setoid_rewrite E.
Qed.
