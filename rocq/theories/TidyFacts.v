(** Proofs: pretty printing keeps what readers of YAML 1.2 find. *)
From Coq Require Import Lia.
From Verif Require Import Base Ast Strings Format Pretty Ser Num Spec_Strings StringsFacts Spec_Pretty PrettyFacts SerdeFacts Spec_Serde Spec_Look Spec_Typed Spec_Ser ExactSerFacts Spec_Core CoreFacts
  Spec_Portable PortableFacts PlainFacts Spec_Export ExportFacts Spec_Yaml12 Spec_Tidy.
Import ListNotations.

Scheme alike_mut := Minimality for alike Sort Prop
  with alikes_mut := Minimality for alikes Sort Prop
  with alike_pairs_mut := Minimality for alike_pairs Sort Prop.
Combined Scheme alike_all from alike_mut, alikes_mut, alike_pairs_mut.

(** ---- characters that no word of the core schema has ---- *)

Definition core_char (c : char) : Prop := ~ In c (lit ",[]{}"">|").
Lemma digit_core c : (48 <= c <= 57)%N -> core_char c.
Proof. intros H I. cbn in I. intuition (subst; lia). Qed.
Lemma digits_core ds : digits ds -> Forall core_char ds.
Proof. intros [_ H]. apply Forall_forall. intros c I. now apply digit_core, H. Qed.
Lemma sign_core sg : sign sg -> Forall core_char sg.
Proof. intros [->|[->| ->]]; repeat constructor; intros I; cbn in I; intuition discriminate. Qed.
Lemma words_core l : forallb (forallb (fun c => negb (inb c (lit ",[]{}"">|")))) l = true -> forall s, In s l -> Forall core_char s.
Proof.
  intros H s I. rewrite forallb_forall in H. specialize (H s I). rewrite forallb_forall in H. apply Forall_forall. intros c J K.
  specialize (H c J). apply inb_spec in K. rewrite K in H. discriminate.
Qed.
Lemma based_core b ds n : number_in b ds n -> Forall core_char ds.
Proof.
  assert (C : forall c d, digit_of b c d -> core_char c).
  { intros c d [H _] I. cbn in I. intuition (subst; lia). }
  induction 1; try (apply Forall_app; split); repeat constructor; eauto.
Qed.
Lemma all_digits_core ds : all_digits ds -> Forall core_char ds.
Proof. intros H. apply Forall_forall. intros c I. now apply digit_core, H. Qed.
Lemma lit_core s : forallb (fun c => negb (inb c (lit ",[]{}"">|"))) s = true -> Forall core_char s.
Proof. intros H. apply (words_core [s]); [cbn [forallb]; now rewrite H|now left]. Qed.
Lemma special_core s : special s -> Forall core_char s.
Proof.
  intros [H|[(z & [(sg & ds & -> & S & D & _)|(ds & n & _ & [[-> B]|[-> B]])])|[(sg & m & e & -> & S & M & E)|(sg & r & -> & S & I)]]].
  - revert H. apply words_core. reflexivity.
  - apply Forall_app. split; [now apply sign_core|now apply digits_core].
  - apply Forall_app. split; [now apply lit_core|eapply based_core; eauto].
  - apply Forall_app. split; [now apply lit_core|eapply based_core; eauto].
  - apply Forall_app. split; [now apply sign_core|]. apply Forall_app. split.
    + destruct M as [(ds & -> & D)|[D|(ds & fs & -> & D & F)]].
      * apply (Forall_app core_char (lit ".")). split; [now apply lit_core|now apply digits_core].
      * now apply digits_core.
      * apply Forall_app. split; [now apply digits_core|]. apply (Forall_app core_char (lit ".")). split; [now apply lit_core|now apply all_digits_core].
    + destruct E as [->|(e' & sg' & ds & -> & I & S' & D)]; [constructor|].
      constructor; [intros J; cbn in I, J; intuition (subst; discriminate)|]. apply Forall_app. split; [now apply sign_core|now apply digits_core].
  - apply Forall_app. split; [now apply sign_core|]. revert I. apply words_core. reflexivity.
Qed.
Lemma breaking_core s : inline_breaking_chars s = true -> core s (MText s).
Proof.
  intros B. apply KText. intros Sp. apply special_core in Sp. rewrite Forall_forall in Sp.
  apply breaking_spec in B. destruct B as (c & J & I). exact (Sp c J I).
Qed.

(** ---- scalars ---- *)

Lemma sq_value_plain ps : Forall sq_portable ps -> has_blank ps = false.
Proof. induction 1 as [|p ps P _ IH]; [reflexivity|]. destruct p; cbn in *; try exact IH; contradiction. Qed.
Lemma sq_value_line ps : Forall sq_portable ps -> ~ In NL (parse_single_quoted ps).
Proof.
  induction 1 as [|p ps P _ IH]; [tauto|]. cbn [parse_single_quoted flat_map]. intros I. apply in_app_or in I as [I|I]; [|exact (IH I)].
  destruct p; cbn in *; try contradiction; [|destruct I as [I|[]]; discriminate]. rewrite Forall_forall in P. destruct (P NL I) as [[H|[H _]] _]; [discriminate|exact (H eq_refl)].
Qed.
Lemma escape_b ps : has_escape ps = true <-> escaped ps.
Proof.
  unfold has_escape, escaped. rewrite existsb_exists. split.
  - intros (p & I & H). destruct p; try discriminate. eauto.
  - intros (e & I). exists (DQ_Esc e). now split.
Qed.
Lemma folds_foldable s : folds s -> foldable_text 90 s /\ well_spaced 90 s = true /\ ~ In NL s.
Proof.
  intros (ws & N & F & -> & _). split; [|split].
  - exists false, ws, []. split; [exact N|]. split; [constructor; [exact F|constructor]|reflexivity].
  - now apply words_well_spaced.
  - apply has_char_false. now apply (words_well_spaced 90).
Qed.
Lemma join_chars sep ls l c : In l ls -> In c l -> In c (join sep ls).
Proof.
  induction ls as [|x ls IH]; [contradiction|]. intros [->|I] J.
  - destruct ls; cbn [join]; [exact J|]. apply in_or_app. now left.
  - destruct ls as [|y ls]; [contradiction|]. cbn [join]. apply in_or_app. right. apply in_or_app. right. now apply IH.
Qed.
Lemma folded_good s : folds s -> exists l ls, create_folded s 90 = l :: ls /\ l <> [] /\ Forall (Forall nb_char) (l :: ls) /\ Forall (fun x => match x with [] => True | d :: _ => ~ white d end) (l :: ls) /\ parse_folded (create_folded s 90) (pretty_chomp s) = s.
Proof.
  intros F. destruct (folds_foldable s F) as (Ft & W & N). destruct F as (ws & Nw & Fw & E & Ch).
  destruct (split_on_length_ok 90 s W) as (h & t & S & Nh & T & J).
  assert (L : ends_with NL s = false). { destruct (ends_with NL s) eqn:L; [|reflexivity]. apply ends_with_spec in L. destruct L as (r & ->). exfalso. apply N, in_or_app. right. now left. }
  assert (C : create_folded s 90 = (h :: t) ++ [[]]).
  { unfold create_folded. rewrite L. replace (split NL s) with [s]; [cbn [flat_map]; now rewrite S, app_nil_r|]. symmetry. apply split_no_char. now apply has_char_false. }
  exists h, (t ++ [[]]). split; [exact C|]. split; [exact Nh|]. rewrite Forall_forall in Ch.
  assert (A : forall l c, In l (h :: t) -> In c l -> nb_char c /\ c <> TAB).
  { intros l c I K. apply Ch. rewrite <- J. eapply join_chars; eauto. }
  assert (B : forall l, In l (h :: t) -> l <> [] /\ starts_with SP l = false).
  { intros l [<-|I]; [|rewrite Forall_forall in T; auto]. split; [exact Nh|]. destruct h as [|c h]; [easy|].
    destruct (ceqb c SP) eqn:Q; [|cbn; exact Q]. exfalso.
    assert (s = c :: (match t with [] => h | _ => h ++ [SP] ++ join [SP] t end)) by (rewrite <- J; destruct t; reflexivity).
    apply ceqb_eq in Q. subst c. rewrite E in H. destruct ws as [|w ws]; [easy|]. inversion Fw as [|? ? (W1 & W2 & _) _]; subst.
    destruct w as [|x w]; [easy|]. assert (x = SP) by (destruct ws; cbn in H; congruence). subst x. apply W2. now left. }
  split; [|split].
  - change (h :: t ++ [[]]) with ((h :: t) ++ [[]]). apply Forall_app. split; [|repeat constructor]. apply Forall_forall. intros l I. apply Forall_forall. intros c K. now apply (A l c).
  - change (h :: t ++ [[]]) with ((h :: t) ++ [[]]). apply Forall_app. split; [|repeat constructor]. apply Forall_forall. intros l I. destruct (B l I) as [N1 N2].
    destruct l as [|c l]; [easy|]. intros [->| ->]; [discriminate N2|]. destruct (A _ TAB I (or_introl eq_refl)) as [_ K]. now apply K.
  - apply folded_lossless_spec; [exact Ft|]. now apply chomp_for_choice.
Qed.
Lemma literal_good s : in_lines s -> exists l ls, create_literal s = l :: ls /\ l <> [] /\ Forall (Forall nb_char) (l :: ls) /\ parse_literal (create_literal s) (pretty_chomp s) = s.
Proof.
  intros (Ch & N & F). assert (P : parse_literal (create_literal s) (pretty_chomp s) = s) by (apply literal_lossless_spec; now apply chomp_for_choice).
  assert (G : Forall (Forall nb_char) (split NL s)).
  { apply Forall_forall. intros l I. apply Forall_forall. intros c J. rewrite Forall_forall in Ch.
    assert (K : In c s) by (rewrite <- (join_split NL s); eapply join_chars; eauto).
    destruct (Ch c K) as [H| ->]; [exact H|]. pose proof (split_no NL s) as Q. rewrite Forall_forall in Q. specialize (Q l I). apply has_char_false in Q. contradiction. }
  assert (H : exists l ls, split NL s = l :: ls /\ l <> []).
  { destruct s as [|c s]; [easy|]. cbn [split]. destruct (ceqb c NL) eqn:E; [apply ceqb_eq in E; subst; exfalso; now apply (F s)|].
    pose proof (split_ne NL s). destruct (split NL s) as [|w r]; [easy|]. exists (c :: w), r. split; [reflexivity|discriminate]. }
  destruct H as (l & ls & E & Nl). unfold create_literal in *. rewrite E in *. destruct (ends_with NL s).
  - destruct l as [|c l]; [easy|]. cbn [pop_if_empty] in *. exists (c :: l), (pop_if_empty ls). split; [reflexivity|]. split; [discriminate|]. split; [|exact P].
    inversion G as [|? ? G1 G2]; subst. constructor; [exact G1|]. clear - G2. induction G2 as [|x r X R IH]; [constructor|].
    cbn [pop_if_empty]. destruct x as [|y x]; [destruct r; [constructor|]|]; now constructor.
  - exists l, ls. now repeat split.
Qed.
Lemma plain_chars c s : plain c s -> Forall nb_char s.
Proof.
  assert (T : forall p t, plain_tail c p t -> Forall nb_char t).
  { induction 1 as [p W|p w t W _ IH|p x t X N1 N2 _ IH|p t X _ IH|p x t X _ IH]; constructor; auto.
    - destruct W as [->| ->]; apply nb_charb_spec; reflexivity.
    - apply X.
    - apply nb_charb_spec. reflexivity.
    - apply nb_charb_spec. reflexivity. }
  intros [x t X _ P|x y t X Y P]; constructor; eauto; [apply X|].
  cbn in X. destruct X as [<-|[<-|[<-|[]]]]; apply nb_charb_spec; reflexivity.
Qed.
Lemma nb_char_json c : nb_char c -> nb_json c.
Proof.
  intros ([H|[H|[H|[H|[H|[H|[H|H]]]]]]] & N1 & N2 & _); unfold nb_json, between in *; subst; try contradiction; try (now left); right; lia.
Qed.
Lemma single_parts s : Forall nb_char s -> Forall sq_portable (str_to_single_quoted_parts s).
Proof.
  intros F. rewrite Forall_forall in F. rewrite sq_parts_cut.
  eapply pieces_forall; [apply pieces_iff; reflexivity| |].
  - intros t N T. apply Forall_forall. intros x I. destruct (T x I) as [J E]. split; [apply nb_char_json; auto|]. intros ->. discriminate E.
  - intros x p _ E. cbn in E. destruct (ceqb x QUOTE); [|discriminate]. injection E as <-. exact I.
Qed.

(** ---- inline collections ---- *)

Lemma fold_forall {A} (P : A -> Prop) l : fold_right (fun x Q => P x /\ Q) True l <-> Forall P l.
Proof.
  split; [apply fold_and|]. induction 1; cbn; auto.
Qed.
Lemma inline_pretty y : forall child, inline_portable FlowIn y ->
  inline_portable FlowIn (pretty_with true child y) /\ alike (content_of y) (content_of (pretty_with true child y)).
Proof.
  induction y as [l IH|l IH|l IH|l IH|ps|ps|s|ls c|ls c|a] using yaml_ind'; intros child P.
  - cbn [inline_portable] in P. apply fold_forall in P. cbn [pretty_with inline_portable content_of].
    assert (H : Forall (fun kv : str * yaml => (plain FlowIn (fst kv) /\ inline_portable FlowIn (pretty_with true false (snd kv))) /\
                 alike (content_of (snd kv)) (content_of (pretty_with true false (snd kv)))) l).
    { apply Forall_forall. intros [k x] I. rewrite Forall_forall in IH, P. specialize (IH _ I false). specialize (P _ I). cbn in *. destruct P as [P1 P2]. destruct (IH P2). auto. }
    clear IH P. split.
    + apply (fold_forall (fun kv : str * yaml => match kv with (k, x) => plain FlowIn k /\ inline_portable FlowIn x end)).
      induction H as [|[k x] l [H _] _ IH]; [constructor|]. cbn [map]. constructor; auto.
    + constructor. induction H as [|[k x] l [_ H] _ IH]; cbn [map]; constructor; auto.
  - destruct l; [|contradiction]. cbn. repeat constructor.
  - cbn [inline_portable] in P. apply fold_forall in P. cbn [pretty_with inline_portable content_of].
    assert (H : Forall (fun x => inline_portable FlowIn (pretty_with true false x) /\
                 alike (content_of x) (content_of (pretty_with true false x))) l).
    { apply Forall_forall. intros x I. rewrite Forall_forall in IH, P. apply (IH _ I false), P, I. }
    clear IH P. split.
    + apply (fold_forall (inline_portable FlowIn)). apply Forall_map. eapply Forall_impl; [|exact H]. now intros x [].
    + constructor. induction H as [|x l [_ H] _ IH]; cbn [map]; constructor; auto.
  - destruct l; [|contradiction]. cbn. repeat constructor.
  - cbn [pretty_with pretty_scalar]. change (existsb _ ps) with (has_blank ps). rewrite (sq_value_plain ps P). cbn [negb andb].
    split; [exact P|]. constructor. now left.
  - split; [exact P|]. constructor. now left.
  - cbn [pretty_with pretty_scalar andb]. destruct (inline_breaking_chars s) eqn:B.
    + split; [apply single_parts; eapply plain_chars; exact P|]. cbn [content_of]. rewrite single_quoted_lossless. constructor. right. now apply breaking_core.
    + split; [exact P|]. constructor. now left.
  - contradiction.
  - contradiction.
  - split; [exact P|constructor].
Qed.

(** ---- trees on lines of their own ---- *)

Definition kept (al : option str) (y z : yaml) : Prop :=
  portable (mkA al z) /\ alike (content_of y) (content_of z) /\ (stays y -> on_line (mkA al z)) /\
  (flow_ready y -> is_inlineable z = true -> inline_portable FlowIn z).
Lemma kept_line al y z : inline_portable FlowOut z -> names al -> (is_alias z -> al = None) -> alike (content_of y) (content_of z) ->
  (flow_ready y -> is_inlineable z = true -> inline_portable FlowIn z) -> kept al y z.
Proof. intros P N A K F. assert (O : on_line (mkA al z)) by now split. split; [now apply PLine|]. now split. Qed.
Lemma kept_folded al y s : names al -> folds s -> content_of y = Scalar false s -> ~ stays y ->
  kept al y (Folded (create_folded s max_line_length) (pretty_chomp s)).
Proof.
  intros N F E S. destruct (folded_good s F) as (l & ls & C & Nl & A & B & V). change max_line_length with 90.
  split; [rewrite C; now apply PFolded|]. split; [|split; [contradiction|intros _ H; discriminate H]].
  rewrite E. cbn [content_of]. rewrite V. constructor. now left.
Qed.
Lemma kept_literal al y s : names al -> in_lines s -> content_of y = Scalar false s -> ~ stays y ->
  kept al y (Literal (create_literal s) (pretty_chomp s)).
Proof.
  intros N F E S. destruct (literal_good s F) as (l & ls & C & Nl & A & V).
  split; [rewrite C; now apply PLiteral|]. split; [|split; [contradiction|intros _ H; discriminate H]].
  rewrite E. cbn [content_of]. rewrite V. constructor. now left.
Qed.
Lemma line_pretty al y child : on_line (mkA al y) -> gentle child y -> kept al y (pretty_with false child y).
Proof.
  intros (P & N & A) G.
  destruct y as [l|l|l|l|ps|ps|s|ls c|ls c|a].
  - destruct (inline_pretty (InlineHash l) child P) as [Q K]. apply kept_line; [exact Q|exact N|intros []|exact K|intros _ _; exact Q].
  - destruct l; [|contradiction]. apply kept_line; [exact I|exact N|intros []|repeat constructor|intros _ _; exact I].
  - destruct (inline_pretty (InlineArray l) child P) as [Q K]. apply kept_line; [exact Q|exact N|intros []|exact K|intros _ _; exact Q].
  - destruct l; [|contradiction]. apply kept_line; [exact I|exact N|intros []|repeat constructor|intros _ _; exact I].
  - cbn [pretty_with pretty_scalar]. change (existsb _ ps) with (has_blank ps). rewrite (sq_value_plain ps P). cbn [negb andb].
    cbn [gentle gentle_scalar] in G. change max_line_length with 90 in *.
    destruct (utf8_len (parse_single_quoted ps) <=? 90) eqn:L.
    + apply Nat.leb_le in L. assert (L' : 90 <? utf8_len (parse_single_quoted ps) = false) by (apply Nat.ltb_ge; lia). rewrite L'.
      destruct (can_be_unquoted_in_block (parse_single_quoted ps) && negb (inline_breaking_chars (parse_single_quoted ps)))%bool eqn:B; cbn [andb].
      * assert (T : plain_text (parse_single_quoted ps)).
        { apply unquoted_plain. unfold needs_quoting. apply andb_true_iff in B as [B1 B2]. rewrite B1. cbn. now apply negb_true_iff. }
        destruct (G T) as [Q C]. apply kept_line; [exact Q|exact N|intros []|constructor; now right|].
        intros _ _. cbn [inline_portable]. apply plain_in; [exact Q|]. intros x I. destruct T as (_ & _ & _ & _ & _ & H & _). apply H. cbn in *. intuition.
      * apply kept_line; [exact P|exact N|intros []|constructor; now left|intros _ _; exact P].
    + apply Nat.leb_gt in L. assert (L' : 90 <? utf8_len (parse_single_quoted ps) = true) by now apply Nat.ltb_lt. rewrite L', andb_false_r.
      apply kept_folded; [exact N|exact G|reflexivity|cbn; lia].
  - cbn [pretty_with pretty_scalar]. change (existsb _ ps) with (has_escape ps).
    cbn [gentle gentle_scalar] in G. destruct G as [G1 G2]. change max_line_length with 90 in *.
    destruct (has_escape ps) eqn:E.
    + apply escape_b in E. apply kept_literal; [exact N|auto|reflexivity|]. intros [H _]. contradiction.
    + assert (E' : ~ escaped ps) by (rewrite <- escape_b; congruence).
      destruct (90 <? utf8_len (parse_double_quoted ps)) eqn:L.
      * apply Nat.ltb_lt in L. apply kept_folded; [exact N|auto|reflexivity|]. intros [_ H]. lia.
      * apply kept_line; [exact P|exact N|intros []|constructor; now left|intros _ _; exact P].
  - apply kept_line; [exact P|exact N|intros []|constructor; now left|intros F _; exact F].
  - contradiction.
  - contradiction.
  - apply kept_line; [exact P|exact N|exact A|constructor|intros _ H; discriminate H].
Qed.

Definition pretty_row (d : hashdata) : hashdata :=
  match d with
  | HElem (mkHE k (mkA al x)) => HElem (mkHE k (mkA al (pretty_with false false x)))
  | HComment c => HComment c
  | HInlineC c => HInlineC c
  end.
Definition pretty_item (d : arraydata) : arraydata :=
  match d with
  | AElem (mkA al x) => AElem (mkA al (pretty_with false true x))
  | AComment c => AComment c
  | AInlineC c => AInlineC c
  end.
Definition row_nodes (l : list hashdata) : list (node * node) :=
  flat_map (fun d => match d with HElem (mkHE k (mkA al x)) => [(Node None (Scalar true k), Node al (content_of x))] | _ => [] end) l.
Definition item_nodes (l : list arraydata) : list node :=
  flat_map (fun d => match d with AElem (mkA al x) => [Node al (content_of x)] | _ => [] end) l.
Definition rows_gentle (l : list hashdata) : Prop :=
  fold_right (fun d Q => match d with HElem (mkHE _ (mkA _ x)) => gentle false x | _ => True end /\ Q) True l /\
  (forall p k al x c r, l = p ++ HElem (mkHE k (mkA al x)) :: HInlineC c :: r -> stays x).
Definition items_gentle (child : bool) (l : list arraydata) : Prop :=
  fold_right (fun d Q => match d with AElem (mkA _ x) => gentle true x /\ (child = true -> flow_ready x) | _ => True end /\ Q) True l /\
  (forall p al x c r, l = p ++ AElem (mkA al x) :: AInlineC c :: r -> stays x).
Lemma rows_tail d l : rows_gentle (d :: l) -> rows_gentle l.
Proof. intros [[_ G] C]. split; [exact G|]. intros p k al x c r E. apply (C (d :: p) k al x c r). cbn. now rewrite E. Qed.
Lemma items_tail child d l : items_gentle child (d :: l) -> items_gentle child l.
Proof. intros [[_ G] C]. split; [exact G|]. intros p al x c r E. apply (C (d :: p) al x c r). cbn. now rewrite E. Qed.
Lemma inlined_nodes l : can_inline l = true -> item_nodes l = map (fun x => Node None (content_of x)) (array_elems l).
Proof.
  induction l as [|[c|c|[[a|] x]] l IH]; cbn [can_inline forallb]; try discriminate; [reflexivity|].
  cbn. intros H. apply andb_true_iff in H as [_ H]. cbn. f_equal. now apply IH.
Qed.
Definition kept' (al : option str) (y z : yaml) : Prop :=
  portable (mkA al z) /\ alike (content_of y) (content_of z) /\ (flow_ready y -> is_inlineable z = true -> inline_portable FlowIn z).

Lemma tree_pretty :
  (forall a, portable a -> match a with mkA al y => forall child, gentle child y -> kept' al y (pretty_with false child y) end) /\
  (forall l, map_rows l -> rows_gentle l -> map_rows (map pretty_row l) /\ alike_pairs (row_nodes l) (row_nodes (map pretty_row l))) /\
  (forall l, seq_rows l -> forall child, items_gentle child l -> seq_rows (map pretty_item l) /\ alikes (item_nodes l) (item_nodes (map pretty_item l)) /\
     (child = true -> can_inline (map pretty_item l) = true -> Forall (inline_portable FlowIn) (array_elems (map pretty_item l)))).
Proof.
  apply portable_all.
  - intros [al y] O child G. destruct (line_pretty al y child O G) as (A & B & _ & D). now split.
  - intros al l ls c N Nl F child _. split; [now apply PLiteral|]. split; [constructor; now left|intros _ H; discriminate H].
  - intros al l ls c N Nl F W child _. split; [now apply PFolded|]. split; [constructor; now left|intros _ H; discriminate H].
  - intros al l N R IH E child G. destruct (IH G) as [R' K]. destruct l as [|d l]; [destruct E as (? & [])|].
    change (pretty_with false child (Hash (d :: l))) with (Hash (map pretty_row (d :: l))).
    split; [|split; [now constructor|intros _ H; discriminate H]]. apply Spec_Portable.PHash; [exact N|exact R'|].
    destruct E as ([k [a x]] & I). exists (mkHE k (mkA a (pretty_with false false x))). now apply (in_map pretty_row) in I.
  - intros al l N R IH E child G. destruct (IH child G) as (R' & K & F). destruct l as [|d l]; [destruct E as (? & [])|].
    change (pretty_with false child (Array (d :: l))) with (auto_inline child (map pretty_item (d :: l))).
    set (l' := map pretty_item (d :: l)) in *. unfold auto_inline. destruct (child && can_inline l' && _)%bool eqn:B.
    + apply andb_true_iff in B as [B _]. apply andb_true_iff in B as [-> B]. specialize (F eq_refl B).
      assert (Q : inline_portable FlowIn (InlineArray (array_elems l'))) by now apply fold_forall.
      split; [apply PLine; split; [exact Q|split; [exact N|intros []]]|]. split; [|intros _ _; exact Q].
      cbn [content_of]. rewrite <- (inlined_nodes l' B). now constructor.
    + split; [|split; [now constructor|intros _ H; discriminate H]]. apply PArray; [exact N|exact R'|].
      destruct E as ([a x] & I). exists (mkA a (pretty_with false true x)). now apply (in_map pretty_item) in I.
  - intros _. split; constructor.
  - intros c l C R IH G. destruct (IH (rows_tail _ _ G)) as [A B]. split; [now constructor|exact B].
  - intros k [al x] l K P IHP R IH G. destruct (IH (rows_tail _ _ G)) as [A B]. destruct G as [[G _] _].
    destruct (IHP false G) as (P' & L & _). split; [now constructor|]. cbn. now constructor.
  - intros k [al x] c l K P C R IH G. destruct (IH (rows_tail _ _ (rows_tail _ _ G))) as [A B]. destruct G as [[G _] S].
    destruct (line_pretty al x false P G) as (_ & L & O & _). split; [|cbn; now constructor].
    cbn [map pretty_row]. apply MREntryC; auto. apply O. now apply (S [] k al x c l).
  - intros child _. repeat split; constructor.
  - intros c l C R IH child G. destruct (IH child (items_tail _ _ _ G)) as (A & B & _). split; [now constructor|]. split; [exact B|intros _ H; discriminate H].
  - intros [al x] l P IHP R IH child G. destruct (IH child (items_tail _ _ _ G)) as (A & B & F). destruct G as [[[G Fr] _] _].
    destruct (IHP true G) as (P' & L & D). split; [now constructor|]. split; [cbn; now constructor|].
    intros Ch CI. cbn [map pretty_item can_inline forallb a_alias a_value] in CI. destruct al; [discriminate CI|].
    apply andb_true_iff in CI as [CI1 CI2]. cbn. constructor; [now apply D; auto|]. now apply F.
  - intros [al x] c l P C R IH child G. destruct (IH child (items_tail _ _ _ (items_tail _ _ _ G))) as (A & B & _). destruct G as [[[G _] _] S].
    destruct (line_pretty al x true P G) as (_ & L & O & _). split; [|split; [cbn; now constructor|]].
    + cbn [map pretty_item]. apply SRElemC; auto. apply O. now apply (S [] al x c l).
    + intros _ CI. exfalso. cbn [map pretty_item can_inline forallb] in CI. rewrite andb_false_r in CI. discriminate CI.
Qed.

(** ---- files ---- *)

Theorem tidy_file d y : portable_doc d y -> gentle false y -> stays y ->
  exists c, alike (content_of y) c /\ yaml_file (Node None (content_of y)) (format_doc d ++ [NL]) /\
    yaml_file (Node None c) (format_doc (pretty_doc d) ++ [NL]).
Proof.
  intros D G S. exists (content_of (pretty y)). pose proof (doc_wrote d y D) as W.
  assert (M : forall l, map pretty_docdata (map DComment l) = map DComment l) by (intros l; rewrite map_map; reflexivity).
  destruct D as [cs0 cs y cs1 A B C P R|cs0 y cs1 A C L].
  2: { destruct (line_pretty None y false L G) as (_ & K & O & _). split; [exact K|]. split; [exact W|]. apply doc_wrote. unfold pretty_doc.
    cbn [leading items map pretty_docdata]. rewrite M. apply PRoot; auto. }
  destruct (proj1 tree_pretty _ P false G) as (P' & K & _). split; [exact K|]. split; [exact W|].
  apply doc_wrote. unfold pretty_doc. cbn [leading items]. rewrite map_app. cbn [map pretty_docdata].
  rewrite !M. apply PDoc; auto. unfold pretty. destruct y as [| l| | l| | | | | |]; try contradiction; (destruct l; [contradiction|exact I]).
Qed.

Lemma alike_meaning :
  (forall c d, alike c d -> forall al x, resolved (Node al c) x <-> resolved (Node al d) x) /\
  (forall l m, alikes l m -> forall xs, resolved_all l xs <-> resolved_all m xs) /\
  (forall l m, alike_pairs l m -> forall es, resolved_pairs l es <-> resolved_pairs m es).
Proof.
  apply alike_all.
  - intros p q s H al x. destruct (Bool.bool_dec p q) as [->|N]; [reflexivity|]. destruct H as [H|H]; [contradiction|].
    assert (T : resolved (Node al (Scalar true s)) (VScalar (MText s))) by now constructor.
    assert (F : resolved (Node al (Scalar false s)) (VScalar (MText s))) by constructor.
    destruct p, q; try contradiction; split; intros R; first [rewrite (resolved_one _ _ _ R T); exact F|rewrite (resolved_one _ _ _ R F); exact T].
  - reflexivity.
  - intros l m _ IH al x. split; intros R; inversion R; subst; constructor; now apply IH.
  - intros l m _ IH al x. split; intros R; inversion R; subst; constructor; now apply IH.
  - reflexivity.
  - intros al c d l m _ IH _ IHl xs. split; intros R; inversion R; subst; constructor; first [now apply IH|now apply IHl].
  - reflexivity.
  - intros k al c d l m _ IH _ IHl xs. split; intros R; inversion R; subst; constructor; first [assumption|now apply IH|now apply IHl].
Qed.
Theorem alike_same c d al x : alike c d -> resolved (Node al c) x <-> resolved (Node al d) x.
Proof. intros H. now apply alike_meaning. Qed.

(** ---- serialized and pretty printed ---- *)

Lemma pieces_special {P} (text : str -> P) special s ps c p : Spec_Ser.pieces text special s ps -> In c s -> special c = Some p -> In p ps.
Proof.
  induction 1 as [|t N T|d q r ps E _ IH|t d q r ps N T E _ IH]; intros I S.
  - contradiction.
  - rewrite (T c I) in S. discriminate.
  - destruct I as [->|I]; [left; congruence|right; auto].
  - apply in_app_or in I as [I|[->|I]]; [rewrite (T c I) in S; discriminate|right; left; congruence|right; right; auto].
Qed.
Lemma pieces_from {P} (text : str -> P) special s ps q : Spec_Ser.pieces text special s ps -> In q ps -> (forall t, q <> text t) ->
  exists c, In c s /\ special c = Some q.
Proof.
  induction 1 as [|t N T|d p r ps E _ IH|t d p r ps N T E _ IH]; intros I F.
  - contradiction.
  - destruct I as [<-|[]]. now destruct (F t).
  - destruct I as [<-|I]; [exists d; split; [now left|exact E]|]. destruct (IH I F) as (c & J & S). exists c. split; [now right|exact S].
  - destruct I as [<-|[<-|I]]; [now destruct (F t)|exists d; split; [apply in_or_app; right; now left|exact E]|].
    destruct (IH I F) as (c & J & S). exists c. split; [apply in_or_app; right; now right|exact S].
Qed.
Lemma text_gentle s y child : text_node s y -> text_exports s -> tidy_text s -> gentle child y /\ flow_ready y.
Proof.
  intros T [_ E] D. assert (V : y = str_to_yaml s) by (now apply text_iff). pose proof (str_to_yaml_value s) as Val. rewrite <- V in Val. clear V.
  destruct T as [[P ->]|[[(P & [L1 L2] & A) (ps & -> & Ps)]|[(P & [L1 L2] & A & ps & -> & Ps)|(L & ps & -> & Ps)]]]; cbn in Val.
  - split; [exact I|]. cbn. destruct (E P) as [Q _]. apply plain_in; [exact Q|]. intros x I. destruct P as (_ & _ & _ & _ & _ & H & _). apply H. cbn in *. intuition.
  - injection Val as Val. split; [|exact I]. cbn. rewrite Val. destruct (utf8_len s <=? 90) eqn:W; [contradiction|].
    apply Nat.leb_gt in W. apply (D P); [|exact W]. intros [H|[H|[H _]]]; contradiction.
  - injection Val as Val. split; [|exact I]. cbn. rewrite Val. destruct (D P) as [D1 D2]. split.
    + intros (e & J). apply D1. right. right. split; [exact A|].
      destruct (pieces_from _ _ _ _ _ Ps J ltac:(discriminate)) as (c & K & S). cbn in S. destruct (ceqb c BACKSLASH) eqn:B; [|discriminate].
      apply ceqb_eq in B. now subst.
    + intros N. apply D2. intros [H|[H|[_ H]]]; [contradiction|contradiction|]. apply N. exists E_Backslash.
      now apply (pieces_special _ _ _ _ BACKSLASH _ Ps).
  - injection Val as Val. split; [|exact I]. cbn. rewrite Val.
    assert (P : ~ plain_text s) by (intros P; apply L; now apply plain_line).
    assert (Lx : In NL s \/ In CR s).
    { destruct (in_dec N.eq_dec NL s) as [H|H]; [now left|]. destruct (in_dec N.eq_dec CR s) as [H'|H']; [now right|]. exfalso. apply L. now split. }
    split; [intros _; apply (D P); destruct Lx; [now left|right; now left]|].
    intros N. exfalso. apply N. destruct Lx as [H|H]; [exists E_Newline|exists E_CR]; (eapply pieces_special; [exact Ps|exact H|reflexivity]).
Qed.
Lemma all2_each {A B} (P : A -> B -> Prop) (R : B -> Prop) l m : (forall x y, In x l -> P x y -> R y) -> all2 P l m -> Forall R m.
Proof.
  revert m. induction l as [|x l IH]; intros [|y m] F H; cbn in H; try contradiction; constructor.
  - apply (F x); [now left|apply H].
  - apply IH; [|apply H]. intros a b I. apply F. now right.
Qed.
Lemma items_made child es : Forall (fun e => exists z, e = AElem (mkA None z) /\ gentle true z /\ flow_ready z) es -> gentle child (Array es).
Proof.
  intros F. cbn [gentle]. split.
  - induction F as [|e es (z & -> & G & R) _ IH]; [exact I|]. split; [split; [exact G|intros _; exact R]|exact IH].
  - intros p al x c r ->. apply Forall_app in F as [_ F]. inversion F as [|? ? _ F']; subst. inversion F' as [|? ? (z & H & _) _]; discriminate H.
Qed.
Lemma rows_made child es : Forall (fun e => exists k z, e = HElem (mkHE k (mkA None z)) /\ gentle false z) es -> gentle child (Hash es).
Proof.
  intros F. cbn [gentle]. split.
  - induction F as [|e es (k & z & -> & G) _ IH]; [exact I|]. split; [exact G|exact IH].
  - intros p k al x c r ->. apply Forall_app in F as [_ F]. inversion F as [|? ? _ F']; subst. inversion F' as [|? ? (k' & z & H & _) _]; discriminate H.
Qed.
Lemma ser_gentle : forall v y, exports v -> tidy v -> writes v y -> forall child, gentle child y /\ flow_ready y.
Proof.
  assert (STRUCT : forall l y, Forall (fun kv : str * sval => forall y, exports (snd kv) -> tidy (snd kv) -> writes (snd kv) y -> forall child, gentle child y /\ flow_ready y) l ->
     fold_right (fun kv Q => match kv with (k, v) => name_exports k /\ exports v end /\ Q) True l ->
     fold_right (fun kv Q => match kv with (_, v) => tidy v end /\ Q) True l ->
     (exists es, y = Hash es /\ all2 (fun kv e => match kv with (k, v) => exists z, e = HElem (mkHE k (mkA None z)) /\ writes v z end) l es) ->
     forall child, gentle child y /\ flow_ready y).
  { intros l y IH E T (es & -> & W) child. split; [|exact I]. apply rows_made. apply (fold_and (fun kv : str * sval => match kv with (k, v) => name_exports k /\ exports v end)) in E.
    apply (fold_and (fun kv : str * sval => match kv with (_, v) => tidy v end)) in T. rewrite Forall_forall in IH, E, T.
    eapply all2_each; [|exact W]. cbn beta. clear W. intros [k v] e J (z & -> & W). exists k, z. split; [reflexivity|]. destruct (E _ J) as [_ E']. now apply (IH _ J z E' (T _ J) W). }
  intros v; induction v using sval_ind'; intros y E T W child; cbn [exports tidy writes] in *; try (eapply IHv; eassumption).
  - subst. split; [exact I|]. apply bool_plain.
  - destruct W as (s & -> & S). split; [exact I|]. eapply shortest_plain; eauto.
  - subst. split; [exact I|]. now apply finite_plain.
  - eapply text_gentle; eauto.
  - eapply text_gentle; eauto.
  - destruct W as (es & -> & W). split; [|exact I]. apply items_made. eapply all2_each; [|exact W]. cbn beta. clear W. intros b e _ (s & -> & S). exists (Unquoted s). split; [reflexivity|].
    split; [exact I|]. eapply shortest_plain; eauto.
  - subst. split; [exact I|]. apply tilde_plain.
  - subst. split; [exact I|]. apply tilde_plain.
  - subst. split; [exact I|]. apply tilde_plain.
  - destruct W as (es & -> & W). split; [|exact I]. apply items_made. apply fold_and in E. apply fold_and in T. rewrite Forall_forall in H, E, T.
    eapply all2_each; [|exact W]. cbn beta. clear W. intros v e J (z & -> & W). exists z. split; [reflexivity|]. now apply (H _ J z (E _ J) (T _ J) W).
  - destruct W as (es & -> & _). split; exact I.
  - destruct W as (es & -> & W). split; [|exact I]. apply rows_made. apply (fold_and (fun kv : sval * sval => match kv with (k, v) => key_exports k /\ exports v end)) in E.
    apply (fold_and (fun kv : sval * sval => match kv with (_, v) => tidy v end)) in T. rewrite Forall_forall in H, E, T.
    eapply all2_each; [|exact W]. cbn beta. clear W. intros [k v] e J (s & z & -> & _ & W). exists s, z. split; [reflexivity|]. destruct (E _ J) as [_ E']. destruct (H _ J) as [_ IHv]. now apply (IHv z E' (T _ J) W).
  - exact (STRUCT l y H E T W child).
  - eapply text_gentle; eauto.
  - destruct W as (es & -> & _). split; exact I.
  - exact (STRUCT l y H E T W child).
Qed.
Theorem tidy_export v y : ser v = Some y -> exports v -> tidy v -> stays y ->
  exists n x, yaml_file n (format_doc (mkDoc [] [DYaml (pretty y)]) ++ [NL]) /\ resolved n x /\ intends v x.
Proof.
  intros S E T B. apply ser_iff in S. destruct (exported_all v y E S) as (P & _ & x & R & N).
  destruct (ser_gentle v y E T S false) as [G _].
  assert (D : portable_doc (mkDoc [] [DYaml y]) y) by now apply (root_portable v).
  destruct (tidy_file _ y D G B) as (c & K & _ & F). exists (Node None c), x. split; [exact F|]. split; [|exact N]. now apply (alike_same _ _ None x K).
Qed.

(** A file whose pretty printed text is the text of other data. *)
Theorem other_data d e y z x w : portable_doc d y -> portable_doc e z -> format_doc (pretty_doc d) = format_doc e ->
  resolved (Node None (content_of y)) x -> resolved (Node None (content_of z)) w -> x <> w -> differs (format_doc d) (format_doc (pretty_doc d)).
Proof.
  intros D E Q X W N. exists (Node None (content_of y)), x, (Node None (content_of z)), w. rewrite Q. repeat split; auto using doc_wrote.
Qed.
