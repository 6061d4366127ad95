(** What folding may change. *)
From Coq Require Import Lia.
From Verif Require Import Base Ast Strings Format Num Pretty Spec_Strings Spec_Pretty Spec_Fold StringsFacts PrettyFacts.
Import ListNotations.

Lemma visible_app a b : visible (a ++ b) = visible a ++ visible b.
Proof. apply filter_app. Qed.
Lemma visible_sp : visible [SP] = []. Proof. reflexivity. Qed.
Lemma visible_nl : visible [NL] = []. Proof. reflexivity. Qed.
Lemma visible_trim s : visible (trim_end NL s) = visible s.
Proof.
  induction s as [|c s IH]; [reflexivity|]. cbn [trim_end]. destruct (trim_end NL s) as [|x t].
  - change (c :: s) with ([c] ++ s). rewrite visible_app, <- IH. destruct (ceqb c NL) eqn:E; cbn; [|now rewrite app_nil_r].
    apply ceqb_eq in E. subst c. reflexivity.
  - change (c :: s) with ([c] ++ s). change (c :: x :: t) with ([c] ++ x :: t). now rewrite !visible_app, IH.
Qed.
Lemma visible_ending s c : visible (handle_ending_newlines s c) = visible s.
Proof. destruct c; cbn [handle_ending_newlines]; rewrite ?visible_app, ?visible_trim, ?visible_nl, ?app_nil_r; reflexivity. Qed.

(** Reading folded lines keeps their characters. *)
Lemma visible_fold ls : forall s b, visible (fst (fold_left fold_step ls (s, b))) = visible s ++ visible (concat ls).
Proof.
  induction ls as [|l ls IH]; intros s b; cbn [fold_left concat]; [now rewrite app_nil_r|].
  unfold fold_step at 2. destruct (is_nil l) eqn:E; [|destruct (starts_with SP l)].
  - destruct l; [|discriminate]. rewrite IH, !visible_app, visible_nl, app_nil_r. reflexivity.
  - rewrite IH, !visible_app, visible_nl. cbn [app]. now rewrite app_nil_r, <- app_assoc.
  - rewrite IH, !visible_app. destruct b; rewrite ?visible_app, ?visible_sp, ?app_nil_r; now rewrite <- app_assoc.
Qed.
Lemma visible_parse ls c : visible (parse_folded ls c) = visible (concat ls).
Proof. destruct ls as [|l ls]; [reflexivity|]. cbn [parse_folded]. rewrite visible_ending, visible_fold. cbn [concat]. now rewrite visible_app. Qed.

(** Writing folded lines keeps their characters. *)
Lemma visible_join c ls : blank c -> visible (join [c] ls) = visible (concat ls).
Proof.
  intros B. induction ls as [|a [|b ls] IH]; [reflexivity|cbn; now rewrite app_nil_r|].
  change (join [c] (a :: b :: ls)) with (a ++ [c] ++ join [c] (b :: ls)).
  change (concat (a :: b :: ls)) with (a ++ concat (b :: ls)). rewrite !visible_app, IH. now destruct B as [-> | ->].
Qed.
Lemma visible_split c s : blank c -> visible (concat (split c s)) = visible s.
Proof. intros B. now rewrite <- (visible_join c _ B), join_split. Qed.
Lemma visible_sol len ws : forall res s f, let '(res', s', _) := fold_left (sol_step len) ws (res, s, f) in
  visible (concat (res' ++ [s'])) = visible (concat (res ++ [s])) ++ visible (concat ws).
Proof.
  induction ws as [|w ws IH]; intros res s f; cbn [fold_left concat]; [now rewrite app_nil_r|].
  unfold sol_step at 2. destruct (len <? _).
  - specialize (IH (res ++ [s]) w f). destruct (fold_left _ ws _) as [[res' s'] f']. rewrite IH.
    rewrite (concat_app (res ++ [s])), !visible_app. cbn [concat]. now rewrite app_nil_r, app_assoc.
  - match goal with |- context [fold_left _ ws (res, ?x, false)] => specialize (IH res x false); destruct (fold_left _ ws (res, x, false)) as [[res' s'] f'] end.
    rewrite IH. rewrite !concat_app, !visible_app. cbn [concat]. rewrite !app_nil_r, visible_app.
    destruct f; rewrite ?visible_app, ?visible_sp, ?app_nil_r; now rewrite <- !app_assoc.
Qed.
Lemma visible_lines len s : visible (concat (split_on_length s len)) = visible s.
Proof.
  unfold split_on_length. pose proof (visible_sol len (split SP s) [] [] true) as H.
  destruct (fold_left _ _ _) as [[res t] f]. rewrite <- (visible_split SP s) by (now left).
  cbn [app concat] in H. change (visible []) with (@nil char) in H. cbn [app] in H. rewrite <- H.
  destruct t; cbn [is_nil]; [|reflexivity]. rewrite concat_app. cbn. now rewrite app_nil_r.
Qed.
Lemma concat_pop ls : concat (pop_if_empty ls) = concat ls.
Proof.
  induction ls as [|l ls IH]; [reflexivity|]. destruct l as [|c l].
  - destruct ls; [reflexivity|exact IH].
  - change (concat (pop_if_empty ((c :: l) :: ls))) with ((c :: l) ++ concat (pop_if_empty ls)). now rewrite IH.
Qed.
Lemma visible_create s len : visible (concat (create_folded s len)) = visible s.
Proof.
  unfold create_folded. set (lines := flat_map _ _).
  assert (V : visible (concat lines) = visible s).
  { rewrite <- (visible_split NL s) by (now right). subst lines. induction (split NL s) as [|l ls IH]; [reflexivity|].
    cbn [flat_map concat]. rewrite !concat_app, !visible_app, IH, visible_lines. cbn. now rewrite app_nil_r. }
  destruct (ends_with NL s); [now rewrite !concat_pop|exact V].
Qed.
Lemma folded_visible s len c : visible (parse_folded (create_folded s len) c) = visible s.
Proof. now rewrite visible_parse, visible_create. Qed.

(** ---- pretty printing ---- *)
Lemma pretty_scalar_visible inl y : is_scalar y = true ->
  option_map visible (as_string (pretty_scalar inl y)) = option_map visible (as_string y).
Proof.
  destruct y as [l|l|l|l|ps|ps|s|ls c|ls c|s]; intros Hs; try discriminate; cbn [pretty_scalar]; try reflexivity.
  - destruct (existsb _ ps).
    + cbn [as_string option_map]. do 2 f_equal. apply literal_lossless_spec. now apply chomp_for_choice.
    + destruct (_ && _); [reflexivity|]. destruct inl; [reflexivity|]. destruct (_ <? _); [|reflexivity].
      cbn [as_string option_map]. f_equal. apply folded_visible.
  - destruct inl; [reflexivity|]. destruct (existsb _ ps).
    + cbn [as_string option_map]. do 2 f_equal. apply literal_lossless_spec. now apply chomp_for_choice.
    + destruct (_ <? _); [|reflexivity]. cbn [as_string option_map]. f_equal. apply folded_visible.
  - destruct (_ && _); [|reflexivity]. cbn [as_string option_map]. do 2 f_equal. apply single_quoted_lossless.
Qed.
Lemma visible_data_scalar inl y : is_scalar y = true -> visible_data (view (pretty_scalar inl y)) = visible_data (view y).
Proof.
  intros Hs. pose proof (pretty_scalar_visible inl y Hs) as E.
  destruct y as [l|l|l|l|ps|ps|s|ls c|ls c|s]; try discriminate; try reflexivity; cbn [view] in *;
    (rewrite view_scalar; [|now apply pretty_scalar_scalar]); revert E; cbn [pretty_scalar];
    repeat match goal with |- context [if ?b then _ else _] => destruct b end; cbn; intros E; try reflexivity; now injection E as ->.
Qed.
Lemma pretty_visible y : forall inl c, visible_data (view (pretty_with inl c y)) = visible_data (view y).
Proof.
  induction y as [l IH|l IH|l IH|l IH|ps|ps|s|ls ch|ls ch|s] using yaml_ind'; intros inl c;
    try (apply visible_data_scalar; reflexivity).
  - cbn [pretty_with view visible_data]. f_equal.
    induction IH as [|[k v] l H _ IHl]; [reflexivity|]. cbn. rewrite H. f_equal. exact IHl.
  - cbn [pretty_with]. destruct l as [|d0 l0]; [reflexivity|]. cbn [is_nil].
    revert IH. generalize (d0 :: l0) as l. intros l IH.
    destruct inl; cbn [view visible_data]; f_equal;
      (induction IH as [|[x|x|[k [al v]]] l H _ IHl]; [reflexivity| | |]; cbn; [exact IHl|exact IHl|];
       cbn in H; rewrite H; f_equal; exact IHl).
  - cbn [pretty_with view visible_data]. f_equal.
    induction IH as [|v l H _ IHl]; [reflexivity|]. cbn. rewrite H. f_equal. exact IHl.
  - cbn [pretty_with]. destruct l as [|d0 l0]; [reflexivity|]. cbn [is_nil].
    revert IH. generalize (d0 :: l0) as l. intros l IH.
    destruct inl; [|rewrite view_auto_inline]; cbn [view visible_data]; f_equal;
      (induction IH as [|[x|x|[al v]] l H _ IHl]; [reflexivity| | |]; cbn; [exact IHl|exact IHl|];
       cbn in H; rewrite H; f_equal; exact IHl).
Qed.
Lemma doc_visible d : map visible_data (doc_views (pretty_doc d)) = map visible_data (doc_views d).
Proof.
  destruct d as [ld l]. unfold doc_views, pretty_doc. cbn [items].
  induction l as [|[x|y] l IH]; [reflexivity|exact IH|]. cbn. rewrite pretty_visible. f_equal. exact IH.
Qed.

(** ---- how long the lines are ---- *)
From Coq Require Import Sorting.Sorted.

Lemma join_mid c l1 w l2 : exists a b, join [c] (l1 ++ w :: l2) = a ++ w ++ b /\
  (a = [] \/ exists a', a = a' ++ [c]) /\ (b = [] \/ exists b', b = c :: b').
Proof.
  induction l1 as [|x l1 IH].
  - destruct l2 as [|y l2]; [exists [], []; cbn; rewrite app_nil_r; auto|].
    exists [], (c :: join [c] (y :: l2)). split; [reflexivity|]. split; [now left|]. right. now eexists.
  - destruct IH as (a & b & E & A & B). exists (x ++ [c] ++ a), b.
    split; [|split; [|exact B]].
    + rewrite <- !app_assoc, <- E. cbn [app]. destruct (l1 ++ w :: l2) eqn:X; [now destruct l1|]. reflexivity.
    + right. destruct A as [-> | [a' ->]]; [now exists x|]. exists (x ++ [c] ++ a'). now rewrite <- !app_assoc.
Qed.
Lemma split_piece c s w : In w (split c s) ->
  ~ In c w /\ exists a b, s = a ++ w ++ b /\ (a = [] \/ exists a', a = a' ++ [c]) /\ (b = [] \/ exists b', b = c :: b').
Proof.
  intros I. split.
  - pose proof (split_no c s) as F. rewrite Forall_forall in F. intros J. apply F in I. now apply has_char_false in I.
  - apply in_split in I as (l1 & l2 & E). destruct (join_mid c l1 w l2) as (a & b & J & A & B).
    exists a, b. rewrite <- E, join_split in J. auto.
Qed.
Lemma word_piece s x w : In x (split NL s) -> In w (split SP x) -> word_of s w.
Proof.
  intros I J. apply split_piece in I as [N (a & b & -> & A & B)]. apply split_piece in J as [M (a' & b' & -> & A' & B')].
  split.
  - intros c C [-> | ->]; [now apply M|]. apply N. rewrite !in_app_iff. auto.
  - exists (a ++ a'), (b' ++ b). split; [now rewrite !app_assoc|]. split.
    + destruct A' as [-> | [u ->]]; [rewrite app_nil_r; destruct A as [-> | [v ->]]; [now left|right; exists v, NL; split; [reflexivity|now right]]|].
      right. exists (a ++ u), SP. rewrite app_assoc. split; [reflexivity|now left].
    + destruct B' as [-> | [u ->]]; [destruct B as [-> | [v ->]]; [now left|right; exists NL, v; split; [reflexivity|now right]]|].
      right. exists SP, (u ++ b). split; [reflexivity|now left].
Qed.

Section Lines.
  Variables (len : nat) (W : str -> Prop).
  (** A line fits or is a word. *)
  Definition narrow (l : str) : Prop := utf8_len l <= len \/ W l.
  (** The first word of the next line does not fit on this one. *)
  Definition full (l1 l2 : str) : Prop := exists w r, W w /\ l2 = w ++ r /\ len < utf8_len l1 + utf8_len w + 1.
  Definition full0 (l1 l2 : str) : Prop := l1 = [] \/ l2 = [] \/ full l1 l2.

  Lemma sorted_last (l : list str) a b : Sorted full (l ++ [a]) -> full a b -> Sorted full (l ++ [a; b]).
  Proof.
    intros S F. induction l as [|x l IH]; cbn in *; [repeat constructor; exact F|].
    inversion S as [|? ? S' H]; subst. constructor; [now apply IH|].
    destruct l; cbn in *; inversion H; subst; now constructor.
  Qed.
  Lemma sorted_more (l : list str) a b : Sorted full (l ++ [a]) -> Sorted full (l ++ [a ++ b]).
  Proof.
    induction l as [|x l IH]; cbn; intros S; [repeat constructor|]. inversion S as [|? ? S' H]; subst.
    constructor; [now apply IH|]. destruct l as [|y l]; cbn in *; inversion H as [|? ? F]; subst; constructor; [|exact F].
    destruct F as (w & r & P & -> & Q). exists w, (r ++ b). now rewrite <- app_assoc.
  Qed.
  Lemma sol_lines ws : Forall W ws -> forall res s f, Forall narrow (res ++ [s]) -> Sorted full (res ++ [s]) ->
    let '(res', s', _) := fold_left (sol_step len) ws (res, s, f) in
    Forall narrow (res' ++ [s']) /\ Sorted full (res' ++ [s']).
  Proof.
    induction 1 as [|w ws Hw _ IH]; intros res s f N S; cbn [fold_left]; [now split|].
    unfold sol_step at 2. destruct (Nat.ltb_spec len (utf8_len s + utf8_len w + 1)).
    - apply IH.
      + apply Forall_app. split; [exact N|]. constructor; [now right|constructor].
      + rewrite <- app_assoc. apply sorted_last; [exact S|]. exists w, []. now rewrite app_nil_r.
    - apply Forall_app in N as [N _]. apply IH.
      + apply Forall_app. split; [exact N|]. constructor; [|constructor]. left.
        destruct f; rewrite !utf8_len_app; [lia|]. change (utf8_len [SP]) with 1. lia.
      + destruct f; [|rewrite <- app_assoc]; now apply sorted_more.
  Qed.
  Lemma sorted_prefix {A} (R : A -> A -> Prop) a b : Sorted R (a ++ b) -> Sorted R a.
  Proof.
    induction a as [|x a IH]; intros S; [constructor|]. inversion S as [|? ? S' H]; subst.
    constructor; [now apply IH|]. destruct a; [constructor|]. inversion H; subst. now constructor.
  Qed.
  Lemma line_lines x : Forall W (split SP x) ->
    Forall narrow (split_on_length x len) /\ Sorted full (split_on_length x len).
  Proof.
    intros F. unfold split_on_length.
    assert (N : Forall narrow ([] ++ [[]])) by (constructor; [left; cbn; lia|constructor]).
    pose proof (sol_lines _ F [] [] true N (Sorted_cons (Sorted_nil full) (HdRel_nil _ _))) as H.
    destruct (fold_left _ _ _) as [[res s] f]. destruct H as [P S].
    destruct (is_nil s); [|now split]. apply Forall_app in P as [P _]. split; [exact P|]. exact (sorted_prefix _ _ _ S).
  Qed.
  Lemma sorted_apart a b : Sorted full a -> Sorted full0 b -> Sorted full0 (a ++ [] :: b).
  Proof.
    intros A B. induction A as [|x a A IH H]; cbn.
    - constructor; [exact B|]. destruct b; constructor. now left.
    - constructor; [exact IH|]. destruct H; cbn; constructor; [right; now left|]. now right; right.
  Qed.
  Lemma all_lines xs : Forall (fun x => Forall W (split SP x)) xs ->
    let ls := flat_map (fun x => split_on_length x len ++ [[]]) xs in Forall narrow ls /\ Sorted full0 ls.
  Proof.
    induction 1 as [|x xs H _ [IN IS]]; cbn; [split; constructor|]. destruct (line_lines x H) as [N S]. split.
    - apply Forall_app. split; [|exact IN]. apply Forall_app. split; [exact N|]. constructor; [left; cbn; lia|constructor].
    - rewrite <- app_assoc. now apply sorted_apart.
  Qed.
  Lemma sorted_at {A} (R : A -> A -> Prop) p a b q : Sorted R (p ++ a :: b :: q) -> R a b.
  Proof.
    induction p as [|x p IH]; cbn; intros S; inversion S as [|? ? S' H]; subst; [now inversion H|now apply IH].
  Qed.
End Lines.

Lemma pop_prefix ls : exists r, ls = pop_if_empty ls ++ r.
Proof.
  induction ls as [|l ls [r IH]]; [now exists []|]. destruct l as [|c l].
  - destruct ls as [|y ls]; [now exists [[]]|]. exists r. cbn [app]. change (pop_if_empty ([] :: y :: ls)) with ([] :: pop_if_empty (y :: ls)).
    cbn [app]. now f_equal.
  - exists r. change (pop_if_empty ((c :: l) :: ls)) with ((c :: l) :: pop_if_empty ls). cbn [app]. now f_equal.
Qed.
Lemma create_lines s len : Forall (narrow len (word_of s)) (create_folded s len) /\ Sorted (full0 len (word_of s)) (create_folded s len).
Proof.
  assert (F : Forall (fun x => Forall (word_of s) (split SP x)) (split NL s)).
  { apply Forall_forall. intros x X. apply Forall_forall. intros w. now apply word_piece. }
  destruct (all_lines len (word_of s) _ F) as [N S]. unfold create_folded. destruct (ends_with NL s); [|now split].
  destruct (pop_prefix (flat_map (fun x => split_on_length x len ++ [[]]) (split NL s))) as [r E].
  rewrite E in N, S. apply Forall_app in N as [N _]. apply sorted_prefix in S.
  destruct (pop_prefix (pop_if_empty (flat_map (fun x => split_on_length x len ++ [[]]) (split NL s)))) as [r' E'].
  rewrite E' in N, S. apply Forall_app in N as [N _]. apply sorted_prefix in S. now split.
Qed.
Lemma folded_width s len l : In l (create_folded s len) -> utf8_len l <= len \/ word_of s l.
Proof. intros I. destruct (create_lines s len) as [N _]. rewrite Forall_forall in N. exact (N l I). Qed.
Lemma folded_full s len p l1 l2 q : create_folded s len = p ++ l1 :: l2 :: q -> l1 <> [] -> l2 <> [] ->
  exists w r, word_of s w /\ l2 = w ++ r /\ len < utf8_len l1 + utf8_len w + 1.
Proof.
  intros E N1 N2. destruct (create_lines s len) as [_ S]. rewrite E in S.
  destruct (sorted_at _ _ _ _ _ S) as [X|[X|X]]; [contradiction..|exact X].
Qed.
Lemma pretty_folded_width inl c y ls ch l : is_scalar y = true -> (forall ls' ch', y <> Folded ls' ch') ->
  pretty_with inl c y = Folded ls ch -> In l ls ->
  utf8_len l <= 90 \/ exists s, as_string y = Some s /\ word_of s l.
Proof.
  destruct y as [l0|l0|l0|l0|ps|ps|s|ls0 c0|ls0 c0|s]; intros Hs NF; try discriminate; cbn [pretty_with pretty_scalar];
    repeat match goal with |- context [if ?b then _ else _] => destruct b end; try discriminate;
    try (intros E; exfalso; exact (NF _ _ eq_refl));
    intros [= <- <-] I; apply folded_width in I; change max_line_length with 90 in I; (destruct I as [I|I]; [now left|right]); eexists; split; try reflexivity; exact I.
Qed.
