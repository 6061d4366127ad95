(** Proofs about /repo/src/yaml/string.rs. *)
From Verif Require Import Base Ast Strings Pretty.
Import ListNotations.

(** ---- literal ---- *)

Lemma pop_if_empty_app l : pop_if_empty (l ++ [[]]) = l.
Proof.
  induction l as [|x l IH]; [reflexivity|]. cbn [app].
  assert (H : l ++ [[]] <> []) by (destruct l; discriminate).
  destruct (l ++ [[]]) as [|b m] eqn:E; [congruence|].
  destruct x; cbn [pop_if_empty] in *; now rewrite IH.
Qed.

Lemma split_app_nl c s : split c (s ++ [c]) = split c s ++ [[]].
Proof.
  induction s as [|x s IH]; cbn [app split].
  - now rewrite ceqb_refl.
  - rewrite IH. destruct (ceqb x c); [reflexivity|].
    pose proof (split_ne c s). destruct (split c s); [congruence|reflexivity].
Qed.

Lemma literal_lossless s :
  parse_literal (create_literal s) (if ends_with NL s then Keep else Strip) = s.
Proof.
  unfold parse_literal, create_literal. destruct (ends_with NL s) eqn:E; cbn.
  - apply ends_with_inv in E as [s' ->].
    rewrite split_app_nl, pop_if_empty_app. now rewrite join_split.
  - rewrite join_split. now apply trim_end_id.
Qed.

(** ---- chomping ---- *)

Lemma handle_strip s : ends_with NL (handle_ending_newlines s Strip) = false.
Proof. apply trim_end_not_ends. Qed.

Lemma handle_clip s : handle_ending_newlines s Clip = handle_ending_newlines s Strip ++ [NL].
Proof. reflexivity. Qed.

Lemma handle_keep s :
  exists n, handle_ending_newlines s Keep = handle_ending_newlines s Strip ++ repeat_char NL (S n).
Proof.
  destruct (trim_end_decomp NL s) as [n H]. exists n. cbn [handle_ending_newlines].
  rewrite H at 1. rewrite <- app_assoc. f_equal.
  clear. induction n; cbn; [reflexivity|]. now rewrite IHn.
Qed.

(** ---- folded ---- *)

Definition word_ok (len : nat) (w : str) : bool :=
  negb (is_nil w) && (utf8_len w + 1 <=? len).

(** A line made of words, separated by single spaces, all shorter than [len]. *)
Definition well_spaced (len : nat) (l : str) : bool := forallb (word_ok len) (split SP l).

(** Text that survives folding: the first line is non-empty and well spaced after
    an optional leading space, the other lines are empty or well spaced. *)
Definition foldable (len : nat) (s : str) : bool :=
  match split NL s with
  | first :: rest =>
      (well_spaced len first
       || match first with c :: f => ceqb c SP && well_spaced len f | [] => false end)
      && forallb (fun l => is_nil l || well_spaced len l) rest
  | [] => false
  end.

Definition sol_inv (len : nat) (lead : str) (words : list str) (st : list str * str * bool) : Prop :=
  let '(result, s, first) := st in
  first = false /\ s <> [] /\
  join [SP] (result ++ [s]) = lead ++ join [SP] words /\
  match result ++ [s] with
  | h :: t => h <> [] /\ Forall (fun l => l <> [] /\ starts_with SP l = false) t
  | [] => False
  end.

Lemma join_snoc sep ls x :
  ls <> [] -> join sep (ls ++ [x]) = join sep ls ++ sep ++ x.
Proof.
  induction ls as [|a ls IH]; intros H; [congruence|].
  destruct ls as [|b ls]; [reflexivity|].
  change (join sep ((a :: b :: ls) ++ [x])) with (a ++ sep ++ join sep ((b :: ls) ++ [x])).
  rewrite IH by discriminate. cbn [join]. now rewrite <- !app_assoc.
Qed.

Lemma no_sp_starts w : has_char SP w = false -> starts_with SP w = false.
Proof.
  destruct w as [|c w]; [reflexivity|]. cbn. intros H. apply orb_false_iff in H as [H _].
  unfold ceqb in *. now rewrite N.eqb_sym.
Qed.

Lemma starts_with_app c a b : a <> [] -> starts_with c (a ++ b) = starts_with c a.
Proof. destruct a; [congruence|reflexivity]. Qed.

Lemma Forall_snoc {A} (P : A -> Prop) l x : Forall P (l ++ [x]) <-> Forall P l /\ P x.
Proof.
  rewrite Forall_app. split; intros [H1 H2]; split; auto. now inversion H2.
Qed.

Lemma sol_step_inv len lead ws w st :
  ws <> [] -> word_ok len w = true -> has_char SP w = false ->
  sol_inv len lead ws st -> sol_inv len lead (ws ++ [w]) (sol_step len st w).
Proof.
  intros Hws Hw Hsp. destruct st as [[res s] first]. intros (Hf & Hs & Hj & Hl). subst first.
  apply andb_true_iff in Hw as [Hw1 Hw2].
  assert (Hwne : w <> []) by (destruct w; [discriminate|discriminate]).
  unfold sol_step. destruct (len <? _) eqn:E; unfold sol_inv; cbn beta iota;
    (split; [reflexivity|]).
  - split; [assumption|]. split.
    + rewrite join_snoc by (destruct res; discriminate).
      rewrite Hj, join_snoc by assumption. now rewrite <- app_assoc.
    + destruct (res ++ [s]) as [|h t] eqn:Er; [contradiction|]. cbn [app].
      destruct Hl as [Hh Ht]. split; [assumption|].
      apply Forall_snoc. split; [assumption|]. split; [assumption|].
      now apply no_sp_starts.
  - split; [destruct s; discriminate|].
    assert (Hs' : join [SP] (res ++ [(s ++ [SP]) ++ w]) = join [SP] (res ++ [s]) ++ [SP] ++ w).
    { destruct res as [|a res]; [cbn; now rewrite <- app_assoc|].
      rewrite !join_snoc by discriminate. now rewrite <- !app_assoc. }
    split.
    + rewrite Hs', Hj, join_snoc by assumption. now rewrite <- app_assoc.
    + destruct res as [|a res].
      * cbn. split; [destruct s; discriminate|constructor].
      * cbn [app] in *. destruct Hl as [Hh Ht]. split; [assumption|].
        apply Forall_snoc in Ht as [Ht1 [Ht2 Ht3]].
        apply Forall_snoc. split; [assumption|]. split; [destruct s; discriminate|].
        rewrite <- app_assoc. rewrite starts_with_app by assumption. assumption.
Qed.

Lemma sol_fold_inv len lead ws1 ws2 st :
  ws1 <> [] -> forallb (word_ok len) ws2 = true -> Forall (fun w => has_char SP w = false) ws2 ->
  sol_inv len lead ws1 st ->
  sol_inv len lead (ws1 ++ ws2) (fold_left (sol_step len) ws2 st).
Proof.
  revert ws1 st; induction ws2 as [|w ws2 IH]; intros ws1 st Hne Hok Hsp Hinv.
  - now rewrite app_nil_r.
  - cbn in Hok. apply andb_true_iff in Hok as [H1 H2]. inversion Hsp; subst.
    cbn [fold_left].
    replace (ws1 ++ w :: ws2) with ((ws1 ++ [w]) ++ ws2) by (now rewrite <- app_assoc).
    apply IH; auto.
    + destruct ws1; discriminate.
    + now apply sol_step_inv.
Qed.

Lemma word_fits len w : word_ok len w = true -> len <? 0 + utf8_len w + 1 = false.
Proof.
  intros H. apply andb_true_iff in H as [_ H]. apply Nat.leb_le in H. apply Nat.ltb_ge. lia.
Qed.

Lemma sol_result_shape len lead ws res s first :
  sol_inv len lead ws (res, s, first) ->
  exists h t, (if is_nil s then res else res ++ [s]) = h :: t /\ h <> [] /\
    Forall (fun l => l <> [] /\ starts_with SP l = false) t /\
    join [SP] (h :: t) = lead ++ join [SP] ws.
Proof.
  intros (_ & Hs & Hj & Hl).
  destruct s as [|c s]; [congruence|]. cbn [is_nil].
  destruct (res ++ [c :: s]) as [|h t]; [contradiction|].
  exists h, t. destruct Hl. auto.
Qed.

Lemma split_on_length_ok len l :
  well_spaced len l = true ->
  exists h t, split_on_length l len = h :: t /\ h <> [] /\
    Forall (fun l => l <> [] /\ starts_with SP l = false) t /\ join [SP] (h :: t) = l.
Proof.
  intros H. unfold split_on_length, well_spaced in *.
  pose proof (split_no SP l) as Hno. pose proof (split_ne SP l) as Hne.
  pose proof (join_split SP l) as Hj.
  destruct (split SP l) as [|w ws]; [congruence|].
  cbn in H. apply andb_true_iff in H as [Hw Hws]. inversion Hno; subst.
  cbn [fold_left sol_step].
  change (utf8_len []) with 0. rewrite (word_fits _ _ Hw). cbn [app].
  assert (Hinv : sol_inv len [] [w] ([], w, false)).
  { unfold sol_inv. cbn. apply andb_true_iff in Hw as [Hw _].
    destruct w; [discriminate|]. repeat split; auto; discriminate. }
  apply (sol_fold_inv len [] [w] ws _ ltac:(discriminate) Hws H2) in Hinv.
  destruct (fold_left _ ws _) as [[res s] first].
  apply sol_result_shape in Hinv as (h & t & E & Hh & Ht & Hjj).
  exists h, t. rewrite Hjj. repeat split; auto.
Qed.

Lemma well_spaced_nonempty len l : well_spaced len l = true -> l <> [].
Proof. intros H ->. discriminate. Qed.

(** First line with a leading space. *)
Lemma split_on_length_lead len l :
  well_spaced len l = true ->
  exists h t, split_on_length (SP :: l) len = h :: t /\ h <> [] /\
    Forall (fun l => l <> [] /\ starts_with SP l = false) t /\ join [SP] (h :: t) = SP :: l.
Proof.
  intros H. unfold split_on_length, well_spaced in *.
  pose proof (split_no SP l) as Hno. pose proof (split_ne SP l) as Hne.
  pose proof (join_split SP l) as Hj.
  cbn [split]. rewrite ceqb_refl.
  destruct (split SP l) as [|w ws]; [congruence|].
  cbn in H. apply andb_true_iff in H as [Hw Hws]. inversion Hno; subst.
  assert (Hlen : len <? 0 + 0 + 1 = false).
  { apply andb_true_iff in Hw as [_ Hw]. apply Nat.leb_le in Hw. apply Nat.ltb_ge. lia. }
  cbn [fold_left sol_step]. change (utf8_len []) with 0. rewrite Hlen.
  cbn [app sol_step]. change (utf8_len []) with 0. rewrite (word_fits _ _ Hw). cbn [app].
  assert (Hinv : sol_inv len [SP] [w] ([], SP :: w, false)).
  { unfold sol_inv. cbn. repeat split; auto; discriminate. }
  apply (sol_fold_inv len [SP] [w] ws _ ltac:(discriminate) Hws H2) in Hinv.
  destruct (fold_left _ ws _) as [[res s] first].
  apply sol_result_shape in Hinv as (h & t & E & Hh & Ht & Hjj).
  exists h, t. rewrite Hjj. repeat split; auto.
Qed.

(** Decoding the continuation lines of one paragraph. *)
Lemma fold_words t acc :
  Forall (fun l => l <> [] /\ starts_with SP l = false) t ->
  fold_left fold_step t (acc, false) = (acc ++ flat_map (fun l => SP :: l) t, false).
Proof.
  revert acc; induction t as [|l t IH]; intros acc H.
  - cbn. now rewrite app_nil_r.
  - inversion H as [|? ? [Hne Hst] Ht]; subst. cbn [fold_left].
    unfold fold_step at 2. destruct l as [|c l]; [congruence|]. cbn [is_nil].
    rewrite Hst, IH by assumption. cbn [flat_map]. f_equal. now rewrite <- !app_assoc.
Qed.

Lemma join_flat_map h t : join [SP] (h :: t) = h ++ flat_map (fun l => SP :: l) t.
Proof.
  revert h; induction t as [|a t IH]; intros h; [cbn; now rewrite app_nil_r|].
  change (join [SP] (h :: a :: t)) with (h ++ [SP] ++ join [SP] (a :: t)).
  rewrite IH. reflexivity.
Qed.

Definition enc (len : nat) (ls : list str) : list str :=
  flat_map (fun x => split_on_length x len ++ [[]]) ls.

Lemma sol_nil len : 1 <= len -> split_on_length [] len = [].
Proof. intros H. unfold split_on_length. cbn. destruct len; [lia|]. reflexivity. Qed.

Lemma well_spaced_start len l : well_spaced len l = true -> starts_with SP l = false.
Proof.
  unfold well_spaced. destruct l as [|c l]; [discriminate|]. cbn [split starts_with].
  destruct (ceqb c SP) eqn:E; [discriminate|reflexivity].
Qed.

Lemma join_head h t l : join [SP] (h :: t) = l -> h <> [] -> starts_with SP h = starts_with SP l.
Proof.
  intros <- Hh. rewrite join_flat_map. now rewrite starts_with_app.
Qed.

(** Decoding one paragraph after a line break. *)
Lemma fold_para len l acc :
  1 <= len -> is_nil l || well_spaced len l = true ->
  fold_left fold_step (split_on_length l len ++ [[]]) (acc, true) = (acc ++ l ++ [NL], true).
Proof.
  intros Hlen H. destruct l as [|c l].
  - rewrite sol_nil by assumption. reflexivity.
  - cbn [is_nil orb] in H. pose proof (well_spaced_start _ _ H) as Hst.
    destruct (split_on_length_ok _ _ H) as (h & t & -> & Hh & Ht & Hj).
    rewrite fold_left_app. cbn [fold_left].
    assert (E : fold_step (acc, true) h = (acc ++ h, false)).
    { unfold fold_step. rewrite (join_head _ _ _ Hj Hh), Hst.
      destruct h; [congruence|]. reflexivity. }
    rewrite E, fold_words by assumption. unfold fold_step. cbn [is_nil]. f_equal.
    rewrite <- Hj, join_flat_map, <- !app_assoc. reflexivity.
Qed.

Lemma fold_paras len ls acc :
  1 <= len -> forallb (fun l => is_nil l || well_spaced len l) ls = true ->
  fold_left fold_step (enc len ls) (acc, true)
  = (acc ++ flat_map (fun l => l ++ [NL]) ls, true).
Proof.
  intros Hlen. revert acc; induction ls as [|l ls IH]; intros acc H.
  - cbn. now rewrite app_nil_r.
  - cbn in H. apply andb_true_iff in H as [H1 H2].
    cbn [enc flat_map]. rewrite fold_left_app, fold_para by assumption.
    change (flat_map (fun x => split_on_length x len ++ [[]]) ls) with (enc len ls).
    rewrite IH by assumption. now rewrite <- !app_assoc.
Qed.

Lemma flat_map_nl f r :
  f ++ [NL] ++ flat_map (fun l => l ++ [NL]) r = join [NL] (f :: r) ++ [NL].
Proof.
  revert f; induction r as [|a r IH]; intros f.
  - cbn. reflexivity.
  - change (join [NL] (f :: a :: r)) with (f ++ [NL] ++ join [NL] (a :: r)).
    rewrite <- !app_assoc, <- IH. cbn. now rewrite <- !app_assoc.
Qed.

(** All paragraphs, starting with the first line of the block. *)
Lemma fold_all len f r :
  1 <= len ->
  well_spaced len f || match f with c :: f' => ceqb c SP && well_spaced len f' | [] => false end = true ->
  forallb (fun l => is_nil l || well_spaced len l) r = true ->
  exists h rest, enc len (f :: r) = h :: rest /\ rest <> [] /\
    fold_left fold_step rest (h, false) = (join [NL] (f :: r) ++ [NL], true).
Proof.
  intros Hlen Hf Hr.
  assert (Hs : exists h t, split_on_length f len = h :: t /\ h <> [] /\
    Forall (fun l => l <> [] /\ starts_with SP l = false) t /\ join [SP] (h :: t) = f).
  { apply orb_true_iff in Hf as [Hf|Hf]; [now apply split_on_length_ok|].
    destruct f as [|c f]; [discriminate|]. apply andb_true_iff in Hf as [Hc Hf].
    apply ceqb_eq in Hc. subst c. now apply split_on_length_lead. }
  destruct Hs as (h & t & E & Hh & Ht & Hj).
  exists h, (t ++ [[]] ++ enc len r).
  cbn [enc flat_map]. rewrite E. cbn [app]. rewrite <- app_assoc.
  split; [reflexivity|]. split; [destruct t; discriminate|].
  rewrite fold_left_app, fold_words by assumption.
  cbn [app fold_left]. unfold fold_step at 2. cbn [is_nil].
  rewrite fold_paras by assumption. f_equal.
  rewrite <- flat_map_nl. rewrite <- Hj at 1. rewrite join_flat_map, <- !app_assoc. reflexivity.
Qed.

Lemma foldable_len len s : foldable len s = true -> 1 <= len.
Proof.
  unfold foldable. destruct (split NL s) as [|f r]; [discriminate|].
  intros H. apply andb_true_iff in H as [H _].
  assert (G : exists l, well_spaced len l = true).
  { apply orb_true_iff in H as [H|H]; [now exists f|].
    destruct f as [|c f]; [discriminate|]. apply andb_true_iff in H as [_ H]. now exists f. }
  destruct G as [l G]. unfold well_spaced in G. pose proof (split_ne SP l).
  destruct (split SP l) as [|w ws]; [congruence|]. cbn in G.
  apply andb_true_iff in G as [G _]. apply andb_true_iff in G as [_ G]. apply Nat.leb_le in G. lia.
Qed.

Lemma enc_snoc len ls x : enc len (ls ++ [x]) = enc len ls ++ split_on_length x len ++ [[]].
Proof. unfold enc. rewrite flat_map_app. cbn. now rewrite app_nil_r. Qed.

Lemma folded_lossless len s :
  foldable len s = true ->
  parse_folded (create_folded s len) (if ends_with NL s then Keep else Strip) = s.
Proof.
  intros H. pose proof (foldable_len _ _ H) as Hlen.
  unfold create_folded.
  change (flat_map (fun x => split_on_length x len ++ [[]]) (split NL s)) with (enc len (split NL s)).
  destruct (ends_with NL s) eqn:E.
  - apply ends_with_inv in E as [s' ->]. unfold foldable in H.
    rewrite split_app_nl in *. pose proof (join_split NL s') as Hjs.
    pose proof (split_ne NL s') as Hne. destruct (split NL s') as [|f r] eqn:Es; [congruence|].
    cbn [app] in H. apply andb_true_iff in H as [Hf Hr].
    rewrite forallb_app in Hr. apply andb_true_iff in Hr as [Hr _].
    rewrite enc_snoc, sol_nil by assumption. cbn [app].
    rewrite pop_if_empty_app.
    destruct (fold_all len f r Hlen Hf Hr) as (h & rest & E & Hrest & Hfold).
    rewrite E.
    assert (Hlast : exists G, h :: rest = (h :: G) ++ [[]] /\ rest = G ++ [[]]).
    { clear -E Hrest. destruct (exists_last Hrest) as (G & x & ->).
      exists G. assert (x = []).
      { assert (F : exists K, enc len (f :: r) = K ++ [[]]).
        { destruct (@exists_last _ (f :: r)) as (K & y & Ky); [discriminate|].
          rewrite Ky, enc_snoc. eexists. rewrite app_assoc. reflexivity. }
        destruct F as [K F]. rewrite F in E. change (h :: G ++ [x]) with ((h :: G) ++ [x]) in E.
        apply app_inj_tail in E as [_ <-]. reflexivity. }
      subst. auto. }
    destruct Hlast as (G & -> & ->).
    rewrite pop_if_empty_app. cbn [parse_folded handle_ending_newlines].
    rewrite fold_left_app in Hfold. cbn [fold_left] in Hfold.
    destruct (fold_left fold_step G (h, false)) as [acc b].
    unfold fold_step in Hfold. cbn [is_nil] in Hfold.
    apply (f_equal fst) in Hfold. cbn [fst] in *. now rewrite Hfold, Hjs.
  - unfold foldable in H. pose proof (join_split NL s) as Hjs.
    destruct (split NL s) as [|f r]; [discriminate|].
    apply andb_true_iff in H as [Hf Hr].
    destruct (fold_all len f r Hlen Hf Hr) as (h & rest & E2 & _ & Hfold).
    rewrite E2. cbn [parse_folded handle_ending_newlines]. rewrite Hfold. cbn [fst].
    rewrite Hjs, trim_end_app_one. now apply trim_end_id.
Qed.

(** ---- single quotes ---- *)

Definition flush_sq (parts : list sq_part) (buf : str) : list sq_part :=
  if is_nil buf then parts else parts ++ [SQ_Str buf].

Lemma flush_sq_value parts buf :
  parse_single_quoted (flush_sq parts buf) = parse_single_quoted parts ++ buf.
Proof.
  unfold flush_sq, parse_single_quoted. destruct buf as [|c b]; cbn [is_nil].
  - now rewrite app_nil_r.
  - rewrite flat_map_app. cbn. now rewrite app_nil_r.
Qed.

Lemma sq_loop_value s parts buf parts' buf' :
  sq_loop s parts buf = (parts', buf') ->
  parse_single_quoted (flush_sq parts' buf') = parse_single_quoted (flush_sq parts buf) ++ s.
Proof.
  revert parts buf; induction s as [|c s IH]; intros parts buf H; cbn in H.
  - inversion H; subst. now rewrite app_nil_r.
  - destruct (ceqb c QUOTE) eqn:E.
    + apply ceqb_eq in E; subst. rewrite (IH _ _ H).
      rewrite (flush_sq_value _ []). unfold parse_single_quoted at 1.
      change (if is_nil buf then parts else parts ++ [SQ_Str buf]) with (flush_sq parts buf).
      rewrite flat_map_app. cbn. rewrite app_nil_r, <- app_assoc. reflexivity.
    + rewrite (IH _ _ H). rewrite !flush_sq_value. now rewrite <- !app_assoc.
Qed.

Lemma single_quoted_lossless s : parse_single_quoted (str_to_single_quoted_parts s) = s.
Proof.
  unfold str_to_single_quoted_parts. destruct (sq_loop s [] []) as [parts buf] eqn:E.
  apply sq_loop_value in E. exact E.
Qed.

(** Text parts are non-empty and contain no quote. *)
Definition sq_part_clean (p : sq_part) : Prop :=
  match p with SQ_Str t => t <> [] /\ has_char QUOTE t = false | SQ_Quote => True | _ => False end.

Lemma sq_loop_clean s parts buf :
  Forall sq_part_clean parts -> has_char QUOTE buf = false ->
  let '(parts', buf') := sq_loop s parts buf in
  Forall sq_part_clean parts' /\ has_char QUOTE buf' = false.
Proof.
  revert parts buf; induction s as [|c s IH]; intros parts buf Hp Hb; cbn; [auto|].
  destruct (ceqb c QUOTE) eqn:E.
  - apply IH; [|reflexivity].
    apply Forall_app. split; [|repeat constructor].
    destruct buf as [|b buf]; [assumption|]. cbn [is_nil].
    apply Forall_snoc. split; [assumption|]. split; [discriminate|assumption].
  - apply IH; [assumption|]. rewrite has_char_app, Hb. unfold has_char. cbn [existsb orb].
    rewrite orb_false_r, ceqb_sym. exact E.
Qed.

Lemma single_quoted_clean s : Forall sq_part_clean (str_to_single_quoted_parts s).
Proof.
  unfold str_to_single_quoted_parts.
  pose proof (sq_loop_clean s [] [] ltac:(constructor) eq_refl) as H.
  destruct (sq_loop s [] []) as [parts buf]. destruct H as [H1 H2].
  destruct buf as [|b buf]; [assumption|]. cbn [is_nil].
  apply Forall_snoc. split; [assumption|]. split; [discriminate|assumption].
Qed.

(** ---- link with the specification ---- *)
From Verif Require Import Spec_Strings.

Lemma sep_concat_join c ls : sep_concat c ls = join [c] ls.
Proof.
  induction ls as [|a ls IH]; [reflexivity|]. destruct ls as [|b ls]; [reflexivity|].
  change (join [c] (a :: b :: ls)) with (a ++ [c] ++ join [c] (b :: ls)).
  rewrite <- IH. reflexivity.
Qed.

Lemma ends_with_spec c s : ends_with c s = true <-> exists t, s = t ++ [c].
Proof.
  split; [apply ends_with_inv|]. intros [t ->]. apply ends_with_app_one.
Qed.

Lemma chomp_for_eq s c : chomp_for s c -> c = if ends_with NL s then Keep else Strip.
Proof.
  intros [[-> H]|[-> H]].
  - apply ends_with_spec in H. now rewrite H.
  - destruct (ends_with NL s) eqn:E; [|reflexivity]. apply ends_with_spec in E. contradiction.
Qed.

Lemma words_well_spaced len ws :
  ws <> [] -> Forall (fits_word len) ws ->
  well_spaced len (sep_concat SP ws) = true /\ has_char NL (sep_concat SP ws) = false.
Proof.
  intros Hne Hw. rewrite sep_concat_join. split.
  - unfold well_spaced. rewrite split_join; [|assumption|].
    + apply forallb_forall. intros w Hin. rewrite Forall_forall in Hw.
      destruct (Hw w Hin) as (H1 & _ & _ & H4). unfold word_ok.
      destruct w; [congruence|]. cbn [is_nil negb andb]. apply Nat.leb_le. lia.
    + eapply Forall_impl; [|exact Hw]. intros w (_ & H & _). now apply has_char_false.
  - apply has_char_false. clear Hne. induction Hw as [|w ws Hw Hws IH]; [tauto|].
    destruct Hw as (_ & _ & H & _). destruct ws as [|w' ws]; [assumption|].
    change (join [SP] (w :: w' :: ws)) with (w ++ [SP] ++ join [SP] (w' :: ws)).
    intros Hin. apply in_app_or in Hin as [Hin|Hin]; [tauto|].
    apply in_app_or in Hin as [[Hin|[]]|Hin]; [discriminate|tauto].
Qed.

Lemma foldable_spec len s : foldable_text len s -> foldable len s = true.
Proof.
  intros (lead & first & rest & Hne & Hf & ->). inversion Hf as [|? ? Hfirst Hrest]; subst.
  destruct (words_well_spaced len first Hne Hfirst) as [Hw Hn].
  set (f := sep_concat SP first) in *.
  assert (Hsp : split NL ((if lead then [SP] else []) ++ sep_concat NL (map (sep_concat SP) (first :: rest)))
                = ((if lead then [SP] else []) ++ f) :: map (sep_concat SP) rest).
  { rewrite split_app_no by (destruct lead; reflexivity).
    rewrite sep_concat_join, split_join; [reflexivity|discriminate|].
    cbn [map]. constructor; [assumption|].
    apply Forall_map. eapply Forall_impl; [|exact Hrest]. intros ws Hws.
    destruct ws as [|w ws]; [reflexivity|]. apply (words_well_spaced len); [discriminate|assumption]. }
  unfold foldable. rewrite Hsp. apply andb_true_iff. split.
  - apply orb_true_iff. destruct lead; [right|now left]. cbn [app]. now rewrite ceqb_refl.
  - apply forallb_forall. intros l Hin. apply in_map_iff in Hin as (ws & <- & Hin).
    rewrite Forall_forall in Hrest. specialize (Hrest ws Hin).
    destruct ws as [|w ws]; [reflexivity|].
    apply orb_true_iff. right. apply words_well_spaced; [discriminate|assumption].
Qed.

Lemma folded_lossless_spec len s c :
  foldable_text len s -> chomp_for s c -> parse_folded (create_folded s len) c = s.
Proof.
  intros H Hc. rewrite (chomp_for_eq _ _ Hc). now apply folded_lossless, foldable_spec.
Qed.

Lemma literal_lossless_spec s c : chomp_for s c -> parse_literal (create_literal s) c = s.
Proof. intros Hc. rewrite (chomp_for_eq _ _ Hc). apply literal_lossless. Qed.

Lemma handle_spec s :
  exists body n, (~ exists t, body = t ++ [NL]) /\
    s = body ++ repeat NL n /\
    handle_ending_newlines s Strip = body /\
    handle_ending_newlines s Clip = body ++ [NL] /\
    handle_ending_newlines s Keep = s ++ [NL].
Proof.
  destruct (trim_end_decomp NL s) as [n H].
  exists (trim_end NL s), n. split; [|split; [|split; [|split]]]; try reflexivity.
  - intros Ht. apply ends_with_spec in Ht. rewrite trim_end_not_ends in Ht. discriminate.
  - exact H.
Qed.

Lemma literal_chomping ls :
  exists body n, (~ exists t, body = t ++ [NL]) /\
    sep_concat NL ls = body ++ repeat NL n /\
    parse_literal ls Strip = body /\
    parse_literal ls Clip = body ++ [NL] /\
    parse_literal ls Keep = sep_concat NL ls ++ [NL].
Proof. rewrite sep_concat_join. apply handle_spec. Qed.

Lemma folded_chomping l ls :
  exists text body n, (~ exists t, body = t ++ [NL]) /\
    text = body ++ repeat NL n /\
    parse_folded (l :: ls) Strip = body /\
    parse_folded (l :: ls) Clip = body ++ [NL] /\
    parse_folded (l :: ls) Keep = text ++ [NL].
Proof. eexists. apply handle_spec. Qed.

Lemma chomp_for_choice s c : chomp_for s c <-> c = pretty_chomp s.
Proof.
  split; [apply chomp_for_eq|]. intros ->. unfold pretty_chomp.
  destruct (ends_with NL s) eqn:E; [left|right]; (split; [reflexivity|]).
  - now apply ends_with_spec.
  - intros X. apply ends_with_spec in X. congruence.
Qed.

Lemma folded_differs s c :
  c = pretty_chomp s -> seqb (parse_folded (create_folded s 90) c) s = false ->
  exists s c, chomp_for s c /\ parse_folded (create_folded s 90) c <> s.
Proof.
  intros H1 H2. exists s, c. split; [now apply chomp_for_choice|]. now apply seqb_neq.
Qed.

(** An over-long word. *)
Definition fold_bad_word : str := repeat (chr "a") 91.
(** A double space exactly at a wrap point. *)
Definition fold_bad_space : str := repeat (chr "a") 44 ++ [SP] ++ repeat (chr "b") 45 ++ [SP; SP] ++ lit "cc".
(** A leading newline. *)
Definition fold_bad_lead : str := [NL] ++ lit "a".
(** An indented later line. *)
Definition fold_bad_indent : str := lit "a" ++ [NL] ++ lit " b" ++ [NL] ++ lit "c".

Lemma single_quoted_clean_spec s :
  Forall (fun p => match p with
                   | SQ_Str t => t <> [] /\ ~ In QUOTE t
                   | SQ_Quote => True
                   | _ => False
                   end) (str_to_single_quoted_parts s).
Proof.
  eapply Forall_impl; [|apply single_quoted_clean].
  intros [t| | |] H; auto. destruct H as [H1 H2]. split; [assumption|]. now apply has_char_false.
Qed.
