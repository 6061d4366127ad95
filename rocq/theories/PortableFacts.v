(** Files that are written follow the rules of YAML. *)
From Verif Require Import Base Ast Strings Format YamlGrammar FormatText FormatFlow FormatBlock FormatTree Spec_Scalar ScalarFacts Spec_Yaml12 Spec_Portable.
Import ListNotations.

Scheme portable_mut := Minimality for portable Sort Prop
  with map_rows_mut := Minimality for map_rows Sort Prop
  with seq_rows_mut := Minimality for seq_rows Sort Prop.
Combined Scheme portable_all from portable_mut, map_rows_mut, seq_rows_mut.

Lemma indent_spaces n : indent n = spaces_ n.
Proof. unfold indent, spaces_. induction n; cbn; congruence. Qed.
Lemma white_sp : white SP. Proof. now left. Qed.
Lemma whites1 : whites [SP]. Proof. repeat constructor. Qed.
Lemma whites0 : whites []. Proof. constructor. Qed.
Lemma whites_spaces n : whites (spaces_ n).
Proof. unfold whites, spaces_. induction n; constructor; auto. now left. Qed.
#[local] Hint Resolve white_sp whites1 whites0 whites_spaces : core.

(** Lines with comments, each indented by less than [b]. *)
Inductive klines (b : nat) : str -> Prop :=
| KL0 : klines b []
| KL1 j c s : j < b -> comment_text c -> klines b s -> klines b (spaces_ j ++ lit "#" ++ c ++ [NL] ++ s).
Lemma klines_le a b s : a <= b -> klines a s -> klines b s.
Proof. intros L. induction 1; constructor; auto; lia. Qed.
Lemma klines_comments b s : klines b s -> l_comments s.
Proof. induction 1; constructor; auto. Qed.
Lemma klines_trail b s : klines b s -> trail_comments b s.
Proof. intros H. inversion H; subst; constructor; auto. eapply klines_comments; eauto. Qed.

Lemma end_comments b s : klines b s -> sl_comments ([NL] ++ s).
Proof. intros H. constructor; [apply (SB0 []); auto|eapply klines_comments; eauto]. Qed.
Lemma end_comments_c b c s : klines b s -> comment_text c -> sl_comments ((lit " #" ++ c) ++ [NL] ++ s).
Proof.
  intros H C. change (lit " #") with ([SP] ++ lit "#"). replace (([SP] ++ lit "#") ++ c) with ([SP] ++ lit "#" ++ c) by now rewrite app_assoc.
  replace (([SP] ++ lit "#" ++ c) ++ [NL] ++ s) with (([SP] ++ lit "#" ++ c ++ [NL]) ++ s) by now rewrite <- !app_assoc.
  constructor; [|eapply klines_comments; eauto]. apply SBText; auto. discriminate.
Qed.

(** ---- inline nodes ---- *)

Lemma single_app s v s' v' : single_text s v -> single_text s' v' -> single_text (s ++ s') (v ++ v').
Proof. induction 1; intros H'; cbn; [exact H'|apply STChar|apply STQuote]; auto. Qed.
Lemma double_app s v s' v' : double_text s v -> double_text s' v' -> double_text (s ++ s') (v ++ v').
Proof. induction 1; intros H'; cbn; [exact H'|apply DTChar|eapply DTEscape]; eauto. Qed.
Lemma single_str s : Forall (fun c => nb_json c /\ c <> QUOTE) s -> single_text s s.
Proof. induction 1 as [|c s [A B] _ IH]; constructor; auto. Qed.
Lemma double_str s : Forall (fun c => nb_json c /\ c <> DQUOTE /\ c <> BACKSLASH) s -> double_text s s.
Proof. induction 1 as [|c s (A & B & C) _ IH]; constructor; auto. Qed.
Lemma single_parts ps : Forall sq_portable ps -> single_text (flat_map format_sq_part ps) (parse_single_quoted ps).
Proof.
  unfold parse_single_quoted. induction 1 as [|p ps P _ IH]; [constructor|]. cbn [flat_map]. apply single_app; [|exact IH].
  destruct p; cbn in *; try contradiction; [now apply single_str|]. apply STQuote. constructor.
Qed.
Lemma double_parts ps : Forall dq_portable ps -> double_text (flat_map format_dq_part ps) (parse_double_quoted ps).
Proof.
  unfold parse_double_quoted. induction 1 as [|p ps P _ IH]; [constructor|]. cbn [flat_map]. apply double_app; [|exact IH].
  destruct p as [s|e| |]; cbn in *; try contradiction; [now apply double_str|].
  destruct e; try congruence; (apply DTEscape; [unfold escapes; repeat (first [left; reflexivity|right])|constructor]).
Qed.

Definition wrote (c : context) (y : yaml) : Prop := forall m par, exists s, format y m par = SP :: s /\
  flow_node c (Node None (content_of y)) s /\ (~ is_alias y -> flow_content c (content_of y) s).
Lemma wrote_content c y : (forall m par, exists s, format y m par = SP :: s /\ flow_content c (content_of y) s) -> wrote c y.
Proof. intros H m par. destruct (H m par) as (s & E & F). exists s. split; [exact E|]. split; [now constructor|trivial]. Qed.

Lemma seq_items l : Forall (wrote FlowIn) l -> forall x sx, flow_node FlowIn x sx ->
  exists s, flow_seq (x :: map (fun y => Node None (content_of y)) l) s /\
    s = sx ++ flat_map (fun y => lit "," ++ format y 0 None) l ++ [SP].
Proof.
  induction 1 as [|y l Y _ IH]; intros x sx X; cbn [map flat_map app].
  - eexists. split; [apply FS1; [exact X|exact whites1]|reflexivity].
  - destruct (Y 0 None) as (sy & E & N & _). destruct (IH _ _ N) as (s & S & ->).
    eexists. split; [apply (FS2 x sx [] [SP]); [exact X|auto|auto|exact S]|]. rewrite E. cbn [app]. rewrite <- !app_assoc. reflexivity.
Qed.
Definition pair_node (kv : str * yaml) : node * node := match kv with (k, x) => (Node None (Scalar true k), Node None (content_of x)) end.
Lemma map_items l : Forall (fun kv => plain FlowIn (fst kv) /\ wrote FlowIn (snd kv)) l -> forall e se, flow_entry e se ->
  exists s, flow_map (e :: map pair_node l) s /\
    s = se ++ flat_map (fun kv => lit ", " ++ fst kv ++ lit ":" ++ format (snd kv) 0 None) l ++ [SP].
Proof.
  induction 1 as [|[k y] l [P Y] _ IH]; intros e se X; cbn [map flat_map app].
  - eexists. split; [apply FM1; [exact X|exact whites1]|reflexivity].
  - cbn [fst snd] in *. destruct (Y 0 None) as (sy & E & N & _).
    assert (F : flow_entry (pair_node (k, y)) (k ++ [] ++ lit ":" ++ [SP] ++ sy)).
    { apply FEntry; auto; [|discriminate]. apply FContent. now constructor. }
    destruct (IH _ _ F) as (s & S & ->). eexists. split; [apply (FM2 e se [] [SP]); [exact X|auto|auto|exact S]|].
    rewrite E. cbn [app lit]. rewrite <- !app_assoc. reflexivity.
Qed.

Lemma inline_wrote y : forall c, inline_portable c y -> wrote c y.
Proof.
  induction y as [l IH|l IH|l IH|l IH|ps|ps|s|ls ch|ls ch|s] using yaml_ind'; intros c; cbn [inline_portable].
  - intros H. apply wrote_content. intros m par. cbn [content_of]. fold pair_node.
    change (fun kv : str * yaml => let (k, x) := kv in (Node None (Scalar true k), Node None (content_of x))) with pair_node.
    destruct l as [|[k y] l]; [exists (lit "{}"); split; [reflexivity|apply (FMapping c [] [] []); [auto|constructor]]|].
    cbn [fold_right] in H. destruct H as [[P Y] H]. inversion IH as [|? ? I1 I2]; subst. cbn [snd] in I1.
    destruct (I1 FlowIn Y 0 None) as (sy & E & N & _).
    assert (F : flow_entry (pair_node (k, y)) (k ++ [] ++ lit ":" ++ [SP] ++ sy)).
    { apply FEntry; auto; [|discriminate]. apply FContent. now constructor. }
    assert (A : Forall (fun kv => plain FlowIn (fst kv) /\ wrote FlowIn (snd kv)) l).
    { clear - I2 H. induction I2 as [|[k y] l I _ IH]; constructor; cbn [fold_right] in H; destruct H as [[P Y] H]; auto. }
    destruct (map_items l A _ _ F) as (s & S & Es).
    exists (lit "{" ++ [SP] ++ s ++ lit "}"). split; [|apply (FMapping c [SP]); auto].
    cbn [format is_nil concat_mapi]. change (0 <? 0) with false. cbn iota. rewrite E.
    rewrite (concat_mapi_S _ (fun kv => lit ", " ++ fst kv ++ lit ":" ++ format (snd kv) 0 None)) by (intros i [a b]; reflexivity).
    rewrite Es. cbn [app lit]. rewrite <- ?app_assoc. cbn [app]. rewrite <- ?app_assoc. reflexivity.
  - destruct l; [|contradiction]. intros _. apply wrote_content. intros m par. exists (lit "{}"). split; [reflexivity|].
    apply (FMapping c [] [] []); [auto|constructor].
  - intros H. apply wrote_content. intros m par. cbn [content_of].
    destruct l as [|y l]; [exists (lit "[]"); split; [reflexivity|apply (FSequence c [] [] []); [auto|constructor]]|].
    cbn [fold_right] in H. destruct H as [Y H]. inversion IH as [|? ? I1 I2]; subst.
    destruct (I1 FlowIn Y 0 None) as (sy & E & N & _).
    assert (A : Forall (wrote FlowIn) l).
    { clear - I2 H. induction I2 as [|y l I _ IH]; constructor; cbn [fold_right] in H; destruct H as [Y H]; auto. }
    destruct (seq_items l A _ _ N) as (s & S & Es).
    exists (lit "[" ++ [SP] ++ s ++ lit "]"). split; [|apply (FSequence c [SP]); auto].
    cbn [format is_nil concat_mapi]. change (0 <? 0) with false. cbn iota. rewrite E.
    rewrite (concat_mapi_S _ (fun x => lit "," ++ format x 0 None)) by reflexivity.
    rewrite Es. cbn [app lit]. rewrite <- !app_assoc. reflexivity.
  - destruct l; [|contradiction]. intros _. apply wrote_content. intros m par. exists (lit "[]"). split; [reflexivity|].
    apply (FSequence c [] [] []); [auto|constructor].
  - intros H. apply wrote_content. intros m par. eexists. split; [reflexivity|]. cbn [content_of]. apply FSingle. now apply single_parts.
  - intros H. apply wrote_content. intros m par. eexists. split; [reflexivity|]. cbn [content_of]. apply FDouble. now apply double_parts.
  - intros H. apply wrote_content. intros m par. eexists. split; [reflexivity|]. now constructor.
  - contradiction.
  - contradiction.
  - intros H m par. eexists. split; [reflexivity|]. cbn [content_of]. split; [apply FAlias, H|]. intros X. now destruct X.
Qed.

(** A value on the line of its key or dash. *)
Lemma line_wrote a i par : on_line a -> exists w s, format_aliased a i par = w ++ s /\ whites w /\ w <> [] /\ flow_node FlowOut (node_of a) s.
Proof.
  destruct a as [[al|] y]; cbn [on_line names format_aliased node_of]; intros (P & N & A).
  - destruct (inline_wrote y _ P (i + 2) None) as (s & E & _ & F). exists [SP], (lit "&" ++ al ++ [SP] ++ s). rewrite E.
    split; [reflexivity|]. split; [auto|]. split; [discriminate|]. apply FProperties; auto; [discriminate|]. apply F. intros X. specialize (A X). discriminate A.
  - destruct (inline_wrote y _ P (i + 2) par) as (s & E & F & _). exists [SP], s. rewrite E. repeat split; auto. discriminate.
Qed.

(** ---- block scalars ---- *)

Lemma split_empties (l : str) ls : l <> [] -> exists b n, ls = b ++ repeat [] n /\ forall r, l :: b <> r ++ [[]].
Proof.
  intros L. induction ls as [|x ls IH] using rev_ind.
  - exists [], 0. split; [reflexivity|]. intros [|? [|? ?]] E; inversion E; congruence.
  - destruct IH as (b & n & -> & B). destruct x as [|c x].
    + exists b, (S n). split; [|exact B]. rewrite <- app_assoc. f_equal. change ([[]] : list str) with (repeat ([] : str) 1).
      rewrite <- repeat_app. f_equal. lia.
    + exists ((b ++ repeat [] n) ++ [c :: x]), 0. split; [cbn [repeat]; now rewrite app_nil_r|].
      intros r E. change (l :: (b ++ repeat [] n) ++ [c :: x]) with ((l :: b ++ repeat [] n) ++ [c :: x]) in E.
      apply app_inj_tail in E. destruct E as [_ E]. discriminate E.
Qed.
Definition line_at (i : nat) (l : str) : str := spaces_ i ++ l ++ [NL].
Lemma content_all i ls : Forall (Forall nb_char) ls -> content_lines i ls (flat_map (line_at i) ls).
Proof.
  induction 1 as [|l ls L _ IH]; [constructor|]. cbn [flat_map]. unfold line_at at 1. destruct l as [|c l].
  - rewrite <- app_assoc. cbn [app]. change (NL :: ?x) with ([NL] ++ x). now apply CLEmpty.
  - rewrite <- !app_assoc. apply CLText; auto. discriminate.
Qed.
Lemma lines_shift i ls K : lines_text i ls ++ [NL] ++ K = [NL] ++ flat_map (line_at i) ls ++ K.
Proof.
  unfold lines_text. induction ls as [|l ls IH]; [reflexivity|]. cbn [flat_map]. rewrite <- app_assoc, IH. unfold line_at.
  rewrite indent_spaces. cbn [app]. rewrite <- !app_assoc. reflexivity.
Qed.
Lemma starts_sp l : starts_with SP l = true -> exists r, l = SP :: r.
Proof. destruct l as [|c l]; cbn; [discriminate|]. intros H. apply ceqb_eq in H. subst. eauto. Qed.
Lemma header_at i l : lines_at (i + 1) (i + 2) l (if starts_with SP l then lit "2" else []).
Proof.
  destruct (starts_with SP l) eqn:E; [apply (Given (i + 1) (i + 2) l 2); lia|]. apply Detected; [lia|].
  intros r ->. cbn in E. discriminate E.
Qed.
Lemma nb_one_line l : Forall nb_char l -> Spec_Parse.one_line l.
Proof. intros H. rewrite Forall_forall in H. split; intros I; apply H in I; destruct I as (_ & A & B & _); congruence. Qed.

Lemma literal_wrote i l ls c K : l <> [] -> Forall (Forall nb_char) (l :: ls) -> klines (i + 2) K ->
  exists s, format_block_lines (lit " |") (l :: ls) c (i + 2) ++ [NL] ++ K = SP :: s /\
    block_scalar (i + 1) (Scalar false (parse_literal (l :: ls) c)) s.
Proof.
  intros L F HK. rewrite (FormatTree.format_lines _ _ _ _ l ls) by reflexivity. cbn [hd].
  destruct (split_empties l ls L) as (b & n & E & B).
  exists (lit "|" ++ (chomp_str c ++ if starts_with SP l then lit "2" else []) ++ [NL] ++ flat_map (line_at (i + 2)) (l :: b) ++ flat_map (line_at (i + 2)) (repeat [] n) ++ K).
  assert (E' : l :: ls = (l :: b) ++ repeat [] n) by now rewrite E. split.
  - rewrite <- !app_assoc. change (lit " |") with (SP :: lit "|"). cbn [app]. do 2 f_equal. f_equal. f_equal. rewrite E'.
    change (NL :: K) with ([NL] ++ K). rewrite lines_shift, flat_map_app, <- app_assoc. reflexivity.
  - rewrite E' in F |- *. apply Forall_app in F as [F1 F2]. rewrite literal_value; [|discriminate| |exact B].
    + eapply BLiteral; [apply header_at|right; reflexivity|apply (SB0 []); auto|now apply content_all|exact L|exact B|now apply content_all|now apply klines_trail].
    + eapply Forall_impl; [|exact F1]. apply nb_one_line.
Qed.
Definition soft (l : str) : Prop := match l with [] => True | d :: _ => ns_char d end.
Lemma fold_exists : forall k b, length b <= k -> forall c l, ns_char c -> Forall soft b -> (forall r, (c :: l) :: b <> r ++ [[]]) ->
  exists v, folded_lines ((c :: l) :: b) v /\ folds ((c :: l) :: b) v.
Proof.
  assert (NS : forall c, ns_char c -> c <> SP) by (intros c [_ H] ->; apply H; now left).
  induction k as [|k IH]; intros b Hk c l C S B.
  - destruct b as [|x b]; [|cbn in Hk; lia]. exists (c :: l). split; constructor; auto.
  - assert (D : exists n rest, b = repeat [] n ++ rest /\ (forall r, rest <> [] :: r)).
    { clear. induction b as [|[|d x] b (n & rest & -> & R)]; [exists 0, []; split; [reflexivity|discriminate]|exists (S n), rest; split; [reflexivity|exact R]|exists 0; eexists; split; [reflexivity|discriminate]]. }
    destruct D as (n & rest & -> & R). destruct rest as [|[|d x] rest].
    + destruct n as [|n]; [exists (c :: l); split; constructor; auto|]. exfalso. rewrite app_nil_r in B.
      apply (B ((c :: l) :: repeat [] n)). cbn [app]. f_equal. change ([[]] : list str) with (repeat ([] : str) 1). rewrite <- repeat_app. f_equal. lia.
    + now destruct (R rest).
    + apply Forall_app in S as [_ S]. inversion S as [|? ? S1 S2]; subst. cbn in S1.
      destruct (IH rest ltac:(rewrite app_length in Hk; cbn in Hk; lia) d x S1 S2) as (v & V1 & V2).
      { intros r E. apply (B ((c :: l) :: repeat [] n ++ r)). cbn [app]. rewrite E. now rewrite <- app_assoc. }
      destruct n as [|n].
      * exists ((c :: l) ++ [SP] ++ v). split; [now apply FLSpace|]. apply fo_space; auto.
      * exists ((c :: l) ++ repeat NL (Datatypes.S n) ++ v). split; [now apply FLBreaks|]. apply fo_breaks; auto.
Qed.
Lemma folded_wrote i l ls c K : l <> [] -> Forall (Forall nb_char) (l :: ls) ->
  Forall (fun x => match x with [] => True | d :: _ => ~ white d end) (l :: ls) -> klines (i + 2) K ->
  exists s, format_block_lines (lit " >") (l :: ls) c (i + 2) ++ [NL] ++ K = SP :: s /\
    block_scalar (i + 1) (Scalar false (parse_folded (l :: ls) c)) s.
Proof.
  intros L F W HK. rewrite (FormatTree.format_lines _ _ _ _ l ls) by reflexivity. cbn [hd].
  destruct (split_empties l ls L) as (b & n & E & B).
  assert (S : Forall soft (l :: ls)).
  { clear - F W. induction F as [|x xs X _ IH]; [constructor|]. inversion W as [|? ? W1 W2]; subst. constructor; [|now apply IH].
    destruct x as [|d x]; [exact I|]. inversion X; subst. now split. }
  exists (lit ">" ++ (chomp_str c ++ if starts_with SP l then lit "2" else []) ++ [NL] ++ flat_map (line_at (i + 2)) (l :: b) ++ flat_map (line_at (i + 2)) (repeat [] n) ++ K).
  assert (E' : l :: ls = (l :: b) ++ repeat [] n) by now rewrite E. split.
  - rewrite <- !app_assoc. change (lit " >") with (SP :: lit ">"). cbn [app]. do 2 f_equal. f_equal. f_equal. rewrite E'.
    change (NL :: K) with ([NL] ++ K). rewrite lines_shift, flat_map_app, <- app_assoc. reflexivity.
  - rewrite E' in F, S |- *. apply Forall_app in F as [F1 F2]. apply Forall_app in S as [S _].
    destruct l as [|d l]; [contradiction|]. inversion S as [|? ? S1 S2]; subst.
    destruct (fold_exists (length b) b (le_n _) d l S1 S2 B) as (v & V1 & V2).
    rewrite (folded_value _ v n c V2) by (eapply Forall_impl; [|exact F1]; apply nb_one_line).
    eapply BFolded; [apply header_at|right; reflexivity|apply (SB0 []); auto|now apply content_all|exact V1|now apply content_all|now apply klines_trail].
Qed.

(** ---- collections ---- *)

Definition map_nodes (l : list hashdata) : list (node * node) := flat_map (fun d => match d with
  | HElem (mkHE k (mkA al x)) => [(Node None (Scalar true k), Node al (content_of x))] | _ => [] end) l.
Definition seq_nodes (l : list arraydata) : list node := flat_map (fun d => match d with
  | AElem (mkA al x) => [Node al (content_of x)] | _ => [] end) l.
(** A value after its key or dash, with the comments that follow. *)
Definition good (a : aliased) : Prop := forall i K, klines (i + 2) K ->
  (forall out, block_node (i + 1) out (node_of a) (format_aliased a i (Some ParHash) ++ [NL] ++ K)) /\
  indented i (node_of a) (format_aliased a i (Some ParArray) ++ [NL] ++ K).
Definition map_good (l : list hashdata) : Prop := forall i K, klines (i + 1) K ->
  (exists C T, hash_text i l ++ [NL] ++ K = [NL] ++ C ++ T /\ klines (i + 1) C /\ map_entries i (map_nodes l) T) /\
  forall e r, l = HElem e :: r -> exists s t, entry_text i e ++ hash_text i r ++ [NL] ++ K = s ++ t /\
     exists p q, map_nodes l = p :: q /\ map_entry i p s /\ map_entries i q t.
Definition seq_good (l : list arraydata) : Prop := forall i K, klines (i + 1) K ->
  (exists C T, array_text i l ++ [NL] ++ K = [NL] ++ C ++ T /\ klines (i + 1) C /\ seq_entries i (seq_nodes l) T) /\
  forall e r, l = AElem e :: r -> exists s t, elem_text i e ++ array_text i r ++ [NL] ++ K = s ++ t /\
     exists p q, seq_nodes l = p :: q /\ seq_entry i p s /\ seq_entries i q t.


Definition gap_first (s : str) : Prop := match s with [] => True | c :: _ => c = SP \/ c = NL end.
Lemma format_first y m par : gap_first (format y m par).
Proof.
  destruct y as [l|l|l|l|ps|ps|s|ls ch|ls ch|s]; cbn [format]; try (now left).
  - destruct l as [|[c|c|[k [al x]]] l]; cbn; auto; try (now left); try (now right). destruct par as [[]|]; cbn; auto.
  - destruct l as [|[c|c|[al x]] l]; cbn; auto; try (now left); try (now right). destruct par as [[]|]; cbn; auto.
  - destruct ls as [|l ls]; cbn; auto.
  - destruct ls as [|l ls]; cbn; auto.
Qed.
Lemma aliased_first a i par K c r : format_aliased a i par ++ [NL] ++ K = c :: r -> ~ ns_char c.
Proof.
  assert (X : forall c, c = SP \/ c = NL -> ~ ns_char c).
  { intros d [->| ->] [(A & B & _) C]; [apply C; now left|congruence]. }
  destruct a as [[al|] y]; cbn [format_aliased].
  - intros E. injection E as <- _. apply X. now left.
  - pose proof (format_first y (i + 2) par) as F. destruct (format y (i + 2) par) as [|d z]; cbn in *; intros E; injection E as <- _; apply X; auto.
Qed.

Lemma line_good a : on_line a -> good a.
Proof.
  intros H i K HK. destruct (line_wrote a i (Some ParHash) H) as (w & s & E & W & N & F).
  destruct (line_wrote a i (Some ParArray) H) as (w' & s' & E' & W' & N' & F').
  split; [intros out|apply BNode]; [rewrite E|rewrite E']; rewrite <- app_assoc; apply BFlow; auto; eapply end_comments; eauto.
Qed.
Lemma props al : names al -> exists p, properties al p /\ p = match al with Some a => lit " &" ++ a | None => [] end.
Proof.
  destruct al as [a|]; cbn; intros N; eexists; (split; [|reflexivity]); [|constructor].
  apply (Pr1 a [SP]); auto. discriminate.
Qed.
Lemma scalar_good al y (S : content_of y = Scalar false (match content_of y with Scalar _ v => v | _ => [] end)) : names al ->
  (forall i K, klines (i + 2) K -> forall par, exists s, format y (i + 2) par ++ [NL] ++ K = SP :: s /\ block_scalar (i + 1) (content_of y) s) ->
  good (mkA al y).
Proof.
  intros N H i K HK. cbn [node_of]. destruct (props al N) as (p & P & Ep).
  assert (G : forall out par, block_node (i + 1) out (Node al (content_of y)) (format_aliased (mkA al y) i par ++ [NL] ++ K)).
  { intros out par. destruct al as [a|]; cbn [format_aliased].
    - destruct (H i K HK None) as (s & E & B). rewrite <- !app_assoc, E. rewrite app_assoc, <- Ep.
      change (SP :: s) with ([SP] ++ s). apply BScalar; auto. discriminate.
    - destruct (H i K HK par) as (s & E & B). rewrite E. subst p. apply (BScalar (i + 1) out None [] [SP]); auto. discriminate. }
  split; [intros out; apply G|apply BNode, G].
Qed.
Lemma format_hash_other n d l par : (forall e, d <> HElem e) -> format (Hash (d :: l)) n par = hash_text n (d :: l).
Proof.
  intros D. destruct par as [[]|]; try (apply format_hash; discriminate).
  cbn [format is_nil concat_mapi]. rewrite concat_mapi_S with (g := hdata_text n).
  - unfold hash_text. cbn [flat_map]. f_equal. destruct d as [c|c|e]; try reflexivity. now destruct (D e).
  - intros i [c|c|[k [al x]]]; try reflexivity. cbn [hdata_text Nat.eqb same_line]. unfold entry_text.
    cbn [he_key he_value]. rewrite <- ?app_assoc. reflexivity.
Qed.
Lemma format_array_other n d l par : (forall e, d <> AElem e) -> format (Array (d :: l)) n par = array_text n (d :: l).
Proof.
  intros D. destruct par as [[]|]; try (apply format_array; discriminate).
  cbn [format is_nil concat_mapi]. rewrite concat_mapi_S with (g := adata_text n).
  - unfold array_text. cbn [flat_map]. f_equal. destruct d as [c|c|e]; try reflexivity. now destruct (D e).
  - intros i [c|c|[al x]]; try reflexivity. cbn [adata_text Nat.eqb same_line]. unfold elem_text.
    rewrite <- ?app_assoc. reflexivity.
Qed.

Lemma map_nodes_in l e : In (HElem e) l -> map_nodes l <> [].
Proof.
  induction l as [|d l IH]; [intros []|]. intros [->|I]; unfold map_nodes in *; cbn [flat_map].
  - destruct e as [k [al x]]. discriminate.
  - specialize (IH I). destruct d as [c|c|[k [al x]]]; cbn; try exact IH; discriminate.
Qed.
Lemma seq_nodes_in l e : In (AElem e) l -> seq_nodes l <> [].
Proof.
  induction l as [|d l IH]; [intros []|]. intros [->|I]; unfold seq_nodes in *; cbn [flat_map].
  - destruct e as [al x]. discriminate.
  - specialize (IH I). destruct d as [c|c|[al x]]; cbn; try exact IH; discriminate.
Qed.

Lemma hash_good al l : names al -> map_good l -> (exists e, In (HElem e) l) -> good (mkA al (Hash l)).
Proof.
  intros N G (e0 & I0) i K HK. cbn [node_of content_of]. fold (map_nodes l).
  assert (L : l <> []) by (intros ->; destruct I0).
  destruct (G (i + 2) K (klines_le (i + 2) (i + 2 + 1) _ ltac:(lia) HK)) as [(C & T & E & KC & M) G2].
  destruct (props al N) as (p & P & Ep).
  assert (B : forall out par, (al = None -> format (Hash l) (i + 2) par = hash_text (i + 2) l) ->
    block_node (i + 1) out (Node al (Mapping (map_nodes l))) (format_aliased (mkA al (Hash l)) i par ++ [NL] ++ K)).
  { intros out par H.
    assert (X : format_aliased (mkA al (Hash l)) i par ++ [NL] ++ K = p ++ ([NL] ++ C) ++ T).
    { rewrite <- app_assoc, <- E. subst p. destruct al as [a|]; cbn [format_aliased].
      - rewrite format_hash by (try exact L; discriminate). now rewrite <- !app_assoc.
      - now rewrite H. }
    rewrite X. apply (BMap (i + 1) out al p ([NL] ++ C) (i + 2)); auto; [eapply end_comments; eauto|lia|eapply map_nodes_in; eauto]. }
  split.
  - intros out. apply B. intros _. apply format_hash; [exact L|discriminate].
  - destruct al as [a|]; [apply BNode, B; discriminate|].
    destruct l as [|[c|c|e] r]; try (apply BNode, B; intros _; apply format_hash_other; discriminate).
    { now destruct L. }
    destruct (G2 e r eq_refl) as (s & t & E2 & q & qs & -> & H1 & H2). cbn [format_aliased]. rewrite format_hash_elem.
    change (SP :: ?x) with (spaces_ 1 ++ x). rewrite <- !app_assoc, E2.
    replace (i + 2) with (i + 1 + 1) in * by lia. now apply BCompactMap.
Qed.
Lemma array_good al l : names al -> seq_good l -> (exists e, In (AElem e) l) -> good (mkA al (Array l)).
Proof.
  intros N G (e0 & I0) i K HK. cbn [node_of content_of]. fold (seq_nodes l).
  assert (L : l <> []) by (intros ->; destruct I0).
  destruct (G (i + 2) K (klines_le (i + 2) (i + 2 + 1) _ ltac:(lia) HK)) as [(C & T & E & KC & M) G2].
  destruct (props al N) as (p & P & Ep).
  assert (B : forall out par, (al = None -> format (Array l) (i + 2) par = array_text (i + 2) l) ->
    block_node (i + 1) out (Node al (Sequence (seq_nodes l))) (format_aliased (mkA al (Array l)) i par ++ [NL] ++ K)).
  { intros out par H.
    assert (X : format_aliased (mkA al (Array l)) i par ++ [NL] ++ K = p ++ ([NL] ++ C) ++ T).
    { rewrite <- app_assoc, <- E. subst p. destruct al as [a|]; cbn [format_aliased].
      - rewrite format_array by (try exact L; discriminate). now rewrite <- !app_assoc.
      - now rewrite H. }
    rewrite X. apply (BSeq (i + 1) out al p ([NL] ++ C) (i + 2)); auto; [eapply end_comments; eauto|destruct out; lia|eapply seq_nodes_in; eauto]. }
  split.
  - intros out. apply B. intros _. apply format_array; [exact L|discriminate].
  - destruct al as [a|]; [apply BNode, B; discriminate|].
    destruct l as [|[c|c|e] r]; try (apply BNode, B; intros _; apply format_array_other; discriminate).
    { now destruct L. }
    destruct (G2 e r eq_refl) as (s & t & E2 & q & qs & -> & H1 & H2). cbn [format_aliased]. rewrite format_array_elem.
    change (SP :: ?x) with (spaces_ 1 ++ x). rewrite <- !app_assoc, E2.
    replace (i + 2) with (i + 1 + 1) in * by lia. now apply BCompactSeq.
Qed.

Lemma hash_comment i c l K C T : hash_text i l ++ [NL] ++ K = [NL] ++ C ++ T ->
  hash_text i (HComment c :: l) ++ [NL] ++ K = [NL] ++ (spaces_ i ++ lit "#" ++ c ++ [NL] ++ C) ++ T.
Proof.
  intros E. change (hash_text i (HComment c :: l)) with ((NL :: indent i ++ lit "#" ++ c) ++ hash_text i l).
  rewrite <- app_assoc, E, indent_spaces. cbn [app]. rewrite <- !app_assoc. reflexivity.
Qed.
Lemma array_comment i c l K C T : array_text i l ++ [NL] ++ K = [NL] ++ C ++ T ->
  array_text i (AComment c :: l) ++ [NL] ++ K = [NL] ++ (spaces_ i ++ lit "#" ++ c ++ [NL] ++ C) ++ T.
Proof.
  intros E. change (array_text i (AComment c :: l)) with ((NL :: indent i ++ lit "#" ++ c) ++ array_text i l).
  rewrite <- app_assoc, E, indent_spaces. cbn [app]. rewrite <- !app_assoc. reflexivity.
Qed.
Lemma pair_good i k a z : key_portable k -> block_node (i + 1) true (node_of a) (format_aliased a i (Some ParHash) ++ z) ->
  map_entry i (Node None (Scalar true k), node_of a) (k ++ [] ++ lit ":" ++ format_aliased a i (Some ParHash) ++ z).
Proof. intros (P & L & _) B. apply BPair; auto. now rewrite app_nil_r. Qed.
Lemma elem_good i a z x : (forall c r, format_aliased a i (Some ParArray) ++ z = c :: r -> ~ ns_char c) ->
  indented i x (format_aliased a i (Some ParArray) ++ z) -> seq_entry i x (lit "-" ++ format_aliased a i (Some ParArray) ++ z).
Proof. intros H B. now apply BEntry. Qed.

(** One entry, then the rest. *)
Lemma map_step k a oc l i K C T : key_portable k ->
  hash_text i l ++ [NL] ++ K = [NL] ++ C ++ T -> klines (i + 1) C -> map_entries i (map_nodes l) T ->
  block_node (i + 1) true (node_of a) (format_aliased a i (Some ParHash) ++ otext oc ++ [NL] ++ C) ->
  (exists C' T', hash_text i (HElem (mkHE k a) :: hoc oc ++ l) ++ [NL] ++ K = [NL] ++ C' ++ T' /\ klines (i + 1) C' /\
     map_entries i ((Node None (Scalar true k), node_of a) :: map_nodes l) T') /\
  exists s t, entry_text i (mkHE k a) ++ hash_text i (hoc oc ++ l) ++ [NL] ++ K = s ++ t /\
    exists p q, (Node None (Scalar true k), node_of a) :: map_nodes l = p :: q /\ map_entry i p s /\ map_entries i q t.
Proof.
  intros P E KC M B.
  assert (Q : entry_text i (mkHE k a) ++ hash_text i (hoc oc ++ l) ++ [NL] ++ K =
    (k ++ [] ++ lit ":" ++ format_aliased a i (Some ParHash) ++ otext oc ++ [NL] ++ C) ++ T).
  { unfold entry_text. cbn [he_key he_value]. unfold hash_text. rewrite flat_map_app. fold (hash_text i l).
    rewrite <- !app_assoc. rewrite E. destruct oc; cbn [hoc otext flat_map hdata_text app]; rewrite <- ?app_assoc; reflexivity. }
  pose proof (pair_good i k a _ P B) as PG. split.
  - exists [], (spaces_ i ++ (k ++ [] ++ lit ":" ++ format_aliased a i (Some ParHash) ++ otext oc ++ [NL] ++ C) ++ T).
    split; [|split; [constructor|now apply BM1]].
    change (hash_text i (HElem (mkHE k a) :: hoc oc ++ l)) with ((NL :: indent i ++ entry_text i (mkHE k a)) ++ hash_text i (hoc oc ++ l)).
    rewrite <- Q, indent_spaces. cbn [app]. rewrite <- !app_assoc. reflexivity.
  - eexists _, T. split; [exact Q|]. eexists _, _. split; [reflexivity|]. split; assumption.
Qed.
Lemma seq_step a oc l i K C T :
  array_text i l ++ [NL] ++ K = [NL] ++ C ++ T -> klines (i + 1) C -> seq_entries i (seq_nodes l) T ->
  indented i (node_of a) (format_aliased a i (Some ParArray) ++ otext oc ++ [NL] ++ C) ->
  (forall c r, format_aliased a i (Some ParArray) ++ otext oc ++ [NL] ++ C = c :: r -> ~ ns_char c) ->
  (exists C' T', array_text i (AElem a :: aoc oc ++ l) ++ [NL] ++ K = [NL] ++ C' ++ T' /\ klines (i + 1) C' /\
     seq_entries i (node_of a :: seq_nodes l) T') /\
  exists s t, elem_text i a ++ array_text i (aoc oc ++ l) ++ [NL] ++ K = s ++ t /\
    exists p q, node_of a :: seq_nodes l = p :: q /\ seq_entry i p s /\ seq_entries i q t.
Proof.
  intros E KC M B F.
  assert (Q : elem_text i a ++ array_text i (aoc oc ++ l) ++ [NL] ++ K =
    (lit "-" ++ format_aliased a i (Some ParArray) ++ otext oc ++ [NL] ++ C) ++ T).
  { unfold elem_text. unfold array_text. rewrite flat_map_app. fold (array_text i l).
    rewrite <- !app_assoc. rewrite E. destruct oc; cbn [aoc otext flat_map adata_text app]; rewrite <- ?app_assoc; reflexivity. }
  pose proof (elem_good i a _ _ F B) as PG. split.
  - exists [], (spaces_ i ++ (lit "-" ++ format_aliased a i (Some ParArray) ++ otext oc ++ [NL] ++ C) ++ T).
    split; [|split; [constructor|now apply BS1]].
    change (array_text i (AElem a :: aoc oc ++ l)) with ((NL :: indent i ++ elem_text i a) ++ array_text i (aoc oc ++ l)).
    rewrite <- Q, indent_spaces. cbn [app]. rewrite <- !app_assoc. reflexivity.
  - eexists _, T. split; [exact Q|]. eexists _, _. split; [reflexivity|]. split; assumption.
Qed.
Lemma line_comment a i c C par out : on_line a -> comment_text c -> klines (i + 1) C ->
  block_node (i + 1) out (node_of a) (format_aliased a i par ++ (lit " #" ++ c) ++ [NL] ++ C).
Proof.
  intros H Hc HC. destruct (line_wrote a i par H) as (w & s & E & W & N & F). rewrite E, <- app_assoc.
  apply BFlow; auto. eapply end_comments_c; eauto.
Qed.
Lemma line_comment_first a i c C par d r : format_aliased a i par ++ (lit " #" ++ c) ++ [NL] ++ C = d :: r -> ~ ns_char d.
Proof.
  assert (X : forall c, c = SP \/ c = NL -> ~ ns_char c).
  { intros x [->| ->] [(A & B & _) D]; [apply D; now left|congruence]. }
  destruct a as [[al|] y]; cbn [format_aliased].
  - intros E. injection E as <- _. apply X. now left.
  - pose proof (format_first y (i + 2) par) as F. destruct (format y (i + 2) par) as [|e z]; cbn in *; intros E; injection E as <- _; apply X; auto.
Qed.

Lemma all_good : (forall a, portable a -> good a) /\ (forall l, map_rows l -> map_good l) /\ (forall l, seq_rows l -> seq_good l).
Proof.
  apply portable_all.
  - apply line_good.
  - intros al l ls c N L F. apply scalar_good; [reflexivity|exact N|]. intros i K HK par. now apply literal_wrote.
  - intros al l ls c N L F W. apply scalar_good; [reflexivity|exact N|]. intros i K HK par. now apply folded_wrote.
  - intros al l N _ G E. now apply hash_good.
  - intros al l N _ G E. now apply array_good.
  - intros i K HK. split; [|discriminate]. exists K, []. rewrite app_nil_r. repeat split; auto. constructor.
  - intros c l Hc _ IH i K HK. destruct (IH i K HK) as [(C & T & E & KC & M) _]. split; [|discriminate].
    exists (spaces_ i ++ lit "#" ++ c ++ [NL] ++ C), T. split; [now apply hash_comment|]. split; [constructor; auto; lia|exact M].
  - intros k a l Hk _ Ga _ IH i K HK. destruct (IH i K HK) as [(C & T & E & KC & M) _].
    destruct (Ga i C (klines_le (i + 1) (i + 2) _ ltac:(lia) KC)) as [B _].
    destruct (map_step k a None l i K C T Hk E KC M (B true)) as [S1 S2].
    assert (EN : map_nodes (HElem (mkHE k a) :: l) = (Node None (Scalar true k), node_of a) :: map_nodes l) by (destruct a; reflexivity).
    split; [rewrite EN; exact S1|]. intros e r Er. injection Er as <- <-. rewrite EN. exact S2.
  - intros k a c l Hk Ha Hc _ IH i K HK. destruct (IH i K HK) as [(C & T & E & KC & M) _].
    destruct (map_step k a (Some c) l i K C T Hk E KC M (line_comment a i c C _ true Ha Hc KC)) as [S1 S2].
    assert (EN : map_nodes (HElem (mkHE k a) :: HInlineC c :: l) = (Node None (Scalar true k), node_of a) :: map_nodes l) by (destruct a; reflexivity).
    split; [rewrite EN; exact S1|]. intros e r Er. injection Er as <- <-. rewrite EN. exact S2.
  - intros i K HK. split; [|discriminate]. exists K, []. rewrite app_nil_r. repeat split; auto. constructor.
  - intros c l Hc _ IH i K HK. destruct (IH i K HK) as [(C & T & E & KC & M) _]. split; [|discriminate].
    exists (spaces_ i ++ lit "#" ++ c ++ [NL] ++ C), T. split; [now apply array_comment|]. split; [constructor; auto; lia|exact M].
  - intros a l _ Ga _ IH i K HK. destruct (IH i K HK) as [(C & T & E & KC & M) _].
    destruct (Ga i C (klines_le (i + 1) (i + 2) _ ltac:(lia) KC)) as [_ B].
    destruct (seq_step a None l i K C T E KC M B (aliased_first a i _ C)) as [S1 S2].
    assert (EN : seq_nodes (AElem a :: l) = node_of a :: seq_nodes l) by (destruct a; reflexivity).
    split; [rewrite EN; exact S1|]. intros e r Er. injection Er as <- <-. rewrite EN. exact S2.
  - intros a c l Ha Hc _ IH i K HK. destruct (IH i K HK) as [(C & T & E & KC & M) _].
    destruct (seq_step a (Some c) l i K C T E KC M (BNode _ _ _ (line_comment a i c C _ false Ha Hc KC)) (line_comment_first a i c C _)) as [S1 S2].
    assert (EN : seq_nodes (AElem a :: AInlineC c :: l) = node_of a :: seq_nodes l) by (destruct a; reflexivity).
    split; [rewrite EN; exact S1|]. intros e r Er. injection Er as <- <-. rewrite EN. exact S2.
Qed.

(** ---- no line is a document marker ---- *)

Definition spaced (s : str) : Prop := forall a r, s = a ++ NL :: r -> exists r', r = SP :: r'.
Lemma spaced_app s t : spaced s -> spaced t -> spaced (s ++ t).
Proof.
  intros S T a r E. revert t T a r E. induction s as [|x s IH]; intros t T a r E; [now apply (T a r)|].
  destruct a as [|y a]; cbn [app] in E; injection E as -> E.
  - destruct (S [] s eq_refl) as (r' & ->). rewrite <- E. cbn. eauto.
  - apply (IH ltac:(intros a' r' ->; now apply (S (y :: a') r')) t T a r E).
Qed.
Lemma spaced_no s : ~ In NL s -> spaced s.
Proof. intros H a r ->. destruct H. apply in_or_app. right. now left. Qed.
Lemma spaced_nl i s : spaced s -> spaced (NL :: indent (S i) ++ s).
Proof.
  intros H [|x a] r E; cbn [app] in E; [injection E as <-; eexists; reflexivity|]. injection E as _ E.
  assert (X : spaced (indent (S i) ++ s)).
  { apply spaced_app; [|exact H]. apply spaced_no. rewrite indent_spaces. intros I. apply repeat_spec in I. discriminate I. }
  now apply (X a r).
Qed.
Lemma nb_no s : Forall nb_char s -> ~ In NL s.
Proof. intros H I. rewrite Forall_forall in H. apply H in I. destruct I as (_ & A & _). congruence. Qed.
Lemma ns_no s : Forall (fun c => ns_char c /\ ~ flow_indicator c) s -> ~ In NL s.
Proof. intros H I. rewrite Forall_forall in H. apply H in I. destruct I as [[(_ & A & _) _] _]. congruence. Qed.
Lemma plain_tail_no c p s : plain_tail c p s -> Forall (fun x => x <> NL /\ x <> CR) s.
Proof.
  induction 1 as [|p w s W _ IH|p x s X _ _ _ IH|p s _ _ IH|p x s _ _ IH]; try (constructor; [split; discriminate|exact IH]).
  - constructor.
  - constructor; [|exact IH]. destruct W; subst; split; discriminate.
  - constructor; [|exact IH]. destruct X as [[(_ & A & B & _) _] _]. now split.
Qed.
Lemma plain_no c s : plain c s -> Forall (fun x => x <> NL /\ x <> CR) s.
Proof.
  intros [x t [X _] _ T|x y t X _ T]; constructor; try (eapply plain_tail_no; eauto).
  - now destruct X as (_ & A & B & _).
  - cbn in X. intuition (subst; discriminate).
Qed.
Lemma Forall_no s : Forall (fun x => x <> NL /\ x <> CR) s -> ~ In NL s.
Proof. intros H I. rewrite Forall_forall in H. apply H in I. destruct I. congruence. Qed.

Lemma inline_no y : forall c, inline_portable c y -> forall m par, ~ In NL (format y m par).
Proof.
  assert (J : forall c, nb_json c -> c <> NL).
  { intros c [->|[A B]]; [discriminate|]. intros ->. destruct A. reflexivity. }
  induction y as [l IH|l IH|l IH|l IH|ps|ps|s|ls ch|ls ch|s] using yaml_ind'; intros c; cbn [inline_portable]; try contradiction.
  - intros H m par. cbn [format].
    assert (X : forall i, ~ In NL (concat_mapi (fun idx (kv : str * yaml) => match kv with (k, x) => (if 0 <? idx then lit "," else []) ++ lit " " ++ k ++ lit ":" ++ format x 0 None end) i l)).
    { revert H. induction IH as [|[k y] l I _ IHl]; intros H i; cbn [concat_mapi fold_right] in *; [now intros []|]. destruct H as [[P Y] H].
      rewrite !in_app_iff. intros [[A|[A|[A|[A|A]]]]|A].
      - destruct (0 <? i); cbn in A; intuition discriminate.
      - cbn in A. intuition discriminate.
      - exact (Forall_no _ (plain_no _ _ P) A).
      - cbn in A. intuition discriminate.
      - exact (I FlowIn Y 0 None A).
      - exact (IHl H _ A). }
    rewrite !in_app_iff. intros [A|[A|[A|A]]]; [cbn in A; intuition discriminate|exact (X 0 A)|destruct l; cbn in A; intuition discriminate|cbn in A; intuition discriminate].
  - destruct l; [|contradiction]. intros _ m par A. cbn in A. intuition discriminate.
  - intros H m par. cbn [format].
    assert (X : forall i, ~ In NL (concat_mapi (fun idx (x : yaml) => (if 0 <? idx then lit "," else []) ++ format x 0 None) i l)).
    { revert H. induction IH as [|y l I _ IHl]; intros H i; cbn [concat_mapi fold_right] in *; [now intros []|]. destruct H as [Y H].
      rewrite !in_app_iff. intros [[A|A]|A].
      - destruct (0 <? i); cbn in A; intuition discriminate.
      - exact (I FlowIn Y 0 None A).
      - exact (IHl H _ A). }
    rewrite !in_app_iff. intros [A|[A|[A|A]]]; [cbn in A; intuition discriminate|exact (X 0 A)|destruct l; cbn in A; intuition discriminate|cbn in A; intuition discriminate].
  - destruct l; [|contradiction]. intros _ m par A. cbn in A. intuition discriminate.
  - intros H m par. cbn [format]. rewrite !in_app_iff, in_flat_map. intros [A|[(p & I & A)|A]]; try (cbn in A; intuition discriminate).
    rewrite Forall_forall in H. apply H in I. destruct p; cbn in *; try contradiction; [|intuition discriminate].
    rewrite Forall_forall in I. apply I in A. destruct A as [A _]. now apply J in A.
  - intros H m par. cbn [format]. rewrite !in_app_iff, in_flat_map. intros [A|[(p & I & A)|A]]; try (cbn in A; intuition discriminate).
    rewrite Forall_forall in H. apply H in I. destruct p as [s|e| |]; cbn in *; try contradiction.
    + rewrite Forall_forall in I. apply I in A. destruct A as [A _]. now apply J in A.
    + destruct e; cbn in A; try congruence; intuition discriminate.
  - intros H m par A. cbn [format] in A. rewrite in_app_iff in A. destruct A as [A|A]; [cbn in A; intuition discriminate|]. exact (Forall_no _ (plain_no _ _ H) A).
  - intros [_ H] m par A. cbn [format] in A. rewrite in_app_iff in A. destruct A as [A|A]; [cbn in A; intuition discriminate|]. exact (ns_no _ H A).
Qed.
Lemma names_no al : names al -> match al with Some a => ~ In NL a | None => True end.
Proof. destruct al; cbn; [|trivial]. intros [_ H]. now apply ns_no. Qed.
Lemma line_no a i par : on_line a -> ~ In NL (format_aliased a i par).
Proof.
  destruct a as [[al|] y]; cbn [on_line format_aliased]; intros (P & N & _).
  - rewrite !in_app_iff. intros [A|[A|A]]; [cbn in A; intuition discriminate|now apply (names_no _ N) in A|now apply (inline_no y _ P) in A].
  - now apply (inline_no y _ P).
Qed.
Lemma lines_spaced i ls : Forall (Forall nb_char) ls -> spaced (lines_text (S i) ls).
Proof.
  unfold lines_text. induction 1 as [|l ls L _ IH]; [intros [|? ?] r E; discriminate E|]. cbn [flat_map].
  apply spaced_app; [|exact IH]. apply spaced_nl, spaced_no. now apply nb_no.
Qed.
Lemma alias_spaced al y i par : names al -> (forall par, spaced (format y (i + 2) par)) -> spaced (format_aliased (mkA al y) i par).
Proof.
  intros N H. destruct al as [a|]; cbn [format_aliased]; [|apply H].
  apply spaced_app; [apply spaced_no; cbn; intuition discriminate|]. apply spaced_app; [|apply H]. apply spaced_no. exact (names_no _ N).
Qed.
Lemma block_spaced head ls c i : ~ In NL head -> Forall (Forall nb_char) ls -> spaced (format_block_lines head ls c (i + 2)).
Proof.
  intros H F. destruct ls as [|l ls]; [intros [|? ?] r E; discriminate E|]. rewrite (FormatTree.format_lines _ _ _ _ l ls) by reflexivity.
  replace (i + 2) with (S (S i)) by lia. apply spaced_app; [now apply spaced_no|]. apply spaced_app; [apply spaced_no; destruct c; cbn; intuition discriminate|].
  apply spaced_app; [|now apply lines_spaced]. apply spaced_no. destruct (starts_with SP _); cbn; intuition discriminate.
Qed.
Lemma key_no k : key_portable k -> ~ In NL k.
Proof. intros (P & _). exact (Forall_no _ (plain_no _ _ P)). Qed.
Lemma all_spaced : (forall a, portable a -> forall i par, spaced (format_aliased a i par)) /\
  (forall l, map_rows l -> forall i, spaced (hash_text (S i) l) /\ forall e r, l = HElem e :: r -> spaced (entry_text (S i) e) /\ spaced (hash_text (S i) r)) /\
  (forall l, seq_rows l -> forall i, spaced (array_text (S i) l) /\ forall e r, l = AElem e :: r -> spaced (elem_text (S i) e) /\ spaced (array_text (S i) r)).
Proof.
  assert (NIL : spaced []) by (intros [|? ?] r E; discriminate E).
  assert (CM : forall i c, comment_text c -> spaced (NL :: indent (S i) ++ lit "#" ++ c)).
  { intros i c H. apply spaced_nl, spaced_no. rewrite in_app_iff. intros [A|A]; [cbn in A; intuition discriminate|now apply nb_no in A]. }
  assert (IC : forall c, comment_text c -> spaced (lit " #" ++ c)).
  { intros c H. apply spaced_no. rewrite in_app_iff. intros [A|A]; [cbn in A; intuition discriminate|now apply nb_no in A]. }
  assert (KT : forall i k a, key_portable k -> spaced (format_aliased a (S i) (Some ParHash)) -> spaced (entry_text (S i) (mkHE k a))).
  { intros i k a K H. unfold entry_text. cbn [he_key he_value]. apply spaced_app; [now apply spaced_no, key_no|]. apply spaced_app; [|exact H]. apply spaced_no. cbn. intuition discriminate. }
  assert (ET : forall i a, spaced (format_aliased a (S i) (Some ParArray)) -> spaced (elem_text (S i) a)).
  { intros i a H. unfold elem_text. apply spaced_app; [|exact H]. apply spaced_no. cbn. intuition discriminate. }
  apply portable_all.
  - intros a H i par. apply spaced_no. now apply line_no.
  - intros al l ls c N L F i par. apply alias_spaced; [exact N|]. intros par'. apply block_spaced; [cbn; intuition discriminate|exact F].
  - intros al l ls c N L F W i par. apply alias_spaced; [exact N|]. intros par'. apply block_spaced; [cbn; intuition discriminate|exact F].
  - intros al l N _ G (e0 & I0) i par. apply alias_spaced; [exact N|]. intros par'. replace (i + 2) with (S (S i)) by lia.
    destruct (G (S i)) as [G1 G2]. destruct l as [|[c|c|e] r]; [destruct I0|rewrite format_hash_other by discriminate; exact G1|rewrite format_hash_other by discriminate; exact G1|].
    destruct (G2 e r eq_refl) as [A B]. destruct par' as [[]|]; try (rewrite format_hash by discriminate; exact G1).
    rewrite format_hash_elem. apply (spaced_app [SP]); [apply spaced_no; cbn; intuition discriminate|]. now apply spaced_app.
  - intros al l N _ G (e0 & I0) i par. apply alias_spaced; [exact N|]. intros par'. replace (i + 2) with (S (S i)) by lia.
    destruct (G (S i)) as [G1 G2]. destruct l as [|[c|c|e] r]; [destruct I0|rewrite format_array_other by discriminate; exact G1|rewrite format_array_other by discriminate; exact G1|].
    destruct (G2 e r eq_refl) as [A B]. destruct par' as [[]|]; try (rewrite format_array by discriminate; exact G1).
    rewrite format_array_elem. apply (spaced_app [SP]); [apply spaced_no; cbn; intuition discriminate|]. now apply spaced_app.
  - intros i. split; [exact NIL|discriminate].
  - intros c l C _ IH i. split; [|discriminate]. apply (spaced_app (NL :: indent (S i) ++ lit "#" ++ c)); [now apply CM|apply IH].
  - intros k a l K _ A _ IH i. destruct (IH i) as [B _]. pose proof (KT i k a K (A (S i) _)) as E. split.
    + apply (spaced_app (NL :: indent (S i) ++ entry_text (S i) (mkHE k a))); [now apply spaced_nl|exact B].
    + intros e r Q. injection Q as <- <-. now split.
  - intros k a c l K A C _ IH i. destruct (IH i) as [B _]. pose proof (KT i k a K (spaced_no _ (line_no a (S i) _ A))) as E.
    assert (B' : spaced (hash_text (S i) (HInlineC c :: l))) by (apply (spaced_app (lit " #" ++ c)); auto). split.
    + apply (spaced_app (NL :: indent (S i) ++ entry_text (S i) (mkHE k a))); [now apply spaced_nl|exact B'].
    + intros e r Q. injection Q as <- <-. now split.
  - intros i. split; [exact NIL|discriminate].
  - intros c l C _ IH i. split; [|discriminate]. apply (spaced_app (NL :: indent (S i) ++ lit "#" ++ c)); [now apply CM|apply IH].
  - intros a l _ A _ IH i. destruct (IH i) as [B _]. pose proof (ET i a (A (S i) _)) as E. split.
    + apply (spaced_app (NL :: indent (S i) ++ elem_text (S i) a)); [now apply spaced_nl|exact B].
    + intros e r Q. injection Q as <- <-. now split.
  - intros a c l A C _ IH i. destruct (IH i) as [B _]. pose proof (ET i a (spaced_no _ (line_no a (S i) _ A))) as E.
    assert (B' : spaced (array_text (S i) (AInlineC c :: l))) by (apply (spaced_app (lit " #" ++ c)); auto). split.
    + apply (spaced_app (NL :: indent (S i) ++ elem_text (S i) a)); [now apply spaced_nl|exact B'].
    + intros e r Q. injection Q as <- <-. now split.
Qed.

Definition blank_first (b : str) : Prop := b = [] \/ exists c r, b = c :: r /\ (white c \/ c = NL \/ c = CR).
Definition ok_start (s : str) : Prop := forall m b, s = m ++ b -> m = lit "---" \/ m = lit "..." -> ~ blank_first b.
Definition fine (s : str) : Prop := forall a r, s = a ++ NL :: r -> ok_start r.
Lemma fine_forbidden s : fine s -> ~ forbidden s.
Proof. intros F (a & m & b & E & M & B). exact (F a (m ++ b) E m b eq_refl M B). Qed.
Lemma ok_sp s : ok_start (SP :: s).
Proof. intros m b E [->| ->]; discriminate E. Qed.
Lemma fine_app u t : spaced u -> fine t -> fine (u ++ t).
Proof.
  intros S T a r E. revert S a r E. induction u as [|x u IH]; intros S a r E; [now apply (T a r)|].
  destruct a as [|y a]; cbn [app] in E; injection E as -> E.
  - destruct (S [] u eq_refl) as (r' & ->). rewrite <- E. apply ok_sp.
  - apply (IH ltac:(intros a' r' ->; now apply (S (y :: a') r')) a r E).
Qed.
Lemma fine_line u t : ok_start (u ++ t) -> spaced u -> fine t -> fine (NL :: u ++ t).
Proof.
  intros O S T [|x a] r E; cbn [app] in E; injection E as E'; [now subst r|]. exact (fine_app u t S T a r H).
Qed.
Lemma fine_end : fine [NL].
Proof. intros [|x [|? ?]] r E; try discriminate E. injection E as <-. intros m b E [->| ->]; discriminate E. Qed.
Lemma ok_hash s : ok_start (chr "#" :: s).
Proof. intros m b E [->| ->]; discriminate E. Qed.
Lemma ok_dash a i t : ok_start (elem_text i a ++ NL :: t).
Proof.
  unfold elem_text. intros m b E [->| ->]; [|discriminate E]. intros _. change (lit "---") with (chr "-" :: lit "--") in E. change (lit "-") with [chr "-"] in E. cbn [app] in E. injection E as E.
  apply (aliased_first a i (Some ParArray) t (chr "-") (chr "-" :: b) E). split; [|intros [X|X]; discriminate X].
  split; [right; right; right; left; split; vm_compute; discriminate|repeat split; discriminate].
Qed.
Lemma ok_key k t : key_portable k -> ok_start (k ++ chr ":" :: t).
Proof.
  intros (P & _ & N) m b E M B. pose proof (plain_no _ _ P) as Q.
  assert (K : m = [45; 45; 45]%N \/ m = [46; 46; 46]%N) by (destruct M; subst; auto).
  destruct k as [|c1 [|c2 [|c3 [|c4 k]]]]; [inversion P|exfalso; destruct K; subst; cbn in E; congruence|exfalso; destruct K; subst; cbn in E; congruence| |].
  - destruct B as [->|(c & r & -> & B)].
    + exfalso; destruct K; subst; cbn in E; congruence.
    + assert (X : c = 58%N) by (destruct K; subst; cbn in E; congruence). subst. unfold white in B. intuition discriminate.
  - destruct B as [->|(c & r & -> & B)].
    + exfalso; destruct K; subst; cbn in E; congruence.
    + assert (X : [c1; c2; c3] = m /\ c4 = c) by (destruct K; subst; cbn in E; split; congruence). destruct X as [<- <-].
      destruct B as [B|B]; [exact (N _ c4 k M B eq_refl)|].
      inversion_clear Q as [|? ? _ Q1]. inversion_clear Q1 as [|? ? _ Q2]. inversion_clear Q2 as [|? ? _ Q3]. inversion_clear Q3 as [|? ? [Q4 Q5] _]. now destruct B.
Qed.
Lemma fine_map l : map_rows l -> forall t, fine t -> fine (hash_text 0 l ++ t).
Proof.
  induction 1 as [|c l C _ IH|k a l K A _ IH|k a c l K A C _ IH]; intros t F.
  - exact F.
  - replace (hash_text 0 (HComment c :: l) ++ t) with (NL :: (lit "#" ++ c) ++ hash_text 0 l ++ t) by (cbn; now rewrite <- !app_assoc).
    apply fine_line; [apply ok_hash| |now apply IH]. apply spaced_no. rewrite in_app_iff. intros [X|X]; [cbn in X; intuition discriminate|now apply nb_no in X].
  - replace (hash_text 0 (HElem (mkHE k a) :: l) ++ t) with (NL :: entry_text 0 (mkHE k a) ++ hash_text 0 l ++ t) by (cbn; now rewrite <- !app_assoc).
    apply fine_line; [| |now apply IH]; unfold entry_text; cbn [he_key he_value].
    + rewrite <- !app_assoc. apply ok_key; exact K.
    + apply spaced_app; [now apply spaced_no, key_no|]. apply spaced_app; [apply spaced_no; cbn; intuition discriminate|]. now apply (proj1 all_spaced).
  - replace (hash_text 0 (HElem (mkHE k a) :: HInlineC c :: l) ++ t) with (NL :: (entry_text 0 (mkHE k a) ++ lit " #" ++ c) ++ hash_text 0 l ++ t) by (cbn; rewrite <- !app_assoc; cbn; now rewrite <- ?app_assoc).
    apply fine_line; [| |now apply IH]; unfold entry_text; cbn [he_key he_value].
    + rewrite <- !app_assoc. apply ok_key; exact K.
    + apply spaced_no. rewrite !in_app_iff. intros [[X|[X|X]]|[X|X]]; try (cbn in X; intuition discriminate).
      * now apply key_no in X.
      * now apply line_no in X.
      * now apply nb_no in X.
Qed.
Lemma seq_first l t : seq_rows l -> t <> [] -> hd NL t = NL -> exists u r, array_text 0 l ++ t = u ++ NL :: r /\ u = [].
Proof.
  intros H N T. destruct H.
  - destruct t as [|x t]; [easy|]. cbn in T. subst. exists [], t. now split.
  - eexists [], _. split; reflexivity.
  - eexists [], _. split; reflexivity.
  - eexists [], _. split; reflexivity.
Qed.
Lemma fine_seq l : seq_rows l -> forall t, fine t -> t <> [] -> hd NL t = NL -> fine (array_text 0 l ++ t).
Proof.
  induction 1 as [|c l C _ IH|a l A R IH|a c l A C _ IH]; intros t F N T.
  - exact F.
  - replace (array_text 0 (AComment c :: l) ++ t) with (NL :: (lit "#" ++ c) ++ array_text 0 l ++ t) by (cbn; now rewrite <- !app_assoc).
    apply fine_line; [apply ok_hash| |now apply IH]. apply spaced_no. rewrite in_app_iff. intros [X|X]; [cbn in X; intuition discriminate|now apply nb_no in X].
  - replace (array_text 0 (AElem a :: l) ++ t) with (NL :: elem_text 0 a ++ array_text 0 l ++ t) by (cbn; now rewrite <- !app_assoc).
    apply fine_line; [| |now apply IH].
    + destruct (seq_first l t R N T) as (u & r & -> & ->). apply ok_dash.
    + unfold elem_text. apply spaced_app; [apply spaced_no; cbn; intuition discriminate|]. now apply (proj1 all_spaced).
  - replace (array_text 0 (AElem a :: AInlineC c :: l) ++ t) with (NL :: (elem_text 0 a ++ lit " #" ++ c) ++ array_text 0 l ++ t) by (cbn; rewrite <- !app_assoc; cbn; now rewrite <- ?app_assoc).
    apply fine_line; [| |now apply IH].
    + unfold elem_text. rewrite <- !app_assoc. destruct (line_wrote a 0 (Some ParArray) A) as (w & s & -> & W & NE & _).
      destruct w as [|x w]; [easy|]. inversion_clear W as [|? ? X _].
      intros m b E [->| ->]; [|discriminate E]. cbn in E. injection E as E _. destruct X; subst; discriminate.
    + unfold elem_text. apply spaced_no. rewrite !in_app_iff. intros [[X|X]|[X|X]]; try (cbn in X; intuition discriminate).
      * now apply line_no in X.
      * now apply nb_no in X.
Qed.
Lemma fine_comments cs : Forall comment_text cs -> forall t, fine t -> fine (flat_map format_docdata (map DComment cs) ++ t).
Proof.
  induction 1 as [|c cs C _ IH]; intros t F; [exact F|].
  replace (flat_map format_docdata (map DComment (c :: cs)) ++ t) with (NL :: (lit "#" ++ c) ++ flat_map format_docdata (map DComment cs) ++ t) by (cbn; now rewrite <- !app_assoc).
  apply fine_line; [apply ok_hash| |now apply IH]. apply spaced_no. rewrite in_app_iff. intros [X|X]; [cbn in X; intuition discriminate|now apply nb_no in X].
Qed.
Lemma comments_hd cs t : t <> [] -> hd NL t = NL -> let s := flat_map format_docdata (map DComment cs) ++ t in s <> [] /\ hd NL s = NL.
Proof. destruct cs; [now split|]. cbn. now split. Qed.
Lemma clines_k cs K : Forall comment_text cs -> klines 1 K -> klines 1 (clines 0 cs ++ K).
Proof.
  induction 1 as [|c cs C _ IH]; intros H; [exact H|]. cbn [clines flat_map indent]. 
  replace ((indent 0 ++ lit "#" ++ c ++ [NL]) ++ flat_map (fun c => indent 0 ++ lit "#" ++ c ++ [NL]) cs) with (spaces_ 0 ++ lit "#" ++ c ++ [NL] ++ clines 0 cs)
    by (unfold clines; now rewrite <- !app_assoc).
  rewrite <- !app_assoc. apply KL1; auto.
Qed.
Lemma leading_comments cs : Forall comment_text cs -> l_comments (flat_map (fun c => lit "#" ++ c ++ [NL]) cs).
Proof.
  induction 1 as [|c cs C _ IH]; [constructor|]. cbn [flat_map]. rewrite <- !app_assoc. now apply (LCText []).
Qed.

Theorem doc_wrote d y : portable_doc d y -> yaml_file (Node None (content_of y)) (format_doc d ++ [NL]).
Proof.
  intros [cs0 cs x cs1 C0 C C1 P S|cs0 x cs1 C0 C1 L].
  2: { unfold format_doc. cbn [leading items flat_map format_docdata]. rewrite <- !app_assoc.
    assert (K1 : klines 1 (clines 0 cs1)) by (rewrite <- (app_nil_r (clines 0 cs1)); apply clines_k; auto; constructor).
    assert (EK : flat_map format_docdata (map DComment cs1) ++ [NL] = [NL] ++ clines 0 cs1) by (rewrite doc_comments; now rewrite app_nil_r).
    destruct L as (P & _ & _). pose proof (inline_wrote x _ P 0 None) as (s & E & F & _).
    apply File; [now apply leading_comments| |].
    - rewrite EK, E. apply (BFlow 0 false [SP] _ s ([NL] ++ clines 0 cs1)); [repeat constructor|discriminate|exact F|]. now apply (end_comments 1).
    - apply fine_forbidden. apply fine_app; [|apply fine_comments; [exact C1|exact fine_end]].
      apply spaced_no. now apply (inline_no x FlowOut). }
  unfold format_doc. cbn [leading items]. rewrite <- !app_assoc.
  apply File; [now apply leading_comments| |].
  - rewrite flat_map_app. cbn [flat_map]. rewrite <- !app_assoc. cbn [format_docdata].
    assert (K1 : klines 1 (clines 0 cs1)) by (rewrite <- (app_nil_r (clines 0 cs1)); apply clines_k; auto; constructor).
    assert (EK : flat_map format_docdata (map DComment cs1) ++ [NL] = [NL] ++ clines 0 cs1) by (rewrite doc_comments; now rewrite app_nil_r).
    rewrite EK. destruct x as [l|l|l|l|ps|ps|s|ls ch|ls ch|s]; try contradiction; destruct l as [|e l]; try contradiction.
    + assert (M : map_rows (e :: l) /\ exists h, In (HElem h) (e :: l)).
      { inversion P as [? H| | |? ? ? M I|]; subst; [destruct H as [[] _]|now split]. }
      destruct M as [M I]. destruct (proj1 (proj2 all_good) _ M 0 _ K1) as [(C' & T & E & KC & ME) _].
      rewrite format_hash by discriminate. rewrite E. cbn [app]. rewrite doc_comments.
      replace (NL :: clines 0 cs ++ C' ++ T) with ([] ++ ([NL] ++ clines 0 cs ++ C') ++ T) by (cbn; now rewrite <- !app_assoc).
      apply (BMap 0 false None [] _ 0 _ T); [constructor| |lia| |exact ME].
      * apply (end_comments 1). now apply clines_k.
      * destruct I as (h & I). exact (map_nodes_in _ _ I).
    + assert (M : seq_rows (e :: l) /\ exists h, In (AElem h) (e :: l)).
      { inversion P as [? H| | | |? ? ? M I]; subst; [destruct H as [[] _]|now split]. }
      destruct M as [M I]. destruct (proj2 (proj2 all_good) _ M 0 _ K1) as [(C' & T & E & KC & ME) _].
      rewrite format_array by discriminate. rewrite E. cbn [app]. rewrite doc_comments.
      replace (NL :: clines 0 cs ++ C' ++ T) with ([] ++ ([NL] ++ clines 0 cs ++ C') ++ T) by (cbn; now rewrite <- !app_assoc).
      apply (BSeq 0 false None [] _ 0 _ T); [constructor| |lia| |exact ME].
      * apply (end_comments 1). now apply clines_k.
      * destruct I as (h & I). exact (seq_nodes_in _ _ I).
  - apply fine_forbidden. rewrite flat_map_app. cbn [flat_map]. rewrite <- !app_assoc. cbn [format_docdata].
    pose proof (fine_comments cs1 C1 [NL] fine_end) as F. destruct (comments_hd cs1 [NL]) as [H1 H2]; [discriminate|reflexivity|].
    apply fine_comments; [exact C|]. destruct x as [l|l|l|l|ps|ps|s|ls ch|ls ch|s]; try contradiction; destruct l as [|e l]; try contradiction.
    + rewrite format_hash by discriminate. apply fine_map; [|exact F]. inversion P as [? H| | |? ? ? M I|]; subst; [destruct H as [[] _]|assumption].
    + rewrite format_array by discriminate. apply fine_seq; auto. inversion P as [? H| | | |? ? ? M I]; subst; [destruct H as [[] _]|assumption].
Qed.
