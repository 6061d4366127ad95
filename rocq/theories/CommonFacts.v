(** Proofs: files in the common layout are read alike by this crate and by YAML. *)
From Coq Require Import Lia.
From Verif Require Import Base Ast Peg YamlGrammar Consume Spec_Parse Spec_Format Strings Spec_Scalar ScalarFacts Spec_Yaml12 Spec_Portable PortableFacts
  Spec_Layout LayoutTree Spec_Common.
Import ListNotations.

Scheme cflow_mut := Minimality for cflow Sort Prop
  with citems_mut := Minimality for citems Sort Prop
  with cpairs_mut := Minimality for cpairs Sort Prop.
Combined Scheme cflow_all from cflow_mut, citems_mut, cpairs_mut.
Scheme cvalue_mut := Minimality for cvalue Sort Prop
  with centries_mut := Minimality for centries Sort Prop
  with celements_mut := Minimality for celements Sort Prop.
Combined Scheme cvalue_all from cvalue_mut, centries_mut, celements_mut.

(** ---- this crate ---- *)

Lemma sp_white n : Spec_Layout.white (spaces n).
Proof. intros c I. left. induction n as [|n IH]; cbn in I; [contradiction|]. destruct I as [<-|I]; auto. Qed.
Lemma blanks_white ws : Spec_Layout.white (blank_lines ws).
Proof.
  intros c I. unfold blank_lines in I. apply in_flat_map in I as (i & _ & I). apply in_app_iff in I as [I|[<-|[]]]; [now apply sp_white in I|now right].
Qed.
Lemma white_app u w : Spec_Layout.white u -> Spec_Layout.white w -> Spec_Layout.white (u ++ w).
Proof. intros U W c I. apply in_app_iff in I as [I|I]; auto. Qed.
Lemma note_line c : note c -> one_line c.
Proof. apply nb_one_line. Qed.
Lemma notes_ok cs : notes cs -> comments_ok cs.
Proof. apply Forall_impl. intros c. apply note_line. Qed.
#[local] Hint Resolve sp_white note_line notes_ok : core.

Lemma flow_layout ut : (forall y s, cflow ut y s -> flow ut y s) /\ (forall l s, citems ut l s -> flow_items ut l s) /\ (forall l s, cpairs ut l s -> flow_pairs ut l s).
Proof.
  apply cflow_all; intros; try (constructor; auto; fail).
  - apply FRef. apply H.
  - now apply FPair with (w := spaces i) (wv := spaces (S m)) (w' := spaces n).
  - apply (FPairs ut k j v s (spaces i) (spaces (S m)) (spaces n)); auto. discriminate.
Qed.
Lemma line_layout ut y s : cline_value ut y s -> line_value ut y s.
Proof. destruct y; cbn; try apply flow_layout. intuition. Qed.
Lemma name_canon ut al : opt_name ut al -> alias_canon ut al.
Proof. destruct al; cbn; [intros []; auto|trivial]. Qed.
Lemma head_layout ut n q m al h : head ut n q m al h -> exists j a, h = spaces (S j) ++ a /\ lead ut al a /\ (q = true \/ al <> None) /\ n < m.
Proof.
  intros [j|q' a j i ws m' [A _] L].
  - exists j, []. split; [now rewrite app_nil_r|]. split; [constructor|]. split; [now left|lia].
  - exists j, (lit "&" ++ a ++ spaces i ++ [NL] ++ blank_lines ws ++ spaces m'). split; [reflexivity|]. split.
    + apply LSome; [exact A| |destruct i; discriminate]. repeat apply white_app; auto; [|apply blanks_white]. intros c [<-|[]]. now right.
    + split; [right; discriminate|exact L].
Qed.
Lemma all_layout ut : (forall t n last q x oc b s, cvalue ut t n last q x oc b s -> value ut t n last q x oc b s) /\
  (forall n l b s, centries ut n l b s -> entries ut n l b s) /\ (forall n l b s, celements ut n l b s -> elements ut n l b s).
Proof.
  apply cvalue_all.
  - intros t n last q al ja y oc j i s V A _ C. apply VLine; [now apply line_layout|now apply name_canon|]. destruct oc; cbn; [|exact I]. destruct C. auto.
  - intros t n q al ja j m lit_ ch c l ls b s first C D M _ A S F _. apply VScalar; auto.
    + inversion F; subst. now apply nb_one_line.
    + destruct C as [(C & E & _)|C]; [left; now split|now right].
    + now apply name_canon.
  - intros. apply VMap; auto.
  - intros. apply VSeq; auto.
  - intros t n last q al h k i m x oc b s H L (K & _) _ V. destruct (head_layout _ _ _ _ _ _ H) as (j & a & -> & A & Q & N).
    rewrite <- app_assoc. eapply VOne; eauto.
  - intros t n last q al h k i m x oc b1 s1 ws cs l b s H (K & _) _ V G _ _ E. destruct (head_layout _ _ _ _ _ _ H) as (j & a & -> & A & Q & N).
    rewrite <- app_assoc. eapply VMore; eauto.
  - intros t n last q al h m x oc b1 s1 ws l b s H _ V G _ E. destruct (head_layout _ _ _ _ _ _ H) as (j & a & -> & A & Q & N).
    rewrite <- app_assoc. eapply VSeqs; eauto.
  - intros n k i x oc b s (K & _) _ V. now apply ELast.
  - intros n k i x oc b1 s1 ws cs l b s (K & _) _ V G _ _ E. now eapply ECons; eauto.
  - intros n x oc b s _ V. now apply NLast.
  - intros n x oc b1 s1 ws cs l b s _ V G _ _ E. now eapply NCons; eauto.
Qed.
Lemma closing_layout n b cs z : cclosing n b cs z -> closing n b cs z.
Proof.
  induction 1 as [b|ws|b ws m c cs z B C _ IH]; [apply ZLine| |apply ZComment; auto].
  change (closing n Plain [] ([NL] ++ blank_lines ws)). rewrite <- (app_nil_r (blank_lines ws)). apply (ZBlank n ws 0).
Qed.
Theorem common_layout ut d y s : common ut d y s -> layout ut d s.
Proof.
  intros [cs0 i ws cs n y0 b s0 cs1 z A B R Z]. apply (Layout ut cs0 i ws cs n y0 b s0 cs1 z); auto; [|now apply closing_layout].
  destruct R; constructor; now apply all_layout.
Qed.

(** ---- YAML: inline nodes ---- *)

Lemma sp_eq n : spaces n = spaces_ n.
Proof. unfold spaces_. induction n; cbn; congruence. Qed.
Lemma sp_whites n : whites (spaces n).
Proof. rewrite sp_eq. apply whites_spaces. Qed.
#[local] Hint Resolve sp_whites : core.
Lemma sq_format ps : Forall sq_portable ps -> flat_map sq_text ps = flat_map Format.format_sq_part ps.
Proof. induction 1 as [|p ps P _ IH]; [reflexivity|]. cbn [flat_map]. rewrite IH. reflexivity. Qed.
Lemma dq_format ps : Forall dq_portable ps -> flat_map dq_text ps = flat_map Format.format_dq_part ps.
Proof.
  induction 1 as [|p ps P _ IH]; [reflexivity|]. cbn [flat_map]. rewrite IH. reflexivity.
Qed.
Lemma plain_out s : plain FlowIn s -> plain FlowOut s.
Proof.
  assert (T : forall p t, plain_tail FlowIn p t -> plain_tail FlowOut p t).
  { induction 1 as [| | p x t [S _] | |p x t [S _]]; [now apply PEnd|now apply PWhite|apply PChar; auto; split; [exact S|discriminate]|now apply Spec_Yaml12.PHash|apply PColon; auto; split; [exact S|discriminate]]. }
  intros [x t A B C|x y t A [B _] C]; [apply Plain1; auto|apply Plain2; auto; split; [exact B|discriminate]].
Qed.
Definition yflow (y : yaml) (s : str) : Prop := forall c, (c = FlowOut \/ c = FlowIn) -> flow_node c (Node None (content_of y)) s /\ (~ is_alias y -> flow_content c (content_of y) s).
Lemma content_yflow y s : (forall c, flow_content c (content_of y) s) -> yflow y s.
Proof. intros H c _. split; [now apply FContent|auto]. Qed.
Lemma flow_yaml ut : (forall y s, cflow ut y s -> yflow y s) /\
  (forall l s, citems ut l s -> exists i r, s = spaces i ++ r /\ flow_seq (map (fun x => Node None (content_of x)) l) r) /\
  (forall l s, cpairs ut l s -> exists i r, s = spaces i ++ r /\ flow_map (map pair_node l) r).
Proof.
  apply cflow_all.
  - intros s _ P. apply content_yflow. intros [|]; constructor; [now apply plain_out|exact P].
  - intros ps _ P. apply content_yflow. intros c. rewrite sq_format by exact P. apply Spec_Yaml12.FSingle. now apply single_parts.
  - intros ps _ P. apply content_yflow. intros c. rewrite dq_format by exact P. apply Spec_Yaml12.FDouble. now apply double_parts.
  - intros a [_ A] c _. split; [now apply FAlias|]. intros X. now destruct X.
  - intros i. apply content_yflow. intros c. rewrite <- (app_nil_r (spaces i)), <- app_assoc. apply FSequence; [auto|constructor].
  - intros l s _ (i & r & -> & R). apply content_yflow. intros c. rewrite <- app_assoc. now apply FSequence.
  - intros i. apply content_yflow. intros c. rewrite <- (app_nil_r (spaces i)), <- app_assoc. apply FMapping; [auto|constructor].
  - intros l s _ (i & r & -> & R). apply content_yflow. intros c. rewrite <- app_assoc. now apply FMapping.
  - intros y s i j _ Y. exists i, (s ++ spaces j). split; [reflexivity|]. apply FS1; [apply Y; auto|auto].
  - intros y s i j l r _ Y _ (i' & r' & -> & R). exists i, (s ++ spaces j ++ lit "," ++ spaces i' ++ r'). split; [reflexivity|]. apply FS2; auto. apply Y; auto.
  - intros k v s i j m n _ K _ Y. exists i, ((k ++ spaces j ++ lit ":" ++ spaces (S m) ++ s) ++ spaces n). split; [now rewrite <- !app_assoc|].
    apply FM1; [|auto]. apply FEntry; auto; [apply FContent; now constructor|discriminate|apply Y; auto].
  - intros k v s i j m n l r _ K _ Y _ (i' & r' & -> & R). exists i, ((k ++ spaces j ++ lit ":" ++ spaces (S m) ++ s) ++ spaces n ++ lit "," ++ spaces i' ++ r').
    split; [now rewrite <- !app_assoc|]. apply FM2; auto. apply FEntry; auto; [apply FContent; now constructor|discriminate|apply Y; auto].
Qed.
Lemma line_yaml ut y s : cline_value ut y s -> flow_node FlowOut (Node None (content_of y)) s /\ (~ is_alias y -> flow_content FlowOut (content_of y) s).
Proof.
  destruct y; cbn [cline_value]; try (intros H; apply (proj1 (flow_yaml ut) _ _ H); auto; fail).
  intros (_ & P & ->). split; [apply FContent|intros _]; now constructor.
Qed.
Lemma value_node ut al ja y s : cline_value ut y s -> opt_name ut al -> (is_alias y -> al = None) ->
  flow_node FlowOut (Node al (content_of y)) (alias_prefix al ja ++ s).
Proof.
  intros V A R. destruct (line_yaml ut y s V) as [N C]. destruct al as [a|]; [|exact N]. cbn [alias_prefix]. rewrite <- !app_assoc.
  apply FProperties; [apply A|auto|discriminate|]. apply C. intros X. now specialize (R X).
Qed.

(** ---- YAML: lines between entries ---- *)

(** What may follow a value at the indentation [n], after a line break. *)
Definition rest (b : ending) (n : nat) (G : str) : Prop := match b with Plain => l_comments G | Spec_Layout.Scalar _ => trail_comments (n + 1) G end.
Lemma trail_le a b s : a <= b -> trail_comments a s -> trail_comments b s.
Proof. intros L H. destruct H; constructor; auto; lia. Qed.
Lemma rest_le b m n G : m <= n -> rest b m G -> rest b n G.
Proof. intros L. destruct b; cbn; [trivial|]. apply trail_le. lia. Qed.
Lemma blanks_l ws r : l_comments r -> l_comments (blank_lines ws ++ r).
Proof. intros R. induction ws as [|i ws IH]; [exact R|]. cbn [blank_lines flat_map]. rewrite <- !app_assoc. now apply LCBlank. Qed.
Lemma notes_l cs r : notes cs -> l_comments r -> l_comments (comment_lines cs ++ r).
Proof.
  intros N R. induction N as [|c cs C _ IH]; [exact R|]. cbn [comment_lines flat_map]. rewrite <- !app_assoc. apply LCText; auto. now apply blanks_l.
Qed.
Lemma gap_l ws cs : notes cs -> l_comments (blank_lines ws ++ comment_lines cs).
Proof. intros N. apply blanks_l. rewrite <- (app_nil_r (comment_lines cs)). apply notes_l; [exact N|constructor]. Qed.
Lemma gap_rest n b ws cs : gap_ok n b ws cs -> notes cs -> rest b n (blank_lines ws ++ comment_lines cs).
Proof.
  intros [_ G] N. destruct b as [|e]; [now apply gap_l|]. destruct G as [-> G]. cbn [blank_lines flat_map app rest]. destruct cs as [|c cs]; [constructor|].
  cbn [comment_lines flat_map]. rewrite <- !app_assoc. rewrite sp_eq. inversion_clear N as [|? ? C N'].
  apply TC1; [lia|exact C|]. apply blanks_l. rewrite <- (app_nil_r (flat_map _ cs)). apply (notes_l cs []); [exact N'|constructor].
Qed.
Lemma gap_sl j ws cs : notes cs -> sl_comments (spaces j ++ gap ws cs).
Proof.
  intros N. unfold gap. rewrite app_assoc. apply SL; [now apply SB0|now apply gap_l].
Qed.
Lemma end_sl i oc G : match oc with Some c => 1 <= i /\ note c | None => True end -> l_comments G -> sl_comments (line_end i oc ++ [NL] ++ G).
Proof.
  intros C R. unfold line_end. destruct oc as [c|].
  - replace ((spaces i ++ lit "#" ++ c) ++ [NL] ++ G) with ((spaces i ++ lit "#" ++ c ++ [NL]) ++ G) by now rewrite <- !app_assoc.
    destruct C as [I C]. apply SL; [apply SBText; auto; destruct i; [lia|discriminate]|exact R].
  - rewrite app_nil_r, app_assoc. apply SL; [now apply SB0|exact R].
Qed.

(** ---- YAML: block scalars ---- *)

Lemma nls_content i e : content_lines i (repeat [] e) (repeat_char NL e).
Proof. induction e as [|e IH]; [constructor|]. cbn [repeat repeat_char]. apply (CLEmpty i 0 _ (repeat_char NL e)); [lia|exact IH]. Qed.
Lemma content_app i a u : content_lines i a u -> forall b v, content_lines i b v -> content_lines i (a ++ b) (u ++ v).
Proof.
  induction 1 as [|l ls s L F _ IH|j ls s J _ IH]; intros b v B; cbn [app]; [exact B| |].
  - rewrite <- !app_assoc. apply CLText; auto.
  - rewrite <- !app_assoc. apply CLEmpty; auto.
Qed.
Lemma content_split i a : forall b s, content_lines i (a ++ b) s -> exists u v, s = u ++ v /\ content_lines i a u /\ content_lines i b v.
Proof.
  induction a as [|l a IH]; intros b s H; [exists [], s; split; [reflexivity|split; [constructor|exact H]]|].
  inversion H as [|? ? t L F T|j ? t J T]; subst; destruct (IH b t T) as (u & v & -> & U & V).
  - exists (spaces_ i ++ l ++ [NL] ++ u), v. split; [now rewrite <- !app_assoc|]. split; [now apply CLText|exact V].
  - exists (spaces_ j ++ [NL] ++ u), v. split; [now rewrite <- !app_assoc|]. split; [now apply CLEmpty|exact V].
Qed.
Lemma nl_shift e s : repeat_char NL e ++ [NL] ++ s = [NL] ++ repeat_char NL e ++ s.
Proof. induction e as [|e IH]; [reflexivity|]. cbn [repeat_char app] in *. now rewrite IH. Qed.
Lemma scalar_content m ls b s : scalar_lines m ls b s -> Forall (Forall nb_char) ls ->
  exists T, (forall G, s ++ [NL] ++ G = [NL] ++ T ++ G) /\ content_lines m ls T.
Proof.
  induction 1 as [e|e l ls b s L _ IH]; intros F.
  - exists (repeat_char NL e). split; [intros G; apply nl_shift|apply nls_content].
  - apply Forall_app in F as [_ F]. inversion_clear F as [|? ? F1 F2]. destruct (IH F2) as (T & E & C).
    exists (repeat_char NL e ++ line_at m l ++ T). split.
    + intros G. rewrite <- !app_assoc, E, nl_shift. unfold line_at. rewrite sp_eq. now rewrite <- !app_assoc.
    + apply content_app; [apply nls_content|]. unfold line_at. destruct l as [|c l].
      * rewrite <- !app_assoc. now apply (CLEmpty m m).
      * rewrite <- !app_assoc. apply CLText; auto. discriminate.
Qed.
Lemma chomp_same ch : chomp_sign ch = chomping ch.
Proof. now destruct ch. Qed.
Lemma scalar_yaml k m c l ls b s G (lit_ : bool) ch : let first := c :: l in
  lines_at k m first (if ceqb c SP then lit "2" else []) -> scalar_lines m ls b s -> Forall (Forall nb_char) (first :: ls) ->
  (lit_ = false -> Forall (fun x => match x with [] => True | d :: _ => ~ Spec_Yaml12.white d end) (first :: ls)) -> trail_comments m G ->
  block_scalar k (content_of ((if lit_ then Literal else Folded) (first :: ls) ch))
    ((if lit_ then lit "|" else lit ">") ++ chomp_sign ch ++ (if ceqb c SP then lit "2" else []) ++ [NL] ++ spaces m ++ first ++ s ++ [NL] ++ G).
Proof.
  intros FST A S F W TR; subst FST. inversion F as [|? ? F1 F2]; subst. destruct (scalar_content m ls b s S F2) as (T & E & C). rewrite E.
  assert (C' : content_lines m ((c :: l) :: ls) (spaces_ m ++ (c :: l) ++ [NL] ++ T)) by (apply CLText; auto; discriminate).
  destruct (split_empties (c :: l) ls ltac:(discriminate)) as (bb & n & Els & B).
  assert (E' : (c :: l) :: ls = ((c :: l) :: bb) ++ repeat [] n) by now rewrite Els.
  rewrite E' in C'. destruct (content_split m _ _ _ C') as (u & v & EU & U & V).
  assert (ET : spaces m ++ (c :: l) ++ [NL] ++ T ++ G = u ++ v ++ G).
  { rewrite (app_assoc u), <- EU. rewrite sp_eq. now rewrite <- !app_assoc. }
  rewrite ET, chomp_same. rewrite (app_assoc (chomping ch)). pose proof F as F0. rewrite E' in F0. apply Forall_app in F0 as [FA _].
  assert (OL : Forall one_line ((c :: l) :: bb)) by (eapply Forall_impl; [|exact FA]; apply nb_one_line).
  destruct lit_.
  - cbn [content_of]. rewrite E'. rewrite literal_value; [|discriminate|exact OL|exact B].
    eapply BLiteral; [exact A|right; reflexivity|apply (SB0 []); auto; constructor|exact U|discriminate|exact B|exact V|exact TR].
  - assert (SO : Forall soft ((c :: l) :: bb)).
    { specialize (W eq_refl). rewrite E' in W. apply Forall_app in W as [W _]. clear - FA W. induction FA as [|x xs X _ IH]; [constructor|].
      inversion W as [|? ? W1 W2]; subst. constructor; [|now apply IH]. destruct x as [|d x]; [exact I|]. inversion X; subst. now split. }
    inversion SO as [|? ? S1 S2]; subst. destruct (fold_exists (length bb) bb (le_n _) c l S1 S2 B) as (w & V1 & V2).
    cbn [content_of]. rewrite E'. rewrite (folded_value _ w n ch V2) by exact OL.
    eapply BFolded; [exact A|right; reflexivity|apply (SB0 []); constructor|exact U|exact V1|exact V|exact TR].
Qed.

(** ---- YAML: collections ---- *)

Definition placed (q : bool) (n : nat) (x : node) (s : str) : Prop := if q then indented n x s else block_node (n + 1) true x s.
Lemma block_placed q n x s : (forall out, block_node (n + 1) out x s) -> placed q n x s.
Proof. intros H. destruct q; [now apply BNode|apply H]. Qed.
Lemma head_map ut n q m al h e r se t : head ut n q m al h -> map_entry m e se -> map_entries m r t ->
  placed q n (Node al (Mapping (e :: r))) (h ++ se ++ t).
Proof.
  intros [j|q' a j i ws m' [_ A] L] E R.
  - cbn [placed]. rewrite sp_eq. replace (n + 2 + j) with (n + 1 + S j) in * by lia. now apply BCompactMap.
  - apply block_placed. intros out. replace ((spaces (S j) ++ lit "&" ++ a ++ spaces i ++ [NL] ++ blank_lines ws ++ spaces m') ++ se ++ t)
      with ((spaces (S j) ++ lit "&" ++ a) ++ (spaces i ++ gap ws []) ++ spaces_ m' ++ se ++ t)
      by (unfold gap; cbn [comment_lines flat_map]; rewrite app_nil_r, sp_eq; now rewrite <- !app_assoc).
    apply (BMap (n + 1) out (Some a) _ _ m'); [apply Pr1; auto; discriminate|apply gap_sl; constructor|lia|discriminate|now apply BM1].
Qed.
Lemma head_seq ut n q m al h e r se t : head ut n q m al h -> seq_entry m e se -> seq_entries m r t ->
  placed q n (Node al (Sequence (e :: r))) (h ++ se ++ t).
Proof.
  intros [j|q' a j i ws m' [_ A] L] E R.
  - cbn [placed]. rewrite sp_eq. replace (n + 2 + j) with (n + 1 + S j) in * by lia. now apply BCompactSeq.
  - apply block_placed. intros out. replace ((spaces (S j) ++ lit "&" ++ a ++ spaces i ++ [NL] ++ blank_lines ws ++ spaces m') ++ se ++ t)
      with ((spaces (S j) ++ lit "&" ++ a) ++ (spaces i ++ gap ws []) ++ spaces_ m' ++ se ++ t)
      by (unfold gap; cbn [comment_lines flat_map]; rewrite app_nil_r, sp_eq; now rewrite <- !app_assoc).
    apply (BSeq (n + 1) out (Some a) _ _ m'); [apply Pr1; auto; discriminate|apply gap_sl; constructor|destruct out; lia|discriminate|now apply BS1].
Qed.
Lemma hcomments_nodes cs l : map_nodes (hcomments_of cs ++ l) = map_nodes l.
Proof. unfold map_nodes. rewrite flat_map_app. induction cs; [reflexivity|]. exact IHcs. Qed.
Lemma acomments_nodes cs l : seq_nodes (acomments_of cs ++ l) = seq_nodes l.
Proof. unfold seq_nodes. rewrite flat_map_app. induction cs; [reflexivity|]. exact IHcs. Qed.
Lemma entry_nodes k x oc l : map_nodes (HElem (mkHE k x) :: entry_comment oc ++ l) = (Node None (Spec_Yaml12.Scalar true k), node_of x) :: map_nodes l.
Proof. destruct x, oc; reflexivity. Qed.
Lemma element_nodes x oc l : seq_nodes (AElem x :: element_comment oc ++ l) = node_of x :: seq_nodes l.
Proof. destruct x, oc; reflexivity. Qed.

Definition soft_first (s : str) : Prop := exists c r, s = c :: r /\ (c = SP \/ c = NL).
Lemma soft_first_ok s : soft_first s -> forall c r, s = c :: r -> ~ ns_char c.
Proof. intros (c & r & -> & C) d t E [(_ & N & _) W]. injection E as <- <-. destruct C as [->| ->]; [apply W; now left|now apply N]. Qed.
Lemma head_first ut n q m al h s : head ut n q m al h -> soft_first (h ++ s).
Proof. intros []; eexists _, _; (split; [reflexivity|now left]). Qed.
Lemma value_first ut t n last q x oc b s G : cvalue ut t n last q x oc b s -> soft_first (s ++ G).
Proof.
  intros H. destruct H; try (eexists _, _; split; [reflexivity|now left]); try (rewrite <- app_assoc; eapply head_first; eassumption).
  - destruct j; eexists _, _; (split; [reflexivity|auto]).
  - destruct j; eexists _, _; (split; [reflexivity|auto]).
Qed.
Lemma nodes_some n l b s ut : centries ut n l b s -> map_nodes l <> [].
Proof. intros []; [destruct x, oc; discriminate|]. rewrite entry_nodes. discriminate. Qed.
Lemma seq_some n l b s ut : celements ut n l b s -> seq_nodes l <> [].
Proof. intros []; [destruct x, oc; discriminate|]. rewrite element_nodes. discriminate. Qed.
Lemma key_entry ut m k i x s : both_key ut k i -> placed false m x s -> map_entry m (Node None (Spec_Yaml12.Scalar true k), x) (k ++ spaces i ++ lit ":" ++ s).
Proof. intros (_ & P & L) H. now apply BPair. Qed.

Lemma all_yaml ut : (forall t n last q x oc b s, cvalue ut t n last q x oc b s -> t <= n -> forall G, rest b n G -> placed q n (node_of x) (s ++ [NL] ++ G)) /\
  (forall n l b s, centries ut n l b s -> forall G, rest b n G -> map_entries n (map_nodes l) (spaces_ n ++ s ++ [NL] ++ G)) /\
  (forall n l b s, celements ut n l b s -> forall G, rest b n G -> seq_entries n (seq_nodes l) (spaces_ n ++ s ++ [NL] ++ G)).
Proof.
  apply cvalue_all.
  - intros t n last q al ja y oc j i s V A R C _ G HG. apply block_placed. intros out. rewrite <- !app_assoc.
    rewrite (app_assoc (alias_prefix al ja)). apply BFlow; [auto|discriminate|eapply value_node; eauto|now apply end_sl].
  - intros t n q al ja j m lit_ ch c l ls b s first C D M N A S F W TN G HG. apply block_placed. intros out. cbn [node_of].
    assert (B : block_scalar (n + 1) (content_of ((if lit_ then Literal else Folded) (first :: ls) ch))
      ((if lit_ then lit "|" else lit ">") ++ chomp_sign ch ++ (if ceqb c SP then lit "2" else []) ++ [NL] ++ spaces m ++ first ++ s ++ [NL] ++ G)).
    { eapply scalar_yaml; eauto.
      - destruct C as [(-> & -> & ->)|C].
        + apply (Given (t + 1) (t + 2) (SP :: l) 2); lia.
        + assert (X : ceqb c SP = false) by (unfold ceqb; apply N.eqb_neq; intros ->; discriminate C). rewrite X. apply Detected; [lia|].
          intros r E. injection E as E _. subst c. discriminate C.
      - eapply trail_le; [|exact HG]. lia. }
    rewrite <- !app_assoc. destruct al as [a|]; cbn [alias_prefix].
    + match goal with |- block_node _ _ _ ?z => assert (Z : z = (spaces (Datatypes.S j) ++ lit "&" ++ a) ++ spaces (Datatypes.S ja) ++
        (if lit_ then lit "|" else lit ">") ++ chomp_sign ch ++ (if ceqb c SP then lit "2" else []) ++ [NL] ++ spaces m ++ first ++ s ++ [NL] ++ G)
        by (now rewrite <- !app_assoc); rewrite Z; clear Z end.
      apply BScalar; [apply Pr1; auto; [apply A|discriminate]|auto|discriminate|]. exact B.
    + apply (BScalar (n + 1) out None [] (spaces (Datatypes.S j))); [constructor|auto|discriminate|exact B].
  - intros t n last q j ws cs m l b s L Q J N E IH TN G HG. apply block_placed. intros out. cbn [node_of].
    change (content_of (Hash (hcomments_of cs ++ l))) with (Mapping (map_nodes (hcomments_of cs ++ l))). rewrite hcomments_nodes.
    replace ((spaces j ++ gap ws cs ++ spaces m ++ s) ++ [NL] ++ G) with ([] ++ (spaces j ++ gap ws cs) ++ spaces_ m ++ s ++ [NL] ++ G)
      by (rewrite <- (sp_eq m); cbn [app]; now rewrite <- !app_assoc).
    apply (BMap (n + 1) out None [] _ m); [constructor|now apply gap_sl|lia|eapply nodes_some; eauto|]. apply IH. eapply rest_le; [|exact HG]. lia.
  - intros t n last q j ws cs m l b s L Q J N E IH TN G HG. cbn [node_of].
    change (content_of (Array (acomments_of cs ++ l))) with (Sequence (seq_nodes (acomments_of cs ++ l))). rewrite acomments_nodes.
    replace ((spaces j ++ gap ws cs ++ spaces m ++ s) ++ [NL] ++ G) with ([] ++ (spaces j ++ gap ws cs) ++ spaces_ m ++ s ++ [NL] ++ G)
      by (rewrite <- (sp_eq m); cbn [app]; now rewrite <- !app_assoc).
    assert (H : forall out, (out = true \/ n < m) -> block_node (n + 1) out (Node None (Sequence (seq_nodes l))) ([] ++ (spaces j ++ gap ws cs) ++ spaces_ m ++ s ++ [NL] ++ G)).
    { intros out O. apply (BSeq (n + 1) out None [] _ m); [constructor|now apply gap_sl|destruct out; [lia|destruct O; [discriminate|lia]]|eapply seq_some; eauto|].
      apply IH. eapply rest_le; [|exact HG]. lia. }
    destruct q; [apply BNode, H; right; now apply Q|apply H; now left].
  - intros t n last q al h k i m x oc b s H L K V IH TN G HG. cbn [node_of].
    change (content_of (Hash (HElem (mkHE k x) :: entry_comment oc))) with (Mapping (map_nodes (HElem (mkHE k x) :: entry_comment oc))).
    rewrite <- (app_nil_r (entry_comment oc)), entry_nodes. destruct (head_layout _ _ _ _ _ _ H) as (_ & _ & _ & _ & _ & NM).
    replace ((h ++ k ++ spaces i ++ lit ":" ++ s) ++ [NL] ++ G) with (h ++ (k ++ spaces i ++ lit ":" ++ s ++ [NL] ++ G) ++ []) by (rewrite app_nil_r; now rewrite <- !app_assoc).
    eapply head_map; [exact H| |constructor]. eapply key_entry; [exact K|]. apply IH; [lia|]. eapply rest_le; [|exact HG]. lia.
  - intros t n last q al h k i m x oc b1 s1 ws cs l b s H K V IH GO N E IHE TN G HG. cbn [node_of].
    change (content_of (Hash (HElem (mkHE k x) :: entry_comment oc ++ hcomments_of cs ++ l))) with (Mapping (map_nodes (HElem (mkHE k x) :: entry_comment oc ++ hcomments_of cs ++ l))).
    rewrite entry_nodes, hcomments_nodes. destruct (head_layout _ _ _ _ _ _ H) as (_ & _ & _ & _ & _ & NM).
    replace ((h ++ k ++ spaces i ++ lit ":" ++ s1 ++ gap ws cs ++ spaces m ++ s) ++ [NL] ++ G)
      with (h ++ (k ++ spaces i ++ lit ":" ++ s1 ++ [NL] ++ blank_lines ws ++ comment_lines cs) ++ spaces_ m ++ s ++ [NL] ++ G)
      by (unfold gap; rewrite <- (sp_eq m); now rewrite <- !app_assoc).
    eapply head_map; [exact H| |apply IHE; eapply rest_le; [|exact HG]; lia]. eapply key_entry; [exact K|]. apply IH; [lia|]. now apply gap_rest.
  - intros t n last q al h m x oc b1 s1 ws l b s H V IH GO E IHE TN G HG. cbn [node_of].
    change (content_of (Array (AElem x :: element_comment oc ++ l))) with (Sequence (seq_nodes (AElem x :: element_comment oc ++ l))).
    rewrite element_nodes. destruct (head_layout _ _ _ _ _ _ H) as (_ & _ & _ & _ & _ & NM).
    replace ((h ++ lit "-" ++ s1 ++ gap ws [] ++ spaces m ++ s) ++ [NL] ++ G)
      with (h ++ (lit "-" ++ s1 ++ [NL] ++ blank_lines ws ++ comment_lines []) ++ spaces_ m ++ s ++ [NL] ++ G)
      by (unfold gap; rewrite <- (sp_eq m); now rewrite <- !app_assoc).
    eapply head_seq; [exact H| |apply IHE; eapply rest_le; [|exact HG]; lia]. apply BEntry; [apply (IH ltac:(lia)); apply gap_rest; [exact GO|constructor]|].
    apply soft_first_ok. eapply value_first; exact V.
  - intros n k i x oc b s K V IH G HG. rewrite <- (app_nil_r (entry_comment oc)), entry_nodes.
    replace (spaces_ n ++ (k ++ spaces i ++ lit ":" ++ s) ++ [NL] ++ G) with (spaces_ n ++ (k ++ spaces i ++ lit ":" ++ s ++ [NL] ++ G) ++ []) by (rewrite app_nil_r; now rewrite <- !app_assoc).
    apply BM1; [|constructor]. eapply key_entry; [exact K|]. now apply IH.
  - intros n k i x oc b1 s1 ws cs l b s K V IH GO N E IHE G HG. rewrite entry_nodes, hcomments_nodes.
    replace (spaces_ n ++ (k ++ spaces i ++ lit ":" ++ s1 ++ gap ws cs ++ spaces n ++ s) ++ [NL] ++ G)
      with (spaces_ n ++ (k ++ spaces i ++ lit ":" ++ s1 ++ [NL] ++ blank_lines ws ++ comment_lines cs) ++ spaces_ n ++ s ++ [NL] ++ G)
      by (unfold gap; rewrite <- (sp_eq n); now rewrite <- !app_assoc).
    apply BM1; [|now apply IHE]. eapply key_entry; [exact K|]. apply IH; [lia|]. now apply gap_rest.
  - intros n x oc b s V IH G HG. rewrite <- (app_nil_r (element_comment oc)), element_nodes.
    replace (spaces_ n ++ (lit "-" ++ s) ++ [NL] ++ G) with (spaces_ n ++ (lit "-" ++ s ++ [NL] ++ G) ++ []) by (rewrite app_nil_r; now rewrite <- !app_assoc).
    apply BS1; [|constructor]. apply BEntry; [now apply IH|]. apply soft_first_ok. eapply value_first; exact V.
  - intros n x oc b1 s1 ws cs l b s V IH GO N E IHE G HG. rewrite element_nodes, acomments_nodes.
    replace (spaces_ n ++ (lit "-" ++ s1 ++ gap ws cs ++ spaces n ++ s) ++ [NL] ++ G)
      with (spaces_ n ++ (lit "-" ++ s1 ++ [NL] ++ blank_lines ws ++ comment_lines cs) ++ spaces_ n ++ s ++ [NL] ++ G)
      by (unfold gap; rewrite <- (sp_eq n); now rewrite <- !app_assoc).
    apply BS1; [|now apply IHE]. apply BEntry; [apply (IH (le_n _)); now apply gap_rest|]. apply soft_first_ok. eapply value_first; exact V.
Qed.

(** ---- no line is a document marker ---- *)

Lemma sp_no n : ~ In NL (spaces n).
Proof. induction n as [|n IH]; cbn; [easy|]. intros [H|H]; [discriminate|auto]. Qed.
Lemma no_app u w : ~ In NL u -> ~ In NL w -> ~ In NL (u ++ w).
Proof. intros U W I. apply in_app_iff in I as [I|I]; auto. Qed.
Lemma lit1_no c : c <> NL -> ~ In NL [c].
Proof. intros C [H|[]]. congruence. Qed.
Lemma anchor_no a : anchor_name a -> ~ In NL a.
Proof. intros [_ A]. now apply ns_no. Qed.
Lemma plain_nl c s : plain c s -> ~ In NL s.
Proof. intros P. apply Forall_no. eapply plain_no; eauto. Qed.
Lemma dq_no ps : Forall dq_portable ps -> ~ In NL (flat_map dq_text ps).
Proof.
  intros F I. apply in_flat_map in I as (p & P & I). rewrite Forall_forall in F. apply F in P. destruct p as [s|e| |]; cbn in P, I; try contradiction.
  - rewrite Forall_forall in P. apply P in I. destruct I as [[I|[I _]] _]; [discriminate I|now apply I].
  - destruct I as [I|[I|[]]]; [discriminate I|]. destruct e; try discriminate I. now apply P.
Qed.
Lemma sq_no ps : Forall sq_portable ps -> ~ In NL (flat_map sq_text ps).
Proof.
  intros F I. apply in_flat_map in I as (p & P & I). rewrite Forall_forall in F. apply F in P. destruct p as [s| | |]; cbn in P, I; try contradiction.
  - rewrite Forall_forall in P. apply P in I. destruct I as [[I|[I _]] _]; [discriminate I|now apply I].
  - destruct I as [I|[I|[]]]; discriminate I.
Qed.
Ltac no_t := repeat apply no_app; try apply sp_no; try (apply lit1_no; discriminate); auto.
Lemma flow_no ut : (forall y s, cflow ut y s -> ~ In NL s) /\ (forall l s, citems ut l s -> ~ In NL s) /\ (forall l s, cpairs ut l s -> ~ In NL s).
Proof.
  apply cflow_all; intros; no_t; try (eapply plain_nl; eassumption).
  - now apply sq_no.
  - now apply dq_no.
  - apply anchor_no, H.
Qed.
Lemma cline_no ut y s : cline_value ut y s -> ~ In NL s.
Proof. destruct y; cbn [cline_value]; try (apply flow_no; fail). intros (_ & P & ->). eapply plain_nl; eauto. Qed.

Definition goodl (s : str) : Prop := ok_start s /\ fine s.
Lemma ok_nil : ok_start [].
Proof. intros m b E [->| ->]; discriminate E. Qed.
Lemma ok_nl s : ok_start (NL :: s).
Proof. intros m b E [->| ->]; discriminate E. Qed.
Lemma fine_nil : fine [].
Proof. intros [|] r E; discriminate E. Qed.
Lemma goodl_nil : goodl [].
Proof. split; [apply ok_nil|apply fine_nil]. Qed.
Lemma fine_skip u t : ~ In NL u -> fine t -> fine (u ++ t).
Proof. intros N. apply fine_app. now apply spaced_no. Qed.
Lemma fine_nl t : goodl t -> fine (NL :: t).
Proof. intros [O F]. apply (fine_line [] t); [exact O|apply spaced_no; easy|exact F]. Qed.
Lemma ok_spaces n s : ok_start s -> ok_start (spaces n ++ s).
Proof. intros H. destruct n; [exact H|]. cbn. apply ok_sp. Qed.
Lemma blanks_good ws r : goodl r -> goodl (blank_lines ws ++ r).
Proof.
  intros R. induction ws as [|i ws IH]; [exact R|]. cbn [blank_lines flat_map]. rewrite <- !app_assoc. split.
  - apply ok_spaces, ok_nl.
  - apply fine_skip; [apply sp_no|]. now apply fine_nl.
Qed.
Lemma note_good i c r : note c -> goodl r -> goodl (spaces i ++ lit "#" ++ c ++ [NL] ++ r).
Proof.
  intros C R. split; [apply ok_spaces, ok_hash|]. apply fine_skip; [apply sp_no|]. apply (fine_skip (lit "#")); [apply lit1_no; discriminate|].
  apply fine_skip; [now apply nb_no|]. now apply fine_nl.
Qed.
Lemma notes_good cs r : notes cs -> goodl r -> goodl (comment_lines cs ++ r).
Proof.
  intros N R. induction N as [|c cs C _ IH]; [exact R|]. cbn [comment_lines flat_map]. rewrite <- !app_assoc. apply note_good; [exact C|]. now apply blanks_good.
Qed.
Lemma gap_fine ws cs r : notes cs -> goodl r -> fine (gap ws cs ++ r).
Proof. intros N R. unfold gap. rewrite <- !app_assoc. apply fine_nl. apply blanks_good. now apply notes_good. Qed.
Lemma content_good m ls s : 0 < m -> content_lines m ls s -> forall r, goodl r -> goodl (s ++ r).
Proof.
  intros M. induction 1 as [|l ls s L F _ IH|j ls s J _ IH]; intros r R; [exact R| |]; rewrite <- !app_assoc.
  - split; [destruct m; [lia|]; apply ok_sp|]. rewrite <- sp_eq. apply fine_skip; [apply sp_no|]. apply fine_skip; [now apply nb_no|]. apply fine_nl. now apply IH.
  - rewrite <- sp_eq. split; [apply ok_spaces, ok_nl|]. apply fine_skip; [apply sp_no|]. apply fine_nl. now apply IH.
Qed.
Lemma key_start ut k i r : both_key ut k i -> ok_start (k ++ r) /\ ~ In NL k.
Proof.
  intros (((c & k' & -> & N) & _) & P & _). split; [|eapply plain_nl; exact P].
  intros m b E [->| ->]; injection E as -> _; destruct N as [N|[N|N]]; discriminate N.
Qed.
Lemma key_fine ut k i s : both_key ut k i -> fine s -> fine (k ++ spaces i ++ lit ":" ++ s).
Proof.
  intros K F. destruct (key_start ut k i [] K) as [_ N]. apply fine_skip; [exact N|]. apply fine_skip; [apply sp_no|]. apply (fine_skip (lit ":")); [apply lit1_no; discriminate|exact F].
Qed.
Lemma head_fine ut n q m al h s : head ut n q m al h -> fine s -> ok_start (spaces m ++ s) -> fine (h ++ s).
Proof.
  intros [j|q' a j i ws m' [_ A] L] F O; [apply fine_skip; [apply sp_no|exact F]|].
  rewrite <- !app_assoc. apply fine_skip; [apply sp_no|]. apply (fine_skip (lit "&")); [apply lit1_no; discriminate|]. apply fine_skip; [now apply anchor_no|].
  apply fine_skip; [apply sp_no|]. apply fine_nl. apply blanks_good. split; [exact O|]. apply fine_skip; [apply sp_no|exact F].
Qed.
Lemma dash_start s : soft_first s -> ok_start (lit "-" ++ s).
Proof.
  intros (c & r & -> & C) m b E [->| ->]; [|discriminate E]. cbn in E. injection E as E _. destruct C; subst; discriminate.
Qed.
Lemma all_fine ut : (forall t n last q x oc b s, cvalue ut t n last q x oc b s -> forall T, goodl T -> fine (s ++ [NL] ++ T)) /\
  (forall n l b s, centries ut n l b s -> forall T, goodl T -> goodl (spaces n ++ s ++ [NL] ++ T)) /\
  (forall n l b s, celements ut n l b s -> forall T, goodl T -> goodl (spaces n ++ s ++ [NL] ++ T)).
Proof.
  assert (NAME : forall al ja, opt_name ut al -> ~ In NL (alias_prefix al ja)).
  { intros [a|] ja A; [|easy]. cbn [alias_prefix]. no_t. apply anchor_no, A. }
  apply cvalue_all.
  - intros t n last q al ja y oc j i s V A _ C T HT. rewrite <- !app_assoc. apply fine_skip; [apply sp_no|]. apply fine_skip; [now apply NAME|].
    apply fine_skip; [eapply cline_no; eauto|]. apply fine_skip; [|now apply fine_nl]. unfold line_end. apply no_app; [apply sp_no|]. destruct oc as [c|]; [|easy].
    apply no_app; [apply lit1_no; discriminate|]. apply nb_no, C.
  - intros t n q al ja j m lit_ ch c l ls b s first C D M N A S F W T HT. inversion F as [|? ? F1 F2]; subst.
    destruct (scalar_content m ls b s S F2) as (z & E & Z). rewrite <- !app_assoc. rewrite E.
    apply fine_skip; [apply sp_no|]. apply fine_skip; [now apply NAME|]. apply fine_skip; [destruct lit_; apply lit1_no; discriminate|].
    apply fine_skip; [destruct ch; cbn; [easy|apply lit1_no; discriminate|apply lit1_no; discriminate]|].
    apply fine_skip; [destruct (ceqb c SP); [apply lit1_no; discriminate|easy]|]. apply fine_nl. split; [destruct m; [lia|]; apply ok_sp|].
    apply fine_skip; [apply sp_no|]. apply (fine_skip first); [now apply nb_no|]. apply fine_nl. eapply content_good; [|exact Z|exact HT]. lia.
  - intros t n last q j ws cs m l b s L Q J N E IH T HT. rewrite <- !app_assoc. apply fine_skip; [apply sp_no|]. apply gap_fine; [exact N|]. now apply IH.
  - intros t n last q j ws cs m l b s L Q J N E IH T HT. rewrite <- !app_assoc. apply fine_skip; [apply sp_no|]. apply gap_fine; [exact N|]. now apply IH.
  - intros t n last q al h k i m x oc b s H L K V IH T HT. rewrite <- !app_assoc. eapply head_fine; [exact H| |].
    + eapply key_fine; [exact K|]. now apply IH.
    + apply ok_spaces. eapply key_start; exact K.
  - intros t n last q al h k i m x oc b1 s1 ws cs l b s H K V IH GO N E IHE T HT. rewrite <- !app_assoc. eapply head_fine; [exact H| |].
    + eapply key_fine; [exact K|]. unfold gap. rewrite <- !app_assoc. apply IH. apply blanks_good. apply notes_good; [exact N|]. now apply IHE.
    + apply ok_spaces. eapply key_start; exact K.
  - intros t n last q al h m x oc b1 s1 ws l b s H V IH GO E IHE T HT. rewrite <- !app_assoc. eapply head_fine; [exact H| |].
    + apply (fine_skip (lit "-")); [apply lit1_no; discriminate|]. unfold gap. rewrite <- !app_assoc. apply IH. apply blanks_good. apply (notes_good []); [constructor|]. now apply IHE.
    + apply ok_spaces. apply dash_start. eapply value_first; exact V.
  - intros n k i x oc b s K V IH T HT. rewrite <- !app_assoc. split; [apply ok_spaces; eapply key_start; exact K|]. apply fine_skip; [apply sp_no|]. eapply key_fine; [exact K|]. now apply IH.
  - intros n k i x oc b1 s1 ws cs l b s K V IH GO N E IHE T HT. rewrite <- !app_assoc. split; [apply ok_spaces; eapply key_start; exact K|]. apply fine_skip; [apply sp_no|].
    eapply key_fine; [exact K|]. unfold gap. rewrite <- !app_assoc. apply IH. apply blanks_good. apply notes_good; [exact N|]. now apply IHE.
  - intros n x oc b s V IH T HT. rewrite <- !app_assoc. split; [apply ok_spaces, dash_start; eapply value_first; exact V|]. apply fine_skip; [apply sp_no|].
    apply (fine_skip (lit "-")); [apply lit1_no; discriminate|]. now apply IH.
  - intros n x oc b1 s1 ws cs l b s V IH GO N E IHE T HT. rewrite <- !app_assoc. split; [apply ok_spaces, dash_start; eapply value_first; exact V|]. apply fine_skip; [apply sp_no|].
    apply (fine_skip (lit "-")); [apply lit1_no; discriminate|]. unfold gap. rewrite <- !app_assoc. apply IH. apply blanks_good. apply notes_good; [exact N|]. now apply IHE.
Qed.

(** ---- files ---- *)

Lemma closing_yaml n b cs z : cclosing n b cs z -> exists G, z = [NL] ++ G /\ rest b n G /\ goodl G.
Proof.
  induction 1 as [b|ws|b ws m c cs z B C _ (G & -> & R & F)].
  - exists []. split; [reflexivity|]. split; [destruct b; constructor|apply goodl_nil].
  - exists (blank_lines ws). split; [reflexivity|]. split.
    + cbn [rest]. rewrite <- (app_nil_r (blank_lines ws)). apply blanks_l. constructor.
    + rewrite <- (app_nil_r (blank_lines ws)). apply blanks_good, goodl_nil.
  - exists (blank_lines ws ++ spaces m ++ lit "#" ++ c ++ [NL] ++ G). split; [reflexivity|]. split.
    + destruct b as [|e]; cbn [rest].
      * apply blanks_l. apply LCText; auto.
      * destruct B as [-> B]; [discriminate|]. cbn [blank_lines flat_map app]. rewrite sp_eq. apply TC1; auto. lia.
    + apply blanks_good. now apply note_good.
Qed.
Theorem common_yaml ut d y s : common ut d y s -> yaml_file (Node None (content_of y)) s.
Proof.
  intros [cs0 i ws cs n y0 b s0 cs1 z A B R Z]. destruct (closing_yaml _ _ _ _ Z) as (G & -> & HG & FG).
  apply File; [rewrite <- (app_nil_r (comment_lines cs0)); apply notes_l; [exact A|constructor]| |].
  - replace (spaces i ++ gap ws cs ++ spaces n ++ s0 ++ [NL] ++ G) with ([] ++ (spaces i ++ gap ws cs) ++ spaces_ n ++ s0 ++ [NL] ++ G)
      by (rewrite <- (sp_eq n); cbn [app]; now rewrite <- !app_assoc).
    destruct R as [n l b s0 E|n l b s0 E].
    + apply (BMap 0 false None [] _ n (map_nodes l)); [constructor|now apply gap_sl|lia|eapply nodes_some; eauto|]. now apply (proj1 (proj2 (all_yaml ut)) n l b).
    + apply (BSeq 0 false None [] _ n (seq_nodes l)); [constructor|now apply gap_sl|cbn; lia|eapply seq_some; eauto|]. now apply (proj2 (proj2 (all_yaml ut)) n l b).
  - apply fine_forbidden. apply fine_skip; [apply sp_no|]. apply gap_fine; [exact B|].
    destruct R as [n l b s0 E|n l b s0 E]; [now apply (proj1 (proj2 (all_fine ut)) n l b)|now apply (proj2 (proj2 (all_fine ut)) n l b)].
Qed.
Theorem common_both ut d y s : common ut d y s -> parse_yaml ut s = CVal d /\ yaml_file (Node None (content_of y)) s.
Proof. intros C. split; [now apply layout_parse, (common_layout ut d y)|now apply (common_yaml ut d)]. Qed.
