(** C90: a text has one reading by the rules of [Spec_Yaml12]; block nodes and files. *)
From Verif Require Import Base Ast Spec_Scalar Spec_Yaml12 PlainFacts UniqueFlow.
From Coq Require Import Lia.
Import ListNotations.

(** ---- lines ---- *)

Definition entry_head (h : char) : Prop := ~ white h /\ h <> NL /\ h <> chr "#".
(** Nothing, or a line that is no comment, with less than [n] spaces before it. *)
Definition next (n : nat) (r : str) : Prop := r = [] \/ exists j h q, r = spaces_ j ++ h :: q /\ j < n /\ entry_head h.
(** No entry of a sequence at the indentation [i]. *)
Definition nodash (i : nat) (r : str) : Prop := forall q, r = spaces_ i ++ chr "-" :: q -> exists c q', q = c :: q' /\ ns_char c.

Lemma next_le a b r : a <= b -> next a r -> next b r.
Proof. intros L [H|(j & h & q & E & J & H)]; [now left|right; exists j, h, q; repeat split; try assumption; [lia|apply H..]]. Qed.
Lemma spaces_all n : Forall (eq SP) (spaces_ n).
Proof. induction n; cbn; constructor; [reflexivity|assumption]. Qed.
Lemma spaces_white n : whites (spaces_ n).
Proof. eapply Forall_impl; [|apply spaces_all]. intros ? <-. ch. Qed.
Lemma spaces_span j j' x x' : off (eq SP) x -> off (eq SP) x' -> spaces_ j ++ x = spaces_ j' ++ x' -> j = j' /\ x = x'.
Proof.
  intros O O' E. apply span with (P := eq SP) in E; try apply spaces_all; try assumption. destruct E as [E ->]. split; [|reflexivity].
  apply (f_equal (@length char)) in E. unfold spaces_ in E. now rewrite !repeat_length in E.
Qed.
Lemma nowhite_sp h : ~ white h -> SP <> h. Proof. intros H <-. apply H. ch. Qed.
Lemma spaces_lt j i h q x : j < i -> h <> SP -> spaces_ j ++ h :: q = spaces_ i ++ x -> False.
Proof.
  revert i; induction j as [|j IH]; intros [|i] L N E; try lia; cbn in E.
  - injection E as -> _. contradiction.
  - injection E as E. apply (IH i); [lia|assumption|exact E].
Qed.
Lemma next_dash a i r : next a r -> a <= i -> nodash i r.
Proof.
  intros [->|(j & h & q & -> & J & H)] L q' E.
  - destruct i; discriminate E.
  - exfalso. eapply (spaces_lt j i h q _); [lia|intros ->; apply (proj1 H); ch|exact E].
Qed.

(** ---- comments ---- *)

Lemma nb_span c c' x x' : Forall nb_char c -> Forall nb_char c' -> c ++ NL :: x = c' ++ NL :: x' -> c = c' /\ x = x'.
Proof.
  intros C C' E. apply span with (P := nb_char) in E; try assumption; try (cbn; intros (_ & H & _); now apply H).
  destruct E as [-> E]. injection E as ->. now split.
Qed.
Lemma hash_white : ~ white (chr "#"). Proof. ch. Qed.
Lemma sb_one a a' r r' : sb_comment a -> sb_comment a' -> a ++ r = a' ++ r' -> r = r'.
Proof.
  intros H H' E. destruct H as [w W|w c W N C], H' as [w' W'|w' c' W' N' C']; rewrite <- ?app_assoc in E; cbn [app] in E;
    apply span with (P := white) in E; try assumption; try (cbn [off app lit]; ch); destruct E as [_ E]; try discriminate E.
  - now injection E.
  - injection E as E. rewrite <- ?app_assoc in E. cbn [app] in E. now apply nb_span in E.
Qed.
Lemma next_not n r w h q : next n r -> r = w ++ h :: q -> whites w -> ~ white h -> h = NL \/ h = chr "#" -> False.
Proof.
  intros [->|(j & h' & q' & -> & _ & N1 & N2 & N3)] E W N H; [destruct w; discriminate E|].
  apply span with (P := white) in E; try assumption; try apply spaces_white. destruct E as [_ E]. injection E as -> _. destruct H; contradiction.
Qed.
Lemma comments_one s : l_comments s -> forall s' n n' r r', l_comments s' -> s ++ r = s' ++ r' -> next n r -> next n' r' -> r = r'.
Proof.
  induction 1 as [|w s W S IH|w c s W C S IH]; intros s' n n' r r' H' E F F'; destruct H' as [|w' s' W' S'|w' c' s' W' C' S']; rewrite <- ?app_assoc in E; cbn [app] in E; subst.
  - reflexivity.
  - exfalso. eapply next_not; [exact F|reflexivity|assumption|ch|now left].
  - exfalso. eapply next_not; [exact F|reflexivity|assumption|ch|now right].
  - exfalso. eapply next_not; [exact F'|reflexivity|assumption|ch|now left].
  - apply span with (P := white) in E; try assumption; try (cbn [off]; ch). destruct E as [_ E]. injection E as E. eapply IH; eassumption.
  - apply span with (P := white) in E; try assumption; try (cbn [off app lit]; ch). destruct E as [_ E]. discriminate E.
  - exfalso. eapply next_not; [exact F'|reflexivity|assumption|ch|now right].
  - apply span with (P := white) in E; try assumption; try (cbn [off app lit]; ch). destruct E as [_ E]. discriminate E.
  - apply span with (P := white) in E; try assumption; try (cbn [off app lit]; ch). destruct E as [_ E]. injection E as E.
    rewrite <- ?app_assoc in E. cbn [app] in E. apply nb_span in E; try assumption. destruct E as [_ E]. eapply IH; eassumption.
Qed.
Lemma sl_one t t' n n' r r' : sl_comments t -> sl_comments t' -> t ++ r = t' ++ r' -> next n r -> next n' r' -> r = r'.
Proof.
  intros [a b A B] [a' b' A' B'] E F F'. rewrite <- !app_assoc in E. apply sb_one in E; try assumption. exact (comments_one b B b' n n' r r' B' E F F').
Qed.

(** ---- block scalars ---- *)

(** No line of a block scalar with the indentation [i]. *)
Definition cut (i : nat) (r : str) : Prop := r = [] \/ exists j h q, r = spaces_ j ++ h :: q /\ j < i /\ h <> SP /\ h <> NL.
Lemma next_cut a i r : next a r -> a <= i -> cut i r.
Proof. intros [->|(j & h & q & -> & J & N1 & N2 & _)] L; [now left|right]. exists j, h, q. repeat split; [lia|now apply not_eq_sym, nowhite_sp|assumption]. Qed.
Lemma cut_text i r x : cut i r -> r = spaces_ i ++ x -> x = [] /\ i = 0 \/ False.
Proof.
  intros [->|(j & h & q & -> & J & N1 & N2)] E.
  - left. destruct i; [|discriminate E]. now destruct x.
  - right. eapply spaces_lt; [exact J|exact N1|exact E].
Qed.
Lemma sp_off l x : (forall r, l <> SP :: r) -> l <> [] -> off (eq SP) (l ++ x).
Proof. destruct l as [|h q]; [contradiction|]. intros H _. cbn. intros <-. now apply (H q). Qed.
Lemma text_not_empty i j (l x y : str) : l <> [] -> Forall nb_char l -> j <= i -> spaces_ i ++ l ++ x = spaces_ j ++ NL :: y -> False.
Proof.
  intros N F L E. destruct (Nat.eq_dec i j) as [->|D].
  - apply app_inv_head in E. destruct F as [|h l H F]; [contradiction|]. cbn in E. injection E as -> _. now destruct H as (_ & H & _).
  - symmetry in E. eapply (spaces_lt j i NL); [lia|discriminate|exact E].
Qed.
Lemma content_one i A s : content_lines i A s -> forall A' s' r r', content_lines i A' s' -> s ++ r = s' ++ r' -> cut i r -> cut i r' -> A = A' /\ r = r'.
Proof.
  induction 1 as [|l ls s N F H IH|j ls s J H IH]; intros A' s' r r' H' E C C'; destruct H' as [|l' ls' s' N' F' H'|j' ls' s' J' H']; rewrite <- ?app_assoc in E; cbn [app] in E.
  - now split.
  - exfalso. destruct (cut_text _ _ _ C E) as [[X _]|[]]. now destruct l'.
  - exfalso. destruct C as [->|(j & h & q & -> & Lt & N1 & N2)]; [destruct j'; discriminate E|].
    apply spaces_span in E; [|cbn; intros <-; now apply N1|cbn; discriminate]. destruct E as [_ E]. injection E as -> _. contradiction.
  - exfalso. symmetry in E. destruct (cut_text _ _ _ C' E) as [[X _]|[]]. now destruct l.
  - apply app_inv_head in E. apply nb_span in E; try assumption. destruct E as [-> E]. destruct (IH _ _ _ _ H' E C C') as [-> ->]. now split.
  - exfalso. eapply (text_not_empty i j' l); eassumption.
  - exfalso. destruct C' as [->|(j' & h & q & -> & Lt & N1 & N2)]; [destruct j; discriminate E|].
    apply spaces_span in E; [|cbn; discriminate|cbn; intros <-; now apply N1]. destruct E as [_ E]. injection E as <- _. contradiction.
  - exfalso. symmetry in E. eapply (text_not_empty i j l'); eassumption.
  - apply spaces_span in E; [|cbn; discriminate..]. destruct E as [_ E]. injection E as E. destruct (IH _ _ _ _ H' E C C') as [-> ->]. now split.
Qed.
Lemma content_app i A s B t : content_lines i A s -> content_lines i B t -> content_lines i (A ++ B) (s ++ t).
Proof.
  induction 1 as [|l ls s N F H IH|j ls s J H IH]; intros K; rewrite <- ?app_assoc; [assumption|..]; cbn [app].
  - apply CLText; auto.
  - apply (CLEmpty i j); auto.
Qed.
Lemma last_one (L L' : list str) e : forall e', (forall r, L <> r ++ [[]]) -> (forall r, L' <> r ++ [[]]) -> L ++ repeat [] e = L' ++ repeat [] e' -> L = L' /\ e = e'.
Proof.
  induction e as [|e IH]; intros [|e'] N N' E.
  - rewrite !app_nil_r in E. now split.
  - exfalso. rewrite app_nil_r in E. apply (N (L' ++ repeat [] e')). rewrite E. cbn [repeat]. rewrite repeat_cons. now rewrite app_assoc.
  - exfalso. rewrite app_nil_r in E. apply (N' (L ++ repeat [] e)). rewrite <- E. cbn [repeat]. rewrite repeat_cons. now rewrite app_assoc.
  - cbn [repeat] in E. rewrite !repeat_cons, !app_assoc in E. apply app_inj_tail in E as [E _]. destruct (IH e' N N' E) as [-> ->]. now split.
Qed.
Lemma folded_cons ls v : folded_lines ls v -> exists c l q, ls = (c :: l) :: q.
Proof. intros [c l _|c l q ? _ _|c l n q ? _ _]; cbn; eauto. Qed.
Lemma folded_last ls v : folded_lines ls v -> forall r, ls <> r ++ [[]].
Proof.
  assert (forall (a : str) (l r : list str), l <> [] -> (forall r, l <> r ++ [[]]) -> a :: l <> r ++ [[]]) as K.
  { intros a l [|b r] N H E; cbn in E; injection E; intros; subst; [now apply N|now apply (H r)]. }
  induction 1 as [c l N|c l ls v N H IH|c l n ls v N H IH]; intros r E.
  - destruct r as [|a [|b r]]; cbn in E; discriminate E.
  - revert E. apply K; [destruct (folded_cons _ _ H) as (? & ? & ? & ->); discriminate|assumption].
  - destruct (folded_cons _ _ H) as (c' & l' & q & E'). revert E. rewrite app_comm_cons.
    intros E. assert (exists r', ls = r' ++ [[]]) as [r' E2]; [|now apply (IH r')].
    destruct (@exists_last _ ls) as (r2 & z & E2); [rewrite E'; discriminate|]. exists r2. rewrite E2 in E |- *.
    rewrite app_assoc in E. apply app_inj_tail in E as [_ ->]. reflexivity.
Qed.
Lemma folded_one ls v : folded_lines ls v -> forall v', folded_lines ls v' -> v = v'.
Proof.
  induction 1 as [c l N|c l ls v N H IH|c l n ls v N H IH]; intros v' H'.
  - inversion H' as [|? ? ? ? ? K|]; subst; [reflexivity|destruct (folded_cons _ _ K) as (? & ? & ? & X); discriminate X].
  - inversion H' as [? ? ?|? ? ? ? ? K|? ? ? ? ? ? K]; subst.
    + destruct (folded_cons _ _ H) as (? & ? & ? & X). discriminate X.
    + now rewrite (IH _ K).
    + destruct (folded_cons _ _ H) as (? & ? & ? & X). discriminate X.
  - inversion H' as [? ? ?|? ? ? ? ? K|? ? n' ls' v1 ? K X]; subst.
    + destruct (folded_cons _ _ K) as (? & ? & ? & X). discriminate X.
    + assert (repeat (@nil char) n' ++ ls' = repeat [] n ++ ls) as E by assumption.
      apply span with (P := eq []) in E; try (clear; induction n'; constructor; [reflexivity|assumption]); try (clear; induction n; constructor; [reflexivity|assumption]).
      * destruct E as [E ->]. assert (n' = n) as -> by (apply (f_equal (@length _)) in E; now rewrite !repeat_length in E). now rewrite (IH _ K).
      * destruct (folded_cons _ _ K) as (? & ? & ? & ->). cbn. discriminate.
      * destruct (folded_cons _ _ H) as (? & ? & ? & ->). cbn. discriminate.
Qed.

(** The header of a block scalar. *)
Definition digits (dg : str) : Prop := dg = [] \/ exists m, 1 <= m <= 9 /\ dg = [(48 + N.of_nat m)%N].
Definition mark (c : char) : Prop := (49 <= c <= 57)%N \/ c = chr "+" \/ c = chr "-".
Lemma digits_at k i l dg : lines_at k i l dg -> digits dg.
Proof. intros [m M _|_ _]; [right; now exists m|now left]. Qed.
Lemma digits_marks dg : digits dg -> Forall mark dg.
Proof. intros [->|(m & M & ->)]; constructor; [|constructor]. left. lia. Qed.
Lemma chomping_marks ch : Forall mark (chomping ch).
Proof. destruct ch; cbn; try (apply Forall_cons); try apply Forall_nil; unfold mark; cbn; auto. Qed.
Lemma header_marks dg ch hd : digits dg -> indicators dg (chomping ch) hd -> Forall mark hd.
Proof. intros D [->| ->]; apply Forall_app; split; auto using digits_marks, chomping_marks. Qed.
Lemma sb_off a r : sb_comment a -> off mark (a ++ r).
Proof.
  assert (forall c, white c -> ~ mark c) as K by (intros c [->| ->] [M|[M|M]]; try discriminate M; cbv in M; destruct M as [M M2]; try (now apply M); now apply M2).
  intros [w W|w c W N C]; destruct W as [|h w Wh W]; rewrite <- ?app_assoc; cbn [app off]; try contradiction; try (now apply K).
  intros [M|[M|M]]; try discriminate M. destruct M as [M _]. now apply M.
Qed.
Lemma header_one dg ch dg' ch' hd : digits dg -> digits dg' -> indicators dg (chomping ch) hd -> indicators dg' (chomping ch') hd -> dg = dg' /\ ch = ch'.
Proof.
  assert (forall a b, chomping a = chomping b -> a = b) as K by (intros [] []; cbn; intros E; try reflexivity; discriminate E).
  assert (forall d, digits d -> d = [] \/ exists x, d = [x] /\ (49 <= x <= 57)%N) as D.
  { intros d [->|(m & M & ->)]; [now left|right; eexists; split; [reflexivity|lia]]. }
  intros D1 D2 H H'. destruct (D _ D1) as [->|(m & -> & M)], (D _ D2) as [->|(m' & -> & M')]; unfold indicators in H, H'; rewrite ?app_nil_r, ?app_nil_l in H, H'.
  - split; [reflexivity|]. apply K. destruct H as [H|H], H' as [H'|H']; cbn [app] in H, H'; rewrite ?app_nil_r in H; rewrite ?app_nil_r in H'; congruence.
  - exfalso. assert (hd = chomping ch) as -> by (destruct H as [H|H]; cbn [app] in H; rewrite ?app_nil_r in H; exact H). destruct H' as [E|E]; destruct ch, ch'; cbn in E; try discriminate E; injection E as E; lia.
  - exfalso. assert (hd = chomping ch') as -> by (destruct H' as [H'|H']; cbn [app] in H'; rewrite ?app_nil_r in H'; exact H'). destruct H as [E|E]; destruct ch, ch'; cbn in E; try discriminate E; injection E as E; lia.
  - destruct H as [->| ->], H' as [E|E]; destruct ch, ch'; cbn in E; try discriminate E; injection E as E; try lia; (split; [|reflexivity]); try (f_equal; lia).
Qed.
Lemma at_one k i i' l l' dg x x' : lines_at k i l dg -> lines_at k i' l' dg -> l <> [] -> l' <> [] -> spaces_ i ++ l ++ x = spaces_ i' ++ l' ++ x' -> i = i'.
Proof.
  assert (forall j first, lines_at k j first dg -> (exists m, 1 <= m <= 9 /\ j + 1 = k + m /\ dg = [(48 + N.of_nat m)%N]) \/ (k <= j /\ (forall r, first <> SP :: r) /\ dg = [])) as K.
  { intros j first [m M J|K F]; [left; now exists m|right; auto]. }
  intros H H' N N' E. destruct (K _ _ H) as [(m & M & I & X)|(_ & F & X)], (K _ _ H') as [(m' & M' & I' & X')|(_ & F' & X')]; rewrite X in X'; try discriminate X'.
  { apply (f_equal (hd 0%N)) in X'. cbn [hd] in X'. lia. }
  apply spaces_span in E; [now destruct E|now apply sp_off|now apply sp_off].
Qed.
Lemma at_le k i l dg : lines_at k i l dg -> k <= i.
Proof. intros [m M E|K _]; lia. Qed.

Lemma trail_one i tr tr' n r r' : trail_comments i tr -> trail_comments i tr' -> tr ++ r = tr' ++ r' -> next n r -> next n r' -> r = r'.
Proof.
  intros [|j c s J C S] [|j' c' s' J' C' S'] E F F'; rewrite <- ?app_assoc in E; cbn [app] in E.
  - exact E.
  - exfalso. eapply next_not; [exact F|exact E|apply spaces_white|ch|now right].
  - exfalso. symmetry in E. eapply next_not; [exact F'|exact E|apply spaces_white|ch|now right].
  - apply spaces_span in E; [|cbn; discriminate..]. destruct E as [_ E]. injection E as E. rewrite <- ?app_assoc in E. cbn [app] in E.
    apply nb_span in E; try assumption. destruct E as [_ E]. exact (comments_one s S s' n n r r' S' E F F').
Qed.
Lemma trail_cut i n tr r : trail_comments i tr -> next n r -> n <= i -> cut i (tr ++ r).
Proof.
  intros [|j c s J C S] F L; [now apply next_cut with n|]. right. eexists j, _, _. rewrite <- app_assoc. cbn. repeat split; [assumption|discriminate..].
Qed.
Lemma scalar_parts k i dg dg' ch ch' hd hd' sb sb' : forall i' l l' ls ls' s s' e e' se se' tr tr' r r',
  lines_at k i l dg -> lines_at k i' l' dg' -> indicators dg (chomping ch) hd -> indicators dg' (chomping ch') hd' ->
  sb_comment sb -> sb_comment sb' -> content_lines i (l :: ls) s -> content_lines i' (l' :: ls') s' -> l <> [] -> l' <> [] ->
  (forall r, l :: ls <> r ++ [[]]) -> (forall r, l' :: ls' <> r ++ [[]]) -> empty_lines i e se -> empty_lines i' e' se' ->
  trail_comments i tr -> trail_comments i' tr' -> next k r -> next k r' ->
  hd ++ sb ++ s ++ se ++ tr ++ r = hd' ++ sb' ++ s' ++ se' ++ tr' ++ r' ->
  l :: ls = l' :: ls' /\ e = e' /\ ch = ch' /\ r = r'.
Proof.
  intros i' l l' ls ls' s s' e e' se se' tr tr' r r' A A' I I' B B' C C' N N' Z Z' P P' T T' F F' E.
  apply span with (P := mark) in E; [|apply (header_marks dg ch); [now apply (digits_at k i l)|assumption]|apply (header_marks dg' ch'); [now apply (digits_at k i' l')|assumption]|now apply sb_off|now apply sb_off].
  destruct E as [-> E]. destruct (header_one dg ch dg' ch' hd') as [<- <-]; try assumption; [now apply (digits_at k i l)|now apply (digits_at k i' l')|].
  apply sb_one in E; try assumption.
  assert (i = i') as <-.
  { inversion C as [|l0 ls0 s0 N0 F0 C0 X1 X2|]; subst; [|contradiction]. inversion C' as [|l1 ls1 s1 N1 F1 C1 X1 X2|]; subst; [|contradiction].
    rewrite <- !app_assoc in E. eapply at_one; [exact A|exact A'|assumption|assumption|exact E]. }
  rewrite (app_assoc s), (app_assoc s') in E.
  destruct (content_one i _ _ (content_app i _ _ _ _ C P) _ _ _ _ (content_app i _ _ _ _ C' P') E) as [E1 E2];
    [now apply trail_cut with k; [..|apply at_le with l dg]|now apply trail_cut with k; [..|apply at_le with l dg]|].
  apply last_one in E1; try assumption. destruct E1 as [E1 ->]. apply (trail_one i _ _ k) in E2; try assumption. auto.
Qed.
Lemma scalar_one k y s y' s' r r' : block_scalar k y s -> block_scalar k y' s' -> s ++ r = s' ++ r' -> next k r -> next k r' -> y = y' /\ r = r'.
Proof.
  intros H H' E F F'. destruct H as [i dg ch hd sb l ls s e se tr A I B C N Z P T|i dg ch hd sb l ls s v e se tr A I B C V P T],
    H' as [i' dg' ch' hd' sb' l' ls' s' e' se' tr' A' I' B' C' N' Z' P' T'|i' dg' ch' hd' sb' l' ls' s' v' e' se' tr' A' I' B' C' V' P' T'];
    rewrite <- ?app_assoc in E; rewrite ?lit1 in E; try discriminate E; injection E as E; rewrite <- ?app_assoc in E.
  - destruct (scalar_parts k i dg dg' ch ch' hd hd' sb sb' i' l l' ls ls' s s' e e' se se' tr tr' r r') as (-> & -> & -> & ->); try assumption. now split.
  - assert (forall l ls v, folded_lines (l :: ls) v -> l <> []) as K by (intros ? ? ? X; destruct (folded_cons _ _ X) as (? & ? & ? & X2); injection X2; intros; subst; discriminate).
    destruct (scalar_parts k i dg dg' ch ch' hd hd' sb sb' i' l l' ls ls' s s' e e' se se' tr tr' r r') as (E1 & -> & -> & ->); try assumption; try (eapply K; eassumption); try (eapply folded_last; eassumption).
    rewrite E1 in V. rewrite (folded_one _ _ V _ V'). now split.
Qed.

(** ---- block nodes ---- *)

Inductive body (k : nat) (out : bool) : content -> str -> Prop :=
| BdFlow w y s t : whites w -> w <> [] -> flow_content FlowOut y s -> sl_comments t -> body k out y (w ++ s ++ t)
| BdAlias w a t : whites w -> w <> [] -> anchor_name a -> sl_comments t -> body k out (Alias a) (w ++ chr "*" :: a ++ t)
| BdScalar w y s : whites w -> w <> [] -> block_scalar k y s -> body k out y (w ++ s)
| BdSeq t i l s : sl_comments t -> (if out then k <= i + 1 else k <= i) -> l <> [] -> seq_entries i l s -> body k out (Sequence l) (t ++ s)
| BdMap t i l s : sl_comments t -> k <= i -> l <> [] -> map_entries i l s -> body k out (Mapping l) (t ++ s).
Lemma to_body k out x s : block_node k out x s -> exists al y p u, x = Node al y /\ properties al p /\ s = p ++ u /\ body k out y u.
Proof.
  intros H. destruct H as [k out w x s t W N H T|k out al p w y s P W N H|k out al p t i l s P T I N H|k out al p t i l s P T I N H].
  - destruct x as [al y]. inversion H as [c a A|c z q K|c a v z q A V M K]; subst.
    + eexists _, _, [], _. split; [reflexivity|]. split; [constructor|]. split; [reflexivity|]. change ((lit "*" ++ a) ++ t) with (chr "*" :: a ++ t). now apply BdAlias.
    + eexists _, _, [], _. split; [reflexivity|]. split; [constructor|]. split; [reflexivity|]. now apply BdFlow.
    + exists (Some a), y, (w ++ lit "&" ++ a), (v ++ q ++ t). split; [reflexivity|]. split; [now constructor|]. split; [now rewrite <- !app_assoc|]. now apply BdFlow.
  - eexists _, _, p, _. split; [reflexivity|]. split; [assumption|]. split; [reflexivity|]. now apply BdScalar.
  - eexists _, _, p, _. split; [reflexivity|]. split; [assumption|]. split; [reflexivity|]. now apply BdSeq with i.
  - eexists _, _, p, _. split; [reflexivity|]. split; [assumption|]. split; [reflexivity|]. now apply BdMap with i.
Qed.

(** The first character after the white space tells the kind of a body. *)
Definition class (h : char) : nat :=
  if N.eqb h (chr "*") then 1 else if (N.eqb h (chr "|") || N.eqb h (chr ">"))%bool then 2 else if (N.eqb h NL || N.eqb h (chr "#"))%bool then 3 else 0.
Definition shape (n : nat) (u : str) : Prop :=
  exists w h q, u = w ++ h :: q /\ whites w /\ ~ white h /\ h <> chr "&" /\ (w <> [] \/ h = NL) /\ class h = n.
Lemma shape_one n m u : shape n u -> shape m u -> n = m.
Proof.
  intros (w & h & q & -> & W & N & _ & _ & <-) (w' & h' & q' & E & W' & N' & _ & _ & <-).
  apply span with (P := white) in E; try assumption. destruct E as [_ E]. now injection E as -> _.
Qed.
Lemma shape_off n u : shape n u -> off ns_char u.
Proof.
  intros (w & h & q & -> & W & N & _ & O & _). destruct O as [O| ->]; [now apply off_ns|]. destruct W as [|c w Wc W]; cbn; [apply nl_ns|now apply white_ns].
Qed.
Lemma sl_shape t r : sl_comments t -> shape 3 (t ++ r).
Proof.
  intros [a b A B]. rewrite <- app_assoc. destruct A as [w W|w c W N C]; rewrite <- ?app_assoc.
  - exists w, NL, (b ++ r). repeat split; [assumption|ch|discriminate|now right].
  - exists w, (chr "#"), (c ++ [NL] ++ b ++ r). rewrite <- ?app_assoc. repeat split; [assumption|ch|discriminate|now left].
Qed.
Lemma sl_follow t r : sl_comments t -> follow FlowOut (t ++ r).
Proof.
  intros [a b A B]. rewrite <- app_assoc. destruct A as [w W|w c W N C]; rewrite <- ?app_assoc; cbn [app]; [now apply FoLine|now apply FoNote].
Qed.
Lemma class0 h : h <> chr "*" -> h <> chr "|" -> h <> chr ">" -> h <> NL -> h <> chr "#" -> class h = 0.
Proof.
  intros A B C D E. unfold class. rewrite (proj2 (N.eqb_neq h (chr "*")) A), (proj2 (N.eqb_neq h (chr "|")) B), (proj2 (N.eqb_neq h (chr ">")) C), (proj2 (N.eqb_neq h NL) D), (proj2 (N.eqb_neq h (chr "#")) E). reflexivity.
Qed.
Lemma content_shape w y s r : whites w -> w <> [] -> flow_content FlowOut y s -> shape 0 (w ++ s ++ r).
Proof.
  intros W N H. destruct (flow_content_head _ _ _ r H) as [(h & q & E & Ns & _ & A1 & A2 & A3 & _) (h' & q' & E' & B1 & B2)].
  rewrite E in E'. injection E' as <- <-. exists w, h, q. rewrite E. repeat split; try assumption; [now apply ns_nowhite|now left|].
  apply class0; try assumption. now apply ns_nonl.
Qed.
Lemma scalar_shape k w y s r : whites w -> w <> [] -> block_scalar k y s -> shape 2 (w ++ s ++ r).
Proof.
  intros W N [i dg cc hd sb l ls s' e se tr _ _ _ _ _ _ _ _|i dg cc hd sb l ls s' v e se tr _ _ _ _ _ _ _]; eexists w, _, _; (split; [cbn; reflexivity|]);
    (split; [assumption|]); (split; [ch|]); (split; [discriminate|]); (split; [now left|reflexivity]).
Qed.
Lemma alias_shape w x : whites w -> w <> [] -> shape 1 (w ++ chr "*" :: x).
Proof. intros W N. exists w, (chr "*"), x. repeat split; [assumption|ch|discriminate|now left]. Qed.
Lemma body_shape k out y u r : body k out y u -> exists n, shape n (u ++ r).
Proof.
  intros [w y' s t W N H T|w a t W N A T|w y' s W N H|t i l s T I N H|t i l s T I N H]; rewrite <- ?app_assoc.
  - exists 0. now apply content_shape with y'.
  - exists 1. cbn [app]. now apply alias_shape.
  - exists 2. now apply scalar_shape with k y'.
  - exists 3. now apply sl_shape.
  - exists 3. now apply sl_shape.
Qed.
Lemma props_one al al' p p' n n' x x' : properties al p -> properties al' p' -> p ++ x = p' ++ x' -> shape n x -> shape n' x' -> al = al' /\ x = x'.
Proof.
  assert (forall n a w x y, shape n y -> y = w ++ lit "&" ++ a ++ x -> whites w -> False) as K.
  { intros m a w x0 y (w0 & h & q & -> & W & N & A & _) E W'. apply span with (P := white) in E; try assumption; [|cbn [off app lit]; ch].
    destruct E as [_ E]. injection E as -> _. now apply A. }
  intros [|a w A W N] [|a' w' A' W' N'] E S S'; rewrite <- ?app_assoc in E.
  - now split.
  - exfalso. eapply K; [exact S|exact E|assumption].
  - exfalso. symmetry in E. eapply K; [exact S'|exact E|assumption].
  - apply span with (P := white) in E; try assumption; try (cbn [off app lit]; ch). destruct E as [_ E]. rewrite !lit1 in E. injection E as E.
    destruct (name_span a a' [] [] x x' A A' (shape_off _ _ S) (shape_off _ _ S') E) as [-> E1]. now split.
Qed.
Lemma block_off k out x s r : block_node k out x s -> exists c q, s ++ r = c :: q /\ ~ ns_char c.
Proof.
  intros H. destruct (to_body _ _ _ _ H) as (al & y & p & u & -> & P & -> & B). rewrite <- app_assoc.
  destruct P as [|a w A W N].
  - destruct (body_shape _ _ _ _ r B) as [n S]. cbn [app]. pose proof (shape_off _ _ S) as O. destruct S as (w & h & q & E & _). rewrite E in *.
    destruct w; cbn in *; eauto.
  - rewrite <- app_assoc. destruct (whites_cons w ((lit "&" ++ a) ++ u ++ r) W N) as (h & q & -> & Wh). exists h, q. split; [reflexivity|now apply white_ns].
Qed.

Lemma map_head i e s r : map_entry i e s -> exists h q, s ++ r = h :: q /\ entry_head h /\ (h = chr "-" -> exists c q', q = c :: q' /\ ns_char c).
Proof.
  intros [i' k w v s' P W L B|i' a w' k w v s' A W' N P W L B]; rewrite <- ?app_assoc.
  - match goal with |- context [k ++ ?z] => destruct (plain_head FlowOut k z P) as (h & q & E & Ns & K) end. exists h, q. split; [exact E|]. split.
    + repeat split; [now apply ns_nowhite|now apply ns_nonl|]. intros ->. destruct K as [K|[K _]]; [apply K; apply indicatorb_spec; reflexivity|].
      cbn in K. destruct K as [K|[K|[K|[]]]]; discriminate K.
    + intros ->. destruct K as [K|[_ (x & q' & -> & S & _)]]; [exfalso; apply K; apply indicatorb_spec; reflexivity|]. eauto.
  - eexists _, _. split; [cbn; reflexivity|]. split; [repeat split; [ch|discriminate..]|discriminate].
Qed.
Lemma entries_head_seq i x s r : seq_entry i x s -> (forall c q, s ++ r = chr "-" :: c :: q -> ~ ns_char c) /\ exists q, s ++ r = chr "-" :: q.
Proof.
  intros [i' x' s' H O]. split; [|eexists; reflexivity]. intros c q E. cbn in E. injection E as E.
  destruct s' as [|d s']; [|cbn in E; injection E as -> _; now apply (O c s')]. exfalso.
  inversion H as [j m y l s1 t A B X1 X2 X3|j m e l s1 t A B X1 X2 X3|j y s1 B X1 X2 X3].
  - destruct A. destruct m; discriminate X3.
  - destruct (map_head _ _ _ t A) as (h & q1 & X & _). rewrite X in X3. destruct m; discriminate X3.
  - destruct (block_off _ _ _ _ [] B) as (h & q1 & X & _). discriminate X.
Qed.
Lemma seq_head i x s r : seq_entry i x s -> exists c q, s ++ r = chr "-" :: c :: q /\ ~ ns_char c.
Proof.
  intros H. destruct (entries_head_seq i x s r H) as [K (q & E)]. destruct q as [|c q].
  - exfalso. destruct H as [i' x' s' H O]. cbn in E. injection E as E. apply app_eq_nil in E as [-> ->].
    inversion H as [j m y l s1 t A B X1 X2 X3|j m e l s1 t A B X1 X2 X3|j y s1 B X1 X2 X3].
    + destruct A. destruct m; discriminate X3.
    + destruct (map_head _ _ _ t A) as (h & q1 & X & _). rewrite X in X3. destruct m; discriminate X3.
    + destruct (block_off _ _ _ _ [] B) as (h & q1 & X & _). discriminate X.
  - exists c, q. split; [assumption|now apply (K c q)].
Qed.
Lemma seq_next i l t r : seq_entries i l t -> next (i + 1) r -> next (i + 1) (t ++ r).
Proof.
  intros [i'|i' x s l' t' H T] F; [assumption|]. right. rewrite <- !app_assoc. destruct (seq_head _ _ _ (t' ++ r) H) as (c & q & -> & _).
  eexists i', _, _. split; [reflexivity|]. split; [lia|]. repeat split; [ch|discriminate..].
Qed.
Lemma map_next i l t r : map_entries i l t -> next i r -> next (i + 1) (t ++ r) /\ nodash i (t ++ r).
Proof.
  intros [i'|i' e s l' t' H T] F; [split; [now apply next_le with i'; [lia|]|now apply next_dash with i']|].
  rewrite <- !app_assoc. destruct (map_head _ _ _ (t' ++ r) H) as (h & q & -> & E & K). split.
  - right. exists i', h, q. repeat split; [lia|apply E..].
  - intros q' X. apply app_inv_head in X. injection X as -> ->. now apply K.
Qed.

Definition after (k : nat) (out : bool) (r : str) : Prop := next k r /\ (out = true -> nodash (k - 1) r).
Definition o_node n := forall k out x s x' s' r r', length s < n -> 1 <= k \/ out = false -> block_node k out x s -> block_node k out x' s' -> s ++ r = s' ++ r' ->
  after k out r -> after k out r' -> x = x' /\ r = r'.
Definition o_indented n := forall i x s x' s' r r', length s < n -> indented i x s -> indented i x' s' -> s ++ r = s' ++ r' ->
  next (i + 1) r -> next (i + 1) r' -> x = x' /\ r = r'.
Definition o_seq n := forall i l s l' s' r r', length s < n -> seq_entries i l s -> seq_entries i l' s' -> s ++ r = s' ++ r' ->
  next (i + 1) r -> nodash i r -> next (i + 1) r' -> nodash i r' -> l = l' /\ r = r'.
Definition o_map n := forall i l s l' s' r r', length s < n -> map_entries i l s -> map_entries i l' s' -> s ++ r = s' ++ r' ->
  next i r -> next i r' -> l = l' /\ r = r'.
Definition o_elem n := forall i x s x' s' r r', length s < n -> seq_entry i x s -> seq_entry i x' s' -> s ++ r = s' ++ r' ->
  next (i + 1) r -> next (i + 1) r' -> x = x' /\ r = r'.
Definition o_pair n := forall i e s e' s' r r', length s < n -> map_entry i e s -> map_entry i e' s' -> s ++ r = s' ++ r' ->
  after (i + 1) true r -> after (i + 1) true r' -> e = e' /\ r = r'.

Lemma elem_step n : o_indented n -> o_elem (S n).
Proof.
  intros IH i x s x' s' r r' L H H' E F F'. destruct H as [i x s H O], H' as [i x' s' H' O']. cbn in E. injection E as E.
  cbn in L. eapply (IH i); [|exact H|exact H'|exact E|assumption|assumption]. lia.
Qed.
Lemma colon_halts w x : whites w -> off ns_char x -> halts FlowOut (w ++ chr ":" :: x).
Proof. intros W O. exists w, (chr ":" :: x). split; [reflexivity|]. split; [assumption|]. do 3 right. split; [reflexivity|]. destruct x; [exact I|]. intros [S _]. contradiction. Qed.
Lemma block_off' k out x s r : block_node k out x s -> off ns_char (s ++ r).
Proof. intros H. now destruct (block_off _ _ _ _ r H) as (c & q & -> & N). Qed.
Lemma pair_step n : o_node n -> o_pair (S n).
Proof.
  intros IH i e s e' s' r r' L H H' E F F'.
  assert (forall k1 w1 s1 k2 w2 s2 v1 v2, plain FlowOut k1 -> plain FlowOut k2 -> whites w1 -> whites w2 -> block_node (i + 1) true v1 s1 -> block_node (i + 1) true v2 s2 -> length s1 < n ->
    k1 ++ w1 ++ chr ":" :: s1 ++ r = k2 ++ w2 ++ chr ":" :: s2 ++ r' -> k1 = k2 /\ v1 = v2 /\ r = r') as K.
  { intros k1 w1 s1 k2 w2 s2 v1 v2 P1 P2 W1 W2 B1 B2 L1 E1.
    destruct (plain_one FlowOut _ _ _ _ P1 P2 E1) as [-> E2]; [apply colon_halts; [assumption|now apply (block_off' _ _ _ _ _ B1)]|apply colon_halts; [assumption|now apply (block_off' _ _ _ _ _ B2)]|].
    apply span with (P := white) in E2; try assumption; try (cbn [off]; ch). destruct E2 as [_ E2]. injection E2 as E2.
    destruct (IH _ _ _ _ _ _ _ _ L1 (or_introl (Nat.le_add_l 1 i)) B1 B2 E2 F F') as [-> ->]. auto. }
  destruct H as [i k w v s P W C B|i a u k w v s A U N P W C B], H' as [i k' w' v' s' P' W' C' B'|i a' u' k' w' v' s' A' U' N' P' W' C' B'];
    rewrite <- ?app_assoc in E; rewrite ?lit1 in E.
  - destruct (K k w s k' w' s' v v') as (-> & -> & ->); try assumption; [|now split]. rewrite !app_length in L. cbn in L. lia.
  - exfalso. eapply (plain_not FlowOut k); [exact P|exact E|apply indicatorb_spec; reflexivity|cbn; intros [X|[X|[X|[]]]]; discriminate X].
  - exfalso. symmetry in E. eapply (plain_not FlowOut k'); [exact P'|exact E|apply indicatorb_spec; reflexivity|cbn; intros [X|[X|[X|[]]]]; discriminate X].
  - injection E as E. rewrite <- ?app_assoc in E.
    destruct (name_span _ _ _ _ _ _ A A' (off_ns _ _ U N) (off_ns _ _ U' N') E) as [-> E1].
    apply span with (P := white) in E1; [|assumption|assumption|destruct (plain_cons _ _ P) as (? & ? & -> & _)..].
    2,3: clear - P P'.
    2: { match goal with |- off white ((?x :: ?y) ++ ?z) => destruct (plain_head FlowOut _ z P) as (h & q & X & Ns & _); rewrite X; now apply ns_nowhite end. }
    2: { match goal with |- off white (?x ++ ?z) => destruct (plain_head FlowOut x z P') as (h & q & X & Ns & _); rewrite X; now apply ns_nowhite end. }
    destruct E1 as [_ E1].
    destruct (K k w s k' w' s' v v') as (-> & -> & ->); try assumption; [|now split]. repeat first [rewrite app_length in L|progress cbn in L]. lia.
Qed.
Lemma seq_step n : o_elem n -> o_seq n.
Proof.
  intros IH i l s l' s' r r' L H. revert l' s' r r' L. induction H as [i|i x s l t H T IHT]; intros l' s' r r' L H' E F D F' D'; destruct H' as [i|i x' s' l' t' H' T']; rewrite <- ?app_assoc in E.
  - now split.
  - exfalso. cbn in E. destruct (seq_head _ _ _ (t' ++ r') H') as (c & q & X & N). rewrite X in E. destruct (D _ E) as (c' & q' & Y & N'). injection Y as <- <-. contradiction.
  - exfalso. cbn in E. destruct (seq_head _ _ _ (t ++ r) H) as (c & q & X & N). rewrite X in E. symmetry in E. destruct (D' _ E) as (c' & q' & Y & N'). injection Y as <- <-. contradiction.
  - apply app_inv_head in E. rewrite !app_length in L. assert (length s < n) as L1 by lia. assert (length t < n) as L2 by lia.
    destruct (IH _ _ _ _ _ _ _ L1 H H' E) as [-> E1]; [now apply seq_next with l|now apply seq_next with l'|].
    destruct (IHT _ _ _ _ L2 T' E1 F D F' D') as [-> ->]. now split.
Qed.
Lemma map_step n : o_pair n -> o_map n.
Proof.
  intros IH i l s l' s' r r' L H. revert l' s' r r' L. induction H as [i|i x s l t H T IHT]; intros l' s' r r' L H' E F F'; destruct H' as [i|i x' s' l' t' H' T']; rewrite <- ?app_assoc in E.
  - now split.
  - exfalso. cbn in E. destruct F as [->|(j & h & q & -> & J & N & _)].
    + destruct (map_head _ _ _ (t' ++ r') H') as (h & q & X & _). rewrite X in E. destruct i; discriminate E.
    + eapply (spaces_lt j i h); [exact J|now apply not_eq_sym, nowhite_sp|exact E].
  - exfalso. cbn in E. symmetry in E. destruct F' as [->|(j & h & q & -> & J & N & _)].
    + destruct (map_head _ _ _ (t ++ r) H) as (h & q & X & _). rewrite X in E. destruct i; discriminate E.
    + eapply (spaces_lt j i h); [exact J|now apply not_eq_sym, nowhite_sp|exact E].
  - apply app_inv_head in E. rewrite !app_length in L. assert (length s < n) as L1 by lia. assert (length t < n) as L2 by lia.
    assert (forall l t r, map_entries i l t -> next i r -> after (i + 1) true (t ++ r)) as K.
    { intros l0 t0 r0 T0 F0. destruct (map_next _ _ _ _ T0 F0) as [K1 K2]. split; [assumption|]. intros _. now replace (i + 1 - 1) with i by lia. }
    destruct (IH _ _ _ _ _ _ _ L1 H H' E) as [-> E1]; [now apply K with l|now apply K with l'|].
    destruct (IHT _ _ _ _ L2 T' E1 F F') as [-> ->]. now split.
Qed.

Lemma sl_length t : sl_comments t -> 0 < length t.
Proof. intros [a b A B]. rewrite app_length. destruct A; repeat first [rewrite app_length|progress cbn]; lia. Qed.
Lemma seq_vs_map i l s r i' l' s' r' : seq_entries i l s -> l <> [] -> map_entries i' l' s' -> l' <> [] -> s ++ r = s' ++ r' -> False.
Proof.
  intros [j|j x u q t H T] N [j'|j' e u' q' t' H' T'] N' E; try contradiction. rewrite <- !app_assoc in E.
  destruct (seq_head _ _ _ (t ++ r) H) as (c & z & X & Nc), (map_head _ _ _ (t' ++ r') H') as (h & z' & X' & Eh & K). rewrite X, X' in E.
  apply spaces_span in E; [|cbn; discriminate|cbn; now apply nowhite_sp, Eh]. destruct E as [_ E]. injection E as <- <-.
  destruct (K eq_refl) as (c' & q1 & Y & Nc'). injection Y as <- _. contradiction.
Qed.
Lemma seq_indent i l s r i' l' s' r' : seq_entries i l s -> l <> [] -> seq_entries i' l' s' -> l' <> [] -> s ++ r = s' ++ r' -> i = i'.
Proof.
  intros [j|j x u q t H T] N [j'|j' e u' q' t' H' T'] N' E; try contradiction. rewrite <- !app_assoc in E.
  destruct (seq_head _ _ _ (t ++ r) H) as (c & z & X & Nc), (seq_head _ _ _ (t' ++ r') H') as (c' & z' & X' & Nc'). rewrite X, X' in E.
  apply spaces_span in E; [now destruct E|cbn; discriminate..].
Qed.
Lemma map_indent i l s r i' l' s' r' : map_entries i l s -> l <> [] -> map_entries i' l' s' -> l' <> [] -> s ++ r = s' ++ r' -> i = i'.
Proof.
  intros [j|j x u q t H T] N [j'|j' e u' q' t' H' T'] N' E; try contradiction. rewrite <- !app_assoc in E.
  destruct (map_head _ _ _ (t ++ r) H) as (h & z & X & Eh & _), (map_head _ _ _ (t' ++ r') H') as (h' & z' & X' & Eh' & _). rewrite X, X' in E.
  apply spaces_span in E; [now destruct E|cbn; now apply nowhite_sp, Eh|cbn; now apply nowhite_sp, Eh'].
Qed.
Lemma after_seq k out i r : after k out r -> (if out : bool then k <= i + 1 else k <= i) -> 1 <= k \/ out = false -> next (i + 1) r /\ nodash i r.
Proof.
  intros [F D] C O. destruct out.
  - split; [now apply next_le with k|]. destruct (Nat.eq_dec k (i + 1)) as [->|Ne]; [replace i with (i + 1 - 1) by lia; now apply D|apply next_dash with k; [assumption|lia]].
  - split; [apply next_le with k; [lia|assumption]|now apply next_dash with k].
Qed.
Lemma flow_content_one y s y' s' r r' : flow_content FlowOut y s -> flow_content FlowOut y' s' -> s ++ r = s' ++ r' -> follow FlowOut r -> follow FlowOut r' -> y = y' /\ r = r'.
Proof. intros H H'. destruct flow_one as (_ & K & _). exact (K _ _ _ H _ _ _ _ H'). Qed.
Lemma body_one n k out y u y' u' r r' : o_seq n -> o_map n -> length u <= n -> 1 <= k \/ out = false ->
  body k out y u -> body k out y' u' -> u ++ r = u' ++ r' -> after k out r -> after k out r' -> y = y' /\ r = r'.
Proof.
  intros IS IM L O B B' E F F'.
  assert (forall n m x y, x = y -> shape n x -> shape m y -> n <> m -> False) as Sh by (intros a b x z -> S1 S2 Ne; exact (Ne (shape_one _ _ _ S1 S2))).
  destruct B as [w y s t W N H T|w a t W N A T|w y s W N H|t i l s T I N H|t i l s T I N H],
    B' as [w' y' s' t' W' N' H' T'|w' a' t' W' N' A' T'|w' y' s' W' N' H'|t' i' l' s' T' I' N' H'|t' i' l' s' T' I' N' H']; rewrite <- ?app_assoc in E; cbn [app] in E;
    try (exfalso; eapply Sh; [exact E|first [eapply content_shape; eassumption|eapply alias_shape; eassumption|eapply scalar_shape; eassumption|eapply sl_shape; eassumption]
      |first [eapply content_shape; eassumption|eapply alias_shape; eassumption|eapply scalar_shape; eassumption|eapply sl_shape; eassumption]|discriminate]).
  - apply span with (P := white) in E; [|assumption|assumption|eapply node_head_white, flow_content_head; exact H|eapply node_head_white, flow_content_head; exact H'].
    destruct E as [_ E]. destruct (flow_content_one _ _ _ _ _ _ H H' E (sl_follow _ _ T) (sl_follow _ _ T')) as [-> E1].
    split; [reflexivity|]. eapply (sl_one t t'); [assumption|assumption|exact E1|apply F|apply F'].
  - apply span with (P := white) in E; [|assumption|assumption|cbn [off]; ch|cbn [off]; ch]. destruct E as [_ E]. injection E as E. rewrite <- ?app_assoc in E.
    destruct (alias_one FlowOut _ _ _ _ A A' E (sl_follow _ _ T) (sl_follow _ _ T')) as [-> E1].
    split; [reflexivity|]. eapply (sl_one t t'); [assumption|assumption|exact E1|apply F|apply F'].
  - assert (forall y s r, block_scalar k y s -> off white (s ++ r)) as K by (intros ? ? ? [? ? ? ? ? ? ? ? ? ? ? _ _ _ _ _ _ _ _|? ? ? ? ? ? ? ? ? ? ? ? _ _ _ _ _ _ _]; cbn [off app lit]; ch).
    apply span with (P := white) in E; [|assumption|assumption|now apply (K y)|now apply (K y')]. destruct E as [_ E].
    eapply (scalar_one k); [exact H|exact H'|exact E|apply F|apply F'].
  - destruct (after_seq k out i r F I O) as [F1 D1], (after_seq k out i' r' F' I' O) as [F1' D1'].
    assert (s ++ r = s' ++ r') as E1 by (eapply (sl_one t t'); [assumption|assumption|exact E|now apply (seq_next i l)|now apply (seq_next i' l')]).
    assert (i = i') as <- by (eapply seq_indent; [exact H|exact N|exact H'|exact N'|exact E1]).
    pose proof (sl_length _ T). rewrite app_length in L.
    destruct (IS i l s l' s' r r') as [-> ->]; try assumption; [lia|now split].
  - exfalso. destruct (after_seq k out i r F I O) as [F1 D1].
    assert (s ++ r = s' ++ r') as E1 by (eapply (sl_one t t'); [assumption|assumption|exact E|now apply (seq_next i l)|apply (map_next i' l'); [assumption|apply next_le with k; [assumption|apply F']]]).
    eapply seq_vs_map; [exact H|exact N|exact H'|exact N'|exact E1].
  - exfalso. destruct (after_seq k out i' r' F' I' O) as [F1' D1'].
    assert (s ++ r = s' ++ r') as E1 by (eapply (sl_one t t'); [assumption|assumption|exact E|apply (map_next i l); [assumption|apply next_le with k; [assumption|apply F]]|now apply (seq_next i' l')]).
    symmetry in E1. eapply seq_vs_map; [exact H'|exact N'|exact H|exact N|exact E1].
  - assert (s ++ r = s' ++ r') as E1 by (eapply (sl_one t t'); [assumption|assumption|exact E|apply (map_next i l); [assumption|apply next_le with k; [assumption|apply F]]|apply (map_next i' l'); [assumption|apply next_le with k; [assumption|apply F']]]).
    assert (i = i') as <- by (eapply map_indent; [exact H|exact N|exact H'|exact N'|exact E1]).
    pose proof (sl_length _ T). rewrite app_length in L.
    destruct (IM i l s l' s' r r') as [-> ->]; try assumption; [lia|apply next_le with k; [assumption|apply F]|apply next_le with k; [assumption|apply F']|now split].
Qed.
Lemma node_step n : o_seq n -> o_map n -> o_node (S n).
Proof.
  intros IS IM k out x s x' s' r r' L O H H' E F F'.
  destruct (to_body _ _ _ _ H) as (al & y & p & u & -> & P & -> & B), (to_body _ _ _ _ H') as (al' & y' & p' & u' & -> & P' & -> & B').
  rewrite <- !app_assoc in E. destruct (body_shape _ _ _ _ r B) as [m S], (body_shape _ _ _ _ r' B') as [m' S'].
  destruct (props_one _ _ _ _ _ _ _ _ P P' E S S') as [-> E1]. rewrite app_length in L.
  destruct (body_one n k out y u y' u' r r') as [-> ->]; try assumption; [lia|now split].
Qed.
Lemma dash_node k out x s r m c q : block_node k out x s -> s ++ r = spaces_ m ++ chr "-" :: c :: q -> ~ ns_char c -> False.
Proof.
  intros H E N. destruct (to_body _ _ _ _ H) as (al & y & p & u & -> & P & -> & B). rewrite <- app_assoc in E.
  destruct P as [|a w A W Nw].
  - cbn [app] in E.
    assert (forall n, shape n (u ++ r) -> n = 0) as K.
    { intros n (w & h & z & X & W & Nh & _ & _ & <-). rewrite X in E. apply span with (P := white) in E; try assumption; [|apply spaces_white|cbn [off]; ch].
      destruct E as [_ E]. injection E as -> _. reflexivity. }
    destruct B as [w y' s t W Nw C T|w a t W Nw A T|w y' s W Nw C|t i l s T I Nl C|t i l s T I Nl C]; rewrite <- ?app_assoc in *.
    + apply span with (P := white) in E; [|assumption|apply spaces_white|eapply node_head_white, flow_content_head; exact C|cbn [off]; ch].
      destruct E as [_ E]. destruct (flow_content_head _ _ _ (t ++ r) C) as [(h & z & X & _ & _ & _ & _ & _ & D) _]. rewrite E in X. injection X as <- <-.
      destruct (D (or_intror eq_refl)) as (d & q' & X & [Sd _]). injection X as <- <-. contradiction.
    + cbn [app] in K. now specialize (K 1 (alias_shape w _ W Nw)).
    + now specialize (K 2 (scalar_shape k w _ _ _ W Nw C)).
    + now specialize (K 3 (sl_shape _ _ T)).
    + now specialize (K 3 (sl_shape _ _ T)).
  - rewrite <- !app_assoc in E. apply span with (P := white) in E; [|assumption|apply spaces_white|cbn [off app lit]; ch|cbn [off]; ch]. destruct E as [_ E]. discriminate E.
Qed.
Lemma key_flow k w x y s t : plain FlowOut k -> whites w -> off ns_char x -> flow_content FlowOut y s -> sl_comments t -> forall r, k ++ w ++ chr ":" :: x = s ++ t ++ r -> False.
Proof.
  intros P W O C T r E. inversion C as [c z Q|c z v Q|c z v Q|c v l z V Q|c v l z V Q]; subst; rewrite <- ?app_assoc in E;
    try (eapply (plain_not FlowOut k); [exact P|exact E|apply indicatorb_spec; reflexivity|cbn; intros [X|[X|[X|[]]]]; discriminate X]).
  destruct (plain_one FlowOut _ _ _ _ P Q E (colon_halts _ _ W O) (follow_halts _ _ (sl_follow _ r T))) as [_ E1].
  destruct (sl_shape t r T) as (w' & h & q & X & W' & Nh & _ & _ & K). rewrite X in E1. apply span with (P := white) in E1; try assumption; [|cbn [off]; ch].
  destruct E1 as [_ E1]. injection E1 as <- _. discriminate K.
Qed.
Lemma key_body k out y u k0 w x r v : body k out y u -> plain FlowOut k0 -> whites w -> off ns_char x -> whites v -> u ++ r = v ++ k0 ++ w ++ chr ":" :: x -> False.
Proof.
  intros B P W O V E. destruct (plain_head FlowOut k0 (w ++ chr ":" :: x) P) as (h & q & X & Ns & K).
  assert (class h = 0) as Ch.
  { apply class0; try (now apply ns_nonl); intros ->; (destruct K as [K|[K _]]; [apply K; apply indicatorb_spec; reflexivity|cbn in K; destruct K as [K|[K|[K|[]]]]; discriminate K]). }
  assert (forall n, shape n (u ++ r) -> n = 0) as Sh.
  { intros n (w' & h' & z & Y & W' & Nh & _ & _ & <-). rewrite Y, X in E. apply span with (P := white) in E; try assumption; [|cbn; now apply ns_nowhite].
    destruct E as [_ E]. injection E as -> _. exact Ch. }
  destruct B as [w' y' s t W' Nw C T|w' a t W' Nw A T|w' y' s W' Nw C|t i l s T I Nl C|t i l s T I Nl C]; rewrite <- ?app_assoc in *.
  - apply span with (P := white) in E; [|assumption|assumption|eapply node_head_white, flow_content_head; exact C|rewrite X; cbn; now apply ns_nowhite].
    destruct E as [_ E]. symmetry in E. eapply (key_flow k0 w x y' s t); eassumption.
  - cbn [app] in Sh. now specialize (Sh 1 (alias_shape w' _ W' Nw)).
  - now specialize (Sh 2 (scalar_shape k w' _ _ _ W' Nw C)).
  - now specialize (Sh 3 (sl_shape _ _ T)).
  - now specialize (Sh 3 (sl_shape _ _ T)).
Qed.
Lemma key_node k out x s r m i e s' r' : block_node k out x s -> map_entry i e s' -> s ++ r = spaces_ m ++ s' ++ r' -> False.
Proof.
  intros H M E. destruct (to_body _ _ _ _ H) as (al & y & p & u & -> & P & -> & B). rewrite <- app_assoc in E.
  destruct M as [i k0 w v z Q W L N|i a w' k0 w v z A W' Nw Q W L N]; rewrite <- ?app_assoc in E; rewrite ?lit1 in E.
  - destruct P as [|a w' A W' Nw'].
    + cbn [app] in E. eapply (key_body k out y u k0 w); [exact B|exact Q|exact W|exact (block_off' _ _ _ _ r' N)|apply spaces_white|exact E].
    + rewrite <- ?app_assoc in E. match type of E with _ = _ ++ k0 ++ ?t => destruct (plain_head FlowOut k0 t Q) as (h & q & X & Ns & K) end. rewrite X in E.
      apply span with (P := white) in E; [|assumption|apply spaces_white|cbn [off app lit]; ch|cbn; now apply ns_nowhite]. destruct E as [_ E]. rewrite lit1 in E. injection E as <- _.
      destruct K as [K|[K _]]; [apply K; apply indicatorb_spec; reflexivity|cbn in K; destruct K as [K|[K|[K|[]]]]; discriminate K].
  - destruct P as [|a' v' A' V' Nv'].
    + cbn [app] in E. destruct (body_shape _ _ _ _ r B) as [n (w0 & h & q & X & W0 & Nh & Na & _)]. rewrite X in E.
      apply span with (P := white) in E; [|assumption|apply spaces_white|exact Nh|cbn [off app lit]; ch]. destruct E as [_ E]. injection E as -> _. now apply Na.
    + rewrite <- ?app_assoc in E. apply span with (P := white) in E; [|assumption|apply spaces_white|cbn [off app lit]; ch|cbn [off app lit]; ch].
      destruct E as [_ E]. rewrite ?lit1 in E. injection E as E. rewrite <- ?app_assoc in E. destruct (body_shape _ _ _ _ r B) as [n S].
      destruct (name_span a' a [] w' (u ++ r) _ A' A (shape_off _ _ S) (off_ns _ _ W' Nw) E) as [_ E1]. cbn [app] in E1.
      eapply (key_body k out y u k0 w); [exact B|exact Q|exact W|exact (block_off' _ _ _ _ r' N)|exact W'|exact E1].
Qed.
Lemma indented_step n : o_node n -> o_elem n -> o_seq n -> o_pair n -> o_map n -> o_indented n.
Proof.
  intros IN IE IS IP IM i x s x' s' r r' L H H' E F F'.
  assert (forall m r, next (i + 1) r -> next (i + 1 + m + 1) r /\ nodash (i + 1 + m) r /\ next (i + 1 + m) r) as K.
  { intros m r0 F0. split; [apply next_le with (i + 1); [lia|assumption]|]. split; [apply next_dash with (i + 1); [assumption|lia]|apply next_le with (i + 1); [lia|assumption]]. }
  destruct H as [i m y l s t A B|i m e l s t A B|i y s B], H' as [i m' y' l' s' t' A' B'|i m' e' l' s' t' A' B'|i y' s' B']; rewrite <- ?app_assoc in E.
  - assert (m = m') as <-.
    { destruct (seq_head _ _ _ (t ++ r) A) as (c & q & X & _), (seq_head _ _ _ (t' ++ r') A') as (c' & q' & X' & _). rewrite X, X' in E. apply spaces_span in E; [now destruct E|cbn; discriminate..]. }
    apply app_inv_head in E. rewrite !app_length in L. assert (length s < n) as L1 by lia. assert (length t < n) as L2 by lia.
    destruct (K m r F) as (F1 & F2 & _), (K m r' F') as (F1' & F2' & _).
    destruct (IE _ _ _ _ _ _ _ L1 A A' E) as [-> E1]; [now apply (seq_next _ l)|now apply (seq_next _ l')|].
    destruct (IS _ _ _ _ _ _ _ L2 B B' E1 F1 F2 F1' F2') as [-> ->]. now split.
  - exfalso. destruct (seq_head _ _ _ (t ++ r) A) as (c & q & X & Nc), (map_head _ _ _ (t' ++ r') A') as (h & q' & X' & Eh & D). rewrite X, X' in E.
    apply spaces_span in E; [|cbn; discriminate|cbn; now apply nowhite_sp, Eh]. destruct E as [_ E]. injection E as <- <-. destruct (D eq_refl) as (c' & q1 & Y & Nc'). injection Y as <- _. contradiction.
  - exfalso. destruct (seq_head _ _ _ (t ++ r) A) as (c & q & X & Nc). rewrite X in E. symmetry in E. eapply dash_node; [exact B'|exact E|exact Nc].
  - exfalso. destruct (map_head _ _ _ (t ++ r) A) as (h & q' & X' & Eh & D), (seq_head _ _ _ (t' ++ r') A') as (c & q & X & Nc). rewrite X, X' in E.
    apply spaces_span in E; [|cbn; now apply nowhite_sp, Eh|cbn; discriminate]. destruct E as [_ E]. injection E as -> ->. destruct (D eq_refl) as (c' & q1 & Y & Nc'). injection Y as <- _. contradiction.
  - assert (m = m') as <-.
    { destruct (map_head _ _ _ (t ++ r) A) as (c & q & X & Eh & _), (map_head _ _ _ (t' ++ r') A') as (c' & q' & X' & Eh' & _). rewrite X, X' in E. apply spaces_span in E; [now destruct E|cbn; now apply nowhite_sp, Eh|cbn; now apply nowhite_sp, Eh']. }
    apply app_inv_head in E. rewrite !app_length in L. assert (length s < n) as L1 by lia. assert (length t < n) as L2 by lia.
    destruct (K m r F) as (_ & _ & F1), (K m r' F') as (_ & _ & F1').
    assert (forall j l t r, map_entries j l t -> next j r -> after (j + 1) true (t ++ r)) as K1.
    { intros j l0 t0 r0 T0 F0. destruct (map_next _ _ _ _ T0 F0) as [K1 K2]. split; [assumption|]. intros _. now replace (j + 1 - 1) with j by lia. }
    destruct (IP _ _ _ _ _ _ _ L1 A A' E) as [-> E1]; [now apply K1 with l|now apply K1 with l'|].
    destruct (IM _ _ _ _ _ _ _ L2 B B' E1 F1 F1') as [-> ->]. now split.
  - exfalso. symmetry in E. eapply key_node; [exact B'|exact A|exact E].
  - exfalso. destruct (seq_head _ _ _ (t' ++ r') A') as (c & q & X & Nc). rewrite X in E. eapply dash_node; [exact B|exact E|exact Nc].
  - exfalso. eapply key_node; [exact B|exact A'|exact E].
  - eapply (IN _ false); [exact L|now right|exact B|exact B'|exact E|split; [assumption|discriminate]|split; [assumption|discriminate]].
Qed.
Lemma all_one n : o_node n /\ o_indented n /\ o_seq n /\ o_map n.
Proof.
  induction n as [|n (IN & II & IS & IM)]; [split; [|split; [|split]]; unfold o_node, o_indented, o_seq, o_map; intros; lia|].
  pose proof (node_step n IS IM) as JN. pose proof (elem_step n II) as JE. pose proof (pair_step n IN) as JP.
  pose proof (seq_step _ JE) as JS. pose proof (map_step _ JP) as JM. pose proof (indented_step _ JN JE JS JP JM). auto.
Qed.
(** A text is a file of YAML 1.2 in at most one way. *)
Lemma file_one x y s : yaml_file x s -> yaml_file y s -> x = y.
Proof.
  intros [pre x' t P B _] H'. inversion H' as [pre' y' t' P' B' _ E1 E2]; subst.
  assert (forall z, next 1 (lit "---" ++ z)) as K.
  { intros z. right. eexists 0, _, _. split; [cbn; reflexivity|]. split; [lia|]. repeat split; [ch|discriminate..]. }
  pose proof (comments_one _ P' _ 1 1 _ _ P E2 (K t') (K t)) as E. injection E as E. subst t'.
  destruct (all_one (S (length t))) as (N & _). assert (after 0 false []) as F by (split; [now left|discriminate]).
  now destruct (N 0 false x' t y t [] [] (Nat.lt_succ_diag_r _) (or_intror eq_refl) B B' eq_refl F F).
Qed.
