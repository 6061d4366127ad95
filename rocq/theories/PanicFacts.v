(** Exactly which accepted texts make the parser panic. *)
From Coq Require Import ZArith.
From Verif Require Import Base Ast Num Peg PegFacts PegTree YamlGrammar Consume Spec_Parse YamlTree YamlValues ParseFacts Ser Spec_Serde TypedFacts SerdeFacts2 Spec_Path PathFacts Spec_Panic.
Import ListNotations.

Ltac unpack :=
  repeat match goal with
         | H : exists _, _ |- _ => destruct H
         | H : _ /\ _ |- _ => destruct H
         | H : _ \/ _ |- _ => destruct H
         | H : False |- _ => destruct H
         end; subst.
Ltac labels :=
  repeat match goal with
         | |- Forall _ (_ ++ _) => apply Forall_app; split
         | |- Forall _ (_ :: _) => constructor
         | |- Forall _ [] => constructor
         end;
  try match goal with
      | H : Forall (fun x => label x = _) ?l |- Forall _ ?l =>
          eapply Forall_impl; [|exact H]; cbv beta; let n := fresh in let E := fresh in
          intros n E; rewrite E; try reflexivity; try discriminate
      end;
  try match goal with
      | H : label ?x = _ |- _ => rewrite H; try reflexivity; try discriminate
      end;
  try discriminate.

Section Panic.
Context (ut : unitab).
Notation G := (yaml_grammar ut).
Notation tree := (tree G y_end).
Notation vals_of ch := (call_ (map (fun c => (label c, fold_node yaml_act c)) ch)).

(** The kids of a node with a consumer have one, and only block scalars have an indicator. *)
Definition only_block (r : yrule) (ch : list (node yrule)) : Prop :=
  Forall (fun n => consumed (label n) = true) ch /\
  (r = y_ml_literal \/ r = y_ml_folded \/ Forall (fun n => label n <> y_ml_indent) ch).
Lemma kids_shape r s k txt ch rest k' : consumed r = true -> fst (G r) = Normal ->
  runs G true (snd (G r)) s k (Ok txt ch rest k') -> only_block r ch.
Proof.
  intros Hc Hm Hrun. pose proof (runs_shn G 3 _ _ _ _ _ _ _ Hrun) as S. unfold only_block.
  destruct r; try discriminate; clear Hc Hm Hrun;
    cbv -[app label] in S; unpack; cbn [app] in *; (split; [labels|]); try solve [left; reflexivity|right; left; reflexivity|right; right; labels]; reflexivity.
Qed.
Lemma kids_ok n : tree n -> consumed (label n) = true ->
  Forall tree (kids n) /\ Forall (fun c => consumed (label c) = true) (kids n) /\
  (label n = y_ml_literal \/ label n = y_ml_folded \/ Forall (fun c => label c <> y_ml_indent) (kids n)).
Proof.
  intros T C. inversion T as [r txt ch em s k ns rest k' N R Em Ech Tk Ik|r Er]; subst; cbn [kids label] in *; [|repeat split; auto].
  destruct (fst (G r)) eqn:Em; cbn [emit_in] in R; [|contradiction|].
  - destruct (kids_shape _ _ _ _ _ _ _ C Em R). auto.
  - pose proof (runs_silent G _ _ _ _ _ R eq_refl _ _ _ _ eq_refl) as ->. auto.
Qed.

Definition panic_rules : list yrule := [y_esc_value; y_single_quote; y_chomping; y_ml_indent; y_ml_literal; y_ml_folded].
Lemma act_panic r txt vs : yact r txt vs = CPanic -> consumed r = true -> In r panic_rules.
Proof.
  destruct r; intros H C; try discriminate C; try (cbn; tauto); exfalso; cbn [yact] in H;
    repeat (match type of H with context [match ?x with _ => _ end] => destruct x; try discriminate H end); try discriminate H.
Qed.

(** ---- values of kids ---- *)
Lemma consume_node n : consume n = cbind (vals_of (kids n)) (yact (label n) (text n)).
Proof. now destruct n. Qed.
Lemma goods n : tree n -> consumed (label n) = true -> Forall (good ut) (kids n).
Proof.
  intros T C. destruct (kids_ok n T C) as (A & B & _). rewrite Forall_forall in *. intros c H. apply tree_good; auto.
Qed.
Lemma call_panic ch : Forall (good ut) ch -> (vals_of ch = CPanic <-> exists c, In c ch /\ consume c = CPanic).
Proof.
  induction 1 as [|n ch H F IH]; cbn [map call_]; [split; [discriminate|intros (c & [] & _)]|].
  unfold good in H. change (fold_node yaml_act n) with (consume n). destruct (consume n) as [v| |] eqn:E; cbn [cbind]; [|contradiction|].
  - split.
    + intros X. assert (Y : vals_of ch = CPanic) by (destruct (vals_of ch); try discriminate X; reflexivity).
      apply IH in Y as (c & I & Q). exists c. split; [now right|exact Q].
    + intros (c & [<-|I] & Q); [congruence|]. rewrite (proj2 IH); [reflexivity|]. eauto.
  - split; [|reflexivity]. intros _. exists n. split; [now left|exact E].
Qed.
Lemma call_vals ch vs : vals_of ch = CVal vs -> Forall2 (fun c p => fst p = label c /\ consume c = CVal (snd p)) ch vs.
Proof.
  revert vs. induction ch as [|n ch IH]; cbn [map call_]; intros vs H; [injection H as <-; constructor|].
  change (fold_node yaml_act n) with (consume n) in H. destruct (consume n) as [v| |] eqn:E; cbn [cbind] in H; try discriminate H.
  destruct (vals_of ch) as [l| |]; cbn [cbind] in H; try discriminate H. injection H as <-. constructor; auto.
Qed.
Lemma vals_call ch vs : Forall2 (fun c p => fst p = label c /\ consume c = CVal (snd p)) ch vs -> vals_of ch = CVal vs.
Proof.
  induction 1 as [|n [r v] ch vs [L E] F IH]; cbn [map call_]; [reflexivity|]. cbn [fst snd] in *. change (fold_node yaml_act n) with (consume n).
  rewrite E. cbn [cbind]. rewrite IH. cbn [cbind]. now subst.
Qed.

Definition locally (m : node yrule) : Prop := exists vs, vals_of (kids m) = CVal vs /\ yact (label m) (text m) vs = CPanic.
Lemma below_ok n m : below n m -> tree n -> consumed (label n) = true -> tree m /\ consumed (label m) = true.
Proof.
  induction 1 as [n|n c m I _ IH]; intros T C; [auto|]. destruct (kids_ok n T C) as (A & B & _). rewrite Forall_forall in A, B. auto.
Qed.
Lemma panic_local n : tree n -> consumed (label n) = true -> (consume n = CPanic <-> exists m, below n m /\ locally m).
Proof.
  induction n as [r t ch IH] using node_ind'. intros T C. pose proof (goods _ T C) as Gd. pose proof (kids_ok _ T C) as (A & B & _).
  assert (IH' : forall c, In c ch -> (consume c = CPanic <-> exists m, below c m /\ locally m)).
  { cbn [kids] in A, B. rewrite Forall_forall in *. intros c I. apply IH; auto. }
  rewrite consume_node. cbn [kids label text] in *. split.
  - destruct (vals_of ch) as [vs| |] eqn:V; cbn [cbind].
    + intros H. exists (Node r t ch). split; [constructor|]. exists vs. auto.
    + destruct (call_good ut ch Gd) as [(vs & E & _)|[E _]]; congruence.
    + intros _. apply call_panic in V as (c & I & Q); [|exact Gd]. apply (IH' c I) in Q as (m & Bm & L).
      exists m. split; [econstructor; eauto|exact L].
  - intros (m & Bm & L). inversion Bm as [|c m' I Bc]; subst.
    + destruct L as (vs & V & Q). cbn [kids label text] in *. now rewrite V.
    + rewrite (proj2 (call_panic ch Gd)); [reflexivity|]. exists c. split; [exact I|]. apply IH'; eauto.
Qed.

(** ---- indicators ---- *)
Lemma usize_iff t z : ~ In (chr "+") t -> (parse_usize t = Some z <-> is_dec t /\ (dec_value t < 2 ^ 64)%N /\ z = Z.of_N (dec_value t)).
Proof.
  intros N. split.
  - intros P. apply (parse_int_spec U64) in P as [(ds & Ds & X) R].
    assert (t = ds /\ z = Z.of_N (decimal_value ds)) as [-> ->].
    { destruct X as [[[-> | ->] ->]|(S & _)]; [auto| |unfold signed_kind in S; cbn in S; intuition discriminate].
      exfalso. apply N. now left. }
    split; [exact Ds|]. change decimal_value with dec_value in *. split; [|reflexivity].
    change (2 ^ 64)%N with 18446744073709551616%N. unfold u64_max in R. lia.
  - intros (D & B & ->). now apply parse_dec.
Qed.
Definition run_of (n : node yrule) : Prop :=
  exists em s k rest k', em = emit_in (fst (G (label n))) true /\ runs G em (snd (G (label n))) s k (Ok (text n) (kids n) rest k').
Lemma tree_run n : tree n -> label n <> y_eoi -> run_of n.
Proof.
  intros T N. inversion T as [r txt ch em s k ns rest k' Sil R Em Ech Tk Ik|r Er]; subst; [|destruct r; try discriminate Er; now destruct N].
  exists (emit_in (fst (G r)) true), s, k, rest, k'. auto.
Qed.
Lemma star_no_plus rs t ns : shp rs (PStar (yplus (y_number ut))) t ns -> ~ In (chr "+") t.
Proof.
  intros (l & -> & _ & F). induction F as [|[a b] l (t1 & t2 & n1 & n2 & E & _ & ((c & -> & Hc) & _) & S) F IH]; cbn; [tauto|]. cbn [fst] in E. subst a.
  intros I. apply in_app_or in I as [I|I]; [|now apply IH]. destruct I as [->|I]; [discriminate Hc|].
  pose proof (star_class_inv (fun c => is_number ut c = true) rs (y_number ut) t2 n2) as X.
  specialize (X ltac:(intros ? ? ((d & -> & D) & _); eauto) S (chr "+") I). discriminate X.
Qed.
Lemma indent_iff i : tree i -> label i = y_ml_indent ->
  (exists vs, vals_of (kids i) = CVal vs) /\
  ((text i = [] /\ consume i = CVal (VIndent None)) \/
   (text i <> [] /\ exists w, indicator (text i) w /\ consume i = CVal (VIndent (Some w))) \/
   (text i <> [] /\ (~ exists w, indicator (text i) w) /\ consume i = CPanic)).
Proof.
  intros T L. destruct (tree_run i T) as (em & s & k & rest & k' & -> & R); [rewrite L; discriminate|]. rewrite L in R. cbn [fst emit_in] in R.
  assert (Nk : kids i = []).
  { pose proof (runs_shn G 3 _ _ _ _ _ _ _ R) as S. cbv -[app label kids] in S. unpack; auto. }
  pose proof (runs_shp G _ _ _ _ _ R eq_refl _ _ _ _ eq_refl 3) as S'. apply star_no_plus in S'.
  rewrite consume_node, Nk, L. split; [now exists []|]. cbn [map call_ cbind yact].
  destruct (text i) as [|d t] eqn:Et; [left; auto|right]. rewrite <- Et in *.
  destruct (parse_usize (text i)) as [z|] eqn:P.
  - apply (usize_iff _ _ S') in P as (D & B & ->). destruct (Z.of_N (dec_value (text i)) =? 0)%Z eqn:Z0.
    + right. split; [congruence|]. split; [|reflexivity]. intros (w & _ & W & _). apply Z.eqb_eq in Z0. lia.
    + left. split; [congruence|]. apply Z.eqb_neq in Z0. exists (dec_value (text i) - 1)%N. split; [|do 3 f_equal; lia].
      split; [exact D|]. split; [lia|reflexivity].
  - right. split; [congruence|]. split; [|reflexivity]. intros (w & D & W & _).
    rewrite (proj2 (usize_iff (text i) (Z.of_N (dec_value (text i))) S')) in P; [discriminate P|]. split; [exact D|]. split; [lia|reflexivity].
Qed.

(** ---- lines ---- *)
Lemma slice_some b n : (exists x, slice_from n b = Some x) <-> cuttable n b.
Proof.
  revert n. induction b as [|c b IH]; intros n; cbn [slice_from]; split.
    - intros [x H]. destruct (N.eqb_spec n 0) as [->|]; [|discriminate]. exists [], []. auto.
    - intros (u & v & E & <-). destruct u; [|discriminate]. eexists. reflexivity.
    - intros [x H]. destruct (N.eqb_spec n 0) as [->|Nn]; [exists [], (c :: b); auto|].
      destruct (N.leb_spec (N.of_nat (char_len c)) n) as [Le|]; [|discriminate].
      destruct (proj1 (IH _) (ex_intro _ x H)) as (u & v & -> & Q). exists (c :: u), v. split; [reflexivity|]. cbn [utf8_len fold_right]. unfold utf8_len in *. cbn. lia.
    - intros (u & v & E & Q). destruct (N.eqb_spec n 0) as [->|Nn]; [eauto|]. destruct u as [|d u]; [now destruct Nn|].
      injection E as <- ->. assert (Y : utf8_len (c :: u) = char_len c + utf8_len u) by reflexivity.
      destruct (N.leb_spec (N.of_nat (char_len c)) n) as [Le|]; [|lia]. apply IH. exists u, v. split; [reflexivity|]. lia.
Qed.
Lemma slice_iff n b : slice_from n b = None <-> ~ cuttable n b.
Proof.
  rewrite <- slice_some. split; [intros -> [x H]; discriminate|]. intros H. destruct (slice_from n b); [destruct H; eauto|reflexivity].
Qed.
Lemma clean_panic n ls : clean_lines n ls = CPanic <-> exists b, In b ls /\ b <> [] /\ ~ cuttable n b.
Proof.
  induction ls as [|l ls IH]; cbn [clean_lines]; [split; [discriminate|intros (b & [] & _)]|].
  assert (E : (match l with [] => Some [] | _ => slice_from n l end) = None <-> l <> [] /\ ~ cuttable n l).
  { destruct l as [|c l]; [split; [discriminate|tauto]|]. rewrite slice_iff. split; [split; [discriminate|assumption]|tauto]. }
  destruct (match l with [] => Some [] | _ => slice_from n l end) as [x|].
  - assert (C : cbind (clean_lines n ls) (fun xs => CVal (x :: xs)) = CPanic <-> clean_lines n ls = CPanic)
      by (destruct (clean_lines n ls); cbn; split; congruence).
    rewrite C, IH. split; [intros (b & I & Q); exists b; split; [now right|exact Q]|].
    intros (b & [<-|I] & Q); [apply E in Q; discriminate Q|eauto].
  - split; [|reflexivity]. intros _. destruct (proj1 E eq_refl) as [A B]. exists l. split; [now left|now split].
Qed.
Lemma margin_count l w : ~ In NL l -> (margin l w <-> w = count_ws l).
Proof.
  revert w. induction l as [|c l IH]; intros w N; cbn [count_ws].
  - split; [|intros ->; exists [], []; repeat split; intros ? []]. intros (u & v & E & _ & _ & ->). destruct u; [reflexivity|discriminate].
  - assert (Nc : ceqb c NL = false) by (destruct (ceqb c NL) eqn:X; [|reflexivity]; apply ceqb_eq in X; subst; destruct N; now left).
    rewrite Nc, andb_true_r. assert (N' : ~ In NL l) by (intros X; apply N; now right). destruct (is_ws c) eqn:W.
    + split.
      * intros (u & v & E & A & B & ->). destruct u as [|d u]; [cbn in E; subst v; cbn in B; congruence|]. injection E as <- ->.
        rewrite <- (proj1 (IH (N.of_nat (utf8_len u)) N')); [unfold utf8_len; cbn; lia|]. exists u, v. repeat split; auto. intros x X. apply A. now right.
      * intros ->. destruct (proj2 (IH (count_ws l) N') eq_refl) as (u & v & -> & A & B & E). exists (c :: u), v. split; [reflexivity|].
        split; [intros x [<-|X]; auto|]. split; [exact B|]. rewrite E. unfold utf8_len. cbn. lia.
    + split.
      * intros (u & v & E & A & B & ->). destruct u as [|d u]; [reflexivity|]. injection E as <- ->. rewrite (A c (or_introl eq_refl)) in W. discriminate.
      * intros ->. exists [], (c :: l). repeat split; auto.
Qed.

(** ---- content ---- *)
Lemma atomic_kids n : tree n -> fst (G (label n)) = Atomic -> kids n = [].
Proof.
  intros T A. destruct (tree_run n T) as (em & s & k & rest & k' & -> & R); [intros E; rewrite E in A; discriminate|]. rewrite A in R. cbn [emit_in] in R.
  exact (runs_silent G _ _ _ _ _ R eq_refl _ _ _ _ eq_refl).
Qed.
Definition blanks (e : node yrule) : list str := repeat [] (utf8_len (text e)).
Lemma string_val x : tree x -> label x = y_block_string -> consume x = CVal (VStr (text x)).
Proof. intros T L. rewrite consume_node, (atomic_kids x T), L; [reflexivity|]. now rewrite L. Qed.
Lemma empty_val e : tree e -> label e = y_block_empty_lines -> consume e = CVal (VStrs (blanks e)).
Proof. intros T L. rewrite consume_node, (atomic_kids e T), L; [reflexivity|]. now rewrite L. Qed.
Lemma trailing_val e : tree e -> label e = y_ml_trailing -> exists k, consume e = CVal (VStrs (repeat [] k)).
Proof.
  intros T L. rewrite consume_node, (atomic_kids e T), L; [|now rewrite L]. exists (length (filter (ceqb NL) (text e))). cbn [map call_ cbind yact].
  do 2 f_equal. induction (filter (ceqb NL) (text e)); [reflexivity|]. cbn. now f_equal.
Qed.
Definition part_lines (p : node yrule) : list str := match kids p with [e; x] => blanks e ++ [text x] | _ => [] end.
Lemma part_val p : tree p -> label p = y_ml_part ->
  (exists e x, kids p = [e; x] /\ label e = y_block_empty_lines /\ label x = y_block_string) /\ consume p = CVal (VStrs (part_lines p)).
Proof.
  intros T L. destruct (kids_ok p T) as (A & _); [now rewrite L|].
  destruct (tree_run p T) as (em & s & k & rest & k' & -> & R); [rewrite L; discriminate|]. rewrite L in R. cbn [fst emit_in] in R.
  assert (K : exists e x, kids p = [e; x] /\ label e = y_block_empty_lines /\ label x = y_block_string).
  { pose proof (runs_shn G 3 _ _ _ _ _ _ _ R) as S. cbv -[app label kids] in S. unpack.
    match goal with H : kids _ = _ |- _ => rewrite H end; cbn [app]; eexists _, _; split; [reflexivity|]; auto. }
  split; [exact K|]. destruct K as (e & x & E & Le & Lx). rewrite E in A. apply Forall_inv in A as Te. apply Forall_inv_tail, Forall_inv in A as Tx.
  unfold part_lines. rewrite consume_node, E, (vals_call [e; x] [(y_block_empty_lines, VStrs (blanks e)); (y_block_string, VStr (text x))]), L.
  - reflexivity.
  - repeat constructor; auto; cbn [fst snd]; [now apply empty_val|now apply string_val].
Qed.
Lemma parts_many ps tail : Forall tree ps -> Forall (fun p => label p = y_ml_part) ps ->
  (match tail with [] => True | x :: _ => as_ml_part x = None end) ->
  many as_ml_part (map (fun p => (y_ml_part, VStrs (part_lines p))) ps ++ tail) = (map part_lines ps, tail).
Proof.
  intros T L H. induction ps as [|p ps IH]; cbn [map app many].
  - destruct tail; cbn [many]; [reflexivity|]. now rewrite H.
  - cbn [as_ml_part]. rewrite IH; [reflexivity|now inversion T|now inversion L].
Qed.
Lemma content_val c : tree c -> label c = y_ml_content -> exists e x ps t k,
  kids c = e :: x :: ps ++ [t] /\ label e = y_block_empty_lines /\ label x = y_block_string /\
  Forall (fun p => label p = y_ml_part) ps /\ label t = y_ml_trailing /\
  consume c = CVal (VStrs (blanks e ++ [text x] ++ concat (map part_lines ps) ++ repeat [] k)).
Proof.
  intros T L. destruct (kids_ok c T) as (A & _); [now rewrite L|].
  destruct (tree_run c T) as (em & s & k & rest & k' & -> & R); [rewrite L; discriminate|]. rewrite L in R. cbn [fst emit_in] in R.
  assert (K : exists e x ps t, kids c = e :: x :: ps ++ [t] /\ label e = y_block_empty_lines /\ label x = y_block_string /\
                Forall (fun p => label p = y_ml_part) ps /\ label t = y_ml_trailing).
  { pose proof (runs_shn G 3 _ _ _ _ _ _ _ R) as S. cbv -[app label kids] in S. unpack;
    match goal with H : kids _ = _ |- _ => rewrite H end; cbn [app]; rewrite ?app_nil_r; eexists _, _, _, _; (split; [reflexivity|]); auto. }
  destruct K as (e & x & ps & t & E & Le & Lx & Lp & Lt). rewrite E in A. inversion A as [|? ? Te A1]; subst. inversion A1 as [|? ? Tx A2]; subst.
  apply Forall_app in A2 as [Tp At]. apply Forall_inv in At as Tt. destruct (trailing_val t Tt Lt) as [j Vt].
  exists e, x, ps, t, j. do 5 (split; [assumption|]).
  rewrite consume_node, E, L, (vals_call (e :: x :: ps ++ [t])
    ((y_block_empty_lines, VStrs (blanks e)) :: (y_block_string, VStr (text x)) ::
     map (fun p => (y_ml_part, VStrs (part_lines p))) ps ++ [(y_ml_trailing, VStrs (repeat [] j))])).
  - cbn [cbind yact]. rewrite (parts_many ps _ Tp Lp); [|reflexivity]. reflexivity.
  - constructor; [split; [now rewrite Le|now apply empty_val]|]. constructor; [split; [now rewrite Lx|now apply string_val]|].
    apply Forall2_app; [|constructor; [split; [now rewrite Lt|exact Vt]|constructor]].
    clear - Tp Lp. induction ps as [|p ps IH]; cbn [map]; constructor; inversion Tp; inversion Lp; subst; auto.
    split; cbn [fst snd]; [congruence|]. apply part_val; auto.
Qed.
Lemma blanks_in e b : In b (blanks e) -> b = [].
Proof. intros H. now apply repeat_spec in H. Qed.
Lemma content_lines c : tree c -> label c = y_ml_content -> exists ls, consume c = CVal (VStrs ls) /\
  (forall b, b <> [] -> (In b ls <-> content_line c b)) /\ (forall b, first_line c b <-> exists r, ls = b :: r).
Proof.
  intros T L. destruct (content_val c T L) as (e & x & ps & t & k & E & Le & Lx & Lp & Lt & V). eexists. split; [exact V|].
  destruct (kids_ok c T) as (A & _); [now rewrite L|]. split.
  - intros b N. rewrite !in_app_iff. split.
    + intros [H|[H|[H|H]]].
      * destruct N. now apply blanks_in in H.
      * destruct H as [<-|[]]. left. exists x. repeat split; auto. rewrite E. cbn. auto.
      * right. apply in_concat in H as (l & Hl & Hb). apply in_map_iff in Hl as (p & <- & Hp). rewrite Forall_forall in A, Lp.
        assert (Ip : In p (kids c)) by (rewrite E; do 2 right; apply in_or_app; now left).
        destruct (part_val p (A p Ip) (Lp p Hp)) as [(e' & x' & E' & Le' & Lx') _]. unfold part_lines in Hb. rewrite E' in Hb.
        apply in_app_or in Hb as [Hb|[<-|[]]]; [destruct N; now apply blanks_in in Hb|].
        exists p, x'. repeat split; auto. rewrite E'. cbn. auto.
      * destruct N. now apply repeat_spec in H.
    + intros [(y & [Hy Ly] & <-)|(p & y & [Hp Lpp] & [Hy Ly] & <-)].
      * rewrite E in Hy. destruct Hy as [<-|[<-|Hy]]; [congruence|right; left; now left|].
        apply in_app_or in Hy as [Hy|[<-|[]]]; [|congruence]. rewrite Forall_forall in Lp. specialize (Lp y Hy). congruence.
      * rewrite Forall_forall in A. destruct (part_val p (A p Hp) Lpp) as [(e' & x' & E' & Le' & Lx') _].
        rewrite E in Hp. destruct Hp as [<-|[<-|Hp]]; [congruence|congruence|]. apply in_app_or in Hp as [Hp|[<-|[]]]; [|congruence].
        do 2 right. left. apply in_concat. exists (part_lines p). split; [apply in_map_iff; eauto|]. unfold part_lines. rewrite E'.
        apply in_or_app. right. rewrite E' in Hy. destruct Hy as [<-|[<-|[]]]; [congruence|now left].
  - intros b. unfold first_line, blanks. split.
    + intros (e' & x' & r & E' & H). rewrite E in E'. injection E' as <- <- <-. destruct H as [[H ->]|[H ->]].
      * rewrite H. eexists. reflexivity.
      * destruct (text e) as [|d u]; [now destruct H|]. pose proof (char_len_pos d). unfold utf8_len. cbn. destruct (char_len d); [lia|]. eexists. reflexivity.
    + intros [r H]. exists e, x, (ps ++ [t]). split; [exact E|]. destruct (text e) as [|d u]; [left; split; [reflexivity|]; now injection H|right].
      split; [discriminate|]. pose proof (char_len_pos d). unfold utf8_len in H. cbn in H. destruct (char_len d); [lia|]. now injection H.
Qed.

(** ---- block scalars ---- *)
Lemma block_kids m : tree m -> label m = y_ml_literal \/ label m = y_ml_folded -> exists pre i c,
  kids m = pre ++ [i; c] /\ label i = y_ml_indent /\ label c = y_ml_content /\ (pre = [] \/ exists h, pre = [h] /\ label h = y_chomping).
Proof.
  intros T L. assert (N : label m <> y_eoi) by (destruct L as [-> | ->]; discriminate).
  destruct (tree_run m T N) as (em & s & k & rest & k' & -> & R).
  assert (K : exists pre i c, kids m = pre ++ [i; c] /\ label i = y_ml_indent /\ label c = y_ml_content /\ (pre = [] \/ exists h, pre = [h] /\ label h = y_chomping)).
  { destruct L as [L|L]; rewrite L in R; cbn [fst emit_in] in R;
      pose proof (runs_shn G 3 _ _ _ _ _ _ _ R) as S; cbv -[app label kids] in S; unpack;
      match goal with H : kids _ = _ |- _ => rewrite H end; cbn [app].
    all: first [exists []; eexists _, _; (split; [reflexivity|]); solve [eauto] | eexists [_], _, _; (split; [reflexivity|]); (split; [eassumption|]); (split; [eassumption|]); right; eexists; (split; [reflexivity|eassumption])]. }
  exact K.
Qed.
Lemma one_lines_no_nl c ls : tree c -> label c = y_ml_content -> consume c = CVal (VStrs ls) -> forall b, In b ls -> ~ In NL b.
Proof.
  intros T L V b I. pose proof (tree_good ut c T) as Gd. rewrite L in Gd. specialize (Gd eq_refl). unfold good in Gd. rewrite V, L in Gd.
  destruct Gd as (l & E & _ & F). injection E as <-. rewrite Forall_forall in F. apply F. exact I.
Qed.
Lemma chomp_val h : tree h -> label h = y_chomping -> exists ch, consume h = CVal (VChomp ch).
Proof.
  intros T L. destruct (tree_run h T) as (em & s & k & rest & k' & -> & R); [rewrite L; discriminate|]. rewrite L in R. cbn [fst emit_in] in R.
  assert (Nk : kids h = []).
  { pose proof (runs_shn G 3 _ _ _ _ _ _ _ R) as S. cbv -[app label kids] in S. unpack; auto. }
  pose proof (runs_shp G _ _ _ _ _ R eq_refl _ _ _ _ eq_refl 3) as S'. rewrite consume_node, Nk, L. cbn [map call_ cbind yact].
  cbn in S'. destruct S' as [[-> _]|[-> _]]; cbn; eauto.
Qed.
Lemma block_iff m : tree m -> label m = y_ml_literal \/ label m = y_ml_folded ->
  (bad_block m <-> (exists i, child y_ml_indent m i /\ consume i = CPanic) \/ locally m).
Proof.
  intros T L. assert (C : consumed (label m) = true) by (destruct L as [-> | ->]; reflexivity).
  destruct (kids_ok m T C) as (A & _). destruct (block_kids m T L) as (pre & i & c & E & Li & Lc & P).
  rewrite E in A. apply Forall_app in A as [Tpre A]. inversion A as [|? ? Ti A1]; subst. apply Forall_inv in A1 as Tc.
  assert (Ui : forall i', child y_ml_indent m i' -> i' = i).
  { intros i' [I' L']. rewrite E in I'. apply in_app_or in I' as [I'|[<-|[<-|[]]]]; [|reflexivity|congruence].
    destruct P as [->|(h & -> & Lh)]; [destruct I'|]. destruct I' as [<-|[]]. congruence. }
  assert (Uc : forall c', child y_ml_content m c' -> c' = c).
  { intros c' [I' L']. rewrite E in I'. apply in_app_or in I' as [I'|[<-|[<-|[]]]]; [|congruence|reflexivity].
    destruct P as [->|(h & -> & Lh)]; [destruct I'|]. destruct I' as [<-|[]]. congruence. }
  assert (Ii : child y_ml_indent m i) by (split; [rewrite E; apply in_or_app; right; now left|exact Li]).
  assert (Ic : child y_ml_content m c) by (split; [rewrite E; apply in_or_app; right; right; now left|exact Lc]).
  destruct (indent_iff i Ti Li) as [_ D]. destruct (content_lines c Tc Lc) as (ls & V & Hl & Hf).
  assert (Loc : forall o, consume i = CVal (VIndent o) -> (locally m <-> clean_multiline o ls = CPanic)).
  { intros o Vo.
    assert (Y : exists vs, vals_of (kids m) = CVal vs /\ forall mk, multiline mk vs = CPanic <-> clean_multiline o ls = CPanic).
    { destruct P as [->|(h & -> & Lh)].
      - exists [(y_ml_indent, VIndent o); (y_ml_content, VStrs ls)]. split; [rewrite E; apply vals_call; repeat constructor; auto|].
        intros mk. cbn [multiline]. destruct (clean_multiline o ls); cbn; split; congruence.
      - destruct (chomp_val h (Forall_inv Tpre) Lh) as [ch Vh].
        exists [(y_chomping, VChomp ch); (y_ml_indent, VIndent o); (y_ml_content, VStrs ls)]. split; [rewrite E; apply vals_call; repeat constructor; auto|].
        intros mk. cbn [multiline]. destruct (clean_multiline o ls); cbn; split; congruence. }
    destruct Y as (vs & Vs & Y). unfold locally. rewrite Vs. split.
    - intros (vs' & Q & Z). injection Q as <-. destruct L as [L|L]; rewrite L in Z; cbn [yact] in Z; now apply Y in Z.
    - intros Z. exists vs. split; [reflexivity|]. destruct L as [L|L]; rewrite L; cbn [yact]; now apply Y. }
  assert (Cut : forall w o, consume i = CVal (VIndent o) -> (cut_width (text i) c w <-> w = match o with Some n => n | None => match ls with l :: _ => count_ws l | [] => 0%N end end)
                  /\ (o = None -> ls <> [])).
  { intros w o Vo. destruct (content_val c Tc Lc) as (e & x & ps & t & k & _ & _ & _ & _ & _ & V').
    assert (Ne : ls <> []) by (rewrite V in V'; injection V' as ->; unfold blanks; destruct (utf8_len (text e)); discriminate).
    split; [|auto]. destruct D as [[Et Ve]|[(Et & w' & Iw & Ve)|(_ & _ & Ve)]]; [| |congruence]; rewrite Vo in Ve; injection Ve as ->.
    - unfold cut_width. destruct ls as [|l ls]; [contradiction|]. assert (Nl : ~ In NL l) by (apply (one_lines_no_nl c _ Tc Lc V); now left).
      split.
      + intros [[Z _]|(_ & l' & F & M)]; [contradiction|]. apply Hf in F as [r F]. injection F as -> _. now apply margin_count.
      + intros ->. right. split; [exact Et|]. exists l. split; [apply Hf; eauto|]. now apply margin_count.
    - unfold cut_width. split; [|intros ->; auto]. intros [[_ (_ & _ & ->)]|[Z _]]; [|contradiction]. now destruct Iw as (_ & _ & ->). }
  assert (Bad : forall o, consume i = CVal (VIndent o) ->
            (clean_multiline o ls = CPanic <-> exists w b, cut_width (text i) c w /\ content_line c b /\ b <> [] /\ ~ cuttable w b)).
  { intros o Vo. assert (X : exists w, clean_multiline o ls = clean_lines w ls /\ forall w', cut_width (text i) c w' <-> w' = w).
    { destruct o as [n|]; [exists n; split; [reflexivity|]; intros w'; apply (Cut w' (Some n) Vo)|].
      destruct (Cut 0%N None Vo) as [_ Ne]. destruct ls as [|l ls']; [now destruct Ne|]. exists (count_ws l). split; [reflexivity|].
      intros w'. apply (Cut w' None Vo). }
    destruct X as (w & -> & W). rewrite clean_panic. split.
    - intros (b & I & N & Q). exists w, b. split; [now apply W|]. split; [now apply Hl|]. auto.
    - intros (w' & b & W' & I & N & Q). apply W in W' as ->. exists b. split; [now apply Hl|]. auto. }
  split.
  - intros (_ & i' & c' & Hi & Hc & H). rewrite (Ui i' Hi), (Uc c' Hc) in *. destruct H as [[N H]|H].
    + left. exists i. split; [exact Ii|]. destruct D as [[Et _]|[(_ & w & Iw & _)|(_ & _ & Ve)]]; [contradiction|destruct H; eauto|exact Ve].
    + destruct D as [[Et Ve]|[(_ & w & Iw & Ve)|(_ & _ & Ve)]].
      * right. apply (Loc _ Ve), (Bad _ Ve), H.
      * right. apply (Loc _ Ve), (Bad _ Ve), H.
      * left. eauto.
  - intros H. split; [exact L|]. exists i, c. split; [exact Ii|]. split; [exact Ic|].
    destruct D as [[Et Ve]|[(Et & w & Iw & Ve)|(Et & Nw & Ve)]].
    + destruct H as [(i' & Hi & Q)|H]; [rewrite (Ui i' Hi) in Q; congruence|]. right. apply (Bad _ Ve), (Loc _ Ve), H.
    + destruct H as [(i' & Hi & Q)|H]; [rewrite (Ui i' Hi) in Q; congruence|]. right. apply (Bad _ Ve), (Loc _ Ve), H.
    + left. auto.
Qed.

(** ---- the whole tree ---- *)
Lemma act_cases m vs : tree m -> consumed (label m) = true -> yact (label m) (text m) vs = CPanic ->
  label m = y_ml_indent \/ label m = y_ml_literal \/ label m = y_ml_folded.
Proof.
  intros T C Q. destruct (in_dec (fun a b : yrule => ltac:(decide equality)) (label m) [y_ml_indent; y_ml_literal; y_ml_folded]) as [H|H];
    [cbn in H; intuition auto|exfalso].
  assert (N : label m <> y_eoi) by (intros E; rewrite E in Q; discriminate Q).
  destruct (tree_run m T N) as (em & s & k & rest & k' & -> & R).
  destruct (act_panic _ _ _ Q C) as [E|[E|[E|[E|[E|[E|[]]]]]]]; try (destruct H; rewrite <- E; cbn; tauto); rewrite <- E in *; cbn [fst emit_in] in R;
    pose proof (runs_shp G _ _ _ _ _ R eq_refl _ _ _ _ eq_refl 3) as S'; cbn in S'; decompose [or and] S'; subst;
    match goal with X : text m = _ |- _ => rewrite X in Q end; discriminate Q.
Qed.
Lemma local_cases m : tree m -> consumed (label m) = true -> locally m ->
  label m = y_ml_indent \/ label m = y_ml_literal \/ label m = y_ml_folded.
Proof. intros T C (vs & _ & Q). exact (act_cases m vs T C Q). Qed.
Lemma below_parent n m : below n m -> m = n \/ exists p, below n p /\ In m (kids p).
Proof.
  induction 1 as [n|n c m I B IH]; [now left|right]. destruct IH as [->|(p & Bp & Ip)]; [exists n; split; [constructor|exact I]|].
  exists p. split; [econstructor; eauto|exact Ip].
Qed.
Lemma below_snoc n p m : below n p -> In m (kids p) -> below n m.
Proof. induction 1; intros H'; econstructor; eauto. constructor. Qed.
Lemma below_trans n m x : below n m -> below m x -> below n x.
Proof. induction 1; intros H'; [exact H'|]. econstructor; eauto. Qed.
Lemma tree_panics n : tree n -> consumed (label n) = true -> label n <> y_ml_indent -> (consume n = CPanic <-> exists m, below n m /\ bad_block m).
Proof.
  intros T C N. rewrite (panic_local n T C). split.
  - intros (m & B & Lc). destruct (below_ok n m B T C) as [Tm Cm]. destruct (local_cases m Tm Cm Lc) as [L|L].
    + destruct (below_parent n m B) as [->|(p & Bp & Ip)]; [contradiction|]. destruct (below_ok n p Bp T C) as [Tp Cp].
      assert (Lp : label p = y_ml_literal \/ label p = y_ml_folded).
      { destruct (kids_ok p Tp Cp) as (_ & _ & [X|[X|X]]); auto. rewrite Forall_forall in X. now specialize (X m Ip). }
      exists p. split; [exact Bp|]. apply (block_iff p Tp Lp). left. exists m. split; [now split|]. apply (panic_local m Tm Cm).
      exists m. split; [constructor|exact Lc].
    + exists m. split; [exact B|]. apply (block_iff m Tm L). now right.
  - intros (m & B & Bad). destruct (below_ok n m B T C) as [Tm Cm]. pose proof (proj1 Bad) as L.
    apply (block_iff m Tm L) in Bad as [(i & [Ii Li] & Q)|Lc]; [|eauto].
    destruct (kids_ok m Tm Cm) as (A & B' & _). rewrite Forall_forall in A, B'.
    apply (panic_local i (A i Ii) (B' i Ii)) in Q as (x & Bx & Lx). exists x. split; [|exact Lx].
    apply (below_trans n m x B). econstructor; eassumption.
Qed.
Lemma parse_panics s : parse_yaml ut s = CPanic <->
  exists t n rest k m, runs G true (PRule y_yaml) s [] (Ok t [n] rest k) /\ below n m /\ bad_block m.
Proof.
  assert (X : forall t n rest k, runs G true (PRule y_yaml) s [] (Ok t [n] rest k) -> label n = y_yaml ->
                (consume n = CPanic <-> exists m, below n m /\ bad_block m)).
  { intros t n rest k R L. pose proof (runs_trees G y_end (y_eoi_only ut) _ _ _ _ _ R eq_refl _ _ _ _ eq_refl) as [T _]. inversion T; subst.
    apply tree_panics; [assumption|now rewrite L|rewrite L; discriminate]. }
  apply (parse_yaml_by ut (fun x => x = CPanic <-> exists t n rest k m, runs G true (PRule y_yaml) s [] (Ok t [n] rest k) /\ below n m /\ bad_block m) s).
  - intros F. split; [discriminate|]. intros (t & n & rest & k & m & R & _). pose proof (runs_det _ _ _ _ _ _ _ F R). discriminate.
  - intros t n rest k R L _ Gd. specialize (X t n rest k R L). split.
    + intros H. assert (Q : consume n = CPanic).
      { destruct (consume n) as [v| |] eqn:E; [|discriminate|reflexivity]. unfold good in Gd. rewrite E, L in Gd. destruct Gd as (d & -> & _). discriminate. }
      apply X in Q as (m & B & Bad). eauto 8.
    + intros (t' & n' & rest' & k' & m & R' & B). pose proof (runs_det _ _ _ _ _ _ _ R R') as E. injection E as _ <- _ _.
      rewrite (proj2 X); [reflexivity|]. eauto.
Qed.
Lemma parse_converts s t n rest k : runs G true (PRule y_yaml) s [] (Ok t [n] rest k) ->
  ((forall m, below n m -> ~ bad_block m) <-> exists d, parse_yaml ut s = CVal d).
Proof.
  intros R. destruct (parse_accepted ut s _ _ _ _ R) as [[d D]|[P _]].
  - split; [eauto|]. intros _ m B Bad. assert (parse_yaml ut s = CPanic) by (apply parse_panics; eauto 8). congruence.
  - split; [|intros [d D]; congruence]. intros H. apply parse_panics in P as (t' & n' & rest' & k' & m & R' & B & Bad).
    pose proof (runs_det _ _ _ _ _ _ _ R R') as E. injection E as _ <- _ _. now destruct (H m B).
Qed.
End Panic.
