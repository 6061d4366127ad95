(** Every parsed document is neat. *)
From Coq Require Import ZArith.
From Verif Require Import Base Ast Num Peg PegFacts PegTree YamlGrammar Consume Spec_Parse
  Spec_Format Spec_Stable YamlTree YamlValues ParseFacts Reads Gives ParsedNeat.
Import ListNotations.

Section Neat.
Context (ut : unitab).
Notation G := (yaml_grammar ut).
Notation gives := (gives ut).
Notation refuses := (refuses ut).
Notation neat := (everywhere neat_node).

(** ---- lists of items ---- *)

Definition hd_neat (d : hashdata) : Prop :=
  match d with HElem e => neat (a_value (he_value e)) | _ => True end.
Definition ad_neat (d : arraydata) : Prop :=
  match d with AElem x => neat (a_value x) | _ => True end.
Definition hneat (l : list hashdata) : Prop := hash_placed l /\ Forall hd_neat l.
Definition aneat (l : list arraydata) : Prop := array_placed l /\ Forall ad_neat l.

Lemma hash_placed_app a b : hash_placed a -> hash_placed b -> hash_placed (a ++ b).
Proof.
  induction 1; intros; cbn; [apply HP_comment|apply HP_entry|apply HP_entry_comment|apply HP_entry|apply HP_entry_comment]; auto.
Qed.
Lemma array_placed_app a b : array_placed a -> array_placed b -> array_placed (a ++ b).
Proof.
  induction 1; intros; cbn; [apply AP_comment|apply AP_element|apply AP_element_comment|apply AP_element|apply AP_element_comment]; auto.
Qed.
Lemma hneat_app a b : hneat a -> hneat b -> hneat (a ++ b).
Proof. intros [A B] [C D]. split; [now apply hash_placed_app|]. apply Forall_app. auto. Qed.
Lemma aneat_app a b : aneat a -> aneat b -> aneat (a ++ b).
Proof. intros [A B] [C D]. split; [now apply array_placed_app|]. apply Forall_app. auto. Qed.
Lemma hneat_comments cs l : hneat l -> hneat (hcomments cs ++ l).
Proof.
  intros H. induction cs as [|c cs IH]; cbn; [exact H|]. destruct IH as [A B].
  split; constructor; auto. exact I.
Qed.
Lemma aneat_comments cs l : aneat l -> aneat (acomments cs ++ l).
Proof.
  intros H. induction cs as [|c cs IH]; cbn; [exact H|]. destruct IH as [A B].
  split; constructor; auto. exact I.
Qed.
Lemma hneat_concat l ls : hneat l -> Forall hneat ls -> hneat (l ++ concat ls).
Proof.
  intros H F. revert l H. induction F as [|x ls Hx F IH]; intros l H; cbn; [now rewrite app_nil_r|].
  rewrite app_assoc. apply IH. now apply hneat_app.
Qed.
Lemma aneat_concat l ls : aneat l -> Forall aneat ls -> aneat (l ++ concat ls).
Proof.
  intros H F. revert l H. induction F as [|x ls Hx F IH]; intros l H; cbn; [now rewrite app_nil_r|].
  rewrite app_assoc. apply IH. now apply aneat_app.
Qed.
Lemma neat_hash l : hneat l -> neat (Hash l).
Proof.
  intros [A B]. split; [exact A|]. clear A.
  induction B as [|d l H B IH]; cbn; [exact I|]. split; [|exact IH].
  destruct d as [c|c|[k [al v]]]; cbn in *; auto.
Qed.
Lemma neat_array l : aneat l -> neat (Array l).
Proof.
  intros [A B]. split; [exact A|]. clear A.
  induction B as [|d l H B IH]; cbn; [exact I|]. split; [|exact IH].
  destruct d as [c|c|[al v]]; cbn in *; auto.
Qed.
Lemma neat_inline_array l : Forall neat l -> neat (InlineArray l).
Proof.
  intros F. split; [exact I|]. induction F; cbn; [exact I|]. auto.
Qed.
Lemma neat_inline_hash l : Forall (fun kv : str * yaml => neat (snd kv)) l -> neat (InlineHash l).
Proof.
  intros F. split; [exact I|]. induction F as [|[k v] l H F IH]; cbn; [exact I|]. auto.
Qed.

(** ---- the values of the rules ---- *)

(** What can follow the value. *)
Definition after (y : yaml) (rest : str) : Prop := inline_kind y \/ no_comment rest.

Definition post (r : yrule) (s : str) (v : yval) (rest : str) : Prop :=
  match r with
  | y_string | y_inline_array_string | y_inline_value | y_inline_array_value | y_inline_array
  | y_inline_hash => exists y, v = VYaml y /\ neat y
  | y_inline_hash_element => exists k y, v = VPair k y /\ neat y
  | y_yaml_value => exists y, v = VYaml y /\ neat y /\ after y rest
  | y_hash => exists y, v = VYaml y /\ neat y /\ no_comment rest
      /\ (no_comment s -> no_break s -> starts_plain y)
  | y_array => exists y, v = VYaml y /\ neat y /\ after y rest /\ (no_comment s -> starts_plain y)
  | y_block_array => exists y, v = VYaml y /\ neat y /\ no_comment rest
      /\ (no_comment s -> starts_plain y)
  | y_document => exists y, v = VYaml y /\ neat y /\ (no_comment s -> no_break s -> starts_plain y)
  | y_alternative_hash | y_alternative_array => exists y, v = VYaml y /\ neat y /\ no_comment rest
  | y_aliased | y_ba_aliased | y_alt_aliased =>
      exists a, v = VAliased a /\ neat (a_value a) /\ after (a_value a) rest
  | y_hash_element =>
      exists e, v = VHElem e /\ neat (a_value (he_value e)) /\ after (a_value (he_value e)) rest
  | y_first_hash_element =>
      exists e l, v = VHData (HElem e :: l) /\ hneat (HElem e :: l) /\ no_comment rest
  | y_hash_element_data | y_alt_hash_cont =>
      exists l, v = VHData l /\ hneat l /\ no_comment rest
  | y_block_array_element =>
      exists x, v = VAElem (AElem x) /\ neat (a_value x) /\ after (a_value x) rest
  | y_first_block_array_element =>
      exists x l, v = VAData (AElem x :: l) /\ aneat (AElem x :: l) /\ no_comment rest
  | y_block_array_data => exists l, v = VAData l /\ aneat l /\ no_comment rest
  | _ => True
  end.

Lemma yact_literal t cvs v : yact y_ml_literal t cvs = CVal v -> exists ls c, v = VYaml (Literal ls c).
Proof.
  cbn [yact]. unfold multiline. intros H.
  repeat match type of H with match ?x with _ => _ end = _ => destruct x; try discriminate end;
    match type of H with cbind ?x _ = _ => destruct x; try discriminate end; cbn in H; inversion H; eauto.
Qed.
Lemma yact_folded t cvs v : yact y_ml_folded t cvs = CVal v -> exists ls c, v = VYaml (Folded ls c).
Proof.
  cbn [yact]. unfold multiline. intros H.
  repeat match type of H with match ?x with _ => _ end = _ => destruct x; try discriminate end;
    match type of H with cbind ?x _ = _ => destruct x; try discriminate end; cbn in H; inversion H; eauto.
Qed.
Lemma literal_neat n s k vs rest k' : gives n (R_ y_ml_literal) s k vs rest k' ->
  exists y, vs = [(y_ml_literal, VYaml y)] /\ neat y.
Proof.
  intros H. apply g_rule in H as (m & t & cvs & v & _ & _ & _ & Y & ->); [|reflexivity].
  apply yact_literal in Y as (ls & c & ->). eexists. split; [reflexivity|]. cbn. auto.
Qed.
Lemma folded_neat n s k vs rest k' : gives n (R_ y_ml_folded) s k vs rest k' ->
  exists y, vs = [(y_ml_folded, VYaml y)] /\ neat y.
Proof.
  intros H. apply g_rule in H as (m & t & cvs & v & _ & _ & _ & Y & ->); [|reflexivity].
  apply yact_folded in Y as (ls & c & ->). eexists. split; [reflexivity|]. cbn. auto.
Qed.
Lemma anchor_neat n s k vs rest k' : gives n (R_ y_anchor) s k vs rest k' ->
  exists y, vs = [(y_anchor, VYaml y)] /\ neat y.
Proof.
  intros H. apply g_rule in H as (m & t & cvs & v & _ & _ & _ & Y & ->); [|reflexivity].
  cbn [yact] in Y. exists (match v with VYaml y => y | _ => Anchor [] end).
  repeat match type of Y with match ?x with _ => _ end = _ => destruct x; try discriminate end.
  inversion Y; subst. cbn. auto.
Qed.
Lemma atomic_given n r s k vs rest k' : fst (G r) = Atomic -> gives n (R_ r) s k vs rest k' ->
  exists t v, yact r t [] = CVal v /\ vs = [(r, v)].
Proof.
  intros Em H. apply gives_runs in H as (t & ns & H & V & _). unfold R_ in H. inversion H; subst; [|discriminate].
  rewrite Em in V. cbn [wrap] in V. apply values_one in V as (cvs & v & -> & V & A). inversion V; subst. eauto.
Qed.
Lemma unquoted_given n r s k vs rest k' : r = y_unquoted_string \/ r = y_unquoted_inline_string ->
  gives n (R_ r) s k vs rest k' -> exists x, vs = [(r, VYaml (Unquoted x))].
Proof.
  intros Hr H. apply atomic_given in H as (t & v & Y & ->); [|destruct Hr; subst; reflexivity].
  destruct Hr; subst; cbn in Y; inversion Y; eauto.
Qed.

Definition gives_post (n : nat) : Prop := forall r s k vs rest k', fst (G r) = Normal ->
  gives n (R_ r) s k vs rest k' -> exists v, vs = [(r, v)] /\ post r s v rest.

Ltac gseq H v A :=
  let m := fresh "m" in let L := fresh "L" in let s := fresh "s" in let k := fresh "k" in
  let w := fresh "w" in
  apply g_seq in H as (m & v & s & k & w & L & A & H & ->).
Ltac galt H :=
  let m := fresh "m" in let L := fresh "L" in let R := fresh "R" in
  apply g_alt in H as (m & L & [H|[R H]]).
Ltac gquiet H :=
  match type of H with Gives.gives _ _ _ _ _ ?v _ _ =>
    assert (v = []) as -> by (eapply (g_quiet ut); [|exact H]; reflexivity) end; clear H.
Ltac gpost IH H P :=
  let v := fresh "v" in
  eapply IH in H as (v & -> & P); [|lia|reflexivity]; cbn [post] in P.
Ltac gpost2 IH H P :=
  let v := fresh "v" in let E := fresh "E" in
  eapply IH in H as (v & E & P); [|lia|reflexivity]; cbn [post] in P; inversion E; subst v; clear E.
Ltac typed H P :=
  let v := fresh "v" in
  match type of H with Gives.gives _ _ (R_ ?r) _ _ _ _ _ =>
    destruct (g_typed ut _ r _ _ _ _ _ ltac:(discriminate) eq_refl H) as (v & -> & P); cbn [vty] in P end.

Lemma many_pairs vss : Forall (fun vs => exists k y, vs = [(y_inline_hash_element, VPair k y)] /\ neat y) vss ->
  exists l, many as_pair (concat vss) = (l, []) /\ Forall (fun kv : str * yaml => neat (snd kv)) l.
Proof.
  induction 1 as [|vs vss (k & y & -> & N) F (l & E & Fl)]; cbn; [exists []; auto|].
  rewrite E. exists ((k, y) :: l). auto.
Qed.
Lemma many_inline vss : Forall (fun vs => exists y, vs = [(y_inline_array_value, VYaml y)] /\ neat y) vss ->
  exists l, many as_inline_value (concat vss) = (l, []) /\ Forall neat l.
Proof.
  induction 1 as [|vs vss (y & -> & N) F (l & E & Fl)]; cbn; [exists []; auto|].
  rewrite E. exists (y :: l). auto.
Qed.
Lemma many_hdata vss x : as_hdata x = None ->
  Forall (fun vs => exists l, vs = [(y_hash_element_data, VHData l)] /\ hneat l) vss ->
  exists ls, many as_hdata (concat vss ++ [x]) = (ls, [x]) /\ many as_hdata (concat vss) = (ls, []) /\ Forall hneat ls.
Proof.
  intros Hx. induction 1 as [|vs vss (l & -> & N) F (ls & E & E' & Fl)]; cbn; [rewrite Hx; exists []; auto|].
  cbn in E, E'. rewrite E, E'. exists (l :: ls). auto.
Qed.
Lemma many_adata vss x : as_adata x = None ->
  Forall (fun vs => exists l, vs = [(y_block_array_data, VAData l)] /\ aneat l) vss ->
  exists ls, many as_adata (concat vss ++ [x]) = (ls, [x]) /\ Forall aneat ls.
Proof.
  intros Hx. induction 1 as [|vs vss (l & -> & N) F (ls & E & Fl)]; cbn; [rewrite Hx; exists []; auto|].
  cbn in E. rewrite E. exists (l :: ls). auto.
Qed.

Lemma hneat_one e c s : neat (a_value (he_value e)) -> after (a_value (he_value e)) s ->
  (~ no_comment s -> hneat [HElem e; HInlineC c]) /\ hneat [HElem e].
Proof.
  intros N A. split.
  - intros C. destruct A as [A|A]; [|contradiction]. split; [now constructor|].
    constructor; [exact N|]. constructor; [exact I|constructor].
  - split; [constructor|]. constructor; [exact N|constructor].
Qed.
Lemma aneat_one x c s : neat (a_value x) -> after (a_value x) s ->
  (~ no_comment s -> aneat [AElem x; AInlineC c]) /\ aneat [AElem x].
Proof.
  intros N A. split.
  - intros C. destruct A as [A|A]; [|contradiction]. split; [now constructor|].
    constructor; [exact N|]. constructor; [exact I|constructor].
  - split; [constructor|]. constructor; [exact N|constructor].
Qed.

Lemma post_step n : (forall m, m < n -> gives_post m) -> gives_post n.
Proof.
  intros IH r s k vs rest k' Em H.
  assert (IH' : forall m r s k vs rest k', m < n -> fst (G r) = Normal ->
    gives m (R_ r) s k vs rest k' -> exists v, vs = [(r, v)] /\ post r s v rest).
  { intros. eapply IH; eassumption. }
  clear IH. pose proof H as H0.
  apply g_rule in H as (m & t & cvs & v & L & H & Es & Y & ->); [|exact Em].
  exists v. split; [reflexivity|].
  destruct r; try discriminate Em; try exact I; cbn [snd yaml_grammar] in H; cbn [post]; clear Em.
  all: clear H0.
  - (* string *)
    galt H; [|galt H].
    + apply unquoted_given in H as (x & ->); [|auto]. cbn in Y. inversion Y; subst.
      eexists. split; [reflexivity|]. cbn. auto.
    + apply double_quoted_given in H as (y & -> & N). cbn in Y. inversion Y; subst. eauto.
    + apply single_quoted_given in H as (y & -> & N). cbn in Y. inversion Y; subst. eauto.
  - (* inline array string *)
    galt H; [|galt H].
    + apply unquoted_given in H as (x & ->); [|auto]. cbn in Y. inversion Y; subst.
      eexists. split; [reflexivity|]. cbn. auto.
    + apply double_quoted_given in H as (y & -> & N). cbn in Y. inversion Y; subst. eauto.
    + apply single_quoted_given in H as (y & -> & N). cbn in Y. inversion Y; subst. eauto.
  - (* inline value *)
    galt H; [|galt H; [|galt H]].
    + apply anchor_neat in H as (y & -> & N). cbn in Y. inversion Y; subst. eauto.
    + gpost IH' H P. destruct P as (y & -> & N). cbn in Y. inversion Y; subst. eauto.
    + gpost IH' H P. destruct P as (y & -> & N). cbn in Y. inversion Y; subst. eauto.
    + gpost IH' H P. destruct P as (y & -> & N). cbn in Y. inversion Y; subst. eauto.
  - (* inline array value *)
    galt H; [|galt H; [|galt H]].
    + apply anchor_neat in H as (y & -> & N). cbn in Y. inversion Y; subst. eauto.
    + gpost IH' H P. destruct P as (y & -> & N). cbn in Y. inversion Y; subst. eauto.
    + gpost IH' H P. destruct P as (y & -> & N). cbn in Y. inversion Y; subst. eauto.
    + gpost IH' H P. destruct P as (y & -> & N). cbn in Y. inversion Y; subst. eauto.
  - (* inline array *)
    gseq H v1 A. gquiet A. gseq H v1 B. gquiet H. rewrite ?app_nil_r in Y. cbn [app] in Y.
    apply g_opt in B as (mo & Lo & [B|(_ & -> & _)]).
    + gseq B v2 C. gquiet C. gseq B v2 C. gpost IH' C P. destruct P as (y & -> & N).
      apply (g_star_all ut (fun _ => True) (fun vs => exists y, vs = [(y_inline_array_value, VYaml y)] /\ neat y)) in B; [|clear B|exact I].
      * destruct B as (vss & -> & F & _ & _). destruct (many_inline _ F) as (l & E & Fl).
        cbn in Y. rewrite E in Y. inversion Y; subst. exists (InlineArray (y :: l)). split; [reflexivity|].
        apply neat_inline_array. now constructor.
      * intros mm ss kk vv rr kk' LL B _. split; [|exact I].
        gseq B v3 C1. gquiet C1. gseq B v3 C1. gquiet C1. gseq B v3 C1. gquiet C1. cbn [app].
        gpost IH' B P. destruct P as (y5 & -> & N5). eauto.
    + cbn in Y. inversion Y; subst. exists (InlineArray []). split; [reflexivity|]. now apply neat_inline_array.
  - (* block array element *)
    gseq H v1 A. gquiet A. gseq H v1 A. gquiet A. gpost IH' H P. destruct P as (a & -> & N & F).
    cbn in Y. inversion Y; subst. eauto.
  - (* first block array element *)
    gseq H v1 A. gpost IH' A P. destruct P as (x & -> & N & F).
    apply opt_comment_given in H as [Q [(c & -> & C)| ->]]; cbn in Y; inversion Y; subst.
    + exists x, [AInlineC c]. split; [reflexivity|]. split; [|exact Q]. now apply (aneat_one x c _ N F).
    + exists x, []. split; [reflexivity|]. split; [|exact Q]. now apply (aneat_one x [] _ N F).
  - (* block array data *)
    gseq H v1 A. apply comments_given in A as (cs & -> & _). gseq H v1 A. gquiet A.
    gseq H v1 A. gpost IH' A P. destruct P as (x & -> & N & F).
    apply opt_comment_given in H as [Q [(c & -> & C)| ->]]; cbn in Y; inversion Y; subst.
    + eexists. split; [reflexivity|]. split; [|exact Q]. apply aneat_comments. now apply (aneat_one x c _ N F).
    + eexists. split; [reflexivity|]. split; [|exact Q]. apply aneat_comments. now apply (aneat_one x [] _ N F).
  - (* block array *)
    gseq H v1 A. apply comments_given in A as (cs & -> & _ & K). gseq H v1 A. gquiet A. gseq H v1 A. gquiet A.
    gseq H v1 A. gpost IH' A P. destruct P as (x & l & -> & N & F).
    gseq H v1 A. apply g_zss in A as [-> ->]. apply no_comment_drop in F.
    gseq H v1 A.
    apply (g_star_all ut no_comment (fun vs => exists l, vs = [(y_block_array_data, VAData l)] /\ aneat l)) in A; [|clear A|exact F].
    2:{ intros mm ss kk vv rr kk' LL B _. gseq B v3 C1. gquiet C1. gpost IH' B P. destruct P as (l5 & -> & N5 & F5).
        split; [|exact F5]. exists l5. split; [reflexivity|exact N5]. }
    destruct A as (vss & -> & Fv & Q & _). gseq H v1 A. apply g_drop in A as [-> ->].
    apply comments_given in H as (cs2 & -> & Q2 & K2). rewrite (K2 Q) in *.
    destruct (many_adata vss (y_commentnls, VStrs []) eq_refl Fv) as (ls & E & Fl).
    cbn [app yact] in Y. rewrite E in Y. inversion Y; subst. eexists. split; [reflexivity|].
    split; [|split; [exact Q2|]].
    + apply neat_array. apply aneat_comments. rewrite app_nil_r. now apply (aneat_concat (AElem x :: l)).
    + intros Hs. rewrite (K Hs). exact I.
  - (* array *)
    galt H.
    + typed H T. destruct T as (l & -> & _). gpost2 IH' H P. destruct P as (y & E & N). inversion E; subst.
      cbn in Y. inversion Y; subst. eexists. split; [reflexivity|]. split; [exact N|]. split; [left; exact I|]. intros _. exact I.
    + gpost IH' H P. destruct P as (y & -> & N & F & K).
      cbn in Y. inversion Y; subst. eexists. split; [reflexivity|]. split; [exact N|]. split; [right; exact F|exact K].
  - (* alternative array *)
    gseq H v1 A. gpost IH' A P. destruct P as (x & l & -> & N & _).
    gseq H v1 A. gquiet A. gseq H v1 A. gquiet A.
    gseq H v1 A. gpost IH' A P. destruct P as (x2 & l2 & -> & N2 & F).
    gseq H v1 A. apply g_zss in A as [-> ->]. apply no_comment_drop in F.
    gseq H v1 A.
    apply (g_star_all ut no_comment (fun vs => exists l, vs = [(y_block_array_data, VAData l)] /\ aneat l)) in A; [|clear A|exact F].
    2:{ intros mm ss kk vv rr kk' LL B _. gseq B v3 C1. gquiet C1. gpost IH' B P. destruct P as (l5 & -> & N5 & F5).
        split; [|exact F5]. exists l5. split; [reflexivity|exact N5]. }
    destruct A as (vss & -> & Fv & Q & _). gseq H v1 A. apply g_drop in A as [-> ->].
    apply comments_given in H as (cs2 & -> & Q2 & K2). rewrite (K2 Q) in *.
    destruct (many_adata vss (y_commentnls, VStrs []) eq_refl Fv) as (ls & E & Fl).
    cbn [app yact] in Y. rewrite E in Y. inversion Y; subst. eexists. split; [reflexivity|].
    split; [|exact Q2].
    apply neat_array. apply (aneat_app (AElem x :: l)); [exact N|]. cbn [acomments map]. rewrite app_nil_r.
    now apply (aneat_concat (AElem x2 :: l2)).
  - (* block array aliased *)
    galt H; gpost IH' H P; destruct P as (a & -> & N & F); cbn in Y; inversion Y; subst; eauto.
  - (* alt aliased *)
    gseq H v1 A. galt H; gpost IH' H P; destruct P as (y & -> & N & F);
      (apply g_opt in A as (mo & Lo & [A|(_ & -> & _)]);
       [gseq A v2 B; gquiet A; typed B T; destruct T as (a & -> & _)|]); cbn in Y; inversion Y; subst;
      eexists; (split; [reflexivity|]; split; [exact N|right; exact F]).
  - (* yaml value *)
    galt H; [|galt H; [|galt H; [|galt H]]].
    + gpost IH' H P. destruct P as (y & -> & N & F & _). cbn in Y. inversion Y; subst.
      eexists. split; [reflexivity|]. split; [exact N|right; exact F].
    + gpost IH' H P. destruct P as (y & -> & N & F & _). cbn in Y. inversion Y; subst. eauto.
    + pose proof (ml_end ut _ _ _ _ _ _ _ (or_introl eq_refl) H) as F.
      apply literal_neat in H as (y & -> & N). cbn in Y. inversion Y; subst.
      eexists. split; [reflexivity|]. split; [exact N|right; now apply line_end_no_comment].
    + pose proof (ml_end ut _ _ _ _ _ _ _ (or_intror eq_refl) H) as F.
      apply folded_neat in H as (y & -> & N). cbn in Y. inversion Y; subst.
      eexists. split; [reflexivity|]. split; [exact N|right; now apply line_end_no_comment].
    + typed H T. destruct T as (y' & -> & _ & K). gpost2 IH' H P. destruct P as (y & E & N). inversion E; subst.
      cbn in Y. inversion Y; subst.
      eexists. split; [reflexivity|]. split; [exact N|left; exact K].
  - (* aliased *)
    gseq H v1 A. gpost IH' H P; destruct P as (y & -> & N & F);
      (apply g_opt in A as (mo & Lo & [A|(_ & -> & _)]);
       [gseq A v2 B; gquiet A; typed B T; destruct T as (a & -> & _)|]); cbn in Y; inversion Y; subst;
      eexists; (split; [reflexivity|]; split; [exact N|exact F]).
  - (* hash element *)
    gseq H v1 A. typed A T. destruct T as (key & -> & _). clear A. gseq H v1 A. gquiet A. gseq H v1 A. gquiet A.
    gpost IH' H P. destruct P as (a & -> & N & F). cbn in Y. inversion Y; subst. eexists. split; [reflexivity|]. split; assumption.
  - (* first hash element *)
    gseq H v1 A. gpost IH' A P. destruct P as (e & -> & N & F).
    apply opt_comment_given in H as [Q [(c & -> & C)| ->]]; cbn in Y; inversion Y; subst.
    + exists e, [HInlineC c]. split; [reflexivity|]. split; [|exact Q]. now apply (hneat_one e c _ N F).
    + exists e, []. split; [reflexivity|]. split; [|exact Q]. now apply (hneat_one e [] _ N F).
  - (* hash element data *)
    gseq H v1 A. gquiet A. gseq H v1 A. apply comments_given in A as (cs & -> & _). gseq H v1 A. gquiet A.
    gseq H v1 A. gpost IH' A P. destruct P as (e & -> & N & F).
    apply opt_comment_given in H as [Q [(c & -> & C)| ->]]; cbn in Y; inversion Y; subst.
    + eexists. split; [reflexivity|]. split; [|exact Q]. apply hneat_comments. now apply (hneat_one e c _ N F).
    + eexists. split; [reflexivity|]. split; [|exact Q]. apply hneat_comments. now apply (hneat_one e [] _ N F).
  - (* hash *)
    gseq H v0 A0. pose proof A0 as A. gquiet A.
    gseq H v1 A. apply comments_given in A as (cs & -> & _ & K). gseq H v1 A. gquiet A. gseq H v1 A. gquiet A.
    gseq H v1 A. gpost IH' A P. destruct P as (e & l & -> & N & F).
    gseq H v1 A.
    apply (g_star_all ut no_comment (fun vs => exists l, vs = [(y_hash_element_data, VHData l)] /\ hneat l)) in A; [|clear A|exact F].
    2:{ intros mm ss kk vv rr kk' LL B _. gpost IH' B P. destruct P as (l5 & -> & N5 & F5).
        split; [|exact F5]. exists l5. split; [reflexivity|exact N5]. }
    destruct A as (vss & -> & Fv & Q & _). gseq H v1 A. apply g_drop in A as [-> ->].
    apply comments_given in H as (cs2 & -> & Q2 & K2). rewrite (K2 Q) in *.
    destruct (many_hdata vss (y_commentnls, VStrs []) eq_refl Fv) as (ls & E & _ & Fl).
    cbn [app yact] in Y. rewrite E in Y. inversion Y; subst. eexists. split; [reflexivity|].
    split; [|split; [exact Q2|]].
    + apply neat_hash. apply hneat_comments. rewrite app_nil_r. now apply (hneat_concat (HElem e :: l)).
    + intros Hs Hb. rewrite K; [exact I|].
      apply g_opt in A0 as (mo & Lo & [A0|(_ & _ & -> & _)]); [|exact Hs].
      exfalso. apply gives_runs in A0 as (t0 & ns0 & A0 & _ & _). apply nl_ok in A0 as (c & r & E0 & Hc).
      destruct (Hb _ _ E0). tauto.
  - (* alternative hash continuation *)
    gseq H v0 A. gquiet A.
    gseq H v1 A. apply comments_given in A as (cs & -> & _ & K). gseq H v1 A. gquiet A. gseq H v1 A. gquiet A.
    gseq H v1 A. gpost IH' A P. destruct P as (e & l & -> & N & F).
    gseq H v1 A.
    apply (g_star_all ut no_comment (fun vs => exists l, vs = [(y_hash_element_data, VHData l)] /\ hneat l)) in A; [|clear A|exact F].
    2:{ intros mm ss kk vv rr kk' LL B _. gpost IH' B P. destruct P as (l5 & -> & N5 & F5).
        split; [|exact F5]. exists l5. split; [reflexivity|exact N5]. }
    destruct A as (vss & -> & Fv & Q & _). apply g_drop in H as [-> ->].
    destruct (many_hdata vss (y_commentnls, VStrs []) eq_refl Fv) as (ls & _ & E & Fl).
    cbn [app yact] in Y. rewrite app_nil_r in Y. rewrite E in Y. inversion Y; subst. eexists. split; [reflexivity|].
    split; [|exact Q]. apply hneat_comments. now apply (hneat_concat (HElem e :: l)).
  - (* alternative hash *)
    gseq H v1 A. gpost IH' A P. destruct P as (e & l & -> & N & F). gseq H v1 A.
    apply g_opt in A as (mo & Lo & [A|(_ & -> & -> & _)]).
    + gpost IH' A P. destruct P as (l2 & -> & N2 & F2). apply comments_given in H as (cs & -> & Q & K).
      rewrite (K F2) in *. cbn in Y. inversion Y; subst. eexists. split; [reflexivity|]. split; [|exact Q].
      apply neat_hash. apply (hneat_app (HElem e :: l)); [exact N|]. now rewrite app_nil_r.
    + apply comments_given in H as (cs & -> & Q & K).
      rewrite (K F) in *. cbn in Y. inversion Y; subst. eexists. split; [reflexivity|]. split; [|exact Q].
      apply neat_hash. now rewrite app_nil_r.
  - (* inline hash element *)
    gseq H v1 A. typed A T. destruct T as (key & -> & _). clear A. gseq H v1 A. gquiet A. gseq H v1 A. gquiet A.
    gseq H v1 A. gquiet A. gpost IH' H P. destruct P as (y & -> & N). cbn in Y. inversion Y; subst. eauto.
  - (* inline hash *)
    gseq H v1 A. gquiet A. gseq H v1 B. gquiet H. rewrite ?app_nil_r in Y. cbn [app] in Y.
    apply g_opt in B as (mo & Lo & [B|(_ & -> & _)]).
    + gseq B v2 C. gquiet C. gseq B v2 C. gpost IH' C P. destruct P as (key & y & -> & N).
      apply (g_star_all ut (fun _ => True) (fun vs => exists k y, vs = [(y_inline_hash_element, VPair k y)] /\ neat y)) in B; [|clear B|exact I].
      * destruct B as (vss & -> & F & _ & _). destruct (many_pairs _ F) as (l & E & Fl).
        cbn in Y. rewrite E in Y. inversion Y; subst. exists (InlineHash ((key, y) :: l)). split; [reflexivity|].
        apply neat_inline_hash. now constructor.
      * intros mm ss kk vv rr kk' LL B _. split; [|exact I].
        gseq B v3 C1. gquiet C1. gseq B v3 C1. gquiet C1. gseq B v3 C1. gquiet C1. cbn [app].
        gpost IH' B P. destruct P as (key5 & y5 & -> & N5). eauto.
    + cbn in Y. inversion Y; subst. exists (InlineHash []). split; [reflexivity|]. now apply neat_inline_hash.
  - (* document *)
    galt H; gpost IH' H P.
    + destruct P as (y & -> & N & _ & K). cbn in Y. inversion Y; subst. eauto.
    + destruct P as (y & -> & N & _ & K). cbn in Y. inversion Y; subst. eexists. split; [reflexivity|]. split; [exact N|]. intros Hs _. now apply K.
Qed.

Lemma post_all n : gives_post n.
Proof. induction n as [n IH] using lt_wf_ind. now apply post_step. Qed.

(** ---- whole documents ---- *)

(** Blank lines are skipped as far as they go. *)
Notation one_blank := (PSeq y_zss y_nl).
Lemma blank_fail em s k : runs G em one_blank s k Fail -> no_break s.
Proof.
  intros H c r ->. inversion H; subst.
  - match goal with X : runs _ _ y_zss _ _ Fail |- _ => inversion X end.
  - match goal with X : runs _ _ y_zss _ _ (Ok _ _ _ _) |- _ => pose proof (zss_drop ut _ _ _ _ _ X eq_refl _ _ _ _ eq_refl) as E end.
    split; intros ->; cbn in E; subst;
      match goal with X : runs _ _ y_nl _ _ Fail |- _ => apply nl_fail in X as [? ?] end; congruence.
Qed.
Lemma plus_fail em e s k : runs G em (yplus e) s k Fail -> runs G em e s k Fail.
Proof.
  intros H. inversion H; subst; [assumption|].
  match goal with X : runs _ _ (PStar _) _ _ Fail |- _ => inversion X end.
Qed.
Lemma seq_fail_inv em a b s k : runs G em (PSeq a b) s k Fail ->
  runs G em a s k Fail \/ exists t ns s1 k1, runs G em a s k (Ok t ns s1 k1) /\ runs G em b s1 k1 Fail.
Proof. intros H. inversion H; subst; [auto|]. right. eauto 6. Qed.

(** [zs* nl (zs* nl)+] fails and [zs* nl] matches, or the former matches. *)
Lemma blanks_ok em s k t ns rest k' :
  runs G em (PSeq y_zss (PSeq y_nl (yplus one_blank))) s k (Ok t ns rest k') -> no_break rest.
Proof.
  intros H. apply seq_ok_inv in H as (? & ? & ? & ? & ? & ? & _ & _ & _ & H).
  apply seq_ok_inv in H as (? & ? & ? & ? & ? & ? & _ & _ & _ & H).
  apply seq_ok_inv in H as (? & ? & ? & ? & ? & ? & _ & _ & _ & H).
  pose proof (star_end ut _ _ _ _ _ H _ eq_refl _ _ _ _ eq_refl) as F. now apply blank_fail in F.
Qed.
Lemma blanks_one em s k t ns rest k' :
  runs G em (PSeq y_zss (PSeq y_nl (yplus one_blank))) s k Fail ->
  runs G em one_blank s k (Ok t ns rest k') -> no_break rest.
Proof.
  intros F H. apply seq_ok_inv in H as (? & ? & s1 & k1 & ? & ? & -> & -> & H1 & H2).
  apply seq_fail_inv in F as [F|(t1 & n1 & s2 & k2 & F1 & F)].
  { pose proof (runs_det _ _ _ _ _ _ _ H1 F). discriminate. }
  pose proof (runs_det _ _ _ _ _ _ _ H1 F1) as E. inversion E; subst.
  apply seq_fail_inv in F as [F|(t3 & n3 & s3 & k3 & F2 & F)].
  { pose proof (runs_det _ _ _ _ _ _ _ H2 F). discriminate. }
  pose proof (runs_det _ _ _ _ _ _ _ H2 F2) as E2. inversion E2; subst.
  apply plus_fail in F. now apply blank_fail in F.
Qed.
Lemma blanknl_given n s k vs rest k' : gives n (R_ y_blanknl) s k vs rest k' -> no_break rest.
Proof.
  intros H. apply gives_runs in H as (t & ns & H & _ & _). apply rule_ok_inv in H as (ns' & H).
  cbn [fst snd yaml_grammar emit_in] in H. inversion H; subst; [eapply blanks_ok|eapply blanks_one]; eassumption.
Qed.
Lemma blank_given n s k vs rest k' : gives n (R_ y_blank) s k vs rest k' -> no_break rest.
Proof.
  intros H. apply gives_runs in H as (t & ns & H & _ & _). apply rule_ok_inv in H as (ns' & H).
  cbn [fst snd yaml_grammar emit_in] in H. inversion H; subst; [eapply blanks_ok; eassumption|].
  match goal with X : runs _ _ (POpt _) _ _ _ |- _ => inversion X; subst end;
    [eapply blanks_one; eassumption|eapply blank_fail; eassumption].
Qed.
Lemma comments_no_break n s k vs rest k' : gives n (R_ y_commentnls) s k vs rest k' -> no_break s -> no_break rest.
Proof.
  intros H Hs. apply g_rule in H as (m & t & cvs & v & _ & H & _); [|reflexivity]. cbn [snd yaml_grammar] in H.
  destruct (g_star_all ut no_break (fun _ => True) (R_ y_commentnl) m s k cvs rest k') as (_ & _ & _ & X & _); auto.
  intros m0 s0 k0 vs0 rest0 k0' _ A _. split; [exact I|].
  apply g_rule in A as (m1 & t1 & cvs1 & v1 & _ & A & _); [|reflexivity]. cbn [snd yaml_grammar] in A.
  apply g_seq in A as (m2 & v2 & s2 & k2 & v3 & _ & _ & A & _). now apply blank_given in A.
Qed.

Lemma parsed_gives s d : parse_yaml ut s = CVal d ->
  exists n rest k', gives n (R_ y_yaml) s [] [(y_yaml, VDoc d)] rest k'.
Proof.
  apply (parse_yaml_by ut (fun x => x = CVal d ->
    exists n rest k', gives n (R_ y_yaml) s [] [(y_yaml, VDoc d)] rest k') s); [discriminate|].
  intros t n rest k Hr L _ _ H. destruct (eval_complete G _ _ _ _ _ Hr) as [m E].
  exists m, rest, k, t, [n]. split; [exact E|]. unfold values. cbn [map call_]. rewrite L.
  destruct (consume n) as [v| |]; try discriminate. destruct v; try discriminate. inversion H; subst. reflexivity.
Qed.

Theorem parsed_neat s d : parse_yaml ut s = CVal d ->
  doc_everywhere neat_node d /\ forall y, In (DYaml y) (items d) -> starts_plain y.
Proof.
  intros H. apply parsed_gives in H as (n & rest & k' & H).
  apply g_rule in H as (m & t & cvs & v & L & H & _ & Y & E); [|reflexivity]. inversion E; subst v. clear E.
  cbn [snd yaml_grammar] in H.
  gseq H v1 A. typed A T. destruct T as (before & -> & _). clear A.
  gseq H v1 A. gquiet A. gseq H v1 A. pose proof (blanknl_given _ _ _ _ _ _ A) as B1. gquiet A.
  gseq H v1 A. pose proof (comments_no_break _ _ _ _ _ _ A B1) as B2.
  apply comments_given in A as (cs & -> & C & _).
  gseq H v1 A. apply post_all in A as (yv & -> & y & -> & N & K); [|reflexivity].
  assert (X : exists cs2, items d = dcomments cs ++ [DYaml y] ++ dcomments cs2).
  { cbn [app yact] in Y. destruct (many as_comment _) as [cs2 r] in Y.
    destruct r as [|[r u] [|]]; try discriminate; destruct r; try discriminate. inversion Y; subst. exists cs2. reflexivity. }
  destruct X as (cs2 & E).
  assert (U : forall z, In (DYaml z) (items d) -> z = y).
  { intros z. rewrite E. unfold dcomments. intros I. apply in_app_or in I as [I|[I|I]].
    - apply in_map_iff in I as (c & Hc & _). discriminate.
    - now inversion I.
    - apply in_map_iff in I as (c & Hc & _). discriminate. }
  split; intros z Hz; rewrite (U z Hz); auto.
Qed.
End Neat.
