(** The value of every parse tree node: no consumer error, panics only for block
    scalars, and well-formed results. *)
From Coq Require Import ZArith.
From Verif Require Import Base Ast Num Peg PegFacts PegTree YamlGrammar Consume Spec_Parse YamlTree.
Import ListNotations.

Section Values.
Context (ut : unitab).
Notation G := (yaml_grammar ut).

(** What holds at every node of a parsed tree. *)
Definition local_ok (y : yaml) : Prop := keys_plain ut y /\ inline_ok y /\ writable ut y.
Definition node_ok : yaml -> Prop := everywhere local_ok.
Definition aliased_ok (a : aliased) : Prop :=
  (forall s, a_alias a = Some s -> alias_ok ut s) /\ node_ok (a_value a).
Definition hd_ok (d : hashdata) : Prop :=
  match d with
  | HElem e => plain_key ut (he_key e) /\ aliased_ok (he_value e)
  | HComment c | HInlineC c => one_line c
  end.
Definition ad_ok (d : arraydata) : Prop :=
  match d with
  | AElem a => aliased_ok a
  | AComment c | AInlineC c => one_line c
  end.
Definition has_helem (l : list hashdata) : Prop := exists e, In (HElem e) l.
Definition has_aelem (l : list arraydata) : Prop := exists a, In (AElem a) l.
Definition root_kind (y : yaml) : Prop :=
  match y with Hash _ | Array _ | InlineArray _ => True | _ => False end.
Definition doc_ok (d : document) : Prop :=
  Forall one_line (leading d) /\
  exists a y b, items d = dcomments a ++ [DYaml y] ++ dcomments b /\ Forall one_line a
    /\ Forall one_line b /\ node_ok y /\ root_kind y.

(** The values of the rules that emit nodes. *)
Definition vty (r : yrule) (v : yval) : Prop :=
  match r with
  | y_eoi | y_removable_newline | y_single_quote => True
  | y_comment_text | y_comment | y_commentnl | y_block_string => exists s, v = VStr s /\ one_line s
  | y_alias_name | y_alias => exists s, v = VStr s /\ alias_ok ut s
  | y_hash_key => exists s, v = VStr s /\ plain_key ut s
  | y_anchor | y_inline_hash | y_unquoted_string | y_unquoted_inline_string
  | y_double_quoted | y_single_quoted | y_string | y_inline_array_string | y_inline_value
  | y_inline_array_value => exists y, v = VYaml y /\ node_ok y /\ inline_kind y
  | y_inline_array => exists l, v = VYaml (InlineArray l) /\ node_ok (InlineArray l)
  | y_ml_folded | y_ml_literal | y_yaml_value => exists y, v = VYaml y /\ node_ok y
  | y_array | y_hash | y_block_array | y_alternative_hash | y_alternative_array
  | y_document => exists y, v = VYaml y /\ node_ok y /\ root_kind y
  | y_inline_hash_element => exists k y, v = VPair k y /\ plain_key ut k /\ node_ok y /\ inline_kind y
  | y_esc_value => exists e, v = VEsc e
  | y_dq_text => exists s, v = VStr s /\ dq_ok (DQ_Str s)
  | y_sq_text => exists s, v = VStr s /\ sq_ok (SQ_Str s)
  | y_blank_lines => exists n, v = VNat n /\ 1 <= n
  | y_dq_part => exists p, v = VDq p /\ dq_ok p
  | y_sq_part => exists p, v = VSq p /\ sq_ok p
  | y_dq_content => exists ps, v = VDqs ps /\ Forall dq_ok ps
  | y_sq_content => exists ps, v = VSqs ps /\ Forall sq_ok ps
  | y_block_empty_lines | y_ml_trailing | y_commentnls | y_leading_comments =>
      exists l, v = VStrs l /\ Forall one_line l
  | y_ml_part | y_ml_content => exists l, v = VStrs l /\ l <> [] /\ Forall one_line l
  | y_chomping => exists c, v = VChomp c
  | y_ml_indent => exists i, v = VIndent i
  | y_aliased | y_ba_aliased | y_alt_aliased => exists a, v = VAliased a /\ aliased_ok a
  | y_hash_element => exists e, v = VHElem e /\ hd_ok (HElem e)
  | y_first_hash_element | y_hash_element_data | y_alt_hash_cont =>
      exists l, v = VHData l /\ Forall hd_ok l /\ has_helem l
  | y_block_array_element => exists a, v = VAElem (AElem a) /\ aliased_ok a
  | y_first_block_array_element | y_block_array_data =>
      exists l, v = VAData l /\ Forall ad_ok l /\ has_aelem l
  | y_yaml => exists d, v = VDoc d /\ doc_ok d
  | _ => False
  end.

(** The rules with a consumer function. *)
Definition consumed (r : yrule) : bool :=
  match r with
  | y_space | y_spaces | y_dis_inline_start | y_dis_inline | y_unq_inline_elements
  | y_unq_inline_start | y_dis_start | y_dis | y_unq_elements | y_unq_start | y_esc_char
  | y_single_quote_char | y_comment_base | y_blank | y_blanknl => false
  | _ => true
  end.

Definition may_panic (r : yrule) (t : str) : Prop := r = y_ml_indent \/ has_block_sign t.

Definition good (n : node yrule) : Prop :=
  match consume n with
  | CVal v => vty (label n) v
  | CErr => False
  | CPanic => may_panic (label n) (text n)
  end.

(** A list of nodes with values. *)
Definition valued (n : node yrule) (p : yrule * yval) : Prop :=
  fst p = label n /\ vty (label n) (snd p).

Lemma call_good ch : Forall good ch ->
  (exists vs, call_ (map (fun c => (label c, fold_node yaml_act c)) ch) = CVal vs
     /\ Forall2 valued ch vs)
  \/ (call_ (map (fun c => (label c, fold_node yaml_act c)) ch) = CPanic
     /\ Exists (fun n => may_panic (label n) (text n)) ch).
Proof.
  induction 1 as [|n ch H Hch IH]; cbn [map call_].
  - left. exists []. auto.
  - unfold good, consume in H. destruct (fold_node yaml_act n) as [v| |] eqn:E; cbn [cbind].
    + destruct IH as [(vs & -> & F)|[-> X]]; cbn [cbind].
      * left. exists ((label n, v) :: vs). split; [reflexivity|]. constructor; [split; [reflexivity|exact H]|exact F].
      * right. auto.
    + contradiction.
    + right. auto.
Qed.

(** ---- values from parts ---- *)

Lemma everywhere_inline_array l :
  local_ok (InlineArray l) -> Forall node_ok l -> node_ok (InlineArray l).
Proof.
  intros H F. split; [exact H|]. clear H.
  induction F; cbn [fold_right]; [exact I|]. split; assumption.
Qed.

Lemma everywhere_inline_hash l :
  local_ok (InlineHash l) -> Forall (fun kv => node_ok (snd kv)) l -> node_ok (InlineHash l).
Proof.
  intros H F. split; [exact H|]. clear H.
  induction F as [|[k v] l Hx F IH]; cbn [fold_right]; [exact I|]. split; assumption.
Qed.

Lemma node_hash l : Forall hd_ok l -> has_helem l -> node_ok (Hash l).
Proof.
  intros F E. split.
  - rewrite Forall_forall in F. split; [|split; [exact I|]].
    + intros e He. exact (proj1 (F _ He)).
    + split; [exact E|]. split.
      * intros e a He Ha. exact (proj1 (proj2 (F _ He)) _ Ha).
      * intros c [Hc|Hc]; exact (F _ Hc).
  - clear E. induction F as [|d l Hx F IH]; cbn [fold_right]; [exact I|]. split; [|exact IH].
    destruct d as [c|c|[k [al v]]]; try exact I. exact (proj2 (proj2 Hx)).
Qed.

Lemma node_array l : Forall ad_ok l -> has_aelem l -> node_ok (Array l).
Proof.
  intros F E. split.
  - rewrite Forall_forall in F. split; [exact I|split; [exact I|]].
    split; [exact E|]. split.
    + intros e a He Ha. exact (proj1 (F _ He) _ Ha).
    + intros c [Hc|Hc]; exact (F _ Hc).
  - clear E. induction F as [|d l Hx F IH]; cbn [fold_right]; [exact I|]. split; [|exact IH].
    destruct d as [c|c|[al v]]; try exact I. exact (proj2 Hx).
Qed.

Lemma node_inline_array l : Forall (fun y => node_ok y /\ inline_kind y) l -> node_ok (InlineArray l).
Proof.
  intros F. apply everywhere_inline_array.
  - split; [exact I|]. split; [|exact I]. rewrite Forall_forall in F. intros v Hv.
    exact (proj2 (F _ Hv)).
  - eapply Forall_impl; [|exact F]. intros v Hv. exact (proj1 Hv).
Qed.

Lemma node_inline_hash l :
  Forall (fun kv => plain_key ut (fst kv) /\ node_ok (snd kv) /\ inline_kind (snd kv)) l ->
  node_ok (InlineHash l).
Proof.
  intros F. apply everywhere_inline_hash.
  - rewrite Forall_forall in F. split; [|split; [|exact I]].
    + intros k v Hv. exact (proj1 (F _ Hv)).
    + intros k v Hv. exact (proj2 (proj2 (F _ Hv))).
  - eapply Forall_impl; [|exact F]. intros v Hv. exact (proj1 (proj2 Hv)).
Qed.

(** Scalars. *)
Lemma node_scalar y : is_scalar y = true -> local_ok y -> node_ok y.
Proof. intros S H. destruct y; try discriminate; (split; [exact H|exact I]). Qed.

Lemma comments_hd cs : Forall one_line cs -> Forall hd_ok (hcomments cs).
Proof. intros F. unfold hcomments. apply Forall_map. exact F. Qed.
Lemma comments_ad cs : Forall one_line cs -> Forall ad_ok (acomments cs).
Proof. intros F. unfold acomments. apply Forall_map. exact F. Qed.

Lemma has_helem_app a b : has_helem a \/ has_helem b -> has_helem (a ++ b).
Proof. intros [[e H]|[e H]]; exists e; apply in_or_app; auto. Qed.
Lemma has_aelem_app a b : has_aelem a \/ has_aelem b -> has_aelem (a ++ b).
Proof. intros [[e H]|[e H]]; exists e; apply in_or_app; auto. Qed.

(** Repeated children. *)
Lemma many_all {X} (f : yrule * yval -> option X) (P : X -> Prop) r ch vs tail :
  (forall v, vty r v -> exists x, f (r, v) = Some x /\ P x) ->
  Forall (fun n => label n = r) ch -> Forall2 valued ch vs ->
  (match tail with [] => True | x :: _ => f x = None end) ->
  exists xs, many f (vs ++ tail) = (xs, tail) /\ Forall P xs.
Proof.
  intros Hf L F Ht. induction F as [|n [r' v] ch vs [E V] F IH]; cbn [app many].
  - exists []. split; [|constructor]. destruct tail as [|x l]; cbn [many]; [reflexivity|]. now rewrite Ht.
  - inversion L as [|? ? Hl L']; subst. cbn [fst snd] in *. subst r'.
    destruct (Hf v V) as (x & -> & Px). destruct (IH L') as (xs & -> & Pxs).
    exists (x :: xs). auto.
Qed.

Lemma one_line_nil : one_line [].
Proof. split; intros []. Qed.

Lemma slice_suffix n s x : slice_from n s = Some x -> exists u, s = u ++ x.
Proof.
  revert n. induction s as [|c s IH]; intros n; cbn [slice_from].
  - destruct (n =? 0)%N; [|discriminate]. intros E. inversion E. now exists [].
  - destruct (n =? 0)%N; [intros E; inversion E; now exists []|].
    destruct (_ <=? _)%N; [|discriminate]. intros E. destruct (IH _ E) as (u & ->). now exists (c :: u).
Qed.

Lemma clean_lines_ok n ls : Forall one_line ls ->
  match clean_lines n ls with
  | CVal xs => length xs = length ls /\ Forall one_line xs
  | CErr => False
  | CPanic => True
  end.
Proof.
  induction 1 as [|l ls H F IH]; cbn [clean_lines]; [now split|].
  assert (X : forall x, (match l with [] => Some [] | _ => slice_from n l end) = Some x -> one_line x).
  { intros x E. destruct l as [|c l].
    - inversion E; subst. exact one_line_nil.
    - apply slice_suffix in E as (u & E). rewrite E in H. destruct H as [H1 H2].
      split; intros Hin; [apply H1|apply H2]; apply in_or_app; now right. }
  destruct (match l with [] => Some [] | _ => slice_from n l end) as [x|]; [|exact I].
  destruct (clean_lines n ls) as [xs| |]; cbn [cbind]; [|contradiction|exact I].
  destruct IH as [L Fx]. split; [cbn; now rewrite L|]. constructor; auto.
Qed.

Lemma clean_multiline_ok i ls : ls <> [] -> Forall one_line ls ->
  match clean_multiline i ls with
  | CVal xs => xs <> [] /\ Forall one_line xs
  | CErr => False
  | CPanic => True
  end.
Proof.
  intros Hne F. unfold clean_multiline.
  assert (X : forall n, match clean_lines n ls with
                        | CVal xs => xs <> [] /\ Forall one_line xs
                        | CErr => False | CPanic => True end).
  { intros n. pose proof (clean_lines_ok n ls F) as H. destruct (clean_lines n ls) as [xs| |]; auto.
    destruct H as [L H]. split; [|exact H]. intros ->. destruct ls; [congruence|discriminate]. }
  destruct i as [n|]; [apply X|]. destruct ls; [congruence|apply X].
Qed.

(** ---- the induction ---- *)

Lemma node_ind' (P : node yrule -> Prop) :
  (forall r t ch, Forall P ch -> P (Node r t ch)) -> forall n, P n.
Proof.
  intros H. fix IH 1. intros [r t ch]. apply H.
  induction ch as [|n ch IHch]; constructor; [apply IH|exact IHch].
Qed.

Lemma good_from r txt ch :
  Forall good ch -> Forall (fun n => incl (text n) txt) ch ->
  (Forall (fun n => label n <> y_ml_indent) ch \/ has_block_sign txt) ->
  (forall vs, Forall2 valued ch vs ->
     match yact r txt vs with
     | CVal v => vty r v
     | CErr => False
     | CPanic => may_panic r txt
     end) ->
  good (Node r txt ch).
Proof.
  intros Hg Hi Hp Hv. unfold good.
  change (consume (Node r txt ch)) with
    (cbind (call_ (map (fun c => (label c, fold_node yaml_act c)) ch)) (yact r txt)).
  change (label (Node r txt ch)) with r. change (text (Node r txt ch)) with txt.
  destruct (call_good ch Hg) as [(vs & -> & F)|[-> X]]; cbn [cbind].
  - now apply Hv.
  - right. destruct Hp as [Hp|Hp]; [|exact Hp].
    apply Exists_exists in X as (n & Hin & Hn). rewrite Forall_forall in Hi, Hp.
    destruct Hn as [Hn|Hn]; [now apply Hp in Hn|].
    specialize (Hi n Hin). destruct Hn as [Hn|Hn]; [left|right]; now apply Hi.
Qed.

(** Children of known rules. *)
Ltac unpack :=
  repeat match goal with
         | H : exists _, _ |- _ => destruct H
         | H : _ /\ _ |- _ => destruct H
         | H : _ \/ _ |- _ => destruct H
         | H : False |- _ => destruct H
         end; subst.

Ltac labels :=
  repeat match goal with
         | |- Forall _ (_ ++ _) => apply Forall_app; split
         | |- Forall _ (_ :: _) => constructor
         | |- Forall _ [] => constructor
         end;
  try match goal with
      | H : Forall (fun x => label x = _) ?l |- Forall _ ?l =>
          eapply Forall_impl; [|exact H]; cbv beta; let n := fresh in let E := fresh in
          intros n E; rewrite E; try reflexivity; try discriminate
      end;
  try match goal with
      | H : label ?x = _ |- _ => rewrite H; try reflexivity; try discriminate
      end;
  try discriminate.

Lemma good_all ch :
  Forall (fun n => consumed (label n) = true -> good n) ch ->
  Forall (fun n => consumed (label n) = true) ch -> Forall good ch.
Proof.
  intros H1 H2. rewrite Forall_forall in *. intros n Hn. auto.
Qed.

Ltac vals :=
  repeat match goal with
         | H : Forall2 valued (_ ++ _) _ |- _ =>
             apply Forall2_app_inv_l in H; destruct H as (? & ? & ? & ? & ?); subst
         | H : Forall2 valued (_ :: _) _ |- _ => inversion H; clear H; subst
         | H : Forall2 valued [] _ |- _ => inversion H; clear H; subst
         | H : valued ?n ?p |- _ =>
             destruct p; destruct H as [? ?]; cbn [fst snd] in *; subst
         | E : label ?n = _, V : vty (label ?n) _ |- _ => rewrite E in V; cbn [vty] in V
         | E : label ?n = _ |- context [label ?n] => rewrite E
         end.

Lemma forall_concat {X} (P : X -> Prop) (ls : list (list X)) :
  Forall (Forall P) ls -> Forall P (concat ls).
Proof. induction 1; cbn; [constructor|]. apply Forall_app; auto. Qed.

Ltac parts :=
  repeat first
    [ assumption
    | apply Forall_nil
    | apply Forall_cons
    | apply Forall_app; split
    | apply comments_hd
    | apply comments_ad
    | apply forall_concat ].
Ltac helem :=
  repeat first
    [ assumption
    | match goal with |- has_helem (HElem ?e :: _) => exists e; now left end
    | match goal with |- has_aelem (AElem ?e :: _) => exists e; now left end
    | apply has_helem_app; first [left; solve [helem]|right; solve [helem]]
    | apply has_aelem_app; first [left; solve [helem]|right; solve [helem]] ].
Ltac many_ f P r xs HF :=
  edestruct (many_all f P r) as (xs & -> & HF);
  [intros ? ?; cbn [vty] in *; unpack; eexists; split; [reflexivity|]; auto
  |eassumption|eassumption|try exact I; try reflexivity|cbv beta in HF].

Lemma seqb_lit_inv t a : seqb t a = false -> t <> a.
Proof. intros H ->. rewrite seqb_refl in H. discriminate. Qed.

Ltac block_scalar S' :=
  let C := fresh "C" in
  cbn [multiline];
  match goal with |- context [clean_multiline ?i ?l] =>
    pose proof (clean_multiline_ok i l ltac:(assumption) ltac:(assumption)) as C;
    destruct (clean_multiline i l); cbn [cbind] end;
  [eexists; split; [reflexivity|]; apply node_scalar; [reflexivity|]; split; [exact I|split; [exact I|exact C]]
  |exact C
  |right; cbn in S'; decompose [ex and] S'; subst; unfold has_block_sign; cbn [app In]; auto].

Lemma aliased_none y : node_ok y -> aliased_ok (mkA None y).
Proof. intros H. split; [discriminate|exact H]. Qed.
Lemma aliased_some a y : alias_ok ut a -> node_ok y -> aliased_ok (mkA (Some a) y).
Proof. intros Ha H. split; [intros s E; now inversion E; subst|exact H]. Qed.

(** The consumer of a rule on values of the right kinds. *)
Lemma step_act r txt ch s k rest k' vs :
  consumed r = true -> fst (G r) = Normal ->
  runs G true (snd (G r)) s k (Ok txt ch rest k') ->
  Forall2 valued ch vs ->
  match yact r txt vs with
  | CVal v => vty r v
  | CErr => False
  | CPanic => may_panic r txt
  end.
Proof.
  intros Hc Hm Hrun F.
  pose proof (runs_shn G 3 _ _ _ _ _ _ _ Hrun) as S.
  pose proof (runs_shp G _ _ _ _ _ Hrun eq_refl _ _ _ _ eq_refl 3) as S'.
  destruct r; try discriminate; clear Hc Hm;
    cbv -[app label] in S; unpack; cbn [app] in *;
    vals; unpack; cbn [yact many as_pair as_inline_value as_dq as_sq as_ml_part as_hdata as_adata as_commentnl as_comment vty];
    try solve [eauto 8].
  - (* hash_key *) eexists. split; [reflexivity|]. eapply key_text. eassumption.
  - (* alias_name *) eexists. split; [reflexivity|]. eapply alias_text. eassumption.
  - (* esc_value *) cbn in S'. decompose [or and] S'; subst; cbn; eauto.
  - eexists. split; [reflexivity|]. eapply dq_text_inv. eassumption.
  - eexists. split; [reflexivity|]. exact I.
  - (* dq_content *) rewrite <- (app_nil_r vs). many_ as_dq dq_ok y_dq_part xs HF. eauto.
  - eexists. split; [reflexivity|]. split; [|exact I]. apply node_scalar; [reflexivity|].
    repeat split; assumption.
  - (* single_quote *) cbn in S'. destruct S' as [-> _]. exact I.
  - (* blank_lines *) eexists. split; [reflexivity|].
    destruct S' as (t1 & t2 & n1 & n2 & -> & _ & [-> _] & (t3 & t4 & n3 & n4 & -> & _ & [-> _] & _)).
    cbn. lia.
  - eexists. split; [reflexivity|]. eapply sq_text_inv. eassumption.
  - (* sq_content *) rewrite <- (app_nil_r vs). many_ as_sq sq_ok y_sq_part xs HF. eauto.
  - eexists. split; [reflexivity|]. split; [|exact I]. apply node_scalar; [reflexivity|].
    repeat split; assumption.
  - (* ml_part *) eexists. split; [reflexivity|]. split; [destruct x0; discriminate|]. parts.
  - (* ml_content *)
    many_ as_ml_part (Forall one_line) y_ml_part xs HF.
    eexists. split; [reflexivity|]. split; [destruct x2; discriminate|]. parts.
  - (* ml_indent *)
    destruct txt; [eauto|]. destruct (parse_usize _) as [g|]; [|now left].
    destruct (g =? 0)%Z; [now left|eauto].
  - block_scalar S'.
  - block_scalar S'.
  - block_scalar S'.
  - block_scalar S'.
  - (* chomping *) cbn in S'. decompose [or and] S'; subst; cbn; eauto.
  - (* anchor *) eexists. split; [reflexivity|]. split; [|exact I].
    apply node_scalar; [reflexivity|]. split; [exact I|split; [exact I|assumption]].
  - eexists. split; [reflexivity|]. split; [assumption|exact I].
  - eexists. split; [reflexivity|]. split; [assumption|exact I].
  - eexists. split; [reflexivity|]. apply node_inline_array. constructor.
  - (* inline_array *)
    many_ as_inline_value (fun y => node_ok y /\ inline_kind y) y_inline_array_value xs HF.
    eexists. split; [reflexivity|]. apply node_inline_array. parts. split; assumption.
  - eexists. split; [reflexivity|]. split; [parts|helem].
  - eexists. split; [reflexivity|]. split; [parts|helem].
  - eexists. split; [reflexivity|]. split; [parts|helem].
  - eexists. split; [reflexivity|]. split; [parts|helem].
  - (* block_array *)
    many_ as_adata (fun l => Forall ad_ok l /\ has_aelem l) y_block_array_data xs HF.
    eexists. split; [reflexivity|]. split; [|exact I]. apply node_array; [parts|helem].
    eapply Forall_impl; [|exact HF]. now intros ? [? _].
  - eexists. split; [reflexivity|]. split; [assumption|exact I].
  - (* alternative_array *)
    many_ as_adata (fun l => Forall ad_ok l /\ has_aelem l) y_block_array_data xs HF.
    eexists. split; [reflexivity|]. split; [|exact I]. apply node_array; [parts|helem].
    eapply Forall_impl; [|exact HF]. now intros ? [? _].
  - eexists. split; [reflexivity|]. now apply aliased_none.
  - eexists. split; [reflexivity|]. now apply aliased_some.
  - eexists. split; [reflexivity|]. now apply aliased_none.
  - eexists. split; [reflexivity|]. now apply aliased_some.
  - eexists. split; [reflexivity|]. now apply aliased_none.
  - eexists. split; [reflexivity|]. now apply aliased_some.
  - eexists. split; [reflexivity|]. split; assumption.
  - eexists. split; [reflexivity|]. split; [parts|helem].
  - eexists. split; [reflexivity|]. split; [parts|helem].
  - eexists. split; [reflexivity|]. split; [parts|helem].
  - eexists. split; [reflexivity|]. split; [parts|helem].
  - (* hash *)
    many_ as_hdata (fun l => Forall hd_ok l /\ has_helem l) y_hash_element_data xs HF.
    eexists. split; [reflexivity|]. split; [|exact I]. apply node_hash; [parts|helem].
    eapply Forall_impl; [|exact HF]. now intros ? [? _].
  - (* alt_hash_cont *)
    many_ as_hdata (fun l => Forall hd_ok l /\ has_helem l) y_hash_element_data xs HF.
    eexists. split; [reflexivity|]. split; [parts|helem].
    eapply Forall_impl; [|exact HF]. now intros ? [? _].
  - eexists. split; [reflexivity|]. split; [|exact I]. apply node_hash; [parts|helem].
  - eexists. split; [reflexivity|]. split; [|exact I]. apply node_hash; [parts|helem].
  - eexists. split; [reflexivity|]. split; [|exact I]. apply node_inline_hash. constructor.
  - (* inline_hash *)
    many_ as_pair (fun kv => plain_key ut (fst kv) /\ node_ok (snd kv) /\ inline_kind (snd kv))
      y_inline_hash_element xs HF.
    eexists. split; [reflexivity|]. split; [|exact I]. apply node_inline_hash. parts.
    split; [assumption|split; assumption].
  - (* comment_text *) eexists. split; [reflexivity|]. eapply line_chars_inv. exact Hrun.
  - rewrite <- (app_nil_r vs). many_ as_commentnl one_line y_commentnl xs HF. eauto.
  - rewrite <- (app_nil_r vs). many_ as_commentnl one_line y_commentnl xs HF. eauto.
  - (* yaml *)
    many_ as_comment one_line y_comment xs HF.
    eexists. split; [reflexivity|]. split; [assumption|].
    do 3 eexists. split; [reflexivity|]. auto.
Qed.

Lemma step_kids r txt ch s k rest k' :
  consumed r = true -> fst (G r) = Normal ->
  runs G true (snd (G r)) s k (Ok txt ch rest k') ->
  Forall (fun n => consumed (label n) = true) ch /\
  (Forall (fun n => label n <> y_ml_indent) ch \/ has_block_sign txt).
Proof.
  intros Hc Hm Hrun.
  pose proof (runs_shn G 3 _ _ _ _ _ _ _ Hrun) as S.
  pose proof (runs_shp G _ _ _ _ _ Hrun eq_refl _ _ _ _ eq_refl 3) as S'.
  destruct r; try discriminate; clear Hc Hm;
    cbv -[app label] in S; unpack; cbn [app] in *;
    (split;
     [labels
     |first [left; solve [labels]
            |right; cbn in S'; decompose [ex and] S'; subst; unfold has_block_sign; cbn [app In]; auto]]);
    reflexivity.
Qed.
Lemma step r txt ch s k rest k' :
  consumed r = true -> fst (G r) = Normal ->
  runs G true (snd (G r)) s k (Ok txt ch rest k') ->
  Forall (fun n => consumed (label n) = true -> good n) ch ->
  Forall (fun n => incl (text n) txt) ch ->
  good (Node r txt ch).
Proof.
  intros Hc Hm Hrun Hg Hi. destruct (step_kids _ _ _ _ _ _ _ Hc Hm Hrun) as [K P].
  apply good_from; [now apply good_all|exact Hi|exact P|]. intros vs F. exact (step_act _ _ _ _ _ _ _ vs Hc Hm Hrun F).
Qed.

(** Atomic rules have no children. *)
Lemma step_atomic r txt s k rest k' :
  consumed r = true -> fst (G r) = Atomic ->
  runs G false (snd (G r)) s k (Ok txt [] rest k') ->
  good (Node r txt []).
Proof.
  intros Hc Hm Hrun. destruct r; try discriminate; clear Hc Hm; unfold good;
    change (consume (Node ?r txt [])) with (yact r txt []).
  - exists (Unquoted (trim_end_spaces txt)). split; [reflexivity|]. split; [|exact I].
    apply node_scalar; [reflexivity|]. split; [exact I|]. split; [|exact I].
    eapply unq_run_inv; [| |exact Hrun]; intros; [eapply unq_inline_start_inv|eapply unq_inline_el_inv]; eassumption.
  - exists (Unquoted (trim_end_spaces txt)). split; [reflexivity|]. split; [|exact I].
    apply node_scalar; [reflexivity|]. split; [exact I|]. split; [|exact I].
    eapply unq_run_inv; [| |exact Hrun]; intros; [eapply unq_start_inv|eapply unq_el_inv]; eassumption.
  - exists txt. split; [reflexivity|]. cbn [snd yaml_grammar] in Hrun.
    inversion Hrun; subst.
    + match goal with H : runs _ _ (yplus _) _ _ _ |- _ => apply seq_ok_inv in H as (t1 & n1 & s1 & k1 & t2 & n2 & -> & _ & H1 & H2) end.
      apply not_any_inv in H1 as (c & -> & -> & _ & F). apply nl_fail in F.
      apply line_chars_inv in H2 as [A B].
      split; intros [E|Hin]; try (apply F; exact E); auto; destruct F; congruence.
    + match goal with H : runs _ _ (yl "") _ _ _ |- _ => inversion H; subst end. exact one_line_nil.
  - exists (repeat [] (utf8_len txt)). split; [reflexivity|]. apply Forall_forall. intros x Hx.
    apply repeat_spec in Hx as ->. exact one_line_nil.
  - eexists. split; [reflexivity|]. apply Forall_map. apply Forall_forall. intros. exact one_line_nil.
Qed.

Definition y_end (r : yrule) : bool := match r with y_eoi => true | _ => false end.
Lemma y_eoi_only r : eoi_only y_end (snd (G r)) = true.
Proof. destruct r; reflexivity. Qed.

Theorem tree_good n : tree G y_end n -> consumed (label n) = true -> good n.
Proof.
  induction n as [r txt ch IH] using node_ind'. intros T Hc.
  inversion T; subst.
  - match goal with H : runs _ _ _ _ _ _ |- _ => rename H into Hrun end.
    assert (Hg : Forall (fun n => consumed (label n) = true -> good n) ns).
    { rewrite Forall_forall in *. intros n Hn. apply IH; auto. }
    cbn [label] in Hc. destruct (fst (G r)) eqn:Em; cbn [emit_in] in Hrun.
    + eapply step; eassumption.
    + contradiction.
    + pose proof (runs_silent G _ _ _ _ _ Hrun eq_refl _ _ _ _ eq_refl) as ->.
      eapply step_atomic; eassumption.
  - destruct r; try discriminate. exact I.
Qed.
End Values.
