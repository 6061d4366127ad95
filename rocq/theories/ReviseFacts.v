(** Files in the common layout are read as documents that can be written as YAML. *)
From Coq Require Import Lia.
From Verif Require Import Base Ast Path Insert Format Peg YamlGrammar Consume Spec_Parse Spec_Edit Spec_Local LocalFacts Spec_Yaml12 Spec_Portable PortableFacts
  Spec_Layout Spec_Common CommonFacts CommonExample UniqueBlock Spec_Amend AmendFacts Pretty Spec_Core Spec_Export Spec_Tidy TidyFacts.
Import ListNotations.

Lemma both_portable ut k i : both_key ut k i -> key_portable k.
Proof.
  intros K. destruct (key_start ut k i [] K) as [_ _]. destruct K as (((c & r & -> & N) & _) & P & L). split; [exact P|]. split.
  - rewrite app_length in L. lia.
  - intros m d s [-> | ->] _ E; injection E as -> _; destruct N as [N|[N|N]]; discriminate N.
Qed.
Lemma opt_names ut al : opt_name ut al -> names al.
Proof. destruct al; [|auto]. intros [_ H]. exact H. Qed.

Lemma flow_portable ut :
  (forall y s, cflow ut y s -> inline_portable FlowIn y /\ everywhere filled y) /\
  (forall l s, citems ut l s -> fold_right (fun x Q => inline_portable FlowIn x /\ Q) True l /\ fold_right (fun v Q => everywhere filled v /\ Q) True l) /\
  (forall l s, cpairs ut l s ->
    fold_right (fun kv Q => (match kv with (k, x) => plain FlowIn k /\ inline_portable FlowIn x end) /\ Q) True l /\
    fold_right (fun kv Q => (match kv with (_, v) => everywhere filled v end) /\ Q) True l).
Proof.
  apply cflow_all; intros; cbn [inline_portable everywhere fold_right] in *; repeat match goal with H : _ /\ _ |- _ => destruct H end;
    repeat split; auto; try discriminate; try (match goal with H : name _ _ |- _ => apply H end); match goal with H : anchor_name _ |- _ => apply H | _ => idtac end.
Qed.
Lemma flow_out ut y s : cflow ut y s -> match y with Unquoted _ => True | _ => inline_portable FlowOut y end.
Proof. intros H. destruct (proj1 (flow_portable ut) y s H) as [P _]. destruct y; exact I || exact P. Qed.
Lemma cline_portable ut y s : cline_value ut y s -> inline_portable FlowOut y /\ everywhere filled y.
Proof.
  intros H. assert (U : (exists u, y = Unquoted u) \/ cflow ut y s) by (destruct y; auto; left; eauto).
  destruct U as [(u & ->)|F].
  - destruct H as (_ & P & _). split; [exact P|]. cbn. split; [discriminate|exact I].
  - split; [|exact (proj2 (proj1 (flow_portable ut) y s F))]. pose proof (flow_out ut y s F) as O. destruct y; auto. apply H.
Qed.

Definition hfilled (l : list hashdata) : Prop := forall e, In (HElem e) l -> everywhere filled (a_value (he_value e)).
Definition afilled (l : list arraydata) : Prop := forall a, In (AElem a) l -> everywhere filled (a_value a).
Definition okv (x : aliased) (oc : option str) : Prop :=
  portable x /\ everywhere filled (a_value x) /\ match oc with Some c => on_line x /\ comment_text c | None => True end.
Definition okm (l : list hashdata) : Prop := map_rows l /\ hfilled l /\ exists e, In (HElem e) l.
Definition oks (l : list arraydata) : Prop := seq_rows l /\ afilled l /\ exists e, In (AElem e) l.

Lemma notes_rows cs l : notes cs -> map_rows l -> map_rows (hcomments_of cs ++ l).
Proof. intros N M. induction N as [|c cs C _ IH]; [exact M|]. cbn. now constructor. Qed.
Lemma notes_srows cs l : notes cs -> seq_rows l -> seq_rows (acomments_of cs ++ l).
Proof. intros N M. induction N as [|c cs C _ IH]; [exact M|]. cbn. now constructor. Qed.
Lemma in_hnotes e cs l : In (HElem e) (hcomments_of cs ++ l) -> In (HElem e) l.
Proof. induction cs; [auto|]. cbn. intros [H|H]; [discriminate|auto]. Qed.
Lemma in_anotes e cs l : In (AElem e) (acomments_of cs ++ l) -> In (AElem e) l.
Proof. induction cs; [auto|]. cbn. intros [H|H]; [discriminate|auto]. Qed.
Lemma notes_okm cs l : notes cs -> okm l -> okm (hcomments_of cs ++ l).
Proof.
  intros N (A & B & e & C). split; [now apply notes_rows|]. split.
  - intros x H. apply B. eapply in_hnotes; eauto.
  - exists e. apply in_or_app. now right.
Qed.
Lemma notes_oks cs l : notes cs -> oks l -> oks (acomments_of cs ++ l).
Proof.
  intros N (A & B & e & C). split; [now apply notes_srows|]. split.
  - intros x H. apply B. eapply in_anotes; eauto.
  - exists e. apply in_or_app. now right.
Qed.
Lemma entry_okm k x oc l : key_portable k -> okv x oc -> map_rows l -> hfilled l -> okm (HElem (mkHE k x) :: entry_comment oc ++ l).
Proof.
  intros K (P & F & C) M H. split; [|split].
  - destruct oc as [c|]; cbn [entry_comment app]; [apply MREntryC; tauto|now apply MREntry].
  - intros e [E|E]; [injection E as <-; exact F|]. destruct oc as [c|]; [destruct E as [E|E]; [discriminate E|]|]; exact (H e E).
  - eexists. now left.
Qed.
Lemma elem_oks x oc l : okv x oc -> seq_rows l -> afilled l -> oks (AElem x :: element_comment oc ++ l).
Proof.
  intros (P & F & C) M H. split; [|split].
  - destruct oc as [c|]; cbn [element_comment app]; [apply SRElemC; tauto|now apply SRElem].
  - intros e [E|E]; [injection E as <-; exact F|]. destruct oc as [c|]; [destruct E as [E|E]; [discriminate E|]|]; exact (H e E).
  - eexists. now left.
Qed.
Lemma hash_okv al l : names al -> okm l -> okv (mkA al (Hash l)) None.
Proof.
  intros N (M & F & E). split; [now apply PHash|]. split; [|exact I]. cbn [a_value]. apply everywhere_h. split; [|exact F].
  intros X. injection X as ->. destruct E as (e & []).
Qed.
Lemma array_okv al l : names al -> oks l -> okv (mkA al (Array l)) None.
Proof.
  intros N (M & F & E). split; [now apply PArray|]. split; [|exact I]. cbn [a_value]. apply everywhere_a. split; [discriminate|exact F].
Qed.
Lemma head_names ut n q m al h : head ut n q m al h -> names al.
Proof. intros [j|q' a j i ws m' A L]; [exact I|apply A]. Qed.
Lemma hnil : hfilled [].
Proof. intros e []. Qed.
Lemma anil : afilled [].
Proof. intros e []. Qed.

Lemma layout_portable ut :
  (forall t n last q x oc b s, cvalue ut t n last q x oc b s -> okv x oc) /\
  (forall n l b s, centries ut n l b s -> okm l) /\
  (forall n l b s, celements ut n l b s -> oks l).
Proof.
  apply cvalue_all.
  - intros t n last q al ja y oc j i s V A R C. destruct (cline_portable ut y s V) as [P F].
    assert (O : on_line (mkA al y)) by (split; [exact P|split; [exact (opt_names ut al A)|exact R]]).
    split; [now apply PLine|]. split; [exact F|]. destruct oc; [|exact I]. split; [exact O|apply C].
  - intros t n q al ja j m lit_ ch c l ls b s first C D M N A S F W. split; [|split; [|exact I]].
    + destruct lit_.
      * apply PLiteral; [exact (opt_names ut al A)|discriminate|exact F].
      * apply PFolded; [exact (opt_names ut al A)|discriminate|exact F|now apply W].
    + destruct lit_; cbn; (split; [discriminate|exact I]).
  - intros t n last q j ws cs m l b s L Q J N E IH. apply hash_okv; [exact I|]. now apply notes_okm.
  - intros t n last q j ws cs m l b s L Q J N E IH. apply array_okv; [exact I|]. now apply notes_oks.
  - intros t n last q al h k i m x oc b s H L K V IH. apply hash_okv; [exact (head_names _ _ _ _ _ _ H)|].
    rewrite <- (app_nil_r (entry_comment oc)). apply entry_okm; [exact (both_portable _ _ _ K)|exact IH|constructor|exact hnil].
  - intros t n last q al h k i m x oc b1 s1 ws cs l b s H K V IH GO N E IHE. apply hash_okv; [exact (head_names _ _ _ _ _ _ H)|].
    destruct (notes_okm cs l N IHE) as (A & B & _). apply entry_okm; [exact (both_portable _ _ _ K)|exact IH|exact A|exact B].
  - intros t n last q al h m x oc b1 s1 ws l b s H V IH GO E IHE. apply array_okv; [exact (head_names _ _ _ _ _ _ H)|].
    destruct IHE as (A & B & _). apply elem_oks; [exact IH|exact A|exact B].
  - intros n k i x oc b s K V IH. rewrite <- (app_nil_r (entry_comment oc)). apply entry_okm; [exact (both_portable _ _ _ K)|exact IH|constructor|exact hnil].
  - intros n k i x oc b1 s1 ws cs l b s K V IH GO N E IHE. destruct (notes_okm cs l N IHE) as (A & B & _).
    apply entry_okm; [exact (both_portable _ _ _ K)|exact IH|exact A|exact B].
  - intros n x oc b s V IH. rewrite <- (app_nil_r (element_comment oc)). apply elem_oks; [exact IH|constructor|exact anil].
  - intros n x oc b1 s1 ws cs l b s V IH GO N E IHE. destruct (notes_oks cs l N IHE) as (A & B & _). apply elem_oks; [exact IH|exact A|exact B].
Qed.

Theorem common_portable ut d y s : common ut d y s -> portable_doc d y /\ everywhere filled y.
Proof.
  intros [cs0 i ws cs n y' b s' cs1 z N0 N R Z].
  assert (V : okv (mkA None y') None /\ match y' with Hash (_ :: _) | Array (_ :: _) => True | _ => False end).
  { destruct R as [n l b s' E|n l b s' E].
    - pose proof (proj1 (proj2 (layout_portable ut)) _ _ _ _ E) as M. split; [now apply hash_okv|]. destruct M as (_ & _ & e & M). destruct l; [destruct M|exact I].
    - pose proof (proj2 (proj2 (layout_portable ut)) _ _ _ _ E) as M. split; [now apply array_okv|]. destruct M as (_ & _ & e & M). destruct l; [destruct M|exact I]. }
  destruct V as [(P & F & _) B]. split; [|exact F].
  replace (map (fun c => DComment (cl_text c)) cs) with (map DComment (map cl_text cs)) by apply map_map.
  apply PDoc; auto.
  - clear - N0. induction N0; constructor; auto.
  - clear - N. induction N; constructor; auto.
  - clear - Z. induction Z; constructor; auto.
Qed.

(** ---- from file to file ---- *)
Section File.
  Context (ut : unitab) (d : document) (y : yaml) (s : str) (C : common ut d y s).

  Lemma file_kept : exists x, parse_yaml ut s = CVal d /\ yaml_file x s /\ yaml_file x (format_doc d ++ [NL]).
  Proof.
    destruct (common_both ut d y s C) as [R F]. exists (Node None (content_of y)). split; [exact R|]. split; [exact F|].
    apply doc_wrote. exact (proj1 (common_portable ut d y s C)).
  Qed.
  Lemma file_amends G n d' : amends G n d d' -> revises G n s (format_doc d' ++ [NL]).
  Proof.
    intros (x & x' & A & B & T). exists x, x'. split; [|auto].
    destruct file_kept as (x0 & _ & F & W). now rewrite (file_one _ _ _ A W).
  Qed.
  Lemma file_insert p k h ow : last_key p = Some k -> key_portable k -> portable h -> everywhere filled (a_value h) ->
    (ow = false \/ on_line h \/ everywhere no_inline_comment y /\ everywhere no_inline_comment (a_value h)) ->
    parse_yaml ut s = CVal d /\ forall n d', insert_into_hash_doc p h ow d = (n, d') ->
    revises (fun l l' => gains k (node_of h) l l' \/ ow = true /\ sets k (node_of h) l l') n s (format_doc d' ++ [NL]).
  Proof. intros. split; [apply (common_both ut d y s C)|]. intros. apply file_amends. destruct (common_portable ut d y s C) as [P F]. eapply insert_amends; eassumption. Qed.
  Lemma file_rename p k new : last_key p = Some k -> key_portable new ->
    parse_yaml ut s = CVal d /\ forall n d', rename_field_doc p new d = (n, d') -> revises (rekeys k new) n s (format_doc d' ++ [NL]).
  Proof. intros. split; [apply (common_both ut d y s C)|]. intros. apply file_amends. destruct (common_portable ut d y s C) as [P F]. eapply rename_amends; eassumption. Qed.
  Lemma file_nest p k new : everywhere no_inline_comment y -> last_key p = Some k -> key_portable new ->
    parse_yaml ut s = CVal d /\ forall n d', to_object_doc p new d = (n, d') -> revises (nests k new) n s (format_doc d' ++ [NL]).
  Proof. intros. split; [apply (common_both ut d y s C)|]. intros. apply file_amends. destruct (common_portable ut d y s C) as [P F]. eapply nest_amends; eassumption. Qed.
  Lemma file_remove p k : everywhere no_comment y -> last_key p = Some k ->
    parse_yaml ut s = CVal d /\ forall n d', remove_from_hash_doc p d = (n, d') ->
    (In (DYaml (Hash [])) (items d') -> forall c r, items d <> DComment c :: r) -> revises (loses k) n s (format_doc d' ++ [NL]).
  Proof. intros. split; [apply (common_both ut d y s C)|]. intros. apply file_amends. destruct (common_portable ut d y s C) as [P F]. eapply remove_amends; eassumption. Qed.
  Lemma file_pretty : gentle false y -> stays y -> parse_yaml ut s = CVal d /\
    exists n m, yaml_file n s /\ yaml_file m (format_doc (pretty_doc d) ++ [NL]) /\ forall x, resolved n x <-> resolved m x.
  Proof.
    intros G S. destruct (common_both ut d y s C) as [R F]. split; [exact R|]. destruct (common_portable ut d y s C) as [P _].
    destruct (tidy_file d y P G S) as (c & A & _ & W). exists (Node None (content_of y)), (Node None c). split; [exact F|]. split; [exact W|].
    intros x. now apply alike_same.
  Qed.
End File.
