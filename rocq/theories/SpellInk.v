(** The letters of an accepted file are those of the document, in the same order. *)
From Verif Require Import Base Ast Num Peg Consume YamlGrammar Spec_Parse Spec_Format Spec_Stable Spec_Path Spec_Panic Spec_Layout
  Spec_Flow Spec_Spell FlowReads SpellDoc.
Import ListNotations.

Scheme sval_mut := Minimality for val Sort Prop
  with sblock_mut := Minimality for block Sort Prop
  with sentry_mut := Minimality for entry Sort Prop
  with sentries_mut := Minimality for Spec_Spell.entries Sort Prop
  with selement_mut := Minimality for element Sort Prop
  with selements_mut := Minimality for Spec_Spell.elements Sort Prop.
Combined Scheme spell_all from sval_mut, sblock_mut, sentry_mut, sentries_mut, selement_mut, selements_mut.

Notation ik := (filter ink).
Lemma ik_app a b : ik (a ++ b) = ik a ++ ik b. Proof. apply filter_app. Qed.
Lemma ik_none w : (forall c, In c w -> ink c = false) -> ik w = [].
Proof.
  induction w as [|c w IH]; intros H; [reflexivity|]. cbn. rewrite (H c (or_introl eq_refl)). apply IH. intros d I. apply H. now right.
Qed.
Lemma ink_zs c : is_zs c = true -> ink c = false.
Proof.
  intros H. unfold ink. apply negb_false_iff. apply orb_true_iff. left. unfold is_zs in H. unfold is_ws.
  rewrite !orb_true_iff, ?andb_true_iff in H. rewrite !orb_true_iff, ?andb_true_iff. intuition.
Qed.
Lemma ik_seps z : seps z -> ik z = [].
Proof. intros H. apply ik_none. intros c I. apply ink_zs, H, I. Qed.
Lemma ik_loose z : loose z -> ik z = [].
Proof. intros H. apply ik_none. intros c I. destruct (H c I) as [->|[->| ->]]; reflexivity. Qed.
Lemma ik_spaces i : ik (spaces i) = [].
Proof. induction i; [reflexivity|exact IHi]. Qed.
Lemma ik_blanks b : blanks b -> ik b = [].
Proof.
  induction 1 as [|z c b Hz Hc Hb IH]; [reflexivity|]. rewrite ik_app, ik_seps by exact Hz. cbn. destruct Hc as [-> | ->]; exact IH.
Qed.
Lemma ik_break n : n = [] \/ line_break n -> ik n = [].
Proof. intros [->|[->|[->| ->]]]; reflexivity. Qed.
Lemma ik_gap w : w <> [] /\ (seps w \/ blanks w) -> ik w = [].
Proof. intros [_ [H|H]]; [now apply ik_seps|now apply ik_blanks]. Qed.
Lemma ik_remarks cs t : remarks cs t -> ik t = ik (concat cs).
Proof.
  induction 1 as [|z c b cs t Hz Hc Hb Br R IH]; [reflexivity|]. cbn [concat]. rewrite !ik_app, (ik_seps z), (ik_blanks b), IH by assumption.
  reflexivity.
Qed.
Lemma ik_heading a b h : heading a b h -> ik h = ik (concat a ++ concat b).
Proof.
  intros H. destruct H; rewrite !ik_app, ?(ik_blanks b), ?(ik_blanks b0), ?(ik_remarks cs t), ?(ik_remarks cs0 t0) by assumption; reflexivity.
Qed.
Lemma ik_finish a h : finish a h -> ik h = ik (concat a).
Proof.
  induction 1 as [b n Hb|b z c cs e Hb Hz Hc He F IH]; rewrite !ik_app, (ik_blanks b) by assumption; [apply ik_spaces|].
  rewrite (ik_seps z), IH by assumption. cbn [concat]. now rewrite ik_app.
Qed.
Definition name_of (al : option str) : str := match al with Some a => a | None => [] end.
Lemma ik_tag ut (fill : str -> Prop) al a : (forall w, fill w -> ik w = []) -> tag ut fill al a -> ik a = ik (name_of al).
Proof. intros F H. destruct H; [reflexivity|]. rewrite !ik_app, (F w), app_nil_r by assumption. reflexivity. Qed.

(** ---- inline collections ---- *)

Lemma ik_items ut : (forall y t, item ut y t -> ik t = ik (texts y)) /\
  (forall l t, row ut l t -> ik t = ik (flat_map texts l)) /\
  (forall l t, pairs ut l t -> ik t = ik (flat_map (fun kv => match kv with (k, v) => k ++ texts v end) l)).
Proof.
  apply item_all; intros; cbn [flat_map texts]; rewrite ?ik_app;
    repeat match goal with
    | H : seps _ |- _ => apply ik_seps in H
    | H : loose _ |- _ => apply ik_loose in H
    | H : ik _ = _ |- _ => rewrite H; clear H
    end; rewrite ?ik_app; cbn [app filter]; rewrite ?app_nil_r, <- ?app_assoc; reflexivity.
Qed.

(** ---- blocks ---- *)

Notation free := (everywhere unblocked).
Definition htext (d : hashdata) : str :=
  match d with HInlineC c | HComment c => c | HElem (mkHE k (mkA al v)) => k ++ name_of al ++ texts v end.
Definition atext (d : arraydata) : str :=
  match d with AInlineC c | AComment c => c | AElem (mkA al v) => name_of al ++ texts v end.
Definition hfree (d : hashdata) : Prop := match d with HElem (mkHE _ (mkA _ v)) => free v | _ => True end.
Definition afree (d : arraydata) : Prop := match d with AElem (mkA _ v) => free v | _ => True end.
Lemma free_hash l : free (Hash l) -> Forall hfree l.
Proof. intros [_ H]. induction l as [|d l IH]; constructor; cbn in H; [|tauto]. destruct H as [H _]. destruct d as [| |[k [al v]]]; exact H. Qed.
Lemma free_array l : free (Array l) -> Forall afree l.
Proof. intros [_ H]. induction l as [|d l IH]; constructor; cbn in H; [|tauto]. destruct H as [H _]. destruct d as [| |[al v]]; exact H. Qed.
Lemma texts_hash l : texts (Hash l) = flat_map htext l.
Proof. reflexivity. Qed.
Lemma texts_array l : texts (Array l) = flat_map atext l.
Proof. reflexivity. Qed.
Lemma hcomments_text cs : flat_map htext (map HComment cs) = concat cs.
Proof. induction cs as [|c cs IH]; cbn; [reflexivity|]. now rewrite IH. Qed.
Lemma acomments_text cs : flat_map atext (map AComment cs) = concat cs.
Proof. induction cs as [|c cs IH]; cbn; [reflexivity|]. now rewrite IH. Qed.
Lemma ik_remark oc r : remark oc r -> ik r = ik (flat_map htext (entry_comment oc)) /\ ik r = ik (flat_map atext (element_comment oc)).
Proof.
  destruct oc as [c|]; cbn; [intros (z & Hz & _ & ->)|intros ->; auto]. rewrite !ik_app, ik_seps by exact Hz. rewrite app_nil_r. auto.
Qed.
Lemma ik_bit ut y t : bit ut y t -> ik t = ik (texts y).
Proof.
  destruct (ik_items ut) as (_ & Hr & Hp).
  intros H. destruct H; rewrite ?ik_app; cbn [texts];
    repeat match goal with
    | H : seps _ |- _ => apply ik_seps in H
    | H : row _ _ _ |- _ => apply Hr in H
    | H : pairs _ _ _ |- _ => apply Hp in H
    | H : ik _ = _ |- _ => rewrite H; clear H
    end; rewrite ?ik_spaces; cbn [app filter]; rewrite ?app_nil_r; reflexivity.
Qed.
Lemma Forall_app1 {A} (P : A -> Prop) a b : Forall P (a ++ b) -> Forall P a /\ Forall P b.
Proof. apply Forall_app. Qed.

Ltac iks :=
  repeat match goal with
  | H : seps _ |- _ => apply ik_seps in H
  | H : loose _ |- _ => apply ik_loose in H
  | H : blanks _ |- _ => apply ik_blanks in H
  | H : remarks _ _ |- _ => apply ik_remarks in H
  | H : _ = [] \/ line_break _ |- _ => apply ik_break in H
  | H : tag _ seps _ _ |- _ => apply (ik_tag _ _ _ _ ik_seps) in H
  | H : tag _ loose _ _ |- _ => apply (ik_tag _ _ _ _ ik_loose) in H
  | H : _ /\ (seps _ \/ blanks _) |- _ => apply ik_gap in H
  | H : remark _ _ |- _ => apply ik_remark in H as [? ?]
  | H : Forall _ (_ ++ _) |- _ => apply Forall_app1 in H as [? ?]
  | H : free (Hash _) |- _ => apply free_hash in H
  | H : free (Array _) |- _ => apply free_array in H
  | H : ?A -> _, H2 : ?A |- _ => match type of A with Prop => specialize (H H2) end
  end.

Lemma seps_app a b : seps a -> seps b -> seps (a ++ b).
Proof. intros A B c I. apply in_app_or in I as [I|I]; auto. Qed.
Ltac own := repeat match goal with
  | H : seps ?p -> _, H2 : seps ?p |- _ => specialize (H H2)
  | H : seps (?p ++ ?z) -> _, H1 : seps ?p, H2 : seps ?z |- _ => specialize (H (seps_app p z H1 H2))
  end.
Ltac inks := repeat match goal with H : ik _ = _ |- _ => rewrite H; clear H end; rewrite ?ik_app, ?app_nil_r, <- ?app_assoc; try reflexivity.

Lemma ik_blocks ut :
  (forall p a s, val ut p a s -> seps p -> free (a_value a) -> ik s = ik (name_of (a_alias a) ++ texts (a_value a))) /\
  (forall p y s, block ut p y s -> seps p -> free y -> ik s = ik (texts y)) /\
  (forall p l s, entry ut p l s -> seps p -> Forall hfree l -> ik s = ik (flat_map htext l)) /\
  (forall p l s, Spec_Spell.entries ut p l s -> seps p -> Forall hfree l -> ik s = ik (flat_map htext l)) /\
  (forall p l s, element ut p l s -> seps p -> Forall afree l -> ik s = ik (flat_map atext l)) /\
  (forall p c l s, Spec_Spell.elements ut p c l s -> seps p -> Forall afree l -> ik s = ik (flat_map atext l)).
Proof.
  apply spell_all; intros; cbn [a_value a_alias] in *; own.
  - iks. rewrite !ik_app. inks.
  - iks. rewrite texts_hash, !ik_app. inks.
  - iks. rewrite texts_hash, !flat_map_app, hcomments_text, !ik_app. inks.
  - iks. rewrite texts_array, !flat_map_app, !ik_app. inks.
  - iks. rewrite texts_hash, !flat_map_app, hcomments_text, !ik_app. inks.
  - iks. rewrite texts_array, !flat_map_app, acomments_text, !ik_app. inks.
  - exfalso. destruct H. destruct lit_; match goal with H : free _ |- _ => destruct H as [[] _] end.
  - now apply (ik_bit ut).
  - match goal with H : Forall _ (_ :: _) |- _ => inversion H as [|? ? Hf _]; subst; clear H end. destruct a as [al v]. cbn [hfree a_value a_alias] in *.
    iks. cbn [flat_map htext]. rewrite !ik_app, ik_spaces. inks. destruct oc; reflexivity.
  - reflexivity.
  - iks. rewrite !flat_map_app, hcomments_text, !ik_app. inks.
  - match goal with H : Forall _ (_ :: _) |- _ => inversion H as [|? ? Hf _]; subst; clear H end. destruct a as [al v]. cbn [afree a_value a_alias] in *.
    iks. cbn [flat_map atext]. rewrite !ik_app. inks; destruct oc; reflexivity.
  - reflexivity.
  - iks. rewrite !flat_map_app, acomments_text, !ik_app. inks.
Qed.
Lemma ik_root ut y t : root ut y t -> free y -> ik t = ik (texts y).
Proof.
  destruct (ik_blocks ut) as (_ & _ & He & Hes & Hl & Hls). destruct (ik_items ut) as (_ & Hr & _).
  intros H F. destruct H.
  - apply free_hash, Forall_app1 in F as [F1 F2]. rewrite texts_hash, flat_map_app, !ik_app, ik_seps by assumption.
    now rewrite (He _ _ _ H0), (Hes _ _ _ H1).
  - apply free_array, Forall_app1 in F as [F1 F2]. rewrite texts_array, flat_map_app, !ik_app, (ik_seps k), (ik_seps z) by assumption.
    now rewrite (Hl _ _ _ H0), (Hls _ _ _ _ H2).
  - cbn [texts]. rewrite !ik_app, (Hr _ _ H). apply app_nil_r.
Qed.
Lemma dcomments_text cs : flat_map (fun i => match i with DComment c => c | DYaml y => texts y end) (map DComment cs) = concat cs.
Proof. induction cs as [|c cs IH]; cbn; [reflexivity|]. now rewrite IH. Qed.
Theorem spelled_ink ut d s : spelled ut d s -> doc_everywhere unblocked d -> ik s = ik (doc_texts d).
Proof.
  intros H F. destruct H as [cs0 cs h y s cs1 e Hh R Hf]. unfold doc_texts. cbn [leading items].
  rewrite flat_map_app. cbn [flat_map]. rewrite !dcomments_text, !ik_app.
  rewrite (ik_heading _ _ _ Hh), (ik_finish _ _ Hf), (ik_root ut y s R), !ik_app, <- app_assoc; [reflexivity|].
  apply F. cbn. apply in_or_app. right. now left.
Qed.
Theorem accepted_ink ut d s : parse_yaml ut s = CVal d -> doc_everywhere unblocked d -> ik s = ik (doc_texts d).
Proof. intros H. exact (spelled_ink ut d s (accepted_spelled ut s d H)). Qed.
Theorem same_ink ut d s t : parse_yaml ut s = CVal d -> parse_yaml ut t = CVal d -> doc_everywhere unblocked d -> ik s = ik t.
Proof. intros A B F. rewrite (accepted_ink ut d s A F). symmetry. exact (accepted_ink ut d t B F). Qed.
