(** Removed and moved entries: what is written is read back. *)
From Verif Require Import Base Ast Path Strings Peg YamlGrammar PathGrammar Consume Format Insert Spec_Insert InsertFacts4 InsertFacts5
  Spec_Path PathFacts Spec_Parse Spec_Format FormatTree Spec_Stable StableFacts Spec_Edit EditFacts EditFacts2
  Spec_Move MoveFacts Spec_Rearrange EditFacts3.
Import ListNotations.

(** ---- empty mappings ---- *)

Lemma concat_mapi_ext {A B} (f : nat -> A -> str) (g : nat -> B -> str) (h : A -> B) l :
  (forall i x, In x l -> g i (h x) = f i x) -> forall i, concat_mapi g i (map h l) = concat_mapi f i l.
Proof.
  induction l as [|x l IH]; intros H i; cbn; [reflexivity|]. rewrite H by now left. f_equal. apply IH. intros. apply H. now right.
Qed.

Lemma format_closed : forall y s par, format (closed y) s par = format y s par.
Proof.
  apply (yaml_ind' (fun y => forall s par, format (closed y) s par = format y s par)); try reflexivity.
  - intros l H s par. destruct l as [|d0 l0]; [reflexivity|]. set (l := d0 :: l0) in *.
    change (closed (Hash l)) with (Hash (map (fun d => match d with
      | HElem (mkHE k (mkA al v)) => HElem (mkHE k (mkA al (closed v))) | _ => d end) l)).
    cbn [format]. replace (is_nil (map _ l)) with false by reflexivity. replace (is_nil l) with false by reflexivity.
    apply concat_mapi_ext. intros i [c|c|[k [al v]]] X; try reflexivity. f_equal. rewrite Forall_forall in H. specialize (H _ X). cbn in H.
    destruct al; now rewrite H.
  - intros l H s par. destruct l as [|d0 l0]; [reflexivity|]. set (l := d0 :: l0) in *.
    cbn [format closed]. replace (is_nil (map _ l)) with false by reflexivity. replace (is_nil l) with false by reflexivity.
    apply concat_mapi_ext. intros i [c|c|[al v]] X; try reflexivity. f_equal. rewrite Forall_forall in H. specialize (H _ X). cbn in H.
    destruct al; now rewrite H.
Qed.
Lemma format_closed_doc d : format_doc (closed_doc d) = format_doc d.
Proof.
  unfold format_doc. cbn [leading items closed_doc]. f_equal. f_equal. induction (items d) as [|[c|y] l IH]; cbn; [reflexivity| |]; rewrite ?IH; [reflexivity|].
  now rewrite format_closed.
Qed.

Section Closed.
Context (ut : unitab).
Definition cd (d : hashdata) : hashdata :=
  match d with HElem (mkHE k (mkA al v)) => HElem (mkHE k (mkA al (closed v))) | _ => d end.
Definition ca (d : arraydata) : arraydata :=
  match d with AElem (mkA al v) => AElem (mkA al (closed v)) | _ => d end.
Lemma closed_cons d l : closed (Hash (d :: l)) = Hash (map cd (d :: l)).
Proof. reflexivity. Qed.

Lemma inline_filled : forall y, inline_canon ut y -> everywhere filled y.
Proof.
  apply (yaml_ind' (fun y => inline_canon ut y -> everywhere filled y)); try (intros; split; [discriminate|exact I]).
  - intros l H C. split; [discriminate|]. cbn in *. induction H as [|[k v] l Hv _ IH]; cbn in *; [exact I|]. destruct C as [[C1 C2] C3]. split; auto.
  - intros l H [].
  - intros l H C. split; [discriminate|]. cbn in *. induction H as [|v l Hv _ IH]; cbn in *; [exact I|]. destruct C as [C1 C2]. split; auto.
  - intros l H [].
Qed.
Lemma flow_filled y : flow_canon ut y -> everywhere filled y.
Proof. destruct y; try apply inline_filled. intros _. split; [discriminate|exact I]. Qed.

Lemma closed_pieces : forall y o, pieces ut o y -> pieces ut o (closed y).
Proof.
  apply (yaml_ind' (fun y => forall o, pieces ut o y -> pieces ut o (closed y))); try (intros; assumption).
  - intros l H o P. destruct l as [|d0 l0]; [exact I|]. rewrite closed_cons. set (l := d0 :: l0) in *.
    apply pieces_hash in P. apply pieces_hash. induction H as [|d l1 Hd _ IH]; [constructor|]. inversion P; subst.
    constructor; [|auto]. destruct d as [c|c|[k [al v]]]; auto. destruct H1 as (? & ? & ?). split; [assumption|]. split; [assumption|]. now apply Hd.
  - intros l H o P. apply pieces_array in P. destruct P as [[P1 P2] P]. apply (pieces_array ut o (map ca l)). split; [split|].
    + now destruct l.
    + intros O. rewrite map_length. auto.
    + clear P1 P2. induction H as [|d l1 Hd _ IH]; [constructor|]. inversion P; subst.
      constructor; [|auto]. destruct d as [c|c|[al v]]; auto. destruct H1 as (? & ?). split; [assumption|]. now apply Hd.
Qed.

Lemma closed_filled : forall y o, pieces ut o y -> everywhere filled (closed y).
Proof.
  apply (yaml_ind' (fun y => forall o, pieces ut o y -> everywhere filled (closed y))); try (intros; apply flow_filled; assumption);
    try (intros; split; [discriminate|exact I]).
  - intros l H o P. destruct l as [|d0 l0]; [split; [discriminate|exact I]|]. rewrite closed_cons. split; [discriminate|]. set (l := d0 :: l0) in *.
    apply pieces_hash in P. apply fold_Forall. induction H as [|d l1 Hd _ IH]; [constructor|]. inversion P; subst.
    constructor; [|auto]. destruct d as [c|c|[k [al v]]]; auto. destruct H1 as (? & ? & ?). eapply Hd; eassumption.
  - intros l H o P. apply pieces_array in P. destruct P as [_ P]. split; [discriminate|]. change (closed (Array l)) with (Array (map ca l)). apply fold_Forall.
    induction H as [|d l1 Hd _ IH]; [constructor|]. inversion P; subst.
    constructor; [|auto]. destruct d as [c|c|[al v]]; auto. destruct H1 as (? & ?). eapply Hd; eassumption.
Qed.

Lemma entry_count_cd l : length (filter is_entry (map cd l)) = length (filter is_entry l).
Proof. induction l as [|[c|c|[k [al v]]] l IH]; cbn; auto. Qed.

Lemma closed_firm : forall y h q al, firm h q al y -> firm h q al (closed y).
Proof.
  apply (yaml_ind' (fun y => forall h q al, firm h q al y -> firm h q al (closed y))); try (intros; assumption).
  - intros l H h q al F. destruct l as [|d0 l0]; [exact I|]. rewrite closed_cons. set (l := d0 :: l0) in *.
    destruct F as [F1 F2]. split.
    + intros A B C. apply (F1 A B). unfold one_entry in *. now rewrite entry_count_cd in C.
    + change (firm_entries (on_line q al) l) in F2. change (firm_entries (on_line q al) (map cd l)).
      clear F1. clearbody l. revert F2. generalize (on_line q al). clear -H. induction H as [|d l Hd _ IH]; [intros; exact I|].
      intros b F. destruct d as [c|c|[k [al' v]]]; cbn [map cd firm_entries] in *; auto. destruct F as [F1 F2]. split; [now apply Hd|now apply IH].
  - intros l H h q al F. change (closed (Array l)) with (Array (map ca l)). change (firm_elements (on_line q al) l) in F.
    change (firm_elements (on_line q al) (map ca l)). revert F. generalize (on_line q al). clear -H.
    induction H as [|d l Hd _ IH]; [intros; exact I|].
    intros b F. destruct d as [c|c|[al' v]]; cbn [map ca firm_elements] in *; auto. destruct F as [F1 F2]. split; [now apply Hd|now apply IH].
Qed.

(** ---- documents ---- *)

Lemma root_from y l : pieces ut false y -> firm false false None y -> everywhere filled y ->
  match y with
  | Hash l => entries ut false Own l
  | Array l => Spec_Format.elements ut false l
  | _ => y = InlineHash l
  end \/ match y with Hash _ | Array _ => False | _ => True end.
Proof.
  intros P F W. destruct y as [|l'| |l'| | | | | |]; try (right; exact I); left.
  - apply pieces_hash in P. destruct W as [W1 W2]. apply fold_Forall in W2.
    refine (entries_from ut l' _ false false _ _ _ _); [|intros ->; now apply W1|exact P|exact (proj2 F)|exact W2].
    apply Forall_forall. intros [c|c|[k [al v]]] _; try exact I. apply pieces_canon.
  - apply pieces_array in P. destruct W as [W1 W2]. apply fold_Forall in W2. destruct P as [[P1 _] P].
    apply (elements_from ut l'); [|exact P1|exact P|exact F|exact W2].
    apply Forall_forall. intros [c|c|[al v]] _; try exact I. apply pieces_canon.
Qed.

Definition mapped (op : yaml -> yaml) (d d' : document) : Prop :=
  leading d' = leading d
  /\ items d' = map (fun it => match it with DYaml y => DYaml (op y) | DComment c => DComment c end) (items d).


Lemma mapped_canon G op d d' : canon_doc ut d -> doc_everywhere no_comment d -> doc_everywhere (Gnode G) d ->
  (forall o y, parts ut G o y -> parts ut G o (op y) /\ same_kind y (op y)) -> mapped op d d' ->
  firm_doc d' -> rooted d' -> canon_doc ut (closed_doc d').
Proof.
  intros [L (a & y & b & Ei & Ha & Hb & C)] Q QG H [R1 R2] F W.
  split; [cbn; now rewrite R1|].
  assert (Hy : In (DYaml y) (items d)) by (rewrite Ei; apply in_or_app; right; now left).
  assert (E2 : items d' = map DComment a ++ DYaml (op y) :: map DComment b).
  { rewrite R2, Ei, map_app. cbn. f_equal; [|f_equal]; rewrite map_map; reflexivity. }
  exists a, (closed (op y)), b. split; [|split; [exact Ha|split; [exact Hb|]]].
  { cbn [closed_doc items]. rewrite E2, map_app. cbn. f_equal; [|f_equal]; rewrite map_map; reflexivity. }
  assert (Hy' : In (DYaml (op y)) (items d')) by (rewrite E2; apply in_or_app; right; now left).
  specialize (F _ Hy'). specialize (Q y Hy). specialize (QG y Hy). unfold rooted in W.
  assert (P : pieces ut false y).
  { destruct y; try contradiction; [|].
    - apply pieces_hash. exact (proj1 (proj2 (canon_pieces ut)) _ _ _ C Q).
    - apply pieces_array. destruct (proj2 (proj2 (canon_pieces ut)) _ _ C Q). split; [split; [assumption|discriminate]|assumption]. }
  destruct (H false y (pieces_parts ut G y false P QG)) as [P' K]. apply parts_pieces in P'.
  destruct (root_from (closed (op y)) [] (closed_pieces _ _ P') (closed_firm _ _ _ _ F) (closed_filled _ _ P')) as [X|X].
  - destruct y; try contradiction; destruct (op _) as [|l'| |l'| | | | | |]; try contradiction; try discriminate K; [|exact X].
    destruct l' as [|d0 l0]; [now destruct W|exact X].
  - destruct y; try contradiction; destruct (op _) as [|l'| |l'| | | | | |]; try contradiction; try discriminate K.
    destruct l' as [|d0 l0]; [now destruct W|contradiction].
Qed.

Lemma no_G d : doc_everywhere (Gnode (fun _ _ => True)) d.
Proof.
  intros y _. revert y. fix IH 1. intros [l|l|l|l|ps|ps|s|ls c|ls c|x]; (split; [cbn; auto|]); cbn; try exact I.
  - induction l as [|[k v] l IHl]; [exact I|split; [apply IH|exact IHl]].
  - induction l as [|[c|c|[k [al v]]] l IHl]; cbn; auto.
  - induction l as [|v l IHl]; [exact I|split; [apply IH|exact IHl]].
  - induction l as [|[c|c|[al v]] l IHl]; cbn; auto.
Qed.

Theorem remove_closed d p : canon_doc ut d -> doc_everywhere no_comment d ->
  let d' := snd (remove_from_hash_doc p d) in
  firm_doc d' -> rooted d' -> parse_yaml ut (format_doc d') = CVal (closed_doc d').
Proof.
  intros C Q d' F W. rewrite <- format_closed_doc. apply format_parse.
  apply (mapped_canon (fun _ _ => True) (fun y => snd (remove_from_hash p y)) d d' C Q (no_G d)); auto.
  - intros o y P. apply remove_parts; auto.
  - destruct (proj1 (proj2 (doc_edits p (mkA None (Unquoted [])) false [] [] d))) as (R1 & R2 & _). split; assumption.
Qed.
End Closed.
