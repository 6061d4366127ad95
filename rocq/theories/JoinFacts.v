(** Lemmas for C82: files put together and cut off. *)
From Verif Require Import Base Ast Format Peg YamlGrammar Consume Spec_Parse Spec_Format FormatTree Spec_Join Spec_Layout LayoutTree.
Import ListNotations.

(** ---- canonical items ---- *)
Lemma entries_lead ut p l : Spec_Format.entries ut false p l -> Spec_Format.entries ut true p l.
Proof. intro H. inversion H; subst; [now constructor|now constructor|now apply Spec_Format.ECons|now apply Spec_Format.EConsC]. Qed.
Lemma elements_lead ut l : Spec_Format.elements ut false l -> Spec_Format.elements ut true l.
Proof. intro H. inversion H; subst; [now constructor|now constructor|now apply Spec_Format.NCons|now apply Spec_Format.NConsC]. Qed.
Lemma entries_comments ut cs l : Forall one_line cs -> Spec_Format.entries ut false Own l -> Spec_Format.entries ut true Own (map HComment cs ++ l).
Proof. intros F H. induction F as [|c cs C F IH]; cbn [map app]; [now apply entries_lead|now constructor]. Qed.
Lemma elements_comments ut cs l : Forall one_line cs -> Spec_Format.elements ut false l -> Spec_Format.elements ut true (map AComment cs ++ l).
Proof. intros F H. induction F as [|c cs C F IH]; cbn [map app]; [now apply elements_lead|now constructor]. Qed.
Lemma entries_join ut lead l r : Spec_Format.entries ut lead Own l -> Spec_Format.entries ut true Own r -> Spec_Format.entries ut lead Own (l ++ r).
Proof.
  intros H R. remember Own as p eqn:P. induction H as [p c l C H IH|lead p e K V|lead p e c K V A C|lead p e l K V N H IH|lead p e c l K V A C N H IH];
    subst p; cbn [app]; [constructor; auto| | | |].
  - apply Spec_Format.ECons; auto; discriminate.
  - apply Spec_Format.EConsC; auto; discriminate.
  - apply Spec_Format.ECons; auto.
  - apply Spec_Format.EConsC; auto.
Qed.
Lemma elements_join ut lead l r : Spec_Format.elements ut lead l -> Spec_Format.elements ut true r -> Spec_Format.elements ut lead (l ++ r).
Proof.
  intros H R. induction H as [c l C H IH|lead x V|lead x c V A C|lead x l V H IH|lead x c l V A C H IH]; cbn [app]; [constructor; auto| | | |].
  - apply Spec_Format.NCons; auto.
  - apply Spec_Format.NConsC; auto.
  - apply Spec_Format.NCons; auto.
  - apply Spec_Format.NConsC; auto.
Qed.
Lemma entries_some ut lead p l : Spec_Format.entries ut lead p l -> l <> [].
Proof. destruct 1; discriminate. Qed.
Lemma elements_some ut lead l : Spec_Format.elements ut lead l -> l <> [].
Proof. destruct 1; discriminate. Qed.

(** ---- the text of joined items ---- *)
Lemma mapi_app {A} (f : nat -> A -> str) l : forall i r, concat_mapi f i (l ++ r) = concat_mapi f i l ++ concat_mapi f (i + length l) r.
Proof.
  induction l as [|x l IH]; intros i r; cbn [app concat_mapi length]; [now rewrite Nat.add_0_r|]. rewrite IH, <- app_assoc.
  now replace (S i + length l) with (i + S (length l)) by lia.
Qed.
Lemma mapi_any {A} (f : nat -> A -> str) (F : forall i j x, f i x = f j x) l : forall i j, concat_mapi f i l = concat_mapi f j l.
Proof. induction l as [|x l IH]; intros i j; cbn [concat_mapi]; [reflexivity|]. now rewrite (F i j), (IH (S i) (S j)). Qed.
Lemma hash_text l r : l <> [] -> r <> [] -> format (Hash (l ++ r)) 0 None = format (Hash l) 0 None ++ format (Hash r) 0 None.
Proof.
  intros L R. cbn [format]. destruct l as [|x l]; [contradiction|]. destruct r as [|y r]; [contradiction|]. cbn [is_nil app].
  rewrite (app_comm_cons l (y :: r) x), mapi_app. f_equal. apply mapi_any. intros i j d. reflexivity.
Qed.
Lemma array_text l r : l <> [] -> r <> [] -> format (Array (l ++ r)) 0 None = format (Array l) 0 None ++ format (Array r) 0 None.
Proof.
  intros L R. cbn [format]. destruct l as [|x l]; [contradiction|]. destruct r as [|y r]; [contradiction|]. cbn [is_nil app].
  rewrite (app_comm_cons l (y :: r) x), mapi_app. f_equal. apply mapi_any. intros i j d. reflexivity.
Qed.
Lemma hash_comments_text cs l : l <> [] ->
  format (Hash (map HComment cs ++ l)) 0 None = flat_map format_docdata (map DComment cs) ++ format (Hash l) 0 None.
Proof.
  intros L. induction cs as [|c cs IH]; [reflexivity|]. cbn [map flat_map].
  change ((HComment c :: map HComment cs) ++ l) with ([@HComment yaml c] ++ (map HComment cs ++ l)).
  rewrite hash_text; [|discriminate|destruct cs; [exact L|discriminate]]. rewrite IH, <- app_assoc. f_equal. cbn. now rewrite app_nil_r.
Qed.
Lemma array_comments_text cs l : l <> [] ->
  format (Array (map AComment cs ++ l)) 0 None = flat_map format_docdata (map DComment cs) ++ format (Array l) 0 None.
Proof.
  intros L. induction cs as [|c cs IH]; [reflexivity|]. cbn [map flat_map].
  change ((AComment c :: map AComment cs) ++ l) with ([@AComment yaml c] ++ (map AComment cs ++ l)).
  rewrite array_text; [|discriminate|destruct cs; [exact L|discriminate]]. rewrite IH, <- app_assoc. f_equal. cbn. now rewrite app_nil_r.
Qed.

Lemma comments_inj a y z a' y' z' : map DComment a ++ DYaml y :: map DComment z = map DComment a' ++ DYaml y' :: map DComment z' -> a = a' /\ y = y' /\ z = z'.
Proof.
  revert a'. induction a as [|c a IH]; intros [|c' a'] H; try discriminate H; cbn in H.
  - injection H as -> H. split; [reflexivity|]. split; [reflexivity|]. revert H. revert z'. induction z as [|x z IH]; intros [|x' z'] H; try discriminate H; [reflexivity|].
    injection H as -> H. f_equal. now apply IH.
  - injection H as -> H. apply IH in H as (-> & -> & ->). auto.
Qed.
Lemma canon_parts ut cs a y z : canon_doc ut (mkDoc cs (map DComment a ++ DYaml y :: map DComment z)) <->
  Forall one_line cs /\ Forall one_line a /\ Forall one_line z /\ match y with Hash l => Spec_Format.entries ut false Own l | Array l => Spec_Format.elements ut false l | _ => False end.
Proof.
  split.
  - intros (F & a' & y' & z' & E & A & B & C). cbn [items] in E. apply comments_inj in E as (-> & -> & ->). auto.
  - intros (F & A & Z & C). split; [exact F|]. exists a, y, z. auto.
Qed.

Lemma joined_canon ut d e f : joined d e f -> canon_doc ut d -> canon_doc ut e -> canon_doc ut f.
Proof.
  intros J D E. destruct J as [cs a l z a' l' z'|cs a l z a' l' z']; apply canon_parts in D as (F & A & Z & C); apply canon_parts in E as (_ & A' & Z' & C');
    apply canon_parts; (split; [exact F|]); (split; [exact A|]); (split; [exact Z'|]).
  - apply entries_join; [exact C|]. apply entries_comments; [apply Forall_app; auto|exact C'].
  - apply elements_join; [exact C|]. apply elements_comments; [apply Forall_app; auto|exact C'].
Qed.
Lemma joined_text ut d e f : joined d e f -> canon_doc ut d -> canon_doc ut e ->
  exists r, format_doc e = lit "---" ++ r /\ format_doc f = format_doc d ++ r.
Proof.
  intros J D E. destruct J as [cs a l z a' l' z'|cs a l z a' l' z']; apply canon_parts in D as (F & A & Z & C); apply canon_parts in E as (_ & A' & Z' & C');
    unfold format_doc; cbn [leading items flat_map]; eexists; (split; [reflexivity|]);
    rewrite !flat_map_app; cbn [flat_map format_docdata].
  - rewrite hash_text; [|now apply entries_some in C|apply entries_some in C'; destruct (map HComment (z ++ a')); [exact C'|discriminate]].
    rewrite hash_comments_text by (now apply entries_some in C'). rewrite map_app, flat_map_app. now rewrite <- !app_assoc.
  - rewrite array_text; [|now apply elements_some in C|apply elements_some in C'; destruct (map AComment (z ++ a')); [exact C'|discriminate]].
    rewrite array_comments_text by (now apply elements_some in C'). rewrite map_app, flat_map_app. now rewrite <- !app_assoc.
Qed.
Lemma joined_reads ut d e f : joined d e f -> canon_doc ut d -> canon_doc ut e ->
  exists r, format_doc e = lit "---" ++ r /\ format_doc f = format_doc d ++ r /\ parse_yaml ut (format_doc d ++ r) = CVal f.
Proof.
  intros J D E. destruct (joined_text ut d e f J D E) as (r & R1 & R2). exists r. split; [exact R1|]. split; [exact R2|].
  rewrite <- R2. apply format_parse. eapply joined_canon; eauto.
Qed.

(** ---- cutting ---- *)
Lemma whole_tail_h x l r : whole_entries (x :: l) r -> l <> [] -> (forall c, l <> [HInlineC c]) -> whole_entries l r.
Proof.
  intros W N M. inversion W as [l0 f r0 X Q Y|l0 f k r0 Q Y].
  - destruct l0 as [|w l0]; [injection Q as _ Q; destruct (N (eq_sym Q))|]. injection Q as _ Q. rewrite <- Q. now constructor.
  - destruct l0 as [|w l0]; [injection Q as _ Q; destruct (M k (eq_sym Q))|]. injection Q as _ Q. rewrite <- Q. now constructor.
Qed.
Lemma entries_cut ut lead l r : whole_entries l r -> Spec_Format.entries ut lead Own (l ++ r) -> Spec_Format.entries ut lead Own l.
Proof.
  intros W H. remember Own as p eqn:P. remember (l ++ r) as m eqn:M. revert l W M.
  induction H as [p c m C H IH|lead p e K V|lead p e c K V A C|lead p e m K V N H IH|lead p e c m K V A C N H IH]; subst p; intros l W M.
  - destruct l as [|x l].
    { inversion W as [l0 ? ? ? Q|l0 ? ? ? Q]; subst; destruct l0; discriminate Q. }
    injection M as <- M. constructor; [exact C|]. apply IH; [reflexivity| |exact M].
    inversion W as [l0 e r0 X Q|l0 e k r0 Q]; subst; (destruct l0 as [|y l0]; [discriminate Q|]); injection Q as -> <-; now constructor.
  - destruct l as [|x [|y l]].
    + inversion W as [l0 ? ? ? Q|l0 ? ? ? Q]; subst; destruct l0; discriminate Q.
    + injection M as <- M. now constructor.
    + discriminate M.
  - destruct l as [|x [|y [|w l]]].
    + inversion W as [l0 ? ? ? Q|l0 ? ? ? Q]; subst; destruct l0; discriminate Q.
    + injection M as <- M. inversion W as [l0 f r0 X Q|l0 f k r0 Q]; subst; [destruct (X c [] eq_refl)|].
      destruct l0 as [|? [|? ?]]; discriminate Q.
    + injection M as <- <- M. now constructor.
    + discriminate M.
  - destruct l as [|x l].
    { inversion W as [l0 ? ? ? Q|l0 ? ? ? Q]; subst; destruct l0; discriminate Q. }
    injection M as <- M. destruct l as [|y l]; [now constructor|].
    apply Spec_Format.ECons; auto. apply (IH eq_refl (y :: l)); [|exact M]. apply (whole_tail_h _ _ _ W); [discriminate|].
    intros c Q. injection Q as -> ->. rewrite M in H. inversion H.
  - destruct l as [|x l].
    { inversion W as [l0 ? ? ? Q|l0 ? ? ? Q]; subst; destruct l0; discriminate Q. }
    injection M as <- M. destruct l as [|y l].
    { cbn in M. subst r. inversion W as [l0 f r0 X Q|l0 f k r0 Q]; subst; [destruct (X c m eq_refl)|]. destruct l0 as [|? [|? ?]]; discriminate Q. }
    injection M as <- M. destruct l as [|w l]; [now constructor|].
    apply Spec_Format.EConsC; auto. apply IH; [reflexivity| |exact M].
    inversion W as [l0 f r0 X Q|l0 f k r0 Q]; subst.
    + destruct l0 as [|u [|v l0]]; try discriminate Q. injection Q as -> -> <-. now constructor.
    + destruct l0 as [|u [|v l0]]; try discriminate Q. injection Q as -> -> <-. now constructor.
Qed.
Lemma whole_tail_a x l r : whole_elements (x :: l) r -> l <> [] -> (forall c, l <> [AInlineC c]) -> whole_elements l r.
Proof.
  intros W N M. inversion W as [l0 f r0 X Q Y|l0 f k r0 Q Y].
  - destruct l0 as [|w l0]; [injection Q as _ Q; destruct (N (eq_sym Q))|]. injection Q as _ Q. rewrite <- Q. now constructor.
  - destruct l0 as [|w l0]; [injection Q as _ Q; destruct (M k (eq_sym Q))|]. injection Q as _ Q. rewrite <- Q. now constructor.
Qed.
Lemma elements_cut ut lead l r : whole_elements l r -> Spec_Format.elements ut lead (l ++ r) -> Spec_Format.elements ut lead l.
Proof.
  intros W H. remember (l ++ r) as m eqn:M. revert l W M.
  induction H as [c m C H IH|lead e V|lead e c V A C|lead e m V H IH|lead e c m V A C H IH]; intros l W M.
  - destruct l as [|x l].
    { inversion W as [l0 ? ? ? Q|l0 ? ? ? Q]; subst; destruct l0; discriminate Q. }
    injection M as <- M. constructor; [exact C|]. apply IH; [|exact M].
    inversion W as [l0 e r0 X Q|l0 e k r0 Q]; subst; (destruct l0 as [|y l0]; [discriminate Q|]); injection Q as -> <-; now constructor.
  - destruct l as [|x [|y l]].
    + inversion W as [l0 ? ? ? Q|l0 ? ? ? Q]; subst; destruct l0; discriminate Q.
    + injection M as <- M. now constructor.
    + discriminate M.
  - destruct l as [|x [|y [|w l]]].
    + inversion W as [l0 ? ? ? Q|l0 ? ? ? Q]; subst; destruct l0; discriminate Q.
    + injection M as <- M. inversion W as [l0 f r0 X Q|l0 f k r0 Q]; subst; [destruct (X c [] eq_refl)|].
      destruct l0 as [|? [|? ?]]; discriminate Q.
    + injection M as <- <- M. now constructor.
    + discriminate M.
  - destruct l as [|x l].
    { inversion W as [l0 ? ? ? Q|l0 ? ? ? Q]; subst; destruct l0; discriminate Q. }
    injection M as <- M. destruct l as [|y l]; [now constructor|].
    apply Spec_Format.NCons; auto. apply (IH (y :: l)); [|exact M]. apply (whole_tail_a _ _ _ W); [discriminate|].
    intros c Q. injection Q as -> ->. rewrite M in H. inversion H.
  - destruct l as [|x l].
    { inversion W as [l0 ? ? ? Q|l0 ? ? ? Q]; subst; destruct l0; discriminate Q. }
    injection M as <- M. destruct l as [|y l].
    { cbn in M. subst r. inversion W as [l0 f r0 X Q|l0 f k r0 Q]; subst; [destruct (X c m eq_refl)|]. destruct l0 as [|? [|? ?]]; discriminate Q. }
    injection M as <- M. destruct l as [|w l]; [now constructor|].
    apply Spec_Format.NConsC; auto. apply IH; [|exact M].
    inversion W as [l0 f r0 X Q|l0 f k r0 Q]; subst.
    + destruct l0 as [|u [|v l0]]; try discriminate Q. injection Q as -> -> <-. now constructor.
    + destruct l0 as [|u [|v l0]]; try discriminate Q. injection Q as -> -> <-. now constructor.
Qed.
Lemma whole_some_h l r : whole_entries l r -> l <> [].
Proof. destruct 1; destruct l; discriminate. Qed.
Lemma whole_some_a l r : whole_elements l r -> l <> [].
Proof. destruct 1; destruct l; discriminate. Qed.
Lemma cut_reads ut d e : canon_doc ut d -> cut d e -> exists r, format_doc d = format_doc e ++ r /\ parse_yaml ut (format_doc e) = CVal e.
Proof.
  intros D C. destruct C as [cs a l r z W|cs a l r z W]; apply canon_parts in D as (F & A & Z & C).
  - exists ((if is_nil r then [] else format (Hash r) 0 None) ++ flat_map format_docdata (map DComment z)). split.
    + unfold format_doc. cbn [leading items]. rewrite !flat_map_app. cbn [flat_map format_docdata]. rewrite app_nil_r. destruct r as [|x r].
      * rewrite app_nil_r. cbn [is_nil app]. now rewrite <- !app_assoc.
      * rewrite hash_text; [|now apply whole_some_h in W|discriminate]. cbn [is_nil]. now rewrite <- !app_assoc.
    + apply format_parse. change [DYaml (Hash l)] with (DYaml (Hash l) :: map DComment []). apply canon_parts. repeat split; auto. now apply entries_cut with (r := r).
  - exists ((if is_nil r then [] else format (Array r) 0 None) ++ flat_map format_docdata (map DComment z)). split.
    + unfold format_doc. cbn [leading items]. rewrite !flat_map_app. cbn [flat_map format_docdata]. rewrite app_nil_r. destruct r as [|x r].
      * rewrite app_nil_r. cbn [is_nil app]. now rewrite <- !app_assoc.
      * rewrite array_text; [|now apply whole_some_a in W|discriminate]. cbn [is_nil]. now rewrite <- !app_assoc.
    + apply format_parse. change [DYaml (Array l)] with (DYaml (Array l) :: map DComment []). apply canon_parts. repeat split; auto. now apply elements_cut with (r := r).
Qed.

(** ---- hand-written files ---- *)
Lemma layout_entries_join ut n l b s ws cs l' b' s' : Spec_Layout.entries ut n l b s -> gap_ok n b ws cs -> Spec_Layout.entries ut n l' b' s' ->
  Spec_Layout.entries ut n (l ++ hcomments_of cs ++ l') b' (s ++ gap ws cs ++ spaces n ++ s').
Proof.
  intros H G R. induction H as [n k i x oc b s K V|n k i x oc b1 s1 ws1 cs1 l b s K V G1 H IH].
  - rewrite <- !app_assoc. apply Spec_Layout.ECons with (b1 := b); auto.
  - rewrite <- app_comm_cons, <- !app_assoc. apply Spec_Layout.ECons with (b1 := b1); auto.
Qed.
Lemma layout_elements_join ut n l b s ws cs l' b' s' : Spec_Layout.elements ut n l b s -> gap_ok n b ws cs -> Spec_Layout.elements ut n l' b' s' ->
  Spec_Layout.elements ut n (l ++ acomments_of cs ++ l') b' (s ++ gap ws cs ++ spaces n ++ s').
Proof.
  intros H G R. induction H as [n x oc b s V|n x oc b1 s1 ws1 cs1 l b s V G1 H IH].
  - rewrite <- !app_assoc. apply Spec_Layout.NCons with (b1 := b); auto.
  - rewrite <- app_comm_cons, <- !app_assoc. apply Spec_Layout.NCons with (b1 := b1); auto.
Qed.
Lemma hand_maps ut cs0 i ws cs n l b s ws' cs' l' b' s' cs1 z : comments_ok cs0 -> comments_ok cs ->
  Spec_Layout.entries ut n l b s -> gap_ok n b ws' cs' -> Spec_Layout.entries ut n l' b' s' -> closing n b' cs1 z ->
  parse_yaml ut (comment_lines cs0 ++ lit "---" ++ spaces i ++ gap ws cs ++ spaces n ++ s ++ gap ws' cs' ++ spaces n ++ s' ++ z) =
    CVal (mkDoc (map cl_text cs0) (map (fun c => DComment (cl_text c)) cs ++ DYaml (Hash (l ++ hcomments_of cs' ++ l')) :: map DComment cs1)).
Proof.
  intros C0 C E G E' Z. apply layout_parse. pose proof (layout_entries_join ut n l b s ws' cs' l' b' s' E G E') as J.
  pose proof (Layout ut cs0 i ws cs n _ _ _ cs1 z C0 C (RMap ut n _ _ _ J) Z) as X. rewrite <- !app_assoc in X. exact X.
Qed.
Lemma hand_seqs ut cs0 i ws cs n l b s ws' cs' l' b' s' cs1 z : comments_ok cs0 -> comments_ok cs ->
  Spec_Layout.elements ut n l b s -> gap_ok n b ws' cs' -> Spec_Layout.elements ut n l' b' s' -> closing n b' cs1 z ->
  parse_yaml ut (comment_lines cs0 ++ lit "---" ++ spaces i ++ gap ws cs ++ spaces n ++ s ++ gap ws' cs' ++ spaces n ++ s' ++ z) =
    CVal (mkDoc (map cl_text cs0) (map (fun c => DComment (cl_text c)) cs ++ DYaml (Array (l ++ acomments_of cs' ++ l')) :: map DComment cs1)).
Proof.
  intros C0 C E G E' Z. apply layout_parse. pose proof (layout_elements_join ut n l b s ws' cs' l' b' s' E G E') as J.
  pose proof (Layout ut cs0 i ws cs n _ _ _ cs1 z C0 C (RSeq ut n _ _ _ J) Z) as X. rewrite <- !app_assoc in X. exact X.
Qed.
