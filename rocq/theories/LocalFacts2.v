(** The operations, one place of the text after the other. *)
From Coq Require Import Lia.
From Verif Require Import Base Ast Strings Path Insert Format YamlGrammar Consume Spec_Parse Spec_Stable Spec_Edit YamlValues ParseFacts
  StableFacts ParsedNeat2 Spec_Local LocalFacts.
Import ListNotations.

(** ---- documents ---- *)
Definition doc_step (F : list hashdata -> list hashdata -> Prop) (l l' : list docdata) : Prop :=
  exists b y y' c, l = b ++ DYaml y :: c /\ l' = b ++ DYaml y' :: c /\ at_place F y y'.

Lemma doc_loop F (g : docdata -> nat * docdata) (h : yaml -> nat * yaml) :
  (forall c, g (DComment c) = (0, DComment c)) ->
  (forall y, g (DYaml y) = let '(n, y') := h y in (n, DYaml y')) ->
  (forall y n y', h y = (n, y') -> times (at_place F) n y y') ->
  forall l n l', all_loop Nat.add (fun x => Some (g x)) 0 l = (n, l') -> times (doc_step F) n l l'.
Proof.
  intros Hc Hy Hh l n l' E. eapply (all_times (doc_step F)) with (b := []) in E.
  - destruct E as (m & -> & T). exact T.
  - intros b x c m x' G. injection G as G. destruct x as [cm|y].
    + rewrite Hc in G. injection G as <- <-. constructor.
    + rewrite Hy in G. destruct (h y) as [m0 y'] eqn:Ey. injection G as <- <-.
      apply (times_map (at_place F) _ (fun v => b ++ DYaml v :: c)); [|auto].
      intros v v' P. now exists b, v, v', c.
Qed.

Section Docs.
  Context (F : list hashdata -> list hashdata -> Prop) (k : str) (p : path) (K : last_key p = Some k).

  Lemma edit_doc_steps f d n d' :
    (forall l n l', f l k (key_index l k) = (n, l') -> n = 0 /\ l' = l \/ n = 1 /\ F l l') ->
    edit_hash_doc f p d = (n, d') -> leading d' = leading d /\ times (doc_step F) n (items d) (items d').
  Proof.
    intros Hf E. unfold edit_hash_doc in E.
    destruct (all_loop _ _ _ _) as [m l'] eqn:El. injection E as <- <-. split; [reflexivity|].
    eapply doc_loop; [..|exact El]; [reflexivity|intros y; cbn; reflexivity|].
    exact (edit_steps F k f Hf p K).
  Qed.

  Lemma each_doc_steps f d n d' :
    (forall b k0 v c n e, key_index b k = None -> k0 = k -> f (mkHE k0 v) = (n, e) -> n = 1 /\ F (b ++ HElem (mkHE k0 v) :: c) (b ++ HElem e :: c)) ->
    for_hash_doc 0 Nat.add f zero_r p d = (n, d') -> leading d' = leading d /\ times (doc_step F) n (items d) (items d').
  Proof.
    intros Hf E. unfold for_hash_doc in E.
    destruct (all_loop _ _ _ _) as [m l'] eqn:El. injection E as <- <-. split; [reflexivity|].
    eapply doc_loop; [..|exact El]; [reflexivity|intros y; cbn; reflexivity|].
    exact (each_steps F k f Hf p K).
  Qed.
End Docs.

Section Plain.
  Context (F : list hashdata -> list hashdata -> Prop) (Ed : str -> str -> str -> Prop).
  Context (Hext : forall o o' b b', Ed o o' b -> Ed o o' b').
  Context (Hhere : forall l l', F l l' -> forall sp par, patch Ed (format (Hash l) sp par) (format (Hash l') sp par)).

  Lemma doc_text l l' : doc_step F l l' -> patch Ed (flat_map format_docdata l) (flat_map format_docdata l').
  Proof.
    intros (b & y & y' & c & -> & -> & P). rewrite !flat_map_app. cbn [flat_map format_docdata].
    apply (patch_in False); [intros; eapply Hext; eassumption| |intros []].
    apply (place_text False F); [intros; eapply Hext; eassumption| |exact P|intros []].
    intros. now apply Hhere.
  Qed.
  Lemma file_text d n d' : leading d' = leading d /\ times (doc_step F) n (items d) (items d') ->
    times (patch Ed) n (format_doc d) (format_doc d').
  Proof.
    intros [L T]. unfold format_doc. rewrite L.
    apply (times_map (doc_step F) _ (fun l => flat_map (fun c => lit "#" ++ c ++ [NL]) (leading d) ++ lit "---" ++ flat_map format_docdata l));
      [|exact T].
    intros l l' S. rewrite !app_assoc. apply (patch_front False); [intros; eapply Hext; eassumption|]. now apply doc_text.
  Qed.
End Plain.

(** ---- the closures ---- *)
Lemma key_index_ctx k : forall l i, key_index l k = Some i ->
  exists b v c, l = b ++ HElem (mkHE k v) :: c /\ (forall x, set_nth i x l = b ++ x :: c) /\ remove_nth i l = b ++ c.
Proof.
  induction l as [|d l IH]; intros i H; [discriminate|]. cbn in H. destruct (hd_is_key k d) eqn:E.
  - injection H as <-. destruct d as [c|c|[k' v]]; try discriminate. cbn in E. apply seqb_eq in E. subst.
    exists [], v, l. auto.
  - destruct (key_index l k) as [j|]; [|discriminate]. injection H as <-.
    destruct (IH _ eq_refl) as (b & v & c & -> & H1 & H2). exists (d :: b), v, c. split; [reflexivity|].
    split; [intros x; cbn; now rewrite H1|cbn; now rewrite H2].
Qed.

Definition added (k : str) (h : aliased) (l l' : list hashdata) : Prop := l' = l ++ [HElem (mkHE k h)].
Definition replaced (k : str) (g : str -> aliased -> hash_element) (l l' : list hashdata) : Prop :=
  exists b v c, l = b ++ HElem (mkHE k v) :: c /\ l' = b ++ HElem (g k v) :: c.
Definition removed (k : str) (l l' : list hashdata) : Prop :=
  exists b v c, l = b ++ HElem (mkHE k v) :: c /\ l' = b ++ c.

Lemma insert_false k h l n l' : insert_f h false l k (key_index l k) = (n, l') -> n = 0 /\ l' = l \/ n = 1 /\ added k h l l'.
Proof. unfold insert_f. destruct (key_index l k); intros E; injection E as <- <-; [left|right]; split; reflexivity. Qed.
Lemma insert_any k h ow l n l' : insert_f h ow l k (key_index l k) = (n, l') ->
  n = 0 /\ l' = l \/ n = 1 /\ (added k h l l' \/ replaced k (fun k _ => mkHE k h) l l').
Proof.
  unfold insert_f. destruct (key_index l k) as [i|] eqn:Ei.
  - destruct ow; intros E; injection E as <- <-; [right|left; auto]. split; [reflexivity|]. right.
    destruct (key_index_ctx _ _ _ Ei) as (b & v & c & -> & H & _). exists b, v, c. split; [reflexivity|]. apply H.
  - intros E; injection E as <- <-. right. split; [reflexivity|]. left. reflexivity.
Qed.
Lemma remove_any k l n l' : remove_f l k (key_index l k) = (n, l') -> n = 0 /\ l' = l \/ n = 1 /\ removed k l l'.
Proof.
  unfold remove_f. destruct (key_index l k) as [i|] eqn:Ei; intros E; injection E as <- <-; [right|left; auto].
  split; [reflexivity|]. destruct (key_index_ctx _ _ _ Ei) as (b & v & c & -> & _ & H). exists b, v, c. auto.
Qed.

(** ---- what they write ---- *)
Lemma added_text k h l sp par : patch (entry_added k h) (format (Hash l) sp par) (format (Hash (l ++ [HElem (mkHE k h)])) sp par).
Proof.
  destruct l as [|d l].
  - exists [], (lit " {}"), ((if same_line par 0 then lit " " else NL :: indent sp) ++ entry_at sp k h), [].
    split; [now rewrite app_nil_r|]. split.
    + rewrite (around_h [] k h [] sp par). cbn [app length concat_mapi]. now rewrite !app_nil_r.
    + exists sp, (if same_line par 0 then lit " " else NL :: indent sp). split; [apply par_lead|]. auto.
  - exists (format (Hash (d :: l)) sp par), [], ((if same_line par (length (d :: l)) then lit " " else NL :: indent sp) ++ entry_at sp k h), [].
    split; [now rewrite !app_nil_r|]. split.
    + rewrite (around_h (d :: l) k h [] sp par). rewrite (format_hash (d :: l)) by discriminate.
      rewrite !app_nil_r. now rewrite <- !app_assoc.
    + eexists sp, _. split; [apply par_lead|]. auto.
Qed.

Lemma added_lines k h l sp par : l <> [] ->
  patch (lines_added k h) (format (Hash l) sp par) (format (Hash (l ++ [HElem (mkHE k h)])) sp par).
Proof.
  destruct l as [|d l]; [easy|]. intros _.
  exists (format (Hash (d :: l)) sp par), [], (NL :: indent sp ++ entry_at sp k h), [].
  split; [now rewrite !app_nil_r|]. split.
  - rewrite (around_h (d :: l) k h [] sp par). rewrite (format_hash (d :: l)) by discriminate.
    replace (same_line par (length (d :: l))) with false by now destruct par as [[]|].
    rewrite !app_nil_r. now rewrite <- !app_assoc.
  - split; [reflexivity|]. split; [now left|]. now exists sp.
Qed.

Lemma replaced_text k b v v' c sp par (E : str -> str -> str -> Prop) :
  (forall r, E (entry_at sp k v) (k ++ lit ":" ++ format_aliased v' sp (Some ParHash)) r) ->
  patch E (format (Hash (b ++ HElem (mkHE k v) :: c)) sp par) (format (Hash (b ++ HElem (mkHE k v') :: c)) sp par).
Proof.
  intros H. rewrite !around_h. do 4 eexists. split; [reflexivity|]. split; [reflexivity|]. apply H.
Qed.

Lemma renamed_text k new b v c sp par :
  patch (key_replaced k new) (format (Hash (b ++ HElem (mkHE k v) :: c)) sp par) (format (Hash (b ++ HElem (mkHE new v) :: c)) sp par).
Proof.
  rewrite !around_h. unfold entry_at. generalize (format_aliased v sp (Some ParHash)) as t. intros t.
  generalize (concat_mapi (h_item sp par) 0 b ++ (if same_line par (length b) then lit " " else NL :: indent sp)) as pre.
  generalize (concat_mapi (h_item sp par) (S (length b)) c) as post. intros post pre.
  exists pre, (k ++ lit ":"), (new ++ lit ":"), (t ++ post). rewrite <- !app_assoc. repeat split.
Qed.

Lemma item_S sp par i j d : h_item sp par (S i) d = h_item sp par (S j) d.
Proof. destruct d as [c|c|[k a]]; try reflexivity; cbn; now destruct par as [[]|]. Qed.
Lemma items_S sp par : forall l i j, concat_mapi (h_item sp par) (S i) l = concat_mapi (h_item sp par) (S j) l.
Proof. induction l as [|d l IH]; intros i j; cbn [concat_mapi]; [reflexivity|]. now rewrite (item_S sp par i j), (IH (S i) (S j)). Qed.

Lemma removed_text k b v c sp par :
  patch (entry_removed k) (format (Hash (b ++ HElem (mkHE k v) :: c)) sp par) (format (Hash (b ++ c)) sp par).
Proof.
  rewrite around_h. destruct b as [|x b]; [destruct c as [|d c]|].
  - cbn [app length concat_mapi]. rewrite app_nil_r.
    exists [], ((if same_line par 0 then lit " " else NL :: indent sp) ++ entry_at sp k v), (lit " {}"), [].
    rewrite !app_nil_r. split; [reflexivity|]. split; [reflexivity|].
    exists sp, v. left. eexists. split; [apply par_lead|]. split; [reflexivity|auto].
  - cbn [app length concat_mapi]. rewrite format_hash by discriminate. cbn [concat_mapi].
    rewrite (items_S sp par c 1 0). destruct d as [x|x|[k2 v2]].
    + rewrite app_assoc. eexists [], _, [], _. split; [reflexivity|]. split; [reflexivity|].
      exists sp, v. left. eexists. split; [apply par_lead|]. split; [reflexivity|auto].
    + rewrite app_assoc. eexists [], _, [], _. split; [reflexivity|]. split; [reflexivity|].
      exists sp, v. left. eexists. split; [apply par_lead|]. split; [reflexivity|auto].
    + cbn [h_item]. destruct (same_line par 0) eqn:S.
      * replace (same_line par 1) with false by now destruct par as [[]|].
        exists (lit " "), (entry_at sp k v ++ NL :: indent sp), [], (entry_at sp k2 v2 ++ concat_mapi (h_item sp par) 1 c).
        rewrite <- !app_assoc. split; [reflexivity|]. split; [reflexivity|]. exists sp, v. right. auto.
      * replace (same_line par 1) with false by now destruct par as [[]|].
        rewrite app_assoc. eexists [], _, [], _. split; [reflexivity|]. split; [reflexivity|].
        exists sp, v. left. eexists. split; [left; reflexivity|]. split; [reflexivity|auto].
  - rewrite format_hash by now destruct b. rewrite cm_app. cbn [length]. cbn [Nat.add]. rewrite (items_S sp par c (S (length b)) (length b)).
    exists (concat_mapi (h_item sp par) 0 (x :: b)),
      ((if same_line par (S (length b)) then lit " " else NL :: indent sp) ++ entry_at sp k v), [],
      (concat_mapi (h_item sp par) (S (length b)) c).
    rewrite <- !app_assoc. split; [reflexivity|]. split; [reflexivity|]. exists sp, v. left. eexists. split; [apply par_lead|].
    split; [reflexivity|auto].
Qed.

(** ---- the operations ---- *)
Theorem insert_local d p k h n d' : last_key p = Some k -> insert_into_hash_doc p h false d = (n, d') ->
  times (patch (entry_added k h)) n (format_doc d) (format_doc d').
Proof.
  intros K E. eapply (file_text (added k h)).
  - auto.
  - intros l l' -> sp par. apply added_text.
  - exact (edit_doc_steps _ k p K _ d n d' (insert_false k h) E).
Qed.

Lemma patch_or (E1 E2 : str -> str -> str -> Prop) s s' : patch E1 s s' -> patch (fun o o' b => E1 o o' b \/ E2 o o' b) s s'.
Proof. intros (a & o & o' & b & -> & -> & H). exists a, o, o', b. auto. Qed.
Lemma patch_or2 (E1 E2 : str -> str -> str -> Prop) s s' : patch E2 s s' -> patch (fun o o' b => E1 o o' b \/ E2 o o' b) s s'.
Proof. intros (a & o & o' & b & -> & -> & H). exists a, o, o', b. auto. Qed.

Theorem overwrite_local d p k h ow n d' : last_key p = Some k -> insert_into_hash_doc p h ow d = (n, d') ->
  times (patch (fun o o' b => entry_added k h o o' b \/ value_replaced k h o o' b)) n (format_doc d) (format_doc d').
Proof.
  intros K E. eapply (file_text (fun l l' => added k h l l' \/ replaced k (fun k _ => mkHE k h) l l')).
  - auto.
  - intros l l' [-> | (b & v & c & -> & ->)] sp par.
    + apply patch_or, added_text.
    + apply patch_or2, replaced_text. intros r. now exists sp, v.
  - exact (edit_doc_steps _ k p K _ d n d' (insert_any k h ow) E).
Qed.

Theorem remove_local d p k n d' : last_key p = Some k -> remove_from_hash_doc p d = (n, d') ->
  times (patch (entry_removed k)) n (format_doc d) (format_doc d').
Proof.
  intros K E. eapply (file_text (removed k)).
  - auto.
  - intros l l' (b & v & c & -> & ->) sp par. apply removed_text.
  - exact (edit_doc_steps _ k p K _ d n d' (remove_any k) E).
Qed.

Theorem rename_local d p k new n d' : last_key p = Some k -> rename_field_doc p new d = (n, d') ->
  times (patch (key_replaced k new)) n (format_doc d) (format_doc d').
Proof.
  intros K E. eapply (file_text (replaced k (fun _ v => mkHE new v))).
  - auto.
  - intros l l' (b & v & c & -> & ->) sp par. apply renamed_text.
  - eapply (each_doc_steps _ k p K); [|exact E].
    intros b k0 v c m e _ -> Ef. injection Ef as <- <-. split; [reflexivity|]. now exists b, v, c.
Qed.

Theorem nest_local d p k new n d' : last_key p = Some k -> to_object_doc p new d = (n, d') ->
  times (patch (value_nested k new)) n (format_doc d) (format_doc d').
Proof.
  intros K E. eapply (file_text (replaced k (fun k v => mkHE k (mkA None (Hash [HElem (mkHE new v)]))))).
  - auto.
  - intros l l' (b & v & c & -> & ->) sp par. apply replaced_text. intros r. exists sp, v. split; [reflexivity|].
    cbn [format_aliased]. rewrite (around_h [] new v []). cbn. now rewrite app_nil_r.
  - eapply (each_doc_steps _ k p K); [|exact E].
    intros b k0 v c m e _ -> Ef. injection Ef as <- <-. split; [reflexivity|]. now exists b, v, c.
Qed.
