(** Every accepted text is spelled out by the document it is read as. *)
From Coq Require Import ZArith.
From Verif Require Import Base Ast Num Peg PegFacts PegTree YamlGrammar Consume Spec_Parse
  Spec_Format Spec_Stable Spec_Path Spec_Panic Spec_Layout Spec_Flow Spec_Spell YamlTree YamlValues ParseFacts Reads
  Gives FormatText ParsedNeat ParsedNeat2 FlowText FlowText2 FlowReads FlowInv SpellFacts SpellScalar.
Import ListNotations.

Section Blocks.
Context (ut : unitab).
Notation G := (yaml_grammar ut).
Notation gives := (gives ut).
Notation block := (Spec_Spell.block ut).
Notation entry := (Spec_Spell.entry ut).
Notation entries := (Spec_Spell.entries ut).
Notation element := (Spec_Spell.element ut).
Notation elements := (Spec_Spell.elements ut).
Notation val := (Spec_Spell.val ut).

(** ---- texts that are not empty ---- *)

Lemma g_some n e s k vs rest k' : nulE y_nul e = false -> gives n e s k vs rest k' -> s <> [].
Proof.
  intros N H. apply gives_runs in H as (t & ns & H & _ & ->).
  destruct t as [|c t]; [|discriminate].
  pose proof (runs_nul G y_nul y_rank 8 40 (yaml_grammar_ok ut) _ _ _ _ _ H _ _ _ eq_refl). congruence.
Qed.
Lemma entry_some p l s : entry p l s -> s <> [].
Proof. intros H. inversion H; subst. intros E. apply app_eq_nil in E as [_ E]. apply app_eq_nil in E as [_ E]. discriminate. Qed.
Lemma element_some p l s : element p l s -> s <> [].
Proof. intros H. inversion H; subst. discriminate. Qed.

(** ---- values and texts of the rules ---- *)

Definition map_of (y : yaml) (t : str) : Prop :=
  exists n cs c b k l1 s1 l2 s2, y = Hash (map HComment cs ++ l1 ++ l2) /\ (n = [] \/ line_break n)
    /\ remarks cs c /\ blanks b /\ seps k /\ entry k l1 s1 /\ entries k l2 s2 /\ t = n ++ c ++ b ++ k ++ s1 ++ s2.
Definition seq_of (y : yaml) (t : str) : Prop :=
  exists cs c b k l1 s1 z l2 s2, y = Array (map AComment cs ++ l1 ++ l2)
    /\ remarks cs c /\ blanks b /\ seps k /\ element k l1 s1 /\ seps z /\ elements k true l2 s2
    /\ t = c ++ b ++ k ++ s1 ++ z ++ s2.

Definition post (r : yrule) (p s : str) (v : yval) (rest : str) : Prop :=
  match r with
  | y_yaml_value => exists y t, v = VYaml y /\ s = t ++ rest /\ block p y t
  | y_hash => exists y t, v = VYaml y /\ s = t ++ rest /\ map_of y t
  | y_block_array => exists y t, v = VYaml y /\ s = t ++ rest /\ seq_of y t
  | y_array => exists y t, v = VYaml y /\ s = t ++ rest /\
      ((exists l r, y = InlineArray l /\ row ut l r /\ t = lit "[" ++ r ++ lit "]") \/ seq_of y t)
  | y_alternative_hash | y_alternative_array => exists y t, v = VYaml y /\ s = t ++ rest /\
      forall al a, tag ut loose al a -> val p (mkA al y) (a ++ t)
  | y_aliased | y_ba_aliased | y_alt_aliased => exists a t, v = VAliased a /\ s = t ++ rest /\ val p a t
  | y_hash_element => exists e t, v = VHElem e /\ s = t ++ rest /\
      forall oc r, remark oc r -> entry p (HElem e :: entry_comment oc) (t ++ r)
  | y_first_hash_element => exists l t, v = VHData l /\ s = t ++ rest /\ entry p l t
  | y_hash_element_data => exists b cs c l t, v = VHData (map HComment cs ++ l) /\ blanks b /\ b <> [] /\ remarks cs c
      /\ entry p l t /\ s = (b ++ c ++ p ++ t) ++ rest
  | y_alt_hash_cont => exists b cs c z l2 s2 l3 s3, v = VHData (map HComment cs ++ l2 ++ l3)
      /\ blanks b /\ b <> [] /\ remarks cs c /\ seps z /\ z <> [] /\ entry (p ++ z) l2 s2 /\ entries (p ++ z) l3 s3
      /\ s = (b ++ c ++ p ++ z ++ s2 ++ s3) ++ rest
  | y_block_array_element => exists e t, v = VAElem e /\ s = t ++ rest /\
      forall oc r, remark oc r -> element p (e :: element_comment oc) (t ++ r)
  | y_first_block_array_element => exists l t, v = VAData l /\ s = t ++ rest /\ element p l t
  | y_block_array_data => exists cs c l t, v = VAData (map AComment cs ++ l) /\ (no_comment s -> cs = [])
      /\ remarks cs c /\ element p l t /\ s = (c ++ p ++ t) ++ rest
  | _ => True
  end.

Definition gives_post (n : nat) : Prop := forall r s k vs rest k', fst (G r) = Normal -> y_req r <= length k ->
  seps (hd [] k) -> gives n (R_ r) s k vs rest k' -> k' = k /\ exists v, vs = [(r, v)] /\ post r (hd [] k) s v rest.

(** What follows has no comment in front. *)
Lemma first_end n s k vs rest k' : gives n (R_ y_first_hash_element) s k vs rest k' -> no_comment rest.
Proof. intros H. apply (ParsedNeat2.post_all ut) in H as (v & _ & e & l & _ & _ & N); auto. Qed.
Lemma data_end n s k vs rest k' : gives n (R_ y_hash_element_data) s k vs rest k' -> no_comment rest.
Proof. intros H. apply (ParsedNeat2.post_all ut) in H as (v & _ & l & _ & _ & N); auto. Qed.
Lemma afirst_end n s k vs rest k' : gives n (R_ y_first_block_array_element) s k vs rest k' -> no_comment rest.
Proof. intros H. apply (ParsedNeat2.post_all ut) in H as (v & _ & e & l & _ & _ & N); auto. Qed.
Lemma adata_end n s k vs rest k' : gives n (R_ y_block_array_data) s k vs rest k' -> no_comment rest.
Proof. intros H. apply (ParsedNeat2.post_all ut) in H as (v & _ & l & _ & _ & N); auto. Qed.
Lemma cont_end n s k vs rest k' : gives n (R_ y_alt_hash_cont) s k vs rest k' -> no_comment rest.
Proof. intros H. apply (ParsedNeat2.post_all ut) in H as (v & _ & l & _ & _ & N); auto. Qed.

Lemma star_entries N : (forall m, m < N -> gives_post m) -> forall n, n <= N -> forall s p k vs rest k', seps p ->
  gives n (PStar (R_ y_hash_element_data)) s (p :: k) vs rest k' ->
  k' = p :: k /\ (no_comment s -> no_comment rest) /\
  exists ls t, vs = map (fun l => (y_hash_element_data, VHData l)) ls /\ entries p (concat ls) t /\ s = t ++ rest.
Proof.
  intros IH. induction n as [n IHn] using lt_wf_ind. intros Ln s p k vs rest k' Sp H.
  apply g_star in H as (m & L & [(v1 & s1 & k1 & v2 & A & B & ->)|(_ & -> & -> & ->)]).
  - pose proof (data_end _ _ _ _ _ _ A) as NC.
    apply IH in A as (-> & v & -> & b & cs & c & l & t & -> & Hb & Nb & R & E & ->); [|lia|reflexivity|cbn; lia|exact Sp].
    cbn [hd] in *.
    apply IHn in B as (-> & NC2 & ls & t2 & -> & E2 & ->); [|lia|lia|exact Sp].
    split; [reflexivity|]. split; [auto|]. exists ((map HComment cs ++ l) :: ls), (b ++ c ++ p ++ t ++ t2).
    split; [reflexivity|]. split; [|now rewrite <- !app_assoc].
    cbn [concat]. rewrite <- !app_assoc. now apply Entries1.
  - split; [reflexivity|]. split; [auto|]. exists [], []. split; [reflexivity|]. split; [constructor|reflexivity].
Qed.
Lemma star_elements N (close : bool) : (forall m, m < N -> gives_post m) -> forall n, n <= N -> forall s p k vs rest k', seps p -> no_comment s ->
  gives n (PStar (R_ (if close then y_blank else y_blanknl) ~~ R_ y_block_array_data)%peg) s (p :: k) vs rest k' ->
  k' = p :: k /\ no_comment rest /\
  exists ls t, vs = map (fun l => (y_block_array_data, VAData l)) ls /\ elements p close (concat ls) t /\ s = t ++ rest.
Proof.
  intros IH. induction n as [n IHn] using lt_wf_ind. intros Ln s p k vs rest k' Sp NC0 H.
  apply g_star in H as (m & L & [(v1 & s1 & k1 & v2 & A & B & ->)|(_ & -> & -> & ->)]).
  - apply g_seq in A as (m1 & v3 & s2 & k2 & v4 & L1 & A1 & A & ->).
    assert (exists b, v3 = [] /\ blanks b /\ (b = [] -> close = true) /\ s = b ++ s2 /\ k2 = p :: k) as (b & -> & Hb & Cl & -> & ->).
    { destruct close; [apply g_blank in A1 as (b & -> & Hb & -> & -> & _)|apply g_blanknl in A1 as (b & -> & Hb & Nb & -> & -> & _)];
        exists b; repeat split; auto; intros ->; congruence. }
    pose proof (adata_end _ _ _ _ _ _ A) as NC.
    apply IH in A as (-> & v & -> & cs & c & l & t & -> & K & R & E & ->); [|lia|reflexivity|cbn; lia|exact Sp].
    cbn [hd] in *.
    apply IHn in B as (-> & NC2 & ls & t2 & -> & E2 & ->); [|lia|lia|exact Sp|exact NC].
    split; [reflexivity|]. split; [auto|]. exists ((map AComment cs ++ l) :: ls), (b ++ c ++ p ++ t ++ t2).
    split; [reflexivity|]. split; [|now rewrite <- !app_assoc].
    cbn [concat]. rewrite <- !app_assoc. apply Elements1; auto. intros ->. split; [auto|]. apply K. exact NC0.
  - split; [reflexivity|]. split; [auto|]. exists [], []. split; [reflexivity|]. split; [constructor|reflexivity].
Qed.
Lemma many_hdata ls x : as_hdata x = None -> many as_hdata (map (fun l => (y_hash_element_data, VHData l)) ls ++ [x]) = (ls, [x]).
Proof. intros H. induction ls as [|b bs IH]; cbn; [now rewrite H|]. now rewrite IH. Qed.
Lemma many_hdata0 ls : many as_hdata (map (fun l => (y_hash_element_data, VHData l)) ls) = (ls, []).
Proof. induction ls as [|b bs IH]; cbn; [reflexivity|]. now rewrite IH. Qed.
Lemma many_adata ls x : as_adata x = None -> many as_adata (map (fun l => (y_block_array_data, VAData l)) ls ++ [x]) = (ls, [x]).
Proof. intros H. induction ls as [|b bs IH]; cbn; [now rewrite H|]. now rewrite IH. Qed.

Lemma g_tag n (sp : yexp) fill s k vs rest k' :
  (forall n s k vs rest k', gives n sp s k vs rest k' -> exists w, vs = [] /\ fill w /\ s = w ++ rest /\ k' = k) ->
  gives n (POpt (R_ y_alias ~~ sp)%peg) s k vs rest k' ->
  exists al a, tag ut fill al a /\ s = a ++ rest /\ k' = k /\
    vs = match al with Some x => [(y_alias, VStr x)] | None => [] end.
Proof.
  intros Hs H. apply g_opt in H as (m & _ & [H|(_ & -> & -> & ->)]).
  - apply g_seq in H as (m1 & v1 & s1 & k1 & v2 & _ & A & H & ->). apply g_alias in A as (x & -> & Ok & -> & ->).
    apply Hs in H as (w & -> & F & -> & ->). exists (Some x), (lit "&" ++ x ++ w).
    split; [now constructor|]. split; [now rewrite <- !app_assoc|auto].
  - exists None, []. split; [constructor|auto].
Qed.
(** An indentation that starts with the one around it. *)
Lemma deeper p z s kk rest : seps p -> seps z -> z <> [] -> s = p ++ z ++ rest -> seps kk -> forall rest2, s = kk ++ rest2 -> no_zs rest2 ->
  exists z2, kk = p ++ z2 /\ seps z2 /\ z2 <> [].
Proof.
  intros Sp Sz Nz -> Sk rest2. revert kk Sk. induction p as [|c p IH]; intros kk Sk E NZ.
  - exists kk. split; [reflexivity|]. split; [exact Sk|]. intros ->. destruct z as [|c z]; [congruence|].
    cbn in E. subst rest2. cbn in NZ. rewrite (Sz c (or_introl eq_refl)) in NZ. discriminate.
  - destruct kk as [|d kk].
    + cbn in E. subst rest2. cbn in NZ. rewrite (Sp c (or_introl eq_refl)) in NZ. discriminate.
    + cbn in E. injection E as <- E. destruct (IH (fun x Hx => Sp x (or_intror Hx)) kk (fun x Hx => Sk x (or_intror Hx)) E NZ) as (z2 & -> & ? & ?).
      exists z2. auto.
Qed.

Ltac gs H A := let m := fresh "m" in let v := fresh "v" in let s := fresh "ss" in let k := fresh "ks" in let w := fresh "vv" in
  let L := fresh "L" in apply g_seq in H as (m & v & s & k & w & L & A & H & ->).
Ltac ga H := let m := fresh "m" in let L := fresh "L" in let R := fresh "R" in apply g_alt in H as (m & L & [H|[R H]]).
Ltac gp IH H P := let v := fresh "v" in let Ek := fresh "Ek" in
  eapply IH in H as (Ek & v & -> & P); [|lia|reflexivity|cbn; lia|cbn [hd]; assumption]; cbn [post hd] in P;
  match type of Ek with ?x = _ => tryif is_var x then subst x else clear Ek | _ => clear Ek end.
Ltac strs H := match type of H with Gives.gives _ _ _ _ ?k _ _ ?k' =>
    assert (k' = k) as -> by (apply gives_runs in H as (? & ? & H & _); inversion H; reflexivity) end;
    apply g_str in H as [-> ->].

Lemma g_colon n s k vs rest k' : gives n (yplus y_zs // R_ y_blanknl)%peg s k vs rest k' ->
  exists w, vs = [] /\ (w <> [] /\ (seps w \/ blanks w)) /\ s = w ++ rest /\ k' = k.
Proof.
  intros A. ga A; [apply g_plus_zs in A as (w & -> & Sw & Nw & -> & ->)|apply g_blanknl in A as (w & -> & Hb & Nw & -> & -> & _)]; eauto 9.
Qed.
Lemma g_opt_nl n s k vs rest k' : gives n (POpt y_nl) s k vs rest k' ->
  exists w, vs = [] /\ (w = [] \/ line_break w) /\ s = w ++ rest /\ k' = k.
Proof.
  intros A. apply g_opt in A as (mo & _ & [A|(_ & -> & -> & ->)]); [apply g_nl in A as (nn & -> & Hn & -> & ->); eauto 6|exists []; auto].
Qed.
Lemma post_step n : (forall m, m < n -> gives_post m) -> gives_post n.
Proof.
  intros IH r s k vs rest k' Em Rq Sp H.
  pose proof (g_same ut n r _ _ _ _ _ Rq H) as ->. split; [reflexivity|].
  assert (IH' : forall m r s k vs rest k', m < n -> fst (G r) = Normal -> y_req r <= length k -> seps (hd [] k) ->
    gives m (R_ r) s k vs rest k' -> k' = k /\ exists v, vs = [(r, v)] /\ post r (hd [] k) s v rest).
  { intros. eapply IH; eassumption. }
  apply g_rule in H as (m & t & cvs & v & L & H & Es & Y & ->); [|exact Em].
  exists v. split; [reflexivity|]. clear Es.
  destruct r; try discriminate Em; try exact I; cbn [snd yaml_grammar] in H; cbn [post]; clear Em;
    cbn [y_req] in Rq; try (destruct k as [|p k]; [cbn in Rq; lia|]; cbn [hd] in *; clear Rq).
  - (* block array element *)
    gs H A. strs A. gs H A. apply g_plus_zs in A as (w & -> & Sw & Nw & -> & ->).
    gp IH' H P. destruct P as (a & t1 & -> & -> & V). cbn in Y. inversion Y; subst.
    exists (AElem a), (lit "-" ++ w ++ t1). split; [reflexivity|]. split; [now rewrite <- !app_assoc|].
    intros oc r Hr. rewrite <- !app_assoc. now constructor.
  - (* first block array element *)
    gs H A. gp IH' A P. destruct P as (e & t1 & -> & -> & V). apply g_remark in H as (oc & r & Hr & -> & _ & ->).
    exists (e :: element_comment oc), (t1 ++ r). split; [destruct oc; cbn in Y; inversion Y; reflexivity|].
    split; [now rewrite <- !app_assoc|auto].
  - (* block array data *)
    gs H A. pose proof (comments_given ut _ _ _ _ _ _ A) as (cs0 & E0 & _ & K).
    apply g_commentnls in A as (cs & c & -> & R & -> & -> & _); [|apply g_some in H; [exact H|reflexivity]].
    inversion E0; subst cs0. clear E0.
    gs H A. apply g_peek in A as (-> & -> & ->).
    gs H A. gp IH' A P. destruct P as (e & t1 & -> & -> & V). apply g_remark in H as (oc & r & Hr & -> & _ & ->).
    exists cs, c, (e :: element_comment oc), (t1 ++ r).
    split; [destruct oc; cbn in Y; inversion Y; reflexivity|]. split; [exact K|]. split; [exact R|]. split; [auto|].
    now rewrite <- !app_assoc.
  - (* block array *)
    gs H A. apply g_commentnls in A as (cs & c & -> & R & -> & -> & _); [|apply g_some in H; [exact H|reflexivity]].
    gs H A. apply g_blank in A as (b & -> & Hb & -> & -> & _).
    gs H A. apply g_push_zss in A as (kk & -> & Sk & -> & ->).
    gs H A. pose proof (afirst_end _ _ _ _ _ _ A) as NC. gp IH' A P. destruct P as (l1 & s1 & -> & -> & E1).
    gs H A. pose proof A as A'. apply (g_zss ut) in A' as [_ E']. apply g_zss2 in A as (z & -> & Sz & Ez & ->).
    apply no_comment_drop in NC. rewrite <- E' in NC. rewrite Ez in *. clear E' Ez.
    gs H A. apply (star_elements n true IH) in A as (-> & NC2 & ls & t2 & -> & E2 & ->); [|lia|exact Sk|exact NC].
    gs H A. apply g_drop1 in A as (-> & -> & ->). apply g_no_commentnls in H as (-> & -> & _); [|exact NC2].
    cbn [app yact] in Y. rewrite many_adata in Y by reflexivity. inversion Y; subst. cbn [acomments map] in *. rewrite app_nil_r in *.
    eexists _, (c ++ b ++ kk ++ s1 ++ z ++ t2). split; [reflexivity|]. split; [now rewrite <- !app_assoc|].
    exists cs, c, b, kk, l1, s1, z, (concat ls), t2. auto 10.
  - (* array *)
    ga H.
    + apply g_row in H as (l & r & -> & R & -> & _). cbn in Y. inversion Y; subst.
      eexists _, _. split; [reflexivity|]. split; [reflexivity|]. left. eauto.
    + gp IH' H P. destruct P as (y & t1 & -> & -> & P). cbn in Y. inversion Y; subst.
      eexists _, _. split; [reflexivity|]. split; [reflexivity|]. auto.
  - (* alternative array *)
    gs H A. gp IH' A P. destruct P as (l1 & s1 & -> & -> & E1).
    gs H A. apply g_blanknl in A as (b & -> & Hb & Nb & -> & -> & _).
    gs H A. apply g_push_zss in A as (kk & -> & Sk & -> & ->).
    gs H A. pose proof (afirst_end _ _ _ _ _ _ A) as NC. gp IH' A P. destruct P as (l2 & s2 & -> & -> & E2).
    gs H A. pose proof A as A'. apply (g_zss ut) in A' as [_ E']. apply g_zss2 in A as (z & -> & Sz & Ez & ->).
    apply no_comment_drop in NC. rewrite <- E' in NC. rewrite Ez in *. clear E' Ez.
    gs H A. apply (star_elements n false IH) in A as (-> & NC2 & ls & t2 & -> & E3 & ->); [|lia|exact Sk|exact NC].
    gs H A. apply g_drop1 in A as (-> & -> & ->). apply g_no_commentnls in H as (-> & -> & _); [|exact NC2].
    cbn [app yact] in Y. rewrite many_adata in Y by reflexivity. inversion Y; subst. cbn [acomments map] in *. rewrite app_nil_r in *.
    eexists _, (s1 ++ b ++ kk ++ s2 ++ z ++ t2). split; [reflexivity|]. split; [now rewrite <- !app_assoc|].
    intros al a T. now apply VSeq2.
  - (* ba aliased *)
    ga H; gp IH' H P; destruct P as (a & t1 & -> & -> & V); cbn in Y; inversion Y; subst; eauto.
  - (* alt aliased *)
    gs H A. apply (g_tag _ _ loose) in A as (al & a & T & -> & -> & ->); [|intros; eapply g_spaces; eassumption].
    ga H; gp IH' H P; destruct P as (y & t1 & -> & -> & P);
      (exists (mkA al y), (a ++ t1); split; [destruct al; cbn in Y; inversion Y; reflexivity|]; split; [now rewrite <- !app_assoc|auto]).
  - (* yaml value *)
    ga H; [|ga H; [|ga H; [|ga H]]].
    + gp IH' H P. destruct P as (y & t1 & -> & -> & P). cbn in Y. inversion Y; subst.
      eexists _, _. split; [reflexivity|]. split; [reflexivity|].
      destruct P as (n0 & cs & c & b & kk & l1 & s1 & l2 & s2 & -> & ? & ? & ? & ? & ? & ? & ->). now apply BlockMap.
    + gp IH' H P. destruct P as (y & t1 & -> & -> & P). cbn in Y. inversion Y; subst.
      eexists _, _. split; [reflexivity|]. split; [reflexivity|].
      destruct P as [(l & r & -> & Rr & ->)|(cs & c & b & kk & l1 & s1 & z & l2 & s2 & -> & ? & ? & ? & ? & ? & ? & ->)];
        [apply BlockBit; now constructor|now apply BlockSeq].
    + apply (g_scalar ut _ true) in H as (y & t1 & -> & -> & P). cbn in Y. inversion Y; subst.
      eexists _, _. split; [reflexivity|]. split; [reflexivity|]. now apply BlockScalar.
    + apply (g_scalar ut _ false) in H as (y & t1 & -> & -> & P). cbn in Y. inversion Y; subst.
      eexists _, _. split; [reflexivity|]. split; [reflexivity|]. now apply BlockScalar.
    + apply g_inline in H as (y & t1 & -> & P & -> & _). cbn in Y. inversion Y; subst.
      eexists _, _. split; [reflexivity|]. split; [reflexivity|]. now apply BlockBit.
  - (* aliased *)
    gs H A. apply (g_tag _ _ seps) in A as (al & a & T & -> & -> & ->); [|intros; eapply g_zss2; eassumption].
    gp IH' H P; destruct P as (y & t1 & -> & -> & P).
    exists (mkA al y), (a ++ t1); split; [destruct al; cbn in Y; inversion Y; reflexivity|]; split; [now rewrite <- !app_assoc|now apply VBlock].
  - (* hash element *)
    gs H A. apply g_key in A as (key & i & -> & Hk & -> & ->). gs H A. strs A. gs H A.
    apply g_colon in A as (w' & -> & Hw & -> & ->).
    gp IH' H P. destruct P as (a & t1 & -> & -> & V). cbn in Y. inversion Y; subst.
    exists (mkHE key a), (key ++ spaces i ++ lit ":" ++ w' ++ t1). split; [reflexivity|]. split; [now rewrite <- !app_assoc|].
    intros oc r Hr. rewrite <- !app_assoc. now constructor.
  - (* first hash element *)
    gs H A. gp IH' A P. destruct P as (e & t1 & -> & -> & V). apply g_remark in H as (oc & r & Hr & -> & _ & ->).
    exists (HElem e :: entry_comment oc), (t1 ++ r). split; [destruct oc; cbn in Y; inversion Y; reflexivity|].
    split; [now rewrite <- !app_assoc|auto].
  - (* hash element data *)
    gs H A. apply g_blanknl in A as (b & -> & Hb & Nb & -> & -> & _).
    gs H A. apply g_commentnls in A as (cs & c & -> & R & -> & -> & _); [|apply g_some in H; [exact H|reflexivity]].
    gs H A. apply g_peek in A as (-> & -> & ->).
    gs H A. gp IH' A P. destruct P as (e & t1 & -> & -> & V). apply g_remark in H as (oc & r & Hr & -> & _ & ->).
    exists b, cs, c, (HElem e :: entry_comment oc), (t1 ++ r).
    split; [destruct oc; cbn in Y; inversion Y; reflexivity|]. split; [exact Hb|]. split; [exact Nb|]. split; [exact R|]. split; [auto|].
    now rewrite <- !app_assoc.
  - (* hash *)
    gs H A.
    apply g_opt_nl in A as (nn & -> & Hn & -> & ->).
    gs H A. apply g_commentnls in A as (cs & c & -> & R & -> & -> & _); [|apply g_some in H; [exact H|reflexivity]].
    gs H A. apply g_blank in A as (b & -> & Hb & -> & -> & _).
    gs H A. apply g_push_zss in A as (kk & -> & Sk & -> & ->).
    gs H A. pose proof (first_end _ _ _ _ _ _ A) as NC. gp IH' A P. destruct P as (l1 & s1 & -> & -> & E1).
    gs H A. apply (star_entries n IH) in A as (-> & NC2 & ls & t2 & -> & E2 & ->); [|lia|exact Sk].
    gs H A. apply g_drop1 in A as (-> & -> & ->). apply g_no_commentnls in H as (-> & -> & _); [|auto].
    cbn [app yact] in Y. rewrite many_hdata in Y by reflexivity. inversion Y; subst. cbn [hcomments map] in *. rewrite app_nil_r in *.
    eexists _, (nn ++ c ++ b ++ kk ++ s1 ++ t2). split; [reflexivity|]. split; [now rewrite <- !app_assoc|].
    exists nn, cs, c, b, kk, l1, s1, (concat ls), t2. auto 10.
  - (* alternative hash continuation *)
    gs H A. apply g_blanknl in A as (b & -> & Hb & Nb & -> & -> & _).
    gs H A. apply g_commentnls in A as (cs & c & -> & R & -> & -> & _); [|apply g_some in H; [exact H|reflexivity]].
    gs H A. apply g_and1 in A as (-> & -> & -> & A).
    match goal with A : exists _ _ _ _, runs _ _ _ ?s _ _ |- _ => set (s1 := s) in *; clearbody s1 end.
    assert (exists z r, s1 = p ++ z ++ r /\ seps z /\ z <> []) as (z0 & r0 & Ez & Sz & Nz).
    { destruct A as (t0 & n0 & r0 & k0 & A). apply seq_ok_inv in A as (t1 & n1 & s2 & k1 & t2 & n2 & -> & -> & A & B).
      apply plus_zs_inv in B as (-> & Nz & Sz & _). pose proof (runs_text G _ _ _ _ _ A _ _ _ _ eq_refl) as E. inversion A; subst. eauto. }
    clear A. gs H A. pose proof (push_rest ut _ _ _ _ _ _ A) as NZ. apply g_push_zss in A as (kk & -> & Sk & E & ->).
    destruct (deeper p z0 s1 kk r0 Sp Sz Nz Ez Sk _ E NZ) as (z & -> & Sz2 & Nz2). clear Ez. rewrite E in *. clear E.
    gs H A. gp IH' A P. destruct P as (l2 & t2 & -> & -> & E1).
    gs H A. apply (star_entries n IH) in A as (-> & NC2 & ls & t3 & -> & E2 & ->); [|lia|exact Sk].
    apply g_drop1 in H as (-> & -> & _).
    cbn [app yact] in Y. rewrite app_nil_r, many_hdata0 in Y. inversion Y; subst.
    exists b, cs, c, z, l2, t2, (concat ls), t3. repeat (split; [assumption || reflexivity|]). now rewrite <- !app_assoc.
  - (* alternative hash *)
    gs H A. pose proof (first_end _ _ _ _ _ _ A) as NC. gp IH' A P. destruct P as (l1 & s1 & -> & -> & E1). gs H A.
    apply g_opt in A as (mo & Lo & [A|(_ & -> & -> & ->)]).
    + pose proof (cont_end _ _ _ _ _ _ A) as NC2. gp IH' A P.
      destruct P as (b & cs & c & z & l2 & s2 & l3 & s3 & -> & ? & ? & ? & ? & ? & ? & ? & ->).
      apply g_no_commentnls in H as (-> & -> & _); [|exact NC2]. cbn in Y. inversion Y; subst. rewrite app_nil_r.
      eexists _, (s1 ++ b ++ c ++ p ++ z ++ s2 ++ s3). split; [reflexivity|]. split; [now rewrite <- !app_assoc|].
      intros al a T. now apply VMap2.
    + apply g_no_commentnls in H as (-> & -> & _); [|exact NC]. cbn in Y. inversion Y; subst. rewrite app_nil_r.
      eexists _, s1. split; [reflexivity|]. split; [reflexivity|]. intros al a T. now apply VMap1.
Qed.
Lemma post_all n : gives_post n.
Proof. induction n as [n IH] using lt_wf_ind. now apply post_step. Qed.
End Blocks.
