(** The pretty form of a canonical document is canonical. *)
From Verif Require Import Base Ast Num Strings Peg YamlGrammar Consume Format Pretty Ser Spec_Strings StringsFacts
  Spec_Pretty PrettyFacts Spec_Parse Spec_Format FormatText FormatScalars FormatTree Spec_Text TextFacts Spec_Stable StableFacts Spec_Polish.
Import ListNotations.

(** ---- wrapped lines ---- *)

Lemma folded_lines_any s : ~ In CR s -> (exists c r, s = c :: r /\ is_ws c = false) -> foldable_text 90 s ->
  block_lines (create_folded s 90) /\ (forall l ls, create_folded s 90 <> (SP :: l) :: ls).
Proof.
  intros Hcr (c & r & Es & Hc) F. apply foldable_spec in F. pose proof (foldable_len _ _ F) as Hlen.
  assert (Hsp : ceqb c SP = false) by (apply ceqb_neq; intros ->; discriminate).
  assert (Hnl : ceqb c NL = false) by (apply ceqb_neq; intros ->; discriminate).
  assert (Ef : exists f r', split NL s = (c :: f) :: r').
  { rewrite Es. cbn [split]. rewrite Hnl. pose proof (split_ne NL r). destruct (split NL r); [congruence|]. eauto. }
  destruct Ef as (f & r' & Ef). unfold foldable in F. rewrite Ef, Hsp in F. cbn [andb] in F.
  rewrite orb_false_r in F. apply andb_true_iff in F as [F1 F2]. rewrite forallb_forall in F2.
  destruct (split_on_length_ok 90 (c :: f) F1) as (h & t & E & Hh & Ht & Hj).
  assert (Eh : exists h', h = c :: h').
  { destruct h as [|d h]; [congruence|]. rewrite join_flat_map in Hj. injection Hj as -> _. eauto. }
  destruct Eh as [h' ->].
  assert (Ec : exists ls, create_folded s 90 = (c :: h') :: ls).
  { unfold create_folded. rewrite Ef. cbn [flat_map]. rewrite E. destruct (ends_with NL s); cbn [app pop_if_empty]; eauto. }
  destruct Ec as [ls Ec]. split.
  - split.
    + apply Forall_forall. intros x Hx.
      assert (Hi : In x (flat_map (fun x => split_on_length x 90 ++ [[]]) (split NL s))).
      { unfold create_folded in Hx. destruct (ends_with NL s); [do 2 apply pop_incl in Hx|]; exact Hx. }
      apply in_flat_map in Hi as (l & Hl & Hi). apply in_app_or in Hi as [Hi|[<-|[]]]; [|split; intros []].
      assert (W : well_spaced 90 l = true).
      { pose proof Hl as Hl'. rewrite Ef in Hl'. destruct Hl' as [<-|Hl']; [exact F1|]. specialize (F2 l Hl').
        destruct l; [rewrite sol_nil in Hi by exact Hlen; destruct Hi|exact F2]. }
      destruct (split_on_length_ok 90 l W) as (h2 & t2 & E2 & _ & _ & Hj2). rewrite E2 in Hi.
      assert (Hin : forall d, In d x -> In d l) by (intros d Hd; rewrite <- Hj2; eapply in_join; eassumption).
      pose proof (split_no NL s) as Hno. rewrite Forall_forall in Hno. specialize (Hno l Hl).
      apply has_char_false in Hno. split; intros X; apply Hin in X; [auto|].
      apply Hcr. rewrite <- (join_split NL s). now apply (in_join NL _ CR l).
    + exists c, h', ls. split; [exact Ec|]. split; [now right|]. exists c. split; [now left|].
      destruct (is_zs c) eqn:Z; [|reflexivity]. apply zs_ws in Z. congruence.
  - intros l' ls'. rewrite Ec. intros X. injection X as X _ _. subst c. discriminate.
Qed.

Section Polish.
Context (ut : unitab).

(** ---- inside inline collections ---- *)

Lemma inline_text_whole s : inline_text ut s -> inline_breaking_chars s = false.
Proof.
  intros (_ & _ & _ & H & _). destruct (inline_breaking_chars s) eqn:E; [|reflexivity].
  apply breaking_spec in E as (c & Hs & Hc). exfalso. apply (H c); [|exact Hs]. cbn in Hc |- *. tauto.
Qed.

Lemma inline_pretty : forall y c, inline_canon ut y -> inline_polish y -> inline_canon ut (pretty_with true c y).
Proof.
  induction y as [l IH|l IH|l IH|l IH|ps|ps|s|ls ch|ls ch|s] using yaml_ind'; intros c C P;
    try contradiction; cbn [pretty_with pretty_scalar andb negb].
  - cbn [inline_canon inline_polish] in *. induction IH as [|[k v] l H _ IHl]; [exact I|]. cbn in C, P, H |- *.
    destruct C as [[C1 C2] C3], P as [P1 P2]. split; [split; [exact C1|now apply H]|now apply IHl].
  - cbn [inline_canon inline_polish] in *. induction IH as [|v l H _ IHl]; [exact I|]. cbn in C, P, H |- *.
    destruct C as [C1 C2], P as [P1 P2]. split; [now apply H|now apply IHl].
  - cbn [inline_polish] in P. unfold has_blank in P. rewrite P. exact C.
  - exact C.
  - cbn [inline_canon] in C. rewrite (inline_text_whole s C). exact C.
  - exact C.
Qed.

(** ---- values on one line ---- *)

Lemma canon_flow p q al y : canon ut p q al y -> is_inlineable y = true -> flow_canon ut y /\ alias_canon ut al.
Proof. intros C H. destruct C; try discriminate; auto. Qed.

Lemma nested_text p q al com y s :
  polish ut p q al com true y -> pretty_with false q y = Unquoted s -> inline_text ut s.
Proof.
  destruct y as [l|l|l|l|ps|ps|t|ls ch|ls ch|t]; cbn [pretty_with pretty_scalar andb negb]; intros P E; try discriminate.
  - destruct (is_nil l); discriminate.
  - destruct (is_nil l); [discriminate|]. unfold auto_inline in E. destruct (_ && _ && _)%bool; discriminate.
  - cbn [polish] in P. destruct P as [_ P]. unfold has_blank in P. destruct (existsb _ ps); [discriminate|].
    destruct (can_be_unquoted_in_block _ && negb (inline_breaking_chars _) && _)%bool eqn:X.
    + injection E as <-. apply andb_true_iff in X as [X _].
      assert (N : needs_quoting (parse_single_quoted ps) = false).
      { unfold needs_quoting. apply andb_true_iff in X as [X1 X2]. rewrite X1. apply negb_true_iff in X2. now rewrite X2. }
      now destruct (readable_block ut _ (proj1 (P eq_refl)) N).
    + destruct (_ <? _); discriminate.
  - destruct (existsb _ ps); [discriminate|]. destruct (_ <? _); discriminate.
  - injection E as <-. now apply P.
Qed.

Lemma flow_pretty p q al com nested y : flow_canon ut y -> alias_canon ut al -> polish ut p q al com nested y ->
  (com = false -> canon ut p q al (pretty_with false q y)) /\ (com = true -> flow_canon ut (pretty_with false q y)).
Proof.
  intros C A P.
  assert (K : forall z, flow_canon ut z ->
    (com = false -> canon ut p q al z) /\ (com = true -> flow_canon ut z)) by (intros z Hz; split; [intros _; now apply CFlow|auto]).
  assert (B : forall s, may_be_block p com s ->
    (forall ch, (com = false -> canon ut p q al (Literal (create_literal s) ch)) /\
                (com = true -> flow_canon ut (Literal (create_literal s) ch))) /\
    (foldable_text 90 s -> forall ch, (com = false -> canon ut p q al (Folded (create_folded s max_line_length) ch)) /\
                                      (com = true -> flow_canon ut (Folded (create_folded s max_line_length) ch)))).
  { intros s (B1 & B2 & B3 & B4). split.
    - intros ch. split; [|congruence]. intros _. destruct (literal_lines s B3 B4). apply CLiteral; auto. now apply place_block.
    - intros F ch. split; [|congruence]. intros _. destruct (folded_lines_any s B3 B4 F). apply CFolded; auto. now apply place_block. }
  destruct y as [l|l|l|l|ps|ps|t|ls ch|ls ch|t]; try contradiction; cbn [pretty_with pretty_scalar andb negb].
  - apply K. exact (inline_pretty (InlineHash l) false C P).
  - apply K. exact (inline_pretty (InlineArray l) false C P).
  - cbn [polish] in P. destruct P as [P1 P2]. unfold has_blank in *. destruct (existsb _ ps).
    + now apply B, P1.
    + destruct (P2 eq_refl) as [R P3].
      destruct (can_be_unquoted_in_block _ && negb (inline_breaking_chars _) && _)%bool eqn:X.
      * apply andb_true_iff in X as [X _].
        assert (N : needs_quoting (parse_single_quoted ps) = false).
        { unfold needs_quoting. apply andb_true_iff in X as [X1 X2]. rewrite X1. apply negb_true_iff in X2. now rewrite X2. }
        apply K. now destruct (readable_block ut _ R N).
      * destruct (max_line_length <? _) eqn:L; [|now apply K]. apply Nat.ltb_lt in L. destruct (P3 L) as [P4 P5].
        now apply B.
  - cbn [polish] in P. destruct P as [P1 P2]. unfold has_escape in *. destruct (existsb _ ps).
    + now apply B, P1.
    + destruct (max_line_length <? _) eqn:L; [|now apply K]. apply Nat.ltb_lt in L. destruct (P2 eq_refl L) as [P3 P4].
      now apply B.
  - now apply K.
  - now apply K.
Qed.

(** ---- block collections ---- *)

Definition hd_pretty (d : hashdata) : hashdata :=
  match d with
  | HElem (mkHE k (mkA al x)) => HElem (mkHE k (mkA al (pretty_with false false x)))
  | HComment c => HComment c
  | HInlineC c => HInlineC c
  end.
Definition ad_pretty (d : arraydata) : arraydata :=
  match d with
  | AElem (mkA al x) => AElem (mkA al (pretty_with false true x))
  | AComment c => AComment c
  | AInlineC c => AInlineC c
  end.
Fixpoint polish_entries (p : place) (l : list hashdata) : Prop :=
  match l with
  | [] => True
  | HElem (mkHE _ (mkA al v)) :: l' =>
      polish ut p false al (match l' with HInlineC _ :: _ => true | _ => false end) false v /\ polish_entries Own l'
  | _ :: l' => polish_entries p l'
  end.
Section Elements.
Context (q : bool).
Fixpoint polish_elements (p : place) (l : list arraydata) : Prop :=
  match l with
  | [] => True
  | AElem (mkA al v) :: l' =>
      polish ut p true al (match l' with AInlineC _ :: _ => true | _ => false end) q v /\ polish_elements Own l'
  | _ :: l' => polish_elements p l'
  end.
End Elements.

Lemma polish_hash p q al com nested l : polish ut p q al com nested (Hash l) =
  polish_entries (match q, al with false, None => Own | _, _ => head_of p l end) l.
Proof. reflexivity. Qed.
Lemma polish_array p q al com nested l : polish ut p q al com nested (Array l) =
  polish_elements q (match q, al with false, None => Own | _, _ => Head false end) l.
Proof. reflexivity. Qed.

Definition le_place (p p' : place) : Prop := p' = p \/ p = Head false /\ p' = Head true.
Lemma le_last p p' : le_place p p' -> lastp p -> lastp p'.
Proof. intros [->|[-> ->]]; cbn; auto. Qed.

Lemma one_entry_pretty l : one_entry (map hd_pretty l) <-> one_entry l.
Proof.
  unfold one_entry. assert (E : filter is_entry (map hd_pretty l) = map hd_pretty (filter is_entry l)).
  { induction l as [|[c|c|[k [al v]]] l IH]; cbn; rewrite ?IH; reflexivity. }
  rewrite E, map_length. reflexivity.
Qed.

Lemma entries_place lead p l : entries ut lead p l -> p = Head true -> one_entry l.
Proof. induction 1; intros E; subst; try congruence; try reflexivity. exact (IHentries eq_refl). Qed.
Lemma entries_one lead p l : entries ut lead p l -> l <> [] /\ 1 <= length (filter is_entry l).
Proof. induction 1; cbn; split; try discriminate; lia. Qed.

Definition PC (p : place) (q : bool) (al : option str) (y : yaml) : Prop :=
  forall p' nested, le_place p p' -> polish ut p' q al false nested y -> canon ut p' q al (pretty_with false q y).
Definition PE (lead : bool) (p : place) (l : list hashdata) : Prop :=
  forall p', le_place p p' -> (p' = Head true -> one_entry l) -> polish_entries p' l ->
    entries ut lead p' (map hd_pretty l).
Definition PN (lead : bool) (l : list arraydata) : Prop :=
  forall q, polish_elements q Own l -> elements ut lead (map ad_pretty l).

Lemma pretty_hash q l : l <> [] -> pretty_with false q (Hash l) = Hash (map hd_pretty l).
Proof. destruct l; [congruence|reflexivity]. Qed.
Lemma pretty_array q l : l <> [] -> pretty_with false q (Array l) = auto_inline q (map ad_pretty l).
Proof. destruct l; [congruence|reflexivity]. Qed.

(** An array becomes an inline one if every element can. *)
Lemma array_pretty p q al l :
  (q = true -> forall x, In (AElem x) l -> a_alias x = None -> is_inlineable (pretty_with false true (a_value x)) = true ->
     inline_canon ut (pretty_with false true (a_value x))) ->
  alias_canon ut al -> canon ut p q al (Array (map ad_pretty l)) -> canon ut p q al (auto_inline q (map ad_pretty l)).
Proof.
  intros H A C. unfold auto_inline. destruct q; [|exact C]. cbn [andb].
  destruct (can_inline (map ad_pretty l)) eqn:E; [|exact C]. cbn [andb]. destruct (_ <=? _); [|exact C].
  apply CFlow; [|exact A]. cbn [flow_canon inline_canon]. clear C. specialize (H eq_refl).
  induction l as [|[c|c|[al' v]] l IH]; try discriminate; [exact I|].
  cbn in E. destruct al'; [discriminate|]. apply andb_true_iff in E as [E1 E2]. cbn [map ad_pretty array_elems flat_map app fold_right a_value].
  split; [|apply IH; [|exact E2]; intros x Hx; apply H; now right].
  exact (H (mkA None v) (or_introl eq_refl) eq_refl E1).
Qed.

(** What may be moved into an inline sequence can be read there. *)
Lemma elements_inline p l : polish_elements true p l ->
  (forall x, In (AElem x) l -> is_inlineable (pretty_with false true (a_value x)) = true ->
     flow_canon ut (pretty_with false true (a_value x))) ->
  forall x, In (AElem x) l -> a_alias x = None -> is_inlineable (pretty_with false true (a_value x)) = true ->
     inline_canon ut (pretty_with false true (a_value x)).
Proof.
  intros P F x Hx _ E. specialize (F x Hx E).
  assert (N : exists p' al com, polish ut p' true al com true (a_value x)).
  { clear F E. revert p P. induction l as [|[c|c|[al v]] l IH]; intros p P; [destruct Hx| | |].
    - destruct Hx as [Hx|Hx]; [discriminate|]. exact (IH Hx p P).
    - destruct Hx as [Hx|Hx]; [discriminate|]. exact (IH Hx p P).
    - destruct P as [P1 P2]. destruct Hx as [Hx|Hx]; [injection Hx as <-; eauto|]. exact (IH Hx Own P2). }
  destruct N as (p' & al & com & N).
  destruct (pretty_with false true (a_value x)) eqn:Y; try exact F. cbn [inline_canon]. eapply nested_text; eassumption.
Qed.

Lemma elements_flow lead l : elements ut lead l -> forall x, In (AElem x) l -> is_inlineable (a_value x) = true ->
  flow_canon ut (a_value x).
Proof.
  induction 1 as [c l H1 H2 IH|lead x H|lead x c H|lead x l H H2 IH|lead x c l H H1 H2 H3 IH]; intros y Hy E.
  - destruct Hy as [Hy|Hy]; [discriminate|auto].
  - destruct Hy as [Hy|[]]. injection Hy as <-. now apply canon_flow in H.
  - destruct Hy as [Hy|[Hy|[]]]; [|discriminate]. injection Hy as <-. exact H.
  - destruct Hy as [Hy|Hy]; [|auto]. injection Hy as <-. now apply canon_flow in H.
  - destruct Hy as [Hy|[Hy|Hy]]; [|discriminate|auto]. injection Hy as <-. exact H.
Qed.
Lemma array_flow p q al l : canon ut p q al (Array l) -> forall x, In (AElem x) l -> is_inlineable (a_value x) = true ->
  flow_canon ut (a_value x).
Proof.
  intros C. inversion C; subst; intros y Hy E.
  - contradiction.
  - eapply elements_flow; eassumption.
  - destruct Hy as [Hy|Hy]; [injection Hy as <-|eapply elements_flow; eassumption].
    match goal with H : canon _ _ _ _ (a_value _) |- _ => apply canon_flow in H; [apply H|exact E] end.
  - destruct Hy as [Hy|[Hy|Hy]]; [injection Hy as <-; assumption|discriminate|eapply elements_flow; eassumption].
Qed.

Lemma array_pretty_canon p q al nested l : l <> [] -> alias_canon ut al -> polish ut p q al false nested (Array l) ->
  canon ut p q al (Array (map ad_pretty l)) -> canon ut p q al (pretty_with false q (Array l)).
Proof.
  intros Hl A P C. rewrite pretty_array by exact Hl. apply array_pretty; [|exact A|exact C].
  intros -> . rewrite polish_array in P. eapply elements_inline; [exact P|].
  intros x Hx E. apply (array_flow _ _ _ _ C (mkA (a_alias x) (pretty_with false true (a_value x)))); [|exact E].
  apply in_map_iff. exists (AElem x). split; [now destruct x|exact Hx].
Qed.

Lemma head_place lead b p l p' : entries ut lead (Head b) l -> (b = true -> lastp p) -> le_place p p' ->
  le_place (Head b) (head_of p' l) /\ (head_of p' l = Head true -> one_entry l /\ lastp p').
Proof.
  intros E Hb L. unfold head_of. split.
  - destruct b.
    + pose proof (entries_place _ _ _ E eq_refl) as H1. unfold one_entry in H1. rewrite H1. cbn [Nat.eqb andb].
      pose proof (le_last _ _ L (Hb eq_refl)) as H2. left. destruct p' as [|b']; [reflexivity|]. cbn in H2. now subst b'.
    + destruct (_ && _)%bool; [now right|now left].
  - intros X. injection X as X. apply andb_true_iff in X as [X1 X2]. apply Nat.eqb_eq in X1. split; [exact X1|].
    destruct p'; [exact I|exact X2].
Qed.

Lemma pretty_all : (forall p q al y, canon ut p q al y -> PC p q al y) /\
  (forall lead p l, entries ut lead p l -> PE lead p l) /\
  (forall lead l, elements ut lead l -> PN lead l).
Proof.
  apply canon_all; unfold PC, PE, PN.
  - (* flow *) intros p q al y F A p' nested L P. now apply (flow_pretty p' q al false nested y F A P).
  - (* literal *) intros p q al ls c B A Hp p' nested L P. cbn [pretty_with pretty_scalar]. apply CLiteral; auto.
    destruct L as [->|[-> ->]]; [exact Hp|]. destruct Hp as [Hp|[Hp _]]; discriminate.
  - intros p q al ls c B A Hp p' nested L P. cbn [pretty_with pretty_scalar]. apply CFolded; auto.
    destruct L as [->|[-> ->]]; [exact Hp|]. destruct Hp as [Hp|[Hp _]]; discriminate.
  - (* hash *) intros p l E IH p' nested L P. rewrite pretty_hash by exact (proj1 (entries_one _ _ _ E)).
    apply CHash. apply IH; [now left|discriminate|exact P].
  - intros p l b E IH Hb p' nested L P. rewrite pretty_hash by exact (proj1 (entries_one _ _ _ E)).
    rewrite polish_hash in P.

    destruct (head_place _ _ _ _ p' E Hb L) as [H1 H2]. destruct (head_of p' l) as [|b'] eqn:Eh; [discriminate|].
    apply CHashElem with (b := b'); [|intros ->; now apply H2]. apply IH; [exact H1|intros X; now apply H2|exact P].
  - intros p q a l b E IH Hb Hone A p' nested L P. rewrite pretty_hash by exact (proj1 (entries_one _ _ _ E)).
    rewrite polish_hash in P. replace (match q with true => _ | false => _ end) with (head_of p' l) in P by now destruct q.
    destruct (head_place _ _ _ _ p' E Hb L) as [H1 H2]. destruct (head_of p' l) as [|b'] eqn:Eh; [discriminate|].
    apply CHashAlias with (b := b'); [|intros ->; now apply H2| |exact A].
    + apply IH; [exact H1|intros X; now apply H2|exact P].
    + intros X. apply (le_last _ _ L), Hone, one_entry_pretty. exact X.
  - (* array *) intros p l E IH p' nested L P.
    assert (Hl : l <> []) by (destruct E; discriminate).
    apply (array_pretty_canon p' false None nested l Hl I P). apply CArray. exact (IH false P).
  - intros p q al x l C IHc E IHe A Q p' nested L P. refine (array_pretty_canon p' q al nested _ _ A P _); [discriminate|].
    rewrite polish_array in P. replace (match q with true => _ | false => _ end) with (Head false) in P
      by (destruct q; [reflexivity|]; destruct al; [reflexivity|]; destruct Q; congruence).
    destruct x as [al' v]. cbn [a_alias a_value] in *. destruct P as [P1 P2]. cbn [map ad_pretty].
    apply CArrayElem; [|exact (IHe q P2)|exact A|exact Q]. cbn [a_alias a_value].
    apply (IHc (Head false) q); [now left|].
    replace (match l with AInlineC _ :: _ => true | _ => false end) with false in P1; [exact P1|].
    destruct E; reflexivity.
  - intros p q al x c l F A1 O E IHe A Q p' nested L P. refine (array_pretty_canon p' q al nested _ _ A P _); [discriminate|].
    rewrite polish_array in P. replace (match q with true => _ | false => _ end) with (Head false) in P
      by (destruct q; [reflexivity|]; destruct al; [reflexivity|]; destruct Q; congruence).
    destruct x as [al' v]. cbn [a_alias a_value] in *. destruct P as [P1 P2]. cbn [map ad_pretty].
    apply CArrayElemC; [|exact A1|exact O|exact (IHe q P2)|exact A|exact Q]. cbn [a_alias a_value].
    now apply (flow_pretty _ _ _ _ _ _ F A1 P1).
  - (* entries *) intros p c l O E IH p' L H P. cbn [map hd_pretty]. apply EComment; [exact O|].
    apply IH; [exact L| |exact P]. intros X. exact (H X).
  - intros lead p [k [al v]] K C IH p' L H P. cbn [map hd_pretty he_key he_value a_alias a_value] in *.
    apply ELast; [exact K|]. exact (IH p' false L (proj1 P)).
  - intros lead p [k [al v]] c K F A O p' L H P. cbn [map hd_pretty he_key he_value a_alias a_value] in *.
    apply ELastC; auto. cbn [he_key he_value a_alias a_value]. now apply (flow_pretty _ _ _ _ _ _ F A (proj1 P)).
  - intros lead p [k [al v]] l K C IHc Hp E IH p' L H P. cbn [map hd_pretty he_key he_value a_alias a_value] in *.
    destruct P as [P1 P2]. apply ECons; [exact K| | |].
    + cbn [he_key he_value a_alias a_value]. apply (IHc p' false L).
      replace (match l with HInlineC _ :: _ => true | _ => false end) with false in P1; [exact P1|].
      destruct E; reflexivity.
    + intros ->. specialize (H eq_refl). apply entries_one in E. unfold one_entry in H. cbn in H. lia.
    + apply IH; [now left|discriminate|exact P2].
  - intros lead p [k [al v]] c l K F A O Hp E IH p' L H P. cbn [map hd_pretty he_key he_value a_alias a_value] in *.
    destruct P as [P1 P2]. apply EConsC; auto.
    + cbn [he_key he_value a_alias a_value]. now apply (flow_pretty _ _ _ _ _ _ F A P1).
    + intros ->. specialize (H eq_refl). apply entries_one in E. unfold one_entry in H. cbn in H. lia.
    + apply IH; [now left|discriminate|exact P2].
  - (* elements *) intros c l O E IH q P. cbn [map ad_pretty]. apply NComment; [exact O|]. exact (IH q P).
  - intros lead [al v] C IH q P. cbn [map ad_pretty a_alias a_value] in *. apply NLast.
    exact (IH Own q (or_introl eq_refl) (proj1 P)).
  - intros lead [al v] c F A O q P. cbn [map ad_pretty a_alias a_value] in *. apply NLastC; auto.
    cbn [a_alias a_value]. now apply (flow_pretty _ _ _ _ _ _ F A (proj1 P)).
  - intros lead [al v] l C IHc E IH q P. cbn [map ad_pretty a_alias a_value] in *. destruct P as [P1 P2].
    apply NCons; [|exact (IH q P2)]. cbn [a_alias a_value]. apply (IHc Own q (or_introl eq_refl)).
    replace (match l with AInlineC _ :: _ => true | _ => false end) with false in P1; [exact P1|]. destruct E; reflexivity.
  - intros lead [al v] c l F A O E IH q P. cbn [map ad_pretty a_alias a_value] in *. destruct P as [P1 P2].
    apply NConsC; auto; [|exact (IH q P2)]. cbn [a_alias a_value]. now apply (flow_pretty _ _ _ _ _ _ F A P1).
Qed.

Theorem pretty_canon d : canon_doc ut d -> polish_doc ut d -> canon_doc ut (pretty_doc d).
Proof.
  intros (Hl & a & y & b & E & Ha & Hb & C) P. split; [exact Hl|]. exists a, (pretty y), b.
  split; [|split; [exact Ha|split; [exact Hb|]]].
  - cbn [pretty_doc items]. rewrite E, map_app. cbn [map pretty_docdata]. rewrite !map_map. reflexivity.
  - assert (P' : polish ut Own false None false false y).
    { apply P. rewrite E. apply in_or_app. right. now left. }
    destruct pretty_all as (_ & PE' & PN'). unfold pretty.
    destruct y as [l|l|l|l|ps|ps|t|ls ch|ls ch|t]; try contradiction.
    + rewrite pretty_hash by exact (proj1 (entries_one _ _ _ C)). apply (PE' _ _ _ C); [now left|discriminate|exact P'].
    + assert (N : l <> []) by (destruct C; discriminate). rewrite pretty_array by exact N.
      apply (PN' _ _ C false). exact P'.
Qed.

Theorem pretty_parse d : canon_doc ut d -> polish_doc ut d ->
  parse_yaml ut (format_doc (pretty_doc d)) = CVal (pretty_doc d).
Proof. intros C P. apply format_parse. now apply pretty_canon. Qed.

(** ---- the side conditions of C08, C09 and C10 ---- *)

Lemma long_ok_inline : forall y, long_ok true y.
Proof.
  induction y as [l IH|l IH|l IH|l IH|ps|ps|s|ls ch|ls ch|s] using yaml_ind'; cbn [long_ok]; try easy.
  - induction IH as [|[k v] l H _ IHl]; [exact I|]. now split.
  - induction IH as [|[c|c|[k [al v]]] l H _ IHl]; [exact I| | |]; now split.
  - induction IH as [|v l H _ IHl]; [exact I|]. now split.
  - induction IH as [|[c|c|[al v]] l H _ IHl]; [exact I| | |]; now split.
Qed.

Lemma polish_long : forall y p q al com nested, polish ut p q al com nested y -> long_ok false y /\ stable q nested y.
Proof.
  induction y as [l IH|l IH|l IH|l IH|ps|ps|s|ls ch|ls ch|s] using yaml_ind'; intros p q al com nested P;
    try (now split).
  - split; [|exact I]. cbn [long_ok]. clear. induction l as [|[k v] l IHl]; [exact I|]. split; [apply long_ok_inline|exact IHl].
  - rewrite polish_hash in P. revert P. generalize (match q, al with false, None => Own | _, _ => head_of p l end). clear p al.
    induction IH as [|[c|c|[k [al v]]] l H _ IHl]; intros p P; [now split| | |].
    + destruct (IHl p P). now repeat split.
    + destruct (IHl p P). now repeat split.
    + destruct P as [P1 P2]. destruct (IHl Own P2) as [I1 I2]. cbn in H. destruct (H _ _ _ _ _ P1) as [H1 H2]. now repeat split.
  - split; [|exact I]. cbn [long_ok]. clear. induction l as [|v l IHl]; [exact I|]. split; [apply long_ok_inline|exact IHl].
  - rewrite polish_array in P. revert P. generalize (match q, al with false, None => Own | _, _ => Head false end). clear p al.
    induction IH as [|[c|c|[al v]] l H _ IHl]; intros p P; [now split| | |].
    + destruct (IHl p P). now repeat split.
    + destruct (IHl p P). now repeat split.
    + destruct P as [P1 P2]. destruct (IHl Own P2) as [I1 I2]. cbn in H. destruct (H _ _ _ _ _ P1) as [H1 H2]. now repeat split.
  - split; [|exact I]. cbn [long_ok]. intros _ Hb Hl. cbn [polish] in P. destruct P as [_ P]. now apply P.
  - split; [|exact I]. cbn [long_ok]. intros _ Hb Hl. cbn [polish] in P. destruct P as [_ P]. now apply P.
  - split; [exact I|]. cbn [stable]. intros N B. apply breaking_spec in B.
    rewrite inline_text_whole in B; [discriminate|]. now apply P.
Qed.

Lemma inline_canon_clean : forall y, inline_canon ut y -> inline_no_block true y = true.
Proof.
  induction y as [l IH|l IH|l IH|l IH|ps|ps|s|ls ch|ls ch|s] using yaml_ind'; intros C; try contradiction; try reflexivity.
  - cbn [inline_no_block inline_canon] in *. induction IH as [|[k v] l H _ IHl]; [reflexivity|].
    destruct C as [[_ C1] C2]. cbn. cbn in H. now rewrite H, IHl.
  - cbn [inline_no_block inline_canon] in *. induction IH as [|v l H _ IHl]; [reflexivity|].
    destruct C as [C1 C2]. cbn. now rewrite H, IHl.
Qed.
Lemma flow_canon_clean y : flow_canon ut y -> inline_no_block false y = true.
Proof.
  destruct y as [l|l|l|l|ps|ps|t|ls ch|ls ch|t]; intros C; try contradiction; try reflexivity.
  - exact (inline_canon_clean (InlineHash l) C).
  - exact (inline_canon_clean (InlineArray l) C).
Qed.

Definition hd_clean (d : hashdata) : bool :=
  match d with HElem (mkHE _ (mkA _ v)) => inline_no_block false v | _ => true end.
Definition ad_clean (d : arraydata) : bool :=
  match d with AElem (mkA _ v) => inline_no_block false v | _ => true end.
Lemma canon_clean : (forall p q al y, canon ut p q al y -> inline_no_block false y = true) /\
  (forall lead p l, entries ut lead p l -> forallb hd_clean l = true) /\
  (forall lead l, elements ut lead l -> forallb ad_clean l = true).
Proof.
  apply canon_all; intros; try reflexivity; try assumption; try (now apply flow_canon_clean).
  all: try match goal with e : hash_element |- _ => destruct e as [k [al' v]] end;
    try match goal with x : aliased |- _ => destruct x as [al' v] end.
  all: cbn [inline_no_block negb andb forallb hd_clean ad_clean he_value a_value] in *;
    repeat match goal with H : flow_canon _ _ |- _ => apply flow_canon_clean in H end.
  all: try (apply andb_true_iff; split); try assumption; try reflexivity; auto.
Qed.

Lemma doc_side d : canon_doc ut d -> polish_doc ut d ->
  doc_all (long_ok false) d /\ doc_all (stable false false) d /\ doc_all (fun y => inline_no_block false y = true) d.
Proof.
  intros (_ & a & y & b & E & _ & _ & C) P.
  split; [|split]; intros z Hz.
  - now destruct (polish_long z _ _ _ _ _ (P z Hz)).
  - now destruct (polish_long z _ _ _ _ _ (P z Hz)).
  - rewrite E in Hz. apply in_app_or in Hz as [Hz|[Hz|Hz]].
    + apply in_map_iff in Hz as (? & ? & _). discriminate.
    + injection Hz as <-. destruct canon_clean as (_ & CE & CN).
      destruct y as [l|l|l|l|ps|ps|t|ls ch|ls ch|t]; try contradiction; [exact (CE _ _ _ C)|exact (CN _ _ C)].
    + apply in_map_iff in Hz as (? & ? & _). discriminate.
Qed.

Theorem pretty_canonical d : canon_doc ut d -> polish_doc ut d -> exists d',
  parse_yaml ut (format_doc (pretty_doc d)) = CVal d' /\
  doc_views d' = doc_views d /\ doc_marks d' = doc_marks d /\ pretty_doc d' = d'.
Proof.
  intros C P. destruct (doc_side d C P) as (H1 & H2 & H3). exists (pretty_doc d).
  split; [now apply pretty_parse|]. split; [now apply doc_view|]. split; [now apply doc_keeps_marks|now apply doc_idem].
Qed.

Theorem pretty_file s d : parse_yaml ut s = CVal d -> calm_doc ut d -> polish_doc ut d -> exists d',
  parse_yaml ut (format_doc (pretty_doc d)) = CVal d' /\
  doc_views d' = doc_views d /\ doc_marks d' = doc_marks d /\ pretty_doc d' = d'.
Proof. intros E C. apply pretty_canonical. now apply (calm_canon ut s d). Qed.
End Polish.
