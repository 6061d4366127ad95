(** What the grammar reads from written block collections and documents. *)
From Coq Require Import ZArith.
From Verif Require Import Base Ast Num Strings Peg PegFacts YamlGrammar Consume Format Spec_Parse YamlTree
  Spec_Format Reads FormatText FormatScalars FormatFlow FormatBlock.
Import ListNotations.

Scheme canon_mut := Minimality for canon Sort Prop
  with entries_mut := Minimality for entries Sort Prop
  with elements_mut := Minimality for elements Sort Prop.
Combined Scheme canon_all from canon_mut, entries_mut, elements_mut.

Section Tree.
Context (ut : unitab).
Notation G := (yaml_grammar ut).
Notation gets := (gets ut).
Notation eats := (eats ut).
Notation eats0 := (eats0 ut).
Notation fails := (fails ut).
Notation follow := (follow ut).

(** ---- texts ---- *)

Definition entry_text (n : nat) (e : hash_element) : str :=
  he_key e ++ lit ":" ++ format_aliased (he_value e) n (Some ParHash).
Definition elem_text (n : nat) (x : aliased) : str := lit "-" ++ format_aliased x n (Some ParArray).
Definition hdata_text (n : nat) (d : hashdata) : str :=
  match d with
  | HComment c => NL :: indent n ++ lit "#" ++ c
  | HInlineC c => lit " #" ++ c
  | HElem e => NL :: indent n ++ entry_text n e
  end.
Definition adata_text (n : nat) (d : arraydata) : str :=
  match d with
  | AComment c => NL :: indent n ++ lit "#" ++ c
  | AInlineC c => lit " #" ++ c
  | AElem x => NL :: indent n ++ elem_text n x
  end.
Definition hash_text (n : nat) (l : list hashdata) : str := flat_map (hdata_text n) l.
Definition array_text (n : nat) (l : list arraydata) : str := flat_map (adata_text n) l.

Definition otext (oc : option str) : str := match oc with Some c => lit " #" ++ c | None => [] end.
Definition ovals (oc : option str) : list (yrule * yval) :=
  match oc with Some c => [(y_comment, VStr c)] | None => [] end.
Definition hoc (oc : option str) : list hashdata := match oc with Some c => [HInlineC c] | None => [] end.
Definition aoc (oc : option str) : list arraydata := match oc with Some c => [AInlineC c] | None => [] end.

Lemma concat_mapi_all {A} (f : nat -> A -> str) g l : (forall i x, f i x = g x) ->
  forall i, concat_mapi f i l = flat_map g l.
Proof. intros H. induction l as [|x l IH]; intros i; cbn; [reflexivity|]. now rewrite H, IH. Qed.

Lemma format_hash n l : l <> [] -> forall par, par <> Some ParArray -> format (Hash l) n par = hash_text n l.
Proof.
  intros Hl par Hp. destruct l as [|d l]; [contradiction|]. cbn [format is_nil].
  apply concat_mapi_all. intros i [c|c|[k [al x]]]; try reflexivity.
  destruct par as [[]|]; try congruence; cbn [same_line hdata_text]; unfold entry_text; cbn [he_key he_value];
    rewrite <- ?app_assoc; reflexivity.
Qed.
Lemma format_hash_elem n e l : format (Hash (HElem e :: l)) n (Some ParArray)
  = SP :: entry_text n e ++ hash_text n l.
Proof.
  cbn [format is_nil concat_mapi same_line Nat.eqb]. rewrite concat_mapi_S with (g := hdata_text n).
  - destruct e as [k [al x]]. unfold entry_text. cbn [he_key he_value].
    change (lit " ") with [SP]. rewrite <- ?app_assoc. reflexivity.
  - intros i [c|c|[k [al x]]]; try reflexivity. cbn [hdata_text Nat.eqb]. unfold entry_text.
    cbn [he_key he_value]. rewrite <- ?app_assoc. reflexivity.
Qed.
Lemma format_array n l : l <> [] -> forall par, par <> Some ParArray -> format (Array l) n par = array_text n l.
Proof.
  intros Hl par Hp. destruct l as [|d l]; [contradiction|]. cbn [format is_nil].
  apply concat_mapi_all. intros i [c|c|[al x]]; try reflexivity.
  destruct par as [[]|]; try congruence; cbn [same_line adata_text]; unfold elem_text;
    rewrite <- ?app_assoc; reflexivity.
Qed.
Lemma format_array_elem n x l : format (Array (AElem x :: l)) n (Some ParArray)
  = SP :: elem_text n x ++ array_text n l.
Proof.
  cbn [format is_nil concat_mapi same_line Nat.eqb]. rewrite concat_mapi_S with (g := adata_text n).
  - destruct x as [al x]. unfold elem_text.
    change (lit " -") with (SP :: lit "-"). reflexivity.
  - intros i [c|c|[al' x']]; try reflexivity. cbn [adata_text Nat.eqb]. unfold elem_text.
    rewrite <- ?app_assoc. reflexivity.
Qed.

Lemma comments_shape n cs X :
  flat_map (fun c => NL :: indent n ++ lit "#" ++ c) cs ++ NL :: X = NL :: clines n cs ++ X.
Proof.
  induction cs as [|c cs IH]; [reflexivity|]. cbn [flat_map clines app].
  rewrite <- app_assoc, IH. f_equal. fold (clines n cs). rewrite <- !app_assoc. reflexivity.
Qed.
Lemma hash_shape n cs e oc l : hash_text n (map HComment cs ++ HElem e :: hoc oc ++ l)
  = NL :: clines n cs ++ indent n ++ entry_text n e ++ otext oc ++ hash_text n l.
Proof.
  unfold hash_text. rewrite flat_map_app. cbn [flat_map hdata_text]. rewrite flat_map_app.
  replace (flat_map (hdata_text n) (map HComment cs)) with (flat_map (fun c => NL :: indent n ++ lit "#" ++ c) cs)
    by (induction cs as [|c cs IH]; [reflexivity|]; cbn [map flat_map hdata_text]; now rewrite IH).
  replace (flat_map (hdata_text n) (hoc oc)) with (otext oc)
    by (destruct oc; cbn [hoc flat_map hdata_text otext]; rewrite ?app_nil_r; reflexivity).
  cbn [app]. rewrite comments_shape, <- !app_assoc. reflexivity.
Qed.
Lemma array_shape n cs x oc l : array_text n (map AComment cs ++ AElem x :: aoc oc ++ l)
  = NL :: clines n cs ++ indent n ++ elem_text n x ++ otext oc ++ array_text n l.
Proof.
  unfold array_text. rewrite flat_map_app. cbn [flat_map adata_text]. rewrite flat_map_app.
  replace (flat_map (adata_text n) (map AComment cs)) with (flat_map (fun c => NL :: indent n ++ lit "#" ++ c) cs)
    by (induction cs as [|c cs IH]; [reflexivity|]; cbn [map flat_map adata_text]; now rewrite IH).
  replace (flat_map (adata_text n) (aoc oc)) with (otext oc)
    by (destruct oc; cbn [aoc flat_map adata_text otext]; rewrite ?app_nil_r; reflexivity).
  cbn [app]. rewrite comments_shape, <- !app_assoc. reflexivity.
Qed.

Lemma follow_comments K D C n cs X : Forall one_line cs -> n < C -> follow K D C (NL :: X) ->
  follow K D C (NL :: clines n cs ++ X).
Proof.
  intros H Hn HX. induction H as [|c cs Hc _ IH]; [exact HX|]. cbn [clines flat_map].
  rewrite <- !app_assoc. change (lit "#" ++ c ++ [NL] ++ flat_map _ cs ++ X)
    with (chr "#" :: c ++ NL :: clines n cs ++ X). now constructor.
Qed.

Lemma key_head k : plain_key ut k -> exists c r, k = c :: r /\ name_char ut c.
Proof. intros [(c & r & -> & Hc) _]. eauto. Qed.
Lemma entry_head n e z : plain_key ut (he_key e) -> exists c r, entry_text n e ++ z = c :: r /\ name_char ut c.
Proof.
  intros H. destruct (key_head _ H) as (c & r & E & Hc). unfold entry_text. rewrite E. cbn [app]. eauto.
Qed.
Lemma entry_solid n e z : plain_key ut (he_key e) -> solid (entry_text n e ++ z).
Proof. intros H. destruct (entry_head n e z H) as (c & r & -> & Hc). now apply (name_solid ut). Qed.
Lemma entry_not_comment n e z : plain_key ut (he_key e) -> not_comment (entry_text n e ++ z).
Proof. intros H. destruct (entry_head n e z H) as (c & r & -> & Hc). now apply (name_not_comment ut). Qed.

Lemma eats_blanknl_lines n cs m s k : solid s ->
  eats (R_ y_blanknl) (NL :: clines n cs ++ indent m ++ s) k [NL] (clines n cs ++ indent m ++ s) k.
Proof.
  intros H. destruct cs as [|c cs]; [now apply eats_blanknl|]. cbn [clines flat_map].
  rewrite <- !app_assoc. apply eats_blanknl. cbn. repeat split; discriminate.
Qed.
Lemma eats_blank_lines n cs m s k : solid s ->
  eats (R_ y_blank) (NL :: clines n cs ++ indent m ++ s) k [NL] (clines n cs ++ indent m ++ s) k.
Proof.
  intros H. destruct cs as [|c cs]; [now apply eats_blank|]. cbn [clines flat_map].
  rewrite <- !app_assoc. apply eats_blank. cbn. repeat split; discriminate.
Qed.

(** ---- values ---- *)

(** [q]: in a sequence. *)
Definition sepr (q : bool) : yexp := if q then yplus y_zs else PAlt (yplus y_zs) (R_ y_blanknl).
Definition parq (q : bool) : option parent := Some (if q then ParArray else ParHash).

(** What may follow a value whose key or dash is indented by [n], while the parser knows
    the indentation [t]. *)
Definition bounds (t n : nat) (p : place) (q : bool) (rest : str) : Prop :=
  exists K D C, follow K D C rest /\ K <= n + 1 /\ D <= n + 1 /\ C <= n + 1
    /\ (q = true -> K <= t + 1) /\ (lastp p -> K <= t + 1 /\ D <= t + 1 /\ C <= t + 1).

Definition reads (p : place) (q : bool) (al : option str) (y : yaml) (oc : option str) : Prop :=
  forall t n k rest, t <= n -> (p = Own -> n = t) -> bounds t n p q rest ->
  exists r,
    gets (PSeq (sepr q) (R_ y_ba_aliased)) (format_aliased (mkA al y) n (parq q) ++ otext oc ++ rest)
      (indent t :: k) [(y_ba_aliased, VAliased (mkA al y))] r (indent t :: k)
    /\ gets (POpt (R_ y_comment)) r (indent t :: k) (ovals oc) rest (indent t :: k).

Lemma gets_sp_sep q s k : solid s -> exists t, eats (sepr q) (SP :: s) k t s k.
Proof.
  intros H. exists [SP]. destruct q; cbn [sepr]; [|apply eats_alt1]; apply eats_sp, solid_zs, H.
Qed.
Lemma gets_nl_sep n s k : solid s -> exists t, eats (sepr false) (NL :: indent n ++ s) k t (indent n ++ s) k.
Proof.
  intros H. exists [NL]. cbn [sepr]. apply eats_alt2; [apply fails_zsp; reflexivity|]. apply eats_blanknl, H.
Qed.

Lemma alias_solid al s : alias_canon ut al -> solid s -> solid (alias_text al ++ s).
Proof. intros Ha Hs. destruct al; [|exact Hs]. cbn. repeat split; discriminate. Qed.

(** No comment follows. *)
Lemma reads_plain p q al y :
  (forall t n k rest, t <= n -> (p = Own -> n = t) -> bounds t n p q rest ->
    gets (PSeq (sepr q) (R_ y_ba_aliased)) (format_aliased (mkA al y) n (parq q) ++ rest)
      (indent t :: k) [(y_ba_aliased, VAliased (mkA al y))] rest (indent t :: k)) ->
  reads p q al y None.
Proof.
  intros H t n k rest H1 H2 H3. exists rest. split; [now apply H|].
  apply gets_opt0, fails_comment_nl. destruct H3 as (K & D & C & H3 & _). now apply (follow_nl ut K D C).
Qed.

Lemma format_flow al y n q : flow_facts ut y ->
  format_aliased (mkA al y) n (parq q) = SP :: alias_text al ++ body y.
Proof.
  intros H. destruct al as [a|]; cbn [format_aliased alias_text]; rewrite (ff_text ut y H).
  - change (lit " &") with (SP :: lit "&"). cbn [app]. rewrite <- !app_assoc. reflexivity.
  - reflexivity.
Qed.

Lemma reads_flow p q al y oc : flow_canon ut y -> alias_canon ut al ->
  (forall c, oc = Some c -> one_line c) -> reads p q al y oc.
Proof.
  intros Hy Ha Hoc t n k rest _ _ (K & D & C & Hf & _). pose proof (flow_facts_ok ut y Hy) as F.
  assert (Hz : btail (otext oc ++ rest)).
  { destruct oc; [constructor|now apply (follow_btail ut K D C)]. }
  destruct (ff_value ut y F _ Hz) as (r & Hr & Gr). exists r. split.
  - rewrite (format_flow al y n q F). cbn [app]. rewrite <- app_assoc.
    destruct (gets_sp_sep q (alias_text al ++ body y ++ otext oc ++ rest) (indent t :: k)) as (u & Eu).
    { apply alias_solid; [exact Ha|apply (ff_solid ut y F)]. }
    eapply gets_seq0; [exact Eu|].
    apply gets_ba_aliased; [exact Ha|apply (ff_solid ut y F)| | | |apply Gr]; intros k'.
    + now apply (ff_hash ut y F).
    + now apply (ff_array ut y F).
    + now apply (ff_alias ut y F).
  - pose proof (follow_nl ut K D C rest Hf) as Hn. destruct oc as [c|]; cbn [otext ovals app] in *.
    + apply gets_opt1. specialize (Hoc c eq_refl). destruct Hr as [->|E].
      * apply (gets_comment ut [SP] c rest); [now intros x [<-|[]]|exact Hoc|exact Hn].
      * inversion E; subst r. apply (gets_comment ut [] c rest); [intros x []|exact Hoc|exact Hn].
    + rewrite (nl_left _ _ Hn Hr). apply gets_opt0, fails_comment_nl, Hn.
Qed.

(** Block scalars. *)
Lemma format_lines head ls c s l ls' : ls = l :: ls' ->
  format_block_lines head ls c s
  = head ++ chomp_str c ++ (if starts_with SP (hd [] ls) then lit "2" else []) ++ lines_text s ls.
Proof.
  intros ->. unfold format_block_lines. cbn [concat_mapi Nat.eqb hd lines_text flat_map].
  rewrite <- !app_assoc. do 3 f_equal.
  erewrite concat_mapi_S; [cbn [app]; rewrite <- app_assoc; reflexivity|]. reflexivity.
Qed.

Lemma reads_block p q al r sign mk ls c :
  (r = y_ml_literal /\ sign = chr "|" /\ mk = Literal) \/ (r = y_ml_folded /\ sign = chr ">" /\ mk = Folded) ->
  block_lines ls -> alias_canon ut al -> (p = Own \/ p = Head true /\ (forall l ls', ls <> (SP :: l) :: ls')) ->
  reads p q al (mk ls c) None.
Proof.
  intros Hr Hls Ha Hp. apply reads_plain. intros t n k rest Ht Hn (K & D & C & Hf & _ & _ & _ & _ & Hlast).
  assert (Hb : K <= t + 1 /\ D <= t + 1 /\ C <= t + 1) by (apply Hlast; destruct Hp as [->|[-> _]]; [exact I|reflexivity]).
  destruct Hb as (HK & HD & HC).
  set (j := n + 1 - t).
  assert (Ej : t + 1 + j = n + 2) by (unfold j; lia).
  assert (Hj : 1 <= j) by (unfold j; lia).
  assert (Hi : j = 1 \/ forall l ls', ls <> (SP :: l) :: ls').
  { destruct Hp as [->|[_ Hp]]; [left; unfold j; rewrite (Hn eq_refl); lia|now right]. }
  pose proof (gets_ml_value ut r sign mk K D C t j ls c rest k Hr Hf HK HD HC Hls Hj Hi) as Gv.
  rewrite Ej in Gv.
  set (txt := sign :: chomp_str c ++ _) in Gv.
  assert (Et : format_aliased (mkA al (mk ls c)) n (parq q) ++ rest = SP :: alias_text al ++ txt).
  { destruct Hls as (_ & ch & l & ls' & E & _).
    assert (Ef : forall par, format (mk ls c) (n + 2) par = SP :: sign :: chomp_str c ++
             (if starts_with SP (hd [] ls) then lit "2" else []) ++ lines_text (n + 2) ls).
    { intros par. destruct Hr as [(-> & -> & ->)|(-> & -> & ->)]; cbn [format];
        rewrite (format_lines _ ls c (n + 2) _ _ E); reflexivity. }
    unfold txt. destruct al as [a|]; cbn [format_aliased alias_text]; rewrite Ef.
    - change (lit " &") with (SP :: lit "&"). cbn [app]. rewrite <- !app_assoc. cbn [app]. rewrite <- !app_assoc. reflexivity.
    - cbn [app]. rewrite <- !app_assoc. reflexivity. }
  rewrite Et.
  assert (Hs : solid txt) by (unfold txt; destruct Hr as [(_ & -> & _)|(_ & -> & _)]; cbn; repeat split; discriminate).
  destruct (gets_sp_sep q (alias_text al ++ txt) (indent t :: k)) as (u & Eu); [now apply alias_solid|].
  eapply gets_seq0; [exact Eu|].
  apply gets_ba_aliased; [exact Ha|exact Hs| | | |exact Gv];
    intros k'; unfold txt; destruct Hr as [(_ & -> & _)|(_ & -> & _)]; scanc.
Qed.

(** ---- entries ---- *)

Lemma gets_entry p e oc t n k rest : plain_key ut (he_key e) ->
  reads p false (a_alias (he_value e)) (a_value (he_value e)) oc ->
  t <= n -> (p = Own -> n = t) -> bounds t n p false rest ->
  gets (PSeq (R_ y_hash_element) (POpt (R_ y_comment))) (entry_text n e ++ otext oc ++ rest) (indent t :: k)
    ((y_hash_element, VHElem e) :: ovals oc) rest (indent t :: k).
Proof.
  destruct e as [key [al y]]. cbn [he_key he_value a_alias a_value].
  intros Hk Hr Ht Hn Hb. destruct (Hr t n k rest Ht Hn Hb) as (r & G1 & G2).
  eapply gets_seq; [|exact G2|].
  - eapply gets_rule; [reflexivity| |].
    + cbn [yaml_grammar snd]. unfold entry_text. cbn [he_key he_value]. rewrite <- !app_assoc.
      eapply gets_seq; [apply gets_hash_key; [exact Hk|]| |reflexivity].
      * intros c x E. inversion E; subst. apply punct_not_key; [reflexivity|discriminate|discriminate].
      * eapply gets_seq0; [exact (eats_str ut (lit ":") _ _)|].
        exact G1.
    + reflexivity.
  - reflexivity.
Qed.
Lemma gets_first_entry p e oc t n k rest : plain_key ut (he_key e) ->
  reads p false (a_alias (he_value e)) (a_value (he_value e)) oc ->
  t <= n -> (p = Own -> n = t) -> bounds t n p false rest ->
  gets (R_ y_first_hash_element) (entry_text n e ++ otext oc ++ rest) (indent t :: k)
    [(y_first_hash_element, VHData (HElem e :: hoc oc))] rest (indent t :: k).
Proof.
  intros. eapply gets_rule; [reflexivity|cbn [yaml_grammar snd]; eapply gets_entry; eassumption|].
  intros x _. destruct oc; reflexivity.
Qed.

Inductive entries_read : bool -> place -> list hashdata -> Prop :=
| er_last lead p cs e oc : Forall one_line cs -> (lead = false -> cs = []) -> plain_key ut (he_key e) ->
    reads p false (a_alias (he_value e)) (a_value (he_value e)) oc ->
    entries_read lead p (map HComment cs ++ HElem e :: hoc oc ++ [])
| er_cons lead p cs e oc l : Forall one_line cs -> (lead = false -> cs = []) -> plain_key ut (he_key e) ->
    reads p false (a_alias (he_value e)) (a_value (he_value e)) oc ->
    p <> Head true -> entries_read true Own l ->
    entries_read lead p (map HComment cs ++ HElem e :: hoc oc ++ l).

Lemma er_nonempty lead p l : entries_read lead p l -> l <> [].
Proof. intros [? ? cs|? ? cs]; destruct cs; discriminate. Qed.

(** What may follow a mapping whose keys are indented by [n]. *)
Definition hend (n : nat) (rest : str) : Prop :=
  exists K D C, follow K D C rest /\ K <= n /\ D <= n + 1 /\ C <= n + 1.
Lemma hend_bounds n rest p : hend n rest -> bounds n n p false rest.
Proof.
  intros (K & D & C & H & H1 & H2 & H3). exists K, D, C. split; [exact H|]. repeat split; intros; try discriminate; lia.
Qed.
Lemma follow_bounds n p q rest : follow (n + 1) (n + 1) (n + 1) rest -> bounds n n p q rest.
Proof. intros H. exists (n + 1), (n + 1), (n + 1). split; [exact H|]. repeat split; intros; lia. Qed.

Lemma er_follow lead p l : entries_read lead p l -> forall n rest,
  follow (n + 1) (n + 1) (n + 1) (hash_text n l ++ rest).
Proof.
  intros H n rest. destruct H as [lead p cs e oc Hcs _ Hk _|lead p cs e oc l Hcs _ Hk _ _ _];
    rewrite hash_shape; cbn [app]; rewrite <- !app_assoc; (apply follow_comments; [exact Hcs|lia|]).
  - destruct (entry_head n e (otext oc ++ hash_text n [] ++ rest) Hk) as (c & r & -> & Hc). constructor; [lia|exact Hc].
  - destruct (entry_head n e (otext oc ++ hash_text n l ++ rest) Hk) as (c & r & -> & Hc). constructor; [lia|exact Hc].
Qed.

Definition vhdata (vs : list (yrule * yval)) (l : list hashdata) : Prop :=
  forall tl, many as_hdata tl = ([], tl) -> exists gs, many as_hdata (vs ++ tl) = (gs, tl) /\ concat gs = l.

Lemma gets_entry_data cs e oc n k rest : Forall one_line cs -> plain_key ut (he_key e) ->
  reads Own false (a_alias (he_value e)) (a_value (he_value e)) oc -> bounds n n Own false rest ->
  gets (R_ y_hash_element_data) (NL :: clines n cs ++ indent n ++ entry_text n e ++ otext oc ++ rest) (indent n :: k)
    [(y_hash_element_data, VHData (map HComment cs ++ HElem e :: hoc oc))] rest (indent n :: k).
Proof.
  intros Hcs Hk Hr Hb. eapply gets_rule; [reflexivity| |].
  - cbn [yaml_grammar snd].
    eapply gets_seq0; [apply eats_blanknl_lines, entry_solid, Hk|].
    eapply gets_seq; [apply gets_comments; [exact Hcs|now apply entry_solid|now apply entry_not_comment]| |reflexivity].
    eapply gets_seq0; [apply eats_peek|].
    eapply gets_entry; [exact Hk|exact Hr|lia|reflexivity|exact Hb].
  - intros x _. destruct oc; reflexivity.
Qed.

Lemma gets_entries lead p l : entries_read lead p l -> p = Own -> forall n k rest, hend n rest ->
  exists vs, gets (PStar (R_ y_hash_element_data)) (hash_text n l ++ rest) (indent n :: k) vs rest (indent n :: k)
    /\ vhdata vs l.
Proof.
  intros H. induction H as [lead p cs e oc Hcs _ Hk Hr|lead p cs e oc l Hcs _ Hk Hr _ Hl IH];
    intros -> n k rest He; rewrite hash_shape; cbn [app]; rewrite <- !app_assoc.
  - cbn [hash_text flat_map app]. eexists. split.
    + eapply gets_star1; [apply gets_entry_data; try eassumption; now apply hend_bounds| |reflexivity].
      apply gets_star0. destruct He as (K & D & C & Hf & HK & _). now apply (end_hash_data ut K D C).
    + intros tl Htl. cbn [app many as_hdata].
      exists [map HComment cs ++ HElem e :: hoc oc ++ []]. cbn [concat]. rewrite !app_nil_r.
      change (many as_hdata tl) with (many as_hdata tl). rewrite Htl. split; reflexivity.
  - destruct (IH eq_refl n k rest He) as (vs & G1 & V1). eexists. split.
    + eapply gets_star1; [apply gets_entry_data; try eassumption| exact G1|reflexivity].
      apply follow_bounds. now apply (er_follow true Own).
    + intros tl Htl. destruct (V1 tl Htl) as (gs & E1 & E2). cbn [app many as_hdata].
      exists ((map HComment cs ++ HElem e :: hoc oc) :: gs). rewrite E1. cbn [concat]. rewrite E2, <- app_assoc.
      split; reflexivity.
Qed.

Lemma hend_nl n rest : hend n rest -> nl_or_end rest.
Proof. intros (K & D & C & H & _). now apply (follow_nl ut K D C). Qed.


Lemma gets_hash lead l : entries_read lead Own l -> forall n k rest, hend n rest ->
  exists txt, hash_text n l = NL :: txt /\
    (exists m s, txt ++ rest = indent m ++ s /\ n <= m /\ solid s) /\
    gets (R_ y_hash) (txt ++ rest) k [(y_hash, VYaml (Hash l))] rest k.
Proof.
  intros H n k rest He. remember Own as p eqn:Ep.
  assert (X : exists cs e oc l', l = map HComment cs ++ HElem e :: hoc oc ++ l' /\ Forall one_line cs
     /\ plain_key ut (he_key e) /\ reads Own false (a_alias (he_value e)) (a_value (he_value e)) oc
     /\ bounds n n Own false (hash_text n l' ++ rest)
     /\ exists vs, gets (PStar (R_ y_hash_element_data)) (hash_text n l' ++ rest) (indent n :: k) vs rest (indent n :: k)
       /\ vhdata vs l').
  { destruct H as [lead p cs e oc Hcs _ Hk Hr|lead p cs e oc l Hcs _ Hk Hr _ Hl]; subst p.
    - exists cs, e, oc, []. repeat (split; [first [reflexivity|assumption]|]).
      split; [now apply hend_bounds|]. exists []. split.
      + apply gets_star0. destruct He as (K & D & C & Hf & HK & _). now apply (end_hash_data ut K D C).
      + intros tl Htl. exists []. split; [exact Htl|reflexivity].
    - exists cs, e, oc, l. repeat (split; [first [reflexivity|assumption]|]).
      split; [apply follow_bounds; now apply (er_follow true Own)|]. now apply (gets_entries true Own). }
  destruct X as (cs & e & oc & l' & -> & Hcs & Hk & Hr & Hb & vs & Gs & Hv).
  rewrite hash_shape. eexists. split; [reflexivity|]. rewrite <- !app_assoc. split.
  { destruct cs as [|c cs].
    - exists n. eexists. split; [reflexivity|]. split; [lia|]. now apply entry_solid.
    - exists n. eexists. split; [cbn [clines flat_map]; rewrite <- !app_assoc; reflexivity|]. split; [lia|].
      cbn. repeat split; discriminate. }
  destruct (Hv [(y_commentnls, VStrs [])] eq_refl) as (gs & E1 & E2).
  eapply gets_rule; [reflexivity| |].
  - cbn [yaml_grammar snd].
    eapply gets_seq0; [apply eats_opt0, line_no_nl, entry_solid, Hk|].
    eapply gets_seq; [apply gets_comments; [exact Hcs|now apply entry_solid|now apply entry_not_comment]| |reflexivity].
    eapply gets_seq0; [apply eats_blank0, entry_solid, Hk|].
    eapply gets_seq0; [apply eats_push, eats_indent, solid_zs, entry_solid, Hk|].
    eapply gets_seq; [eapply gets_first_entry; [exact Hk|exact Hr|lia|reflexivity|exact Hb]| |reflexivity].
    eapply gets_seq; [exact Gs| |reflexivity].
    eapply gets_seq0; [apply eats_drop|]. apply gets_comments0. now apply (hend_nl n).
  - intros x _. cbn [yact app]. rewrite E1, E2. cbn [hcomments map]. rewrite !app_nil_r. reflexivity.
Qed.

(** A mapping that starts on the line of a dash, or after an alias. *)
Lemma gets_alternative_hash b l : entries_read false (Head b) l -> forall p q t n k rest,
  t <= n -> bounds t n p q rest -> (b = true -> lastp p) -> (q = true \/ (one_entry l -> lastp p)) ->
  exists e l', l = HElem e :: l' /\ plain_key ut (he_key e) /\
    gets (R_ y_alternative_hash) (entry_text (n + 2) e ++ hash_text (n + 2) l' ++ rest) (indent t :: k)
      [(y_alternative_hash, VYaml (Hash l))] rest (indent t :: k).
Proof.
  intros H p q t n k rest Ht Hb Hbp Hq. remember false as lead eqn:El. remember (Head b) as p' eqn:Ep.
  assert (Hrest : nl_or_end rest).
  { destruct Hb as (K & D & C & Hf & _). now apply (follow_nl ut K D C). }
  destruct H as [lead p' cs e oc Hcs Hl0 Hk Hr|lead p' cs e oc l Hcs Hl0 Hk Hr Hne Hl]; subst lead p';
    rewrite (Hl0 eq_refl) in *; cbn [map app] in *.
  - exists e, (hoc oc ++ []). split; [reflexivity|]. split; [exact Hk|].
    replace (hash_text (n + 2) (hoc oc ++ []) ++ rest) with (otext oc ++ rest)
      by (destruct oc; cbn [hoc app hash_text flat_map hdata_text otext]; rewrite ?app_nil_r; reflexivity).
    destruct Hb as (K & D & C & Hf & HK & HD & HC & Hqb & Hlast).
    assert (HKt : K <= t + 1).
    { destruct Hq as [->|Hq]; [now apply Hqb|]. apply Hlast, Hq. unfold one_entry. destruct oc; reflexivity. }
    eapply gets_rule; [reflexivity| |].
    + cbn [yaml_grammar snd]. eapply gets_seq; [eapply gets_first_entry; [exact Hk|exact Hr|lia|discriminate|]| |reflexivity].
      * exists K, D, C. split; [exact Hf|]. do 4 (split; [first [lia|discriminate]|]).
        cbn [lastp]. intros Hbt. apply Hlast, Hbp, Hbt.
      * eapply gets_seq; [apply gets_opt0; now apply (end_alt_cont ut K D C)|apply gets_comments0, Hrest|reflexivity].
    + intros x _. cbn [yact app]. rewrite !app_nil_r. reflexivity.
  - exists e, (hoc oc ++ l). split; [reflexivity|]. split; [exact Hk|].
    replace (hash_text (n + 2) (hoc oc ++ l) ++ rest) with (otext oc ++ hash_text (n + 2) l ++ rest)
      by (unfold hash_text; rewrite flat_map_app, <- app_assoc; destruct oc; cbn [hoc app hash_text flat_map hdata_text otext]; rewrite ?app_nil_r; reflexivity).
    assert (He : hend (n + 2) rest).
    { destruct Hb as (K & D & C & Hf & HK & HD & HC & _). exists K, D, C. split; [exact Hf|]. lia. }
    (* the second entry *)
    assert (X : exists cs e2 oc2 l2, l = map HComment cs ++ HElem e2 :: hoc oc2 ++ l2 /\ Forall one_line cs
       /\ plain_key ut (he_key e2) /\ reads Own false (a_alias (he_value e2)) (a_value (he_value e2)) oc2
       /\ bounds (n + 2) (n + 2) Own false (hash_text (n + 2) l2 ++ rest)
       /\ exists vs, gets (PStar (R_ y_hash_element_data)) (hash_text (n + 2) l2 ++ rest) (indent (n + 2) :: indent t :: k)
            vs rest (indent (n + 2) :: indent t :: k) /\ vhdata vs l2).
    { clear - Hl He. remember Own as p eqn:Ep. destruct Hl as [lead p cs e oc Hcs _ Hk Hr|lead p cs e oc l Hcs _ Hk Hr _ Hl]; subst p.
      - exists cs, e, oc, []. repeat (split; [first [reflexivity|assumption]|]).
        split; [now apply hend_bounds|]. exists []. split.
        + apply gets_star0. destruct He as (K & D & C & Hf & HK & _). now apply (end_hash_data ut K D C).
        + intros tl Htl. exists []. split; [exact Htl|reflexivity].
      - exists cs, e, oc, l. repeat (split; [first [reflexivity|assumption]|]).
        split; [apply follow_bounds; now apply (er_follow true Own)|]. now apply (gets_entries true Own). }
    pose proof (er_follow true Own l Hl (n + 2) rest) as Hf2.
    destruct X as (cs2 & e2 & oc2 & l2 & -> & Hcs2 & Hk2 & Hr2 & Hb2 & vs & Gs & Hv).
    destruct (Hv [] eq_refl) as (gs & E1 & E2). rewrite app_nil_r in E1.
    eapply gets_rule; [reflexivity| |].
    + cbn [yaml_grammar snd]. eapply gets_seq; [eapply gets_first_entry; [exact Hk|exact Hr|lia|discriminate|]| |reflexivity].
      * exists (n + 2 + 1), (n + 2 + 1), (n + 2 + 1). split; [exact Hf2|]. do 4 (split; [first [lia|discriminate]|]).
        cbn [lastp]. intros ->. now destruct Hne.
      * eapply gets_seq; [|apply gets_comments0, Hrest|reflexivity]. apply gets_opt1.
        rewrite hash_shape. cbn [app]. rewrite <- !app_assoc.
        eapply gets_rule; [reflexivity| |].
        -- cbn [yaml_grammar snd]. eapply gets_seq0; [apply eats_blanknl_lines, entry_solid, Hk2|].
           eapply gets_seq; [apply gets_comments; [exact Hcs2|now apply entry_solid|now apply entry_not_comment]| |reflexivity].
           assert (Ed : exists d, n + 2 - t = S d) by (exists (n + 1 - t); lia). destruct Ed as (d & Ed).
           eapply gets_seq0.
           { eapply eats_and. rewrite (indent_split t (n + 2)) by lia. rewrite Ed.
             eapply eats_seq; [apply eats_peek| |reflexivity]. cbn [indent repeat_char app].
             eapply eats_seq; [now apply eats_class| |reflexivity].
             apply (eats_indent ut d). now apply solid_zs, entry_solid. }
           eapply gets_seq0; [apply eats_push, eats_indent, solid_zs, entry_solid, Hk2|].
           eapply gets_seq; [eapply gets_first_entry; [exact Hk2|exact Hr2|lia|reflexivity|exact Hb2]| |reflexivity].
           eapply gets_seq; [exact Gs|eapply eats_gets, eats_drop|reflexivity].
        -- intros x _. cbn [yact app]. rewrite app_nil_r, E1, E2. reflexivity.
    + intros x _. cbn [yact app hcomments map]. rewrite !app_nil_r. reflexivity.
Qed.

(** ---- elements ---- *)

Lemma elem_solid n x z : solid (elem_text n x ++ z).
Proof. cbn. repeat split; discriminate. Qed.
Lemma elem_not_comment n x z : not_comment (elem_text n x ++ z).
Proof. intros r E. discriminate. Qed.
Lemma elem_no_entry n x z k : fails (R_ y_hash_element) (elem_text n x ++ z) k.
Proof. unfold elem_text. rewrite <- app_assoc. exact (no_key_dash ut 0 _ k). Qed.

Lemma gets_elem p x oc t n k rest : reads p true (a_alias x) (a_value x) oc ->
  t <= n -> (p = Own -> n = t) -> bounds t n p true rest ->
  gets (PSeq (R_ y_block_array_element) (POpt (R_ y_comment))) (elem_text n x ++ otext oc ++ rest) (indent t :: k)
    ((y_block_array_element, VAElem (AElem x)) :: ovals oc) rest (indent t :: k).
Proof.
  destruct x as [al y]. cbn [a_alias a_value].
  intros Hr Ht Hn Hb. destruct (Hr t n k rest Ht Hn Hb) as (r & G1 & G2).
  eapply gets_seq; [|exact G2|].
  - eapply gets_rule; [reflexivity| |].
    + cbn [yaml_grammar snd]. unfold elem_text. rewrite <- !app_assoc.
      eapply gets_seq0; [exact (eats_str ut (lit "-") _ _)|]. exact G1.
    + reflexivity.
  - reflexivity.
Qed.
Lemma gets_first_elem p x oc t n k rest : reads p true (a_alias x) (a_value x) oc ->
  t <= n -> (p = Own -> n = t) -> bounds t n p true rest ->
  gets (R_ y_first_block_array_element) (elem_text n x ++ otext oc ++ rest) (indent t :: k)
    [(y_first_block_array_element, VAData (AElem x :: aoc oc))] rest (indent t :: k).
Proof.
  intros. eapply gets_rule; [reflexivity|cbn [yaml_grammar snd]; eapply gets_elem; eassumption|].
  intros u _. destruct oc; reflexivity.
Qed.

Inductive elements_read : bool -> list arraydata -> Prop :=
| nr_last lead cs x oc : Forall one_line cs -> (lead = false -> cs = []) ->
    reads Own true (a_alias x) (a_value x) oc ->
    elements_read lead (map AComment cs ++ AElem x :: aoc oc ++ [])
| nr_cons lead cs x oc l : Forall one_line cs -> (lead = false -> cs = []) ->
    reads Own true (a_alias x) (a_value x) oc -> elements_read true l ->
    elements_read lead (map AComment cs ++ AElem x :: aoc oc ++ l).

Lemma nr_nonempty lead l : elements_read lead l -> l <> [].
Proof. intros [? cs|? cs]; destruct cs; discriminate. Qed.

(** What may follow a sequence whose dashes are indented by [n]. *)
Definition aend (n : nat) (rest : str) : Prop :=
  exists K D C, follow K D C rest /\ K <= n + 1 /\ D <= n /\ C <= n + 1.
Lemma aend_bounds n rest p : aend n rest -> bounds n n p true rest.
Proof. intros (K & D & C & H & H1 & H2 & H3). exists K, D, C. split; [exact H|]. repeat split; intros; lia. Qed.
Lemma aend_nl n rest : aend n rest -> nl_or_end rest.
Proof. intros (K & D & C & H & _). now apply (follow_nl ut K D C). Qed.

Lemma nr_follow lead l : elements_read lead l -> forall n rest,
  follow 0 (n + 1) (n + 1) (array_text n l ++ rest).
Proof.
  intros H n rest. destruct H as [lead cs x oc Hcs _ _|lead cs x oc l Hcs _ _ _];
    rewrite array_shape; cbn [app]; rewrite <- !app_assoc; (apply follow_comments; [exact Hcs|lia|]);
    unfold elem_text; rewrite <- !app_assoc; apply f_dash; lia.
Qed.
Lemma nr_bounds lead l n rest : elements_read lead l -> bounds n n Own true (array_text n l ++ rest).
Proof.
  intros H. exists 0, (n + 1), (n + 1). split; [now apply (nr_follow lead)|]. repeat split; intros; lia.
Qed.

Definition vadata (vs : list (yrule * yval)) (l : list arraydata) : Prop :=
  forall tl, many as_adata tl = ([], tl) -> exists gs, many as_adata (vs ++ tl) = (gs, tl) /\ concat gs = l.

Definition asep (nl : bool) : yexp := if nl then R_ y_blanknl else R_ y_blank.
Lemma eats_asep nl n cs m s k : solid s ->
  eats (asep nl) (NL :: clines n cs ++ indent m ++ s) k [NL] (clines n cs ++ indent m ++ s) k.
Proof. destruct nl; [apply eats_blanknl_lines|apply eats_blank_lines]. Qed.
Lemma end_elements nl n rest k : aend n rest -> fails (PSeq (asep nl) (R_ y_block_array_data)) rest (indent n :: k).
Proof.
  intros (K & D & C & H & _ & HD & _). destruct (end_array_data ut K D C n rest k H HD).
  destruct nl; assumption.
Qed.

Lemma gets_elem_data nl cs x oc n k rest : Forall one_line cs ->
  reads Own true (a_alias x) (a_value x) oc -> bounds n n Own true rest ->
  gets (PSeq (asep nl) (R_ y_block_array_data))
    (NL :: clines n cs ++ indent n ++ elem_text n x ++ otext oc ++ rest) (indent n :: k)
    [(y_block_array_data, VAData (map AComment cs ++ AElem x :: aoc oc))] rest (indent n :: k).
Proof.
  intros Hcs Hr Hb. eapply gets_seq0; [apply eats_asep, elem_solid|].
  eapply gets_rule; [reflexivity| |].
  - cbn [yaml_grammar snd].
    eapply gets_seq; [apply gets_comments; [exact Hcs|apply elem_solid|apply elem_not_comment]| |reflexivity].
    eapply gets_seq0; [apply eats_peek|].
    eapply gets_elem; [exact Hr|lia|reflexivity|exact Hb].
  - intros u _. destruct oc; reflexivity.
Qed.

Lemma gets_elements nl lead l : elements_read lead l -> forall n k rest, aend n rest ->
  exists vs, gets (PStar (PSeq (asep nl) (R_ y_block_array_data))) (array_text n l ++ rest) (indent n :: k)
      vs rest (indent n :: k) /\ vadata vs l.
Proof.
  intros H. induction H as [lead cs x oc Hcs _ Hr|lead cs x oc l Hcs _ Hr Hl IH];
    intros n k rest He; rewrite array_shape; cbn [app]; rewrite <- !app_assoc.
  - cbn [array_text flat_map app]. eexists. split.
    + eapply gets_star1; [apply gets_elem_data; try eassumption; now apply aend_bounds| |reflexivity].
      apply gets_star0. now apply end_elements.
    + intros tl Htl. cbn [app many as_adata].
      exists [map AComment cs ++ AElem x :: aoc oc ++ []]. cbn [concat]. rewrite !app_nil_r.
      rewrite Htl. split; reflexivity.
  - destruct (IH n k rest He) as (vs & G1 & V1). eexists. split.
    + eapply gets_star1; [apply gets_elem_data; try eassumption| exact G1|reflexivity].
      now apply (nr_bounds true).
    + intros tl Htl. destruct (V1 tl Htl) as (gs & E1 & E2). cbn [app many as_adata].
      exists ((map AComment cs ++ AElem x :: aoc oc) :: gs). rewrite E1. cbn [concat]. rewrite E2, <- app_assoc.
      split; reflexivity.
Qed.

(** A sequence is its first element and the further ones. *)
Lemma elements_split nl lead l n k rest : elements_read lead l -> aend n rest ->
  exists cs x oc l', l = map AComment cs ++ AElem x :: aoc oc ++ l' /\ Forall one_line cs
     /\ (lead = false -> cs = []) /\ reads Own true (a_alias x) (a_value x) oc
     /\ bounds n n Own true (array_text n l' ++ rest) /\ nl_or_end (array_text n l' ++ rest)
     /\ exists vs, gets (PStar (PSeq (asep nl) (R_ y_block_array_data))) (array_text n l' ++ rest) (indent n :: k)
          vs rest (indent n :: k) /\ vadata vs l'.
Proof.
  intros H He. destruct H as [lead cs x oc Hcs Hl0 Hr|lead cs x oc l Hcs Hl0 Hr Hl].
  - exists cs, x, oc, []. repeat (split; [first [reflexivity|assumption]|]).
    split; [now apply aend_bounds|]. split; [now apply (aend_nl n)|]. exists []. split.
    + apply gets_star0. now apply end_elements.
    + intros tl Htl. exists []. split; [exact Htl|reflexivity].
  - exists cs, x, oc, l. repeat (split; [first [reflexivity|assumption]|]).
    split; [now apply (nr_bounds true)|]. split; [|now apply (gets_elements nl true)].
    apply (follow_nl ut 0 (n + 1) (n + 1)). now apply (nr_follow true).
Qed.

Lemma nl_no_zs s : nl_or_end s -> no_zs s.
Proof. intros [->|(r & ->)]; [exact I|reflexivity]. Qed.

Lemma gets_block_array lead l : elements_read lead l -> forall n k rest, aend n rest ->
  exists txt, array_text n l = NL :: txt /\
    (exists m s, txt ++ rest = indent m ++ s /\ n <= m /\ solid s) /\
    (forall k, fails (R_ y_hash) (txt ++ rest) k) /\
    (exists cs s, txt ++ rest = clines n cs ++ indent n ++ chr "-" :: s) /\
    gets (R_ y_block_array) (txt ++ rest) k [(y_block_array, VYaml (Array l))] rest k.
Proof.
  intros H n k rest He.
  destruct (elements_split false lead l n k rest H He)
    as (cs & x & oc & l' & -> & Hcs & _ & Hr & Hb & Hnl & vs & Gs & Hv).
  rewrite array_shape. eexists. split; [reflexivity|]. rewrite <- !app_assoc. split.
  { destruct cs as [|c cs].
    - exists n. eexists. split; [reflexivity|]. split; [lia|]. apply elem_solid.
    - exists n. eexists. split; [cbn [clines flat_map]; rewrite <- !app_assoc; reflexivity|]. split; [lia|].
      cbn. repeat split; discriminate. }
  split.
  { intros k'. apply fails_hash; [exact Hcs|apply elem_solid|apply elem_not_comment|]. intros k2. apply elem_no_entry. }
  split.
  { exists cs. eexists. unfold elem_text. rewrite <- !app_assoc. reflexivity. }
  destruct (Hv [(y_commentnls, VStrs [])] eq_refl) as (gs & E1 & E2).
  eapply gets_rule; [reflexivity| |].
  - cbn [yaml_grammar snd].
    eapply gets_seq; [apply gets_comments; [exact Hcs|apply elem_solid|apply elem_not_comment]| |reflexivity].
    eapply gets_seq0; [apply eats_blank0, elem_solid|].
    eapply gets_seq0; [apply eats_push, eats_indent, solid_zs, elem_solid|].
    eapply gets_seq; [eapply gets_first_elem; [exact Hr|lia|reflexivity|exact Hb]| |reflexivity].
    eapply gets_seq0; [apply eats_zss0, nl_no_zs, Hnl|].
    eapply gets_seq; [exact Gs| |reflexivity].
    eapply gets_seq0; [apply eats_drop|]. apply gets_comments0. now apply (aend_nl n).
  - intros u _. cbn [yact app]. rewrite E1, E2. cbn [acomments map]. rewrite !app_nil_r. reflexivity.
Qed.

Lemma gets_alternative_array x oc l : reads (Head false) true (a_alias x) (a_value x) oc ->
  elements_read false l -> forall t n k rest, t <= n -> aend (n + 2) rest ->
  gets (R_ y_alternative_array) (elem_text (n + 2) x ++ array_text (n + 2) (aoc oc ++ l) ++ rest) (indent t :: k)
    [(y_alternative_array, VYaml (Array (AElem x :: aoc oc ++ l)))] rest (indent t :: k).
Proof.
  intros Hx Hl t n k rest Ht He.
  replace (array_text (n + 2) (aoc oc ++ l) ++ rest) with (otext oc ++ array_text (n + 2) l ++ rest)
    by (unfold array_text; rewrite flat_map_app, <- app_assoc; destruct oc;
        cbn [aoc app flat_map adata_text otext]; rewrite ?app_nil_r; reflexivity).
  pose proof (nr_follow false l Hl (n + 2) rest) as Hf2.
  destruct (elements_split true false l (n + 2) (indent t :: k) rest Hl He)
    as (cs & x2 & oc2 & l2 & -> & _ & Hcs & Hr & Hb & Hnl & vs & Gs & Hv).
  rewrite (Hcs eq_refl) in *. cbn [map app] in *.
  destruct (Hv [(y_commentnls, VStrs [])] eq_refl) as (gs & E1 & E2).
  eapply gets_rule; [reflexivity| |].
  - cbn [yaml_grammar snd].
    eapply gets_seq; [eapply gets_first_elem; [exact Hx|lia|discriminate|]| |reflexivity].
    + exists 0, (n + 2 + 1), (n + 2 + 1). split; [exact Hf2|].
      do 3 (split; [lia|]). split; [intros; lia|]. cbn [lastp]. discriminate.
    + change (AElem x2 :: aoc oc2 ++ l2) with (map AComment [] ++ AElem x2 :: aoc oc2 ++ l2).
      rewrite array_shape. cbn [app]. rewrite <- !app_assoc.
      eapply gets_seq0; [apply eats_blanknl_lines, elem_solid|]. cbn [clines flat_map app].
      eapply gets_seq0; [apply eats_push, eats_indent, solid_zs, elem_solid|].
      eapply gets_seq; [eapply gets_first_elem; [exact Hr|lia|reflexivity|exact Hb]| |reflexivity].
      eapply gets_seq0; [apply eats_zss0, nl_no_zs, Hnl|].
      eapply gets_seq; [exact Gs| |reflexivity].
      eapply gets_seq0; [apply eats_drop|]. apply gets_comments0. now apply (aend_nl (n + 2)).
  - intros u _. cbn [yact app]. rewrite E1, E2. cbn [acomments map app]. rewrite !app_nil_r.
    rewrite <- ?app_assoc. reflexivity.
Qed.

(** ---- collections as values ---- *)

Lemma head_sp n cs m c s : exists r, clines (S n) cs ++ indent (S m) ++ c :: s = SP :: r.
Proof. destruct cs; cbn; eauto. Qed.

Lemma bounds_hend t n p q rest : bounds t n p q rest -> hend (n + 2) rest.
Proof. intros (K & D & C & H & H1 & H2 & H3 & _). exists K, D, C. split; [exact H|]. lia. Qed.
Lemma bounds_aend t n p q rest : bounds t n p q rest -> aend (n + 2) rest.
Proof. intros (K & D & C & H & H1 & H2 & H3 & _). exists K, D, C. split; [exact H|]. lia. Qed.

(** Indented text starts neither with an alias nor with a collection. *)
Lemma gets_ba_indented y s r k : gets (R_ y_yaml_value) (SP :: s) k [(y_yaml_value, VYaml y)] r k ->
  gets (R_ y_ba_aliased) (SP :: s) k [(y_ba_aliased, VAliased (mkA None y))] r k.
Proof.
  intros H. eapply gets_rule with (vs := [(y_aliased, VAliased (mkA None y))]); [reflexivity| |reflexivity].
  cbn [yaml_grammar snd]. apply gets_alt2; [scanc|].
  eapply gets_rule with (vs := [(y_yaml_value, VYaml y)]); [reflexivity| |reflexivity].
  cbn [yaml_grammar snd]. eapply gets_seq0; [apply eats_opt0; scanc|exact H].
Qed.

Lemma reads_hash p l : entries_read true Own l -> reads p false None (Hash l) None.
Proof.
  intros H. apply reads_plain. intros t n k rest Ht Hn Hb. cbn [format_aliased parq].
  rewrite format_hash by (try apply (er_nonempty true Own l H); discriminate).
  destruct (gets_hash true l H (n + 2) (indent t :: k) rest (bounds_hend t n p false rest Hb))
    as (txt & -> & (m & s & Es & Hm & Hs) & Gh).
  cbn [app]. rewrite Es in *. destruct (gets_nl_sep m s (indent t :: k) Hs) as (u & Eu).
  eapply gets_seq0; [exact Eu|]. destruct m as [|m]; [lia|]. cbn [indent repeat_char app] in *.
  apply gets_ba_indented. eapply gets_rule; [reflexivity|cbn [yaml_grammar snd]; apply gets_alt1, Gh|reflexivity].
Qed.

Lemma reads_array p l : elements_read true l -> reads p false None (Array l) None.
Proof.
  intros H. apply reads_plain. intros t n k rest Ht Hn Hb. cbn [format_aliased parq].
  rewrite format_array by (try apply (nr_nonempty true l H); discriminate).
  destruct (gets_block_array true l H (n + 2) (indent t :: k) rest (bounds_aend t n p false rest Hb))
    as (txt & -> & (m & s & Es & Hm & Hs) & Fh & _ & Gh).
  cbn [app]. rewrite Es in *. destruct (gets_nl_sep m s (indent t :: k) Hs) as (u & Eu).
  eapply gets_seq0; [exact Eu|]. destruct m as [|m]; [lia|]. cbn [indent repeat_char app] in *.
  apply gets_ba_indented.
  eapply gets_rule with (vs := [(y_array, VYaml (Array l))]); [reflexivity| |reflexivity].
  cbn [yaml_grammar snd]. apply gets_alt2; [apply Fh|]. apply gets_alt1.
  eapply gets_rule with (vs := [(y_block_array, VYaml (Array l))]); [reflexivity| |reflexivity].
  cbn [yaml_grammar snd]. apply gets_alt2; [scanc|exact Gh].
Qed.

(** On the line of the dash. *)
Lemma gets_ba_inline r y s rest k : (r = y_alternative_hash \/ r = y_alternative_array) ->
  solid s -> (r = y_alternative_array -> fails (R_ y_hash_element) s k) -> fails (R_ y_alias) s k ->
  gets (R_ r) s k [(r, VYaml y)] rest k ->
  gets (R_ y_ba_aliased) s k [(y_ba_aliased, VAliased (mkA None y))] rest k.
Proof.
  intros Hr Hs Hf Ha H.
  eapply gets_rule with (vs := [(y_alt_aliased, VAliased (mkA None y))]); [reflexivity| |reflexivity].
  cbn [yaml_grammar snd]. apply gets_alt1.
  eapply gets_rule with (vs := [(r, VYaml y)]); [reflexivity| |destruct Hr as [-> | ->]; reflexivity].
  cbn [yaml_grammar snd]. eapply gets_seq0; [apply eats_opt0, fails_seq1, Ha|].
  destruct Hr as [-> | ->]; [apply gets_alt1, H|apply gets_alt2; [|exact H]].
  now apply fails_alternative_hash, Hf.
Qed.
(** After an alias. *)
Lemma gets_ba_alias r a y n s rest k : (r = y_alternative_hash \/ r = y_alternative_array) ->
  alias_ok ut a -> solid s -> (r = y_alternative_array -> fails (R_ y_hash_element) s k) ->
  gets (R_ r) s k [(r, VYaml y)] rest k ->
  gets (R_ y_ba_aliased) (lit "&" ++ a ++ NL :: indent n ++ s) k [(y_ba_aliased, VAliased (mkA (Some a) y))] rest k.
Proof.
  intros Hr Ha Hs Hf H.
  eapply gets_rule with (vs := [(y_alt_aliased, VAliased (mkA (Some a) y))]); [reflexivity| |reflexivity].
  cbn [yaml_grammar snd]. apply gets_alt1.
  eapply gets_rule with (vs := [(y_alias, VStr a); (r, VYaml y)]); [reflexivity| |destruct Hr as [-> | ->]; reflexivity].
  cbn [yaml_grammar snd].
  eapply gets_seq with (v1 := [(y_alias, VStr a)]) (v2 := [(r, VYaml y)]); [| |reflexivity].
  - apply gets_opt1. eapply gets_seq with (v2 := []); [apply gets_alias; [exact Ha|]| |reflexivity].
    + intros c x E. inversion E; subst. now apply punct_not_name.
    + eapply eats_gets. apply eats_spaces_nl. intros c x ->. cbn in Hs. destruct Hs as (H1 & H2 & H3).
      repeat split; try assumption. intros ->. discriminate.
  - destruct Hr as [-> | ->]; [apply gets_alt1, H|apply gets_alt2; [|exact H]].
    now apply fails_alternative_hash, Hf.
Qed.

Lemma sp_alias_sep q s k : exists t, eats (sepr q) (SP :: lit "&" ++ s) k t (lit "&" ++ s) k.
Proof. apply gets_sp_sep. cbn. repeat split; discriminate. Qed.

Lemma name_no_alias c s k : name_char ut c -> fails (R_ y_alias) (c :: s) k.
Proof.
  intros H. apply fails_rule. cbn [yaml_grammar snd]. apply fails_seq1, (fails_c1 ut (chr "&")).
  intros <-. discriminate (name_punct ut _ H (chr "&") eq_refl).
Qed.

Lemma reads_hash_elem p l b : entries_read false (Head b) l -> (b = true -> lastp p) ->
  reads p true None (Hash l) None.
Proof.
  intros H Hb. apply reads_plain. intros t n k rest Ht Hn Hbd. cbn [format_aliased parq].
  destruct (gets_alternative_hash b l H p true t n k rest Ht Hbd Hb (or_introl eq_refl)) as (e & l' & -> & Hk & Gh).
  rewrite format_hash_elem. cbn [app]. rewrite <- app_assoc.
  destruct (gets_sp_sep true (entry_text (n + 2) e ++ hash_text (n + 2) l' ++ rest) (indent t :: k)) as (u & Eu);
    [now apply entry_solid|].
  eapply gets_seq0; [exact Eu|]. eapply gets_ba_inline; [now left|now apply entry_solid|discriminate| |exact Gh].
  destruct (entry_head (n + 2) e (hash_text (n + 2) l' ++ rest) Hk) as (c & r & -> & Hc). now apply name_no_alias.
Qed.

Lemma reads_hash_alias p q a l b : entries_read false (Head b) l -> (b = true -> lastp p) ->
  (one_entry l -> lastp p) -> alias_ok ut a -> reads p q (Some a) (Hash l) None.
Proof.
  intros H Hb Ho Ha. apply reads_plain. intros t n k rest Ht Hn Hbd. cbn [format_aliased].
  destruct (gets_alternative_hash b l H p q t n k rest Ht Hbd Hb (or_intror Ho)) as (e & l' & -> & Hk & Gh).
  rewrite format_hash by discriminate.
  assert (E : (lit " &" ++ a ++ hash_text (n + 2) (HElem e :: l')) ++ rest
              = SP :: lit "&" ++ a ++ NL :: indent (n + 2) ++ entry_text (n + 2) e ++ hash_text (n + 2) l' ++ rest).
  { cbn [hash_text flat_map hdata_text]. change (lit " &") with (SP :: lit "&").
    cbn [app]. rewrite <- !app_assoc. cbn [app]. rewrite <- !app_assoc. reflexivity. }
  rewrite E. destruct (sp_alias_sep q (a ++ NL :: indent (n + 2) ++ entry_text (n + 2) e ++ hash_text (n + 2) l' ++ rest) (indent t :: k)) as (u & Eu).
  eapply gets_seq0; [exact Eu|]. eapply gets_ba_alias; [now left|exact Ha|now apply entry_solid|discriminate|exact Gh].
Qed.

Lemma reads_array_elem p q al x oc l : reads (Head false) true (a_alias x) (a_value x) oc ->
  elements_read false l -> alias_canon ut al -> (q = true \/ al <> None) ->
  reads p q al (Array (AElem x :: aoc oc ++ l)) None.
Proof.
  intros Hx Hl Ha Hq. apply reads_plain. intros t n k rest Ht Hn Hbd.
  pose proof (gets_alternative_array x oc l Hx Hl t n k rest Ht (bounds_aend t n p q rest Hbd)) as Ga.
  destruct al as [a|]; cbn [format_aliased].
  - rewrite format_array by discriminate.
    assert (E : (lit " &" ++ a ++ array_text (n + 2) (AElem x :: aoc oc ++ l)) ++ rest
                = SP :: lit "&" ++ a ++ NL :: indent (n + 2) ++ elem_text (n + 2) x ++ array_text (n + 2) (aoc oc ++ l) ++ rest).
    { unfold array_text at 1. cbn [flat_map adata_text]. fold (array_text (n + 2) (aoc oc ++ l)).
      change (lit " &") with (SP :: lit "&").
      cbn [app]. rewrite <- !app_assoc. cbn [app]. rewrite <- !app_assoc. reflexivity. }
    rewrite E. destruct (sp_alias_sep q (a ++ NL :: indent (n + 2) ++ elem_text (n + 2) x ++ array_text (n + 2) (aoc oc ++ l) ++ rest) (indent t :: k)) as (u & Eu).
    eapply gets_seq0; [exact Eu|].
    eapply gets_ba_alias; [now right|exact Ha|apply elem_solid|intros _; apply elem_no_entry|exact Ga].
  - destruct Hq as [->|Hq]; [|congruence]. cbn [parq]. rewrite format_array_elem. cbn [app]. rewrite <- app_assoc.
    destruct (gets_sp_sep true (elem_text (n + 2) x ++ array_text (n + 2) (aoc oc ++ l) ++ rest) (indent t :: k)) as (u & Eu);
      [apply elem_solid|].
    eapply gets_seq0; [exact Eu|].
    eapply gets_ba_inline; [now right|apply elem_solid|intros _; apply elem_no_entry| |exact Ga].
    unfold elem_text. rewrite <- app_assoc. scanc.
Qed.

Lemma er_comment p c l : one_line c -> entries_read true p l -> entries_read true p (HComment c :: l).
Proof.
  intros Hc H. remember true as lead eqn:El.
  destruct H as [lead p cs e oc H1 _ H3 H4|lead p cs e oc l H1 _ H3 H4 H5 H6]; subst lead.
  - apply (er_last true p (c :: cs)); try assumption; [now constructor|discriminate].
  - apply (er_cons true p (c :: cs)); try assumption; [now constructor|discriminate].
Qed.
Lemma nr_comment c l : one_line c -> elements_read true l -> elements_read true (AComment c :: l).
Proof.
  intros Hc H. remember true as lead eqn:El.
  destruct H as [lead cs x oc H1 _ H3|lead cs x oc l H1 _ H3 H4]; subst lead.
  - apply (nr_last true (c :: cs)); try assumption; [now constructor|discriminate].
  - apply (nr_cons true (c :: cs)); try assumption; [now constructor|discriminate].
Qed.

Lemma one_comment c : one_line c -> forall d, Some c = Some d -> one_line d.
Proof. intros H d E. now inversion E; subst. Qed.
Lemma no_comment : forall d, @None str = Some d -> one_line d.
Proof. discriminate. Qed.

Theorem canon_reads :
  (forall p q al y, canon ut p q al y -> reads p q al y None)
  /\ (forall lead p l, entries ut lead p l -> entries_read lead p l)
  /\ (forall lead l, elements ut lead l -> elements_read lead l).
Proof.
  apply (canon_all ut (fun p q al y => reads p q al y None) entries_read elements_read).
  - intros. now apply reads_flow; [..|apply no_comment].
  - intros. eapply reads_block with (mk := Literal); [left; repeat split|..]; assumption.
  - intros. eapply reads_block with (mk := Folded); [right; repeat split|..]; assumption.
  - intros. now apply reads_hash.
  - intros. now apply (reads_hash_elem p l b).
  - intros. now apply (reads_hash_alias p q a l b).
  - intros. now apply reads_array.
  - intros. now apply (reads_array_elem p q al x None l).
  - intros. apply (reads_array_elem p q al x (Some c) l); try assumption.
    apply reads_flow; [assumption..|now apply one_comment].
  - intros. now apply er_comment.
  - intros. now apply (er_last lead p [] e None).
  - intros. apply (er_last lead p [] e (Some c)); try easy. apply reads_flow; [assumption..|now apply one_comment].
  - intros. now apply (er_cons lead p [] e None l).
  - intros. apply (er_cons lead p [] e (Some c) l); try easy. apply reads_flow; [assumption..|now apply one_comment].
  - intros. now apply nr_comment.
  - intros. now apply (nr_last lead [] x None).
  - intros. apply (nr_last lead [] x (Some c)); try easy. apply reads_flow; [assumption..|now apply one_comment].
  - intros. now apply (nr_cons lead [] x None l).
  - intros. apply (nr_cons lead [] x (Some c) l); try easy. apply reads_flow; [assumption..|now apply one_comment].
Qed.

(** ---- documents ---- *)

Definition tail_text (b : list str) : str := flat_map (fun c => NL :: lit "#" ++ c) b.

(** The text may end with a line break. *)
Definition final (z : str) : Prop := z = [] \/ z = [NL].

Lemma tail_follow b z : Forall one_line b -> final z -> follow 0 0 1 (tail_text b ++ z).
Proof.
  intros Hb Hz. induction Hb as [|c b Hc _ IH]; [destruct Hz as [-> | ->]; constructor|].
  cbn [tail_text flat_map]. fold (tail_text b). rewrite <- app_assoc. cbn [app]. rewrite <- app_assoc.
  exact (f_comment ut 0 0 1 0 c (tail_text b ++ z) (le_n 1) Hc IH).
Qed.

Lemma gets_leading cs k : Forall one_line cs -> forall s,
  gets (R_ y_leading_comments) (flat_map (fun c => lit "#" ++ c ++ [NL]) cs ++ lit "---" ++ s) k
    [(y_leading_comments, VStrs cs)] (lit "---" ++ s) k.
Proof.
  intros Hcs s. eapply gets_rule with (vs := vcnl cs); [reflexivity| |].
  - cbn [yaml_grammar snd]. induction Hcs as [|c cs Hc _ IH]; cbn [flat_map vcnl map].
    + apply gets_star0. scanc.
    + eapply gets_star1 with (v1 := [(y_commentnl, VStr c)]); [|exact IH|reflexivity].
      rewrite <- !app_assoc. cbn [app].
      assert (E : solid (flat_map (fun c => lit "#" ++ c ++ [NL]) cs ++ lit "---" ++ s)
                  /\ fails (R_ y_blanknl) (flat_map (fun c => lit "#" ++ c ++ [NL]) cs ++ lit "---" ++ s) k).
      { destruct cs; cbn [flat_map app]; (split; [cbn; repeat split; discriminate|]).
        - scanc.
        - rewrite <- !app_assoc. scanc. }
      destruct E as [E1 E2].
      eapply gets_seq0; [apply eats_star0; scanc|].
      eapply gets_seq; [exact (gets_commentnl ut 0 0 c _ k Hc E1)|eapply eats_gets, eats_star0, E2|reflexivity].
  - intros t _. cbn [yact]. now rewrite many_vcnl.
Qed.

Definition vcom (b : list str) : list (yrule * yval) := map (fun c => (y_comment, VStr c)) b.

Lemma final_blank z k : final z -> exists u, eats (R_ y_blank) z k u [] k.
Proof.
  intros [-> | ->].
  - exists []. exact (eats_blank0 ut 0 [] k I).
  - exists [NL]. refine (eats_blank ut 0 [] k _). exact I.
Qed.

Lemma gets_tail b z k : Forall one_line b -> final z ->
  exists u s, eats (R_ y_blank) (tail_text b ++ z) k u s k
    /\ gets (PStar (R_ y_comment ~~ R_ y_blank)%peg) s k (vcom b) [] k.
Proof.
  intros Hb Hz.
  assert (S : forall b, Forall one_line b -> forall c, one_line c ->
     gets (PStar (R_ y_comment ~~ R_ y_blank)%peg) (lit "#" ++ c ++ tail_text b ++ z) k (vcom (c :: b)) [] k).
  { clear Hb b. intros b Hb. induction Hb as [|d b Hd _ IH]; intros c Hc.
    - destruct (final_blank z k Hz) as (u & Eu).
      eapply gets_star1 with (v1 := [(y_comment, VStr c)]); [|apply gets_star0; scanc|reflexivity].
      eapply gets_seq; [apply (gets_comment ut [] c z); [intros x []|exact Hc|destruct Hz as [-> | ->]; [now left|right; eauto]]| |reflexivity].
      eapply eats_gets. exact Eu.
    - eapply gets_star1 with (v1 := [(y_comment, VStr c)]); [|apply (IH d Hd)|reflexivity].
      eapply gets_seq; [apply (gets_comment ut [] c); [intros x []|exact Hc|right; eexists; reflexivity]| |reflexivity].
      eapply eats_gets. cbn [tail_text flat_map]. fold (tail_text b). rewrite <- ?app_assoc. cbn [app]. rewrite <- ?app_assoc.
      refine (eats_blank ut 0 _ k _).
      cbn. repeat split; discriminate. }
  destruct Hb as [|c b Hc Hb].
  - destruct (final_blank z k Hz) as (u & Eu). exists u, []. split; [exact Eu|]. apply gets_star0. scanc.
  - exists [NL], (lit "#" ++ c ++ tail_text b ++ z). split; [|apply (S b Hb c Hc)].
    cbn [tail_text flat_map app]. fold (tail_text b). rewrite <- ?app_assoc. cbn [app]. rewrite <- ?app_assoc.
    refine (eats_blank ut 0 _ k _). cbn. repeat split; discriminate.
Qed.

Lemma gets_eoi k : gets (PEOI y_eoi) [] k [(y_eoi, VUnit)] [] k.
Proof. exists [], [Node y_eoi [] []]. split; [exact (REOI G true y_eoi k)|reflexivity]. Qed.

Lemma many_vcom b : many as_comment (vcom b ++ [(y_eoi, VUnit)]) = (b, [(y_eoi, VUnit)]).
Proof.
  induction b as [|c b IH]; [reflexivity|]. unfold vcom in *. cbn [map app many as_comment].
  now rewrite IH.
Qed.

Lemma doc_comments cs X : flat_map format_docdata (map DComment cs) ++ NL :: X = NL :: clines 0 cs ++ X.
Proof.
  rewrite <- (comments_shape 0 cs X). f_equal. induction cs as [|c cs IH]; [reflexivity|].
  cbn [map flat_map format_docdata]. now rewrite IH.
Qed.

Theorem gets_document d z : canon_doc ut d -> final z ->
  gets (R_ y_yaml) (format_doc d ++ z) [] [(y_yaml, VDoc d)] [] [].
Proof.
  destruct d as [lead its]. unfold canon_doc, format_doc. cbn [leading items].
  intros (Hlead & a & y & b & -> & Ha & Hb & Hy) Hz.
  rewrite flat_map_app. cbn [flat_map format_docdata].
  replace (flat_map format_docdata (map DComment b)) with (tail_text b)
    by (clear; induction b as [|c b IH]; [reflexivity|]; cbn [tail_text map flat_map format_docdata];
        fold (tail_text b); now rewrite IH).
  pose proof (tail_follow b z Hb Hz) as Hf.
  destruct (gets_tail b z [] Hb Hz) as (u & s' & Eu & Gt).
  rewrite <- !app_assoc. set (T := tail_text b ++ z) in *. clearbody T.
  assert (X : exists txt, format y 0 None = NL :: txt /\ solid (txt ++ T) /\ not_comment (txt ++ T)
             /\ gets (R_ y_document) (txt ++ T) [] [(y_document, VYaml y)] (T) []).
  { destruct canon_reads as (_ & HE & HN). destruct y as [| l | | l | | | | | |]; try contradiction.
    - apply HE in Hy. rewrite format_hash by (try apply (er_nonempty false Own l Hy); discriminate).
      assert (He : hend 0 (T)) by (exists 0, 0, 1; split; [exact Hf|lia]).
      destruct (gets_hash false l Hy 0 [] _ He) as (txt & E & _ & Gh).
      exists txt. split; [exact E|].
      assert (X : exists e z', txt ++ T = entry_text 0 e ++ z' /\ plain_key ut (he_key e)).
      { remember false as ld eqn:Eld. destruct Hy as [ld p cs e oc _ Hl0 Hk _|ld p cs e oc l _ Hl0 Hk _ _ _]; subst ld;
          rewrite (Hl0 eq_refl) in E; rewrite hash_shape in E; inversion E as [E']; exists e; eexists;
          (split; [rewrite <- !app_assoc; reflexivity|exact Hk]). }
      destruct X as (e & z' & Ex & Hk). rewrite Ex in *. split; [now apply entry_solid|]. split; [now apply entry_not_comment|].
      eapply gets_rule; [reflexivity|cbn [yaml_grammar snd]; apply gets_alt1, Gh|reflexivity].
    - apply HN in Hy. rewrite format_array by (try apply (nr_nonempty false l Hy); discriminate).
      assert (He : aend 0 (T)) by (exists 0, 0, 1; split; [exact Hf|lia]).
      destruct (gets_block_array false l Hy 0 [] _ He) as (txt & E & _ & Fh & _ & Gh).
      exists txt. split; [exact E|].
      assert (X : exists x z', txt ++ T = elem_text 0 x ++ z').
      { remember false as ld eqn:Eld. destruct Hy as [ld cs x oc _ Hl0 _|ld cs x oc l _ Hl0 _ _]; subst ld;
          rewrite (Hl0 eq_refl) in E; rewrite array_shape in E; apply (f_equal (@tl _)) in E; cbn [tl clines flat_map indent repeat_char app] in E;
          subst txt; exists x; eexists; rewrite <- app_assoc; reflexivity. }
      destruct X as (x & z' & Ex). rewrite Ex in *.
      split; [apply elem_solid|]. split; [apply elem_not_comment|].
      eapply gets_rule with (vs := [(y_array, VYaml (Array l))]); [reflexivity| |reflexivity].
      cbn [yaml_grammar snd]. apply gets_alt2; [apply Fh|].
      eapply gets_rule with (vs := [(y_block_array, VYaml (Array l))]); [reflexivity| |reflexivity].
      cbn [yaml_grammar snd]. apply gets_alt2; [|exact Gh]. unfold elem_text. rewrite <- app_assoc. scanc. }
  destruct X as (txt & -> & Hs & Hc & Gd). cbn [app].
  change (NL :: txt ++ T) with (NL :: (txt ++ T)). rewrite doc_comments.
  eapply gets_rule; [reflexivity| |].
  - cbn [yaml_grammar snd].
    eapply gets_seq; [apply gets_leading, Hlead| |reflexivity].
    eapply gets_seq0; [exact (eats_str ut (lit "---") _ _)|].
    eapply gets_seq0; [exact (eats_blanknl_lines 0 a 0 (txt ++ T) [] Hs)|].
    eapply gets_seq; [exact (gets_comments ut 0 0 a (txt ++ T) [] Ha Hs Hc)| |reflexivity].
    cbn [indent repeat_char app]. eapply gets_seq; [exact Gd| |reflexivity].
    eapply gets_seq0; [exact Eu|]. eapply gets_seq; [exact Gt| |reflexivity].
    eapply gets_seq0; [apply eats_spaces0; intros c r E; discriminate|apply gets_eoi].
  - intros t _. cbn [yact app]. rewrite many_vcom. reflexivity.
Qed.

End Tree.

Theorem format_parse ut d : canon_doc ut d -> parse_yaml ut (format_doc d) = CVal d.
Proof.
  intros H. rewrite <- (app_nil_r (format_doc d)). apply parse_of_gets, gets_document; [exact H|now left].
Qed.
Theorem format_newline_parse ut d : canon_doc ut d -> parse_yaml ut (format_doc d ++ [NL]) = CVal d.
Proof. intros H. apply parse_of_gets, gets_document; [exact H|now right]. Qed.
Theorem format_injective ut d e : canon_doc ut d -> canon_doc ut e -> format_doc d = format_doc e -> d = e.
Proof.
  intros Hd He E. pose proof (format_parse ut d Hd) as H1. pose proof (format_parse ut e He) as H2.
  rewrite E in H1. rewrite H1 in H2. now inversion H2.
Qed.
