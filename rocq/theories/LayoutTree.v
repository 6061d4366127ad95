(** What the grammar reads from block collections and documents in any layout. *)
From Coq Require Import ZArith.
From Verif Require Import Base Ast Num Strings Peg PegFacts YamlGrammar Consume Format Spec_Parse YamlTree
  Spec_Format Reads FormatText FormatScalars FormatFlow FormatBlock FormatTree
  Spec_Layout LayoutText LayoutFlow LayoutBlock.
Import ListNotations.

Scheme value_mut := Minimality for value Sort Prop
  with lentries_mut := Minimality for entries Sort Prop
  with lelements_mut := Minimality for elements Sort Prop.
Combined Scheme value_all from value_mut, lentries_mut, lelements_mut.

Section Tree.
Context (ut : unitab).
Notation G := (yaml_grammar ut).
Notation gets := (gets ut).
Notation eats := (eats ut).
Notation eats0 := (eats0 ut).
Notation fails := (fails ut).
Notation follow := (LayoutBlock.follow ut).

(** ---- what may follow ---- *)

Definition bounds (t n : nat) (last q : bool) (b : ending) (z : str) : Prop :=
  exists K D C, follow K D C b z /\ K <= n + 1 /\ D <= (if q then n + 1 else n) /\ C <= n + 1
    /\ (q = true -> K <= t + 1) /\ (last = true -> K <= t + 1 /\ D <= t + 1 /\ C <= t + 1).
Definition hend (n : nat) (b : ending) (z : str) : Prop :=
  exists K D C, follow K D C b z /\ K <= n /\ D <= n /\ C <= n + 1.
Definition aend (n : nat) (b : ending) (z : str) : Prop :=
  exists K D C, follow K D C b z /\ K <= n + 1 /\ D <= n /\ C <= n + 1.

Lemma bounds_nl t n last q b z : bounds t n last q b z -> nl_or_end z.
Proof. intros (K & D & C & H & _). now apply (follow_nl ut K D C b). Qed.
Lemma hend_nl n b z : hend n b z -> nl_or_end z.
Proof. intros (K & D & C & H & _). now apply (follow_nl ut K D C b). Qed.
Lemma aend_nl n b z : aend n b z -> nl_or_end z.
Proof. intros (K & D & C & H & _). now apply (follow_nl ut K D C b). Qed.
Lemma hend_bounds n b z : hend n b z -> bounds n n true false b z.
Proof.
  intros (K & D & C & H & H1 & H2 & H3). exists K, D, C. split; [exact H|]. repeat split; intros; try discriminate; lia.
Qed.
Lemma aend_bounds n b z : aend n b z -> bounds n n true true b z.
Proof. intros (K & D & C & H & H1 & H2 & H3). exists K, D, C. split; [exact H|]. repeat split; intros; lia. Qed.

(** A gap and then a key or a dash. *)
Lemma gap_app ws cs X : gap ws cs ++ X = NL :: blank_lines ws ++ comment_lines cs ++ X.
Proof. unfold gap. cbn [app]. now rewrite <- app_assoc. Qed.
Lemma follow_clines K D C cs X : comments_ok cs ->
  (forall b ws, (b <> Plain -> ws = []) -> follow K D C b (NL :: blank_lines ws ++ X)) ->
  forall b ws, (b <> Plain -> ws = [] /\ match cs with c :: _ => cl_indent c < C | [] => True end) ->
  follow K D C b (NL :: blank_lines ws ++ comment_lines cs ++ X).
Proof.
  intros Hcs HX. induction Hcs as [|c cs Hc _ IH]; intros b ws Hb.
  - apply HX. intros Hn. now destruct (Hb Hn).
  - rewrite comment_lines_cons. change (lit "#" ++ ?x) with (chr "#" :: x).
    apply f_comment; [exact Hb|exact Hc|]. apply IH. intros Hn. now destruct Hn.
Qed.
Lemma gap_follow K D C n b ws cs X : gap_ok n b ws cs -> n < C ->
  (forall b ws, (b <> Plain -> ws = []) -> follow K D C b (NL :: blank_lines ws ++ X)) ->
  follow K D C b (gap ws cs ++ X).
Proof.
  intros [Hcs Hb] HC HX. rewrite gap_app. apply follow_clines; [exact Hcs|exact HX|].
  intros Hn. destruct b; [congruence|]. destruct Hb as [-> Hb]. split; [reflexivity|].
  destruct cs; [exact I|lia].
Qed.

Lemma hcomments_map cs : hcomments_of cs = map HComment (map cl_text cs).
Proof. unfold hcomments_of. now rewrite map_map. Qed.
Lemma acomments_map cs : acomments_of cs = map AComment (map cl_text cs).
Proof. unfold acomments_of. now rewrite map_map. Qed.

(** ---- statements ---- *)

Definition reads (t n : nat) (last q : bool) (x : aliased) (oc : option str) (b : ending) (s : str) : Prop :=
  forall k z, t <= n -> bounds t n last q b z ->
  exists r i,
    gets (PSeq (sepr q) (R_ y_ba_aliased)) (s ++ z) (indent t :: k) [(y_ba_aliased, VAliased x)] r (indent t :: k)
    /\ gets (POpt (R_ y_comment)) r (indent t :: k) (ovals oc) (indent i ++ z) (indent t :: k).

Definition name_head (s : str) : Prop := exists c r, s = c :: r /\ name_char ut c.

Definition entries_read (n : nat) (l : list hashdata) (b : ending) (s : str) : Prop :=
  name_head s /\ forall k z, hend n b z ->
  exists e oc l' r vs i, l = HElem e :: hoc oc ++ l'
    /\ gets (PSeq (R_ y_hash_element) (POpt (R_ y_comment))) (s ++ z) (indent n :: k)
         ((y_hash_element, VHElem e) :: ovals oc) r (indent n :: k)
    /\ gets (PStar (R_ y_hash_element_data)) r (indent n :: k) vs (indent i ++ z) (indent n :: k)
    /\ vhdata vs l'.

Definition elements_read (n : nat) (l : list arraydata) (b : ending) (s : str) : Prop :=
  (exists u, s = chr "-" :: u) /\ (forall k z, aend n b z ->
  exists x oc l' i z', l = AElem x :: aoc oc ++ l' /\ nl_or_end z'
    /\ gets (PSeq (R_ y_block_array_element) (POpt (R_ y_comment))) (s ++ z) (indent n :: k)
         ((y_block_array_element, VAElem (AElem x)) :: ovals oc) (indent i ++ z') (indent n :: k)
    /\ forall nl j, exists vs i', gets (PStar (PSeq (asep nl) (R_ y_block_array_data))) (indent j ++ z') (indent n :: k)
         vs (indent i' ++ z) (indent n :: k) /\ vadata vs l')
  /\ (n = 0 -> forall k z, aend n b z ->
      fails (R_ y_alternative_array) (s ++ z) (indent 0 :: k)
      \/ exists i, gets (R_ y_alternative_array) (s ++ z) (indent 0 :: k)
                     [(y_alternative_array, VYaml (Array l))] (indent i ++ z) (indent 0 :: k)).

(** No comment on the line. *)
Lemma reads_plain t n last q x b s :
  (forall k z, t <= n -> bounds t n last q b z -> exists i,
    gets (PSeq (sepr q) (R_ y_ba_aliased)) (s ++ z) (indent t :: k) [(y_ba_aliased, VAliased x)] (indent i ++ z) (indent t :: k)) ->
  reads t n last q x None b s.
Proof.
  intros H k z H1 H2. destruct (H k z H1 H2) as (i & Gi). exists (indent i ++ z), i. split; [exact Gi|].
  apply gets_opt0, fails_comment_pad. now apply (bounds_nl t n last q b).
Qed.

(** ---- values on the line ---- *)

Lemma eats_spaces_sep q j s k : no_zs s -> eats (sepr q) (indent (S j) ++ s) k (indent (S j)) s k.
Proof.
  intros H. assert (E : eats (yplus y_zs) (indent (S j) ++ s) k (indent (S j)) s k).
  { cbn [indent repeat_char app]. eapply eats_seq; [now apply eats_class|now apply (eats_indent ut j)|reflexivity]. }
  destruct q; cbn [sepr]; [exact E|now apply eats_alt1].
Qed.
Lemma solid_firm s : solid s -> firm s.
Proof.
  intros Hs c r' ->. cbn in Hs. destruct Hs as (H1 & H2 & H3). repeat split; try assumption.
  intros ->. discriminate.
Qed.
Lemma pad_white i : white (indent i).
Proof. intros c H. left. now apply indent_in in H. Qed.
Lemma pad_not_name j z : forall c r, indent (S j) ++ z = c :: r -> ~ name_char ut c.
Proof. intros c r E. inversion E; subst. apply punct_not_name. reflexivity. Qed.

Lemma gets_ba_aliased_pad al ja y s r k : alias_canon ut al -> solid s ->
  (forall k, fails (R_ y_hash_element) s k) -> (forall k, fails (R_ y_block_array_element) s k) ->
  (forall k, fails (R_ y_alias) s k) ->
  gets (R_ y_yaml_value) s k [(y_yaml_value, VYaml y)] r k ->
  gets (R_ y_ba_aliased) (alias_prefix al ja ++ s) k [(y_ba_aliased, VAliased (mkA al y))] r k.
Proof.
  intros Ha Hs Hh Hb Hna Hv. pose proof (solid_firm s Hs) as Hfirm.
  eapply gets_rule with (vs := [(y_aliased, VAliased (mkA al y))]); [reflexivity| |reflexivity].
  cbn [yaml_grammar snd]. apply gets_alt2.
  - apply fails_rule. cbn [yaml_grammar snd]. destruct al as [a|]; cbn [alias_prefix app].
    + rewrite <- !app_assoc. eapply fails_seq2.
      * apply gets_opt1. eapply gets_seq; [apply gets_alias; [exact Ha|apply pad_not_name]
          |eapply eats_gets; exact (eats_white ut (indent (S ja)) s k (pad_white _) Hfirm)|reflexivity].
      * apply fails_alt; [apply fails_alternative_hash, Hh|apply fails_alternative_array, Hb].
    + eapply fails_seq0; [apply eats_opt0, fails_seq1, Hna|].
      apply fails_alt; [apply fails_alternative_hash, Hh|apply fails_alternative_array, Hb].
  - destruct al as [a|]; cbn [alias_prefix app].
    + rewrite <- !app_assoc.
      eapply gets_rule with (vs := [(y_alias, VStr a); (y_yaml_value, VYaml y)]); [reflexivity| |reflexivity].
      cbn [yaml_grammar snd]. eapply gets_seq; [|exact Hv|].
      * apply gets_opt1. eapply gets_seq; [apply gets_alias; [exact Ha|apply pad_not_name]| |].
        -- eapply eats_gets. exact (eats_indent ut (S ja) s k (solid_zs s Hs)).
        -- rewrite app_nil_r. reflexivity.
      * reflexivity.
    + eapply gets_rule with (vs := [(y_yaml_value, VYaml y)]); [reflexivity| |reflexivity].
      cbn [yaml_grammar snd]. eapply gets_seq0; [apply eats_opt0, fails_seq1, Hna|exact Hv].
Qed.

Lemma prefix_solid al ja s : alias_canon ut al -> solid s -> solid (alias_prefix al ja ++ s).
Proof. intros Ha Hs. destruct al; [|exact Hs]. cbn. repeat split; discriminate. Qed.

Lemma reads_line t n last q al ja y oc j i s :
  line_value ut y s -> alias_canon ut al -> comment_ok i oc ->
  reads t n last q (mkA al y) oc Plain (spaces (S j) ++ alias_prefix al ja ++ s ++ line_end i oc).
Proof.
  intros Hy Ha Hoc k z Ht Hb. pose proof (bounds_nl _ _ _ _ _ _ Hb) as Hz.
  pose proof (line_facts_ok ut y s Hy) as F.
  set (x := match oc with Some c => lit "#" ++ c ++ z | None => z end).
  assert (Ex : line_end i oc ++ z = indent i ++ x).
  { unfold line_end, x. rewrite <- app_assoc. f_equal. destruct oc; [|reflexivity]. now rewrite <- app_assoc. }
  assert (Hx : stop x).
  { unfold x. destruct oc; [right; right; eexists; reflexivity|]. now apply nl_stop. }
  destruct (lf_value ut y s F i x Hx) as (i' & Gi).
  exists (indent i' ++ x), (match oc with Some _ => 0 | None => i' end). split.
  - rewrite <- !app_assoc. rewrite Ex.
    eapply gets_seq0; [apply (eats_spaces_sep q j), solid_zs, prefix_solid; [exact Ha|apply (lf_solid ut y s F)]|].
    apply gets_ba_aliased_pad; [exact Ha|apply (lf_solid ut y s F)| | | |apply Gi]; intros k'.
    + now apply (lf_hash ut y s F).
    + now apply (lf_array ut y s F).
    + now apply (lf_alias ut y s F).
  - unfold x. destruct oc as [c|]; cbn [ovals].
    + apply gets_opt1. destruct Hoc as [_ Hc].
      apply (gets_comment ut (indent i') c z); [apply indent_zs|exact Hc|exact Hz].
    + now apply gets_opt0, fails_comment_pad.
Qed.

Lemma reads_scalar t n q al ja j m (lit_ : bool) ch c l ls b s : let first := c :: l in
  one_line first -> (c = SP /\ m = t + 2 \/ is_ws c = false) -> (exists d, In d first /\ is_zs d = false) ->
  t + 2 <= m -> alias_canon ut al -> scalar_lines m ls b s ->
  reads t n true q (mkA al ((if lit_ then Literal else Folded) (first :: ls) ch)) None (Scalar b)
    (spaces (S j) ++ alias_prefix al ja ++ (if lit_ then lit "|" else lit ">") ++ chomp_sign ch
     ++ (if ceqb c SP then lit "2" else []) ++ [NL] ++ spaces m ++ first ++ s).
Proof.
  intros first Hl Hc Hd Hm Ha Hs. apply reads_plain. intros k z Ht (K & D & C & Hf & _ & _ & _ & _ & Hlast).
  destruct (Hlast eq_refl) as (HK & HD & HC). exists 0. cbn [indent repeat_char app].
  set (j0 := m - t - 1). assert (Em : m = t + 1 + j0) by (unfold j0; lia).
  assert (Hj : 1 <= j0) by (unfold j0; lia).
  assert (Hc' : c = SP /\ j0 = 1 \/ is_ws c = false).
  { destruct Hc as [[-> ->]|Hc]; [left; split; [reflexivity|unfold j0; lia]|now right]. }
  rewrite Em in *. clearbody j0. clear Em.
  pose proof (gets_scalar ut lit_ t j0 ch c l ls b s K D C z k Hl Hc' Hd Hj Hs Hf HK HD HC) as Gv.
  fold first in Gv.
  set (txt := (if lit_ then lit "|" else lit ">") ++ chomp_sign ch ++ (if ceqb c SP then lit "2" else []) ++
     NL :: indent (t + 1 + j0) ++ first ++ s ++ z) in *.
  change (SP :: repeat_char SP j) with (indent (S j)).
  match goal with |- gets _ ?x _ _ _ _ => replace x with (indent (S j) ++ alias_prefix al ja ++ txt) end.
  2:{ unfold txt. rewrite <- !app_assoc. cbn [app]. rewrite <- !app_assoc. reflexivity. }
  assert (Hsol : solid txt) by (unfold txt; destruct lit_; cbn; repeat split; discriminate).
  eapply gets_seq0; [apply (eats_spaces_sep q j), solid_zs, prefix_solid; [exact Ha|exact Hsol]|].
  apply gets_ba_aliased_pad; [exact Ha|exact Hsol| | | |exact Gv];
    intros k'; unfold txt; destruct lit_; scanc.
Qed.

(** ---- entries ---- *)

Lemma gets_entry t n last key i x oc b s k z : plain_key ut key -> t <= n ->
  reads t n last false x oc b s -> bounds t n last false b z ->
  exists i', gets (PSeq (R_ y_hash_element) (POpt (R_ y_comment))) ((key ++ spaces i ++ lit ":" ++ s) ++ z) (indent t :: k)
    ((y_hash_element, VHElem (mkHE key x)) :: ovals oc) (indent i' ++ z) (indent t :: k).
Proof.
  intros Hk Ht Hr Hb. destruct (Hr k z Ht Hb) as (r & i' & G1 & G2). exists i'.
  eapply gets_seq with (v1 := [(y_hash_element, VHElem (mkHE key x))]); [|exact G2|reflexivity].
  eapply gets_rule; [reflexivity| |].
  - cbn [yaml_grammar snd]. rewrite <- !app_assoc.
    eapply gets_seq; [apply gets_key_pad; [exact Hk|]| |reflexivity].
    + intros c u E. inversion E; subst. apply punct_not_key; [reflexivity|discriminate|discriminate].
    + eapply gets_seq0; [exact (eats_str ut (lit ":") _ _)|]. exact G1.
  - reflexivity.
Qed.
Lemma gets_first_of e oc s r k k' :
  gets (PSeq (R_ y_hash_element) (POpt (R_ y_comment))) s k ((y_hash_element, VHElem e) :: ovals oc) r k' ->
  gets (R_ y_first_hash_element) s k [(y_first_hash_element, VHData (HElem e :: hoc oc))] r k'.
Proof.
  intros H. eapply gets_rule; [reflexivity|exact H|]. intros x _. destruct oc; reflexivity.
Qed.
Lemma key_name_head key s : plain_key ut key -> name_head (key ++ s).
Proof. intros ((c & r & -> & Hc) & _). exists c, (r ++ s). auto. Qed.
Lemma name_bare m s z : name_head s -> bare (indent m ++ s ++ z).
Proof. intros (c & r & -> & Hc). cbn [app]. now apply (bare_name ut). Qed.
Lemma name_zs0 s z : name_head s -> no_zs (s ++ z).
Proof. intros (c & r & -> & Hc). cbn. now apply name_zs with (ut := ut). Qed.
Lemma name_follow K D C n s z : name_head s -> n < K ->
  forall b ws, (b <> Plain -> ws = []) -> follow K D C b (NL :: blank_lines ws ++ indent n ++ s ++ z).
Proof. intros (c & r & -> & Hc) Hn b ws Hb. cbn [app]. now apply f_key. Qed.

(** A gap and an entry. *)
Lemma gets_data_of ws cs e oc n i s z r k : comments_ok cs -> name_head s ->
  gets (PSeq (R_ y_hash_element) (POpt (R_ y_comment))) (s ++ z) (indent n :: k)
    ((y_hash_element, VHElem e) :: ovals oc) r (indent n :: k) ->
  gets (R_ y_hash_element_data) (indent i ++ gap ws cs ++ indent n ++ s ++ z) (indent n :: k)
    [(y_hash_element_data, VHData (hcomments_of cs ++ HElem e :: hoc oc))] r (indent n :: k).
Proof.
  intros Hcs Hs H. rewrite gap_app, hcomments_map. eapply gets_rule; [reflexivity| |].
  - cbn [yaml_grammar snd].
    eapply gets_seq0; [apply eats_blanknl_ws, comment_lines_headed, bare_headed, name_bare, Hs|].
    eapply gets_seq; [apply gets_clines; [exact Hcs|now apply name_bare]| |reflexivity].
    eapply gets_seq0; [apply eats_peek|]. exact H.
  - intros x _. destruct oc; reflexivity.
Qed.

Lemma read_last n key i x oc b s : plain_key ut key -> reads n n true false x oc b s ->
  entries_read n (HElem (mkHE key x) :: entry_comment oc) b (key ++ spaces i ++ lit ":" ++ s).
Proof.
  intros Hk Hr. split; [now apply key_name_head|]. intros k z He.
  destruct (gets_entry n n true key i x oc b s k z Hk (le_n n) Hr (hend_bounds n b z He)) as (i' & Ge).
  exists (mkHE key x), oc, [], (indent i' ++ z), [], i'. split; [now rewrite app_nil_r|]. split; [exact Ge|]. split.
  - apply gets_star0. destruct He as (K & D & C & Hf & HK & _). now apply (LayoutBlock.end_hash_data ut K D C b).
  - intros tl Htl. exists []. split; [exact Htl|reflexivity].
Qed.
Lemma read_cons n key i x oc b1 s1 ws cs l b s : plain_key ut key -> reads n n true false x oc b1 s1 ->
  gap_ok n b1 ws cs -> entries_read n l b s ->
  entries_read n (HElem (mkHE key x) :: entry_comment oc ++ hcomments_of cs ++ l) b
    (key ++ spaces i ++ lit ":" ++ s1 ++ gap ws cs ++ spaces n ++ s).
Proof.
  intros Hk Hr Hg [Hs IH]. split; [now apply key_name_head|]. intros k z He.
  assert (Hb : bounds n n true false b1 (gap ws cs ++ indent n ++ s ++ z)).
  { exists (n + 1), 0, (n + 1). split.
    - apply (gap_follow _ _ _ n); [exact Hg|lia|]. apply name_follow; [exact Hs|lia].
    - repeat split; intros; lia. }
  destruct (gets_entry n n true key i x oc b1 s1 k _ Hk (le_n n) Hr Hb) as (i' & Ge).
  destruct (IH k z He) as (e2 & oc2 & l2 & r2 & vs & i2 & -> & G1 & G2 & Hv).
  exists (mkHE key x), oc, (hcomments_of cs ++ HElem e2 :: hoc oc2 ++ l2).
  exists (indent i' ++ gap ws cs ++ indent n ++ s ++ z).
  exists ((y_hash_element_data, VHData (hcomments_of cs ++ HElem e2 :: hoc oc2)) :: vs), i2.
  split; [reflexivity|]. split; [|split].
  - rewrite <- !app_assoc in Ge. rewrite <- !app_assoc. exact Ge.
  - eapply gets_star1 with (v1 := [(y_hash_element_data, VHData (hcomments_of cs ++ HElem e2 :: hoc oc2))]);
      [|exact G2|reflexivity]. apply gets_data_of; [apply Hg|exact Hs|exact G1].
  - intros tl Htl. destruct (Hv tl Htl) as (gs & E1 & E2). cbn [app many as_hdata].
    exists ((hcomments_of cs ++ HElem e2 :: hoc oc2) :: gs). rewrite E1. cbn [concat]. rewrite E2, <- app_assoc.
    split; reflexivity.
Qed.

(** A mapping on lines of its own.  [pre] is what comes before the first key. *)
Lemma gets_hash_of pre w cs m l b s k z : entries_read m l b s -> hend m b z -> comments_ok cs ->
  (eats (POpt y_nl) (pre ++ indent m ++ s ++ z) k w (comment_lines cs ++ indent m ++ s ++ z) k
   \/ cs = [] /\ exists ws, eats (POpt y_nl) (pre ++ indent m ++ s ++ z) k w (blank_lines ws ++ indent m ++ s ++ z) k) ->
  exists i, gets (R_ y_hash) (pre ++ indent m ++ s ++ z) k [(y_hash, VYaml (Hash (hcomments_of cs ++ l)))] (indent i ++ z) k.
Proof.
  intros [Hs H] He Hcs Hpre.
  destruct (H k z He) as (e & oc & l' & r & vs & i & -> & G1 & G2 & Hv). exists i.
  destruct (Hv [(y_commentnls, VStrs [])] eq_refl) as (gs & E1 & E2).
  assert (X : exists w2 Y, eats (POpt y_nl) (pre ++ indent m ++ s ++ z) k w Y k
     /\ exists Y2, gets (R_ y_commentnls) Y k [(y_commentnls, VStrs (map cl_text cs))] Y2 k
     /\ eats (R_ y_blank) Y2 k w2 (indent m ++ s ++ z) k).
  { destruct Hpre as [Hp|(-> & ws & Hp)].
    - exists [], (comment_lines cs ++ indent m ++ s ++ z). split; [exact Hp|]. exists (indent m ++ s ++ z).
      split; [apply gets_clines; [exact Hcs|now apply name_bare]|]. now apply headed_blank0, bare_headed, name_bare.
    - exists (blank_lines ws), (blank_lines ws ++ indent m ++ s ++ z). split; [exact Hp|].
      exists (blank_lines ws ++ indent m ++ s ++ z). split.
      + destruct ws as [|i0 ws].
        * exact (gets_clines ut [] _ k (Forall_nil _) (name_bare m s z Hs)).
        * rewrite blank_lines_cons. apply gets_comments_pad. right. eauto.
      + now apply eats_blank_lines0, bare_headed, name_bare. }
  destruct X as (w2 & Y & EY & Y2 & GY & EB).
  eapply gets_rule; [reflexivity| |].
  - cbn [yaml_grammar snd].
    eapply gets_seq0; [exact EY|]. eapply gets_seq; [exact GY| |reflexivity].
    eapply gets_seq0; [exact EB|].
    eapply gets_seq0; [apply eats_push, eats_indent, name_zs0, Hs|].
    eapply gets_seq; [apply gets_first_of, G1| |reflexivity].
    eapply gets_seq; [exact G2| |reflexivity].
    eapply gets_seq0; [apply eats_drop|]. apply gets_comments_pad. now apply (hend_nl m b).
  - intros x _. cbn [yact app]. rewrite E1, E2. cbn [hcomments map]. rewrite hcomments_map, !app_nil_r. reflexivity.
Qed.

(** ---- elements ---- *)

Lemma gets_elem t n last x oc b s k z : t <= n ->
  reads t n last true x oc b s -> bounds t n last true b z ->
  exists i, gets (PSeq (R_ y_block_array_element) (POpt (R_ y_comment))) ((lit "-" ++ s) ++ z) (indent t :: k)
    ((y_block_array_element, VAElem (AElem x)) :: ovals oc) (indent i ++ z) (indent t :: k).
Proof.
  intros Ht Hr Hb. destruct (Hr k z Ht Hb) as (r & i' & G1 & G2). exists i'.
  eapply gets_seq with (v1 := [(y_block_array_element, VAElem (AElem x))]); [|exact G2|reflexivity].
  eapply gets_rule; [reflexivity| |].
  - cbn [yaml_grammar snd]. rewrite <- !app_assoc.
    eapply gets_seq0; [exact (eats_str ut (lit "-") _ _)|]. exact G1.
  - reflexivity.
Qed.
Lemma gets_elem_first x oc s r k k' :
  gets (PSeq (R_ y_block_array_element) (POpt (R_ y_comment))) s k ((y_block_array_element, VAElem (AElem x)) :: ovals oc) r k' ->
  gets (R_ y_first_block_array_element) s k [(y_first_block_array_element, VAData (AElem x :: aoc oc))] r k'.
Proof.
  intros H. eapply gets_rule; [reflexivity|exact H|]. intros u _. destruct oc; reflexivity.
Qed.
Definition dash_head (s : str) : Prop := exists u, s = chr "-" :: u.
Lemma dash_bare m s z : dash_head s -> bare (indent m ++ s ++ z).
Proof. intros (u & ->). cbn [app]. apply bare_dash. Qed.
Lemma dash_follow K D C n s z : dash_head s -> n < D ->
  forall b ws, (b <> Plain -> ws = []) -> follow K D C b (NL :: blank_lines ws ++ indent n ++ s ++ z).
Proof. intros (u & ->) Hn b ws Hb. cbn [app]. now apply f_dash. Qed.
Lemma eats_gap nl i ws cs X k : headed X ->
  eats (asep nl) (indent i ++ gap ws cs ++ X) k (indent i ++ NL :: blank_lines ws) (comment_lines cs ++ X) k.
Proof.
  intros H. rewrite gap_app. destruct nl; [apply eats_blanknl_ws|apply eats_blank_ws]; now apply comment_lines_headed.
Qed.
Lemma gets_adata_of nl ws cs x oc n i s z r k : comments_ok cs -> dash_head s ->
  gets (PSeq (R_ y_block_array_element) (POpt (R_ y_comment))) (s ++ z) (indent n :: k)
    ((y_block_array_element, VAElem (AElem x)) :: ovals oc) r (indent n :: k) ->
  gets (PSeq (asep nl) (R_ y_block_array_data)) (indent i ++ gap ws cs ++ indent n ++ s ++ z) (indent n :: k)
    [(y_block_array_data, VAData (acomments_of cs ++ AElem x :: aoc oc))] r (indent n :: k).
Proof.
  intros Hcs Hs H. eapply gets_seq0; [apply eats_gap, bare_headed, dash_bare, Hs|].
  rewrite acomments_map. eapply gets_rule; [reflexivity| |].
  - cbn [yaml_grammar snd].
    eapply gets_seq; [apply gets_clines; [exact Hcs|now apply dash_bare]| |reflexivity].
    eapply gets_seq0; [apply eats_peek|]. exact H.
  - intros u _. destruct oc; reflexivity.
Qed.
Lemma end_elements nl n b z i k : aend n b z ->
  fails (PSeq (asep nl) (R_ y_block_array_data)) (indent i ++ z) (indent n :: k).
Proof.
  intros (K & D & C & H & _ & HD & _). destruct (LayoutBlock.end_array_data ut K D C b n z i k H HD).
  destruct nl; assumption.
Qed.

(** At indentation 0 nothing that follows is a further element. *)
Lemma end_alt_array b z i k e : aend 0 b z ->
  fails (R_ y_blanknl ~~ PPush y_zss ~~ R_ y_first_block_array_element ~~ e)%peg (indent i ++ z) k.
Proof.
  intros (K & D & C & H & _ & HD & _).
  assert (X : forall ws x, solid x -> (forall k, fails (R_ y_block_array_element) x k) ->
     forall m, fails (R_ y_blanknl ~~ PPush y_zss ~~ R_ y_first_block_array_element ~~ e)%peg
       (indent i ++ NL :: blank_lines ws ++ indent m ++ x) k).
  { intros ws x Hx Fx m. eapply fails_seq0; [apply eats_blanknl_ws, headed_indent, Hx|].
    eapply fails_seq0; [apply eats_push, eats_indent, solid_zs, Hx|]. apply fails_seq1, fails_first_array, Fx. }
  destruct H as [b _|b|ws j|b ws m c r Hm Hc Hw|b ws m r Hm Hw|b ws m u r Hw Hu Hr].
  - apply fails_seq1, no_blanknl_end.
  - apply (X [] [] I ltac:(intros; scanc) 0).
  - rewrite <- (app_nil_r (indent j)). apply X; [exact I|intros; scanc].
  - apply X; [now apply (name_solid ut)|]. intros k'. exact (no_dash_key ut 0 c r k' Hc).
  - lia.
  - apply X; [cbn; repeat split; discriminate|]. intros k'. scanc.
Qed.

Lemma read_nlast n x oc b s : reads n n true true x oc b s ->
  elements_read n (AElem x :: element_comment oc) b (lit "-" ++ s).
Proof.
  intros Hr. split; [eexists; reflexivity|]. split.
  - intros k z He.
    destruct (gets_elem n n true x oc b s k z (le_n n) Hr (aend_bounds n b z He)) as (i & Ge).
    exists x, oc, [], i, z. split; [now rewrite app_nil_r|]. split; [now apply (aend_nl n b)|].
    split; [exact Ge|]. intros nl j. exists [], j. split.
    + apply gets_star0. now apply (end_elements nl n b).
    + intros tl Htl. exists []. split; [exact Htl|reflexivity].
  - intros -> k z He. left.
    destruct (gets_elem 0 0 true x oc b s k z (le_n 0) Hr (aend_bounds 0 b z He)) as (i & Ge).
    apply fails_rule. cbn [yaml_grammar snd]. eapply fails_seq2; [apply gets_elem_first, Ge|].
    now apply (end_alt_array b).
Qed.

Lemma read_ncons n x oc b1 s1 ws cs l b s : reads n n true true x oc b1 s1 -> gap_ok n b1 ws cs ->
  elements_read n l b s ->
  elements_read n (AElem x :: element_comment oc ++ acomments_of cs ++ l) b
    (lit "-" ++ s1 ++ gap ws cs ++ spaces n ++ s).
Proof.
  intros Hr Hg (Hs & IH & _).
  assert (Hb : forall z, bounds n n true true b1 (gap ws cs ++ indent n ++ s ++ z)).
  { intros z. exists 0, (n + 1), (n + 1). split.
    - apply (gap_follow _ _ _ n); [exact Hg|lia|]. apply dash_follow; [exact Hs|lia].
    - repeat split; intros; lia. }
  split; [eexists; reflexivity|]. split.
  - intros k z He. destruct (gets_elem n n true x oc b1 s1 k _ (le_n n) Hr (Hb z)) as (i & Ge).
    destruct (IH k z He) as (x2 & oc2 & l2 & i2 & z2 & -> & _ & G1 & G2).
    exists x, oc, (acomments_of cs ++ AElem x2 :: aoc oc2 ++ l2), i, (gap ws cs ++ indent n ++ s ++ z).
    split; [reflexivity|]. split; [right; rewrite gap_app; eauto|]. split.
    + rewrite <- !app_assoc in Ge. rewrite <- !app_assoc. exact Ge.
    + intros nl j. destruct (G2 nl i2) as (vs & i' & G3 & Hv).
      exists ((y_block_array_data, VAData (acomments_of cs ++ AElem x2 :: aoc oc2)) :: vs), i'. split.
      * eapply gets_star1 with (v1 := [(y_block_array_data, VAData (acomments_of cs ++ AElem x2 :: aoc oc2))]);
          [|exact G3|reflexivity]. apply gets_adata_of; [apply Hg|exact Hs|exact G1].
      * intros tl Htl. destruct (Hv tl Htl) as (gs & E1 & E2). cbn [app many as_adata].
        exists ((acomments_of cs ++ AElem x2 :: aoc oc2) :: gs). rewrite E1. cbn [concat]. rewrite E2, <- app_assoc.
        split; reflexivity.
  - intros -> k z He. destruct (gets_elem 0 0 true x oc b1 s1 k _ (le_n 0) Hr (Hb z)) as (i & Ge).
    rewrite <- !app_assoc in Ge. rewrite <- !app_assoc.
    destruct cs as [|c cs].
    + right. destruct (IH (indent 0 :: k) z He) as (x2 & oc2 & l2 & i2 & z2 & -> & Hz2 & G1 & G2).
      destruct (G2 true 0) as (vs & i' & G3 & Hv). exists i'.
      destruct (Hv [(y_commentnls, VStrs [])] eq_refl) as (gs & E1 & E2).
      eapply gets_rule; [reflexivity| |].
      * cbn [yaml_grammar snd]. eapply gets_seq; [apply gets_elem_first, Ge| |reflexivity].
        eapply gets_seq0; [exact (eats_gap true i ws [] (indent 0 ++ s ++ z) _ (bare_headed _ (dash_bare 0 s z Hs)))|].
        cbn [comment_lines flat_map app].
        eapply gets_seq0; [apply eats_push, eats_indent|].
        { destruct Hs as (u & ->). reflexivity. }
        eapply gets_seq; [apply gets_elem_first, G1| |reflexivity].
        eapply gets_seq0; [apply eats_indent, nl_zs, Hz2|].
        eapply gets_seq; [exact G3| |reflexivity].
        eapply gets_seq0; [apply eats_drop|]. apply gets_comments_pad. now apply (aend_nl 0 b).
      * intros u _. cbn [yact app]. rewrite E1, E2. cbn [acomments map app]. rewrite !app_nil_r.
        rewrite <- ?app_assoc. reflexivity.
    + left. apply fails_rule. cbn [yaml_grammar snd]. eapply fails_seq2; [apply gets_elem_first, Ge|].
      rewrite gap_app, comment_lines_cons.
      eapply fails_seq0; [apply eats_blanknl_ws, headed_indent; cbn; repeat split; discriminate|].
      eapply fails_seq0; [apply eats_push, eats_indent; reflexivity|].
      apply fails_seq1, fails_first_array. scanc.
Qed.

(** A sequence on lines of its own. *)
Lemma gets_array_of pre cs m l b s k z : elements_read m l b s -> aend m b z -> comments_ok cs ->
  (pre = comment_lines cs \/ cs = [] /\ exists ws, pre = NL :: blank_lines ws) ->
  exists i, gets (R_ y_block_array) (pre ++ indent m ++ s ++ z) k [(y_block_array, VYaml (Array (acomments_of cs ++ l)))] (indent i ++ z) k
    /\ fails (R_ y_hash) (pre ++ indent m ++ s ++ z) k /\ fails (R_ y_inline_array) (pre ++ indent m ++ s ++ z) k.
Proof.
  intros (Hs & H & _) He Hcs Hpre.
  destruct (H k z He) as (x & oc & l' & i1 & z' & -> & Hz' & G1 & G2).
  destruct (G2 false 0) as (vs & i & G3 & Hv). exists i.
  destruct (Hv [(y_commentnls, VStrs [])] eq_refl) as (gs & E1 & E2).
  assert (Hzs : no_zs (s ++ z)) by (destruct Hs as (u & ->); reflexivity).
  assert (Hd : forall k, fails (R_ y_hash_element) (s ++ z) k) by (intros k'; destruct Hs as (u & ->); exact (no_key_dash ut 0 _ k')).
  split; [|split].
  - assert (X : exists w Y2, gets (R_ y_commentnls) (pre ++ indent m ++ s ++ z) k [(y_commentnls, VStrs (map cl_text cs))] Y2 k
     /\ eats (R_ y_blank) Y2 k w (indent m ++ s ++ z) k).
    { destruct Hpre as [->|(-> & ws & ->)].
      - exists [], (indent m ++ s ++ z). split; [apply gets_clines; [exact Hcs|now apply dash_bare]|].
        now apply headed_blank0, bare_headed, dash_bare.
      - exists (NL :: blank_lines ws), (NL :: blank_lines ws ++ indent m ++ s ++ z). split.
        + refine (gets_comments_pad ut 0 (NL :: blank_lines ws ++ indent m ++ s ++ z) k _). right. eauto.
        + refine (eats_blank_ws ut 0 ws (indent m ++ s ++ z) k _). now apply bare_headed, dash_bare. }
    destruct X as (w & Y2 & GY & EB).
    eapply gets_rule; [reflexivity| |].
    + cbn [yaml_grammar snd].
      eapply gets_seq; [exact GY| |reflexivity]. eapply gets_seq0; [exact EB|].
      eapply gets_seq0; [apply eats_push, eats_indent, Hzs|].
      eapply gets_seq; [apply gets_elem_first, G1| |reflexivity].
      eapply gets_seq0; [apply eats_indent, nl_zs, Hz'|].
      eapply gets_seq; [exact G3| |reflexivity].
      eapply gets_seq0; [apply eats_drop|]. apply gets_comments_pad. now apply (aend_nl m b).
    + intros u _. cbn [yact app]. rewrite E1, E2. cbn [acomments map]. rewrite acomments_map, !app_nil_r. reflexivity.
  - apply fails_rule. cbn [yaml_grammar snd].
    destruct Hpre as [->|(-> & ws & ->)].
    + eapply fails_seq0; [apply eats_opt0, headed_fails_nl, comment_lines_headed, bare_headed, dash_bare, Hs|].
      eapply fails_seq2; [apply gets_clines; [exact Hcs|now apply dash_bare]|].
      eapply fails_seq0; [apply headed_blank0, bare_headed, dash_bare, Hs|].
      eapply fails_seq0; [apply eats_push, eats_indent, Hzs|].
      apply fails_seq1, fails_first_hash, Hd.
    + cbn [app]. eapply fails_seq0; [apply eats_opt1, eats_nl|].
      eapply fails_seq2 with (s1 := blank_lines ws ++ indent m ++ s ++ z).
      { destruct ws as [|i0 ws].
        - exact (gets_clines ut [] _ k (Forall_nil _) (dash_bare m s z Hs)).
        - rewrite blank_lines_cons. apply gets_comments_pad. right. eauto. }
      eapply fails_seq0; [apply eats_blank_lines0, bare_headed, dash_bare, Hs|].
      eapply fails_seq0; [apply eats_push, eats_indent, Hzs|].
      apply fails_seq1, fails_first_hash, Hd.
  - apply fails_rule. cbn [yaml_grammar snd]. apply fails_seq1.
    destruct Hpre as [->|(-> & ws & ->)]; [|scanc].
    destruct cs as [|c cs].
    + destruct Hs as (u & ->). destruct m; scanc.
    + rewrite comment_lines_cons. destruct (cl_indent c); scanc.
Qed.

(** ---- collections as values ---- *)

(** Text that starts neither with an alias nor with a collection. *)
Lemma gets_ba_below y s r k : (forall k, fails (R_ y_alias) s k) -> (forall k, fails (R_ y_hash_element) s k) ->
  fails (R_ y_alternative_array) s k ->
  gets (R_ y_yaml_value) s k [(y_yaml_value, VYaml y)] r k ->
  gets (R_ y_ba_aliased) s k [(y_ba_aliased, VAliased (mkA None y))] r k.
Proof.
  intros Ha Hh Hr H. eapply gets_rule with (vs := [(y_aliased, VAliased (mkA None y))]); [reflexivity| |reflexivity].
  cbn [yaml_grammar snd]. apply gets_alt2.
  - apply fails_rule. cbn [yaml_grammar snd]. eapply fails_seq0; [apply eats_opt0, fails_seq1, Ha|].
    apply fails_alt; [apply fails_alternative_hash, Hh|exact Hr].
  - eapply gets_rule with (vs := [(y_yaml_value, VYaml y)]); [reflexivity| |reflexivity].
    cbn [yaml_grammar snd]. eapply gets_seq0; [apply eats_opt0, fails_seq1, Ha|exact H].
Qed.

Definition low (s : str) : Prop := exists c r, s = c :: r /\ (c = SP \/ c = NL \/ c = chr "#").
Lemma gets_ba_low y s r k : low s ->
  gets (R_ y_yaml_value) s k [(y_yaml_value, VYaml y)] r k ->
  gets (R_ y_ba_aliased) s k [(y_ba_aliased, VAliased (mkA None y))] r k.
Proof.
  intros (c & u & -> & Hc). apply gets_ba_below; intros; destruct Hc as [->|[->| ->]]; scanc.
Qed.
Lemma low_lines cs m s : cs <> [] \/ 1 <= m -> low (comment_lines cs ++ indent m ++ s).
Proof.
  intros H. destruct cs as [|c cs].
  - destruct m; [destruct H; [congruence|lia]|]. cbn. eexists _, _. split; [reflexivity|]. now left.
  - rewrite comment_lines_cons. destruct (cl_indent c); cbn; eexists _, _; (split; [reflexivity|]); auto.
Qed.

(** The separator before the lines of a collection. *)
Lemma eats_sep_lines q j ws cs X k : headed X -> (q = true -> 1 <= j) ->
  (j = 0 /\ q = false /\ exists w, eats (sepr q) (indent j ++ gap ws cs ++ X) k w (comment_lines cs ++ X) k)
  \/ (1 <= j /\ exists w, eats (sepr q) (indent j ++ gap ws cs ++ X) k w (gap ws cs ++ X) k).
Proof.
  intros HX Hq. destruct j as [|j].
  - left. split; [reflexivity|]. destruct q; [specialize (Hq eq_refl); lia|]. split; [reflexivity|].
    exists (indent 0 ++ NL :: blank_lines ws). cbn [sepr]. apply eats_alt2.
    + rewrite gap_app. apply fails_zsp. reflexivity.
    + exact (eats_gap true 0 ws cs X k HX).
  - right. split; [lia|]. exists (indent (S j)). apply eats_spaces_sep. rewrite gap_app. reflexivity.
Qed.

Lemma value_hash y s r k : gets (R_ y_hash) s k [(y_hash, VYaml y)] r k ->
  gets (R_ y_yaml_value) s k [(y_yaml_value, VYaml y)] r k.
Proof. intros H. eapply gets_rule; [reflexivity|cbn [yaml_grammar snd]; apply gets_alt1, H|reflexivity]. Qed.
Lemma value_array y s r k : gets (R_ y_block_array) s k [(y_block_array, VYaml y)] r k ->
  fails (R_ y_hash) s k -> fails (R_ y_inline_array) s k ->
  gets (R_ y_yaml_value) s k [(y_yaml_value, VYaml y)] r k.
Proof.
  intros H F1 F2. eapply gets_rule with (vs := [(y_array, VYaml y)]); [reflexivity| |reflexivity].
  cbn [yaml_grammar snd]. apply gets_alt2; [exact F1|]. apply gets_alt1.
  eapply gets_rule with (vs := [(y_block_array, VYaml y)]); [reflexivity| |reflexivity].
  cbn [yaml_grammar snd]. apply gets_alt2; [exact F2|exact H].
Qed.

Lemma reads_map t n last q j ws cs m l b s :
  n < m -> (q = true -> 1 <= j) -> (j = 0 \/ ws = [] \/ cs = []) -> comments_ok cs -> entries_read m l b s ->
  reads t n last q (mkA None (Hash (hcomments_of cs ++ l))) None b (spaces j ++ gap ws cs ++ spaces m ++ s).
Proof.
  intros Hm Hq Hj Hcs He. apply reads_plain. intros k z Ht (K & D & C & Hf & HK & HD & HC & _).
  assert (Hend : hend m b z).
  { exists K, D, C. split; [exact Hf|]. destruct q; lia. }
  rewrite <- !app_assoc.
  assert (HX : bare (indent m ++ s ++ z)) by (apply name_bare, He).
  destruct (eats_sep_lines q j ws cs (indent m ++ s ++ z) (indent t :: k) (bare_headed _ HX) Hq)
    as [(-> & -> & w & Ew)|(Hj1 & w & Ew)].
  - destruct (gets_hash_of (comment_lines cs) [] cs m l b s (indent t :: k) z He Hend Hcs) as (i & Gi).
    { left. apply eats_opt0, headed_fails_nl, comment_lines_headed, bare_headed, HX. }
    exists i. eapply gets_seq0; [exact Ew|]. apply gets_ba_low; [apply low_lines; right; lia|].
    apply value_hash, Gi.
  - destruct (gets_hash_of (gap ws cs) [NL] cs m l b s (indent t :: k) z He Hend Hcs) as (i & Gi).
    { rewrite gap_app. destruct Hj as [->|[->| ->]]; [lia| |].
      - left. apply eats_opt1, eats_nl.
      - right. split; [reflexivity|]. exists ws. apply eats_opt1, eats_nl. }
    exists i. eapply gets_seq0; [exact Ew|]. apply gets_ba_low.
    { rewrite gap_app. eexists _, _. split; [reflexivity|]. auto. }
    apply value_hash, Gi.
Qed.

Lemma reads_seq t n last q j ws cs m l b s :
  n <= m -> (q = true -> n < m /\ 1 <= j) -> (j = 0 \/ cs = []) -> comments_ok cs -> elements_read m l b s ->
  reads t n last q (mkA None (Array (acomments_of cs ++ l))) None b (spaces j ++ gap ws cs ++ spaces m ++ s).
Proof.
  intros Hm Hq Hj Hcs He. apply reads_plain. intros k z Ht (K & D & C & Hf & HK & HD & HC & _).
  assert (Hend : aend m b z).
  { exists K, D, C. split; [exact Hf|]. destruct q; [destruct (Hq eq_refl)|]; lia. }
  rewrite <- !app_assoc.
  assert (HX : bare (indent m ++ s ++ z)) by (apply dash_bare, He).
  destruct (eats_sep_lines q j ws cs (indent m ++ s ++ z) (indent t :: k) (bare_headed _ HX) (fun H => proj2 (Hq H)))
    as [(-> & -> & w & Ew)|(Hj1 & w & Ew)].
  - destruct (gets_array_of (comment_lines cs) cs m l b s (indent t :: k) z He Hend Hcs (or_introl eq_refl))
      as (i & Gi & F1 & F2).
    destruct (list_eq_dec (fun a b : cline => ltac:(repeat decide equality)) cs []) as [-> | Hne].
    + destruct m as [|m].
      * (* the dashes stand in the first column *)
        assert (t = 0) by lia. subst t. cbn [comment_lines flat_map app indent repeat_char acomments_of map] in *.
        destruct He as ((u & ->) & He & Halt). destruct (Halt eq_refl k z Hend) as [F|(i' & G')].
        -- exists i. eapply gets_seq0; [exact Ew|]. cbn [app] in *.
           apply gets_ba_below; [intros; scanc|intros k'; exact (no_key_dash ut 0 _ k')|exact F|].
           now apply value_array.
        -- exists i'. eapply gets_seq0; [exact Ew|]. cbn [app] in *.
           eapply gets_ba_inline; [now right|cbn; repeat split; discriminate| | |exact G'].
           ++ intros _. exact (no_key_dash ut 0 _ _).
           ++ scanc.
      * exists i. eapply gets_seq0; [exact Ew|]. apply gets_ba_low; [apply low_lines; right; lia|].
        now apply value_array.
    + exists i. eapply gets_seq0; [exact Ew|]. apply gets_ba_low; [apply low_lines; now left|].
      now apply value_array.
  - destruct Hj as [-> | ->]; [lia|].
    destruct (gets_array_of (gap ws []) [] m l b s (indent t :: k) z He Hend Hcs) as (i & Gi & F1 & F2).
    { right. split; [reflexivity|]. exists ws. unfold gap. cbn [comment_lines flat_map app]. now rewrite app_nil_r. }
    exists i. eapply gets_seq0; [exact Ew|]. apply gets_ba_low.
    { rewrite gap_app. eexists _, _. split; [reflexivity|]. auto. }
    now apply value_array.
Qed.

(** ---- on the line of a dash or after an alias ---- *)

Lemma gets_ba_lead al a r y s rest k : lead ut al a -> (r = y_alternative_hash \/ r = y_alternative_array) ->
  solid s -> (r = y_alternative_array -> fails (R_ y_hash_element) s k) -> fails (R_ y_alias) s k ->
  gets (R_ r) s k [(r, VYaml y)] rest k ->
  gets (R_ y_ba_aliased) (a ++ s) k [(y_ba_aliased, VAliased (mkA al y))] rest k.
Proof.
  intros Hl Hr Hs Hf Ha H. destruct Hl as [|a w Hal Hw Hne].
  - cbn [app]. now apply (gets_ba_inline ut r).
  - rewrite <- !app_assoc.
    eapply gets_rule with (vs := [(y_alt_aliased, VAliased (mkA (Some a) y))]); [reflexivity| |reflexivity].
    cbn [yaml_grammar snd]. apply gets_alt1.
    eapply gets_rule with (vs := [(y_alias, VStr a); (r, VYaml y)]); [reflexivity| |destruct Hr as [-> | ->]; reflexivity].
    cbn [yaml_grammar snd].
    eapply gets_seq with (v1 := [(y_alias, VStr a)]) (v2 := [(r, VYaml y)]); [| |reflexivity].
    + apply gets_opt1. eapply gets_seq with (v2 := []); [apply gets_alias; [exact Hal|]| |reflexivity].
      * intros c x E. destruct w as [|d w]; [congruence|]. cbn [app] in E. inversion E; subst.
        destruct (Hw c (or_introl eq_refl)) as [-> | ->]; now apply punct_not_name.
      * eapply eats_gets. apply eats_white; [exact Hw|now apply solid_firm].
    + destruct Hr as [-> | ->]; [apply gets_alt1, H|apply gets_alt2; [|exact H]].
      now apply fails_alternative_hash, Hf.
Qed.
Lemma lead_zs al a s : lead ut al a -> solid s -> no_zs (a ++ s).
Proof. intros [|a' w _ _ _] H; [now apply solid_zs|reflexivity]. Qed.
Lemma name_head_solid s z : name_head s -> solid (s ++ z).
Proof. intros (c & r & -> & Hc). now apply (name_solid ut). Qed.
Lemma name_head_alias s z k : name_head s -> fails (R_ y_alias) (s ++ z) k.
Proof. intros (c & r & -> & Hc). now apply name_no_alias. Qed.

Lemma reads_one t n last q al a j key i m x oc b s :
  lead ut al a -> (q = true \/ al <> None) -> (q = true \/ last = true) -> n < m -> plain_key ut key ->
  reads t m last false x oc b s ->
  reads t n last q (mkA al (Hash (HElem (mkHE key x) :: entry_comment oc))) None b
    (spaces (S j) ++ a ++ key ++ spaces i ++ lit ":" ++ s).
Proof.
  intros Hl _ Hq Hm Hk Hr. apply reads_plain. intros k z Ht (K & D & C & Hf & HK & HD & HC & Hqb & Hlast).
  assert (HKt : K <= t + 1) by (destruct Hq as [->|Hq]; [now apply Hqb|now apply Hlast]).
  assert (Hb : bounds t m last false b z).
  { exists K, D, C. split; [exact Hf|]. split; [lia|]. split; [destruct q; lia|]. split; [lia|].
    split; [discriminate|exact Hlast]. }
  assert (Htm : t <= m) by lia.
  destruct (gets_entry t m last key i x oc b s k z Hk Htm Hr Hb) as (i' & Ge). exists i'.
  pose proof (key_name_head key (spaces i ++ lit ":" ++ s) Hk) as Hn.
  assert (Ga : gets (R_ y_alternative_hash) ((key ++ spaces i ++ lit ":" ++ s) ++ z) (indent t :: k)
     [(y_alternative_hash, VYaml (Hash (HElem (mkHE key x) :: entry_comment oc)))] (indent i' ++ z) (indent t :: k)).
  { eapply gets_rule; [reflexivity| |].
    - cbn [yaml_grammar snd]. eapply gets_seq; [apply gets_first_of, Ge| |reflexivity].
      eapply gets_seq; [apply gets_opt0; now apply (LayoutBlock.end_alt_cont ut K D C b)| |reflexivity].
      apply gets_comments_pad. now apply (follow_nl ut K D C b).
    - intros u _. cbn [yact app]. rewrite !app_nil_r. reflexivity. }
  set (E := key ++ spaces i ++ lit ":" ++ s) in *.
  replace ((spaces (S j) ++ a ++ E) ++ z) with (indent (S j) ++ a ++ E ++ z) by (rewrite <- !app_assoc; reflexivity).
  eapply gets_seq0; [apply eats_spaces_sep, (lead_zs al); [exact Hl|now apply name_head_solid]|].
  eapply gets_ba_lead; [exact Hl|now left|now apply name_head_solid|discriminate|now apply name_head_alias|exact Ga].
Qed.

Lemma reads_more t n last q al a j key i m x oc b1 s1 ws cs l b s :
  lead ut al a -> (q = true \/ al <> None) -> n < m -> plain_key ut key ->
  reads t m false false x oc b1 s1 -> gap_ok m b1 ws cs -> entries_read m l b s ->
  reads t n last q (mkA al (Hash (HElem (mkHE key x) :: entry_comment oc ++ hcomments_of cs ++ l))) None b
    (spaces (S j) ++ a ++ key ++ spaces i ++ lit ":" ++ s1 ++ gap ws cs ++ spaces m ++ s).
Proof.
  intros Hl _ Hm Hk Hr Hg [Hs He]. apply reads_plain. intros k z Ht (K & D & C & Hf & HK & HD & HC & Hqb & Hlast).
  assert (Hend : hend m b z) by (exists K, D, C; split; [exact Hf|destruct q; lia]).
  assert (Hb : bounds t m false false b1 (gap ws cs ++ indent m ++ s ++ z)).
  { exists (m + 1), 0, (m + 1). split.
    - apply (gap_follow _ _ _ m); [exact Hg|lia|]. apply name_follow; [exact Hs|lia].
    - repeat split; intros; try discriminate; lia. }
  assert (Htm : t <= m) by lia.
  destruct (gets_entry t m false key i x oc b1 s1 k _ Hk Htm Hr Hb) as (i1 & Ge).
  destruct (He (indent t :: k) z Hend) as (e2 & oc2 & l2 & r2 & vs & i2 & -> & G1 & G2 & Hv).
  exists i2. destruct (Hv [] eq_refl) as (gs & E1 & E2). rewrite app_nil_r in E1.
  pose proof (key_name_head key (spaces i ++ lit ":" ++ s1) Hk) as Hn.
  assert (Ga : gets (R_ y_alternative_hash) ((key ++ spaces i ++ lit ":" ++ s1) ++ gap ws cs ++ indent m ++ s ++ z) (indent t :: k)
     [(y_alternative_hash, VYaml (Hash (HElem (mkHE key x) :: entry_comment oc ++ hcomments_of cs ++ HElem e2 :: hoc oc2 ++ l2)))]
     (indent i2 ++ z) (indent t :: k)).
  { eapply gets_rule; [reflexivity| |].
    - cbn [yaml_grammar snd]. eapply gets_seq; [apply gets_first_of, Ge| |reflexivity].
      eapply gets_seq; [apply gets_opt1| |reflexivity].
      2:{ apply gets_comments_pad. now apply (follow_nl ut K D C b). }
      eapply gets_rule with (v := VHData (hcomments_of cs ++ HElem e2 :: hoc oc2 ++ l2)); [reflexivity| |].
      + cbn [yaml_grammar snd]. rewrite gap_app.
        eapply gets_seq0; [apply eats_blanknl_ws, comment_lines_headed, bare_headed, name_bare, Hs|].
        eapply gets_seq; [apply gets_clines; [apply Hg|now apply name_bare]| |reflexivity].
        assert (Ed : exists d, m - t = S d) by (exists (m - t - 1); lia). destruct Ed as (d & Ed).
        eapply gets_seq0.
        { eapply eats_and. rewrite (indent_split t m) by lia. rewrite Ed.
          eapply eats_seq; [apply eats_peek| |reflexivity]. cbn [indent repeat_char app].
          eapply eats_seq; [now apply eats_class| |reflexivity].
          apply (eats_indent ut d). now apply name_zs0. }
        eapply gets_seq0; [apply eats_push, eats_indent, name_zs0, Hs|].
        eapply gets_seq; [apply gets_first_of, G1| |reflexivity].
        eapply gets_seq; [exact G2|eapply eats_gets, eats_drop|reflexivity].
      + intros u _. cbn [yact app]. rewrite app_nil_r, E1, E2, hcomments_map. reflexivity.
    - intros u _. cbn [yact app hcomments map]. rewrite !app_nil_r. reflexivity. }
  set (E := key ++ spaces i ++ lit ":" ++ s1) in *.
  match goal with |- gets _ ?y _ _ _ _ => replace y with (indent (S j) ++ a ++ E ++ gap ws cs ++ indent m ++ s ++ z) end.
  2:{ unfold E. rewrite <- !app_assoc. reflexivity. }
  eapply gets_seq0; [apply eats_spaces_sep, (lead_zs al); [exact Hl|now apply name_head_solid]|].
  eapply gets_ba_lead; [exact Hl|now left|now apply name_head_solid|discriminate|now apply name_head_alias|exact Ga].
Qed.

Lemma reads_seqs t n last q al a j m x oc b1 s1 ws l b s :
  lead ut al a -> (q = true \/ al <> None) -> n < m ->
  reads t m false true x oc b1 s1 -> gap_ok m b1 ws [] -> elements_read m l b s ->
  reads t n last q (mkA al (Array (AElem x :: element_comment oc ++ l))) None b
    (spaces (S j) ++ a ++ lit "-" ++ s1 ++ gap ws [] ++ spaces m ++ s).
Proof.
  intros Hl _ Hm Hr Hg (Hs & He & _). apply reads_plain. intros k z Ht (K & D & C & Hf & HK & HD & HC & Hqb & Hlast).
  assert (Hend : aend m b z) by (exists K, D, C; split; [exact Hf|destruct q; lia]).
  assert (Hb : bounds t m false true b1 (gap ws [] ++ indent m ++ s ++ z)).
  { exists 0, (m + 1), (m + 1). split.
    - apply (gap_follow _ _ _ m); [exact Hg|lia|]. apply dash_follow; [exact Hs|lia].
    - repeat split; intros; try discriminate; lia. }
  assert (Htm : t <= m) by lia.
  destruct (gets_elem t m false x oc b1 s1 k _ Htm Hr Hb) as (i1 & Ge).
  destruct (He (indent t :: k) z Hend) as (x2 & oc2 & l2 & i2 & z2 & -> & Hz2 & G1 & G2).
  destruct (G2 true 0) as (vs & i' & G3 & Hv). exists i'.
  destruct (Hv [(y_commentnls, VStrs [])] eq_refl) as (gs & E1 & E2).
  assert (Ga : gets (R_ y_alternative_array) ((lit "-" ++ s1) ++ gap ws [] ++ indent m ++ s ++ z) (indent t :: k)
     [(y_alternative_array, VYaml (Array (AElem x :: element_comment oc ++ AElem x2 :: aoc oc2 ++ l2)))]
     (indent i' ++ z) (indent t :: k)).
  { eapply gets_rule; [reflexivity| |].
    - cbn [yaml_grammar snd]. eapply gets_seq; [apply gets_elem_first, Ge| |reflexivity].
      eapply gets_seq0; [exact (eats_gap true i1 ws [] (indent m ++ s ++ z) _ (bare_headed _ (dash_bare m s z Hs)))|].
      cbn [comment_lines flat_map app].
      eapply gets_seq0; [apply eats_push, eats_indent|].
      { destruct Hs as (u & ->). reflexivity. }
      eapply gets_seq; [apply gets_elem_first, G1| |reflexivity].
      eapply gets_seq0; [apply eats_indent, nl_zs, Hz2|].
      eapply gets_seq; [exact G3| |reflexivity].
      eapply gets_seq0; [apply eats_drop|]. apply gets_comments_pad. now apply (aend_nl m b).
    - intros u _. cbn [yact app]. rewrite E1, E2. cbn [acomments map app]. rewrite !app_nil_r.
      rewrite <- ?app_assoc. reflexivity. }
  match goal with |- gets _ ?y _ _ _ _ => replace y with (indent (S j) ++ a ++ (lit "-" ++ s1) ++ gap ws [] ++ indent m ++ s ++ z) end.
  2:{ rewrite <- !app_assoc. reflexivity. }
  assert (Hsol : solid ((lit "-" ++ s1) ++ gap ws [] ++ indent m ++ s ++ z)) by (cbn; repeat split; discriminate).
  eapply gets_seq0; [apply eats_spaces_sep, (lead_zs al); [exact Hl|exact Hsol]|].
  eapply gets_ba_lead; [exact Hl|now right|exact Hsol| | |exact Ga].
  - intros _. rewrite <- app_assoc. exact (no_key_dash ut 0 _ _).
  - rewrite <- app_assoc. scanc.
Qed.

Theorem layout_reads :
  (forall t n last q x oc b s, value ut t n last q x oc b s -> reads t n last q x oc b s)
  /\ (forall n l b s, entries ut n l b s -> entries_read n l b s)
  /\ (forall n l b s, elements ut n l b s -> elements_read n l b s).
Proof.
  apply (value_all ut reads entries_read elements_read).
  - intros. now apply reads_line.
  - intros. now apply reads_scalar.
  - intros. now apply reads_map.
  - intros. now apply reads_seq.
  - intros. now apply (reads_one t n last q al a j k i m).
  - intros. now apply (reads_more t n last q al a j k i m x oc b1).
  - intros. now apply (reads_seqs t n last q al a j m x oc b1).
  - intros. now apply read_last.
  - intros. now apply (read_cons n k i x oc b1).
  - intros. now apply read_nlast.
  - intros. now apply (read_ncons n x oc b1).
Qed.

(** ---- documents ---- *)

Lemma closing_follow n b cs z : closing n b cs z -> follow 0 0 (n + 1) b z.
Proof.
  induction 1 as [b H|b|ws i|b ws m c cs z H1 H2 _ IH].
  - now apply f_end.
  - apply f_final.
  - exact (f_blank ut 0 0 (n + 1) ws i).
  - refine (f_comment ut 0 0 (n + 1) b ws m c z _ H2 IH). intros Hb. destruct (H1 Hb). split; [assumption|lia].
Qed.

Lemma gets_closing n b cs z : closing n b cs z -> forall i k, exists u X r w,
  eats (R_ y_blank) (indent i ++ z) k u X k
  /\ gets (PStar (R_ y_comment ~~ R_ y_blank)%peg) X k (vcom cs) r k
  /\ eats (R_ y_spaces) r k w [] k.
Proof.
  assert (P : forall i k, gets (PStar (R_ y_comment ~~ R_ y_blank)%peg) (indent i) k (vcom []) (indent i) k
     /\ eats (R_ y_spaces) (indent i) k (indent i) [] k).
  { intros i k. rewrite <- (app_nil_r (indent i)) at 1 2 3. split.
    - apply gets_star0, fails_seq1. apply fails_comment_pad. now left.
    - apply eats_white; [apply pad_white|]. intros c r E. discriminate. }
  induction 1 as [b H|b|ws j|b ws m c cs z H1 H2 H3 IH]; intros i k.
  - exists [], (indent i), (indent i), (indent i). split; [|apply P].
    rewrite app_nil_r. apply headed_blank0, headed_pad.
  - exists (indent i ++ [NL]), (indent 0), (indent 0), (indent 0). split; [|apply P].
    exact (eats_blank_ws ut i [] [] k headed_nil).
  - exists (indent i ++ NL :: blank_lines ws), (indent j), (indent j), (indent j). split; [|apply P].
    exact (eats_blank_ws ut i ws (indent j) k (headed_pad j)).
  - destruct (IH 0 k) as (u & X & r & w & E1 & G1 & E2).
    exists (indent i ++ NL :: blank_lines ws), (indent m ++ lit "#" ++ c ++ z), r, w.
    split; [apply eats_blank_ws, headed_indent; cbn; repeat split; discriminate|]. split; [|exact E2].
    eapply gets_star1 with (v1 := [(y_comment, VStr c)]); [|exact G1|reflexivity].
    eapply gets_seq; [apply gets_comment; [apply indent_zs|exact H2|]|eapply eats_gets; exact E1|reflexivity].
    apply (follow_nl ut 0 0 (n + 1) Plain). now apply (closing_follow n Plain cs).
Qed.

Lemma gets_leading_lines cs k s : comments_ok cs ->
  gets (R_ y_leading_comments) (comment_lines cs ++ lit "---" ++ s) k
    [(y_leading_comments, VStrs (map cl_text cs))] (lit "---" ++ s) k.
Proof.
  intros Hcs. eapply gets_rule with (vs := vcnl (map cl_text cs)); [reflexivity| |].
  - cbn [yaml_grammar snd]. induction Hcs as [|c cs Hc _ IH]; cbn [map vcnl].
    + apply gets_star0. scanc.
    + eapply gets_star1 with (v1 := [(y_commentnl, VStr (cl_text c))]); [|exact IH|reflexivity].
      rewrite comment_lines_cons.
      assert (HX : headed (comment_lines cs ++ lit "---" ++ s))
        by (apply comment_lines_headed, headed_solid; cbn; repeat split; discriminate).
      eapply gets_seq0; [apply eats_star0, headed_fails_blanknl, headed_indent; cbn; repeat split; discriminate|].
      eapply gets_seq; [apply gets_commentnl_ws; [exact Hc|exact HX]|eapply eats_gets, eats_star0, headed_fails_blanknl, HX|reflexivity].
  - intros t _. cbn [yact]. now rewrite many_vcnl.
Qed.

Lemma gets_root n y b s z : root ut n y b s -> (exists C, follow 0 0 C b z /\ C <= n + 1) ->
  bare (indent n ++ s ++ z) /\ exists i,
  gets (R_ y_document) (indent n ++ s ++ z) [] [(y_document, VYaml y)] (indent i ++ z) [].
Proof.
  intros H (C & Hf & HC). destruct layout_reads as (_ & HE & HN).
  destruct H as [n l b s H|n l b s H|l s i H].
  - apply HE in H. split; [apply name_bare, H|].
    destruct (gets_hash_of [] [] [] n l b s [] z H) as (i & Gi).
    + exists 0, 0, C. split; [exact Hf|lia].
    + constructor.
    + left. apply eats_opt0, headed_fails_nl, bare_headed, name_bare, H.
    + exists i. eapply gets_rule; [reflexivity|cbn [yaml_grammar snd]; apply gets_alt1, Gi|reflexivity].
  - apply HN in H. split; [apply dash_bare, H|].
    destruct (gets_array_of [] [] n l b s [] z H) as (i & Gi & F1 & F2).
    + exists 0, 0, C. split; [exact Hf|lia].
    + constructor.
    + now left.
    + exists i. eapply gets_rule with (vs := [(y_array, VYaml (Array l))]); [reflexivity| |reflexivity].
      cbn [yaml_grammar snd]. apply gets_alt2; [exact F1|].
      eapply gets_rule with (vs := [(y_block_array, VYaml (Array l))]); [reflexivity| |reflexivity].
      cbn [yaml_grammar snd]. apply gets_alt2; [exact F2|exact Gi].
  - cbn [indent repeat_char app]. rewrite <- app_assoc.
    destruct (gets_flow_array ut l s (spaces i ++ z) [] H) as [Gi (u & Eu)]. split.
    + subst s. exists 0. eexists. split; [reflexivity|].
      split; [cbn; repeat split; discriminate|]. intros r E. discriminate.
    + exists i. eapply gets_rule with (vs := [(y_array, VYaml (InlineArray l))]); [reflexivity| |reflexivity].
      cbn [yaml_grammar snd]. apply gets_alt2; [subst s; scanc|].
      eapply gets_rule; [reflexivity|cbn [yaml_grammar snd]; apply gets_alt1, Gi|reflexivity].
Qed.

Theorem gets_layout d s : layout ut d s -> gets (R_ y_yaml) s [] [(y_yaml, VDoc d)] [] [].
Proof.
  intros [cs0 i ws cs n y b s' cs1 z Hcs0 Hcs Hr Hz].
  destruct (gets_root n y b s' z Hr) as (Hbare & i' & Gd).
  { exists (n + 1). split; [now apply (closing_follow n b cs1)|lia]. }
  destruct (gets_closing n b cs1 z Hz i' []) as (u & X & r & w & E1 & G1 & E2).
  eapply gets_rule; [reflexivity| |].
  - cbn [yaml_grammar snd].
    eapply gets_seq; [apply gets_leading_lines, Hcs0| |reflexivity].
    eapply gets_seq0; [exact (eats_str ut (lit "---") _ _)|].
    eapply gets_seq0; [exact (eats_gap true i ws cs (indent n ++ s' ++ z) [] (bare_headed _ Hbare))|].
    eapply gets_seq; [apply gets_clines; [exact Hcs|exact Hbare]| |reflexivity].
    eapply gets_seq; [exact Gd| |reflexivity].
    eapply gets_seq0; [exact E1|]. eapply gets_seq; [exact G1| |reflexivity].
    eapply gets_seq0; [exact E2|apply gets_eoi].
  - intros t _. cbn [yact app]. rewrite many_vcom. unfold dcomments. rewrite map_map. reflexivity.
Qed.

End Tree.

Theorem layout_parse ut d s : layout ut d s -> parse_yaml ut s = CVal d.
Proof. intros H. apply parse_of_gets, gets_layout, H. Qed.
