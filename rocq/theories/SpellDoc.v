(** Whole files: the text of an accepted file is spelled out by the document. *)
From Coq Require Import ZArith.
From Verif Require Import Base Ast Num Peg PegFacts PegTree YamlGrammar Consume Spec_Parse
  Spec_Format Spec_Stable Spec_Path Spec_Panic Spec_Layout Spec_Flow Spec_Spell YamlTree YamlValues ParseFacts Reads
  Gives FormatText ParsedNeat ParsedNeat2 FlowText FlowText2 FlowReads FlowInv FlowExact SpellFacts SpellScalar SpellFacts2.
Import ListNotations.

Section Doc.
Context (ut : unitab).
Notation G := (yaml_grammar ut).
Notation gives := (gives ut).

Lemma brk_stays c r : c = NL \/ c = CR -> ~ stays (c :: r).
Proof.
  intros B S. unfold stays in S. cbn [drop_while] in S.
  assert (Z : is_zs c = false) by (destruct B as [-> | ->]; reflexivity). rewrite Z in S. destruct (S c _ eq_refl). destruct B; auto.
Qed.
Lemma break_none n r : n = [] \/ line_break n -> stays (n ++ r) -> n = [].
Proof. intros [H|[->|[->| ->]]] S; [exact H| | |]; exfalso; refine (brk_stays _ _ _ S); auto. Qed.
Lemma remarks_none cs c r : remarks cs c -> no_comment (c ++ r) -> cs = [] /\ c = [].
Proof.
  intros H NC. destruct H; [auto|]. exfalso. eapply NC. rewrite <- !app_assoc, drop_seps by assumption. reflexivity.
Qed.
Lemma blanks_none b r : blanks b -> stays (b ++ r) -> b = [].
Proof.
  intros H S. destruct H; [reflexivity|]. exfalso. rewrite <- app_assoc in S. unfold stays in S. rewrite drop_seps in S by assumption.
  cbn [app drop_while] in S. eapply brk_stays; [eassumption|exact S].
Qed.
Lemma map_root y t rest : map_of ut y t -> stays (t ++ rest) -> no_comment (t ++ rest) -> root ut y t.
Proof.
  intros (n & cs & c & b & k & l1 & s1 & l2 & s2 & -> & Hn & R & Hb & Sk & E1 & E2 & ->) St NC.
  rewrite <- !app_assoc in *. assert (n = []) as -> by (eapply break_none; eassumption). cbn [app] in *.
  destruct (remarks_none _ _ _ R NC) as [-> ->]. cbn [app] in *. rewrite (blanks_none _ _ Hb St). cbn [map app]. now apply RootMap.
Qed.
Lemma seq_root y t rest : seq_of ut y t -> stays (t ++ rest) -> no_comment (t ++ rest) -> root ut y t.
Proof.
  intros (cs & c & b & k & l1 & s1 & z & l2 & s2 & -> & R & Hb & Sk & E1 & Sz & E2 & ->) St NC.
  rewrite <- !app_assoc in *.
  destruct (remarks_none _ _ _ R NC) as [-> ->]. cbn [app] in *. rewrite (blanks_none _ _ Hb St). cbn [map app]. now apply RootSeq.
Qed.
Lemma gives_gets2 n e s k vs rest k' : gives n e s k vs rest k' -> gets ut e s k vs rest k'.
Proof. intros H. apply gives_runs in H as (t & ns & R & V & _). exists t, ns. auto. Qed.
Lemma many_vcom cs : many as_comment (vcom cs ++ [(y_eoi, VUnit)]) = (cs, [(y_eoi, VUnit)]).
Proof. unfold vcom. induction cs as [|c cs IH]; cbn [map app many as_comment]; [reflexivity|]. now rewrite IH. Qed.

Ltac gseq H v A :=
  let m := fresh "m" in let L := fresh "L" in let s := fresh "s" in let k := fresh "k" in
  let w := fresh "w" in
  apply g_seq in H as (m & v & s & k & w & L & A & H & ->).
Ltac galt H :=
  let m := fresh "m" in let L := fresh "L" in let R := fresh "R" in
  apply g_alt in H as (m & L & [H|[R H]]).
Theorem accepted_spelled s d : parse_yaml ut s = CVal d -> spelled ut d s.
Proof.
  intros H. apply parsed_gives in H as (n & rest & k' & H).
  pose proof H as HR. apply gives_runs in HR as (tt & nn & HR & _ & _).
  apply rule_ok_inv in HR as (ns0 & HR). rewrite yaml_exp in HR. cbn [fst yaml_grammar emit_in] in HR.
  apply head_inv in HR as (c0 & c & h & X & k0 & t0 & n0 & -> & Hh & H1 & H2 & _ & _); [|apply body_nil].
  apply g_rule in H as (m & t & cvs & v & L & H & _ & Y & E); [|reflexivity]. inversion E; subst v. clear E.
  rewrite yaml_exp in H. pose proof H as HW.
  gseq H v1 A. gseq H v2 B. gseq H v3 C. gseq H v4 D.
  apply gives_runs in A as (? & ? & A & _). apply gives_runs in B as (? & ? & B & _).
  apply gives_runs in C as (? & ? & C & _). apply gives_runs in D as (? & ? & D & _).
  destruct (head_end ut c0 c h X _ _ _ _ _ _ _ _ _ _ _ _ _ _ _ _ _ _ eq_refl Hh H1 H2 A B C D) as [-> ->].
  pose proof (gets_head ut c0 c h X [] Hh H1 H2 _ _ _ _ (gives_gets2 _ _ _ _ _ _ _ H)) as HG.
  destruct (gives_gets ut _ _ _ _ _ _ _ _ _ _ HW HG) as (E & _ & _). rewrite E in Y. clear E HW HG A B C D.
  unfold body_exp in H. gseq H v5 F. pose proof (g_same ut _ y_document _ _ _ _ _ (Nat.le_0_l _) F) as ->.
  pose proof H as HF. apply gives_runs in HF as (tf & nf & HF & _). apply tail_inv in HF as (cs1 & HF).
  destruct (gives_gets ut _ _ _ _ _ _ _ _ _ _ H (gets_finish ut cs1 _ [] HF)) as (-> & -> & ->).
  match type of HF with finish _ ?s => rename s into e end.
  assert (exists y t, v5 = [(y_document, VYaml y)] /\ X = t ++ e /\ root ut y t) as (y & td & -> & -> & R).
  { apply g_rule in F as (m5 & t5 & cv5 & y5 & _ & F & _ & Y5 & ->); [|reflexivity]. cbn [snd yaml_grammar] in F.
    assert (S0 : seps (hd [] (@nil str))) by (intros ? []).
    galt F; apply (post_all ut) in F as (_ & w5 & -> & P); try reflexivity; try exact S0; try apply Nat.le_0_l; cbn [post] in P.
    - destruct P as (y & td & -> & -> & P). cbn in Y5. inversion Y5; subst. exists y, td. split; [reflexivity|]. split; [reflexivity|].
      eapply map_root; eassumption.
    - destruct P as (y & td & -> & -> & [(l & r & -> & Rw & ->)|P]); cbn in Y5; inversion Y5; subst; eexists _, _;
        (split; [reflexivity|]; split; [reflexivity|]); [now constructor|eapply seq_root; eassumption]. }
  cbn [app yact] in Y. rewrite many_vcom in Y. inversion Y; subst.
  change (dcomments c ++ [DYaml y] ++ dcomments cs1) with (map DComment c ++ DYaml y :: map DComment cs1).
  now apply Spelled.
Qed.
End Doc.
