(** The serializer writes exactly what the specification says. *)
From Coq Require Import ZArith Lia Decimal DecimalFacts DecimalN.
From Verif Require Import Base Ast Strings Num Pretty Ser De Spec_Serde Spec_Look Spec_Typed Spec_Ser StringsFacts SerdeFacts SerdeFacts2 TypedFacts BufferFacts.
Import ListNotations.

(** ---- numbers ---- *)
Lemma str_uint_inj s u : str_uint s = Some u -> uint_str u = s.
Proof.
  revert u; induction s as [|c s IH]; intros u; cbn; [intros E; now injection E as <-|].
  destruct (str_uint s) as [v|]; [|discriminate]. specialize (IH v eq_refl). unfold cons_digit.
  intros E. assert (R : forall d, ceqb c d = true -> uint_str u = d :: uint_str v -> uint_str u = c :: s).
  { intros d Q ->. apply ceqb_eq in Q. now rewrite Q, IH. }
  repeat match type of E with (if ?b then _ else _) = _ =>
    destruct b eqn:?; [injection E as <-; eapply R; [eassumption|reflexivity]|] end.
  discriminate E.
Qed.
Lemma unorm_nz u r c : uint_str u = c :: r -> c <> chr "0" -> unorm u = u.
Proof. destruct u; cbn; intros E N; try reflexivity; [discriminate|]. injection E as <- _. now destruct N. Qed.
Lemma show_N_unique ds : digits ds -> (ds = lit "0" \/ ~ exists r, ds = chr "0" :: r) -> ds = show_N (decimal_value ds).
Proof.
  intros D Z. assert (P : parse_digits ds = Some (decimal_value ds)) by now apply parse_digits_spec.
  unfold parse_digits in P. destruct ds as [|c ds]; [discriminate|].
  destruct (str_uint (c :: ds)) as [u|] eqn:E; [|discriminate]. cbn [option_map] in P. injection P as P.
  apply str_uint_inj in E. unfold show_N. rewrite <- P, Unsigned.to_of.
  destruct Z as [Z|Z].
  - rewrite Z in E. destruct u; try discriminate. injection E as E. destruct u; try discriminate. rewrite Z. reflexivity.
  - rewrite (unorm_nz u ds c); [now symmetry|exact E|]. intros ->. apply Z. eauto.
Qed.
Lemma show_N_zero n : show_N n = lit "0" \/ ~ exists r, show_N n = chr "0" :: r.
Proof.
  unfold show_N. destruct n as [|p]; [left; reflexivity|right]. intros [r E].
  pose proof (Unsigned.of_to (Npos p)) as O. pose proof (Unsigned.to_of (N.to_uint (Npos p))) as T. rewrite O in T.
  destruct (N.to_uint (Npos p)) as [|u|u|u|u|u|u|u|u|u|u]; cbn in E; try discriminate.
  rewrite unorm_D0 in T. pose proof (nb_digits_unorm u) as L.
  destruct u as [|u|u|u|u|u|u|u|u|u|u]; try (specialize (L ltac:(discriminate)); rewrite <- T in L; cbn in L; lia).
Qed.
Lemma shortest_show z s : shortest z s <-> s = show_Z z.
Proof.
  unfold shortest, show_Z. split.
  - intros (ds & D & Z0 & [(G & -> & E)|(G & -> & E)]); pose proof (show_N_unique ds D Z0) as U.
    + destruct (Z.ltb_spec z 0); [lia|]. rewrite U. f_equal. lia.
    + destruct (Z.ltb_spec z 0); [|lia]. rewrite U. do 2 f_equal. lia.
  - intros ->. destruct (Z.ltb_spec z 0).
    + exists (show_N (Z.abs_N z)). pose proof (proj1 (parse_digits_spec _ _) (parse_show_N (Z.abs_N z))) as [D V].
      split; [exact D|]. split; [apply show_N_zero|]. right. rewrite <- V. repeat split; lia.
    + exists (show_N (Z.to_N z)). pose proof (proj1 (parse_digits_spec _ _) (parse_show_N (Z.to_N z))) as [D V].
      split; [exact D|]. split; [apply show_N_zero|]. left. rewrite <- V. repeat split; lia.
Qed.
Lemma show_N_Z n : show_N n = show_Z (Z.of_N n).
Proof. unfold show_Z. destruct (Z.ltb_spec (Z.of_N n) 0); [lia|]. now rewrite N2Z.id. Qed.

(** ---- text ---- *)
Lemma unquoted_plain s : needs_quoting s = false <-> plain_text s.
Proof.
  unfold needs_quoting. rewrite orb_false_iff, negb_false_iff. unfold can_be_unquoted_in_block, plain_text.
  destruct s as [|c s]; [split; [intros [? _]; discriminate|intros [N _]; now destruct N]|].
  set (t := c :: s).
  assert (S0 : starts_with SP t = false <-> forall r, t <> SP :: r).
  { cbn. rewrite ceqb_neq. split; [intros N r E; now injection E as -> _|intros N ->; now apply (N s)]. }
  assert (S1 : ends_with SP t = false <-> forall r, t <> r ++ [SP]).
  { destruct (ends_with SP t) eqn:E; [apply ends_with_spec in E as [r E]; split; [easy|intros N; now destruct (N r)]|].
    split; [intros _ r Q|easy]. assert (ends_with SP t = true) by (apply ends_with_spec; eauto). congruence. }
  assert (S2 : has_sub (lit ": ") t = false <-> forall a b, t <> a ++ lit ": " ++ b).
  { destruct (has_sub (lit ": ") t) eqn:E; [apply has_sub_spec in E as (a & b & E); split; [easy|intros N; now destruct (N a b)]|].
    split; [intros _ a b Q|easy]. assert (has_sub (lit ": ") t = true) by (apply has_sub_spec; eauto). congruence. }
  assert (S3 : parse_f64_ok t = false <-> ~ float_literal t).
  { rewrite <- float_spec. now destruct (parse_f64_ok t). }
  assert (S4 : (match parse_i64 t with Some _ => true | None => false end) = false <-> forall z, fits I64 z -> ~ decimal_text I64 t z).
  { assert (P : forall z, parse_i64 t = Some z <-> decimal_text I64 t z /\ (i64_min <= z <= i64_max)%Z).
    { intros z. unfold parse_i64. exact (parse_int_spec I64 _ _ _ _). }
    destruct (parse_i64 t) as [z|] eqn:E.
    - split; [easy|]. intros N. destruct (proj1 (P z) eq_refl) as [D [L U]]. exfalso. apply (N z); [|exact D].
      unfold i64_min, i64_max in *. cbn. lia.
    - split; [intros _ z F D|easy]. assert (Some z = None); [|discriminate].
      symmetry. apply P. split; [exact D|]. unfold i64_min, i64_max. cbn in F. lia. }
  assert (S5 : (seqb t (lit "true") || seqb t (lit "false") || seqb t (lit "null") || seqb t (lit "~")) = false <->
               ~ In t [lit "true"; lit "false"; lit "null"; lit "~"]).
  { rewrite !orb_false_iff, !seqb_neq. cbn [In]. split; [intros (((A & B) & C) & D) [E|[E|[E|[E|[]]]]]; congruence|].
    intros N. repeat split; intros E; apply N; rewrite E; tauto. }
  assert (S6 : has_char NL t = false -> has_char CR t = false -> has_char (chr "#") t = false -> inline_breaking_chars t = false ->
               forall d, In d (lit ",[]{}""#>|" ++ [NL; CR]) -> ~ In d t).
  { intros A B C D d I. unfold inline_breaking_chars in D. rewrite !orb_false_iff, !has_char_false in D. rewrite has_char_false in A, B, C.
    change (lit ",[]{}""#>|" ++ [NL; CR]) with [chr ","; chr "["; chr "]"; chr "{"; chr "}"; DQUOTE; chr "#"; chr ">"; chr "|"; NL; CR] in I.
    cbn [In] in I. decompose [or] I; subst; tauto. }
  assert (S7 : (forall d, In d (lit ",[]{}""#>|" ++ [NL; CR]) -> ~ In d t) ->
               has_char NL t = false /\ has_char CR t = false /\ has_char (chr "#") t = false /\ inline_breaking_chars t = false).
  { intros A. unfold inline_breaking_chars. rewrite !orb_false_iff, !has_char_false.
    change (lit ",[]{}""#>|" ++ [NL; CR]) with [chr ","; chr "["; chr "]"; chr "{"; chr "}"; DQUOTE; chr "#"; chr ">"; chr "|"; NL; CR] in A.
    repeat split; apply A; cbn [In]; tauto. }
  split.
  - intros [A B]. destruct (starts_with SP t || ends_with SP t) eqn:E1; [discriminate|]. apply orb_false_iff in E1 as [E1 E2].
    destruct (bad_first c) eqn:E3; [discriminate|].
    destruct (has_sub (lit ": ") t || has_char (chr "#") t || has_char NL t || has_char CR t) eqn:E4; [discriminate|].
    rewrite !orb_false_iff in E4. destruct E4 as (((E4 & E5) & E6) & E7).
    rewrite !andb_true_iff, !negb_true_iff in A. destruct A as ((A1 & A2) & A3).
    split; [discriminate|]. split; [now apply S0|]. split; [now apply S1|].
    split. { intros r E. injection E as -> _. unfold bad_first in E3. rewrite has_char_false in E3. apply E3. vm_compute. tauto. }
    split; [now apply S2|]. split; [now apply S6|]. split; [now apply S4|]. split; [now apply S3|now apply S5].
  - intros (_ & A & B & C & D & E & F & G & H). apply S7 in E as (E1 & E2 & E3 & E4). apply S0 in A. apply S1 in B. apply S2 in D.
    apply S4 in F. apply S3 in G. apply S5 in H. rewrite A, B, D, E1, E2, E3, F, G, H. split; [|exact E4].
    destruct (bad_first c) eqn:E5; [|reflexivity]. exfalso. unfold bad_first in E5. rewrite has_char_true in E5.
    unfold inline_breaking_chars in E4. rewrite !orb_false_iff, !has_char_false in E4. rewrite has_char_false in E3.
    change (lit "[]{}""'#>|") with [chr "["; chr "]"; chr "{"; chr "}"; DQUOTE; QUOTE; chr "#"; chr ">"; chr "|"] in E5.
    cbn [In] in E5. assert (I : In c t) by (left; reflexivity).
    decompose [or] E5; try match goal with H : _ = c |- _ => rewrite <- H in I; tauto end; try tauto. apply (C s). unfold t. congruence.
Qed.

Section PiecesFacts.
  Context {P : Type} (text : str -> P) (special : char -> option P).
  Definition flush (buf : str) : list P := if is_nil buf then [] else [text buf].
  (** The loop of the serializer. *)
  Fixpoint cut (s buf : str) : list P :=
    match s with
    | [] => flush buf
    | c :: s' => match special c with
                 | Some p => flush buf ++ p :: cut s' []
                 | None => cut s' (buf ++ [c])
                 end
    end.
  Lemma cut_text t s buf : (forall c, In c t -> special c = None) -> cut (t ++ s) buf = cut s (buf ++ t).
  Proof.
    revert buf; induction t as [|c t IH]; intros buf N; cbn; [now rewrite app_nil_r|].
    rewrite (N c) by (now left). rewrite IH by (intros d Hd; apply N; now right). now rewrite <- app_assoc.
  Qed.
  Lemma pieces_cut s ps : pieces text special s ps -> cut s [] = ps.
  Proof.
    induction 1 as [|t N A|c p rest ps E _ IH|t c p rest ps N A E _ IH]; cbn.
    - reflexivity.
    - rewrite <- (app_nil_r t), cut_text by assumption. cbn. unfold flush. rewrite app_nil_r. now destruct t.
    - now rewrite E, IH.
    - rewrite cut_text by assumption. cbn. rewrite E, IH. unfold flush. now destruct t.
  Qed.
  Lemma cut_pieces s : forall buf, (forall c, In c buf -> special c = None) -> pieces text special (buf ++ s) (cut s buf).
  Proof.
    induction s as [|c s IH]; intros buf N; cbn.
    - rewrite app_nil_r. unfold flush. destruct buf as [|b buf]; cbn [is_nil]; [constructor|]. now constructor.
    - destruct (special c) as [p|] eqn:E.
      + specialize (IH [] ltac:(intros ? [])). unfold flush. destruct buf as [|b buf]; cbn [is_nil app]; [now constructor|].
        now apply (PcNext text special (b :: buf)).
      + change (c :: s) with ([c] ++ s). rewrite app_assoc. apply IH. intros d Hd. apply in_app_iff in Hd as [Hd|[<-|[]]]; auto.
  Qed.
  Lemma pieces_iff s ps : pieces text special s ps <-> ps = cut s [].
  Proof. split; [intros H; now apply pieces_cut in H|intros ->; now apply (cut_pieces s [])]. Qed.
End PiecesFacts.

Lemma dq_cut esc s : forall parts buf, let '(p, b) := dq_loop esc s parts buf in
  (if is_nil b then p else p ++ [DQ_Str b]) = parts ++ cut DQ_Str (fun c => option_map DQ_Esc (esc c)) s buf.
Proof.
  induction s as [|c s IH]; intros parts buf; cbn.
  - unfold flush. destruct (is_nil buf); [now rewrite app_nil_r|reflexivity].
  - destruct (esc c) as [e|]; cbn; [|apply IH].
    specialize (IH ((if is_nil buf then parts else parts ++ [DQ_Str buf]) ++ [DQ_Esc e]) []).
    destruct (dq_loop esc s _ []) as [p b]. rewrite IH. unfold flush. destruct (is_nil buf); cbn; now rewrite <- !app_assoc.
Qed.
Lemma dq_parts_cut esc s : dq_parts esc s = cut DQ_Str (fun c => option_map DQ_Esc (esc c)) s [].
Proof. unfold dq_parts. pose proof (dq_cut esc s [] []) as H. destruct (dq_loop esc s [] []) as [p b]. exact H. Qed.
Lemma sq_cut s : forall parts buf, let '(p, b) := sq_loop s parts buf in
  (if is_nil b then p else p ++ [SQ_Str b]) = parts ++ cut SQ_Str (one_of_chars [(QUOTE, SQ_Quote)]) s buf.
Proof.
  induction s as [|c s IH]; intros parts buf; cbn [sq_loop cut].
  - unfold flush. destruct (is_nil buf); [now rewrite app_nil_r|reflexivity].
  - cbn [one_of_chars]. destruct (ceqb c QUOTE); [|apply IH].
    specialize (IH ((if is_nil buf then parts else parts ++ [SQ_Str buf]) ++ [SQ_Quote]) []).
    destruct (sq_loop s _ []) as [p b]. rewrite IH. unfold flush. destruct (is_nil buf); cbn; now rewrite <- !app_assoc.
Qed.
Lemma sq_parts_cut s : str_to_single_quoted_parts s = cut SQ_Str (one_of_chars [(QUOTE, SQ_Quote)]) s [].
Proof. unfold str_to_single_quoted_parts. pose proof (sq_cut s [] []) as H. destruct (sq_loop s [] []) as [p b]. exact H. Qed.
Lemma cut_ext {P} (text : str -> P) f g s : (forall c, f c = g c) -> forall buf, cut text f s buf = cut text g s buf.
Proof. intros E. induction s as [|c s IH]; intros buf; cbn; [reflexivity|]. rewrite E. destruct (g c); [now rewrite IH|apply IH]. Qed.

Lemma line_b s : (negb (has_char NL s) && negb (has_char CR s)) = true <-> one_line s.
Proof. unfold one_line. rewrite andb_true_iff, !negb_true_iff, !has_char_false. reflexivity. Qed.
Lemma apo_b s : (has_char QUOTE s && negb (has_char DQUOTE s)) = true <-> apostrophes s.
Proof. unfold apostrophes. rewrite andb_true_iff, negb_true_iff, has_char_false, has_char_true. reflexivity. Qed.
Lemma plain_line s : plain_text s -> one_line s.
Proof. intros (_ & _ & _ & _ & _ & H & _). split; apply H; vm_compute; tauto. Qed.
Lemma bool_iff b P : (b = true <-> P) -> (b = true /\ P) \/ (b = false /\ ~ P).
Proof. destruct b; intros [A B]; [left; auto|right; split; [reflexivity|intros H; now apply B in H]]. Qed.
Lemma plain_b s : (negb (needs_quoting s)) = true <-> plain_text s.
Proof. rewrite negb_true_iff. apply unquoted_plain. Qed.

Lemma text_iff s y : y = str_to_yaml s <-> text_node s y.
Proof.
  unfold str_to_yaml, text_node, single_quoted.
  destruct (bool_iff _ _ (plain_b s)) as [[-> A]|[-> A]].
  { split; [intros ->; left; auto|]. pose proof (plain_line s A). intros [[_ E]|[[[? _] _]|[[? _]|[? _]]]]; tauto. }
  destruct (bool_iff _ _ (line_b s)) as [[-> B]|[-> B]].
  - destruct (bool_iff _ _ (apo_b s)) as [[-> C]|[-> C]].
    + assert (D : dq_parts esc_backslash s = cut DQ_Str (one_of_chars [(BACKSLASH, DQ_Esc E_Backslash)]) s []).
      { rewrite dq_parts_cut. apply cut_ext. intros c. unfold esc_backslash. cbn. now destruct (ceqb c BACKSLASH). }
      rewrite D. split.
      * intros ->. right. right. left. repeat split; try assumption; try apply B; try apply C. eexists. split; [reflexivity|]. now apply pieces_iff.
      * intros [[? _]|[[(_ & _ & ?) _]|[(_ & _ & _ & ps & -> & Q)|[? _]]]]; try tauto. apply pieces_iff in Q. now rewrite Q.
    + rewrite sq_parts_cut. split.
      * intros ->. right. left. split; [auto|]. eexists. split; [reflexivity|]. now apply pieces_iff.
      * intros [[? _]|[[_ (ps & -> & Q)]|[(_ & _ & ? & _)|[? _]]]]; try tauto. apply pieces_iff in Q. now rewrite Q.
  - match goal with |- _ <-> _ \/ _ \/ _ \/ _ /\ (exists ps, _ /\ pieces _ ?f _ _) => set (g := f) end.
    assert (D : dq_parts esc_all s = cut DQ_Str g s []).
    { rewrite dq_parts_cut. apply cut_ext. intros c. unfold esc_all, g. cbn.
      repeat (destruct (ceqb c _); [reflexivity|]). reflexivity. }
    rewrite D. split.
    + intros ->. right. right. right. split; [exact B|]. eexists. split; [reflexivity|]. now apply pieces_iff.
    + intros [[? _]|[[(_ & ? & _) _]|[(_ & ? & _)|[_ (ps & -> & Q)]]]]; try tauto. apply pieces_iff in Q. now rewrite Q.
Qed.

(** ---- nodes ---- *)
Lemma single_b s : (exists ps, str_to_yaml s = SingleQ ps) <-> single_quoted s.
Proof.
  split.
  - intros [ps E]. symmetry in E. apply text_iff in E as [[_ E]|[[H _]|[(_ & _ & _ & p & E & _)|[_ (p & E & _)]]]]; try discriminate. exact H.
  - intros H. exists (cut SQ_Str (one_of_chars [(QUOTE, SQ_Quote)]) s []). symmetry. apply text_iff. right. left.
    split; [exact H|]. eexists. split; [reflexivity|]. now apply pieces_iff.
Qed.
Lemma text_key s k : yaml_to_key_string (str_to_yaml s) = Some k <-> k = s /\ ~ single_quoted s.
Proof.
  rewrite <- single_b. pose proof (str_to_yaml_value s) as V. assert (B : forall ls c, str_to_yaml s <> Folded ls c /\ str_to_yaml s <> Literal ls c).
  { intros ls c. unfold str_to_yaml. repeat match goal with |- context [if ?b then _ else _] => destruct b end; split; discriminate. }
  destruct (str_to_yaml s) as [| | | |ps|ps|t|ls c|ls c|]; try discriminate; try (destruct (B ls c) as [B1 B2]; congruence); cbn in *.
  - split; [discriminate|]. intros [_ N]. destruct N. eauto.
  - injection V as V. rewrite V. split; [intros E; injection E as <-; split; [reflexivity|intros [? ?]; discriminate]|intros [-> _]; reflexivity].
  - injection V as V. rewrite V. split; [intros E; injection E as <-; split; [reflexivity|intros [? ?]; discriminate]|intros [-> _]; reflexivity].
Qed.
Lemma key_iff k s : (exists y, ser k = Some y /\ yaml_to_key_string y = Some s) <-> key_text k s.
Proof.
  assert (O : forall (o : option yaml) f, (forall y : yaml, yaml_to_key_string (f y) = None) ->
    ~ exists y, option_map f o = Some y /\ yaml_to_key_string y = Some s).
  { intros o f H (y & E & Q). destruct o; [|discriminate]. injection E as <-. rewrite H in Q. discriminate. }
  assert (O' : forall A (o : option A) (f : A -> yaml), (forall y, yaml_to_key_string (f y) = None) ->
    ~ exists y, option_map f o = Some y /\ yaml_to_key_string y = Some s).
  { intros A o f H (y & E & Q). destruct o; [|discriminate]. injection E as <-. rewrite H in Q. discriminate. }
  assert (T : forall t, (exists y, Some (str_to_yaml t) = Some y /\ yaml_to_key_string y = Some s) <-> s = t /\ ~ single_quoted t).
  { intros t. rewrite <- text_key. split; [intros (y & E & Q); now injection E as <-|eauto]. }
  assert (U : forall t, (exists y, Some (Unquoted t) = Some y /\ yaml_to_key_string y = Some s) <-> s = t).
  { intros t. split; [intros (y & E & Q); injection E as <-; now injection Q as <-|intros ->; eauto]. }
  clear O. induction k using sval_ind'; cbn [ser key_text]; try apply T; try (rewrite U; now try destruct b); try assumption;
    try (split; [intros K; exfalso; revert K; apply O'; reflexivity|easy]).
  - rewrite U. symmetry. apply shortest_show.
  - split; [intros (y & E & Q); injection E as <-; discriminate|easy].
Qed.
Lemma seq_iff {A} (f : A -> option yaml) (W : A -> yaml -> Prop) l y : Forall (fun x => forall z, f x = Some z <-> W x z) l ->
  (option_map seq_yaml (opt_map f l) = Some y <-> exists es, y = Array es /\ all2 (fun v e => exists z, e = AElem (mkA None z) /\ W v z) l es).
Proof.
  intros F. pose proof (opt_map_all2 f W l F) as O. split.
  - destruct (opt_map f l) as [ys|]; [|discriminate]. intros E. injection E as <-. eexists. split; [reflexivity|].
    assert (all2 W l ys) as H by now apply O. clear - H. revert ys H; induction l as [|x l IH]; intros [|z ys] H; try easy.
    destruct H as [H1 H2]. split; [eexists; split; [reflexivity|exact H1]|]. now apply IH.
  - intros (es & -> & H).
    assert (exists ys, es = map (fun y => AElem (unaliased y)) ys /\ all2 W l ys) as (ys & -> & H').
    { clear O F. revert es H; induction l as [|x l IH]; intros [|e es] H; try easy; [exists []; easy|].
      destruct H as [(z & -> & H1) H2]. destruct (IH es H2) as (ys & -> & H3). exists (z :: ys). repeat split; assumption. }
    apply O in H'. now rewrite H'.
Qed.
Lemma map_iff {A} (f : A -> option (str * yaml)) (W : A -> str -> yaml -> Prop) l y :
  Forall (fun x => forall z, f x = Some z <-> W x (fst z) (snd z)) l ->
  (option_map map_yaml_of (opt_map f l) = Some y <->
   exists es, y = Hash es /\ all2 (fun v e => exists s z, e = HElem (mkHE s (mkA None z)) /\ W v s z) l es).
Proof.
  intros F. pose proof (opt_map_all2 f (fun x z => W x (fst z) (snd z)) l F) as O. split.
  - destruct (opt_map f l) as [ys|]; [|discriminate]. intros E. injection E as <-. eexists. split; [reflexivity|].
    pose proof (proj1 (O ys) eq_refl) as H. clear - H. revert ys H; induction l as [|x l IH]; intros [|z ys] H; try easy.
    destruct H as [H1 H2]. split; [do 2 eexists; split; [reflexivity|exact H1]|]. now apply IH.
  - intros (es & -> & H).
    assert (exists ys, es = map (fun kv => HElem (mkHE (fst kv) (unaliased (snd kv)))) ys /\ all2 (fun x z => W x (fst z) (snd z)) l ys)
      as (ys & -> & H').
    { clear O F. revert es H; induction l as [|x l IH]; intros [|e es] H; try easy; [exists []; easy|].
      destruct H as [(s & z & -> & H1) H2]. destruct (IH es H2) as (ys & -> & H3). exists ((s, z) :: ys). repeat split; assumption. }
    apply O in H'. now rewrite H'.
Qed.
Lemma all2_iff {A B} (P Q : A -> B -> Prop) l m : (forall x y, P x y <-> Q x y) -> (all2 P l m <-> all2 Q l m).
Proof. intros H. revert m; induction l as [|x l IH]; intros [|y m]; cbn; try tauto. now rewrite H, IH. Qed.
Lemma ex_array (P Q : list arraydata -> Prop) y : (forall es, P es <-> Q es) ->
  ((exists es, y = Array es /\ P es) <-> exists es, y = Array es /\ Q es).
Proof. intros H. split; intros (es & E & K); exists es; (split; [exact E|now apply H]). Qed.
Lemma ex_hash (P Q : list hashdata -> Prop) y : (forall es, P es <-> Q es) ->
  ((exists es, y = Hash es /\ P es) <-> exists es, y = Hash es /\ Q es).
Proof. intros H. split; intros (es & E & K); exists es; (split; [exact E|now apply H]). Qed.

Lemma struct_iff l y : Forall (fun kv : str * sval => forall y, ser (snd kv) = Some y <-> writes (snd kv) y) l ->
  (option_map map_yaml_of (opt_map (fun kv => match kv with (k, v) => option_map (fun y => (k, y)) (ser v) end) l) = Some y <->
   exists es, y = Hash es /\
     all2 (fun kv e => match kv with (k, v) => exists z, e = HElem (mkHE k (mkA None z)) /\ writes v z end) l es).
Proof.
  intros F. rewrite (map_iff _ (fun kv s z => s = fst kv /\ writes (snd kv) z)).
  - apply ex_hash. intros es. apply all2_iff. intros [k v] e. split.
    + intros (s & z & -> & -> & W). exists z. auto.
    + intros (z & -> & W). exists k, z. auto.
  - revert F. apply Forall_impl. intros [k v] H [s z]. cbn [fst snd] in *. rewrite <- H. destruct (ser v) as [w|]; cbn.
    + split; [intros E; injection E as <- <-; auto|intros [-> E]; congruence].
    + split; [discriminate|intros [_ E]; discriminate].
Qed.
Lemma tuple_iff l y : Forall (fun v => forall y, ser v = Some y <-> writes v y) l ->
  (option_map InlineArray (opt_map ser l) = Some y <-> exists es, y = InlineArray es /\ all2 (fun v e => writes v e) l es).
Proof.
  intros F. pose proof (opt_map_all2 ser writes l F) as O. split.
  - destruct (opt_map ser l) as [ys|]; [|discriminate]. intros E. injection E as <-. exists ys. split; [reflexivity|]. now apply O.
  - intros (es & -> & H). apply O in H. now rewrite H.
Qed.
Lemma some_iff (a b : yaml) : Some a = Some b <-> b = a.
Proof. split; intros E; congruence. Qed.

Lemma ser_iff v : forall y, ser v = Some y <-> writes v y.
Proof.
  induction v using sval_ind'; intros y; cbn [ser writes]; try (now apply struct_iff); try (now apply tuple_iff);
    try apply IHv; try (rewrite some_iff; try reflexivity; now apply text_iff).
  - rewrite some_iff. destruct b; reflexivity.
  - rewrite some_iff. split; [intros ->; eexists; split; [reflexivity|now apply shortest_show]|intros (s & -> & E)].
    apply shortest_show in E. now rewrite E.
  - rewrite some_iff. unfold seq_yaml. rewrite map_map. split.
    + intros ->. eexists. split; [reflexivity|]. induction l as [|b l IH]; [exact I|]. split; [|exact IH].
      eexists. split; [reflexivity|]. apply shortest_show. apply show_N_Z.
    + intros (es & -> & H). f_equal. revert es H; induction l as [|b l IH]; intros [|e es] H; try easy.
      destruct H as [(s & -> & E) H]. apply shortest_show in E. rewrite (IH es H). cbn. unfold unaliased. now rewrite show_N_Z, E.
  - now apply seq_iff.
  - rewrite (map_iff _ (fun kv s z => key_text (fst kv) s /\ writes (snd kv) z)).
    + apply ex_hash. intros es. apply all2_iff. intros [k v] e. cbn [fst snd]. split; intros (s & z & E & K & W); exists s, z; auto.
    + revert H. apply Forall_impl. intros [k v] [_ H] [s z]. cbn [fst snd] in *. rewrite <- H, <- key_iff.
      destruct (ser k) as [yk|].
      * split.
        -- destruct (yaml_to_key_string yk) as [ks|] eqn:K; [|discriminate]. destruct (ser v) as [w|]; [|discriminate].
           cbn. intros E. injection E as <- <-. eauto.
        -- intros [(w & E & K) V]. injection E as <-. now rewrite K, V.
      * split; [discriminate|intros [(w & E & _) _]; discriminate].
Qed.

(** ---- failures ---- *)
Lemma bad_key_iff k : bad_key k <-> forall s, ~ key_text k s.
Proof.
  assert (T : forall t, single_quoted t <-> forall s, ~ (s = t /\ ~ single_quoted t)).
  { intros t. split; [intros H s [_ N]; auto|]. intros H. destruct (str_to_yaml t) eqn:E.
    all: try (exfalso; apply (H t); split; [reflexivity|]; rewrite <- single_b; intros [qs Q]; congruence).
    apply single_b. eauto. }
  induction k using sval_ind'; cbn [bad_key key_text]; try apply T; try tauto; try (split; [easy|intros N; exfalso; now eapply N]).
  split; [easy|]. intros N. apply (N (show_Z z)). now apply shortest_show.
Qed.
Lemma any_none {A B} (f : A -> option B) (Q : A -> Prop) l : Forall (fun x => f x = None <-> Q x) l -> (opt_map f l = None <-> any Q l).
Proof.
  induction 1 as [|x l H _ IH]; cbn; [split; [discriminate|easy]|]. rewrite <- H, <- IH.
  destruct (f x); [|tauto]. destruct (opt_map f l); [split; [discriminate|intros [?|?]; discriminate]|tauto].
Qed.
Lemma map_none {A B} (g : A -> B) o : option_map g o = None <-> o = None.
Proof. destruct o; cbn; [split; discriminate|tauto]. Qed.
Lemma ser_none v : ser v = None <-> has_bad_key v.
Proof.
  induction v using sval_ind'; cbn [ser has_bad_key]; try (split; [discriminate|easy]); try assumption;
    rewrite map_none; try now apply any_none.
  - apply any_none. revert H. apply Forall_impl. intros [k v] [_ H]. cbn [snd] in H. rewrite bad_key_iff, <- H. split.
    + destruct (ser k) as [yk|] eqn:K.
      * destruct (yaml_to_key_string yk) as [ks|] eqn:S; [intros E; right; now apply map_none in E|]. intros _. left. intros s Q.
        apply key_iff in Q as (y & E & Q). congruence.
      * intros _. left. intros s Q. apply key_iff in Q as (y & E & _). congruence.
    + intros [N|N]; [|rewrite N; destruct (ser k) as [yk|]; [destruct (yaml_to_key_string yk)|]; reflexivity].
      destruct (ser k) as [yk|] eqn:K; [|reflexivity]. destruct (yaml_to_key_string yk) as [ks|] eqn:S; [|reflexivity].
      exfalso. apply (N ks). apply key_iff. eauto.
  - apply any_none. revert H. apply Forall_impl. intros [k v] H. cbn [snd] in H. now rewrite map_none.
  - apply any_none. revert H. apply Forall_impl. intros [k v] H. cbn [snd] in H. now rewrite map_none.
Qed.
