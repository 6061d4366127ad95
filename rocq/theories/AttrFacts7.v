(** Types with serde attributes: the untyped reader, untagged and tagged enums, files. *)
From Coq Require Import ZArith Lia.
From Verif Require Import Base Ast Strings Format Num Pretty Ser De Attr Spec_Strings StringsFacts Spec_Pretty PrettyFacts
  Spec_Serde SerdeFacts SerdeFacts2 Spec_Look LookFacts LookFacts2 LookFacts3 Spec_Typed TypedFacts TypedFacts2
  Spec_Attr AttrFacts AttrFacts2 AttrFacts3.
Import ListNotations.

(** ---- the untyped reader ---- *)

Fixpoint untyped (l : looks) : anyv :=
  match l with
  | LWord s => any_unquoted s
  | LText s => AnStr s
  | LMap es => AnMap (map (fun e => match e with (k, (_, l)) => (any_unquoted k, untyped l) end) es)
  | LSeq es => AnSeq (map (fun e => match e with (_, l) => untyped l end) es)
  | LRef _ => AnUnit
  end.
Lemma content_look w y : (forall s, untyped_word s = true -> w s = true) -> content y = untyped (look w y).
Proof.
  intros W. induction y as [l IH|l IH|l IH|l IH|ps|ps|s|ls ch|ls ch|s] using yaml_ind'; try reflexivity; cbn [look content untyped].
  - rewrite map_map. f_equal. induction IH as [|[k v] l E _ IHl]; [reflexivity|]. cbn in E |- *. now rewrite E, IHl.
  - f_equal. induction IH as [|[x|x|[k [al v]]] l E _ IHl]; [reflexivity|exact IHl|exact IHl|]. cbn in E |- *. now rewrite E, IHl.
  - rewrite map_map. f_equal. induction IH as [|v l E _ IHl]; [reflexivity|]. cbn in E |- *. now rewrite E, IHl.
  - f_equal. induction IH as [|[x|x|[al v]] l E _ IHl]; [reflexivity|exact IHl|exact IHl|]. cbn in E |- *. now rewrite E, IHl.
  - destruct (w s) eqn:E; [reflexivity|]. cbn [untyped]. apply plain_any. destruct (untyped_word s) eqn:U; [|reflexivity].
    rewrite (W s U) in E. discriminate.
Qed.

(** The entries and elements, whatever is registered. *)
Definition ents (y : yaml) : option (list (str * yaml)) :=
  match y with
  | InlineHash l => Some l
  | Hash l => Some (flat_map (fun d => match d with HElem (mkHE k (mkA _ v)) => [(k, v)] | _ => [] end) l)
  | _ => None
  end.
Definition elts (y : yaml) : option (list yaml) :=
  match y with
  | InlineArray l => Some l
  | Array l => Some (flat_map (fun d => match d with AElem (mkA _ v) => [v] | _ => [] end) l)
  | _ => None
  end.
Lemma hash_ents a l : fst (hash_entries a l) = flat_map (fun d => match d with HElem (mkHE k (mkA _ v)) => [(k, v)] | _ => [] end) l.
Proof.
  revert a. induction l as [|[c|c|[k [al v]]] l IH]; intros a; cbn [hash_entries flat_map app he_value he_key a_value];
    [reflexivity|apply IH|apply IH|]. specialize (IH (register a (mkA al v))).
  destruct (hash_entries (register a (mkA al v)) l). cbn [fst] in *. now rewrite IH.
Qed.
Lemma array_elts a l : fst (seq_values a l) = flat_map (fun d => match d with AElem (mkA _ v) => [v] | _ => [] end) l.
Proof.
  revert a. induction l as [|[c|c|[al v]] l IH]; intros a; cbn [seq_values flat_map app a_value]; [reflexivity|apply IH|apply IH|].
  specialize (IH (register a (mkA al v))). destruct (seq_values (register a (mkA al v)) l). cbn [fst] in *. now rewrite IH.
Qed.
Lemma read_map_ents y a : match ents y with Some es => exists a', read_map y a = Some (es, a') | None => read_map y a = None end.
Proof.
  destruct y; cbn [ents]; unfold read_map; cbn [map_items]; try reflexivity.
  - rewrite register_none_map, entries_id. eauto.
  - rewrite <- (hash_ents a). rewrite hash_entries_items. cbn [fst]. eauto.
Qed.
Lemma read_seq_elts y a : match elts y with Some es => exists a', read_seq y a = Some (es, a') | None => read_seq y a = None end.
Proof.
  destruct y; cbn [elts]; unfold read_seq; cbn [seq_items]; try reflexivity.
  - rewrite register_none, map_map. cbn [a_value]. rewrite map_id. eauto.
  - rewrite <- (array_elts a). rewrite seq_values_items. cbn [fst]. eauto.
Qed.
Lemma ents_facts y es : ents y = Some es -> no_refs y ->
  Forall (fun kv => no_refs (snd kv) /\ depth (snd kv) < depth y) es /\
  content y = AnMap (map (fun kv => (any_unquoted (fst kv), content (snd kv))) es) /\
  forall w, exists als, look w y = LMap als /\ map (fun e => (fst e, snd (snd e))) als = map (fun kv => (fst kv, look w (snd kv))) es.
Proof.
  destruct y as [l|l| | | | | | | |]; cbn [ents]; intros E; try discriminate; injection E as <-; cbn [no_refs depth content look]; intros N.
  - split; [|split].
    + apply Forall_forall. intros [k v] I. cbn [snd].
      induction l as [|[k' v'] l IH]; [destruct I|]. cbn [fold_right] in *. destruct I as [I|I].
      * injection I as <- <-. split; [tauto|lia].
      * destruct (IH (proj2 N) I) as [A B]. split; [exact A|lia].
    + f_equal. apply map_ext. now intros [k v].
    + intros w. eexists. split; [reflexivity|]. rewrite map_map. apply map_ext. now intros [k v].
  - split; [|split].
    + induction l as [|[c|c|[k [al v]]] l IH]; cbn [flat_map app fold_right] in *; [constructor|apply IH; tauto|apply IH; tauto|].
      constructor; [cbn [snd]; split; [tauto|lia]|]. eapply Forall_impl; [|apply IH; tauto]. cbn beta. intros ? [A B]. split; [exact A|lia].
    + f_equal. clear N. induction l as [|[c|c|[k [al v]]] l IH]; cbn; [reflexivity|exact IH|exact IH|]. now rewrite IH.
    + intros w. eexists. split; [reflexivity|]. clear N.
      induction l as [|[c|c|[k [al v]]] l IH]; cbn; [reflexivity|exact IH|exact IH|]. now rewrite IH.
Qed.
Lemma elts_facts y es : elts y = Some es -> no_refs y ->
  Forall (fun v => no_refs v /\ depth v < depth y) es /\ content y = AnSeq (map content es) /\
  forall w, exists als, look w y = LSeq als /\ map snd als = map (look w) es.
Proof.
  destruct y as [| |l|l| | | | | |]; cbn [elts]; intros E; try discriminate; injection E as <-; cbn [no_refs depth content look]; intros N.
  - split; [|split].
    + apply Forall_forall. intros v I. 
      induction l as [|v' l IH]; [destruct I|]. cbn [fold_right] in *. destruct I as [<-|I].
      * split; [tauto|lia].
      * destruct (IH (proj2 N) I) as [A B]. split; [exact A|lia].
    + reflexivity.
    + intros w. eexists. split; [reflexivity|]. now rewrite map_map.
  - split; [|split].
    + induction l as [|[c|c|[al v]] l IH]; cbn [flat_map app fold_right] in *; [constructor|apply IH; tauto|apply IH; tauto|].
      constructor; [split; [tauto|lia]|]. eapply Forall_impl; [|apply IH; tauto]. cbn beta. intros ? [A B]. split; [exact A|lia].
    + f_equal. clear N. induction l as [|[c|c|[al v]] l IH]; cbn; [reflexivity|exact IH|exact IH|]. now rewrite IH.
    + intros w. eexists. split; [reflexivity|]. clear N.
      induction l as [|[c|c|[al v]] l IH]; cbn; [reflexivity|exact IH|exact IH|]. now rewrite IH.
Qed.

Lemma any_done fuel : forall y a, no_refs y -> depth y <= fuel -> exists a', de_any fuel y a = Done (content y) a'.
Proof.
  induction fuel as [|n IH]; intros y a N D; [pose proof (depth_pos y); lia|].
  rewrite de_any_eq. pose proof (read_seq_elts y a) as S. pose proof (read_map_ents y a) as M.
  destruct (elts y) as [vs|] eqn:Ev.
  - destruct (elts_facts y vs Ev N) as (F & C & _). destruct S as [a1 S]. rewrite S, C.
    assert (G : forall a, exists a', any_elems n vs a = Done (map content vs) a').
    { clear - IH F D. induction F as [|v vs [Nv Dv] _ IHl]; intros a; cbn [any_elems map]; [eauto|].
      destruct (IH v a Nv ltac:(lia)) as [a1 ->]. destruct (IHl a1) as [a2 ->]. eauto. }
    destruct (G a1) as [a2 E]. rewrite E. destruct y; try discriminate; eauto.
  - destruct (ents y) as [es|] eqn:Ee.
    + destruct (ents_facts y es Ee N) as (F & C & _). destruct M as [a1 M]. rewrite S, M, C.
      assert (G : forall a, exists a', any_entries n es a = Done (map (fun kv => (any_unquoted (fst kv), content (snd kv))) es) a').
      { clear - IH F D. induction F as [|[k v] es [Nv Dv] _ IHl]; intros a; cbn [any_entries map fst snd] in *; [eauto|].
        destruct (IH v a Nv ltac:(lia)) as [a1 ->]. destruct (IHl a1) as [a2 ->]. eauto. }
      destruct (G a1) as [a2 E]. rewrite E. destruct y; try discriminate; eauto.
    + rewrite S, M. destruct y; cbn [ents elts] in *; try discriminate; try (eexists; reflexivity). destruct N.
Qed.

(** The special words. *)
Lemma word_value s c : untyped_word s = true -> (word_means s c <-> c = any_unquoted s).
Proof.
  intros U.
  assert (Fi : forall z, fits I64 z <-> (i64_min <= z <= i64_max)%Z) by (intros z; unfold fits, i64_min, i64_max; lia).
  assert (Fu : forall z, fits U64 z <-> (0 <= z <= u64_max)%Z) by (intros z; unfold fits, u64_max; lia).
  pose proof (fun z => parse_int_spec I64 i64_min i64_max s z) as Pi. change (parse_int _ i64_min i64_max s) with (parse_i64 s) in Pi.
  pose proof (fun z => parse_int_spec U64 0%Z u64_max s z) as Pu. change (parse_int _ 0%Z u64_max s) with (parse_u64 s) in Pu.
  assert (W : existsb (seqb s) (map lit ["true"; "false"; "~"; "null"; "Null"; "NULL"]%string) = true ->
    (word_means s c <-> c = any_unquoted s)).
  { intros I. apply existsb_exists in I as (x & I & E). apply seqb_eq in E. subst x. cbn [map In] in I.
    assert (Nd : forall k z, ~ decimal_text k s z).
    { intros k z (ds & [D1 D2] & X).
      assert (Hd : forall c s', ds = c :: s' -> (48 <= c <= 57)%N) by (intros c' s' ->; apply D2; now left).
      destruct ds as [|d ds]; [congruence|]. specialize (Hd _ _ eq_refl). clear D1 D2 Pi Pu Fi Fu U.
      repeat (destruct I as [<-|I]; [destruct X as [[[X|X] _]|(_ & X & _)]; injection X; intros; subst; vm_compute in Hd; intuition congruence|]).
      destruct I. }
    assert (Nf : ~ float_literal s).
    { intros F. apply float_spec in F. clear - I F. repeat (destruct I as [<-|I]; [vm_compute in F; discriminate|]). destruct I. }
    clear Pi Pu Fi Fu U. split.
      - intros [[X ->]|[[-> ->]|[[-> ->]|[(z & X & _)|[(z & X & _)|(X & _)]]]]]; try (exfalso; exact (Nd _ _ X)); try contradiction; try reflexivity.
        cbn [In] in X. repeat (destruct X as [<-|X]; [reflexivity|]). destruct X.
      - intros ->. unfold word_means. cbn [In].
        repeat (destruct I as [<-|I];
                [first [left; split; [auto 6|reflexivity]|right; left; split; reflexivity|right; right; left; split; reflexivity]|]).
        destruct I. }
  destruct (existsb _ _) eqn:X in W; [now apply W|]. clear W. unfold untyped_word in U. rewrite X in U. cbn [orb] in U.
  cbn [map existsb] in X. rewrite !orb_false_iff in X. destruct X as (E1 & E2 & E3 & E4 & E5 & E6 & _).
  assert (Any : any_unquoted s = match parse_i64 s with Some z => AnI64 z | None => match parse_u64 s with Some z => AnU64 z | None => AnF64 s end end).
  { unfold any_unquoted, is_null_word. rewrite E1, E2, E3, E4, E5, E6. cbn [orb]. now rewrite U. }
  rewrite Any. apply float_spec in U.
  assert (Ne : forall w, seqb s w = false -> s <> w) by (intros w E ->; rewrite seqb_refl in E; discriminate).
  apply Ne in E1, E2, E3, E4, E5, E6.
  assert (Dec : forall z, decimal_text I64 s z -> decimal_text U64 s z \/ (z <= 0)%Z).
  { intros z (ds & D & [Y|(_ & Y & ->)]); [left; exists ds; tauto|right; pose proof (N2Z.is_nonneg (decimal_value ds)); lia]. }
  assert (Inj : forall z z', decimal_text I64 s z -> decimal_text I64 s z' -> z = z').
  { intros z z' A B. pose proof (parse_int_spec I64 (Z.min z z') (Z.max z z') s z) as P1.
    pose proof (parse_int_spec I64 (Z.min z z') (Z.max z z') s z') as P2.
    assert (B1 : (Z.min z z' <= z <= Z.max z z')%Z) by (clear; lia). assert (B2 : (Z.min z z' <= z' <= Z.max z z')%Z) by (clear; lia).
    pose proof (proj2 P1 (conj A B1)) as Q1. pose proof (proj2 P2 (conj B B2)) as Q2. congruence. }
  assert (Up : forall z, decimal_text U64 s z -> decimal_text I64 s z).
  { intros z (ds & D & [Y|(Sg & _)]); [exists ds; tauto|]. unfold signed_kind in Sg. cbn in Sg. intuition discriminate. }
  destruct (parse_i64 s) as [z|] eqn:Ei.
  - destruct (proj1 (Pi z) eq_refl) as [Dz Fz]. split.
    + intros [[Y ->]|[[Y ->]|[[Y ->]|[(z' & Y & F & ->)|[(z' & Y & F & F' & ->)|(Y & F & ->)]]]]]; try congruence.
      * cbn [In] in Y. intuition congruence.
      * f_equal. eauto.
      * exfalso. apply F', Fi. now rewrite (Inj _ _ (Up _ Y) Dz).
      * exfalso. apply (proj1 (F z Dz)). now apply Fi.
    + intros ->. unfold word_means. right; right; right; left. exists z. rewrite Fi. auto.
  - assert (Ni : forall z, decimal_text I64 s z -> ~ fits I64 z).
    { intros z D F. apply Fi in F. pose proof (proj2 (Pi z) (conj D F)). discriminate. }
    destruct (parse_u64 s) as [z|] eqn:Eu.
    + destruct (proj1 (Pu z) eq_refl) as [Dz Fz]. split.
      * intros [[Y ->]|[[Y ->]|[[Y ->]|[(z' & Y & F & ->)|[(z' & Y & F & F' & ->)|(Y & F & ->)]]]]]; try congruence.
        -- cbn [In] in Y. intuition congruence.
        -- exfalso. exact (Ni _ Y F).
        -- f_equal. eauto.
        -- exfalso. apply (proj2 (F z (Up _ Dz))). now apply Fu.
      * intros ->. unfold word_means. right; right; right; right; left. exists z. rewrite Fu. split; [exact Dz|]. split; [exact Fz|].
        split; [apply Ni; auto|reflexivity].
    + assert (Nu : forall z, decimal_text U64 s z -> ~ fits U64 z).
      { intros z D F. apply Fu in F. pose proof (proj2 (Pu z) (conj D F)). discriminate. }
      split.
      * intros [[Y ->]|[[Y ->]|[[Y ->]|[(z' & Y & F & ->)|[(z' & Y & F & F' & ->)|(Y & F & ->)]]]]]; try congruence.
        -- cbn [In] in Y. intuition congruence.
        -- exfalso. exact (Ni _ Y F).
        -- exfalso. exact (Nu _ Y F).
      * intros ->. unfold word_means. do 5 right. split; [exact U|]. split; [|reflexivity].
        intros z D. split; [now apply Ni|]. intros F. destruct (Dec z D) as [D'|Z0]; [exact (Nu z D' F)|].
        apply (Ni z D). apply Fi. apply Fu in F. unfold i64_min, i64_max. lia.
Qed.

Lemma key_value k c : key_means k c <-> c = any_unquoted k.
Proof.
  unfold key_means. destruct (untyped_word k) eqn:U; [now apply word_value|]. now rewrite (plain_any k U).
Qed.
Lemma all2_fun {A B} (f : A -> B) (P : A -> B -> Prop) l m : (forall x y, In x l -> (P x y <-> y = f x)) -> (all2 P l m <-> m = map f l).
Proof.
  revert m. induction l as [|x l IH]; intros [|y m] H; cbn; try (split; [reflexivity|easy]); try (split; easy).
  rewrite (H x y) by now left. rewrite (IH m) by (intros; apply H; now right). split; [intros [-> ->]; reflexivity|].
  intros E. injection E as -> ->. now split.
Qed.
Lemma means_content n : forall y c, depth y <= n -> no_refs y -> (any_means (look untyped_word y) c <-> c = content y).
Proof.
  induction n as [|n IH]; intros y c D N; [pose proof (depth_pos y); lia|].
  destruct (ents y) as [es|] eqn:Ee; [|destruct (elts y) as [vs|] eqn:Ev].
  - destruct (ents_facts y es Ee N) as (F & -> & L). destruct (L untyped_word) as (als & -> & M). cbn [any_means].
    assert (G : forall cs, all2 (fun e kc => match e with (k, (_, l)) => key_means k (fst kc) /\ any_means l (snd kc) end) als cs <->
                           cs = map (fun kv => (any_unquoted (fst kv), content (snd kv))) es).
    { clear - IH F M D. revert als M. induction F as [|[k v] es [Nv Dv] _ IHl]; intros [|[k' [al l]] als] M cs; cbn [map fst snd] in *; try discriminate.
      - destruct cs; cbn; split; easy.
      - injection M as -> -> M. destruct cs as [|[c1 c2] cs]; cbn [all2 fst snd]; [split; easy|].
        rewrite (IHl als M cs), key_value, IH by (assumption || lia). split; [intros [[-> ->] ->]; reflexivity|].
        intros E. injection E as -> -> ->. auto. }
    split; [intros (cs & -> & X); apply G in X; now subst|intros ->; eexists; split; [reflexivity|]; now apply G].
  - destruct (elts_facts y vs Ev N) as (F & -> & L). destruct (L untyped_word) as (als & -> & M). cbn [any_means].
    assert (G : forall cs, all2 (fun e c => match e with (_, l) => any_means l c end) als cs <-> cs = map content vs).
    { clear - IH F M D. revert als M. induction F as [|v vs [Nv Dv] _ IHl]; intros [|[al l] als] M cs; cbn [map fst snd] in *; try discriminate.
      - destruct cs; cbn; split; easy.
      - injection M as -> M. destruct cs as [|c1 cs]; cbn [all2]; [split; easy|].
        rewrite (IHl als M cs), IH by (assumption || lia). split; [intros [-> ->]; reflexivity|].
        intros E. injection E as -> ->. auto. }
    split; [intros (cs & -> & X); apply G in X; now subst|intros ->; eexists; split; [reflexivity|]; now apply G].
  - destruct y; cbn [ents elts] in *; try discriminate; try reflexivity; [|destruct N].
    cbn [look content]. destruct (untyped_word s) eqn:U; cbn [any_means]; [now apply word_value|]. now rewrite (plain_any s U).
Qed.
Lemma any_reads fuel y a c : no_refs y -> depth y <= fuel ->
  ((exists a', de_any fuel y a = Done c a') <-> any_means (look untyped_word y) c).
Proof.
  intros N D. rewrite (means_content fuel) by assumption. destruct (any_done fuel y a N D) as [a' E]. rewrite E.
  split; [intros [b X]; congruence|intros ->; eauto].
Qed.

(** ---- untagged ---- *)

Lemma first_app {A B} (f : A -> option B) l m : first_of f (l ++ m) = match first_of f l with Some x => Some x | None => first_of f m end.
Proof. induction l as [|x l IH]; cbn; [reflexivity|]. now destruct (f x). Qed.
Lemma untagged_app fuel vs ws y :
  read_yaml fuel (XUntagged (vs ++ ws)) y =
  match read_yaml fuel (XUntagged vs) y with Failed => read_yaml fuel (XUntagged ws) y | r => r end.
Proof.
  unfold read_yaml. rewrite !read_untagged. cbn [r_node]. unfold rvars. rewrite map_app.
  destruct (de_any fuel y []) as [c a| |]; cbn [o_bind]; try reflexivity. rewrite first_app.
  now destruct (first_of (u_variant c) _).
Qed.

(** ---- the place of the tag ---- *)

Definition look_text (l : looks) : option str := match l with LWord s | LText s => Some s | _ => None end.
Fixpoint tag_look (tag : str) (sn : option str) (es : list (str * looks)) : option (option str * list (anyv * anyv)) :=
  match es with
  | [] => Some (sn, [])
  | (k, l) :: es' =>
      match any_unquoted k with
      | AnStr n =>
          if seqb n tag then
            match sn with
            | Some _ => None
            | None => match look_text l with Some s => tag_look tag (Some s) es' | None => None end
            end
          else option_map (fun r => (fst r, (AnStr n, untyped l) :: snd r)) (tag_look tag sn es')
      | k' => option_map (fun r => (fst r, (k', untyped l) :: snd r)) (tag_look tag sn es')
      end
  end.
Lemma text_look y a : no_refs y -> de_text y a = look_text (look any_word y).
Proof.
  intros N. unfold de_text. rewrite (resolved y a N). destruct y; try reflexivity. cbn [look yaml_to_string].
  now destruct (any_word s).
Qed.
Lemma any_word_up s : untyped_word s = true -> any_word s = true.
Proof. intros H. unfold any_word. rewrite H. apply orb_true_r. Qed.
Lemma n_tag_look n tag es : Forall (fun kv => no_refs (snd kv) /\ depth (snd kv) <= n) es -> forall sn a,
  outcome_of (n_tag (de_any n) tag sn es a) =
  match tag_look tag sn (map (fun kv => (fst kv, look any_word (snd kv))) es) with Some r => Done r [] | None => Failed end.
Proof.
  intros F. induction F as [|[k y] es [N D] _ IH]; intros sn a; cbn [n_tag map tag_look fst snd] in *; [reflexivity|].
  assert (G : forall k', outcome_of (o_bind (de_any n y a) (fun c a1 =>
                o_map (fun r => (fst r, (k', c) :: snd r)) (n_tag (de_any n) tag sn es a1))) =
    match option_map (fun r => (fst r, (k', untyped (look any_word y)) :: snd r))
            (tag_look tag sn (map (fun kv => (fst kv, look any_word (snd kv))) es)) with Some r => Done r [] | None => Failed end).
  { intros k'. destruct (any_done n y a N D) as [a1 ->]. cbn [o_bind]. specialize (IH sn a1).
    rewrite (content_look any_word y any_word_up).
    destruct (n_tag (de_any n) tag sn es a1); cbn [outcome_of o_map] in *;
      destruct (tag_look tag sn _); cbn [option_map]; try discriminate; try reflexivity. now injection IH as ->. }
  destruct (any_unquoted k); try apply G. destruct (seqb s tag); [|apply G].
  destruct sn; [reflexivity|]. rewrite (text_look y a N). destruct (look_text _); [apply IH|reflexivity].
Qed.

Lemma tag_twice tag s es : plain_name tag -> In tag (map fst es) -> tag_look tag (Some s) es = None.
Proof.
  intros P. induction es as [|[k l] es IH]; cbn [map In fst]; [easy|]. intros [->|I]; cbn [tag_look].
  - rewrite (plain_any tag P). now rewrite seqb_refl.
  - rewrite (IH I). destruct (any_unquoted k); try reflexivity. now destruct (seqb s0 tag).
Qed.
Lemma tag_moves tag l1 x l2 : plain_name tag ->
  tag_look tag None (l1 ++ (tag, x) :: l2) = tag_look tag None ((tag, x) :: l1 ++ l2).
Proof.
  intros P. induction l1 as [|[k l] l1 IH]; [reflexivity|]. cbn [app]. cbn [tag_look] in *. rewrite IH. clear IH.
  rewrite (plain_any tag P) in *. rewrite seqb_refl.
  assert (G : forall k', option_map (fun r : option str * list (anyv * anyv) => (fst r, (k', untyped l) :: snd r))
      match look_text x with Some s => tag_look tag (Some s) (l1 ++ l2) | None => None end =
    match look_text x with
    | Some s => option_map (fun r => (fst r, (k', untyped l) :: snd r)) (tag_look tag (Some s) (l1 ++ l2))
    | None => None end) by (intros k'; now destruct (look_text x)).
  destruct (any_unquoted k); try apply G. match goal with |- context [seqb ?n tag] => destruct (seqb n tag) end; [|apply G].
  destruct (look_text l); [|now destruct (look_text x)].
  rewrite tag_twice; [now destruct (look_text x)|exact P|]. rewrite map_app, in_app_iff. right. now left.
Qed.
Lemma n_tagged_look fuel tag y a : no_refs y -> depth y <= fuel -> forall es, look any_word y = LMap es ->
  outcome_of (n_tagged fuel tag y a) =
  match tag_look tag None (map (fun e => (fst e, snd (snd e))) es) with
  | Some (Some n, cs) => Done (n, AnMap cs) []
  | _ => Failed
  end.
Proof.
  destruct fuel as [|n]; [pose proof (depth_pos y); lia|]. intros N D es L.
  assert (Na : forall m, y <> Anchor m) by (intros m ->; discriminate).
  rewrite tagged_eq by exact Na. unfold tagged_at. pose proof (read_map_ents y a) as M.
  destruct (ents y) as [kvs|] eqn:Ee.
  2:{ destruct y; cbn [ents look] in *; try discriminate. destruct (any_word s); discriminate. }
  destruct (ents_facts y kvs Ee N) as (F & _ & L'). destruct (L' any_word) as (als & E & Q). rewrite E in L. injection L as ->.
  destruct M as [a1 ->]. rewrite Q.
  assert (F' : Forall (fun kv => no_refs (snd kv) /\ depth (snd kv) <= n) kvs).
  { eapply Forall_impl; [|exact F]. cbn beta. intros kv [A B]. split; [exact A|lia]. }
  pose proof (n_tag_look n tag kvs F' None a1) as G. unfold n_tagged_map.
  destruct (n_tag (de_any n) tag None kvs a1) as [[[m|] cs] a2| |]; cbn [outcome_of o_bind] in *;
    destruct (tag_look tag None _) as [[sn cs']|]; try discriminate; try reflexivity; injection G as <- <-; reflexivity.
Qed.
Lemma tag_anywhere fuel tag vs y z l1 x l2 : plain_name tag -> no_refs y -> no_refs z -> depth y <= fuel -> depth z <= fuel ->
  look any_word y = LMap (l1 ++ (tag, x) :: l2) -> look any_word z = LMap ((tag, x) :: l1 ++ l2) ->
  outcome_of (read_yaml fuel (XTagged tag vs) y) = outcome_of (read_yaml fuel (XTagged tag vs) z).
Proof.
  intros P Ny Nz Dy Dz Ly Lz. unfold read_yaml. rewrite read_tagged. cbn [r_node].
  pose proof (n_tagged_look fuel tag y [] Ny Dy _ Ly) as A. pose proof (n_tagged_look fuel tag z [] Nz Dz _ Lz) as B.
  rewrite map_app in A. cbn [map fst snd] in A, B. rewrite map_app in B. rewrite (tag_moves tag _ _ _ P) in A. rewrite <- B in A. clear B.
  destruct (n_tagged fuel tag y []), (n_tagged fuel tag z []); cbn [outcome_of o_bind] in *; try discriminate; try reflexivity.
  injection A as ->. match goal with |- context [t_variant ?v ?r] => now destruct (t_variant v r) end.
Qed.
