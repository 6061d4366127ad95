(** Proofs: what is serialized can be read by YAML readers. *)
From Coq Require Import ZArith Lia.
From Verif Require Import Base Ast Num Format Strings StringsFacts Ser Spec_Serde Spec_Look Spec_Typed Spec_Ser SerdeFacts ExactSerFacts
  Spec_Yaml12 Spec_Portable PortableFacts PlainFacts Spec_Core CoreFacts Spec_Export.
Import ListNotations.

(** ---- words ---- *)

Definition word_char (c : char) : Prop := ns_char c /\ ~ flow_indicator c /\ c <> chr ":" /\ c <> chr "#".
Lemma word_tail c p s : Forall word_char (p :: s) -> plain_tail c p s.
Proof.
  revert p. induction s as [|x s IH]; intros p H; inversion_clear H as [|? ? P T].
  - apply PEnd. now destruct P as [[_ P] _].
  - inversion T as [|? ? X _]; subst. destruct X as (A & B & C & D). apply PChar; auto. now split.
Qed.
Lemma word_plain c x s : Forall word_char (x :: s) -> ~ indicator x -> plain c (x :: s).
Proof. intros H N. apply Plain1; [|exact N|now apply word_tail]. inversion_clear H as [|? ? X _]. apply X. Qed.
Lemma dash_plain c x s : Forall word_char (x :: s) -> plain c (chr "-" :: x :: s).
Proof.
  intros H. apply Plain2; [cbn; auto| |].
  - inversion_clear H as [|? ? X _]. destruct X as (A & B & _). now split.
  - inversion H as [|? ? X T]; subst. destruct X as (A & B & C & D). apply PChar; auto; [now split|now apply word_tail].
Qed.
Definition word_charb (c : char) : bool := (ns_charb c && negb (flow_indicatorb c) && negb (ceqb c (chr ":")) && negb (ceqb c (chr "#")))%bool.
Lemma word_charb_spec c : word_charb c = true -> word_char c.
Proof.
  unfold word_charb. rewrite !andb_true_iff, !neg_spec, ns_charb_spec. intros [[[A B] C] D]. split; [exact A|].
  apply (negb_not _ _ (flow_indicatorb_spec c)) in B. auto.
Qed.
Lemma digit_word c : (48 <= c <= 57)%N -> word_char c /\ ~ indicator c.
Proof.
  intros H. assert (E : In c (lit "0123456789")).
  { assert (c = 48 \/ c = 49 \/ c = 50 \/ c = 51 \/ c = 52 \/ c = 53 \/ c = 54 \/ c = 55 \/ c = 56 \/ c = 57)%N by lia. cbn. intuition. }
  cbn in E. repeat (destruct E as [<-|E]; [split; [apply word_charb_spec; reflexivity|]; intros I; apply indicatorb_spec in I; discriminate I|]). destruct E.
Qed.
Lemma digits_word ds : all_digits ds -> Forall word_char ds.
Proof. intros H. apply Forall_forall. intros c I. now apply digit_word, H. Qed.
Lemma number_plain c sg ds r : sg = [] \/ sg = lit "-" -> digits ds -> Forall word_char r -> plain c (sg ++ ds ++ r).
Proof.
  intros S [N D] R. destruct ds as [|x ds]; [easy|]. assert (W : Forall word_char ((x :: ds) ++ r)) by (apply Forall_app; split; [now apply digits_word|exact R]).
  destruct S as [->| ->]; [apply word_plain; [exact W|]|now apply dash_plain]. apply digit_word, D. now left.
Qed.
Lemma shortest_plain c z s : shortest z s -> plain c s.
Proof.
  intros (ds & D & _ & [(_ & -> & _)|(_ & -> & _)]).
  - rewrite <- (app_nil_r ds). apply (number_plain c []); auto.
  - change (chr "-" :: ds) with (lit "-" ++ ds). rewrite <- (app_nil_r ds). apply number_plain; auto.
Qed.
Lemma shortest_core z s : shortest z s -> core s (MInt z).
Proof. intros H. apply shortest_show in H. subst. apply show_core. Qed.
Lemma finite_plain c x : finite x -> plain c x.
Proof.
  intros [[->|[->|[->|(sg & ds & fr & -> & S & D & F)]]] N]; try (destruct N; cbn; auto; fail).
  apply number_plain; auto. destruct F as [->|(fs & -> & [_ F])]; [constructor|]. constructor; [apply word_charb_spec; reflexivity|now apply digits_word].
Qed.
Lemma finite_means x : finite x -> core x (MFloat x) \/ exists z, base10 x z /\ core x (MInt z).
Proof.
  intros F. destruct (finite_core x F) as [H|(z & H)]; [now left|]. right. exists z. split; [|exact H].
  destruct F as [[->|[->|[->|(sg & ds & fr & E & S & D & F)]]] N]; try (destruct N; cbn; auto; fail).
  inversion H as [| | |? ? [B|B]| | | |]; subst; [exact B|].
  exfalso. destruct (based_start _ _ B) as (a & r & Q & A). destruct D as [Nd D]. destruct ds as [|d ds]; [easy|].
  destruct S as [->| ->]; cbn in Q; [|discriminate]. injection Q as -> Q. destruct ds as [|d' ds].
  - destruct F as [->|(fs & -> & _)]; cbn in Q; [discriminate|]. injection Q as Q _. destruct A; subst; discriminate.
  - cbn in Q. injection Q as -> _. pose proof (D a (or_intror (or_introl eq_refl))) as [_ X]. destruct A; subst; now apply X.
Qed.
Lemma plain_in s : plain FlowOut s -> (forall c, In c (lit ",[]{}") -> ~ In c s) -> plain FlowIn s.
Proof.
  intros P N. assert (F : forall c, In c s -> ~ flow_indicator c) by (intros c I K; exact (N c K I)).
  assert (T : forall p t, plain_tail FlowOut p t -> (forall c, In c t -> ~ flow_indicator c) -> plain_tail FlowIn p t).
  { induction 1 as [p W|p w t W _ IH|p x t X N1 N2 _ IH|p t X _ IH|p x t X _ IH]; intros G.
    - now apply PEnd.
    - apply PWhite; [exact W|]. apply IH. intros c I. apply G. now right.
    - apply PChar; auto; [|apply IH; intros c I; apply G; now right]. destruct X as [X _]. split; [exact X|]. intros _. apply G. now left.
    - apply Spec_Yaml12.PHash; [exact X|]. apply IH. intros c I. apply G. now right.
    - apply PColon; [|apply IH; intros c I; apply G; now right]. destruct X as [X _]. split; [exact X|]. intros _. apply G. right. now left. }
  destruct P as [x t X I P|x y t X Y P].
  - apply Plain1; auto. apply T; [exact P|]. intros c J. apply F. now right.
  - apply Plain2; auto; [|apply T; [exact P|]; intros c J; apply F; now right]. destruct Y as [Y _]. split; [exact Y|]. intros _. apply F. right. now left.
Qed.

(** ---- quoted texts ---- *)

Lemma pieces_forall {P} (text : str -> P) special (Q : P -> Prop) s ps : Spec_Ser.pieces text special s ps ->
  (forall t, t <> [] -> (forall c, In c t -> In c s /\ special c = None) -> Q (text t)) ->
  (forall c p, In c s -> special c = Some p -> Q p) -> Forall Q ps.
Proof.
  induction 1 as [|t N T|c p r ps E _ IH|t c p r ps N T E _ IH]; intros A B.
  - constructor.
  - constructor; [|constructor]. apply A; auto.
  - constructor; [apply (B c); [now left|exact E]|]. apply IH.
    + intros t N T. apply A; [exact N|]. intros x I. destruct (T x I). split; [now right|assumption].
    + intros x q I. apply B. now right.
  - constructor; [|constructor].
    + apply A; auto. intros x I. split; [apply in_or_app; now left|auto].
    + apply (B c); [|exact E]. apply in_or_app. right. now left.
    + apply IH.
      * intros u N' T'. apply A; [exact N'|]. intros x I. destruct (T' x I). split; [apply in_or_app; right; now right|assumption].
      * intros x q I. apply B. apply in_or_app. right. now right.
Qed.
Lemma text_inline s c : text_exports s -> inline_portable c (str_to_yaml s).
Proof.
  intros [J P]. assert (T : text_node s (str_to_yaml s)) by now apply text_iff.
  destruct T as [[Pl ->]|[[(_ & L & _) (ps & -> & Ps)]|[(_ & L & A & ps & -> & Ps)|(_ & ps & -> & Ps)]]]; cbn [inline_portable].
  - destruct (P Pl) as [Q _]. destruct c; [exact Q|]. apply plain_in; [exact Q|]. intros x I. destruct Pl as (_ & _ & _ & _ & _ & H & _). apply H. cbn in *. intuition.
  - eapply pieces_forall; [exact Ps| |].
    + intros t N T. apply Forall_forall. intros x I. destruct (T x I) as [I' E]. rewrite Forall_forall in J. destruct L as [L1 L2]. split.
      * destruct (J x I') as [K|[->| ->]]; [exact K|contradiction|contradiction].
      * intros ->. discriminate E.
    + intros x p _ E. cbn in E. destruct (ceqb x QUOTE); [|discriminate]. injection E as <-. exact I.
  - eapply pieces_forall; [exact Ps| |].
    + intros t N T. apply Forall_forall. intros x I. destruct (T x I) as [I' E]. rewrite Forall_forall in J. destruct L as [L1 L2]. destruct A as [_ A]. split; [|split].
      * destruct (J x I') as [K|[->| ->]]; [exact K|contradiction|contradiction].
      * intros ->. contradiction.
      * intros ->. discriminate E.
    + intros x p _ E. cbn in E. destruct (ceqb x BACKSLASH); [|discriminate]. injection E as <-. discriminate.
  - eapply pieces_forall; [exact Ps| |].
    + intros t N T. apply Forall_forall. intros x I. destruct (T x I) as [I' E]. rewrite Forall_forall in J. split; [|split].
      * destruct (J x I') as [K|[->| ->]]; [exact K|discriminate E|discriminate E].
      * intros ->. discriminate E.
      * intros ->. discriminate E.
    + intros x p _ E. cbn in E. repeat (destruct (ceqb x _); [injection E as <-; discriminate|]). discriminate E.
Qed.
Lemma text_content s : text_exports s -> resolved (Node None (content_of (str_to_yaml s))) (VScalar (MText s)).
Proof.
  intros [_ P]. assert (T : text_node s (str_to_yaml s)) by now apply text_iff. pose proof (str_to_yaml_value s) as V.
  destruct T as [[Pl E]|[[_ (ps & E & _)]|[(_ & _ & _ & ps & E & _)|(_ & ps & E & _)]]]; rewrite E in *; cbn in *.
  - apply RPlain. now apply P.
  - injection V as ->. constructor.
  - injection V as ->. constructor.
  - injection V as ->. constructor.
Qed.

(** ---- values ---- *)

Lemma no_white_key k : plain FlowOut k -> length k <= 1024 -> Forall (fun c => ~ white c) k -> key_portable k.
Proof.
  intros P L N. split; [exact P|]. split; [exact L|]. intros m c r M W ->. rewrite Forall_forall in N. apply (N c); [|exact W].
  apply in_or_app. right. now left.
Qed.
Lemma word_nowhite s : Forall word_char s -> Forall (fun c => ~ white c) s.
Proof. apply Forall_impl. intros c [[_ W] _]. exact W. Qed.
Lemma dash_nowhite : ~ white (chr "-").
Proof. intros [H|H]; discriminate. Qed.
Lemma shortest_nowhite z s : shortest z s -> Forall (fun c => ~ white c) s.
Proof.
  intros (ds & [_ D] & _ & [(_ & -> & _)|(_ & -> & _)]); [|constructor; [apply dash_nowhite|]]; now apply word_nowhite, digits_word.
Qed.
Lemma finite_nowhite x : finite x -> Forall (fun c => ~ white c) x.
Proof.
  intros [[->|[->|[->|(sg & ds & fr & -> & S & [_ D] & F)]]] N]; try (destruct N; cbn; auto; fail).
  apply Forall_app. split; [destruct S; subst; repeat constructor; apply dash_nowhite|]. apply Forall_app. split; [now apply word_nowhite, digits_word|].
  destruct F as [->|(fs & -> & [_ F])]; [constructor|]. constructor; [intros [H|H]; discriminate|now apply word_nowhite, digits_word].
Qed.
Lemma tilde_plain c : plain c (lit "~").
Proof. apply plainb_spec. destruct c; reflexivity. Qed.
Lemma bool_plain c b : plain c (lit (if b : bool then "true" else "false")).
Proof. apply plainb_spec. destruct c, b; reflexivity. Qed.
Lemma bool_core b : core (lit (if b : bool then "true" else "false")) (MBool b).
Proof. destruct b; [apply KTrue|apply KFalse]; cbn; auto. Qed.
Lemma tilde_core : core (lit "~") MNull.
Proof. apply KNull. cbn. intuition. Qed.

Lemma key_good k : forall s, key_exports k -> key_text k s -> key_portable s /\ exists m, core s m /\ intends k (VScalar m).
Proof.
  induction k using sval_ind'; intros u E K; cbn [key_exports key_text intends] in *; try contradiction; eauto.
  - subst. split; [|eexists; split; [apply bool_core|reflexivity]].
    apply no_white_key; [apply bool_plain|destruct b; apply Nat.leb_le; reflexivity|]. destruct b; repeat constructor; intros [X|X]; discriminate.
  - split; [|eexists; split; [eapply shortest_core; exact K|reflexivity]].
    apply no_white_key; [eapply shortest_plain; eauto|now apply E|eapply shortest_nowhite; eauto].
  - subst. destruct E as [F L]. split; [apply no_white_key; [now apply finite_plain|exact L|now apply finite_nowhite]|].
    destruct (finite_means _ F) as [H|(z & B & H)]; eexists; (split; [exact H|]); [now left|right; eauto].
  - destruct K as [-> _], E as [A B]. split; [exact A|]. eauto.
  - destruct K as [-> _], E as [A B]. split; [exact A|]. eauto.
  - subst. split; [|eexists; split; [apply tilde_core|reflexivity]]. apply no_white_key; [apply tilde_plain|apply Nat.leb_le; reflexivity|]. repeat constructor; intros [X|X]; discriminate.
  - subst. split; [|eexists; split; [apply tilde_core|reflexivity]]. apply no_white_key; [apply tilde_plain|apply Nat.leb_le; reflexivity|]. repeat constructor; intros [X|X]; discriminate.
  - subst. split; [|eexists; split; [apply tilde_core|reflexivity]]. apply no_white_key; [apply tilde_plain|apply Nat.leb_le; reflexivity|]. repeat constructor; intros [X|X]; discriminate.
  - destruct K as [-> _], E as [A B]. split; [exact A|]. eauto.
Qed.

Definition exported (v : sval) (y : yaml) : Prop :=
  portable (mkA None y) /\ (flat v -> inline_portable FlowIn y) /\
  exists x, resolved (Node None (content_of y)) x /\ intends v x.
Lemma inline_line y : inline_portable FlowOut y -> portable (mkA None y).
Proof. intros H. apply PLine. split; [exact H|]. split; [exact I|reflexivity]. Qed.
Lemma scalar_exported v s m : (forall c, plain c s) -> core s m -> intends v (VScalar m) -> exported v (Unquoted s).
Proof.
  intros P C H. split; [now apply inline_line, P|]. split; [intros _; apply P|]. exists (VScalar m). split; [now constructor|exact H].
Qed.
Lemma text_exported v s y : y = str_to_yaml s -> text_exports s -> intends v (VScalar (MText s)) -> exported v y.
Proof.
  intros -> T H. split; [now apply inline_line, text_inline|]. split; [intros _; now apply text_inline|].
  exists (VScalar (MText s)). split; [now apply text_content|exact H].
Qed.

(** Rows of the collections. *)
Lemma seq_exported (Q : sval -> value -> Prop) l es :
  all2 (fun v e => exists z, e = AElem (mkA None z) /\ portable (mkA None z) /\ exists x, resolved (Node None (content_of z)) x /\ Q v x) l es ->
  seq_rows es /\ exists xs, resolved_all (seq_nodes es) xs /\ all2 Q l xs.
Proof.
  revert es. induction l as [|v l IH]; intros [|e es] H; cbn [all2] in H; try contradiction.
  - split; [constructor|]. exists []. split; [constructor|exact I].
  - destruct H as [(z & -> & P & x & R & X) H]. destruct (IH es H) as (S & xs & Rs & Xs). split; [now apply SRElem|].
    exists (x :: xs). split; [now constructor|now split].
Qed.
Lemma map_exported {A} (Q : A * sval -> value * value -> Prop) (l : list (A * sval)) es :
  all2 (fun kv e => exists s z, e = HElem (mkHE s (mkA None z)) /\ key_portable s /\ portable (mkA None z) /\
     exists m x, core s m /\ resolved (Node None (content_of z)) x /\ Q kv (VScalar m, x)) l es ->
  map_rows es /\ exists xs, resolved_pairs (map_nodes es) xs /\ all2 Q l xs.
Proof.
  revert es. induction l as [|v l IH]; intros [|e es] H; cbn [all2] in H; try contradiction.
  - split; [constructor|]. exists []. split; [constructor|exact I].
  - destruct H as [(s & z & -> & K & P & m & x & C & R & X) H]. destruct (IH es H) as (S & xs & Rs & Xs). split; [now apply MREntry|].
    exists ((VScalar m, x) :: xs). split; [|now split]. cbn. apply RPair; auto. now constructor.
Qed.
Lemma array_portable es : seq_rows es -> (forall e, In e es -> exists x, e = AElem x) -> portable (mkA None (Array es)).
Proof.
  intros R H. destruct es as [|e es]; [apply inline_line; exact I|]. apply PArray; [exact I|exact R|].
  destruct (H e (or_introl eq_refl)) as (x & ->). exists x. now left.
Qed.
Lemma hash_portable es : map_rows es -> (forall e, In e es -> exists x, e = HElem x) -> portable (mkA None (Hash es)).
Proof.
  intros R H. destruct es as [|e es]; [apply inline_line; exact I|]. apply PHash; [exact I|exact R|].
  destruct (H e (or_introl eq_refl)) as (x & ->). exists x. now left.
Qed.
Lemma all2_in {A B} (P : A -> B -> Prop) l m : all2 P l m -> forall y, In y m -> exists x, P x y.
Proof.
  revert m. induction l as [|x l IH]; intros [|z m] H y I; cbn in H; try contradiction; destruct I as [<-|I]; [exists x; apply H|]. destruct H as [_ H]. exact (IH m H y I).
Qed.
Lemma all2_imp {A B} (P Q : A -> B -> Prop) l m : Forall (fun x => forall y, P x y -> Q x y) l -> all2 P l m -> all2 Q l m.
Proof.
  intros F. revert m. induction F as [|x l X _ IH]; intros [|y m] H; cbn in *; try contradiction; auto. destruct H. auto.
Qed.
Lemma all2_right {A B} (P : A -> B -> Prop) (R : B -> Prop) l m : all2 (fun x y => P x y /\ R y) l m -> all2 P l m /\ Forall R m.
Proof.
  revert m. induction l as [|x l IH]; intros [|y m] H; cbn in *; try contradiction; [split; [exact I|constructor]|].
  destruct H as [[A1 A2] H]. destruct (IH m H). split; [now split|now constructor].
Qed.
Lemma tuple_exported l es : all2 (fun v e => inline_portable FlowIn e /\ exists x, resolved (Node None (content_of e)) x /\ intends v x) l es ->
  inline_portable FlowIn (InlineArray es) /\ inline_portable FlowOut (InlineArray es) /\
  exists xs, resolved (Node None (content_of (InlineArray es))) (VList xs) /\ all2 (fun v x => intends v x) l xs.
Proof.
  cbn [inline_portable content_of]. intros H.
  assert (G : fold_right (fun x Q => inline_portable FlowIn x /\ Q) True es /\
     exists xs, resolved_all (map (fun x => Node None (content_of x)) es) xs /\ all2 (fun v x => intends v x) l xs).
  { revert es H. induction l as [|v l IH]; intros [|e es] H; cbn [all2] in H; try contradiction.
    - split; [exact I|]. exists []. split; [constructor|exact I].
    - destruct H as [(P & x & R & X) H]. destruct (IH es H) as (G & xs & Rs & Xs). split; [now split|]. exists (x :: xs). split; [now constructor|now split]. }
  destruct G as (G & xs & Rs & Xs). split; [exact G|]. split; [exact G|]. exists xs. split; [now constructor|exact Xs].
Qed.
Lemma fold_and {A} (P : A -> Prop) l : fold_right (fun x Q => P x /\ Q) True l -> Forall P l.
Proof. induction l; cbn; constructor; intuition. Qed.
Lemma exported_all : forall v y, exports v -> writes v y -> exported v y.
Proof.
  assert (STRUCT : forall l y, Forall (fun kv : str * sval => forall y, exports (snd kv) -> writes (snd kv) y -> exported (snd kv) y) l ->
     fold_right (fun kv Q => match kv with (k, v) => name_exports k /\ exports v end /\ Q) True l ->
     (exists es, y = Hash es /\ all2 (fun kv e => match kv with (k, v) => exists z, e = HElem (mkHE k (mkA None z)) /\ writes v z end) l es) ->
     portable (mkA None y) /\ (l = [] -> inline_portable FlowIn y) /\
     exists x, resolved (Node None (content_of y)) x /\ exists es, x = VDict es /\ all2 (fun kv e => match kv with (k, v) => fst e = VScalar (MText k) /\ intends v (snd e) end) l es).
  { intros l y IH E (es & -> & W). apply fold_and in E.
    assert (H : all2 (fun kv e => exists s z, e = HElem (mkHE s (mkA None z)) /\ key_portable s /\ portable (mkA None z) /\
       exists m x, core s m /\ resolved (Node None (content_of z)) x /\ match kv with (k, v) => VScalar m = VScalar (MText k) /\ intends v x end) l es).
    { revert W. apply all2_imp. rewrite Forall_forall in *. intros [k v] I e (z & -> & W). destruct (E _ I) as [[K C] X].
      destruct (IH _ I z X W) as (P & _ & x & R & N). exists k, z. split; [reflexivity|]. split; [exact K|]. split; [exact P|].
      exists (MText k), x. split; [exact C|]. split; [exact R|]. now split. }
    destruct (map_exported (fun kv e => match kv with (k, v) => fst e = VScalar (MText k) /\ intends v (snd e) end) l es H) as (R & xs & Rs & Xs).
    split; [apply hash_portable; [exact R|]; intros e I; destruct (all2_in _ _ _ W e I) as ([k v] & z & -> & _); eauto|].
    split; [intros ->; destruct es; [exact I|contradiction]|]. exists (VDict xs). split; [now apply RMap|]. eauto. }
  assert (TUPLE : forall l y, Forall (fun v => forall y, exports v -> writes v y -> exported v y) l ->
     fold_right (fun v Q => (flat v /\ exports v) /\ Q) True l ->
     (exists es, y = InlineArray es /\ all2 (fun v e => writes v e) l es) ->
     portable (mkA None y) /\ (fold_right (fun v Q => flat v /\ Q) True l -> inline_portable FlowIn y) /\
     exists x, resolved (Node None (content_of y)) x /\ exists xs, x = VList xs /\ all2 (fun v x => intends v x) l xs).
  { intros l y IH E (es & -> & W). apply fold_and in E.
    assert (H : all2 (fun v e => inline_portable FlowIn e /\ exists x, resolved (Node None (content_of e)) x /\ intends v x) l es).
    { revert W. apply all2_imp. rewrite Forall_forall in *. intros v I e W. destruct (E _ I) as [F X]. destruct (IH _ I e X W) as (_ & P & N). auto. }
    destruct (tuple_exported l es H) as (P1 & P2 & xs & R & X). split; [now apply inline_line|]. split; [intros _; exact P1|]. eauto. }
  intros v; induction v using sval_ind'; intros y E W; cbn [exports writes] in *; try (eapply IHv; eassumption).
  - subst. apply (scalar_exported _ _ (MBool b)); [intros; apply bool_plain|apply bool_core|reflexivity].
  - destruct W as (s & -> & S). apply (scalar_exported _ _ (MInt z)); [intros; eapply shortest_plain; eauto|now apply shortest_core|reflexivity].
  - subst. destruct (finite_means _ E) as [H|(z & B & H)].
    + apply (scalar_exported _ _ (MFloat t)); [intros; now apply finite_plain|exact H|now left].
    + apply (scalar_exported _ _ (MInt z)); [intros; now apply finite_plain|exact H|right; eauto].
  - apply (text_exported _ [c]); [now apply text_iff|exact E|reflexivity].
  - apply (text_exported _ s); [now apply text_iff|exact E|reflexivity].
  - destruct W as (es & -> & W).
    assert (H : all2 (fun b e => exists z, e = AElem (mkA None z) /\ portable (mkA None z) /\ exists x, resolved (Node None (content_of z)) x /\ x = VScalar (MInt (Z.of_N b))) l es).
    { revert W. apply all2_imp. apply Forall_forall. intros b _ e (s & -> & S). exists (Unquoted s). split; [reflexivity|].
      split; [apply inline_line; eapply shortest_plain; eauto|]. eexists. split; [|reflexivity]. apply RPlain. now apply shortest_core. }
    assert (G : seq_rows es /\ resolved_all (seq_nodes es) (map (fun b => VScalar (MInt (Z.of_N b))) l)).
    { clear W E. revert es H. induction l as [|b l IH]; intros [|e es] H; cbn [all2] in H; try contradiction; [split; constructor|].
      destruct H as [(z & -> & P & x & R & ->) H]. destruct (IH es H). split; [now apply SRElem|]. cbn. now constructor. }
    destruct G as [G1 G2]. split; [apply array_portable; [exact G1|]; intros e I; destruct (all2_in _ _ _ W e I) as (b & s & -> & _); eauto|].
    split; [cbn [flat]; intros ->; destruct es; [exact I|contradiction]|]. eexists. split; [apply RSeq; exact G2|reflexivity].
  - subst. apply (scalar_exported _ _ MNull); [intros; apply tilde_plain|apply tilde_core|reflexivity].
  - subst. apply (scalar_exported _ _ MNull); [intros; apply tilde_plain|apply tilde_core|reflexivity].
  - subst. apply (scalar_exported _ _ MNull); [intros; apply tilde_plain|apply tilde_core|reflexivity].
  - destruct W as (es & -> & W). apply fold_and in E.
    assert (H' : all2 (fun v e => exists z, e = AElem (mkA None z) /\ portable (mkA None z) /\ exists x, resolved (Node None (content_of z)) x /\ intends v x) l es).
    { revert W. apply all2_imp. rewrite Forall_forall in *. intros v I e (z & -> & W). destruct (H _ I z (E _ I) W) as (P & _ & X). eauto. }
    destruct (seq_exported _ l es H') as (R & xs & Rs & Xs).
    split; [apply array_portable; [exact R|]; intros e I; destruct (all2_in _ _ _ W e I) as (b & z & -> & _); eauto|].
    split; [cbn [flat]; intros ->; destruct es; [exact I|contradiction]|]. exists (VList xs). split; [now apply RSeq|]. cbn [intends]. eauto.
  - exact (TUPLE l y H E W).
  - destruct W as (es & -> & W). apply fold_and in E.
    assert (H' : all2 (fun kv e => exists s z, e = HElem (mkHE s (mkA None z)) /\ key_portable s /\ portable (mkA None z) /\
       exists m x, core s m /\ resolved (Node None (content_of z)) x /\ match kv with (k, v) => intends k (VScalar m) /\ intends v x end) l es).
    { revert W. apply all2_imp. rewrite Forall_forall in *. intros [k v] I e (s & z & -> & K & W). destruct (E _ I) as [Ek Ev].
      destruct (H _ I) as [_ IHv]. destruct (IHv z Ev W) as (P & _ & x & R & N). destruct (key_good k s Ek K) as (KP & m & C & M).
      exists s, z. split; [reflexivity|]. split; [exact KP|]. split; [exact P|]. exists m, x. auto. }
    destruct (map_exported (fun kv e => match kv with (k, v) => intends k (fst e) /\ intends v (snd e) end) l es H') as (R & xs & Rs & Xs).
    split; [apply hash_portable; [exact R|]; intros e I; destruct (all2_in _ _ _ W e I) as ([k v] & s & z & -> & _); eauto|].
    split; [cbn [flat]; intros ->; destruct es; [exact I|contradiction]|]. exists (VDict xs). split; [now apply RMap|]. cbn [intends]. eauto.
  - exact (STRUCT l y H E W).
  - apply (text_exported _ n); [now apply text_iff|exact E|reflexivity].
  - exact (TUPLE l y H E W).
  - exact (STRUCT l y H E W).
Qed.

Lemma not_block v : forall y, writes v y -> forall l c, y <> Literal l c /\ y <> Folded l c.
Proof.
  induction v using sval_ind'; intros y W l0 c0; try clear H; cbn [writes] in W; try (apply IHv; exact W);
    try (apply text_iff in W; subst; unfold str_to_yaml; repeat match goal with |- context [if ?b then _ else _] => destruct b end; split; discriminate);
    repeat match goal with H : exists _, _ |- _ => destruct H | H : _ /\ _ |- _ => destruct H end; subst; split; discriminate.
Qed.
Lemma root_portable v y : writes v y -> portable (mkA None y) -> portable_doc (mkDoc [] [DYaml y]) y.
Proof.
  intros W P. pose proof (not_block v y W) as N. inversion P; subst; try (destruct (N (l :: ls) c); congruence).
  - now apply (PRoot [] y []).
  - apply (PDoc [] [] _ []); auto. destruct l; [|exact I]. match goal with H : exists _, In _ [] |- _ => destruct H as (? & []) end.
  - apply (PDoc [] [] _ []); auto. destruct l; [|exact I]. match goal with H : exists _, In _ [] |- _ => destruct H as (? & []) end.
Qed.

Theorem export_file v y : ser v = Some y -> exports v ->
  exists n x, yaml_file n (format_doc (mkDoc [] [DYaml y]) ++ [NL]) /\ resolved n x /\ intends v x.
Proof.
  intros S E. apply ser_iff in S. destruct (exported_all v y E S) as (P & _ & x & R & N).
  exists (Node None (content_of y)), x. split; [|now split]. apply doc_wrote. now apply (root_portable v).
Qed.

(** ---- which texts are plain scalars ---- *)

Lemma plain_iff s : plain_text s -> (plain FlowOut s <-> ~ awkward s).
Proof.
  intros (NE & SP0 & SPE & Q0 & CS & BAD & _). split.
  - intros P A.
    assert (T : forall p t, plain_tail FlowOut p t -> Forall nb_char t /\ (forall r c, p :: t = r ++ [c] -> In c (TAB :: lit ":") -> r = [] /\ c = chr ":") /\
       (forall a b, t <> a ++ chr ":" :: TAB :: b)).
    { clear. induction 1 as [p H|p w t W T (I1 & I2 & I3)|p x t [S _] N1 N2 T (I1 & I2 & I3)|p t S T (I1 & I2 & I3)|p x t [S _] T (I1 & I2 & I3)].
      - split; [constructor|]. split; [|intros [|? [|]]; discriminate]. intros [|a [|]] c E I; try discriminate E. injection E as ->. split; [reflexivity|].
        destruct I as [<-|[<-|[]]]; [exfalso; apply H; now right|reflexivity].
      - split; [constructor; [|exact I1]; destruct W as [->| ->]; apply nb_charb_spec; reflexivity|]. split.
        + intros [|a r] c E I; [discriminate|]. injection E as -> E. destruct (I2 r c E I) as [-> ->]. injection E as -> _. destruct W; discriminate.
        + intros [|a r] b E; injection E as E1 E2; [subst; destruct W; discriminate|]. now apply (I3 r b).
      - split; [constructor; [apply S|exact I1]|]. split.
        + intros [|a r] c E I; [discriminate|]. injection E as -> E. destruct (I2 r c E I) as [-> ->]. now injection E as -> _.
        + intros [|a r] b E; injection E as E1 E2; [subst; easy|]. now apply (I3 r b).
      - split; [constructor; [apply nb_charb_spec; reflexivity|exact I1]|]. split.
        + intros [|a r] c E I; [discriminate|]. injection E as -> E. destruct (I2 r c E I) as [-> ->]. discriminate.
        + intros [|a r] b E; injection E as E1 E2; [discriminate|]. now apply (I3 r b).
      - split; [constructor; [apply nb_charb_spec; reflexivity|exact I1]|]. split.
        + intros [|a r] c E I; [discriminate|]. injection E as -> E. destruct (I2 r c E I) as [-> ->]. discriminate.
        + intros [|a r] b E; injection E as E1 E2; [subst; destruct S as [_ S]; apply S; now right|]. now apply (I3 r b). }
    inversion P as [x t X NI PT|x y t X Y PT]; subst; destruct (T _ _ PT) as (T1 & T2 & T3).
    + destruct A as [(c & I & C)|[(c & r & E & I)|[(c & r & E & I)|[(c & I & [E|(w & r & W & E)])|(a & b & E)]]]].
      * apply C. destruct I as [<-|I]; [apply X|]. rewrite Forall_forall in T1. auto.
      * injection E as <- _. destruct I as [<-|I]; [destruct X as [_ X]; apply X; now right|]. apply NI. cbn in I |- *. intuition.
      * destruct (T2 r c E I) as [-> ->]. injection E as -> _. apply NI. cbn. auto.
      * injection E as <- _. apply NI. cbn in I |- *. intuition.
      * injection E as <- _. apply NI. cbn in I |- *. intuition.
      * destruct a as [|a0 a]; injection E as E1 E2; [subst; apply NI; cbn; auto|]. now apply (T3 a b).
    + destruct A as [(c & I & C)|[(c & r & E & I)|[(c & r & E & I)|[(c & I & [E|(w & r & W & E)])|(a & b & E)]]]].
      * apply C. destruct I as [<-|I]; [|rewrite Forall_forall in T1; auto]. apply nb_charb_spec. destruct X as [<-|[<-|[<-|[]]]]; reflexivity.
      * injection E as <- _. cbn in X, I. repeat (destruct X as [<-|X]; [intuition discriminate|]); destruct X.
      * destruct (T2 r c E I) as [-> ->]. discriminate.
      * discriminate.
      * injection E as <- <- _. destruct Y as [[_ Y] _]. now apply Y.
      * destruct a as [|a0 a]; injection E as E1 E2; [subst; destruct Y as [[_ Y] _]; apply Y; now right|]. now apply (T3 a b).
  - intros A.
    assert (T : forall t p, Forall nb_char (p :: t) -> ~ In (chr "#") t -> (forall r w, white w -> p :: t <> r ++ [w]) ->
       (forall a b w, white w -> t <> a ++ chr ":" :: w :: b) -> (forall r, t <> r ++ [chr ":"]) -> plain_tail FlowOut p t).
    { clear. induction t as [|x t IH]; intros p F H W C E; inversion F as [|? ? P F']; subst.
      - apply PEnd. intros K. now apply (W [] p).
      - inversion F' as [|? ? X F2]; subst.
        assert (G : plain_tail FlowOut x t).
        { apply IH; [exact F'|intros I; apply H; now right|intros r w V K; apply (W (p :: r) w V); cbn; now rewrite K|
            intros a b w V K; apply (C (x :: a) b w V); cbn; now rewrite K|intros r K; apply (E (x :: r)); cbn; now rewrite K]. }
        destruct (whiteb x) eqn:V; [apply whiteb_spec in V; now apply PWhite|].
        assert (V' : ~ white x) by (intros K; apply whiteb_spec in K; congruence).
        destruct (N.eq_dec x (chr ":")) as [->|Nc].
        + destruct t as [|y t]; [now destruct (E [])|]. apply PColon; [|exact G]. inversion F2; subst. split; [|discriminate]. split; [assumption|].
          intros K. now apply (C [] t y).
        + apply PChar; auto; [split; [split; assumption|discriminate]|]. intros ->. apply H. now left. }
    assert (F : Forall nb_char s).
    { apply Forall_forall. intros c I. destruct (nb_charb c) eqn:B; [now apply nb_charb_spec|]. exfalso. apply A. left. exists c. split; [exact I|].
      intros K. apply nb_charb_spec in K. congruence. }
    assert (H : ~ In (chr "#") s) by (apply BAD; cbn; intuition).
    assert (W : forall r w, white w -> s <> r ++ [w]).
    { intros r w [->| ->] E; [now apply (SPE r)|]. apply A. right. right. left. exists TAB, r. split; [exact E|now left]. }
    assert (C : forall a b w, white w -> s <> a ++ chr ":" :: w :: b).
    { intros a b w [->| ->] E; [now apply (CS a b)|]. apply A. do 4 right. eauto. }
    assert (E : forall r, s <> r ++ [chr ":"]).
    { intros r E. apply A. right. right. left. exists (chr ":"), r. split; [exact E|right; now left]. }
    destruct s as [|x t]; [easy|].
    assert (G : plain_tail FlowOut x t).
    { apply T; auto; [intros I; apply H; now right|intros a b w V K; apply (C (x :: a) b w V); cbn; now rewrite K|intros r K; apply (E (x :: r)); cbn; now rewrite K]. }
    assert (V : ~ white x).
    { intros [->| ->]; [now apply (SP0 t)|]. apply A. right. left. exists TAB, t. split; [reflexivity|now left]. }
    inversion F as [|? ? X F']; subst.
    destruct (inb x (lit "-?:")) eqn:B.
    + apply inb_spec in B. destruct t as [|y t]; [exfalso; apply A; do 3 right; left; exists x; split; [exact B|now left]|].
      apply Plain2; [cbn in B |- *; intuition| |exact G]. inversion F'; subst. split; [|discriminate]. split; [assumption|]. intros K. apply A. do 3 right. left.
      exists x. split; [exact B|]. right. eauto.
    + apply Plain1; [now split| |exact G]. intros I.
      assert (N1 : ~ In x (lit "-?:")) by (intros K; apply inb_spec in K; congruence).
      assert (N2 : ~ In x (lit ",[]{}""#>|")) by (intros K; apply (BAD x); [apply in_or_app; now left|now left]).
      assert (N3 : ~ In x (lit "&*!%@`")) by (intros K; apply A; right; left; exists x, t; split; [reflexivity|now right]).
      assert (N4 : x <> QUOTE) by (intros ->; now apply (Q0 t)).
      clear -I N1 N2 N3 N4. cbn in *. intuition.
Qed.
Theorem text_exports_iff s : text_exports s <->
  Forall (fun c => nb_json c \/ c = NL \/ c = CR) s /\ (ser (SStr s) = Some (Unquoted s) -> ~ awkward s /\ ~ only_yaml s /\ ~ In s [lit "Null"; lit "NULL"]).
Proof.
  assert (K : ser (SStr s) = Some (Unquoted s) <-> plain_text s).
  { rewrite ser_iff. cbn [writes]. split; [|intros P; now left].
    intros [[P _]|[(_ & ps & E & _)|[(_ & _ & _ & ps & E & _)|(_ & ps & E & _)]]]; [exact P|discriminate..]. }
  rewrite K. unfold text_exports. split; intros [F H]; (split; [exact F|]); intros P; destruct (H P) as [H1 H2].
  - split; [now apply plain_iff|]. now apply text_core.
  - split; [now apply plain_iff|]. now apply text_core.
Qed.
Lemma resolved_unique : forall n x, resolved n x -> forall z, resolved n z -> x = z.
Proof.
  fix F 3. intros n x H. destruct H as [al s m C|al s|al l xs H|al l es H]; intros z K.
  - inversion K; subst. f_equal. eapply core_one; eauto.
  - now inversion K; subst.
  - inversion K as [| |? ? ys K'|]; subst. f_equal. clear K. revert ys K'. induction H as [|n x l xs R _ IH]; intros ys K; inversion K; subst; [reflexivity|]. f_equal; auto. eapply F; eauto.
  - inversion K as [| | |? ? ys K']; subst. f_equal. clear K. revert ys K'. induction H as [|k v x y l es R1 R2 _ IH]; intros ys K; inversion K; subst; [reflexivity|].
    f_equal; auto. f_equal; eapply F; eauto.
Qed.
Theorem resolved_one n x z : resolved n x -> resolved n z -> x = z.
Proof. intros H. now apply resolved_unique. Qed.
Theorem quoted_exports s : Forall (fun c => nb_json c \/ c = NL \/ c = CR) s -> ser (SStr s) <> Some (Unquoted s) -> text_exports s.
Proof. intros F N. apply text_exports_iff. split; [exact F|]. now intros. Qed.

(** Words that start like nothing else. *)
Lemma word_is_text s : (match s with c :: _ => negb (is_digit c) && negb (inb c (lit "+-.")) | [] => false end)%bool = true ->
  existsb (seqb s) (nulls ++ trues ++ falses ++ nans) = false -> core s (MText s).
Proof.
  intros H X. apply KText.
  assert (X' : ~ In s (nulls ++ trues ++ falses ++ nans)).
  { intros I. assert (T : existsb (seqb s) (nulls ++ trues ++ falses ++ nans) = true); [|congruence]. apply existsb_exists. exists s. split; [exact I|now apply seqb_eq]. }
  destruct s as [|c s]; [discriminate|]. apply andb_true_iff in H as [D N]. apply negb_true_iff in D, N.
  assert (N' : ~ In c (lit "+-.")) by (intros K; apply inb_spec in K; congruence).
  assert (DG : forall ds r, digits ds -> c :: s <> ds ++ r).
  { intros ds r [A B] E. destruct ds as [|d ds]; [easy|]. injection E as E _. subst d. unfold is_digit in D. assert (K := B c (or_introl eq_refl)). destruct K as [K1 K2].
    apply N.leb_le in K1, K2. now rewrite K1, K2 in D. }
  assert (SG : forall sg r, sign sg -> c :: s = sg ++ r -> sg = []).
  { intros sg r [->|[->| ->]] E; [reflexivity| |]; injection E as -> _; destruct N'; cbn; auto. }
  intros [I|[(z & [B|B])|[B|B]]].
  - now apply X'.
  - destruct B as (sg & ds & E & S & G & _). rewrite (SG sg _ S E) in E. rewrite <- (app_nil_r ds) in E. now apply (DG ds []).
  - destruct B as (ds & n & _ & [[E _]|[E _]]); injection E as -> _; discriminate D.
  - destruct B as (sg & m & e & E & S & M & _). rewrite (SG sg _ S E) in E. destruct M as [(ds & -> & _)|[M|(ds & fs & -> & M & _)]].
    + injection E as -> _. apply N'. cbn. auto.
    + now apply (DG m e).
    + cbn in E. rewrite <- app_assoc in E. now apply (DG ds _ M E).
  - destruct B as (sg & r & E & S & R). rewrite (SG sg _ S E) in E. cbn in E. subst r. cbn in R.
    repeat (destruct R as [R|R]; [injection R as <- _; apply N'; cbn; intuition|]). destruct R.
Qed.
