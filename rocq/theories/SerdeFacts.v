(** Serialization and deserialization are inverse on the faithful values. *)
From Coq Require Import ZArith.
From Verif Require Import Base Ast Strings Format Num Pretty Spec_Strings StringsFacts
  Spec_Pretty PrettyFacts Ser De Spec_Serde.
Import ListNotations.

(** ---- strings ---- *)

Lemma flush_dq_value parts buf :
  parse_double_quoted (if is_nil buf then parts else parts ++ [DQ_Str buf]) = parse_double_quoted parts ++ buf.
Proof.
  unfold parse_double_quoted. destruct buf as [|c buf]; cbn [is_nil]; [now rewrite app_nil_r|].
  rewrite flat_map_app. cbn. now rewrite app_nil_r.
Qed.

Lemma dq_loop_value esc s parts buf parts' buf' :
  (forall c e, esc c = Some e -> esc_real_char e = c) ->
  dq_loop esc s parts buf = (parts', buf') ->
  parse_double_quoted parts' ++ buf' = parse_double_quoted parts ++ buf ++ s.
Proof.
  intros He. revert parts buf. induction s as [|c s IH]; intros parts buf; cbn [dq_loop].
  - intros E; inversion E; subst. now rewrite app_nil_r.
  - destruct (esc c) as [e|] eqn:Ec; intros E; apply IH in E; rewrite E.
    + unfold parse_double_quoted at 1. rewrite flat_map_app.
      fold (parse_double_quoted (if is_nil buf then parts else parts ++ [DQ_Str buf])).
      rewrite flush_dq_value. cbn. rewrite (He _ _ Ec), <- !app_assoc. reflexivity.
    + now rewrite <- !app_assoc.
Qed.

Lemma dq_parts_value esc s : (forall c e, esc c = Some e -> esc_real_char e = c) ->
  parse_double_quoted (dq_parts esc s) = s.
Proof.
  intros He. unfold dq_parts. destruct (dq_loop esc s [] []) as [parts buf] eqn:E.
  apply (dq_loop_value esc s _ _ _ _ He) in E. rewrite flush_dq_value. exact E.
Qed.

Lemma esc_backslash_ok c e : esc_backslash c = Some e -> esc_real_char e = c.
Proof.
  unfold esc_backslash. destruct (ceqb c BACKSLASH) eqn:E; [|discriminate].
  apply ceqb_eq in E. intros X; inversion X; subst. reflexivity.
Qed.
Lemma esc_all_ok c e : esc_all c = Some e -> esc_real_char e = c.
Proof.
  unfold esc_all.
  repeat match goal with
         | |- context [ceqb c ?x] => let Q := fresh "Q" in destruct (ceqb c x) eqn:Q;
             [apply ceqb_eq in Q; subst c; intros X; injection X as <-; reflexivity|]
         end. discriminate.
Qed.

(** C05. *)
Lemma str_to_yaml_value s : as_string (str_to_yaml s) = Some s.
Proof.
  unfold str_to_yaml. destruct (negb (needs_quoting s)); [reflexivity|].
  destruct (_ && _); [destruct (_ && _)|]; cbn [as_string]; f_equal.
  - apply dq_parts_value, esc_backslash_ok.
  - apply single_quoted_lossless.
  - apply dq_parts_value, esc_all_ok.
Qed.

(** C06. *)
Lemma unquoted_not_special s : str_to_yaml s = Unquoted s ->
  s <> lit "Null" -> s <> lit "NULL" -> any_unquoted s = AnStr s.
Proof.
  unfold str_to_yaml, needs_quoting, can_be_unquoted_in_block, any_unquoted, is_null_word.
  intros H N1 N2.
  destruct s as [|c s0]; [cbn in H; discriminate|]. set (s := c :: s0) in *.
  destruct (starts_with SP s || ends_with SP s); [cbn in H; repeat destruct (_ && _); discriminate|].
  destruct (bad_first c); [cbn in H; repeat destruct (_ && _); discriminate|].
  destruct (has_sub _ s || _ || _ || _); [cbn in H; repeat destruct (_ && _); discriminate|].
  destruct (parse_i64 s) as [z|] eqn:Ei; [cbn in H; repeat destruct (_ && _); discriminate|].
  destruct (parse_f64_ok s) eqn:Ef; [cbn in H; repeat destruct (_ && _); discriminate|].
  destruct (seqb s (lit "true")) eqn:E1; [cbn in H; repeat destruct (_ && _); discriminate|].
  destruct (seqb s (lit "false")) eqn:E2; [cbn in H; repeat destruct (_ && _); discriminate|].
  destruct (seqb s (lit "null")) eqn:E3; [cbn in H; repeat destruct (_ && _); discriminate|].
  destruct (seqb s (lit "~")) eqn:E4; [cbn in H; repeat destruct (_ && _); discriminate|].
  apply seqb_neq in N1, N2. rewrite N1, N2. cbn [orb].
  destruct (parse_u64 s) as [z|] eqn:Eu; [|reflexivity].
  apply parse_int_f64 in Eu. congruence.
Qed.

(** Strings survive untyped deserialization. *)
Lemma any_str_to_yaml s fuel a : s <> lit "Null" -> s <> lit "NULL" ->
  de_any (S fuel) (str_to_yaml s) a = Done (AnStr s) a.
Proof.
  intros N1 N2. pose proof (str_to_yaml_value s) as Hv. pose proof (unquoted_not_special s) as Hu.
  assert (Hk : match str_to_yaml s with Unquoted t => t = s | SingleQ _ | DoubleQ _ => True | _ => False end).
  { unfold str_to_yaml. destruct (negb _); [reflexivity|]. destruct (_ && _); [destruct (_ && _)|]; exact I. }
  destruct (str_to_yaml s); try contradiction; cbn [de_any as_string] in *; inversion Hv; subst; try reflexivity.
  now rewrite (Hu eq_refl N1 N2).
Qed.

(** ---- induction on values ---- *)

Section SvalInd.
  Variable P : sval -> Prop.
  Hypothesis Hbool : forall b, P (SBool b).
  Hypothesis Hint : forall k z, P (SInt k z).
  Hypothesis Hfloat : forall t, P (SFloat t).
  Hypothesis Hchar : forall c, P (SChar c).
  Hypothesis Hstr : forall s, P (SStr s).
  Hypothesis Hbytes : forall l, P (SBytes l).
  Hypothesis Hnone : P SNone.
  Hypothesis Hsome : forall v, P v -> P (SSome v).
  Hypothesis Hunit : P SUnit.
  Hypothesis Hunits : P SUnitStruct.
  Hypothesis Hnewtype : forall v, P v -> P (SNewtype v).
  Hypothesis Hseq : forall l, Forall P l -> P (SSeq l).
  Hypothesis Htuple : forall l, Forall P l -> P (STuple l).
  Hypothesis Hmap : forall l, Forall (fun kv => P (fst kv) /\ P (snd kv)) l -> P (SMap l).
  Hypothesis Hstruct : forall l, Forall (fun kv => P (snd kv)) l -> P (SStruct l).
  Hypothesis Hunitv : forall n, P (SUnitV n).
  Hypothesis Hnewv : forall n v, P v -> P (SNewV n v).
  Hypothesis Htupv : forall n l, Forall P l -> P (STupV n l).
  Hypothesis Hstructv : forall n l, Forall (fun kv => P (snd kv)) l -> P (SStructV n l).

  Fixpoint sval_ind' (v : sval) : P v :=
    let go := fix go (l : list sval) : Forall P l :=
      match l with [] => Forall_nil _ | x :: l' => Forall_cons _ (sval_ind' x) (go l') end in
    let goe := fix goe (l : list (str * sval)) : Forall (fun kv => P (snd kv)) l :=
      match l with [] => Forall_nil _ | (k, x) :: l' => Forall_cons (k, x) (sval_ind' x) (goe l') end in
    match v with
    | SBool b => Hbool b | SInt k z => Hint k z | SFloat t => Hfloat t | SChar c => Hchar c
    | SStr s => Hstr s | SBytes l => Hbytes l | SNone => Hnone | SSome v => Hsome v (sval_ind' v)
    | SUnit => Hunit | SUnitStruct => Hunits | SNewtype v => Hnewtype v (sval_ind' v)
    | SSeq l => Hseq l (go l) | STuple l => Htuple l (go l)
    | SMap l => Hmap l ((fix gom (l : list (sval * sval)) : Forall (fun kv => P (fst kv) /\ P (snd kv)) l :=
        match l with
        | [] => Forall_nil _
        | (k, x) :: l' => Forall_cons (k, x) (conj (sval_ind' k) (sval_ind' x)) (gom l')
        end) l)
    | SStruct l => Hstruct l (goe l)
    | SUnitV n => Hunitv n | SNewV n v => Hnewv n v (sval_ind' v)
    | STupV n l => Htupv n l (go l) | SStructV n l => Hstructv n l (goe l)
    end.
End SvalInd.

(** ---- representations of a value ---- *)

(** The elements of a sequence, the entries of a mapping, without aliases and comments. *)
Definition elems_of (y : yaml) : option (list yaml) :=
  match y with
  | InlineArray l => Some l
  | Array l => opt_map (fun d => match d with AElem (mkA None v) => Some v | _ => None end) l
  | _ => None
  end.
Definition entries_of (y : yaml) : option (list (str * yaml)) :=
  match y with
  | InlineHash l => Some l
  | Hash l => opt_map (fun d => match d with HElem (mkHE k (mkA None v)) => Some (k, v) | _ => None end) l
  | _ => None
  end.

(** Neither a null nor something pretty printing could turn into one. *)
Definition not_null (y : yaml) : Prop :=
  forall s, as_string y = Some s -> s <> lit "Null" /\ s <> lit "NULL" /\
    (y = Unquoted s -> s <> lit "~" /\ s <> lit "null").

(** The node represents the value. *)
Fixpoint repr (v : sval) (y : yaml) {struct v} : Prop :=
  match v with
  | SBool b => y = Unquoted (if b then lit "true" else lit "false")
  | SInt _ z => y = Unquoted (show_Z z)
  | SFloat t => y = Unquoted t /\ inline_breaking_chars t = false
  | SChar c => as_string y = Some [c]
  | SStr s | SUnitV s => as_string y = Some s
  | SBytes l => elems_of y = Some (map (fun b => Unquoted (show_N b)) l)
  | SNone | SUnit | SUnitStruct => y = Unquoted (lit "~")
  | SSome v => repr v y /\ not_null y
  | SNewtype v => repr v y
  | SSeq l | STuple l => exists ys, elems_of y = Some ys /\ all2 repr l ys
  | SMap l => exists es, entries_of y = Some es /\
      all2 (fun kv e => match kv with (k, v) => repr k (Unquoted (fst e)) /\ repr v (snd e) end) l es
  | SStruct l => exists es, entries_of y = Some es /\
      all2 (fun kv e => match kv with (k, v) => k = fst e /\ repr v (snd e) end) l es
  | SNewV _ _ | STupV _ _ | SStructV _ _ => False
  end.

Lemma opt_map_some {A B} (f : A -> option B) (g : B -> A) l :
  (forall x, f (g x) = Some x) -> opt_map f (map g l) = Some l.
Proof. intros H. induction l as [|x l IH]; cbn; [reflexivity|]. now rewrite H, IH. Qed.

Lemma opt_map_inv {A B} (f : A -> option B) l m : opt_map f l = Some m ->
  all2 (fun x y => f x = Some y) l m.
Proof.
  revert m; induction l as [|x l IH]; cbn; intros m H; [inversion H; exact I|].
  destruct (f x) as [y|] eqn:E; [|discriminate]. destruct (opt_map f l) as [ys|]; [|discriminate].
  inversion H; subst. cbn. auto.
Qed.

Lemma elems_seq_yaml l : elems_of (seq_yaml l) = Some l.
Proof. apply (opt_map_some _ (fun y => AElem (unaliased y))). reflexivity. Qed.
Lemma entries_map_yaml l : entries_of (map_yaml_of l) = Some l.
Proof.
  apply (opt_map_some _ (fun kv => HElem (mkHE (fst kv) (unaliased (snd kv))))). now intros [k v].
Qed.

Lemma all2_imp {A B} (P Q : A -> B -> Prop) l m :
  Forall (fun x => forall y, P x y -> Q x y) l -> all2 P l m -> all2 Q l m.
Proof.
  intros F. revert m; induction F as [|x l H F IH]; destruct m as [|y m]; cbn; auto. intros [A1 A2]; auto.
Qed.

(** Strings chosen by the serializer are not null, unless they are the two words. *)
Lemma str_not_null s : s <> lit "Null" -> s <> lit "NULL" -> not_null (str_to_yaml s).
Proof.
  intros N1 N2 t Ht. rewrite str_to_yaml_value in Ht. inversion Ht; subst t. split; [exact N1|]. split; [exact N2|].
  intros E. pose proof (unquoted_not_special s E N1 N2) as H. unfold any_unquoted, is_null_word in H.
  split; intros ->; vm_compute in H; discriminate.
Qed.

Lemma break_app a b : inline_breaking_chars a = false -> inline_breaking_chars b = false ->
  inline_breaking_chars (a ++ b) = false.
Proof.
  intros Ha Hb. destruct (inline_breaking_chars (a ++ b)) eqn:E; [|reflexivity].
  apply breaking_spec in E as (c & Hc & Hin). apply in_app_or in Hc as [Hc|Hc].
  - assert (X : inline_breaking_chars a = true) by (apply breaking_spec; now exists c). congruence.
  - assert (X : inline_breaking_chars b = true) by (apply breaking_spec; now exists c). congruence.
Qed.
Lemma digits_break s : digits s -> inline_breaking_chars s = false.
Proof.
  intros [_ H]. destruct (inline_breaking_chars s) eqn:E; [|reflexivity].
  apply breaking_spec in E as (c & Hc & Hin). specialize (H c Hc). cbn in Hin.
  repeat (destruct Hin as [<-|Hin]; [vm_compute in H; destruct H; congruence|]). destruct Hin.
Qed.
Lemma show_N_spec n : digits (show_N n).
Proof.
  split; [apply show_N_ne|]. intros c Hc. pose proof (show_N_digits n) as H.
  rewrite forallb_forall in H. specialize (H c Hc). unfold is_digit in H.
  apply andb_true_iff in H as [A B]. apply N.leb_le in A, B. now split.
Qed.
Lemma show_N_no_break n : inline_breaking_chars (show_N n) = false.
Proof. apply digits_break, show_N_spec. Qed.
Lemma show_Z_no_break z : inline_breaking_chars (show_Z z) = false.
Proof.
  unfold show_Z. destruct (z <? 0)%Z; [|apply show_N_no_break].
  apply (break_app [chr "-"]); [reflexivity|apply show_N_no_break].
Qed.
Lemma digits_b s : digits s -> forallb is_digit s = true.
Proof.
  intros [_ H]. apply forallb_forall. intros c Hc. destruct (H c Hc) as [H1 H2].
  unfold is_digit. apply N.leb_le in H1, H2. now rewrite H1, H2.
Qed.
Lemma float_break t : float_text t -> inline_breaking_chars t = false.
Proof.
  intros [->|[->|[->|(sg & ds & fr & -> & Hs & Hd & Hf)]]]; try reflexivity.
  apply break_app; [destruct Hs as [->| ->]; reflexivity|].
  apply break_app; [now apply digits_break|].
  destruct Hf as [->|(fs & -> & Hf)]; [reflexivity|].
  apply (break_app [chr "."] fs); [reflexivity|now apply digits_break].
Qed.

Lemma skip_digits_app ds r : forallb is_digit ds = true -> skip_digits (ds ++ r) = skip_digits r.
Proof.
  induction ds as [|c ds IH]; cbn; [reflexivity|]. intros H. apply andb_true_iff in H as [-> H]. auto.
Qed.
Lemma starts_digit_app ds r : digits ds -> starts_digit (ds ++ r) = true.
Proof.
  intros H. pose proof (digits_b ds H) as D. destruct H as [H _]. destruct ds as [|c ds]; [congruence|].
  cbn in *. now apply andb_true_iff in D as [-> _].
Qed.
Lemma number_float ds fr : digits ds -> (fr = [] \/ exists fs, fr = chr "." :: fs /\ digits fs) ->
  number_ok (ds ++ fr) = true.
Proof.
  intros Hd Hf. unfold number_ok. rewrite skip_digits_app by now apply digits_b.
  rewrite starts_digit_app by exact Hd.
  destruct Hf as [->|(fs & -> & Hf)]; [reflexivity|].
  change (skip_digits (chr "." :: fs)) with (chr "." :: fs).
  change (ceqb (chr ".") (chr ".")) with true. cbn iota. rewrite orb_true_l, andb_true_l.
  rewrite (skip_digits_all fs) by now apply digits_b. reflexivity.
Qed.
Lemma float_ok t : float_text t -> parse_f64_ok t = true.
Proof.
  intros [->|[->|[->|(sg & ds & fr & -> & Hs & Hd & Hf)]]]; try reflexivity.
  pose proof (number_float ds fr Hd Hf) as N. unfold parse_f64_ok.
  assert (E : skip_sign (sg ++ ds ++ fr) = ds ++ fr).
  { destruct Hs as [->| ->]; [|reflexivity]. pose proof (digits_b ds Hd) as D. destruct Hd as [Hd _].
    destruct ds as [|c ds]; [congruence|]. cbn in D. apply andb_true_iff in D as [Hc _].
    destruct (digit_not_sign c Hc) as [E1 E2]. cbn [app skip_sign]. now rewrite E1, E2. }
  rewrite E, N. now rewrite !orb_true_r.
Qed.

(** A serialized value that is not nullish is not null. *)
Lemma unq_not_null s : parse_f64_ok s = true -> not_null (Unquoted s).
Proof.
  intros H t E. injection E as <-.
  repeat split; intros; intros Q; rewrite Q in H; vm_compute in H; discriminate.
Qed.
Lemma int_not_null z : not_null (Unquoted (show_Z z)).
Proof.
  apply unq_not_null. eapply (parse_int_f64 true (Z.min z 0) (Z.max z 0) _ z).
  apply parse_show_Z; [lia|discriminate].
Qed.
Lemma coll_not_null y : as_string y = None -> not_null y.
Proof. intros H s E. congruence. Qed.

Lemma ser_not_null v : forall t y, has_ty t v -> faithful v -> ~ nullish v -> ser v = Some y -> not_null y.
Proof.
  induction v using sval_ind'; intros t0 y Ht Hf Hn E; cbn [ser] in E; try (injection E as <-);
    try (exfalso; exact (Hn I)); try (exfalso; exact Hf).
  - destruct b; intros s X; injection X as <-; repeat split; discriminate.
  - apply int_not_null.
  - destruct t0; cbn in Ht; try contradiction. now apply unq_not_null, float_ok.
  - apply str_not_null; discriminate.
  - cbn in Hn. apply str_not_null; tauto.
  - now apply coll_not_null.
  - destruct t0; cbn in Ht; try contradiction. destruct Hf. eapply IHv; eauto.
  - destruct t0; cbn in Ht; try contradiction. eapply IHv; eauto.
  - destruct (opt_map ser l); [|discriminate]. injection E as <-. now apply coll_not_null.
  - destruct (opt_map ser l); [|discriminate]. injection E as <-. now apply coll_not_null.
  - destruct (opt_map _ l); [|discriminate]. injection E as <-. now apply coll_not_null.
  - destruct (opt_map _ l); [|discriminate]. injection E as <-. now apply coll_not_null.
  - cbn in Hn. apply str_not_null; tauto.
Qed.

(** A mapping key is read back from its text. *)
Lemma key_not_null y s : not_null y -> yaml_to_key_string y = Some s ->
  (forall z, y = DoubleQ z -> s <> lit "~" /\ s <> lit "null") -> not_null (Unquoted s).
Proof.
  intros N K D t E. injection E as <-. destruct y; try discriminate; cbn in K; injection K as <-.
  - destruct (N _ eq_refl) as (A & B & _). repeat split; auto; intros; eapply D; reflexivity.
  - exact (N _ eq_refl).
Qed.

Lemma str_dq s ps : str_to_yaml s = DoubleQ ps -> s <> lit "~" /\ s <> lit "null".
Proof. intros H. split; intros ->; vm_compute in H; discriminate. Qed.

Lemma ser_dq v : forall y ps, ser v = Some y -> y = DoubleQ ps ->
  exists s, y = str_to_yaml s.
Proof.
  induction v using sval_ind'; intros y ps E D; cbn [ser] in E; subst y; try discriminate;
    try (injection E as E; eauto); try (eapply IHv; eauto).
  all: destruct (opt_map _ l); discriminate.
Qed.

Lemma key_repr v : forall t y s, has_ty t v -> faithful v ->
  ser v = Some y -> repr v y -> yaml_to_key_string y = Some s -> repr v (Unquoted s).
Proof.
  induction v using sval_ind'; intros t0 y s' Ht Hf E R K; cbn [repr] in R |- *.
  - subst y. now injection K as <-.
  - subst y. now injection K as <-.
  - destruct R as [-> R]. injection K as <-. auto.
  - destruct y; try discriminate; cbn in K, R |- *; congruence.
  - destruct y; try discriminate; cbn in K, R |- *; congruence.
  - destruct y; discriminate.
  - subst y. now injection K as <-.
  - destruct t0; try contradiction. destruct R as [R N], Hf as [Hn Hf]. split; [eapply IHv; eauto|].
    apply (key_not_null y); auto. intros ps ->.
    destruct (ser_dq v _ _ E eq_refl) as [s Es]. pose proof (str_dq s ps (eq_sym Es)) as X.
    pose proof (str_to_yaml_value s) as V. rewrite <- Es in V. cbn in V, K. congruence.
  - subst y. now injection K as <-.
  - subst y. now injection K as <-.
  - destruct t0; try contradiction. eapply IHv; eauto.
  - destruct R as (ys & R & _). destruct y; discriminate.
  - destruct R as (ys & R & _). destruct y; discriminate.
  - destruct R as (ys & R & _). destruct y; discriminate.
  - destruct R as (ys & R & _). destruct y; discriminate.
  - destruct y; try discriminate; cbn in K, R |- *; congruence.
  - destruct R.
  - destruct R.
  - destruct R.
Qed.

Lemma faithful_in l : fold_right (fun v P => faithful v /\ P) True l -> forall v, In v l -> faithful v.
Proof. induction l as [|x l IH]; cbn; [tauto|]. intros [A B] v [<-|H]; auto. Qed.
Lemma faithful_map_in (l : list (sval * sval)) :
  fold_right (fun kv P => (match kv with (k, v) => faithful k /\ faithful v end) /\ P) True l ->
  forall p, In p l -> faithful (fst p) /\ faithful (snd p).
Proof. induction l as [|[k x] l IH]; cbn; [tauto|]. intros [A B] p [<-|H]; auto. Qed.
Lemma faithful_struct_in (l : list (str * sval)) :
  fold_right (fun kv P => (match kv with (_, v) => faithful v end) /\ P) True l ->
  forall p, In p l -> faithful (snd p).
Proof. induction l as [|[k x] l IH]; cbn; [tauto|]. intros [A B] p [<-|H]; auto. Qed.

Lemma all2_in_r {A B} (P : A -> B -> Prop) l m : all2 P l m -> forall y, In y m -> exists x, P x y.
Proof.
  revert m; induction l as [|x l IH]; destruct m as [|y m]; cbn; intros H z Hz; try tauto.
  destruct H as [H1 H2], Hz as [<-|Hz]; eauto.
Qed.

(** Serialization gives a representation. *)
Lemma opt_map_all2 {A B} (f : A -> option B) (Q : A -> B -> Prop) l m : opt_map f l = Some m ->
  (forall x y, In x l -> f x = Some y -> Q x y) -> all2 Q l m.
Proof.
  revert m; induction l as [|x l IH]; cbn [opt_map]; intros m E H; [injection E as <-; exact I|].
  destruct (f x) as [y|] eqn:F; [|discriminate]. destruct (opt_map f l) as [ys|] eqn:O; [|discriminate].
  injection E as <-. cbn [all2]. split; [apply H; [now left|exact F]|]. apply IH; [reflexivity|].
  intros x' y' Hx. apply H. now right.
Qed.

Lemma ser_repr v : forall t y, has_ty t v -> faithful v -> ser v = Some y -> repr v y.
Proof.
  induction v using sval_ind'; intros t0 y Ht Hf E; cbn [ser] in E; cbn [repr].
  - now injection E as <-.
  - now injection E as <-.
  - injection E as <-. destruct t0; try contradiction. split; [reflexivity|now apply float_break].
  - injection E as <-. apply str_to_yaml_value.
  - injection E as <-. apply str_to_yaml_value.
  - injection E as <-. apply elems_seq_yaml.
  - now injection E as <-.
  - destruct t0; try contradiction. destruct Hf as [Hn Hf]. split; [exact (IHv t0 y Ht Hf E)|].
    exact (ser_not_null v t0 y Ht Hf Hn E).
  - now injection E as <-.
  - now injection E as <-.
  - destruct t0; try contradiction. exact (IHv t0 y Ht Hf E).
  - destruct (opt_map ser l) as [ys|] eqn:O; [|discriminate]. injection E as <-.
    exists ys. split; [apply elems_seq_yaml|]. destruct t0; try contradiction. cbn in Ht.
    apply (opt_map_all2 ser _ _ _ O). intros x y Hx Ex. rewrite Forall_forall in H.
    eapply H; eauto. now apply (faithful_in l).
  - destruct (opt_map ser l) as [ys|] eqn:O; [|discriminate]. injection E as <-.
    exists ys. split; [reflexivity|]. destruct t0; try contradiction. cbn in Ht.
    apply (opt_map_all2 ser _ _ _ O). intros x y Hx Ex. rewrite Forall_forall in H.
    destruct (all2_in_r _ _ _ Ht x Hx) as [t' Ht'].
    eapply H; eauto. now apply (faithful_in l).
  - destruct (opt_map _ l) as [es|] eqn:O; [|discriminate]. injection E as <-.
    exists es. split; [apply entries_map_yaml|]. destruct t0; try contradiction. cbn in Ht.
    apply (opt_map_all2 _ _ _ _ O). intros [k x] [ks y] Hx Ex. rewrite Forall_forall in H.
    destruct (H _ Hx) as [Hk Hv]. destruct (Ht _ Hx) as [Tk Tv]. cbn [fst snd] in *.
    destruct (faithful_map_in l Hf _ Hx) as [Fk Fv]. cbn [fst snd] in *.
    destruct (ser k) as [yk|] eqn:Sk; [|discriminate].
    destruct (yaml_to_key_string yk) as [ks'|] eqn:K; [|discriminate].
    destruct (ser x) as [y'|] eqn:Sx; [|discriminate]. injection Ex as <- <-. split; [|eauto].
    eapply key_repr; eauto.
  - destruct (opt_map _ l) as [es|] eqn:O; [|discriminate]. injection E as <-.
    exists es. split; [apply entries_map_yaml|]. destruct t0; try contradiction. destruct Ht as [_ Ht].
    apply (opt_map_all2 _ _ _ _ O). intros [k x] [ks y] Hx Ex. rewrite Forall_forall in H.
    specialize (H _ Hx). cbn [fst snd] in *.
    destruct (ser x) as [y'|] eqn:Sx; [|discriminate]. injection Ex as <- <-. split; [reflexivity|].
    destruct (all2_in_r _ _ _ Ht _ Hx) as [[n' t'] [_ Ht']]. cbn [snd] in Ht'.
    eapply H; eauto. apply (faithful_struct_in l Hf _ Hx).
  - injection E as <-. apply str_to_yaml_value.
  - destruct Hf.
  - destruct Hf.
  - destruct Hf.
Qed.

(** ---- pretty printing keeps representations ---- *)

Lemma all2_map_r {A B C} (P : A -> C -> Prop) (f : B -> C) l m :
  all2 (fun x y => P x (f y)) l m -> all2 P l (map f m).
Proof. revert m; induction l as [|x l IH]; destruct m as [|y m]; cbn; try tauto. intros []; auto. Qed.

Lemma all2_weaken {A B} (P Q : A -> B -> Prop) l m : all2 P l m ->
  (forall x y, In x l -> In y m -> P x y -> Q x y) -> all2 Q l m.
Proof.
  revert m; induction l as [|x l IH]; destruct m as [|y m]; cbn; try tauto.
  intros [A1 A2] H. split; [apply H; auto|]. apply IH; auto.
Qed.

Lemma array_elems_unaliased (l : list arraydata) (ys : list yaml) :
  opt_map (fun d => match d with AElem (mkA None v) => Some v | _ => None end) l = Some ys ->
  l = map (fun y => AElem (mkA None y)) ys.
Proof.
  revert ys; induction l as [|x l IH]; cbn [opt_map]; intros ys E; [injection E as <-; reflexivity|].
  destruct x as [?|?|[[?|] y]]; try discriminate.
  destruct (opt_map _ l) as [zs|] eqn:O; [|discriminate]. injection E as <-. cbn. now rewrite <- IH.
Qed.
Lemma hash_elems_unaliased (l : list hashdata) (es : list (str * yaml)) :
  opt_map (fun d => match d with HElem (mkHE k (mkA None v)) => Some (k, v) | _ => None end) l = Some es ->
  l = map (fun kv => HElem (mkHE (fst kv) (mkA None (snd kv)))) es.
Proof.
  revert es; induction l as [|x l IH]; cbn [opt_map]; intros es E; [injection E as <-; reflexivity|].
  destruct x as [?|?|[k [[?|] y]]]; try discriminate.
  destruct (opt_map _ l) as [zs|] eqn:O; [|discriminate]. injection E as <-. cbn. now rewrite <- IH.
Qed.

Lemma pretty_elems inl c y ys : long_ok inl y -> elems_of y = Some ys ->
  exists i' c', elems_of (pretty_with inl c y) = Some (map (pretty_with i' c') ys) /\
    forall x, In x ys -> long_ok i' x.
Proof.
  intros L E. destruct y as [l|l|l|l|ps|ps|s|ls ch|ls ch|s]; try discriminate; cbn [elems_of] in E.
  - injection E as <-. exists true, false. split; [reflexivity|]. cbn in L.
    induction l as [|v l IH]; [intros ? []|]. cbn in L. destruct L as [A B]. intros x [<-|H]; auto.
  - apply array_elems_unaliased in E. subst l.
    assert (L' : forall x, In x ys -> long_ok inl x).
    { cbn in L. induction ys as [|v l IH]; [intros ? []|]. cbn in L. destruct L as [A B]. intros x [<-|H]; auto. }
    destruct ys as [|z ys]; [exists inl, false; split; [reflexivity|exact L']|].
    cbn [pretty_with]. change (is_nil (map (fun y => AElem (mkA None y)) (z :: ys))) with false.
    cbn iota. revert L'. generalize (z :: ys). clear. intros zs L'.
    destruct inl.
    + exists true, false. split; [|exact L']. cbn [elems_of]. f_equal.
      clear. induction zs as [|z zs IH]; cbn; [reflexivity|now rewrite IH].
    + exists false, true. split; [|exact L']. rewrite map_map. unfold auto_inline.
      destruct (_ && _).
      * cbn [elems_of]. f_equal. clear. unfold array_elems. induction zs as [|z zs IH]; cbn; [reflexivity|now rewrite IH].
      * cbn [elems_of]. rewrite <- (map_map (pretty_with false true) (fun y => AElem (mkA None y))).
        now apply opt_map_some.
Qed.

Lemma pretty_entries inl c y es : long_ok inl y -> entries_of y = Some es ->
  exists i' c', entries_of (pretty_with inl c y) =
      Some (map (fun kv => (fst kv, pretty_with i' c' (snd kv))) es) /\
    forall x, In x es -> long_ok i' (snd x).
Proof.
  intros L E. destruct y as [l|l|l|l|ps|ps|s|ls ch|ls ch|s]; try discriminate; cbn [entries_of] in E.
  - injection E as <-. exists true, false. split.
    + cbn [pretty_with entries_of]. f_equal. apply map_ext. now intros [k v].
    + cbn in L. induction l as [|[k v] l IH]; [intros ? []|]. cbn in L. destruct L as [A B]. intros x [<-|H]; auto.
  - apply hash_elems_unaliased in E. subst l.
    assert (L' : forall x, In x es -> long_ok inl (snd x)).
    { cbn in L. induction es as [|v l IH]; [intros ? []|]. cbn in L. destruct L as [A B]. intros x [<-|H]; auto. }
    destruct es as [|z es]; [exists inl, false; split; [reflexivity|exact L']|].
    cbn [pretty_with].
    change (is_nil (map (fun kv => HElem (mkHE (fst kv) (mkA None (snd kv)))) (z :: es))) with false.
    cbn iota. revert L'. generalize (z :: es). clear. intros zs L'.
    destruct inl.
    + exists true, false. split; [|exact L']. cbn [entries_of]. f_equal.
      clear. induction zs as [|z zs IH]; cbn; [reflexivity|now rewrite IH].
    + exists false, false. split; [|exact L']. cbn [entries_of]. rewrite map_map.
      rewrite <- (map_map (fun kv => (fst kv, pretty_with false false (snd kv)))
                    (fun kv => HElem (mkHE (fst kv) (mkA None (snd kv))))).
      apply opt_map_some. now intros [k v].
Qed.

Lemma pretty_text inl c y s : long_ok inl y -> as_string y = Some s ->
  as_string (pretty_with inl c y) = Some s.
Proof.
  intros L E. rewrite <- E.
  destruct y as [l|l|l|l|ps|ps|x|ls ch|ls ch|x]; try discriminate;
    (change (pretty_with inl c ?y) with (pretty_scalar inl y); apply pretty_scalar_value; [reflexivity|exact L]).
Qed.

Lemma pretty_unq inl c s : inline_breaking_chars s = false -> pretty_with inl c (Unquoted s) = Unquoted s.
Proof. intros H. cbn. rewrite H. now rewrite andb_false_r. Qed.

Lemma pretty_not_null inl c y : long_ok inl y -> not_null y -> not_null (pretty_with inl c y).
Proof.
  intros L N s E.
  assert (Es : as_string y = Some s).
  { destruct (as_string y) as [s0|] eqn:E0.
    - rewrite (pretty_text inl c y s0 L E0) in E. exact E.
    - exfalso. destruct y as [l|l|l|l|ps|ps|x|ls ch|ls ch|x]; try discriminate E0; cbn [pretty_with] in E;
        try discriminate E; unfold auto_inline in E;
        repeat (match type of E with context [if ?b then _ else _] => destruct b end); discriminate. }
  destruct (N s Es) as (A & B & C). split; [exact A|]. split; [exact B|].
  intros U. destruct y as [l|l|l|l|ps|ps|x|ls ch|ls ch|x]; try discriminate; cbn [pretty_with pretty_scalar] in U;
    repeat (match type of U with context [if ?b then _ else _] => let Q := fresh "Q" in destruct b eqn:Q end);
    try discriminate.
  - injection U as U. cbn in Es. apply andb_true_iff in Q0 as [Q0 _]. apply andb_true_iff in Q0 as [Q0 _].
    apply andb_true_iff in Q0 as [_ Q0]. rewrite U in Q0.
    split; intros ->; vm_compute in Q0; discriminate.
  - apply C. exact U.
Qed.

Lemma repr_pretty v : forall y inl c, long_ok inl y -> repr v y -> repr v (pretty_with inl c y).
Proof.
  induction v using sval_ind'; intros y inl ca L R; cbn [repr] in R |- *.
  - subst y. destruct b; apply pretty_unq; reflexivity.
  - subst y. apply pretty_unq, show_Z_no_break.
  - destruct R as [-> R]. split; [now apply pretty_unq|exact R].
  - now apply pretty_text.
  - now apply pretty_text.
  - destruct (pretty_elems inl ca y _ L R) as (i' & c' & E & _). rewrite E. f_equal.
    rewrite map_map. apply map_ext. intros b. apply pretty_unq, show_N_no_break.
  - subst y. now apply pretty_unq.
  - destruct R as [R N]. split; [now apply IHv|now apply pretty_not_null].
  - subst y. now apply pretty_unq.
  - subst y. now apply pretty_unq.
  - now apply IHv.
  - destruct R as (ys & E & R). destruct (pretty_elems inl ca y _ L E) as (i' & c' & E' & L').
    eexists; split; [exact E'|]. apply all2_map_r. apply (all2_weaken _ _ _ _ R).
    rewrite Forall_forall in H. intros x z Hx Hz. apply H; auto.
  - destruct R as (ys & E & R). destruct (pretty_elems inl ca y _ L E) as (i' & c' & E' & L').
    eexists; split; [exact E'|]. apply all2_map_r. apply (all2_weaken _ _ _ _ R).
    rewrite Forall_forall in H. intros x z Hx Hz. apply H; auto.
  - destruct R as (ys & E & R). destruct (pretty_entries inl ca y _ L E) as (i' & c' & E' & L').
    eexists; split; [exact E'|]. apply all2_map_r. apply (all2_weaken _ _ _ _ R).
    rewrite Forall_forall in H. intros [k x] z Hx Hz [A B]. split; [exact A|].
    apply (H _ Hx); auto.
  - destruct R as (ys & E & R). destruct (pretty_entries inl ca y _ L E) as (i' & c' & E' & L').
    eexists; split; [exact E'|]. apply all2_map_r. apply (all2_weaken _ _ _ _ R).
    rewrite Forall_forall in H. intros [k x] z Hx Hz [A B]. split; [exact A|].
    apply (H _ Hx); auto.
  - now apply pretty_text.
  - exact R.
  - exact R.
  - exact R.
Qed.

(** ---- a representation is read back ---- *)

Lemma resolved_text y a s : as_string y = Some s -> into_resolved y a = Some y.
Proof. destruct y; try discriminate; reflexivity. Qed.

Lemma text_read y a s : as_string y = Some s -> de_text y a = Some s.
Proof. intros E. unfold de_text. destruct y; try discriminate; exact E. Qed.

Lemma seq_read y a ys : elems_of y = Some ys -> de_seq_values y a = Some (ys, a).
Proof.
  unfold de_seq_values. destruct y as [l|l|l|l|ps|ps|s|ls ch|ls ch|s]; try discriminate; cbn [elems_of into_resolved]; intros E.
  - now injection E as <-.
  - apply array_elems_unaliased in E. subst l. f_equal.
    induction ys as [|y ys IH]; cbn; [reflexivity|]. now rewrite IH.
Qed.
Lemma map_read y a es : entries_of y = Some es -> de_map_entries y a = Some (es, a).
Proof.
  unfold de_map_entries. destruct y as [l|l|l|l|ps|ps|s|ls ch|ls ch|s]; try discriminate; cbn [entries_of into_resolved]; intros E.
  - now injection E as <-.
  - apply hash_elems_unaliased in E. subst l. f_equal.
    induction es as [|[k y] es IH]; cbn; [reflexivity|]. now rewrite IH.
Qed.

Lemma elems_read d l ys a :
  all2 (fun v y => forall a, d y a = Some (v, a)) l ys -> de_elems d ys a = Some (l, a).
Proof.
  revert ys; induction l as [|v l IH]; destruct ys as [|y ys]; cbn; try tauto.
  intros [A B]. now rewrite A, IH.
Qed.

Lemma tuple_read ds l ys a :
  all2 (fun dv y => forall a, fst dv y a = Some (snd dv, a)) (combine ds l) ys -> length ds = length l ->
  de_tuple ds ys a = Some (l, a).
Proof.
  revert l ys; induction ds as [|d ds IH]; intros [|v l] ys; try discriminate; cbn; [reflexivity|].
  destruct ys as [|y ys]; [tauto|]. intros [A B] L. injection L as L. cbn in A. now rewrite A, (IH l ys B L).
Qed.

Lemma entries_read dk dv l es a :
  all2 (fun kv e => (forall a, dk (Unquoted (fst e)) a = Some (fst kv, a)) /\
                    (forall a, dv (snd e) a = Some (snd kv, a))) l es ->
  de_entries dk dv es a = Some (l, a).
Proof.
  revert es; induction l as [|[k v] l IH]; destruct es as [|[ks y] es]; cbn; try tauto.
  intros [[A B] C]. cbn in A, B. now rewrite A, B, IH.
Qed.

(** The fields are filled in the order of the entries. *)
Definition mk_field (nt : str * ty) : field := match nt with (n, t) => mkF n (de t) (is_option t) None end.
Definition fill (nt : str * ty) (v : sval) : field :=
  match nt with (n, t) => mkF n (de t) (is_option t) (Some v) end.

Lemma field_skip done f rest k y a : (forall g, In g done -> f_name g <> k) ->
  de_field (done ++ f :: rest) k y a =
  match de_field (f :: rest) k y a with Some (fs, a1) => Some (done ++ fs, a1) | None => None end.
Proof.
  intros H. remember (f :: rest) as tl eqn:Etl. clear Etl.
  induction done as [|g done IH]; cbn [app].
  - destruct (de_field tl k y a) as [[? ?]|]; reflexivity.
  - assert (E : seqb (f_name g) k = false) by (apply seqb_neq, H; now left). cbn [de_field]. rewrite E.
    rewrite IH by (intros g' Hg; apply H; now right).
    destruct (de_field tl k y a) as [[? ?]|]; reflexivity.
Qed.

Lemma fields_read fs : forall (l : list (str * sval)) es done a,
  NoDup (map f_name done ++ map fst fs) ->
  length fs = length l ->
  all2 (fun ft e => match ft with (n, t, v) => n = fst e /\ forall a, de t (snd e) a = Some (v, a) end)
    (combine fs (map snd l)) es ->
  de_fields (done ++ map mk_field fs) es a =
    Some (done ++ map (fun x => fill (fst x) (snd x)) (combine fs (map snd l)), a).
Proof.
  induction fs as [|[n t] fs IH]; intros [|[n' v] l] es done a ND L A; try discriminate; cbn [combine map] in *.
  - destruct es; [|destruct A]. reflexivity.
  - destruct es as [|[k y] es]; [destruct A|]. cbn [all2 fst snd] in A. destruct A as [[<- D] A].
    injection L as L. cbn [de_fields mk_field].
    rewrite field_skip.
    + cbn [de_field f_name f_val f_de f_opt]. rewrite seqb_refl, D. cbn [f_opt fst snd].
      change (mkF n (de t) (is_option t) (Some v)) with (fill (n, t) v).
      replace (done ++ fill (n, t) v :: map mk_field fs)
        with ((done ++ [fill (n, t) v]) ++ map mk_field fs) by now rewrite <- app_assoc.
            rewrite (IH l es _ a); auto.
      * rewrite <- app_assoc. reflexivity.
      * rewrite map_app, <- app_assoc. exact ND.
    + intros g Hg E. cbn in ND. apply NoDup_remove_2 in ND. apply ND. apply in_or_app. left.
      rewrite <- E. now apply in_map.
Qed.

Lemma fill_values fs (l : list (str * sval)) : length fs = length l ->
  map fst fs = map fst l ->
  opt_map field_value (map (fun x => fill (fst x) (snd x)) (combine fs (map snd l))) = Some l.
Proof.
  revert l; induction fs as [|[n t] fs IH]; intros [|[n' v] l] L E; try discriminate; cbn; [reflexivity|].
  cbn in L, E. injection L as L. injection E as -> E. now rewrite IH.
Qed.

Lemma all2_length {A B} (P : A -> B -> Prop) l m : all2 P l m -> length l = length m.
Proof. revert m; induction l as [|x l IH]; destruct m as [|y m]; cbn; try tauto. intros [_ H]. f_equal; auto. Qed.

Lemma variant_read vs n c a : NoDup (map fst vs) -> In (n, VaUnit) vs ->
  de_variant (map (fun nv => match nv with (n, v) =>
            (n, match v with
                | VaUnit => fun _ a => Some (SUnitV n, a)
                | VaNew t => fun y a =>
                    match de t y a with Some (v, a1) => Some (SNewV n v, a1) | None => None end
                | VaTup ts => fun y a =>
                    match de_seq_values y a with
                    | Some (l, a1) =>
                        match de_tuple (map de ts) l a1 with
                        | Some (vs, a2) => Some (STupV n vs, a2) | None => None end
                    | None => None
                    end
                | VaStruct fs => fun y a =>
                    match de_struct (map (fun nt => match nt with (n, t) => mkF n (de t) (is_option t) None end) fs) y a with
                    | Some (vs, a1) => Some (SStructV n vs, a1)
                    | None => None
                    end
                end) end) vs) n c a = Some (SUnitV n, a).
Proof.
  induction vs as [|[m v] vs IH]; cbn [map fst]; intros ND H; [destruct H|].
  inversion ND as [|? ? N1 N2]; subst. cbn [de_variant]. destruct H as [H|H].
  - injection H as -> ->. now rewrite seqb_refl.
  - assert (E : seqb m n = false).
    { apply seqb_neq. intros ->. apply N1. change n with (fst (n, VaUnit)). now apply in_map. }
    rewrite E. now apply IH.
Qed.

Lemma fits_kind k z : fits k z -> in_kind k z = true.
Proof.
  unfold in_kind. intros H. apply andb_true_iff. rewrite !Z.leb_le.
  destruct k; cbn [fits ikind_min ikind_max] in *;
    try (cbn; lia).
  all: lia.
Qed.

Lemma int_read k z a : k <> I128 -> k <> U128 -> fits k z ->
  de_int k (Unquoted (show_Z z)) a = Some (SInt k z, a).
Proof.
  intros N1 N2 F. pose proof (fits_kind k z F) as K. unfold de_int. cbn [into_resolved yaml_to_string].
  assert (P : match k with
              | I8 | I16 | I32 | I64 => parse_i64 (show_Z z)
              | U8 | U16 | U32 | U64 => parse_u64 (show_Z z)
              | I128 | U128 => None
              end = Some z).
  { destruct k; try congruence; cbn [fits] in F; unfold parse_i64, parse_u64, i64_min, i64_max, u64_max;
      apply parse_show_Z; try lia; discriminate. }
  rewrite P, K. reflexivity.
Qed.

Lemma show_Z_of_N n : show_Z (Z.of_N n) = show_N n.
Proof. unfold show_Z. destruct (Z.ltb_spec (Z.of_N n) 0); [lia|]. now rewrite N2Z.id. Qed.

Lemma repr_resolved v : forall y a, repr v y -> into_resolved y a = Some y.
Proof.
  induction v using sval_ind'; intros y a R; cbn [repr] in R; destruct y; try reflexivity; exfalso;
    try discriminate; try contradiction;
    try (destruct R as [R _]; discriminate); try (destruct R as (? & R & _); discriminate).
  - destruct R as [R _]. specialize (IHv _ [] R). discriminate.
  - specialize (IHv _ [] R). discriminate.
Qed.

Lemma de_repr v : forall t y a, has_ty t v -> faithful v -> repr v y -> de t y a = Some (v, a).
Proof.
  induction v using sval_ind'; intros t0 y a Ht Hf R; destruct t0; try contradiction; cbn [repr] in R;
    try (cbn in Ht; contradiction).
  - subst y. destruct b; reflexivity.
  - subst y. destruct Ht as [-> F]. apply int_read; [intros ->; exact Hf|intros ->; exact Hf|exact F].
  - destruct R as [-> _]. cbn. unfold de_float. cbn. now rewrite float_ok.
  - cbn. now rewrite (text_read y a [c]).
  - cbn. now rewrite (text_read y a s).
  - cbn [de]. rewrite (seq_read y a _ R). cbn [has_ty] in Ht.
    rewrite (elems_read (de_int U8) (map (fun b => SInt U8 (Z.of_N b)) l)).
    + f_equal. f_equal. f_equal. rewrite map_map. apply map_fix_in. intros b _. apply N2Z.id.
    + clear R. induction l as [|b l IH]; cbn [map all2]; [exact I|]. split.
      * intros a'. rewrite <- show_Z_of_N. apply int_read; try discriminate. cbn.
        specialize (Ht b (or_introl eq_refl)). lia.
      * apply IH; [|exact I]. intros b' Hb. apply Ht. now right.
  - subst y. reflexivity.
  - cbn [de has_ty] in *. destruct R as [R N], Hf as [Hn Hf].
    rewrite (repr_resolved v y a R).
    destruct y; try (now rewrite (IHv t0 _ a Ht Hf R)).
    destruct (N s eq_refl) as (A & B & C). destruct (C eq_refl) as [D F].
    unfold is_null_word. apply seqb_neq in A, B, D, F. rewrite A, B, D, F. cbn [orb].
    now rewrite (IHv t0 _ a Ht Hf R).
  - reflexivity.
  - reflexivity.
  - cbn [de has_ty] in *. now rewrite (IHv t0 y a Ht Hf R).
  - destruct R as (ys & E & R). cbn [de has_ty] in *. rewrite (seq_read y a _ E).
    rewrite (elems_read (de t0) l); [reflexivity|]. rewrite Forall_forall in H.
    apply (all2_weaken _ _ _ _ R). intros x z Hx _ Rx a'. apply H; auto. now apply (faithful_in l).
  - destruct R as (ys & E & R). cbn [de has_ty] in *. rewrite (seq_read y a _ E).
    rewrite (tuple_read (map de ts) l ys); [reflexivity| |].
    + rewrite Forall_forall in H. pose proof (faithful_in l Hf) as Hf'. clear E Hf.
      revert ts ys Ht R. induction l as [|x l IH]; intros [|t ts] [|z ys] Ht R; cbn in *; try tauto.
      destruct Ht as [T1 T2], R as [R1 R2]. split.
      * intros a'. apply H; auto.
      * apply IH; auto.
    + rewrite map_length. now apply all2_length in Ht.
  - destruct R as (es & E & R). cbn [de has_ty] in *. rewrite (map_read y a _ E).
    rewrite (entries_read (de t0_1) (de t0_2) l); [reflexivity|]. rewrite Forall_forall in H.
    apply (all2_weaken _ _ _ _ R). intros [k x] z Hx _ [Rk Rx].
    destruct (faithful_map_in l Hf _ Hx) as [Fk Fx]. destruct (Ht _ Hx) as [Tk Tx].
    destruct (H _ Hx) as [Hk Hv]. cbn [fst snd] in *. split; intros a'; auto.
  - destruct R as (es & E & R). cbn [de has_ty] in *. destruct Ht as [ND Ht].
    unfold de_struct. rewrite (map_read y a _ E).
    pose proof (all2_length _ _ _ Ht) as L.
    assert (N : map fst fs = map fst l).
    { clear - Ht. revert l Ht. induction fs as [|[n t] fs IH]; intros [|[n' x] l] Ht; cbn in *; try tauto.
      destruct Ht as [[-> _] Ht]. f_equal; auto. }
    pose proof (fields_read fs l es [] a) as F. cbn [app] in F.
    change (map (fun nt : str * ty => let (n, t) := nt in mkF n (de t) (is_option t) None) fs)
      with (map mk_field fs).
    rewrite F; auto.
    + rewrite fill_values; auto.
    + rewrite Forall_forall in H. pose proof (faithful_struct_in l Hf) as Hf'. clear - H Hf' Ht R.
      revert l es H Hf' Ht R. induction fs as [|[n t] fs IH]; intros [|[n' x] l] [|[k z] es] H Hf' Ht R; cbn in *; try tauto.
      destruct Ht as [[<- T1] T2], R as [[<- R1] R2]. split.
      * split; [reflexivity|]. intros a'. apply (H (n, x)); auto.
      * apply IH; auto.
  - cbn [de has_ty] in *. destruct Ht as [ND Ht].
    assert (C : de_enum_content y a = Some (n, Unquoted (lit "~"), a)).
    { unfold de_enum_content. destruct y; try discriminate; cbn in R |- *; now injection R as <-. }
    rewrite C. now apply variant_read.
Qed.
