(** The errors of the typed reader: the model with errors is the model without, and the
    error is the complaint about the first wrong node. *)
From Coq Require Import ZArith.
From Verif Require Import Base Ast Strings Format Num Pretty Ser De DeErr Spec_Pretty Spec_Serde Spec_Look Spec_Typed Spec_Refs Spec_Reads Spec_Err LookFacts TypedFacts SerdeFacts2.
Import ListNotations.

Definition erase {A} (x : eres A) : option A := match x with inl v => Some v | inr _ => None end.
Lemma erase_bind {A B} (x : eres A) (f : A -> eres B) : erase (ebind x f) = match erase x with Some v => erase (f v) | None => None end.
Proof. now destruct x. Qed.
Lemma erase_iff {A} (x : eres A) v : erase x = Some v <-> x = inl v.
Proof. destruct x; cbn; split; congruence. Qed.

Definition tracks (ed : edecoder) (d : decoder) : Prop := forall y a, erase (ed y a) = d y a.
Lemma resolved_erase y a : erase (resolved_e y a) = into_resolved y a.
Proof. destruct y; try reflexivity. cbn. now destruct (resolve a s). Qed.
Ltac er := repeat (rewrite ?erase_bind; cbv beta iota).
Lemma bool_erase y a : erase (de_bool_e y a) = de_bool y a.
Proof.
  unfold de_bool_e, de_bool. er. rewrite resolved_erase. destruct (into_resolved y a) as [[]|]; try reflexivity.
  repeat match goal with |- context [if ?b then _ else _] => destruct b end; reflexivity.
Qed.
Lemma int_erase k y a : erase (de_int_e k y a) = de_int k y a.
Proof.
  unfold de_int_e, de_int, de_int_with. destruct k; er; rewrite ?resolved_erase; destruct (into_resolved y a) as [w|]; try reflexivity;
    destruct (yaml_to_string w); try reflexivity; match goal with |- context [parse_i64 ?s] => destruct (parse_i64 s) | |- context [parse_u64 ?s] => destruct (parse_u64 s) end;
    try reflexivity; match goal with |- context [if ?b then _ else _] => destruct b end; reflexivity.
Qed.
Lemma float_erase y a : erase (de_float_e y a) = de_float y a.
Proof.
  unfold de_float_e, de_float. er. rewrite resolved_erase. destruct (into_resolved y a) as [w|]; [|reflexivity].
  destruct (yaml_to_string w); [|reflexivity]. match goal with |- context [if ?b then _ else _] => destruct b end; reflexivity.
Qed.
Lemma text_erase y a : erase (de_text_e y a) = de_text y a.
Proof. unfold de_text_e, de_text. er. rewrite resolved_erase. destruct (into_resolved y a) as [w|]; [|reflexivity]. now destruct (yaml_to_string w). Qed.
Lemma seq_erase y a : erase (de_seq_e y a) = de_seq_values y a.
Proof. unfold de_seq_e, de_seq_values. er. rewrite resolved_erase. now destruct (into_resolved y a) as [[]|]. Qed.
Lemma map_erase y a : erase (de_map_e y a) = de_map_entries y a.
Proof. unfold de_map_e, de_map_entries. er. rewrite resolved_erase. now destruct (into_resolved y a) as [[]|]. Qed.
Lemma elems_erase ed d l : tracks ed d -> forall a, erase (de_elems_e ed l a) = de_elems d l a.
Proof.
  intros T. induction l as [|y l IH]; intros a; cbn [de_elems_e de_elems]; [reflexivity|]. er. rewrite T. destruct (d y a) as [[v a1]|]; [|reflexivity].
  er. rewrite IH. now destruct (de_elems d l a1) as [[vs a2]|].
Qed.
Lemma tuple_erase eds ds : Forall2 tracks eds ds -> forall l i a, erase (de_tuple_e i eds l a) = de_tuple ds l a.
Proof.
  induction 1 as [|ed d eds ds T F IH]; intros l i a; cbn [de_tuple_e de_tuple]; [reflexivity|]. destruct l as [|y l]; [reflexivity|].
  er. rewrite T. destruct (d y a) as [[v a1]|]; [|reflexivity]. er. rewrite IH. now destruct (de_tuple ds l a1) as [[vs a2]|].
Qed.
Lemma entries_erase ek ev dk dv l : tracks ek dk -> tracks ev dv -> forall a, erase (de_entries_e ek ev l a) = de_entries dk dv l a.
Proof.
  intros Tk Tv. induction l as [|[k y] l IH]; intros a; cbn [de_entries_e de_entries]; [reflexivity|]. er. rewrite Tk. destruct (dk (Unquoted k) a) as [[x a1]|]; [|reflexivity].
  er. rewrite Tv. destruct (dv y a1) as [[v a2]|]; [|reflexivity]. er. rewrite IH. now destruct (de_entries dk dv l a2) as [[vs a3]|].
Qed.
Definition ftracks (ef : efield) (f : field) : Prop :=
  ef_name ef = f_name f /\ tracks (ef_de ef) (f_de f) /\ ef_opt ef = f_opt f /\ ef_val ef = f_val f.
Lemma field_erase efs fs k y : Forall2 ftracks efs fs -> forall a,
  match erase (de_field_e efs k y a), de_field fs k y a with
  | Some (efs', a1), Some (fs', a2) => Forall2 ftracks efs' fs' /\ a1 = a2
  | None, None => True | _, _ => False end.
Proof.
  induction 1 as [|ef f efs fs (N & T & O & V) F IH]; intros a; cbn [de_field_e de_field]; [now split|].
  rewrite N, V. destruct (seqb (f_name f) k).
  - destruct (f_val f); [exact I|]. er. rewrite T. destruct (f_de f y a) as [[v a1]|]; [|exact I]. cbn. split; [|reflexivity].
    constructor; [|exact F]. repeat split; assumption.
  - er. specialize (IH a). destruct (de_field fs k y a) as [[fs' a2]|], (erase (de_field_e efs k y a)) as [[efs' a1]|]; try contradiction; [|exact I].
    destruct IH as [IH ->]. cbn. split; [|reflexivity]. constructor; [|exact IH]. repeat split; assumption.
Qed.
Lemma fields_erase l : forall efs fs, Forall2 ftracks efs fs -> forall a,
  match erase (de_fields_e efs l a), de_fields fs l a with
  | Some (efs', a1), Some (fs', a2) => Forall2 ftracks efs' fs' /\ a1 = a2
  | None, None => True | _, _ => False end.
Proof.
  induction l as [|[k y] l IH]; intros efs fs F a; cbn [de_fields_e de_fields]; [now split|]. er. pose proof (field_erase efs fs k y F a) as H.
  destruct (de_field fs k y a) as [[fs' a2]|], (erase (de_field_e efs k y a)) as [[efs' a1]|]; try contradiction; [|exact I].
  destruct H as [H ->]. now apply IH.
Qed.
Lemma values_erase efs fs : Forall2 ftracks efs fs -> erase (field_values_e efs) = opt_map field_value fs.
Proof.
  induction 1 as [|ef f efs fs (N & T & O & V) F IH]; cbn [field_values_e opt_map]; [reflexivity|]. er. unfold field_value at 1. rewrite N, V, O.
  destruct (f_val f); [|destruct (f_opt f)]; cbn [erase]; er; rewrite ?IH; try reflexivity; now destruct (opt_map field_value fs).
Qed.
Lemma struct_erase efs fs y a : Forall2 ftracks efs fs -> erase (de_struct_e efs y a) = de_struct fs y a.
Proof.
  intros F. unfold de_struct_e, de_struct. er. rewrite map_erase. destruct (de_map_entries y a) as [[l a1]|]; [|reflexivity]. er.
  pose proof (fields_erase l efs fs F a1) as H.
  destruct (de_fields fs l a1) as [[fs' a2]|], (erase (de_fields_e efs l a1)) as [[efs' a3]|]; try contradiction; [|reflexivity].
  destruct H as [H ->]. er. rewrite (values_erase _ _ H). now destruct (opt_map field_value fs').
Qed.
Lemma enum_erase y a : erase (de_enum_e y a) = de_enum_content y a.
Proof.
  unfold de_enum_e, de_enum_content. er. rewrite resolved_erase. destruct (into_resolved y a) as [w|]; [|reflexivity].
  destruct w; try reflexivity; try (destruct l as [|[n v] [|? ?]]; reflexivity);
    match goal with |- context [hash_entries a ?l] => destruct (hash_entries a l) as [[|[n v] [|? ?]] a1] end; reflexivity.
Qed.
Lemma variant_erase evs vs n : Forall2 (fun e x => fst e = fst x /\ tracks (snd e) (snd x)) evs vs -> tracks (de_variant_e evs n) (de_variant vs n).
Proof.
  induction 1 as [|[m ed] [m' d] evs vs [N T] F IH]; intros y a; cbn [de_variant_e de_variant fst snd] in *; [reflexivity|]. subst m'.
  destruct (seqb m n); [apply T|apply IH].
Qed.
Lemma fields_track fs : Forall (fun nt => tracks (de_e (snd nt)) (de (snd nt))) fs ->
  Forall2 ftracks (map (fun nt => match nt with (n, t) => mkEF n (de_e t) (is_option t) None end) fs)
                  (map (fun nt => match nt with (n, t) => mkF n (de t) (is_option t) None end) fs).
Proof. induction 1 as [|[n t] fs T F IH]; cbn [map]; constructor; [|exact IH]. repeat split. exact T. Qed.
Lemma tuple_track ts : Forall (fun t => tracks (de_e t) (de t)) ts -> Forall2 tracks (map de_e ts) (map de ts).
Proof. induction 1; cbn [map]; constructor; assumption. Qed.

Lemma de_erase t : tracks (de_e t) (de t).
Proof.
  induction t using ty_ind'; intros y a; cbn [de_e de].
  - apply bool_erase.
  - apply int_erase.
  - apply float_erase.
  - er. rewrite text_erase. destruct (de_text y a) as [[|c [|d s]]|]; reflexivity.
  - er. rewrite text_erase. now destruct (de_text y a).
  - er. rewrite seq_erase. destruct (de_seq_values y a) as [[l a1]|]; [|reflexivity]. er. rewrite (elems_erase _ (de_int U8)); [|exact (int_erase U8)].
    now destruct (de_elems (de_int U8) l a1) as [[vs a2]|].
  - er. rewrite resolved_erase. destruct (into_resolved y a) as [w|]; [|reflexivity].
    assert (X : erase (let! (v, a1) := de_e t w a in inl (SSome v, a1)) = match de t w a with Some (v, a1) => Some (SSome v, a1) | None => None end).
    { er. rewrite (IHt w a). now destruct (de t w a) as [[v a1]|]. }
    destruct w; try exact X. destruct (is_null_word s); [reflexivity|exact X].
  - reflexivity.
  - reflexivity.
  - er. rewrite (IHt y a). now destruct (de t y a) as [[v a1]|].
  - er. rewrite seq_erase. destruct (de_seq_values y a) as [[l a1]|]; [|reflexivity]. er. rewrite (elems_erase _ _ l IHt).
    now destruct (de_elems (de t) l a1) as [[vs a2]|].
  - er. rewrite seq_erase. destruct (de_seq_values y a) as [[l a1]|]; [|reflexivity]. er. rewrite (tuple_erase _ _ (tuple_track ts H)).
    now destruct (de_tuple (map de ts) l a1) as [[vs a2]|].
  - er. rewrite map_erase. destruct (de_map_entries y a) as [[l a1]|]; [|reflexivity]. er. rewrite (entries_erase _ _ _ _ l IHt1 IHt2).
    now destruct (de_entries (de t1) (de t2) l a1) as [[vs a2]|].
  - er. rewrite (struct_erase _ _ y a (fields_track fs H)). match goal with |- context [de_struct ?f y a] => now destruct (de_struct f y a) as [[vs a1]|] end.
  - er. rewrite enum_erase. destruct (de_enum_content y a) as [[[n c] a1]|]; [|reflexivity]. apply variant_erase.
    clear y a n c a1. induction H as [|[n v] vs P F IH]; cbn [map]; constructor; [|exact IH]. cbn [fst snd] in *. split; [reflexivity|].
    intros y a. destruct v as [|t|ts|fs]; cbn [va_P] in P.
    + reflexivity.
    + er. rewrite (P y a). now destruct (de t y a) as [[v a1]|].
    + er. rewrite seq_erase. destruct (de_seq_values y a) as [[l a1]|]; [|reflexivity]. er. rewrite (tuple_erase _ _ (tuple_track ts P)).
      now destruct (de_tuple (map de ts) l a1) as [[vs' a2]|].
    + er. rewrite (struct_erase _ _ y a (fields_track fs P)). match goal with |- context [de_struct ?f y a] => now destruct (de_struct f y a) as [[vs' a1]|] end.
Qed.
Lemma de_ok t y a r : de_e t y a = inl r <-> de t y a = Some r.
Proof. rewrite <- (de_erase t y a), erase_iff. tauto. Qed.
Lemma de_bad t y a : (exists e, de_e t y a = inr e) <-> de t y a = None.
Proof. rewrite <- (de_erase t y a). destruct (de_e t y a); cbn; split; try congruence; [intros [? ?]; congruence|eauto]. Qed.

(** The nodes are all read, by the model. *)
Inductive all_done : list (ty * yaml) -> anchors -> anchors -> Prop :=
| DoneNil a : all_done [] a a
| DoneCons t y l v a a1 a2 : de t y a = Some (v, a1) -> all_done l a1 a2 -> all_done ((t, y) :: l) a a2.
Arguments CUndefined {all_read}.
Arguments CBoolGot {all_read}.
Arguments CBool {all_read}.
Arguments CInteger {all_read}.
Arguments CUnsigned {all_read}.
Arguments CNotInteger {all_read}.
Arguments CRange {all_read}.
Arguments CUnsupported {all_read}.
Arguments CFloat {all_read}.
Arguments CNotFloat {all_read}.
Arguments CString {all_read}.
Arguments CChar {all_read}.
Arguments CSequence {all_read}.
Arguments CLength {all_read}.
Arguments CMap {all_read}.
Arguments CDuplicate {all_read}.
Arguments CMissing {all_read}.
Arguments CSingleKey {all_read}.
Arguments CSingleKeyInline {all_read}.
Arguments CEnum {all_read}.
Arguments CVariant {all_read}.
Arguments Here {all_read}.
Arguments Inside {all_read}.
