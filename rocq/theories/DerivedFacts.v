(** Lemmas for C81: derived impls, call by call. *)
From Coq Require Import ZArith.
From Verif Require Import Base Ast Num Ser De DeCalls Hints LookFacts AccessFacts ErrFacts7 ToldFacts Spec_Serde Spec_Typed Spec_Visit Spec_Reads Spec_Told.
Import ListNotations.

Lemma serve_wmap {V A B} (f : A -> B) (w : walk V A) : forall l a, serve_seq (wmap f w) l a = gmap f (serve_seq w l a).
Proof.
  induction w as [x| |d g IH]; intros l a; [reflexivity|reflexivity|]. cbn [wmap serve_seq]. destruct l as [|y l]; [apply IH|].
  destruct (d y a); [apply IH|apply IH|reflexivity].
Qed.
Lemma serve_vmap {V A B} (f : A -> B) (w : visit V A) : forall l q a, serve (vmap f w) l q a = gmap f (serve w l q a).
Proof.
  induction w as [x| |d g IH|d g IH]; intros l q a; [reflexivity|reflexivity| |]; cbn [vmap serve].
  - destruct l as [|[k y] l]; [apply IH|]. destruct (d (Unquoted k) a); [apply IH|apply IH|reflexivity].
  - destruct q as [y|]; [|reflexivity]. destruct (d y a); [apply IH|apply IH|reflexivity].
Qed.
Lemma agrees_gmap {A B} (f : A -> B) (g : got A) r : agrees g r ->
  agrees (gmap f g) (match r with Some (x, a) => Some (f x, a) | None => None end).
Proof. exact (agrees_map f g r). Qed.

Lemma seq_told y a : tell_seq y a = match de_seq_values y a with Some (l, a1) => Says (SaySeq l) a1 | None => Fails a end.
Proof.
  unfold tell_seq, de_seq_values. destruct (into_resolved y a) as [[]|]; reflexivity.
Qed.
Lemma map_told y a : tell_map y a = match de_map_entries y a with Some (l, a1) => Says (SayMap l) a1 | None => Fails a end.
Proof.
  unfold tell_map, de_map_entries. destruct (into_resolved y a) as [[]|]; reflexivity.
Qed.
Lemma enum_told y a : exists b, tell_enum y a = match de_enum_content y a with Some (n, c, a1) => Says (SayEnum n c) a1 | None => Fails b end.
Proof.
  unfold tell_enum, de_enum_content. destruct (into_resolved y a) as [[l|l|l|l|s|s|s|ls c|ls c|n]|]; try (exists a; reflexivity).
  - exists a. destruct l as [|[n v] [|e l]]; reflexivity.
  - destruct (hash_entries a l) as [es b]. exists b. destruct es as [|[n v] [|e es]]; reflexivity.
Qed.

Lemma int_matches k : matches (ask (int_hint k) (int_visitor k)) (de (TInt k)).
Proof.
  intros y a. unfold ask. cbn [de]. unfold de_int.
  destruct k; cbn [int_hint tell]; try (unfold tell_text; destruct (into_resolved y a) as [z|]; [|exists a; reflexivity];
    destruct (yaml_to_string z) as [s|]; [|exists a; reflexivity]).
  all: try (match goal with |- context [parse_i64 ?s] => destruct (parse_i64 s) as [i|] | |- context [parse_u64 ?s] => destruct (parse_u64 s) as [i|] end;
    [|exists a; reflexivity]; cbn [option_map int_visitor v_i64 v_u64]; unfold give;
    match goal with |- context [in_kind ?k ?i] => destruct (in_kind k i) end; [reflexivity|exists a; reflexivity]).
  all: exists a; reflexivity.
Qed.

Lemma slots_match fs (P : ty -> Prop) :
  Forall (fun nt : str * ty => matches (derived (snd nt)) (de (snd nt))) fs ->
  Forall2 same_slot (map (fun nt => match nt with (m, t) => mkSlot m (derived t) (is_option t) None end) fs)
                    (map (fun nt => match nt with (n, t) => mkF n (de t) (is_option t) None end) fs).
Proof.
  induction 1 as [|[n t] fs H F IH]; [constructor|]. cbn [map]. constructor; [|exact IH].
  split; [reflexivity|]. split; [reflexivity|]. split; [reflexivity|exact H].
Qed.
Lemma tuple_match ts : Forall (fun t => matches (derived t) (de t)) ts -> Forall2 matches (map derived ts) (map de ts).
Proof. induction 1; cbn [map]; constructor; assumption. Qed.

Lemma seq_asked {W} (h : hint) (v : visitor W) y a : (forall y a, tell h y a = tell_seq y a) ->
  ask h v y a = match de_seq_values y a with Some (l, a1) => serve_seq (v_seq v (S (length l))) l a1 | None => GErr a end.
Proof. intros H. unfold ask. rewrite H, seq_told. destruct (de_seq_values y a) as [[l a1]|]; reflexivity. Qed.
Lemma map_asked {W} (h : hint) (v : visitor W) y a : (forall y a, tell h y a = tell_map y a) ->
  ask h v y a = match de_map_entries y a with Some (l, a1) => serve (v_map v (S (length l))) l None a1 | None => GErr a end.
Proof. intros H. unfold ask. rewrite H, map_told. destruct (de_map_entries y a) as [[l a1]|]; reflexivity. Qed.

Lemma tuple_result (f : list sval -> sval) ts l a : Forall (fun t => matches (derived t) (de t)) ts ->
  agrees (serve_seq (wmap f (tuple_walk (map derived ts) [])) l a)
         (match de_tuple (map de ts) l a with Some (vs, a2) => Some (f vs, a2) | None => None end).
Proof.
  intros F. rewrite serve_wmap. pose proof (tuple_serve _ _ (tuple_match ts F) l [] a) as H. apply (agrees_gmap f) in H.
  destruct (de_tuple (map de ts) l a) as [[vs a2]|]; exact H.
Qed.
Lemma struct_result (f : list (str * sval) -> sval) fs y a l a1 : Forall (fun nt : str * ty => matches (derived (snd nt)) (de (snd nt))) fs ->
  de_map_entries y a = Some (l, a1) ->
  agrees (serve (vmap f (struct_visit (S (length l))
      (map (fun nt => match nt with (m, t) => mkSlot m (derived t) (is_option t) None end) fs))) l None a1)
    (match de_struct (map (fun nt => match nt with (n, t) => mkF n (de t) (is_option t) None end) fs) y a with
     | Some (vs, a2) => Some (f vs, a2) | None => None end).
Proof.
  intros F E. rewrite serve_vmap. unfold de_struct. rewrite E.
  pose proof (struct_serve l (S (length l)) _ _ None a1 (slots_match fs (fun _ => True) F) (le_n _)) as H. apply (agrees_gmap f) in H.
  destruct (de_fields _ l a1) as [[fs1 a2]|]; [|exact H]. destruct (opt_map field_value fs1); exact H.
Qed.

Lemma derived_matches t : matches (derived t) (de t).
Proof.
  induction t as [| k| | | | |t IH| | |t IH|t IH|ts IH|k v IHk IHv|fs IH|vs IH] using ty_ind'; intros y a.
  - (* bool *) cbn [derived de]. unfold ask, de_bool. cbn [tell]. unfold tell_bool.
    destruct (into_resolved y a) as [[]|]; try (exists a; reflexivity).
    destruct (one_of _ s); [reflexivity|]. destruct (one_of _ s); [reflexivity|exists a; reflexivity].
  - apply int_matches.
  - (* float *) cbn [derived de]. unfold ask, de_float. cbn [tell]. unfold tell_text.
    destruct (into_resolved y a) as [z|]; [|exists a; reflexivity]. destruct (yaml_to_string z) as [s|]; [|exists a; reflexivity].
    destruct (parse_f64_ok s); [reflexivity|exists a; reflexivity].
  - (* char *) cbn [derived de]. unfold ask, de_text. cbn [tell]. unfold tell_text.
    destruct (into_resolved y a) as [z|]; [|exists a; reflexivity]. destruct (yaml_to_string z) as [s|]; [|exists a; reflexivity].
    destruct s as [|c [|c' s]]; [exists a; reflexivity|reflexivity|exists a; reflexivity].
  - (* string *) cbn [derived de]. unfold ask, de_text. cbn [tell]. unfold tell_text.
    destruct (into_resolved y a) as [z|]; [|exists a; reflexivity]. destruct (yaml_to_string z) as [s|]; [reflexivity|exists a; reflexivity].
  - (* bytes *) cbn [derived de]. rewrite seq_asked by reflexivity. destruct (de_seq_values y a) as [[l a1]|]; [|exists a; reflexivity].
    cbn [seq_visitor v_seq]. rewrite serve_wmap.
    pose proof (vec_serve (ask HU8 (int_visitor U8)) (de_int U8) (int_matches U8) l (S (length l)) [] a1 (le_n _)) as H.
    apply (agrees_gmap bytes_of) in H. destruct (de_elems (de_int U8) l a1) as [[vs a2]|]; exact H.
  - (* option *) cbn [derived de]. unfold ask. cbn [tell]. unfold tell_option.
    destruct (into_resolved y a) as [z|]; [|exists a; reflexivity].
    destruct z as [l|l|l|l|s|s|s|ls c|ls c|n];
      try (apply (agrees_gmap SSome); apply IH).
    destruct (is_null_word s); [reflexivity|]. apply (agrees_gmap SSome). apply IH.
  - reflexivity.
  - reflexivity.
  - (* newtype *) cbn [derived de]. unfold ask. cbn [tell newtype_visitor v_newtype]. apply (agrees_gmap SNewtype). apply IH.
  - (* seq *) cbn [derived de]. rewrite seq_asked by reflexivity. destruct (de_seq_values y a) as [[l a1]|]; [|exists a; reflexivity].
    cbn [seq_visitor v_seq]. rewrite serve_wmap. pose proof (vec_serve _ _ IH l (S (length l)) [] a1 (le_n _)) as H.
    apply (agrees_gmap SSeq) in H. destruct (de_elems (de t) l a1) as [[vs a2]|]; exact H.
  - (* tuple *) cbn [derived de]. rewrite seq_asked by reflexivity. destruct (de_seq_values y a) as [[l a1]|]; [|exists a; reflexivity].
    apply (tuple_result STuple). exact IH.
  - (* map *) cbn [derived de]. rewrite map_asked by reflexivity. destruct (de_map_entries y a) as [[l a1]|]; [|exists a; reflexivity].
    cbn [map_visitor v_map]. rewrite serve_vmap. pose proof (map_serve _ _ _ _ IHk IHv l (S (length l)) [] None a1 (le_n _)) as H.
    apply (agrees_gmap SMap) in H. destruct (de_entries (de k) (de v) l a1) as [[vs a2]|]; exact H.
  - (* struct *) cbn [derived de]. rewrite map_asked by reflexivity. destruct (de_map_entries y a) as [[l a1]|] eqn:E.
    + apply (struct_result SStruct); assumption.
    + unfold de_struct. rewrite E. exists a. reflexivity.
  - (* enum *) cbn [derived de]. unfold ask. cbn [tell]. destruct (enum_told y a) as [b E]. rewrite E. clear E.
    destruct (de_enum_content y a) as [[[n c] a1]|]; [|exists b; reflexivity].
    cbn [enum_visitor v_variant]. unfold serve_enum. change (tell HIdentifier (Unquoted n) a1) with (Says (SayString n) a1). cbv iota.
    induction IH as [|[m w] vs Hw Hvs IHvs]; [exists a1; reflexivity|]. cbn [map named de_variant].
    destruct (seqb m n); [|exact IHvs]. clear IHvs Hvs. cbn [snd va_P] in Hw. destruct w as [|t|ts|fs]; cbn [serve_variant].
    + reflexivity.
    + apply (agrees_gmap (SNewV m)). apply Hw.
    + cbn [tell]. rewrite seq_told. destruct (de_seq_values c a1) as [[l a2]|]; [|exists a1; reflexivity].
      apply (tuple_result (STupV m)). exact Hw.
    + cbn [tell]. rewrite map_told. destruct (de_map_entries c a1) as [[l a2]|] eqn:E.
      * apply (struct_result (SStructV m)); assumption.
      * unfold de_struct. rewrite E. exists a1. reflexivity.
Qed.

Lemma derived_yields t y a v b : distinct t -> (derived t y a = Got v b <-> yields t y a v b).
Proof.
  intros D. rewrite <- (de_yields t y a v b D). pose proof (derived_matches t y a) as H. unfold agrees in H.
  destruct (de t y a) as [[w c]|]; [rewrite H; split; congruence|]. destruct H as [c H]. rewrite H. split; discriminate.
Qed.
Lemma derived_safe t y a : derived t y a <> GPanic.
Proof.
  pose proof (derived_matches t y a) as H. unfold agrees in H. destruct (de t y a) as [[w c]|]; [rewrite H; discriminate|].
  destruct H as [c H]. rewrite H. discriminate.
Qed.
Lemma name_asks y a : ask HIdentifier (text_visitor (fun s => Some (SStr s))) y a = name_seed y a.
Proof.
  unfold ask, name_seed. cbn [tell]. unfold tell_text, de_text. destruct (into_resolved y a) as [z|]; [|reflexivity].
  destruct (yaml_to_string z); reflexivity.
Qed.
Lemma skip_asks y a : ask HIgnored (unit_visitor SUnit) y a = skip_seed y a.
Proof. reflexivity. Qed.

(** A hand-written visitor of a variant that reads to the end. *)
Theorem variant_loops t k s y a n : (let v := ReadTuple n (fun b => wmap SSeq (vec_walk b (derived t) [])) in
  agrees (serve_variant v y a) (de (TSeq t) y a)) /\
  agrees (serve_variant (ReadStruct (fun b => vmap SMap (map_visit b (derived k) (derived s) []))) y a) (de (TMap k s) y a).
Proof.
  split.
  - cbn [serve_variant de tell]. rewrite seq_told. destruct (de_seq_values y a) as [[l a1]|]; [|exists a; reflexivity].
    rewrite serve_wmap. pose proof (vec_serve _ _ (derived_matches t) l (S (length l)) [] a1 (le_n _)) as H.
    apply (agrees_gmap SSeq) in H. destruct (de_elems (de t) l a1) as [[vs a2]|]; exact H.
  - cbn [serve_variant de tell]. rewrite map_told. destruct (de_map_entries y a) as [[l a1]|]; [|exists a; reflexivity].
    rewrite serve_vmap. pose proof (map_serve _ _ _ _ (derived_matches k) (derived_matches s) l (S (length l)) [] None a1 (le_n _)) as H.
    apply (agrees_gmap SMap) in H. destruct (de_entries (de k) (de s) l a1) as [[vs a2]|]; exact H.
Qed.

Lemma ask_scalar V (v : visitor V) h y a m b o : hears h y a m b -> returned v m = Some o ->
  ask h v y a = match o with Some x => Got x b | None => GErr b end.
Proof. intros H. apply told_iff in H. unfold ask. rewrite H. destruct m; intros E; inversion E; subst; reflexivity. Qed.
Lemma ask_inner V (v : visitor V) h y z a b :
  (hears h y a (SaySome z) b -> ask h v y a = v_some v z b) /\ (hears h y a (SayNewtype z) b -> ask h v y a = v_newtype v z b).
Proof. split; intros H; apply told_iff in H; unfold ask; rewrite H; reflexivity. Qed.
