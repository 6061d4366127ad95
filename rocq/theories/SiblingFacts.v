(** Lines with one-line values are read as entries and elements of one collection. *)
From Verif Require Import Base Ast Peg YamlGrammar Consume Format Spec_Parse Spec_Format FormatTree.
Import ListNotations.

Notation entry kv := (HElem (mkHE (fst kv) (mkA None (Unquoted (snd kv))))).
Notation element s := (AElem (mkA None (Unquoted s))).

Lemma format_entries (kvs : list (str * str)) : kvs <> [] ->
  format (Hash (map (fun kv => entry kv) kvs)) 0 None =
  flat_map (fun kv => [NL] ++ fst kv ++ lit ": " ++ snd kv) kvs.
Proof.
  intros N. cbn [format]. replace (is_nil (map (fun kv => entry kv) kvs)) with false by now destruct kvs.
  match goal with |- concat_mapi ?f 0 ?x = ?r => cut (forall i, concat_mapi f i x = r); [easy|] end.
  clear N. induction kvs as [|kv l IH]; intros i; [reflexivity|].
  cbn [map concat_mapi flat_map]. rewrite IH. cbn. now rewrite <- !app_assoc.
Qed.
Lemma format_elements (l : list str) : l <> [] ->
  format (Array (map (fun s => element s) l)) 0 None = flat_map (fun s => [NL] ++ lit "- " ++ s) l.
Proof.
  intros N. cbn [format]. replace (is_nil (map (fun s => element s) l)) with false by now destruct l.
  match goal with |- concat_mapi ?f 0 ?x = ?r => cut (forall i, concat_mapi f i x = r); [easy|] end.
  clear N. induction l as [|s l IH]; intros i; [reflexivity|].
  cbn [map concat_mapi flat_map]. rewrite IH. cbn. reflexivity.
Qed.

Lemma entries_canon ut (kvs : list (str * str)) : kvs <> [] ->
  Forall (fun kv => plain_key ut (fst kv) /\ block_text ut (snd kv)) kvs ->
  forall lead, entries ut lead Own (map (fun kv => entry kv) kvs).
Proof.
  intros N F. induction F as [|kv l [K T] F IH]; [congruence|]. intros lead.
  destruct l as [|kv' l'].
  - apply ELast; [exact K|]. apply CFlow; [exact T|exact I].
  - cbn [map]. apply ECons; [exact K|apply CFlow; [exact T|exact I]|discriminate|]. apply IH. discriminate.
Qed.
Lemma elements_canon ut (l : list str) : l <> [] -> Forall (block_text ut) l ->
  forall lead, elements ut lead (map (fun s => element s) l).
Proof.
  intros N F. induction F as [|s l T F IH]; [congruence|]. intros lead.
  destruct l as [|s' l'].
  - apply NLast. apply CFlow; [exact T|exact I].
  - cbn [map]. apply NCons; [apply CFlow; [exact T|exact I]|]. apply IH. discriminate.
Qed.

Lemma root_canon ut y :
  match y with Hash l => entries ut false Own l | Array l => elements ut false l | _ => False end ->
  canon_doc ut (mkDoc [] [DYaml y]).
Proof. intros H. split; [constructor|]. exists [], y, []. repeat split; try constructor; exact H. Qed.

Lemma entry_lines ut (kvs : list (str * str)) : kvs <> [] ->
  Forall (fun kv => plain_key ut (fst kv) /\ block_text ut (snd kv)) kvs ->
  parse_yaml ut (lit "---" ++ flat_map (fun kv => [NL] ++ fst kv ++ lit ": " ++ snd kv) kvs) =
  CVal (mkDoc [] [DYaml (Hash (map (fun kv => entry kv) kvs))]).
Proof.
  intros N F. rewrite <- (format_entries kvs N).
  rewrite <- (format_parse ut (mkDoc [] [DYaml (Hash (map (fun kv => entry kv) kvs))])).
  - unfold format_doc. cbn [leading items flat_map format_docdata app]. now rewrite app_nil_r.
  - apply root_canon. now apply entries_canon.
Qed.
Lemma element_lines ut (l : list str) : l <> [] -> Forall (block_text ut) l ->
  parse_yaml ut (lit "---" ++ flat_map (fun s => [NL] ++ lit "- " ++ s) l) =
  CVal (mkDoc [] [DYaml (Array (map (fun s => element s) l))]).
Proof.
  intros N F. rewrite <- (format_elements l N).
  rewrite <- (format_parse ut (mkDoc [] [DYaml (Array (map (fun s => element s) l))])).
  - unfold format_doc. cbn [leading items flat_map format_docdata app]. now rewrite app_nil_r.
  - apply root_canon. now apply elements_canon.
Qed.
