(** The parser as a whole: it decides every text, and what it returns is well formed. *)
From Verif Require Import Base Ast Path Num Peg PegFacts PegTree YamlGrammar Consume PathGrammar
  Spec_Insert Spec_Path PathFacts Spec_Parse YamlTree YamlValues.
Import ListNotations.

Section Parse.
Context (ut : unitab).
Notation G := (yaml_grammar ut).

Lemma yaml_total s : exists x,
  eval G (yaml_fuel s) true (PRule y_yaml) s [] = Some x /\ runs G true (PRule y_yaml) s [] x.
Proof.
  destruct (rule_total G y_nul y_rank 8 40 (yaml_grammar_ok ut) y_yaml s [] ltac:(lia)) as [x E].
  exists x. split; [exact E|]. exact (eval_sound _ _ _ _ _ _ _ E).
Qed.

(** The parse tree of an accepted text. *)
Lemma yaml_accepted s t ns rest k :
  runs G true (PRule y_yaml) s [] (Ok t ns rest k) ->
  exists n, ns = [n] /\ label n = y_yaml /\ text n = t /\ good ut n.
Proof.
  intros H. pose proof (runs_trees G y_end (y_eoi_only ut) _ _ _ _ _ H eq_refl _ _ _ _ eq_refl) as [T _].
  inversion H; subst; [|discriminate]. cbn [fst yaml_grammar wrap] in *. eexists. split; [reflexivity|]. split; [reflexivity|]. split; [reflexivity|].
  inversion T; subst. apply tree_good; [assumption|reflexivity].
Qed.

(** [parse_yaml] by the result of the run. *)
Lemma parse_yaml_by (P : cres document -> Prop) s :
  (runs G true (PRule y_yaml) s [] Fail -> P CErr) ->
  (forall t n rest k, runs G true (PRule y_yaml) s [] (Ok t [n] rest k) -> label n = y_yaml ->
     text n = t -> good ut n ->
     P (match consume n with
        | CVal (VDoc d) => CVal d | CVal _ => CErr | CErr => CErr | CPanic => CPanic end)) ->
  P (parse_yaml ut s).
Proof.
  intros HF HO. destruct (yaml_total s) as (x & E & Hr). unfold parse_yaml.
  revert E. generalize (yaml_fuel s). intros f E. rewrite E.
  destruct x as [t ns rest k| |].
  - pose proof (yaml_accepted _ _ _ _ _ Hr) as (n & -> & L & T & Hg). now apply (HO t n rest k).
  - now apply HF.
  - pose proof (rule_stack G y_req (yaml_grammar_typed ut) true y_yaml s [] _ ltac:(cbn; lia) Hr) as S.
    contradiction.
Qed.

Lemma parse_decides s : exists x, runs G true (PRule y_yaml) s [] x /\
  (forall x', runs G true (PRule y_yaml) s [] x' -> x' = x) /\
  (exists fuel, eval G fuel true (PRule y_yaml) s [] = Some x).
Proof.
  destruct (yaml_total s) as (x & E & Hr). exists x. split; [exact Hr|]. split; [|eauto].
  intros x' H'. exact (runs_det _ _ _ _ _ _ _ H' Hr).
Qed.

Lemma stack_safe s x : runs G true (PRule y_yaml) s [] x ->
  x <> Crash /\ forall t ns rest k, x = Ok t ns rest k -> k = [].
Proof.
  intros H. pose proof (rule_stack G y_req (yaml_grammar_typed ut) true y_yaml s [] _ ltac:(cbn; lia) H) as S.
  split; [intros ->; exact S|]. intros t ns rest k ->. exact S.
Qed.

Lemma accepted_whole s t ns rest k :
  runs G true (PRule y_yaml) s [] (Ok t ns rest k) -> t = s /\ rest = [].
Proof.
  intros H. assert (Hrest : rest = []).
  { inversion H; subst; [|discriminate].
    match goal with X : runs _ _ (snd _) _ _ _ |- _ => rename X into Hr end.
    cbn [snd yaml_grammar] in Hr.
    repeat match goal with
      X : runs _ _ (PSeq _ _) _ _ _ |- _ => apply seq_ok_inv in X as (? & ? & ? & ? & ? & ? & ? & ? & ? & ?) end.
    match goal with X : runs _ _ (PEOI _) _ _ _ |- _ => inversion X; reflexivity end. }
  split; [|exact Hrest]. pose proof (runs_text G _ _ _ _ _ H _ _ _ _ eq_refl) as E. subst rest.
  now rewrite app_nil_r in E.
Qed.

(** Outcomes. *)
Lemma parse_outcome s :
  match parse_yaml ut s with
  | CVal d => doc_ok ut d /\ exists t n rest k, runs G true (PRule y_yaml) s [] (Ok t [n] rest k)
  | CErr => runs G true (PRule y_yaml) s [] Fail
  | CPanic => has_block_sign s
  end.
Proof.
  apply (parse_yaml_by (fun x => match x with CVal d => _ | CErr => _ | CPanic => _ end) s).
  - auto.
  - intros t n rest k Hr L T Hg. unfold good in Hg. rewrite L in Hg.
    destruct (consume n) as [v| |].
    + destruct Hg as (d & -> & Hd). split; [exact Hd|eauto 6].
    + contradiction.
    + destruct Hg as [Hg|Hg]; [discriminate|].
      pose proof (accepted_whole _ _ _ _ _ Hr) as [-> _]. now rewrite <- T.
Qed.

Lemma parse_accepted s t ns rest k : runs G true (PRule y_yaml) s [] (Ok t ns rest k) ->
  (exists d, parse_yaml ut s = CVal d) \/ (parse_yaml ut s = CPanic /\ has_block_sign s).
Proof.
  intros H. pose proof (parse_outcome s) as O. destruct (parse_yaml ut s) as [d| |]; eauto.
  pose proof (runs_det _ _ _ _ _ _ _ H O). discriminate.
Qed.

Lemma parse_rejected s : parse_yaml ut s = CErr <-> runs G true (PRule y_yaml) s [] Fail.
Proof.
  split.
  - intros E. pose proof (parse_outcome s) as O. now rewrite E in O.
  - intros H. destruct (yaml_total s) as (x & E & Hr). unfold parse_yaml.
    revert E. generalize (yaml_fuel s). intros f E. rewrite E.
    now rewrite (runs_det _ _ _ _ _ _ _ Hr H).
Qed.

Lemma everywhere_impl (P Q : yaml -> Prop) : (forall y, P y -> Q y) ->
  forall y, everywhere P y -> everywhere Q y.
Proof.
  intros HPQ. fix IH 1. intros [l|l|l|l|ps|ps|s|ls b|ls b|a]; cbn; intros [H1 H2]; split; auto.
  - clear H1. revert H2. induction l as [|[k v] l IHl]; cbn; [auto|]. intros [A B]. split; [|exact (IHl B)]. exact (IH _ A).
  - clear H1. revert H2. induction l as [|d l IHl]; cbn; [auto|]. intros [A B]. split; [|exact (IHl B)].
    destruct d as [c|c|[k' [al v]]]; [exact I|exact I|exact (IH _ A)].
  - clear H1. revert H2. induction l as [|v l IHl]; cbn; [auto|]. intros [A B]. split; [|exact (IHl B)]. exact (IH _ A).
  - clear H1. revert H2. induction l as [|d l IHl]; cbn; [auto|]. intros [A B]. split; [|exact (IHl B)].
    destruct d as [c|c|[al v]]; [exact I|exact I|exact (IH _ A)].
Qed.

Lemma doc_ok_everywhere d : doc_ok ut d -> doc_everywhere (local_ok ut) d.
Proof.
  intros [_ (a & y & b & E & _ & _ & Hy & _)] z Hz. rewrite E in Hz.
  apply in_app_or in Hz as [Hz|Hz]; [|apply in_app_or in Hz as [[Hz|[]]|Hz]].
  - unfold dcomments in Hz. apply in_map_iff in Hz as (c & X & _). discriminate.
  - inversion Hz; subst. exact Hy.
  - unfold dcomments in Hz. apply in_map_iff in Hz as (c & X & _). discriminate.
Qed.

Lemma parsed_everywhere (Q : yaml -> Prop) s d : (forall y, local_ok ut y -> Q y) ->
  parse_yaml ut s = CVal d -> doc_everywhere Q d.
Proof.
  intros HQ E. pose proof (parse_outcome s) as O. rewrite E in O. destruct O as [O _].
  intros y Hy. eapply everywhere_impl; [exact HQ|]. now apply (doc_ok_everywhere d).
Qed.

Lemma parsed_keys s d : parse_yaml ut s = CVal d -> doc_everywhere (keys_plain ut) d.
Proof. apply parsed_everywhere. now intros y [H _]. Qed.
Lemma parsed_inline s d : parse_yaml ut s = CVal d -> doc_everywhere inline_ok d.
Proof. apply parsed_everywhere. now intros y [_ [H _]]. Qed.
Lemma parsed_writable s d : parse_yaml ut s = CVal d -> doc_everywhere (writable ut) d.
Proof. apply parsed_everywhere. now intros y [_ [_ H]]. Qed.

(** A plain key is a one-key path. *)
Lemma ascii_names c : In c (lit "[].|") -> ~ (name_char ut c \/ c = chr "-" \/ c = SP).
Proof.
  intros H. cbn in H. unfold name_char, is_letter, is_number.
  destruct H as [<-|[<-|[<-|[<-|[]]]]]; cbn; intuition discriminate.
Qed.

Lemma plain_key_path k : plain_key ut k -> parse_path k = Some (PKey k [] None).
Proof.
  intros [(c & r & -> & Hc) [Hall Hend]]. apply parse_single. repeat split.
  - discriminate.
  - intros x Hx Hb. exact (ascii_names x Hb (Hall x Hx)).
  - intros r' E. inversion E; subst. pose proof (name_not_ws ut _ Hc) as X. discriminate.
  - exact Hend.
Qed.

(** One root collection. *)
Definition d_comment (i : docdata) (c : str) : Prop := i = DComment c.
Lemma parsed_shape s d : parse_yaml ut s = CVal d ->
  Forall one_line (leading d) /\
  exists a y b, items d = map DComment a ++ DYaml y :: map DComment b
    /\ Forall one_line a /\ Forall one_line b
    /\ match y with Hash _ | Array _ | InlineArray _ => True | _ => False end.
Proof.
  intros E. pose proof (parse_outcome s) as O. rewrite E in O.
  destruct O as [[H (a & y & b & Ei & Ha & Hb & _ & Hr)] _]. split; [exact H|].
  exists a, y, b. auto.
Qed.
End Parse.
