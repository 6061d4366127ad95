(** CRLF: the consumer makes of alike trees values that differ only in line breaks. *)
From Coq Require Import ZArith.
From Verif Require Import Base Ast Num Peg PegFacts PegTree YamlGrammar Consume YamlTree YamlValues ParseFacts Spec_Crlf CrlfFacts CrlfFacts2 CrlfFacts3.
Import ListNotations.

(** ---- blurred values ---- *)
Definition blur_a (a : aliased) : aliased := match a with mkA x y => mkA x (blur y) end.
Definition blur_e (e : hash_element) : hash_element := match e with mkHE k a => mkHE k (blur_a a) end.
Definition blur_h (d : hashdata) : hashdata := match d with HElem e => HElem (blur_e e) | d => d end.
Definition blur_d (d : arraydata) : arraydata := match d with AElem a => AElem (blur_a a) | d => d end.
Definition blur_v (v : yval) : yval :=
  match v with
  | VYaml y => VYaml (blur y)
  | VPair k y => VPair k (blur y)
  | VAliased a => VAliased (blur_a a)
  | VHElem e => VHElem (blur_e e)
  | VHData l => VHData (map blur_h l)
  | VAElem d => VAElem (blur_d d)
  | VAData l => VAData (map blur_d l)
  | VDoc d => VDoc (blur_doc d)
  | v => v
  end.
(** The rules whose lines may be doubled. *)
Definition is_ml (r : yrule) : bool := match r with y_block_empty_lines | y_ml_part | y_ml_content => true | _ => false end.
Definition blur_q (p : yrule * yval) : yrule * yval := (fst p, if is_ml (fst p) then VUnit else blur_v (snd p)).
Definition cmap {X Y} (f : X -> Y) (c : cres X) : cres Y := match c with CVal x => CVal (f x) | CErr => CErr | CPanic => CPanic end.

Lemma blur_hash l : blur (Hash l) = Hash (map blur_h l).
Proof. cbn [blur]. f_equal. apply map_ext. intros [c|c|[k [a y]]]; reflexivity. Qed.
Lemma blur_array l : blur (Array l) = Array (map blur_d l).
Proof. cbn [blur]. f_equal. apply map_ext. intros [c|c|[a y]]; reflexivity. Qed.
Lemma blur_hcomments cs : map blur_h (hcomments cs) = hcomments cs.
Proof. unfold hcomments. rewrite map_map. apply map_ext. reflexivity. Qed.
Lemma blur_acomments cs : map blur_d (acomments cs) = acomments cs.
Proof. unfold acomments. rewrite map_map. apply map_ext. reflexivity. Qed.

Lemma many_blur {X} (f : yrule * yval -> option X) (g : X -> X) l :
  (forall p, f (blur_q p) = option_map g (f p)) ->
  many f (map blur_q l) = (map g (fst (many f l)), map blur_q (snd (many f l))).
Proof.
  intros H. induction l as [|p l IH]; [reflexivity|]. cbn [map many]. rewrite H. destruct (f p); cbn [option_map].
  - rewrite IH. now destruct (many f l).
  - reflexivity.
Qed.
Ltac pick := intros [q v]; destruct q; try reflexivity; destruct v; reflexivity.
Lemma many_pair l : many as_pair (map blur_q l) = (map (fun kv => match kv with (k, v) => (k, blur v) end) (fst (many as_pair l)), map blur_q (snd (many as_pair l))).
Proof. apply many_blur. pick. Qed.
Lemma many_inline l : many as_inline_value (map blur_q l) = (map blur (fst (many as_inline_value l)), map blur_q (snd (many as_inline_value l))).
Proof. apply many_blur. pick. Qed.
Lemma many_dqs l : many as_dq (map blur_q l) = (map id (fst (many as_dq l)), map blur_q (snd (many as_dq l))).
Proof. apply many_blur. pick. Qed.
Lemma many_sqs l : many as_sq (map blur_q l) = (map id (fst (many as_sq l)), map blur_q (snd (many as_sq l))).
Proof. apply many_blur. pick. Qed.
Lemma many_hdata l : many as_hdata (map blur_q l) = (map (map blur_h) (fst (many as_hdata l)), map blur_q (snd (many as_hdata l))).
Proof. apply many_blur. pick. Qed.
Lemma many_adata l : many as_adata (map blur_q l) = (map (map blur_d) (fst (many as_adata l)), map blur_q (snd (many as_adata l))).
Proof. apply many_blur. pick. Qed.
Lemma many_commentnl l : many as_commentnl (map blur_q l) = (map id (fst (many as_commentnl l)), map blur_q (snd (many as_commentnl l))).
Proof. apply many_blur. pick. Qed.
Lemma many_comment l : many as_comment (map blur_q l) = (map id (fst (many as_comment l)), map blur_q (snd (many as_comment l))).
Proof. apply many_blur. pick. Qed.

Definition plain_rule (r : yrule) : bool :=
  negb (is_ml r) && negb (special r) && match r with y_ml_folded | y_ml_literal => false | _ => true end.

Ltac look l := let q := fresh "q" in let v := fresh "v" in
  (destruct l as [|[q v] l]; [try reflexivity|cbn [map]; destruct q; try reflexivity; destruct v; try reflexivity]).

Lemma concat_blur {X} (g : X -> X) ls : concat (map (map g) ls) = map g (concat ls).
Proof. symmetry. apply concat_map. Qed.

Ltac texts := repeat match goal with
  | |- context [match ?t with [] => _ | _ :: _ => _ end] => is_var t; destruct t; try reflexivity
  | |- context [if ?b then _ else _] => destruct b; try reflexivity
  | |- context [match parse_usize ?t with _ => _ end] => destruct (parse_usize t); try reflexivity
  end.
Ltac manyl H w := let vs := fresh "vs" in rewrite H; match goal with |- context [fst ?m] => destruct m as [vs w] end; cbn [fst snd].

Ltac fin := cbn [cmap blur_v map]; rewrite ?concat_blur; cbn [cmap blur_v map]; rewrite ?blur_hash, ?blur_array, ?map_app, ?blur_hcomments, ?blur_acomments; reflexivity.
Ltac data3 l := let q := fresh "q" in let v := fresh "v" in look l; look l; (destruct l as [|[q v] l]; [fin|]); destruct q; try reflexivity; destruct v; try reflexivity; (destruct l; [fin|reflexivity]).
Ltac listing l := let w := fresh "w" in let q := fresh "q" in let v := fresh "v" in look l; look l; first [manyl @many_hdata w | manyl @many_adata w]; destruct w as [|[q v] w]; [first [fin|reflexivity]|]; try reflexivity;
  destruct q; try reflexivity; destruct v; try reflexivity; (destruct w; [fin|reflexivity]).

Lemma yact_natural r t l : plain_rule r = true -> yact r t (map blur_q l) = cmap blur_v (yact r t l).
Proof.
  intros H. destruct r; try discriminate H; clear H; try reflexivity; cbn [yact].
  all: try (look l; fail).
  all: try (look l; look l; fail).
  all: try (look l; look l; look l; fail).
  all: try (texts; fail).
  all: try (first [manyl @many_dqs w | manyl @many_sqs w | manyl @many_commentnl w]; destruct w; [|reflexivity]; cbn [map]; rewrite map_id; reflexivity).
  all: try (first [manyl @many_inline w | manyl @many_pair w]; destruct w; reflexivity).
  all: try (data3 l; fail).
  all: try (listing l; fail).
  look l; look l; look l. manyl @many_comment w. rewrite map_id. destruct w as [|[q v] w]; [reflexivity|].
  destruct q; try reflexivity. destruct w; [|reflexivity]. cbn [map blur_q fst snd is_ml cmap blur_v]. unfold blur_doc. cbn [leading items].
  rewrite !map_app. f_equal. f_equal. f_equal. cbn [map]. f_equal; [|f_equal].
  - unfold dcomments. rewrite map_map. apply map_ext. reflexivity.
  - unfold dcomments. rewrite map_map. apply map_ext. reflexivity.
Qed.

(** ---- related values ---- *)
Definition VR (r : yrule) (v v' : yval) : Prop :=
  match r with
  | y_block_empty_lines | y_ml_part | y_ml_content => exists l l', v = VStrs l /\ v' = VStrs l' /\ squeeze l' = squeeze l
  | _ => blur_v v' = blur_v v
  end.
Definition rel (r : yrule) (c c' : cres yval) : Prop :=
  match c, c' with
  | CVal v, CVal v' => VR r v v'
  | CErr, CErr => True
  | CPanic, CPanic => True
  | _, _ => False
  end.
Definition valrel (p p' : yrule * yval) : Prop := fst p' = fst p /\ VR (fst p) (snd p) (snd p').

Lemma valrel_blur l l' : Forall2 valrel l l' -> map blur_q l' = map blur_q l.
Proof.
  induction 1 as [|[q v] [q' v'] l l' [E R] _ IH]; [reflexivity|]. cbn [map fst snd] in *. subst q'. rewrite IH. f_equal.
  unfold blur_q. cbn [fst snd]. destruct q; cbn [is_ml]; try reflexivity; cbn [VR] in R; now rewrite R.
Qed.

Lemma VR_of_blur r v v' : is_ml r = false -> blur_v v' = blur_v v -> VR r v v'.
Proof. destruct r; try discriminate; trivial. Qed.
Lemma rel_of_blur r c c' : is_ml r = false -> cmap blur_v c' = cmap blur_v c -> rel r c c'.
Proof.
  intros H. destruct c, c'; cbn [cmap rel]; intros E; try discriminate E; try exact I. apply VR_of_blur; [assumption|]. now inversion E.
Qed.
