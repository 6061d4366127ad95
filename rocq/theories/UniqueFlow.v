(** C90: a text has one reading by the rules of [Spec_Yaml12]; inline nodes. *)
From Verif Require Import Base Ast Spec_Scalar Spec_Yaml12 PlainFacts.
Import ListNotations.

(** ---- parts of a text that end at a character ---- *)

Definition off {A} (P : A -> Prop) (l : list A) : Prop := match l with [] => True | x :: _ => ~ P x end.
Lemma span {A} (P : A -> Prop) a b x y : Forall P a -> Forall P b -> off P x -> off P y -> a ++ x = b ++ y -> a = b /\ x = y.
Proof.
  intros Ha; revert b; induction Ha as [|c a Hc Ha IH]; intros b Hb Hx Hy E; destruct Hb as [|d b Hd Hb]; cbn in *.
  - now split.
  - subst x. contradiction.
  - subst y. contradiction.
  - injection E as -> E. destruct (IH b Hb Hx Hy E) as [-> ->]. now split.
Qed.
Lemma off_app {A} (P : A -> Prop) a r : off P a -> a <> [] -> off P (a ++ r).
Proof. destruct a; cbn; [contradiction|trivial]. Qed.

Lemma white_no x : ~ white x -> x <> SP /\ x <> TAB.
Proof. intros H. split; intros ->; apply H; [now left|now right]. Qed.
Lemma ns_nowhite c : ns_char c -> ~ white c. Proof. now intros [_ ?]. Qed.
Lemma ns_nonl c : ns_char c -> c <> NL. Proof. now intros [[_ [? _]] _]. Qed.
Lemma nl_nowhite : ~ white NL. Proof. intros [H|H]; discriminate H. Qed.
Lemma nl_ns : ~ ns_char NL. Proof. intros H. now apply ns_nonl in H. Qed.
Lemma white_ns c : white c -> ~ ns_char c. Proof. intros H K. exact (ns_nowhite _ K H). Qed.
(** Closed facts about characters. *)
Ltac ch := first [ discriminate
  | match goal with
    | |- ~ white _ => let H := fresh in intros [H|H]; discriminate H
    | |- white _ => first [now left|now right]
    | |- ns_char _ => apply ns_charb_spec; reflexivity
    | |- ~ ns_char _ => let H := fresh in intros H; apply ns_charb_spec in H; discriminate H
    | |- flow_indicator _ => apply flow_indicatorb_spec; reflexivity
    | |- ~ flow_indicator _ => let H := fresh in intros H; apply flow_indicatorb_spec in H; discriminate H
    end ].

(** ---- plain scalars ---- *)

(** Nothing of a plain scalar can follow, apart from white space at its end. *)
Definition stop (c : context) (gap : Prop) (z : str) : Prop :=
  match z with
  | [] => True
  | h :: q => h = NL \/ (h = chr "#" /\ gap) \/ (flow_indicator h /\ c = FlowIn) \/
      (h = chr ":" /\ match q with [] => True | x :: _ => ~ plain_safe c x end)
  end.
Definition halts (c : context) (r : str) : Prop := exists w z, r = w ++ z /\ whites w /\ stop c (w <> []) z.

Lemma tail_step c p x s : plain_tail c p (x :: s) -> plain_tail c x s.
Proof. intros H. inversion H; subst; assumption. Qed.
Lemma tail_whites c s : forall p, plain_tail c p s -> whites s -> s = [] /\ ~ white p.
Proof.
  induction s as [|x s IH]; intros p H W.
  - inversion H; subst. now split.
  - exfalso. inversion W as [|? ? Wx Ws]; subst. destruct (IH x (tail_step _ _ _ _ H) Ws) as [_ N]. contradiction.
Qed.
Lemma tail_stop c s : forall p r w z, plain_tail c p s -> s ++ r = w ++ z -> whites w -> stop c (w <> [] \/ white p) z -> whites s.
Proof.
  induction s as [|x s IH]; intros p r w z H E W S; [constructor|].
  destruct W as [|y w Wy W].
  - exfalso. cbn in E. subst z. cbn in S. inversion H as [|? ? ? H2 _|? ? ? H2 N1 N2 _|? ? H2 _|? ? ? H2 _]; subst.
    + destruct H2 as [->| ->]; destruct S as [S|[[S _]|[[S _]|[S _]]]]; try discriminate S; apply flow_indicatorb_spec in S; discriminate S.
    + destruct H2 as [N F]. destruct S as [->|[[S _]|[[S C]|[S _]]]]; try contradiction; [exact (nl_ns N)|exact (F C S)].
    + destruct S as [S|[[_ S]|[[S _]|[S _]]]]; try discriminate S; [|apply flow_indicatorb_spec in S; discriminate S].
      destruct S as [S|S]; [now apply S|exact (ns_nowhite _ H2 S)].
    + cbn in S. destruct S as [S|[[S _]|[[S _]|[_ S]]]]; try discriminate S; [apply flow_indicatorb_spec in S; discriminate S|contradiction].
  - cbn in E. injection E as -> E. constructor; [assumption|]. apply (IH y r w z (tail_step _ _ _ _ H) E W).
    destruct z as [|h q]; [exact I|]. cbn in S |- *. intuition.
Qed.
Lemma tail_end c p s r : plain_tail c p s -> ~ white p -> halts c (s ++ r) -> s = [].
Proof.
  intros H N (w & z & E & W & S). assert (whites s) as K.
  { apply (tail_stop c s p r w z H E W). destruct z as [|h q]; [exact I|]. cbn in S |- *. intuition. }
  now destruct (tail_whites _ _ _ H K).
Qed.
Lemma tail_nil c p : plain_tail c p [] -> ~ white p.
Proof. intros H. now inversion H. Qed.
Lemma tail_one c s : forall s' p r r', plain_tail c p s -> plain_tail c p s' -> s ++ r = s' ++ r' -> halts c r -> halts c r' -> s = s' /\ r = r'.
Proof.
  induction s as [|x s IH]; intros s' p r r' H H' E F F'.
  - cbn in E. subst r. pose proof (tail_end _ _ _ _ H' (tail_nil _ _ H) F). subst s'. now split.
  - destruct s' as [|x' s'].
    + cbn in E. subst r'. pose proof (tail_end c p (x :: s) r H (tail_nil _ _ H') F'). discriminate.
    + cbn in E. injection E as -> E. destruct (IH s' x' r r' (tail_step _ _ _ _ H) (tail_step _ _ _ _ H') E F F') as [-> ->]. now split.
Qed.
Lemma plain_cons c s : plain c s -> exists x q, s = x :: q /\ plain_tail c x q.
Proof. intros H. inversion H; subst; eauto. Qed.
Lemma plain_one c s s' r r' : plain c s -> plain c s' -> s ++ r = s' ++ r' -> halts c r -> halts c r' -> s = s' /\ r = r'.
Proof.
  intros H H' E F F'. destruct (plain_cons _ _ H) as (x & q & -> & T), (plain_cons _ _ H') as (x' & q' & -> & T').
  cbn in E. injection E as -> E. destruct (tail_one _ _ _ _ _ _ T T' E F F') as [-> ->]. now split.
Qed.
(** The first character. *)
Lemma plain_head c s r : plain c s -> exists h q, s ++ r = h :: q /\ ns_char h /\
  (~ indicator h \/ (In h (lit "?:-") /\ exists x q', q = x :: q' /\ plain_safe c x)).
Proof.
  intros H. inversion H as [x q N I T|x y q I S T]; subst.
  - exists x, (q ++ r). repeat split; try (now left); apply N.
  - exists x, (y :: q ++ r). split; [reflexivity|]. split.
    + cbn in I. destruct I as [<-|[<-|[<-|[]]]]; ch.
    + right. split; [assumption|]. now exists y, (q ++ r).
Qed.
Lemma plain_not c s r h q : plain c s -> s ++ r = h :: q -> indicator h -> ~ In h (lit "?:-") -> False.
Proof. intros H E I N. destruct (plain_head c s r H) as (h' & q' & E' & _ & K). rewrite E in E'. injection E' as <- <-. destruct K as [K|[K _]]; contradiction. Qed.

(** ---- quoted scalars ---- *)

Lemma single_one s v : single_text s v -> forall s' v' r r', single_text s' v' -> s ++ QUOTE :: r = s' ++ QUOTE :: r' ->
  off (eq QUOTE) r -> off (eq QUOTE) r' -> v = v' /\ r = r'.
Proof.
  induction 1 as [|c s v J N H IH|s v H IH]; intros s' v' r r' H' E F F'; inversion H' as [|c' s1 v1 J' N' T'|s1 v1 T']; subst; cbn in E.
  - injection E as ->. now split.
  - injection E as <- _. contradiction.
  - injection E as ->. now cbn in F.
  - injection E as -> _. contradiction.
  - injection E as -> E. destruct (IH _ _ _ _ T' E F F') as [-> ->]. now split.
  - injection E as -> _. contradiction.
  - injection E as <-. now cbn in F'.
  - injection E as <- _. contradiction.
  - injection E as E. destruct (IH _ _ _ _ T' E F F') as [-> ->]. now split.
Qed.
Lemma escapes_one e c c' : In (e, c) escapes -> In (e, c') escapes -> c = c'.
Proof.
  assert (Forall (fun p => forall d, In (fst p, d) escapes -> d = snd p) escapes) as H.
  { unfold escapes at 2. repeat (apply Forall_cons; [cbn [fst snd]; intros d; unfold escapes; cbn [In];
      intros K; repeat (destruct K as [K|K]; [solve [discriminate K|injection K as <-; reflexivity]|]); destruct K|]). constructor. }
  intros A B. rewrite Forall_forall in H. now rewrite (H (e, c') B c A).
Qed.
Lemma double_one s v : double_text s v -> forall s' v' r r', double_text s' v' -> s ++ DQUOTE :: r = s' ++ DQUOTE :: r' ->
  v = v' /\ r = r'.
Proof.
  induction 1 as [|c s v J N N2 H IH|e c s v I H IH]; intros s' v' r r' H' E; inversion H' as [|c' s1 v1 J' N' N2' T'|e' c' s1 v1 I' T']; subst; cbn in E.
  - injection E as ->. now split.
  - injection E as <- _. contradiction.
  - discriminate E.
  - injection E as -> _. contradiction.
  - injection E as -> E. destruct (IH _ _ _ _ T' E) as [-> ->]. now split.
  - injection E as -> _. contradiction.
  - discriminate E.
  - injection E as <- _. contradiction.
  - injection E as -> E. rewrite (escapes_one _ _ _ I I'). destruct (IH _ _ _ _ T' E) as [-> ->]. now split.
Qed.

(** ---- inline nodes ---- *)

(** The text starts like a node in an inline collection. *)
Definition closing (h : char) : Prop := In h (lit ",]}").
Definition node_head (c : context) (t : str) : Prop :=
  exists h q, t = h :: q /\ ns_char h /\ ~ closing h /\ h <> chr "#" /\ h <> chr "|" /\ h <> chr ">" /\
    (h = chr ":" \/ h = chr "-" -> exists x q', q = x :: q' /\ plain_safe c x).
(** What follows a node. *)
Inductive follow : context -> str -> Prop :=
| FoIn w h q : whites w -> closing h -> follow FlowIn (w ++ h :: q)
| FoKey w w' t : whites w -> whites w' -> w' <> [] -> node_head FlowIn t -> follow FlowIn (w ++ chr ":" :: w' ++ t)
| FoLine w q : whites w -> follow FlowOut (w ++ NL :: q)
| FoNote w q : whites w -> w <> [] -> follow FlowOut (w ++ chr "#" :: q).
Lemma closing_flow h : closing h -> flow_indicator h.
Proof. intros H. cbn in H. destruct H as [<-|[<-|[<-|[]]]]; ch. Qed.
Lemma whites_cons w x : whites w -> w <> [] -> exists h q, w ++ x = h :: q /\ white h.
Proof. intros [|h q W _] N; [contradiction|]. cbn. eauto. Qed.
Lemma follow_halts c r : follow c r -> halts c r.
Proof.
  intros [w h q W C|w w' t W W' N T|w q W|w q W N].
  - exists w, (h :: q). split; [reflexivity|]. split; [assumption|]. cbn [stop]. right. right. left. split; [now apply closing_flow|reflexivity].
  - exists w, (chr ":" :: w' ++ t). split; [reflexivity|]. split; [assumption|]. cbn [stop]. do 3 right. split; [reflexivity|].
    destruct (whites_cons _ t W' N) as (h & q & -> & Wh). intros [[_ K] _]. contradiction.
  - exists w, (NL :: q). split; [reflexivity|]. split; [assumption|]. now left.
  - exists w, (chr "#" :: q). split; [reflexivity|]. split; [assumption|]. right. left. now split.
Qed.
Lemma halts_quote c r : halts c r -> off (eq QUOTE) r.
Proof.
  intros (w & z & -> & W & S). destruct W as [|h w Wh W]; cbn.
  - destruct z as [|h q]; [exact I|]. cbn in *. intros <-. destruct S as [S|[[S _]|[[S _]|[S _]]]]; try discriminate S.
    apply flow_indicatorb_spec in S. discriminate S.
  - intros <-. destruct Wh as [W1|W1]; discriminate W1.
Qed.
Lemma node_head_white c t : node_head c t -> off white t.
Proof. intros (h & q & -> & N & _). now apply ns_nowhite. Qed.
Lemma node_head_cut c t : node_head c t -> exists h q, t = h :: q /\ ns_char h /\ ~ closing h.
Proof. intros (h & q & -> & N & C & _). eauto. Qed.

Lemma alias_le c a e r r' : Forall (fun x => ns_char x /\ ~ flow_indicator x) e -> r = e ++ r' -> follow c r -> follow c r' -> a = a ++ e /\ r = r'.
Proof.
  intros A E F F'. enough (e = []) as -> by (rewrite app_nil_r; now split).
  destruct A as [|x e [X1 X2] A]; [reflexivity|exfalso].
  destruct F as [w h q W C|w w' t W W' N T|w q W|w q W N].
  - destruct W as [|y w Wy W]; cbn in E; injection E as E1 E2; subst.
    + apply X2. now apply closing_flow.
    + exact (ns_nowhite _ X1 Wy).
  - destruct W as [|y w Wy W]; [|cbn in E; injection E as E1 E2; subst; exact (ns_nowhite _ X1 Wy)].
    cbn in E. injection E as E1 E2; subst x.
    assert (e = []) as ->.
    { destruct A as [|y e [Y1 Y2] A]; [reflexivity|]. destruct W' as [|z w' Wz W']; [contradiction|]. cbn in E2. injection E2 as -> _. exfalso. exact (ns_nowhite _ Y1 Wz). }
    cbn in E2. subst r'. inversion F' as [w1 h1 q1 V1 C1 E0 E1|w1 w1' t1 V1 V1' N1 T1 E0 E1| |].
    + apply span with (P := white) in E1; [|assumption|assumption|cbn [off]; cbn in C1; destruct C1 as [<-|[<-|[<-|[]]]]; ch|now apply node_head_white with FlowIn].
      destruct E1 as [_ <-]. destruct T as (h2 & q2 & E & _ & K & _). injection E as <- <-. contradiction.
    + apply span with (P := white) in E1; [|assumption|assumption|cbn [off]; ch|now apply node_head_white with FlowIn].
      destruct E1 as [_ <-]. destruct T as (h2 & q2 & E & _ & _ & _ & _ & _ & K). injection E as <- <-.
      destruct (K (or_introl eq_refl)) as (x & q' & E & [S _]). destruct V1' as [|v ? Wv _]; [contradiction|]. cbn in E. injection E as -> _. exact (ns_nowhite _ S Wv).
  - destruct W as [|y w Wy W]; cbn in E; injection E as E1 E2; subst.
    + exact (nl_ns X1).
    + exact (ns_nowhite _ X1 Wy).
  - destruct W as [|y w Wy W]; [contradiction|]; cbn in E; injection E as E1 E2; subst. exact (ns_nowhite _ X1 Wy).
Qed.
Lemma app_cut {A} (a : list A) : forall b x y, a ++ x = b ++ y -> (exists e, b = a ++ e /\ x = e ++ y) \/ (exists e, a = b ++ e /\ y = e ++ x).
Proof.
  induction a as [|c a IH]; intros b x y E.
  - left. exists b. now split.
  - destruct b as [|d b]; [right; exists (c :: a); split; [reflexivity|symmetry; exact E]|].
    cbn in E. injection E as -> E. destruct (IH b x y E) as [(e & -> & ->)|(e & -> & ->)]; [left|right]; exists e; now split.
Qed.
Lemma alias_one c a a' r r' : anchor_name a -> anchor_name a' -> a ++ r = a' ++ r' -> follow c r -> follow c r' -> a = a' /\ r = r'.
Proof.
  intros [_ A] [_ A'] E F F'. destruct (app_cut _ _ _ _ E) as [(e & -> & E1)|(e & -> & E1)].
  - apply Forall_app in A' as [_ A']. destruct (alias_le c a e r r' A' E1 F F'). now split.
  - apply Forall_app in A as [_ A]. destruct (alias_le c a' e r' r A E1 F' F). now split.
Qed.

Lemma flow_content_head c y s r : flow_content c y s -> node_head c (s ++ r) /\ exists h q, s ++ r = h :: q /\ h <> chr "*" /\ h <> chr "&".
Proof.
  intros H. destruct H as [c s P|c s v T|c s v T|c w l s W L|c w l s W L].
  - destruct (plain_head c s r P) as (h & q & E & N & K). split.
    + exists h, q. split; [assumption|]. split; [assumption|]. destruct K as [K|[K (x & q' & -> & S)]].
      * repeat split; try (intros ->; apply K; apply indicatorb_spec; reflexivity).
        { intros C. apply K. cbn in C. destruct C as [<-|[<-|[<-|[]]]]; apply indicatorb_spec; reflexivity. }
        intros [->| ->]; exfalso; apply K; apply indicatorb_spec; reflexivity.
      * cbn in K. destruct K as [<-|[<-|[<-|[]]]]; (split; [intros C; cbn in C; destruct C as [C|[C|[C|[]]]]; discriminate C|]);
          (split; [discriminate|]); (split; [discriminate|]); (split; [discriminate|]); intros _; eauto.
    + exists h, q. split; [assumption|]. destruct K as [K|[K _]].
      * split; intros ->; apply K; apply indicatorb_spec; reflexivity.
      * cbn in K. destruct K as [<-|[<-|[<-|[]]]]; split; discriminate.
  - split; [|eexists _, _; split; [cbn; reflexivity|split; discriminate]]. eexists _, _. split; [cbn; reflexivity|]. split; [ch|].
    split; [intros C; cbn in C; destruct C as [C|[C|[C|[]]]]; discriminate C|]. repeat split; try discriminate. intros [C|C]; discriminate C.
  - split; [|eexists _, _; split; [cbn; reflexivity|split; discriminate]]. eexists _, _. split; [cbn; reflexivity|]. split; [ch|].
    split; [intros C; cbn in C; destruct C as [C|[C|[C|[]]]]; discriminate C|]. repeat split; try discriminate. intros [C|C]; discriminate C.
  - split; [|eexists _, _; split; [cbn; reflexivity|split; discriminate]]. eexists _, _. split; [cbn; reflexivity|]. split; [ch|].
    split; [intros C; cbn in C; destruct C as [C|[C|[C|[]]]]; discriminate C|]. repeat split; try discriminate. intros [C|C]; discriminate C.
  - split; [|eexists _, _; split; [cbn; reflexivity|split; discriminate]]. eexists _, _. split; [cbn; reflexivity|]. split; [ch|].
    split; [intros C; cbn in C; destruct C as [C|[C|[C|[]]]]; discriminate C|]. repeat split; try discriminate. intros [C|C]; discriminate C.
Qed.
Lemma flow_node_head c x s r : flow_node c x s -> node_head c (s ++ r).
Proof.
  intros H. destruct H as [c a A|c y s H|c a w y s A W N H].
  - eexists _, _. split; [cbn; reflexivity|]. split; [ch|].
    split; [intros C; cbn in C; destruct C as [C|[C|[C|[]]]]; discriminate C|]. repeat split; try discriminate. intros [C|C]; discriminate C.
  - now apply (flow_content_head c y s r).
  - eexists _, _. split; [cbn; reflexivity|]. split; [ch|].
    split; [intros C; cbn in C; destruct C as [C|[C|[C|[]]]]; discriminate C|]. repeat split; try discriminate. intros [C|C]; discriminate C.
Qed.
Lemma node_head_app c s r : node_head c s -> forall z, z = s ++ r -> node_head c z.
Proof. intros (h & q & -> & N & C & A1 & A2 & A3 & K) z ->. exists h, (q ++ r). split; [reflexivity|]. repeat split; try assumption; try apply N.
  intros B. destruct (K B) as (x & q' & -> & S). cbn. eauto. Qed.

Scheme flow_node_m := Minimality for flow_node Sort Prop
with flow_content_m := Minimality for flow_content Sort Prop
with flow_seq_m := Minimality for flow_seq Sort Prop
with flow_map_m := Minimality for flow_map Sort Prop
with flow_entry_m := Minimality for flow_entry Sort Prop.
Combined Scheme flow_all from flow_node_m, flow_content_m, flow_seq_m, flow_map_m, flow_entry_m.

Lemma flow_entry_head e s r : flow_entry e s -> node_head FlowIn (s ++ r).
Proof. intros H. destruct H as [k v w w' s t K W W' N V]. rewrite <- app_assoc. now apply flow_node_head with k. Qed.
Lemma flow_seq_head l s r : flow_seq l s -> off white (s ++ chr "]" :: r).
Proof.
  intros [|x s1 w H W|x s1 w w' l1 t H W W' L]; [cbn [off app]; ch|..]; rewrite <- app_assoc; eapply node_head_white, flow_node_head; exact H.
Qed.
Lemma flow_map_head l s r : flow_map l s -> off white (s ++ chr "}" :: r).
Proof.
  intros [|x s1 w H W|x s1 w w' l1 t H W W' L]; [cbn [off app]; ch|..]; rewrite <- app_assoc; eapply node_head_white, flow_entry_head; exact H.
Qed.
Lemma name_span a a' w w' x x' : anchor_name a -> anchor_name a' -> off ns_char (w ++ x) -> off ns_char (w' ++ x') -> a ++ w ++ x = a' ++ w' ++ x' -> a = a' /\ w ++ x = w' ++ x'.
Proof.
  intros [_ A] [_ A'] O O' E. apply span with (P := ns_char) in E; [exact E|..]; try assumption; (eapply Forall_impl; [|eassumption]; intros ? [? _]; assumption).
Qed.
Lemma off_ns w x : whites w -> w <> [] -> off ns_char (w ++ x).
Proof. intros W N. destruct (whites_cons w x W N) as (h & q & -> & Wh). now apply white_ns. Qed.
Lemma close_in r w : whites w -> follow FlowIn (w ++ chr "]" :: r).
Proof. intros W. constructor; [assumption|]. cbn. auto. Qed.
Lemma close_map r w : whites w -> follow FlowIn (w ++ chr "}" :: r).
Proof. intros W. constructor; [assumption|]. cbn. auto. Qed.
Lemma comma_in r w : whites w -> follow FlowIn (w ++ chr "," :: r).
Proof. intros W. constructor; [assumption|]. cbn. auto. Qed.


Lemma lit1 a : forall x : str, lit (String.String a String.EmptyString) ++ x = chr (String.String a String.EmptyString) :: x.
Proof. reflexivity. Qed.

Definition c_node c x s := forall x' s' r r', flow_node c x' s' -> s ++ r = s' ++ r' -> follow c r -> follow c r' -> x = x' /\ r = r'.
Definition c_content c y s := forall y' s' r r', flow_content c y' s' -> s ++ r = s' ++ r' -> follow c r -> follow c r' -> y = y' /\ r = r'.
Definition c_seq l s := forall l' s' r r', flow_seq l' s' -> s ++ chr "]" :: r = s' ++ chr "]" :: r' -> l = l' /\ r = r'.
Definition c_map l s := forall l' s' r r', flow_map l' s' -> s ++ chr "}" :: r = s' ++ chr "}" :: r' -> l = l' /\ r = r'.
Definition c_entry e s := forall e' s' r r', flow_entry e' s' -> s ++ r = s' ++ r' -> follow FlowIn r -> follow FlowIn r' -> e = e' /\ r = r'.
Ltac white_off := cbn [off]; ch.
Ltac wspan E := apply span with (P := white) in E; [|assumption|assumption|first [assumption|white_off|idtac]|first [assumption|white_off|idtac]].

Lemma flow_one : (forall c x s, flow_node c x s -> c_node c x s) /\ (forall c y s, flow_content c y s -> c_content c y s) /\
  (forall l s, flow_seq l s -> c_seq l s) /\ (forall l s, flow_map l s -> c_map l s) /\ (forall e s, flow_entry e s -> c_entry e s).
Proof.
  apply flow_all; unfold c_node, c_content, c_seq, c_map, c_entry.
  (* nodes *)
  - intros c a A x' s' r r' H E F F'. inversion H as [c' a' A'|c' y' s1 K|c' a' w' y' s1 A' W' N' K]; subst; rewrite ?lit1, <- ?app_assoc in E.
    + injection E as E. destruct (alias_one c a a' r r' A A' E F F') as [-> ->]. now split.
    + destruct (flow_content_head c y' s' r' K) as [_ (h & q & E2 & N1 & _)]. rewrite E2 in E. injection E as <- _. now contradiction N1.
    + discriminate E.
  - intros c y s H IH x' s' r r' H' E F F'. destruct (flow_content_head c y s r H) as [_ (h & q & E2 & N1 & N2)].
    inversion H' as [c' a' A'|c' y' s1 K|c' a' w' y' s1 A' W' N' K]; subst; rewrite ?lit1, <- ?app_assoc in E.
    + rewrite E2 in E. injection E as -> _. now contradiction N1.
    + destruct (IH y' s' r r' K E F F') as [-> ->]. now split.
    + rewrite E2 in E. injection E as -> _. now contradiction N2.
  - intros c a w y s A W N H IH x' s' r r' H' E F F'.
    inversion H' as [c' a' A'|c' y' s1 K|c' a' w' y' s1 A' W' N' K]; subst; rewrite ?lit1, <- ?app_assoc in E.
    + discriminate E.
    + destruct (flow_content_head c y' s' r' K) as [_ (h & q & E2 & _ & N1)]. rewrite E2 in E. injection E as <- _. now contradiction N1.
    + rewrite ?lit1 in E. injection E as E. rewrite <- !app_assoc in E. destruct (name_span _ _ _ _ _ _ A A' (off_ns _ _ W N) (off_ns _ _ W' N') E) as [-> E1].
      wspan E1; [|eapply node_head_white, flow_content_head; exact H|eapply node_head_white, flow_content_head; exact K].
      destruct E1 as [_ E1]. destruct (IH y' s1 r r' K E1 F F') as [-> ->]. now split.
  (* content *)
  - intros c s P y' s' r r' H' E F F'. inversion H' as [c' s1 P'|c' s1 v T|c' s1 v T|c' w l s1 W L|c' w l s1 W L]; subst; rewrite <- ?app_assoc in E; try (exfalso; eapply (plain_not c s r); [exact P|exact E|apply indicatorb_spec; reflexivity|cbn; intros [X|[X|[X|[]]]]; discriminate X]).
    destruct (plain_one c s s' r r' P P' E (follow_halts _ _ F) (follow_halts _ _ F')) as [-> ->]. now split.
  - intros c s v T y' s' r r' H' E F F'. inversion H' as [c' s1 P'|c' s1 v1 T1|c' s1 v1 T1|c' w l s1 W L|c' w l s1 W L]; subst; rewrite <- ?app_assoc in E; try discriminate E.
    + exfalso. symmetry in E. eapply (plain_not c s' r'); [exact P'|exact E|apply indicatorb_spec; reflexivity|cbn; intros [X|[X|[X|[]]]]; discriminate X].
    + cbn in E. injection E as E. destruct (single_one s v T s1 v1 r r' T1 E (halts_quote _ _ (follow_halts _ _ F)) (halts_quote _ _ (follow_halts _ _ F'))) as [-> ->]. now split.
  - intros c s v T y' s' r r' H' E F F'. inversion H' as [c' s1 P'|c' s1 v1 T1|c' s1 v1 T1|c' w l s1 W L|c' w l s1 W L]; subst; rewrite <- ?app_assoc in E; try discriminate E.
    + exfalso. symmetry in E. eapply (plain_not c s' r'); [exact P'|exact E|apply indicatorb_spec; reflexivity|cbn; intros [X|[X|[X|[]]]]; discriminate X].
    + cbn in E. injection E as E. destruct (double_one s v T s1 v1 r r' T1 E) as [-> ->]. now split.
  - intros c w l s W L IH y' s' r r' H' E F F'. inversion H' as [c' s1 P'|c' s1 v1 T1|c' s1 v1 T1|c' w1 l1 s1 W1 L1|c' w1 l1 s1 W1 L1]; subst; rewrite <- ?app_assoc in E; try discriminate E.
    + exfalso. symmetry in E. eapply (plain_not c s' r'); [exact P'|exact E|apply indicatorb_spec; reflexivity|cbn; intros [X|[X|[X|[]]]]; discriminate X].
    + rewrite ?lit1 in E. injection E as E. rewrite <- ?app_assoc in E. wspan E; [|now apply flow_seq_head with l|now apply flow_seq_head with l1].
      destruct E as [_ E]. destruct (IH l1 s1 r r' L1 E) as [-> ->]. now split.
  - intros c w l s W L IH y' s' r r' H' E F F'. inversion H' as [c' s1 P'|c' s1 v1 T1|c' s1 v1 T1|c' w1 l1 s1 W1 L1|c' w1 l1 s1 W1 L1]; subst; rewrite <- ?app_assoc in E; try discriminate E.
    + exfalso. symmetry in E. eapply (plain_not c s' r'); [exact P'|exact E|apply indicatorb_spec; reflexivity|cbn; intros [X|[X|[X|[]]]]; discriminate X].
    + rewrite ?lit1 in E. injection E as E. rewrite <- ?app_assoc in E. wspan E; [|now apply flow_map_head with l|now apply flow_map_head with l1].
      destruct E as [_ E]. destruct (IH l1 s1 r r' L1 E) as [-> ->]. now split.
  (* sequences *)
  - intros l' s' r r' H' E. inversion H' as [|x1 s1 w1 X1 W1|x1 s1 w1 w1' l1 t1 X1 W1 W1' L1]; subst; rewrite <- ?app_assoc in E.
    + cbn in E. injection E as ->. now split.
    + exfalso. destruct (node_head_cut _ _ (flow_node_head _ _ _ (w1 ++ chr "]" :: r') X1)) as (h & q & E1 & _ & C). rewrite E1 in E. injection E as <- _. apply C. cbn. auto.
    + exfalso. match type of E with _ = _ ++ ?z => destruct (node_head_cut _ _ (flow_node_head _ _ _ z X1)) as (h & q & E1 & _ & C) end. rewrite E1 in E. injection E as <- _. apply C. cbn. auto.
  - intros x s w X IH W l' s' r r' H' E. inversion H' as [|x1 s1 w1 X1 W1|x1 s1 w1 w1' l1 t1 X1 W1 W1' L1]; subst; rewrite <- ?app_assoc in E.
    + exfalso. destruct (node_head_cut _ _ (flow_node_head _ _ _ (w ++ chr "]" :: r) X)) as (h & q & E1 & _ & C). rewrite E1 in E. injection E as -> _. apply C. cbn. auto.
    + destruct (IH _ _ _ _ X1 E (close_in _ _ W) (close_in _ _ W1)) as [-> E1]. wspan E1. destruct E1 as [_ E1]. injection E1 as ->. now split.
    + rewrite ?lit1 in E. destruct (IH _ _ _ _ X1 E (close_in _ _ W) (comma_in _ _ W1)) as [-> E1]. wspan E1. destruct E1 as [_ E1]. discriminate E1.
  - intros x s w w' l t X IH W W' L IHL l' s' r r' H' E. inversion H' as [|x1 s1 w1 X1 W1|x1 s1 w1 w1' l1 t1 X1 W1 W1' L1]; subst; rewrite <- ?app_assoc in E.
    + exfalso. match type of E with _ ++ ?z = _ => destruct (node_head_cut _ _ (flow_node_head _ _ _ z X)) as (h & q & E1 & _ & C) end. rewrite E1 in E. injection E as -> _. apply C. cbn. auto.
    + rewrite ?lit1 in E. destruct (IH _ _ _ _ X1 E (comma_in _ _ W) (close_in _ _ W1)) as [-> E1]. wspan E1. destruct E1 as [_ E1]. discriminate E1.
    + rewrite ?lit1 in E. destruct (IH _ _ _ _ X1 E (comma_in _ _ W) (comma_in _ _ W1)) as [-> E1]. wspan E1. destruct E1 as [_ E1]. injection E1 as E1.
      rewrite <- ?app_assoc in E1. wspan E1; [|now apply flow_seq_head with l|now apply flow_seq_head with l1]. destruct E1 as [_ E1]. destruct (IHL _ _ _ _ L1 E1) as [-> ->]. now split.
  (* mappings *)
  - intros l' s' r r' H' E. inversion H' as [|x1 s1 w1 X1 W1|x1 s1 w1 w1' l1 t1 X1 W1 W1' L1]; subst; rewrite <- ?app_assoc in E.
    + cbn in E. injection E as ->. now split.
    + exfalso. match type of E with _ = _ ++ ?z => destruct (node_head_cut _ _ (flow_entry_head _ _ z X1)) as (h & q & E1 & _ & C) end. rewrite E1 in E. injection E as <- _. apply C. cbn. auto.
    + exfalso. match type of E with _ = _ ++ ?z => destruct (node_head_cut _ _ (flow_entry_head _ _ z X1)) as (h & q & E1 & _ & C) end. rewrite E1 in E. injection E as <- _. apply C. cbn. auto.
  - intros x s w X IH W l' s' r r' H' E. inversion H' as [|x1 s1 w1 X1 W1|x1 s1 w1 w1' l1 t1 X1 W1 W1' L1]; subst; rewrite <- ?app_assoc in E.
    + exfalso. match type of E with _ ++ ?z = _ => destruct (node_head_cut _ _ (flow_entry_head _ _ z X)) as (h & q & E1 & _ & C) end. rewrite E1 in E. injection E as -> _. apply C. cbn. auto.
    + destruct (IH _ _ _ _ X1 E (close_map _ _ W) (close_map _ _ W1)) as [-> E1]. wspan E1. destruct E1 as [_ E1]. injection E1 as ->. now split.
    + rewrite ?lit1 in E. destruct (IH _ _ _ _ X1 E (close_map _ _ W) (comma_in _ _ W1)) as [-> E1]. wspan E1. destruct E1 as [_ E1]. discriminate E1.
  - intros x s w w' l t X IH W W' L IHL l' s' r r' H' E. inversion H' as [|x1 s1 w1 X1 W1|x1 s1 w1 w1' l1 t1 X1 W1 W1' L1]; subst; rewrite <- ?app_assoc in E.
    + exfalso. match type of E with _ ++ ?z = _ => destruct (node_head_cut _ _ (flow_entry_head _ _ z X)) as (h & q & E1 & _ & C) end. rewrite E1 in E. injection E as -> _. apply C. cbn. auto.
    + rewrite ?lit1 in E. destruct (IH _ _ _ _ X1 E (comma_in _ _ W) (close_map _ _ W1)) as [-> E1]. wspan E1. destruct E1 as [_ E1]. discriminate E1.
    + rewrite ?lit1 in E. destruct (IH _ _ _ _ X1 E (comma_in _ _ W) (comma_in _ _ W1)) as [-> E1]. wspan E1. destruct E1 as [_ E1]. injection E1 as E1.
      rewrite <- ?app_assoc in E1. wspan E1; [|now apply flow_map_head with l|now apply flow_map_head with l1]. destruct E1 as [_ E1]. destruct (IHL _ _ _ _ L1 E1) as [-> ->]. now split.
  (* entries *)
  - intros k v w w' s t K IHK W W' N V IHV e' s' r r' H' E F F'. inversion H' as [k1 v1 w1 w1' s1 t1 K1 W1 W1' N1 V1]; subst; rewrite <- ?app_assoc in E.
    rewrite ?lit1 in E.
    destruct (IHK _ _ _ _ K1 E) as [-> E1].
    { rewrite <- ?app_assoc. apply FoKey; try assumption. now apply flow_node_head with v. }
    { rewrite <- ?app_assoc. apply FoKey; try assumption. now apply flow_node_head with v1. }
    wspan E1. destruct E1 as [_ E1]. injection E1 as E1. rewrite <- ?app_assoc in E1.
    wspan E1; [|eapply node_head_white, flow_node_head; exact V|eapply node_head_white, flow_node_head; exact V1].
    destruct E1 as [_ E1]. destruct (IHV _ _ _ _ V1 E1 F F') as [-> ->]. now split.
Qed.
