(** Proofs about impls that call the methods of a map access in any order. *)
From Coq Require Import Lia.
From Verif Require Import Base Ast Ser De DeCalls Spec_Refs Spec_Visit.
Import ListNotations.

Definition step_ok (n : nat) (h : list event) (e : event) : Prop :=
  match e with
  | GaveKey i => i = keys h /\ i < n
  | GaveEnd => keys h = n
  | GaveValue i => keys h = S i /\ ~ In (GaveValue i) h
  end.
Lemma keys_app : forall p q, keys (p ++ q) = keys p + keys q.
Proof. intros p q. unfold keys. rewrite filter_app, app_length. reflexivity. Qed.
Lemma split_snoc : forall (h p1 p2 : list event) e x, h ++ [e] = p1 ++ x :: p2 ->
  (p2 = [] /\ h = p1 /\ e = x) \/ exists p3, p2 = p3 ++ [e] /\ h = p1 ++ x :: p3.
Proof.
  intros h p1 p2 e x E. destruct (rev p2) as [|z r] eqn:R.
  - left. apply (f_equal (@rev event)) in R. rewrite rev_involutive in R. cbn in R. subst p2.
    apply app_inj_tail in E. intuition.
  - right. apply (f_equal (@rev event)) in R. rewrite rev_involutive in R. cbn in R. subst p2.
    exists (rev r). change (x :: rev r ++ [z]) with ((x :: rev r) ++ [z]) in E. rewrite app_assoc in E.
    apply app_inj_tail in E. destruct E as [E1 E2]. subst. split; reflexivity.
Qed.
Lemma possible_nil : forall n, possible n [].
Proof. intros n. repeat split; destruct p1; discriminate. Qed.
Lemma possible_snoc : forall n h e, possible n (h ++ [e]) <-> possible n h /\ step_ok n h e.
Proof.
  intros n h e. split.
  - intros (A & B & C). split; [split; [|split]|].
    + intros p1 i p2 E. apply (A p1 i (p2 ++ [e])). subst h. rewrite <- app_assoc. reflexivity.
    + intros p1 p2 E. apply (B p1 (p2 ++ [e])). subst h. rewrite <- app_assoc. reflexivity.
    + intros p1 i p2 E. apply (C p1 i (p2 ++ [e])). subst h. rewrite <- app_assoc. reflexivity.
    + destruct e as [i| |i]; cbn [step_ok]; [exact (A h i [] eq_refl)|exact (B h [] eq_refl)|exact (C h i [] eq_refl)].
  - intros ((A & B & C) & O). split; [|split].
    + intros p1 i p2 E. apply split_snoc in E. destruct E as [(E1 & E2 & E3)|(p3 & E1 & E2)]; subst; [exact O|exact (A p1 i p3 eq_refl)].
    + intros p1 p2 E. apply split_snoc in E. destruct E as [(E1 & E2 & E3)|(p3 & E1 & E2)]; subst; [exact O|exact (B p1 p3 eq_refl)].
    + intros p1 i p2 E. apply split_snoc in E. destruct E as [(E1 & E2 & E3)|(p3 & E1 & E2)]; subst; [exact O|exact (C p1 i p3 eq_refl)].
Qed.
Lemma possible_prefix : forall n p h, possible n (h ++ p) -> possible n h.
Proof.
  intros n p. induction p as [|e p IH] using rev_ind; intros h P; [rewrite app_nil_r in P; exact P|].
  rewrite app_assoc in P. apply possible_snoc in P. apply IH. apply P.
Qed.
Lemma possible_cons : forall n h e p, possible n (h ++ e :: p) -> possible n (h ++ [e]) /\ possible n ((h ++ [e]) ++ p).
Proof.
  intros n h e p P. assert (possible n ((h ++ [e]) ++ p)) as Q by (rewrite <- app_assoc; exact P).
  split; [exact (possible_prefix _ _ _ Q)|exact Q].
Qed.
Lemma value_old : forall n h j, possible n h -> In (GaveValue j) h -> j < keys h.
Proof.
  intros n h j (_ & _ & C) I. apply in_split in I. destruct I as (p1 & p2 & E).
  destruct (C _ _ _ E) as [K _]. subst h. rewrite keys_app. lia.
Qed.

(** What the access holds after these events. *)
Definition holds (l : list (str * yaml)) (h : list event) (iter : list (str * yaml)) (pending : option yaml) : Prop :=
  possible (length l) h /\ keys h <= length l /\ iter = skipn (keys h) l /\
  ((spent h /\ pending = None) \/
   (~ spent h /\ exists k y, nth_error l (pred (keys h)) = Some (k, y) /\ pending = Some y)).

Lemma skipn_nth : forall {A} n (l : list A) x r, skipn n l = x :: r -> nth_error l n = Some x /\ skipn (S n) l = r /\ n < length l.
Proof.
  intros A n. induction n as [|n IH]; intros [|z l] x r E; cbn in E; try discriminate.
  - injection E as E1 E2. subst. repeat split; cbn; lia.
  - destruct (IH l x r E) as (E1 & E2 & E3). cbn. repeat split; [exact E1|exact E2|lia].
Qed.
Lemma skipn_end : forall {A} n (l : list A), n <= length l -> skipn n l = [] -> n = length l.
Proof. intros A n l L E. pose proof (skipn_length n l) as K. rewrite E in K. cbn in K. lia. Qed.

Lemma holds_start : forall l, holds l [] l None.
Proof.
  intros l. split; [apply possible_nil|]. split; [cbn; lia|]. split; [reflexivity|]. left. split; [left; reflexivity|reflexivity].
Qed.
Lemma holds_key : forall l h k y iter q, holds l h ((k, y) :: iter) q ->
  nth_error l (keys h) = Some (k, y) /\ holds l (h ++ [GaveKey (keys h)]) iter (Some y).
Proof.
  intros l h k y iter q (P & L & E & _). symmetry in E. destruct (skipn_nth _ _ _ _ E) as (N & R & T).
  split; [exact N|]. assert (keys (h ++ [GaveKey (keys h)]) = S (keys h)) as K by (rewrite keys_app; cbn; lia).
  split; [apply possible_snoc; split; [exact P|split; [reflexivity|exact T]]|].
  rewrite K. split; [lia|]. split; [symmetry; exact R|]. right. split.
  - intros [Z|I]; [lia|]. rewrite K in I. cbn [pred] in I. apply in_app_iff in I. destruct I as [I|[I|[]]]; [|discriminate].
    apply (value_old _ _ _ P) in I. lia.
  - exists k, y. split; [exact N|reflexivity].
Qed.
Lemma spent_end : forall h, spent (h ++ [GaveEnd]) <-> spent h.
Proof.
  intros h. unfold spent. assert (keys (h ++ [GaveEnd]) = keys h) as K by (rewrite keys_app; cbn; lia). rewrite K, in_app_iff.
  split; [intros [Z|[I|[I|[]]]]; [left; exact Z|right; exact I|discriminate]|intros [Z|I]; [left; exact Z|right; left; exact I]].
Qed.
Lemma holds_end : forall l h q, holds l h [] q -> holds l (h ++ [GaveEnd]) [] q.
Proof.
  intros l h q (P & L & E & Q). symmetry in E. pose proof (skipn_end _ _ L E) as T.
  assert (keys (h ++ [GaveEnd]) = keys h) as K by (rewrite keys_app; cbn; lia).
  split; [apply possible_snoc; split; [exact P|exact T]|]. rewrite K. split; [exact L|]. split; [symmetry; exact E|].
  rewrite spent_end. exact Q.
Qed.
Lemma holds_value : forall l h iter y, holds l h iter (Some y) ->
  exists k i, keys h = S i /\ nth_error l i = Some (k, y) /\ ~ spent h /\ holds l (h ++ [GaveValue i]) iter None.
Proof.
  intros l h iter y (P & L & E & Q). destruct Q as [[_ Q]|(NS & k & y' & N & Q)]; [discriminate|]. injection Q as Q. subst y'.
  destruct (keys h) as [|i] eqn:K; [exfalso; apply NS; left; exact K|]. exists k, i. cbn [pred] in N.
  assert (keys (h ++ [GaveValue i]) = S i) as K' by (rewrite keys_app; cbn; lia).
  split; [reflexivity|]. split; [exact N|]. split; [exact NS|]. split; [|split; [lia|split]].
  - apply possible_snoc. split; [exact P|]. split; [exact K|]. intros I. apply NS. right. rewrite K. exact I.
  - rewrite K'. exact E.
  - left. split; [|reflexivity]. right. rewrite K'. apply in_app_iff. right. left. reflexivity.
Qed.
Lemma holds_spent : forall l h iter, holds l h iter None -> spent h.
Proof. intros l h iter (_ & _ & _ & [[S _]|(_ & k & y & _ & D)]); [exact S|discriminate]. Qed.

Section Serve.
  Context {V W : Type} (l : list (str * yaml)).
  Definition ended (g : got W) (p : list event) (v' : visit V W) (a' : anchors) : Prop :=
    match g with
    | Got w a1 => v' = Return w /\ a1 = a'
    | GErr a1 => v' = Refuse /\ a1 = a'
    | GPanic => trips l p v' a'
    end.
  Lemma serve_path : forall (v : visit V W) h iter q a, holds l h iter q ->
    exists p v' a', possible (length l) (h ++ p) /\ follows l v a p v' a' /\ ended (serve v iter q a) (h ++ p) v' a'.
  Proof.
    induction v as [w| |d f IH|d f IH]; intros h iter q a H.
    - exists [], (Return w), a. rewrite app_nil_r. split; [apply H|]. split; [constructor|]. split; reflexivity.
    - exists [], Refuse, a. rewrite app_nil_r. split; [apply H|]. split; [constructor|]. split; reflexivity.
    - destruct iter as [|[k y] iter]; cbn [serve].
      + destruct (IH (Some None) _ _ _ a (holds_end _ _ _ H)) as (p & v' & a' & P & F & E).
        rewrite <- app_assoc in P, E. cbn [app] in P, E. exists (GaveEnd :: p), v', a'. split; [exact P|]. split; [constructor; exact F|exact E].
      + destruct (holds_key _ _ _ _ _ _ H) as [N H']. destruct (d (Unquoted k) a) as [x a1|a1|] eqn:D.
        * destruct (IH (Some (Some x)) _ _ _ a1 H') as (p & v' & a' & P & F & E). rewrite <- app_assoc in P, E. cbn [app] in P, E.
          exists (GaveKey (keys h) :: p), v', a'. split; [exact P|]. split; [|exact E].
          exact (FKey l d f a _ k y (Some x) a1 p v' a' N (ReadsOk _ _ _ _ _ D) F).
        * destruct (IH None _ _ _ a1 H') as (p & v' & a' & P & F & E). rewrite <- app_assoc in P, E. cbn [app] in P, E.
          exists (GaveKey (keys h) :: p), v', a'. split; [exact P|]. split; [|exact E].
          exact (FKey l d f a _ k y None a1 p v' a' N (ReadsErr _ _ _ _ D) F).
        * exists [], (Key d f), a. rewrite app_nil_r. split; [apply H|]. split; [constructor|]. exact (TripKey l h d f a k y N D).
    - destruct q as [y|]; cbn [serve].
      + destruct (holds_value _ _ _ _ H) as (k & i & K & N & NS & H'). destruct (d y a) as [x a1|a1|] eqn:D.
        * destruct (IH (Some x) _ _ _ a1 H') as (p & v' & a' & P & F & E). rewrite <- app_assoc in P, E. cbn [app] in P, E.
          exists (GaveValue i :: p), v', a'. split; [exact P|]. split; [|exact E].
          exact (FValue l d f a _ k y (Some x) a1 p v' a' N (ReadsOk _ _ _ _ _ D) F).
        * destruct (IH None _ _ _ a1 H') as (p & v' & a' & P & F & E). rewrite <- app_assoc in P, E. cbn [app] in P, E.
          exists (GaveValue i :: p), v', a'. split; [exact P|]. split; [|exact E].
          exact (FValue l d f a _ k y None a1 p v' a' N (ReadsErr _ _ _ _ D) F).
        * exists [], (Value d f), a. rewrite app_nil_r. split; [apply H|]. split; [constructor|].
          apply (TripValue l h d f a k y NS); [rewrite K; exact N|exact D].
      + exists [], (Value d f), a. rewrite app_nil_r. split; [apply H|]. split; [constructor|].
        apply TripSpent. exact (holds_spent _ _ _ H).
  Qed.
  Lemma path_serve : forall (v : visit V W) a p v' a', follows l v a p v' a' -> forall h iter q, holds l h iter q ->
    possible (length l) (h ++ p) -> exists iter' q', holds l (h ++ p) iter' q' /\ serve v iter q a = serve v' iter' q' a'.
  Proof.
    intros v a p v' a' F. induction F as [v a|d f a i k y o a1 p v' a' N R F IH|d f a p v' a' F IH|d f a i k y o a1 p v' a' N R F IH];
      intros h iter q H P.
    - exists iter, q. rewrite app_nil_r. split; [exact H|reflexivity].
    - apply possible_cons in P. destruct P as [P1 P2]. pose proof (proj2 (proj1 (possible_snoc _ _ _) P1)) as [E T]. subst i.
      destruct iter as [|[k' y'] iter].
      { destruct H as (_ & L & E & _). symmetry in E. apply (skipn_end _ _ L) in E. lia. }
      destruct (holds_key _ _ _ _ _ _ H) as [N' H']. rewrite N in N'. injection N' as E1 E2. subst k' y'.
      destruct (IH _ _ _ H' P2) as (i' & q' & HH & E). exists i', q'. rewrite <- app_assoc in HH. split; [exact HH|].
      cbn [serve]. inversion R as [x a2 D|a2 D]; subst; rewrite D; exact E.
    - apply possible_cons in P. destruct P as [P1 P2]. pose proof (proj2 (proj1 (possible_snoc _ _ _) P1)) as T. cbn [step_ok] in T.
      destruct iter as [|[k' y'] iter].
      2: { destruct H as (_ & L & E & _). symmetry in E. apply skipn_nth in E. lia. }
      destruct (IH _ _ _ (holds_end _ _ _ H) P2) as (i' & q' & HH & E). exists i', q'. rewrite <- app_assoc in HH. split; [exact HH|exact E].
    - apply possible_cons in P. destruct P as [P1 P2]. pose proof (proj2 (proj1 (possible_snoc _ _ _) P1)) as [K T].
      destruct q as [y'|].
      2: { exfalso. apply holds_spent in H. destruct H as [Z|I]; [lia|]. rewrite K in I. exact (T I). }
      destruct (holds_value _ _ _ _ H) as (k' & i' & K' & N' & _ & H'). rewrite K in K'. injection K' as K'. subst i'.
      rewrite N in N'. injection N' as E1 E2. subst k' y'.
      destruct (IH _ _ _ H' P2) as (j & q' & HH & E). exists j, q'. rewrite <- app_assoc in HH. split; [exact HH|].
      cbn [serve]. inversion R as [x a2 D|a2 D]; subst; rewrite D; exact E.
  Qed.
  Lemma trips_serve : forall h iter q (v : visit V W) a, holds l h iter q -> trips l h v a -> serve v iter q a = GPanic.
  Proof.
    intros h iter q v a H T. destruct T as [d f a S|d f a k y N D|d f a k y NS N D]; cbn [serve].
    - destruct q as [y|]; [|reflexivity]. destruct (holds_value _ _ _ _ H) as (k & i & _ & _ & NS & _). contradiction.
    - destruct iter as [|[k' y'] iter].
      + destruct H as (_ & L & E & _). symmetry in E. apply (skipn_end _ _ L) in E.
        assert (nth_error l (keys h) <> None) as X by congruence. apply nth_error_Some in X. lia.
      + destruct (holds_key _ _ _ _ _ _ H) as [N' _]. rewrite N in N'. injection N' as E1 E2. subst. rewrite D. reflexivity.
    - destruct q as [y'|]; [|apply holds_spent in H; contradiction].
      destruct (holds_value _ _ _ _ H) as (k' & i & K & N' & _ & _). rewrite K in N. cbn [pred] in N. rewrite N in N'. injection N' as E1 E2. subst.
      rewrite D. reflexivity.
  Qed.

  Lemma serve_value : forall (v : visit V W) a w a', serve v l None a = Got w a' <-> exists p, reaches l v a p (Return w) a'.
  Proof.
    intros v a w a'. split.
    - intros E. destruct (serve_path v [] l None a (holds_start l)) as (p & v' & a1 & P & F & D). rewrite E in D. destruct D as [D1 D2]. subst.
      exists p. split; assumption.
    - intros (p & P & F). destruct (path_serve _ _ _ _ _ F [] l None (holds_start l) P) as (i & q & _ & E). exact E.
  Qed.
  Lemma serve_error : forall (v : visit V W) a a', serve v l None a = GErr a' <-> exists p, reaches l v a p Refuse a'.
  Proof.
    intros v a a'. split.
    - intros E. destruct (serve_path v [] l None a (holds_start l)) as (p & v' & a1 & P & F & D). rewrite E in D. destruct D as [D1 D2]. subst.
      exists p. split; assumption.
    - intros (p & P & F). destruct (path_serve _ _ _ _ _ F [] l None (holds_start l) P) as (i & q & _ & E). exact E.
  Qed.
  Lemma serve_panic : forall (v : visit V W) a, serve v l None a = GPanic <-> exists p v' a', reaches l v a p v' a' /\ trips l p v' a'.
  Proof.
    intros v a. split.
    - intros E. destruct (serve_path v [] l None a (holds_start l)) as (p & v' & a1 & P & F & D). rewrite E in D.
      exists p, v', a1. split; [split; assumption|exact D].
    - intros (p & v' & a' & (P & F) & T). destruct (path_serve _ _ _ _ _ F [] l None (holds_start l) P) as (i & q & H & E).
      rewrite E. exact (trips_serve _ _ _ _ _ H T).
  Qed.
  Lemma polite_safe_at : forall b (v : visit V W), polite b v -> forall iter q a, (b = true -> q <> None) -> serve v iter q a <> GPanic.
  Proof.
    intros b v P. induction P as [b w|b|b d f D P1 I1 P2 I2 P3 I3|d f D P I]; intros iter q a Q; cbn [serve]; try discriminate.
    - destruct iter as [|[k y] iter]; [apply I2; discriminate|]. destruct (d (Unquoted k) a) as [x a1|a1|] eqn:E;
        [apply I1; discriminate|apply I3; discriminate|exfalso; exact (D _ _ E)].
    - destruct q as [y|]; [|exfalso; exact (Q eq_refl eq_refl)]. destruct (d y a) as [x a1|a1|] eqn:E;
        [apply I; discriminate|apply I; discriminate|exfalso; exact (D _ _ E)].
  Qed.
  Lemma seq_path : forall (v : walk V W) (m : list yaml) a, exists v' m' a', treads v m a v' m' a' /\
    match serve_seq v m a with
    | Got w a1 => v' = WReturn w /\ a1 = a'
    | GErr a1 => v' = WRefuse /\ a1 = a'
    | GPanic => exists d f y m1, v' = Element d f /\ m' = y :: m1 /\ d y a' = GPanic
    end.
  Proof.
    induction v as [w| |d f IH]; intros m a; cbn [serve_seq].
    - exists (WReturn w), m, a. split; [constructor|split; reflexivity].
    - exists WRefuse, m, a. split; [constructor|split; reflexivity].
    - destruct m as [|y m].
      + destruct (IH (Some None) [] a) as (v' & m' & a' & T & E). exists v', m', a'. split; [constructor; exact T|exact E].
      + destruct (d y a) as [x a1|a1|] eqn:D.
        * destruct (IH (Some (Some x)) m a1) as (v' & m' & a' & T & E). exists v', m', a'. split; [|exact E].
          exact (TrElem d f y m a (Some x) a1 v' m' a' (ReadsOk _ _ _ _ _ D) T).
        * destruct (IH None m a1) as (v' & m' & a' & T & E). exists v', m', a'. split; [|exact E].
          exact (TrElem d f y m a None a1 v' m' a' (ReadsErr _ _ _ _ D) T).
        * exists (Element d f), (y :: m), a. split; [constructor|]. exists d, f, y, m. repeat split. exact D.
  Qed.
  Lemma path_seq : forall (v : walk V W) m a v' m' a', treads v m a v' m' a' -> serve_seq v m a = serve_seq v' m' a'.
  Proof.
    intros v m a v' m' a' T. induction T as [v m a|d f y m a o a1 v' m' a' R T IH|d f a v' m' a' T IH]; [reflexivity| |exact IH].
    cbn [serve_seq]. inversion R as [x a2 D|a2 D]; subst; rewrite D; exact IH.
  Qed.
  Lemma seq_value : forall (v : walk V W) m a w a', serve_seq v m a = Got w a' <-> exists m', treads v m a (WReturn w) m' a'.
  Proof.
    intros v m a w a'. split.
    - intros E. destruct (seq_path v m a) as (v' & m' & a1 & T & D). rewrite E in D. destruct D as [D1 D2]. subst. exists m'. exact T.
    - intros (m' & T). apply path_seq in T. exact T.
  Qed.
  Lemma seq_panic : forall (v : walk V W) m a, serve_seq v m a = GPanic <->
    exists d f y m' a', treads v m a (Element d f) (y :: m') a' /\ d y a' = GPanic.
  Proof.
    intros v m a. split.
    - intros E. destruct (seq_path v m a) as (v' & m' & a1 & T & D). rewrite E in D. destruct D as (d & f & y & m1 & E1 & E2 & D). subst.
      exists d, f, y, m1, a1. split; assumption.
    - intros (d & f & y & m' & a' & T & D). apply path_seq in T. rewrite T. cbn [serve_seq]. rewrite D. reflexivity.
  Qed.
End Serve.

(** ---- from the node ---- *)

Lemma resolve_latest : forall a n z, resolve a n = Some z <-> latest a n z.
Proof.
  induction a as [|[m y] a IH]; intros n z; cbn [resolve].
  - split; [discriminate|]. intros ([|? ?] & a2 & E & _); discriminate.
  - destruct (seqb m n) eqn:Q.
    + apply seqb_eq in Q. subst m. split.
      * intros E. injection E as E. subst y. exists [], a. split; [reflexivity|intros []].
      * intros ([|[m' y'] a1] & a2 & E & N); cbn in E; injection E; intros; subst; [reflexivity|]. exfalso. apply N. left. reflexivity.
    + rewrite IH. split.
      * intros (a1 & a2 & E & N). exists ((m, y) :: a1), a2. subst a. split; [reflexivity|]. intros [I|I]; [|exact (N I)].
        cbn in I. subst m. assert (seqb n n = true) as R by (apply seqb_eq; reflexivity). congruence.
      * intros ([|[m' y'] a1] & a2 & E & N); cbn in E; injection E; intros; subst.
        -- assert (seqb n n = true) as R by (apply seqb_eq; reflexivity). congruence.
        -- exists a1, a2. split; [reflexivity|]. intros I. apply N. right. exact I.
Qed.
Lemma resolved_stands : forall y a z, into_resolved y a = Some z <-> stands_for y a z.
Proof.
  intros y a z. destruct y; cbn [into_resolved stands_for]; try (split; congruence). apply resolve_latest.
Qed.
Lemma hash_entries_eq : forall d a, hash_entries a d =
  (flat_map (fun x => match x with HElem e => [(he_key e, a_value (he_value e))] | _ => [] end) d, rev (labels (Hash d)) ++ a).
Proof.
  induction d as [|x d IH]; intros a; [reflexivity|]. destruct x as [c|c|e]; cbn [hash_entries flat_map]; try (rewrite IH; reflexivity).
  rewrite IH. cbn [app]. f_equal. unfold labels. cbn [children flat_map app]. rewrite rev_app_distr, <- app_assoc. f_equal.
  unfold register. destruct (a_alias (he_value e)); reflexivity.
Qed.
Lemma seq_values_eq : forall d a, seq_values a d =
  (flat_map (fun x => match x with AElem e => [a_value e] | _ => [] end) d, rev (labels (Array d)) ++ a).
Proof.
  induction d as [|x d IH]; intros a; [reflexivity|]. destruct x as [c|c|e]; cbn [seq_values flat_map]; try (rewrite IH; reflexivity).
  rewrite IH. cbn [app]. f_equal. unfold labels. cbn [children flat_map app]. rewrite rev_app_distr, <- app_assoc. f_equal.
  unfold register. destruct (a_alias e); reflexivity.
Qed.
Lemma labels_inline : (forall d, labels (InlineHash d) = []) /\ (forall d, labels (InlineArray d) = []).
Proof. split; intros d; unfold labels; cbn [children]; induction d as [|x d IH]; [reflexivity|exact IH|reflexivity|exact IH]. Qed.
Lemma opens_iff : forall y a l a1, de_map_entries y a = Some (l, a1) <-> opens y a l a1.
Proof.
  intros y a l a1. unfold de_map_entries. split.
  - intros E. destruct (into_resolved y a) as [z|] eqn:R; [|discriminate]. apply resolved_stands in R.
    destruct z; try discriminate; [injection E as E1 E2; subst; pose proof (proj1 labels_inline l) as L|rewrite hash_entries_eq in E; injection E as E1 E2; subst].
    + change a1 with ([] ++ a1) at 2. change [] with (rev ([] : anchors)). rewrite <- L. exact (Opens y a1 _ l R eq_refl).
    + exact (Opens y a _ _ R eq_refl).
  - intros O. destruct O as [y a z l S M]. apply resolved_stands in S. rewrite S. destruct z; try contradiction; subst l.
    + rewrite (proj1 labels_inline). reflexivity.
    + rewrite hash_entries_eq. reflexivity.
Qed.
Lemma lists_iff : forall y a l a1, de_seq_values y a = Some (l, a1) <-> lists y a l a1.
Proof.
  intros y a l a1. unfold de_seq_values. split.
  - intros E. destruct (into_resolved y a) as [z|] eqn:R; [|discriminate]. apply resolved_stands in R.
    destruct z; try discriminate; [injection E as E1 E2; subst; pose proof (proj2 labels_inline l) as L|rewrite seq_values_eq in E; injection E as E1 E2; subst].
    + change a1 with ([] ++ a1) at 2. change [] with (rev ([] : anchors)). rewrite <- L. exact (Lists y a1 _ l R eq_refl).
    + exact (Lists y a _ _ R eq_refl).
  - intros O. destruct O as [y a z l S M]. apply resolved_stands in S. rewrite S. destruct z; try contradiction; subst l.
    + rewrite (proj2 labels_inline). reflexivity.
    + rewrite seq_values_eq. reflexivity.
Qed.
Section Node.
  Context {V W : Type}.
  Lemma map_value : forall (v : visit V W) y a w a', visit_map v y a = Got w a' <->
    exists l a1 p, opens y a l a1 /\ reaches l v a1 p (Return w) a'.
  Proof.
    intros v y a w a'. unfold visit_map. split.
    - intros E. destruct (de_map_entries y a) as [[l a1]|] eqn:M; [|discriminate]. apply serve_value in E. destruct E as [p E].
      exists l, a1, p. split; [apply opens_iff; exact M|exact E].
    - intros (l & a1 & p & O & R). apply opens_iff in O. rewrite O. apply serve_value. exists p. exact R.
  Qed.
  Lemma map_error : forall (v : visit V W) y a a', visit_map v y a = GErr a' <->
    (a' = a /\ ~ exists l a1, opens y a l a1) \/ exists l a1 p, opens y a l a1 /\ reaches l v a1 p Refuse a'.
  Proof.
    intros v y a a'. unfold visit_map. split.
    - intros E. destruct (de_map_entries y a) as [[l a1]|] eqn:M.
      + right. apply serve_error in E. destruct E as [p E]. exists l, a1, p. split; [apply opens_iff; exact M|exact E].
      + left. injection E as E. split; [symmetry; exact E|]. intros (l & a1 & O). apply opens_iff in O. congruence.
    - intros [[E N]|(l & a1 & p & O & R)].
      + destruct (de_map_entries y a) as [[l a1]|] eqn:M; [|congruence]. exfalso. apply N. exists l, a1. apply opens_iff. exact M.
      + apply opens_iff in O. rewrite O. apply serve_error. exists p. exact R.
  Qed.
  Lemma map_panic : forall (v : visit V W) y a, visit_map v y a = GPanic <->
    exists l a1 p v' a', opens y a l a1 /\ reaches l v a1 p v' a' /\ trips l p v' a'.
  Proof.
    intros v y a. unfold visit_map. split.
    - intros E. destruct (de_map_entries y a) as [[l a1]|] eqn:M; [|discriminate]. apply serve_panic in E. destruct E as (p & v' & a' & E).
      exists l, a1, p, v', a'. split; [apply opens_iff; exact M|exact E].
    - intros (l & a1 & p & v' & a' & O & R). apply opens_iff in O. rewrite O. apply serve_panic. exists p, v', a'. exact R.
  Qed.
  Lemma map_safe : forall (v : visit V W), polite false v -> forall y a, visit_map v y a <> GPanic.
  Proof.
    intros v P y a. unfold visit_map. destruct (de_map_entries y a) as [[l a1]|]; [|discriminate]. apply (polite_safe_at false v P). discriminate.
  Qed.
  Lemma walk_value : forall (v : walk V W) y a w a', visit_seq v y a = Got w a' <->
    exists l a1 l', lists y a l a1 /\ treads v l a1 (WReturn w) l' a'.
  Proof.
    intros v y a w a'. unfold visit_seq. split.
    - intros E. destruct (de_seq_values y a) as [[l a1]|] eqn:M; [|discriminate]. apply seq_value in E. destruct E as [p E].
      exists l, a1, p. split; [apply lists_iff; exact M|exact E].
    - intros (l & a1 & p & O & R). apply lists_iff in O. rewrite O. apply seq_value. exists p. exact R.
  Qed.
  Lemma walk_panic : forall (v : walk V W) y a, visit_seq v y a = GPanic <->
    exists l a1 d f z l' a', lists y a l a1 /\ treads v l a1 (Element d f) (z :: l') a' /\ d z a' = GPanic.
  Proof.
    intros v y a. unfold visit_seq. split.
    - intros E. destruct (de_seq_values y a) as [[l a1]|] eqn:M; [|discriminate]. apply seq_panic in E. destruct E as (d & f & z & l' & a' & E).
      exists l, a1, d, f, z, l', a'. split; [apply lists_iff; exact M|exact E].
    - intros (l & a1 & d & f & z & l' & a' & O & R). apply lists_iff in O. rewrite O. apply seq_panic. exists d, f, z, l', a'. exact R.
  Qed.
End Node.

(** ---- derived impls ---- *)

Lemma agrees_ok : forall {A} (g : got A) x a, agrees g (Some (x, a)) -> g = Got x a.
Proof. intros A g x a H. exact H. Qed.
Lemma vec_serve : forall s d, matches s d -> forall l n acc a, length l < n ->
  agrees (serve_seq (vec_walk n s acc) l a)
         (match de_elems d l a with Some (vs, a') => Some (rev acc ++ vs, a') | None => None end).
Proof.
  intros s d M l. induction l as [|y l IH]; intros n acc a L; (destruct n as [|n]; [cbn in L; lia|]); cbn [vec_walk serve_seq de_elems].
  - cbn [agrees]. rewrite app_nil_r. reflexivity.
  - pose proof (M y a) as D. destruct (d y a) as [[v a1]|].
    + apply agrees_ok in D. rewrite D. specialize (IH n (v :: acc) a1 ltac:(cbn in L; lia)). cbn [rev] in IH.
      destruct (de_elems d l a1) as [[vs a2]|]; [rewrite <- app_assoc in IH; exact IH|exact IH].
    + destruct D as [a1 D]. rewrite D. exists a1. reflexivity.
Qed.
Lemma tuple_serve : forall ss ds, Forall2 matches ss ds -> forall l acc a,
  agrees (serve_seq (tuple_walk ss acc) l a)
         (match de_tuple ds l a with Some (vs, a') => Some (rev acc ++ vs, a') | None => None end).
Proof.
  intros ss ds M. induction M as [|s d ss ds M MM IH]; intros l acc a; cbn [tuple_walk serve_seq de_tuple].
  - cbn [agrees]. rewrite app_nil_r. reflexivity.
  - destruct l as [|y l]; [exists a; reflexivity|]. pose proof (M y a) as D. destruct (d y a) as [[v a1]|].
    + apply agrees_ok in D. rewrite D. specialize (IH l (v :: acc) a1). cbn [rev] in IH.
      destruct (de_tuple ds l a1) as [[vs a2]|]; [rewrite <- app_assoc in IH; exact IH|exact IH].
    + destruct D as [a1 D]. rewrite D. exists a1. reflexivity.
Qed.
Lemma map_serve : forall sk dk sv dv, matches sk dk -> matches sv dv -> forall l n acc q a, length l < n ->
  agrees (serve (map_visit n sk sv acc) l q a)
         (match de_entries dk dv l a with Some (vs, a') => Some (rev acc ++ vs, a') | None => None end).
Proof.
  intros sk dk sv dv MK MV l. induction l as [|[k y] l IH]; intros n acc q a L; (destruct n as [|n]; [cbn in L; lia|]); cbn [map_visit serve de_entries].
  - cbn [agrees]. rewrite app_nil_r. reflexivity.
  - pose proof (MK (Unquoted k) a) as D. destruct (dk (Unquoted k) a) as [[vk a1]|].
    2: { destruct D as [a1 D]. rewrite D. exists a1. reflexivity. }
    apply agrees_ok in D. rewrite D. cbn [serve]. pose proof (MV y a1) as E. destruct (dv y a1) as [[v a2]|].
    2: { destruct E as [a2 E]. rewrite E. exists a2. reflexivity. }
    apply agrees_ok in E. rewrite E. specialize (IH n ((vk, v) :: acc) None a2 ltac:(cbn in L; lia)). cbn [rev] in IH.
    destruct (de_entries dk dv l a2) as [[vs a3]|]; [rewrite <- app_assoc in IH; exact IH|exact IH].
Qed.

(** A slot stands for a field. *)
Definition same_slot (s : slot) (f : field) : Prop :=
  s_name s = f_name f /\ s_opt s = f_opt f /\ s_val s = f_val f /\ matches (s_seed s) (f_de f).
Lemma slot_values : forall ss fs, Forall2 same_slot ss fs -> opt_map slot_value ss = opt_map field_value fs.
Proof.
  intros ss fs M. induction M as [|s f ss fs (E1 & E2 & E3 & _) MM IH]; [reflexivity|]. cbn [opt_map].
  rewrite IH. assert (slot_value s = field_value f) as E by (unfold slot_value, field_value; rewrite E1, E2, E3; reflexivity). rewrite E. reflexivity.
Qed.
(** One entry of a struct. *)
Lemma field_step : forall ss fs k y a, Forall2 same_slot ss fs ->
  match find_slot ss k with
  | None => de_field fs k y a = Some (fs, a)
  | Some s => exists f, same_slot s f /\
      match s_val s with
      | Some _ => de_field fs k y a = None
      | None => match f_de f y a with
                | None => de_field fs k y a = None
                | Some (v, a1) => exists fs1, de_field fs k y a = Some (fs1, a1) /\ Forall2 same_slot (fill ss k v) fs1
                end
      end
  end.
Proof.
  intros ss fs k y a M. induction M as [|s f ss fs (E1 & E2 & E3 & E4) MM IH]; [reflexivity|]. cbn [find_slot de_field fill].
  rewrite E1. destruct (seqb (f_name f) k) eqn:Q.
  - exists f. split; [split; [exact E1|split; [exact E2|split; [exact E3|exact E4]]]|]. rewrite E3.
    destruct (f_val f) as [u|]; [reflexivity|]. destruct (f_de f y a) as [[v a1]|]; [|reflexivity].
    eexists. split; [reflexivity|]. constructor; [|exact MM]. split; [reflexivity|split; [exact E2|split; [reflexivity|exact E4]]].
  - destruct (find_slot ss k) as [s'|] eqn:FS.
    + destruct IH as (f' & SF & IH). exists f'. split; [exact SF|]. destruct (s_val s'); [rewrite IH; reflexivity|].
      destruct (f_de f' y a) as [[v a1]|]; [|rewrite IH; reflexivity]. destruct IH as (fs1 & IH & F). rewrite IH.
      exists (f :: fs1). split; [reflexivity|]. constructor; [|exact F]. split; [exact E1|split; [exact E2|split; [exact E3|exact E4]]].
    + rewrite IH. reflexivity.
Qed.
Lemma struct_serve : forall l n ss fs q a, Forall2 same_slot ss fs -> length l < n ->
  agrees (serve (struct_visit n ss) l q a)
         (match de_fields fs l a with
          | None => None
          | Some (fs1, a2) => match opt_map field_value fs1 with Some vs => Some (vs, a2) | None => None end
          end).
Proof.
  intros l. induction l as [|[k y] l IH]; intros n ss fs q a M L; (destruct n as [|n]; [cbn in L; lia|]); cbn [struct_visit serve de_fields].
  - rewrite (slot_values _ _ M). destruct (opt_map field_value fs) as [vs|]; [reflexivity|exists a; reflexivity].
  - change (name_seed (Unquoted k) a) with (Got (SStr k) a). cbv beta iota. pose proof (field_step ss fs k y a M) as S.
    assert (length l < n) as L' by (cbn in L; lia).
    destruct (find_slot ss k) as [s|].
    + destruct S as (f & (_ & _ & E3 & E4) & S). destruct (s_val s) as [u|]; [rewrite S; exists a; reflexivity|].
      cbn [serve]. pose proof (E4 y a) as D. destruct (f_de f y a) as [[v a1]|].
      * destruct S as (fs1 & S & F). rewrite S. apply agrees_ok in D. rewrite D. exact (IH n _ _ None a1 F L').
      * rewrite S. destruct D as [a1 D]. rewrite D. exists a1. reflexivity.
    + rewrite S. cbn [serve]. unfold skip_seed at 1. cbv beta iota. exact (IH n _ _ None a M L').
Qed.

(** With enough calls a derived impl reads what [De.v] says. *)
Lemma agrees_map : forall {A B} (f : A -> B) (g : got A) r, agrees g r ->
  agrees (match g with Got x a => Got (f x) a | GErr a => GErr a | GPanic => GPanic end)
         (match r with Some (x, a) => Some (f x, a) | None => None end).
Proof. intros A B f g [[x a]|] H; cbn [agrees] in *; [rewrite H; reflexivity|destruct H as [a H]; rewrite H; exists a; reflexivity]. Qed.

Lemma vec_derived : forall t s, matches s (de t) -> forall y a, exists n0, forall n, n0 <= n ->
  agrees (gmap SSeq (visit_seq (vec_walk n s []) y a)) (de (TSeq t) y a).
Proof.
  intros t s M y a. unfold visit_seq. cbn [de]. destruct (de_seq_values y a) as [[l a1]|]; [|exists 0; intros n _; exists a; reflexivity].
  exists (S (length l)). intros n L. pose proof (vec_serve s (de t) M l n [] a1 L) as H. cbn [rev app] in H.
  unfold gmap. apply (agrees_map SSeq) in H. destruct (de_elems (de t) l a1) as [[vs a2]|]; exact H.
Qed.
Lemma tuple_derived : forall ts ss, Forall2 (fun s t => matches s (de t)) ss ts -> forall y a,
  agrees (gmap STuple (visit_seq (tuple_walk ss []) y a)) (de (TTuple ts) y a).
Proof.
  intros ts ss M y a. unfold visit_seq. cbn [de]. destruct (de_seq_values y a) as [[l a1]|]; [|exists a; reflexivity].
  assert (Forall2 matches ss (map de ts)) as M' by (induction M; constructor; assumption).
  pose proof (tuple_serve ss _ M' l [] a1) as H. cbn [rev app] in H.
  unfold gmap. apply (agrees_map STuple) in H. destruct (de_tuple (map de ts) l a1) as [[vs a2]|]; exact H.
Qed.
Lemma map_derived : forall tk tv sk sv, matches sk (de tk) -> matches sv (de tv) -> forall y a, exists n0, forall n, n0 <= n ->
  agrees (gmap SMap (visit_map (map_visit n sk sv []) y a)) (de (TMap tk tv) y a).
Proof.
  intros tk tv sk sv MK MV y a. unfold visit_map. cbn [de]. destruct (de_map_entries y a) as [[l a1]|]; [|exists 0; intros n _; exists a; reflexivity].
  exists (S (length l)). intros n L. pose proof (map_serve sk (de tk) sv (de tv) MK MV l n [] None a1 L) as H. cbn [rev app] in H.
  unfold gmap. apply (agrees_map SMap) in H. destruct (de_entries (de tk) (de tv) l a1) as [[vs a2]|]; exact H.
Qed.
Lemma struct_derived : forall fs ss,
  Forall2 (fun s nt => s_name s = fst nt /\ matches (s_seed s) (de (snd nt)) /\ s_opt s = is_option (snd nt) /\ s_val s = None) ss fs ->
  forall y a, exists n0, forall n, n0 <= n ->
  agrees (gmap SStruct (visit_map (struct_visit n ss) y a)) (de (TStruct fs) y a).
Proof.
  intros fs ss M y a. unfold visit_map. cbn [de]. unfold de_struct.
  destruct (de_map_entries y a) as [[l a1]|]; [|exists 0; intros n _; exists a; reflexivity].
  exists (S (length l)). intros n L.
  assert (Forall2 same_slot ss (map (fun nt : str * ty => match nt with (n, t) => mkF n (de t) (is_option t) None end) fs)) as M'.
  { induction M as [|s [nm t] ss fs (E1 & E2 & E3 & E4) M IH]; constructor; [|exact IH]. cbn in *. split; [exact E1|split; [exact E3|split; [exact E4|exact E2]]]. }
  pose proof (struct_serve l n ss _ None a1 M' L) as H. unfold gmap. apply (agrees_map SStruct) in H.
  destruct (de_fields _ l a1) as [[fs1 a2]|]; [|exact H]. destruct (opt_map field_value fs1); exact H.
Qed.
(** The visitors themselves keep to the order. *)
Lemma map_polite : forall {V} n (sk sv : seed V) acc, (forall y a, sk y a <> GPanic) -> (forall y a, sv y a <> GPanic) ->
  polite false (map_visit n sk sv acc).
Proof.
  intros V n sk sv. induction n as [|n IH]; intros acc K D; cbn [map_visit]; constructor; try (constructor); try assumption.
  intros [v|]; [apply IH; assumption|constructor].
Qed.
Lemma find_slot_in : forall ss k s, find_slot ss k = Some s -> In s ss.
Proof.
  induction ss as [|s ss IH]; intros k s' E; [discriminate|]. cbn [find_slot] in E. destruct (seqb (s_name s) k); [injection E as E; left; exact E|right; exact (IH _ _ E)].
Qed.
Lemma fill_seeds : forall (P : seed sval -> Prop) ss k v, Forall (fun s => P (s_seed s)) ss -> Forall (fun s => P (s_seed s)) (fill ss k v).
Proof.
  intros P ss k v F. induction F as [|s ss H F IH]; cbn [fill]; [constructor|]. destruct (seqb (s_name s) k); constructor; auto.
Qed.
Lemma struct_polite : forall n ss, Forall (fun s => forall y a, s_seed s y a <> GPanic) ss -> polite false (struct_visit n ss).
Proof.
  induction n as [|n IH]; intros ss F; cbn [struct_visit]; constructor.
  - intros y a. unfold name_seed. destruct (de_text y a); discriminate.
  - intros [| | | |k| | | | | | | | | | | | | | ]; try constructor. destruct (find_slot ss k) as [s|] eqn:E.
    + destruct (s_val s); [constructor|]. constructor; [|intros [v|]; [apply IH; apply (fill_seeds (fun d => forall y a, d y a <> GPanic)); exact F|constructor]].
      rewrite Forall_forall in F. exact (F _ (find_slot_in _ _ _ E)).
    + constructor; [discriminate|intros [v|]; [apply IH; exact F|constructor]].
  - destruct (opt_map slot_value ss); constructor.
  - constructor.
Qed.
