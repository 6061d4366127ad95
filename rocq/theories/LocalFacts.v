(** Edits as steps at one place of the tree, and such steps as changes at one place of the
    text. *)
From Coq Require Import Lia.
From Verif Require Import Base Ast Strings Path Insert Format Spec_Parse Spec_Edit Spec_Local.
Import ListNotations.

(** ---- repetition ---- *)
Section Times.
  Context {A B : Type} (R : A -> A -> Prop) (S : B -> B -> Prop).
  Lemma times_trans n m x y z : times R n x y -> times R m y z -> times R (n + m) x z.
  Proof. induction 1; cbn; [auto|]. intros. econstructor; eauto. Qed.
  Lemma times_map (C : A -> B) : (forall x y, R x y -> S (C x) (C y)) ->
    forall n x y, times R n x y -> times S n (C x) (C y).
  Proof. intros H n x y; induction 1; [constructor|econstructor; eauto]. Qed.
  Lemma times_one x y : R x y -> times R 1 x y.
  Proof. intros. econstructor; [eassumption|constructor]. Qed.
  Lemma times_inv (I : A -> Prop) (C : A -> B) : (forall x y, I x -> R x y -> I y /\ S (C x) (C y)) ->
    forall n x y, times R n x y -> I x -> I y /\ times S n (C x) (C y).
  Proof.
    intros H n x y; induction 1 as [x|n x y z Hr _ IH]; intros Hx; [split; [auto|constructor]|].
    destruct (H _ _ Hx Hr) as [Hy Hs]. destruct (IH Hy). split; [auto|]. econstructor; eauto.
  Qed.
End Times.

(** ---- one place of the tree ---- *)

(** The items of one mapping change as [F] says. *)
Inductive at_place (F : list hashdata -> list hashdata -> Prop) : yaml -> yaml -> Prop :=
| ap_here l l' : F l l' -> at_place F (Hash l) (Hash l')
| ap_hash b k al v v' c : at_place F v v' ->
    at_place F (Hash (b ++ HElem (mkHE k (mkA al v)) :: c)) (Hash (b ++ HElem (mkHE k (mkA al v')) :: c))
| ap_array b al v v' c : at_place F v v' ->
    at_place F (Array (b ++ AElem (mkA al v) :: c)) (Array (b ++ AElem (mkA al v') :: c))
| ap_inline b v v' c : at_place F v v' -> at_place F (InlineArray (b ++ v :: c)) (InlineArray (b ++ v' :: c)).

Lemma nth_error_ctx {X} : forall n (l : list X) x, nth_error l n = Some x ->
  exists b c, l = b ++ x :: c /\ forall x', set_nth n x' l = b ++ x' :: c.
Proof.
  induction n as [|n IH]; intros [|y l] x H; try discriminate; cbn in H.
  - injection H as ->. exists [], l. auto.
  - destruct (IH _ _ H) as (b & c & -> & E). exists (y :: b), c. split; [reflexivity|]. intros x'. cbn. now rewrite E.
Qed.

Lemma get_elem_ctx : forall l n a, get_elem n l = Some a ->
  exists b c, l = b ++ AElem a :: c /\ forall a', set_elem n a' l = b ++ AElem a' :: c.
Proof.
  induction l as [|d l IH]; intros n a H; [discriminate|]. cbn in H. destruct d as [cm|cm|x].
  - destruct (IH _ _ H) as (b & c & -> & E). exists (AInlineC cm :: b), c. split; [reflexivity|]. intros; cbn; now rewrite E.
  - destruct (IH _ _ H) as (b & c & -> & E). exists (AComment cm :: b), c. split; [reflexivity|]. intros; cbn; now rewrite E.
  - destruct n as [|n].
    + injection H as ->. exists [], l. auto.
    + destruct (IH _ _ H) as (b & c & -> & E). exists (AElem x :: b), c. split; [reflexivity|]. intros; cbn; now rewrite E.
Qed.

Section Loops.
  Context {X L : Type} (R : L -> L -> Prop).
  Lemma idx_times (get : nat -> L -> option X) set g :
    (forall i l x n x', get i l = Some x -> g x = Some (n, x') -> times R n l (set i x' l)) ->
    forall is_ acc l n l', idx_loop Nat.add get set g is_ acc l = (n, l') ->
    exists m, n = acc + m /\ times R m l l'.
  Proof.
    intros H. induction is_ as [|i is_ IH]; intros acc l n l' E; cbn in E.
    - injection E as <- <-. exists 0. split; [lia|constructor].
    - destruct (get i l) as [x|] eqn:G; [|exact (IH _ _ _ _ E)].
      destruct (g x) as [[a x']|] eqn:Gx; [|exact (IH _ _ _ _ E)].
      destruct (IH _ _ _ _ E) as (m & -> & T). exists (a + m). split; [lia|].
      eapply times_trans; [|exact T]. eauto.
  Qed.
End Loops.
Section Loops2.
  Context {X : Type} (R : list X -> list X -> Prop).
  Lemma all_times (g : X -> option (nat * X)) :
    (forall b x c n x', g x = Some (n, x') -> times R n (b ++ x :: c) (b ++ x' :: c)) ->
    forall l acc n l', all_loop Nat.add g acc l = (n, l') -> forall b,
    exists m, n = acc + m /\ times R m (b ++ l) (b ++ l').
  Proof.
    intros H. induction l as [|x l IH]; intros acc n l' E b; cbn in E.
    - injection E as <- <-. exists 0. split; [lia|constructor].
    - destruct (g x) as [[a x']|] eqn:G.
      + destruct (all_loop Nat.add g (acc + a) l) as [q l2] eqn:El. injection E as <- <-.
        destruct (IH _ _ _ El (b ++ [x'])) as (m & -> & T). exists (a + m). split; [lia|].
        eapply times_trans; [exact (H b x l a x' G)|]. now rewrite <- !app_assoc in T.
      + destruct (all_loop Nat.add g acc l) as [q l2] eqn:El. injection E as <- <-.
        destruct (IH _ _ _ El (b ++ [x])) as (m & -> & T). exists m. split; [lia|].
        now rewrite <- !app_assoc in T.
  Qed.
End Loops2.

Section Edit.
  Context (F : list hashdata -> list hashdata -> Prop) (k : str).
  Notation P := (at_place F).

  Lemma in_hash b k0 al c n v v' : times P n v v' ->
    times P n (Hash (b ++ HElem (mkHE k0 (mkA al v)) :: c)) (Hash (b ++ HElem (mkHE k0 (mkA al v')) :: c)).
  Proof. apply (times_map P P (fun v => Hash (b ++ HElem (mkHE k0 (mkA al v)) :: c))). now constructor. Qed.
  Lemma in_array b al c n v v' : times P n v v' ->
    times (fun l l' => P (Array l) (Array l')) n (b ++ AElem (mkA al v) :: c) (b ++ AElem (mkA al v') :: c).
  Proof. apply (times_map P _ (fun v => b ++ AElem (mkA al v) :: c)). now constructor. Qed.
  Lemma in_inline b c n v v' : times P n v v' ->
    times (fun l l' => P (InlineArray l) (InlineArray l')) n (b ++ v :: c) (b ++ v' :: c).
  Proof. apply (times_map P _ (fun v => b ++ v :: c)). now constructor. Qed.
  Lemma of_array n l l' : times (fun l l' => P (Array l) (Array l')) n l l' -> times P n (Array l) (Array l').
  Proof. now apply (times_map _ P Array). Qed.
  Lemma of_inline n l l' : times (fun l l' => P (InlineArray l) (InlineArray l')) n l l' ->
    times P n (InlineArray l) (InlineArray l').
  Proof. now apply (times_map _ P InlineArray). Qed.

  (** The two kinds of index steps, for a function on the elements. *)
  Lemma array_idx cs (elem : yaml -> nat * yaml) (ev : aliased -> nat * aliased) is_ l n l' :
    (forall a, ev a = let '(m, y') := elem (a_value a) in (m, mkA (a_alias a) y')) ->
    (forall v m v', elem v = (m, v') -> times P m v v') ->
    idx_loop Nat.add get_elem set_elem
      (fun e => if fits_conditions (a_value e) cs then Some (ev e) else None) is_ 0 l = (n, l') ->
    times P n (Array l) (Array l').
  Proof.
    intros Hv He E. apply of_array.
    eapply (idx_times (fun l l' => P (Array l) (Array l'))) in E.
    - destruct E as (m & -> & T). exact T.
    - intros i q x m x' G Gx. destruct (get_elem_ctx _ _ _ G) as (b & c & -> & Es). rewrite Es.
      destruct (fits_conditions _ _); [|discriminate]. rewrite Hv in Gx. destruct x as [al v]. cbn in Gx.
      destruct (elem v) as [m0 v'] eqn:Ev. injection Gx as <- <-. apply in_array. auto.
  Qed.

  Lemma array_all cs (elem : yaml -> nat * yaml) (ev : aliased -> nat * aliased) l n l' :
    (forall a, ev a = let '(m, y') := elem (a_value a) in (m, mkA (a_alias a) y')) ->
    (forall v m v', elem v = (m, v') -> times P m v v') ->
    all_loop Nat.add
      (fun d => match d with
                | AElem e => if fits_conditions (a_value e) cs
                             then let '(n, e') := ev e in Some (n, AElem e')
                             else None
                | _ => None
                end) 0 l = (n, l') ->
    times P n (Array l) (Array l').
  Proof.
    intros Hv He E. apply of_array.
    eapply (all_times (fun l l' => P (Array l) (Array l'))) with (b := []) in E.
    - destruct E as (m & -> & T). exact T.
    - intros b x c m x' G. destruct x as [cm|cm|x]; try discriminate.
      destruct (fits_conditions _ _); [|discriminate]. rewrite Hv in G. destruct x as [al v]. cbn in G.
      destruct (elem v) as [m0 v'] eqn:Ev. injection G as <- <-. apply in_array. auto.
  Qed.

  Lemma inline_idx cs (elem : yaml -> nat * yaml) is_ l n l' :
    (forall v m v', elem v = (m, v') -> times P m v v') ->
    idx_loop Nat.add (fun i l => nth_error l i) set_nth
      (fun e => if fits_conditions e cs then Some (elem e) else None) is_ 0 l = (n, l') ->
    times P n (InlineArray l) (InlineArray l').
  Proof.
    intros He E. apply of_inline.
    eapply (idx_times (fun l l' => P (InlineArray l) (InlineArray l'))) in E.
    - destruct E as (m & -> & T). exact T.
    - intros i q x m x' G Gx. destruct (nth_error_ctx _ _ _ G) as (b & c & -> & Es). rewrite Es.
      destruct (fits_conditions _ _); [|discriminate]. injection Gx as Gx. apply in_inline. auto.
  Qed.

  Lemma inline_all cs (elem : yaml -> nat * yaml) l n l' :
    (forall v m v', elem v = (m, v') -> times P m v v') ->
    all_loop Nat.add (fun e => if fits_conditions e cs then Some (elem e) else None) 0 l = (n, l') ->
    times P n (InlineArray l) (InlineArray l').
  Proof.
    intros He E. apply of_inline.
    eapply (all_times (fun l l' => P (InlineArray l) (InlineArray l'))) with (b := []) in E.
    - destruct E as (m & -> & T). exact T.
    - intros b x c m x' G.
      destruct (fits_conditions _ _); [|discriminate]. injection G as Gx. apply in_inline. auto.
  Qed.

  (** ---- structure edits ---- *)
  Context (f : list hashdata -> str -> option nat -> nat * list hashdata).
  Context (Hf : forall l n l', f l k (key_index l k) = (n, l') -> n = 0 /\ l' = l \/ n = 1 /\ F l l').

  Lemma edit_steps : forall p, last_key p = Some k -> forall y n y', edit_hash f p y = (n, y') -> times P n y y'.
  Proof.
    fix IH 1. intros [cs|k0 cs rest|cs rest|is_ cs rest] K y n y' E; cbn [edit_hash] in E; cbn [last_key] in K.
    - injection E as <- <-. constructor.
    - destruct (fits_conditions y cs); [|injection E as <- <-; constructor].
      destruct y as [l|l|l|l|ps|ps|s|ls b|ls b|a]; try (injection E as <- <-; constructor).
      destruct rest as [o|].
      + destruct (key_index l k0) as [i|] eqn:Ki; [|injection E as <- <-; constructor].
        destruct (nth_error l i) as [[c|c|e]|] eqn:Ni; try (injection E as <- <-; constructor).
        destruct e as [k1 [al v]]. unfold edit_value in E. cbn [he_value a_value a_alias he_key] in E.
        destruct (edit_hash f o v) as [m v'] eqn:Eo. injection E as <- <-.
        destruct (nth_error_ctx _ _ _ Ni) as (b & c & -> & Es). rewrite Es. apply in_hash. exact (IH o K v m v' Eo).
      + injection K as ->. destruct (f l k (key_index l k)) as [m l'] eqn:Ef. injection E as <- <-.
        destruct (Hf _ _ _ Ef) as [[-> ->]|[-> Hl]]; [constructor|]. apply times_one. now constructor.
    - destruct rest as [o|]; [|injection E as <- <-; constructor].
      destruct y as [l|l|l|l|ps|ps|s|ls b|ls b|a]; try (injection E as <- <-; constructor).
      + destruct (all_loop _ _ _ _) as [m l'] eqn:El. injection E as <- <-.
        eapply inline_all; [|exact El]. exact (IH o K).
      + destruct (all_loop _ _ _ _) as [m l'] eqn:El. injection E as <- <-.
        eapply array_all; [|exact (IH o K)|exact El]. reflexivity.
    - destruct rest as [o|]; [|injection E as <- <-; constructor].
      destruct y as [l|l|l|l|ps|ps|s|ls b|ls b|a]; try (injection E as <- <-; constructor).
      + destruct (idx_loop _ _ _ _ _ _ _) as [m l'] eqn:El. injection E as <- <-.
        eapply inline_idx; [|exact El]. exact (IH o K).
      + destruct (idx_loop _ _ _ _ _ _ _) as [m l'] eqn:El. injection E as <- <-.
        eapply array_idx; [|exact (IH o K)|exact El]. reflexivity.
  Qed.
End Edit.

(** The entry that is found is the first one with its key. *)
Lemma key_ctx k : forall l i, key_index l k = Some i -> exists b v c, l = b ++ HElem (mkHE k v) :: c /\ key_index b k = None /\
  nth_error l i = Some (HElem (mkHE k v)) /\ (forall x, set_nth i x l = b ++ x :: c) /\ remove_nth i l = b ++ c.
Proof.
  induction l as [|d l IH]; intros i H; [discriminate|]. cbn in H. destruct (hd_is_key k d) eqn:E.
  - injection H as <-. destruct d as [c|c|[k' v]]; try discriminate. cbn in E. apply seqb_eq in E. subst. now exists [], v, l.
  - destruct (key_index l k) as [j|]; [|discriminate]. injection H as <-.
    destruct (IH _ eq_refl) as (b & v & c & -> & H0 & H1 & H2 & H3). exists (d :: b), v, c. split; [reflexivity|].
    split; [cbn; now rewrite E, H0|]. split; [exact H1|]. split; [intros x; cbn; now rewrite H2|cbn; now rewrite H3].
Qed.

Section Each.
  (** ---- edits of entries ---- *)
  Context (F : list hashdata -> list hashdata -> Prop) (k : str).
  Context (f : hash_element -> nat * hash_element).
  Context (Hf : forall b k0 v c n e, key_index b k = None -> k0 = k -> f (mkHE k0 v) = (n, e) -> n = 1 /\ F (b ++ HElem (mkHE k0 v) :: c) (b ++ HElem e :: c)).
  Notation P := (at_place F).

  Lemma idx_steps sel cs elem : (forall v m v', elem v = (m, v') -> times P m v v') ->
    forall d y n y', idx_step 0 Nat.add sel cs elem d y = (n, y') -> times P n y y'.
  Proof.
    intros He. induction d as [|d IH]; intros y n y' E.
    - cbn in E. destruct y as [l|l|l|l|ps|ps|s|ls b|ls b|a]; try (injection E as <- <-; constructor).
      destruct sel as [is_|].
      + destruct (idx_loop _ _ _ _ _ _ _) as [m l'] eqn:El. injection E as <- <-.
        eapply array_idx; [|exact He|exact El]. reflexivity.
      + destruct (all_loop _ _ _ _) as [m l'] eqn:El. injection E as <- <-.
        eapply array_all; [|exact He|exact El]. reflexivity.
    - cbn in E. destruct y as [l|l|l|l|ps|ps|s|ls b|ls b|a]; try (injection E as <- <-; constructor).
      + destruct sel as [is_|].
        * destruct (idx_loop _ _ _ _ _ _ _) as [m l'] eqn:El. injection E as <- <-.
          eapply inline_idx; [|exact El]. exact IH.
        * destruct (all_loop _ _ _ _) as [m l'] eqn:El. injection E as <- <-.
          eapply inline_all; [|exact El]. exact IH.
      + destruct sel as [is_|].
        * destruct (idx_loop _ _ _ _ _ _ _) as [m l'] eqn:El. injection E as <- <-.
          eapply array_idx; [|exact He|exact El]. reflexivity.
        * destruct (all_loop _ _ _ _) as [m l'] eqn:El. injection E as <- <-.
          eapply array_all; [|exact He|exact El]. reflexivity.
  Qed.

  Lemma each_steps : forall p, last_key p = Some k ->
    forall y n y', for_hash 0 Nat.add f zero_r p y = (n, y') -> times P n y y'.
  Proof.
    fix IH 1. intros [cs|k0 cs rest|cs rest|is_ cs rest] K y n y' E; cbn [for_hash] in E; cbn [last_key] in K.
    - discriminate.
    - destruct (fits_conditions y cs); [|injection E as <- <-; constructor].
      destruct y as [l|l|l|l|ps|ps|s|ls b|ls b|a]; try (injection E as <- <-; constructor).
      destruct (key_index l k0) as [i|] eqn:Ki; [|injection E as <- <-; constructor].
      destruct (nth_error l i) as [[c|c|e]|] eqn:Ni; try (injection E as <- <-; constructor).
      destruct rest as [o|].
      + destruct (nth_error_ctx _ _ _ Ni) as (b & c & -> & Es). destruct e as [k1 [al v]]. unfold on_value in E. cbn [he_value a_value a_alias he_key] in E.
        destruct (for_hash 0 Nat.add f zero_r o v) as [m v'] eqn:Eo. injection E as <- <-.
        rewrite Es. apply in_hash. exact (IH o K v m v' Eo).
      + injection K as ->. destruct (key_ctx _ _ _ Ki) as (b & v & c & -> & Kb & Nb & Es & _). rewrite Nb in Ni. injection Ni as <-.
        cbn [he_key] in E. destruct (seqb k k) eqn:Ek.
        * destruct (f (mkHE k v)) as [m e'] eqn:Ef. injection E as <- <-. rewrite Es.
          destruct (Hf b k v c m e' Kb eq_refl Ef) as [-> HF]. apply times_one. now constructor.
        * injection E as <- <-. rewrite Es. constructor.
    - destruct rest as [o|]; [|discriminate]. eapply idx_steps; [|exact E]. exact (IH o K).
    - destruct rest as [o|]; [|discriminate]. eapply idx_steps; [|exact E]. exact (IH o K).
  Qed.
End Each.

(** ---- one place of the text ---- *)
Definition h_item (sp : nat) (par : option parent) (idx : nat) (d : hashdata) : str :=
  match d with
  | HComment c => [NL] ++ indent sp ++ lit "#" ++ c
  | HInlineC c => lit " #" ++ c
  | HElem (mkHE k a) => (if same_line par idx then lit " " else NL :: indent sp) ++ entry_at sp k a
  end.
Definition a_item (sp : nat) (par : option parent) (idx : nat) (d : arraydata) : str :=
  match d with
  | AComment c => [NL] ++ indent sp ++ lit "#" ++ c
  | AInlineC c => lit " #" ++ c
  | AElem a => (if same_line par idx then lit " -" else [NL] ++ indent sp ++ lit "-") ++ format_aliased a sp (Some ParArray)
  end.
Lemma cm_ext {A} (f g : nat -> A -> str) : (forall i x, f i x = g i x) -> forall l i, concat_mapi f i l = concat_mapi g i l.
Proof. intros H. induction l as [|x l IH]; intros i; cbn; [reflexivity|]. now rewrite H, IH. Qed.
Lemma cm_app {A} (f : nat -> A -> str) : forall l i m, concat_mapi f i (l ++ m) = concat_mapi f i l ++ concat_mapi f (i + length l) m.
Proof.
  induction l as [|x l IH]; intros i m; cbn; [now rewrite Nat.add_0_r|]. rewrite IH, app_assoc. do 2 f_equal. lia.
Qed.
Lemma format_hash l sp par : l <> [] -> format (Hash l) sp par = concat_mapi (h_item sp par) 0 l.
Proof.
  destruct l as [|d l]; [easy|]. intros _. cbn [format is_nil]. apply cm_ext. clear.
  intros i [c|c|[k [[al|] v]]]; try reflexivity; unfold h_item, entry_at, format_aliased; destruct (same_line par i);
    cbn; now rewrite <- ?app_assoc.
Qed.
Lemma format_array l sp par : l <> [] -> format (Array l) sp par = concat_mapi (a_item sp par) 0 l.
Proof.
  destruct l as [|d l]; [easy|]. intros _. cbn [format is_nil]. apply cm_ext. clear.
  intros i [c|c|[[al|] v]]; reflexivity.
Qed.

Lemma mid_ne {X} b (x : X) c : b ++ x :: c <> [].
Proof. now destruct b. Qed.
Lemma par_lead par i sp : lead sp (if same_line par i then lit " " else NL :: indent sp).
Proof. unfold lead. destruct (same_line par i); auto. Qed.

(** The text around one entry. *)
Lemma around_h b k a c sp par : format (Hash (b ++ HElem (mkHE k a) :: c)) sp par =
  (concat_mapi (h_item sp par) 0 b ++ (if same_line par (length b) then lit " " else NL :: indent sp))
  ++ entry_at sp k a ++ concat_mapi (h_item sp par) (S (length b)) c.
Proof. rewrite format_hash by apply mid_ne. rewrite cm_app. cbn [concat_mapi h_item]. now rewrite <- !app_assoc. Qed.
Lemma around_a b a c sp par : format (Array (b ++ AElem a :: c)) sp par =
  (concat_mapi (a_item sp par) 0 b ++ (if same_line par (length b) then lit " -" else [NL] ++ indent sp ++ lit "-"))
  ++ format_aliased a sp (Some ParArray) ++ concat_mapi (a_item sp par) (S (length b)) c.
Proof. rewrite format_array by apply mid_ne. rewrite cm_app. cbn [concat_mapi a_item]. now rewrite <- !app_assoc. Qed.
Lemma around_i b c sp par : exists pre post, forall v',
  format (InlineArray (b ++ v' :: c)) sp par = pre ++ format v' 0 None ++ post.
Proof.
  exists (lit " [" ++ concat_mapi (fun idx x => (if 0 <? idx then lit "," else []) ++ format x 0 None) 0 b
          ++ (if 0 <? length b then lit "," else [])).
  exists (concat_mapi (fun idx x => (if 0 <? idx then lit "," else []) ++ format x 0 None) (S (length b)) c ++ lit " ]").
  intros v'. cbn [format]. rewrite cm_app. cbn [concat_mapi]. replace (is_nil (b ++ v' :: c)) with false by now destruct b.
  rewrite <- !app_assoc. reflexivity.
Qed.

(** [everywhere] around one child. *)
Lemma everywhere_h Q l : everywhere Q (Hash l) <-> Q (Hash l) /\ forall e, In (HElem e) l -> everywhere Q (a_value (he_value e)).
Proof.
  cbn [everywhere]. split; intros [H1 H2]; split; auto; clear H1.
  - revert H2. induction l as [|d l IH]; intros H e; [easy|]. cbn in H. destruct H as [H1 H2].
    intros [->|Hi]; [|exact (IH H2 e Hi)]. now destruct e as [k [al v]].
  - induction l as [|d l IH]; cbn; [exact I|]. split.
    + destruct d as [c|c|[k [al v]]]; try exact I. exact (H2 (mkHE k (mkA al v)) (or_introl eq_refl)).
    + apply IH. intros e He. apply H2. now right.
Qed.
Lemma everywhere_a Q l : everywhere Q (Array l) <-> Q (Array l) /\ forall a, In (AElem a) l -> everywhere Q (a_value a).
Proof.
  cbn [everywhere]. split; intros [H1 H2]; split; auto; clear H1.
  - revert H2. induction l as [|d l IH]; intros H e; [easy|]. cbn in H. destruct H as [H1 H2].
    intros [->|Hi]; [|exact (IH H2 e Hi)]. now destruct e as [al v].
  - induction l as [|d l IH]; cbn; [exact I|]. split.
    + destruct d as [c|c|[al v]]; try exact I. exact (H2 (mkA al v) (or_introl eq_refl)).
    + apply IH. intros e He. apply H2. now right.
Qed.
Lemma everywhere_i Q l : everywhere Q (InlineArray l) <-> Q (InlineArray l) /\ forall v, In v l -> everywhere Q v.
Proof.
  cbn [everywhere]. split; intros [H1 H2]; split; auto; clear H1.
  - revert H2. induction l as [|d l IH]; intros H e; [easy|]. cbn in H. destruct H as [H1 H2].
    intros [->|Hi]; [auto|exact (IH H2 e Hi)].
  - induction l as [|d l IH]; cbn; [exact I|]. split.
    + apply H2. now left.
    + apply IH. intros e He. apply H2. now right.
Qed.

Lemma in_mid {X} b (x : X) c : In x (b ++ x :: c).
Proof. apply in_or_app. right. now left. Qed.

(** What follows an entry with a block collection, or a mapping. *)
Lemma follow_h sp par n c : (forall x r, c <> HInlineC x :: r) -> line_end (concat_mapi (h_item sp par) (S n) c).
Proof.
  destruct c as [|d c]; [now left|]. intros H. right. destruct d as [x|x|[k a]]; cbn.
  - now destruct (H x c).
  - eexists; reflexivity.
  - replace (same_line par (S n)) with false by now destruct par as [[]|]. eexists; reflexivity.
Qed.
Lemma follow_a sp par n c : (forall x r, c <> AInlineC x :: r) -> line_end (concat_mapi (a_item sp par) (S n) c).
Proof.
  destruct c as [|d c]; [now left|]. intros H. right. destruct d as [x|x|a]; cbn.
  - now destruct (H x c).
  - eexists; reflexivity.
  - replace (same_line par (S n)) with false by now destruct par as [[]|]. eexists; reflexivity.
Qed.
Lemma tidy_mid_h b e c : hash_tidy (b ++ HElem e :: c) -> block_kind (a_value (he_value e)) -> forall x r, c <> HInlineC x :: r.
Proof.
  induction b as [|d b IH]; cbn [app hash_tidy].
  - intros [H _] B x r ->. apply H; [do 2 eexists; reflexivity|exact B].
  - destruct d as [x|x|e']; [exact IH|exact IH|]. intros [_ H]. exact (IH H).
Qed.
Lemma tidy_mid_a b e c : array_tidy (b ++ AElem e :: c) -> block_kind (a_value e) -> forall x r, c <> AInlineC x :: r.
Proof.
  induction b as [|d b IH]; cbn [app array_tidy].
  - intros [H _] B x r ->. apply H; [do 2 eexists; reflexivity|exact B].
  - destruct d as [x|x|e']; [exact IH|exact IH|]. intros [_ H]. exact (IH H).
Qed.

Section Text.
  Context (strict : Prop) (F : list hashdata -> list hashdata -> Prop) (Ed : str -> str -> str -> Prop).
  Context (Hext : forall o o' b b', Ed o o' b -> (strict -> line_end b') -> Ed o o' (b ++ b')).
  Context (Hhere : forall l l', F l l' -> (strict -> tidy (Hash l)) -> forall sp par,
    patch Ed (format (Hash l) sp par) (format (Hash l') sp par)).

  Lemma patch_in a s s' b : patch Ed s s' -> (strict -> line_end b) -> patch Ed (a ++ s ++ b) (a ++ s' ++ b).
  Proof.
    intros (a0 & o & o' & b0 & -> & -> & H) Hb. exists (a ++ a0), o, o', (b0 ++ b).
    rewrite <- !app_assoc. repeat split. auto.
  Qed.
  Lemma patch_front a s s' : patch Ed s s' -> patch Ed (a ++ s) (a ++ s').
  Proof.
    intros H. rewrite <- (app_nil_r s), <- (app_nil_r s'). apply patch_in; [exact H|]. now left.
  Qed.

  Lemma strict_block v v' : at_place F v v' -> everywhere tidy v -> block_kind v.
  Proof.
    induction 1 as [l l' H|b k al v v' c H IH|b al v v' c H IH|b v v' c H IH]; try (intros; exact I).
    intros Ht. apply everywhere_i in Ht as [H1 H2]. cbn in H1.
    destruct (H1 v (in_mid _ _ _)). apply IH. apply H2. apply in_mid.
  Qed.

  Lemma in_aliased v v' al sp par : (forall sp par, patch Ed (format v sp par) (format v' sp par)) ->
    patch Ed (format_aliased (mkA al v) sp par) (format_aliased (mkA al v') sp par).
  Proof.
    intros H. destruct al as [al|]; cbn [format_aliased]; [|apply H]. rewrite !app_assoc. apply patch_front. apply H.
  Qed.

  Lemma place_text y y' : at_place F y y' -> (strict -> everywhere tidy y) ->
    forall sp par, patch Ed (format y sp par) (format y' sp par).
  Proof.
    induction 1 as [l l' H|b k al v v' c H IH|b al v v' c H IH|b v v' c H IH]; intros Ht sp par.
    - apply Hhere; [exact H|]. intros S. now apply everywhere_h in Ht.
    - assert (Hv : strict -> everywhere tidy v).
      { intros S. apply Ht, everywhere_h in S as [_ H2]. exact (H2 (mkHE k (mkA al v)) (in_mid _ _ _)). }
      rewrite !around_h. unfold entry_at. rewrite <- !app_assoc. rewrite !(app_assoc k). rewrite !(app_assoc _ (k ++ lit ":")).
      apply patch_front, patch_in; [now apply in_aliased, IH|].
      intros S. apply follow_h. pose proof (Ht S) as T. apply everywhere_h in T as [[_ T] _].
      eapply tidy_mid_h; [exact T|]. exact (strict_block _ _ H (Hv S)).
    - assert (Hv : strict -> everywhere tidy v).
      { intros S. apply Ht, everywhere_a in S as [_ H2]. exact (H2 (mkA al v) (in_mid _ _ _)). }
      rewrite !around_a.
      apply patch_in; [now apply in_aliased, IH|].
      intros S. apply follow_a. pose proof (Ht S) as T. apply everywhere_a in T as [T _].
      eapply tidy_mid_a; [exact T|]. exact (strict_block _ _ H (Hv S)).
    - destruct (around_i b c sp par) as (pre & post & E). rewrite !E. apply patch_in.
      + apply IH. intros S. apply Ht, everywhere_i in S as [_ H2]. exact (H2 v (in_mid _ _ _)).
      + intros S. exfalso. pose proof (Ht S) as T. apply everywhere_i in T as [T T2].
        apply (T v (in_mid _ _ _)). exact (strict_block _ _ H (T2 v (in_mid _ _ _))).
  Qed.
End Text.
