(** Facts about types with serde attributes: types without attributes are read as before. *)
From Coq Require Import ZArith.
From Verif Require Import Base Ast Strings Format Num Pretty Ser De Attr Spec_Attr Spec_Serde LookFacts.
Import ListNotations.

(** ---- induction over types ---- *)

Definition xv_P (P : xty -> Prop) (v : xvariant) : Prop :=
  match v with
  | XVUnit => True
  | XVNew t => P t
  | XVTup ts => Forall P ts
  | XVStruct fs => Forall (fun nt => P (snd nt)) fs
  end.

Section XtyInd.
  Context (P : xty -> Prop)
  (fBool : P XBool) (fInt : forall k, P (XInt k)) (fFloat : P XFloat) (fChar : P XChar)
  (fStr : P XStr) (fUnit : P XUnit)
  (fOption : forall t, P t -> P (XOption t))
  (fNew : forall t, P t -> P (XNewtype t))
  (fSeq : forall t, P t -> P (XSeq t))
  (fTuple : forall ts, Forall P ts -> P (XTuple ts))
  (fMap : forall k v, P k -> P v -> P (XMap k v))
  (fStruct : forall fs, Forall (fun nt => P (snd (snd nt))) fs -> P (XStruct fs))
  (fEnum : forall vs, Forall (fun nv => xv_P P (snd nv)) vs -> P (XEnum vs))
  (fUntagged : forall vs, Forall (fun nv => xv_P P (snd nv)) vs -> P (XUntagged vs))
  (fTagged : forall tag vs, Forall (fun nv => xv_P P (snd nv)) vs -> P (XTagged tag vs)).
  Fixpoint xty_ind' (t : xty) : P t.
  Proof.
    destruct t.
    - exact fBool.
    - apply fInt.
    - exact fFloat.
    - exact fChar.
    - exact fStr.
    - exact fUnit.
    - apply fOption, xty_ind'.
    - apply fNew, xty_ind'.
    - apply fSeq, xty_ind'.
    - apply fTuple. induction ts as [|t ts IH]; constructor; [apply xty_ind'|exact IH].
    - apply fMap; apply xty_ind'.
    - apply fStruct. induction fs as [|[n [b t]] fs IH]; constructor; [apply xty_ind'|exact IH].
    - apply fEnum. induction vs as [|[n v] vs IH]; constructor; [|exact IH]. cbn.
      destruct v as [|t|ts|fs]; cbn; [exact I|apply xty_ind'| |].
      + induction ts as [|t ts IHt]; constructor; [apply xty_ind'|exact IHt].
      + induction fs as [|[m t] fs IHf]; constructor; [apply xty_ind'|exact IHf].
    - apply fUntagged. induction vs as [|[n v] vs IH]; constructor; [|exact IH]. cbn.
      destruct v as [|t|ts|fs]; cbn; [exact I|apply xty_ind'| |].
      + induction ts as [|t ts IHt]; constructor; [apply xty_ind'|exact IHt].
      + induction fs as [|[m t] fs IHf]; constructor; [apply xty_ind'|exact IHf].
    - apply fTagged. induction vs as [|[n v] vs IH]; constructor; [|exact IH]. cbn.
      destruct v as [|t|ts|fs]; cbn; [exact I|apply xty_ind'| |].
      + induction ts as [|t ts IHt]; constructor; [apply xty_ind'|exact IHt].
      + induction fs as [|[m t] fs IHf]; constructor; [apply xty_ind'|exact IHf].
  Qed.
End XtyInd.

(** ---- the readers of variants, as equations ---- *)

Definition rvar (fuel : nat) (v : xvariant) : rvariant :=
  match v with
  | XVUnit => RUnit
  | XVNew t => RNew (read fuel t)
  | XVTup ts => RTup (map (read fuel) ts)
  | XVStruct fs =>
      RStruct (map (fun f => match f with (n, t) => mkX n (read fuel t) (is_xoption t) None end) fs)
  end.
Definition rvars (fuel : nat) (vs : list (str * xvariant)) : list (str * rvariant) :=
  map (fun x => match x with (n, v) => (n, rvar fuel v) end) vs.
Definition xf (fuel : nat) (f : str * (bool * xty)) : xfield :=
  match f with (n, (_, t)) => mkX n (read fuel t) (is_xoption t) None end.
Definition own_fields (fuel : nat) (fs : list (str * (bool * xty))) : list xfield :=
  map (xf fuel) (filter (fun f => negb (fst (snd f))) fs).
Definition flat_fields (fuel : nat) (fs : list (str * (bool * xty))) : list (str * reader) :=
  map (fun f => (fst f, read fuel (snd (snd f)))) (filter (fun f => fst (snd f)) fs).
Definition decl_of (fs : list (str * (bool * xty))) : list (str * bool) := map (fun f => (fst f, fst (snd f))) fs.

Section Eqs.
  Context (fuel : nat).
  Lemma own_eq fs :
    map snd (filter (fun x => negb (fst x))
      (map (fun f : str * (bool * xty) => match f with (n, (fl, t)) => (fl, mkX n (read fuel t) (is_xoption t) None) end) fs))
    = own_fields fuel fs.
  Proof. induction fs as [|[n [[] t]] fs IH]; cbn; [reflexivity|exact IH|]. now rewrite IH. Qed.
  Lemma flat_eq fs :
    map (fun x => (x_name (snd x), x_read (snd x))) (filter fst
      (map (fun f : str * (bool * xty) => match f with (n, (fl, t)) => (fl, mkX n (read fuel t) (is_xoption t) None) end) fs))
    = flat_fields fuel fs.
  Proof. induction fs as [|[n [[] t]] fs IH]; cbn; [reflexivity| |exact IH]. now rewrite IH. Qed.
  Definition flattens (fs : list (str * (bool * xty))) : bool := existsb (fun f => fst (snd f)) fs.

  Lemma read_struct fs : read fuel (XStruct fs) =
    if flattens fs then
      mkR (fun y a => match de_map_entries y a with
                      | Some (l, a1) =>
                          o_bind (n_collect (de_any fuel) (own_fields fuel fs) l a1) (fun r a2 =>
                            match finish (decl_of fs) (flat_fields fuel fs) r with Some v => Done v a2 | None => Failed end)
                      | None => Failed
                      end)
          (fun o c => match c with
                      | AnMap l => match b_collect o (own_fields fuel fs) l with
                                   | Some r => finish (decl_of fs) (flat_fields fuel fs) r | None => None end
                      | _ => None
                      end)
          (fun l => (match b_collect false (own_fields fuel fs) (remaining l) with
                     | Some r => finish (decl_of fs) (flat_fields fuel fs) r | None => None end, l))
    else
      mkR (fun y a => match de_map_entries y a with
                      | Some (l, a1) =>
                          o_bind (n_fields (own_fields fuel fs) l a1) (fun fs1 a2 =>
                            match opt_map x_value fs1 with Some vs => Done (SStruct vs) a2 | None => Failed end)
                      | None => Failed
                      end)
          (fun o c => option_map SStruct (b_struct o (own_fields fuel fs) c))
          (fun l => let '(r, l1) := f_fields (own_fields fuel fs) l in
                    (match r with
                     | Some fs1 => option_map SStruct (opt_map x_value fs1)
                     | None => None
                     end, l1)).
  Proof. cbn [read]. rewrite own_eq, flat_eq. reflexivity. Qed.
  Lemma read_enum vs : read fuel (XEnum vs) =
      mkR (fun y a => match de_enum_content y a with
                      | Some (n, c, a1) =>
                          match pick (rvars fuel vs) n with Some v => n_variant n v c a1 | None => Failed end
                      | None => Failed
                      end)
          (fun own c => match b_enum c with
                        | Some (n, c) =>
                            match pick (rvars fuel vs) n with Some v => b_variant own n v c | None => None end
                        | None => None
                        end)
          (fun l => let '(r, l1) := f_take (map fst vs) l in
                    (match r with
                     | Some (n, c) =>
                         match pick (rvars fuel vs) n with Some v => b_variant true n v (Some c) | None => None end
                     | None => None
                     end, l1)).
  Proof. reflexivity. Qed.
  Lemma read_untagged vs : read fuel (XUntagged vs) =
      mkR (fun y a => o_bind (de_any fuel y a) (fun c a1 =>
                        match first_of (u_variant c) (rvars fuel vs) with Some v => Done v a1 | None => Failed end))
          (fun _ c => first_of (u_variant c) (rvars fuel vs))
          (fun l => (first_of (u_variant (AnMap (remaining l))) (rvars fuel vs), l)).
  Proof. reflexivity. Qed.
  Lemma read_tagged tag vs : read fuel (XTagged tag vs) =
      mkR (fun y a => o_bind (n_tagged fuel tag y a) (fun r a1 =>
                        match t_variant (rvars fuel vs) r with Some v => Done v a1 | None => Failed end))
          (fun _ c => match b_tagged tag c with Some r => t_variant (rvars fuel vs) r | None => None end)
          (fun l => (match b_tagged tag (AnMap (remaining l)) with Some r => t_variant (rvars fuel vs) r | None => None end, l)).
  Proof. reflexivity. Qed.
End Eqs.

(** ---- types without attributes ---- *)

Section Bare.
  Context (fuel : nat).
  Notation same d r := (forall y a, r_node r y a = of_opt (d y a)).

  Lemma bare_elems d r : same d r -> forall l a, n_elems (r_node r) l a = of_opt (de_elems d l a).
  Proof.
    intros H. induction l as [|y l IH]; intros a; cbn; [reflexivity|]. rewrite H.
    destruct (d y a) as [[v a1]|]; cbn; [|reflexivity]. rewrite IH. now destruct (de_elems d l a1) as [[]|].
  Qed.
  Lemma bare_tuple ds rs : Forall2 (fun d r => same d r) ds rs ->
    forall l a, n_tuple (map r_node rs) l a = of_opt (de_tuple ds l a).
  Proof.
    intros H. induction H as [|d r ds rs H Hs IH]; intros l a; cbn; [now destruct l|].
    destruct l as [|y l]; [reflexivity|]. rewrite H.
    destruct (d y a) as [[v a1]|]; cbn; [|reflexivity]. rewrite IH. now destruct (de_tuple ds l a1) as [[]|].
  Qed.
  Lemma bare_entries dk dv rk rv : same dk rk -> same dv rv ->
    forall l a, n_entries (r_node rk) (r_node rv) l a = of_opt (de_entries dk dv l a).
  Proof.
    intros K V. induction l as [|[k y] l IH]; intros a; cbn; [reflexivity|]. rewrite K.
    destruct (dk (Unquoted k) a) as [[vk a1]|]; cbn; [|reflexivity]. rewrite V.
    destruct (dv y a1) as [[v a2]|]; cbn; [|reflexivity]. rewrite IH. now destruct (de_entries dk dv l a2) as [[]|].
  Qed.

  Definition fsame (f : field) (g : xfield) : Prop :=
    x_name g = f_name f /\ x_opt g = f_opt f /\ x_val g = f_val f /\ same (f_de f) (x_read g).
  Lemma bare_field fs gs : Forall2 fsame fs gs -> forall k y a,
    match de_field fs k y a, n_field gs k y a with
    | Some (fs1, a1), Done gs1 a2 => a1 = a2 /\ Forall2 fsame fs1 gs1
    | None, Failed => True
    | _, _ => False
    end.
  Proof.
    intros H k y a. induction H as [|f g fs gs (N & O & V & S) H IH]; cbn; [auto|]. rewrite N.
    destruct (seqb (f_name f) k).
    - rewrite V. destruct (f_val f); [exact I|]. rewrite S. destruct (f_de f y a) as [[v a1]|]; cbn; [|exact I].
      split; [reflexivity|]. constructor; [|exact H]. now repeat split.
    - destruct (de_field fs k y a) as [[fs1 a1]|], (n_field gs k y a); cbn; try contradiction; try exact I.
      destruct IH as [-> IH]. split; [reflexivity|]. constructor; [now repeat split|exact IH].
  Qed.
  Lemma bare_fields l : forall fs gs a, Forall2 fsame fs gs ->
    match de_fields fs l a, n_fields gs l a with
    | Some (fs1, a1), Done gs1 a2 => a1 = a2 /\ Forall2 fsame fs1 gs1
    | None, Failed => True
    | _, _ => False
    end.
  Proof.
    induction l as [|[k y] l IH]; intros fs gs a H; cbn; [auto|].
    assert (G := bare_field fs gs H k y a).
    destruct (de_field fs k y a) as [[fs1 a1]|], (n_field gs k y a); cbn; try contradiction; try exact I.
    destruct G as [-> G]. now apply IH.
  Qed.
  Lemma bare_values fs gs : Forall2 fsame fs gs -> opt_map x_value gs = opt_map field_value fs.
  Proof.
    intros H. induction H as [|f g fs gs (N & O & V & S) H IH]; cbn; [reflexivity|].
    unfold x_value at 1, field_value at 1. rewrite N, O, V, IH. reflexivity.
  Qed.
  Lemma bare_struct {A} (mk : list (str * sval) -> A) fs gs y a : Forall2 fsame fs gs ->
    match de_map_entries y a with
    | Some (l, a1) => o_bind (n_fields gs l a1) (fun fs1 a2 =>
        match opt_map x_value fs1 with Some vs => Done (mk vs) a2 | None => Failed end)
    | None => Failed
    end = of_opt (match de_struct fs y a with Some (vs, a1) => Some (mk vs, a1) | None => None end).
  Proof.
    intros H. unfold de_struct. destruct (de_map_entries y a) as [[l a1]|]; [|reflexivity].
    assert (G := bare_fields l fs gs a1 H).
    destruct (de_fields fs l a1) as [[fs1 a2]|], (n_fields gs l a1); cbn; try contradiction; try reflexivity.
    destruct G as [-> G]. rewrite (bare_values _ _ G). now destruct (opt_map field_value fs1).
  Qed.

  Lemma is_option_bare t : is_xoption (bare t) = is_option t.
  Proof. now destruct t. Qed.
  Lemma bare_own fs : own_fields fuel (map (fun f => match f with (n, t) => (n, (false, bare t)) end) fs) =
    map (fun f => match f with (n, t) => mkX n (read fuel (bare t)) (is_xoption (bare t)) None end) fs.
  Proof. unfold own_fields. induction fs as [|[n t] fs IH]; cbn; [reflexivity|]. now rewrite IH. Qed.
  Lemma bare_noflat fs : flattens (map (fun f => match f with (n, t) => (n, (false, bare t)) end) fs) = false.
  Proof. induction fs as [|[n t] fs IH]; cbn; [reflexivity|exact IH]. Qed.
  Lemma fsame_map fs :
    Forall (fun nt => forall y a, r_node (read fuel (bare (snd nt))) y a = of_opt (de (snd nt) y a)) fs ->
    Forall2 fsame (map (fun nt => match nt with (n, t) => mkF n (de t) (is_option t) None end) fs)
      (map (fun f => match f with (n, t) => mkX n (read fuel (bare t)) (is_xoption (bare t)) None end) fs).
  Proof.
    intros H. induction H as [|[n t] fs H Hs IH]; cbn; constructor; [|exact IH].
    repeat split; [apply is_option_bare|exact H].
  Qed.
  Lemma same_map ts :
    Forall (fun t => forall y a, r_node (read fuel (bare t)) y a = of_opt (de t y a)) ts ->
    Forall2 (fun d r => forall y a, r_node r y a = of_opt (d y a)) (map de ts) (map (read fuel) (map bare ts)).
  Proof. intros H. induction H; cbn; constructor; assumption. Qed.

  Lemma plain_forall {A} (P : A -> Prop) (Q : A -> Prop) l :
    Forall (fun x => P x -> Q x) l -> fold_right (fun x R => P x /\ R) True l -> Forall Q l.
  Proof. intros H. induction H; cbn; intros F; constructor; firstorder. Qed.

  Lemma bare_read t : no_bytes t -> forall y a, r_node (read fuel (bare t)) y a = of_opt (de t y a).
  Proof.
    induction t using ty_ind'; intros W y a; try contradiction; cbn [bare].
    - reflexivity.
    - reflexivity.
    - reflexivity.
    - cbn. destruct (de_text y a) as [[|c [|]]|]; reflexivity.
    - cbn. now destruct (de_text y a).
    - cbn [read r_node de]. specialize (IHt W). destruct (into_resolved y a) as [z|]; [|reflexivity].
      assert (G : forall z a, o_map SSome (r_node (read fuel (bare t)) z a) =
                  of_opt (match de t z a with Some (v, a1) => Some (SSome v, a1) | None => None end)).
      { intros z' a'. rewrite IHt. now destruct (de t z' a') as [[]|]. }
      destruct z; try apply G. destruct (is_null_word s); [reflexivity|apply G].
    - reflexivity.
    - cbn [read r_node de]. rewrite IHt by exact W. now destruct (de t y a) as [[]|].
    - cbn [read r_node de]. destruct (de_seq_values y a) as [[l a1]|]; [|reflexivity].
      rewrite (bare_elems (de t)) by (apply IHt, W). now destruct (de_elems (de t) l a1) as [[]|].
    - cbn [read r_node de]. destruct (de_seq_values y a) as [[l a1]|]; [|reflexivity].
      rewrite (bare_tuple (map de ts)) by (apply same_map; eapply plain_forall; [exact H|exact W]).
      now destruct (de_tuple (map de ts) l a1) as [[]|].
    - cbn [read r_node de]. destruct W as [W1 W2]. destruct (de_map_entries y a) as [[l a1]|]; [|reflexivity].
      rewrite (bare_entries (de t1) (de t2)) by auto. now destruct (de_entries (de t1) (de t2) l a1) as [[]|].
    - rewrite read_struct, bare_noflat, bare_own. cbn [r_node de].
      apply bare_struct with (mk := SStruct). apply fsame_map.
      refine (plain_forall (fun nt : str * ty => no_bytes (snd nt)) _ _ H _). clear - W. cbn in W.
      induction fs as [|[n t] fs IH]; cbn in *; [exact I|]. split; [apply W|apply IH, W].
    - rewrite read_enum. cbn [r_node de]. destruct (de_enum_content y a) as [[[n c] a1]|]; [|reflexivity].
      cbn in W. induction H as [|[m v] vs V Vs IH]; [reflexivity|].
      cbn [map rvars pick de_variant]. destruct W as [Wv W].
      destruct (seqb m n) eqn:E; [|exact (IH W)]. apply (proj1 (seqb_eq _ _)) in E. subst m. clear IH.
      cbn [snd] in V. destruct v as [|t|ts|fs]; cbn [va_P rvar n_variant] in *.
      + reflexivity.
      + rewrite V by exact Wv. now destruct (de t c a1) as [[]|].
      + destruct (de_seq_values c a1) as [[l a2]|]; [|reflexivity].
        rewrite (bare_tuple (map de ts)) by (apply same_map; eapply plain_forall; [exact V|exact Wv]).
        now destruct (de_tuple (map de ts) l a2) as [[]|].
      + rewrite map_map.
        erewrite map_ext with (g := fun f => match f with (n, t) => mkX n (read fuel (bare t)) (is_xoption (bare t)) None end)
          by (intros []; reflexivity).
        apply bare_struct with (mk := SStructV n). apply fsame_map.
        refine (plain_forall (fun nt : str * ty => no_bytes (snd nt)) _ _ V _). clear - Wv.
        induction fs as [|[m t] fs IH]; cbn in *; [exact I|]. split; [apply Wv|apply IH, Wv].
  Qed.
End Bare.
