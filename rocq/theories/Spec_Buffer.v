(** Specification vocabulary: what a type with serde attributes reads from serde's buffer. *)
From Coq Require Import ZArith.
From Verif Require Import Base Ast Num Ser De Attr Spec_Serde Spec_Look Spec_Typed Spec_Attr.
Import ListNotations.

(** The first item of the list that has a value has this one. *)
Section First.
  Context {A B : Type} (P : A -> B -> Prop).
  Fixpoint first (l : list A) (v : B) : Prop :=
    match l with
    | [] => False
    | x :: l' => P x v \/ ((forall w, ~ P x w) /\ first l' v)
    end.
End First.

(** Every key is text or an integer above the 64-bit signed ones. *)
Definition name_keys (es : list (anyv * anyv)) : Prop :=
  forall k c, In (k, c) es -> (exists n, k = AnStr n) \/ (exists z, k = AnU64 z).
(** The name is the key of exactly one entry, the one with this content. *)
Definition once (es : list (anyv * anyv)) (n : str) (c : anyv) : Prop :=
  exists b d, es = b ++ (AnStr n, c) :: d /\ ~ In (AnStr n) (map fst b) /\ ~ In (AnStr n) (map fst d).
(** The entries whose keys are not the names of fields. *)
Definition others (names : list str) (es : list (anyv * anyv)) : list (anyv * anyv) :=
  filter (fun e => match fst e with AnStr n => negb (existsb (seqb n) names) | _ => true end) es.
(** The tag and the content beside it: an entry of a map, or the first element of a sequence. *)
Definition tag_of (tag : str) (c : anyv) (n : str) (d : anyv) : Prop :=
  (exists es, c = AnMap es /\ once es tag (AnStr n) /\ d = AnMap (others [tag] es)) \/
  (exists cs, c = AnSeq (AnStr n :: cs) /\ d = AnSeq cs).
(** Null, or (from an owned buffer) an empty map. *)
Definition unit_like (own : bool) (c : anyv) : Prop := c = AnUnit \/ own = true /\ c = AnMap [].

(** No key is one of the names. *)
Definition unnamed (names : list str) (es : list (anyv * anyv)) : Prop :=
  forall n c, In (AnStr n, c) es -> ~ In n names.
(** The first entry whose key is one of the names, with what is before and behind it. *)
Definition first_named (names : list str) (es b : list (anyv * anyv)) (n : str) (c : anyv) (d : list (anyv * anyv)) : Prop :=
  es = b ++ (AnStr n, c) :: d /\ unnamed names b /\ In n names.
(** The content of an enum: the only entry; for a flattened one, the first entry that is
    named like a variant. *)
Definition content_of (fl : bool) (names : list str) (c : anyv) (n : str) (d : anyv) : Prop :=
  if fl then exists es b e, c = AnMap es /\ first_named names es b n d e else c = AnMap [(AnStr n, d)].

(** What a flattened struct leaves: it takes the entries named like its fields, in order, and
    stops after an entry that repeats a name or can not be read. *)
Inductive strips (names : list str) (readable : str -> anyv -> Prop)
  : list str -> list (anyv * anyv) -> list (anyv * anyv) -> Prop :=
| strips_nil seen : strips names readable seen [] []
| strips_other seen k c es es' :
    (forall n, k = AnStr n -> ~ In n names) -> strips names readable seen es es' ->
    strips names readable seen ((k, c) :: es) ((k, c) :: es')
| strips_field seen n c es es' :
    In n names -> ~ In n seen -> readable n c -> strips names readable (n :: seen) es es' ->
    strips names readable seen ((AnStr n, c) :: es) es'
| strips_stop seen n c es :
    In n names -> (In n seen \/ ~ readable n c) -> strips names readable seen ((AnStr n, c) :: es) es.

(** Fields in order; each sees what the ones before it left of the entries. *)
Section Chain.
  Context {A E B : Type} (P : A -> E -> B -> Prop) (L : A -> E -> E -> Prop).
  Fixpoint chain (fs : list A) (es : E) (vs : list B) : Prop :=
    match fs, vs with
    | [], [] => True
    | f :: fs', v :: vs' => P f es v /\ exists es', L f es es' /\ chain fs' es' vs'
    | _, _ => False
    end.
End Chain.
Definition has_flat (fs : list (str * (bool * xty))) : bool := existsb (fun f => fst (snd f)) fs.

(** The content [c] is a [v] for the type [t]; [own]: see Attr.v; [fl]: the type is flattened
    and [c] is a map of the entries that are left.  [leaves]: what a flattened [t] leaves of
    the entries, read or not. *)
Fixpoint bm (fl own : bool) (t : xty) (c : anyv) (v : sval) {struct t} : Prop :=
  let field (own : bool) (es : list (anyv * anyv)) (n : str) (t : xty) (x : str * sval) : Prop :=
    n = fst x /\
    ((exists w, once es n w /\ bm false own t w (snd x)) \/
     (~ In (AnStr n) (map fst es) /\ is_xoption t = true /\ snd x = SNone)) in
  let named (own : bool) (c : anyv) (fs : list (str * xty)) (vs : list (str * sval)) : Prop :=
    exists es, c = AnMap es /\ name_keys es /\
      all2 (fun f x => match f with (n, t) => field own es n t x end) fs vs in
  let record (own : bool) (c : anyv) (fs : list (str * xty)) (vs : list (str * sval)) : Prop :=
    named own c fs vs \/
    exists cs, c = AnSeq cs /\ all3 (fun f c x => match f with (n, t) => n = fst x /\ bm false own t c (snd x) end) fs cs vs in
  match t, v with
  | XBool, SBool b => c = AnBool b
  | XInt k, SInt k' z => k' = k /\ k <> I128 /\ k <> U128 /\ fits k z /\ (c = AnI64 z \/ c = AnU64 z)
  | XFloat, SFloat x => c = AnF64 x \/ exists z, (c = AnI64 z \/ c = AnU64 z) /\ x = show_Z z
  | XChar, SChar x => c = AnStr [x]
  | XStr, SStr s => c = AnStr s
  | XUnit, SUnit => if fl then True else unit_like own c
  | XOption t, SNone => if fl then forall v, ~ bm true own t c v else c = AnUnit
  | XOption t, SSome v => c <> AnUnit /\ bm fl own t c v
  | XNewtype t, SNewtype v => bm fl own t c v
  | XSeq t, SSeq vs => exists cs, c = AnSeq cs /\ all2 (fun c v => bm false own t c v) cs vs
  | XTuple ts, STuple vs => exists cs, c = AnSeq cs /\ all3 (fun t c v => bm false own t c v) ts cs vs
  | XMap k w, SMap vs =>
      exists es, c = AnMap es /\ all2 (fun e x => bm false own k (fst e) (fst x) /\ bm false own w (snd e) (snd x)) es vs
  | XStruct fs, SStruct vs =>
      (fl = true /\ has_flat fs = false /\
       exists es, c = AnMap es /\ all2 (fun f x => match f with (n, (_, t)) => field true es n t x end) fs vs) \/
      (fl && negb (has_flat fs) = false /\
       exists es, c = AnMap es /\ name_keys es /\
         chain (fun f rest x => match f with
                 | (n, (false, t)) => field own es n t x
                 | (n, (true, t)) => n = fst x /\ bm true false t (AnMap rest) (snd x)
                 end)
               (fun f rest rest' => match f with
                 | (_, (false, _)) => rest' = rest
                 | (_, (true, t)) => leaves t rest rest'
                 end) fs (others (own_names fs) es) vs) \/
      (has_flat fs = false /\
       exists cs, c = AnSeq cs /\ all3 (fun f c x => match f with (n, (_, t)) => n = fst x /\ bm false own t c (snd x) end) fs cs vs)
  | XEnum vs, SUnitV n =>
      In (n, XVUnit) vs /\
      (c = AnStr n \/ exists d, content_of fl (map fst vs) c n d /\ unit_like (fl || own) d)
  | XEnum vs, SNewV n v =>
      exists d, content_of fl (map fst vs) c n d /\
        any (fun x => match x with (m, XVNew t) => m = n /\ bm false (fl || own) t d v | _ => False end) vs
  | XEnum vs, STupV n us =>
      exists cs, content_of fl (map fst vs) c n (AnSeq cs) /\
        any (fun x => match x with
               | (m, XVTup ts) => m = n /\ all3 (fun t c v => bm false (fl || own) t c v) ts cs us
               | _ => False
               end) vs
  | XEnum vs, SStructV n us =>
      exists d, content_of fl (map fst vs) c n d /\
        any (fun x => match x with (m, XVStruct fs) => m = n /\ record (fl || own) d fs us | _ => False end) vs
  | XUntagged vs, v =>
      first (fun x v => match x with (n, va) => n = variant_name v /\
               match va, v with
               | XVUnit, SUnitV _ => c = AnUnit
               | XVNew t, SNewV _ v => bm false false t c v
               | XVTup ts, STupV _ us => exists cs, c = AnSeq cs /\ all3 (fun t c v => bm false false t c v) ts cs us
               | XVStruct fs, SStructV _ us => named false c fs us
               | _, _ => False
               end end) vs v
  | XTagged tag vs, v =>
      exists d, tag_of tag c (variant_name v) d /\
        any (fun x => match x with (n, va) => n = variant_name v /\
               match va, v with
               | XVUnit, SUnitV _ => (exists es, d = AnMap es) \/ d = AnSeq []
               | XVNew t, SNewV _ v => bm false true t d v
               | XVStruct fs, SStructV _ us => record true d fs us
               | _, _ => False
               end end) vs
  | _, _ => False
  end
with leaves (t : xty) (es es' : list (anyv * anyv)) {struct t} : Prop :=
  match t with
  | XOption t | XNewtype t => leaves t es es'
  | XStruct fs =>
      if has_flat fs then es' = es
      else strips (map fst fs)
             (fun n c => any (fun f => match f with (m, (_, t)) => m = n /\ exists v, bm false true t c v end) fs) [] es es'
  | XEnum vs =>
      (exists b n c d, first_named (map fst vs) es b n c d /\ es' = b ++ d) \/
      (unnamed (map fst vs) es /\ es' = es)
  | _ => es' = es
  end.
(** The content [c] is a [v] for the type [t]. *)
Notation bmeans := (bm false).
(** The entries, for a flattened [t]. *)
Notation fmeans t es v := (bm true false t (AnMap es) v).

(** Names of fields and of variants are distinct. *)
Fixpoint plain_type (t : xty) : Prop :=
  let variants (vs : list (str * xvariant)) : Prop :=
    NoDup (map fst vs) /\
    fold_right (fun x P => (match x with
                            | (_, XVUnit) => True
                            | (_, XVNew t) => plain_type t
                            | (_, XVTup ts) => fold_right (fun t P => plain_type t /\ P) True ts
                            | (_, XVStruct fs) =>
                                NoDup (map fst fs) /\
                                fold_right (fun f P => (match f with (_, t) => plain_type t end) /\ P) True fs
                            end) /\ P) True vs in
  match t with
  | XOption t | XNewtype t | XSeq t => plain_type t
  | XTuple ts => fold_right (fun t P => plain_type t /\ P) True ts
  | XMap k w => plain_type k /\ plain_type w
  | XStruct fs =>
      NoDup (map fst fs) /\ fold_right (fun f P => (match f with (_, (_, t)) => plain_type t end) /\ P) True fs
  | XEnum vs | XUntagged vs | XTagged _ vs => variants vs
  | _ => True
  end.

(** ---- nodes ---- *)

(** What the untyped reader sees of a node that the typed readers see as [l]. *)
Fixpoint bare_look (l : looks) : looks :=
  match l with
  | LWord s => if untyped_word s then LWord s else LText s
  | LText s => LText s
  | LMap es => LMap (map (fun e => match e with (k, (al, l)) => (k, (al, bare_look l)) end) es)
  | LSeq es => LSeq (map (fun e => match e with (al, l) => (al, bare_look l) end) es)
  | LRef n => LRef n
  end.
(** The content the untyped reader buffers for the node. *)
Definition buffered (l : looks) (c : anyv) : Prop := any_means (bare_look l) c.
(** The same where the tag (a key, or the first element) is read as text. *)
Definition buffered_tag (tag : str) (l : looks) (c : anyv) : Prop :=
  (exists es cs, l = LMap es /\ c = AnMap cs /\
     all2 (fun e x => key_means (fst e) (fst x) /\
             (fst x = AnStr tag -> exists s, text (snd (snd e)) s /\ snd x = AnStr s) /\
             (fst x <> AnStr tag -> buffered (snd (snd e)) (snd x))) es cs) \/
  (exists e es s cs, l = LSeq (e :: es) /\ c = AnSeq (AnStr s :: cs) /\ text (snd e) s /\
     all2 (fun e c => buffered (snd e) c) es cs).
Definition key_look (k : str) : looks := if any_word k then LWord k else LText k.

(** The node [l] is a [v] for the type [t]: as [means], and with attributes through the buffer. *)
Fixpoint xmeans (t : xty) (l : looks) (v : sval) {struct t} : Prop :=
  let field (es : list (str * (option str * looks))) (n : str) (t : xty) (x : str * sval) : Prop :=
    n = fst x /\
    ((exists al w, only es n (al, w) /\ xmeans t w (snd x)) \/
     (~ In n (map fst es) /\ is_xoption t = true /\ snd x = SNone)) in
  match t, v with
  | XBool, SBool b => exists s, l = LWord s /\ In s (bool_words b)
  | XInt k, SInt k' z =>
      k' = k /\ k <> I128 /\ k <> U128 /\ exists s, text l s /\ decimal_text k s z /\ fits k z
  | XFloat, SFloat x => text l x /\ float_literal x
  | XChar, SChar c => text l [c]
  | XStr, SStr s => text l s
  | XUnit, SUnit => True
  | XOption _, SNone => null l
  | XOption t, SSome v => ~ null l /\ xmeans t l v
  | XNewtype t, SNewtype v => xmeans t l v
  | XSeq t, SSeq vs => exists es, l = LSeq es /\ all2 (fun e v => xmeans t (snd e) v) es vs
  | XTuple ts, STuple vs =>
      exists es rest, l = LSeq (es ++ rest) /\ all3 (fun t e v => xmeans t (snd e) v) ts es vs
  | XMap k w, SMap vs =>
      exists es, l = LMap es /\
        all2 (fun e x => xmeans k (key_look (fst e)) (fst x) /\ xmeans w (snd (snd e)) (snd x)) es vs
  | XStruct fs, SStruct vs =>
      exists es rest, l = LMap es /\
        (has_flat fs = true ->
         all2 (fun e x => fst x = AnStr (fst e) /\ buffered (snd (snd e)) (snd x))
           (filter (fun e => negb (existsb (seqb (fst e)) (own_names fs))) es) rest) /\
        chain (fun f rest x => match f with
                | (n, (false, t)) => field es n t x
                | (n, (true, t)) => n = fst x /\ fmeans t rest (snd x)
                end)
              (fun f rest rest' => match f with
                | (_, (false, _)) => rest' = rest
                | (_, (true, t)) => leaves t rest rest'
                end) fs rest vs
  | XEnum vs, SUnitV n => (exists c, names l n c) /\ In (n, XVUnit) vs
  | XEnum vs, SNewV n v =>
      exists c, names l n c /\
        any (fun x => match x with (m, XVNew t) => m = n /\ xmeans t c v | _ => False end) vs
  | XEnum vs, STupV n us =>
      exists es rest, names l n (LSeq (es ++ rest)) /\
        any (fun x => match x with
                      | (m, XVTup ts) => m = n /\ all3 (fun t e v => xmeans t (snd e) v) ts es us
                      | _ => False
                      end) vs
  | XEnum vs, SStructV n us =>
      exists es, names l n (LMap es) /\
        any (fun x => match x with
                      | (m, XVStruct fs) => m = n /\ all2 (fun f x => match f with (n, t) => field es n t x end) fs us
                      | _ => False
                      end) vs
  | XUntagged vs, v => exists c, buffered l c /\ bmeans false (XUntagged vs) c v
  | XTagged tag vs, v => exists c, buffered_tag tag l c /\ bmeans false (XTagged tag vs) c v
  | _, _ => False
  end.
