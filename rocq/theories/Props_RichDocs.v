(** * C96: documents of formats with newtypes and with keys of any kind, read as a [Value], [Composite], [Variant] or [Primitive]. *)
From Verif Require Import Base Value Spec_Value Scale Serde SerdeFacts Spec_Serde Spec_Parts Spec_Foreign DocRich Spec_RichDocs RichFacts.

(** The documents of C75 are read as before, with the same errors; if the format is strict, as long as no map is left half read. *)
Theorem C96_agrees : forall (T : Type) strict (d : doc), (strict = true -> no_leftovers d) ->
  de TyValue (SrcDoc (T := T) d) = rmap XValue (rvalue strict (embed d)) /\
  de TyComposite (SrcDoc (T := T) d) = rmap XComposite (rfields strict (embed d)) /\
  de TyVariant (SrcDoc (T := T) d) = rmap (fun nc => XVariant (fst nc) (snd nc)) (rvariant strict (embed d)) /\
  de TyPrim (SrcDoc (T := T) d) = rmap XPrim (rprim (embed d)).
Proof.
  intros T strict d NL. destruct (embed_both (T := T) strict d NL) as [E1 E2]. cbn [de].
  rewrite E1, E2, (embed_variant (T := T) strict d NL), (embed_prim (T := T) d); [repeat split|].
  intros l -> E [k x] HI. cbn [snd]. exact (ForeignFacts.leftovers_sub x _ (P_map x k x l HI (P_self x)) (NL E)).
Qed.
Print Assumptions C96_agrees.

(** Exactly which documents are read, and as what. *)
Theorem C96_read_iff : forall strict d v, rvalue strict d = Ok v <-> stands strict d v.
Proof. intros strict d v. apply read_both. Qed.
Print Assumptions C96_read_iff.

Theorem C96_composite_iff : forall strict d c, rfields strict d = Ok c <-> gives strict d c.
Proof. intros strict d c. apply read_both. Qed.
Print Assumptions C96_composite_iff.

Theorem C96_variant_iff : forall strict d n c, rvariant strict d = Ok (n, c) <-> stands_variant strict d n c.
Proof. exact rvariant_iff. Qed.
Print Assumptions C96_variant_iff.

Theorem C96_primitive_iff : forall d p, rprim d = Ok p <-> stands_prim d p.
Proof. exact rprim_iff. Qed.
Print Assumptions C96_primitive_iff.

(** A newtype around a value is that value, however many there are ... *)
Theorem C96_newtype : forall strict n d, rvalue strict (Nat.iter n RNewtype d) = rvalue strict d /\ rfields strict (Nat.iter n RNewtype d) = rfields strict d.
Proof. intros strict n d. induction n as [|n [IH1 IH2]]; [now split|]. cbn [Nat.iter nat_rect]. now split; [rewrite <- IH1|rewrite <- IH2]. Qed.
Print Assumptions C96_newtype.

(** ... but a variant or a primitive inside a newtype cannot be read as such, although as a value it can. *)
Theorem C96_newtype_refuted : forall strict d,
  (exists e, rvariant strict (RNewtype d) = Err e) /\ (exists e, rprim (RNewtype d) = Err e) /\
  (forall n c, rvariant strict d = Ok (n, c) -> (forall l, d <> RMap l) -> rvalue strict (RNewtype d) = Ok (Val (DVariant n c) tt)) /\
  (forall p, rprim d = Ok p -> (forall b, p <> PU256 b) -> rvalue strict (RNewtype d) = Ok (Val (DPrim p) tt)).
Proof.
  intros strict d. split; [eexists; reflexivity|]. split; [eexists; reflexivity|]. split.
  - intros n c H NM. apply rvariant_iff in H. apply C96_read_iff. constructor. inversion H; subst; try (constructor; assumption). exfalso. now apply (NM l).
  - intros p H NP. apply rprim_iff in H. apply C96_read_iff. constructor. inversion H; subst; try constructor; exfalso; now apply (NP b).
Qed.
Print Assumptions C96_newtype_refuted.

(** A map with a key that is not text cannot be read, whatever else is in it (unless reading stops before it, at the reserved key). *)
Theorem C96_keys_refuted : forall strict l k x, In (k, x) l -> (forall s, ~ spells k s) ->
  (exists e, rfields strict (RMap l) = Err e) /\
  ((forall k' x' l', l = (k', x') :: l' -> ~ spells k' reserved_key) -> exists e, rvalue strict (RMap l) = Err e).
Proof.
  intros strict l k x HI NS.
  assert (HN : forall vs, ~ Forall2 (fun (kd : rdoc * rdoc) (kv : str * value unit) => spells (fst kd) (fst kv) /\ stands strict (snd kd) (snd kv)) l vs).
  { intros vs F. destruct (ForeignFacts.Forall2_in_l _ _ _ _ F HI) as (kv & _ & HS & _). now apply (NS (fst kv)). }
  split.
  - destruct (rfields strict (RMap l)) as [c|e] eqn:E; [|now exists e]. exfalso. apply C96_composite_iff in E. inversion E as [| | |l' vs F|]; subst. now apply (HN vs).
  - intro NR. destruct (rvalue strict (RMap l)) as [v|e] eqn:E; [|now exists e]. exfalso. apply C96_read_iff in E. inversion E as [| | | | | | | | | | | |l' vs _ F|dk bs rest HS _]; subst.
    + now apply (HN vs).
    + now apply (NR dk _ rest eq_refl).
Qed.
Print Assumptions C96_keys_refuted.

(** A map that starts with the reserved key is read as bits or not at all; what follows is dropped or, in a strict format, an error. *)
Theorem C96_reserved : forall strict k x rest, spells k reserved_key ->
  (forall v, rvalue strict (RMap ((k, x) :: rest)) = Ok v -> exists bs, x = RSeq (map RBool bs) /\ v = bit_sequence bs) /\
  (strict = false -> rvalue strict (RMap ((k, x) :: rest)) = rvalue strict (RMap [(k, x)])) /\
  (strict = true -> rest <> [] -> exists e, rvalue strict (RMap ((k, x) :: rest)) = Err e).
Proof.
  intros strict k x rest HK. assert (HT : rtext k = Ok bitvec_key) by now apply rtext_iff.
  assert (HV : forall v, rvalue strict (RMap ((k, x) :: rest)) = Ok v -> exists bs, x = RSeq (map RBool bs) /\ v = bit_sequence bs /\ (strict = true -> rest = [])).
  { intros v H. apply C96_read_iff in H. inversion H as [| | | | | | | | | | | |l' vs HN F|dk bs rest' HS HR]; subst.
    - inversion F as [|? [s w] ? vs' [Hk _] _]; subst. cbn [fst] in Hk. exfalso. apply (HN s w vs' eq_refl). exact (spells_unique k _ _ Hk HK).
    - now exists bs. }
  split; [|split].
  - intros v H. destruct (HV v H) as (bs & E1 & E2 & _). now exists bs.
  - intros ->. cbn [rvalue]. rewrite HT. cbn [bind]. rewrite str_eqb_refl. reflexivity.
  - intros ES NR. destruct (rvalue strict (RMap ((k, x) :: rest))) as [v|e] eqn:E; [|now exists e]. exfalso. destruct (HV v eq_refl) as (bs & _ & _ & HR). now apply NR, HR.
Qed.
Print Assumptions C96_reserved.

Example C96_non_vacuous :
  let d := RMap [(RChar 97, RNewtype (RNewtype (RInt false 8 7))); (RBytes [98; 99]%N, REnum (RStr (s2l "E")) (Some (RNewtype (RSeq [RUnit]))))] in
  let r := RMap [(RBytes (s2l "__bitvec__values__"), RSeq [RBool true]); (RInt false 8 1, RFloat)] in
  rvalue true d = Ok (named_composite [(s2l "a", vu128 7); (s2l "bc", unnamed_variant (s2l "E") [unnamed_composite []])]) /\
  rvalue false r = Ok (bit_sequence [true]) /\ rvalue true r = Err DLength /\
  rvalue false (RMap [(RInt false 64 1, RBool true)]) = Err DType /\ (forall s, ~ spells (RInt false 64 1) s) /\
  rvariant false (RMap [(RChar 120, RUnit)]) = Err DUnknown /\
  rvariant false (RMap [(RStr (s2l "values"), RUnit); (RBytes (s2l "name"), RChar 65); (RStr (s2l "values"), RNewtype (RBytes [1]%N))]) = Ok (s2l "A", Unnamed [vu128 1]) /\
  rprim (RNewtype (RBool true)) = Err DType /\ rvalue true (RNewtype (RBool true)) = Ok (vbool true) /\
  spells (RBytes (s2l "__bitvec__values__")) reserved_key.
Proof. cbv zeta. repeat apply conj; try reflexivity; [intros s H; inversion H|constructor; reflexivity]. Qed.
