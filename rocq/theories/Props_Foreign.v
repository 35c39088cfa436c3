(** * C75: a [Value], [Composite], [Variant] or [Primitive] read from any document of a self-describing format. *)
From Verif Require Import Base Value Spec_Value Scale Serde SerdeFacts Spec_Serde Spec_Parts Spec_Foreign ForeignFacts ForeignTargets.

(** Which value a document is read as, if any.  [T] is immaterial (the source is no value of this crate). *)
Theorem C75_read_iff : forall (T : Type) (d : doc), no_leftovers d -> forall v,
  de TyValue (SrcDoc (T := T) d) = Ok (XValue v) <-> means d v.
Proof.
  intros T d NL v. rewrite <- (read_iff (T := T) d NL v). cbn [de]. rewrite rmap_ok. split; [intros (x & H & E); injection E as <-; exact H|intro H; now exists v].
Qed.
Print Assumptions C75_read_iff.

(** A document is refused only because of a float, a variant without contents, a variant whose contents are not fields, or
    something under the reserved key that is not a list of bools. *)
Theorem C75_refused : forall (T : Type) (d : doc) e, de TyValue (SrcDoc (T := T) d) = Err e -> exists p, part_of p d /\ unreadable p.
Proof. intros T d e H. cbn [de] in H. apply rmap_err in H. exact (refused d e H). Qed.
Print Assumptions C75_refused.

(** A float anywhere makes the whole document unreadable (so does a variant without contents). *)
Theorem C75_float_refuted : forall (T : Type) (d : doc), no_leftovers d -> part_of FFloat d \/ (exists n, part_of (FEnum n None) d) ->
  exists e, de TyValue (SrcDoc (T := T) d) = Err e.
Proof.
  intros T d NL HP. destruct (de TyValue (SrcDoc d)) as [x|e] eqn:E; [|now exists e]. exfalso. cbn [de] in E. apply rmap_ok in E as (v & E & _). apply (read_iff d NL) in E.
  destruct HP as [HP|[n HP]]; [apply (means_clean FFloat) in HP|apply (means_clean (FEnum n None)) in HP; [|right; now exists n]]; [now apply (proj1 HP v)|now left|now apply (proj1 HP v)].
Qed.
Print Assumptions C75_float_refuted.

(** The fields alone. *)
Theorem C75_composite_iff : forall (T : Type) (d : doc), (forall x, part_of x d -> x <> d -> no_leftovers x) -> forall c,
  de TyComposite (SrcDoc (T := T) d) = Ok (XComposite c) <-> means_fields d c.
Proof.
  intros T d NL c. rewrite <- (fields_read_iff (T := T) d NL c). cbn [de]. rewrite rmap_ok. split; [intros (x & H & E); injection E as <-; exact H|intro H; now exists c].
Qed.
Print Assumptions C75_composite_iff.

Theorem C75_variant_iff : forall (T : Type) (d : doc), no_leftovers d -> forall n c,
  de TyVariant (SrcDoc (T := T) d) = Ok (XVariant n c) <-> means_variant d n c.
Proof.
  intros T d NL n c. rewrite <- (variant_read_iff (T := T) d NL n c). cbn [de]. rewrite rmap_ok. split.
  - intros ([n' c'] & H & E). cbn [fst snd] in E. injection E as <- <-. exact H.
  - intro H. now exists (n, c).
Qed.
Print Assumptions C75_variant_iff.

Theorem C75_primitive_iff : forall (T : Type) (d : doc) p,
  de TyPrim (SrcDoc (T := T) d) = Ok (XPrim p) <-> means_prim d p.
Proof.
  intros T d p. rewrite <- (prim_read_iff (T := T) d p). cbn [de]. rewrite rmap_ok. split; [intros (x & H & E); injection E as <-; exact H|intro H; now exists p].
Qed.
Print Assumptions C75_primitive_iff.

(** A plain document can always be read; written again it is the same document, and that is read as the same value. *)
Theorem C75_json : forall (T : Type) (d : doc), plain d -> exists v d',
  de TyValue (SrcDoc (T := T) d) = Ok (XValue v) /\ to_doc (ser_value v) = Some d' /\ same_json d d' /\
  de TyValue (SrcDoc (T := T) d') = Ok (XValue v).
Proof.
  intros T d P. destruct (json_ok d P) as (v & d' & H1 & H2 & H3). exists v, d'. pose proof (plain_no_leftovers d P) as NL.
  split; [now apply C75_read_iff|]. split; [exact H2|]. split; [exact H3|]. apply C75_read_iff; [|now apply (same_json_means d)].
  apply plain_no_leftovers. clear -P H3. remember (doc_size d) as n eqn:En. revert d d' En P H3. induction n as [n IHn] using lt_wf_ind. intros d d' -> P S.
  inversion S as [b|sg w w' z|s|l l' F|l l' F]; subst; inversion P as [|w0 z0 HZ| | |l0 FP|l0 NK FP]; subst; try (constructor; assumption).
  - constructor. assert (HI : forall x, In x l -> (doc_size x < doc_size (FSeq l))%nat) by apply doc_size_seq. revert IHn HI. generalize (doc_size (FSeq l)). intros n IHn HI.
    clear -IHn HI F FP. induction F as [|x y l l' Hx _ IHl]; constructor; inversion FP; subst.
    + apply (IHn (doc_size x) (HI x (or_introl eq_refl)) x y eq_refl); assumption.
    + apply IHl; [assumption|intros; apply HI; now right].
  - constructor.
    + intros k x l0 ->. inversion F as [|[k1 x1] ? l1 ? [E1 _] _]; subst. cbn [fst] in E1. subst k1. now apply (NK _ _ _ eq_refl).
    + assert (HI : forall k x, In (k, x) l -> (doc_size x < doc_size (FMap l))%nat) by apply doc_size_map. revert IHn HI. generalize (doc_size (FMap l)). intros n IHn HI.
      clear -IHn HI F FP. induction F as [|[k x] [k' y] l l' [_ Hx] _ IHl]; constructor; inversion FP; subst; cbn [snd] in *.
      * apply (IHn (doc_size x) (HI k x (or_introl eq_refl)) x y eq_refl); assumption.
      * apply IHl; [assumption|intros k3 ? ?; apply (HI k3); now right].
Qed.
Print Assumptions C75_json.

(** ... but not if there is a null in it: that is written back as an empty list; and what a format gives as an optional value
    or as an enum is written back as a map. *)
Theorem C75_null_refuted : forall T : Type, exists d v d',
  de TyValue (SrcDoc (T := T) d) = Ok (XValue v) /\ to_doc (ser_value v) = Some d' /\
  d = FMap [(s2l "a", FUnit)] /\ d' = FMap [(s2l "a", FSeq [])].
Proof. intro T. eexists. eexists. eexists. repeat split; reflexivity. Qed.
Print Assumptions C75_null_refuted.

Theorem C75_option_refuted : forall (T : Type) d, no_leftovers d -> forall v, de TyValue (SrcDoc (T := T) d) = Ok (XValue v) ->
  exists w, de TyValue (SrcDoc (T := T) (FSome d)) = Ok (XValue w) /\
    forall dv, to_doc (ser_value v) = Some dv ->
    to_doc (ser_value w) = Some (FMap [(s2l "name", FStr (s2l "Some")); (s2l "values", FSeq [dv])]).
Proof.
  intros T d NL v H. exists (unnamed_variant (s2l "Some") [v]). split.
  - apply C75_read_iff.
    + intros x y l HP. inversion HP; subst. now apply (NL x y l).
    + constructor. now apply C75_read_iff in H.
  - intros dv E. cbn [unnamed_variant ser_value ser_variant_with ser_composite_with map to_doc]. now rewrite E.
Qed.
Print Assumptions C75_option_refuted.

Example C75_non_vacuous :
  let d := FMap [(s2l "a", FSeq [FInt false 64 1; FInt true 64 (-2); FBool true; FStr (s2l "x")]); (s2l "b", FMap [])] in
  let r := FMap [(reserved_key, FSeq [FBool true; FBool false])] in
  let o := FSeq [FSome (FEnum (s2l "E") (Some (FMap [(s2l "f", FChar 97)]))); FNone; FUnit; FBytes [1; 2]%N] in
  plain d /\ no_leftovers d /\
  de TyValue (SrcDoc (T := unit) d) = Ok (XValue (named_composite [(s2l "a", unnamed_composite [vu128 1; vi128 (-2); vbool true; vstring (s2l "x")]); (s2l "b", named_composite [])])) /\
  means r (bit_sequence [true; false]) /\
  means o (unnamed_composite [unnamed_variant (s2l "Some") [named_variant (s2l "E") [(s2l "f", vchar 97)]]; unnamed_variant (s2l "None") []; unnamed_composite []; unnamed_composite [vu128 1; vu128 2]]) /\
  (exists e, de TyValue (SrcDoc (T := unit) (FSeq [FBool true; FFloat])) = Err e) /\
  means_variant (FMap [(s2l "values", FSeq [FBool true]); (s2l "name", FStr (s2l "A"))]) (s2l "A") (Unnamed [vbool true]) /\
  means_prim (FSeq (repeat (FInt false 64 7) 32)) (PU256 (repeat 7%N 32)).
Proof.
  cbv zeta.
  assert (P : plain (FMap [(s2l "a", FSeq [FInt false 64 1; FInt true 64 (-2); FBool true; FStr (s2l "x")]); (s2l "b", FMap [])])).
  { constructor; [intros k x l' E; injection E as <- _ _; discriminate|]. constructor; [|constructor; [|constructor]]; cbn [snd].
    - constructor. constructor; [constructor; lia|]. constructor; [constructor|]. constructor; [constructor|]. constructor; [constructor|constructor].
    - constructor; [discriminate|constructor]. }
  split; [exact P|]. split; [now apply plain_no_leftovers|]. split; [reflexivity|]. split; [apply (M_bits [true; false])|]. split; [|split; [|split]].
  - apply (C75_read_iff unit); [|reflexivity]. intros x y l H. inversion H as [|? ? HI HP| | |]; subst. cbn [In] in HI. destruct HI as [<-|[<-|[<-|[<-|[]]]]]; inversion HP; subst.
    inversion H1; subst. inversion H2; subst. destruct H3 as [E|[]]. injection E as _ <-. inversion H4.
  - eexists. reflexivity.
  - apply (C75_variant_iff unit); [|reflexivity]. intros x y l H. inversion H as [| |k0 x0 l0 HI HP| |]; subst. cbn [In] in HI. destruct HI as [E|[E|[]]]; injection E as _ <-; inversion HP; subst.
    destruct H1 as [<-|[]]. inversion H2.
  - apply (C75_primitive_iff unit). reflexivity.
Qed.
