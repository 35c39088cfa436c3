(** * C89: newtype structs are read from a value exactly as their content

    [struct W(A)] asks the deserializer for a newtype struct; the deserializers of this crate answer with a sequence of
    one element, which is the value itself (deserializer.rs:215-401, 508-517, 617-626, 778-787).  So [W] should be read
    from a value exactly when [A] is, and to the same content.  The theorems say for which values and which [A] this is
    so, and what happens for the rest. *)
From Verif Require Import Base Value Spec_Value ValueFacts Scale Serde SerdeFacts.

(** What is handed to the content of a newtype. *)
Definition inner {T} (v : value T) : option (source T) :=
  match vdef_of v with
  | DComposite c => Some (SrcComposite c)
  | DVariant n c => Some (SrcVariant n c)
  | DPrim p => Some (SrcPrim p)
  | DBits _ => None
  end.

Lemma newtype_reads {T} t (v : value T) s : inner v = Some s -> from_value (TyNewtype t) v = rmap XNewtype (de t s).
Proof.
  destruct v as [d ctx]. unfold from_value, inner. cbn [vdef_of]. intros H.
  destruct d as [c|n c|b|p]; inversion H; subst; cbn; destruct (de t _); reflexivity.
Qed.

Lemma inner_same {T} (v : value T) s h : inner v = Some s -> h <> HOption -> (h = HStruct -> forall n c, vdef_of v <> DVariant n c) ->
  deserialize s h = deserialize (SrcValue v) h.
Proof.
  destruct v as [d ctx]. unfold inner. cbn [vdef_of]. intros H Ho Hs.
  destruct d as [c|n c|b|p]; inversion H; subst; cbn; destruct h; try congruence; try reflexivity.
  exfalso. exact (Hs eq_refl n c eq_refl).
Qed.

Lemma inner_any {T} (v : value T) s : inner v = Some s -> any_of s = any_of (SrcValue v).
Proof.
  intros H. pose proof (inner_same v s HAny H ltac:(discriminate) ltac:(discriminate)) as E.
  rewrite !deserialize_any_ok in E. congruence.
Qed.

Lemma inner_value {T} (v : value T) s : inner v = Some s -> de_value s = de_value (SrcValue v).
Proof. intros H. rewrite !de_value_unfold, (inner_any v s H). reflexivity. Qed.

(** Options and structs are the only targets whose reading depends on more than the parts of the value. *)
Definition option_or_struct (t : ty) : Prop :=
  match t with TyOption _ | TyStruct _ => True | _ => False end.

Lemma inner_de {T} t (v : value T) s : inner v = Some s -> (option_or_struct t -> forall n c, vdef_of v <> DVariant n c) ->
  de t s = de t (SrcValue v).
Proof.
  intros H Ht.
  assert (HE : forall h, h <> HOption -> h <> HStruct -> deserialize s h = deserialize (SrcValue v) h)
    by (intros h H1 H2; apply (inner_same v s h H H1); intros; contradiction).
  destruct t; cbn [de]; unfold de_bool, de_string; try (rewrite HE by discriminate; reflexivity).
  - (* option *)
    destruct v as [d ctx]. specialize (Ht I). unfold inner in H. cbn [vdef_of] in H, Ht.
    destruct d as [c|n c|b|p]; inversion H; subst; try reflexivity. exfalso. exact (Ht n c eq_refl).
  - (* struct *)
    rewrite (inner_same v s HStruct H ltac:(discriminate) (fun _ => Ht I)). reflexivity.
  - rewrite (inner_value v s H). reflexivity.
  - unfold de_composite, de_composite_with. rewrite HE by discriminate. reflexivity.
  - unfold de_variant. rewrite HE by discriminate. reflexivity.
  - unfold de_prim. rewrite HE by discriminate. reflexivity.
Qed.

(** Any value but a bit sequence, read as a newtype, gives what it gives read as the content: the same content, or the
    same kind of error.  For variants this needs that the content is not itself an [Option] or a struct. *)
Theorem C89_as_content : forall (T : Type) (t : ty) (v : value T),
  (forall b, vdef_of v <> DBits b) -> (option_or_struct t -> forall n c, vdef_of v <> DVariant n c) ->
  from_value (TyNewtype t) v = match from_value t v with Ok x => Ok (XNewtype x) | Err e => Err e end.
Proof.
  intros T t v Hb Ht.
  assert (exists s, inner v = Some s) as [s Hs].
  { unfold inner. destruct (vdef_of v) as [c|n c|b|p] eqn:E; try (eexists; reflexivity). exfalso. exact (Hb b eq_refl). }
  rewrite (newtype_reads t v s Hs), (inner_de t v s Hs Ht). unfold from_value. destruct (de t (SrcValue v)); reflexivity.
Qed.
Print Assumptions C89_as_content.

(** A bit sequence is never read as a newtype, though it may be read as the content. *)
Theorem C89_bits_refuted :
  (forall (T : Type) (t : ty) b (ctx : T), from_value (TyNewtype t) (Val (DBits b) ctx) = Err DCustom) /\
  exists (t : ty) (v : value unit) x, from_value t v = Ok x /\ from_value (TyNewtype t) v = Err DCustom.
Proof.
  split; [reflexivity|]. exists TyValue, (Val (DBits [true; false]) tt). eexists. split; vm_compute; reflexivity.
Qed.
Print Assumptions C89_bits_refuted.

(** A variant read as a newtype around a struct gives the struct read from the variant's fields: the newtype makes
    readable what on its own is not. *)
Theorem C89_struct_in_newtype_refuted :
  (forall (T : Type) fs n (c : composite (value T)) ctx ctx',
     from_value (TyStruct fs) (Val (DVariant n c) ctx) = Err DType /\
     from_value (TyNewtype (TyStruct fs)) (Val (DVariant n c) ctx) =
       match from_value (TyStruct fs) (Val (DComposite c) ctx') with Ok x => Ok (XNewtype x) | Err e => Err e end) /\
  exists fs (v : value unit) x, from_value (TyStruct fs) v = Err DType /\ from_value (TyNewtype (TyStruct fs)) v = Ok x.
Proof.
  split.
  - intros T fs n c ctx ctx'. split; [reflexivity|].
    rewrite (newtype_reads (TyStruct fs) (Val (DVariant n c) ctx) (SrcVariant n c) eq_refl).
    unfold from_value. cbn [de]. change (deserialize (SrcVariant n c) HStruct) with (Ok (E := derr) (composite_any c)).
    change (deserialize (SrcValue (Val (DComposite c) ctx')) HStruct) with (Ok (E := derr) (composite_any c)).
    cbn [bind]. destruct (visit_struct _ _ _); reflexivity.
  - exists [(s2l "a", TyBool)], (named_variant (s2l "V") [(s2l "a", vbool true)]).
    eexists. split; [reflexivity|]. vm_compute. reflexivity.
Qed.
Print Assumptions C89_struct_in_newtype_refuted.

(** A newtype around an [Option]: never from a variant (C55), and from nothing else, because an [Option] is read from
    variants only. *)
Theorem C89_option_in_newtype_refuted : forall (T : Type) t (v : value T), exists e, from_value (TyNewtype (TyOption t)) v = Err e.
Proof.
  intros T t v. destruct v as [d ctx]. destruct d as [[l|l]|n c|b|p]; eexists; try reflexivity.
  destruct p; reflexivity.
Qed.
Print Assumptions C89_option_in_newtype_refuted.

(** The hypotheses of [C89_as_content] are met: an enum in a newtype, a struct in a newtype, two newtypes deep. *)
Example C89_non_vacuous :
  let e := TyEnum [(s2l "A", VsUnit); (s2l "B", VsTuple [TyInt false 8; TyBool])] in
  let v := unnamed_variant (s2l "B") [vu128 7; vbool true] in
  let s := named_composite [(s2l "x", vu128 1)] in
  from_value (TyNewtype (TyNewtype e)) v = Ok (XNewtype (XNewtype (XEnum (s2l "B") (VsTuple [XInt 7; XBool true])))) /\
  from_value (TyNewtype e) (unnamed_variant (s2l "C") []) = Err DUnknown /\
  from_value (TyNewtype (TyStruct [(s2l "x", TyInt false 8)])) s = Ok (XNewtype (XStruct [(s2l "x", XInt 1)])) /\
  from_value (TyNewtype (TyInt false 8)) (vu128 256) = from_value (TyInt false 8) (vu128 256).
Proof. repeat apply conj; vm_compute; reflexivity. Qed.
