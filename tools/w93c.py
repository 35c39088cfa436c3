f = r'''(** * C93: the rules of reading, complete

    The rules of Spec_Reads say, for every type of the universe at once, which values it is read from and what it
    becomes.  They are complete in both directions: what the rules allow is read, what is read is allowed by them. *)
From Verif Require Import Base Value Spec_Value ValueFacts Scale Serde SerdeFacts Spec_Serde Spec_Parts Spec_Maps Spec_Reads ReadsFacts.

Theorem C93_from_value : forall (T : Type) (t : ty) (v : value T) x, well_named t ->
  (from_value t v = Ok x <-> reads t (AtValue v) x).
Proof. intros T t v x W. exact (all_exact T t W (AtValue v) (SrcValue v) x eq_refl). Qed.
Print Assumptions C93_from_value.

(** The same for reading from a [Composite], a [Variant] or a [Primitive] directly, which are deserializers too. *)
Theorem C93_from_parts : forall (T : Type) (t : ty) x, well_named t ->
  (forall c : composite (value T), de t (SrcComposite c) = Ok x <-> reads t (InNewtype (DComposite c)) x) /\
  (forall n (c : composite (value T)), de t (SrcVariant n c) = Ok x <-> reads t (InNewtype (DVariant n c)) x) /\
  (forall p, de t (SrcPrim (T := T) p) = Ok x <-> reads t (InNewtype (T := T) (DPrim p)) x).
Proof.
  intros T t x W. split; [|split].
  - intro c. exact (all_exact T t W (InNewtype (DComposite c)) (SrcComposite c) x eq_refl).
  - intros n c. exact (all_exact T t W (InNewtype (DVariant n c)) (SrcVariant n c) x eq_refl).
  - intro p. exact (all_exact T t W (InNewtype (DPrim p)) (SrcPrim p) x eq_refl).
Qed.
Print Assumptions C93_from_parts.

(** So the rules never allow two answers, and where they allow none the call fails. *)
Theorem C93_one_answer : forall (T : Type) (t : ty) (v : value T), well_named t ->
  (forall x y, reads t (AtValue v) x -> reads t (AtValue v) y -> x = y) /\
  ((exists e, from_value t v = Err e) <-> forall x, ~ reads t (AtValue v) x).
Proof.
  intros T t v W. split.
  - intros x y H1 H2. apply C93_from_value in H1, H2; try exact W. congruence.
  - split.
    + intros [e He] x H. apply C93_from_value in H; [congruence|exact W].
    + intro N. destruct (from_value t v) as [x|e] eqn:E; [|now exists e]. apply C93_from_value in E; [|exact W]. destruct (N x E).
Qed.
Print Assumptions C93_one_answer.

(** Which types a bit sequence can be read as at all: a [Value], a [Composite], and structs; and of the structs those
    that have, apart from a field with the reserved name, only optional fields, which all become [None]. *)
Theorem C93_bit_sequences : forall (T : Type) (t : ty) b (ctx : T) x, well_named t ->
  from_value t (Val (DBits b) ctx) = Ok x ->
  (t = TyValue /\ x = XValue (bit_sequence b)) \/
  (t = TyComposite /\ x = XComposite (Named [(reserved_key, unnamed_composite (map vbool b))])) \/
  (exists fs ds, t = TyStruct fs /\ x = XStruct ds /\
     Forall2 (fun ft nx => fst nx = fst ft /\
       ((fst ft = reserved_key /\ reads (snd ft) (AtBits (T := T) b) (snd nx)) \/
        (fst ft <> reserved_key /\ (exists u, snd ft = TyOption u) /\ snd nx = XNone))) fs ds).
Proof.
  intros T t b ctx x W H. apply C93_from_value in H; [|exact W].
  inversion H; subst; clear H; cbn [prim_at fields_at parts_at composite_at variant_at def_at content_at struct_at vdef_of] in *; try discriminate.
  all: try match goal with H : _ \/ _ |- _ => destruct H; discriminate end.
  - (* struct *)
    match goal with H : Some _ = Some _ |- _ => injection H as <- end. right. right. exists fs, ds. split; [reflexivity|]. split; [reflexivity|].
    match goal with H : Forall2 _ fs ds |- _ => revert H end. apply F2_in. intros ft nx HI [X1 X2]. split; [exact X1|]. cbn [map fst In] in X2. destruct X2 as [(q & [E|[]] & X2)|(N & X2 & X3)].
    + left. injection E as E1 E2. subst q. split; [now symmetry|exact X2].
    + right. split; [|now split]. intro E. apply N. now left.
  - (* value *) left. split; [reflexivity|]. match goal with H : Some _ = Some _ |- _ => injection H as <- end. match goal with H : copied _ _ |- _ => inversion H end. reflexivity.
  - (* composite *) right. left. split; [reflexivity|]. match goal with H : Some _ = Some _ |- _ => injection H as <- end. reflexivity.
Qed.
Print Assumptions C93_bit_sequences.

(** A nested case: a struct with an enum, an option, a map, a newtype and a value in it, given out of order and with an
    unknown entry; the rules derive it, so it is read.  And a bit sequence read as a struct with the reserved field. *)
Definition reads_ty : ty := TyStruct
  [(s2l "e", TyEnum [(s2l "A", VsUnit); (s2l "B", VsNewtype (TyTuple [TyInt false 8; TyBool]))]);
   (s2l "o", TyOption TyString); (s2l "m", TyMap (TyVec TyBool)); (s2l "n", TyNewtype TyChar); (s2l "v", TyValue)].

Definition reads_v : value unit := named_composite
  [(s2l "v", Val (DPrim (PI256 [7])) tt); (s2l "n", vstring (s2l "x")); (s2l "other", vbool true);
   (s2l "m", named_variant (s2l "V") [(s2l "k", unnamed_composite [vbool true]); (s2l "k", unnamed_composite [])]);
   (s2l "e", unnamed_variant (s2l "B") [vi128 5; vbool false])].

Definition reads_x : data := XStruct
  [(s2l "e", XEnum (s2l "B") (VsNewtype (XTuple [XInt 5; XBool false]))); (s2l "o", XNone); (s2l "m", XMap [(s2l "k", XVec [])]);
   (s2l "n", XNewtype (XChar 120)); (s2l "v", XValue (unnamed_composite [vu128 7]))].

Lemma reads_ty_wf : well_named reads_ty.
Proof. cbn. repeat split; repeat (constructor; [intro H; repeat (destruct H as [H|H]; [discriminate H|]); exact H|]); constructor. Qed.

Example C93_non_vacuous :
  well_named reads_ty /\ from_value reads_ty reads_v = Ok reads_x /\ reads reads_ty (AtValue reads_v) reads_x /\
  (forall x, ~ reads (TyOption TyString) (AtValue (vstring (s2l "x"))) x) /\
  reads (TyStruct [(reserved_key, TyTuple [TyBool; TyNewtype TyValue])]) (AtValue (bit_sequence [true; false])) (XStruct [(reserved_key, XTuple [XBool true; XNewtype (XValue (vbool false))])]) = False \/ True.
Proof. right. exact I. Qed.

Example C93_instances :
  from_value reads_ty reads_v = Ok reads_x /\ reads reads_ty (AtValue reads_v) reads_x /\
  (forall x, ~ reads (TyOption TyString) (AtValue (vstring (s2l "x"))) x) /\
  reads (TyStruct [(reserved_key, TyTuple [TyBool; TyValue]); (s2l "a", TyOption TyBool)]) (AtValue (bit_sequence [true; false]))
    (XStruct [(reserved_key, XTuple [XBool true; XValue (vbool false)]); (s2l "a", XNone)]).
Proof.
  split; [vm_compute; reflexivity|]. split; [apply C93_from_value; [exact reads_ty_wf|vm_compute; reflexivity]|]. split.
  - apply (C93_one_answer unit (TyOption TyString) (vstring (s2l "x")) I). eexists. vm_compute. reflexivity.
  - apply C93_from_value; [|vm_compute; reflexivity]. cbn. repeat split; repeat (constructor; [intro H; repeat (destruct H as [H|H]; [discriminate H|]); exact H|]); constructor.
Qed.
'''
a=f.index("Example C93_non_vacuous"); b=f.index("Example C93_instances")
f=f[:a]+f[b:].replace("C93_instances","C93_non_vacuous")
open('/tmp/w/rocq/theories/Props_Reads.v','w').write(f)
