(** * Props_Growth: C100, types that grow. *)
From Verif Require Import Base Value ValueFacts Chars Registry Spec_Scale Scale ScaleFacts Decode DecodeFacts Encode ShapeFacts Demo Spec_Growth GrowthFacts.
Local Open Scope N_scope.

(** ** C100 *)
(** Data that the old registry can read, the new one reads alike: enums have got more variants (with indices that were free), and types that
    were missing may have appeared. *)
Theorem C100_old_data : forall TId C (added : str -> Prop) (reg reg' : TId -> resolution TId) X (ctxf : TId -> C) fuel, upgraded added reg reg' ->
  (forall t bs v rest, decode_as_type reg X ctxf fuel t bs = Ok (v, rest) -> decode_as_type reg' X ctxf fuel t bs = Ok (v, rest)) /\
  (forall fs bs c rest, decode_as_fields reg X ctxf fuel fs bs = Ok (c, rest) -> decode_as_fields reg' X ctxf fuel fs bs = Ok (c, rest)).
Proof.
  intros TId C added reg reg' X ctxf fuel HU.
  assert (HD : forall cm t bs, close (fun _ => True) (mentions added) (decode reg X ctxf fuel cm t bs) (decode reg' X ctxf fuel cm t bs)).
  { intros. apply decode_close; [|exact I]. intro u. destruct (HU u) as [HL|[E|E]]; [left; exact HL|right; left; split; [exact E|exact I]|right; right; split; [exact E|exact I]]. }
  split; [intros t bs v rest; apply (HD false)|]. intros fs bs c rest. eapply composite_close; exact (HD false).
Qed.
Print Assumptions C100_old_data.

(** Data that the new registry can read, the old one reads alike or refuses, never otherwise: it refuses for a variant index it does not know,
    and then a variant with a new name is in the data, or for a type it does not know. *)
Theorem C100_new_data : forall TId C (added : str -> Prop) (reg reg' : TId -> resolution TId) X (ctxf : TId -> C) fuel t bs v rest, upgraded added reg reg' ->
  decode_as_type reg' X ctxf fuel t bs = Ok (v, rest) ->
  decode_as_type reg X ctxf fuel t bs = Ok (v, rest) \/
  decode_as_type reg X ctxf fuel t bs = Err EVariantNotFound /\ mentions added v \/
  decode_as_type reg X ctxf fuel t bs = Err EIdNotFound \/ decode_as_type reg X ctxf fuel t bs = Err ETypeResolving.
Proof.
  intros TId C added reg reg' X ctxf fuel t bs v rest HU HN.
  destruct (decode_close added reg reg' X ctxf (fun e => e = EVariantNotFound \/ e = EIdNotFound \/ e = ETypeResolving)) with (fuel := fuel) (cm := false) (t := t) (bs := bs) as [_ HD].
  - intro u. destruct (HU u) as [HL|[E|E]]; [left; exact HL|right; left|right; right]; (split; [exact E|]); [right; left|right; right]; reflexivity.
  - left. reflexivity.
  - destruct (HD _ HN) as [HO|(e & HO & [-> | [-> | ->]] & HM)]; [left; exact HO|right; left|right; right; left; exact HO|right; right; right; exact HO].
    split; [exact HO|exact (HM eq_refl)].
Qed.
Print Assumptions C100_new_data.

(** Where no types are new, data without new variants is read alike by both, whichever wrote it. *)
Theorem C100_without_new_variants : forall TId C (added : str -> Prop) (reg reg' : TId -> resolution TId) X (ctxf : TId -> C) fuel t bs v rest,
  widened added reg reg' -> ~ mentions added v ->
  (decode_as_type reg X ctxf fuel t bs = Ok (v, rest) <-> decode_as_type reg' X ctxf fuel t bs = Ok (v, rest)).
Proof.
  intros TId C added reg reg' X ctxf fuel t bs v rest HW HM.
  destruct (decode_close added reg reg' X ctxf (fun e => e = EVariantNotFound) (fun u => or_introl (HW u)) eq_refl fuel false t bs) as [H1 H2].
  split; [apply H1|]. intro H. destruct (H2 _ H) as [HO|(e & _ & HE & K)]; [exact HO|]. contradiction (HM (K HE)).
Qed.
Print Assumptions C100_without_new_variants.

(** Values without new variants are encoded alike by both: the same bytes, the same error, the same output. *)
Theorem C100_encode : forall TId T (added : str -> Prop) (reg reg' : TId -> resolution TId) X F (v : value T), widened added reg reg' -> ~ mentions added v ->
  (forall t out, encode reg X F v t out = encode reg' X F v t out) /\
  (forall fs out, encode_as_fields reg X F v fs out = encode_as_fields reg' X F v fs out).
Proof.
  intros TId T added reg reg' X F v HW HM. split; [intros t out; apply (encode_eq added reg reg' X HW F v HM)|].
  intros fs out. apply (encode_fields_eq added reg reg' X HW F v fs out HM).
Qed.
Print Assumptions C100_encode.

(** *** A registry and its successor: [enum E { Old }], later [enum E { New(u8), Old }]; [struct S { p: E, q: u8 }] and [struct W { a: S }]. *)
Definition v1_reg (t : nat) : resolution nat :=
  match t with
  | 0%nat => ResTy (TPrim (PtU W8))
  | 1%nat => ResTy (TVariant [VInfo (s2l "Old") 0 []])
  | 2%nat => ResTy (TComposite [(Some (s2l "p"), 1%nat); (Some (s2l "q"), 0%nat)])
  | 3%nat => ResTy (TComposite [(Some (s2l "a"), 2%nat)])
  | _ => ResNotFound
  end.
Definition v2_reg (t : nat) : resolution nat :=
  match t with
  | 1%nat => ResTy (TVariant [VInfo (s2l "New") 1 [(None, 0%nat)]; VInfo (s2l "Old") 0 []])
  | 4%nat => ResTy (TSequence 1%nat)
  | _ => v1_reg t
  end.
Definition only_new (n : str) : Prop := n = s2l "New".
Example v2_upgraded : upgraded only_new v1_reg v2_reg.
Proof.
  intro t. destruct t as [|[|[|[|[|t]]]]]; try (left; apply L_same); [left|right; left; reflexivity].
  apply L_more. apply G_add; [reflexivity| |repeat constructor]. intros [E|[]]. discriminate E.
Qed.
Definition v2_wide (t : nat) : resolution nat := match t with 4%nat => ResNotFound | _ => v2_reg t end.
Example v2_widened : widened only_new v1_reg v2_wide.
Proof.
  intro t. destruct t as [|[|[|[|[|t]]]]]; try apply L_same. apply L_more. apply G_add; [reflexivity| |repeat constructor]. intros [E|[]]. discriminate E.
Qed.
Notation ctx0 := (fun _ : nat => tt).
(** Old data is read alike; new data is read by the new registry and refused by the old one. *)
Example C100_used : exists v w,
  decode_as_type v1_reg xdemo ctx0 5%nat 2%nat [0; 7] = Ok (v, []) /\ decode_as_type v2_reg xdemo ctx0 5%nat 2%nat [0; 7] = Ok (v, []) /\
  decode_as_type v2_reg xdemo ctx0 5%nat 2%nat [1; 9; 7] = Ok (w, []) /\ decode_as_type v1_reg xdemo ctx0 5%nat 2%nat [1; 9; 7] = Err EVariantNotFound /\ mentions only_new w.
Proof.
  eexists _, _. split; [reflexivity|]. split; [reflexivity|]. split; [reflexivity|]. split; [reflexivity|].
  eapply M_in; [left; reflexivity|]. apply M_here. reflexivity.
Qed.

(** An index that was in use must not be given to a new variant in front: old data is then read as something else. *)
Definition reused_reg (t : nat) : resolution nat :=
  match t with 1%nat => ResTy (TVariant [VInfo (s2l "New") 0 []; VInfo (s2l "Old") 0 []]) | _ => v1_reg t end.
Example C100_free_indices_needed : decode_as_type v1_reg xdemo ctx0 5%nat 1%nat [0] = Ok (Val (DVariant (s2l "Old") (Unnamed [])) tt, []) /\
  decode_as_type reused_reg xdemo ctx0 5%nat 1%nat [0] = Ok (Val (DVariant (s2l "New") (Unnamed [])) tt, []).
Proof. split; reflexivity. Qed.

(** Values that mention a new name can be encoded by both and differently: the value below is a [W] only for the new registry; the old one
    finds that it has the fields of the [S] inside as well. *)
Theorem C100_encode_refuted : exists (v : value unit) b b',
  encode v1_reg xdemo 5%nat v 3%nat [] = (SOk, b) /\ encode v2_wide xdemo 5%nat v 3%nat [] = (SOk, b') /\ b <> b'.
Proof.
  exists (Val (DComposite (Named
    [(s2l "a", Val (DComposite (Named [(s2l "p", Val (DVariant (s2l "New") (Unnamed [vu128 9])) tt); (s2l "q", vu128 1)])) tt);
     (s2l "p", Val (DVariant (s2l "Old") (Unnamed [])) tt); (s2l "q", vu128 2)])) tt), [0; 2], [1; 9; 1].
  split; [vm_compute; reflexivity|]. split; [vm_compute; reflexivity|discriminate].
Qed.
Print Assumptions C100_encode_refuted.
