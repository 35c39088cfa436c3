(** * Props_ToValue: C94 (complete rules of to_value) *)
From Verif Require Import Base Value Scale Spec_Scale Serde Spec_Serde Spec_Reads Spec_ToValue ToValueFacts.
Local Open Scope N_scope.

(** Data of every type is written, and to exactly the value that the rules of [writes] give. *)
Theorem C94_to_value : forall (t : ty) (x : data), well_named t -> data_of t x ->
  exists v, to_value t x = Ok v /\ forall w, writes t x w <-> w = v.
Proof.
  intros t x W D. destruct (all_total t x D) as [v H]. pose proof (all_writes t W x v H) as E. exists v. split; [exact E|]. intro w. split; [|now intros ->].
  intro K. apply (all_writes t W) in K. unfold to_value in *. congruence.
Qed.
Print Assumptions C94_to_value.

Theorem C94_rules_suffice : forall (t : ty) (x : data) (v : value unit), well_named t -> writes t x v -> to_value t x = Ok v.
Proof. intros t x v W. exact (all_writes t W x v). Qed.
Print Assumptions C94_rules_suffice.

(** ** Non-vacuity *)
Definition order_ty : ty :=
  TyEnum [ (s2l "Cancel", VsUnit); (s2l "Limit", VsTuple [TyInt true 64; TyOption TyChar]);
           (s2l "Order", VsStruct [(s2l "lots", TyVec (TyStruct [(s2l "id", TyNewtype (TyInt false 32)); (s2l "raw", TyBytes)])); (s2l "note", TyValue)]);
           (s2l "Tags", VsNewtype (TyMap TyBool)) ].
Definition order_x : data :=
  XEnum (s2l "Order") (VsStruct [(s2l "lots", XVec [XStruct [(s2l "id", XNewtype (XInt 7)); (s2l "raw", XBytes [1; 255])]]);
                                 (s2l "note", XValue (unnamed_variant (s2l "V") [bit_sequence [true]]))]).
Example C94_order_named : well_named order_ty.
Proof. cbn. repeat split; repeat constructor; cbn; intuition discriminate. Qed.
Example C94_order_data : data_of order_ty order_x.
Proof.
  eapply D_enum_struct; [cbn; auto|]. repeat constructor; cbn; try lia.
Qed.
Example C94_order_value : to_value order_ty order_x =
  Ok (named_variant (s2l "Order")
        [(s2l "lots", unnamed_composite [named_composite [(s2l "id", unnamed_composite [vu128 7]); (s2l "raw", unnamed_composite [vu128 1; vu128 255])]]);
         (s2l "note", named_composite [(s2l "name", vstring (s2l "V"));
                                       (s2l "values", unnamed_composite [named_composite [(s2l "__bitvec__values__", unnamed_composite [vbool true])]])])]).
Proof. vm_compute. reflexivity. Qed.
Example C94_tags : to_value order_ty (XEnum (s2l "Tags") (VsNewtype (XMap [(s2l "a", XBool true)]))) =
    Ok (unnamed_variant (s2l "Tags") [named_composite [(s2l "a", vbool true)]]) /\
  to_value order_ty (XEnum (s2l "Limit") (VsTuple [XInt (-5); XSome (XChar 65)])) =
    Ok (unnamed_variant (s2l "Limit") [vi128 (-5); unnamed_variant (s2l "Some") [vchar 65]]).
Proof. split; vm_compute; reflexivity. Qed.
