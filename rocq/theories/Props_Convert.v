(** * Props_Convert: C95 (data of one Rust type read as another) *)
From Verif Require Import Base Value Scale Spec_Scale Serde Spec_Serde Spec_Maps Spec_Reads Spec_ToValue Spec_Convert ReadsFacts ToValueFacts Props_Reads Props_ToValue ConvertFacts.
Local Open Scope N_scope.

(** Data written as one type can be read as another by the rules of [converts]. *)
Theorem C95_conversions : forall t x u y, well_named t -> well_named u -> data_of t x -> converts t x u y ->
  exists v, to_value t x = Ok v /\ from_value u v = Ok y.
Proof.
  intros t x u y WT WU D C. destruct (C94_to_value t x WT D) as (v & E & H). exists v. split; [exact E|]. apply C93_from_value; [exact WU|]. eapply all_ok; [exact WT|exact C|]. now apply H.
Qed.
Print Assumptions C95_conversions.

(** If the types fit this never fails, gives data of the other type and follows those rules: a struct may gain optional fields, lose fields and reorder them, an enum
    may gain variants, integers may get wider, a struct may become a map, a tuple a sequence or the fields of a struct, anything but an option a newtype around itself. *)
Theorem C95_compatible_types : forall t u, well_named t -> well_named u -> fits t u ->
  forall x, data_of t x -> exists v y, to_value t x = Ok v /\ from_value u v = Ok y /\ data_of u y /\ converts t x u y.
Proof.
  intros t u WT WU F x D. destruct (all_go u t x F WT D) as (y & C & Y). destruct (C95_conversions t x u y WT WU D C) as (v & E1 & E2). exists v, y. auto.
Qed.
Print Assumptions C95_compatible_types.

(** The answer is the only one the rules allow. *)
Theorem C95_one_answer : forall t x u y y', well_named t -> well_named u -> data_of t x -> converts t x u y -> converts t x u y' -> y = y'.
Proof.
  intros t x u y y' WT WU D C C'. destruct (C95_conversions t x u y WT WU D C) as (v & E1 & E2). destruct (C95_conversions t x u y' WT WU D C') as (v' & E1' & E2'). congruence.
Qed.
Print Assumptions C95_one_answer.

(** ** Non-vacuity: version 2 of a message type reads what version 1 wrote. *)
Definition v1 : ty := TyEnum
  [ (s2l "Ping", VsUnit);
    (s2l "Pay", VsStruct [(s2l "to", TyChar); (s2l "amount", TyInt false 32); (s2l "memo", TyTuple [TyInt false 8; TyInt false 16]); (s2l "old", TyBool)]);
    (s2l "Log", VsNewtype (TyVec TyString)) ].
Definition v2 : ty := TyEnum
  [ (s2l "Log", VsStruct [(s2l "lines", TyVec TyString)]);
    (s2l "Stop", VsNewtype TyBool);
    (s2l "Pay", VsStruct [(s2l "memo", TyVec (TyInt true 64)); (s2l "amount", TyNewtype (TyInt false 64)); (s2l "fee", TyOption TyValue); (s2l "to", TyString)]);
    (s2l "Ping", VsUnit) ].
Example C95_v1_named : well_named v1. Proof. cbn. repeat split; repeat constructor; cbn; intuition discriminate. Qed.
Example C95_v2_named : well_named v2. Proof. cbn. repeat split; repeat constructor; cbn; intuition discriminate. Qed.
Example C95_fits : fits v1 v2.
Proof.
  apply F_enum. constructor; [|constructor; [|constructor; [|constructor]]]; cbn [fst snd].
  - exists VsUnit. split; [cbn; auto|constructor].
  - eexists. split; [cbn; right; right; left; reflexivity|]. apply Bf_struct. constructor. constructor; [|constructor; [|constructor; [|constructor; [|constructor]]]]; cbn [fst snd].
    + left. eexists. split; [cbn; right; right; left; reflexivity|]. eapply F_tuple_vec; [left; reflexivity|]. constructor; [|constructor; [|constructor]]; (apply F_int; [right|]; repeat split; reflexivity).
    + left. eexists. split; [cbn; right; left; reflexivity|]. apply F_newtype; [discriminate|]. apply F_int; [left; split; [reflexivity|discriminate]|reflexivity].
    + right. split; [cbn; intuition discriminate|eauto].
    + left. eexists. split; [cbn; left; reflexivity|]. apply F_char_string.
  - eexists. split; [cbn; left; reflexivity|]. apply Bf_newtype_struct. apply F_vec, F_string.
Qed.
Definition via (t u : ty) (x : data) : option (result data derr) := match to_value t x with Ok v => Some (from_value u v) | Err _ => None end.
Example C95_pay :
  via v1 v2 (XEnum (s2l "Pay") (VsStruct [(s2l "to", XChar 65); (s2l "amount", XInt 4000000000); (s2l "memo", XTuple [XInt 1; XInt 65535]); (s2l "old", XBool true)])) =
  Some (Ok (XEnum (s2l "Pay") (VsStruct [(s2l "memo", XVec [XInt 1; XInt 65535]); (s2l "amount", XNewtype (XInt 4000000000)); (s2l "fee", XNone); (s2l "to", XString [65])]))).
Proof. vm_compute. reflexivity. Qed.
(** The other way round fails: the types do not fit. *)
Example C95_not_back : via v2 v1 (XEnum (s2l "Stop") (VsNewtype (XBool true))) = Some (Err DUnknown).
Proof. vm_compute. reflexivity. Qed.

(** Not even a type need fit itself: newtype structs (C41), and an option in a newtype. *)
Theorem C95_same_type_refuted : exists t x v e, well_named t /\ data_of t x /\ to_value t x = Ok v /\ from_value t v = Err e.
Proof. exists (TyNewtype (TyInt false 8)), (XNewtype (XInt 1)), (unnamed_composite [vu128 1]), DType. split; [exact I|]. split; [constructor; constructor; cbn; lia|]. split; vm_compute; reflexivity. Qed.
Print Assumptions C95_same_type_refuted.
