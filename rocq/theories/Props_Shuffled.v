(** * Props_Shuffled: C111 (data read back after its fields were put in another order) *)
From Coq Require Import Permutation.
From Verif Require Import Base Value Spec_Value Scale Spec_Scale Serde Spec_Serde Spec_Maps Spec_Reads ReadsFacts Spec_ToValue ToValueFacts Spec_Convert ConvertFacts Spec_Shuffled ShuffleFacts
  Props_Reads Props_ToValue Props_Convert.
Local Open Scope N_scope.

(** Whatever order the named fields of a written value are put into, at any depth, data of a fitting type is read from it, the same as before. *)
Theorem C111_any_order : forall (T : Type) t u x v (w : value T), well_named t -> well_named u -> fits t u -> data_of t x -> to_value t x = Ok v -> shuffled v w ->
  exists y, from_value u w = Ok y /\ from_value u v = Ok y /\ data_of u y /\ converts t x u y.
Proof.
  intros T t u x v w WT WU F D E S. destruct (C95_compatible_types t u WT WU F x D) as (v' & y & E1 & E2 & E3 & E4). rewrite E in E1. injection E1 as <-.
  exists y. split; [|auto]. apply C93_from_value; [exact WU|]. refine (all_reach u WU t x y w F _ E4 _); [split; [exact WT|exact D]|]. exists v. split; [|exact S].
  destruct (C94_to_value t x WT D) as (v' & E5 & E6). rewrite E in E5. injection E5 as <-. now apply E6.
Qed.
Print Assumptions C111_any_order.

(** So two people who reorder it differently read the same. *)
Theorem C111_orders_alike : forall (T1 T2 : Type) t u x v (w1 : value T1) (w2 : value T2), well_named t -> well_named u -> fits t u -> data_of t x -> to_value t x = Ok v ->
  shuffled v w1 -> shuffled v w2 -> from_value u w1 = from_value u w2.
Proof.
  intros T1 T2 t u x v w1 w2 WT WU F D E S1 S2. destruct (C111_any_order _ t u x v w1 WT WU F D E S1) as (y1 & R1 & Q1 & _). destruct (C111_any_order _ t u x v w2 WT WU F D E S2) as (y2 & R2 & Q2 & _). congruence.
Qed.
Print Assumptions C111_orders_alike.

(** The order counts for types that do not fit because they read named fields by position ... *)
Theorem C111_position_refuted : exists t u x v (w : value unit) y y', well_named t /\ well_named u /\ data_of t x /\ to_value t x = Ok v /\ shuffled v w /\ from_value u v = Ok y /\ from_value u w = Ok y' /\ y <> y'.
Proof.
  exists (TyStruct [(s2l "a", TyInt false 8); (s2l "b", TyInt false 8)]), (TyTuple [TyInt false 8; TyInt false 8]), (XStruct [(s2l "a", XInt 1); (s2l "b", XInt 2)]), (named_composite [(s2l "a", vu128 1); (s2l "b", vu128 2)]),
    (named_composite [(s2l "b", vu128 2); (s2l "a", vu128 1)]), (XTuple [XInt 1; XInt 2]), (XTuple [XInt 2; XInt 1]).
  split; [cbn; repeat split; repeat constructor; cbn; intuition discriminate|]. split; [cbn; auto|]. split; [constructor; repeat constructor; cbn; lia|]. split; [vm_compute; reflexivity|].
  split; [|split; [vm_compute; reflexivity|split; [vm_compute; reflexivity|discriminate]]].
  constructor. eapply FS_named; [apply perm_swap|reflexivity|]. cbn [map snd]. repeat constructor.
Qed.
Print Assumptions C111_position_refuted.

(** ... and for [Value] itself, which keeps the order. *)
Theorem C111_value_refuted : exists (v w : value unit) y y', shuffled v w /\ from_value TyValue v = Ok y /\ from_value TyValue w = Ok y' /\ y <> y'.
Proof.
  exists (named_composite [(s2l "a", vu128 1); (s2l "b", vu128 2)]), (named_composite [(s2l "b", vu128 2); (s2l "a", vu128 1)]). eexists _, _.
  split; [constructor; eapply FS_named; [apply perm_swap|reflexivity|]; cbn [map snd]; repeat constructor|]. split; [vm_compute; reflexivity|]. split; [vm_compute; reflexivity|]. discriminate.
Qed.
Print Assumptions C111_value_refuted.

(** ** Non-vacuity: the message of C95, with a nested struct, reordered at both levels. *)
Definition inner (t1 t2 : ty) : ty := TyStruct [(s2l "lo", t1); (s2l "hi", t2)].
Definition order_from : ty := TyEnum [ (s2l "Pay", VsStruct [(s2l "to", TyChar); (s2l "range", TyVec (inner (TyInt false 8) (TyInt false 16))); (s2l "tags", TyMap TyBool)]) ].
Definition order_to : ty := TyEnum
  [ (s2l "Stop", VsUnit); (s2l "Pay", VsStruct [(s2l "tags", TyMap TyBool); (s2l "range", TyVec (inner (TyInt true 32) (TyInt false 16))); (s2l "fee", TyOption TyBool); (s2l "to", TyString)]) ].
Definition order_data : data := XEnum (s2l "Pay") (VsStruct
  [(s2l "to", XChar 65); (s2l "range", XVec [XStruct [(s2l "lo", XInt 1); (s2l "hi", XInt 300)]]); (s2l "tags", XMap [(s2l "x", XBool true); (s2l "y", XBool false)])]).
Definition order_shuffled : value N := Val (DVariant (s2l "Pay") (Named
  [ (s2l "tags", Val (DComposite (Named [(s2l "y", Val (DPrim (PBool false)) 1); (s2l "x", Val (DPrim (PBool true)) 2)])) 3);
    (s2l "to", Val (DPrim (PChar 65)) 4);
    (s2l "range", Val (DComposite (Unnamed [Val (DComposite (Named [(s2l "hi", Val (DPrim (PU128 300)) 5); (s2l "lo", Val (DPrim (PU128 1)) 6)])) 7])) 8) ])) 9.
Example C111_non_vacuous :
  well_named order_from /\ well_named order_to /\ fits order_from order_to /\ data_of order_from order_data /\
  (exists v, to_value order_from order_data = Ok v /\ shuffled v order_shuffled) /\
  from_value order_to order_shuffled = Ok (XEnum (s2l "Pay") (VsStruct
    [(s2l "tags", XMap [(s2l "x", XBool true); (s2l "y", XBool false)]); (s2l "range", XVec [XStruct [(s2l "lo", XInt 1); (s2l "hi", XInt 300)]]); (s2l "fee", XNone); (s2l "to", XString [65])])).
Proof.
  split; [cbn; repeat split; repeat constructor; cbn; intuition discriminate|]. split; [cbn; repeat split; repeat constructor; cbn; intuition discriminate|].
  split; [|split; [|split]].
  - apply F_enum. constructor; [|constructor]. cbn [fst snd]. eexists. split; [cbn; right; left; reflexivity|]. apply Bf_struct. constructor. constructor; [|constructor; [|constructor; [|constructor; [|constructor]]]]; cbn [fst snd].
    + left. eexists. split; [cbn; right; right; left; reflexivity|]. eapply F_map; [left; reflexivity|constructor].
    + left. eexists. split; [cbn; right; left; reflexivity|]. apply F_vec, F_struct. constructor. constructor; [|constructor; [|constructor]]; cbn [fst snd].
      * left. eexists. split; [cbn; left; reflexivity|]. apply F_int; [right|]; repeat split; reflexivity.
      * left. eexists. split; [cbn; right; left; reflexivity|]. apply F_int; [left; split; [reflexivity|discriminate]|reflexivity].
    + right. split; [cbn; intuition discriminate|eauto].
    + left. eexists. split; [cbn; left; reflexivity|]. apply F_char_string.
  - eapply D_enum_struct; [cbn; left; reflexivity|]. constructor; [|constructor; [|constructor; [|constructor]]]; cbn [fst snd]; (split; [reflexivity|]).
    + constructor.
    + constructor. constructor; [|constructor]. constructor. constructor; [|constructor; [|constructor]]; (split; [reflexivity|]); constructor; cbn; lia.
    + constructor; [|repeat constructor]. constructor; [|constructor; [|constructor]].
      * intros k' x' [E|[]]. injection E as <- <-. exists []. right. eexists _, _, _, _. split; [reflexivity|]. split; [reflexivity|reflexivity].
      * intros k' x' [].
  - eexists. split; [vm_compute; reflexivity|]. constructor. eapply FS_named with (l' := [(s2l "tags", _); (s2l "to", _); (s2l "range", _)]);
      [eapply perm_trans; [apply perm_skip, perm_swap|apply perm_swap]|reflexivity|]. cbn [map snd].
    constructor; [|constructor; [|constructor; [|constructor]]].
    + constructor. eapply FS_named; [apply perm_swap|reflexivity|]. cbn [map snd]. repeat constructor.
    + constructor.
    + constructor. constructor. constructor; [|constructor]. constructor. eapply FS_named; [apply perm_swap|reflexivity|]. cbn [map snd]. repeat constructor.
  - vm_compute. reflexivity.
Qed.
