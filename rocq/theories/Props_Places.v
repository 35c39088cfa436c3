(** * Props_Places: C112 (parts of Rust data are found and replaced in its value) *)
From Verif Require Import Base Value Spec_Value ValueFacts Scale Spec_Scale Serde Spec_Serde Spec_Maps Spec_Reads ReadsFacts Spec_ToValue ToValueFacts Spec_Convert ConvertFacts Spec_Places PlacesFacts
  Props_Value Props_Serde Props_Reads Props_ToValue Props_Convert.
Local Open Scope N_scope.

(** A part of the data is found in the value at the place that has its names and positions: there is the value of the part. *)
Theorem C112_parts : forall t x p s y v, well_named t -> data_of t x -> part t x x p s y y -> to_value t x = Ok v ->
  exists w, at_path v p = Some w /\ to_value s y = Ok w.
Proof.
  intros t x p s y v W D P E. destruct (C94_to_value t x W D) as (v' & E' & H). rewrite E in E'. injection E' as <-.
  destruct (part_written _ _ _ _ _ _ _ P W D v (proj2 (H v) eq_refl)) as (WS & DS & _ & w & WW & LP & _). exists w. split; [now apply C02_at_path|]. now apply C94_rules_suffice.
Qed.
Print Assumptions C112_parts.

(** So it can be read on its own, as its type or as any type that fits it. *)
Theorem C112_read_part : forall t x p s y v, well_named t -> data_of t x -> part t x x p s y y -> to_value t x = Ok v ->
  exists w, at_path v p = Some w /\ (ty_wf s -> of_type s y -> from_value s w = Ok y) /\
    (forall u, well_named u -> fits s u -> exists z, from_value u w = Ok z /\ converts s y u z).
Proof.
  intros t x p s y v W D P E. destruct (C112_parts t x p s y v W D P E) as (w & A & EW). exists w. split; [exact A|]. split.
  - intros TW OT. destruct (C40_round_trip s y TW OT) as (w' & E1 & E2). congruence.
  - intros u WU F. destruct (C94_to_value t x W D) as (v' & E' & H). rewrite E in E'. injection E' as <-. destruct (part_written _ _ _ _ _ _ _ P W D v (proj2 (H v) eq_refl)) as (WS & DS & _).
    destruct (C95_compatible_types s u WS WU F y DS) as (w' & z & E1 & E2 & _ & E3). rewrite EW in E1. injection E1 as <-. eauto.
Qed.
Print Assumptions C112_read_part.

(** Putting the value of other data of the part's type at that place gives the value of the changed data, and there is only one way to put it there. *)
Theorem C112_replace : forall t x x' p s y y' v w, well_named t -> data_of t x -> part t x x' p s y y' -> data_of s y' -> to_value t x = Ok v -> to_value s y' = Ok w ->
  data_of t x' /\ exists v', to_value t x' = Ok v' /\ forall v'', put v p w v'' <-> v'' = v'.
Proof.
  intros t x x' p s y y' v w W D P D' E EW. destruct (C94_to_value t x W D) as (v0 & E' & H). rewrite E in E'. injection E' as <-.
  destruct (part_written _ _ _ _ _ _ _ P W D v (proj2 (H v) eq_refl)) as (WS & DS & DX & _ & _ & _ & HP). split; [auto|]. destruct (C94_to_value s y' WS D') as (w0 & E0 & H0). rewrite EW in E0. injection E0 as <-.
  destruct (HP w (proj2 (H0 w) eq_refl)) as (v' & V' & PV). exists v'. split; [now apply C94_rules_suffice|]. intro v''. split; [|now intros ->]. intro PV'. eapply put_one; eassumption.
Qed.
Print Assumptions C112_replace.

(** Reading the edited value gives the changed data. *)
Theorem C112_edit_and_read : forall t x x' p s y y' v w v', well_named t -> data_of t x -> part t x x' p s y y' -> data_of s y' -> to_value t x = Ok v -> to_value s y' = Ok w -> put v p w v' ->
  (ty_wf t -> of_type t x' -> from_value t v' = Ok x') /\
  (forall u, well_named u -> fits t u -> exists z, from_value u v' = Ok z /\ converts t x' u z).
Proof.
  intros t x x' p s y y' v w v' W D P D' E EW PV. destruct (C112_replace t x x' p s y y' v w W D P D' E EW) as (DX & v0 & E0 & H). apply H in PV. subst v0. split.
  - intros TW OT. destruct (C40_round_trip t x' TW OT) as (v0 & E1 & E2). congruence.
  - intros u WU F. destruct (C95_compatible_types t u W WU F x' DX) as (v0 & z & E1 & E2 & _ & E3). rewrite E0 in E1. injection E1 as <-. eauto.
Qed.
Print Assumptions C112_edit_and_read.

(** [put] is what a client does who replaces what [at] finds: afterwards [at] finds the new value there, and putting the old one back undoes it. *)
Theorem C112_put : forall (T : Type) (v : value T) p w v', put v p w v' -> exists o, at_path v p = Some o /\ at_path v' p = Some w /\ put v' p o v.
Proof. intros T v p w v' H. destruct (put_lookup v p w v' H) as (o & H1 & H2 & H3). exists o. split; [now apply C02_at_path|]. split; [now apply C02_at_path|exact H3]. Qed.
Print Assumptions C112_put.

(** Inside data that is itself a [Value] places move: [to_value] writes a variant as a map of two entries (C42). *)
Theorem C112_value_refuted : exists (x v : value unit) a b, to_value TyValue (XValue x) = Ok v /\ at_path x [LIdx 0] = Some a /\ at_path v [LIdx 0] = Some b /\ a <> b.
Proof. exists (unnamed_variant (s2l "A") [vu128 1]). eexists _, _, _. split; [vm_compute; reflexivity|]. split; [vm_compute; reflexivity|]. split; [vm_compute; reflexivity|]. discriminate. Qed.
Print Assumptions C112_value_refuted.

(** ** Non-vacuity *)
Definition place_ty : ty := TyEnum [ (s2l "Stop", VsUnit); (s2l "Pay", VsStruct [(s2l "to", TyChar); (s2l "lots", TyVec (TyStruct [(s2l "id", TyInt false 32); (s2l "tag", TyOption (TyTuple [TyBool; TyString]))])); (s2l "by", TyMap (TyInt true 8))]) ].
Definition place_x (s : str) : data := XEnum (s2l "Pay") (VsStruct [(s2l "to", XChar 65);
  (s2l "lots", XVec [XStruct [(s2l "id", XInt 1); (s2l "tag", XNone)]; XStruct [(s2l "id", XInt 2); (s2l "tag", XSome (XTuple [XBool true; XString s]))]]); (s2l "by", XMap [(s2l "a", XInt (-1)); (s2l "b", XInt 5)])]).
Definition place_p : list location := [LStr (s2l "lots"); LIdx 1; LStr (s2l "tag"); LIdx 0; LIdx 1].
Example C112_named : well_named place_ty /\ ty_wf place_ty.
Proof.
  split.
  - cbn [well_named place_ty fold_right]. repeat split; repeat constructor; cbn; intuition discriminate.
  - cbn [ty_wf place_ty fold_right]. repeat split; cbn; auto 10; try (repeat constructor; cbn; intuition discriminate).
Qed.
Example C112_data s : data_of place_ty (place_x s).
Proof.
  eapply D_enum_struct; [cbn; right; left; reflexivity|]. constructor; [|constructor; [|constructor; [|constructor]]]; (split; [reflexivity|]); cbn [fst snd].
  - constructor.
  - constructor. constructor; [|constructor; [|constructor]]; constructor; (constructor; [|constructor; [|constructor]]); (split; [reflexivity|]); cbn [fst snd]; constructor; try (cbn; lia). constructor. constructor; [|constructor; [|constructor]]; constructor.
  - constructor; [|repeat (constructor; try (cbn; lia))]. constructor; [|constructor; [|constructor]].
    + intros k' x' [E|[]]. injection E as <- <-. exists []. right. eexists _, _, _, _. split; [reflexivity|]. split; [reflexivity|reflexivity].
    + intros k' x' [].
Qed.
Example C112_part s s' : part place_ty (place_x s) (place_x s') place_p TyString (XString s) (XString s').
Proof.
  unfold place_ty, place_x, place_p. eapply Pt_child.
  - eapply (Ch_enum_struct _ _ [_] (s2l "lots") _ [_] [_] [_]); [cbn; right; left; reflexivity|reflexivity|left; reflexivity].
  - eapply Pt_child; [apply (Ch_vec _ [_] [])|]. eapply Pt_child; [apply (Ch_struct [_] (s2l "tag") _ [] [_] []); [reflexivity|left; reflexivity]|].
    eapply Pt_child; [apply Ch_some|]. eapply Pt_child; [apply (Ch_tuple [_] _ [] [_] []); reflexivity|]. apply Pt_whole.
Qed.
Example C112_found : match to_value place_ty (place_x (s2l "hi")) with Ok v => at_path v place_p = Some (vstring (s2l "hi")) | Err _ => False end.
Proof. vm_compute. reflexivity. Qed.
Example C112_replaced : exists v v', to_value place_ty (place_x (s2l "hi")) = Ok v /\ put v place_p (vstring (s2l "bye")) v' /\ from_value place_ty v' = Ok (place_x (s2l "bye")).
Proof.
  destruct (C94_to_value _ _ (proj1 C112_named) (C112_data (s2l "hi"))) as (v & E & _).
  destruct (C112_replace _ _ _ _ _ _ _ v (vstring (s2l "bye")) (proj1 C112_named) (C112_data (s2l "hi")) (C112_part (s2l "hi") (s2l "bye")) (D_string _) E eq_refl) as (_ & v' & E' & P).
  exists v, v'. split; [exact E|]. split; [now apply P|]. 
  assert (K : match to_value place_ty (place_x (s2l "bye")) with Ok v0 => from_value place_ty v0 = Ok (place_x (s2l "bye")) | Err _ => False end) by (vm_compute; reflexivity).
  rewrite E' in K. exact K.
Qed.
