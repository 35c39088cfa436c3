(** * Props_Loc: C65 (the location an encode error reports) *)
From Verif Require Import Base Value ValueFacts Registry Spec_Scale Scale Encode Spec_Encode Spec_Same Spec_Loc EncodeLoc LocFacts Demo.
Open Scope N_scope.

(** [encode_l] is the encoder of the other theorems together with the path of the error it returns. *)
Theorem C65_same_encoder : forall TId T (reg : TId -> resolution TId) X F (v : value T) t out,
  fst (encode_l reg X F v t out) = encode reg X F v t out.
Proof. intros. apply erase_encode_l. Qed.
Print Assumptions C65_same_encoder.

(** The path of an error leads, through fields and elements that exist in the value and in the type, to a value [w] meant
    to have type [t'] that is refused there with this very error; see [leads] and [culprit]. *)
Theorem C65_path_leads_to_culprit : forall TId T (reg : TId -> resolution TId) X F (v : value T) t out e o p,
  encode_l reg X F v t out = ((SErr e, o), p) ->
  exists p1 p2 w t', p = p1 ++ p2 /\ leads reg v t p1 w t' /\ culprit reg X F w t' e p2.
Proof. intros TId T reg X F v t out e o p H. exact (encode_l_blames reg X F v t out e o p H). Qed.
Print Assumptions C65_path_leads_to_culprit.

(** If the value contains no composite with exactly one value, the path can be followed literally, step by step, to a value
    inside it, or to one of the 32 bytes of a 256-bit number inside it. *)
Theorem C65_literal_path : forall TId T (reg : TId -> resolution TId) X F (v : value T) t out e o p, no_single v ->
  encode_l reg X F v t out = ((SErr e, o), p) ->
  (exists w, follows v p w) \/
  (exists p1 i w q b, p = p1 ++ [LIdx i] /\ follows v p1 w /\ vdef_of w = DPrim q /\ bytes_of_256 q = Some b /\ (i < length b)%nat).
Proof.
  intros TId T reg X F v t out e o p NS H. apply (encode_l_blames reg X F v) in H as (p1 & p2 & w & t' & -> & L & C).
  apply leads_follows in L; [|exact NS]. destruct C as [out' o' _|c st od i x HV _ _ HN _ _|q b u t'' i n out' o' HV HB _ _ HN _ _].
  - left. exists w. now rewrite app_nil_r.
  - left. exists x. clear NS. induction L as [v|v c' l j y p w HI HC L IH].
    + eapply Fo_step; [unfold inside; rewrite HV; reflexivity|constructor; exact HN|constructor].
    + eapply Fo_step; [exact HI|exact HC|apply IH; exact HV].
  - right. exists p1, i, w, q, b. repeat split; auto. apply nth_error_Some. congruence.
Qed.
Print Assumptions C65_literal_path.

(** In general it cannot: peeling off a composite with one value leaves no trace in the path.  [((1, "x"))] encoded as [u8, bool]
    is refused at index 1, and the outer composite has no index 1. *)
Definition wrapped_pair : value unit := unnamed_composite [unnamed_composite [vu128 1; vstring (s2l "x")]].
Theorem C65_literal_path_refuted : forall X F, (4 <= F)%nat -> exists out,
  encode_l demo X F wrapped_pair 9%nat [] = ((SErr XWrongShape, out), [LIdx 1]) /\ (forall p w, ~ follows wrapped_pair (LIdx 1 :: p) w) /\
  leads demo wrapped_pair 9%nat [LIdx 1] (vstring (s2l "x")) 2%nat.
Proof.
  intros X F HF. exists []. split; [|split].
  - do 4 (destruct F as [|F]; [lia|]). reflexivity.
  - intros p w H. inversion H as [|v c l i x p' w' HI HC HL]; subst. injection HI as <-. inversion HC as [i' x' HN|]; subst. discriminate.
  - eapply Le_value; [reflexivity|]. eapply Le_step; [reflexivity|apply NC_idx; reflexivity| |constructor].
    eapply Pa_position; [eapply HF_tuple; reflexivity|reflexivity].
Qed.
Print Assumptions C65_literal_path_refuted.

(** ** Non-vacuity *)
Definition entry (y : value unit) : value unit :=
  named_composite [(s2l "e", variant (s2l "B") (Named [(s2l "x", vbool true); (s2l "y", y)])); (s2l "t", unnamed_composite [vu128 1; vbool true])].
(** A number too large, deep inside. *)
Definition deep : value unit := unnamed_composite [entry (unnamed_composite [vu128 1; vu128 2]); entry (unnamed_composite [vu128 1; vu128 2; vu128 300])].
Ltac ns := constructor;
  [intros ? ? E; first [discriminate E|injection E as <-; discriminate]
  |intros ? E; first [discriminate E|injection E as <-; cbn [values map snd]; repeat (apply Forall_cons; [ns|]); apply Forall_nil]].
Example deep_no_single : no_single deep.
Proof. unfold deep, entry, unnamed_composite, named_composite, variant, vu128, vbool. ns. Qed.
Example C65_deep : encode_l demo xdemo 5 deep 26%nat [] = ((SErr XOutOfRange, []), [LIdx 1; LField (s2l "e"); LField (s2l "y"); LIdx 2]).
Proof. vm_compute. reflexivity. Qed.
Example C65_deep_led : exists p1 p2 w t', [LIdx 1; LField (s2l "e"); LField (s2l "y"); LIdx 2] = p1 ++ p2 /\ leads demo deep 26%nat p1 w t' /\ culprit demo xdemo 5 w t' XOutOfRange p2.
Proof. exact (C65_path_leads_to_culprit _ _ demo xdemo 5 deep 26%nat [] _ _ _ C65_deep). Qed.
(** A bit sequence and a 256-bit number. *)
Example C65_bits : encode_l demo xdemo 5 (unnamed_composite [vu128 1; vbool false; vu128 2]) 10%nat [] = ((SErr XBadBit, []), [LIdx 2]).
Proof. vm_compute. reflexivity. Qed.
Example C65_bytes : encode_l demo xdemo 5 (Val (DPrim (PU256 (repeat 7 32))) tt) 24%nat [] = ((SErr XWrongShape, [128]), [LIdx 0]).
Proof. vm_compute. reflexivity. Qed.
