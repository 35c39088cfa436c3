(** * Props_Same: C64 (encoding never changes the data) *)
From Verif Require Import Base Value ValueFacts Registry Spec_Scale Scale ScaleFacts Decode DecodeFacts DecodeMore Encode EncodeFacts Spec_Encode LenFacts EncodeSound EncodeComplete EncodeWrap EncodeMore
  Spec_Same EncodeSame Demo Props_Decode Props_Encode.
Open Scope N_scope.

(** Whatever shape the value has: if it is encoded at all, decoding the bytes gives a value with the same data ([same], Spec_Same.v). *)
Theorem C64_same_data : forall TId T (reg : TId -> resolution TId) X F (v : value T) t out out',
  reg_ok reg -> names_uniform reg -> small (x_maxbits X) v -> encode reg X F v t out = (SOk, out') ->
  exists b w, out' = out ++ b /\ decodes reg X (fun t => t) t b w [] /\ same v w.
Proof.
  intros TId T reg X F v t out out' OK NU SM H. apply (encode_same reg X F (fun t => t) OK NU v SM) in H as (b & w & -> & E & HS). exists b, w. split; [reflexivity|].
  split; [|exact HS]. apply enc_at_x in E. apply (decode_complete reg X (fun t => t) true) in E as [f0 H]. exists f0. specialize (H f0 (le_n _) []). rewrite app_nil_r in H. exact H.
Qed.
Print Assumptions C64_same_data.

(** The same for [encode_as_fields]. *)
Theorem C64_fields_same_data : forall TId T (reg : TId -> resolution TId) X F (c : composite (value T)) ctx fs out out',
  reg_ok reg -> names_uniform reg -> all_or_none fs -> small (x_maxbits X) (Val (DComposite c) ctx) ->
  encode_as_fields reg X F (Val (DComposite c) ctx) fs out = (SOk, out') ->
  exists b cmp, out' = out ++ b /\ (exists fuel, decode_as_fields reg X (fun t => t) fuel fs b = Ok (cmp, [])) /\ fields_like same c cmp.
Proof.
  intros TId T reg X F c ctx fs out out' OK NU AN SM H. inversion SM as [? ? Hd Hc]; subst.
  apply (as_fields_same reg X F (fun t => t) OK NU c Hc fs out out' AN) in H as (b & vs & cmp & -> & E & Sh & FL). exists b, cmp. split; [reflexivity|].
  split; [|exact FL]. apply encs_at_x in E. apply (proj2 (decode_complete_mut reg X (fun t => t) true)) in E as [f0 H]. exists f0. apply visit_composite_iff.
  exists vs. split; [|exact Sh]. specialize (H f0 (le_n _) []). rewrite app_nil_r in H. exact H.
Qed.
Print Assumptions C64_fields_same_data.

(** What comes back is a fixed point: it encodes to the very same bytes. *)
Theorem C64_normal_form : forall TId T (reg : TId -> resolution TId) X F (v : value T) t out out',
  reg_ok reg -> names_uniform reg -> rt_ok reg X -> small (x_maxbits X) v -> encode reg X F v t out = (SOk, out') ->
  exists b w, out' = out ++ b /\ decodes reg X (fun t => t) t b w [] /\ same v w /\ encodes reg X w t b.
Proof.
  intros TId T reg X F v t out out' OK NU RT SM H. apply (encode_same reg X F (fun t => t) OK NU v SM) in H as (b & w & -> & E & HS). exists b, w. split; [reflexivity|].
  destruct (C24_reencode_exact TId TId reg X (fun t => t) t w b RT E) as [D EN]. auto.
Qed.
Print Assumptions C64_normal_form.

(** ** [same] is not vacuous *)
(** Leaves carry the same data only if they are equal up to signedness, char as code, 256-bit numbers with the same bytes. *)
Theorem C64_same_leaves : forall T C (x : T) (y : C) p q, same (Val (DPrim p) x) (Val (DPrim q) y) <->
  match p, q with
  | PBool a, PBool b => a = b
  | PString a, PString b => a = b
  | PChar a, PChar b => a = b
  | PChar a, PU128 n => a = n
  | PChar a, PI128 z => z = Z.of_N a
  | PU128 a, PU128 b => a = b
  | PI128 a, PI128 b => a = b
  | PU128 a, PI128 b | PI128 b, PU128 a => b = Z.of_N a
  | PU256 a, PU256 b | PU256 a, PI256 b | PI256 a, PU256 b | PI256 a, PI256 b => a = b
  | _, _ => False
  end.
Proof.
  intros T C x y p q. split.
  - intro H. inversion H as [a b z ? ? I1 I2| | | | |a b l ? ? I1 I2| | | | | | |]; subst; try reflexivity.
    + destruct I1 as [(m & -> & ->)| ->], I2 as [(m' & -> & E)|E]; try subst; try reflexivity.
      apply N2Z.inj in E. exact E.
    + match goal with I : is_integer _ _ |- _ => destruct I as [(m & -> & E)| ->]; [apply N2Z.inj in E; exact E|reflexivity] end.
    + destruct p, q; cbn in I1, I2; congruence.
  - destruct p, q; try contradiction; intro H; subst.
    all: first [apply Same_bool|apply Same_string|apply Same_char|apply Same_code; right; reflexivity|apply Same_code; left; eexists; split; reflexivity|eapply Same_256; reflexivity|idtac].
    + eapply Same_integer; left; eexists; split; reflexivity.
    + eapply Same_integer; [left; eexists; split; reflexivity|right; reflexivity].
    + eapply Same_integer; [right; reflexivity|left; eexists; split; reflexivity].
    + eapply Same_integer; right; reflexivity.
Qed.
Print Assumptions C64_same_leaves.

Example C64_demo_uniform : names_uniform demo_rt.
Proof.
  split.
  - intros t fs R. do 31 (destruct t as [|t]; [first [discriminate R|injection R as <-; first [left; cbn; intuition (subst; reflexivity)|right; cbn; intuition (subst; discriminate)]]|]). discriminate.
  - intros t vs v R HI. do 31 (destruct t as [|t]; [first [discriminate R|injection R as <-; cbn in HI; destruct HI as [<-|[<-|[]]]; cbn [vi_fields];
      first [left; cbn; intuition (subst; reflexivity)|right; cbn; intuition (subst; discriminate)]]|]). discriminate.
Qed.
(** Fields in the wrong order, with one too many, a number in a wrapper: the data is the same. *)
Example C64_reordered :
  let v := named_composite [(s2l "b", unnamed_composite [vu128 1; unnamed_composite [vi128 2]]); (s2l "z", vbool true); (s2l "a", vu128 7)] in
  let w := named_composite [(s2l "a", vu128 7); (s2l "b", unnamed_composite [vu128 1; vu128 2])] in
  encode demo_rt xdemo 9 v 4%nat [] = (SOk, [7; 8; 1; 2]) /\ decodes demo_rt xdemo (fun _ => tt) 4%nat [7; 8; 1; 2] w [] /\ same v w /\ small (x_maxbits xdemo) v.
Proof.
  cbv zeta. split; [reflexivity|]. split; [exists 5%nat; reflexivity|]. split.
  - apply Same_composite. left. eexists _, _. split; [reflexivity|]. split; [reflexivity|]. constructor; [|constructor; [|constructor]].
    + eexists. split; [eexists [_; _], []; split; [reflexivity|intros []]|]. eapply Same_integer; left; eauto.
    + eexists. split; [eexists [], [_; _]; split; [reflexivity|cbn; intuition discriminate]|]. apply Same_composite. right. split; [discriminate|].
      constructor; [eapply Same_integer; left; eauto|]. constructor; [|constructor]. eapply Same_unwrapped; [reflexivity|].
      eapply (Same_integer _ _ 2%Z); [right; reflexivity|left; exists 2; split; reflexivity].
  - repeat constructor; cbn; try lia; intros bs H; inversion H; subst; try (match goal with Hb : is_bit _ _ |- _ => inversion Hb end);
      repeat match goal with Hb : Forall2 _ _ _ |- _ => inversion Hb; clear Hb; subst end; cbn; lia.
Qed.
(** Different data is not related. *)
Example C64_different : ~ same (T := unit) (C := unit) (unnamed_composite [vu128 1; vu128 2]) (unnamed_composite [vu128 2; vu128 1]).
Proof.
  intro H. inversion H as [| | | | | | | | |c c' x y FL| |c v w x E HS|v c w y E HS]; subst; try discriminate.
  destruct FL as [(l & l' & E & _)|[_ F2]]; [discriminate|]. cbn [values] in F2. inversion F2 as [|? ? ? ? H1 _]; subst.
  apply C64_same_leaves in H1. discriminate.
Qed.
