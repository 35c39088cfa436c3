(** * Props_Writes: C77 (the complete rules of encoding) *)
From Verif Require Import Base Value ValueFacts Registry Spec_Scale Scale Encode EncodeFacts EncodeTerm Spec_Encode EncodeSound EncodeComplete EncodeMore EncodeWrap
  Spec_Same Spec_Writes WritesFacts BracketFacts Demo Props_Encode.
Open Scope N_scope.

(** In all theorems: no type is a wrapper around itself (true of Rust types), and the primitives in the value are what Rust can hold. *)

(** Encoding succeeds with exactly the bytes the rules of Spec_Writes.v say. *)
Theorem C77_encode_exact : forall TId T (reg : TId -> resolution TId) X (v : value T) t out out',
  (forall t, Acc (fun t' t => wraps reg t t') t) -> all_nodes (fun d => match d with DPrim p => prim_wf p = true | _ => True end) v ->
  ((exists F, encode reg X F v t out = (SOk, out')) <-> exists b, out' = out ++ b /\ writes reg X v t b).
Proof.
  intros TId T reg X v t out out' WF HV. split.
  - intros [F H]. apply encode_ok_encodes in H as (b & -> & E). exists b. split; [reflexivity|]. apply (writes_iff reg X WF v HV), E.
  - intros (b & -> & W). apply (writes_iff reg X WF v HV) in W as [F H]. exists F. apply H.
Qed.
Print Assumptions C77_encode_exact.

(** Encoding succeeds exactly for the values that fit the type, and fails with an error for all others. *)
Theorem C77_accepts : forall TId T (reg : TId -> resolution TId) X (v : value T) t out,
  (forall t, Acc (fun t' t => wraps reg t t') t) -> all_nodes (fun d => match d with DPrim p => prim_wf p = true | _ => True end) v ->
  ((exists F out', encode reg X F v t out = (SOk, out')) <-> fits reg X v t) /\
  ((exists F e out', encode reg X F v t out = (SErr e, out')) <-> ~ fits reg X v t).
Proof.
  intros TId T reg X v t out WF HV.
  assert (A : (exists F out', encode reg X F v t out = (SOk, out')) <-> fits reg X v t).
  { rewrite <- (fits_iff reg X WF v HV t). split.
    - intros (F & out' & H). apply encode_ok_encodes in H as (b & _ & E). eauto.
    - intros (b & F & H). exists F. eauto. }
  split; [exact A|]. rewrite <- A. split.
  - intros (F & e & out' & H) (F' & out2 & H'). destruct (Nat.le_ge_cases F F') as [L|L].
    + rewrite (encode_fuel_mono reg X F F' v t out L) in H' by (rewrite H; discriminate). congruence.
    + rewrite (encode_fuel_mono reg X F' F v t out L) in H by (rewrite H'; discriminate). congruence.
  - intro N. destruct (C31_encode_terminates TId T reg X v t WF) as [F H]. specialize (H out). exists F. destruct (encode reg X F v t out) as [[|e|] o] eqn:E; cbn [fst] in H; [|eauto|contradiction].
    exfalso. apply N. eauto.
Qed.
Print Assumptions C77_accepts.

(** The same for [encode_as_fields]: a composite is written by the rule for fields; anything else is refused. *)
Theorem C77_fields_exact : forall TId T (reg : TId -> resolution TId) X (v : value T) fs out out',
  (forall t, Acc (fun t' t => wraps reg t t') t) -> all_nodes (fun d => match d with DPrim p => prim_wf p = true | _ => True end) v ->
  ((exists F, encode_as_fields reg X F v fs out = (SOk, out')) <->
   exists c ctx b, v = Val (DComposite c) ctx /\ out' = out ++ b /\ fields (writes reg X) c fs b).
Proof.
  intros TId T reg X v fs out out' WF HV. destruct v as [d x]. inversion HV as [? ? Hd Hc]; subst.
  assert (EQ : forall c b, children d = values c -> (fields (fun v t b => encodes reg X v t b) c fs b <-> fields (writes reg X) c fs b)).
  { intros c b EC. rewrite EC in Hc. split; apply fields_impl; apply Forall_forall; intros v Hv t b0; eapply Forall_forall in Hc; eauto; apply (writes_iff reg X WF v Hc). }
  split.
  - intros [F H]. destruct d as [c|n c|bits|p]; try discriminate. unfold encode_as_fields, encode_composite_as_fields in H. cbn [vdef_of] in H. apply (fields_run reg X F c fs) in H as (b & -> & P).
    exists c, x, b. split; [reflexivity|]. split; [reflexivity|]. apply EQ; [reflexivity|exact P].
  - intros (c & ctx & b & [= -> _] & -> & P). apply (EQ c b eq_refl) in P. apply (fields_runs reg X) in P as [F0 H]. exists F0. unfold encode_as_fields, encode_composite_as_fields. cbn [vdef_of]. apply H. lia.
Qed.
Print Assumptions C77_fields_exact.

(** The two relations fit together: what fits is written in exactly one way. *)
Theorem C77_one_way : forall TId T (reg : TId -> resolution TId) X (v : value T) t,
  (forall t, Acc (fun t' t => wraps reg t t') t) -> all_nodes (fun d => match d with DPrim p => prim_wf p = true | _ => True end) v ->
  (fits reg X v t <-> exists b, writes reg X v t b) /\ (forall b b', writes reg X v t b -> writes reg X v t b' -> b = b').
Proof.
  intros TId T reg X v t WF HV. split.
  - rewrite <- (fits_iff reg X WF v HV t). split; intros [b H]; exists b; apply (writes_iff reg X WF v HV); exact H.
  - intros b b' H H'. apply (writes_iff reg X WF v HV) in H. apply (writes_iff reg X WF v HV) in H'. eapply encodes_fun; eauto.
Qed.
Print Assumptions C77_one_way.

(** ** Examples *)
(** A named composite at [struct { e: enum, t: (u8, bool) }], in the other order and with a field too many. *)
Example C77_demo : writes demo_rt xdemo
  (named_composite [(s2l "t", unnamed_composite [vu128 3; vbool false]); (s2l "z", vu128 1); (s2l "e", unnamed_variant (s2l "A") [vu128 9])]) 23%nat [0; 9; 3; 0].
Proof.
  assert (U8 : forall n, n < 256 -> writes demo_rt xdemo (vu128 n) 0%nat [n]).
  { intros n Hn. apply Wr_leaf. eapply L_number; [left; eauto|]. eapply (N_uint _ _ _ _ 0%nat W8); [constructor|reflexivity|split; [lia|]; change (2 ^ Z.of_N (int_bits W8))%Z with 256%Z; lia|].
    rewrite N2Z.id. split; [repeat constructor; exact Hn|]. split; [reflexivity|]. cbn. lia. }
  apply Wr_directly. eapply D_struct with (u := 23%nat); [left; eexists; reflexivity| |].
  - split; [constructor|]. intros w W. inversion W as [? ? R|? ? R]; subst; discriminate.
  - eapply S_struct; [reflexivity|discriminate|]. eapply F_by_name with (vs := [unnamed_variant (s2l "A") [vu128 9]; unnamed_composite [vu128 3; vbool false]]); [discriminate|eexists; split; [left; reflexivity|discriminate]| |].
    + constructor; [|constructor; [|constructor]].
      * exists [(s2l "t", unnamed_composite [vu128 3; vbool false]); (s2l "z", vu128 1)], []. split; [reflexivity|intros []].
      * exists [], [(s2l "z", vu128 1); (s2l "e", unnamed_variant (s2l "A") [vu128 9])]. split; [reflexivity|]. cbn. intros [H|[H|[]]]; discriminate.
    + cbn [map snd]. apply (I_cons _ _ _ 6%nat _ [0; 9] [3; 0]).
      * apply Wr_variant. exists 6%nat, [], 0, [(None, 0%nat)], [VInfo (s2l "B") 5 [(nm "x", 2%nat); (nm "y", 5%nat)]], [9].
        split; [constructor|]. split; [reflexivity|]. split; [intros []|]. split; [reflexivity|]. apply F_by_position; [discriminate|]. apply (I_cons _ _ _ 0%nat _ [9] []); [apply U8; reflexivity|constructor].
      * apply (I_cons _ _ _ 9%nat _ [3; 0] []); [|constructor]. apply Wr_directly. eapply D_struct with (u := 9%nat); [right; eexists; reflexivity| |].
        { split; [constructor|]. intros w W. inversion W as [? ? R|? ? R]; subst; discriminate. }
        eapply S_tuple; [reflexivity|discriminate|]. apply F_by_position; [discriminate|]. apply (I_cons _ _ _ 0%nat _ [3] [0]); [apply U8; reflexivity|].
        apply (I_cons _ _ _ 2%nat _ [0] []); [|constructor]. apply Wr_leaf. apply (L_bool _ _ false 2%nat 2%nat); [constructor|reflexivity].
Qed.
(** The hypotheses hold for the demo registry, so the encoder writes these bytes. *)
Example C77_demo_encodes : exists F, encode demo_rt xdemo F
  (named_composite [(s2l "t", unnamed_composite [vu128 3; vbool false]); (s2l "z", vu128 1); (s2l "e", unnamed_variant (s2l "A") [vu128 9])]) 23%nat [7] = (SOk, [7; 0; 9; 3; 0]).
Proof. apply (C77_encode_exact nat unit demo_rt xdemo _ _ _ _ C31_demo_wf); [repeat constructor|]. exists [0; 9; 3; 0]. split; [reflexivity|exact C77_demo]. Qed.
(** A boolean does not fit a u8. *)
Example C77_demo_refuses : ~ fits demo_rt xdemo (vbool true) 0%nat.
Proof. apply (C77_accepts nat unit demo_rt xdemo _ 0%nat [] C31_demo_wf); [repeat constructor|]. exists 9%nat. do 2 eexists. reflexivity. Qed.

(** ** Brackets *)
(** A composite with one value, named or not, around a primitive, a bit sequence or a variant is written wherever the value inside is,
    and as the same bytes. *)
Theorem C77_brackets : forall TId T (reg : TId -> resolution TId) X (d : vdef (value T)) (x x' : T) c t out out' F,
  (forall t, Acc (fun t' t => wraps reg t t') t) -> all_nodes (fun d => match d with DPrim p => prim_wf p = true | _ => True end) (Val d x) ->
  (forall c, d <> DComposite c) -> values c = [Val d x] ->
  encode reg X F (Val d x) t out = (SOk, out') -> exists F', encode reg X F' (Val (DComposite c) x') t out = (SOk, out').
Proof.
  intros TId T reg X d x x' c t out out' F WF HV ND EV E.
  assert (HC : all_nodes (fun d => match d with DPrim p => prim_wf p = true | _ => True end) (Val (DComposite c) x')).
  { constructor; [exact I|]. cbn [children]. rewrite EV. constructor; [exact HV|constructor]. }
  assert (W : exists b, out' = out ++ b /\ writes reg X (Val d x) t b) by (apply (C77_encode_exact _ _ reg X _ t out out' WF HV); eauto).
  destruct W as (b & -> & W). apply (C77_encode_exact _ _ reg X _ t out (out ++ b) WF HC). exists b. split; [reflexivity|].
  apply (brackets reg X WF c x' (Val d x) t b HV); [|exact EV|exact W].
  inversion HV as [? ? Hd _]; subst. destruct d; [exfalso; eapply ND; reflexivity|exact Hd..].
Qed.
Print Assumptions C77_brackets.
(** A variant, behind a named field, at the enum. *)
Example C77_demo_brackets : exists F, encode demo_rt xdemo F (named_composite [(s2l "k", unnamed_variant (s2l "A") [vu128 9])]) 6%nat [] = (SOk, [0; 9]).
Proof.
  apply (C77_brackets nat unit demo_rt xdemo (DVariant (s2l "A") (Unnamed [vu128 9])) tt tt (Named [(s2l "k", unnamed_variant (s2l "A") [vu128 9])]) 6%nat [] [0; 9] 9%nat C31_demo_wf);
    [repeat constructor|discriminate|reflexivity|reflexivity].
Qed.

(** Around a composite, brackets can make a value impossible to encode; and what fits a struct need not fit a one-field struct around it. *)
Definition nested_reg (t : nat) : resolution nat :=
  match t with
  | 0%nat => ResTy (TPrim (PtU W8))
  | 1%nat => ResTy (TComposite [(nm "a", 0%nat)])    (* struct A { a: u8 } *)
  | 2%nat => ResTy (TArray 1%nat 1)                  (* [A; 1] *)
  | 3%nat => ResTy (TComposite [(nm "b", 1%nat)])    (* struct B { b: A } *)
  | _ => ResNotFound
  end.
Lemma nested_wf : forall t, Acc (fun t' t => wraps nested_reg t t') t.
Proof.
  assert (W : forall t u, wraps nested_reg t u -> (t = 1 /\ u = 0)%nat \/ (t = 2 /\ u = 1)%nat \/ (t = 3 /\ u = 1)%nat).
  { intros t u W. inversion W as [? ? [? n ? R|? ? R]|? ? R]; subst; do 4 (destruct t as [|t]; [try discriminate R; try (injection R; intros; subst); auto|]); discriminate. }
  assert (A0 : Acc (fun t' t => wraps nested_reg t t') 0%nat) by (constructor; intros u H; apply W in H; lia).
  assert (A1 : Acc (fun t' t => wraps nested_reg t t') 1%nat) by (constructor; intros u H; apply W in H; assert (u = O) by lia; subst; exact A0).
  intro t. constructor. intros u H. apply W in H as [[_ ->]|[[_ ->]|[_ ->]]]; assumption.
Qed.
Theorem C77_brackets_composite_refuted : exists (reg : nat -> resolution nat) X (v : value unit) t,
  (forall t, Acc (fun t' t => wraps reg t t') t) /\
  fits reg X v t /\ ~ fits reg X (unnamed_composite [v]) t.
Proof.
  exists nested_reg, xdemo, (named_composite [(s2l "k", named_composite [(s2l "a", vu128 5); (s2l "c", vu128 6)])]), 2%nat.
  split; [exact nested_wf|]. split.
  - apply (C77_accepts nat unit nested_reg xdemo _ 2%nat [] nested_wf); [repeat constructor|]. exists 9%nat. eexists. reflexivity.
  - apply (C77_accepts nat unit nested_reg xdemo _ 2%nat [] nested_wf); [repeat constructor|]. exists 9%nat. do 2 eexists. reflexivity.
Qed.
Print Assumptions C77_brackets_composite_refuted.
Theorem C77_wrapper_refuted : exists (reg : nat -> resolution nat) X (v : value unit) t t',
  (forall t, Acc (fun t' t => wraps reg t t') t) /\ wraps reg t t' /\
  fits reg X v t' /\ ~ fits reg X v t.
Proof.
  exists nested_reg, xdemo, (named_composite [(s2l "a", vu128 5); (s2l "c", vu128 6)]), 3%nat, 1%nat.
  split; [exact nested_wf|]. split; [apply W_one; eapply W_struct; reflexivity|]. split.
  - apply (C77_accepts nat unit nested_reg xdemo _ 1%nat [] nested_wf); [repeat constructor|]. exists 9%nat. eexists. reflexivity.
  - apply (C77_accepts nat unit nested_reg xdemo _ 3%nat [] nested_wf); [repeat constructor|]. exists 9%nat. do 2 eexists. reflexivity.
Qed.
Print Assumptions C77_wrapper_refuted.
