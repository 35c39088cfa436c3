(** * Props_Nested: C24 for lists inside several newtypes
    Vocabulary: [rt_ok], [nestable], [definite] (Spec_Encode); [encodes] (EncodeMore); [decodes] (Props_Decode); [rejected]
    (EncodeNested): with enough fuel the encoder returns an error. *)
From Verif Require Import Base Value ValueFacts Registry Spec_Scale Spec_Decode Spec_Encode Scale ScaleFacts.
From Verif Require Import Decode DecodeFacts Encode EncodeFacts EncodeSound EncodeNested EncodeComplete EncodeTerm EncodeMore EncodeCost Spec_Cost Demo Props_Decode Props_Encode.
Local Open Scope N_scope.

(** A registry as runtimes have them: struct Who(Bounded), struct Bounded(Vec<e>) around lists of bytes, of accounts
    (struct Account([u8; 32])), of (Vec<u8>, u32), of struct { name: Vec<u8>, kind: enum }, of Compact<u32>; and around [u8; 1]. *)
Definition chain_reg (t : nat) : resolution nat :=
  match t with
  | 0%nat => ResTy (TPrim (PtU W8)) | 1%nat => ResTy (TPrim (PtU W32))
  | 2%nat => ResTy (TArray 0%nat 32) | 3%nat => ResTy (TComposite [(None, 2%nat)])
  | 4%nat => ResTy (TSequence 0%nat)
  | 5%nat => ResTy (TTuple [4%nat; 1%nat])
  | 6%nat => ResTy (TVariant [VInfo (s2l "A") 0 []; VInfo (s2l "B") 1 [(None, 4%nat)]])
  | 7%nat => ResTy (TComposite [(Some (s2l "name"), 4%nat); (Some (s2l "kind"), 6%nat)])
  | 8%nat => ResTy (TCompact 1%nat)
  | 9%nat => ResTy (TSequence 3%nat) | 10%nat => ResTy (TSequence 5%nat) | 11%nat => ResTy (TSequence 7%nat) | 12%nat => ResTy (TSequence 8%nat)
  | 13%nat => ResTy (TArray 0%nat 1)
  | 14%nat => ResTy (TComposite [(None, 4%nat)]) | 15%nat => ResTy (TComposite [(None, 9%nat)]) | 16%nat => ResTy (TComposite [(None, 10%nat)])
  | 17%nat => ResTy (TComposite [(None, 11%nat)]) | 18%nat => ResTy (TComposite [(None, 12%nat)]) | 19%nat => ResTy (TComposite [(None, 13%nat)])
  | 20%nat => ResTy (TComposite [(None, 14%nat)]) | 21%nat => ResTy (TComposite [(None, 15%nat)]) | 22%nat => ResTy (TComposite [(None, 16%nat)])
  | 23%nat => ResTy (TComposite [(None, 17%nat)]) | 24%nat => ResTy (TComposite [(None, 18%nat)]) | 25%nat => ResTy (TComposite [(None, 19%nat)])
  | _ => ResNotFound
  end.
Lemma chain_reg_transparent t u : transparent chain_reg t u ->
  In (t, u) [(3, 2); (14, 4); (15, 9); (16, 10); (17, 11); (18, 12); (19, 13); (20, 14); (21, 15); (22, 16); (23, 17); (24, 18); (25, 19)]%nat.
Proof.
  intro H. inversion H as [? ? R|? ? R]; subst; do 26 (destruct t as [|t]; [try discriminate R; injection R as <-; cbn [In]; auto 20|]); discriminate.
Qed.
Lemma chain_reg_wf : finite_wrappers chain_reg.
Proof.
  assert (W : forall t u, wraps chain_reg t u -> (u < t)%nat).
  { intros t u H. inversion H as [? ? [? nm ? R|? ? R]|? ? R]; subst; do 26 (destruct t as [|t]; [try discriminate R; injection R; intros; subst; lia|]); discriminate. }
  intro t. induction (lt_wf t) as [t _ IH]. constructor. intros u H. apply IH, W, H.
Qed.
Example C24_nested_rt_ok : rt_ok chain_reg xdemo.
Proof.
  constructor.
  - intros t fs R. unfold names_ok. do 26 (destruct t as [|t]; [try discriminate R; try (injection R as <-; cbn; intro; repeat constructor; cbn; intuition discriminate)|]). discriminate.
  - intros t vs R. do 26 (destruct t as [|t]; [try discriminate R; try (injection R as <-; unfold names_ok; cbn; repeat constructor; cbn; intuition (try discriminate); repeat constructor; cbn; intuition discriminate)|]). discriminate.
  - intros t1 t2 t3 u H1 H2 H3 _.
    assert (E : In t3 [4; 9; 10; 11; 12; 13]%nat).
    { apply chain_reg_transparent in H1, H2. cbn [In] in H1, H2 |- *.
      repeat (destruct H1 as [H1|H1]; [injection H1 as <- <-|]); try contradiction;
      repeat (destruct H2 as [H2|H2]; [try discriminate H2; injection H2; intros; subst; auto 10|]); contradiction. }
    assert (u = t3) as ->.
    { inversion H3 as [|? w ? Tr]; subst; [reflexivity|]. apply chain_reg_transparent in Tr. cbn [In] in E, Tr.
      repeat (destruct E as [<-|E]; [repeat (destruct Tr as [Tr|Tr]; [discriminate Tr|]); contradiction|]); contradiction. }
    cbn [In] in E. destruct E as [<-|[<-|[<-|[<-|[<-|[<-|[]]]]]]].
    + eapply N_sequence; [reflexivity|]. exists 0%nat. split; [constructor|left; exact I].
    + eapply N_sequence; [reflexivity|]. exists 2%nat. split; [eapply Ch_step; [eapply W_struct; reflexivity|constructor]|].
      right. eapply R_array with (p := 0%nat); [reflexivity|lia|constructor|exact I].
    + eapply N_sequence; [reflexivity|]. exists 5%nat. split; [constructor|right].
      apply (R_tuple chain_reg 5%nat [4%nat] 1%nat [] 1%nat); [reflexivity|discriminate|constructor|exact I|right; exact chain_reg_wf].
    + eapply N_sequence; [reflexivity|]. exists 7%nat. split; [constructor|right].
      apply (R_struct chain_reg 7%nat [(Some (s2l "name"), 4%nat)] (Some (s2l "kind")) 6%nat [] 6%nat); [reflexivity|discriminate|constructor|exact I|right; exact chain_reg_wf].
    + eapply N_sequence; [reflexivity|]. exists 8%nat. split; [constructor|left; exact I].
    + eapply N_array with (u' := 0%nat); [reflexivity|constructor| |].
      * intros w Tr. apply chain_reg_transparent in Tr. cbn [In] in Tr. repeat (destruct Tr as [Tr|Tr]; [discriminate Tr|]). exact Tr.
      * apply N_other. intro e. split; discriminate.
  - intros t t' u e R Ch. do 26 (destruct t as [|t]; [first [discriminate R|injection R as <-; inversion Ch as [|? ? ? W]; subst; [discriminate|inversion W; discriminate]]|]). discriminate.
  - reflexivity.
  - reflexivity.
Qed.
(** Three accounts inside two newtypes, decoded and encoded again; and the empty list, and two pairs. *)
Example C24_nested_run :
  let bytes1 := [8] ++ repeat 7 32 ++ repeat 9 32 in
  (exists v, decodes chain_reg xdemo (fun _ => tt) 21%nat bytes1 v [] /\ encodes chain_reg xdemo v 21%nat bytes1) /\
  (exists v, decodes chain_reg xdemo (fun _ => tt) 22%nat [0] v [] /\ encodes chain_reg xdemo v 22%nat [0]) /\
  (exists v, decodes chain_reg xdemo (fun _ => tt) 22%nat [8; 4; 1; 5; 0; 0; 0; 0; 6; 0; 0; 0] v [] /\
             encodes chain_reg xdemo v 22%nat [8; 4; 1; 5; 0; 0; 0; 0; 6; 0; 0; 0]).
Proof.
  cbv zeta. split; [|split]; eexists; (split; [exists 8%nat; vm_compute; reflexivity|exists 8%nat; intro out; reflexivity]).
Qed.

(** What decides: [l] inside two newtypes around Vec<e> is written as a list of one item whenever [l] itself can be written as an
    [e], and as itself otherwise. *)
Theorem C24_two_newtypes : forall TId T (reg : TId -> resolution TId) X (l : value T) t1 t2 u e c1 c2, transparent reg t1 t2 -> transparent reg t2 u ->
  reg u = ResTy (TSequence e) ->
  let v := Val (DComposite (Unnamed [Val (DComposite (Unnamed [l])) c2])) c1 in
  (forall b, encodes reg X l e b -> encodes reg X v t1 (4 :: b)) /\
  (rejected reg X l e -> forall b, encodes reg X l u b -> encodes reg X v t1 b).
Proof.
  intros TId T reg X l t1 t2 u e c1 c2 T1 T2 R v.
  assert (NT : forall w, ~ transparent reg u w) by (intros w Tr; inversion Tr as [? ? R'|? ? R']; rewrite R in R'; discriminate).
  assert (SK : forall F, (3 <= F)%nat -> skip_through reg F t1 = Some u).
  { intros [|[|F]] HF; try lia. rewrite (skip_step reg (S F) t1 t2 T1), (skip_step reg F t2 u T2). apply (EncodeNested.skip_stop reg F u NT). lia. }
  assert (WY : forall b, yields reg X (Val (DComposite (Unnamed [l])) c2) u b -> encodes reg X v t1 b).
  { intros b H. apply encodes_yields. eapply (wrapper_yields reg X (fun _ => c1)); [exists 3%nat; exact SK|eauto|eauto|exact H]. }
  split.
  - intros b H. apply WY. apply encodes_yields in H as [F0 H]. apply composite_yields. exists F0. intros F HF. unfold do_encode. rewrite R.
    cbn [composite_map map values clen length snd encode_all]. rewrite H by exact HF. reflexivity.
  - intros [F1 H1] b H. apply WY. apply encodes_yields in H as [F2 H2]. exists (S (Nat.max F1 F2)). intros F HF out. cbn [encode]. unfold encode_composite.
    destruct F as [|F]; [lia|]. replace (find_single reg (S F) u false) with (Some (u, false)) by (cbn [find_single]; rewrite R; reflexivity).
    unfold do_encode. rewrite R. cbn [composite_map map values clen length snd encode_all].
    match goal with |- context [encode reg X (S F) l e ?o] => destruct (H1 (S F) ltac:(lia) o) as [er E]; destruct (encode reg X (S F) l e o) as [s o'] end.
    cbn [fst] in E. subst s. cbn [andthen]. rewrite H2 by lia. reflexivity.
Qed.
Print Assumptions C24_two_newtypes.
(** Both sides occur at the same type: the list [] of struct W(B), struct B(Vec<Vec<u8>>) is also a Vec<u8>, the list [[1, 2], [3]] is not. *)
Definition vv_reg (t : nat) : resolution nat :=
  match t with 0%nat => ResTy (TPrim (PtU W8)) | 1%nat => ResTy (TSequence 0%nat) | 2%nat => ResTy (TSequence 1%nat)
  | 3%nat => ResTy (TComposite [(None, 2%nat)]) | 4%nat => ResTy (TComposite [(None, 3%nat)]) | _ => ResNotFound end.
Example C24_two_newtypes_ex : transparent vv_reg 4%nat 3%nat /\ transparent vv_reg 3%nat 2%nat /\
  encodes vv_reg xdemo (unnamed_composite []) 1%nat [0] /\
  rejected vv_reg xdemo (unnamed_composite [unnamed_composite [vu128 1; vu128 2]; unnamed_composite [vu128 3]]) 1%nat /\
  encodes vv_reg xdemo (unnamed_composite [unnamed_composite [vu128 1; vu128 2]; unnamed_composite [vu128 3]]) 2%nat [8; 8; 1; 2; 4; 3].
Proof.
  split; [apply Tr_struct; reflexivity|]. split; [apply Tr_struct; reflexivity|]. split; [exists 8%nat; reflexivity|]. split; [|exists 8%nat; reflexivity].
  exists 5%nat. intros [|[|[|[|[|F]]]]] HF out; try lia. eexists. reflexivity.
Qed.

(** So in every registry where a type that accepts an empty list (another list, a unit, a bit sequence) is listed
    inside two newtypes, the empty list, one zero byte, does not survive: it comes back as a list with one item. *)
Theorem C24_nested_empty_refuted : forall TId C (reg : TId -> resolution TId) X (ctxf : TId -> C) t1 t2 u e b,
  transparent reg t1 t2 -> transparent reg t2 u -> reg u = ResTy (TSequence e) -> encodes reg X (Val (DComposite (Unnamed [])) (ctxf u)) e b ->
  exists v, decodes reg X ctxf t1 [0] v [] /\ encodes reg X v t1 (4 :: b) /\ (forall b', encodes reg X v t1 b' -> b' <> [0]).
Proof.
  intros TId C reg X ctxf t1 t2 u e b T1 T2 R E.
  exists (Val (DComposite (Unnamed [Val (DComposite (Unnamed [Val (DComposite (Unnamed [])) (ctxf u)])) (ctxf t2)])) (ctxf t1)).
  pose proof (proj1 (C24_two_newtypes TId C reg X _ t1 t2 u e (ctxf t1) (ctxf t2) T1 T2 R) b E) as EN.
  split; [|split; [exact EN|]].
  - apply C21_decode_iff_encoding; [repeat constructor|]. exists [0]. split; [reflexivity|].
    assert (E0 : forall m l as256 st, enc reg m l ctxf as256 st false u (Val (DComposite (Unnamed [])) (ctxf u)) [0]).
    { intros m l as256 st. apply (E_sequence reg m l ctxf as256 st u e [] [0] []); [exact R| | |constructor].
      - cbn [length]. change (N.of_nat 0) with 0. apply N.neq_0_lt_0, N.pow_nonzero. discriminate.
      - change [0] with (compact_encode (N.of_nat (length (@nil (value C))))). apply compact_enc_encode. reflexivity. }
    assert (ST : forall t t' v, transparent reg t t' -> (forall m l as256 st, enc reg m l ctxf as256 st false t' v [0]) ->
              forall m l as256 st, enc reg m l ctxf as256 st false t (Val (DComposite (Unnamed [v])) (ctxf t)) [0]).
    { intros t t' v Tr H m l as256 st. destruct Tr as [t t' R'|t t' R'].
      - eapply E_composite with (fs := [(None, t')]) (vs := [v]); [exact R'|discriminate| |apply FS_unnamed; [reflexivity|right; left; reflexivity]].
        cbn [map snd]. rewrite <- (app_nil_r [0]). constructor; [apply H|constructor].
      - eapply E_tuple with (ts := [t']) (vs := [v]); [exact R'|discriminate|]. rewrite <- (app_nil_r [0]). constructor; [apply H|constructor]. }
    apply (ST _ _ _ T1), (ST _ _ _ T2), E0.
  - intros b' E' ->. pose proof (encodes_fun reg X _ _ _ _ EN E'). discriminate.
Qed.
Print Assumptions C24_nested_empty_refuted.
Example C24_nested_empty_ex : encodes vv_reg xdemo (Val (DComposite (Unnamed [])) tt) 1%nat [0].
Proof. exists 8%nat. reflexivity. Qed.

(** The same values are encoded with more calls than they have nodes: each list is first tried as one of its items. *)
Theorem C63_nested_lists_refuted : exists TId (reg : TId -> resolution TId) X t v bs, rt_ok reg X /\ is_bytes bs /\
  decodes reg X (fun _ => tt) t bs v [] /\ forall F out, (8 <= F)%nat -> nodes v < snd (encode_c reg X F v t out).
Proof.
  exists nat, chain_reg, xdemo, 20%nat, (unnamed_composite [unnamed_composite [unnamed_composite [vu128 1; vu128 2]]]), [8; 1; 2].
  split; [exact C24_nested_rt_ok|]. split; [repeat constructor|]. split; [exists 8%nat; reflexivity|].
  intros F out HF. do 8 (destruct F as [|F]; [lia|]). vm_compute. reflexivity.
Qed.
Print Assumptions C63_nested_lists_refuted.
