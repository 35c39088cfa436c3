(** * Props_Migrate: C103 putting decoded data into other types *)
From Verif Require Import Base Value ValueFacts Registry Spec_Scale Scale ScaleFacts BitsFacts Decode DecodeFacts Encode EncodeFacts EncodeTerm Spec_Encode EncodeSound EncodeComplete EncodeMore EncodeWrap.
From Verif Require Import Spec_Same Spec_Writes WritesFacts EditFacts Spec_Migrate MigrateFacts Demo Props_Decode Props_Encode Props_Same Props_Writes.
Open Scope N_scope.

(** The types of the data are in [reg], the others in [reg'] (of another version of a program, perhaps); [R] says what goes where. *)

(** ** Acceptance *)
(** Whatever was decoded at a type is accepted at every type it may go to. *)
Theorem C103_accepts : forall TId TId' C (reg : TId -> resolution TId) (reg' : TId' -> resolution TId') X X' (ctxf : TId -> C) (R : TId -> TId' -> Prop) t t' bs v rest out,
  migration reg reg' X' R -> (forall t, Acc (fun t' t => wraps reg' t t') t) -> is_bytes bs ->
  R t t' -> decodes reg X ctxf t bs v rest -> exists F b, encode reg' X' F v t' out = (SOk, out ++ b).
Proof.
  intros TId TId' C reg reg' X X' ctxf R t t' bs v rest out M WF HB r D. apply C21_decode_iff_encoding in D as (b & _ & E); [|exact HB].
  pose proof (proj1 (migrate_fits reg reg' X' R _ _ _ _ M) _ _ _ _ E _ r) as FI.
  apply (proj1 (C77_accepts TId' C reg' X' v t' out WF (proj1 (enc_wf reg R _ _ _ _) _ _ _ _ E))) in FI as (F & out' & H). exists F.
  pose proof H as H'. apply encode_ok_encodes in H' as (b' & -> & _). exists b'. exact H.
Qed.
Print Assumptions C103_accepts.

(** And it is the same data there. *)
Theorem C103_same_data : forall TId TId' C (reg : TId -> resolution TId) (reg' : TId' -> resolution TId') X X' (ctxf : TId -> C) (R : TId -> TId' -> Prop) t t' bs v rest out,
  migration reg reg' X' R -> (forall t, Acc (fun t' t => wraps reg' t t') t) -> reg_ok reg' -> names_uniform reg' -> small (x_maxbits X') v -> is_bytes bs ->
  R t t' -> decodes reg X ctxf t bs v rest -> exists F b w, encode reg' X' F v t' out = (SOk, out ++ b) /\ decodes reg' X' (fun t => t) t' b w [] /\ same v w.
Proof.
  intros TId TId' C reg reg' X X' ctxf R t t' bs v rest out M WF OK NU SM HB r D.
  destruct (C103_accepts _ _ _ _ _ _ _ _ _ _ _ _ _ _ out M WF HB r D) as (F & b & H). exists F, b.
  destruct (C64_same_data _ _ _ _ _ _ _ _ _ OK NU SM H) as (b' & w & E & DW & HS). apply app_inv_head in E. subst b'. exists w. auto.
Qed.
Print Assumptions C103_same_data.

(** ** Where the data goes *)
Section Parts.
  Context {TId' C : Type} (reg' : TId' -> resolution TId') (X' : ext) (WF : forall t, Acc (fun t' t => wraps reg' t t') t).
  Local Notation wfv := (all_nodes (fun d : vdef (value C) => match d with DPrim p => prim_wf p = true | _ => True end)).
  Lemma fits_encodes (v : value C) t : wfv v -> fits reg' X' v t -> exists b, encodes reg' X' v t b.
  Proof. intros W F. apply (proj1 (C77_accepts TId' C reg' X' v t [] WF W)) in F as (f & o & H). apply encode_ok_encodes in H as (b & _ & E). eauto. Qed.
  Lemma turn_encodes vs ts b : Forall wfv vs -> in_turn (fun v t (_ : bytes) => fits reg' X' v t) vs ts b ->
    exists bs, Forall2 (fun vt b => encodes reg' X' (fst vt) (snd vt) b) (combine vs ts) bs /\ length vs = length ts /\ in_turn (writes reg' X') vs ts (concat bs).
  Proof.
    intros W H. induction H as [|v vs t ts b0 bs HV H IH]; [exists []; repeat split; constructor|]. inversion W; subst. destruct (fits_encodes _ _ ltac:(eassumption) HV) as [x Ex]. destruct IH as (xs & F & L & I); [assumption|].
    exists (x :: xs). cbn [combine concat length]. split; [constructor; assumption|]. split; [congruence|]. constructor; [|exact I]. apply (writes_iff reg' X' WF); assumption.
  Qed.
End Parts.

(** The elements of a list go to elements, in order, whatever they are. *)
Theorem C103_elements : forall TId TId' C (reg : TId -> resolution TId) (reg' : TId' -> resolution TId') X X' (ctxf : TId -> C) (R : TId -> TId' -> Prop) t t' e e' bs v rest,
  migration reg reg' X' R -> (forall t, Acc (fun t' t => wraps reg' t t') t) -> is_bytes bs -> decodes reg X ctxf t bs v rest ->
  reg t = ResTy (TSequence e) \/ (exists n, reg t = ResTy (TArray e n)) -> reg' t' = ResTy (TSequence e') -> R e e' ->
  exists items ctx p outs, v = Val (DComposite (Unnamed items)) ctx /\ prefix (length items) p /\ Forall2 (fun x b => encodes reg' X' x e' b) items outs /\
    encodes reg' X' v t' (p ++ concat outs).
Proof.
  intros TId TId' C reg reg' X X' ctxf R t t' e e' bs v rest M WF HB D HT HT' r. apply C21_decode_iff_encoding in D as (b & _ & E); [|exact HB].
  pose proof (proj1 (enc_wf reg R _ _ _ _) _ _ _ _ E) as W.
  assert (IT : exists items b0, v = Val (DComposite (Unnamed items)) (ctxf t) /\ encs reg (x_maxbits X) (x_len X) ctxf PU256 false false (repeat e (length items)) items b0).
  { inversion E; subst; destruct HT as [HT|[m HT]]; try congruence; match goal with H : reg t = _ |- _ => rewrite H in HT end; injection HT; intros; subst; eauto. }
  destruct IT as (items & b0 & -> & ES). apply (proj2 (migrate_fits reg reg' X' R _ _ _ _ M)) in ES. apply (ok_repeat reg' X' R e _ e') in ES; [|exact r].
  assert (WI : Forall (all_nodes (fun d : vdef (value C) => match d with DPrim p => prim_wf p = true | _ => True end)) items) by (inversion W; subst; assumption).
  apply (turn_encodes reg' X' WF) in ES as (outs & F & _ & I); [|exact WI]. destruct (prefix_ex (length items)) as [p Hp]. exists items, (ctxf t), p, outs. split; [reflexivity|]. split; [exact Hp|]. split.
  - clear - F. revert outs F. induction items as [|x items IH]; intros outs F; cbn [length repeat combine] in F; inversion F; subst; constructor; [assumption|]. apply IH. assumption.
  - apply (writes_iff reg' X' WF _ W). apply Wr_directly. eapply D_sequence; [exact HT'|exact Hp|exact I|reflexivity].
Qed.
Print Assumptions C103_elements.

(** The fields of a struct go to the fields of the same names, in the order of the new struct. *)
Theorem C103_fields : forall TId TId' C (reg : TId -> resolution TId) (reg' : TId' -> resolution TId') X X' (ctxf : TId -> C) (R : TId -> TId' -> Prop) t t' fs fs' bs v rest,
  migration reg reg' X' R -> (forall t, Acc (fun t' t => wraps reg' t t') t) -> is_bytes bs -> decodes reg X ctxf t bs v rest ->
  reg t = ResTy (TComposite fs) -> reg' t' = ResTy (TComposite fs') -> by_name R fs fs' ->
  exists l ctx xs outs, v = Val (DComposite (Named l)) ctx /\ Forall2 (fun f x => exists n, fst f = Some n /\ last_entry l n x) fs' xs /\
    Forall2 (fun fx b => encodes reg' X' (snd fx) (snd (fst fx)) b) (combine fs' xs) outs /\ encodes reg' X' v t' (concat outs).
Proof.
  intros TId TId' C reg reg' X X' ctxf R t t' fs fs' bs v rest M WF HB D HT HT' BN. apply C21_decode_iff_encoding in D as (b & _ & E); [|exact HB].
  pose proof (proj1 (enc_wf reg R _ _ _ _) _ _ _ _ E) as W.
  assert (IT : exists vs c b0, v = Val (DComposite c) (ctxf t) /\ fields_shape (map fst fs) vs c /\ encs reg (x_maxbits X) (x_len X) ctxf PU256 false false (map snd fs) vs b0).
  { inversion E; subst; try congruence. match goal with H : reg t = _ |- _ => rewrite H in HT end; injection HT; intros; subst; eauto 6. }
  destruct IT as (vs & c & b0 & -> & SH & ES). apply (proj2 (migrate_fits reg reg' X' R _ _ _ _ M)) in ES.
  pose proof (fields_name reg' X' R fs fs' vs c BN ES SH) as FN. destruct BN as (B1 & B2 & B3 & B4 & _).
  pose proof (shape_named fs vs c SH B1 B2) as (l & -> & _ & _ & NL).
  assert (WI : Forall (all_nodes (fun d : vdef (value C) => match d with DPrim p => prim_wf p = true | _ => True end)) (map snd l)) by (inversion W; subst; assumption).
  inversion FN as [l0 fs0 xs bb N1 N2 F2 IT|c0 fs0 bb N1 IT]; subst.
  2:{ exfalso. destruct (N1 l eq_refl) as [Z|Z]; [apply NL, Z|]. destruct fs' as [|f fs']; [apply B3; reflexivity|]. apply B4. left. apply Z. left. reflexivity. }
  assert (WX : Forall (all_nodes (fun d : vdef (value C) => match d with DPrim p => prim_wf p = true | _ => True end)) xs).
  { clear - F2 WI. induction F2 as [|f x fs' xs (l1 & l2 & -> & _) F2 IH]; constructor; [|exact IH]. rewrite Forall_forall in WI. apply WI. rewrite map_app. apply in_or_app. right. left. reflexivity. }
  apply (turn_encodes reg' X' WF) in IT as (outs & F & L & I); [|exact WX]. exists l, (ctxf t), xs, outs. split; [reflexivity|]. split.
  - clear - F2 B4. induction F2 as [|f x fs' xs H F2 IH]; constructor; [|apply IH; intro Z; apply B4; right; exact Z].
    destruct f as [[n|] t1]; [exists n; auto|]. exfalso. apply B4. left. reflexivity.
  - split.
    + clear - F L. rewrite map_length in L. revert xs outs L F. induction fs' as [|f fs' IH]; intros [|x xs] outs L F; try discriminate; cbn [map combine] in *; inversion F; subst; constructor; [assumption|]. apply IH; [injection L as L; exact L|assumption].
    + apply (writes_iff reg' X' WF _ W). apply Wr_directly. eapply D_struct; [left; eauto|split; [apply Ch_refl|eapply not_transparent; [exact HT'|right; exact B4]]|].
      eapply S_struct; [exact HT'|discriminate|]. eapply F_by_name; [exact NL|exact N2|exact F2|exact I].
Qed.
Print Assumptions C103_fields.

(** A variant goes to the variant of its name: the new index, then its fields likewise. *)
Theorem C103_variants : forall TId TId' C (reg : TId -> resolution TId) (reg' : TId' -> resolution TId') X X' (ctxf : TId -> C) (R : TId -> TId' -> Prop) t t' vs' name c ctx bs rest,
  migration reg reg' X' R -> (forall t, Acc (fun t' t => wraps reg' t t') t) -> is_bytes bs -> R t t' -> decodes reg X ctxf t bs (Val (DVariant name c) ctx) rest -> reg' t' = ResTy (TVariant vs') ->
  exists l1 idx fs l2 b, vs' = l1 ++ VInfo name idx fs :: l2 /\ ~ In name (map vi_name l1) /\ fields (writes reg' X') c fs b /\ encodes reg' X' (Val (DVariant name c) ctx) t' (idx :: b).
Proof.
  intros TId TId' C reg reg' X X' ctxf R t t' vs' name c ctx bs rest M WF HB r D HT'. apply C21_decode_iff_encoding in D as (b & _ & E); [|exact HB].
  pose proof (proj1 (enc_wf reg R _ _ _ _) _ _ _ _ E) as W. pose proof (proj1 (migrate_fits reg reg' X' R _ _ _ _ M) _ _ _ _ E _ r) as FI.
  apply (fits_encodes reg' X' WF) in FI as [b' EB]; [|exact W]. pose proof EB as EB'. apply (writes_iff reg' X' WF _ W) in EB. inversion EB as [? ? ? ? LF|? ? ? ? ? HV| | |]; subst; [inversion LF|].
  destruct HV as (u & l1 & idx & fs & l2 & b1 & Ch & Ru & NI & -> & HF). inversion Ch as [|? a ? Tr ?]; subst; [|inversion Tr; congruence].
  rewrite HT' in Ru. injection Ru as ->. exists l1, idx, fs, l2, b1. auto.
Qed.
Print Assumptions C103_variants.

(** ** Non-vacuity *)
Definition old_reg (t : nat) : resolution nat :=
  match t with
  | 0%nat => ResTy (TPrim (PtU W8))
  | 1%nat => ResTy (TPrim (PtU W16))
  | 2%nat => ResTy (TSequence 1%nat)
  | 3%nat => ResTy (TVariant [VInfo (s2l "A") 0 []; VInfo (s2l "B") 1 [(None, 0%nat)]])
  | 4%nat => ResTy (TComposite [(None, 5%nat)])
  | 5%nat => ResTy (TArray 0%nat 2)
  | 6%nat => ResTy (TComposite [(Some (s2l "id"), 0%nat); (Some (s2l "tags"), 2%nat); (Some (s2l "kind"), 3%nat); (Some (s2l "addr"), 4%nat); (Some (s2l "old"), 1%nat)])
  | 7%nat => ResTy (TVariant [VInfo (s2l "Leaf") 0 [(None, 0%nat)]; VInfo (s2l "Node") 1 [(None, 7%nat); (None, 7%nat)]])
  | _ => ResNotFound
  end.
Definition new_reg (t : nat) : resolution nat :=
  match t with
  | 0%nat => ResTy (TPrim (PtU W8))
  | 1%nat => ResTy (TPrim (PtU W64))
  | 2%nat => ResTy (TCompact 1%nat)
  | 3%nat => ResTy (TSequence 2%nat)
  | 4%nat => ResTy (TPrim (PtU W32))
  | 5%nat => ResTy (TVariant [VInfo (s2l "C") 7 []; VInfo (s2l "B") 2 [(Some (s2l "b"), 4%nat)]; VInfo (s2l "A") 3 []])
  | 6%nat => ResTy (TSequence 0%nat)
  | 7%nat => ResTy (TComposite [(None, 6%nat)])
  | 8%nat => ResTy (TPrim (PtI W32))
  | 9%nat => ResTy (TComposite [(Some (s2l "kind"), 5%nat); (Some (s2l "addr"), 7%nat); (Some (s2l "id"), 8%nat); (Some (s2l "tags"), 3%nat)])
  | 10%nat => ResTy (TVariant [VInfo (s2l "Node") 0 [(None, 10%nat); (None, 10%nat)]; VInfo (s2l "Leaf") 1 [(None, 4%nat)]])
  | _ => ResNotFound
  end.
(** What goes where; the type of trees is recursive. *)
Definition moves (t t' : nat) : Prop := In (t, t') [(0, 0); (0, 4); (0, 8); (1, 2); (2, 3); (3, 5); (4, 7); (5, 6); (6, 9); (7, 10)]%nat.
Ltac which H := unfold moves in H; cbn [In] in H; repeat (destruct H as [H|H]; [injection H as <- <-|]); [..|destruct H].
Ltac there := unfold moves; cbn [In]; repeat (first [left; reflexivity | right]).
Example C103_moves : migration old_reg new_reg xdemo moves.
Proof.
  assert (INT : forall p p' t', new_reg t' = ResTy (TPrim p') -> is_int p -> is_int p' -> (forall z, holds p z -> holds p' z) -> goes new_reg xdemo moves (TPrim p) t').
  { intros p p' t' H1 H2 H3 H4. exact (G_int new_reg xdemo moves p t' t' p' (Ch_refl _ _) H1 H2 H3 H4). }
  intros t t' d H E. which H; injection E as <-.
  - eapply INT; [reflexivity|exists W8; auto|exists W8; auto|auto].
  - eapply INT; [reflexivity|exists W8; auto|exists W32; auto|]. intro z. unfold holds, int_bits. cbn. lia.
  - eapply INT; [reflexivity|exists W8; auto|exists W32; auto|]. intro z. unfold holds, int_bits. cbn. lia.
  - eapply (G_int_compact new_reg xdemo moves _ 2%nat 2%nat 1%nat 1%nat W64); [apply Ch_refl|reflexivity|apply Ch_refl|reflexivity|exists W16; auto|]. intro z. unfold holds, int_bits. cbn. lia.
  - eapply G_sequence; [reflexivity|there].
  - eapply (G_variant new_reg xdemo moves _ 5%nat 5%nat); [apply Ch_refl|reflexivity|]. constructor; [|constructor; [|constructor]].
    + exists [VInfo (s2l "C") 7 []; VInfo (s2l "B") 2 [(Some (s2l "b"), 4%nat)]], 3, [], []. split; [reflexivity|]. split; [cbn; intuition discriminate|]. right. split; [constructor|left; reflexivity].
    + exists [VInfo (s2l "C") 7 []], 2, [(Some (s2l "b"), 4%nat)], [VInfo (s2l "A") 3 []]. split; [reflexivity|]. split; [cbn; intuition discriminate|]. right. split; [|right; left; left; reflexivity].
      constructor; [cbn [snd]; there|constructor].
  - eapply (G_newtype new_reg xdemo moves _ 5%nat 7%nat 6%nat); [left; reflexivity| |there]. split; [left; eexists; reflexivity|]. split; [eapply Ch_step; [apply Tr_struct; reflexivity|apply Ch_refl]|]. split; [|discriminate].
    intros w W. inversion W; discriminate.
  - eapply G_array_sequence; [reflexivity|there].
  - eapply G_struct; [reflexivity|]. left. split; [discriminate|]. split; [cbn; intuition discriminate|]. split; [discriminate|]. split; [cbn; intuition discriminate|].
    assert (P : forall (l1 : list (field nat)) (n : str) (a : nat) (l2 : list (field nat)) (a' : nat), ~ In (Some n) (map fst l2) -> moves a a' -> exists l1' t l2', l1 ++ (Some n, a) :: l2 = l1' ++ (fst (Some n, a'), t) :: l2' /\ ~ In (fst (Some n, a')) (map fst l2') /\ moves t (snd (Some n, a'))) by (intros l1 n a l2 a' H1 H2; exists l1, a, l2; auto).
    constructor; [|constructor; [|constructor; [|constructor; [|constructor]]]].
    + apply (P [(Some (s2l "id"), 0%nat); (Some (s2l "tags"), 2%nat)] _ 3%nat [(Some (s2l "addr"), 4%nat); (Some (s2l "old"), 1%nat)]); [cbn; intuition discriminate|there].
    + apply (P [(Some (s2l "id"), 0%nat); (Some (s2l "tags"), 2%nat); (Some (s2l "kind"), 3%nat)] _ 4%nat [(Some (s2l "old"), 1%nat)]); [cbn; intuition discriminate|there].
    + apply (P [] _ 0%nat [(Some (s2l "tags"), 2%nat); (Some (s2l "kind"), 3%nat); (Some (s2l "addr"), 4%nat); (Some (s2l "old"), 1%nat)]); [cbn; intuition discriminate|there].
    + apply (P [(Some (s2l "id"), 0%nat)] _ 2%nat [(Some (s2l "kind"), 3%nat); (Some (s2l "addr"), 4%nat); (Some (s2l "old"), 1%nat)]); [cbn; intuition discriminate|there].
  - eapply (G_variant new_reg xdemo moves _ 10%nat 10%nat); [apply Ch_refl|reflexivity|]. constructor; [|constructor; [|constructor]].
    + exists [VInfo (s2l "Node") 0 [(None, 10%nat); (None, 10%nat)]], 1, [(None, 4%nat)], []. split; [reflexivity|]. split; [cbn; intuition discriminate|]. right. split; [|right; left; left; reflexivity].
      constructor; [cbn [snd]; there|constructor].
    + exists [], 0, [(None, 10%nat); (None, 10%nat)], [VInfo (s2l "Leaf") 1 [(None, 4%nat)]]. split; [reflexivity|]. split; [cbn; intuition discriminate|]. right. split; [|right; left; left; reflexivity].
      constructor; [cbn [snd]; there|constructor; [cbn [snd]; there|constructor]].
Qed.
Lemma new_wraps t w : wraps new_reg t w -> t = 7%nat /\ w = 6%nat.
Proof. intro W. inversion W as [? ? [? ? ? E|? ? E]|? ? E]; subst; do 11 (destruct t as [|t]; [try discriminate E; try (injection E; intros; subst; auto)|]); discriminate. Qed.
Lemma new_wf : forall t, Acc (fun t' t => wraps new_reg t t') t.
Proof. intro t. constructor. intros w W. apply new_wraps in W as [_ ->]. constructor. intros w W. apply new_wraps in W as [W _]. discriminate. Qed.
Example C103_used : match decode_as_type old_reg xdemo (fun t => t) 9 6%nat [5; 8; 1; 0; 2; 1; 1; 9; 3; 4; 0; 0] with
  | Ok (v, []) => encode new_reg xdemo 9 v 9%nat []
  | _ => (SHang, [])
  end = (SOk, [2; 9; 0; 0; 0; 8; 3; 4; 5; 0; 0; 0; 8; 4; 9; 4]).
Proof. vm_compute. reflexivity. Qed.
(** [C103_accepts] applies to it and to trees of any size. *)
Example C103_trees : forall bs v rest, is_bytes bs -> decodes old_reg xdemo (fun t => t) 7%nat bs v rest -> exists F b, encode new_reg xdemo F v 10%nat [] = (SOk, b).
Proof. intros bs v rest HB D. exact (C103_accepts _ _ _ _ _ _ _ _ _ 7%nat 10%nat _ _ _ [] C103_moves new_wf HB ltac:(there) D). Qed.
Example C103_struct : forall bs v rest, is_bytes bs -> decodes old_reg xdemo (fun t => t) 6%nat bs v rest -> exists F b, encode new_reg xdemo F v 9%nat [] = (SOk, b).
Proof. intros bs v rest HB D. exact (C103_accepts _ _ _ _ _ _ _ _ _ 6%nat 9%nat _ _ _ [] C103_moves new_wf HB ltac:(there) D). Qed.
Lemma new_ok : reg_ok new_reg.
Proof.
  split.
  - intros t vs R. do 11 (destruct t as [|t]; [try discriminate R; try (injection R as <-; cbn; repeat constructor; cbn; intuition discriminate)|]). discriminate.
  - intros t t' u e R Ch. assert (E : t' = 1%nat) by (do 11 (destruct t as [|t]; [try discriminate R; injection R as <-; reflexivity|]); discriminate). subst t'.
    inversion Ch as [|? ? ? W]; subst; [discriminate|]. apply new_wraps in W as [W _]. discriminate.
Qed.
Lemma new_uniform : names_uniform new_reg.
Proof.
  split.
  - intros t fs R. do 11 (destruct t as [|t]; [first [discriminate R|injection R as <-; first [left; cbn; intuition (subst; reflexivity)|right; cbn; intuition (subst; discriminate)]]|]). discriminate.
  - intros t vs v R HI. do 11 (destruct t as [|t]; [first [discriminate R|injection R as <-; cbn in HI; repeat (destruct HI as [<-|HI]; [cbn [vi_fields];
      first [left; cbn; intuition (subst; reflexivity)|right; cbn; intuition (subst; discriminate)]|]); destruct HI]|]). discriminate.
Qed.
Example C103_same_used : forall bs v rest, is_bytes bs -> small (x_maxbits xdemo) v -> decodes old_reg xdemo (fun t => t) 6%nat bs v rest ->
  exists F b w, encode new_reg xdemo F v 9%nat [] = (SOk, b) /\ decodes new_reg xdemo (fun t => t) 9%nat b w [] /\ same v w.
Proof. intros bs v rest HB SM D. exact (C103_same_data _ _ _ _ _ _ _ _ _ 6%nat 9%nat _ _ _ [] C103_moves new_wf new_ok new_uniform SM HB ltac:(there) D). Qed.

(** A type that does not hold all integers will not do: the rules ask for no more than needed. *)
Theorem C103_narrow_refuted : exists (reg : nat -> resolution nat) (v : value nat) bs, decodes reg xdemo (fun t => t) 0%nat bs v [] /\ reg 0%nat = ResTy (TPrim (PtU W8)) /\ reg 1%nat = ResTy (TPrim (PtI W8)) /\
  exists F e out, encode reg xdemo F v 1%nat [] = (SErr e, out).
Proof.
  exists (fun t => match t with 0%nat => ResTy (TPrim (PtU W8)) | 1%nat => ResTy (TPrim (PtI W8)) | _ => ResNotFound end), (Val (DPrim (PU128 200)) 0%nat), [200].
  split; [exists 3%nat; reflexivity|]. split; [reflexivity|]. split; [reflexivity|]. exists 3%nat. do 2 eexists. vm_compute. reflexivity.
Qed.
Print Assumptions C103_narrow_refuted.
