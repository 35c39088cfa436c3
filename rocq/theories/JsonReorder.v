(** * JsonReorder: JSON whose objects were reordered reads as rearranged values (C110). *)
From Coq Require Import Permutation.
From Verif Require Import Base Value Spec_Value ValueFacts Spec_Fmt Scale Serde SerdeFacts Spec_Serde SerdeRt SerdeUni SerdeMore SerdeParts Spec_Parts SerdeDoc Spec_Foreign ForeignFacts Spec_Scale Spec_Encode
  Spec_Json JsonFacts Spec_Rearranged.
Local Open Scope N_scope.

Lemma free_of_reserved {T} (v : value T) : all_nodes no_field_reserved v -> all_nodes name_free v.
Proof.
  induction v as [d ctx IH] using value_ind'. intro H. inversion H as [? ? K KC]; subst. rewrite Forall_forall in *. constructor; [|rewrite Forall_forall; intros x Hx; apply IH; [exact Hx|apply KC; exact Hx]].
  destruct d as [[[|[k x] l]|l]|n [[|[k x] l]|l]|b|p]; try exact I; cbn [no_field_reserved name_free map fst In] in *; intro E; apply K; left; exact E.
Qed.

Lemma forall2_swap {A B} (R : A -> B -> Prop) l m : Forall2 R l m -> Forall2 (fun b a => R a b) m l.
Proof. induction 1; constructor; assumption. Qed.
Lemma forall2_impl_in {A B} (R Q : A -> B -> Prop) l m : (forall a b, In a l -> R a b -> Q a b) -> Forall2 R l m -> Forall2 Q l m.
Proof. intros H F. induction F as [|a b l m HR _ IH]; constructor; [apply H; [left; reflexivity|exact HR]|apply IH; intros a' b' I; apply H; right; exact I]. Qed.

Definition reads {T} (v : value T) : Prop := forall d j, to_doc (ser_value v) = Some d -> objects_reordered (through_json d) j -> no_leftovers j /\ exists w, means j w /\ rearranged v w.

Lemma reads_named {T} (l : list (str * value T)) (ds : list (str * doc)) m : Forall (fun kv => reads (snd kv)) l ->
  Forall2 (fun kv kd => fst kd = fst kv /\ to_doc (ser_value (snd kv)) = Some (snd kd)) l ds ->
  Forall2 (fun a b => fst a = fst b /\ objects_reordered (snd a) (snd b)) (map (fun kd => (fst kd, through_json (snd kd))) ds) m ->
  Forall (fun kd => no_leftovers (snd kd)) m /\ exists mw : list (str * value unit), Forall2 (fun kd kv => fst kd = fst kv /\ means (snd kd) (snd kv)) m mw /\ Forall2 (fun a b => fst a = fst b /\ rearranged (snd a) (snd b)) l mw.
Proof.
  intros HR F. revert m. induction F as [|[k v] [k' d] l ds [E G] _ IH]; intros m F2; cbn [map fst snd] in *.
  - inversion F2; subst. split; [constructor|]. exists []. split; constructor.
  - inversion F2 as [|? [k2 j] ? m' [E2 O] F2']; subst. cbn [fst snd] in *. rewrite <- E2. clear E2. inversion HR as [|? ? R1 R2]; subst. destruct (IH R2 m' F2') as (L & mw & M1 & M2).
    destruct (R1 d j G O) as (L1 & w & Mw & Rw). split; [constructor; assumption|]. exists ((k, w) :: mw). split; constructor; try assumption; split; cbn [fst snd]; auto.
Qed.
Lemma reads_list {T} (l : list (value T)) (ds : list doc) m : Forall reads l -> Forall2 (fun v d => to_doc (ser_value v) = Some d) l ds -> Forall2 objects_reordered (map through_json ds) m ->
  Forall no_leftovers m /\ exists mw : list (value unit), Forall2 means m mw /\ Forall2 rearranged l mw.
Proof.
  intros HR F. revert m. induction F as [|v d l ds G _ IH]; intros m F2; cbn [map] in *.
  - inversion F2; subst. split; [constructor|]. exists []. split; constructor.
  - inversion F2 as [|? j ? m' O F2']; subst. inversion HR as [|? ? R1 R2]; subst. destruct (IH R2 m' F2') as (L & mw & M1 & M2).
    destruct (R1 d j G O) as (L1 & w & Mw & Rw). split; [constructor; assumption|]. exists (w :: mw). split; constructor; assumption.
Qed.

Lemma through_int z : objects_reordered (json_int z) (json_int z) /\ forall j, objects_reordered (json_int z) j -> j = json_int z.
Proof.
  assert (A : (forall l, json_int z <> FSeq l) /\ (forall l, json_int z <> FMap l)).
  { unfold json_int. destruct ((0 <=? z) && (z <? 2 ^ 64))%Z; [|destruct ((- 2 ^ 63 <=? z) && (z <? 0))%Z]; split; discriminate. }
  destruct A as [A1 A2]. split; [apply OR_other; assumption|]. intros j O. inversion O; subst; try reflexivity; [exfalso; eapply A1|exfalso; eapply A2]; eauto.
Qed.
Lemma reordered_atom d j : (forall l, d <> FSeq l) -> (forall l, d <> FMap l) -> objects_reordered d j -> j = d.
Proof. intros A1 A2 O. inversion O; subst; try reflexivity; [exfalso; eapply A1|exfalso; eapply A2]; eauto. Qed.
Lemma reordered_bools b m : Forall2 objects_reordered (map FBool b) m -> m = map FBool b.
Proof. revert m. induction b as [|x b IH]; intros m F; cbn [map] in *; inversion F as [|? j ? m' O F']; subst; [reflexivity|]. apply reordered_atom in O; [|discriminate|discriminate]. subst j. f_equal. apply IH, F'. Qed.

(** Reordered JSON of a value is read as a rearrangement of the value. *)
Lemma reads_any {T} (v : value T) : all_nodes no_field_reserved v -> all_nodes json_kind v -> all_nodes number_fits v -> reads v.
Proof.
  induction v as [d ctx IH] using value_ind'. intros HF HK HN dd j E O. pose proof (free_of_reserved _ HF) as NF. inversion HF as [? ? F1 F2]; subst. inversion HK as [? ? K1 K2]; subst. inversion HN as [? ? N1 N2]; subst.
  assert (HR : Forall reads (children d)).
  { rewrite Forall_forall in *. intros x Hx. apply IH; auto. }
  assert (HG : Forall (fun x => exists y, to_doc (ser_value x) = Some y) (children d)).
  { inversion NF as [? ? _ NC]; subst. rewrite Forall_forall in *. intros x Hx. destruct (good_any x (NC x Hx)) as (y & G & _). eauto. }
  destruct d as [c|n c|b|p]; cbn [children json_kind no_field_reserved] in *; try contradiction.
  - destruct c as [l|l]; cbn [values] in *.
    + assert (HD : exists ds, Forall2 (fun (kv : str * value T) (kd : str * doc) => fst kd = fst kv /\ to_doc (ser_value (snd kv)) = Some (snd kd)) l ds).
      { clear -HG. induction l as [|[k x] l IH]; [exists []; constructor|]. cbn [map snd] in HG. inversion HG as [|? ? [d G] F']; subst. destruct (IH F') as [ds H]. exists ((k, d) :: ds). constructor; [split; [reflexivity|exact G]|exact H]. }
      destruct HD as [ds HD]. assert (E2 : to_doc (ser_value (Val (DComposite (Named l)) ctx)) = Some (FMap ds)) by (apply (doc_go_map ser_value); exact HD).
      rewrite E in E2. injection E2 as ->. cbn [through_json] in O. inversion O as [|? l' m PM FM|]; subst; [|match goal with H : forall l, FMap _ <> FMap l |- _ => exfalso; eapply H; reflexivity end].
      apply Permutation_sym, Permutation_map_inv in PM as (ds' & -> & PD).
      destruct (Permutation_Forall2 PD (forall2_swap _ _ _ HD)) as (l2 & PL & HD2). apply forall2_swap in HD2.
      assert (HR2 : Forall (fun kv => reads (snd kv)) l2).
      { rewrite Forall_forall in *. intros [k x] I. cbn [snd]. apply HR. eapply Permutation_in in I; [|apply Permutation_sym; exact PL]. apply (in_map snd) in I. exact I. }
      destruct (reads_named l2 ds' m HR2 HD2 FM) as (NL & mw & M1 & M2).
      assert (NK : forall k x r, m = (k, x) :: r -> k <> reserved_key).
      { intros k x r -> ->. inversion M1 as [|? [k2 w] ? mw' [EK _] _]; subst. cbn [fst] in EK. subst k2. inversion M2 as [|[k3 y] ? l3 ? [EK _] _]; subst. cbn [fst] in EK. subst k3.
        apply F1. apply (in_map fst) with (x := (reserved_key, y)). eapply Permutation_in; [apply Permutation_sym; exact PL|]. left. reflexivity. }
      split; [apply no_leftovers_map; [intros x y r ->; eapply NK; reflexivity|exact NL]|].
      exists (Val (DComposite (Named mw)) tt). split; [|apply RA_composite; eapply FR_named; eassumption].
      apply M_fields; [intros k x r [= ->]; eapply NK; reflexivity|]. apply MF_map, M1.
    + assert (HD : exists ds, Forall2 (fun (v : value T) d => to_doc (ser_value v) = Some d) l ds).
      { clear -HG. induction l as [|x l IH]; [exists []; constructor|]. inversion HG as [|? ? [d G] F']; subst. destruct (IH F') as [ds H]. exists (d :: ds). constructor; assumption. }
      destruct HD as [ds HD].
      assert (E2 : to_doc (ser_value (Val (DComposite (Unnamed l)) ctx)) = Some (FSeq ds)).
      { apply doc_go_seq. clear -HD. induction HD; cbn [map]; constructor; assumption. }
      rewrite E in E2. injection E2 as ->. cbn [through_json] in O. inversion O as [? m FM| |]; subst; [|match goal with H : forall l, FSeq _ <> FSeq l |- _ => exfalso; eapply H; reflexivity end].
      destruct (reads_list l ds m HR HD FM) as (NL & mw & M1 & M2). split; [apply no_leftovers_seq, NL|].
      exists (Val (DComposite (Unnamed mw)) tt). split; [|apply RA_composite, FR_unnamed, M2]. apply M_fields; [discriminate|apply MF_list, M1].
  - assert (E2 : to_doc (ser_value (Val (DBits b) ctx)) = Some (FMap [(reserved_key, FSeq (map FBool b))])).
    { apply (to_doc_map1 [(reserved_key, SSeq (map SBool b))]). constructor; [|constructor]. split; [reflexivity|]. cbn [snd]. apply doc_go_seq. clear. induction b; cbn [map]; constructor; [reflexivity|assumption]. }
    rewrite E in E2. injection E2 as ->. cbn [through_json map fst snd] in O. rewrite map_map in O. cbn [through_json] in O.
    inversion O as [|? l' m PM FM|]; subst; [|match goal with H : forall l, FMap _ <> FMap l |- _ => exfalso; eapply H; reflexivity end].
    apply Permutation_length_1_inv in PM. subst l'. inversion FM as [|? [k y] ? m' [EK OS] FM']; subst. inversion FM'; subst. cbn [fst snd] in *. subst k.
    inversion OS as [? m FB| |]; subst; [|match goal with H : forall l, FSeq _ <> FSeq l |- _ => exfalso; eapply H; reflexivity end].
    change (Forall2 objects_reordered (map FBool b) m) in FB. apply reordered_bools in FB. subst m. split.
    + apply no_leftovers_map; [discriminate|]. constructor; [|constructor]. cbn [snd]. apply no_leftovers_seq. rewrite Forall_forall. intros x Hx. apply in_map_iff in Hx as (y & <- & _). apply no_leftovers_atom; discriminate.
    + exists (bit_sequence b). split; [apply M_bits|apply RA_bits].
  - destruct p as [b|c|s|n|z|b|b]; try contradiction; cbn [ser_value ser_prim] in E.
    + injection E as <-. apply reordered_atom in O; [|discriminate|discriminate]. subst j. split; [apply no_leftovers_atom; discriminate|]. exists (vbool b). split; [constructor|apply RA_prim; constructor].
    + injection E as <-. apply reordered_atom in O; [|discriminate|discriminate]. subst j. split; [apply no_leftovers_atom; discriminate|]. exists (vstring s). split; [constructor|apply RA_prim; constructor].
    + destruct (first_ok_to_value_u n) as [w E2]. rewrite E2 in E. injection E as <-. cbn [through_json] in O. apply through_int in O. subst j. split; [apply no_leftovers_int|].
      exists (vu128 n). split; [apply means_unsigned, N1|apply RA_prim; constructor].
    + destruct (first_ok_to_value_i z) as [w E2]. rewrite E2 in E. injection E as <-. cbn [through_json] in O. apply through_int in O. subst j. split; [apply no_leftovers_int|].
      exists (if (0 <=? z)%Z then vu128 (Z.to_N z) else vi128 z). split; [apply means_int, N1|]. destruct (Z.leb_spec 0 z) as [Hz|Hz]; apply RA_prim; [|constructor].
      rewrite <- (Z2N.id z Hz) at 1. apply SP_unsigned.
Qed.
