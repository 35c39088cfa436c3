(** * DataEditFacts: data that lie in a value can be exchanged part by part. *)
From Verif Require Import Base Value Spec_Value ValueFacts Scale Spec_Scale Serde SerdeFacts Spec_Serde SerdeRt SerdeUni Spec_Parts SerdeParts Spec_Maps SerdeMaps Spec_Reads ReadsFacts Spec_ToValue ToValueFacts Spec_Convert ConvertFacts
  Fmt Spec_Fmt FmtFacts Spec_TextData SerdeText SerdeTargets Props_Maps ShuffleFacts Spec_Places PlacesFacts Spec_DataEdit.

Lemma exact {T} t (v : value T) x : well_named t -> (from_value t v = Ok x <-> reads t (AtValue v) x).
Proof. intro W. exact (all_exact T t W (AtValue v) (SrcValue v) x eq_refl). Qed.

(** ** Lists *)
Lemma F3_read {T} (ts : list ty) xs (vs : list (value T)) (R : ty -> data -> value T -> Prop) : Forall (fun t => well_named t -> forall x v, R t x v -> reads t (AtValue v) x) ts -> Forall well_named ts ->
  Forall3 R ts xs vs -> Forall3 reads ts (map AtValue vs) xs.
Proof. intros F W H. revert F W. induction H; intros F W; inv F; inv W; cbn [map]; constructor; auto. Qed.
Lemma struct_read {T} fs ds (l : list (str * value T)) (R : ty -> data -> value T -> Prop) p : Forall (fun t => well_named t -> forall x v, R t x v -> reads t (AtValue v) x) (map snd fs) ->
  NoDup (map fst fs) -> Forall well_named (map snd fs) -> struct_at p = Some (entries_of (Named l)) ->
  Forall3 (fun (ft : str * ty) (nx : str * data) kv => fst nx = fst ft /\ fst kv = fst ft /\ R (snd ft) (snd nx) (snd kv)) fs ds l -> reads (TyStruct fs) p (XStruct ds).
Proof.
  intros F N W HP H.
  assert (K : map fst l = map fst fs) by (clear -H; induction H as [|ft nx kv fs ds l (_ & E & _) _ IH]; cbn [map]; [reflexivity|now f_equal]).
  eapply R_struct_named; [exact HP| |].
  - rewrite map_map. cbn [fst]. change (map (fun x : str * value T => fst x) l) with (map fst l). rewrite K. now apply nodup_among.
  - assert (G : forall l0, (forall kv, In kv l -> In kv l0) -> Forall2 (fun ft nx => fst nx = fst ft /\ ((exists q, In (fst ft, q) (map (fun kv => (fst kv, AtValue (snd kv))) l0) /\ reads (snd ft) q (snd nx)) \/
       (~ In (fst ft) (map fst (map (fun kv => (fst kv, AtValue (snd kv))) l0)) /\ (exists t, snd ft = TyOption t) /\ snd nx = XNone))) fs ds); [|apply (G l); auto].
    clear K HP N. intro l0. induction H as [|ft nx kv fs ds l (E1 & E2 & HR) _ IH]; intro S; [constructor|]. cbn [map] in F, W. inv F. inv W. constructor.
    + split; [exact E1|]. left. exists (AtValue (snd kv)). split; [apply in_map_iff; exists kv; split; [now rewrite E2|apply S; now left]|auto].
    + apply IH; auto. intros k I. apply S. now right.
Qed.
Lemma map_read {T} t m (l : list (str * value T)) (R : ty -> data -> value T -> Prop) : (forall x v, R t x v -> reads t (AtValue v) x) ->
  Forall2 (fun (kx : str * data) kv => fst kv = fst kx /\ R t (snd kx) (snd kv)) m l -> Forall2 (fun kv kx => fst kx = fst kv /\ reads t (AtValue (snd kv)) (snd kx)) l m.
Proof. intros F H. induction H as [|kx kv m l [E HR] _ IH]; constructor; auto. Qed.
Lemma collects_self m : sorted_keys m -> collects m m.
Proof.
  intro S. split; [exact S|]. intros k x. assert (N := rises_nodup m S). split.
  - intro I. apply in_split in I as (l1 & l2 & ->). exists l1, l2. split; [reflexivity|]. intro K. rewrite map_app in N. cbn [map fst] in N. apply NoDup_remove_2 in N. apply N, in_app_iff. now right.
  - intros (l1 & l2 & -> & _). apply in_app_iff. right. now left.
Qed.

(** ** What lies in a value is read from it *)
Theorem lies_read {T} leaf t : well_named t -> forall x (v : value T), lies leaf t x v -> reads t (AtValue v) x.
Proof.
  induction t as [|sg w| | | | |t IH|t IH|ts IH|t IH|t IH| |t IH|ts IH|fs IH|vs IH| | | |] using ty_ind'; intros W x v H; (inv H; [apply exact; assumption|..]).
  all: cbn [well_named] in W.
  - now apply R_none.
  - eapply R_some; [reflexivity|]. auto.
  - eapply R_vec; [reflexivity|]. match goal with H : Forall2 _ _ _ |- _ => induction H; cbn [map]; constructor; auto end.
  - eapply R_tuple; [reflexivity|]. apply wn_list in W. eapply F3_read; eassumption.
  - eapply R_map; [reflexivity| |now apply collects_self]. eapply map_read; [|eassumption]. auto.
  - match goal with H : Forall _ m |- _ => rename H into K end. match goal with H : Forall2 _ m _ |- _ => rename H into F end.
    eapply R_map_char; [reflexivity| | |apply collects_self; assumption].
    + clear -K F. induction F as [|kx kv m l [E _] _ IH]; inv K; constructor; auto. now rewrite E.
    + eapply map_read; [|eassumption]. auto.
  - eapply R_tuple_struct; [reflexivity|]. apply wn_list in W. eapply F3_read; eassumption.
  - destruct W as [N W]. apply wn_fields in W. eapply struct_read; [exact IH|exact N|exact W|reflexivity|eassumption].
  - eapply R_enum_unit; [reflexivity|assumption|reflexivity].
  - destruct W as [N W]. match goal with H : In (n, _) vs |- _ => rename H into HI end. destruct (wn_enum vs n _ W HI) as [W1 _]. cbn [vs_tys] in W1. rewrite Forall_forall in IH. pose proof (IH _ HI) as I2. cbn [snd vs_tys] in I2.
    eapply R_enum_tuple; [reflexivity|exact HI|]. eapply F3_read; eassumption.
  - destruct W as [N W]. match goal with H : In (n, _) vs |- _ => rename H into HI end. destruct (wn_enum vs n _ W HI) as [W1 W2]. cbn [vs_tys] in W1. rewrite Forall_forall in IH. pose proof (IH _ HI) as I2. cbn [snd vs_tys] in I2.
    eapply R_enum_struct; [reflexivity|exact HI|]. eapply struct_read; [exact I2|exact W2|exact W1|reflexivity|eassumption].
Qed.

(** ** Monotone in the leaves; under maps of values *)
Section Monotone.
  Context {T U} (f : value T -> value U) (leaf leaf' : ty -> Prop).
  Definition moves t := forall x v, lies leaf t x v -> lies leaf' t x (f v).
  Lemma F3_moves ts xs vs : Forall moves ts -> Forall3 (lies leaf) ts xs vs -> Forall3 (lies leaf') ts xs (map f vs).
  Proof. intros F H. revert F. induction H; intro F; inv F; cbn [map]; constructor; auto. Qed.
  Lemma fields_moves (fs : list (str * ty)) (ds : list (str * data)) l : Forall moves (map snd fs) ->
    Forall3 (fun ft nx kv => fst nx = fst ft /\ fst kv = fst ft /\ lies leaf (snd ft) (snd nx) (snd kv)) fs ds l ->
    Forall3 (fun ft nx kv => fst nx = fst ft /\ fst kv = fst ft /\ lies leaf' (snd ft) (snd nx) (snd kv)) fs ds (map (fun kv => (fst kv, f (snd kv))) l).
  Proof. intros F H. revert F. induction H as [|ft nx kv fs ds l (E1 & E2 & HL) _ IH]; intro F; cbn [map] in *; [constructor|]. inv F. constructor; [cbn [fst snd]; auto|auto]. Qed.
  Lemma map_moves t (m : list (str * data)) l : moves t ->
    Forall2 (fun kx kv => fst kv = fst kx /\ lies leaf t (snd kx) (snd kv)) m l -> Forall2 (fun kx kv => fst kv = fst kx /\ lies leaf' t (snd kx) (snd kv)) m (map (fun kv => (fst kv, f (snd kv))) l).
  Proof. intros F H. induction H as [|kx kv m l [E HL] _ IH]; cbn [map]; constructor; cbn [fst snd]; auto. Qed.
  Lemma vec_moves t (xs : list data) l : moves t -> Forall2 (lies leaf t) xs l -> Forall2 (lies leaf' t) xs (map f l).
  Proof. intros F H. induction H; cbn [map]; constructor; auto. Qed.
End Monotone.

Theorem lies_more {T} (leaf leaf' : ty -> Prop) t : (forall t, leaf t -> leaf' t) -> forall x (v : value T), lies leaf t x v -> lies leaf' t x v.
Proof.
  intro M. change (moves (fun v : value T => v) leaf leaf' t).
  assert (ID : forall (l : list (value T)), map (fun v => v) l = l) by (intro l; apply map_id).
  assert (IDF : forall (l : list (str * value T)), map (fun kv => (fst kv, snd kv)) l = l) by (intro l; rewrite <- map_id; apply map_ext; intros []; reflexivity).
  induction t as [|sg w| | | | |t IH|t IH|ts IH|t IH|t IH| |t IH|ts IH|fs IH|vs IH| | | |] using ty_ind'; intros x v H; (inv H; [apply L_leaf; auto|..]).
  - apply L_none.
  - apply L_some. now apply IH.
  - apply L_vec. match goal with H : Forall2 _ _ _ |- _ => apply (vec_moves _ _ _ _ _ _ IH) in H end. now rewrite ID in *.
  - apply L_tuple. match goal with H : Forall3 _ _ _ _ |- _ => apply (F3_moves _ _ _ _ _ _ IH) in H end. now rewrite ID in *.
  - apply L_map; [assumption|]. match goal with H : Forall2 _ _ _ |- _ => apply (map_moves _ _ _ _ _ _ IH) in H end. now rewrite IDF in *.
  - apply L_map_char; [assumption|assumption|]. match goal with H : Forall2 _ _ _ |- _ => apply (map_moves _ _ _ _ _ _ IH) in H end. now rewrite IDF in *.
  - apply L_tuple_struct. match goal with H : Forall3 _ _ _ _ |- _ => apply (F3_moves _ _ _ _ _ _ IH) in H end. now rewrite ID in *.
  - apply L_struct. match goal with H : Forall3 _ _ _ _ |- _ => apply (fields_moves _ _ _ _ _ _ IH) in H end. now rewrite IDF in *.
  - now apply L_enum_unit.
  - match goal with H : In (n, _) vs |- _ => rename H into HI end. rewrite Forall_forall in IH. pose proof (IH _ HI) as I2. cbn [snd vs_tys] in I2. eapply L_enum_tuple; [exact HI|].
    match goal with H : Forall3 _ _ _ _ |- _ => apply (F3_moves _ _ _ _ _ _ I2) in H end. now rewrite ID in *.
  - match goal with H : In (n, _) vs |- _ => rename H into HI end. rewrite Forall_forall in IH. pose proof (IH _ HI) as I2. cbn [snd vs_tys] in I2. eapply L_enum_struct; [exact HI|].
    match goal with H : Forall3 _ _ _ _ |- _ => apply (fields_moves _ _ _ _ _ _ I2) in H end. now rewrite IDF in *.
Qed.

(** Through text: contexts and the type of numbers change. *)
Lemma nv_enum (vs : list (str * vshape ty)) n b : no_values (TyEnum vs) -> In (n, b) vs -> Forall no_values (vs_tys b).
Proof.
  cbn [no_values]. induction vs as [|[m c] vs IH]; intros H I; [destruct I|]. cbn [fold_right] in H. destruct H as [H1 H2]. destruct I as [E|I]; [|auto]. injection E as -> ->.
  destruct b; cbn [vs_tys]; [constructor|now repeat constructor|now apply forall_no_values|now apply forall_no_values_f].
Qed.
Lemma moves_all {T U} (f : value T -> value U) leaf ts : Forall (fun t => no_values t -> moves f leaf leaf t) ts -> Forall no_values ts -> Forall (moves f leaf leaf) ts.
Proof. intros F N. rewrite Forall_forall in *. auto. Qed.
Theorem lies_unsigned {T} leaf t : no_values t -> forall x (v : value T), lies leaf t x v -> lies leaf t x (unsigned_form v).
Proof.
  intro NV0. change (moves (T := T) unsigned_form leaf leaf t). revert NV0.
  induction t as [|sg w| | | | |t IH|t IH|ts IH|t IH|t IH| |t IH|ts IH|fs IH|vs IH| | | |] using ty_ind'; intros NV x v H;
    (inv H; [apply L_leaf; [assumption|]; match goal with K : from_value ?t ?v = Ok ?d |- _ => exact (de_keeps t NV (SrcValue v) d K) end|..]); cbn [unsigned_form]; cbn [no_values] in NV; try (specialize (IH NV)).
  - apply L_none.
  - apply L_some. now apply IH.
  - apply L_vec. eapply vec_moves; eassumption.
  - apply L_tuple. apply forall_no_values in NV. eapply F3_moves; [|eassumption]. now apply moves_all.
  - apply L_map; [assumption|]. eapply map_moves; eassumption.
  - apply L_map_char; [assumption|assumption|]. eapply map_moves; eassumption.
  - apply L_tuple_struct. apply forall_no_values in NV. eapply F3_moves; [|eassumption]. now apply moves_all.
  - apply L_struct. apply forall_no_values_f in NV. eapply fields_moves; [|eassumption]. now apply moves_all.
  - now apply L_enum_unit.
  - match goal with H : In (n, _) vs |- _ => rename H into HI end. rewrite Forall_forall in IH. pose proof (IH _ HI) as I2. cbn [snd vs_tys] in I2. eapply L_enum_tuple; [exact HI|].
    eapply F3_moves; [|eassumption]. apply moves_all; [exact I2|]. exact (nv_enum vs n _ NV HI).
  - match goal with H : In (n, _) vs |- _ => rename H into HI end. rewrite Forall_forall in IH. pose proof (IH _ HI) as I2. cbn [snd vs_tys] in I2. eapply L_enum_struct; [exact HI|].
    eapply fields_moves; [|eassumption]. apply moves_all; [exact I2|]. exact (nv_enum vs n _ NV HI).
Qed.

(** ** [to_value] lays data out *)
Definition lays t := forall x v, data_of t x -> writes t x v -> laid_out t x v.
Lemma F3_lays ts xs vs : Forall lays ts -> Forall2 data_of ts xs -> Forall3 writes ts xs vs -> Forall3 laid_out ts xs vs.
Proof. intros F D H. revert F D. induction H; intros F D; inv F; inv D; constructor; auto. Qed.
Lemma fields_lays (fs : list (str * ty)) (ds : list (str * data)) (l : list (str * value unit)) : Forall lays (map snd fs) -> Forall2 (fun ft nx => fst nx = fst ft /\ data_of (snd ft) (snd nx)) fs ds ->
  Forall3 (fun ft nx kv => fst nx = fst ft /\ fst kv = fst ft /\ writes (snd ft) (snd nx) (snd kv)) fs ds l ->
  Forall3 (fun ft nx kv => fst nx = fst ft /\ fst kv = fst ft /\ laid_out (snd ft) (snd nx) (snd kv)) fs ds l.
Proof.
  intros F D H. revert F D. induction H as [|ft nx kv fs ds l (E1 & E2 & HW) _ IH]; intros F D; [constructor|]. cbn [map] in F. inv F. inv D. constructor; [|auto].
  match goal with H : _ /\ _ |- _ => destruct H as [_ D1] end. repeat split; auto.
Qed.
Lemma map_lays t (m : list (str * data)) (l : list (str * value unit)) : lays t -> Forall (fun kx => data_of t (snd kx)) m ->
  Forall2 (fun kx kv => fst kv = fst kx /\ writes t (snd kx) (snd kv)) m l -> Forall2 (fun kx kv => fst kv = fst kx /\ laid_out t (snd kx) (snd kv)) m l.
Proof. intros F D H. revert D. induction H as [|kx kv m l [E HW] _ IH]; intro D; inv D; constructor; auto. Qed.
Lemma vec_lays t xs vs : lays t -> Forall (data_of t) xs -> Forall2 (writes t) xs vs -> Forall2 (laid_out t) xs vs.
Proof. intros F D H. revert D. induction H; intro D; inv D; constructor; auto. Qed.
Lemma leaf_read t x (v : value unit) : scalar t -> well_named t -> reads t (AtValue v) x -> laid_out t x v.
Proof. intros S W R. apply L_leaf; [exact S|]. now apply exact. Qed.
Lemma lays_all ts : Forall (fun t => ty_wf t -> no_values t -> lays t) ts -> Forall ty_wf ts -> Forall no_values ts -> Forall lays ts.
Proof. intros F N K. rewrite Forall_forall in *. auto. Qed.
Lemma wf_enum (vs : list (str * vshape ty)) n b : ty_wf (TyEnum vs) -> In (n, b) vs -> Forall ty_wf (vs_tys b) /\ forall t, b <> VsNewtype t.
Proof.
  cbn [ty_wf]. intros [_ H]. revert H. induction vs as [|[m c] vs IH]; intros H I; [destruct I|]. cbn [fold_right] in H. destruct H as [H1 H2]. destruct I as [E|I]; [|auto]. injection E as -> ->.
  destruct b; cbn [vs_tys].
  - split; [constructor|discriminate].
  - destruct H1.
  - split; [apply all_wf_forall; exact (proj2 H1)|discriminate].
  - split; [apply all_wf_fields; exact (proj2 H1)|discriminate].
Qed.
Theorem all_lays t : ty_wf t -> no_values t -> lays t.
Proof.
  induction t as [|sg w| | | | |t IH|t IH|ts IH|t IH|t IH| |t IH|ts IH|fs IH|vs IH| | | |] using ty_ind'; intros WF NV x v D H; cbn [no_values] in NV; try contradiction.
  - inv H. apply leaf_read; [exact I|exact I|]. now apply R_bool.
  - inv D. inv H; (apply leaf_read; [exact I|exact I|]; eapply R_int; [reflexivity|reflexivity|assumption]).
  - inv H. apply leaf_read; [exact I|exact I|]. apply R_char. now left.
  - inv H. apply leaf_read; [exact I|exact I|]. now apply R_string.
  - inv H. apply leaf_read; [exact I|exact I|]. eapply R_unit; reflexivity.
  - inv H. inv D. apply leaf_read; [exact I|exact I|]. eapply R_bytes; [reflexivity|]. cbn [values]. match goal with H : Forall _ bs |- _ => induction H; cbn [map]; constructor; auto end.
  - inv D; inv H; [apply L_none|]. apply L_some. now apply IH.
  - inv D. inv H. apply L_vec. apply vec_lays; auto.
  - inv D. inv H. apply L_tuple. apply forall_no_values in NV. cbn [ty_wf] in WF. apply all_wf_forall in WF. apply F3_lays; auto. now apply lays_all.
  - inv D. inv H. apply L_map; [assumption|]. apply map_lays; auto.
  - inv D. inv H. match goal with H : Forall (fun kx => _ /\ _) m |- _ => rename H into HD end. apply L_map_char; [assumption|assumption|]. apply map_lays; [now apply IH| |assumption]. eapply Forall_impl; [|exact HD]. intros a [_ K]. exact K.
  - inv H. apply leaf_read; [exact I|exact I|]. eapply R_unit_struct; reflexivity.
  - inv D. inv H. apply L_tuple_struct. apply forall_no_values in NV. cbn [ty_wf] in WF. destruct WF as [_ WF]. apply all_wf_forall in WF. apply F3_lays; auto. now apply lays_all.
  - inv D. inv H. apply L_struct. apply forall_no_values_f in NV. cbn [ty_wf] in WF. destruct WF as [_ WF]. apply all_wf_fields in WF. apply fields_lays; auto. now apply lays_all.
  - assert (NN : NoDup (map fst vs)) by apply WF. rewrite Forall_forall in IH. inv H.
    + apply L_enum_unit. assumption.
    + match goal with H : In (n, _) vs |- _ => rename H into HI end. destruct (wf_enum _ _ _ WF HI) as [_ K]. destruct (K _ eq_refl).
    + match goal with H : In (n, _) vs |- _ => rename H into HI end. inv D. match goal with H : In (n, VsTuple ?b) vs, HW : Forall2 _ ?b _ |- _ => pose proof (nodup_in _ _ _ _ NN H HI) as E end. injection E as ->.
      pose proof (IH _ HI) as I2. cbn [snd vs_tys] in I2. destruct (wf_enum _ _ _ WF HI) as [W1 _]. pose proof (nv_enum vs n _ NV HI) as N1. cbn [vs_tys] in W1, N1. eapply L_enum_tuple; [exact HI|]. apply F3_lays; auto. now apply lays_all.
    + match goal with H : In (n, _) vs |- _ => rename H into HI end. inv D. match goal with H : In (n, VsStruct ?b) vs, HW : Forall2 _ ?b _ |- _ => pose proof (nodup_in _ _ _ _ NN H HI) as E end. injection E as ->.
      pose proof (IH _ HI) as I2. cbn [snd vs_tys] in I2. destruct (wf_enum _ _ _ WF HI) as [W1 _]. pose proof (nv_enum vs n _ NV HI) as N1. cbn [vs_tys] in W1, N1. eapply L_enum_struct; [exact HI|]. apply fields_lays; auto. now apply lays_all.
Qed.

(** ** One step *)
Section Step.
  Context {T : Type}.
  Definition exchanges (l : location) (v w v' w' : value T) : Prop := lookup_is v l w /\ forall p z, put w p z w' -> put v (l :: p) z v'.
  Lemma ex_unnamed vs1 w vs2 w' i ctx : length vs1 = i -> exchanges (LIdx i) (Val (DComposite (Unnamed (vs1 ++ w :: vs2))) ctx) w (Val (DComposite (Unnamed (vs1 ++ w' :: vs2))) ctx) w'.
  Proof. intros <-. split; [eapply put_field_lookup, (PF_index vs1 w w vs2)|]. intros p z P. eapply Put_composite; [constructor|exact P]. Qed.
  Lemma ex_named vs1 n w vs2 w' l i ctx : NoDup (map fst (vs1 ++ (n, w) :: vs2)) -> i = length vs1 -> name_or_index l n i -> exchanges l (Val (DComposite (Named (vs1 ++ (n, w) :: vs2))) ctx) w (Val (DComposite (Named (vs1 ++ (n, w') :: vs2))) ctx) w'.
  Proof. intros N E L. split; [eapply put_field_lookup, put_named with (x' := w); eassumption|]. intros p z P. eapply Put_composite; [eapply put_named; eassumption|exact P]. Qed.
  Lemma ex_unnamed_v m vs1 w vs2 w' i ctx : length vs1 = i -> exchanges (LIdx i) (Val (DVariant m (Unnamed (vs1 ++ w :: vs2))) ctx) w (Val (DVariant m (Unnamed (vs1 ++ w' :: vs2))) ctx) w'.
  Proof. intros <-. split; [eapply put_field_lookup, (PF_index vs1 w w vs2)|]. intros p z P. eapply Put_variant; [constructor|exact P]. Qed.
  Lemma ex_named_v m vs1 n w vs2 w' l i ctx : NoDup (map fst (vs1 ++ (n, w) :: vs2)) -> i = length vs1 -> name_or_index l n i -> exchanges l (Val (DVariant m (Named (vs1 ++ (n, w) :: vs2))) ctx) w (Val (DVariant m (Named (vs1 ++ (n, w') :: vs2))) ctx) w'.
  Proof. intros N E L. split; [eapply put_field_lookup, put_named with (x' := w); eassumption|]. intros p z P. eapply Put_variant; [eapply put_named; eassumption|exact P]. Qed.
  Lemma lkeys2 leaf (t : ty) (m : list (str * data)) (l : list (str * value T)) : Forall2 (fun kx kv => fst kv = fst kx /\ lies leaf t (snd kx) (snd kv)) m l -> map fst l = map fst m.
  Proof. induction 1 as [|a b m l [E _] _ IH]; cbn [map]; [reflexivity|now f_equal]. Qed.
  Lemma lkeys3 leaf (fs : list (str * ty)) (ds : list (str * data)) (l : list (str * value T)) :
    Forall3 (fun ft nx kv => fst nx = fst ft /\ fst kv = fst ft /\ lies leaf (snd ft) (snd nx) (snd kv)) fs ds l -> map fst l = map fst fs.
  Proof. induction 1 as [|a b c fs ds l (_ & E & _) _ IH]; cbn [map]; [reflexivity|now f_equal]. Qed.

  Lemma F3_map {A B C} (R R' : A -> B -> C -> Prop) la lb lc : (forall a b c, R a b c -> R' a b c) -> Forall3 R la lb lc -> Forall3 R' la lb lc.
  Proof. intros I H. induction H; constructor; auto. Qed.
  Lemma F2_map {A B} (R R' : A -> B -> Prop) la lb : (forall a b, R a b -> R' a b) -> Forall2 R la lb -> Forall2 R' la lb.
  Proof. intros I H. induction H; constructor; auto. Qed.

  Lemma child_lies0 (leaf : ty -> Prop) t x x' l s a a' (v : value T) : (forall t, scalar t -> leaf t) -> child t x x' l s a a' -> well_named t -> laid_out t x v ->
    well_named s /\ exists w, laid_out s a w /\ forall w', exists v', (lies leaf s a' w' -> lies leaf t x' v') /\ exchanges l v w v' w'.
  Proof.
    intros M H W LO.
    assert (M3 : forall ts xs (vs : list (value T)), Forall3 (lies scalar) ts xs vs -> Forall3 (lies leaf) ts xs vs) by (intros ts0 xs0 vs0; apply F3_map; intros; now eapply lies_more; [exact M|]).
    assert (MF : forall fs ds (vs : list (str * value T)), Forall3 (fun (ft : str * ty) (nx : str * data) kv => fst nx = fst ft /\ fst kv = fst ft /\ lies scalar (snd ft) (snd nx) (snd kv)) fs ds vs ->
      Forall3 (fun ft nx kv => fst nx = fst ft /\ fst kv = fst ft /\ lies leaf (snd ft) (snd nx) (snd kv)) fs ds vs) by (intros ts0 xs0 vs0; apply F3_map; intros ? ? ? (? & ? & ?); repeat split; auto; now eapply lies_more; [exact M|]).
    assert (MM : forall t m (vs : list (str * value T)), Forall2 (fun (nx : str * data) kv => fst kv = fst nx /\ lies scalar t (snd nx) (snd kv)) m vs -> Forall2 (fun nx kv => fst kv = fst nx /\ lies leaf t (snd nx) (snd kv)) m vs)
      by (intros ts0 xs0 vs0; apply F2_map; intros ? ? (? & ?); split; auto; now eapply lies_more; [exact M|]).
    assert (MV : forall t m (vs : list (value T)), Forall2 (lies scalar t) m vs -> Forall2 (lies leaf t) m vs) by (intros ts0 xs0 vs0; apply F2_map; intros; now eapply lies_more; [exact M|]).
    unfold laid_out in *. inv H; (inv LO; try match goal with K : scalar _ |- _ => destruct K end); cbn [well_named] in W.
    - split; [exact W|]. eexists. split; [eassumption|]. intros w'. eexists. split; [intro WW; apply L_some; exact WW|]. apply (ex_unnamed_v _ [] _ []). reflexivity.
    - split; [exact W|]. match goal with H : Forall2 _ _ _ |- _ => apply F2_split in H as (v1 & w & v2 & -> & L & F1 & F2 & F3) end. exists w. split; [exact F2|]. intros w'. eexists. split; [intro WW; apply L_vec; apply F2_join; [apply MV; exact F1|exact WW|apply MV; exact F3]|]. now apply ex_unnamed.
    - apply wn_list in W. apply Forall_app in W as [_ W]. split; [exact (Forall_inv W)|]. match goal with H : Forall3 _ _ _ _ |- _ => apply F3_split in H as (v1 & w & v2 & -> & L & F1 & F2 & F3); [|assumption] end. exists w. split; [exact F2|]. intros w'. eexists. split; [intro WW; apply L_tuple; apply F3_join; [apply M3; exact F1|exact WW|apply M3; exact F3]|]. now apply ex_unnamed.
    - apply wn_list in W. apply Forall_app in W as [_ W]. split; [exact (Forall_inv W)|]. match goal with H : Forall3 _ _ _ _ |- _ => apply F3_split in H as (v1 & w & v2 & -> & L & F1 & F2 & F3); [|assumption] end. exists w. split; [exact F2|]. intros w'. eexists. split; [intro WW; apply L_tuple_struct; apply F3_join; [apply M3; exact F1|exact WW|apply M3; exact F3]|]. now apply ex_unnamed.
    - split; [exact W|]. match goal with H : Forall2 _ _ _ |- _ => pose proof (lkeys2 _ _ _ _ H) as K; apply F2_split in H as (v1 & [n w] & v2 & -> & L & F1 & [F2 F2'] & F3) end. cbn [fst snd] in F2, F2'. subst n. exists w. split; [exact F2'|]. intros w'.
      exists (Val (DComposite (Named (v1 ++ (k, w') :: v2))) ctx). split.
      + intro WW. apply L_map; [eapply same_keys; eassumption|]. apply F2_join; [apply MM; exact F1|split; [reflexivity|exact WW]|apply MM; exact F3].
      + eapply ex_named; [rewrite K; now apply rises_nodup|symmetry; exact L|assumption].
    - split; [exact W|]. match goal with H : Forall2 _ _ _ |- _ => pose proof (lkeys2 _ _ _ _ H) as K; apply F2_split in H as (v1 & [n w] & v2 & -> & L & F1 & [F2 F2'] & F3) end. cbn [fst snd] in F2, F2'. subst n. exists w. split; [exact F2'|]. intros w'.
      exists (Val (DComposite (Named (v1 ++ (k, w') :: v2))) ctx). split.
      + intro WW. apply L_map_char; [eapply same_keys; eassumption| |].
        * match goal with H : Forall _ (_ ++ _ :: _) |- _ => apply Forall_app in H as [G1 G2]; inv G2; apply Forall_app; split; [exact G1|constructor; assumption] end.
        * apply F2_join; [apply MM; exact F1|split; [reflexivity|exact WW]|apply MM; exact F3].
      + eapply ex_named; [rewrite K; now apply rises_nodup|symmetry; exact L|assumption].
    - destruct W as [N W]. apply wn_fields in W. rewrite map_app in W. apply Forall_app in W as [_ W]. split; [exact (Forall_inv W)|].
      match goal with H : Forall3 _ _ _ _ |- _ => pose proof (lkeys3 _ _ _ _ H) as K; apply F3_split in H as (v1 & [m w] & v2 & -> & L & F1 & (F2 & F2' & F2'') & F3); [|assumption] end. cbn [fst snd] in F2, F2', F2''. subst m. exists w. split; [exact F2''|]. intros w'.
      exists (Val (DComposite (Named (v1 ++ (n, w') :: v2))) ctx). split; [intro WW; apply L_struct; apply F3_join; [apply MF; exact F1|auto|apply MF; exact F3]|]. eapply ex_named; [rewrite K; exact N|symmetry; exact L|assumption].
    - match goal with H : In (n, VsTuple (ts1 ++ _)) vs |- _ => rename H into HI end. destruct W as [N W]. match goal with H : In (n, VsTuple ?b) vs, HW : Forall3 _ ?b _ _ |- _ => pose proof (nodup_in _ _ _ _ N H HI) as E end. injection E as ->.
      destruct (wn_enum vs n _ W HI) as [W1 _]. cbn [vs_tys] in W1. apply Forall_app in W1 as [_ W1]. split; [exact (Forall_inv W1)|].
      match goal with H : Forall3 _ _ _ _ |- _ => apply F3_split in H as (v1 & w & v2 & -> & L & F1 & F2 & F3); [|assumption] end. exists w. split; [exact F2|]. intros w'. eexists. split; [intro WW; eapply L_enum_tuple; [exact HI|]; apply F3_join; [apply M3; exact F1|exact WW|apply M3; exact F3]|]. now apply ex_unnamed_v.
    - match goal with H : In (n, VsStruct (fs1 ++ _)) vs |- _ => rename H into HI end. destruct W as [N W]. match goal with H : In (n, VsStruct ?b) vs, HW : Forall3 _ ?b _ _ |- _ => pose proof (nodup_in _ _ _ _ N H HI) as E end. injection E as ->. destruct (wn_enum vs n _ W HI) as [W1 W2]. cbn [vs_tys] in W1.
      rewrite map_app in W1. apply Forall_app in W1 as [_ W1]. split; [exact (Forall_inv W1)|].
      match goal with H : Forall3 _ _ _ _ |- _ => pose proof (lkeys3 _ _ _ _ H) as K; apply F3_split in H as (v1 & [m' w] & v2 & -> & L & F1 & (F2 & F2' & F2'') & F3); [|assumption] end. cbn [fst snd] in F2, F2', F2''. subst m'. exists w. split; [exact F2''|]. intros w'.
      exists (Val (DVariant n (Named (v1 ++ (m, w') :: v2))) ctx). split; [intro WW; eapply L_enum_struct; [exact HI|]; apply F3_join; [apply MF; exact F1|auto|apply MF; exact F3]|]. eapply ex_named_v; [rewrite K; exact W2|symmetry; exact L|assumption].
  Qed.


  Lemma child_lies (leaf : ty -> Prop) t x x' l s a a' (v : value T) : (forall t, scalar t -> leaf t) -> child t x x' l s a a' -> well_named t -> laid_out t x v ->
    well_named s /\ exists w, laid_out s a w /\ lookup_is v l w /\ forall w', lies leaf s a' w' -> exists v', lies leaf t x' v' /\ forall p z, put w p z w' -> put v (l :: p) z v'.
  Proof.
    intros M H W LO. destruct (child_lies0 leaf _ _ _ _ _ _ _ v M H W LO) as (W1 & w & LW & HS). split; [exact W1|]. exists w. split; [exact LW|]. split; [destruct (HS w) as (_ & _ & LI & _); exact LI|].
    intros w' WW. destruct (HS w') as (v' & L & _ & EX). exists v'. split; [auto|exact EX].
  Qed.

  (** ** Along a path *)
  Theorem part_lies (leaf : ty -> Prop) t x x' p s y y' : (forall t, scalar t -> leaf t) -> part t x x' p s y y' -> well_named t -> forall v : value T, laid_out t x v ->
    well_named s /\ exists w, laid_out s y w /\ lookup_path v p w /\ forall w', lies leaf s y' w' -> exists v', lies leaf t x' v' /\ put v p w' v'.
  Proof.
    intro M. induction 1 as [t x x'|t x x' l t1 a a' p s y y' H _ IH]; intros W v LO.
    - split; [exact W|]. exists v. split; [exact LO|]. split; [constructor|]. intros w' WW. exists w'. split; [exact WW|constructor].
    - destruct (child_lies leaf _ _ _ _ _ _ _ v M H W LO) as (W1 & w1 & L1 & LI & HS). destruct (IH W1 w1 L1) as (W2 & w & LW & LP & HP). split; [exact W2|]. exists w. split; [exact LW|]. split; [econstructor; eassumption|].
      intros w' WW. destruct (HP w' WW) as (v1 & LV1 & P1). destruct (HS v1 LV1) as (v' & LV & EX). exists v'. split; [exact LV|]. apply EX. exact P1.
  Qed.
End Step.
Lemma part_same t x x' p s y y' : part t x x' p s y y' -> part t x x p s y y.
Proof. induction 1; econstructor; [eapply child_same; eassumption|assumption]. Qed.
Lemma part_puts {T} t x x' p s y y' : part t x x' p s y y' -> well_named t -> forall v w : value T, laid_out t x v -> exists v', put v p w v'.
Proof.
  intro P. induction P as [t x x0|t x x0 l t1 a a' p s y y0 H _ IH]; intros W v w LO; [eexists; constructor|].
  destruct (child_lies0 scalar _ _ _ _ _ _ _ v (fun t H => H) H W LO) as (W2 & w1 & L1 & HS). destruct (IH W2 w1 w L1) as [v1 P1]. destruct (HS v1) as (v' & _ & _ & EX). exists v'. apply EX. exact P1.
Qed.

(** ** The two ways to say that data have a type agree *)
Theorem wf_named t : ty_wf t -> well_named t.
Proof.
  induction t as [|sg w| | | | |t IH|t IH|ts IH|t IH|t IH| |t IH|ts IH|fs IH|vs IH| | | |] using ty_ind'; intros WF; cbn [well_named]; auto.
  - cbn [ty_wf] in WF. apply all_wf_forall in WF. apply wn_list. rewrite Forall_forall in *. auto.
  - cbn [ty_wf] in WF. destruct WF.
  - cbn [ty_wf] in WF. destruct WF as [_ WF]. apply all_wf_forall in WF. apply wn_list. rewrite Forall_forall in *. auto.
  - cbn [ty_wf] in WF. destruct WF as [N WF]. split; [exact N|]. apply all_wf_fields in WF. apply wn_fields. rewrite Forall_forall in *. auto.
  - pose proof WF as WF0. cbn [ty_wf] in WF. destruct WF as [N WF]. split; [exact N|]. clear N WF0. revert WF. induction IH as [|[n b] vs Hb _ IHv]; intro WF; cbn [fold_right] in *; [exact I|]. destruct WF as [W1 W2]. split; [|auto].
    cbn [snd] in Hb. destruct b as [|t'|ts|fs]; cbn [vs_tys] in Hb; [exact I|destruct W1| |].
    + destruct W1 as [_ W1]. apply all_wf_forall in W1. apply wn_list. rewrite Forall_forall in *. auto.
    + destruct W1 as [N W1]. split; [exact N|]. apply all_wf_fields in W1. apply wn_fields. rewrite Forall_forall in *. auto.
Qed.
Lemma increasing_sorted (m : list (str * data)) : increasing (map fst m) -> sorted_keys m.
Proof. intro H. now apply rises_sorted. Qed.
Definition typed t := forall x, of_type t x -> data_of t x.
Lemma all2_data ts xs : Forall typed ts -> all2 apply_to (map of_type ts) xs -> Forall2 data_of ts xs.
Proof. intros F. revert xs. induction F as [|t ts H _ IH]; intros [|x xs] A; cbn [map all2] in A; try destruct A; constructor; auto. Qed.
Lemma all2_fields (fs : list (str * ty)) (ds : list (str * data)) : Forall typed (map snd fs) -> map fst ds = map fst fs -> all2 apply_to (map (fun nt => match nt with (_, t') => of_type t' end) fs) (map snd ds) ->
  Forall2 (fun ft nx => fst nx = fst ft /\ data_of (snd ft) (snd nx)) fs ds.
Proof.
  revert ds. induction fs as [|[n t] fs IH]; intros [|[m x] ds] F E A; cbn [map fst snd all2] in *; try discriminate; [constructor|]. inv F. injection E as -> E. destruct A as [A1 A2]. constructor; [|auto]. cbn [fst snd]. split; [reflexivity|]. auto.
Qed.
Lemma typed_all ts : Forall (fun t => ty_wf t -> no_values t -> typed t) ts -> Forall ty_wf ts -> Forall no_values ts -> Forall typed ts.
Proof. intros F N K. rewrite Forall_forall in *. auto. Qed.
Lemma find_mapped {A B} (f : A -> B) n (l : list (str * A)) b : find_field n (map (fun nb => match nb with (m, a) => (m, f a) end) l) = Some b -> exists a, In (n, a) l /\ b = f a.
Proof.
  induction l as [|[m a] l IH]; cbn [map find_field]; [discriminate|]. destruct (str_eqb n m) eqn:E.
  - intro H. injection H as <-. apply str_eqb_eq in E. subst m. exists a. split; [now left|reflexivity].
  - intro H. destruct (IH H) as (a' & I & ->). exists a'. split; [now right|reflexivity].
Qed.
Theorem of_type_data t : ty_wf t -> no_values t -> typed t.
Proof.
  induction t as [|sg w| | | | |t IH|t IH|ts IH|t IH|t IH| |t IH|ts IH|fs IH|vs IH| | | |] using ty_ind'; intros WF NV x H; cbn [of_type] in H; cbn [no_values] in NV; try contradiction.
  - destruct H as (b & ->). constructor.
  - destruct H as (z & -> & HZ). constructor. now apply in_int_range.
  - destruct H as (b & ->). constructor.
  - destruct H as (b & ->). constructor.
  - subst x. constructor.
  - destruct H as (b & -> & HB). now constructor.
  - destruct H as [->|(y & -> & HY)]; constructor. now apply IH.
  - destruct H as (l & -> & HL). constructor. eapply Forall_impl; [|exact HL]. intros a. now apply IH.
  - destruct H as (l & -> & HL). constructor. apply forall_no_values in NV. cbn [ty_wf] in WF. apply all_wf_forall in WF. apply all2_data; [now apply typed_all|exact HL].
  - destruct H as (l & -> & HK & HL). constructor; [now apply increasing_sorted|]. eapply Forall_impl; [|exact HL]. intros a. now apply IH.
  - destruct H as (l & -> & HK & HL). constructor; [now apply increasing_sorted|]. eapply Forall_impl; [|exact HL]. intros [k a] [K1 K2]. cbn [fst snd] in *. split; [destruct k as [|c [|]]; try discriminate K1; now exists c|now apply IH].
  - subst x. constructor.
  - destruct H as (l & -> & HL). constructor. apply forall_no_values in NV. cbn [ty_wf] in WF. destruct WF as [_ WF]. apply all_wf_forall in WF. apply all2_data; [now apply typed_all|exact HL].
  - destruct H as (l & -> & HK & HL). constructor. apply forall_no_values_f in NV. cbn [ty_wf] in WF. destruct WF as [_ WF]. apply all_wf_fields in WF. apply all2_fields; [now apply typed_all|exact HK|exact HL].
  - destruct H as (n & b & -> & H). match type of H with match ?F with _ => _ end => destruct F as [P|] eqn:E; [|destruct H] end. apply find_mapped in E as (s & HI & ->).
    rewrite Forall_forall in IH. pose proof (IH _ HI) as I2. cbn [snd] in I2. destruct (wf_enum _ _ _ WF HI) as [W1 W2]. pose proof (nv_enum vs n _ NV HI) as N1. destruct s as [|t'|ts|fs]; cbn [vs_tys] in *.
    + subst b. now constructor.
    + destruct (W2 _ eq_refl).
    + destruct H as (l & -> & HL). eapply D_enum_tuple; [exact HI|]. apply all2_data; [now apply typed_all|exact HL].
    + destruct H as (l & -> & HK & HL). eapply D_enum_struct; [exact HI|]. apply all2_fields; [now apply typed_all|exact HK|exact HL].
Qed.
