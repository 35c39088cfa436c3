(** * PlacesFacts: parts of data are parts of their value. *)
From Verif Require Import Base Value Spec_Value ValueFacts Scale Spec_Scale Serde SerdeFacts Spec_Serde SerdeRt SerdeUni Spec_Parts SerdeParts Spec_Maps SerdeMaps Spec_Reads ReadsFacts Spec_ToValue ToValueFacts Spec_Convert ConvertFacts ShuffleFacts Spec_Places.

(** ** One answer *)
Lemma split_same {A} (l1 m1 : list A) x y l2 m2 : length l1 = length m1 -> l1 ++ x :: l2 = m1 ++ y :: m2 -> l1 = m1 /\ x = y /\ l2 = m2.
Proof.
  revert m1. induction l1 as [|a l1 IH]; intros [|b m1] L E; cbn [length app] in *; try discriminate; injection E; intros; subst; [auto|].
  match goal with H : _ ++ _ = _ ++ _ |- _ => destruct (IH m1 ltac:(lia) H) as (-> & -> & ->) end. auto.
Qed.
Lemma split_name {A} (l1 m1 : list (str * A)) n x y l2 m2 : ~ In n (map fst l1) -> ~ In n (map fst m1) -> l1 ++ (n, x) :: l2 = m1 ++ (n, y) :: m2 -> l1 = m1 /\ x = y /\ l2 = m2.
Proof.
  revert m1. induction l1 as [|[k a] l1 IH]; intros [|[k' b] m1] N1 N2 E; cbn [map fst app In] in *; injection E; intros; subst; [auto|destruct N2; now left|destruct N1; now left|].
  match goal with H : _ ++ _ = _ ++ _ |- _ => destruct (IH m1 ltac:(tauto) ltac:(tauto) H) as (-> & -> & ->) end. auto.
Qed.
Lemma put_field_one {T} (c c1 c2 : composite (value T)) l x1 x2 y1 y2 : put_field c l x1 y1 c1 -> put_field c l x2 y2 c2 -> x1 = x2 /\ (y1 = y2 -> c1 = c2).
Proof.
  intros H1 H2. inv H1; inv H2.
  - match goal with H : _ ++ _ = _ ++ _ |- _ => apply split_name in H as (-> & -> & ->); [|assumption..] end. split; [reflexivity|now intros ->].
  - match goal with H : _ ++ _ = _ ++ _ |- _ => apply split_same in H as (-> & E & ->); [|congruence] end. injection E as -> ->. split; [reflexivity|now intros ->].
  - match goal with H : _ ++ _ = _ ++ _ |- _ => apply split_same in H as (-> & -> & ->); [|congruence] end. split; [reflexivity|now intros ->].
Qed.
Lemma put_one {T} (v : value T) p w v1 : put v p w v1 -> forall v2, put v p w v2 -> v1 = v2.
Proof.
  induction 1 as [v w|c c' ctx l x x' p w HF _ IH|n c c' ctx l x x' p w HF _ IH]; intros v2 H2; inv H2; [reflexivity| |];
    match goal with H : put_field _ _ _ _ ?c2 |- context [?c2] => destruct (put_field_one _ _ _ _ _ _ _ _ HF H) as [-> K]; rewrite K; [reflexivity|apply IH; assumption] end.
Qed.

(** ** Looking up *)
Lemma nth_mid {A} (l1 : list A) x l2 : nth_error (l1 ++ x :: l2) (length l1) = Some x.
Proof. induction l1; cbn [length app nth_error]; auto. Qed.
Lemma put_field_sym {T} (c c' : composite (value T)) l x x' : put_field c l x x' c' -> put_field c' l x' x c.
Proof. intro H. inv H; now constructor. Qed.
Lemma put_field_lookup {T} (c c' : composite (value T)) l x x' : put_field c l x x' c' ->
  (forall ctx, lookup_is (Val (DComposite c) ctx) l x) /\ (forall n ctx, lookup_is (Val (DVariant n c) ctx) l x).
Proof.
  intro H. inv H; split; intros.
  - eapply LI_named with (l1 := l1) (l2 := l2); [left; cbn [label_of]; reflexivity|now rewrite map_app|assumption|cbn [fields_of]; now rewrite map_app].
  - eapply LI_named with (l1 := l1) (l2 := l2); [right; cbn [label_of]; eexists; reflexivity|now rewrite map_app|assumption|cbn [fields_of]; now rewrite map_app].
  - apply LI_index. cbn [fields_of]. rewrite map_app. cbn [map snd]. erewrite <- map_length. apply nth_mid.
  - apply LI_index. cbn [fields_of]. rewrite map_app. cbn [map snd]. erewrite <- map_length. apply nth_mid.
  - apply LI_index. cbn [fields_of]. apply nth_mid.
  - apply LI_index. cbn [fields_of]. apply nth_mid.
Qed.
Lemma put_lookup {T} (v : value T) p w v' : put v p w v' -> exists o, lookup_path v p o /\ lookup_path v' p w /\ put v' p o v.
Proof.
  induction 1 as [v w|c c' ctx l x x' p w HF _ (o & I1 & I2 & I3)|n c c' ctx l x x' p w HF _ (o & I1 & I2 & I3)].
  - exists v. split; [constructor|split; constructor].
  - exists o. pose proof (put_field_sym _ _ _ _ _ HF) as HS. split; [|split].
    + econstructor; [apply (proj1 (put_field_lookup _ _ _ _ _ HF))|exact I1].
    + econstructor; [apply (proj1 (put_field_lookup _ _ _ _ _ HS))|exact I2].
    + econstructor; eassumption.
  - exists o. pose proof (put_field_sym _ _ _ _ _ HF) as HS. split; [|split].
    + econstructor; [apply (proj2 (put_field_lookup _ _ _ _ _ HF))|exact I1].
    + econstructor; [apply (proj2 (put_field_lookup _ _ _ _ _ HS))|exact I2].
    + econstructor; eassumption.
Qed.

(** ** Splitting *)
Lemma F3_split {A B C} (R : A -> B -> C -> Prop) la1 a la2 lb1 b lb2 lc : length la1 = length lb1 -> Forall3 R (la1 ++ a :: la2) (lb1 ++ b :: lb2) lc ->
  exists lc1 c lc2, lc = lc1 ++ c :: lc2 /\ length lc1 = length lb1 /\ Forall3 R la1 lb1 lc1 /\ R a b c /\ Forall3 R la2 lb2 lc2.
Proof.
  revert lb1 lc. induction la1 as [|x la1 IH]; intros [|y lb1] lc L F; cbn [length app] in *; try discriminate; inv F.
  - eexists [], _, _. split; [reflexivity|]. split; [reflexivity|]. split; [constructor|]. split; assumption.
  - destruct (IH lb1 lc0 ltac:(lia) ltac:(assumption)) as (lc1 & z & lc2 & -> & L1 & H1 & H2 & H3). eexists (_ :: lc1), z, lc2. split; [reflexivity|]. split; [cbn [length]; lia|]. split; [now constructor|]. split; assumption.
Qed.
Lemma F3_join {A B C} (R : A -> B -> C -> Prop) la1 a la2 lb1 b lb2 lc1 c lc2 : Forall3 R la1 lb1 lc1 -> R a b c -> Forall3 R la2 lb2 lc2 -> Forall3 R (la1 ++ a :: la2) (lb1 ++ b :: lb2) (lc1 ++ c :: lc2).
Proof. induction 1; intros; cbn [app]; constructor; auto. Qed.
Lemma F2_split {A B} (R : A -> B -> Prop) la1 a la2 lb : Forall2 R (la1 ++ a :: la2) lb ->
  exists lb1 b lb2, lb = lb1 ++ b :: lb2 /\ length lb1 = length la1 /\ Forall2 R la1 lb1 /\ R a b /\ Forall2 R la2 lb2.
Proof.
  intro F. apply Forall2_app_inv_l in F as (lb1 & lb2 & F1 & F2 & ->). inv F2. eexists lb1, _, _. split; [reflexivity|]. split; [|auto]. clear -F1. induction F1; cbn [length]; congruence.
Qed.
Lemma F2_join {A B} (R : A -> B -> Prop) la1 a la2 lb1 b lb2 : Forall2 R la1 lb1 -> R a b -> Forall2 R la2 lb2 -> Forall2 R (la1 ++ a :: la2) (lb1 ++ b :: lb2).
Proof. induction 1; intros; cbn [app]; constructor; auto. Qed.
Lemma F2_pair_split {A B} (R : A -> B -> Prop) la1 a la2 lb1 b lb2 : length la1 = length lb1 -> Forall2 R (la1 ++ a :: la2) (lb1 ++ b :: lb2) -> Forall2 R la1 lb1 /\ R a b /\ Forall2 R la2 lb2.
Proof.
  intros L F. destruct (F2_split _ _ _ _ _ F) as (m1 & y & m2 & E & L1 & F1 & F2 & F3). apply split_same in E as (-> & -> & ->); [auto|congruence].
Qed.
Lemma not_before {A} (l1 : list (str * A)) n x l2 : NoDup (map fst (l1 ++ (n, x) :: l2)) -> ~ In n (map fst l1).
Proof. rewrite map_app. cbn [map fst]. intros N I. apply NoDup_remove_2 in N. apply N, in_app_iff. now left. Qed.
Lemma put_named {T} (l1 : list (str * value T)) n x x' l2 l i : NoDup (map fst (l1 ++ (n, x) :: l2)) -> i = length l1 -> name_or_index l n i ->
  put_field (Named (l1 ++ (n, x) :: l2)) l x x' (Named (l1 ++ (n, x') :: l2)).
Proof. intros N -> [-> | ->]; [|constructor]. constructor. eapply not_before. exact N. Qed.

(** ** One step *)
Lemma same_keys {A} (l1 : list (str * A)) k a a' l2 : sorted_keys (l1 ++ (k, a) :: l2) -> sorted_keys (l1 ++ (k, a') :: l2).
Proof.
  induction l1 as [|[n b] l1 IH]; cbn [app]; intro S; inv S; constructor; auto.
  intros k' x' I. apply in_app_iff in I as [I|[I|I]].
  - match goal with H : forall k' x', In _ _ -> _ |- _ => eapply H end. apply in_app_iff. left. exact I.
  - injection I as <- <-. match goal with H : forall k' x', In _ _ -> _ |- _ => eapply H end. apply in_app_iff. right. left. reflexivity.
  - match goal with H : forall k' x', In _ _ -> _ |- _ => eapply H end. apply in_app_iff. right. right. exact I.
Qed.
Lemma child_typed t x x' l s a a' : child t x x' l s a a' -> well_named t -> data_of t x -> well_named s /\ data_of s a /\ (data_of s a' -> data_of t x').
Proof.
  intros H W D. inv H; inv D; cbn [well_named] in W.
  - split; [exact W|]. split; [assumption|]. now constructor.
  - split; [exact W|]. match goal with H : Forall _ _ |- _ => apply Forall_app in H as [F1 F2] end. inv F2. split; [assumption|]. intro K. constructor. apply Forall_app. split; [assumption|now constructor].
  - apply wn_list in W. apply Forall_app in W as [_ W]. match goal with H : Forall2 _ _ _ |- _ => apply F2_pair_split in H as (F1 & F2 & F3); [|assumption] end. split; [exact (Forall_inv W)|]. split; [exact F2|]. intro K. constructor. now apply F2_join.
  - apply wn_list in W. apply Forall_app in W as [_ W]. match goal with H : Forall2 _ _ _ |- _ => apply F2_pair_split in H as (F1 & F2 & F3); [|assumption] end. split; [exact (Forall_inv W)|]. split; [exact F2|]. intro K. constructor. now apply F2_join.
  - split; [exact W|]. split; [assumption|]. now constructor.
  - split; [exact W|]. match goal with H : Forall _ _ |- _ => apply Forall_app in H as [F1 F2] end. inv F2. split; [assumption|]. intro K. constructor; [eapply same_keys; eassumption|]. apply Forall_app. split; [assumption|now constructor].
  - split; [exact W|]. match goal with H : Forall _ _ |- _ => apply Forall_app in H as [F1 F2] end. inv F2. match goal with H : _ /\ _ |- _ => destruct H as [K1 K2] end. split; [assumption|]. intro K. constructor; [eapply same_keys; eassumption|]. apply Forall_app. split; [assumption|]. constructor; [split; assumption|assumption].
  - destruct W as [_ W]. apply wn_fields in W. rewrite map_app in W. apply Forall_app in W as [_ W]. match goal with H : Forall2 _ _ _ |- _ => apply F2_pair_split in H as (F1 & F2 & F3); [|assumption] end.
    split; [exact (Forall_inv W)|]. split; [apply F2|]. intro K. constructor. apply F2_join; [assumption|split; [reflexivity|exact K]|assumption].
  - match goal with H : In (n, VsNewtype s) vs |- _ => rename H into HI end. destruct W as [N W]. destruct (wn_enum vs n _ W HI) as [W1 _]. match goal with H : In (n, VsNewtype _) vs |- _ => pose proof (nodup_in _ _ _ _ N H HI) as E end. injection E as ->. cbn [vs_tys] in W1.
    split; [exact (Forall_inv W1)|]. split; [assumption|]. intro K. eapply D_enum_newtype; eassumption.
  - match goal with H : In (n, VsTuple (ts1 ++ _)) vs |- _ => rename H into HI end. destruct W as [N W]. destruct (wn_enum vs n _ W HI) as [W1 _]. match goal with H : In (n, VsTuple _) vs |- _ => pose proof (nodup_in _ _ _ _ N H HI) as E end. injection E as ->. cbn [vs_tys] in W1. apply Forall_app in W1 as [_ W1].
    match goal with H : Forall2 _ _ _ |- _ => apply F2_pair_split in H as (F1 & F2 & F3); [|assumption] end. split; [exact (Forall_inv W1)|]. split; [exact F2|]. intro K. eapply D_enum_tuple; [exact HI|]. now apply F2_join.
  - match goal with H : In (n, VsStruct (fs1 ++ _)) vs |- _ => rename H into HI end. destruct W as [N W]. destruct (wn_enum vs n _ W HI) as [W1 _]. match goal with H : In (n, VsStruct _) vs |- _ => pose proof (nodup_in _ _ _ _ N H HI) as E end. injection E as ->. cbn [vs_tys] in W1. rewrite map_app in W1. apply Forall_app in W1 as [_ W1].
    match goal with H : Forall2 _ _ _ |- _ => apply F2_pair_split in H as (F1 & F2 & F3); [|assumption] end. split; [exact (Forall_inv W1)|]. split; [apply F2|]. intro K. eapply D_enum_struct; [exact HI|]. apply F2_join; [assumption|split; [reflexivity|exact K]|assumption].
Qed.
Definition steps (l : location) (v w v' w' : value unit) : Prop := forall p z, put w p z w' -> put v (l :: p) z v'.
Lemma step_unnamed vs1 w vs2 w' i : length vs1 = i -> steps (LIdx i) (unnamed_composite (vs1 ++ w :: vs2)) w (unnamed_composite (vs1 ++ w' :: vs2)) w'.
Proof. intros <- p z P. eapply Put_composite; [constructor|exact P]. Qed.
Lemma step_named vs1 n w vs2 w' l i : NoDup (map fst (vs1 ++ (n, w) :: vs2)) -> i = length vs1 -> name_or_index l n i -> steps l (named_composite (vs1 ++ (n, w) :: vs2)) w (named_composite (vs1 ++ (n, w') :: vs2)) w'.
Proof. intros N E L p z P. eapply Put_composite; [eapply put_named; eassumption|exact P]. Qed.
Lemma step_unnamed_v m vs1 w vs2 w' i : length vs1 = i -> steps (LIdx i) (unnamed_variant m (vs1 ++ w :: vs2)) w (unnamed_variant m (vs1 ++ w' :: vs2)) w'.
Proof. intros <- p z P. eapply Put_variant; [constructor|exact P]. Qed.
Lemma step_named_v m vs1 n w vs2 w' l i : NoDup (map fst (vs1 ++ (n, w) :: vs2)) -> i = length vs1 -> name_or_index l n i -> steps l (named_variant m (vs1 ++ (n, w) :: vs2)) w (named_variant m (vs1 ++ (n, w') :: vs2)) w'.
Proof. intros N E L p z P. eapply Put_variant; [eapply put_named; eassumption|exact P]. Qed.
Lemma keys2 (t : ty) (m : list (str * data)) (l : list (str * value unit)) : Forall2 (fun kx kv => fst kv = fst kx /\ writes t (snd kx) (snd kv)) m l -> map fst l = map fst m.
Proof. induction 1 as [|a b m l [E _] _ IH]; cbn [map]; [reflexivity|now f_equal]. Qed.
Lemma keys3 (fs : list (str * ty)) (ds : list (str * data)) (l : list (str * value unit)) :
  Forall3 (fun ft nx kv => fst nx = fst ft /\ fst kv = fst ft /\ writes (snd ft) (snd nx) (snd kv)) fs ds l -> map fst l = map fst fs.
Proof. induction 1 as [|a b c fs ds l (_ & E & _) _ IH]; cbn [map]; [reflexivity|now f_equal]. Qed.

Lemma child_written t x x' l s a a' v : child t x x' l s a a' -> well_named t -> data_of t x -> writes t x v ->
  exists w, writes s a w /\ forall w', writes s a' w' -> exists v', writes t x' v' /\ steps l v w v' w'.
Proof.
  intros H W D WR. inv H; inv WR; cbn [well_named] in W.
  - eexists. split; [eassumption|]. intros w' WW. eexists. split; [constructor; exact WW|]. apply (step_unnamed_v _ [] _ []). reflexivity.
  - match goal with H : Forall2 _ _ _ |- _ => apply F2_split in H as (v1 & w & v2 & -> & L & F1 & F2 & F3) end. exists w. split; [exact F2|]. intros w' WW. eexists. split; [constructor; apply F2_join; [exact F1|exact WW|exact F3]|]. now apply step_unnamed.
  - match goal with H : Forall3 _ _ _ _ |- _ => apply F3_split in H as (v1 & w & v2 & -> & L & F1 & F2 & F3); [|assumption] end. exists w. split; [exact F2|]. intros w' WW. eexists. split; [constructor; apply F3_join; [exact F1|exact WW|exact F3]|]. now apply step_unnamed.
  - match goal with H : Forall3 _ _ _ _ |- _ => apply F3_split in H as (v1 & w & v2 & -> & L & F1 & F2 & F3); [|assumption] end. exists w. split; [exact F2|]. intros w' WW. eexists. split; [constructor; apply F3_join; [exact F1|exact WW|exact F3]|]. now apply step_unnamed.
  - eexists. split; [eassumption|]. intros w' WW. eexists. split; [constructor; exact WW|]. apply (step_unnamed [] _ []). reflexivity.
  - match goal with H : Forall2 _ _ _ |- _ => pose proof (keys2 _ _ _ H) as K; apply F2_split in H as (v1 & [n w] & v2 & -> & L & F1 & [F2 F2'] & F3) end. cbn [fst snd] in F2, F2'. subst n. exists w. split; [exact F2'|]. intros w' WW.
    exists (named_composite (v1 ++ (k, w') :: v2)). split; [constructor; apply F2_join; [exact F1|split; [reflexivity|exact WW]|exact F3]|]. eapply step_named; [rewrite K; inv D; now apply rises_nodup|symmetry; exact L|assumption].
  - match goal with H : Forall2 _ _ _ |- _ => pose proof (keys2 _ _ _ H) as K; apply F2_split in H as (v1 & [n w] & v2 & -> & L & F1 & [F2 F2'] & F3) end. cbn [fst snd] in F2, F2'. subst n. exists w. split; [exact F2'|]. intros w' WW.
    exists (named_composite (v1 ++ (k, w') :: v2)). split; [constructor|].
    + match goal with H : Forall _ (_ ++ _ :: _) |- _ => apply Forall_app in H as [G1 G2]; inv G2; apply Forall_app; split; [exact G1|constructor; assumption] end.
    + apply F2_join; [exact F1|split; [reflexivity|exact WW]|exact F3].
    + eapply step_named; [rewrite K; inv D; now apply rises_nodup|symmetry; exact L|assumption].
  - match goal with H : Forall3 _ _ _ _ |- _ => pose proof (keys3 _ _ _ H) as K; apply F3_split in H as (v1 & [m w] & v2 & -> & L & F1 & (F2 & F2' & F2'') & F3); [|assumption] end. cbn [fst snd] in F2, F2', F2''. subst m. exists w. split; [exact F2''|]. intros w' WW.
    exists (named_composite (v1 ++ (n, w') :: v2)). split; [constructor; apply F3_join; [exact F1|auto|exact F3]|]. eapply step_named; [rewrite K; exact (proj1 W)|symmetry; exact L|assumption].
  - match goal with H : In (n, VsNewtype s) vs |- _ => rename H into HI end. destruct W as [N W]. match goal with H : In (n, VsNewtype ?b) vs, HW : writes ?b _ _ |- _ => pose proof (nodup_in _ _ _ _ N H HI) as E end. injection E as ->.
    eexists. split; [eassumption|]. intros w' WW. eexists. split; [eapply W_enum_newtype; [exact HI|exact WW]|]. apply (step_unnamed_v _ [] _ []). reflexivity.
  - match goal with H : In (n, VsTuple (ts1 ++ _)) vs |- _ => rename H into HI end. destruct W as [N W]. match goal with H : In (n, VsTuple ?b) vs, HW : Forall3 _ ?b _ _ |- _ => pose proof (nodup_in _ _ _ _ N H HI) as E end. injection E as ->.
    match goal with H : Forall3 _ _ _ _ |- _ => apply F3_split in H as (v1 & w & v2 & -> & L & F1 & F2 & F3); [|assumption] end. exists w. split; [exact F2|]. intros w' WW. eexists. split; [eapply W_enum_tuple; [exact HI|]; apply F3_join; [exact F1|exact WW|exact F3]|]. now apply step_unnamed_v.
  - match goal with H : In (n, VsStruct (fs1 ++ _)) vs |- _ => rename H into HI end. destruct W as [N W]. match goal with H : In (n, VsStruct ?b) vs, HW : Forall3 _ ?b _ _ |- _ => pose proof (nodup_in _ _ _ _ N H HI) as E end. injection E as ->. destruct (wn_enum vs n _ W HI) as [_ W2].
    match goal with H : Forall3 _ _ _ _ |- _ => pose proof (keys3 _ _ _ H) as K; apply F3_split in H as (v1 & [m' w] & v2 & -> & L & F1 & (F2 & F2' & F2'') & F3); [|assumption] end. cbn [fst snd] in F2, F2', F2''. subst m'. exists w. split; [exact F2''|]. intros w' WW.
    exists (named_variant n (v1 ++ (m, w') :: v2)). split; [eapply W_enum_struct; [exact HI|]; apply F3_join; [exact F1|auto|exact F3]|]. eapply step_named_v; [rewrite K; exact W2|symmetry; exact L|assumption].
Qed.

Lemma writes_one t x v w : well_named t -> writes t x v -> writes t x w -> v = w.
Proof. intros W H1 H2. apply (all_writes t W) in H1, H2. congruence. Qed.
Lemma child_same t x x' l s a a' : child t x x' l s a a' -> child t x x l s a a.
Proof. intro H. inv H; econstructor; eassumption. Qed.
Lemma child_lookup t x x' l s a a' v w : child t x x' l s a a' -> well_named t -> well_named s -> data_of t x -> writes t x v -> writes s a w -> lookup_is v l w.
Proof.
  intros H W WS D V WW. apply child_same in H. destruct (child_written _ _ _ _ _ _ _ _ H W D V) as (w0 & W0 & HS). rewrite (writes_one s a w w0 WS WW W0). destruct (HS w0 W0) as (v' & V' & ST).
  rewrite <- (writes_one t x v v' W V V') in ST. specialize (ST [] w0 (Put_here _ _)). destruct (put_lookup _ _ _ _ ST) as (o & _ & LP & _). inv LP. match goal with H : lookup_path _ [] _ |- _ => inv H end. assumption.
Qed.

(** ** Along a path *)
Theorem part_written t x x' p s y y' : part t x x' p s y y' -> well_named t -> data_of t x -> forall v, writes t x v ->
  well_named s /\ data_of s y /\ (data_of s y' -> data_of t x') /\ exists w, writes s y w /\ lookup_path v p w /\ forall w', writes s y' w' -> exists v', writes t x' v' /\ put v p w' v'.
Proof.
  induction 1 as [t x x'|t x x' l t1 a a' p s y y' H _ IH]; intros W D v WR.
  - split; [exact W|]. split; [exact D|]. split; [auto|]. exists v. split; [exact WR|]. split; [constructor|]. intros w' WW. exists w'. split; [exact WW|constructor].
  - destruct (child_typed _ _ _ _ _ _ _ H W D) as (W1 & D1 & D1'). destruct (child_written _ _ _ _ _ _ _ _ H W D WR) as (w1 & WR1 & HS). destruct (IH W1 D1 w1 WR1) as (W2 & D2 & D2' & w & WW & LP & HP).
    split; [exact W2|]. split; [exact D2|]. split; [auto|]. exists w. split; [exact WW|].
    assert (LI : lookup_is v l w1).
    { eapply child_lookup; eassumption. }
    split; [econstructor; eassumption|]. intros w' WW'. destruct (HP w' WW') as (v1 & WV1 & P1). destruct (HS v1 WV1) as (v' & WV & ST). exists v'. split; [exact WV|]. apply ST. exact P1.
Qed.
