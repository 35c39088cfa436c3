(** * ShuffleFacts: reading data back from a value whose named fields were put in another order. *)
From Coq Require Import Permutation.
From Verif Require Import Base Value Spec_Value ValueFacts Scale Spec_Scale Serde SerdeFacts Spec_Serde SerdeRt SerdeUni Spec_Parts SerdeParts Spec_Maps SerdeMaps Spec_Reads ReadsFacts Spec_ToValue ToValueFacts Spec_Convert ConvertFacts Spec_Shuffled.

Lemma F2_swap {A B} (R : A -> B -> Prop) l m : Forall2 R l m -> Forall2 (fun b a => R a b) m l.
Proof. induction 1; constructor; assumption. Qed.

Ltac no_unit := try (match goal with H : In ?a [TyUnit; TyUnitStruct] |- _ => exfalso; repeat destruct H as [H|H]; try discriminate H; destruct H end; fail).
Section Shuffle.
Context {T : Type}.

Definition wrote' (tx : ty * data) (w : value T) : Prop := exists v, writes (fst tx) (snd tx) v /\ shuffled v w.
Definition wrote_field' (ktx : str * (ty * data)) (kw : str * value T) : Prop := fst kw = fst ktx /\ wrote' (snd ktx) (snd kw).
Definition good (tx : ty * data) : Prop := well_named (fst tx) /\ data_of (fst tx) (snd tx).

Lemma wrote_list l vs (ws : list (value T)) : Forall2 wrote l vs -> list_shuffled vs ws -> Forall2 wrote' l ws.
Proof. intros F. revert ws. induction F as [|a v l vs H _ IH]; intros ws S; inv S; constructor; [exists v; auto|auto]. Qed.
Lemma wrote_named l vs' (ws : list (str * value T)) : Forall2 wrote_field l vs' -> map fst vs' = map fst ws -> list_shuffled (map snd vs') (map snd ws) -> Forall2 wrote_field' l ws.
Proof.
  intros F. revert ws. induction F as [|a v l vs [H1 H2] _ IH]; intros [|w ws] E S; cbn [map] in *; try discriminate; [constructor|]. injection E as E1 E2. inv S. constructor; [|auto].
  split; [congruence|exists (snd v); auto].
Qed.
Lemma perm_wrote l vs vs' : Forall2 wrote_field l vs -> Permutation vs vs' -> exists l', Permutation l l' /\ Forall2 wrote_field l' vs'.
Proof.
  intros F P. apply F2_swap in F. destruct (Permutation_Forall2 P F) as (l' & P' & F'). exists l'. split; [exact P'|]. now apply F2_swap in F'.
Qed.

(** What the lists become *)
Lemma elements_shuffled t x l (w : value T) : elements t x l -> wrote' (t, x) w -> exists ws c, w = Val (DComposite (Unnamed ws)) c /\ Forall2 wrote' l ws.
Proof.
  intros E (v & W & S). cbn [fst snd] in W. destruct (elements_written _ _ _ _ E W) as (vs & -> & F). unfold unnamed_composite, without_context in S. inv S. match goal with H : fields_shuffled _ _ |- _ => inv H end.
  eexists _, _. split; [reflexivity|]. eapply wrote_list; eassumption.
Qed.
Lemma entries_shuffled t x l (w : value T) : entries t x l -> wrote' (t, x) w -> exists l' ws c, w = Val (DComposite (Named ws)) c /\ Permutation l l' /\ Forall2 wrote_field' l' ws.
Proof.
  intros E (v & W & S). cbn [fst snd] in W. destruct (entries_written _ _ _ _ E W) as (vs & -> & F). unfold named_composite, without_context in S. inv S. match goal with H : fields_shuffled _ _ |- _ => inv H end.
  match goal with H : Permutation _ _ |- _ => destruct (perm_wrote _ _ _ F H) as (l1 & P & F1) end. eexists _, _, _. split; [reflexivity|]. split; [exact P|]. eapply wrote_named; eassumption.
Qed.
Definition body_shuffled (b : vshape ty) (bx : vshape data) (n : str) (w : value T) : Prop :=
  exists k c, w = Val (DVariant n k) c /\ (forall l, body_elements b bx l -> exists ws, k = Unnamed ws /\ Forall2 wrote' l ws) /\
    (forall l, body_entries b bx l -> exists l' ws, k = Named ws /\ Permutation l l' /\ Forall2 wrote_field' l' ws).
Lemma enum_shuffled vs n b bx (w : value T) : NoDup (map fst vs) -> In (n, b) vs -> wrote' (TyEnum vs, XEnum n bx) w -> body_shuffled b bx n w.
Proof.
  intros N HI (v & W & S). cbn [fst snd] in W. destruct (enum_written _ _ _ _ _ N HI W) as (k & -> & H1 & H2). unfold without_context in S. inv S. match goal with H : fields_shuffled _ _ |- _ => rename H into HS end.
  eexists _, _. split; [reflexivity|]. split; intros l HL.
  - destruct (H1 l HL) as (vs' & -> & F). inv HS. eexists. split; [reflexivity|]. eapply wrote_list; eassumption.
  - destruct (H2 l HL) as (vs' & -> & F). inv HS. match goal with H : Permutation _ _ |- _ => destruct (perm_wrote _ _ _ F H) as (l1 & P & F1) end. eexists _, _. split; [reflexivity|]. split; [exact P|]. eapply wrote_named; eassumption.
Qed.

(** Items of well-named types *)
Lemma good_pair t xs : well_named t -> Forall (data_of t) xs -> Forall good (map (pair t) xs).
Proof. intros W F. apply Forall_map. eapply Forall_impl; [|exact F]. intros a H. split; assumption. Qed.
Lemma good_items fs ds : Forall well_named (map snd fs) -> Forall2 (fun (ft : str * ty) (nx : str * data) => fst nx = fst ft /\ data_of (snd ft) (snd nx)) fs ds ->
  Forall (fun kt => good (snd kt)) (field_items fs ds).
Proof.
  unfold field_items. intros W F. revert W. induction F as [|[n t] [n' x] fs ds [E H] _ IH]; intro W; cbn [combine map fst snd] in *; constructor; inv W; [split; assumption|auto].
Qed.
Lemma rises_nodup (m : list (str * data)) : sorted_keys m -> NoDup (map fst m).
Proof.
  intro S. induction S as [|k x l H _ IH]; cbn [map fst]; constructor; [|exact IH]. intro I. apply in_map_iff in I as ([k' x'] & E & I). cbn [fst] in E. subst k'.
  destruct (H _ _ I) as (p & [(c & r & E1 & E2)|(a & b & ra & rb & E1 & E2 & L)]).
  - rewrite E1 in E2. apply (f_equal (@length _)) in E2. rewrite app_length in E2. cbn [length] in E2. lia.
  - rewrite E1 in E2. apply app_inv_head in E2. injection E2 as -> _. lia.
Qed.

Lemma elements_good t x l : elements t x l -> well_named t -> data_of t x -> Forall good l.
Proof.
  intros E W D. inv E; inv D; cbn [well_named] in W.
  - constructor.
  - constructor.
  - now apply good_pair.
  - apply wn_list in W. now apply wn_combine.
  - apply wn_list in W. now apply wn_combine.
  - constructor; [split; assumption|constructor].
  - now apply bytes_range.
Qed.
Lemma entries_good t x l : entries t x l -> well_named t -> data_of t x -> NoDup (map fst l) /\ Forall (fun kt => good (snd kt)) l.
Proof.
  intros E W D. inv E; inv D; cbn [well_named] in W.
  - destruct W as [N W]. split; [now rewrite items_fst|]. apply wn_fields in W. now apply good_items.
  - rewrite map_map. cbn [fst]. split; [now apply rises_nodup|]. apply Forall_map. cbn [snd]. eapply Forall_impl; [|eassumption]. intros a H. split; assumption.
  - rewrite map_map. cbn [fst]. split; [now apply rises_nodup|]. apply Forall_map. cbn [snd]. eapply Forall_impl; [|eassumption]. intros a [_ H]. split; assumption.
Qed.

(** Reading *)
Definition reach (u : ty) : Prop := forall t x y w, fits t u -> good (t, x) -> converts t x u y -> wrote' (t, x) w -> reads u (AtValue w) y.

Lemma reach_all u : reach u -> forall l ws ys, Forall good l -> Forall (fun tx => fits (fst tx) u) l -> Forall2 wrote' l ws -> Forall2 (fun tx y => converts (fst tx) (snd tx) u y) l ys ->
  Forall2 (reads u) (map AtValue ws) ys.
Proof.
  intros O l ws ys G FT F. revert ys. induction F as [|[t x] w l ws H _ IH]; intros ys C; inv C; cbn [map]; constructor; inv G; inv FT; [eapply O; eassumption|auto].
Qed.
Lemma reach_each us : Forall reach us -> forall l ws ys, Forall good l -> Forall2 (fun tx u => fits (fst tx) u) l us -> Forall2 wrote' l ws -> Forall3 (fun u tx y => converts (fst tx) (snd tx) u y) us l ys ->
  Forall3 reads us (map AtValue ws) ys.
Proof.
  intros O l ws ys G FT F C. revert ws F O G FT. induction C as [|u [t x] y us l ys H _ IH]; intros ws F O G FT; inv F; cbn [map]; constructor; inv O; inv G; inv FT.
  - match goal with H : reach u |- _ => eapply H; eassumption end.
  - apply IH; assumption.
Qed.
Lemma reach_entries u : reach u -> forall l ws kys, Forall (fun kt => good (snd kt)) l -> Forall (fun kt => fits (fst (snd kt)) u) l -> Forall2 wrote_field' l ws ->
  Forall2 (fun (kt : str * (ty * data)) (ky : str * data) => fst ky = fst kt /\ converts (fst (snd kt)) (snd (snd kt)) u (snd ky)) l kys ->
  Forall2 (fun (kv : str * value T) (kx : str * data) => fst kx = fst kv /\ reads u (AtValue (snd kv)) (snd kx)) ws kys.
Proof.
  intros O l ws kys W FT F. revert kys. induction F as [|[k [t x]] w l ws [E H] _ IH]; intros ys C; inv C; constructor; inv W; inv FT; [|auto].
  match goal with H : _ /\ converts _ _ _ _ |- _ => destruct H as [H1 H2] end. split; [congruence|eapply O; eassumption].
Qed.
Lemma keys_of' (ws : list (str * value T)) : map fst (map (fun kv => (fst kv, AtValue (snd kv))) ws) = map fst ws.
Proof. rewrite map_map. apply map_ext. reflexivity. Qed.
Lemma wrote_field'_fst l ws : Forall2 wrote_field' l ws -> map fst ws = map fst l.
Proof. induction 1 as [|a b l vs [E _] _ IH]; cbn [map]; [reflexivity|now f_equal]. Qed.
Lemma reach_named gs : Forall reach (map snd gs) -> forall l l' ws ds, Forall (fun kt => good (snd kt)) l ->
  (forall gu tx, In gu gs -> In (fst gu, tx) l -> fits (fst tx) (snd gu)) -> Permutation l l' -> Forall2 wrote_field' l' ws -> NoDup (map fst l) ->
  Forall2 (fun gu ny => fst ny = fst gu /\
      ((exists tx, In (fst gu, tx) l /\ converts (fst tx) (snd tx) (snd gu) (snd ny)) \/
       (~ In (fst gu) (map fst l) /\ (exists u, snd gu = TyOption u) /\ snd ny = XNone))) gs ds ->
  forall p, struct_at p = Some (inl (map (fun kv => (fst kv, AtValue (snd kv))) ws)) -> reads (TyStruct gs) p (XStruct ds).
Proof.
  intros O l l' ws ds G FT P F N C p HP. pose proof (wrote_field'_fst _ _ F) as K. pose proof (Permutation_map fst P) as PK. eapply R_struct_named; [exact HP| |].
  - apply nodup_among. rewrite keys_of', K. eapply Permutation_NoDup; eassumption.
  - eapply F2_in; [|exact C]. intros gu ny HI [E [(tx & HT & HC)|(HN & HO & HX)]]; (split; [exact E|]).
    + left. destruct (F2_left _ _ _ _ F (Permutation_in _ P HT)) as ([k v] & HV & E1 & HW). cbn [fst snd] in *. subst k. exists (AtValue v). split; [apply in_map_iff; exists (fst gu, v); auto|].
      rewrite Forall_forall in O, G. destruct tx as [t x]. eapply (O (snd gu)); [now apply in_map|apply (FT gu (t, x) HI HT)|apply (G _ HT)|exact HC|exact HW].
    + right. split; [|auto]. rewrite keys_of', K. intro HI'. apply HN. eapply Permutation_in; [apply Permutation_sym; exact PK|exact HI'].
Qed.
Lemma reach_position gs : Forall reach (map snd gs) -> forall used ws ds, Forall good used -> Forall2 (fun (tx : ty * data) (gu : str * ty) => fits (fst tx) (snd gu)) used gs -> Forall2 wrote' used ws ->
  Forall3 (fun (gu : str * ty) (tx : ty * data) (ny : str * data) => fst ny = fst gu /\ converts (fst tx) (snd tx) (snd gu) (snd ny)) gs used ds ->
  Forall3 (fun (ft : str * ty) (q : place T) (nx : str * data) => fst nx = fst ft /\ reads (snd ft) q (snd nx)) gs (map AtValue ws) ds.
Proof.
  intros O used ws ds G FT F C. revert ws F O G FT. induction C as [|g [t x] y gs l ys [E H] _ IH]; intros ws F O G FT; inv F; cbn [map]; constructor; inv O; inv G; inv FT.
  - split; [exact E|]. match goal with H : reach _ |- _ => eapply H; eassumption end.
  - apply IH; assumption.
Qed.

Lemma into_newtype' u (v : value T) y : (forall u', u <> TyOption u') -> (forall b, vdef_of v <> DBits b) -> reads u (AtValue v) y -> reads u (InNewtype (vdef_of v)) y.
Proof.
  intros NO NB R. destruct v as [d c]. cbn [vdef_of] in *. inv R; try (exfalso; eapply NO; reflexivity).
  - now apply R_bool.
  - eapply R_int; eassumption.
  - now apply R_char.
  - now apply R_string.
  - now apply R_string_char.
  - eapply R_string_256; eassumption.
  - eapply R_unit; eassumption.
  - eapply R_unit_struct; eassumption.
  - eapply R_bytes; eassumption.
  - eapply R_bytes_256; eassumption.
  - eapply R_vec; eassumption.
  - eapply R_tuple; eassumption.
  - eapply R_tuple_struct; eassumption.
  - eapply R_map; eassumption.
  - eapply R_map_char; eassumption.
  - eapply R_newtype; [|eassumption]. destruct d; cbn [content_at] in *; try discriminate; assumption.
  - eapply R_struct_named; [|eassumption..]. destruct d; cbn [struct_at] in *; try discriminate; try assumption. exfalso. eapply NB. reflexivity.
  - eapply R_struct_unnamed; [|eassumption..]. destruct d; cbn [struct_at] in *; try discriminate; assumption.
  - eapply R_enum_unit; eassumption.
  - eapply R_enum_newtype; eassumption.
  - eapply R_enum_tuple; eassumption.
  - eapply R_enum_struct; eassumption.
  - eapply R_value; eassumption.
  - eapply R_composite; eassumption.
  - eapply R_composite_256; eassumption.
  - eapply R_composite_of_bits; eassumption.
  - eapply R_variant; eassumption.
  - eapply R_variant_map; eassumption.
  - eapply R_prim; eassumption.
  - eapply R_prim_256; eassumption.
  - eapply R_prim_bytes; eassumption.
Qed.

Lemma never_bits' t x w : wrote' (t, x) w -> forall b, vdef_of w <> DBits b.
Proof. intros (v & W & S) b E. cbn [fst snd] in W. inv S; cbn [vdef_of] in E; try discriminate. eapply never_bits; [exact W|reflexivity]. Qed.

(** Fitting types: what is written in a list without names is read in one, and item fits item. *)
Lemma combine_map {A B} (ts : list A) (xs : list B) : length ts = length xs -> map fst (combine ts xs) = ts.
Proof. revert xs. induction ts as [|t ts IH]; intros [|x xs] H; cbn [combine map fst length] in *; try discriminate; [reflexivity|]. f_equal. apply IH. now injection H. Qed.
Lemma F2_length {A B} (R : A -> B -> Prop) l m : Forall2 R l m -> length l = length m.
Proof. induction 1; cbn [length]; [reflexivity|now f_equal]. Qed.
Lemma forall_fst (P : ty -> Prop) (ts : list ty) (xs : list data) : Forall P ts -> Forall (fun tx => P (fst tx)) (combine ts xs).
Proof. intro F. revert xs. induction F as [|t ts H _ IH]; intros [|x xs]; cbn [combine]; constructor; auto. Qed.
Lemma forall2_fst {B} (R : ty -> B -> Prop) (ts : list ty) (xs : list data) us : length ts = length xs -> Forall2 R ts us -> Forall2 (fun tx u => R (fst tx) u) (combine ts xs) us.
Proof. intros L F. revert xs L. induction F as [|t u ts us H _ IH]; intros [|x xs] L; cbn [combine length] in *; try discriminate; constructor; auto. Qed.
Lemma prefix_fits {B} (R : ty -> B -> Prop) ts rest xs used left us : Forall2 R ts us -> combine (ts ++ rest) xs = used ++ left -> length used = length us ->
  Forall2 (fun (tx : ty * data) u => R (fst tx) u) used us.
Proof.
  intro F. revert xs used. induction F as [|t u ts us H _ IH]; intros xs used E L; destruct used as [|tx used]; cbn [length] in L; try discriminate; [constructor|].
  destruct xs as [|x xs]; cbn [combine app] in E; [discriminate|]. injection E as <- E. constructor; [exact H|]. eapply IH; [exact E|lia].
Qed.

Lemma vec_fits t x l u : fits t (TyVec u) -> data_of t x -> listed t x l -> elements t x l /\ Forall (fun tx => fits (fst tx) u) l.
Proof.
  intros F D [E|(l' & E & ->)]; inv F; no_unit; try match goal with H : In t _ |- _ => repeat destruct H as [<-|H]; try destruct H end; inv E.
  - split; [constructor|]. apply Forall_map. apply Forall_forall. intros b _. assumption.
  - split; [constructor|]. apply Forall_map. apply Forall_forall. intros b _. assumption.
  - split; [constructor|]. now apply (forall_fst (fun t' => fits t' u)).
  - split; [constructor|]. now apply (forall_fst (fun t' => fits t' u)).
Qed.
Lemma tuple_fits t x l us u : In u [TyTuple us; TyTupleStruct us] -> fits t u -> data_of t x -> listed t x l -> elements t x l /\ Forall2 (fun tx u => fits (fst tx) u) l us.
Proof.
  intros HU F D HL. repeat destruct HU as [<-|HU]; try destruct HU; inv F; no_unit; match goal with H : In t _ |- _ => repeat destruct H as [<-|H]; try destruct H end; destruct HL as [E|(l' & E & ->)]; inv E; inv D;
    (split; [constructor|]; apply forall2_fst; [eapply F2_length; eassumption|assumption]).
Qed.
Lemma map_fits t x l u m : In m [TyMap u; TyMapChar u] -> fits t m -> entries t x l -> Forall (fun kt => fits (fst (snd kt)) u) l.
Proof.
  intros HM F E. repeat destruct HM as [<-|HM]; try destruct HM; inv F; no_unit; try match goal with H : In t _ |- _ => repeat destruct H as [<-|H]; try destruct H end; inv E;
    try (apply Forall_map; apply Forall_forall; intros b _; assumption).
  match goal with H : Forall _ fs |- _ => rename H into FF end. unfold field_items. apply Forall_map. cbn [fst snd]. clear -FF. revert ds. induction FF as [|f fs H _ IH]; intros [|d ds]; cbn [combine]; constructor; auto.
Qed.
Lemma fields_fits fs gs ds l gu tx : fields_fit fits fs gs -> NoDup (map fst fs) -> l = field_items fs ds -> In gu gs -> In (fst gu, tx) l -> fits (fst tx) (snd gu).
Proof.
  intros [F] N -> HG HT. rewrite Forall_forall in F. apply in_map_iff in HT as ([[k t] [k' x]] & E & HI). cbn [fst snd] in E. injection E as E1 <-. cbn [fst snd]. apply in_combine_l in HI. rewrite E1 in HI.
  destruct (F gu HG) as [(t' & HI' & HF)|(NI & _)].
  - rewrite (nodup_in _ _ _ _ N HI HI'). exact HF.
  - exfalso. apply NI. change (fst gu) with (fst (fst gu, t)). now apply in_map.
Qed.
Lemma perm_keys u kts l' kys : Permutation kts l' ->
  Forall2 (fun (kt : str * (ty * data)) (ky : str * data) => fst ky = fst kt /\ converts (fst (snd kt)) (snd (snd kt)) u (snd ky)) kts kys ->
  exists kys', Permutation kys kys' /\ Forall2 (fun (kt : str * (ty * data)) (ky : str * data) => fst ky = fst kt /\ converts (fst (snd kt)) (snd (snd kt)) u (snd ky)) l' kys'.
Proof. intros P F. exact (Permutation_Forall2 P F). Qed.
Lemma last_given_nodup {A} (l : list (str * A)) k x : NoDup (map fst l) -> (last_given k l x <-> In (k, x) l).
Proof.
  intro N. split.
  - intros (a & b & -> & _). apply in_app_iff. right. now left.
  - intro I. apply in_split in I as (a & b & ->). exists a, b. split; [reflexivity|]. rewrite map_app in N. cbn [map fst] in N. apply NoDup_remove_2 in N. intro I. apply N. apply in_app_iff. now right.
Qed.
Lemma collects_perm (kys kys' : list (str * data)) m : NoDup (map fst kys) -> Permutation kys kys' -> collects kys m -> collects kys' m.
Proof.
  intros N P [S H]. split; [exact S|]. intros k x. rewrite H. rewrite (last_given_nodup kys k x N). rewrite last_given_nodup by (eapply Permutation_NoDup; [apply Permutation_map; exact P|exact N]).
  split; apply Permutation_in; [exact P|now apply Permutation_sym].
Qed.
Lemma keys_fst u (l : list (str * (ty * data))) kys : Forall2 (fun (kt : str * (ty * data)) (ky : str * data) => fst ky = fst kt /\ converts (fst (snd kt)) (snd (snd kt)) u (snd ky)) l kys -> map fst kys = map fst l.
Proof. induction 1 as [|a b l m [E _] _ IH]; cbn [map]; [reflexivity|now f_equal]. Qed.

Lemma nothing_shuffled t x (w : value T) : listed t x [] -> wrote' (t, x) w -> exists k c, w = Val (DComposite k) c /\ values k = [].
Proof.
  intros [E|(l' & E & EL)] W.
  - destruct (elements_shuffled _ _ _ _ E W) as (ws & c & -> & F). inv F. exists (Unnamed []), c. auto.
  - destruct l'; [|discriminate]. destruct (entries_shuffled _ _ _ _ E W) as (l' & ws & c & -> & P & F). apply Permutation_nil in P. subst l'. inv F. exists (Named []), c. auto.
Qed.

Lemma reach_both us : Forall (fun u => well_named u -> reach u) us -> Forall well_named us -> Forall reach us.
Proof. intros F W. induction F; constructor; inv W; auto. Qed.
Lemma one_body (n : str) (b b' : vshape ty) us : NoDup (map fst us) -> In (n, b) us -> In (n, b') us -> b = b'.
Proof. intros N H H'. eapply nodup_in; eassumption. Qed.

Theorem all_reach u : well_named u -> reach u.
Proof.
  induction u as [|sg w| | | | |u IH|u IH|us IH|u IH|u IH| |u IH|us IH|gs IH|us IH| | | |] using ty_ind'; intros WU t x y w' FT G C W'; pose proof G as [WN D]; cbn [fst snd] in WN, D; cbn [well_named] in WU.
  all: try (inv FT; no_unit; fail).
  - inv FT; no_unit. inv C. destruct W' as (v & W & S). cbn [fst snd] in W. inv W. unfold vbool, primitive, without_context in S. inv S. now apply R_bool.
  - inv FT; no_unit. inv C. destruct W' as (v & W & S). cbn [fst snd] in W. inv W; inv S; (eapply R_int; [reflexivity|reflexivity|assumption]).
  - inv FT; no_unit. inv C. destruct W' as (v & W & S). cbn [fst snd] in W. inv W. inv S. apply R_char. now left.
  - inv FT; no_unit; inv C; destruct W' as (v & W & S); cbn [fst snd] in W; inv W; inv S; [now apply R_string_char|now apply R_string].
  - match goal with H : converts _ _ _ _ |- _ => inv H end. destruct (nothing_shuffled t x w') as (k & c & -> & E); [assumption..|]. eapply R_unit; [reflexivity|exact E].
  - assert (HE : exists l bs, y = XBytes bs /\ elements t x l /\ Forall2 (fun (tx : ty * data) b => (exists w, tx = (TyInt false w, XInt (Z.of_N b))) /\ (b < 256)%N) l bs).
    { inv C. exists l, bs. split; [reflexivity|]. split; [|assumption]. inv FT; no_unit; match goal with H : listed _ _ _ |- _ => destruct H as [E|(l' & E & ->)] end; try exact E; inv E. }
    destruct HE as (l & bs & -> & HE & HB). destruct (elements_shuffled _ _ _ _ HE W') as (ws & c & -> & F). eapply R_bytes; [reflexivity|]. cbn [values]. clear -F HB. revert bs HB. induction F as [|tx v l vs HW _ IH]; intros bs B; inv B; constructor; [|auto].
    match goal with H : _ /\ _ |- _ => destruct H as [(w & ->) L] end. destruct HW as (v0 & HW & S). cbn [fst snd] in HW. inv HW. match goal with H : Z.of_N _ = Z.of_N _ |- _ => apply N2Z.inj in H; subst end. inv S. auto.
  - specialize (IH WU). inv FT; no_unit. inv C.
    + destruct W' as (v & W & S). cbn [fst snd] in W. inv W. inv S. match goal with H : fields_shuffled _ _ |- _ => inv H end. match goal with H : list_shuffled _ _ |- _ => inv H end. now apply R_none.
    + destruct W' as (v & W & S). cbn [fst snd] in W. inv W. inv S. match goal with H : fields_shuffled _ _ |- _ => inv H end. match goal with H : list_shuffled [_] _ |- _ => inv H end. match goal with H : list_shuffled [] _ |- _ => inv H end.
      eapply R_some; [reflexivity|]. inv D. eapply IH; [eassumption| |eassumption|]; [split; assumption|]. eexists. split; eassumption.
  - specialize (IH WU). inv C. match goal with H : listed _ _ _ |- _ => destruct (vec_fits _ _ _ _ FT D H) as [E FI] end. destruct (elements_shuffled _ _ _ _ E W') as (ws & c & -> & F). eapply R_vec; [reflexivity|]. eapply reach_all; [exact IH|eapply elements_good; eassumption|eassumption..].
  - apply wn_list in WU. apply (reach_both us) in IH; [|exact WU]. inv C. match goal with H : listed _ _ _ |- _ => destruct (tuple_fits _ _ _ us (TyTuple us) (or_introl eq_refl) FT D H) as [E FI] end. destruct (elements_shuffled _ _ _ _ E W') as (ws & c & -> & F). eapply R_tuple; [reflexivity|].
    eapply reach_each; [exact IH|eapply elements_good; eassumption|eassumption..].
  - specialize (IH WU). inv C. match goal with H : entries _ _ _ |- _ => rename H into E end. pose proof (map_fits _ _ _ u (TyMap u) (or_introl eq_refl) FT E) as FI. destruct (entries_good _ _ _ E WN D) as [N GI]. destruct (entries_shuffled _ _ _ _ E W') as (l' & ws & c & -> & P & F).
    match goal with H : Forall2 _ _ kys |- _ => rename H into HK end. destruct (perm_keys _ _ _ _ P HK) as (kys' & P' & HK'). eapply R_map with (kvs := kys'); [reflexivity| |].
    + eapply reach_entries; [exact IH|eapply Permutation_Forall; [exact P|exact GI]|eapply Permutation_Forall; [exact P|exact FI]|exact F|exact HK'].
    + eapply collects_perm; [|exact P'|eassumption]. now rewrite (keys_fst _ _ _ HK).
  - specialize (IH WU). inv C. match goal with H : entries _ _ _ |- _ => rename H into E end. pose proof (map_fits _ _ _ u (TyMapChar u) (or_intror (or_introl eq_refl)) FT E) as FI. destruct (entries_good _ _ _ E WN D) as [N GI]. destruct (entries_shuffled _ _ _ _ E W') as (l' & ws & c & -> & P & F).
    match goal with H : Forall2 _ _ kys |- _ => rename H into HK end. destruct (perm_keys _ _ _ _ P HK) as (kys' & P' & HK'). eapply R_map_char with (kvs := kys'); [reflexivity| | |].
    + match goal with H : Forall (fun kt => exists c, _) l |- _ => apply (Permutation_Forall P) in H; rename H into K end. clear -K F. induction F as [|a b l vs [E _] _ IH]; constructor; inv K; [now rewrite E|auto].
    + eapply reach_entries; [exact IH|eapply Permutation_Forall; [exact P|exact GI]|eapply Permutation_Forall; [exact P|exact FI]|exact F|exact HK'].
    + eapply collects_perm; [|exact P'|eassumption]. now rewrite (keys_fst _ _ _ HK).
  - match goal with H : converts _ _ _ _ |- _ => inv H end. destruct (nothing_shuffled t x w') as (k & c & -> & E); [assumption..|]. eapply R_unit_struct; [reflexivity|exact E].
  - specialize (IH WU). assert (B : forall b, vdef_of w' <> DBits b) by (eapply never_bits'; exact W'). inv C. inv FT; no_unit. eapply R_newtype with (q := InNewtype (vdef_of w')).
    + destruct w' as [[c|n c|b|p] ctx]; try reflexivity. exfalso. eapply B. reflexivity.
    + apply into_newtype'; [assumption|exact B|]. eapply IH; [eassumption| |eassumption|exact W']. split; assumption.
  - apply wn_list in WU. apply (reach_both us) in IH; [|exact WU]. inv C. match goal with H : listed _ _ _ |- _ => destruct (tuple_fits _ _ _ us (TyTupleStruct us) (or_intror (or_introl eq_refl)) FT D H) as [E FI] end. destruct (elements_shuffled _ _ _ _ E W') as (ws & c & -> & F). eapply R_tuple_struct; [reflexivity|].
    eapply reach_each; [exact IH|eapply elements_good; eassumption|eassumption..].
  - destruct WU as [NU WU]. apply wn_fields in WU. apply reach_both in IH; [|exact WU]. inv C.
    + match goal with H : entries _ _ _ |- _ => rename H into E end. destruct (entries_good _ _ _ E WN D) as [N GI]. destruct (entries_shuffled _ _ _ _ E W') as (l' & ws & c & -> & P & F).
      eapply reach_named; [exact IH|exact GI| |exact P|exact F|exact N|eassumption|reflexivity]. intros gu tx HG HT. inv FT; no_unit; try (match goal with H : In t _ |- _ => repeat destruct H as [<-|H]; try destruct H end; inv E; fail).
      inv E. eapply fields_fits; [eassumption|exact (proj1 WN)|reflexivity|eassumption|eassumption].
    + match goal with H : elements _ _ _ |- _ => rename H into E end. pose proof (elements_good _ _ _ E WN D) as GI. destruct (elements_shuffled _ _ _ _ E W') as (ws & c & -> & F). apply Forall2_app_inv_l in F as (w1 & w2 & F1 & F2 & ->).
      eapply R_struct_unnamed with (all := false) (used := map AtValue w1) (rest := map AtValue w2); [cbn; rewrite map_app; reflexivity|discriminate|]. apply Forall_app in GI as [GI _].
      match goal with H : Forall3 _ gs used ds |- _ => rename H into HC end. eapply reach_position; [exact IH|exact GI| |exact F1|exact HC].
      assert (L : length used = length gs) by (clear -HC; induction HC; cbn [length]; congruence).
      inv FT; no_unit; [inv E|]. match goal with H : In t _ |- _ => repeat destruct H as [<-|H]; try destruct H end; inv E; match goal with H : combine _ _ = _ |- _ => eapply (prefix_fits (fun t' (gu : str * ty) => fits t' (snd gu))); [|exact H|exact L] end; assumption.
  - assert (FE : exists vs, t = TyEnum vs /\ Forall (fun nb => exists b', In (fst nb, b') us /\ body_fits fits (snd nb) b') vs) by (inv FT; no_unit; eauto). destruct FE as (vs & -> & FV). rewrite Forall_forall in FV, IH. pose proof WN as [NV WV].
    inv C.
    + match goal with H : In (n, b) vs |- _ => rename H into HI end; destruct (FV _ HI) as (b' & HU & BF); cbn [fst snd] in HU, BF; destruct (wn_enum vs n b WV HI) as [W1 W2];  pose proof (enum_shuffled vs n b bx w' NV HI W') as (k & c & -> & HE & HN). assert (E : values k = []).
      { match goal with H : body_listed _ _ _ |- _ => destruct H as [E|(l' & E & EL)] end.
        - destruct (HE _ E) as (ws & -> & F). now inv F.
        - destruct l'; [|discriminate]. destruct (HN _ E) as (l' & ws & -> & P & F). apply Permutation_nil in P. subst l'. now inv F. }
      eapply R_enum_unit; [reflexivity|assumption|exact E].
    + match goal with H : In (n, b) vs |- _ => rename H into HI end; destruct (FV _ HI) as (b' & HU & BF); cbn [fst snd] in HU, BF; destruct (wn_enum vs n b WV HI) as [W1 W2];  pose proof (enum_shuffled vs n b bx w' NV HI W') as (k & c & -> & HE & HN). match goal with H : In (n, VsTuple ts) us |- _ => rename H into HU' end. pose proof (one_body _ _ _ _ (proj1 WU) HU' HU) as EB. subst b'. inv BF.
      match goal with H : body_listed _ _ _ |- _ => destruct H as [E|(l' & E & EL)] end; [|inv E]. destruct (HE _ E) as (ws & -> & F). inv E. inv D; try match goal with H : In (n, VsTuple ?a) vs |- _ => rename H into HI' end.
      pose proof (one_body _ _ _ _ NV HI HI') as EB. injection EB as ->. cbn [vs_tys] in W1. destruct (wn_enum us n _ (proj2 WU) HU) as [WU1 _]. cbn [vs_tys] in WU1.
      eapply R_enum_tuple; [reflexivity|exact HU|]. refine (reach_each _ _ _ _ _ _ _ F _); [|now apply wn_combine| |eassumption].
      * apply reach_both; [|exact WU1]. exact (IH _ HU).
      * apply forall2_fst; [eapply F2_length; eassumption|assumption].
    + match goal with H : In (n, b) vs |- _ => rename H into HI end; destruct (FV _ HI) as (b' & HU & BF); cbn [fst snd] in HU, BF; destruct (wn_enum vs n b WV HI) as [W1 W2];  pose proof (enum_shuffled vs n b bx w' NV HI W') as (k & c & -> & HE & HN). match goal with H : In (n, VsStruct gs) us |- _ => rename H into HU' end. pose proof (one_body _ _ _ _ (proj1 WU) HU' HU) as EB. subst b'.
      match goal with H : body_entries _ _ _ |- _ => rename H into E end. destruct (HN _ E) as (l' & ws & -> & P & F). inv E. inv BF. inv D; try match goal with H : In (n, VsStruct ?a) vs |- _ => rename H into HI' end.
      pose proof (one_body _ _ _ _ NV HI HI') as EB. injection EB as ->. cbn [vs_tys] in W1. destruct (wn_enum us n _ (proj2 WU) HU) as [WU1 _]. cbn [vs_tys] in WU1.
      eapply R_enum_struct; [reflexivity|exact HU|]. refine (reach_named _ _ _ _ _ _ _ _ P F _ _ _ _); [|now apply good_items| |assumption|eassumption|reflexivity].
      * apply reach_both; [|exact WU1]. exact (IH _ HU).
      * intros gu tx HG HT. eapply fields_fits; [eassumption|exact W2|reflexivity|exact HG|exact HT].
    + match goal with H : In (n, b) vs |- _ => rename H into HI end; destruct (FV _ HI) as (b' & HU & BF); cbn [fst snd] in HU, BF; destruct (wn_enum vs n b WV HI) as [W1 W2];  pose proof (enum_shuffled vs n b bx w' NV HI W') as (k & c & -> & HE & HN). match goal with H : In (n, VsStruct gs) us |- _ => rename H into HU' end. pose proof (one_body _ _ _ _ (proj1 WU) HU' HU) as EB. subst b'.
      match goal with H : body_elements _ _ _ |- _ => rename H into E end. destruct (HE _ E) as (ws & -> & F). destruct (wn_enum us n _ (proj2 WU) HU) as [WU1 _]. cbn [vs_tys] in WU1. inv BF; inv E. cbn [vs_tys map snd] in W1, WU1.
      match goal with H : Forall3 _ [_] used ds |- _ => rename H into HC end. assert (L : exists tx, used = [tx]) by (inv HC; match goal with H : Forall3 _ [] _ _ |- _ => inv H end; eauto). destruct L as (tx & ->).
      match goal with H : [_] = [tx] ++ rest |- _ => cbn [app] in H; injection H as <- <- end. cbn [app] in F. inv F. match goal with H : Forall2 _ [] _ |- _ => inv H end.
      eapply R_enum_struct; [reflexivity|exact HU|]. eapply R_struct_unnamed with (all := false) (used := [AtValue y]) (rest := []); [reflexivity|discriminate|].
      change [AtValue y] with (map (@AtValue T) [y]). eapply reach_position; [apply reach_both; [exact (IH _ HU)|exact WU1]| | | |exact HC].
      * constructor; [|constructor]. split; [exact (Forall_inv W1)|]. inv D. match goal with H : In (n, VsNewtype ?a) vs |- _ => pose proof (one_body _ _ _ _ NV HI H) as EB end. injection EB as ->. assumption.
      * constructor; [assumption|constructor].
      * constructor; [assumption|constructor].
Qed.
End Shuffle.
