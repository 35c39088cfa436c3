(** * SerdeUni: the round trip on the universe of types (C40). *)
From Verif Require Import Base Value Spec_Value ValueFacts Scale Serde SerdeFacts Spec_Serde SerdeRt.

(** ** Induction over types *)
Definition vs_tys (b : vshape ty) : list ty :=
  match b with VsUnit => [] | VsNewtype t => [t] | VsTuple l => l | VsStruct l => map snd l end.

Section TyInd.
  Context (P : ty -> Prop).
  Context (HB : P TyBool) (HI : forall sg w, P (TyInt sg w)) (HC : P TyChar) (HS : P TyString) (HU : P TyUnit) (HBy : P TyBytes)
    (HO : forall t, P t -> P (TyOption t)) (HV : forall t, P t -> P (TyVec t)) (HT : forall l, Forall P l -> P (TyTuple l))
    (HM : forall t, P t -> P (TyMap t)) (HMC : forall t, P t -> P (TyMapChar t)) (HUS : P TyUnitStruct)
    (HN : forall t, P t -> P (TyNewtype t)) (HTS : forall l, Forall P l -> P (TyTupleStruct l))
    (HSt : forall l, Forall P (map snd l) -> P (TyStruct l))
    (HE : forall l, Forall (fun nb => Forall P (vs_tys (snd nb))) l -> P (TyEnum l))
    (H1 : P TyValue) (H2 : P TyComposite) (H3 : P TyVariant) (H4 : P TyPrim).
  Fixpoint ty_ind' (t : ty) : P t :=
    let lst := fix go (l : list ty) : Forall P l :=
      match l with [] => Forall_nil P | x :: r => Forall_cons x (ty_ind' x) (go r) end in
    let flds := fix go (l : list (str * ty)) : Forall P (map snd l) :=
      match l with [] => Forall_nil P | x :: r => Forall_cons (snd x) (ty_ind' (snd x)) (go r) end in
    match t with
    | TyBool => HB | TyInt sg w => HI sg w | TyChar => HC | TyString => HS | TyUnit => HU | TyBytes => HBy
    | TyOption t' => HO t' (ty_ind' t') | TyVec t' => HV t' (ty_ind' t')
    | TyTuple l => HT l (lst l)
    | TyMap t' => HM t' (ty_ind' t') | TyMapChar t' => HMC t' (ty_ind' t') | TyUnitStruct => HUS
    | TyNewtype t' => HN t' (ty_ind' t')
    | TyTupleStruct l => HTS l (lst l)
    | TyStruct l => HSt l (flds l)
    | TyEnum l => HE l ((fix go (l : list (str * vshape ty)) : Forall (fun nb => Forall P (vs_tys (snd nb))) l :=
        match l with
        | [] => Forall_nil _
        | x :: r => Forall_cons x
            (match snd x as b return Forall P (vs_tys b) with
             | VsUnit => Forall_nil P
             | VsNewtype t' => Forall_cons t' (ty_ind' t') (Forall_nil P)
             | VsTuple ts => lst ts
             | VsStruct fs => flds fs
             end) (go r)
        end) l)
    | TyValue => H1 | TyComposite => H2 | TyVariant => H3 | TyPrim => H4
    end.
End TyInd.

(** ** The round trip of one type *)
Definition rt (t : ty) : Prop :=
  forall d, of_type t d -> exists v, to_value_sd (ser t d) = Ok v /\ de t (SrcValue v) = Ok d.

Lemma rt_list ts : Forall rt ts -> forall l, all2 apply_to (map of_type ts) l ->
  exists vs, mapM to_value_sd (zip_app (map ser ts) l) = Ok vs /\ length vs = length ts /\
    forall rest, seq_take (map de ts) (map SrcValue vs ++ rest) = Ok (l, rest).
Proof.
  induction 1 as [|t ts Ht _ IH]; intros [|d l] HA; cbn [map all2] in HA; try destruct HA.
  - exists []. split; [reflexivity|]. split; reflexivity.
  - match goal with H : apply_to _ _ |- _ => destruct (Ht d H) as (v & E1 & E2) end.
    match goal with H : all2 _ _ _ |- _ => destruct (IH l H) as (vs & F1 & F2 & F3) end.
    exists (v :: vs). cbn [map zip_app mapM]. rewrite E1. cbn [bind]. rewrite F1. split; [reflexivity|]. split; [cbn [length]; rewrite F2; reflexivity|].
    intro rest. cbn [map app seq_take]. rewrite E2. cbn [bind]. rewrite F3. reflexivity.
Qed.

Lemma visit_elems_all {T A} (fs : list (source T -> result A derr)) strict l ds :
  (forall rest, seq_take fs (l ++ rest) = Ok (ds, rest)) -> visit_elems fs (VSeq strict l) = Ok ds.
Proof. intro H. specialize (H []). rewrite app_nil_r in H. cbn [visit_elems]. rewrite H. reflexivity. Qed.

(** Named fields. *)
Lemma rt_fields fs : Forall rt (map snd fs) -> forall l : list (str * data), map fst l = map fst fs ->
  all2 apply_to (map (fun nt : str * ty => match nt with (_, t') => of_type t' end) fs) (map snd l) ->
  exists vs, mapM (fun nx : str * sd => match nx with (n, x) => bind (to_value_sd x) (fun v => Ok (n, v)) end)
               (zip_named (map (fun nt : str * ty => match nt with (_, t') => ser t' end) fs) l) = Ok vs /\
    Forall2 (fun kd kv => fst kv = fst kd /\ exists t, In (fst kd, t) fs /\ de t (SrcValue (snd kv)) = Ok (snd kd)) l vs.
Proof.
  induction fs as [|[n t] fs IH]; intros HR [|[n' d] l] HN HA; cbn [map fst snd] in *; try discriminate.
  - exists []. split; [reflexivity|constructor].
  - injection HN as -> HN. cbn [all2] in HA. destruct HA as [HA HA']. inversion HR as [|? ? Ht HR']; subst.
    destruct (Ht d HA) as (v & E1 & E2). destruct (IH HR' l HN HA') as (vs & F1 & F2).
    exists ((n, v) :: vs). cbn [zip_named mapM]. rewrite E1. cbn [bind]. rewrite F1. split; [reflexivity|].
    constructor; [cbn [fst snd]; split; [reflexivity|]; exists t; split; [left; reflexivity|exact E2]|].
    clear -F2. induction F2 as [|? ? ? ? (H1 & t' & Ht & H2) _ IHF]; constructor; [|exact IHF]. split; [exact H1|]. exists t'. split; [right; exact Ht|exact H2].
Qed.

Lemma find_field_nodup {A} (l : list (str * A)) n x : NoDup (map fst l) -> In (n, x) l -> find_field n l = Some x.
Proof.
  induction l as [|[m y] l IH]; intros ND HI; [destruct HI|]. cbn [map fst find_field] in *. inversion ND as [|? ? HN ND']; subst.
  destruct HI as [HI|HI].
  - injection HI as -> ->. rewrite str_eqb_refl. reflexivity.
  - destruct (str_eqb n m) eqn:E.
    + apply str_eqb_eq in E. subst m. exfalso. apply HN. change n with (fst (n, x)). apply in_map. exact HI.
    + apply IH; assumption.
Qed.

Lemma find_field_map {A B} (f : A -> B) (l : list (str * A)) n :
  find_field n (map (fun na => match na with (m, a) => (m, f a) end) l) = option_map f (find_field n l).
Proof. induction l as [|[m a] l IH]; cbn [map find_field]; [reflexivity|]. destruct (str_eqb n m); [reflexivity|exact IH]. Qed.

Lemma find_field_absent {A} (l : list (str * A)) n : ~ In n (map fst l) -> find_field n l = None.
Proof.
  induction l as [|[m x] l IH]; cbn [map fst find_field]; intro H; [reflexivity|].
  destruct (str_eqb n m) eqn:E; [apply str_eqb_eq in E; subst; exfalso; apply H; left; reflexivity|].
  apply IH. intro HI. apply H. right. exact HI.
Qed.

(** Reading the entries of a map one by one when none is repeated. *)
Lemma struct_entries_all {T} (fs : list (str * (source T -> result data derr))) : forall l vs acc,
  Forall2 (fun (kd : str * data) (kv : str * source T) => fst kv = fst kd /\ exists f, find_field (fst kd) fs = Some f /\ f (snd kv) = Ok (snd kd)) l vs ->
  NoDup (map fst l) -> (forall k, In k (map fst l) -> ~ In k (map fst acc)) ->
  struct_entries fs vs acc = Ok (rev l ++ acc).
Proof.
  intros l vs acc H. revert acc. induction H as [|[k d] [k' s] l vs (Hk & f & Hf & Hd) _ IH]; intros acc ND HA; [reflexivity|].
  cbn [fst snd] in *. subst k'. cbn [struct_entries]. rewrite Hf. cbn [map fst] in *. inversion ND as [|? ? HN ND']; subst.
  rewrite find_field_absent by (apply HA; left; reflexivity). rewrite Hd. cbn [bind]. rewrite IH.
  - cbn [rev]. rewrite <- app_assoc. reflexivity.
  - exact ND'.
  - intros q Hq. cbn [map fst]. intros [HQ|HQ]; [subst q; contradiction|]. apply (HA q); [right; exact Hq|exact HQ].
Qed.

Lemma struct_finish_all ms (l : list (str * data)) acc : map fst ms = map fst l ->
  (forall k d, In (k, d) l -> find_field k acc = Some d) -> struct_finish ms acc = Ok l.
Proof.
  unfold struct_finish. revert l. induction ms as [|[n m] ms IH]; intros [|[k d] l] HN HF; cbn [map fst] in HN; try discriminate; [reflexivity|].
  injection HN as -> HN. cbn [mapM fst snd]. rewrite (HF k d) by (left; reflexivity). cbn [rmap bind].
  rewrite (IH l HN); [reflexivity|]. intros k' d' HI. apply HF. right. exact HI.
Qed.

Lemma rt_struct fs : NoDup (map fst fs) -> Forall rt (map snd fs) -> forall l, map fst l = map fst fs ->
  all2 apply_to (map (fun nt : str * ty => match nt with (_, t') => of_type t' end) fs) (map snd l) ->
  exists vs, mapM (fun nx : str * sd => match nx with (n, x) => bind (to_value_sd x) (fun v => Ok (n, v)) end)
               (zip_named (map (fun nt : str * ty => match nt with (_, t') => ser t' end) fs) l) = Ok vs /\
    visit_struct (map (fun nt => match nt with (n, t') => (n, de t') end) fs) (map (fun nt => match nt with (n, t') => (n, missing t') end) fs)
      (composite_any (Named vs)) = Ok l.
Proof.
  intros ND HR l HN HA. destruct (rt_fields fs HR l HN HA) as (vs & E & F). exists vs. split; [exact E|].
  cbn [composite_any visit_struct]. rewrite (struct_entries_all _ l _ []).
  - cbn [bind]. rewrite app_nil_r. apply struct_finish_all.
    + rewrite map_map. rewrite HN. apply map_ext. intros [? ?]. reflexivity.
    + intros k d HI. apply find_field_nodup; [rewrite map_rev; apply NoDup_rev; rewrite HN; exact ND|]. rewrite <- in_rev. exact HI.
  - clear -F ND. induction F as [|[k d] [k' v] l vs (Hk & t & Ht & Hd) _ IHF]; cbn [map]; constructor; [|exact IHF].
    cbn [fst snd] in *. split; [exact Hk|]. exists (de t). rewrite find_field_map. rewrite (find_field_nodup fs k t ND Ht). split; [reflexivity|exact Hd].
  - rewrite HN. exact ND.
  - intros k _ HI. destruct HI.
Qed.

(** ** Maps *)
Lemma str_ltb_irrefl a : str_ltb a a = false.
Proof. induction a as [|x a IH]; [reflexivity|]. cbn [str_ltb]. rewrite N.ltb_irrefl, N.eqb_refl, IH. reflexivity. Qed.

Lemma str_ltb_trans a : forall b c, str_ltb a b = true -> str_ltb b c = true -> str_ltb a c = true.
Proof.
  induction a as [|x a IH]; intros [|y b] [|z c]; cbn [str_ltb]; intros H1 H2; try discriminate; try reflexivity.
  apply orb_true_iff in H1, H2. apply orb_true_iff. destruct H1 as [H1|H1], H2 as [H2|H2].
  - left. lia.
  - apply andb_true_iff in H2 as [H2 _]. left. lia.
  - apply andb_true_iff in H1 as [H1 _]. left. lia.
  - apply andb_true_iff in H1 as [H1 H1'], H2 as [H2 H2']. right. apply andb_true_iff. split; [lia|]. eapply IH; eassumption.
Qed.

Lemma increasing_lt l : forall k, increasing (k :: l) -> forall k', In k' l -> str_ltb k k' = true.
Proof.
  induction l as [|q l IH]; intros k H k' HI; [destruct HI|]. cbn [increasing] in H. destruct H as [H1 H2].
  destruct HI as [->|HI]; [exact H1|]. eapply str_ltb_trans; [exact H1|]. apply IH; assumption.
Qed.

Lemma map_insert_last k x l : (forall k', In k' (map fst l) -> str_ltb k' k = true) -> map_insert k x l = l ++ [(k, x)].
Proof.
  induction l as [|[k' x'] l IH]; intro H; [reflexivity|]. cbn [map_insert app].
  assert (Hk : str_ltb k' k = true) by (apply H; left; reflexivity).
  destruct (str_ltb k k') eqn:E1; [pose proof (str_ltb_trans _ _ _ Hk E1) as Hc; rewrite str_ltb_irrefl in Hc; discriminate|].
  destruct (str_eqb k k') eqn:E2; [apply str_eqb_eq in E2; subst; rewrite str_ltb_irrefl in Hk; discriminate|].
  rewrite IH; [reflexivity|]. intros q Hq. apply H. right. exact Hq.
Qed.

Lemma fold_insert l : forall acc, increasing (map fst (acc ++ l)) ->
  fold_left (fun m kv => map_insert (fst kv) (snd kv) m) l acc = acc ++ l.
Proof.
  induction l as [|[k x] l IH]; intros acc H; cbn [fold_left fst snd]; [rewrite app_nil_r; reflexivity|].
  rewrite map_insert_last.
  - rewrite IH; rewrite <- app_assoc; [reflexivity|exact H].
  - clear IH. intros k' Hk. induction acc as [|[q y] acc IHa]; [destruct Hk|]. cbn [map app fst] in *. destruct Hk as [->|Hk].
    + apply (increasing_lt _ _ H). rewrite map_app. apply in_or_app. right. left. reflexivity.
    + apply IHa; [|exact Hk]. cbn [increasing] in H. apply H.
Qed.

Lemma all_wf_forall ts : fold_right (fun t' P => ty_wf t' /\ P) True ts <-> Forall ty_wf ts.
Proof. induction ts as [|t ts IH]; cbn [fold_right]; [split; constructor|]. rewrite IH. split; [intros [? ?]; constructor; assumption|intro H; inversion H; auto]. Qed.

Lemma all_wf_fields fs : fold_right (fun (ft : str * ty) P => match ft with (_, t') => ty_wf t' end /\ P) True fs <-> Forall ty_wf (map snd fs).
Proof. induction fs as [|[n t] fs IH]; cbn [fold_right map snd]; [split; constructor|]. rewrite IH. split; [intros [? ?]; constructor; assumption|intro H; inversion H; auto]. Qed.

Lemma rt_apply ts : Forall (fun t => ty_wf t -> rt t) ts -> Forall ty_wf ts -> Forall rt ts.
Proof. rewrite !Forall_forall. auto. Qed.

Lemma in_int_z sg w z : in_int sg w z = true -> sg = false -> Z.of_N (Z.to_N z) = z.
Proof. intros H ->. unfold in_int in H. lia. Qed.

Lemma de_int_exact {T} sg w z (ctx : T) : in_int sg w z = true ->
  bind (vdef_de (DPrim (if sg then PI128 z else PU128 (Z.to_N z))) (HInt sg w)) (visit_int (T := T) sg w) = Ok z.
Proof.
  intro H. destruct sg.
  - cbn [vdef_de prim_de]. rewrite H. cbn [bind visit_int]. destruct (w =? 128)%N; cbn [negb andb]; rewrite H; reflexivity.
  - cbn [vdef_de prim_de]. rewrite (in_int_z false w z H eq_refl), H. cbn [bind visit_int]. destruct (w =? 128)%N; cbn [negb andb]; rewrite H; reflexivity.
Qed.

Lemma remove_context_id (v : value unit) : remove_context v = v.
Proof.
  unfold remove_context. rewrite <- (map_ctx_id v) at 2. unfold map_ctx.
  assert (H : forall v : value unit, map_context (pure_fn (fun _ : unit => tt)) tt v = map_context (pure_fn (fun x : unit => x)) tt v).
  { clear. intro v. induction v as [d [] IH] using value_ind'. rewrite !map_context_unfold. unfold pure_fn at 1 3. cbn [fst snd]. f_equal. apply vdef_map_ext. exact IH. }
  apply H.
Qed.

Lemma composite_map_id (c : composite (value unit)) : composite_map remove_context c = c.
Proof.
  destruct c as [l|l]; cbn [composite_map]; f_equal.
  - rewrite <- (map_id l) at 2. apply map_ext. intros [k v]. cbn [fst snd]. rewrite remove_context_id. reflexivity.
  - rewrite <- (map_id l) at 2. apply map_ext. exact remove_context_id.
Qed.

Theorem universe_rt t : ty_wf t -> rt t.
Proof.
  induction t as [|sg w| | | | |t IH|t IH|ts IH|t IH|t IH| |t IH|ts IH|fs IH|vs IH| | | |] using ty_ind'; cbn [ty_wf]; intro WF; intros d HD; cbn [of_type] in HD.
  - destruct HD as (b & ->). exists (vbool b). split; reflexivity.
  - destruct HD as (z & -> & HZ). cbn [ser]. exists (primitive (if sg then PI128 z else PU128 (Z.to_N z))). split; [destruct sg; reflexivity|].
    cbn [de deserialize vdef_of primitive]. rewrite (de_int_exact sg w z tt HZ). reflexivity.
  - destruct HD as (c & ->). exists (vchar c). split; reflexivity.
  - destruct HD as (s & ->). exists (vstring s). split; reflexivity.
  - subst d. exists (unnamed_composite []). split; reflexivity.
  - destruct HD as (b & -> & HB). exists (unnamed_composite (map vu128 b)). split; [reflexivity|].
    cbn [de deserialize vdef_of unnamed_composite vdef_de composite_de composite_bytes values]. unfold composite_bytes. cbn [values]. rewrite mapM_map.
    rewrite (mapM_total _ (fun x => x)); [rewrite map_id; reflexivity|]. intros x Hx. rewrite Forall_forall in HB. specialize (HB x Hx). cbn [vdef_of vu128 primitive].
    replace (x <? 256)%N with true by lia. reflexivity.
  - destruct HD as [->|(x & -> & HX)].
    + exists (unnamed_variant (s2l "None") []). split; reflexivity.
    + destruct (IH WF x HX) as (v & E1 & E2). exists (unnamed_variant (s2l "Some") [v]). cbn [ser to_value_sd]. rewrite E1. split; [reflexivity|].
      cbn [de deserialize vdef_of unnamed_variant vdef_de]. rewrite str_eqb_refl. cbn [andb length Nat.eqb bind]. rewrite E2. reflexivity.
  - destruct HD as (l & -> & HL). cbn [ser to_value_sd].
    assert (HX : exists vs, mapM to_value_sd (map (ser t) l) = Ok vs /\ mapM (de t) (map SrcValue vs) = Ok l).
    { induction HL as [|x l Hx _ (vs & E1 & E2)]; [exists []; split; reflexivity|]. destruct (IH WF x Hx) as (v & F1 & F2). exists (v :: vs). cbn [map mapM].
      rewrite F1, F2. cbn [bind]. rewrite E1, E2. split; reflexivity. }
    destruct HX as (vs & E1 & E2). exists (unnamed_composite vs). rewrite E1. split; [reflexivity|].
    cbn [de deserialize vdef_of unnamed_composite vdef_de composite_de values bind visit_vec]. rewrite E2. reflexivity.
  - destruct HD as (l & -> & HL). apply all_wf_forall in WF. destruct (rt_list ts (rt_apply ts IH WF) l HL) as (vs & E1 & E2 & E3).
    exists (unnamed_composite vs). cbn [ser to_value_sd]. rewrite E1. split; [reflexivity|].
    cbn [de deserialize vdef_of unnamed_composite vdef_de composite_de clen values]. rewrite E2, Nat.eqb_refl. cbn [bind]. rewrite (visit_elems_all _ _ _ l E3). reflexivity.
  - destruct HD as (l & -> & HK & HL). cbn [ser to_value_sd].
    assert (HX : exists vs, mapM (fun kv : sd * sd => match kv with (k, x) => bind (to_value_sd k) (fun kk => bind (key_of kk) (fun s => bind (to_value_sd x) (fun v => Ok (s, v)))) end)
                   (map (fun kv => (SStr (fst kv), ser t (snd kv))) l) = Ok vs /\ mapM (fun kv => rmap (pair (fst kv)) (de t (snd kv))) (map (fun kv => (fst kv, SrcValue (snd kv))) vs) = Ok l).
    { clear HK. induction HL as [|[k x] l Hx _ (vs & E1 & E2)]; [exists []; split; reflexivity|]. destruct (IH WF x Hx) as (v & F1 & F2). exists ((k, v) :: vs). cbn [map mapM fst snd].
      cbn [to_value_sd bind key_of vdef_of vstring primitive]. rewrite F1, F2. cbn [bind rmap]. rewrite E1, E2. split; reflexivity. }
    destruct HX as (vs & E1 & E2). exists (named_composite vs). rewrite E1. split; [reflexivity|].
    cbn [de deserialize vdef_of named_composite vdef_de composite_de composite_any bind]. rewrite E2. cbn [rmap]. rewrite (fold_insert l [] HK). reflexivity.
  - destruct HD as (l & -> & HK & HL). cbn [ser to_value_sd].
    assert (HX : exists vs, mapM (fun kv : sd * sd => match kv with (k, x) => bind (to_value_sd k) (fun kk => bind (key_of kk) (fun s => bind (to_value_sd x) (fun v => Ok (s, v)))) end)
                   (map (fun kv => (SChar (hd 0%N (fst kv)), ser t (snd kv))) l) = Ok vs /\
                 mapM (fun kv => bind (visit_char (T := unit) (VString (fst kv))) (fun c => rmap (pair [c]) (de t (snd kv)))) (map (fun kv => (fst kv, SrcValue (snd kv))) vs) = Ok l).
    { clear HK. induction HL as [|[k x] l (Hk & Hx) _ (vs & E1 & E2)]; [exists []; split; reflexivity|]. destruct (IH WF x Hx) as (v & F1 & F2). cbn [fst snd] in *.
      destruct k as [|c [|? ?]]; try discriminate. exists (([c] : str, v) :: vs). cbn [map mapM fst snd hd].
      change (visit_char (T := unit) (VString [c])) with (Ok (E := derr) c). cbn [to_value_sd bind key_of vdef_of vchar primitive]. rewrite F1, F2. cbn [bind rmap].
      rewrite E1. split; [reflexivity|]. match goal with |- context [@mapM ?A ?B ?E ?f ?x] => assert (E3 : @mapM A B E f x = Ok l) by exact E2; rewrite E3 end. reflexivity. }
    destruct HX as (vs & E1 & E2). exists (named_composite vs). rewrite E1. split; [reflexivity|].
    cbn [de deserialize vdef_of named_composite vdef_de composite_de composite_any bind]. match goal with |- context [@mapM ?A ?B ?E ?f ?x] => assert (E3 : @mapM A B E f x = Ok l) by exact E2; rewrite E3 end. cbn [rmap]. rewrite (fold_insert l [] HK). reflexivity.
  - subst d. exists (unnamed_composite []). split; reflexivity.
  - destruct WF.
  - destruct HD as (l & -> & HL). destruct WF as [_ WF]. apply all_wf_forall in WF. destruct (rt_list ts (rt_apply ts IH WF) l HL) as (vs & E1 & E2 & E3).
    exists (unnamed_composite vs). cbn [ser to_value_sd]. rewrite E1. split; [reflexivity|].
    cbn [de deserialize vdef_of unnamed_composite vdef_de composite_de clen values]. rewrite E2, Nat.eqb_refl. cbn [bind]. rewrite (visit_elems_all _ _ _ l E3). reflexivity.
  - destruct HD as (l & -> & HN & HL). destruct WF as [ND WF]. apply all_wf_fields in WF. destruct (rt_struct fs ND (rt_apply _ IH WF) l HN HL) as (vs & E1 & E2).
    exists (named_composite vs). cbn [ser to_value_sd]. rewrite E1. split; [reflexivity|].
    cbn [de deserialize vdef_of named_composite vdef_de vdef_any bind]. rewrite E2. reflexivity.
  - destruct HD as (n & b & -> & HL). destruct WF as [ND WF]. cbn [ser].
    rewrite find_field_map in HL. rewrite find_field_map. destruct (find_field n vs) as [body|] eqn:EF; cbn [option_map] in *; [|destruct HL].
    assert (HB : Forall rt (vs_tys body) /\ match body with VsNewtype _ => False | VsStruct fs => NoDup (map fst fs) | _ => True end).
    { clear HL ND. induction vs as [|[m b'] vs IHv]; cbn [find_field] in EF; [discriminate|]. cbn [fold_right] in WF. destruct WF as [W1 W2]. inversion IH as [|? ? I1 I2]; subst.
      destruct (str_eqb n m); [|apply IHv; assumption]. injection EF as ->. cbn [snd] in I1. destruct body as [|t|ts|fs]; cbn [vs_tys] in *.
      - split; constructor.
      - destruct W1.
      - split; [|exact I]. apply rt_apply; [exact I1|]. apply all_wf_forall. apply W1.
      - split; [|apply W1]. apply rt_apply; [exact I1|]. apply all_wf_fields. apply W1. }
    destruct HB as [HR HB]. cbn [de deserialize]. destruct body as [|t|ts|fs]; cbn [vs_tys] in HR.
    + subst b. exists (unnamed_variant n []). split; [reflexivity|]. cbn [vdef_of unnamed_variant vdef_de variant_de bind visit_enum].
      rewrite find_field_map, EF. reflexivity.
    + destruct HB.
    + destruct HL as (l & -> & HL). destruct (rt_list ts HR l HL) as (ws & E1 & E2 & E3).
      exists (unnamed_variant n ws). cbn [ser_variant_body to_value_sd]. rewrite E1. split; [reflexivity|].
      cbn [vdef_of unnamed_variant vdef_de variant_de bind visit_enum]. rewrite find_field_map, EF. cbn [option_map composite_de clen values]. rewrite map_length, E2, Nat.eqb_refl.
      cbn [bind]. rewrite (visit_elems_all _ _ _ l E3). reflexivity.
    + destruct HL as (l & -> & HN & HL). destruct (rt_struct fs HB HR l HN HL) as (ws & E1 & E2).
      exists (named_variant n ws). cbn [ser_variant_body to_value_sd]. rewrite map_map.
      replace (map (fun x : str * ty => snd (let (k, t') := x in (k, ser t'))) fs) with (map (fun nt : str * ty => match nt with (_, t') => ser t' end) fs) by (apply map_ext; intros [? ?]; reflexivity).
      rewrite E1. split; [reflexivity|].
      cbn [vdef_of named_variant vdef_de variant_de bind visit_enum]. rewrite !find_field_map, EF. cbn [option_map vshape_map]. rewrite E2. reflexivity.
  - destruct HD as (v & -> & HP). exists (flatten v). cbn [ser]. split; [apply to_value_of_value|]. cbn [de]. rewrite value_read_back by exact HP. cbn [rmap]. rewrite remove_context_id. reflexivity.
  - destruct HD as (c & -> & HP). exists (Val (DComposite (composite_map flatten c)) tt). cbn [ser]. split.
    + apply to_value_composite. intros x _. apply to_value_of_value.
    + cbn [de]. unfold de_composite, de_composite_with. rewrite deserialize_any_ok. cbn [bind any_of vdef_of vdef_any]. rewrite visit_composite_any.
      rewrite de_comp_flat; [cbn [rmap]; rewrite composite_map_id; reflexivity|]. rewrite Forall_forall in *. intros x Hx. apply value_read_back. apply HP. exact Hx.
  - destruct HD as (n & c & -> & HP). exists (named_composite [(s2l "name", vstring n); (s2l "values", Val (DComposite (composite_map flatten c)) tt)]). cbn [ser]. split.
    + unfold ser_variant, ser_variant_with. cbn [to_value_sd mapM bind key_of vdef_of vstring primitive]. rewrite (to_value_composite _ flatten); [reflexivity|]. intros x _. apply to_value_of_value.
    + cbn [de]. unfold de_variant. rewrite deserialize_any_ok. cbn [bind any_of vdef_of named_composite vdef_any composite_any map fst snd visit_variant variant_fields].
      rewrite str_eqb_refl. unfold de_string. cbn [deserialize vdef_of vstring primitive vdef_de prim_de prim_any bind visit_string].
      change (str_eqb (s2l "values") (s2l "name")) with false. cbn iota. rewrite str_eqb_refl. unfold de_composite_with. rewrite deserialize_any_ok. cbn [bind any_of vdef_of vdef_any].
      rewrite visit_composite_any. rewrite de_comp_flat; [cbn [rmap bind fst snd]; rewrite composite_map_id; reflexivity|]. rewrite Forall_forall in *. intros x Hx. apply value_read_back. apply HP. exact Hx.
  - destruct HD as (p & -> & HW & HP). exists (flat_prim p). cbn [ser]. split; [apply to_value_prim|]. cbn [de]. unfold de_prim. rewrite deserialize_any_ok. cbn [bind].
    destruct p as [b|c|s|n|z|b|b]; cbn [flat_prim]; try reflexivity.
    + cbn [any_of vdef_of primitive vdef_any prim_any visit_prim rmap]. rewrite N2Z.id. reflexivity.
    + cbn [prim_wf] in HW. apply andb_true_iff in HW as [HL HB]. rewrite forallb_forall in HB. cbn [any_of vdef_of unnamed_composite vdef_any composite_any visit_prim]. rewrite map_map, mapM_map.
      rewrite (mapM_total _ Z.of_N).
      * cbn [bind]. rewrite map_length, HL, map_map. cbn [rmap]. repeat f_equal. rewrite <- (map_id b) at 2. apply map_ext. intro. apply N2Z.id.
      * intros x Hx. specialize (HB x Hx). unfold de_u8. cbn [deserialize vdef_of vu128 primitive vdef_de prim_de]. 
        assert (HI : in_int false 8 (Z.of_N x) = true) by (unfold in_int; change (2 ^ Z.of_N 8)%Z with 256%Z; lia). rewrite HI. cbn [bind visit_int]. rewrite HI. reflexivity.
    + exfalso. exact (HP b eq_refl).
Qed.
