(** * SerdeMore: structs by name, contexts, failures of the serializer. *)
From Verif Require Import Base Value Spec_Value ValueFacts Scale Serde SerdeFacts Spec_Serde SerdeRt SerdeUni.
From Coq Require Import Permutation.

(** ** Structs read from named fields *)
Definition known {A} (fs : list (str * A)) (k : str) : bool := match find_field k fs with Some _ => true | None => false end.

Lemma find_field_In {A} (l : list (str * A)) k x : find_field k l = Some x -> In (k, x) l.
Proof.
  induction l as [|[m y] l IH]; cbn [find_field]; [discriminate|]. destruct (str_eqb k m) eqn:E; intro H.
  - apply str_eqb_eq in E. injection H as ->. subst. left. reflexivity.
  - right. apply IH. exact H.
Qed.

Lemma find_field_None {A} (l : list (str * A)) k : find_field k l = None -> ~ In k (map fst l).
Proof.
  induction l as [|[m y] l IH]; cbn [find_field map fst]; [intros _ []|]. destruct (str_eqb k m) eqn:E; intro H; [discriminate|].
  apply str_eqb_neq in E. intros [HI|HI]; [congruence|]. apply (IH H HI).
Qed.

Lemma struct_entries_spec {T} (fs : list (str * (source T -> result data derr))) l : forall acc r,
  struct_entries fs l acc = Ok r <->
  exists new, r = rev new ++ acc /\
    Forall2 (fun ks kd => fst kd = fst ks /\ exists f, find_field (fst ks) fs = Some f /\ f (snd ks) = Ok (snd kd)) (filter (fun ks => known fs (fst ks)) l) new /\
    NoDup (map fst new) /\ (forall k, In k (map fst new) -> ~ In k (map fst acc)).
Proof.
  induction l as [|[k s] l IH]; intros acc r; cbn [struct_entries filter].
  - split.
    + intro H. injection H as <-. exists []. split; [reflexivity|]. split; [constructor|]. split; [constructor|intros k []].
    + intros (new & -> & H & _). inversion H. reflexivity.
  - unfold known at 1. cbn [fst]. destruct (find_field k fs) as [f|] eqn:Ef.
    + destruct (find_field k acc) as [y|] eqn:Ea.
      * split; [discriminate|]. intros (new & -> & H & ND & HA). exfalso. inversion H as [|? [k' d] ? new' (Hk & _) _]; subst. cbn [fst] in Hk. subst k'.
        apply (HA k); [left; reflexivity|]. apply find_field_In in Ea. change k with (fst (k, y)). apply in_map. exact Ea.
      * apply find_field_None in Ea. destruct (f s) as [x|] eqn:Ex; cbn [bind].
        -- rewrite IH. split.
           ++ intros (new & -> & H & ND & HA). exists ((k, x) :: new). split; [cbn [rev]; rewrite <- app_assoc; reflexivity|].
              split; [constructor; [cbn [fst snd]; split; [reflexivity|]; exists f; split; [exact Ef|exact Ex]|exact H]|].
              cbn [map fst] in *. split.
              ** constructor; [|exact ND]. intro HI. apply (HA k HI). left. reflexivity.
              ** intros q [<-|HI]; [exact Ea|]. intro HQ. apply (HA q HI). right. exact HQ.
           ++ intros (new & -> & H & ND & HA). inversion H as [|? [k' d] ? new' (Hk & f' & Hf & Hd) H']; subst. cbn [fst snd] in *. subst k'.
              rewrite Ef in Hf. injection Hf as <-. rewrite Ex in Hd. injection Hd as <-. exists new'. split; [cbn [rev]; rewrite <- app_assoc; reflexivity|].
              split; [exact H'|]. cbn [map fst] in *. inversion ND as [|? ? HN ND']; subst. split; [exact ND'|].
              intros q HI [HQ|HQ]; [subst q; contradiction|]. apply (HA q); [right; exact HI|exact HQ].
        -- split; [discriminate|]. intros (new & _ & H & _). exfalso. inversion H as [|? [k' d] ? new' (Hk & f' & Hf & Hd) H']; subst. cbn [fst snd] in *. congruence.
    + rewrite de_ignored_ok. cbn [bind]. apply IH.
Qed.

Definition find_last_eq {A} (l : list (str * A)) k x : NoDup (map fst l) -> (find_field k l = Some x <-> In (k, x) l).
Proof. intro ND. split; [apply find_field_In|apply find_field_nodup; exact ND]. Qed.

(** The characterisation: every field is given once by its name, or is absent and optional; other keys do not matter. *)
Theorem visit_struct_named {T} (fs : list (str * ty)) (l : list (str * value T)) ds : NoDup (map fst fs) ->
  visit_struct (map (fun nt => match nt with (n, t') => (n, de t') end) fs) (map (fun nt => match nt with (n, t') => (n, missing t') end) fs) (composite_any (Named l)) = Ok ds <->
  NoDup (filter (known fs) (map fst l)) /\
  Forall2 (fun ft nd => fst nd = fst ft /\
    ((exists v, In (fst ft, v) l /\ from_value (snd ft) v = Ok (snd nd)) \/ (~ In (fst ft) (map fst l) /\ missing (snd ft) = Ok (snd nd)))) fs ds /\
  (forall k v t, In (k, v) l -> In (k, t) fs -> exists x, from_value t v = Ok x).
Proof.
  intro ND. cbn [composite_any visit_struct]. rewrite bind_ok.
  set (F := map (fun nt => match nt with (n, t') => (n, de t') end) fs).
  set (M := map (fun nt => match nt with (n, t') => (n, missing t') end) fs).
  set (L := map (fun kv => (fst kv, SrcValue (snd kv))) l).
  assert (HK : forall k, known F k = known fs k) by (intro k; unfold known, F; rewrite find_field_map; destruct (find_field k fs); reflexivity).
  assert (HF : forall k f, find_field k F = Some f <-> exists t, In (k, t) fs /\ f = de t).
  { intros k f. unfold F. rewrite find_field_map. split.
    - intro H. destruct (find_field k fs) as [t|] eqn:E; [|discriminate]. injection H as <-. apply find_field_In in E. eauto.
    - intros (t & HI & ->). rewrite (find_field_nodup fs k t ND HI). reflexivity. }
  assert (HL : filter (known fs) (map fst l) = map fst (filter (fun ks => known F (fst ks)) L)).
  { unfold L. clear -HK. induction l as [|[k v] l IH]; [reflexivity|]. cbn [map filter fst]. rewrite HK. destruct (known fs k); cbn [map fst]; rewrite IH; reflexivity. }
  assert (HM : forall acc, struct_finish M acc = Ok ds <-> Forall2 (fun ft nd => fst nd = fst ft /\ match find_field (fst ft) acc with Some x => Ok x | None => missing (snd ft) end = Ok (snd nd)) fs ds).
  { intro acc. unfold struct_finish. rewrite mapM_ok. unfold M. clear. revert ds. induction fs as [|[n t] fs IH]; intro ds; cbn [map].
    - split; intro H; inversion H; constructor.
    - split; intro H; inversion H as [|? [n' d] ? ds' H1 H2]; subst; constructor; try (apply IH; assumption); cbn [fst snd] in *.
      + apply rmap_ok in H1 as (x & H1 & H3). injection H3 as -> ->. split; [reflexivity|exact H1].
      + destruct H1 as [-> H1]. rewrite H1. reflexivity. }
  split.
  - intros (acc & HA & HS). apply struct_entries_spec in HA as (new & -> & HN & HND & _). rewrite app_nil_r in HS. apply HM in HS.
    assert (HNames : map fst new = map fst (filter (fun ks => known F (fst ks)) L)).
    { clear -HN. induction HN as [|? ? ? ? (H & _) _ IH]; [reflexivity|]. cbn [map]. rewrite H, IH. reflexivity. }
    assert (HIn : forall k d, In (k, d) new -> exists v t, In (k, v) l /\ In (k, t) fs /\ from_value t v = Ok d).
    { intros k d HI. assert (H2 : exists s f, In (k, s) (filter (fun ks => known F (fst ks)) L) /\ find_field k F = Some f /\ f s = Ok d).
      { clear -HN HI. induction HN as [|[a s] [b e] ? ? (H & f & Hf & He) _ IH]; [destruct HI|]. cbn [fst snd] in *. destruct HI as [HI|HI].
        - injection HI as <- <-. subst b. exists s, f. split; [left; reflexivity|]. auto.
        - destruct (IH HI) as (s' & f' & ? & ?). exists s', f'. split; [right; assumption|assumption]. }
      destruct H2 as (s & f & H2 & Hf & Hd). apply HF in Hf as (t & Ht & ->). apply filter_In in H2 as [H2 _]. unfold L in H2. apply in_map_iff in H2 as ([k' v] & H2 & H3).
      cbn [fst snd] in H2. injection H2 as -> <-. exists v, t. auto. }
    assert (HIn' : forall k v t, In (k, v) l -> In (k, t) fs -> exists d, In (k, d) new /\ from_value t v = Ok d).
    { intros k v t HI Ht. assert (H2 : In (k, SrcValue v) (filter (fun ks => known F (fst ks)) L)).
      { apply filter_In. split; [unfold L; change (k, SrcValue v) with ((fun kv : str * value T => (fst kv, SrcValue (snd kv))) (k, v)); apply in_map; exact HI|].
        cbn [fst]. unfold known. rewrite (proj2 (HF k (de t))) by eauto. reflexivity. }
      clear -HN H2 HF ND Ht. induction HN as [|[a s] [b e] ? ? (H & f & Hf & He) _ IH]; [destruct H2|]. cbn [fst snd] in *. destruct H2 as [H2|H2].
      - injection H2 as -> ->. subst b. exists e. split; [left; reflexivity|]. apply HF in Hf as (t' & Ht' & ->).
        assert (t' = t) as -> by (apply (find_field_nodup fs k t ND) in Ht; apply (find_field_nodup fs k t' ND) in Ht'; congruence). exact He.
      - destruct (IH H2) as (d & ? & ?). exists d. split; [right; assumption|assumption]. }
    split; [rewrite HL, <- HNames; exact HND|]. split.
    + assert (HNDr : NoDup (map fst (rev new))) by (rewrite map_rev; apply NoDup_rev; exact HND).
      assert (HSub : forall n t, In (n, t) fs -> In (n, t) fs) by auto. revert HSub.
      generalize fs at 1 2 as gs. intros gs. 
      assert (HG : forall gs ds, (forall n t, In (n, t) gs -> In (n, t) fs) ->
         Forall2 (fun ft nd => fst nd = fst ft /\ match find_field (fst ft) (rev new) with Some x => Ok x | None => missing (snd ft) end = Ok (snd nd)) gs ds ->
         Forall2 (fun ft nd => fst nd = fst ft /\ ((exists v, In (fst ft, v) l /\ from_value (snd ft) v = Ok (snd nd)) \/ (~ In (fst ft) (map fst l) /\ missing (snd ft) = Ok (snd nd)))) gs ds).
      { clear gs. intros gs es HSub HS'. induction HS' as [|[n t] [n' d] gs es (H1 & H2) _ IH]; constructor.
        - cbn [fst snd] in *. split; [exact H1|]. destruct (find_field n (rev new)) as [x|] eqn:E.
          + left. injection H2 as <-. apply find_field_In in E. rewrite <- in_rev in E. destruct (HIn n x E) as (v & t' & Hv & Ht' & Hd).
            assert (t' = t) as ->. { specialize (HSub n t (or_introl eq_refl)). apply (find_field_nodup fs n t ND) in HSub. apply (find_field_nodup fs n t' ND) in Ht'. congruence. }
            eauto.
          + right. split; [|exact H2]. intro HI. apply in_map_iff in HI as ([n0 v] & H0 & HI). cbn [fst] in H0. subst n0.
            destruct (HIn' n v t HI (HSub n t (or_introl eq_refl))) as (d' & Hd & _). apply find_field_None in E. apply E. rewrite map_rev, <- in_rev. change n with (fst (n, d')). apply in_map. exact Hd.
        - apply IH. intros a b HI. apply HSub. right. exact HI. }
      intro HSub. clear gs HSub. apply HG; [auto|exact HS].
    + intros k v t HI Ht. destruct (HIn' k v t HI Ht) as (d & _ & ?). eauto.
  - intros (HND & HS & HT).
    assert (HNew : exists new, Forall2 (fun ks kd => fst kd = fst ks /\ exists f, find_field (fst ks) F = Some f /\ f (snd ks) = Ok (snd kd)) (filter (fun ks => known F (fst ks)) L) new).
    { assert (HG : forall k s, In (k, s) L -> known F k = true -> exists d f, find_field k F = Some f /\ f s = Ok d).
      { intros k s HI HKn. unfold known in HKn. destruct (find_field k F) as [f|] eqn:E; [|discriminate]. pose proof E as E'. apply HF in E' as (t & Ht & ->).
        unfold L in HI. apply in_map_iff in HI as ([k' v] & HE & HI). cbn [fst snd] in HE. injection HE as -> <-. destruct (HT k v t HI Ht) as (x & Hx). exists x, (de t). split; [reflexivity|exact Hx]. }
      revert HG. generalize L as L'. induction L' as [|[k s] L' IH]; intro HG; [exists []; constructor|].
      destruct IH as (new & IH). { intros k' s' HI. apply HG. right. exact HI. }
      cbn [filter fst]. destruct (known F k) eqn:E; [|exists new; exact IH]. destruct (HG k s (or_introl eq_refl) E) as (d & f & Hf & Hd).
      exists ((k, d) :: new). constructor; [|exact IH]. cbn [fst snd]. split; [reflexivity|]. eauto. }
    destruct HNew as (new & HN).
    assert (HNames : map fst new = map fst (filter (fun ks => known F (fst ks)) L)).
    { clear -HN. induction HN as [|? ? ? ? (H & _) _ IH]; [reflexivity|]. cbn [map]. rewrite H, IH. reflexivity. }
    assert (HNDn : NoDup (map fst new)) by (rewrite HNames, <- HL; exact HND).
    exists (rev new ++ []). split.
    + apply struct_entries_spec. exists new. split; [reflexivity|]. split; [exact HN|]. split; [exact HNDn|intros k _ []].
    + rewrite app_nil_r. apply HM.
      assert (HG : forall gs es, (forall n t, In (n, t) gs -> In (n, t) fs) ->
         Forall2 (fun ft nd => fst nd = fst ft /\ ((exists v, In (fst ft, v) l /\ from_value (snd ft) v = Ok (snd nd)) \/ (~ In (fst ft) (map fst l) /\ missing (snd ft) = Ok (snd nd)))) gs es ->
         Forall2 (fun ft nd => fst nd = fst ft /\ match find_field (fst ft) (rev new) with Some x => Ok x | None => missing (snd ft) end = Ok (snd nd)) gs es).
      { intros gs es HSub HS'. induction HS' as [|[n t] [n' d] gs es (H1 & H2) _ IH]; constructor.
        - cbn [fst snd] in *. split; [exact H1|]. destruct H2 as [(v & Hv & Hd)|(Hv & Hd)].
          + assert (HIN : In (n, d) new).
            { assert (H2 : In (n, SrcValue v) (filter (fun ks => known F (fst ks)) L)).
              { apply filter_In. split; [unfold L; change (n, SrcValue v) with ((fun kv : str * value T => (fst kv, SrcValue (snd kv))) (n, v)); apply in_map; exact Hv|].
                cbn [fst]. unfold known. rewrite (proj2 (HF n (de t))); [reflexivity|]. exists t. split; [apply HSub; left; reflexivity|reflexivity]. }
              specialize (HSub n t (or_introl eq_refl)).
              clear -HN H2 HF ND HSub Hd. induction HN as [|[a s] [b e] ? ? (H & f & Hf & He) _ IH]; [destruct H2|]. cbn [fst snd] in *. destruct H2 as [H2|H2].
              - injection H2 as -> ->. subst b. left. apply HF in Hf as (t' & Ht' & ->).
                assert (t' = t) as -> by (apply (find_field_nodup fs n t ND) in HSub; apply (find_field_nodup fs n t' ND) in Ht'; congruence). unfold from_value in Hd. congruence.
              - right. apply IH. exact H2. }
            rewrite (find_field_nodup (rev new) n d); [reflexivity| |rewrite <- in_rev; exact HIN]. rewrite map_rev. apply NoDup_rev. exact HNDn.
          + rewrite find_field_absent; [exact Hd|]. rewrite map_rev, <- in_rev, HNames. intro HI. apply in_map_iff in HI as ([k s] & HE & HI). cbn [fst] in HE. subst k.
            apply filter_In in HI as [HI _]. unfold L in HI. apply in_map_iff in HI as ([k' v] & HE & HI). cbn [fst snd] in HE. injection HE as -> _. apply Hv. change n with (fst (n, v)). apply in_map. exact HI.
        - apply IH. intros a b HI. apply HSub. right. exact HI. }
      apply HG; [auto|exact HS].
Qed.
