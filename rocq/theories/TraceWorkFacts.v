(** * TraceWorkFacts: lemmas for C83. *)
From Verif Require Import Base Value Registry Spec_Scale Scale ScaleFacts Decode DecodeFacts Trace Spec_Trace TraceFacts Spec_Cost DecodeWork DecodeWorkFacts TraceWork.
Open Scope N_scope.

Definition wle (a b : dwork) : Prop := calls a <= calls b /\ levels a <= levels b.
Lemma idle_then a : then_ idle a = a.
Proof. destruct a as [c l]. unfold then_, idle. cbn [calls levels]. rewrite N.add_0_l, N.max_0_l. reflexivity. Qed.
Lemma wle_then a a' b b' : wle a a' -> wle b b' -> wle (then_ a b) (then_ a' b').
Proof. unfold wle, then_. cbn [calls levels]. lia. Qed.
Lemma wle_refl a : wle a a.
Proof. split; apply N.le_refl. Qed.
Lemma wle_idle a : wle idle a.
Proof. split; apply N.le_0_l. Qed.
Lemma wle_more a b : wle a (then_ a b).
Proof. unfold wle, then_. cbn [calls levels]. lia. Qed.
Lemma wle_within a b : wle a b -> wle (within_call a) (within_call b).
Proof. unfold wle, within_call. cbn [calls levels]. lia. Qed.
Definition one_call {A V} (m : ktres A V) : ktres A V := let (r, n) := m in (r, within_tcall n).
Lemma fst_within_tcall {A V} (m : ktres A V) : fst (one_call m) = fst m.
Proof. destruct m; reflexivity. Qed.
Lemma snd_within_tcall {A V} (m : ktres A V) : snd (one_call m) = within_tcall (snd m).
Proof. destruct m; reflexivity. Qed.
Lemma work_report {V T} n (vals : list (value T)) (e : terr V) : work (report n vals e) = idle.
Proof. destruct e; reflexivity. Qed.
Lemma work_report_variant {V} n (e : terr V) : work (report_variant n e) = idle.
Proof. destruct e; reflexivity. Qed.

Section Facts.
  Context {TId : Type} (reg : TId -> resolution TId) (X : ext).
  Local Notation kt := (ktrace reg X).

  (** ** Erasing the counts *)
  Section Erase.
    Context (k : list seg -> TId -> bytes -> ktres (value TId) (value TId)) (d : list seg -> TId -> bytes -> tres (value TId) (value TId)) (H : forall p t bs, fst (k p t bs) = d p t bs).
    Lemma kt_unnamed_erase path ts : forall idx vals bs, fst (kt_unnamed k path idx vals ts bs) = unnamed_loop d path idx vals ts bs.
    Proof.
      induction ts as [|t ts IH]; intros idx vals bs; [reflexivity|]. cbn [kt_unnamed unnamed_loop]. cbv zeta. rewrite H. destruct (d _ t bs) as [[v r]|e]; [|reflexivity]. cbn [fst]. apply IH.
    Qed.
    Lemma kt_named_erase path fs : forall vals bs, fst (kt_named k path vals fs bs) = named_loop d path vals fs bs.
    Proof.
      induction fs as [|[nm t] fs IH]; intros vals bs; [reflexivity|]. cbn [kt_named named_loop]. cbv zeta. rewrite H. destruct (d _ t bs) as [[v r]|e]; [|reflexivity]. cbn [fst]. apply IH.
    Qed.
    Lemma kt_unnamed_composite_erase path n ts bs : fst (kt_unnamed_composite k path n ts bs) = to_unnamed_composite d path n ts bs.
    Proof. unfold kt_unnamed_composite, to_unnamed_composite. destruct (_ <? n); [reflexivity|apply kt_unnamed_erase]. Qed.
    Lemma kt_composite_erase path fs bs : fst (kt_composite k path fs bs) = trace_composite d path fs bs.
    Proof. unfold kt_composite, trace_composite. destruct (_ && _); [apply kt_named_erase|apply kt_unnamed_composite_erase]. Qed.
  End Erase.
  Lemma ktrace_erase fuel : forall path c t bs, fst (kt fuel path c t bs) = trace reg X fuel path c t bs.
  Proof.
    induction fuel as [|f IH]; intros path c t bs; [reflexivity|]. cbn [ktrace trace]. match goal with |- fst (let (r, n) := ?m in _) = _ => change (fst (one_call m) = trace reg X (S f) path c t bs) end. rewrite fst_within_tcall. cbn [trace].
    destruct (reg t) as [| |[fs|vs|t'|t' n|ts|p|t'|st o]]; try reflexivity.
    - destruct (_ && _); [reflexivity|]. unfold kt_wrap. cbn [fst]. rewrite (kt_composite_erase _ _ (fun p => IH p c)). reflexivity.
    - destruct c; [reflexivity|]. destruct bs as [|i bs]; [reflexivity|]. destruct (find _ vs) as [v|]; [|reflexivity]. cbv zeta. rewrite (kt_composite_erase _ _ (fun p => IH p false)).
      destruct (trace_composite _ path (vi_fields v) bs) as [[cm r]|e]; reflexivity.
    - destruct c; [reflexivity|]. destruct (compact_decode (x_len X) bs) as [[n b]|e]; [|reflexivity]. unfold kt_wrap. cbn [fst]. rewrite (kt_unnamed_composite_erase _ _ (fun p => IH p false)). reflexivity.
    - destruct c; [reflexivity|]. unfold kt_wrap. cbn [fst]. rewrite (kt_unnamed_composite_erase _ _ (fun p => IH p false)). reflexivity.
    - destruct (_ && _); [reflexivity|]. unfold kt_wrap. cbn [fst]. rewrite (kt_unnamed_composite_erase _ _ (fun p => IH p c)). reflexivity.
    - apply IH.
    - destruct c; reflexivity.
  Qed.

  (** ** The calls are those of the plain decoder *)
  Definition tracks {A V B} (mt : ktres A V) (mk : worked B) : Prop :=
    match fst mt with
    | Ok (_, r) => work (snd mt) = snd mk /\ exists b, fst mk = Ok (b, r)
    | Err e => match cause_of e with
               | CDecode d => work (snd mt) = snd mk /\ fst mk = Err d
               | CCapacity => wle (work (snd mt)) (snd mk)
               end
    end.
  Section Loops.
    Context (k : list seg -> TId -> bytes -> ktres (value TId) (value TId)) (d : TId -> bytes -> worked (value TId)) (H : forall p t bs, tracks (k p t bs) (d t bs)).
    Lemma kt_unnamed_tracks path ts : forall idx vals bs, tracks (kt_unnamed k path idx vals ts bs) (k_items d ts bs).
    Proof.
      induction ts as [|t ts IH]; intros idx vals bs; cbn [kt_unnamed k_items]; [split; [reflexivity|eexists; reflexivity]|]. cbv zeta.
      specialize (H (path ++ [SIndex idx]) t bs). unfold tracks in H. destruct (k (path ++ [SIndex idx]) t bs) as [[[v r]|e] w]; cbn [fst snd] in *.
      - destruct H as [H1 [b H2]]. destruct (d t bs) as [x n]. cbn [fst snd] in *. subst x n. rewrite wbind_ok, wbind_alone. cbn [fst snd].
        specialize (IH (S idx) (vals ++ [v]) r). unfold tracks in *. cbn [fst snd tthen work copy_path]. rewrite idle_then.
        destruct (kt_unnamed k path (S idx) (vals ++ [v]) ts r) as [[[cm r']|e] w']; cbn [fst snd] in *.
        + destruct IH as [-> [us E]]. destruct (k_items d ts r) as [x n]. cbn [fst snd] in *. subst x. split; [reflexivity|]. eexists; reflexivity.
        + destruct (cause_of e); [destruct IH as [-> E]; destruct (k_items d ts r) as [x n]; cbn [fst snd] in *; subst x; split; reflexivity|].
          apply wle_then; [apply wle_refl|exact IH].
      - unfold tracks. cbn [fst snd tthen work copy_path]. rewrite cause_outer, work_report, then_idle, idle_then. destruct (cause_of e).
        + destruct H as [-> E]. destruct (d t bs) as [x n]. cbn [fst snd] in *. subst x. split; reflexivity.
        + destruct (d t bs) as [[x|x] n]; cbn [fst snd wbind] in *; [|exact H]. destruct H as [H1 H2]. unfold wle, then_. cbn [calls levels]. lia.
    Qed.
    Lemma kt_named_tracks path fs : forall vals bs, tracks (kt_named k path vals fs bs) (k_named d fs bs).
    Proof.
      induction fs as [|[nm t] fs IH]; intros vals bs; cbn [kt_named k_named]; [split; [reflexivity|eexists; reflexivity]|]. cbv zeta.
      set (n := match nm with Some n => n | None => s2l "<unnamed>" end). specialize (H (path ++ [SField n]) t bs). unfold tracks in H. destruct (k (path ++ [SField n]) t bs) as [[[v r]|e] w]; cbn [fst snd] in *.
      - destruct H as [H1 [b H2]]. destruct (d t bs) as [x m]. cbn [fst snd] in *. subst x m. rewrite wbind_ok, wbind_alone. cbn [fst snd].
        specialize (IH (vals ++ [(n, v)]) r). unfold tracks in *. cbn [fst snd tthen work copy_path]. rewrite idle_then.
        destruct (kt_named k path (vals ++ [(n, v)]) fs r) as [[[cm r']|e] w']; cbn [fst snd] in *.
        + destruct IH as [-> [us E]]. destruct (k_named d fs r) as [x m]. cbn [fst snd] in *. subst x. split; [reflexivity|]. eexists; reflexivity.
        + destruct (cause_of e); [destruct IH as [-> E]; destruct (k_named d fs r) as [x m]; cbn [fst snd] in *; subst x; split; reflexivity|].
          apply wle_then; [apply wle_refl|exact IH].
      - unfold tracks. cbn [fst snd tthen work copy_path]. rewrite cause_outer, work_report, then_idle, idle_then. destruct (cause_of e).
        + destruct H as [-> E]. destruct (d t bs) as [x m]. cbn [fst snd] in *. subst x. split; reflexivity.
        + destruct (d t bs) as [[x|x] m]; cbn [fst snd wbind] in *; [|exact H]. destruct H as [H1 H2]. unfold wle, then_. cbn [calls levels]. lia.
    Qed.
    Lemma tracks_post {A V B B'} (mt : ktres A V) (mk : worked B) (g : B * bytes -> dres B') : (forall x, exists y, g x = Ok (y, snd x)) ->
      tracks mt mk -> tracks mt (wbind mk (fun x => alone (g x))).
    Proof.
      intros Hg. unfold tracks. rewrite wbind_alone. cbn [fst snd]. destruct (fst mt) as [[v r]|e].
      - intros [-> [b ->]]. split; [reflexivity|]. destruct (Hg (b, r)) as [y Hy]. exists y. exact Hy.
      - destruct (cause_of e); [intros [-> ->]; split; reflexivity|]. exact (fun H => H).
    Qed.
    Lemma kt_unnamed_composite_tracks path n ts bs : tracks (kt_unnamed_composite k path n ts bs) (k_items d ts bs).
    Proof. unfold kt_unnamed_composite. destruct (_ <? n); [apply wle_idle|apply kt_unnamed_tracks]. Qed.
    Lemma kt_composite_tracks path fs bs : tracks (kt_composite k path fs bs) (k_composite d fs bs).
    Proof.
      unfold kt_composite, k_composite. destruct (_ && _); (apply tracks_post; [intros [x y]; eexists; reflexivity|]); [apply kt_named_tracks|apply kt_unnamed_composite_tracks].
    Qed.
  End Loops.
  Lemma wrap_tracks {B} t (m : ktres (composite (value TId)) (composite (value TId))) (mk : worked B) : tracks m mk -> tracks (kt_wrap t m) mk.
  Proof.
    unfold tracks, kt_wrap. cbn [fst snd]. destruct m as [[[c r]|e] w]; cbn [fst snd wrap_composite]; [exact (fun H => H)|]. rewrite cause_map. exact (fun H => H).
  Qed.
  Lemma call_tracks {A V B} (mt : ktres A V) (mk : worked B) : tracks mt mk -> tracks (let (r, n) := mt in (r, within_tcall n)) (let (r, n) := mk in (r, within_call n)).
  Proof.
    destruct mt as [[[v r]|e] w], mk as [x n]; unfold tracks; cbn [fst snd within_tcall work].
    - intros [-> E]. split; [reflexivity|exact E].
    - destruct (cause_of e); [intros [-> E]; split; [reflexivity|exact E]|]. apply wle_within.
  Qed.
  Lemma alone_tracks {A V B} (r1 : tres A V) (r2 : dres B) : match r1 with Ok (_, r) => exists b, r2 = Ok (b, r) | Err e => exists d, cause_of e = CDecode d /\ r2 = Err d end -> tracks (simply r1) (alone r2).
  Proof. destruct r1 as [[v r]|e]; unfold tracks; cbn [fst snd simply alone]; [intro H; split; [reflexivity|exact H]|]. intros (d & -> & ->). split; reflexivity. Qed.

  Lemma ktrace_tracks fuel : forall path c t bs, tracks (kt fuel path c t bs) (kdecode reg X (fun t => t) fuel c t bs).
  Proof.
    induction fuel as [|f IH]; intros path c t bs; [split; reflexivity|]. cbn [ktrace kdecode]. apply call_tracks.
    assert (leaf : forall d : derr, tracks (simply (A := value TId) (V := value TId) (Err (FromDecode (CDecode d)))) (alone (A := value TId) (Err d))) by (intro d; split; reflexivity).
    destruct (reg t) as [| |[fs|vs|t'|t' n|ts|p|t'|st o]]; try apply leaf.
    - destruct (c && _); [apply leaf|]. apply wrap_tracks. apply tracks_post; [intros [x y]; eexists; reflexivity|]. apply kt_composite_tracks. intro; apply IH.
    - destruct c; [apply leaf|]. destruct bs as [|i bs]; [apply leaf|]. destruct (find _ vs) as [v|]; [|apply leaf].
      apply tracks_post; [intros [x y]; eexists; reflexivity|]. cbv zeta. pose proof (kt_composite_tracks (fun p => kt f p false) (kdecode reg X (fun t => t) f false) (fun p => IH p false) path (vi_fields v) bs) as H.
      unfold tracks in *. destruct (kt_composite _ path (vi_fields v) bs) as [[[cm r]|e] w]; cbn [fst snd tthen work copy_path] in *; rewrite idle_then; [exact H|].
      rewrite cause_outer, work_report_variant, then_idle. exact H.
    - destruct c; [apply leaf|]. destruct (compact_decode (x_len X) bs) as [[n b]|e]; [|split; reflexivity]. rewrite wbind_idle. cbn [fst snd]. apply wrap_tracks. unfold k_unnamed.
      apply tracks_post; [intros [x y]; eexists; reflexivity|]. apply kt_unnamed_composite_tracks. intro; apply IH.
    - destruct c; [apply leaf|]. apply wrap_tracks. unfold k_unnamed. apply tracks_post; [intros [x y]; eexists; reflexivity|]. apply kt_unnamed_composite_tracks. intro; apply IH.
    - destruct (c && _); [apply leaf|]. apply wrap_tracks. unfold k_unnamed. apply tracks_post; [intros [x y]; eexists; reflexivity|]. apply kt_unnamed_composite_tracks. intro; apply IH.
    - apply alone_tracks. rewrite read_prim_untag. destruct (read_prim (x_len X) PI256 c p bs) as [[x b]|e]; cbn [bind lift rmap fst snd]; eexists; [reflexivity|split; reflexivity].
    - apply IH.
    - destruct c; [apply leaf|]. apply alone_tracks. destruct (decode_bits _ st o bs) as [[x b]|e]; cbn [bind lift fst snd]; eexists; [reflexivity|split; reflexivity].
  Qed.

  (** ** Values cloned *)
  Definition spare {A V} (size : V -> N) (m : ktres A V) : Prop :=
    match fst m with
    | Err (FromVisitor _ v _) => cloned (snd m) <= size v
    | _ => cloned (snd m) = 0
    end.
  Definition csize (c : composite (value TId)) : N := total (map nodes (values c)).
  Lemma total_app a b : total (a ++ b) = total a + total b.
  Proof. induction a as [|x a IH]; cbn [app total fold_right] in *; [reflexivity|]. lia. Qed.
  Section Clones.
    Context (k : list seg -> TId -> bytes -> ktres (value TId) (value TId)) (H : forall p t bs, spare nodes (k p t bs)).
    Lemma kt_unnamed_spare path ts : forall idx vals bs, spare csize (kt_unnamed k path idx vals ts bs).
    Proof.
      induction ts as [|t ts IH]; intros idx vals bs; cbn [kt_unnamed]; [reflexivity|]. cbv zeta. specialize (H (path ++ [SIndex idx]) t bs). unfold spare in H.
      destruct (k (path ++ [SIndex idx]) t bs) as [[[v r]|[e|a v e]] w]; cbn [fst snd] in *.
      - specialize (IH (S idx) (vals ++ [v]) r). unfold spare in *. cbn [fst snd tthen cloned copy_path]. rewrite H, !N.add_0_l. exact IH.
      - unfold spare. cbn [fst snd with_outer tthen cloned copy_path report clone_values csize values]. rewrite H. apply N.le_refl.
      - unfold spare. cbn [fst snd with_outer tthen cloned copy_path report clone_values]. unfold csize. cbn [values]. rewrite map_app, total_app. cbn [map total fold_right]. lia.
    Qed.
    Lemma kt_named_spare path fs : forall vals bs, spare csize (kt_named k path vals fs bs).
    Proof.
      induction fs as [|[nm t] fs IH]; intros vals bs; cbn [kt_named]; [reflexivity|]. cbv zeta. set (n := match nm with Some n => n | None => s2l "<unnamed>" end). specialize (H (path ++ [SField n]) t bs). unfold spare in H.
      destruct (k (path ++ [SField n]) t bs) as [[[v r]|[e|a v e]] w]; cbn [fst snd] in *.
      - specialize (IH (vals ++ [(n, v)]) r). unfold spare in *. cbn [fst snd tthen cloned copy_path]. rewrite H, !N.add_0_l. exact IH.
      - unfold spare. cbn [fst snd with_outer tthen cloned copy_path report clone_values csize values]. rewrite H. apply N.le_refl.
      - unfold spare. cbn [fst snd with_outer tthen cloned copy_path report clone_values]. unfold csize. cbn [values]. rewrite !map_app, total_app. cbn [map snd total fold_right]. lia.
    Qed.
    Lemma kt_unnamed_composite_spare path n ts bs : spare csize (kt_unnamed_composite k path n ts bs).
    Proof. unfold kt_unnamed_composite. destruct (_ <? n); [reflexivity|apply kt_unnamed_spare]. Qed.
    Lemma kt_composite_spare path fs bs : spare csize (kt_composite k path fs bs).
    Proof. unfold kt_composite. destruct (_ && _); [apply kt_named_spare|apply kt_unnamed_composite_spare]. Qed.
  End Clones.
  Lemma nodes_composite (c : composite (value TId)) t : nodes (Val (DComposite c) t) = 1 + csize c.
  Proof. cbn [nodes]. rewrite values_cmap. reflexivity. Qed.
  Lemma nodes_variant n (c : composite (value TId)) t : nodes (Val (DVariant n c) t) = 1 + csize c.
  Proof. cbn [nodes]. rewrite values_cmap. reflexivity. Qed.
  Lemma wrap_spare t (m : ktres (composite (value TId)) (composite (value TId))) : spare csize m -> spare nodes (kt_wrap t m).
  Proof.
    unfold spare, kt_wrap. destruct m as [[[c r]|[e|a v e]] w]; cbn [fst snd wrap_composite map_so_far]; try exact (fun H => H). rewrite nodes_composite. lia.
  Qed.
  Lemma lift_spare {A} (r : dres A) : spare (A := A) (V := value TId) nodes (simply (lift r)).
  Proof. destruct r as [[v b]|e]; reflexivity. Qed.
  Lemma ktrace_spare fuel : forall path c t bs, spare nodes (kt fuel path c t bs).
  Proof.
    induction fuel as [|f IH]; intros path c t bs; [reflexivity|]. cbn [ktrace]. match goal with |- spare nodes (let (r, n) := ?m in _) => change (spare nodes (one_call m)); assert (G : spare nodes m); [|unfold spare in *; rewrite fst_within_tcall, snd_within_tcall; exact G] end.
    destruct (reg t) as [| |[fs|vs|t'|t' n|ts|p|t'|st o]]; try reflexivity.
    - destruct (c && _); [reflexivity|]. apply wrap_spare, kt_composite_spare. intro; apply IH.
    - destruct c; [reflexivity|]. destruct bs as [|i bs]; [reflexivity|]. destruct (find _ vs) as [v|]; [|reflexivity]. cbv zeta.
      pose proof (kt_composite_spare (fun p => kt f p false) (fun p => IH p false) path (vi_fields v) bs) as H. unfold spare in *.
      destruct (kt_composite _ path (vi_fields v) bs) as [[[cm r]|[e|a w e]] x]; cbn [fst snd tthen cloned copy_path with_outer report_variant at_rest] in *; [lia|lia|]. rewrite nodes_variant. lia.
    - destruct c; [reflexivity|]. destruct (compact_decode (x_len X) bs) as [[n b]|e]; [|reflexivity]. apply wrap_spare, kt_unnamed_composite_spare. intro; apply IH.
    - destruct c; [reflexivity|]. apply wrap_spare, kt_unnamed_composite_spare. intro; apply IH.
    - destruct (c && _); [reflexivity|]. apply wrap_spare, kt_unnamed_composite_spare. intro; apply IH.
    - apply lift_spare.
    - apply IH.
    - destruct c; [reflexivity|]. apply lift_spare.
  Qed.

  (** ** Values shown *)
  Definition shows {V} (size : V -> N) (extra : N) (m : ktres V V) : Prop :=
    match fst m with
    | Ok (v, _) | Err (FromVisitor _ v _) => size v <= extra + calls (work (snd m))
    | Err (FromDecode _) => True
    end.
  Section Shows.
    Context (k : list seg -> TId -> bytes -> ktres (value TId) (value TId)) (H : forall p t bs, shows nodes 0 (k p t bs)).
    Lemma kt_unnamed_shows path ts : forall idx vals bs, shows csize (total (map nodes vals)) (kt_unnamed k path idx vals ts bs).
    Proof.
      induction ts as [|t ts IH]; intros idx vals bs; cbn [kt_unnamed]; [unfold shows, csize; cbn [fst snd values copy_path work idle calls]; lia|]. cbv zeta.
      specialize (H (path ++ [SIndex idx]) t bs). unfold shows in H. destruct (k (path ++ [SIndex idx]) t bs) as [[[v r]|[e|a v e]] w]; cbn [fst snd] in *.
      - specialize (IH (S idx) (vals ++ [v]) r). unfold shows in *. cbn [fst snd tthen work copy_path]. rewrite idle_then. unfold then_. cbn [calls]. rewrite map_app, total_app in IH. cbn [map total fold_right] in IH.
        destruct (kt_unnamed k path (S idx) (vals ++ [v]) ts r) as [[[cm r']|[e|a cm e]] w']; cbn [fst snd] in *; [lia|exact I|lia].
      - unfold shows, csize. cbn [fst snd with_outer values]. lia.
      - unfold shows, csize. cbn [fst snd with_outer values tthen work copy_path report clone_values]. rewrite idle_then, then_idle, map_app, total_app. cbn [map total fold_right]. lia.
    Qed.
    Lemma kt_named_shows path fs : forall vals bs, shows csize (total (map nodes (map snd vals))) (kt_named k path vals fs bs).
    Proof.
      induction fs as [|[nm t] fs IH]; intros vals bs; cbn [kt_named]; [unfold shows, csize; cbn [fst snd values copy_path work idle calls]; lia|]. cbv zeta.
      set (n := match nm with Some n => n | None => s2l "<unnamed>" end).
      specialize (H (path ++ [SField n]) t bs). unfold shows in H. destruct (k (path ++ [SField n]) t bs) as [[[v r]|[e|a v e]] w]; cbn [fst snd] in *.
      - specialize (IH (vals ++ [(n, v)]) r). unfold shows in *. cbn [fst snd tthen work copy_path]. rewrite idle_then. unfold then_. cbn [calls]. rewrite !map_app, total_app in IH. cbn [map snd total fold_right] in IH.
        destruct (kt_named k path (vals ++ [(n, v)]) fs r) as [[[cm r']|[e|a cm e]] w']; cbn [fst snd] in *; [lia|exact I|lia].
      - unfold shows, csize. cbn [fst snd with_outer values]. lia.
      - unfold shows, csize. cbn [fst snd with_outer values tthen work copy_path report clone_values]. rewrite idle_then, then_idle, !map_app, total_app. cbn [map snd total fold_right]. lia.
    Qed.
    Lemma kt_unnamed_composite_shows path n ts bs : shows csize 0 (kt_unnamed_composite k path n ts bs).
    Proof. unfold kt_unnamed_composite. destruct (_ <? n); [exact I|apply kt_unnamed_shows]. Qed.
    Lemma kt_composite_shows path fs bs : shows csize 0 (kt_composite k path fs bs).
    Proof. unfold kt_composite. destruct (_ && _); [apply kt_named_shows|apply kt_unnamed_composite_shows]. Qed.
  End Shows.
  Lemma call_shows (m : ktres (value TId) (value TId)) : shows nodes 1 m -> shows nodes 0 (one_call m).
  Proof.
    unfold shows. rewrite fst_within_tcall, snd_within_tcall. unfold within_tcall, within_call. cbn [work calls]. destruct (fst m) as [[v r]|[e|a v e]]; try exact (fun x => x); lia.
  Qed.
  Lemma wrap_shows t (m : ktres (composite (value TId)) (composite (value TId))) : shows csize 0 m -> shows nodes 1 (kt_wrap t m).
  Proof.
    unfold shows, kt_wrap. destruct m as [[[c r]|[e|a v e]] w]; cbn [fst snd wrap_composite map_so_far]; rewrite ?nodes_composite; try exact (fun x => x); lia.
  Qed.
  Lemma ktrace_shows fuel : forall path c t bs, shows nodes 0 (kt fuel path c t bs).
  Proof.
    induction fuel as [|f IH]; intros path c t bs; [exact I|]. cbn [ktrace].
    match goal with |- shows _ _ (let (r, n) := ?m in _) => change (shows nodes 0 (one_call m)) end. apply call_shows.
    destruct (reg t) as [| |[fs|vs|t'|t' n|ts|p|t'|st o]]; try exact I.
    - destruct (c && _); [exact I|]. apply wrap_shows, kt_composite_shows. intro; apply IH.
    - destruct c; [exact I|]. destruct bs as [|i bs]; [exact I|]. destruct (find _ vs) as [v|]; [|exact I]. cbv zeta.
      pose proof (kt_composite_shows (fun p => kt f p false) (fun p => IH p false) path (vi_fields v) bs) as H. unfold shows in *.
      destruct (kt_composite _ path (vi_fields v) bs) as [[[cm r]|[e|a w e]] x]; cbn [fst snd tthen work copy_path with_outer report_variant at_rest] in *; rewrite nodes_variant, ?then_idle, idle_then; try lia.
      unfold csize. cbn [values map total fold_right]. lia.
    - destruct c; [exact I|]. destruct (compact_decode (x_len X) bs) as [[n b]|e]; [|exact I]. apply wrap_shows, kt_unnamed_composite_shows. intro; apply IH.
    - destruct c; [exact I|]. apply wrap_shows, kt_unnamed_composite_shows. intro; apply IH.
    - destruct (c && _); [exact I|]. apply wrap_shows, kt_unnamed_composite_shows. intro; apply IH.
    - unfold shows. destruct (read_prim (x_len X) PI256 c p bs) as [[x b]|e]; [|exact I]. cbn [bind lift simply fst snd at_rest work idle calls]. change (1 <= 1 + 0). lia.
    - specialize (IH path true t' bs). unfold shows in *. destruct (fst (kt f path true t' bs)) as [[v r]|[e|a v e]]; try exact I; lia.
    - destruct c; [exact I|]. unfold shows. destruct (decode_bits _ st o bs) as [[x b]|e]; [|exact I]. cbn [bind lift simply fst snd at_rest work idle calls]. change (1 <= 1 + 0). lia.
  Qed.

  (** ** Segments copied *)
  (** At most five times (calls x (length of the path + levels)), one copy of the path more included. *)
  Definition okp {A V} (n : N) (m : ktres A V) : Prop :=
    (copied (snd m) = 0 /\ calls (work (snd m)) = 0 /\ exists e, fst m = Err e) \/
    copied (snd m) + n <= 5 * (calls (work (snd m)) * (n + levels (work (snd m)))).
  (** A loop: its items, and at most two copies of the path. *)
  Definition okl (n : N) (w : twork) : Prop := copied w <= 5 * (calls (work w) * (n + 1 + levels (work w))) + 2 * n.
  Lemma len_snoc {A} (l : list A) x : N.of_nat (length (l ++ [x])) = N.of_nat (length l) + 1.
  Proof. rewrite app_length. cbn [length]. lia. Qed.
  Lemma max_plus a b n c d : a * (n + c) + b * (n + d) <= (a + b) * (n + N.max c d).
  Proof.
    rewrite N.mul_add_distr_r. apply N.add_le_mono; apply N.mul_le_mono_l; lia.
  Qed.
  Lemma okl_next (n : nat) (m : ktres (value TId) (value TId)) x w' : fst m = Ok x -> okp (N.of_nat n + 1) m -> okl (N.of_nat n) w' -> okl (N.of_nat n) (tthen (copy_path n) (tthen (snd m) w')).
  Proof.
    intros E [(_ & _ & e & E')|P] Q; [congruence|]. unfold okl in *. unfold tthen, copy_path. cbn [copied work]. rewrite idle_then. unfold then_. cbn [calls levels].
    pose proof (max_plus (calls (work (snd m))) (calls (work w')) (N.of_nat n + 1) (levels (work (snd m))) (levels (work w'))). lia.
  Qed.
  Lemma copied_report {V T} n (vals : list (value T)) (e : terr V) : copied (report n vals e) <= N.of_nat n.
  Proof. destruct e; unfold report, tthen, copy_path, clone_values; cbn [copied]; lia. Qed.
  Lemma okl_stop {T} (n : nat) (m : ktres (value TId) (value TId)) (vals : list (value T)) (e : terr (value TId)) : okp (N.of_nat n + 1) m ->
    okl (N.of_nat n) (tthen (copy_path n) (tthen (snd m) (report n vals e))).
  Proof.
    intro P. unfold okl, tthen. cbn [copied work]. rewrite work_report, then_idle. cbn [copy_path work copied]. rewrite idle_then. pose proof (copied_report n vals e). destruct P as [(P1 & P2 & _)|P]; [rewrite P1, P2; lia|lia].
  Qed.
  Section Copies.
    Context (k : list seg -> TId -> bytes -> ktres (value TId) (value TId)) (H : forall p t bs, okp (N.of_nat (length p)) (k p t bs)).
    Lemma kt_unnamed_copies path ts : forall idx vals bs, okl (N.of_nat (length path)) (snd (kt_unnamed k path idx vals ts bs)).
    Proof.
      induction ts as [|t ts IH]; intros idx vals bs; cbn [kt_unnamed]; [unfold okl; cbn [snd copy_path copied work idle calls levels]; lia|]. cbv zeta.
      specialize (H (path ++ [SIndex idx]) t bs). rewrite len_snoc in H. destruct (fst (k (path ++ [SIndex idx]) t bs)) as [[v r]|e] eqn:E; cbn [snd].
      - eapply okl_next; [exact E|exact H|]. apply IH.
      - apply okl_stop, H.
    Qed.
    Lemma kt_named_copies path fs : forall vals bs, okl (N.of_nat (length path)) (snd (kt_named k path vals fs bs)).
    Proof.
      induction fs as [|[nm t] fs IH]; intros vals bs; cbn [kt_named]; [unfold okl; cbn [snd copy_path copied work idle calls levels]; lia|]. cbv zeta.
      set (n := match nm with Some n => n | None => s2l "<unnamed>" end).
      specialize (H (path ++ [SField n]) t bs). rewrite len_snoc in H. destruct (fst (k (path ++ [SField n]) t bs)) as [[v r]|e] eqn:E; cbn [snd].
      - eapply okl_next; [exact E|exact H|]. apply IH.
      - apply okl_stop, H.
    Qed.
    Lemma kt_unnamed_composite_copies path n ts bs : okl (N.of_nat (length path)) (snd (kt_unnamed_composite k path n ts bs)).
    Proof. unfold kt_unnamed_composite. destruct (_ <? n); [unfold okl; cbn [simply snd at_rest copied]; lia|apply kt_unnamed_copies]. Qed.
    Lemma kt_composite_copies path fs bs : okl (N.of_nat (length path)) (snd (kt_composite k path fs bs)).
    Proof. unfold kt_composite. destruct (_ && _); [apply kt_named_copies|apply kt_unnamed_composite_copies]. Qed.
  End Copies.
  (** One call around a loop, with at most as much as two copies of the path and one segment more. *)
  Lemma call_copies {A V} n (m : ktres A V) extra : copied (snd m) <= 5 * (calls (work (snd m)) * (n + 1 + levels (work (snd m)))) + extra -> extra <= 4 * n + 1 -> okp n (one_call m).
  Proof.
    intros H HE. right. rewrite snd_within_tcall. unfold within_tcall, within_call. cbn [copied work calls levels].
    set (c := calls (work (snd m))) in *. set (l := levels (work (snd m))) in *. replace (n + (1 + l)) with (n + 1 + l) by lia. rewrite N.mul_add_distr_r. lia.
  Qed.
  Lemma okl_call {A V} n (m : ktres A V) : okl n (snd m) -> okp n (one_call m).
  Proof. intro H. eapply call_copies; [exact H|lia]. Qed.
  Lemma ktrace_copies fuel : forall path c t bs, okp (N.of_nat (length path)) (kt fuel path c t bs).
  Proof.
    induction fuel as [|f IH]; intros path c t bs; [left; cbn [ktrace simply fst snd at_rest copied work idle calls]; eauto|]. cbn [ktrace].
    match goal with |- okp _ (let (r, n) := ?m in _) => change (okp (N.of_nat (length path)) (one_call m)) end.
    assert (leaf : forall r : tres (value TId) (value TId), okp (N.of_nat (length path)) (one_call (simply r))).
    { intro r. apply okl_call. unfold okl. cbn [simply snd at_rest copied]. lia. }
    destruct (reg t) as [| |[fs|vs|t'|t' n|ts|p|t'|st o]]; try apply leaf.
    - destruct (c && _); [apply leaf|]. apply okl_call, kt_composite_copies. intros; apply IH.
    - destruct c; [apply leaf|]. destruct bs as [|i bs]; [apply leaf|]. destruct (find _ vs) as [v|]; [|apply leaf]. cbv zeta.
      pose proof (kt_composite_copies (fun p => kt f p false) (fun p => IH p false) path (vi_fields v) bs) as H. unfold okl in H.
      destruct (kt_composite _ path (vi_fields v) bs) as [[[cm r]|e] x]; cbn [fst snd] in *.
      + eapply call_copies with (extra := 3 * N.of_nat (length path)); [|lia]. unfold tthen, copy_path. cbn [snd copied work]. rewrite idle_then. lia.
      + eapply call_copies with (extra := 4 * N.of_nat (length path) + 1); [|lia]. unfold tthen. cbn [snd copied work]. rewrite work_report_variant, then_idle. cbn [copy_path copied work]. rewrite idle_then.
        assert (copied (report_variant (S (length path)) e) <= N.of_nat (length path) + 1) by (destruct e; cbn [report_variant copy_path at_rest copied]; lia). lia.
    - destruct c; [apply leaf|]. destruct (compact_decode (x_len X) bs) as [[n b]|e]; [|apply leaf]. apply okl_call. exact (kt_unnamed_composite_copies (fun p => kt f p false) (fun p => IH p false) path _ _ _).
    - destruct c; [apply leaf|]. apply okl_call. exact (kt_unnamed_composite_copies (fun p => kt f p false) (fun p => IH p false) path _ _ _).
    - destruct (c && _); [apply leaf|]. apply okl_call. exact (kt_unnamed_composite_copies (fun p => kt f p c) (fun p => IH p c) path _ _ _).
    - destruct (IH path true t' bs) as [(P1 & P2 & _)|P].
      + apply okl_call. unfold okl. rewrite P1. lia.
      + apply okl_call. unfold okl. rewrite !N.mul_add_distr_l in *. lia.
    - destruct c; apply leaf.
  Qed.
End Facts.
