(** * DecodeWorkFacts: lemmas for C79. *)
From Verif Require Import Base Value Registry Spec_Scale Scale ScaleFacts Decode DecodeFacts DecodeMore Spec_Cost Spec_Size SizeFacts Spec_Decode Spec_DecodeWork DecodeWork.
Open Scope N_scope.

Lemma then_idle a : then_ a idle = a.
Proof. destruct a as [c l]. unfold then_, idle. cbn [calls levels]. rewrite N.add_0_r, N.max_0_r. reflexivity. Qed.
Lemma wbind_alone {A B} (m : worked A) (g : A * bytes -> dres B) : wbind m (fun x => alone (g x)) = (bind (fst m) g, snd m).
Proof. unfold wbind, alone. destruct m as [[a|e] n]; cbn [fst snd bind]; [rewrite then_idle|]; reflexivity. Qed.

Lemma wbind_ok {A B} (x : A * bytes) n (g : A * bytes -> worked B) : wbind (@pair (dres A) dwork (Ok x) n) g = (fst (g x), then_ n (snd (g x))).
Proof. reflexivity. Qed.
Lemma wbind_err {A B} e n (g : A * bytes -> worked B) : wbind (Err e, n) g = (Err e, n).
Proof. reflexivity. Qed.

Lemma wbind_idle {A B} (x : A * bytes) (g : A * bytes -> worked B) : wbind (alone (Ok x)) g = g x.
Proof.
  unfold wbind, alone. cbn [fst snd]. destruct (g x) as [r [a b]]. cbn [fst snd]. unfold then_, idle. cbn [calls levels]. rewrite N.add_0_l, N.max_0_l. reflexivity.
Qed.

Section Facts.
  Context {TId C : Type} (reg : TId -> resolution TId) (X : ext) (ctxf : TId -> C).
  Local Notation dec := (decode reg X ctxf).
  Local Notation kd := (kdecode reg X ctxf).

  (** ** Erasing the counts *)
  Section Erase.
    Context (k : TId -> bytes -> worked (value C)) (d : TId -> bytes -> dres (value C)) (H : forall t bs, fst (k t bs) = d t bs).
    Lemma items_erase ts : forall bs, fst (k_items k ts bs) = decode_items d ts bs.
    Proof.
      induction ts as [|t ts IH]; intro bs; [reflexivity|]. cbn [k_items decode_items]. unfold wbind at 1. rewrite H. destruct (d t bs) as [[v r]|e]; [|reflexivity].
      cbn [bind fst snd]. rewrite wbind_alone. cbn [fst]. rewrite IH. reflexivity.
    Qed.
    Lemma named_erase fs : forall bs, fst (k_named k fs bs) = decode_named d fs bs.
    Proof.
      induction fs as [|[nm t] fs IH]; intro bs; [reflexivity|]. cbn [k_named decode_named]. unfold wbind at 1. rewrite H. destruct (d t bs) as [[v r]|e]; [|reflexivity].
      cbn [bind fst snd]. rewrite wbind_alone. cbn [fst]. rewrite IH. reflexivity.
    Qed.
    Lemma composite_erase fs bs : fst (k_composite k fs bs) = visit_composite d fs bs.
    Proof. unfold k_composite, visit_composite. destruct (_ && _); rewrite wbind_alone; cbn [fst]; [rewrite named_erase|rewrite items_erase]; reflexivity. Qed.
    Lemma unnamed_erase t ts bs : fst (k_unnamed ctxf k t ts bs) = to_unnamed ctxf d t ts bs.
    Proof. unfold k_unnamed, to_unnamed. rewrite wbind_alone. cbn [fst]. rewrite items_erase. reflexivity. Qed.
  End Erase.
  Lemma kdecode_erase fuel : forall c t bs, fst (kd fuel c t bs) = dec fuel c t bs.
  Proof.
    induction fuel as [|f IH]; intros c t bs; [reflexivity|]. cbn [kdecode decode].
    assert (LP : forall A (m : worked A), fst (let (r, n) := m in (r, within_call n)) = fst m) by (intros A [r n]; reflexivity). rewrite LP.
    destruct (reg t) as [| |[fs|vs|t'|t' n|ts|p|t'|st o]]; try reflexivity.
    - destruct (_ && _); [reflexivity|]. rewrite wbind_alone. cbn [fst]. rewrite (composite_erase _ _ (IH c)). reflexivity.
    - destruct c; [reflexivity|]. destruct bs as [|i bs]; [reflexivity|]. destruct (find _ vs); [|reflexivity]. rewrite wbind_alone. cbn [fst]. rewrite (composite_erase _ _ (IH false)). reflexivity.
    - destruct c; [reflexivity|]. unfold wbind, alone. cbn [fst]. destruct (compact_decode (x_len X) bs) as [[n b]|e]; [|reflexivity]. cbn [bind fst snd]. rewrite (unnamed_erase _ _ (IH false)). reflexivity.
    - destruct c; [reflexivity|]. apply (unnamed_erase _ _ (IH false)).
    - destruct (_ && _); [reflexivity|]. apply (unnamed_erase _ _ (IH c)).
    - apply IH.
    - destruct c; reflexivity.
  Qed.

  (** ** What a call does *)
  (** To decode a [t] from [bs], first something is read, which leaves [bs'], then items of types [ts] are decoded. *)
  Inductive unpacks : TId -> bytes -> bool -> list TId -> bytes -> bool -> Prop :=
  | U_composite t fs bs c : reg t = ResTy (TComposite fs) -> unpacks t bs c (map snd fs) bs c
  | U_tuple t ts bs c : reg t = ResTy (TTuple ts) -> unpacks t bs c ts bs c
  | U_array t e n bs : reg t = ResTy (TArray e n) -> unpacks t bs false (repeat e (N.to_nat n)) bs false
  | U_variant t vs v i bs : reg t = ResTy (TVariant vs) -> In v vs -> unpacks t (i :: bs) false (map snd (vi_fields v)) bs false
  | U_sequence t e n bs bs' : reg t = ResTy (TSequence e) -> compact_decode (x_len X) bs = Ok (n, bs') -> unpacks t bs false (repeat e (N.to_nat n)) bs' false.

  Definition follows_items (ts : list TId) (bs : bytes) (k : TId -> bytes -> worked (value C)) (m : worked (value C)) : Prop :=
    snd m = within_call (snd (k_items k ts bs)) /\
    match fst (k_items k ts bs) with
    | Ok (vs, r) => exists v, fst m = Ok (v, r) /\ depth v = 1 + largest (map depth vs) /\ nodes v = 1 + total (map nodes vs)
    | Err e => fst m = Err e
    end.
  Lemma named_items (k : TId -> bytes -> worked (value C)) (fs : list (field TId)) : forall bs, snd (k_named k fs bs) = snd (k_items k (map snd fs) bs) /\
    match fst (k_named k fs bs) with Ok (kvs, r) => fst (k_items k (map snd fs) bs) = Ok (map snd kvs, r) | Err e => fst (k_items (C := C) k (map (@snd (option str) TId) fs) bs) = Err e end.
  Proof.
    induction fs as [|[nm t] fs IH]; intro bs; [split; reflexivity|]. cbn [k_named map snd k_items]. destruct (k t bs) as [[[v r]|e] n]; [|split; reflexivity].
    rewrite !wbind_ok, !wbind_alone. cbn [fst snd]. destruct (IH r) as [I1 I2]. rewrite I1. split; [reflexivity|]. destruct (fst (k_named k fs r)) as [[kvs r']|e]; rewrite I2; reflexivity.
  Qed.
  Lemma composite_items (k : TId -> bytes -> worked (value C)) (fs : list (field TId)) bs : snd (k_composite k fs bs) = snd (k_items k (map snd fs) bs) /\
    match fst (k_items k (map snd fs) bs) with Ok (vs, r) => exists cmp, fst (k_composite k fs bs) = Ok (cmp, r) /\ values cmp = vs | Err e => fst (k_composite (C := C) k fs bs) = Err e end.
  Proof.
    unfold k_composite. destruct (_ && _); rewrite wbind_alone; cbn [fst snd].
    - destruct (named_items k fs bs) as [N1 N2]. split; [exact N1|]. destruct (fst (k_named k fs bs)) as [[kvs r]|e]; rewrite N2; cbn [bind fst snd]; [|reflexivity]. exists (Named kvs). split; reflexivity.
    - split; [reflexivity|]. destruct (fst (k_items k (map snd fs) bs)) as [[vs r]|e]; cbn [bind fst snd]; [|reflexivity]. exists (Unnamed vs). split; reflexivity.
  Qed.
  Lemma values_cmap {V W} (g : V -> W) (cmp : composite V) : values (composite_map g cmp) = map g (values cmp).
  Proof. destruct cmp as [l|l]; cbn [composite_map values]; [rewrite !map_map; reflexivity|reflexivity]. Qed.
  Lemma follows_composite (k : TId -> bytes -> worked (value C)) (fs : list (field TId)) bs t (mk : composite (value C) -> vdef (value C)) :
    (forall c, mk c = DComposite c) \/ (exists n, forall c, mk c = DVariant n c) ->
    forall m, m = wbind (k_composite k fs bs) (fun x => alone (Ok (Val (mk (fst x)) (ctxf t), snd x))) -> follows_items (map snd fs) bs k (let (r, n) := m in (r, within_call n)).
  Proof.
    intros Hmk m ->. rewrite wbind_alone. destruct (composite_items k fs bs) as [C1 C2]. split; cbn [fst snd]; [rewrite C1; reflexivity|].
    destruct (fst (k_items k (map snd fs) bs)) as [[vs r]|e]; [|rewrite C2; reflexivity]. destruct C2 as (cmp & -> & E). cbn [bind fst snd]. eexists. split; [reflexivity|].
    destruct Hmk as [Hm|[n Hm]]; rewrite Hm; cbn [depth nodes]; rewrite !values_cmap, E; split; reflexivity.
  Qed.
  Lemma follows_unnamed k ts bs t : forall m, m = k_unnamed ctxf k t ts bs -> follows_items ts bs k (let (r, n) := m in (r, within_call n)).
  Proof.
    intros m ->. unfold k_unnamed. rewrite wbind_alone. split; cbn [fst snd]; [reflexivity|].
    destruct (fst (k_items k ts bs)) as [[vs r]|e]; cbn [bind fst snd]; [|reflexivity]. eexists. split; [reflexivity|]. cbn [depth nodes]. rewrite !values_cmap. cbn [values]. split; reflexivity.
  Qed.

  (** A call ends by itself, or goes on with the type in a [Compact], or with items. *)
  Lemma step f c t bs : let m := kd (S f) c t bs in
    (snd m = within_call idle /\ match fst m with Ok (v, _) => depth v = 0 /\ nodes v = 1 | Err e => e <> EHang end) \/
    (exists t', reg t = ResTy (TCompact t') /\ fst m = fst (kd f true t' bs) /\ snd m = within_call (snd (kd f true t' bs))) \/
    (exists ts bs' c', unpacks t bs c ts bs' c' /\ follows_items ts bs' (kd f c') m).
  Proof.
    cbv zeta. cbn [kdecode].
    assert (leaf : forall (r : dres (value C)), (match r with Ok (v, _) => depth v = 0 /\ nodes v = 1 | Err e => e <> EHang end) ->
      let m := (let (r, n) := alone r in (r, within_call n)) in snd m = within_call idle /\ match fst m with Ok (v, _) => depth v = 0 /\ nodes v = 1 | Err e => e <> EHang end) by (intros r H; split; [reflexivity|exact H]).
    destruct (reg t) as [| |[fs|vs|t'|t' n|ts|p|t'|st o]] eqn:R.
    - left. apply leaf. discriminate.
    - left. apply leaf. discriminate.
    - destruct (c && _); [left; apply leaf; discriminate|]. right; right. exists (map snd fs), bs, c. split; [apply U_composite, R|]. eapply follows_composite; [left; reflexivity|reflexivity].
    - destruct c; [left; apply leaf; discriminate|]. destruct bs as [|i bs]; [left; apply leaf; discriminate|].
      destruct (find _ vs) as [v|] eqn:F; [|left; apply leaf; discriminate]. right; right. exists (map snd (vi_fields v)), bs, false. apply find_some in F as [F _]. split; [eapply U_variant; eauto|].
      eapply follows_composite; [right; eexists; reflexivity|reflexivity].
    - destruct c; [left; apply leaf; discriminate|]. destruct (compact_decode (x_len X) bs) as [[n b]|e] eqn:CD.
      + right; right. exists (repeat t' (N.to_nat n)), b, false. split; [eapply U_sequence; eauto|]. rewrite wbind_idle. cbn [fst snd]. apply follows_unnamed with (t := t). reflexivity.
      + left. split; [reflexivity|]. cbn [wbind alone fst]. intros ->. exact (compact_decode_nohang _ _ CD).
    - destruct c; [left; apply leaf; discriminate|]. right; right. eexists _, _, _. split; [apply U_array, R|]. apply follows_unnamed with (t := t). reflexivity.
    - destruct (c && _); [left; apply leaf; discriminate|]. right; right. eexists _, _, _. split; [apply U_tuple, R|]. apply follows_unnamed with (t := t). reflexivity.
    - left. apply leaf. pose proof (read_prim_nohang (x_len X) PU256 c p bs) as H. destruct (read_prim (x_len X) PU256 c p bs) as [[x r]|e]; cbn [bind fst snd]; [split; reflexivity|congruence].
    - right; left. exists t'. split; [reflexivity|]. destruct (kd f true t' bs); split; reflexivity.
    - destruct c; [left; apply leaf; discriminate|]. left. apply leaf. pose proof (decode_bits_nohang (x_maxbits X) st o bs) as H. destruct (decode_bits (x_maxbits X) st o bs) as [[x r]|e]; cbn [bind fst snd]; [split; reflexivity|congruence].
  Qed.
End Facts.
