(** * SizeFacts: the size of what is decoded (C74). *)
From Verif Require Import Base Value Registry Spec_Scale Scale ScaleFacts Spec_Cost Spec_Size.
Open Scope N_scope.

Definition len (bs : bytes) : N := N.of_nat (length bs).
Lemma len_app a b : len (a ++ b) = len a + len b.
Proof. unfold len. rewrite app_length. lia. Qed.
Lemma len_cons a b : len (a :: b) = 1 + len b.
Proof. unfold len. cbn [length]. lia. Qed.
Lemma compact_len n bs : compact_enc n bs -> 1 <= len bs.
Proof.
  unfold len. intros [m H|m b H [_ [L _]]|m b H [_ [L _]]|m k b H Hk [_ [L _]] _]; cbn [length]; lia.
Qed.
Lemma shape_values {V W} (f : V -> W) names vs c : fields_shape names vs c -> values (composite_map f c) = map f vs.
Proof. intros [kvs Hk|nms l Hl Hn]; cbn [composite_map values]; [rewrite !map_map; reflexivity|reflexivity]. Qed.

Lemma compact_is_bytes n bs : compact_enc n bs -> is_bytes bs.
Proof.
  intros [m H|m b H [HB _]|m b H [HB _]|m k b H Hk [HB _] _]; try assumption; constructor; try assumption; try constructor; lia.
Qed.
Lemma compact_nine n : n < 2 ^ 64 -> exists bs, compact_enc n bs /\ is_bytes bs /\ (length bs <= 9)%nat.
Proof.
  intro Hn. assert (HC : compact_enc n (compact_encode n)) by (apply compact_enc_encode; eapply N.lt_trans; [exact Hn|reflexivity]).
  exists (compact_encode n). split; [exact HC|]. split; [eapply compact_is_bytes; eauto|].
  unfold compact_encode. destruct (n <? 2 ^ 6); [cbn; lia|]. destruct (n <? 2 ^ 14); [rewrite le_bytes_length; lia|].
  destruct (n <? 2 ^ 30) eqn:L3; [rewrite le_bytes_length; lia|]. cbn [length]. rewrite le_bytes_length. apply N.ltb_ge in L3.
  assert (HU : n < 2 ^ 536) by (eapply N.lt_trans; [exact Hn|reflexivity]).
  destruct (compact_bytes_spec n L3 HU) as (K1 & K2 & [K3|K3]); [lia|].
  destruct (Nat.le_gt_cases (compact_bytes n) 8) as [|G]; [lia|exfalso].
  assert (256 ^ 8 <= 256 ^ N.of_nat (compact_bytes n - 1)) by (apply N.pow_le_mono_r; lia). change (256 ^ 8) with (2 ^ 64) in H. lia.
Qed.
Lemma map_repeat {A B} (f : A -> B) x n : map f (repeat x n) = repeat (f x) n.
Proof. induction n as [|n IH]; cbn [repeat map]; [reflexivity|rewrite IH; reflexivity]. Qed.
Lemma total_repeat x n : total (repeat x n) = N.of_nat n * x.
Proof. induction n as [|n IH]; [reflexivity|]. cbn [repeat total]. rewrite IH. lia. Qed.

Section Size.
  Context {TId C : Type} (reg : TId -> resolution TId) (mb lb : N) (ctxf : TId -> C) (i256 : bytes -> prim) (strict : bool).
  Local Notation enc := (enc reg mb lb ctxf i256 strict).
  Local Notation encs := (encs reg mb lb ctxf i256 strict).

  Section Weights.
    Context (m : TId -> N) (S : N) (W : weights reg m S).
    Context (NE : forall t e, reg t = ResTy (TSequence e) -> forall v bs, enc false e v bs -> bs <> []).
    (** [k] values held by [w]-heavy types, read from [n] bytes *)
    Definition within (k w n : N) : Prop := k + (if n =? 0 then 0 else S) <= w + 2 * S * n.
    Lemma within_plus k w n k' w' n' : within k w n -> within k' w' n' -> within (k + k') (w + w') (n + n').
    Proof. unfold within. destruct (N.eqb_spec n 0), (N.eqb_spec n' 0), (N.eqb_spec (n + n') 0); nia. Qed.
    Lemma within_leaf w n : 1 <= w -> within 1 w n.
    Proof. unfold within. destruct (N.eqb_spec n 0); nia. Qed.
    Lemma nodes_pos {T} (v : value T) : 1 <= nodes v.
    Proof. destruct v as [d x]. cbn [nodes]. lia. Qed.
    Lemma S_pos t e : reg t = ResTy (TSequence e) -> 1 <= S.
    Proof. intro R. pose proof (w_sequence _ _ _ W t e R). pose proof (w_pos _ _ _ W e). lia. Qed.
    Lemma size_bound : (forall c t v bs, enc c t v bs -> within (nodes v) (m t) (len bs)) /\
      (forall c ts vs bs, encs c ts vs bs -> within (total (map nodes vs)) (total (map m ts)) (len bs) /\
         ((forall t', In t' ts -> m t' <= S) -> c = false -> (forall t', In t' ts -> exists t, reg t = ResTy (TSequence t')) -> total (map nodes vs) <= 2 * S * len bs)).
    Proof.
      apply enc_encs_ind.
      - intros t p x bs R E. cbn [nodes total]. apply within_leaf, (w_pos _ _ _ W t).
      - intros t w n bs R Hn E. cbn [nodes total]. apply within_leaf, (w_pos _ _ _ W t).
      - intros c t t' v bs R E IH. pose proof (w_compact _ _ _ W t t' R). unfold within in *. destruct (len bs =? 0); lia.
      - intros c t fs vs cmp bs R Hc E [IH _] FS. cbn [nodes]. rewrite (shape_values _ _ _ _ FS).
        pose proof (w_composite _ _ _ W t fs R) as HW. rewrite map_map in IH. unfold within in *. destruct (len bs =? 0); lia.
      - intros c t ts vs bs R Hc E [IH _]. cbn [nodes composite_map values].
        pose proof (w_tuple _ _ _ W t ts R) as HW. unfold within in *. destruct (len bs =? 0); lia.
      - intros t l1 name idx fs l2 vs cmp bs R HI Hi E [IH _] FS. cbn [nodes]. rewrite (shape_values _ _ _ _ FS), len_cons.
        pose proof (w_variant _ _ _ W t _ (VInfo name idx fs) R) as HW. cbn [vi_fields] in HW. rewrite map_map in IH.
        specialize (HW ltac:(apply in_or_app; right; left; reflexivity)). pose proof (w_pos _ _ _ W t).
        unfold within in *. destruct (N.eqb_spec (len bs) 0), (N.eqb_spec (1 + len bs) 0); nia.
      - intros t t' vs pre bs R HL HC E [_ IH]. cbn [nodes composite_map values]. rewrite len_app.
        assert (B : total (map nodes vs) <= 2 * S * len bs).
        { apply IH; [|reflexivity|]; intros u Hu; apply repeat_spec in Hu as ->; [eapply (w_sequence _ _ _ W); eauto|eauto]. }
        pose proof (compact_len _ _ HC). pose proof (w_pos _ _ _ W t). pose proof (S_pos t t' R). unfold within. destruct (N.eqb_spec (len pre + len bs) 0); nia.
      - intros t t' n vs bs R HL E [IH _]. cbn [nodes composite_map values]. pose proof (w_array _ _ _ W t t' n R) as HW.
        assert (T : total (map m (repeat t' (length vs))) = n * m t').
        { rewrite <- HL. clear. induction (length vs) as [|k IH]; [reflexivity|]. cbn [repeat map total]. rewrite IH. lia. }
        rewrite T in IH. unfold within in *. destruct (len bs =? 0); lia.
      - intros t st o b pre bs R H1 H2 HC HP. cbn [nodes total]. apply within_leaf, (w_pos _ _ _ W t).
      - intros c. cbn [map total]. change (len []) with 0. split; [unfold within; cbv iota beta delta [N.eqb]; rewrite N.mul_0_r; reflexivity|]. intros. rewrite N.mul_0_r. reflexivity.
      - intros c t ts v vs b bs E IH E' [IH1 IH2]. cbn [map total]. rewrite len_app. split; [apply within_plus; assumption|].
        intros HS -> HR. specialize (IH2 (fun u Hu => HS u (or_intror Hu)) eq_refl (fun u Hu => HR u (or_intror Hu))).
        destruct (HR t (or_introl eq_refl)) as [s R]. pose proof (NE s t R v b E) as Hb. pose proof (HS t (or_introl eq_refl)).
        assert (len b <> 0) by (unfold len; destruct b; [contradiction|cbn [length]; lia]).
        unfold within in IH. destruct (N.eqb_spec (len b) 0); [lia|]. nia.
    Qed.
    Lemma size_linear t v bs : enc false t v bs -> nodes v <= m t + 2 * S * len bs.
    Proof. intro E. pose proof (proj1 size_bound _ _ _ _ E) as H. unfold within in H. destruct (len bs =? 0); lia. Qed.
  End Weights.

  Context (HI : forall b, match i256 b with PU256 b' | PI256 b' => b' = b | PString _ => False | _ => True end).
  Lemma leaf_bound : (forall c t v bs, enc c t v bs -> leaf_bytes v <= len bs) /\
    (forall c ts vs bs, encs c ts vs bs -> total (map leaf_bytes vs) <= len bs).
  Proof.
    apply enc_encs_ind.
    - intros t p x bs R E. destruct E; cbn [leaf_bytes]; rewrite ?len_app; unfold len; try lia.
      specialize (HI bs). destruct (i256 bs); subst; try lia.
    - intros t w n bs R Hn E. cbn [leaf_bytes]. lia.
    - auto.
    - intros c t fs vs cmp bs R Hc E IH FS. cbn [leaf_bytes]. rewrite (shape_values _ _ _ _ FS). exact IH.
    - intros c t ts vs bs R Hc E IH. exact IH.
    - intros t l1 name idx fs l2 vs cmp bs R HN Hi E IH FS. cbn [leaf_bytes]. rewrite (shape_values _ _ _ _ FS), len_cons. lia.
    - intros t t' vs pre bs R HL HC E IH. cbn [leaf_bytes composite_map values]. rewrite len_app. lia.
    - intros t t' n vs bs R HL E IH. exact IH.
    - intros t st o b pre bs R H1 H2 HC (HB & HL & _). cbn [leaf_bytes]. rewrite len_app.
      enough (N.of_nat (length b) / 8 <= len bs) by lia. unfold len. rewrite HL.
      apply N.div_le_upper_bound; [lia|].
      assert (H8 : store_bits st = (8 * store_size st)%nat) by (destruct st; reflexivity).
      assert (HP : (0 < store_size st)%nat) by (destruct st; cbn; lia). rewrite H8.
      set (w := (8 * store_size st)%nat) in *. assert (Hw : (0 < w)%nat) by lia.
      pose proof (Nat.div_mod (length b + w - 1) w ltac:(lia)) as DM. pose proof (Nat.mod_upper_bound (length b + w - 1) w ltac:(lia)).
      nia.
    - intros c. reflexivity.
    - intros c t ts v vs b bs E IH E' IH'. cbn [map total]. rewrite len_app. lia.
  Qed.

  Lemma repeat_encs e v n : enc false e v [] -> encs false (repeat e n) (repeat v n) [].
  Proof. intro E. induction n as [|n IH]; [constructor|]. cbn [repeat]. change (@nil N) with ([] ++ @nil N). constructor; assumption. Qed.
End Size.
