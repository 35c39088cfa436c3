(** * BitsFacts: the scale-bits codec of [Scale.v] against [bits_payload]. *)
From Verif Require Import Base Value Registry Spec_Scale Scale ScaleFacts.
Open Scope N_scope.

Lemma bits_of_word_length w n : length (bits_of_word w n) = w.
Proof. revert n; induction w as [|w IH]; intro n; cbn [bits_of_word length]; [reflexivity|rewrite IH; reflexivity]. Qed.

Lemma bits_of_word_nth w : forall n i, (i < w)%nat -> nth i (bits_of_word w n) false = N.testbit n (N.of_nat i).
Proof.
  induction w as [|w IH]; intros n i H; [lia|]. cbn [bits_of_word]. destruct i as [|i].
  - cbn [nth]. rewrite <- N.bit0_odd. reflexivity.
  - cbn [nth]. rewrite IH by lia. rewrite Nat2N.inj_succ. apply N.div2_bits.
Qed.

Lemma bits_of_word_of_bits l : bits_of_word (length l) (word_of_bits l) = l.
Proof.
  induction l as [|b l IH]; [reflexivity|]. cbn [length word_of_bits bits_of_word]. f_equal.
  - destruct b; rewrite N.odd_add_mul_2; reflexivity.
  - replace (((if b then 1 else 0) + 2 * word_of_bits l) / 2) with (word_of_bits l) by (destruct b; lia). exact IH.
Qed.

Lemma word_of_bits_of_word w : forall n, n < 2 ^ N.of_nat w -> word_of_bits (bits_of_word w n) = n.
Proof.
  induction w as [|w IH]; intros n H.
  - cbn [bits_of_word word_of_bits]. change (2 ^ N.of_nat 0) with 1 in H. lia.
  - rewrite Nat2N.inj_succ, N.pow_succ_r' in H. cbn [bits_of_word word_of_bits].
    rewrite IH by (apply N.div_lt_upper_bound; [discriminate|exact H]).
    pose proof (N.div2_odd n) as D. rewrite N.div2_div in D. destruct (N.odd n); cbn [N.b2n] in D; lia.
Qed.

Lemma word_of_bits_bound l : word_of_bits l < 2 ^ N.of_nat (length l).
Proof.
  induction l as [|b l IH]; [reflexivity|]. cbn [length word_of_bits]. rewrite Nat2N.inj_succ, N.pow_succ_r'.
  destruct b; lia.
Qed.

Lemma order_bits_length o l : length (order_bits o l) = length l.
Proof. destruct o; cbn; [reflexivity|apply rev_length]. Qed.

Lemma order_bits_invol o l : order_bits o (order_bits o l) = l.
Proof. destruct o; cbn; [reflexivity|apply rev_involutive]. Qed.

Lemma order_bits_nth o l i : (i < length l)%nat ->
  nth i (order_bits o l) false = nth (match o with Lsb0 => i | Msb0 => (length l - 1 - i)%nat end) l false.
Proof.
  destruct o; cbn; intro H; [reflexivity|]. rewrite rev_nth by exact H. f_equal. lia.
Qed.

Lemma testbit_byte_cons b n i : b < 256 ->
  N.testbit (b + 256 * n) i = if i <? 8 then N.testbit b i else N.testbit n (i - 8).
Proof.
  intro H. destruct (N.ltb_spec i 8) as [L|L].
  - rewrite <- (N.mod_pow2_bits_low (b + 256 * n) 8 i L). change (2 ^ 8) with 256. f_equal. lia.
  - rewrite <- (N.sub_add 8 i L) at 1. rewrite <- N.div_pow2_bits. change (2 ^ 8) with 256. f_equal. lia.
Qed.

Lemma le_val_testbit bs : is_bytes bs -> forall p,
  N.testbit (le_val bs) (N.of_nat p) = N.testbit (nth (p / 8) bs 0) (N.of_nat (p mod 8)).
Proof.
  induction 1 as [|b bs Hb _ IH]; intro p.
  - cbn [le_val]. destruct (p / 8)%nat; cbn [nth]; rewrite !N.bits_0; reflexivity.
  - cbn [le_val]. rewrite testbit_byte_cons by exact Hb. destruct (N.ltb_spec (N.of_nat p) 8) as [L|L].
    + rewrite Nat.div_small, Nat.mod_small by lia. reflexivity.
    + replace (N.of_nat p - 8) with (N.of_nat (p - 8)) by lia. rewrite IH.
      replace (p / 8)%nat with (S ((p - 8) / 8)) by lia. cbn [nth]. do 2 f_equal. lia.
Qed.

Lemma bsbytes_pos st : (1 <= bsbytes st)%nat.
Proof. destruct st; cbn; lia. Qed.

Lemma bsbits_eq st : bsbits st = (8 * bsbytes st)%nat.
Proof. reflexivity. Qed.

Lemma unpack_length st o n : forall bs, length (unpack_bits st o n bs) = (n * bsbits st)%nat.
Proof.
  induction n as [|n IH]; intro bs; [reflexivity|]. cbn [unpack_bits]. rewrite app_length, order_bits_length, bits_of_word_length, IH. lia.
Qed.

Lemma nth_firstn_lt {A} (l : list A) k i d : (i < k)%nat -> nth i (firstn k l) d = nth i l d.
Proof.
  revert k i; induction l as [|x l IH]; intros [|k] [|i] H; cbn; try lia; try reflexivity. apply IH. lia.
Qed.

Lemma nth_skipn' {A} (l : list A) k i d : nth i (skipn k l) d = nth (k + i) l d.
Proof.
  revert l; induction k as [|k IH]; intros [|x l]; cbn [skipn]; try reflexivity.
  - destruct i; reflexivity.
  - apply IH.
Qed.

Lemma is_bytes_firstn k bs : is_bytes bs -> is_bytes (firstn k bs).
Proof. intro H. rewrite <- (firstn_skipn k bs) in H. apply is_bytes_app in H. apply H. Qed.
Lemma is_bytes_skipn k bs : is_bytes bs -> is_bytes (skipn k bs).
Proof. intro H. rewrite <- (firstn_skipn k bs) in H. apply is_bytes_app in H. apply H. Qed.

Lemma unpack_nth st o n : forall bs i, is_bytes bs -> length bs = (n * bsbytes st)%nat -> (i < n * bsbits st)%nat ->
  nth i (unpack_bits st o n bs) false = bit_at bs (bit_pos st o i).
Proof.
  induction n as [|n IH]; intros bs i HB HL Hi; [lia|]. cbn [unpack_bits].
  pose proof (bsbytes_pos st) as KP. set (k := bsbytes st) in *. assert (W : bsbits st = (8 * k)%nat) by reflexivity. set (w := bsbits st) in *.
  destruct (Nat.ltb_spec i w) as [L|L].
  - rewrite app_nth1 by (rewrite order_bits_length, bits_of_word_length; exact L).
    rewrite order_bits_nth by (rewrite bits_of_word_length; exact L). rewrite bits_of_word_length.
    unfold bit_at, bit_pos. change (store_bits st) with w. change (store_size st) with k. cbv zeta. rewrite (Nat.div_small i w) by exact L. rewrite (Nat.mod_small i w) by exact L.
    set (pos := match o with Lsb0 => i | Msb0 => (w - 1 - i)%nat end).
    assert (P : (pos < w)%nat) by (unfold pos; destruct o; lia).
    rewrite bits_of_word_nth by exact P. rewrite le_val_testbit by (apply is_bytes_firstn; exact HB).
    rewrite nth_firstn_lt by (apply Nat.div_lt_upper_bound; lia). reflexivity.
  - rewrite app_nth2 by (rewrite order_bits_length, bits_of_word_length; lia).
    rewrite order_bits_length, bits_of_word_length.
    rewrite IH; [|apply is_bytes_skipn; exact HB|rewrite skipn_length; nia|nia].
    unfold bit_at, bit_pos. change (store_bits st) with w. change (store_size st) with k. cbv zeta. cbn [fst snd].
    assert (E1 : ((i - w) mod w = i mod w)%nat).
    { replace i with ((i - w) + 1 * w)%nat at 2 by lia. rewrite Nat.mod_add by lia. reflexivity. }
    assert (E2 : (i / w = S ((i - w) / w))%nat).
    { replace i with ((i - w) + 1 * w)%nat at 1 by lia. rewrite Nat.div_add by lia. lia. }
    rewrite E1, E2, nth_skipn'. f_equal. f_equal. nia.
Qed.

Lemma words_for_ge st n : (n <= words_for st n * bsbits st)%nat.
Proof.
  unfold words_for. pose proof (bsbytes_pos st). assert (W : bsbits st = (8 * bsbytes st)%nat) by reflexivity.
  set (w := bsbits st) in *. pose proof (Nat.div_mod (n + w - 1) w ltac:(lia)) as D.
  pose proof (Nat.mod_upper_bound (n + w - 1) w ltac:(lia)). nia.
Qed.

Lemma nth_ext_firstn (l b : list bool) : (length b <= length l)%nat ->
  (firstn (length b) l = b <-> forall i x, nth_error b i = Some x -> nth i l false = x).
Proof.
  revert l; induction b as [|y b IH]; intros l HL.
  - split; [intros _ i x H; destruct i; discriminate|reflexivity].
  - destruct l as [|z l]; [cbn in HL; lia|]. cbn [length] in HL. cbn [length firstn]. split.
    + intros [= -> E] i x Hx. destruct i as [|i]; cbn in *; [congruence|]. apply (proj1 (IH l ltac:(lia)) E). exact Hx.
    + intro H. f_equal; [apply (H 0%nat y); reflexivity|]. apply IH; [lia|]. intros i x Hx. apply (H (S i) x Hx).
Qed.

(** Decoding direction. *)
Lemma payload_iff_unpack st o b bs : is_bytes bs -> length bs = (words_for st (length b) * bsbytes st)%nat ->
  (bits_payload false st o b bs <-> firstn (length b) (unpack_bits st o (words_for st (length b)) bs) = b).
Proof.
  intros HB HL. rewrite nth_ext_firstn by (rewrite unpack_length; apply words_for_ge). unfold bits_payload. cbv zeta. change (store_bits st) with (bsbits st). change (store_size st) with (bsbytes st). fold (words_for st (length b)).
  pose proof (words_for_ge st (length b)) as G. split.
  - intros (_ & _ & H & _) i x Hx. rewrite unpack_nth; auto. assert (i < length b)%nat by (apply nth_error_Some; congruence). lia.
  - intro H. split; [exact HB|]. split; [exact HL|]. split; [|discriminate].
    intros i x Hx. rewrite <- (unpack_nth st o (words_for st (length b))); auto. assert (i < length b)%nat by (apply nth_error_Some; congruence). lia.
Qed.

Lemma pad_to_length w l : (length l <= w)%nat -> length (pad_to w l) = w.
Proof. unfold pad_to. rewrite app_length, repeat_length. lia. Qed.

Lemma pack_length st o n : forall b, length (pack_bits st o n b) = (n * bsbytes st)%nat.
Proof. induction n as [|n IH]; intro b; [reflexivity|]. cbn [pack_bits]. rewrite app_length, le_bytes_length, IH. lia. Qed.

Lemma pack_bytes st o n : forall b, is_bytes (pack_bits st o n b).
Proof. induction n as [|n IH]; intro b; [constructor|]. cbn [pack_bits]. apply is_bytes_app. split; [apply le_bytes_is_bytes|apply IH]. Qed.

Lemma pow2_bsbits st : 2 ^ N.of_nat (bsbits st) = 256 ^ N.of_nat (bsbytes st).
Proof. rewrite pow256_2. f_equal. unfold bsbits. lia. Qed.

Lemma unpack_pack st o n : forall b, (length b <= n * bsbits st)%nat -> unpack_bits st o n (pack_bits st o n b) = pad_to (n * bsbits st) b.
Proof.
  induction n as [|n IH]; intros b HL.
  - destruct b; [reflexivity|cbn in HL; lia].
  - cbn [pack_bits unpack_bits].
    match goal with |- context [le_bytes ?k ?x] => set (W := x) end.
    assert (PL : length (pad_to (bsbits st) (firstn (bsbits st) b)) = bsbits st) by (apply pad_to_length; rewrite firstn_length; lia).
    assert (HW : W < 256 ^ N.of_nat (bsbytes st)).
    { unfold W. rewrite <- pow2_bsbits. eapply N.lt_le_trans; [apply word_of_bits_bound|]. rewrite order_bits_length, PL. lia. }
    rewrite firstn_app, skipn_app, le_bytes_length, Nat.sub_diag. cbn [firstn skipn]. rewrite app_nil_r.
    rewrite firstn_all2, skipn_all2 by (rewrite le_bytes_length; lia). cbn [app]. rewrite le_val_le_bytes by exact HW.
    unfold W. replace (bsbits st) with (length (order_bits o (pad_to (bsbits st) (firstn (bsbits st) b)))) at 1 by (rewrite order_bits_length; exact PL).
    rewrite bits_of_word_of_bits, order_bits_invol. rewrite IH by (rewrite skipn_length; lia).
    unfold pad_to. rewrite firstn_length, skipn_length.
    destruct (Nat.le_gt_cases (length b) (bsbits st)) as [L|L].
    + rewrite firstn_all2, skipn_all2 by lia. cbn [app]. rewrite <- app_assoc, <- repeat_app. f_equal. f_equal. nia.
    + replace (Nat.min (bsbits st) (length b)) with (bsbits st) by lia. rewrite Nat.sub_diag. cbn [repeat]. rewrite app_nil_r.
      rewrite app_assoc, firstn_skipn. f_equal. f_equal. nia.
Qed.

Lemma pack_unpack st o n : forall bs, is_bytes bs -> length bs = (n * bsbytes st)%nat -> pack_bits st o n (unpack_bits st o n bs) = bs.
Proof.
  induction n as [|n IH]; intros bs HB HL; [destruct bs; [reflexivity|discriminate]|].
  cbn [unpack_bits pack_bits]. rewrite firstn_app, skipn_app, order_bits_length, bits_of_word_length, Nat.sub_diag. cbn [firstn skipn]. rewrite app_nil_r.
  rewrite firstn_all2, skipn_all2 by (rewrite order_bits_length, bits_of_word_length; lia). cbn [app].
  unfold pad_to. rewrite order_bits_length, bits_of_word_length, Nat.sub_diag. cbn [repeat]. rewrite app_nil_r, order_bits_invol.
  assert (FL : length (firstn (bsbytes st) bs) = bsbytes st) by (rewrite firstn_length; nia).
  rewrite word_of_bits_of_word.
  - rewrite <- FL at 1. rewrite le_bytes_le_val by (apply is_bytes_firstn; exact HB).
    rewrite IH; [apply firstn_skipn|apply is_bytes_skipn; exact HB|rewrite skipn_length; nia].
  - rewrite pow2_bsbits. rewrite <- FL at 2. apply le_val_bound, is_bytes_firstn, HB.
Qed.

Lemma pack_pad st o n : forall b m, pack_bits st o n (b ++ repeat false m) = pack_bits st o n b.
Proof.
  induction n as [|n IH]; intros b m; [reflexivity|]. cbn [pack_bits]. f_equal.
  - do 3 f_equal. unfold pad_to. rewrite firstn_app, firstn_length, app_length, firstn_length.
    rewrite <- app_assoc. f_equal.
    assert (F : forall k j, firstn k (repeat false j) = repeat false (Nat.min k j)).
    { intros k; induction k as [|k IHk]; intros [|j]; cbn; try reflexivity. f_equal. apply IHk. }
    rewrite F, repeat_length, <- repeat_app. f_equal. lia.
  - rewrite skipn_app.
    assert (S' : forall k j, skipn k (repeat false j) = repeat false (j - k)).
    { intros k; induction k as [|k IHk]; intros [|j]; cbn; try reflexivity. apply IHk. }
    rewrite S'. apply IH.
Qed.

(** Encoding direction. *)
Lemma pack_payload strict st o b : bits_payload strict st o b (pack_bits st o (words_for st (length b)) b).
Proof.
  pose proof (words_for_ge st (length b)) as G. unfold bits_payload. cbv zeta. change (store_bits st) with (bsbits st). change (store_size st) with (bsbytes st). fold (words_for st (length b)).
  split; [apply pack_bytes|]. split; [apply pack_length|]. split.
  - intros i x Hx. assert (i < length b)%nat by (apply nth_error_Some; congruence).
    rewrite <- (unpack_nth st o (words_for st (length b))); [|apply pack_bytes|apply pack_length|lia].
    rewrite unpack_pack by exact G. unfold pad_to. rewrite app_nth1 by lia. apply nth_error_nth. exact Hx.
  - intros _ i Hi. rewrite <- (unpack_nth st o (words_for st (length b))); [|apply pack_bytes|apply pack_length|lia].
    rewrite unpack_pack by exact G. unfold pad_to. rewrite app_nth2 by lia. apply nth_repeat.
Qed.

Lemma payload_strict_fun st o b bs : bits_payload true st o b bs -> bs = pack_bits st o (words_for st (length b)) b.
Proof.
  intros (HB & HL & H1 & H2). change (store_bits st) with (bsbits st) in *. change (store_size st) with (bsbytes st) in *. fold (words_for st (length b)) in *. specialize (H2 eq_refl).
  pose proof (words_for_ge st (length b)) as G. set (n := words_for st (length b)) in *.
  rewrite <- (pack_unpack st o n bs HB HL). rewrite <- (pack_pad st o n b (n * bsbits st - length b)). f_equal.
  apply (nth_ext _ _ false false).
  - rewrite unpack_length, app_length, repeat_length. lia.
  - rewrite unpack_length. intros i Hi. rewrite unpack_nth by assumption. destruct (Nat.ltb_spec i (length b)) as [L|L].
    + rewrite app_nth1 by exact L. apply H1. apply nth_error_nth'. exact L.
    + rewrite app_nth2 by exact L. rewrite nth_repeat. apply H2. lia.
Qed.

Lemma payload_weaken st o b bs strict : bits_payload strict st o b bs -> bits_payload false st o b bs.
Proof. intros (H1 & H2 & H3 & _). split; [exact H1|]. split; [exact H2|]. split; [exact H3|discriminate]. Qed.

Lemma decode_bits_iff mb st o bs b r : is_bytes bs ->
  (decode_bits mb st o bs = Ok (b, r) <->
   exists pre pay, bs = pre ++ pay ++ r /\ compact_enc (N.of_nat (length b)) pre /\ N.of_nat (length b) < 2 ^ 32 /\
     N.of_nat (length b) <= mb /\ bits_payload false st o b pay).
Proof.
  intro HB. unfold decode_bits. split.
  - intro H. apply bind_ok in H as ([n r1] & H1 & H). cbn [fst snd] in H. cbv zeta in H.
    destruct (N.ltb_spec mb n) as [L|L]; [discriminate|].
    apply bind_ok in H as ([pay r2] & H2 & H). cbn [fst snd] in H. injection H as Hb <-.
    apply compact_decode_sound in H1 as (pre & -> & HC & Hn); [|exact HB].
    apply is_bytes_app in HB as [_ HB]. apply take_ok in H2 as [-> HL]. apply is_bytes_app in HB as [HB _].
    pose proof (words_for_ge st (N.to_nat n)) as G.
    assert (Lb : length b = N.to_nat n).
    { rewrite <- Hb, firstn_length, unpack_length. lia. }
    exists pre, pay. rewrite Lb, N2Nat.id. repeat split; auto.
    + cbv zeta. rewrite Lb. fold (words_for st (N.to_nat n)). exact HL.
    + rewrite <- Lb in Hb, HL. apply (payload_iff_unpack st o b pay HB HL) in Hb. apply Hb.
    + discriminate.
  - intros (pre & pay & -> & HC & Hn & Hm & HP). rewrite (compact_decode_complete 32 _ _ _ HC Hn). cbn [bind fst snd]. cbv zeta.
    rewrite Nat2N.id. replace (mb <? N.of_nat (length b)) with false by lia.
    pose proof HP as (HPB & HPL & _). cbv zeta in HPL. change (store_bits st) with (bsbits st) in HPL. change (store_size st) with (bsbytes st) in HPL. fold (words_for st (length b)) in HPL. rewrite <- HPL, take_app. cbn [bind fst snd].
    do 2 f_equal. apply payload_iff_unpack; assumption.
Qed.

(** ** Primitives *)
(** The sizes of the model and of the specification are the same. *)
Ltac same_sizes := repeat match goal with
  | |- context [int_size ?w] => change (int_size w) with (wbytes w)
  | |- context [int_bits ?w] => change (int_bits w) with (wbits w)
  | H : context [int_size ?w] |- _ => change (int_size w) with (wbytes w) in H
  | H : context [int_bits ?w] |- _ => change (int_bits w) with (wbits w) in H
  | |- context [store_size ?w] => change (store_size w) with (bsbytes w)
  | |- context [store_bits ?w] => change (store_bits w) with (bsbits w)
  | H : context [store_size ?w] |- _ => change (store_size w) with (bsbytes w) in H
  | H : context [store_bits ?w] |- _ => change (store_bits w) with (bsbits w) in H
  end.
Lemma wbits_pow w : 2 ^ wbits w = 256 ^ N.of_nat (wbytes w).
Proof. rewrite pow256_2. reflexivity. Qed.

Lemma signed_of_spec w n z : 2 <= w -> n < 2 ^ w ->
  (signed_of w n = z <-> (- 2 ^ (Z.of_N w - 1) <= z < 2 ^ (Z.of_N w - 1))%Z /\ n = Z.to_N (z mod 2 ^ Z.of_N w)).
Proof.
  intros Hw Hn. unfold signed_of.
  assert (E1 : (2 ^ Z.of_N w = 2 * 2 ^ (Z.of_N w - 1))%Z).
  { rewrite <- Z.pow_succ_r by lia. f_equal. lia. }
  assert (E2 : Z.of_N (2 ^ (w - 1)) = (2 ^ (Z.of_N w - 1))%Z).
  { rewrite N2Z.inj_pow. f_equal. lia. }
  assert (E3 : Z.of_N (2 ^ w) = (2 ^ Z.of_N w)%Z) by (rewrite N2Z.inj_pow; reflexivity).
  assert (P : (0 < 2 ^ (Z.of_N w - 1))%Z) by (apply Z.pow_pos_nonneg; lia).
  set (h := (2 ^ (Z.of_N w - 1))%Z) in *. set (W := (2 ^ Z.of_N w)%Z) in *.
  assert (BN : (0 <= Z.of_N n < 2 * h)%Z) by lia.
  destruct (N.ltb_spec n (2 ^ (w - 1))) as [L|L].
  - assert (LZ : (Z.of_N n < h)%Z) by lia. split.
    + intros <-. split; [lia|]. rewrite Z.mod_small by lia. lia.
    + intros [Hz ->]. destruct (Z.le_gt_cases 0 z) as [G|G].
      * rewrite Z.mod_small by lia. lia.
      * exfalso. assert (E : (z mod W = z + W)%Z). { symmetry. apply (Z.mod_unique_pos z W (-1)); lia. }
        rewrite E in LZ. lia.
  - assert (LZ : (h <= Z.of_N n)%Z) by lia. split.
    + intros <-. split; [lia|]. replace ((Z.of_N n - W) mod W)%Z with (Z.of_N n); [lia|].
      apply (Z.mod_unique_pos _ W (-1)); lia.
    + intros [Hz ->]. destruct (Z.le_gt_cases 0 z) as [G|G].
      * exfalso. rewrite Z.mod_small in LZ by lia. lia.
      * assert (E : (z mod W = z + W)%Z). { symmetry. apply (Z.mod_unique_pos z W (-1)); lia. }
        rewrite E. lia.
Qed.

Lemma wbits_ge w : 8 <= wbits w.
Proof. destruct w; unfold wbits; cbn; lia. Qed.

Definition prim_enc_c (lb : N) (i256_as : bytes -> prim) (c : bool) (p : pty) (x : prim) (bs : bytes) : Prop :=
  if c then exists w n, p = PtU w /\ x = PU128 n /\ n < 2 ^ wbits w /\ compact_enc n bs else prim_enc lb i256_as p x bs.

Lemma read_prim_iff lb tag c p bs x r : is_bytes bs ->
  (read_prim lb tag c p bs = Ok (x, r) <-> exists pre, bs = pre ++ r /\ prim_enc_c lb tag c p x pre).
Proof.
  intro HB. destruct c; unfold prim_enc_c.
  - split.
    + intro H. destruct p; try discriminate. cbn [read_prim] in H. apply bind_ok in H as ([n r'] & H1 & [= <- <-]).
      apply compact_decode_sound in H1 as (pre & -> & HC & Hn); [|exact HB]. exists pre. split; [reflexivity|]. cbn [fst]. eauto 8.
    + intros (pre & -> & w & n & -> & -> & Hn & HC). cbn [read_prim]. rewrite (compact_decode_complete _ _ _ _ HC Hn). reflexivity.
  - split.
    + intro H. destruct p; cbn [read_prim] in H.
      * destruct bs as [|b bs]; [discriminate|]. destruct (N.eqb_spec b 0) as [->|N0].
        { injection H as <- <-. exists [0]. split; [reflexivity|constructor]. }
        destruct (N.eqb_spec b 1) as [->|N1]; [|discriminate]. injection H as <- <-. exists [1]. split; [reflexivity|constructor].
      * apply bind_ok in H as ([a r'] & T & H). apply take_ok in T as [-> L]. apply is_bytes_app in HB as [HB _]. cbn [fst snd] in H. cbv zeta in H.
        destruct (is_scalar (le_val a)) eqn:S; [|discriminate]. injection H as <- <-. exists a. split; [reflexivity|].
        constructor; [exact S|]. split; [exact HB|]. split; [exact L|reflexivity].
      * apply bind_ok in H as ([n r1] & H1 & H). cbn [fst snd] in H. apply bind_ok in H as ([a r2] & T & H). cbn [fst snd] in H.
        apply compact_decode_sound in H1 as (pre & -> & HC & Hn); [|exact HB]. apply take_ok in T as [-> L].
        destruct (utf8_decode a) as [s|] eqn:U; [|discriminate]. injection H as <- <-. apply utf8_decode_iff in U as [-> US].
        exists (pre ++ utf8 s). split; [rewrite app_assoc; reflexivity|].
        assert (n = N.of_nat (length (utf8 s))) as -> by lia. constructor; assumption.
      * apply bind_ok in H as ([a r'] & T & [= <- <-]). apply take_ok in T as [-> L]. apply is_bytes_app in HB as [HB _]. cbn [fst snd].
        exists a. split; [reflexivity|]. constructor. split; [exact HB|]. split; [exact L|reflexivity].
      * apply bind_ok in H as ([a r'] & T & [= <- <-]). apply take_ok in T as [-> L]. apply is_bytes_app in HB as [HB _]. cbn [fst snd].
        exists a. split; [reflexivity|]. pose proof (le_val_bound a HB) as BU. rewrite L, <- wbits_pow in BU.
        destruct (proj1 (signed_of_spec (wbits w) (le_val a) _ ltac:(pose proof (wbits_ge w); lia) BU) eq_refl) as [R E].
        constructor; [exact R|]. change (int_bits w) with (wbits w). rewrite <- E. split; [exact HB|]. split; [exact L|reflexivity].
      * apply bind_ok in H as ([a r'] & T & [= <- <-]). apply take_ok in T as [-> L]. apply is_bytes_app in HB as [HB _]. cbn [fst snd].
        exists a. split; [reflexivity|]. constructor; assumption.
      * apply bind_ok in H as ([a r'] & T & [= <- <-]). apply take_ok in T as [-> L]. apply is_bytes_app in HB as [HB _]. cbn [fst snd].
        exists a. split; [reflexivity|]. constructor; assumption.
    + intros (pre & -> & H). destruct H; cbn [read_prim]; same_sizes.
      * reflexivity.
      * reflexivity.
      * destruct H0 as (B & L & E). rewrite <- L, take_app. cbn [bind fst snd]. rewrite E. cbv zeta. rewrite H. reflexivity.
      * rewrite <- app_assoc, (compact_decode_complete _ _ _ _ H1 H0). cbn [bind fst snd]. rewrite Nat2N.id, take_app. cbn [bind fst snd].
        rewrite (proj2 (utf8_decode_iff _ s) (conj eq_refl H)). reflexivity.
      * destruct H as (B & L & E). rewrite <- L, take_app. cbn [bind fst snd]. rewrite E. reflexivity.
      * destruct H0 as (B & L & E). rewrite <- L, take_app. cbn [bind fst snd]. do 3 f_equal.
        pose proof (le_val_bound bs B) as BU. rewrite L, <- wbits_pow in BU.
        apply signed_of_spec; [pose proof (wbits_ge w); lia|exact BU|]. split; assumption.
      * rewrite <- H0, take_app. reflexivity.
      * rewrite <- H0, take_app. reflexivity.
Qed.
