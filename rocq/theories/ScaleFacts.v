(** * ScaleFacts: the codecs of [Scale.v] satisfy the relations of [Spec_Scale.v]. *)
From Verif Require Import Base Value Registry Spec_Scale Scale.
Open Scope N_scope.

Lemma is_bytes_app a b : is_bytes (a ++ b) <-> is_bytes a /\ is_bytes b.
Proof. apply Forall_app. Qed.

Lemma take_ok k bs a r : take k bs = Ok (a, r) <-> bs = a ++ r /\ length a = k.
Proof.
  unfold take. destruct (Nat.ltb_spec (length bs) k) as [L|L]; split.
  - discriminate.
  - intros [-> E]. rewrite app_length in L. lia.
  - intros [= <- <-]. split; [symmetry; apply firstn_skipn|]. rewrite firstn_length. lia.
  - intros [-> <-]. rewrite firstn_app, skipn_app, firstn_all, skipn_all, Nat.sub_diag. cbn. rewrite app_nil_r. reflexivity.
Qed.

Lemma take_app a r : take (length a) (a ++ r) = Ok (a, r).
Proof. apply take_ok. auto. Qed.

Lemma bind_ok {A B E} (r : result A E) (f : A -> result B E) y :
  bind r f = Ok y <-> exists x, r = Ok x /\ f x = Ok y.
Proof.
  destruct r as [a|e]; cbn; split.
  - eauto.
  - intros (x & [= <-] & H). exact H.
  - discriminate.
  - intros (x & H & _). discriminate.
Qed.

(** ** Little endian *)
Lemma le_bytes_length k n : length (le_bytes k n) = k.
Proof. revert n; induction k as [|k IH]; intro n; cbn [le_bytes length]; [reflexivity|rewrite IH; reflexivity]. Qed.

Lemma le_bytes_is_bytes k n : is_bytes (le_bytes k n).
Proof. revert n; induction k as [|k IH]; intro n; cbn [le_bytes]; constructor; [lia|apply IH]. Qed.

Lemma pow256_S k : 256 ^ N.of_nat (S k) = 256 * 256 ^ N.of_nat k.
Proof. rewrite Nat2N.inj_succ, N.pow_succ_r'. reflexivity. Qed.

Lemma pow256_pos k : 0 < 256 ^ N.of_nat k.
Proof. apply N.neq_0_lt_0, N.pow_nonzero. discriminate. Qed.

Lemma le_val_le_bytes k n : n < 256 ^ N.of_nat k -> le_val (le_bytes k n) = n.
Proof.
  revert n; induction k as [|k IH]; intros n H.
  - cbn in *. lia.
  - rewrite pow256_S in H. cbn [le_bytes le_val]. rewrite IH; [clear; lia|].
    apply N.div_lt_upper_bound; [discriminate|exact H].
Qed.

Lemma le_val_bound bs : is_bytes bs -> le_val bs < 256 ^ N.of_nat (length bs).
Proof.
  induction 1 as [|b bs Hb _ IH]; cbn [le_val length]; [reflexivity|]. rewrite pow256_S. nia.
Qed.

Lemma le_bytes_le_val bs : is_bytes bs -> le_bytes (length bs) (le_val bs) = bs.
Proof.
  induction 1 as [|b bs Hb _ IH]; cbn [le_val length le_bytes]; [reflexivity|]. f_equal; [lia|].
  replace ((b + 256 * le_val bs) / 256) with (le_val bs) by lia. exact IH.
Qed.

Lemma le_enc_iff k n bs : le_enc k n bs <-> bs = le_bytes k n /\ n < 256 ^ N.of_nat k.
Proof.
  unfold le_enc. split.
  - intros (H & <- & <-). split; [symmetry; apply le_bytes_le_val; exact H|apply le_val_bound; exact H].
  - intros [-> H]. split; [apply le_bytes_is_bytes|]. split; [apply le_bytes_length|apply le_val_le_bytes; exact H].
Qed.

(** ** Compact integers *)
Lemma N_size_bounds n : 0 < n -> 2 ^ (N.size n - 1) <= n < 2 ^ N.size n.
Proof.
  intro H. rewrite N.size_log2 by lia. replace (N.succ (N.log2 n) - 1) with (N.log2 n) by lia. apply N.log2_spec. exact H.
Qed.

Lemma pow256_2 k : 256 ^ k = 2 ^ (8 * k).
Proof. rewrite N.pow_mul_r. reflexivity. Qed.

Lemma compact_bytes_spec n : 2 ^ 30 <= n -> n < 2 ^ 536 ->
  (4 <= compact_bytes n <= 67)%nat /\ n < 256 ^ N.of_nat (compact_bytes n) /\
  (compact_bytes n = 4%nat \/ 256 ^ N.of_nat (compact_bytes n - 1) <= n).
Proof.
  intros Hl Hu. unfold compact_bytes. pose proof (N_size_bounds n ltac:(lia)) as [B1 B2].
  set (s := N.size n) in *.
  assert (S1 : 31 <= s). { destruct (N.le_gt_cases 31 s) as [L|L]; [exact L|]. pose proof (N.pow_le_mono_r 2 s 30 ltac:(lia) ltac:(lia)). lia. }
  assert (S2 : s <= 536). { destruct (N.le_gt_cases s 536) as [L|L]; [exact L|]. pose proof (N.pow_le_mono_r 2 536 (s - 1) ltac:(lia) ltac:(lia)). lia. }
  split; [lia|]. rewrite N2Nat.id. split.
  - rewrite pow256_2. eapply N.lt_le_trans; [exact B2|]. apply N.pow_le_mono_r; lia.
  - right. rewrite pow256_2. eapply N.le_trans; [|exact B1]. apply N.pow_le_mono_r; lia.
Qed.

Lemma compact_bytes_unique n k : 2 ^ 30 <= n -> (4 <= k)%nat -> n < 256 ^ N.of_nat k ->
  (k = 4%nat \/ 256 ^ N.of_nat (k - 1) <= n) -> k = compact_bytes n.
Proof.
  intros Hl Hk Hu Hm. unfold compact_bytes. pose proof (N_size_bounds n ltac:(lia)) as [B1 B2]. set (s := N.size n) in *.
  assert (S1 : 31 <= s). { destruct (N.le_gt_cases 31 s) as [L|L]; [exact L|]. pose proof (N.pow_le_mono_r 2 s 30 ltac:(lia) ltac:(lia)). lia. }
  assert (S2 : s <= 8 * N.of_nat k).
  { destruct (N.le_gt_cases s (8 * N.of_nat k)) as [L|L]; [exact L|]. rewrite pow256_2 in Hu.
    pose proof (N.pow_le_mono_r 2 (8 * N.of_nat k) (s - 1) ltac:(lia) ltac:(lia)). lia. }
  destruct Hm as [->|Hm]; [lia|]. rewrite pow256_2 in Hm.
  assert (S3 : 8 * N.of_nat (k - 1) < s).
  { destruct (N.lt_ge_cases (8 * N.of_nat (k - 1)) s) as [L|L]; [exact L|].
    pose proof (N.pow_le_mono_r 2 s (8 * N.of_nat (k - 1)) ltac:(lia) ltac:(lia)). lia. }
  lia.
Qed.

Lemma compact_enc_encode n : n < 2 ^ 536 -> compact_enc n (compact_encode n).
Proof.
  intro H. unfold compact_encode. destruct (N.ltb_spec n (2 ^ 6)) as [L1|L1].
  { apply CE_1; exact L1. }
  destruct (N.ltb_spec n (2 ^ 14)) as [L2|L2].
  { apply CE_2; [lia|]. apply le_enc_iff. split; [reflexivity|]. change (256 ^ N.of_nat 2) with 65536. change (2 ^ 14) with 16384 in L2. lia. }
  destruct (N.ltb_spec n (2 ^ 30)) as [L3|L3].
  { apply CE_4; [lia|]. apply le_enc_iff. split; [reflexivity|]. change (256 ^ N.of_nat 4) with 4294967296. change (2 ^ 30) with 1073741824 in L3. lia. }
  destruct (compact_bytes_spec n L3 H) as (K1 & K2 & K3).
  apply CE_big; [exact L3|exact K1| |exact K3]. apply le_enc_iff. split; [reflexivity|exact K2].
Qed.

Lemma compact_enc_fun n bs : compact_enc n bs -> bs = compact_encode n.
Proof.
  intros H. unfold compact_encode. destruct H as [n Hn|n bs Hn He|n bs Hn He|n k bs Hn Hk He Hm].
  - apply N.ltb_lt in Hn. rewrite Hn. reflexivity.
  - apply le_enc_iff in He as [-> _]. replace (n <? 2 ^ 6) with false by lia. replace (n <? 2 ^ 14) with true by lia. reflexivity.
  - apply le_enc_iff in He as [-> _]. replace (n <? 2 ^ 6) with false by (change (2 ^ 14) with 16384 in Hn; change (2 ^ 6) with 64; lia).
    replace (n <? 2 ^ 14) with false by lia. replace (n <? 2 ^ 30) with true by lia. reflexivity.
  - apply le_enc_iff in He as [-> Hu]. change (2 ^ 30) with 1073741824 in Hn.
    replace (n <? 2 ^ 6) with false by (change (2 ^ 6) with 64; lia).
    replace (n <? 2 ^ 14) with false by (change (2 ^ 14) with 16384; lia).
    replace (n <? 2 ^ 30) with false by (change (2 ^ 30) with 1073741824; lia).
    rewrite <- (compact_bytes_unique n k); [reflexivity| |lia|exact Hu|exact Hm]. change (2 ^ 30) with 1073741824. lia.
Qed.

Lemma compact_enc_bytes n bs : compact_enc n bs -> is_bytes bs.
Proof.
  destruct 1 as [n Hn|n bs Hn [He _]|n bs Hn [He _]|n k bs Hn Hk [He _] Hm]; try exact He.
  - constructor; [|constructor]. change (2 ^ 6) with 64 in Hn. lia.
  - constructor; [lia|exact He].
Qed.

Lemma compact_enc_bound n bs : compact_enc n bs -> n < 2 ^ 536.
Proof.
  destruct 1 as [n Hn|n bs Hn _|n bs Hn _|n k bs Hn Hk He Hm].
  - eapply N.lt_trans; [exact Hn|]. apply N.pow_lt_mono_r; lia.
  - eapply N.lt_trans; [apply Hn|]. apply N.pow_lt_mono_r; lia.
  - eapply N.lt_trans; [apply Hn|]. apply N.pow_lt_mono_r; lia.
  - apply le_enc_iff in He as [_ Hu]. rewrite pow256_2 in Hu. eapply N.lt_le_trans; [exact Hu|]. apply N.pow_le_mono_r; lia.
Qed.

Lemma compact_decode_sound w bs n r : is_bytes bs -> compact_decode w bs = Ok (n, r) ->
  exists pre, bs = pre ++ r /\ compact_enc n pre /\ n < 2 ^ w.
Proof.
  intros HB H. destruct bs as [|p bs]; [discriminate|]. cbn [compact_decode] in H. cbv zeta in H.
  assert (CHK : forall lo m rest, (if (lo <=? m) && (m <? 2 ^ w) then Ok (m, rest) else Err ECodec) = Ok (n, r) ->
                lo <= m /\ m = n /\ n < 2 ^ w /\ rest = r).
  { intros lo m rest E. destruct ((lo <=? m) && (m <? 2 ^ w)) eqn:B; [|discriminate]. injection E as <- <-. repeat split; lia. }
  inversion HB as [|? ? Hp HB']; subst.
  destruct (N.eqb_spec (p mod 4) 0) as [M0|M0].
  { apply CHK in H as (_ & <- & Hw & <-). exists [p]. split; [reflexivity|]. split; [|exact Hw].
    replace p with (4 * (p / 4)) at 2 by lia. apply CE_1. change (2 ^ 6) with 64. lia. }
  destruct (N.eqb_spec (p mod 4) 1) as [M1|M1].
  { apply bind_ok in H as ([a rest] & T & H). cbn [fst snd] in H. apply CHK in H as (Hlo & <- & Hw & <-).
    apply take_ok in T as [E L]. exists a. split; [exact E|]. split; [|exact Hw].
    rewrite E in HB. apply is_bytes_app in HB as [HBa _]. pose proof (le_val_bound a HBa) as BU. rewrite L in BU. change (256 ^ N.of_nat 2) with 65536 in BU.
    destruct a as [|p' a]; [discriminate|]. injection E as -> E. cbn [le_val] in *.
    apply CE_2. { change (2 ^ 14) with 16384. lia. }
    split; [exact HBa|]. split; [exact L|]. cbn [le_val]. lia. }
  destruct (N.eqb_spec (p mod 4) 2) as [M2|M2].
  { apply bind_ok in H as ([a rest] & T & H). cbn [fst snd] in H. apply CHK in H as (Hlo & <- & Hw & <-).
    apply take_ok in T as [E L]. exists a. split; [exact E|]. split; [|exact Hw].
    rewrite E in HB. apply is_bytes_app in HB as [HBa _]. pose proof (le_val_bound a HBa) as BU. rewrite L in BU. change (256 ^ N.of_nat 4) with 4294967296 in BU.
    destruct a as [|p' a]; [discriminate|]. injection E as -> E. cbn [le_val] in *.
    apply CE_4. { change (2 ^ 30) with 1073741824. lia. }
    split; [exact HBa|]. split; [exact L|]. cbn [le_val]. lia. }
  apply bind_ok in H as ([a rest] & T & H). cbn [fst snd] in H. apply CHK in H as (Hlo & <- & Hw & <-).
  apply take_ok in T as [E L]. exists (p :: a). split; [rewrite E; reflexivity|]. split; [|exact Hw].
  rewrite E in HB'. apply is_bytes_app in HB' as [HBa _].
  set (k := N.to_nat (p / 4 + 4)) in *.
  replace p with (4 * (N.of_nat k - 4) + 3) by (unfold k; lia).
  assert (Hk : (4 <= k <= 67)%nat) by (unfold k; lia).
  apply CE_big; [|exact Hk|split; [exact HBa|split; [exact L|reflexivity]]|].
  - destruct (Nat.eqb_spec k 4) as [_|Hk4]; [exact Hlo|]. eapply N.le_trans; [|exact Hlo]. rewrite pow256_2. apply N.pow_le_mono_r; lia.
  - destruct (Nat.eqb_spec k 4) as [Hk4|Hk4]; [left; exact Hk4|right; exact Hlo].
Qed.

Lemma compact_decode_complete w n pre r : compact_enc n pre -> n < 2 ^ w -> compact_decode w (pre ++ r) = Ok (n, r).
Proof.
  intros He Hw. apply N.ltb_lt in Hw.
  assert (TK : forall k a, length a = k -> take k (a ++ r) = Ok (a, r)) by (intros k a <-; apply take_app).
  destruct He as [n Hn|n bs Hn (HB & HL & HV)|n bs Hn (HB & HL & HV)|n k bs Hn Hk (HB & HL & HV) Hm].
  - cbn [app compact_decode]. cbv zeta. replace (4 * n mod 4 =? 0) with true by lia. replace (4 * n / 4) with n by lia. rewrite Hw.
    replace (0 <=? n) with true by lia. reflexivity.
  - destruct bs as [|p bs]; [discriminate|]. cbn [app compact_decode]. cbv zeta. cbn [le_val] in HV.
    replace (p mod 4 =? 0) with false by lia. replace (p mod 4 =? 1) with true by lia.
    change (p :: bs ++ r) with ((p :: bs) ++ r). rewrite (TK 2%nat _ HL). cbn [bind fst snd le_val]. rewrite HV.
    replace ((4 * n + 1) / 4) with n by lia. rewrite Hw. replace (2 ^ 6 <=? n) with true by lia. reflexivity.
  - destruct bs as [|p bs]; [discriminate|]. cbn [app compact_decode]. cbv zeta. cbn [le_val] in HV.
    replace (p mod 4 =? 0) with false by lia. replace (p mod 4 =? 1) with false by lia. replace (p mod 4 =? 2) with true by lia.
    change (p :: bs ++ r) with ((p :: bs) ++ r). rewrite (TK 4%nat _ HL). cbn [bind fst snd le_val]. rewrite HV.
    replace ((4 * n + 2) / 4) with n by lia. rewrite Hw. replace (2 ^ 14 <=? n) with true by lia. reflexivity.
  - cbn [app compact_decode]. cbv zeta. set (p := 4 * (N.of_nat k - 4) + 3).
    replace (p mod 4 =? 0) with false by (unfold p; lia). replace (p mod 4 =? 1) with false by (unfold p; lia).
    replace (p mod 4 =? 2) with false by (unfold p; lia). replace (N.to_nat (p / 4 + 4)) with k by (unfold p; lia).
    rewrite (TK k _ HL). cbn [bind fst snd]. rewrite HV, Hw.
    destruct (Nat.eqb_spec k 4) as [E|E].
    + replace (2 ^ 30 <=? n) with true by lia. reflexivity.
    + replace (256 ^ N.of_nat (k - 1) <=? n) with true by lia. reflexivity.
Qed.

(** ** UTF-8 *)
Lemma utf8_next_complete c r : is_scalar c = true -> utf8_next (utf8_char c ++ r) = Some (c, r).
Proof.
  intro H. pose proof H as HS. unfold is_scalar in H. unfold utf8_char.
  destruct (N.ltb_spec c 0x80) as [L1|L1].
  { cbn [app utf8_next]. replace (c <? 0x80) with true by lia. reflexivity. }
  destruct (N.ltb_spec c 0x800) as [L2|L2].
  { cbn [app utf8_next]. replace (0xC0 + c / 64 <? 0x80) with false by lia.
    replace ((0xC2 <=? 0xC0 + c / 64) && (0xC0 + c / 64 <? 0xE0)) with true by lia.
    unfold cont. replace ((0x80 <=? 0x80 + c mod 64) && (0x80 + c mod 64 <? 0xC0)) with true by lia. do 2 f_equal. lia. }
  destruct (N.ltb_spec c 0x10000) as [L3|L3].
  { cbn [app utf8_next]. cbv zeta. set (x := c / 4096). set (y := (c / 64) mod 64). set (z := c mod 64).
    assert (E : x * 4096 + y * 64 + z = c) by (unfold x, y, z; lia).
    assert (B : x < 16 /\ y < 64 /\ z < 64) by (unfold x, y, z; lia).
    replace (0xE0 + x <? 0x80) with false by lia.
    replace ((0xC2 <=? 0xE0 + x) && (0xE0 + x <? 0xE0)) with false by lia.
    replace ((0xE0 <=? 0xE0 + x) && (0xE0 + x <? 0xF0)) with true by lia.
    replace ((0xE0 + x - 0xE0) * 4096 + (0x80 + y - 0x80) * 64 + (0x80 + z - 0x80)) with c by lia.
    unfold cont. rewrite HS.
    replace ((0x80 <=? 0x80 + y) && (0x80 + y <? 0xC0)) with true by lia.
    replace ((0x80 <=? 0x80 + z) && (0x80 + z <? 0xC0)) with true by lia.
    replace (0x800 <=? c) with true by lia. reflexivity. }
  cbn [app utf8_next]. cbv zeta. set (w := c / 262144). set (x := (c / 4096) mod 64). set (y := (c / 64) mod 64). set (z := c mod 64).
  assert (E : w * 262144 + x * 4096 + y * 64 + z = c) by (unfold w, x, y, z; lia).
  assert (B : w < 5 /\ x < 64 /\ y < 64 /\ z < 64) by (unfold w, x, y, z; lia).
  replace (0xF0 + w <? 0x80) with false by lia.
  replace ((0xC2 <=? 0xF0 + w) && (0xF0 + w <? 0xE0)) with false by lia.
  replace ((0xE0 <=? 0xF0 + w) && (0xF0 + w <? 0xF0)) with false by lia.
  replace ((0xF0 <=? 0xF0 + w) && (0xF0 + w <? 0xF5)) with true by lia.
  replace ((0xF0 + w - 0xF0) * 262144 + (0x80 + x - 0x80) * 4096 + (0x80 + y - 0x80) * 64 + (0x80 + z - 0x80)) with c by lia.
  unfold cont. rewrite HS.
  replace ((0x80 <=? 0x80 + x) && (0x80 + x <? 0xC0)) with true by lia.
  replace ((0x80 <=? 0x80 + y) && (0x80 + y <? 0xC0)) with true by lia.
  replace ((0x80 <=? 0x80 + z) && (0x80 + z <? 0xC0)) with true by lia.
  replace (0x10000 <=? c) with true by lia. reflexivity.
Qed.

Lemma utf8_next_sound bs c r : utf8_next bs = Some (c, r) -> bs = utf8_char c ++ r /\ is_scalar c = true.
Proof.
  intro H. destruct bs as [|a bs]; [discriminate|]. cbn [utf8_next] in H. cbv zeta in H. unfold utf8_char.
  destruct (N.ltb_spec a 0x80) as [L1|L1].
  { injection H as <- <-. replace (a <? 0x80) with true by lia. split; [reflexivity|]. unfold is_scalar. lia. }
  destruct ((0xC2 <=? a) && (a <? 0xE0)) eqn:L2.
  { destruct bs as [|b bs]; [discriminate|]. unfold cont in H.
    destruct ((0x80 <=? b) && (b <? 0xC0)) eqn:Cb; [|discriminate]. injection H as <- <-.
    set (c := (a - 0xC0) * 64 + (b - 0x80)).
    replace (c <? 0x80) with false by (unfold c; lia). replace (c <? 0x800) with true by (unfold c; lia).
    split.
    - cbn [app]. f_equal; [unfold c; lia|]. f_equal. unfold c; lia.
    - unfold is_scalar. replace (c <? 0xD800) with true by (unfold c; lia). reflexivity. }
  destruct ((0xE0 <=? a) && (a <? 0xF0)) eqn:L3.
  { destruct bs as [|b [|d bs]]; [discriminate|discriminate|]. unfold cont in H.
    match type of H with context [?x * 4096 + ?y * 64 + ?z] => set (n := x * 4096 + y * 64 + z) in H end.
    destruct (((0x80 <=? b) && (b <? 0xC0)) && ((0x80 <=? d) && (d <? 0xC0)) && (0x800 <=? n) && is_scalar n) eqn:Cb; [|discriminate].
    injection H as <- <-. apply andb_true_iff in Cb as [Cb Sc]. apply andb_true_iff in Cb as [Cb Lo]. split; [|exact Sc].
    replace (n <? 0x80) with false by lia. replace (n <? 0x800) with false by lia.
    replace (n <? 0x10000) with true by (unfold n; lia).
    cbn [app]. f_equal; [unfold n; lia|]. f_equal; [unfold n; lia|]. f_equal. unfold n; lia. }
  destruct ((0xF0 <=? a) && (a <? 0xF5)) eqn:L4; [|discriminate].
  destruct bs as [|b [|d [|e bs]]]; [discriminate|discriminate|discriminate|]. unfold cont in H.
  match type of H with context [?x * 262144 + ?y * 4096 + ?z * 64 + ?u] => set (n := x * 262144 + y * 4096 + z * 64 + u) in H end.
  destruct (((0x80 <=? b) && (b <? 0xC0)) && ((0x80 <=? d) && (d <? 0xC0)) && ((0x80 <=? e) && (e <? 0xC0)) && (0x10000 <=? n) && is_scalar n) eqn:Cb; [|discriminate].
  injection H as <- <-. apply andb_true_iff in Cb as [Cb Sc]. apply andb_true_iff in Cb as [Cb Lo]. split; [|exact Sc].
  replace (n <? 0x80) with false by lia. replace (n <? 0x800) with false by lia. replace (n <? 0x10000) with false by lia.
  cbn [app]. f_equal; [unfold n; lia|]. f_equal; [unfold n; lia|]. f_equal; [unfold n; lia|]. f_equal. unfold n; lia.
Qed.

Lemma utf8_char_nonempty c : (1 <= length (utf8_char c))%nat.
Proof. unfold utf8_char. destruct (c <? 0x80), (c <? 0x800), (c <? 0x10000); cbn; lia. Qed.

Lemma utf8_char_bytes c : is_scalar c = true -> is_bytes (utf8_char c).
Proof.
  unfold is_scalar, utf8_char. intro H. destruct (N.ltb_spec c 0x80), (N.ltb_spec c 0x800), (N.ltb_spec c 0x10000);
    repeat (apply Forall_cons; [lia|]); apply Forall_nil.
Qed.

Lemma utf8_bytes s : forallb is_scalar s = true -> is_bytes (utf8 s).
Proof.
  induction s as [|c s IH]; cbn [forallb]; intro H; [constructor|]. apply andb_true_iff in H as [H1 H2].
  unfold utf8 in *. cbn [map concat]. apply is_bytes_app. split; [apply utf8_char_bytes; exact H1|apply IH; exact H2].
Qed.

Lemma utf8_go_complete s : forall fuel, (length (utf8 s) <= fuel)%nat -> forallb is_scalar s = true -> utf8_go fuel (utf8 s) = Some s.
Proof.
  induction s as [|c s IH]; intros fuel Hf H.
  - destruct fuel; reflexivity.
  - cbn [forallb] in H. apply andb_true_iff in H as [H1 H2]. unfold utf8 in *. cbn [map concat] in *. fold (utf8 s) in *.
    rewrite app_length in Hf. pose proof (utf8_char_nonempty c).
    destruct fuel as [|fuel]; [lia|]. cbn [utf8_go].
    destruct (utf8_char c ++ utf8 s) as [|b l] eqn:E.
    { apply (f_equal (@length _)) in E. rewrite app_length in E. cbn in E. lia. }
    rewrite <- E, utf8_next_complete by exact H1. rewrite IH by (auto; lia). reflexivity.
Qed.

Lemma utf8_go_sound fuel : forall bs s, utf8_go fuel bs = Some s -> bs = utf8 s /\ forallb is_scalar s = true.
Proof.
  induction fuel as [|fuel IH]; intros bs s H.
  - destruct bs; [|discriminate]. injection H as <-. split; reflexivity.
  - cbn [utf8_go] in H. destruct bs as [|b bs]; [injection H as <-; split; reflexivity|].
    destruct (utf8_next (b :: bs)) as [[c r]|] eqn:E; [|discriminate].
    destruct (utf8_go fuel r) as [s'|] eqn:E'; [|discriminate]. injection H as <-.
    apply utf8_next_sound in E as [E1 E2]. apply IH in E' as [-> E4]. split.
    + exact E1.
    + cbn [forallb]. rewrite E2. exact E4.
Qed.

Lemma utf8_decode_iff bs s : utf8_decode bs = Some s <-> bs = utf8 s /\ forallb is_scalar s = true.
Proof.
  split; [apply utf8_go_sound|]. intros [-> H]. apply utf8_go_complete; [apply le_n|exact H].
Qed.
