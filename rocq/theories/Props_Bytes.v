(** * Props_Bytes: C86, [parse_hex] and [parse_ss58] never panic, never overflow, and the [unsafe] block is sound. *)
From Verif Require Import Base Value Chars Spec_Scale Scale ScaleFacts Spec_Grammar Fmt Parse ParseFacts Hex Ss58 ByteParsers Blake2 Base58.
Local Open Scope N_scope.

Lemma utf8_cons c t : utf8 (c :: t) = utf8_char c ++ utf8 t.
Proof. reflexivity. Qed.
Lemma utf8_ascii c : c < 128 -> utf8_char c = [c].
Proof. intro H. unfold utf8_char. replace (c <? 0x80) with true by lia. reflexivity. Qed.
(** Every byte of a character that is not ASCII is 128 or more. *)
Lemma utf8_high c : 128 <= c -> exists b l, utf8_char c = b :: l /\ 192 <= b.
Proof.
  intro H. unfold utf8_char. replace (c <? 0x80) with false by lia. destruct (c <? 0x800), (c <? 0x10000); do 2 eexists; (split; [reflexivity|lia]).
Qed.
Lemma alnum_ascii c : is_ascii_alnum c = true -> c < 128.
Proof. unfold is_ascii_alnum, is_ascii_alpha, is_digit. lia. Qed.
Lemma high_not_alnum b : 128 <= b -> is_ascii_alnum b = false.
Proof. unfold is_ascii_alnum, is_ascii_alpha, is_digit. lia. Qed.
Lemma utf8_decode_of s : forallb is_scalar s = true -> utf8_decode (utf8 s) = Some s.
Proof. intro H. apply utf8_decode_iff. auto. Qed.
Lemma chars_of s : forallb is_scalar s = true -> chars (utf8 s) = s.
Proof. intro H. unfold chars. rewrite utf8_decode_of by exact H. reflexivity. Qed.
Lemma utf8_ascii_str t : forallb is_ascii_alnum t = true -> utf8 t = t.
Proof.
  induction t as [|c t IH]; intro H; [reflexivity|]. cbn [forallb] in H. apply andb_true_iff in H as [H1 H2].
  rewrite utf8_cons, utf8_ascii by (apply alnum_ascii, H1). cbn [app]. rewrite IH by exact H2. reflexivity.
Qed.

(** ** parse_hex *)
Lemma nibble_runs b : nibble_rs b = Ran (hex_nibble b).
Proof.
  unfold nibble_rs, hex_nibble. destruct ((65 <=? b) && (b <=? 70)) eqn:E1; [|destruct ((97 <=? b) && (b <=? 102)) eqn:E2; [|destruct ((48 <=? b) && (b <=? 57)) eqn:E3; [|reflexivity]]].
  - unfold u8_sub. replace (65 <=? b) with true by lia. cbn [rbind]. unfold u8_add. replace (b - 65 + 10 <? 256) with true by lia. reflexivity.
  - unfold u8_sub. replace (97 <=? b) with true by lia. cbn [rbind]. unfold u8_add. replace (b - 97 + 10 <? 256) with true by lia. reflexivity.
  - unfold u8_sub. replace (48 <=? b) with true by lia. reflexivity.
Qed.
Lemma nibble_small b n : hex_nibble b = Some n -> n < 16.
Proof.
  unfold hex_nibble. destruct ((65 <=? b) && (b <=? 70)) eqn:E1; [intros [= <-]; lia|]. destruct ((97 <=? b) && (b <=? 102)) eqn:E2; [intros [= <-]; lia|].
  destruct ((48 <=? b) && (b <=? 57)) eqn:E3; [intros [= <-]; lia|discriminate].
Qed.
(** The loop on bytes does what the scan of characters does. *)
Lemma hex_loop_runs t : forall pre fuel last values, (length (utf8 t) < fuel)%nat -> match last with Some n => n < 16 | None => True end ->
  match hex_scan t (N.of_nat (length pre)) last (rev values) with
  | Ok (vs, rest) => exists d, t = d ++ rest /\ hex_loop_rs fuel (pre ++ utf8 t) (length pre) last values = Ran (Ok ((length pre + length (utf8 d))%nat, None, vs))
  | Err e => hex_loop_rs fuel (pre ++ utf8 t) (length pre) last values = Ran (Err e) \/
      exists idx n vs, hex_loop_rs fuel (pre ++ utf8 t) (length pre) last values = Ran (Ok (idx, Some n, vs)) /\ e = e_between (ECustom wrong_length_msg) 0 (N.of_nat idx)
  end.
Proof.
  induction t as [|c t IH]; intros pre fuel last values HF HL; (destruct fuel as [|f]; [lia|]); cbn [hex_scan hex_loop_rs].
  - unfold utf8. cbn [map concat]. rewrite app_nil_r. replace (nth_error pre (length pre)) with (@None N) by (symmetry; apply nth_error_None; lia).
    destruct last as [n|].
    + right. exists (length pre), n, values. auto.
    + exists []. split; [reflexivity|]. cbn [map concat length]. rewrite Nat.add_0_r, rev_involutive. reflexivity.
  - rewrite utf8_cons. rewrite nth_error_app2 by lia. rewrite Nat.sub_diag. destruct (N.ltb_spec c 128) as [HC|HC].
    + rewrite utf8_ascii by exact HC. cbn [app nth_error]. destruct (is_ascii_alnum c) eqn:EA; cbn [negb].
      * rewrite nibble_runs. cbn [rbind]. destruct (hex_nibble c) as [n|] eqn:EN; [|left; reflexivity]. pose proof (nibble_small c n EN) as HN.
        assert (step : forall last' values', match last' with Some n => n < 16 | None => True end ->
          match hex_scan t (N.of_nat (length pre) + 1) last' (rev values') with
          | Ok (vs, rest) => exists d, c :: t = d ++ rest /\ hex_loop_rs f (pre ++ c :: utf8 t) (length pre + 1) last' values' = Ran (Ok ((length pre + length (utf8 d))%nat, None, vs))
          | Err e => hex_loop_rs f (pre ++ c :: utf8 t) (length pre + 1) last' values' = Ran (Err e) \/
              exists idx n vs, hex_loop_rs f (pre ++ c :: utf8 t) (length pre + 1) last' values' = Ran (Ok (idx, Some n, vs)) /\ e = e_between (ECustom wrong_length_msg) 0 (N.of_nat idx)
          end).
        { intros last' values' HL'. specialize (IH (pre ++ [c]) f last' values'). rewrite app_length in IH. cbn [length] in IH. rewrite <- app_assoc in IH. cbn [app] in IH.
          replace (N.of_nat (length pre + 1)) with (N.of_nat (length pre) + 1) in IH by lia.
          rewrite utf8_cons, utf8_ascii in HF by exact HC. cbn [app length] in HF. specialize (IH ltac:(lia) HL').
          destruct (hex_scan t (N.of_nat (length pre) + 1) last' (rev values')) as [[vs rest]|e]; [|exact IH].
          destruct IH as (d & -> & E). exists (c :: d). split; [reflexivity|]. rewrite E. rewrite utf8_cons, utf8_ascii by exact HC. cbn [app length]. replace (length pre + S (length (utf8 d)))%nat with (length pre + 1 + length (utf8 d))%nat by lia. reflexivity. }
        destruct last as [m|].
        -- change (m < 16) in HL. unfold u8_mul. replace (m * 16 <? 256) with true by (symmetry; apply N.ltb_lt; clear - HL; nia). cbn [rbind]. unfold u8_add. replace (m * 16 + n <? 256) with true by (symmetry; apply N.ltb_lt; clear - HL HN; lia). cbn [rbind].
           specialize (step None (values ++ [vu128 (m * 16 + n)]) I). rewrite rev_app_distr in step. cbn [rev app] in step. exact step.
        -- apply (step (Some n) values HN).
      * destruct last as [n|].
        -- right. exists (length pre), n, values. auto.
        -- exists []. split; [reflexivity|]. unfold utf8. cbn [map concat length]. rewrite Nat.add_0_r, rev_involutive. reflexivity.
    + rewrite high_not_alnum by exact HC. destruct (utf8_high c HC) as (b & l & EB & HB). rewrite EB. cbn [app nth_error]. rewrite (high_not_alnum b) by lia. cbn [negb].
      destruct last as [n|].
      * right. exists (length pre), n, values. auto.
      * exists []. split; [reflexivity|]. unfold utf8. cbn [map concat length]. rewrite Nat.add_0_r, rev_involutive. reflexivity.
Qed.
Lemma utf8_app a b : utf8 (a ++ b) = utf8 a ++ utf8 b.
Proof. unfold utf8. rewrite map_app, concat_app. reflexivity. Qed.

(** On every text, [parse_hex] neither panics nor overflows, the bytes it calls UTF-8 without checking are UTF-8, and it returns what Hex.v says. *)
Theorem C86_parse_hex : forall s, forallb is_scalar s = true ->
  parse_hex_rs (utf8 s) = Ran (fst (parse_hex s), utf8 (snd (parse_hex s))).
Proof.
  intros s HS. unfold parse_hex_rs, parse_hex.
  assert (EP : strip_prefix (s2l "0x") (utf8 s) = option_map utf8 (strip_prefix (s2l "0x") s)).
  { assert (first : forall x p t, x < 128 -> strip_prefix (x :: p) (utf8 t) = match t with c :: t' => if c =? x then strip_prefix p (utf8 t') else None | [] => None end).
    { intros x p [|c t] Hx; [reflexivity|]. rewrite utf8_cons. destruct (N.ltb_spec c 128) as [HC|HC].
      - rewrite utf8_ascii by exact HC. reflexivity.
      - destruct (utf8_high c HC) as (b & l & -> & HB). cbn [app strip_prefix]. replace (b =? x) with false by lia. replace (c =? x) with false by lia. reflexivity. }
    change (s2l "0x") with [48; 120]. rewrite first by lia. destruct s as [|c [|c' s]]; [reflexivity| |].
    - rewrite first by lia. cbn [strip_prefix]. destruct (c =? 48); reflexivity.
    - rewrite first by lia. cbn [strip_prefix]. destruct (c =? 48); [|reflexivity]. destruct (c' =? 120); reflexivity. }
  rewrite EP. destruct (strip_prefix (s2l "0x") s) as [t|] eqn:E; cbn [option_map]; [|reflexivity]. apply strip_prefix_some in E as ->.
  rewrite utf8_app. change (utf8 (s2l "0x")) with (s2l "0x") at 1 2 3 4 5.
  pose proof (hex_loop_runs t (s2l "0x") (S (length (s2l "0x" ++ utf8 t))) None [] ltac:(rewrite app_length; lia) I) as H. cbn [rev] in H.
  change (N.of_nat (length (s2l "0x"))) with 2 in H. change (length (s2l "0x")) with 2%nat in H.
  rewrite forallb_app in HS. apply andb_true_iff in HS as [_ HS].
  destruct (hex_scan t 2 None []) as [[vs rest]|e].
  - destruct H as (d & -> & ->). cbn [rbind fst snd]. rewrite utf8_app, app_assoc. unfold slice_from.
    replace (2 + length (utf8 d))%nat with (length (s2l "0x" ++ utf8 d)) by (rewrite app_length; reflexivity).
    rewrite (app_length (s2l "0x" ++ utf8 d)). replace (length (s2l "0x" ++ utf8 d) <=? length (s2l "0x" ++ utf8 d) + length (utf8 rest))%nat with true by (symmetry; apply Nat.leb_le; lia).
    rewrite skipn_app, skipn_all, Nat.sub_diag. cbn [app skipn rbind]. unfold from_utf8_unchecked. rewrite forallb_app in HS. apply andb_true_iff in HS as [_ HS].
    rewrite utf8_decode_of by exact HS. reflexivity.
  - destruct H as [->|(idx & n & vs & -> & ->)]; cbn [rbind fst snd]; rewrite utf8_app; reflexivity.
Qed.
Print Assumptions C86_parse_hex.

(** ** parse_ss58 *)
Lemma find_stops p r : forall t fuel idx, forallb is_scalar (t ++ r) = true -> forallb (fun c => negb (p c)) t = true -> not_followed_by (fun c => negb (p c)) r ->
  (length (utf8 (t ++ r)) <= fuel)%nat ->
  find_from fuel p (utf8 (t ++ r)) idx = match r with [] => None | _ => Some (idx + length (utf8 t))%nat end.
Proof.
  induction t as [|c t IH]; intros fuel idx HS HP HR HF; cbn [app] in *.
  - destruct r as [|c r].
    + destruct fuel; reflexivity.
    + cbn [forallb] in HS. apply andb_true_iff in HS as [HS _]. rewrite utf8_cons, app_length in HF. pose proof (utf8_char_nonempty c).
      destruct fuel as [|f]; [lia|]. cbn [find_from]. rewrite utf8_cons, utf8_next_complete by exact HS. cbn [not_followed_by] in HR. apply negb_false_iff in HR. rewrite HR.
      change (utf8 []) with (@nil N). cbn [length]. rewrite Nat.add_0_r. reflexivity.
  - cbn [forallb] in HS, HP. apply andb_true_iff in HS as [HS HS']. apply andb_true_iff in HP as [HP HP']. rewrite utf8_cons, app_length in HF. pose proof (utf8_char_nonempty c).
    destruct fuel as [|f]; [lia|]. cbn [find_from]. rewrite utf8_cons, utf8_next_complete by exact HS. apply negb_true_iff in HP. rewrite HP.
    rewrite IH; [|exact HS'|exact HP'|exact HR|lia]. destruct r; [reflexivity|]. rewrite utf8_cons, app_length. f_equal. lia.
Qed.
Lemma boundary_start a r : forallb is_scalar r = true -> is_char_boundary (a ++ utf8 r) (length a) = true.
Proof.
  intro H. unfold is_char_boundary. rewrite nth_error_app2 by lia. rewrite Nat.sub_diag. destruct r as [|c r].
  - cbn [nth_error]. change (utf8 []) with (@nil N). rewrite app_nil_r. apply Nat.eqb_refl.
  - rewrite utf8_cons. destruct (N.ltb_spec c 128) as [HC|HC].
    + rewrite utf8_ascii by exact HC. cbn [app nth_error]. replace (c <? 128) with true by lia. rewrite orb_true_r. reflexivity.
    + destruct (utf8_high c HC) as (b & l & -> & HB). cbn [app nth_error]. replace (192 <=? b) with true by lia. rewrite orb_true_r. reflexivity.
Qed.
Lemma str_slices a r : forallb is_scalar a = true -> forallb is_scalar r = true ->
  str_slice 0 (length (utf8 a)) (utf8 a ++ utf8 r) = Ran (utf8 a) /\ str_slice (length (utf8 a)) (length (utf8 a ++ utf8 r)) (utf8 a ++ utf8 r) = Ran (utf8 r).
Proof.
  intros HA HR. unfold str_slice. rewrite (boundary_start (utf8 a) r HR). split.
  - assert (HB : is_char_boundary (utf8 a ++ utf8 r) 0 = true).
    { pose proof (boundary_start [] (a ++ r)) as H. rewrite utf8_app in H. apply H. rewrite forallb_app, HA, HR. reflexivity. }
    rewrite HB. cbn [Nat.leb andb]. rewrite Nat.sub_0_r. cbn [skipn]. rewrite firstn_app, firstn_all, Nat.sub_diag. cbn [firstn]. rewrite app_nil_r. reflexivity.
  - replace (is_char_boundary (utf8 a ++ utf8 r) (length (utf8 a ++ utf8 r))) with true.
    2: { pose proof (boundary_start (utf8 a ++ utf8 r) [] eq_refl) as H. change (utf8 []) with (@nil N) in H. rewrite app_nil_r in H. symmetry. exact H. }
    rewrite app_length. replace (length (utf8 a) <=? length (utf8 a) + length (utf8 r))%nat with true by (symmetry; apply Nat.leb_le; lia). cbn [andb].
    rewrite skipn_app, skipn_all, Nat.sub_diag. cbn [app skipn]. replace (length (utf8 a) + length (utf8 r) - length (utf8 a))%nat with (length (utf8 r)) by lia. rewrite firstn_all. reflexivity.
Qed.
Lemma alnum_scalar a : forallb is_ascii_alnum a = true -> forallb is_scalar a = true.
Proof.
  rewrite !forallb_forall. intros H c HI. pose proof (alnum_ascii c (H c HI)). unfold is_scalar. lia.
Qed.
Lemma take_while_ext p q t : (forall c, p c = q c) -> take_while p t = take_while q t.
Proof. intro H. induction t as [|c t IH]; [reflexivity|]. cbn [take_while]. rewrite H, IH. reflexivity. Qed.

Lemma slice_ok {A} a b (l : list A) : (a <= b)%nat -> (b <= length l)%nat -> slice a b l = Ran (firstn (b - a) (skipn a l)).
Proof. intros H1 H2. unfold slice. apply Nat.leb_le in H1, H2. rewrite H1, H2. reflexivity. Qed.

(** On every text, for every base58 decoder and every hash of at least two bytes, [parse_ss58_bytes] stays within the bounds of its slices (which are on
    character boundaries) and returns what Ss58.v says. *)
Theorem C86_parse_ss58 : forall from_base58 ss58hash s, (forall b, 2 <= length (ss58hash b))%nat -> forallb is_scalar s = true ->
  parse_ss58_rs from_base58 ss58hash (utf8 s) =
  Ran (match parse_ss58_bytes from_base58 ss58hash s with Some (b, rest) => (Some b, utf8 rest) | None => (None, utf8 s) end).
Proof.
  intros from_base58 ss58hash s HH HS. unfold parse_ss58_rs, parse_ss58_bytes. destruct (take_while is_ascii_alnum s) as [a r] eqn:ET.
  apply take_while_spec in ET as (-> & HA & HN). pose proof HS as HS'. rewrite forallb_app in HS'. apply andb_true_iff in HS' as [_ HR].
  pose proof (alnum_scalar a HA) as HAS.
  assert (EI : match str_find (fun c => negb (is_ascii_alnum c)) (utf8 (a ++ r)) with Some i => i | None => length (utf8 (a ++ r)) end = length (utf8 a)).
  { unfold str_find. rewrite find_stops.
    - destruct r; [rewrite app_nil_r|]; reflexivity.
    - exact HS.
    - rewrite forallb_forall in *. intros c HI. rewrite negb_involutive. apply HA, HI.
    - destruct r as [|c r]; [exact I|]. cbn [not_followed_by] in *. rewrite negb_involutive. exact HN.
    - apply le_n. }
  rewrite EI, utf8_app. destruct (str_slices a r HAS HR) as [E1 E2]. rewrite E1, E2. cbn [rbind]. rewrite (chars_of a HAS), (chars_of r HR).
  rewrite (utf8_ascii_str a HA). unfold str_is. destruct a as [|c0 a0] eqn:EA0; [reflexivity|]. rewrite <- EA0 in *. clear EA0 c0 a0.
  destruct (str_eqb a (s2l "true") || str_eqb a (s2l "false") || forallb is_digit a); [reflexivity|].
  destruct (match skip_while is_whitespace r with c :: _ => (c =? c_lpar) || (c =? c_lbrace) | [] => false end); [reflexivity|].
  destruct (from_base58 a) as [bs|]; [|reflexivity].
  set (pl := match bs with b :: _ => _ | [] => None end). 
  destruct pl as [pl|]; [|reflexivity]. destruct (Nat.ltb_spec (length bs) (pl + 2)) as [HL|HL]; [reflexivity|].
  unfold usize_sub. replace (2 <=? length bs)%nat with true by (symmetry; apply Nat.leb_le; lia). cbn [rbind].
  rewrite slice_ok by lia. cbn [rbind]. rewrite Nat.sub_0_r. cbn [skipn]. rewrite slice_ok by (try apply HH; lia). cbn [rbind]. rewrite Nat.sub_0_r.
  unfold slice_from. replace (length bs - 2 <=? length bs)%nat with true by (symmetry; apply Nat.leb_le; lia). cbn [rbind].
  change (skipn 0 (ss58hash (firstn (length bs - 2) bs))) with (ss58hash (firstn (length bs - 2) bs)).
  destruct (negb (str_eqb (skipn (length bs - 2) bs) (firstn 2 (ss58hash (firstn (length bs - 2) bs))))); [reflexivity|].
  rewrite slice_ok by lia. cbn [rbind]. rewrite skipn_firstn_comm. reflexivity.
Qed.
Print Assumptions C86_parse_ss58.

(** With the hash the crate uses. *)
Theorem C86_parse_ss58_blake2 : forall from_base58 s, forallb is_scalar s = true ->
  parse_ss58_rs from_base58 ss58hash (utf8 s) =
  Ran (match parse_ss58_bytes from_base58 ss58hash s with Some (b, rest) => (Some b, utf8 rest) | None => (None, utf8 s) end).
Proof.
  intros from_base58 s HS. apply C86_parse_ss58; [|exact HS]. intro b. unfold ss58hash. destruct (blake2b_512_length (s2l "SS58PRE" ++ b)) as [-> _]. lia.
Qed.
Print Assumptions C86_parse_ss58_blake2.

(** ** format_hex *)
(** The [expect] of custom_formatters/hex.rs:77 never fails, whatever the writer does. *)
Theorem C86_format_hex : forall T W (wr : W -> str -> W * bool) (v : value T) w, format_hex_rs wr v w = Ran (format_hex wr v w).
Proof.
  intros T W wr v w.
  assert (HL : forall (vals : list (value T)) w, hex_digits_rs wr vals w = Ran (hex_loop wr vals w)).
  { induction vals as [|[d c] vals IH]; intro w'; [reflexivity|]. cbn [hex_digits_rs hex_loop]. destruct d as [| | |p]; try apply IH. destruct p as [| | |n| | |]; try apply IH.
    assert (HN : forall x, x < 16 -> exists ch, u4_to_hex x = Some ch /\ u4_to_hex_rs x = Ran ch).
    { intros x Hx. unfold u4_to_hex_rs. destruct (u4_to_hex x) as [ch|] eqn:E; [exists ch; auto|]. exfalso. unfold u4_to_hex in E. apply nth_error_None in E. cbn in E. lia. }
    assert (H1 : N.shiftr (n mod 256) 4 < 16). { rewrite N.shiftr_div_pow2. change (2 ^ 4) with 16. pose proof (N.mod_lt n 256). apply N.div_lt_upper_bound; lia. }
    assert (H2 : N.land (n mod 256) 15 < 16). { change 15 with (N.ones 4). rewrite N.land_ones. change (2 ^ 4) with 16. apply N.mod_lt. lia. }
    destruct (HN _ H1) as (hi & E1 & R1). destruct (HN _ H2) as (lo & E2 & R2). rewrite E1, E2, R1, R2. cbn [rbind].
    destruct (wr w' [hi]) as [w1 [|]]; [|reflexivity]. destruct (wr w1 [lo]) as [w2 [|]]; [apply IH|reflexivity]. }
  unfold format_hex_rs, format_hex. destruct v as [d c]. cbn [vdef_of]. destruct d as [[l|l]| | |]; try reflexivity. destruct l as [|x l]; [reflexivity|].
  destruct (forallb is_byte_value (x :: l)); [|reflexivity]. unfold value_to_hex. destruct (wr w (s2l "0x")) as [w1 [|]]; [|reflexivity]. rewrite HL. cbn [rbind].
  destruct (hex_loop wr (x :: l) w1). reflexivity.
Qed.
Print Assumptions C86_format_hex.

(** ** Examples *)
(** A hex number followed by a character of three bytes; an odd number of digits; a letter that is no digit. *)
Example C86_hex_demo :
  parse_hex_rs (utf8 (s2l "0x0aFF" ++ [8364; 49])) = Ran (Some (Ok (from_bytes [10; 255])), utf8 [8364; 49]) /\
  parse_hex_rs (s2l "0x123,") = Ran (Some (Err (e_between (ECustom wrong_length_msg) 0 5)), s2l "0x123,") /\
  parse_hex_rs (s2l "0xfG") = Ran (Some (Err (e_at (ECustom (invalid_char_msg 71)) 3)), s2l "0xfG").
Proof. repeat apply conj; vm_compute; reflexivity. Qed.
(** Stopping in the middle of a character would be undefined behaviour; a slice in the middle of one panics. *)
Example C86_bad_demo : from_utf8_unchecked (skipn 1 (utf8 [8364])) = Undefined /\ str_slice 1 3 (utf8 [8364]) = Panic /\ u8_sub 64 65 = Panic /\ u8_mul 16 16 = Panic.
Proof. repeat apply conj; vm_compute; reflexivity. Qed.
(** The first address of the tests of ss58.rs (line 112), followed by a character of three bytes. *)
Example C86_ss58_demo :
  parse_ss58_rs b58_decode ss58hash (utf8 (s2l "5GrwvaEF5zXb26Fz9rcQpDWS57CtERHpNehXCPcNoHGKutQY" ++ [8364])) =
  Ran (match b58_decode (s2l "5GrwvaEF5zXb26Fz9rcQpDWS57CtERHpNehXCPcNoHGKutQY") with Some b => Some (firstn 32 (skipn 1 b)) | None => None end, utf8 [8364]) /\
  parse_ss58_rs b58_decode ss58hash (s2l "5GrwvaEF5zXb26Fz9rcQpDWS57CtERHpNehXCPcNoHGKutQZ") = Ran (None, s2l "5GrwvaEF5zXb26Fz9rcQpDWS57CtERHpNehXCPcNoHGKutQZ").
Proof. repeat apply conj; vm_compute; reflexivity. Qed.
