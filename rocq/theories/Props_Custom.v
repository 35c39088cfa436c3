(** * Props_Custom: C14 (hex round trip), C15 (parse_hex), C16 (parse_ss58), C17 (custom parsers and the cursor) *)
From Verif Require Import Base Value Chars Parse Spec_Grammar ParseFacts ParseComplete ParseSound Fmt Spec_Fmt FmtFacts FmtText FmtCustom.
From Verif Require Import Hex Spec_Hex HexFacts Base58 Ss58 Props_Parse.
Local Open Scope N_scope.

(** A value the hex formatter answers on: a non-empty unnamed composite of U128 numbers below 256. *)
Definition bytes_node {T} (v : value T) (bs : list byte) : Prop :=
  bs <> [] /\ Forall (fun b => b < 256) bs /\
  exists l ctx, v = Val (DComposite (Unnamed l)) ctx /\ Forall2 (fun x b => exists c, x = Val (DPrim (PU128 b)) c) l bs.

Lemma bytes_node_hex {T} (v : value T) bs : bytes_node v bs <-> hex_node v = true /\ node_bytes v = bs.
Proof.
  split.
  - intros (Hne & HF & l & ctx & -> & H2). assert (E : map byte_of l = bs).
    { clear Hne HF. induction H2 as [|x b l bs (c & ->) H2 IH]; cbn; congruence. }
    destruct l as [|a l]; [inversion H2; subst; contradiction|]. split; [|exact E].
    cbn [hex_node]. apply forallb_forall. intros x Hx. clear -H2 HF Hx. revert HF Hx. induction H2 as [|y b l' bs (c & ->) H2 IH]; intros HF [].
    + subst x. cbn. inversion_clear HF. lia.
    + apply IH; auto. now inversion_clear HF.
  - intros [H <-]. destruct (hex_node_form v H) as [HF _].
    destruct v as [[[l|[|a l]]|n c|b|p] ctx]; try discriminate. split; [discriminate|]. split; [exact HF|].
    exists (a :: l), ctx. split; [reflexivity|]. cbn [hex_node node_bytes] in *. revert H. generalize (a :: l) as l0. clear.
    induction l0 as [|x l0 IH]; cbn [forallb map]; intro H; [constructor|]. apply andb_true_iff in H as [H1 H2].
    constructor; [|now apply IH]. destruct x as [[c|n c|b|[b|c|s|n|z|b|b]] c']; try discriminate. eexists; reflexivity.
Qed.

(** ** C14 *)
(** On such a value [format_hex] appends [0x] and two upper-case hex digits per byte; it declines everything else without
    writing. *)
Theorem C14_format_hex : forall (T : Type) (v : value T) w,
  (forall bs, bytes_node v bs -> format_hex string_wr v w = (Some true, w ++ s2l "0x" ++ flat_map upper_hex bs)) /\
  ((~ exists bs, bytes_node v bs) -> format_hex string_wr v w = (None, w)).
Proof.
  intros T v w. rewrite format_hex_pieces. unfold piece_formatter. split.
  - intros bs H. apply bytes_node_hex in H as [H <-]. rewrite H, feed_string, hex_pieces_text. reflexivity.
  - intro H. destruct (hex_node v) eqn:E; [|reflexivity]. exfalso. apply H. exists (node_bytes v). now apply bytes_node_hex.
Qed.
Print Assumptions C14_format_hex.

(** [parse_hex] reads either case back, up to the first character that is not ASCII alphanumeric. *)
Theorem C14_parse_hex_reads_back : forall bs d rest, hex_digits bs d -> not_followed_by is_ascii_alnum rest ->
  parse_hex (s2l "0x" ++ d ++ rest) = (Some (Ok (from_bytes bs)), rest).
Proof. exact parse_hex_complete. Qed.
Print Assumptions C14_parse_hex_reads_back.

(** Values of any shape: formatted with [format_hex] in any style, then parsed with [parse_hex]. *)
Definition hex_cfg {T} (ind lead : str) : config T str :=
  {| indent_by := ind; leading_indent := lead; custom_formatters := [format_hex string_wr]; print_context := None |}.

Theorem C14_roundtrip_with_hex : forall (T : Type) U ind lead st (v : value T) rest, unicode_ok U -> ws ind -> ws lead ->
  text_ok (is_ident U) v = true -> not_followed_by word_char rest ->
  exists t, custom_text U (hex_cfg ind lead) st v = Some t /\
    parse_custom U [parse_hex] (t ++ rest) = (Ok (unsigned_form v), rest).
Proof.
  intros T U ind lead st v rest HU Hi Hl Hok Hf.
  rewrite (custom_text_render U (hex_cfg ind lead) hex_node hex_pieces (format_hex string_wr)); [|intros; apply format_hex_pieces|reflexivity|reflexivity].
  cbn zeta. cbn [indent_by leading_indent hex_cfg]. rewrite rdc_ok by exact Hok. eexists. split; [reflexivity|].
  apply hex_complete; auto. now apply rdc_g.
Qed.
Print Assumptions C14_roundtrip_with_hex.

Definition hex_sample : value unit :=
  named_composite [(s2l "a", unnamed_composite [vu128 0; vu128 255; vu128 10]); (s2l "b", unnamed_composite [vu128 0; vu128 256]);
                   (s2l "c", unnamed_variant (s2l "V") [vu128 1])].
Example C14_example :
  custom_text ascii_unicode (hex_cfg [] []) Normal hex_sample = Some (s2l "{ a: 0x00FF0A, b: (0, 256), c: V (1) }") /\
  text_ok (is_ident ascii_unicode) hex_sample = true /\
  bytes_node (unnamed_composite [vu128 0; vu128 255]) [0; 255].
Proof.
  split; [vm_compute; reflexivity|]. split; [reflexivity|]. apply bytes_node_hex. split; reflexivity.
Qed.

(** ** C15 *)
(** [parse_hex] declines exactly the texts that do not begin with [0x]; *)
Theorem C15_declines : forall s, (starts_with (s2l "0x") s -> fst (parse_hex s) <> None) /\
  (~ starts_with (s2l "0x") s -> parse_hex s = (None, s)).
Proof.
  intro s. unfold parse_hex. split.
  - intros [r ->]. rewrite strip_prefix_app. destruct (hex_scan r 2 None []) as [[? ?]|?]; discriminate.
  - intro H. destruct (strip_prefix (s2l "0x") s) as [t|] eqn:E; [|reflexivity].
    exfalso. apply H. apply strip_prefix_some in E as ->. eexists. reflexivity.
Qed.
Print Assumptions C15_declines.

(** on success the cursor is behind the maximal alphanumeric run, which is a hex literal of the bytes returned; on failure
    the cursor has not moved, and the error is: the first alphanumeric character that is not a hex digit, at its byte
    offset; or an odd number of digits, spanning the literal. *)
Theorem C15_result : forall t,
  match parse_hex (s2l "0x" ++ t) with
  | (None, _) => False
  | (Some (Ok v), rest) => exists bs d, t = d ++ rest /\ hex_digits bs d /\ not_followed_by is_ascii_alnum rest /\ v = from_bytes bs
  | (Some (Err e), cur) => cur = s2l "0x" ++ t /\
      ((exists d c rest, t = d ++ c :: rest /\ (forall x, In x d -> exists n, hex_digit x n) /\
          is_ascii_alnum c = true /\ (forall n, ~ hex_digit c n) /\
          start_loc e = blen (s2l "0x" ++ d) /\ end_loc e = None /\ err e = ECustom (s2l "Invalid hex character: " ++ [c])) \/
       (exists bs d c n rest, t = d ++ c :: rest /\ hex_digits bs d /\ hex_digit c n /\ not_followed_by is_ascii_alnum rest /\
          start_loc e = 0 /\ end_loc e = Some (blen (s2l "0x" ++ d ++ [c])) /\
          err e = ECustom (s2l "Hex string is the wrong length; should be an even length")))
  end.
Proof.
  intro t. unfold parse_hex. rewrite strip_prefix_app.
  pose proof (hex_scan_cases (length t) t 2 [] (le_n _)) as H. destruct (hex_scan t 2 None []) as [[vs rest]|e].
  - destruct H as (bs & d & -> & Hd & Hr & ->). exists bs, d. cbn [rev app]. auto.
  - split; [reflexivity|]. destruct H as [(d & c & rest & -> & Hd & Hc & Hn & ->)|(bs & d & c & n & rest & -> & Hd & Hc & Hr & ->)].
    + left. exists d, c, rest. rewrite forallb_forall in Hd. split; [reflexivity|].
      assert (HD : forall x, In x d -> exists n, hex_nibble x = Some n).
      { intros x Hx. specialize (Hd x Hx). destruct (hex_nibble x); [eauto|discriminate]. }
      split; [intros x Hx; destruct (HD x Hx) as [n E]; exists n; now apply hex_nibble_spec|].
      split; [exact Hc|]. split; [intros n Hx; apply hex_nibble_spec in Hx; congruence|].
      split; [|split; reflexivity]. cbn [start_loc e_at]. rewrite blen_app, (blen_ascii d).
      * reflexivity.
      * apply forallb_forall. intros x Hx. destruct (HD x Hx) as [n E]. apply hex_nibble_alnum in E.
        unfold is_ascii_alnum, is_ascii_alpha, is_digit in E. lia.
    + right. exists bs, d, c, n, rest. split; [reflexivity|]. split; [exact Hd|]. split; [now apply hex_nibble_spec|].
      split; [exact Hr|]. split; [reflexivity|]. split; [|reflexivity]. cbn [end_loc e_between].
      rewrite !blen_app, (blen_ascii d) by (eapply hex_digits_ascii; eauto). cbn [blen].
      apply hex_nibble_alnum in Hc. unfold utf8_len, is_ascii_alnum, is_ascii_alpha, is_digit in *.
      replace (c <? 0x80) with true by lia. change (blen (s2l "0x")) with 2. f_equal. lia.
Qed.
Print Assumptions C15_result.

(** Hence [parse_hex] honours the contract under which parse errors are located in the input (C06, C07), and parsing with
    it accepts exactly the grammar extended by hex literals. *)
Theorem C15_contract : custom_contract [parse_hex].
Proof.
  intros t e cur. cbn [run_customs]. destruct (parse_hex t) as [[[v|e']|] cur'] eqn:E; try discriminate.
  intro H; injection H as -> ->. unfold parse_hex in E. destruct (strip_prefix (s2l "0x") t) as [t'|] eqn:Et; [|discriminate].
  apply strip_prefix_some in Et as ->. pose proof (C15_result t') as HR.
  replace (parse_hex (s2l "0x" ++ t')) with (Some (@Err (value unit) perr e), cur) in HR.
  destruct HR as [_ [(d & c & rest & -> & _ & _ & _ & H1 & H2 & H3)|(bs & d & c & n & rest & -> & _ & _ & _ & H1 & H2 & H3)]];
    rewrite H2, H3; cbn [opens]; repeat split; try discriminate.
  - exists (s2l "0x" ++ d), (c :: rest). rewrite <- app_assoc. auto.
  - exists [], (s2l "0x" ++ d ++ c :: rest). split; [reflexivity|exact H1].
  - rewrite H1. lia.
  - rewrite !blen_app. cbn [blen]. lia.
Qed.
Print Assumptions C15_contract.

Theorem C15_parsing_with_hex : forall U s v rest, unicode_ok U -> not_followed_by word_char rest ->
  (parse_custom U [parse_hex] s = (Ok v, rest) <-> exists t, s = t ++ rest /\ g_val U hex_literal v t).
Proof.
  intros U s v rest HU Hf. split.
  - intro H. unfold parse_custom in H. eapply value_sound in H; eauto. clear s v rest Hf H.
    intros t v cur. cbn [run_customs]. destruct (parse_hex t) as [[[v'|e]|] cur'] eqn:E; try discriminate.
    intro H; injection H as -> ->. unfold parse_hex in E. destruct (strip_prefix (s2l "0x") t) as [t'|] eqn:Et; [|discriminate].
    apply strip_prefix_some in Et as ->. pose proof (C15_result t') as HR.
    replace (parse_hex (s2l "0x" ++ t')) with (Some (@Ok (value unit) perr v), cur) in HR.
      destruct HR as (bs & d & -> & Hd & Hr & ->). exists (s2l "0x" ++ d). rewrite app_assoc. split.
    + rewrite wind_ascii; [reflexivity|]. rewrite forallb_app, (hex_digits_ascii _ _ Hd). reflexivity.
    + exists bs, d. auto.
  - intros (t & -> & Hg). now apply hex_complete.
Qed.
Print Assumptions C15_parsing_with_hex.

Example C15_example :
  parse_hex (s2l "0x12aF, 3") = (Some (Ok (from_bytes [18; 175])), s2l ", 3") /\
  parse_hex (s2l "0x12345x") = (Some (Err (PErr 7 None (ECustom (s2l "Invalid hex character: x")))), s2l "0x12345x") /\
  parse_hex (s2l "0x123") = (Some (Err (PErr 0 (Some 5) (ECustom wrong_length_msg))), s2l "0x123") /\
  parse_custom ascii_unicode [parse_hex] (s2l "{ a: 0x01, b: (0xff) }") =
    (Ok (named_composite [(s2l "a", from_bytes [1]); (s2l "b", unnamed_composite [from_bytes [255]])]), []).
Proof. repeat split; vm_compute; reflexivity. Qed.

(** ** C16 *)
(** An address text decodes to prefix, payload, checksum. *)
Definition valid_address (decode : str -> option bytes) (hash : bytes -> bytes) (addr : str) (payload : bytes) : Prop :=
  exists prefix checksum, decode addr = Some (prefix ++ payload ++ checksum) /\
    length checksum = 2%nat /\ checksum = firstn 2 (hash (prefix ++ payload)) /\
    ((exists a, prefix = [a] /\ a < 64) \/ (exists a b, prefix = [a; b] /\ 64 <= a < 128)).

(** Where an address may stand: alphanumeric, not a boolean or number, and not before an opening bracket. *)
Definition address_position (addr rest : str) : Prop :=
  addr <> [] /\ forallb is_ascii_alnum addr = true /\ not_followed_by is_ascii_alnum rest /\
  addr <> s2l "true" /\ addr <> s2l "false" /\ forallb is_digit addr = false /\
  (forall w r, rest = w ++ r -> ws w -> ~ starts_with [c_lpar] r /\ ~ starts_with [c_lbrace] r).

Lemma take_while_split p t a b : take_while p t = (a, b) -> t = a ++ b /\ forallb p a = true /\ not_followed_by p b.
Proof.
  revert a b; induction t as [|c t IH]; intros a b; cbn [take_while].
  - intro H; injection H as <- <-. repeat split.
  - destruct (p c) eqn:E.
    + destruct (take_while p t) as [x y]. intro H; injection H as <- <-. destruct (IH x y eq_refl) as (-> & H1 & H2).
      cbn. now rewrite E.
    + intro H; injection H as <- <-. cbn. auto.
Qed.
Lemma take_while_exact p a b : forallb p a = true -> not_followed_by p b -> take_while p (a ++ b) = (a, b).
Proof.
  intros H1 H2. induction a as [|c a IH]; cbn [app].
  - destruct b as [|c b]; [reflexivity|]. cbn in *. now rewrite H2.
  - cbn in H1. apply andb_true_iff in H1 as [Hc H1]. cbn [take_while]. now rewrite Hc, (IH H1).
Qed.

Lemma bracket_spec rest :
  match skip_while is_whitespace rest with c :: _ => (c =? c_lpar) || (c =? c_lbrace) | [] => false end = false <->
  (forall w r, rest = w ++ r -> ws w -> ~ starts_with [c_lpar] r /\ ~ starts_with [c_lbrace] r).
Proof.
  unfold skip_while. destruct (take_while is_whitespace rest) as [a b] eqn:E. cbn [snd].
  apply take_while_split in E as (-> & Ha & Hb). split.
  - intros H w r Ew Hw.
    assert (Hr : ~ (exists c r', r = c :: r' /\ (c =? c_lpar) || (c =? c_lbrace) = true)).
    { intros (c & r' & -> & Hc). assert (Hcw : is_whitespace c = false) by (unfold is_whitespace, c_lpar, c_lbrace in *; lia).
      assert (Hs : take_while is_whitespace (w ++ c :: r') = (w, c :: r')) by (apply take_while_exact; auto).
      rewrite <- Ew, take_while_exact in Hs by auto. injection Hs as -> ->. congruence. }
    split; intros [r' ->]; apply Hr; [exists c_lpar, r'|exists c_lbrace, r']; auto.
  - intro H. destruct b as [|c b]; [reflexivity|]. destruct (H a (c :: b) eq_refl Ha) as [H1 H2].
    destruct (N.eqb_spec c c_lpar) as [->|]; [exfalso; apply H1; now exists b|].
    destruct (N.eqb_spec c c_lbrace) as [->|]; [exfalso; apply H2; now exists b|]. reflexivity.
Qed.

(** Exactly the valid addresses in a legal position are read, to their payload, and the cursor stops behind them;
    otherwise [parse_ss58] declines and the cursor has not moved. *)
Theorem C16_exact : forall decode hash s payload rest, (forall d, (2 <= length (hash d))%nat) ->
  (parse_ss58 decode hash s = (Some (Ok (from_bytes payload)), rest) <->
   exists addr, s = addr ++ rest /\ address_position addr rest /\ valid_address decode hash addr payload).
Proof.
  intros decode hash s payload rest Hh. split.
  - unfold parse_ss58, parse_ss58_bytes. destruct (take_while is_ascii_alnum s) as [addr rest'] eqn:E.
    apply take_while_split in E as (-> & Ha & Hr).
    destruct addr as [|c0 addr0]; [discriminate|]. cbn iota. set (addr := c0 :: addr0) in *.
    destruct (str_is addr "true" || str_is addr "false" || forallb is_digit addr) eqn:E1; [discriminate|].
    destruct (match skip_while is_whitespace rest' with [] => false | c :: _ => (c =? c_lpar) || (c =? c_lbrace) end) eqn:E2; [discriminate|].
    destruct (decode addr) as [bs|] eqn:E3; [|discriminate].
    destruct (match bs with [] => None | b :: _ => if b <=? 63 then Some 1%nat else if (64 <=? b) && (b <=? 127) then Some 2%nat else None end) as [pl|] eqn:E4; [|discriminate].
    destruct (length bs <? pl + 2)%nat eqn:E5; [discriminate|].
    destruct (str_eqb (skipn (length bs - 2) bs) (firstn 2 (hash (firstn (length bs - 2) bs)))) eqn:E6; cbn [negb]; [|discriminate].
    apply str_eqb_eq in E6. intro H. injection H as H ->. exists addr. split; [reflexivity|]. split.
    + apply orb_false_iff in E1 as [E1 E1']. apply orb_false_iff in E1 as [E1 E1'']. unfold str_is in *.
      repeat split; auto; try discriminate; try (apply str_eqb_neq; assumption); apply (proj1 (bracket_spec rest) E2 w r H0 H1).
    + assert (Hp : payload = skipn pl (firstn (length bs - 2) bs)).
      { clear -H. apply (f_equal (map (fun v : value unit => match v with Val (DPrim (PU128 n)) _ => n | _ => 0 end))) in H.
        rewrite !map_map in H. cbn in H. rewrite !map_id in H. now symmetry. }
      exists (firstn pl (firstn (length bs - 2) bs)), (skipn (length bs - 2) bs).
      rewrite app_assoc, Hp, firstn_skipn, firstn_skipn. split; [exact E3|].
      apply Nat.ltb_ge in E5. split; [rewrite skipn_length; lia|]. split; [exact E6|].
      destruct bs as [|b0 bs]; [discriminate|].
      destruct (b0 <=? 63) eqn:B1.
      * injection E4 as <-. left. exists b0. split; [|lia].
        destruct (length (b0 :: bs) - 2)%nat eqn:L; [lia|]. reflexivity.
      * destruct ((64 <=? b0) && (b0 <=? 127)) eqn:B2; [|discriminate]. injection E4 as <-. right.
        destruct bs as [|b1 bs]; [cbn in E5; lia|]. exists b0, b1. split; [|lia].
        destruct (length (b0 :: b1 :: bs) - 2)%nat as [|[|m]] eqn:L; [cbn in *; lia|cbn in *; lia|]. reflexivity.
  - intros (addr & -> & (Hne & Ha & Hr & Ht & Hf & Hd & Hb) & (prefix & checksum & Hdec & Hl & Hc & Hpre)).
    unfold parse_ss58, parse_ss58_bytes. rewrite (take_while_exact _ _ _ Ha Hr).
    destruct addr as [|c0 addr0]; [contradiction|]. cbn iota. set (addr := c0 :: addr0) in *.
    apply str_eqb_neq in Ht, Hf. unfold str_is. rewrite Ht, Hf, Hd. cbn [orb].
    rewrite (proj2 (bracket_spec rest) Hb), Hdec.
    assert (Hlen : (length (prefix ++ payload ++ checksum) - 2 = length (prefix ++ payload))%nat).
    { rewrite !app_length, Hl. lia. }
    assert (HP : exists pl, match prefix ++ payload ++ checksum with [] => None | b :: _ => if b <=? 63 then Some 1%nat else if (64 <=? b) && (b <=? 127) then Some 2%nat else None end = Some pl
               /\ length prefix = pl).
    { destruct Hpre as [(a & -> & Hlt)|(a & b & -> & Hlt)]; cbn [app length].
      - exists 1%nat. replace (a <=? 63) with true by lia. auto.
      - exists 2%nat. replace (a <=? 63) with false by lia. replace ((64 <=? a) && (a <=? 127)) with true by lia. auto. }
    destruct HP as (pl & -> & Hpl).
    replace (length (prefix ++ payload ++ checksum) <? pl + 2)%nat with false.
    2:{ symmetry. apply Nat.ltb_ge. rewrite !app_length, Hl. lia. }
    rewrite Hlen. rewrite app_assoc, firstn_app, firstn_all, Nat.sub_diag, skipn_app, skipn_all, Nat.sub_diag.
    rewrite firstn_O, skipn_O, app_nil_r, app_nil_l, <- Hc, str_eqb_refl. cbn [negb].
    rewrite <- Hpl, skipn_app, skipn_all, Nat.sub_diag. reflexivity.
Qed.
Print Assumptions C16_exact.

Theorem C16_declines_untouched : forall decode hash s r cur, parse_ss58 decode hash s = (r, cur) ->
  (r = None /\ cur = s) \/ exists payload, r = Some (Ok (from_bytes payload)).
Proof.
  intros decode hash s r cur. unfold parse_ss58. destruct (parse_ss58_bytes decode hash s) as [[bs rest]|]; intro H; injection H as <- <-; eauto.
Qed.
Print Assumptions C16_declines_untouched.

(** Base 58: every prefix, account id and hash; the text made by the encoder is read back to the account id. *)
Theorem C16_addresses_read_back : forall hash prefix account rest, (forall d, (2 <= length (hash d))%nat) ->
  Forall (fun b => b < 256) (prefix ++ account) -> (forall d, Forall (fun b => b < 256) (hash d)) ->
  ((exists a, prefix = [a] /\ a < 64) \/ (exists a b, prefix = [a; b] /\ 64 <= a < 128)) ->
  let addr := b58_encode (prefix ++ account ++ firstn 2 (hash (prefix ++ account))) in
  address_position addr rest ->
  parse_ss58 b58_decode hash (addr ++ rest) = (Some (Ok (from_bytes account)), rest).
Proof.
  intros hash prefix account rest Hh HF HFh Hp addr Hpos. apply C16_exact; [exact Hh|]. exists addr. split; [reflexivity|].
  split; [exact Hpos|]. exists prefix, (firstn 2 (hash (prefix ++ account))). split.
  - apply b58_roundtrip. rewrite app_assoc. apply Forall_app. split; [exact HF|].
    apply Forall_forall. intros x Hx. specialize (HFh (prefix ++ account)). rewrite Forall_forall in HFh. apply HFh.
    rewrite <- (firstn_skipn 2). apply in_or_app. now left.
  - split; [rewrite firstn_length; specialize (Hh (prefix ++ account)); lia|]. auto.
Qed.
Print Assumptions C16_addresses_read_back.

(** Substrate's well known address of Alice, with a stand-in hash that gives this account its real checksum bytes. *)
Definition alice : bytes := [0xd4;0x35;0x93;0xc7;0x15;0xfd;0xd3;0x1c;0x61;0x14;0x1a;0xbd;0x04;0xa9;0x9f;0xd6;0x82;0x2c;0x85;0x58;0x85;0x4c;0xcd;0xe3;0x9a;0x56;0x84;0xe7;0xa5;0x6d;0xa2;0x7d].
Definition alice_text : str := s2l "5GrwvaEF5zXb26Fz9rcQpDWS57CtERHpNehXCPcNoHGKutQY".
Definition toy_hash : bytes -> bytes := fun _ => match b58_decode alice_text with Some bs => skipn 33 bs | None => [0; 0] end.
Example C16_example :
  b58_encode ([42] ++ alice ++ firstn 2 (toy_hash ([42] ++ alice))) = alice_text /\
  parse_ss58 b58_decode toy_hash (alice_text ++ s2l ", 1") = (Some (Ok (from_bytes alice)), s2l ", 1") /\
  parse_ss58 b58_decode toy_hash (alice_text ++ s2l " (1)") = (None, alice_text ++ s2l " (1)").
Proof. repeat split; vm_compute; reflexivity. Qed.

(** The payload need not be 32 bytes long, and a variant name is not protected when it contains an underscore: whatever the
    hash function, [name] below is an identifier, the plain parser reads the variant, and with [parse_ss58] the same text
    is an empty account id followed by garbage. *)
Theorem C16_only_accounts_refuted : forall hash : bytes -> bytes, (forall d, (2 <= length (hash d))%nat) ->
  (forall d, Forall (fun b => b < 256) (hash d)) ->
  exists name, from_str ascii_unicode (name ++ s2l "()") = (Ok (unnamed_variant name []), []) /\
    parse_custom ascii_unicode [parse_ss58 b58_decode hash] (name ++ s2l "()") = (Ok (from_bytes []), s2l "_a()").
Proof.
  intros hash Hh HF.
  pose proof (Hh [42]) as H2. pose proof (HF [42]) as Hb. destruct (hash [42]) as [|x [|y r]] eqn:E; cbn in H2; try lia.
  inversion_clear Hb as [|? ? Hx Hb']. inversion_clear Hb' as [|? ? Hy _].
  exists (b58_encode [42; x; y] ++ s2l "_a").
  assert (G : forallb (fun i => forallb (fun j => let a := b58_encode [42; N.of_nat i; N.of_nat j] in
             forallb is_ascii_alnum a && negb (forallb is_digit a) && is_ident ascii_unicode (a ++ s2l "_a") && (length a =? 4)%nat
               && negb (bool_like a)) (seq 0 256)) (seq 0 256) = true)
    by (vm_compute; reflexivity).
  rewrite forallb_forall in G. specialize (G (N.to_nat x)). rewrite in_seq in G. specialize (G ltac:(lia)).
  rewrite forallb_forall in G. specialize (G (N.to_nat y)). rewrite in_seq in G. specialize (G ltac:(lia)).
  rewrite !N2Nat.id in G. cbn zeta in G. set (a := b58_encode [42; x; y]) in *.
  apply andb_true_iff in G as [G G5]. apply andb_true_iff in G as [G G4]. apply andb_true_iff in G as [G G3].
  apply andb_true_iff in G as [G1 G2]. apply negb_true_iff in G2, G5. apply Nat.eqb_eq in G4.
  split.
  - destruct (text_roundtrip ascii_unicode [] [] Compact (unnamed_variant (a ++ s2l "_a") []) [] ascii_unicode_ok eq_refl eq_refl) as (t & T1 & T2).
    + cbn [text_ok unnamed_variant variant]. rewrite G3. cbn [andb forallb]. rewrite andb_true_r, negb_true_iff.
      destruct a as [|a0 [|a1 [|a2 [|a3 [|? ?]]]]]; try discriminate G4. unfold bool_like in *.
      apply orb_false_iff in G5 as [G5 G6]. cbn [s2l has_prefix app] in *. rewrite !andb_true_r in *. rewrite G5.
      change (95 =? ch "e") with false. change (ch "_" =? ch "e") with false.
      destruct (ch "f" =? a0), (ch "a" =? a1), (ch "l" =? a2), (ch "s" =? a3); reflexivity.
    + exact I.
    + rewrite to_text_render in T1. cbn [rd_value rd_def unnamed_variant variant] in T1. cbn zeta in T1.
      unfold vname_chunks in T1. rewrite G3 in T1. cbn [rd_composite sp rok rseq fst snd app concat] in T1.
      injection T1 as <-. rewrite !app_nil_r in T2. exact T2.
  - assert (P : parse_ss58 b58_decode hash ((a ++ s2l "_a") ++ s2l "()") = (Some (Ok (from_bytes [])), s2l "_a()")).
    { rewrite <- app_assoc. apply (C16_exact b58_decode hash _ [] (s2l "_a()") Hh). exists a. split; [reflexivity|]. split.
      - split; [intros ->; discriminate|]. split; [exact G1|]. split; [reflexivity|].
        split; [intro; subst a; rewrite H in *; discriminate|].
        split; [intro H; rewrite H in G4; discriminate|]. split; [exact G2|].
        intros w r0 Ew Hw. destruct w as [|c w].
        + cbn in Ew. subst r0. split; intros [q Eq]; discriminate.
        + injection Ew as <- _. discriminate.
      - exists [42], [x; y]. split; [|split; [reflexivity|split]].
        + unfold a. apply b58_roundtrip. repeat constructor; lia.
        + cbn [app]. rewrite E. reflexivity.
        + left. exists 42. split; [reflexivity|lia]. }
    unfold parse_custom. cbn [parse_value run_customs]. rewrite P. f_equal.
    assert (GA : forallb (fun c => c <? 128) a = true).
    { rewrite forallb_forall in *. intros c Hc. specialize (G1 c Hc). unfold is_ascii_alnum, is_ascii_alpha, is_digit in G1. lia. }
    rewrite <- app_assoc. apply (wind_ascii a (s2l "_a()") GA).
Qed.
Print Assumptions C16_only_accounts_refuted.

(** ** C17 *)
(** When a custom parser has consumed ASCII text only, parsing continues directly behind it, wherever in the input it was
    called. *)
Theorem C17_ascii_cursor : forall U total customs k consumed rest v, forallb (fun c => c <? 128) consumed = true ->
  run_customs customs (consumed ++ rest) = Some (Ok v, rest) ->
  parse_value U total customs (S k) (consumed ++ rest) = (Ok v, rest) /\ parse_custom U customs (consumed ++ rest) = (Ok v, rest).
Proof.
  intros U total customs k consumed rest v HA H. unfold parse_custom. cbn [parse_value]. rewrite H.
  rewrite wind_ascii by exact HA. auto.
Qed.
Print Assumptions C17_ascii_cursor.

(** In general it continues too far: one character of the remaining text is dropped for every non-leading UTF-8 byte of the
    consumed text. *)
Theorem C17_general_cursor : forall U customs consumed rest v,
  run_customs customs (consumed ++ rest) = Some (Ok v, rest) ->
  parse_custom U customs (consumed ++ rest) = (Ok v, skipn (N.to_nat (blen consumed) - length consumed) rest).
Proof.
  intros U customs consumed rest v H. unfold parse_custom. cbn [parse_value]. rewrite H. f_equal.
  unfold wind_forward. rewrite blen_app. replace (blen consumed + blen rest - blen rest) with (blen consumed) by lia.
  rewrite skipn_app. pose proof (blen_ge_length consumed). rewrite skipn_all2 by lia. reflexivity.
Qed.
Print Assumptions C17_general_cursor.

(** A custom parser for the euro sign: the text behind it is lost. *)
Definition euro_parser : cparser := fun t =>
  match t with c :: t' => if c =? 8364 then (Some (Ok (vstring (s2l "euro"))), t') else (None, t) | [] => (None, t) end.
Theorem C17_cursor_refuted : exists customs consumed rest v, run_customs customs (consumed ++ rest) = Some (Ok v, rest) /\
  parse_custom ascii_unicode customs (consumed ++ rest) <> (Ok v, rest) /\
  parse_custom ascii_unicode customs (s2l "(" ++ consumed ++ s2l ",1)") <> (Ok (unnamed_composite [v; vu128 1]), []).
Proof.
  exists [euro_parser], [8364], (s2l ",1)"), (vstring (s2l "euro")). split; [reflexivity|]. split; vm_compute; discriminate.
Qed.
Print Assumptions C17_cursor_refuted.

Example C17_example : parse_custom ascii_unicode [hash_parser] (s2l "(#,1)x") = (Ok (unnamed_composite [vu128 7; vu128 1]), s2l "x").
Proof. vm_compute. reflexivity. Qed.
