(** * HexFacts: [parse_hex] against the specification of hex literals; [format_hex] as a piece formatter. *)
From Verif Require Import Base Value Chars Parse Spec_Grammar ParseFacts ParseComplete Fmt Spec_Fmt FmtFacts FmtText FmtCustom Hex Spec_Hex.
Local Open Scope N_scope.

Definition upper_list : str := s2l "0123456789ABCDEF".
Definition lower_list : str := s2l "0123456789abcdef".

Lemma nth16 (P : N -> Prop) n : n < 16 ->
  P 0 -> P 1 -> P 2 -> P 3 -> P 4 -> P 5 -> P 6 -> P 7 -> P 8 -> P 9 -> P 10 -> P 11 -> P 12 -> P 13 -> P 14 -> P 15 -> P n.
Proof.
  intro H. assert (E : n = 0 \/ n = 1 \/ n = 2 \/ n = 3 \/ n = 4 \/ n = 5 \/ n = 6 \/ n = 7 \/ n = 8 \/ n = 9 \/ n = 10 \/
    n = 11 \/ n = 12 \/ n = 13 \/ n = 14 \/ n = 15) by lia.
  intros. repeat destruct E as [->|E]; subst; assumption.
Qed.

Lemma hex_nibble_spec c n : hex_nibble c = Some n <-> hex_digit c n.
Proof.
  split.
  - unfold hex_nibble. destruct ((65 <=? c) && (c <=? 70)) eqn:E1; [|destruct ((97 <=? c) && (c <=? 102)) eqn:E2; [|destruct ((48 <=? c) && (c <=? 57)) eqn:E3; [|discriminate]]];
      intro H; injection H as <-; unfold hex_digit.
    + right. assert (E : c = 65 \/ c = 66 \/ c = 67 \/ c = 68 \/ c = 69 \/ c = 70) by lia.
      repeat destruct E as [->|E]; subst; reflexivity.
    + left. assert (E : c = 97 \/ c = 98 \/ c = 99 \/ c = 100 \/ c = 101 \/ c = 102) by lia.
      repeat destruct E as [->|E]; subst; reflexivity.
    + left. assert (E : c = 48 \/ c = 49 \/ c = 50 \/ c = 51 \/ c = 52 \/ c = 53 \/ c = 54 \/ c = 55 \/ c = 56 \/ c = 57) by lia.
      repeat destruct E as [->|E]; subst; reflexivity.
  - intro H. assert (Hn : n < 16).
    { destruct (N.ltb_spec n 16); [assumption|].
      destruct H as [H|H]; rewrite (proj2 (nth_error_None _ _)) in H; try discriminate; cbn [s2l length]; lia. }
    revert H. pattern n. apply nth16; [exact Hn|..]; intros [H|H]; vm_compute in H; injection H as <-; reflexivity.
Qed.

Lemma hex_nibble_lt c n : hex_nibble c = Some n -> n < 16.
Proof.
  unfold hex_nibble. destruct ((65 <=? c) && (c <=? 70)) eqn:E1; [|destruct ((97 <=? c) && (c <=? 102)) eqn:E2; [|destruct ((48 <=? c) && (c <=? 57)) eqn:E3; [|discriminate]]];
    intro H; injection H as <-; lia.
Qed.

Lemma hex_nibble_alnum c n : hex_nibble c = Some n -> is_ascii_alnum c = true.
Proof.
  unfold hex_nibble, is_ascii_alnum, is_ascii_alpha, is_digit.
  destruct ((65 <=? c) && (c <=? 70)) eqn:E1; [|destruct ((97 <=? c) && (c <=? 102)) eqn:E2; [|destruct ((48 <=? c) && (c <=? 57)) eqn:E3; [|discriminate]]]; intros _; lia.
Qed.

Lemma hex_scan_digits bs d : hex_digits bs d -> forall rest idx acc,
  hex_scan (d ++ rest) idx None acc = hex_scan rest (idx + N.of_nat (length d)) None (rev (map vu128 bs) ++ acc).
Proof.
  induction 1 as [|a x b y bs t Ha Hb HF IH]; intros rest idx acc; cbn [app length map rev].
  - f_equal. lia.
  - apply hex_nibble_spec in Ha, Hb. cbn [hex_scan]. rewrite (hex_nibble_alnum _ _ Ha), Ha. cbn [negb].
    cbn [hex_scan]. rewrite (hex_nibble_alnum _ _ Hb), Hb. cbn [negb]. rewrite IH. f_equal; [lia|].
    rewrite <- app_assoc. cbn [app]. now replace (x * 16 + y) with (16 * x + y) by lia.
Qed.

Lemma hex_scan_stop rest idx acc : not_followed_by is_ascii_alnum rest ->
  hex_scan rest idx None acc = Ok (rev acc, rest).
Proof. destruct rest as [|c rest]; cbn; [reflexivity|]. intros ->. reflexivity. Qed.

Lemma parse_hex_complete bs d rest : hex_digits bs d -> not_followed_by is_ascii_alnum rest ->
  parse_hex (s2l "0x" ++ d ++ rest) = (Some (Ok (byte_values bs)), rest).
Proof.
  intros H Hr. unfold parse_hex. rewrite strip_prefix_app, (hex_scan_digits _ _ H), hex_scan_stop by exact Hr.
  rewrite rev_app_distr, rev_involutive. reflexivity.
Qed.

(** What a scan from the beginning of a byte gives. *)
Lemma hex_scan_cases : forall n t idx acc, (length t <= n)%nat ->
  match hex_scan t idx None acc with
  | Ok (vs, rest) => exists bs d, t = d ++ rest /\ hex_digits bs d /\ not_followed_by is_ascii_alnum rest /\ vs = rev acc ++ map vu128 bs
  | Err e => (exists d c rest, t = d ++ c :: rest /\ forallb (fun x => match hex_nibble x with Some _ => true | None => false end) d = true /\
                is_ascii_alnum c = true /\ hex_nibble c = None /\ e = e_at (ECustom (invalid_char_msg c)) (idx + N.of_nat (length d))) \/
             (exists bs d c n rest, t = d ++ c :: rest /\ hex_digits bs d /\ hex_nibble c = Some n /\ not_followed_by is_ascii_alnum rest /\
                e = e_between (ECustom wrong_length_msg) 0 (idx + N.of_nat (length d) + 1))
  end.
Proof.
  induction n as [|n IH]; intros t idx acc Hl.
  { destruct t; [|cbn in Hl; lia]. cbn. exists [], []. repeat split; auto using HD_nil. now rewrite app_nil_r. }
  destruct t as [|a t].
  { cbn. exists [], []. repeat split; auto using HD_nil. now rewrite app_nil_r. }
  cbn [hex_scan]. destruct (is_ascii_alnum a) eqn:Ea; cbn [negb].
  2:{ exists [], []. repeat split; auto using HD_nil. now rewrite app_nil_r. }
  destruct (hex_nibble a) as [x|] eqn:Ex.
  2:{ left. exists [], a, t. repeat split; auto. cbn [length]. f_equal. lia. }
  destruct t as [|b t].
  { cbn. right. exists [], [], a, x, []. repeat split; auto using HD_nil. cbn [length]. f_equal. f_equal. lia. }
  cbn [hex_scan]. destruct (is_ascii_alnum b) eqn:Eb; cbn [negb].
  2:{ right. exists [], [], a, x, (b :: t). repeat split; auto using HD_nil. cbn [length]. f_equal. f_equal. lia. }
  destruct (hex_nibble b) as [y|] eqn:Ey.
  2:{ left. exists [a], b, t. cbn [forallb]. rewrite Ex. repeat split; auto. }
  pose proof (IH t (idx + 1 + 1) (vu128 (x * 16 + y) :: acc) ltac:(cbn in Hl; lia)) as H.
  destruct (hex_scan t (idx + 1 + 1) None (vu128 (x * 16 + y) :: acc)) as [[vs rest]|e].
  - destruct H as (bs & d & -> & Hd & Hr & ->). exists (16 * x + y :: bs), (a :: b :: d).
    repeat split; auto; [constructor; [now apply hex_nibble_spec|now apply hex_nibble_spec|exact Hd]|].
    cbn [rev map]. rewrite <- app_assoc. cbn [app]. now replace (x * 16 + y) with (16 * x + y) by lia.
  - destruct H as [(d & c & rest & -> & H1 & H2 & H3 & ->)|(bs & d & c & m & rest & -> & H1 & H2 & H3 & ->)].
    + left. exists (a :: b :: d), c, rest. cbn [forallb]. rewrite Ex, Ey. cbn [andb app length].
      repeat split; auto. f_equal. lia.
    + right. exists (16 * x + y :: bs), (a :: b :: d), c, m, rest. cbn [length app].
      repeat split; auto; [constructor; [now apply hex_nibble_spec|now apply hex_nibble_spec|assumption]|].
      f_equal. f_equal. lia.
Qed.

(** ** [format_hex] *)
Definition byte_of {T} (v : value T) : byte := match v with Val (DPrim (PU128 n)) _ => n | _ => 0 end.
Definition hex_node {T} (v : value T) : bool :=
  match v with Val (DComposite (Unnamed (a :: l))) _ => forallb is_byte_value (a :: l) | _ => false end.
Definition node_bytes {T} (v : value T) : list byte :=
  match v with Val (DComposite (Unnamed l)) _ => map byte_of l | _ => [] end.
Definition hex_pieces {T} (v : value T) : list str :=
  s2l "0x" :: flat_map (fun b => map (fun c => [c]) (upper_hex b)) (node_bytes v).

Lemma u4_to_hex_lt n : n < 16 -> u4_to_hex n = Some (nth (N.to_nat n) (s2l "0123456789ABCDEF") 0).
Proof. intro H. unfold u4_to_hex. pattern n. apply nth16; auto. Qed.

Lemma hex_loop_feed {T W} (wr : W -> str -> W * bool) (l : list (value T)) : forallb is_byte_value l = true -> forall w,
  hex_loop wr l w = feed wr w (flat_map (fun b => map (fun c => [c]) (upper_hex b)) (map byte_of l)).
Proof.
  induction l as [|a l IH]; intros H w; cbn [hex_loop map flat_map]; [reflexivity|].
  cbn [forallb] in H. apply andb_true_iff in H as [Ha Hl].
  destruct a as [[c|n c|b|[b|c|s|n|z|b|b]] ctx]; try discriminate Ha. cbn in Ha.
  rewrite (N.mod_small n 256) by lia.
  rewrite N.shiftr_div_pow2. change 15 with (N.ones 4). rewrite N.land_ones. change (2 ^ 4) with 16.
  rewrite (u4_to_hex_lt (n / 16)), (u4_to_hex_lt (n mod 16)) by lia.
  cbn [byte_of upper_hex map app feed].
  destruct (wr w _) as [w1 []]; [|reflexivity]. destruct (wr w1 _) as [w2 []]; [|reflexivity]. now apply IH.
Qed.

Lemma format_hex_pieces {T W} (wr : W -> str -> W * bool) (v : value T) w :
  format_hex wr v w = piece_formatter wr hex_node hex_pieces v w.
Proof.
  unfold format_hex, piece_formatter. destruct v as [[[l|[|a l]]|n c|b|p] ctx]; try reflexivity.
  cbn [vdef_of hex_node]. destruct (forallb is_byte_value (a :: l)) eqn:E; [|reflexivity].
  unfold value_to_hex, hex_pieces. cbn [feed node_bytes]. destruct (wr w (s2l "0x")) as [w1 []]; [|reflexivity].
  now rewrite hex_loop_feed.
Qed.

Lemma hex_digit_upper n : n < 16 -> hex_digit (nth (N.to_nat n) (s2l "0123456789ABCDEF") 0) n.
Proof. intro H. right. pattern n. apply nth16; auto. Qed.

Lemma upper_hex_digits bs : Forall (fun b => b < 256) bs -> hex_digits bs (flat_map upper_hex bs).
Proof.
  induction 1 as [|b bs Hb HF IH]; cbn [flat_map upper_hex app]; [constructor|].
  replace b with (16 * (b / 16) + b mod 16) at 1 by lia.
  constructor; [apply hex_digit_upper; lia|apply hex_digit_upper; lia|exact IH].
Qed.

Lemma hex_pieces_text {T} (v : value T) : concat (hex_pieces v) = s2l "0x" ++ flat_map upper_hex (node_bytes v).
Proof.
  unfold hex_pieces. cbn [concat]. f_equal. induction (node_bytes v) as [|b bs IH]; cbn [flat_map]; [reflexivity|].
  rewrite concat_app, IH. reflexivity.
Qed.

Lemma hex_node_form {T} (v : value T) : hex_node v = true ->
  Forall (fun b => b < 256) (node_bytes v) /\ unsigned_form v = byte_values (node_bytes v).
Proof.
  destruct v as [[[l|[|a l]]|n c|b|p] ctx]; try discriminate. cbn [hex_node]. intro H.
  cbn [node_bytes unsigned_form]. unfold byte_values, unnamed_composite, without_context. generalize dependent (a :: l); clear. intros l H.
  rewrite forallb_forall in H. split.
  - rewrite Forall_map, Forall_forall. intros x Hx. specialize (H x Hx).
    destruct x as [[c|n c|b|[b|c|s|n|z|b|b]] ctx']; try discriminate H. cbn in *. lia.
  - f_equal. f_equal. f_equal. rewrite map_map. apply map_ext_in. intros x Hx. specialize (H x Hx).
    destruct x as [[c|n c|b|[b|c|s|n|z|b|b]] ctx']; try discriminate H. reflexivity.
Qed.

Section Text.
  Context {T : Type} (U : unicode) (HU : unicode_ok U) (ind lead : str) (Hind : ws ind) (Hlead : ws lead).

  Local Notation rd := (rdc U (@hex_node T) hex_pieces ind lead).

  Lemma rdc_ok v : text_ok (is_ident U) v = true -> forall st, snd (rd st v) = true.
  Proof.
    induction v as [d ctx IH] using value_ind'; intros H st. cbn [rdc]. destruct (hex_node _); [reflexivity|].
    destruct d as [[l|l]|n [l|l]|b|p]; cbn [rd_def text_ok children values] in *.
    - rewrite rd_composite_ok. cbn [values]. rewrite forallb_map, forallb_forall in *. rewrite Forall_map, Forall_forall in IH. auto.
    - rewrite rd_composite_ok. cbn [values]. rewrite forallb_forall in *. rewrite Forall_forall in IH. auto.
    - apply andb_true_iff in H as [_ H]. rewrite rseq_true, rd_composite_ok. cbn [values rok snd andb].
      rewrite forallb_map, forallb_forall in *. rewrite Forall_map, Forall_forall in IH. auto.
    - apply andb_true_iff in H as [_ H]. rewrite rseq_true, rd_composite_ok. cbn [values rok snd andb].
      rewrite forallb_forall in *. rewrite Forall_forall in IH. auto.
    - reflexivity.
    - destruct p as [[]| | | | | |]; try reflexivity; discriminate.
  Qed.

  Lemma rdc_g v : text_ok (is_ident U) v = true -> forall st,
    g_val U hex_literal (unsigned_form v) (concat (fst (rd st v))).
  Proof.
    induction v as [d ctx IH] using value_ind'; intros H st. cbn [rdc].
    destruct (hex_node (Val d ctx)) eqn:E.
    { destruct (hex_node_form _ E) as [H1 H2]. apply G_custom. exists (node_bytes (Val d ctx)), (flat_map upper_hex (node_bytes (Val d ctx))).
      split; [exact H2|]. cbn [rok fst]. split; [apply hex_pieces_text|]. now apply upper_hex_digits. }
    assert (HC : forall c, children d = values c -> forallb (text_ok (is_ident U)) (values c) = true ->
       g_comp U hex_literal (composite_map unsigned_form c)
         (concat (fst (rd_composite U ind lead st (fun x => rdc U hex_node hex_pieces ind lead (ins st) x) c)))).
    { intros c Hc Hv. apply composite_g; auto. rewrite <- Hc in *. rewrite Forall_forall in *. rewrite forallb_forall in Hv.
      intros x Hx. split; [apply rdc_ok; auto|apply IH; auto]. }
    destruct d as [[l|l]|n [l|l]|b|p]; cbn [rd_def text_ok children values unsigned_form] in *.
    - apply G_composite. apply (HC (Named l)); [reflexivity|]. cbn [values]. now rewrite forallb_map.
    - apply G_composite. now apply (HC (Unnamed l)).
    - apply andb_true_iff in H as [Hn H]. rewrite rseq_text by reflexivity. cbn [rok fst]. rewrite concat_app, <- app_assoc.
      apply G_variant; [apply vname_chunks_g; now apply negb_true_iff|apply sp_ws|].
      apply (HC (Named l)); [reflexivity|]. cbn [values]. now rewrite forallb_map.
    - apply andb_true_iff in H as [Hn H]. rewrite rseq_text by reflexivity. cbn [rok fst]. rewrite concat_app, <- app_assoc.
      apply G_variant; [apply vname_chunks_g; now apply negb_true_iff|apply sp_ws|].
      now apply (HC (Unnamed l)).
    - cbn [rok fst]. rewrite bits_chunks_text. apply G_bits.
    - refine (prim_g U [] hex_literal p _ _ _); [destruct p; auto; discriminate|intros b ->; discriminate|intros b ->; discriminate].
  Qed.
End Text.

(** ** Parsing with [parse_hex] *)
Definition word_char (c : char) : bool := is_ascii_alnum c || (c =? c_under).

Lemma parse_hex_none_head c r : c <> 48 -> parse_hex (c :: r) = (None, c :: r).
Proof. intro H. unfold parse_hex. cbn [s2l strip_prefix]. change (ch "0") with 48. replace (c =? 48) with false by lia. reflexivity. Qed.

Lemma parse_hex_none_2 c r : c <> 120 -> parse_hex (48 :: c :: r) = (None, 48 :: c :: r).
Proof. intro H. unfold parse_hex. cbn [s2l strip_prefix]. change (ch "x") with 120. replace (c =? 120) with false by lia. reflexivity. Qed.

Lemma hex_digits_ascii bs d : hex_digits bs d -> forallb (fun c => c <? 128) d = true.
Proof.
  induction 1 as [|a x b y bs t Ha Hb HF IH]; cbn [forallb]; [reflexivity|]. rewrite IH.
  apply hex_nibble_spec, hex_nibble_alnum in Ha, Hb. unfold is_ascii_alnum, is_ascii_alpha, is_digit in *. lia.
Qed.

Lemma blen_ascii s : forallb (fun c => c <? 128) s = true -> blen s = N.of_nat (length s).
Proof.
  induction s as [|c s IH]; cbn [forallb blen length]; intro H; [reflexivity|]. apply andb_true_iff in H as [H1 H2].
  rewrite IH by exact H2. unfold utf8_len. change 0x80 with 128. rewrite H1. lia.
Qed.

Lemma wind_ascii t rest : forallb (fun c => c <? 128) t = true -> wind_forward (t ++ rest) rest = rest.
Proof.
  intro H. unfold wind_forward. rewrite blen_app, (blen_ascii _ H).
  replace (N.to_nat (N.of_nat (length t) + blen rest - blen rest)) with (length t) by lia.
  rewrite skipn_app, skipn_all, Nat.sub_diag. reflexivity.
Qed.

Lemma hex_complete U v t rest : unicode_ok U -> g_val U hex_literal v t -> not_followed_by word_char rest ->
  parse_custom U [parse_hex] (t ++ rest) = (Ok v, rest).
Proof.
  intros HU Hg Hf. unfold parse_custom.
  pose proof (complete_mut U HU (blen (t ++ rest)) [parse_hex] hex_literal word_char) as HM.
  destruct HM as [HM _].
  - intro c. unfold num_continues, word_char, is_ascii_alnum. destruct (is_digit c), (c =? c_under), (is_ascii_alpha c); auto.
  - intros c. unfold is_whitespace, word_char, is_ascii_alnum, is_ascii_alpha, is_digit, c_under. lia.
  - reflexivity.
  - reflexivity.
  - reflexivity.
  - intros v0 t0 rest0 (bs & d & -> & -> & Hd) Hf0. exists rest0. rewrite <- app_assoc. split.
    + cbn [run_customs]. rewrite (parse_hex_complete bs d rest0 Hd); [reflexivity|].
      eapply not_followed_mono; [|exact Hf0]. intros c Hc. unfold word_char. now rewrite Hc.
    + rewrite app_assoc. apply wind_ascii. rewrite forallb_app, (hex_digits_ascii _ _ Hd). reflexivity.
  - intros v0 t0 (bs & d & -> & -> & Hd). exists 48, (120 :: d). repeat split; discriminate.
  - intros v0 t0 rest0 Hv Hf0. cbn [run_customs].
    assert (HN : forall c r, c <> 48 -> match parse_hex (c :: r) with (Some r0, cur) => Some (r0, cur) | (None, _) => @None (result (value unit) perr * str) end = None).
    { intros c r Hc. now rewrite parse_hex_none_head. }
    destruct Hv as [| |c t0 Hc|s t0 Hs|p t0 Hp|b|c t0 Hc|n nt w c t0 Hn Hw Hc|v0 t0 HX]; try (right; exact HX); left.
    + now apply HN.
    + now apply HN.
    + destruct Hc; now apply HN.
    + destruct Hs as (b & _ & ->). now apply HN.
    + assert (HD : forall n u, g_digits n u -> match parse_hex (u ++ rest0) with (Some r0, cur) => Some (r0, cur) | (None, _) => @None (result (value unit) perr * str) end = None).
      { intros n u (d & r & -> & Hd & Hr & _). cbn [app]. destruct (N.eqb_spec d 48) as [->|Hd0]; [|now apply HN].
        destruct r as [|x r]; cbn [app].
        - destruct rest0 as [|x rest0]; [reflexivity|]. rewrite parse_hex_none_2; [reflexivity|]. cbn in Hf0.
          intros ->. discriminate.
        - rewrite parse_hex_none_2; [reflexivity|]. cbn in Hr. intros ->. discriminate. }
      destruct Hp as [n u Hu|n u Hu|n u Hu]; [eapply HD; eauto| |]; now apply HN.
    + now apply HN.
    + apply g_comp_head in Hc. destruct c; destruct Hc as [r ->]; now apply HN.
    + destruct Hn as [n (c0 & r & -> & Ha & _)|n u Hu]; [|now apply HN].
      cbn [app]. apply HN. intros ->. discriminate.
  - apply (HM v t Hg rest); auto; lia.
Qed.
