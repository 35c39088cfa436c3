(** * ParseFacts: lexical lemmas about the parser. *)
From Verif Require Import Base Value Chars Parse Spec_Grammar.
Local Open Scope N_scope.

Lemma ws_app a b : ws (a ++ b) <-> ws a /\ ws b.
Proof. unfold ws. rewrite forallb_app, andb_true_iff. reflexivity. Qed.

(** ** take_while *)
Lemma take_while_app p a rest :
  forallb p a = true -> not_followed_by p rest -> take_while p (a ++ rest) = (a, rest).
Proof.
  intros Ha Hr. induction a as [|c a IH]; cbn [app take_while].
  - destruct rest as [|c rest]; cbn in *; [reflexivity|]. now rewrite Hr.
  - cbn in Ha. apply andb_true_iff in Ha as [Hc Ha]. rewrite Hc, (IH Ha). reflexivity.
Qed.

Lemma take_while_spec p t a b :
  take_while p t = (a, b) -> t = a ++ b /\ forallb p a = true /\ not_followed_by p b.
Proof.
  revert a b; induction t as [|c t IH]; intros a b; cbn [take_while].
  - intro H; injection H as <- <-. repeat split.
  - destruct (p c) eqn:E.
    + destruct (take_while p t) as [a' b'] eqn:E'. intro H; injection H as <- <-.
      destruct (IH a' b' eq_refl) as (-> & H1 & H2). repeat split; cbn; rewrite ?E; auto.
    + intro H; injection H as <- <-. repeat split. exact E.
Qed.

Lemma skip_while_app p a rest :
  forallb p a = true -> not_followed_by p rest -> skip_while p (a ++ rest) = rest.
Proof. intros; unfold skip_while; now rewrite take_while_app. Qed.

Lemma skip_ws_app w rest : ws w -> not_followed_by is_whitespace rest -> skip_whitespace (w ++ rest) = rest.
Proof. intros; now apply skip_while_app. Qed.

Lemma skip_ws_spec t : exists w, t = w ++ skip_whitespace t /\ ws w /\ not_followed_by is_whitespace (skip_whitespace t).
Proof.
  unfold skip_whitespace, skip_while. destruct (take_while is_whitespace t) as [a b] eqn:E.
  apply take_while_spec in E as (-> & H1 & H2). exists a. repeat split; auto.
Qed.

Lemma token_hit c t : token c (c :: t) = (true, t).
Proof. cbn. now rewrite N.eqb_refl. Qed.

Lemma token_miss c t : not_followed_by (N.eqb c) t -> token c t = (false, t).
Proof. destruct t as [|x t]; cbn; [reflexivity|]. rewrite N.eqb_sym. now intros ->. Qed.

Lemma token_miss' c x t : (x =? c) = false -> token c (x :: t) = (false, x :: t).
Proof. cbn. now intros ->. Qed.

Lemma token_true c t t' : token c t = (true, t') -> t = c :: t'.
Proof.
  destruct t as [|x t]; cbn; [discriminate|]. destruct (N.eqb_spec x c); [|discriminate].
  intro H; injection H as <-. now subst.
Qed.
Lemma token_false c t t' : token c t = (false, t') -> t' = t /\ not_followed_by (N.eqb c) t.
Proof.
  destruct t as [|x t]; cbn; [intro H; injection H as <-; auto|]. destruct (N.eqb_spec x c); [discriminate|].
  intro H; injection H as <-. split; [reflexivity|]. apply N.eqb_neq. congruence.
Qed.

Lemma strip_prefix_app p t : strip_prefix p (p ++ t) = Some t.
Proof. induction p as [|c p IH]; cbn; [reflexivity|]. now rewrite N.eqb_refl. Qed.

Lemma strip_prefix_some p t t' : strip_prefix p t = Some t' -> t = p ++ t'.
Proof.
  revert t; induction p as [|c p IH]; intros t; cbn; [congruence|].
  destruct t as [|x t]; [discriminate|]. destruct (N.eqb_spec x c); [|discriminate].
  subst. intro H. f_equal. auto.
Qed.

Lemma strip_prefix_none_app p n c r :
  ~ starts_with p n -> ~ In c p -> strip_prefix p (n ++ c :: r) = None.
Proof.
  revert n; induction p as [|x p IH]; intros n Hn Hc.
  - exfalso; apply Hn. now exists n.
  - destruct n as [|y n]; cbn [app strip_prefix].
    + destruct (N.eqb_spec c x); [|reflexivity]. subst; exfalso; apply Hc; now left.
    + destruct (N.eqb_spec y x); [|reflexivity]. subst. apply IH.
      * intros [r' ->]. apply Hn. now exists r'.
      * intro; apply Hc; now right.
Qed.

(** ** separators *)
Lemma skip_spaced_hit s w1 w2 rest :
  is_whitespace s = false -> ws w1 -> ws w2 -> not_followed_by is_whitespace rest ->
  skip_spaced_separator s (w1 ++ s :: w2 ++ rest) = (true, rest).
Proof.
  intros Hs H1 H2 Hr. unfold skip_spaced_separator.
  rewrite skip_ws_app by (auto; exact Hs). rewrite token_hit, skip_ws_app by auto. reflexivity.
Qed.

Lemma skip_spaced_miss s w rest :
  ws w -> not_followed_by is_whitespace rest -> not_followed_by (N.eqb s) rest ->
  fst (skip_spaced_separator s (w ++ rest)) = false.
Proof.
  intros Hw H1 H2. unfold skip_spaced_separator. rewrite skip_ws_app by auto. now rewrite token_miss.
Qed.

Lemma skip_spaced_true s t t' :
  skip_spaced_separator s t = (true, t') ->
  exists w1 w2, t = w1 ++ [s] ++ w2 ++ t' /\ ws w1 /\ ws w2 /\ not_followed_by is_whitespace t'.
Proof.
  unfold skip_spaced_separator.
  destruct (skip_ws_spec t) as (w1 & E1 & W1 & _).
  destruct (token s (skip_whitespace t)) as [[] t2] eqn:E; [|discriminate].
  apply token_true in E. intro H; injection H as <-.
  destruct (skip_ws_spec t2) as (w2 & E2 & W2 & N2).
  exists w1, w2. split; [|auto]. rewrite E1, E. cbn. now rewrite <- E2.
Qed.

Lemma skip_spaced_suffix s t : exists w, t = w ++ snd (skip_spaced_separator s t).
Proof.
  unfold skip_spaced_separator.
  destruct (skip_ws_spec t) as (w1 & E1 & _).
  destruct (token s (skip_whitespace t)) as [[] t2] eqn:E; cbn.
  - apply token_true in E. destruct (skip_ws_spec t2) as (w2 & E2 & _).
    exists (w1 ++ [s] ++ w2). rewrite E1, E. cbn. rewrite <- !app_assoc. cbn. now rewrite <- E2.
  - apply token_false in E as [-> _]. destruct (skip_ws_spec (skip_whitespace t)) as (w2 & E2 & _).
    exists (w1 ++ w2). rewrite <- app_assoc, <- E2. exact E1.
Qed.

(** ** strings and chars *)
Lemma In_escapes c e : In (c, e) escapes <-> from_escape_code e = Some c.
Proof.
  split.
  - cbn. intros [H|[H|[H|[H|[H|[H|[H|[]]]]]]]]; injection H as <- <-; reflexivity.
  - unfold from_escape_code. intro H.
    repeat match type of H with
           | (if ?b then _ else _) = _ => destruct b eqn:E; [injection H as <-; apply N.eqb_eq in E; subst; cbn; tauto|clear E]
           end. discriminate.
Qed.

Lemma string_loop_complete total start s b : g_body s b -> forall rest acc,
  string_loop total start (b ++ c_dquote :: rest) acc false = (Ok (rev acc ++ s), rest).
Proof.
  induction 1 as [|c s t Hq Hb Hg IH|c e s t He Hg IH]; intros rest acc; cbn [app string_loop].
  - change (c_dquote =? c_bslash) with false. cbn [andb negb].
    rewrite N.eqb_refl, app_nil_r. reflexivity.
  - apply N.eqb_neq in Hq, Hb. rewrite Hq, Hb. cbn [andb negb]. rewrite IH. cbn [rev].
    now rewrite <- app_assoc.
  - rewrite N.eqb_refl. cbn [andb negb]. rewrite Bool.andb_false_r.
    apply In_escapes in He. rewrite He. rewrite IH. cbn [rev]. now rewrite <- app_assoc.
Qed.

Lemma parse_string_complete total s t rest : g_string s t -> parse_string total (t ++ rest) = (Ok s, rest).
Proof.
  intros (b & Hb & ->). unfold parse_string. cbn [app]. rewrite token_hit. cbn [negb].
  rewrite <- app_assoc. cbn [app]. now rewrite (string_loop_complete _ _ _ _ Hb).
Qed.

Lemma string_loop_sound total start t : forall acc esc s rest,
  string_loop total start t acc esc = (Ok s, rest) ->
  exists s' b, s = rev acc ++ s' /\ t = b ++ c_dquote :: rest /\
    (if esc then g_body s' (c_bslash :: b) else g_body s' b).
Proof.
  induction t as [|c t IH]; intros acc esc s rest; cbn [string_loop]; [discriminate|].
  destruct (N.eqb_spec c c_bslash) as [->|Hb]; cbn [andb].
  - destruct esc; cbn [negb].
    + destruct (from_escape_code c_bslash) as [c'|] eqn:E; [|discriminate].
      intro H. apply IH in H as (s' & b & -> & -> & Hg). exists (c' :: s'), (c_bslash :: b).
      cbn [rev]. rewrite <- app_assoc. repeat split. constructor; [now apply In_escapes|exact Hg].
    + intro H. apply IH in H as (s' & b & -> & -> & Hg). exists s', (c_bslash :: b). auto.
  - destruct esc.
    + destruct (from_escape_code c) as [c'|] eqn:E; [|discriminate].
      intro H. apply IH in H as (s' & b & -> & -> & Hg). exists (c' :: s'), (c :: b).
      cbn [rev]. rewrite <- app_assoc. repeat split. constructor; [now apply In_escapes|exact Hg].
    + destruct (N.eqb_spec c c_dquote) as [->|Hq].
      * intro H. injection H as <- <-. exists [], []. rewrite app_nil_r. repeat split. constructor.
      * intro H. apply IH in H as (s' & b & -> & -> & Hg). exists (c :: s'), (c :: b).
        cbn [rev]. rewrite <- app_assoc. repeat split. now constructor.
Qed.

Lemma parse_string_sound total t s rest :
  parse_string total t = (Ok s, rest) -> exists c, t = c ++ rest /\ g_string s c.
Proof.
  unfold parse_string. destruct (token c_dquote t) as [[] t1] eqn:E; cbn [negb]; [|discriminate].
  apply token_true in E as ->. intro H. apply string_loop_sound in H as (s' & b & -> & -> & Hg).
  exists ([c_dquote] ++ b ++ [c_dquote]). cbn [app rev]. rewrite <- app_assoc. split; [reflexivity|].
  exists b. split; [exact Hg|reflexivity].
Qed.

Lemma parse_char_complete total c t rest : g_char c t -> parse_char total (t ++ rest) = (Ok c, rest).
Proof.
  intros [c' Hc|c' e He]; unfold parse_char; cbn [app]; rewrite token_hit; cbn [negb].
  - apply N.eqb_neq in Hc. rewrite Hc, token_hit. reflexivity.
  - rewrite N.eqb_refl. apply In_escapes in He. rewrite He, token_hit. reflexivity.
Qed.

Lemma parse_char_sound total t c rest :
  parse_char total t = (Ok c, rest) -> exists x, t = x ++ rest /\ g_char c x.
Proof.
  unfold parse_char. destruct (token c_squote t) as [[] t1] eqn:E; cbn [negb]; [|discriminate].
  apply token_true in E as ->. destruct t1 as [|c0 t2]; [discriminate|].
  destruct (N.eqb_spec c0 c_bslash) as [->|Hb].
  - destruct t2 as [|e t3]; [discriminate|]. destruct (from_escape_code e) as [c'|] eqn:E; [|discriminate].
    destruct (token c_squote t3) as [[] t4] eqn:E2; cbn [negb]; [|discriminate].
    apply token_true in E2 as ->. intro H; injection H as -> ->.
    exists [c_squote; c_bslash; e; c_squote]. split; [reflexivity|]. constructor. now apply In_escapes.
  - destruct (token c_squote t2) as [[] t4] eqn:E2; cbn [negb]; [|discriminate].
    apply token_true in E2 as ->. intro H; injection H as -> ->.
    exists [c_squote; c; c_squote]. split; [reflexivity|]. now constructor.
Qed.

(** ** numbers *)
Lemma digits_value_app a b :
  digits_value (a ++ b) = digits_value a * 10 ^ N.of_nat (length b) + digits_value b.
Proof.
  unfold digits_value. rewrite fold_left_app.
  generalize (fold_left (fun a d => a * 10 + digit_val d) a 0). intro x. revert x.
  induction b as [|d b IH]; intro x; cbn [fold_left length].
  - change (N.of_nat 0) with 0. rewrite N.pow_0_r. lia.
  - rewrite IH. rewrite (IH (0 * 10 + digit_val d)). rewrite Nat2N.inj_succ, N.pow_succ_r'. lia.
Qed.

Lemma digits_value_dec ds : digits_value ds = dec_value ds.
Proof.
  induction ds as [|d ds IH]; [reflexivity|].
  change (d :: ds) with ([d] ++ ds). rewrite digits_value_app, IH. reflexivity.
Qed.

Lemma take_digits_seen r rest :
  forallb num_continues r = true -> not_followed_by num_continues rest ->
  take_digits (r ++ rest) true = (filter is_digit r, (true, rest)).
Proof.
  intros Hr Hf. induction r as [|c r IH]; cbn [app].
  - destruct rest as [|c rest]; [reflexivity|]. cbn [not_followed_by] in Hf. unfold num_continues in Hf.
    apply orb_false_iff in Hf as [H1 H2]. cbn [take_digits]. rewrite H1, H2. reflexivity.
  - cbn [forallb] in Hr. apply andb_true_iff in Hr as [Hc Hr]. specialize (IH Hr).
    cbn [take_digits filter]. unfold num_continues in Hc. destruct (is_digit c) eqn:E.
    + now rewrite IH.
    + cbn in Hc. rewrite Hc. cbn [andb]. exact IH.
Qed.

Lemma take_digits_complete n t rest :
  g_digits n t -> not_followed_by num_continues rest ->
  exists ds, take_digits (t ++ rest) false = (ds, (true, rest)) /\ dec_value ds = n.
Proof.
  intros (d & r & -> & Hd & Hr & ->) Hf. exists (filter is_digit (d :: r)). split; [|reflexivity].
  cbn [app take_digits filter]. rewrite Hd. now rewrite take_digits_seen.
Qed.

Lemma take_digits_sound t : forall seen ds seen' rest,
  take_digits t seen = (ds, (seen', rest)) ->
  exists c, t = c ++ rest /\ ds = filter is_digit c /\
    (if seen then forallb num_continues c = true /\ seen' = true
     else (c = [] /\ seen' = false) \/ (seen' = true /\ exists d r, c = d :: r /\ is_digit d = true /\ forallb num_continues r = true))
    /\ (if seen' then not_followed_by num_continues rest else not_followed_by is_digit rest).
Proof.
  induction t as [|c t IH]; intros seen ds seen' rest; cbn [take_digits].
  - intro H; injection H as <- <- <-. exists []. repeat split; destruct seen; cbn; auto.
  - destruct (is_digit c) eqn:E.
    + destruct (take_digits t true) as [a [b b']] eqn:E'. intro H; injection H as <- <- <-.
      apply IH in E' as (x & -> & -> & (Hx & ->) & Hf). exists (c :: x). cbn [filter]. rewrite E.
      repeat split; auto. destruct seen; cbn; unfold num_continues at 1; rewrite ?E; auto.
      right; split; [reflexivity|]. exists c, x. auto.
    + destruct seen; cbn [andb].
      * destruct (c =? c_under) eqn:Eu.
        -- intro H. apply IH in H as (x & -> & -> & (Hx & ->) & Hf). exists (c :: x). cbn [filter]. rewrite E.
           repeat split; auto. cbn. unfold num_continues at 1. now rewrite E, Eu.
        -- intro H; injection H as <- <- <-. exists []. repeat split. cbn. unfold num_continues. now rewrite E, Eu.
      * intro H; injection H as <- <- <-. exists []. repeat split; auto.
Qed.

Lemma g_digits_len n t : g_digits n t -> t <> [].
Proof. intros (d & r & -> & _). discriminate. Qed.

Lemma digit_not_sign c : is_digit c = true -> (c =? c_plus) = false /\ (c =? c_minus) = false.
Proof. unfold is_digit, c_plus, c_minus. lia. Qed.

Lemma offset_lt total c t : blen (c ++ t) <= total -> c <> [] -> offset total t <> offset total (c ++ t).
Proof.
  unfold offset. rewrite blen_app. intros H Hc.
  assert (blen c <> 0) by (intro E; now apply blen_0 in E). lia.
Qed.

Lemma parse_number_complete total p t rest :
  g_number p t -> not_followed_by num_continues rest -> blen (t ++ rest) <= total ->
  parse_number total (t ++ rest) = (Ok p, rest).
Proof.
  intros Hg Hf Hl. unfold parse_number.
  assert (HE : t <> []) by (destruct Hg as [? ? H|? ? H|? ? H]; [eapply g_digits_len; eauto| |]; discriminate).
  pose proof (offset_lt total t rest Hl HE) as Hoff. apply N.eqb_neq in Hoff.
  destruct Hg as [n t Hd Hn|n t Hd Hn|n t Hd Hn].
  - destruct (take_digits_complete _ _ rest Hd Hf) as (ds & E & Hv).
    destruct Hd as (d & r & -> & Hd & Hr & Hn').
    destruct (digit_not_sign d Hd) as [H1 H2].
    cbn [app] in *.
    rewrite (token_miss' c_plus) by exact H1.
    rewrite (token_miss' c_minus) by exact H2.
    cbn [negb]. rewrite E. cbn zeta. rewrite Hoff. cbn [negb]. unfold parse_u128.
    rewrite digits_value_dec, Hv. apply N.ltb_lt in Hn. now rewrite Hn.
  - destruct (take_digits_complete _ _ rest Hd Hf) as (ds & E & Hv).
    cbn [app]. rewrite token_hit. rewrite E. cbn zeta. cbn [app] in Hoff. rewrite Hoff. cbn [negb].
    unfold parse_u128. rewrite digits_value_dec, Hv. apply N.ltb_lt in Hn. now rewrite Hn.
  - destruct (take_digits_complete _ _ rest Hd Hf) as (ds & E & Hv).
    cbn [app]. rewrite (token_miss c_plus) by reflexivity. rewrite token_hit. cbn [negb].
    rewrite E. cbn zeta. cbn [app] in Hoff. rewrite Hoff. cbn [negb].
    unfold parse_neg_i128. rewrite digits_value_dec, Hv. apply N.leb_le in Hn. now rewrite Hn.
Qed.

Lemma parse_number_sound total t p rest :
  parse_number total t = (Ok p, rest) ->
  exists c, t = c ++ rest /\ g_number p c /\ not_followed_by num_continues rest.
Proof.
  unfold parse_number.
  destruct (token c_plus t) as [plus t1] eqn:E1.
  destruct plus.
  - apply token_true in E1 as ->.
    destruct (take_digits t1 false) as [ds [seen t3]] eqn:E.
    apply take_digits_sound in E as (c & -> & -> & Hc & Hf). cbn zeta.
    destruct (offset total t3 =? _); [discriminate|].
    destruct seen; cbn [negb]; [|discriminate]. cbv iota in Hf.
    destruct Hc as [[_ Hc]|(_ & d & r & -> & Hd & Hr)]; [discriminate|].
    unfold parse_u128. rewrite digits_value_dec. destruct (_ <? _) eqn:El; [|discriminate].
    intro H; injection H as <- <-. apply N.ltb_lt in El. exists (c_plus :: d :: r). repeat split; auto.
    apply GN_plus; [|exact El]. exists d, r. auto.
  - apply token_false in E1 as [-> _].
    destruct (token c_minus t) as [minus t1] eqn:E2. destruct minus; cbn [negb].
    + apply token_true in E2 as ->.
      destruct (take_digits t1 false) as [ds [seen t3]] eqn:E.
      apply take_digits_sound in E as (c & -> & -> & Hc & Hf). cbn zeta.
      destruct (offset total t3 =? _); [discriminate|].
      destruct seen; cbn [negb]; [|discriminate]. cbv iota in Hf.
      destruct Hc as [[_ Hc]|(_ & d & r & -> & Hd & Hr)]; [discriminate|].
      unfold parse_neg_i128. rewrite digits_value_dec. destruct (_ <=? _) eqn:El; [|discriminate].
      intro H; injection H as <- <-. apply N.leb_le in El. exists (c_minus :: d :: r). repeat split; auto.
      apply GN_minus; [|exact El]. exists d, r. auto.
    + apply token_false in E2 as [-> _].
      destruct (take_digits t false) as [ds [seen t3]] eqn:E.
      apply take_digits_sound in E as (c & -> & -> & Hc & Hf). cbn zeta.
      destruct (offset total t3 =? _); [discriminate|].
      destruct seen; cbn [negb]; [|discriminate]. cbv iota in Hf.
      destruct Hc as [[_ Hc]|(_ & d & r & -> & Hd & Hr)]; [discriminate|].
      unfold parse_u128. rewrite digits_value_dec. destruct (_ <? _) eqn:El; [|discriminate].
      intro H; injection H as <- <-. apply N.ltb_lt in El. exists (d :: r). repeat split; auto.
      apply GN_plain; [|exact El]. exists d, r. auto.
Qed.

(** ** bits *)
Lemma parse_bits_complete total b rest :
  parse_bit_sequence total (([c_lt] ++ map (fun x : bool => if x then c_1 else c_0) b ++ [c_gt]) ++ rest) = (Ok b, rest).
Proof.
  unfold parse_bit_sequence. cbn [app]. rewrite token_hit. cbn [negb].
  rewrite <- app_assoc. cbn [app].
  rewrite take_while_app; [|induction b as [|[] b IH]; cbn; auto|reflexivity].
  rewrite token_hit. cbn [negb]. rewrite map_map. do 2 f_equal.
  induction b as [|[] b IH]; cbn; f_equal; auto.
Qed.

Lemma parse_bits_sound total t b rest :
  parse_bit_sequence total t = (Ok b, rest) ->
  t = ([c_lt] ++ map (fun x : bool => if x then c_1 else c_0) b ++ [c_gt]) ++ rest.
Proof.
  unfold parse_bit_sequence. destruct (token c_lt t) as [[] t1] eqn:E; cbn [negb]; [|discriminate].
  apply token_true in E as ->. destruct (take_while _ t1) as [bits t2] eqn:E.
  apply take_while_spec in E as (-> & Hb & _).
  destruct (token c_gt t2) as [[] t3] eqn:E; cbn [negb]; [|discriminate].
  apply token_true in E as ->. intro H; injection H as <- <-. cbn [app]. rewrite <- app_assoc. f_equal.
  f_equal. rewrite map_map. clear - Hb. induction bits as [|c bits IH]; [reflexivity|].
  cbn in Hb. apply andb_true_iff in Hb as [H1 H2]. cbn [map]. rewrite <- (IH H2). f_equal.
  destruct (N.eqb_spec c c_1); [auto|]. rewrite orb_false_r in H1. now apply N.eqb_eq in H1.
Qed.

(** ** identifiers *)
Lemma parse_ident_complete U total n rest :
  g_ident U n -> not_followed_by (fun c => is_alphanumeric U c || (c =? c_under)) rest ->
  parse_ident U total (n ++ rest) = (Ok n, rest).
Proof.
  intros (c & r & -> & Hc & Hr) Hf. unfold parse_ident. cbn [app take_while]. rewrite Hc.
  destruct (take_while (is_alphabetic U) (r ++ rest)) as [a t1] eqn:E.
  apply take_while_spec in E as (E & Ha & Hn).
  assert (exists r', r = a ++ r' /\ t1 = r' ++ rest) as (r' & -> & ->).
  { destruct (Nat.le_gt_cases (length a) (length r)).
    - exists (skipn (length a) r). assert (a = firstn (length a) r) as Ea.
      { apply (f_equal (firstn (length a))) in E. rewrite firstn_app in E.
        replace (length a - length r)%nat with 0%nat in E by lia. rewrite firstn_O, app_nil_r in E.
        rewrite E. rewrite firstn_app, Nat.sub_diag, firstn_O, app_nil_r. now rewrite firstn_all. }
      assert (r = a ++ skipn (length a) r) as Er by (rewrite Ea at 1; symmetry; apply firstn_skipn).
      split; [exact Er|]. rewrite Er in E at 1. rewrite <- app_assoc in E. now apply app_inv_head in E.
    - exfalso. assert (exists y ys, a = r ++ y :: ys) as (y & ys & ->).
      { assert (r = firstn (length r) a) as Er.
        { apply (f_equal (firstn (length r))) in E. rewrite !firstn_app in E.
          rewrite Nat.sub_diag, firstn_O, app_nil_r, firstn_all in E.
          replace (length r - length a)%nat with 0%nat in E by lia. rewrite firstn_O, app_nil_r in E. exact E. }
        destruct (skipn (length r) a) as [|y ys] eqn:Es.
        - apply (f_equal (@length _)) in Es. rewrite skipn_length in Es. cbn in Es. lia.
        - exists y, ys. rewrite <- Es. rewrite Er at 1. symmetry. apply firstn_skipn. }
      rewrite <- app_assoc in E. apply app_inv_head in E. subst rest. cbn in Hf.
      rewrite forallb_app in Ha. apply andb_true_iff in Ha as [_ Ha]. cbn in Ha.
      apply andb_true_iff in Ha as [Ha _]. unfold is_alphanumeric in Hf. rewrite Ha in Hf. discriminate. }
  rewrite forallb_app in Hr. apply andb_true_iff in Hr as [_ Hr].
  rewrite take_while_app by auto. reflexivity.
Qed.

Lemma parse_ident_sound U total t n rest :
  parse_ident U total t = (Ok n, rest) ->
  t = n ++ rest /\ g_ident U n /\ not_followed_by (fun c => is_alphanumeric U c || (c =? c_under)) rest.
Proof.
  unfold parse_ident. destruct (take_while (is_alphabetic U) t) as [a t1] eqn:E.
  apply take_while_spec in E as (-> & Ha & _). destruct a as [|c a]; [discriminate|].
  destruct (take_while _ t1) as [b t2] eqn:E. apply take_while_spec in E as (-> & Hb & Hn).
  intro H; injection H as <- <-. split; [|split; [|exact Hn]].
  - cbn. now rewrite <- app_assoc.
  - cbn in Ha. apply andb_true_iff in Ha as [Hc Ha]. exists c, (a ++ b). repeat split; auto.
    rewrite forallb_app, Hb, andb_true_r. rewrite forallb_forall in Ha. apply forallb_forall.
    intros x Hx. unfold is_alphanumeric. now rewrite (Ha x Hx).
Qed.

(** ** first characters *)
Lemma parse_string_none total t : not_followed_by (N.eqb c_dquote) t -> parse_string total t = (Err None, t).
Proof. intro H. unfold parse_string. now rewrite token_miss. Qed.
Lemma parse_char_none total t : not_followed_by (N.eqb c_squote) t -> parse_char total t = (Err None, t).
Proof. intro H. unfold parse_char. now rewrite token_miss. Qed.
Lemma parse_bits_none total t : not_followed_by (N.eqb c_lt) t -> parse_bit_sequence total t = (Err None, t).
Proof. intro H. unfold parse_bit_sequence. now rewrite token_miss. Qed.
Lemma parse_number_none total t :
  not_followed_by (fun c => is_digit c || (c =? c_plus) || (c =? c_minus)) t -> parse_number total t = (Err None, t).
Proof.
  intro H. unfold parse_number. destruct t as [|c t].
  - cbn [token]. cbn [take_digits negb]. cbn zeta. now rewrite N.eqb_refl.
  - cbn in H. apply orb_false_iff in H as [H H3]. apply orb_false_iff in H as [H1 H2].
    rewrite (token_miss' c_plus) by exact H2.
    rewrite (token_miss' c_minus) by exact H3.
    cbn [negb take_digits]. rewrite H1. cbn [andb]. cbn zeta. now rewrite N.eqb_refl.
Qed.
Lemma parse_bool_none_head t :
  not_followed_by (fun c => (c =? 116) || (c =? 102)) t -> parse_bool t = (Err None, t).
Proof.
  intro H. unfold parse_bool, tokens. destruct t as [|c t]; [reflexivity|].
  cbn in H. apply orb_false_iff in H as [H1 H2].
  change (s2l "true") with [116;114;117;101]. change (s2l "false") with [102;97;108;115;101].
  cbn [strip_prefix]. rewrite H1, H2. reflexivity.
Qed.
Lemma parse_bool_none t :
  strip_prefix (s2l "true") t = None -> strip_prefix (s2l "false") t = None -> parse_bool t = (Err None, t).
Proof. unfold parse_bool, tokens. now intros -> ->. Qed.

Lemma delimited_none total {A} op cl k (item : str -> pres A) t :
  not_followed_by (N.eqb op) t -> parse_delimited total op cl k item t = (Err None, t).
Proof. intro H. unfold parse_delimited. now rewrite token_miss. Qed.
Lemma named_none U total pv k t : not_followed_by (N.eqb c_lbrace) t -> parse_named_composite U total pv k t = (Err None, t).
Proof. intro H. unfold parse_named_composite, omap. now rewrite delimited_none. Qed.
Lemma unnamed_none total pv k t : not_followed_by (N.eqb c_lpar) t -> parse_unnamed_composite total pv k t = (Err None, t).
Proof. intro H. unfold parse_unnamed_composite, omap. now rewrite delimited_none. Qed.
