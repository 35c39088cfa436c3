(** * ParseNum: numbers as whole inputs (C09); consequences of soundness and completeness (C06, C11). *)
From Verif Require Import Base Value Chars Parse Spec_Grammar ParseFacts ParseComplete ParseSound.
Local Open Scope N_scope.

(** The two signs and no sign. *)
Definition signed_digits (sg : str) : Prop := sg = [] \/ sg = [c_plus] \/ sg = [c_minus].

Definition number_result (sg : str) (n len : N) : result (value unit) perr :=
  match sg with
  | [c] => if c =? c_minus
           then (if n <=? 2 ^ 127 then Ok (vi128 (- Z.of_N n)) else Err (PErr 0 (Some len) ENumFailed))
           else (if n <? 2 ^ 128 then Ok (vu128 n) else Err (PErr 0 (Some len) ENumFailed))
  | _ => if n <? 2 ^ 128 then Ok (vu128 n) else Err (PErr 0 (Some len) ENumFailed)
  end.

Lemma from_str_number U sg t n rest : signed_digits sg -> g_digits n t -> not_followed_by num_continues rest ->
  from_str U (sg ++ t ++ rest) = (number_result sg n (blen (sg ++ t)), rest).
Proof.
  intros Hsg Hd Hf. unfold from_str, parse_custom. cbn [parse_value run_customs].
  assert (Hl : blen (sg ++ t) <> 0).
  { intro E. apply blen_0 in E. apply app_eq_nil in E as [_ ->]. now apply g_digits_len in Hd. }
  set (s := sg ++ t ++ rest).
  assert (Hoff : offset (blen s) rest = blen (sg ++ t)).
  { unfold offset, s. rewrite !blen_app. lia. }
  assert (Hoff0 : offset (blen s) s = 0) by (unfold offset; lia).
  assert (Hne : (blen (sg ++ t) =? 0) = false) by (now apply N.eqb_neq).
  assert (Hc : exists c r, s = c :: r /\ (is_digit c || (c =? c_plus) || (c =? c_minus)) = true).
  { unfold s. destruct Hsg as [->|[->| ->]].
    - destruct Hd as (d & r & -> & Hd & _). exists d, (r ++ rest). now rewrite Hd.
    - eexists _, _. split; [reflexivity|reflexivity].
    - eexists _, _. split; [reflexivity|reflexivity]. }
  assert (Hnone : parse_bool s = (Err None, s) /\ parse_char (blen s) s = (Err None, s) /\ parse_string (blen s) s = (Err None, s)).
  { destruct Hc as (c & r & -> & Hc). unfold is_digit, c_plus, c_minus in Hc.
    split; [|split]; [apply parse_bool_none_head|apply parse_char_none|apply parse_string_none]; cbn;
      unfold c_squote, c_dquote; lia. }
  destruct Hnone as (H1 & H2 & H3).
  unfold parse_builtin. cbn [one_of]. unfold omap at 1. rewrite H1. cbn [rmap].
  unfold omap at 1. rewrite H2. cbn [rmap]. unfold omap at 1. rewrite H3. cbn [rmap].
  unfold omap at 1. clear H1 H2 H3.
  destruct (take_digits_complete _ _ rest Hd Hf) as (ds & E & Hv).
  assert (HN : parse_number (blen s) s =
    (match sg with
     | [c] => if c =? c_minus
              then (if n <=? 2 ^ 127 then Ok (PI128 (- Z.of_N n)) else Err (Some (PErr 0 (Some (blen (sg ++ t))) ENumFailed)))
              else (if n <? 2 ^ 128 then Ok (PU128 n) else Err (Some (PErr 0 (Some (blen (sg ++ t))) ENumFailed)))
     | _ => if n <? 2 ^ 128 then Ok (PU128 n) else Err (Some (PErr 0 (Some (blen (sg ++ t))) ENumFailed))
     end, rest)).
  { unfold parse_number. rewrite Hoff0. destruct Hsg as [->|[->| ->]].
    - assert (Hpm : token c_plus s = (false, s) /\ token c_minus s = (false, s)).
      { unfold s. destruct Hd as (d & r & -> & Hd & _). destruct (digit_not_sign d Hd) as [Hd1 Hd2].
        cbn [app]. now rewrite !token_miss'. }
      destruct Hpm as [-> ->]. cbn [negb]. unfold s at 1. cbn [app]. rewrite E. cbn zeta.
      rewrite Hoff. cbn [app] in *. rewrite Hne. cbn [negb]. unfold parse_u128. rewrite digits_value_dec, Hv.
      destruct (n <? 2 ^ 128); reflexivity.
    - unfold s at 1. cbn [app]. rewrite token_hit. rewrite E. cbn zeta. rewrite Hoff. cbn [app] in *. rewrite Hne.
      cbn [negb]. unfold parse_u128. rewrite digits_value_dec, Hv. change (c_plus =? c_minus) with false. cbv iota.
      destruct (n <? 2 ^ 128); reflexivity.
    - unfold s at 1. cbn [app]. rewrite (token_miss c_plus) by reflexivity. rewrite token_hit. cbn [negb].
      rewrite E. cbn zeta. rewrite Hoff. cbn [app] in *. rewrite Hne. cbn [negb].
      unfold parse_neg_i128. rewrite digits_value_dec, Hv. rewrite N.eqb_refl.
      destruct (n <=? 2 ^ 127); reflexivity. }
  rewrite HN. clear HN. unfold number_result.
  destruct Hsg as [->|[->| ->]].
  - destruct (n <? 2 ^ 128); reflexivity.
  - change (c_plus =? c_minus) with false. cbv iota. destruct (n <? 2 ^ 128); reflexivity.
  - rewrite N.eqb_refl. destruct (n <=? 2 ^ 127); reflexivity.
Qed.

Lemma grammar_unambiguous U v v' t : unicode_ok U -> grammar U v t -> grammar U v' t -> v = v'.
Proof.
  intros HU H1 H2. apply (from_str_complete U v t [] HU) in H1; [|exact I].
  apply (from_str_complete U v' t [] HU) in H2; [|exact I]. congruence.
Qed.

Lemma from_str_iff U v t : unicode_ok U -> (from_str U t = (Ok v, []) <-> grammar U v t).
Proof.
  intro HU. split.
  - intro H. apply from_str_sound in H as (c & -> & Hg). now rewrite app_nil_r.
  - intro H. rewrite <- (app_nil_r t) at 1. now apply from_str_complete.
Qed.

Lemma from_str_rest_indep U c v rest rest' : unicode_ok U ->
  from_str U (c ++ rest) = (Ok v, rest) -> not_followed_by num_continues rest' ->
  from_str U (c ++ rest') = (Ok v, rest').
Proof.
  intros HU H Hf. apply from_str_sound in H as (c' & E & Hg). apply app_inv_tail in E as ->.
  now apply from_str_complete.
Qed.

Lemma parse_custom_fuel U customs s k : customs_err_ok customs -> (length s < k)%nat ->
  parse_value U (blen s) customs k s = parse_custom U customs s.
Proof. intros HC Hk. apply parse_value_fuel_indep; auto using suffix_refl. Qed.

Lemma no_customs_ok : customs_err_ok [].
Proof. intros t e cur H. discriminate. Qed.
