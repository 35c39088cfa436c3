(** * WorkBound: the parser reads linearly many characters. *)
From Verif Require Import Base Value Chars Parse Spec_Grammar Spec_Work ParseFacts ParseWork WorkFacts.
Local Open Scope nat_scope.

Lemma openers_app a b : openers (a ++ b) = openers a + openers b.
Proof. unfold openers. rewrite filter_app, app_length. reflexivity. Qed.

Lemma mul_ge A x : 2 <= A -> 2 * x <= A * x.
Proof. intro H. apply Nat.mul_le_mono_r, H. Qed.

(** What is said of a result: [A] for each character consumed (or left, in case of an error) and a constant. *)
Definition fine_o {X} (A B C D : nat) (t : str) (m : counted (ores X)) : Prop :=
  deep (snd m) <= D /\
  match fst m with
  | (Ok _, t') => exists c, t = c ++ t' /\ reads (snd m) <= A * length c + B
  | (Err (Some _), _) => reads (snd m) <= A * length t + B
  | (Err None, _) => reads (snd m) <= C
  end.
Definition fine_p {X} (A B D : nat) (t : str) (m : counted (pres X)) : Prop :=
  deep (snd m) <= D /\
  match fst m with
  | (Ok _, t') => exists c, t = c ++ t' /\ reads (snd m) <= A * length c + B
  | (Err _, _) => reads (snd m) <= A * length t + B
  end.

Lemma while_reads p t : exists a b, take_while p t = (a, b) /\ t = a ++ b /\ snd (w_take_while p t) = read (S (length a)).
Proof.
  destruct (take_while p t) as [a b] eqn:E. exists a, b. destruct (take_while_spec _ _ _ _ E) as (-> & _). repeat split. unfold w_take_while. rewrite E. reflexivity.
Qed.
Lemma ws_reads t : exists a, t = a ++ fst (w_skip_whitespace t) /\ snd (w_skip_whitespace t) = read (S (length a)) /\ skip_whitespace t = fst (w_skip_whitespace t) /\
  length a = length (fst (take_while is_whitespace t)).
Proof.
  destruct (while_reads is_whitespace t) as (a & b & E & -> & R). exists a. unfold w_skip_whitespace, w_skip_while, skip_whitespace, skip_while in *.
  unfold w_take_while in *. rewrite E in *. cbn [fst snd] in *. repeat split; assumption.
Qed.
(** The length of the white space in front. *)
Definition wsn (t : str) : nat := length (fst (take_while is_whitespace t)).
Lemma wsn_after t : wsn (skip_whitespace t) = 0.
Proof.
  destruct (skip_ws_spec t) as (w & _ & _ & N). unfold wsn. destruct (skip_whitespace t) as [|c r]; [reflexivity|]. cbn [take_while]. cbn in N. rewrite N. reflexivity.
Qed.
Lemma skip_reads t t' n : w_skip_whitespace t = (t', n) -> exists a, t = a ++ t' /\ n = read (S (length a)) /\ length a = wsn t /\ wsn t' = 0.
Proof.
  intro E. destruct (ws_reads t) as (a & H1 & H2 & H3 & H4). pose proof (wsn_after t) as W. rewrite H3 in W. rewrite E in *. cbn [fst snd] in *. exists a. repeat split; assumption.
Qed.
Lemma spaced_reads s t b t' n : w_skip_spaced_separator s t = ((b, t'), n) ->
  exists a, t = a ++ t' /\ deep n = 0 /\ (b = true -> 1 <= length a /\ reads n = length a + 2) /\ (b = false -> reads n = wsn t + 3 /\ length a = wsn t).
Proof.
  unfold w_skip_spaced_separator. destruct (w_skip_whitespace t) as [t1 n1] eqn:E1. apply skip_reads in E1 as (a1 & -> & -> & L1 & W1).
  unfold w_token. destruct (token s t1) as [ok t2] eqn:E2. destruct (w_skip_whitespace t2) as [t3 n3] eqn:E3. apply skip_reads in E3 as (a3 & -> & -> & L3 & _).
  intro H. injection H as <- <- <-. destruct ok.
  - apply token_true in E2. subst t1. exists (a1 ++ s :: a3). rewrite <- app_assoc. split; [reflexivity|]. split; [reflexivity|]. split; [|discriminate].
    intros _. rewrite app_length. cbn [length reads also read]. lia.
  - apply token_false in E2 as [E2 _]. rewrite E2 in L3. rewrite W1 in L3. destruct a3; [|cbn in L3; lia]. exists a1. cbn [app] in *. subst t1. split; [reflexivity|]. split; [reflexivity|].
    split; [discriminate|]. intros _. cbn [reads also read length]. lia.
Qed.

Section Leaves.
  Context (U : unicode) (total : N) (A : nat) (HA : 2 <= A).
  Ltac big x := pose proof (mul_ge A x HA).

  Lemma prefix_reads_le p t : prefix_reads p t <= length p.
  Proof. revert t; induction p as [|c p IH]; intros [|x t]; cbn [prefix_reads length]; [lia|lia|lia|]. destruct (x =? c)%N; [specialize (IH t)|]; lia. Qed.
  Lemma tokens_true p t t' : tokens p t = (true, t') -> t = p ++ t'.
  Proof. unfold tokens. destruct (strip_prefix p t) eqn:E; intro H; [|discriminate]. injection H as <-. apply strip_prefix_some, E. Qed.
  Lemma bool_fine t : fine_o A 9 9 0 t (w_parse_bool t).
  Proof.
    unfold w_parse_bool, w_tokens. pose proof (prefix_reads_le (s2l "true") t) as L1. pose proof (prefix_reads_le (s2l "false") t) as L2. change (length (s2l "true")) with 4 in L1. change (length (s2l "false")) with 5 in L2.
    destruct (tokens (s2l "true") t) as [[] t1] eqn:E1.
    - apply tokens_true in E1. split; cbn [fst snd deep read]; [lia|]. exists (s2l "true"). split; [exact E1|]. cbn [reads read]. lia.
    - destruct (tokens (s2l "false") t) as [[] t2] eqn:E2.
      + apply tokens_true in E2. split; cbn [fst snd deep also read]; [cbn; lia|]. exists (s2l "false"). split; [exact E2|]. cbn [reads also read]. lia.
      + split; cbn [fst snd deep reads also read]; [cbn; lia|lia].
  Qed.
  Lemma char_fine t : fine_o A 4 1 0 t (w_parse_char total t).
  Proof.
    unfold w_parse_char, w_token. destruct (token c_squote t) as [[] t1] eqn:E1; cbn [negb]; [|split; cbn; lia].
    apply token_true in E1. subst t. destruct t1 as [|c t2]; [split; cbn [after fst snd deep reads also read]; [cbn; lia|lia]|]. destruct (c =? c_bslash)%N.
    - destruct t2 as [|e t3]; [split; cbn [after fst snd deep reads also read]; [cbn; lia|lia]|]. destruct (from_escape_code e); [|split; cbn [after fst snd deep reads also read]; [cbn; lia|lia]].
      destruct (token c_squote t3) as [[] t4] eqn:E4; cbn [negb]; (split; cbn [after fst snd deep reads also read]; [cbn; lia|]); [|lia].
      apply token_true in E4. subst t3. exists [c_squote; c; e; c_squote]. split; [reflexivity|lia].
    - destruct (token c_squote t2) as [[] t4] eqn:E4; cbn [negb]; (split; cbn [after fst snd deep reads also read]; [cbn; lia|]); [|lia].
      apply token_true in E4. subst t2. exists [c_squote; c; c_squote]. split; [reflexivity|lia].
  Qed.
  Lemma loop_fine start t : forall acc b, let m := w_string_loop total start t acc b in
    deep (snd m) = 0 /\ match fst m with (Ok _, t') => exists c, t = c ++ t' /\ reads (snd m) = length c | (Err (Some _), _) => reads (snd m) <= length t + 1 | (Err None, _) => False end.
  Proof.
    induction t as [|c t IH]; intros acc b; cbn [w_string_loop]; cbv zeta.
    - split; cbn; lia.
    - assert (step : forall acc b, let m := after (read 1) (w_string_loop total start t acc b) in
        deep (snd m) = 0 /\ match fst m with (Ok _, t') => exists c0, c :: t = c0 ++ t' /\ reads (snd m) = length c0 | (Err (Some _), _) => reads (snd m) <= length (c :: t) + 1 | (Err None, _) => False end).
      { intros acc' b'. destruct (IH acc' b') as [D R]. cbv zeta. cbn [after fst snd deep reads also read]. split; [rewrite D; reflexivity|].
        destruct (fst (w_string_loop total start t acc' b')) as [[v|[e|]] t']; [|cbn [length]; lia|exact R].
        destruct R as (c0 & -> & R). exists (c :: c0). split; [reflexivity|]. cbn [length]. lia. }
      destruct ((c =? c_bslash)%N && negb b); [apply step|]. destruct b.
      + destruct (from_escape_code c); [apply step|]. split; cbn [after fst snd deep reads also read length]; [reflexivity|lia].
      + destruct (c =? c_dquote)%N; [|apply step]. split; cbn [after fst snd deep reads also read length]; [reflexivity|]. exists [c]. split; [reflexivity|reflexivity].
  Qed.
  (** Sharper than needed for one alternative: used for quoted variant names too. *)
  Lemma string_exact t : let m := w_parse_string total t in
    deep (snd m) = 0 /\ match fst m with
                        | (Ok _, t') => exists c, t = c ++ t' /\ reads (snd m) = length c
                        | (Err (Some _), _) => reads (snd m) <= length t + 1 /\ exists t1, t = c_dquote :: t1
                        | (Err None, _) => reads (snd m) = 1
                        end.
  Proof.
    cbv zeta. unfold w_parse_string, w_token. destruct (token c_dquote t) as [[] t1] eqn:E; cbn [negb]; [|split; reflexivity]. apply token_true in E. subst t.
    destruct (loop_fine (offset total (c_dquote :: t1)) t1 [] false) as [D R]. cbn [after fst snd deep reads also read]. split; [rewrite D; reflexivity|].
    destruct (fst (w_string_loop _ _ t1 [] false)) as [[v|[e|]] t']; [|split; [cbn [length]; lia|eauto]|contradiction].
    destruct R as (c & -> & R). exists (c_dquote :: c). split; [reflexivity|]. cbn [length]. lia.
  Qed.
  Lemma string_fine t : fine_o A 1 1 0 t (w_parse_string total t).
  Proof.
    destruct (string_exact t) as [D R]. split; [lia|]. destruct (fst (w_parse_string total t)) as [[v|[e|]] t'].
    - destruct R as (c & -> & R). exists c. split; [reflexivity|]. big (length c). lia.
    - big (length t). lia.
    - lia.
  Qed.
  Lemma digits_reads t : forall b ds sn t3, take_digits t b = (ds, (sn, t3)) -> exists c, t = c ++ t3 /\ digit_reads t b = S (length c).
  Proof.
    induction t as [|c t IH]; intros b ds sn t3; cbn [take_digits digit_reads].
    - intro H. injection H as <- <- <-. exists []. split; reflexivity.
    - destruct (is_digit c).
      + destruct (take_digits t true) as [a [s1 r]] eqn:E. intro H. injection H as <- <- <-. destruct (IH _ _ _ _ E) as (c0 & -> & R). exists (c :: c0). split; [reflexivity|]. cbn [length]. lia.
      + destruct (b && (c =? c_under)%N).
        * intro H. destruct (IH _ _ _ _ H) as (c0 & -> & R). exists (c :: c0). split; [reflexivity|]. cbn [length]. lia.
        * intro H. injection H as <- <- <-. exists []. split; reflexivity.
  Qed.
  Lemma number_fine t : (blen t <= total)%N -> fine_o A 3 3 0 t (w_parse_number total t).
  Proof.
    intro Ht. unfold w_parse_number, w_token.
    assert (main : forall pre n1 n2 pos t2, t = pre ++ t2 -> reads n1 + reads n2 <= 2 -> deep n1 = 0 -> deep n2 = 0 ->
      fine_o A 3 3 0 t (let '(digits, (seen_n, t3)) := take_digits t2 false in
        let end_loc := offset total t3 in
        ((if (end_loc =? offset total t)%N then (Err None, t3)
          else if negb seen_n then (Err (Some (e_between ENumDigit end_loc (end_loc + 1)%N)), t3)
          else if pos : bool then match parse_u128 digits with Some n => (Ok (PU128 n), t3) | None => (Err (Some (e_between ENumFailed (offset total t) end_loc)), t3) end
          else match parse_neg_i128 digits with Some n => (Ok (PI128 n), t3) | None => (Err (Some (e_between ENumFailed (offset total t) end_loc)), t3) end),
         also n1 (also n2 (read (digit_reads t2 false)))))).
    { intros pre n1 n2 pos t2 E Hr D1 D2. destruct (take_digits t2 false) as [ds [sn t3]] eqn:ED. destruct (digits_reads _ _ _ _ _ ED) as (c & -> & R). cbv zeta. subst t.
      split; cbn [snd deep reads also read]; [rewrite D1, D2; reflexivity|]. rewrite R. clear ED R.
      assert (LEN : length (pre ++ c ++ t3) = length pre + length c + length t3) by (rewrite !app_length; lia).
      big (length (pre ++ c)). big (length (pre ++ c ++ t3)). assert (L2 : length (pre ++ c) = length pre + length c) by apply app_length.
      destruct (N.eqb_spec (offset total t3) (offset total (pre ++ c ++ t3))) as [EQ|NE].
      - destruct (list_eq_dec N.eq_dec (pre ++ c) []) as [Z|Z]; [destruct pre; [|discriminate]; destruct c; [cbn [length] in *; cbn; lia|discriminate]|].
        exfalso. refine (offset_lt total (pre ++ c) t3 _ Z _); rewrite <- app_assoc; [exact Ht|exact EQ].
      - destruct sn; cbn [negb]; [|cbn [fst]; lia].
        assert (fin : exists c0, pre ++ c ++ t3 = c0 ++ t3 /\ reads n1 + (reads n2 + S (length c)) <= A * length c0 + 3) by (exists (pre ++ c); rewrite <- app_assoc; split; [reflexivity|lia]).
        destruct pos; [destruct (parse_u128 ds)|destruct (parse_neg_i128 ds)]; cbn [fst]; first [exact fin|lia]. }
    destruct (token c_plus t) as [[] t1] eqn:E1.
    - apply token_true in E1. apply (main [c_plus] (read 1) (read 0) true t1); [exact E1|cbn; lia|reflexivity|reflexivity].
    - apply token_false in E1 as [-> _]. destruct (token c_minus t) as [mi t2] eqn:E2. destruct mi; cbn [negb].
      + apply token_true in E2. apply (main [c_minus] (read 1) (read 1) false t2); [exact E2|cbn; lia|reflexivity|reflexivity].
      + apply token_false in E2 as [-> _]. apply (main [] (read 1) (read 1) true t); [reflexivity|cbn; lia|reflexivity|reflexivity].
  Qed.
  Lemma bits_fine t : fine_o A 2 1 0 t (w_parse_bit_sequence total t).
  Proof.
    unfold w_parse_bit_sequence, w_token. destruct (token c_lt t) as [[] t1] eqn:E1; cbn [negb]; [|split; cbn; lia]. apply token_true in E1. subst t.
    destruct (while_reads (fun c => (c =? c_0) || (c =? c_1))%N t1) as (a & b & E & -> & R). unfold w_take_while in *. rewrite E in *. cbn [fst snd] in R.
    destruct (token c_gt b) as [[] t3] eqn:E3; cbn [negb]; (split; cbn [fst snd deep reads also read]; [reflexivity|]).
    - apply token_true in E3. subst b. exists (c_lt :: a ++ [c_gt]). split; [cbn [app]; rewrite <- app_assoc; reflexivity|]. big (length (c_lt :: a ++ [c_gt])). cbn [length] in *. rewrite app_length in *. cbn [length] in *. lia.
    - big (length (c_lt :: a ++ b)). cbn [length] in *. rewrite app_length in *. lia.
  Qed.
  (** Identifiers. *)
  Lemma ident_fine t : let m := w_parse_ident U total t in
    deep (snd m) = 0 /\ match fst m with (Ok _, t') => exists c, t = c ++ t' /\ reads (snd m) = 2 * length c + 2 | (Err _, _) => reads (snd m) = 1 end.
  Proof.
    cbv zeta. unfold w_parse_ident. destruct (while_reads (is_alphabetic U) t) as (a & b & E & -> & R). unfold w_take_while in *. rewrite E in *. cbn [fst snd] in R |- *.
    destruct a as [|x a]; [split; reflexivity|]. destruct (while_reads (fun c => is_alphanumeric U c || (c =? c_under)%N) b) as (a' & b' & E' & -> & R'). unfold w_take_while in *. rewrite E'. cbn [fst snd deep reads also read].
    split; [reflexivity|]. exists ((x :: a) ++ a'). rewrite <- app_assoc. split; [reflexivity|]. rewrite app_length. cbn [length]. lia.
  Qed.
  Lemma field_name_fine t : fine_p A 3 0 t (w_parse_field_name U total t).
  Proof.
    unfold w_parse_field_name. cbn [w_one_of]. destruct (string_exact t) as [D R]. destruct (w_parse_string total t) as [[[v|[e|]] t1] n]; cbn [fst snd] in *.
    - destruct R as (c & -> & R). split; cbn [fst snd]; [lia|]. exists c. split; [reflexivity|]. big (length c). lia.
    - split; cbn [fst snd]; [lia|]. big (length t). lia.
    - unfold w_always. destruct (ident_fine t) as [D' R']. destruct (w_parse_ident U total t) as [[[v|e] t2] n']; cbn [fst snd after] in *.
      + split; cbn [fst snd deep reads also]; [lia|]. destruct R' as (c & -> & R'). exists c. split; [reflexivity|]. big (length c). lia.
      + split; cbn [fst snd deep reads also]; lia.
  Qed.
End Leaves.

Lemma suffix_len (t c t' : str) : t = c ++ t' -> length t = length c + length t'.
Proof. intros ->. apply app_length. Qed.

Section Rec.
  Context (U : unicode) (total : N) (A B : nat) (HAB : B + 20 <= A).
  Context (pw : str -> counted (pres (value unit))).
  Context (Hp : forall t, (blen t <= total)%N -> fine_p A B (S (openers t)) t (pw t)).
  Local Lemma HA : 2 <= A. Proof. lia. Qed.
  Ltac big x := pose proof (mul_ge A x HA).
  Ltac dist := rewrite ?Nat.mul_add_distr_l in *.
  Ltac sub_total := match goal with H : (blen _ <= total)%N |- _ => rewrite ?blen_app in H; lia end.

  Lemma field_fine t : (blen t <= total)%N -> fine_p A (B + 6) (S (openers t)) t (w_parse_field_name_and_value U total pw t).
  Proof.
    intro Ht. unfold w_parse_field_name_and_value. destruct (field_name_fine U total A HA t) as [D R]. destruct (w_parse_field_name U total t) as [[[n|e] t1] n1]; cbn [fst snd] in *.
    2:{ split; cbn [fst snd]; lia. }
    destruct R as (c & -> & R). destruct (w_skip_spaced_separator c_colon t1) as [[b t2] n2] eqn:E2. apply spaced_reads in E2 as (a & E2 & D2 & S1 & S2). subst t1.
    big (length a). pose proof (app_length c (a ++ t2)) as L1. pose proof (app_length a t2) as L2. rewrite L2 in L1. rewrite !openers_app.
    destruct b; cbn [negb].
    - destruct (S1 eq_refl) as [S1' S1'']. assert (H2 : (blen t2 <= total)%N) by (rewrite !blen_app in Ht; lia). destruct (Hp t2 H2) as [D3 R3]. destruct (pw t2) as [[[v|e] t3] n3]; cbn [fst snd] in *.
      + split; cbn [fst snd deep reads also]; [lia|]. destruct R3 as (c3 & -> & R3). exists (c ++ a ++ c3). rewrite <- !app_assoc. split; [reflexivity|]. rewrite !app_length. dist. lia.
      + split; cbn [fst snd deep reads also]; [lia|]. rewrite L1. dist. lia.
    - destruct (S2 eq_refl) as [S2' S2'']. split; cbn [fst snd deep reads also]; [lia|]. rewrite L1. dist. lia.
  Qed.

  Section Items.
    Context {X : Type} (item : str -> counted (pres X)).
    Context (Hi : forall t, (blen t <= total)%N -> fine_p A (B + 6) (S (openers t)) t (item t)).
    Lemma sep_rest_fine k : forall t acc, (blen t <= total)%N -> let m := w_sep_rest k item t acc in
      deep (snd m) <= S (openers t) /\
      match fst m with
      | (Ok _, t') => exists c, t = c ++ t' /\ reads (snd m) <= A * length c + wsn t' + 3
      | (Err _, _) => reads (snd m) <= A * length t
      end.
    Proof.
      induction k as [|k IH]; intros t acc Ht; cbn [w_sep_rest]; cbv zeta; [split; cbn; lia|].
      destruct (w_skip_spaced_separator c_comma t) as [[b t1] n1] eqn:E1. apply spaced_reads in E1 as (a & -> & D1 & S1 & S2). destruct b; cbn [negb].
      2:{ destruct (S2 eq_refl) as [S2' _]. split; cbn [fst snd]; [lia|]. exists []. split; [reflexivity|]. cbn [length]. lia. }
      destruct (S1 eq_refl) as [S1' S1'']. assert (pay : length a + 2 + (B + 6) <= A * length a).
      { pose proof (Nat.mul_le_mono_r (B + 20) A (length a) HAB) as M. rewrite Nat.mul_add_distr_r in M. pose proof (Nat.mul_le_mono_l 1 (length a) B S1'). lia. }
      assert (H1 : (blen t1 <= total)%N) by (rewrite blen_app in Ht; lia). rewrite openers_app. pose proof (app_length a t1) as L1.
      destruct (Hi t1 H1) as [D2 R2]. destruct (item t1) as [[[x|e] t2] n2]; cbn [fst snd] in *.
      - destruct R2 as (c2 & -> & R2). assert (H2 : (blen t2 <= total)%N) by (rewrite !blen_app in Ht; lia). destruct (IH t2 (x :: acc) H2) as [D3 R3]. rewrite openers_app in *. pose proof (app_length c2 t2) as L2.
        cbn [after fst snd deep reads also]. split; [lia|]. destruct (fst (w_sep_rest k item t2 (x :: acc))) as [[l|e] t3].
        + destruct R3 as (c3 & -> & R3). exists (a ++ c2 ++ c3). rewrite <- !app_assoc. split; [reflexivity|]. rewrite !app_length. dist. lia.
        + rewrite L1, L2. dist. lia.
      - split; cbn [fst snd deep reads also]; [lia|]. rewrite L1. dist. lia.
    Qed.
    Lemma sep_by_fine k t : (blen t <= total)%N -> let m := w_sep_by k item t in
      deep (snd m) <= S (openers t) /\
      match fst m with
      | (Ok _, t') => exists c, t = c ++ t' /\ reads (snd m) <= A * length c + wsn t' + B + 9
      | (Err _, _) => reads (snd m) <= A * length t + B + 6
      end.
    Proof.
      intro Ht. cbv zeta. unfold w_sep_by. destruct (Hi t Ht) as [D1 R1]. destruct (item t) as [[[x|e] t1] n1]; cbn [fst snd] in *; [|split; lia].
      destruct R1 as (c1 & -> & R1). assert (H1 : (blen t1 <= total)%N) by (rewrite !blen_app in Ht; lia). destruct (sep_rest_fine k t1 [x] H1) as [D2 R2]. rewrite openers_app in *.
      cbn [after fst snd deep reads also]. split; [lia|]. pose proof (app_length c1 t1) as L1. destruct (fst (w_sep_rest k item t1 [x])) as [[l|e] t2].
      - destruct R2 as (c2 & -> & R2). exists (c1 ++ c2). rewrite <- app_assoc. split; [reflexivity|]. rewrite app_length. dist. lia.
      - rewrite L1. dist. lia.
    Qed.
    Lemma delimited_fine op cl k t : opens op = true -> (blen t <= total)%N -> fine_o A 0 1 (openers t) t (w_parse_delimited total op cl k item t).
    Proof.
      intros Hop Ht. unfold w_parse_delimited, w_token. destruct (token op t) as [[] t1] eqn:E1; cbn [negb]; [|split; cbn; lia].
      apply token_true in E1. subst t. destruct (w_skip_whitespace t1) as [t2 n2] eqn:E2. apply skip_reads in E2 as (a & -> & -> & _ & _).
      assert (OP : openers (op :: a ++ t2) = S (openers (a ++ t2))) by (unfold openers; cbn [filter]; rewrite Hop; reflexivity). rewrite OP, openers_app.
      big (length a). assert (Ht2 : (blen t2 <= total)%N) by (cbn [blen] in Ht; rewrite blen_app in Ht; lia).
      destruct (token cl t2) as [[] t3] eqn:E3.
      { apply token_true in E3. subst t2. split; cbn [fst snd deep reads also read]; [cbn; lia|]. exists (op :: a ++ [cl]). split; [cbn [app]; rewrite <- app_assoc; reflexivity|].
        cbn [length]. rewrite app_length. cbn [length]. replace (S (length a + 1)) with (2 + length a) by lia. rewrite Nat.mul_add_distr_l. lia. }
      apply token_false in E3 as [-> _]. destruct (sep_by_fine k t2 Ht2) as [D4 R4]. destruct (w_sep_by k item t2) as [[[l|e] t4] n4]; cbn [fst snd] in *.
      - destruct R4 as (c4 & -> & R4). destruct (w_skip_whitespace t4) as [t5 n5] eqn:E5. apply skip_reads in E5 as (a5 & -> & -> & W5 & _). big (length a5). rewrite <- W5 in R4.
        destruct (token cl t5) as [[] t6] eqn:E6; cbn [negb]; (split; cbn [after fst snd deep reads also read]; [rewrite openers_app in *; lia|]).
        + apply token_true in E6. subst t5. exists (op :: a ++ c4 ++ a5 ++ [cl]). split; [cbn [app]; rewrite <- !app_assoc; reflexivity|].
          cbn [length]. rewrite !app_length. cbn [length]. replace (S (length a + (length c4 + (length a5 + 1)))) with (2 + length a + length c4 + length a5) by lia. rewrite !Nat.mul_add_distr_l. lia.
        + cbn [length]. rewrite !app_length. replace (S (length a + (length c4 + (length a5 + length t5)))) with (1 + length a + length c4 + length a5 + length t5) by lia. rewrite !Nat.mul_add_distr_l. lia.
      - split; cbn [after fst snd deep reads also read]; [lia|]. cbn [length]. rewrite app_length. replace (S (length a + length t2)) with (1 + length a + length t2) by lia. rewrite !Nat.mul_add_distr_l. lia.
    Qed.
  End Items.

  Lemma omap_fine {X Y} (f : X -> Y) (a : walt X) b c d t : fine_o A b c d t (a t) -> fine_o A b c d t (w_omap f a t).
  Proof. intros [D R]. unfold w_omap. destruct (a t) as [[[v|[e|]] t'] n]; split; assumption. Qed.
  Lemma named_fine k t : (blen t <= total)%N -> fine_o A 0 1 (openers t) t (w_parse_named_composite U total pw k t).
  Proof. intro Ht. apply omap_fine, delimited_fine; [exact field_fine|reflexivity|exact Ht]. Qed.
  Lemma unnamed_fine k t : (blen t <= total)%N -> fine_o A 0 1 (openers t) t (w_parse_unnamed_composite total pw k t).
  Proof.
    intro Ht. apply omap_fine, delimited_fine; [|reflexivity|exact Ht]. intros t' Ht'. destruct (Hp t' Ht') as [D R]. split; [exact D|].
    destruct (fst (pw t')) as [[v|e] r]; [|lia]. destruct R as (c & -> & R). exists c. split; [reflexivity|lia].
  Qed.

  (** A name in front of brackets.  A quoted name that is broken is read to the end, but then the parse fails. *)
  Lemma opt_ident_fine t : let m := w_parse_optional_variant_ident U total t in
    deep (snd m) = 0 /\
    match fst m with
    | (Some (Ok _), t') => exists c, t = c ++ t' /\ (reads (snd m) <= 2 * length c + 4 \/ (reads (snd m) <= 2 * length t + 8 /\ exists r, t' = c_dquote :: r))
    | _ => reads (snd m) <= 2 * length t + 8
    end.
  Proof.
    cbv zeta. unfold w_parse_optional_variant_ident. destruct (ident_fine U total A HA t) as [Di Ri].
    assert (I : let m := w_one_of [w_ok_of (w_parse_ident U total)] t in deep (snd m) = 0 /\
      match fst m with (Some (Ok _), t') => exists c, t = c ++ t' /\ reads (snd m) <= 2 * length c + 2 | (Some (Err _), _) => False | (None, _) => reads (snd m) <= 2 end).
    { cbv zeta. cbn [w_one_of]. unfold w_ok_of. destruct (w_parse_ident U total t) as [[[v|e] t1] n1]; cbn [fst snd after] in *.
      - split; [exact Di|]. destruct Ri as (c & -> & Ri). exists c. split; [reflexivity|lia].
      - cbn [deep reads also read]. split; [rewrite Di; reflexivity|lia]. }
    change (w_one_of [w_parse_i_string total; w_ok_of (w_parse_ident U total)] t) with
      (let (r, n) := w_parse_i_string total t in
       match r with
       | (Ok v, t') => ((Some (Ok v), t'), n)
       | (Err (Some e), t') => ((Some (Err e), t'), n)
       | (Err None, _) => after n (w_one_of [w_ok_of (w_parse_ident U total)] t)
       end).
    assert (rest : forall n0, deep n0 = 0 -> reads n0 <= 2 -> let m := after n0 (w_one_of [w_ok_of (w_parse_ident U total)] t) in
      deep (snd m) = 0 /\ match fst m with
       | (Some (Ok _), t') => exists c, t = c ++ t' /\ (reads (snd m) <= 2 * length c + 4 \/ (reads (snd m) <= 2 * length t + 8 /\ exists r, t' = c_dquote :: r))
       | _ => reads (snd m) <= 2 * length t + 8 end).
    { intros n0 D0 R0. cbv zeta in *. cbn [after fst snd deep reads also]. destruct I as [I1 I2]. split; [rewrite D0, I1; reflexivity|].
      destruct (fst (w_one_of [w_ok_of (w_parse_ident U total)] t)) as [[[v|e]|] t']; [|contradiction|lia]. destruct I2 as (c & -> & I2). exists c. split; [reflexivity|]. left. lia. }
    unfold w_parse_i_string. destruct t as [|c t1]; [apply rest; [reflexivity|cbn; lia]|].
    destruct (c =? c_v)%N eqn:Ec; cbn [negb]; [|apply rest; [reflexivity|cbn; lia]].
    unfold w_ok_of_o. destruct (string_exact total A HA t1) as [Ds Rs]. destruct (w_parse_string total t1) as [[[s|[e|]] t2] ns]; cbn [fst snd after] in *.
    - cbn [fst snd deep reads also read]. split; [rewrite Ds; reflexivity|]. destruct Rs as (c1 & -> & Rs). exists (c :: c1). split; [reflexivity|]. left. cbn [length]. lia.
    - destruct Rs as [Rs (r & ->)]. apply N.eqb_eq in Ec. subst c. clear I rest Di Ri.
      assert (IE : w_one_of [w_ok_of (w_parse_ident U total)] (c_v :: c_dquote :: r) = ((Some (Ok [c_v]), c_dquote :: r), also (read 2) (also (read 1) (read 1)))) by reflexivity.
      rewrite IE. cbn [after fst snd deep reads also read]. split; [rewrite Ds; reflexivity|]. exists [c_v]. split; [reflexivity|]. right. split; [cbn [length] in *; lia|eauto].
    - apply rest; cbn [deep reads also read]; [rewrite Ds; reflexivity|lia].
  Qed.

  Lemma variant_fine k t : (blen t <= total)%N -> fine_o A 12 (A * length t + 12) (openers t) t (w_parse_variant U total pw k t).
  Proof.
    intro Ht. unfold w_parse_variant. destruct (opt_ident_fine t) as [D1 R1]. destruct (w_parse_optional_variant_ident U total t) as [[[[i|e]|] t1] n1]; cbn [fst snd] in *.
    2,3: split; cbn [fst snd]; [lia|]; big (length t); lia.
    destruct R1 as (c & -> & [R1|[R1 (r & ->)]]).
    - destruct (w_skip_whitespace t1) as [t2 n2] eqn:E2. apply skip_reads in E2 as (a & -> & -> & _ & _). assert (Ht2 : (blen t2 <= total)%N) by (rewrite !blen_app in Ht; lia).
      big (length c). big (length a). rewrite !openers_app. cbn [w_one_of]. destruct (named_fine k t2 Ht2) as [D3 R3]. destruct (unnamed_fine k t2 Ht2) as [D4 R4].
      pose proof (app_length c (a ++ t2)) as L1. pose proof (app_length a t2) as L2. rewrite L2 in L1.
      destruct (w_parse_named_composite U total pw k t2) as [[[vs|[e|]] t3] n3]; cbn [fst snd] in *.
      + split; cbn [fst snd deep reads also read]; [lia|]. destruct R3 as (c3 & -> & R3). exists (c ++ a ++ c3). rewrite <- !app_assoc. split; [reflexivity|]. rewrite !app_length. dist. lia.
      + split; cbn [fst snd deep reads also read]; [lia|]. rewrite L1. dist. lia.
      + destruct (w_parse_unnamed_composite total pw k t2) as [[[vs|[e|]] t4] n4]; cbn [fst snd] in *; (split; cbn [after fst snd deep reads also read]; [lia|]).
        * destruct R4 as (c4 & -> & R4). exists (c ++ a ++ c4). rewrite <- !app_assoc. split; [reflexivity|]. rewrite !app_length. dist. lia.
        * rewrite L1. dist. lia.
        * rewrite L1. dist. lia.
    - (* the broken quoted name *)
      assert (E2 : w_skip_whitespace (c_dquote :: r) = (c_dquote :: r, read 1)) by reflexivity. rewrite E2. cbn [w_one_of].
      assert (E3 : w_parse_named_composite U total pw k (c_dquote :: r) = ((Err None, c_dquote :: r), read 1)) by reflexivity.
      assert (E4 : w_parse_unnamed_composite total pw k (c_dquote :: r) = ((Err None, c_dquote :: r), read 1)) by reflexivity.
      rewrite E3, E4. split; cbn [after fst snd deep reads also read]; [lia|]. big (length (c ++ c_dquote :: r)). lia.
  Qed.

  (** The alternatives that do not apply cost a constant each. *)
  Lemma one_of_step {X} (a : walt X) l t b c d b' :
    fine_o A b c d t (a t) -> 
    (let m := w_one_of l t in deep (snd m) <= d /\ match fst m with (Some (Ok _), t') => exists c0, t = c0 ++ t' /\ reads (snd m) <= A * length c0 + b' | _ => reads (snd m) <= A * length t + b' end) ->
    let m := w_one_of (a :: l) t in deep (snd m) <= d /\ match fst m with (Some (Ok _), t') => exists c0, t = c0 ++ t' /\ reads (snd m) <= A * length c0 + (b + c + b') | _ => reads (snd m) <= A * length t + (b + c + b') end.
  Proof.
    intros [Da Ra] [Dl Rl]. cbv zeta in *. cbn [w_one_of]. destruct (a t) as [[[v|[e|]] t'] n]; cbn [fst snd] in *.
    - split; [lia|]. destruct Ra as (c0 & -> & Ra). exists c0. split; [reflexivity|lia].
    - split; lia.
    - cbn [after fst snd deep reads also]. split; [lia|]. destruct (fst (w_one_of l t)) as [[[v|e]|] t'']; [|lia|lia]. destruct Rl as (c0 & -> & Rl). exists c0. split; [reflexivity|lia].
  Qed.
  Lemma fine_deeper {X} b c d d' t (m : counted (ores X)) : d <= d' -> fine_o A b c d t m -> fine_o A b c d' t m.
  Proof. intros H [D R]. split; [lia|exact R]. Qed.
  Lemma one_of_last {X} (a : walt X) t b d : fine_o A b (A * length t + b) d t (a t) ->
    let m := w_one_of [a] t in deep (snd m) <= d /\ match fst m with (Some (Ok _), t') => exists c0, t = c0 ++ t' /\ reads (snd m) <= A * length c0 + b | _ => reads (snd m) <= A * length t + b end.
  Proof.
    intros [Da Ra]. cbv zeta. cbn [w_one_of]. destruct (a t) as [[[v|[e|]] t'] n]; cbn [fst snd after] in *; (split; [try (cbn [deep also read]); lia|]); [exact Ra|exact Ra|]. cbn [reads also read]. lia.
  Qed.

  Lemma builtin_fine k t : (blen t <= total)%N -> fine_p A 60 (openers t) t (w_parse_builtin U total pw k t).
  Proof.
    intro Ht. unfold w_parse_builtin.
    match goal with |- context [w_one_of ?l t] => assert (Q : let m := w_one_of l t in deep (snd m) <= openers t /\
      match fst m with (Some (Ok _), t') => exists c0, t = c0 ++ t' /\ reads (snd m) <= A * length c0 + ((9+9)+((4+1)+((1+1)+((3+3)+((0+1)+((0+1)+((2+1)+12))))))) | _ => reads (snd m) <= A * length t + ((9+9)+((4+1)+((1+1)+((3+3)+((0+1)+((0+1)+((2+1)+12))))))) end) end.
    { pose proof HA as H2.
      apply one_of_step. { apply omap_fine. apply (fine_deeper _ _ 0); [lia|apply bool_fine; assumption]. }
      apply one_of_step. { apply omap_fine. apply (fine_deeper _ _ 0); [lia|apply char_fine; assumption]. }
      apply one_of_step. { apply omap_fine. apply (fine_deeper _ _ 0); [lia|apply string_fine; assumption]. }
      apply one_of_step. { apply omap_fine. apply (fine_deeper _ _ 0); [lia|apply number_fine; assumption]. }
      apply one_of_step. { apply omap_fine, named_fine, Ht. }
      apply one_of_step. { apply omap_fine, unnamed_fine, Ht. }
      apply one_of_step. { apply omap_fine. apply (fine_deeper _ _ 0); [lia|apply bits_fine; assumption]. }
      apply one_of_last, variant_fine, Ht. }
    destruct Q as [D R]. destruct (w_one_of _ t) as [[[[v|e]|] t'] n]; cbn [fst snd] in *; split; cbn [fst snd]; try lia.
    destruct R as (c & -> & R). exists c. split; [reflexivity|lia].
  Qed.
End Rec.

Section Value.
  Context (U : unicode) (total : N) (w : nat) (cs : list cparser).
  Let k := length cs * w.
  Lemma customs_fine l : forall cur, reads (snd (w_run_customs w l cur)) <= length l * w /\ deep (snd (w_run_customs w l cur)) = 0.
  Proof.
    induction l as [|p l IH]; intro cur; [split; reflexivity|]. cbn [w_run_customs]. destruct (p cur) as [[r|] c]; cbn [after snd reads deep also read length]; [split; [lia|reflexivity]|].
    destruct (IH c) as [IH1 IH2]. split; [lia|rewrite IH2; reflexivity].
  Qed.
  Lemma blen_4 t : (blen t <= 4 * N.of_nat (length t))%N.
  Proof. induction t as [|c t IH]; cbn [blen length]; [lia|]. pose proof (utf8_len_pos c). lia. Qed.
  Lemma value_fine f : forall t, (blen t <= total)%N -> fine_p (80 + k) (60 + k) (S (openers t)) t (w_parse_value U total w cs f t).
  Proof.
    induction f as [|f IH]; intros t Ht; [split; cbn; lia|]. cbn [w_parse_value]. destruct (customs_fine cs t) as [RC DC]. fold k in RC. destruct (w_run_customs w cs t) as [[[[v|e] cur]|] n]; cbn [fst snd] in *.
    - split; cbn [fst snd inner_call deep reads also read]; [lia|]. exists (firstn (N.to_nat (blen t - blen cur)) t). split; [symmetry; apply firstn_skipn|]. rewrite firstn_length.
      pose proof (blen_4 t). remember (N.to_nat (blen t - blen cur)) as j. assert (J : j <= 4 * Nat.min j (length t)) by lia.
      pose proof (Nat.mul_le_mono_r 4 (80 + k) (Nat.min j (length t))). lia.
    - split; cbn [fst snd inner_call deep reads]; lia.
    - destruct (builtin_fine U total (80 + k) (60 + k) ltac:(lia) (w_parse_value U total w cs f) IH f t Ht) as [D R].
      destruct (w_parse_builtin U total (w_parse_value U total w cs f) f t) as [[[v|e] t'] m]; cbn [fst snd after] in *; (split; cbn [fst snd inner_call deep reads also]; [lia|]).
      + destruct R as (c & -> & R). exists c. split; [reflexivity|lia].
      + lia.
  Qed.
End Value.
