(** * IncompleteFacts: how the parser's answers change when text is appended (C104). *)
From Verif Require Import Base Value Chars Parse Spec_Grammar ParseFacts ParseComplete ParseSound ParseNum Spec_Incomplete.
Local Open Scope N_scope.

Lemma token_app c t t' m : token c t = (true, t') -> token c (t ++ m) = (true, t' ++ m).
Proof. intro H. apply token_true in H as ->. cbn [app]. now rewrite token_hit. Qed.
Lemma token_no c t t' m : token c t = (false, t') -> t <> [] -> t' = t /\ token c (t ++ m) = (false, t ++ m).
Proof.
  intros H N. apply token_false in H as [-> H]. split; [reflexivity|]. destruct t as [|x t]; [congruence|]. apply token_miss. exact H.
Qed.

Lemma nfb_app p t m : t <> [] -> not_followed_by p t -> not_followed_by p (t ++ m).
Proof. destruct t; [congruence|]. auto. Qed.

Lemma take_while_more p t a t' m : take_while p t = (a, t') -> t' <> [] -> take_while p (t ++ m) = (a, t' ++ m).
Proof.
  intros H N. apply take_while_spec in H as (-> & A & B). rewrite <- app_assoc. apply take_while_app; [exact A|]. now apply nfb_app.
Qed.

Lemma skip_ws_more t m : skip_whitespace t <> [] -> skip_whitespace (t ++ m) = skip_whitespace t ++ m.
Proof.
  intro N. destruct (skip_ws_spec t) as (w & E & W & F). rewrite E at 1. rewrite <- app_assoc. apply skip_ws_app; [exact W|]. now apply nfb_app.
Qed.
Lemma skip_ws_nil t : skip_whitespace t = [] -> ws t.
Proof. intro H. destruct (skip_ws_spec t) as (w & E & W & _). rewrite H, app_nil_r in E. now subst. Qed.
Lemma ws_skip t : ws t -> skip_whitespace t = [].
Proof. intro W. rewrite <- (app_nil_r t). now apply skip_ws_app. Qed.

Section Final.
  Context (U : unicode) (s m : str).
  Let T := blen s.
  Let T' := blen (s ++ m).

  Lemma off_more t : offset T' (t ++ m) = offset T t.
  Proof. unfold offset, T, T'. rewrite !blen_app. lia. Qed.

  (** Errors that need no more argument: the text was cut short, or the model's fuel was. *)
  Definition stuck (e : perr) : Prop := cut_short U s e \/ err e = EFuel.

  Definition kept {A} (t : str) (r1 r2 : pres A) : Prop :=
    match r1 with
    | (Ok a, t') => ws t' \/ r2 = (Ok a, t' ++ m)
    | (Err e, _) => stuck e \/ exists e' r', r2 = (Err e', r') /\ same_error e e'
    end.
  Definition okept {A} (t : str) (r1 r2 : ores A) : Prop :=
    match r1 with
    | (Ok a, t') => ws t' \/ r2 = (Ok a, t' ++ m)
    | (Err (Some e), _) => stuck e \/ exists e' r', r2 = (Err (Some e'), r') /\ same_error e e'
    | (Err None, _) => exists r', r2 = (Err None, r')
    end.

  Lemma stuck_end k : k <> ECharEscape -> forall l, stuck (PErr (offset T []) l k).
  Proof. intros N l. left. left. cbn [start_loc err]. split; [unfold offset; cbn [blen]; lia|congruence]. Qed.

  Lemma stuck_end_bs : suffix [c_bslash] s -> forall l, stuck (PErr (offset T []) l ECharEscape).
  Proof. intros [a E] l. left. left. cbn [start_loc err]. split; [unfold offset; cbn [blen]; lia|]. intros _. exists a. exact E. Qed.

  Lemma kept_char t : suffix t s -> t <> [] -> okept t (parse_char T t) (parse_char T' (t ++ m)).
  Proof.
    intros SF N. unfold parse_char. rewrite off_more. destruct (token c_squote t) as [[] t1] eqn:E; cbn [negb].
    2:{ destruct (token_no _ _ _ m E N) as [-> ->]. cbn [negb okept]. eexists. reflexivity. }
    rewrite (token_app _ _ _ m E). cbn [negb]. apply token_true in E. subst t. destruct t1 as [|c t2].
    { cbn [okept]. left. apply stuck_end. discriminate. }
    cbn [app].
    assert (Hfin : forall (c' : char) (t3 : str), @okept char (c_squote :: c :: t2)
              (let (ok, t4) := token c_squote t3 in
               if negb ok then (Err (Some (e_at_one (ECharClose (offset T (c_squote :: c :: t2))) (offset T t4))), t4) else (Ok c', t4))
              (let (ok, t4) := token c_squote (t3 ++ m) in
               if negb ok then (Err (Some (e_at_one (ECharClose (offset T (c_squote :: c :: t2))) (offset T' t4))), t4) else (Ok c', t4))).
    { intros c' t3. destruct (token c_squote t3) as [[] t4] eqn:E; cbn [negb].
      - rewrite (token_app _ _ _ m E). cbn [negb okept]. right. reflexivity.
      - destruct t3 as [|x t3].
        + cbn [token] in E. injection E as <-. cbn [okept]. left. apply stuck_end. discriminate.
        + destruct (token_no _ _ _ m E) as [-> ->]; [discriminate|]. cbn [negb okept]. right. rewrite off_more. eexists _, _. split; [reflexivity|].
          split; reflexivity. }
    destruct (N.eqb_spec c c_bslash) as [->|NB].
    - destruct t2 as [|x t3].
      + cbn [okept]. left. apply stuck_end_bs. destruct SF as [a E]. exists (a ++ [c_squote]). rewrite <- app_assoc. exact E.
      + cbn [app]. destruct (from_escape_code x) eqn:EX; [apply Hfin|]. cbn [okept]. right. rewrite off_more.
        eexists _, _. split; [reflexivity|]. split; reflexivity.
    - apply Hfin.
  Qed.

  Lemma kept_string_loop start : forall t acc esc, okept t (string_loop T start t acc esc) (string_loop T' start (t ++ m) acc esc).
  Proof.
    induction t as [|c t IH]; intros acc esc.
    { cbn [string_loop okept]. left. apply stuck_end. discriminate. }
    cbn [app string_loop]. destruct ((c =? c_bslash) && negb esc); [apply IH|]. destruct esc.
    - destruct (from_escape_code c); [apply IH|]. cbn [okept]. right. eexists _, _. split; [reflexivity|].
      change (c :: t ++ m) with ((c :: t) ++ m). rewrite off_more. split; reflexivity.
    - destruct (c =? c_dquote); [|apply IH]. cbn [okept]. right. reflexivity.
  Qed.

  (** An unclosed string can be closed, or is broken for good. *)
  Lemma string_loop_open start : forall t acc esc e r, string_loop T start t acc esc = (Err e, r) ->
    (exists more s', if esc then g_body s' (c_bslash :: t ++ more) else g_body s' (t ++ more)) \/
    exists e' r', string_loop T' start (t ++ m) acc esc = (Err e', r').
  Proof.
    induction t as [|c t IH]; intros acc esc e r; cbn [string_loop app].
    - intros _. left. destruct esc.
      + exists [110], [10]. constructor; [cbn; auto|constructor].
      + exists [], []. constructor.
    - destruct (c =? c_bslash) eqn:EB.
      + apply N.eqb_eq in EB. subst c. destruct esc; cbn [andb negb].
        * change (from_escape_code c_bslash) with (Some (92:N)). intro H. destruct (IH _ _ _ _ H) as [(more & s' & G)|R]; [|right; exact R].
          left. exists more, (92 :: s'). apply (GB_esc 92 c_bslash); [cbn; tauto|exact G].
        * intro H. destruct (IH _ _ _ _ H) as [(more & s' & G)|R]; [|right; exact R]. left. exists more, s'. exact G.
      + cbn [andb]. destruct esc.
        * destruct (from_escape_code c) eqn:EC.
          -- intro H. destruct (IH _ _ _ _ H) as [(more & s' & G)|R]; [|right; exact R]. apply In_escapes in EC.
             left. eexists more, (_ :: s'). apply GB_esc; [exact EC|exact G].
          -- intros _. right. eexists _, _. reflexivity.
        * destruct (c =? c_dquote) eqn:EQ; [discriminate|]. intro H. destruct (IH _ _ _ _ H) as [(more & s' & G)|R]; [|right; exact R].
          left. exists more, (c :: s'). apply N.eqb_neq in EB, EQ. now constructor.
  Qed.

  Lemma kept_string t : t <> [] -> okept t (parse_string T t) (parse_string T' (t ++ m)).
  Proof.
    intro N. unfold parse_string. rewrite off_more. destruct (token c_dquote t) as [[] t1] eqn:E; cbn [negb].
    - rewrite (token_app _ _ _ m E). cbn [negb]. apply kept_string_loop.
    - destruct (token_no _ _ _ m E N) as [-> ->]. cbn [negb okept]. eexists. reflexivity.
  Qed.

  Lemma take_digits_more : forall t seen ds seen' t', take_digits t seen = (ds, (seen', t')) ->
    if t' then exists ds' t'', take_digits (t ++ m) seen = (ds ++ ds', t'') /\ (seen' = true -> fst t'' = true /\ exists c, m = c ++ snd t'')
    else take_digits (t ++ m) seen = (ds, (seen', t' ++ m)).
  Proof.
    induction t as [|c t IH]; intros seen ds seen' t'; cbn [take_digits app].
    - intro H; injection H as <- <- <-. destruct (take_digits m seen) as [ds' t''] eqn:E. exists ds', t''. split; [reflexivity|]. intros ->.
      destruct t'' as [sn t'']. apply take_digits_sound in E as (x & EX & _ & [_ ->] & _). cbn [fst snd]. split; [reflexivity|]. exists x. exact EX.
    - destruct (is_digit c).
      + destruct (take_digits t true) as [a b] eqn:E. intro H; injection H as <- ->. specialize (IH _ _ _ _ E).
        destruct t' as [|x t'].
        * destruct IH as (ds' & t'' & E2 & H). rewrite E2. exists ds', t''. split; [reflexivity|exact H].
        * rewrite IH. reflexivity.
      + destruct (seen && (c =? c_under)); [apply IH|]. intro H; injection H as <- <- <-. reflexivity.
  Qed.

  Lemma digits_grow a b : digits_value a <= digits_value (a ++ b).
  Proof. rewrite digits_value_app. assert (10 ^ N.of_nat (length b) <> 0) by (apply N.pow_nonzero; discriminate). nia. Qed.

  Lemma kept_number t : suffix t s -> t <> [] -> okept t (parse_number T t) (parse_number T' (t ++ m)).
  Proof.
    intros SF N. unfold parse_number. rewrite off_more.
    assert (SG : exists pos sg t2, t = sg ++ t2 /\ (sg = [] \/ t2 = [] -> t2 = [] -> sg <> []) /\
      (let (plus, t1) := token c_plus t in if plus then (true, t1) else let (minus, t1') := token c_minus t1 in (negb minus, t1')) = (pos, t2) /\
      (let (plus, t1) := token c_plus (t ++ m) in if plus then (true, t1) else let (minus, t1') := token c_minus t1 in (negb minus, t1')) = (pos, t2 ++ m)).
    { destruct (token c_plus t) as [[] t1] eqn:E.
      - rewrite (token_app _ _ _ m E). apply token_true in E. exists true, [c_plus], t1. split; [exact E|]. split; [discriminate|]. split; reflexivity.
      - destruct (token_no _ _ _ m E N) as [-> ->]. destruct (token c_minus t) as [[] t1'] eqn:E2.
        + rewrite (token_app _ _ _ m E2). apply token_true in E2. exists false, [c_minus], t1'. split; [exact E2|]. split; [discriminate|]. split; reflexivity.
        + destruct (token_no _ _ _ m E2 N) as [-> ->]. exists true, [], t. split; [reflexivity|]. split; [congruence|]. split; reflexivity. }
    destruct SG as (pos & sg & t2 & Et & NE & H1 & H2).
    destruct (token c_plus t) as [plus t1]. destruct (token c_plus (t ++ m)) as [plus' t1'']. rewrite H1, H2. clear H1 H2.
    destruct (take_digits t2 false) as [ds [seen t3]] eqn:E3. pose proof (take_digits_more _ _ _ _ _ E3) as E4.
    pose proof E3 as E5. apply take_digits_sound in E5 as (c & E5 & _ & HC & _). cbn zeta.
    assert (LT : blen t <= T) by (destruct SF as [a E]; unfold T; rewrite E, blen_app; lia).
    destruct t3 as [|x t3].
    - destruct (N.eqb_spec (offset T []) (offset T t)) as [EQ|_].
      { exfalso. unfold offset in EQ. cbn [blen] in EQ. apply N. apply blen_0. lia. }
      destruct HC as [[-> ->]|[-> _]].
      { cbn [negb okept]. left. apply stuck_end. discriminate. }
      cbn [negb].
      destruct E4 as (ds' & [sn t''] & E4 & HS). destruct (HS eq_refl) as [HS1 [c' HS2]]. cbn [fst snd] in HS1, HS2. subst sn. rewrite E4.
      assert (NZ : offset T' t'' =? offset T t = false).
      { apply N.eqb_neq. unfold offset, T', T. pose proof LT as LT'. unfold T in LT'. rewrite blen_app.
        assert (blen t'' <= blen m) by (rewrite HS2, blen_app; lia). assert (blen t <> 0) by (intro Z; apply N; now apply blen_0). lia. }
      destruct pos.
      + unfold parse_u128. destruct (N.ltb_spec (digits_value ds) (2 ^ 128)); [left; reflexivity|]. cbn [okept]. right.
        rewrite NZ. cbn [negb]. pose proof (digits_grow ds ds'). destruct (N.ltb_spec (digits_value (ds ++ ds')) (2 ^ 128)); [lia|].
        eexists _, _. split; [reflexivity|]. split; reflexivity.
      + unfold parse_neg_i128. destruct (N.leb_spec (digits_value ds) (2 ^ 127)); [left; reflexivity|]. cbn [okept]. right.
        rewrite NZ. cbn [negb]. pose proof (digits_grow ds ds'). destruct (N.leb_spec (digits_value (ds ++ ds')) (2 ^ 127)); [lia|].
        eexists _, _. split; [reflexivity|]. split; reflexivity.
    - rewrite E4. rewrite off_more. destruct (offset T (x :: t3) =? offset T t); [cbn [okept]; eexists; reflexivity|].
      destruct (negb seen).
      { cbn [okept]. right. eexists _, _. split; [reflexivity|]. split; reflexivity. }
      destruct pos; [destruct (parse_u128 ds)|destruct (parse_neg_i128 ds)]; cbn [okept]; right; try reflexivity;
        (eexists _, _; split; [reflexivity|]; split; reflexivity).
  Qed.

  Lemma kept_bits t : t <> [] -> okept t (parse_bit_sequence T t) (parse_bit_sequence T' (t ++ m)).
  Proof.
    intro N. unfold parse_bit_sequence. rewrite off_more. destruct (token c_lt t) as [[] t1] eqn:E; cbn [negb].
    2:{ destruct (token_no _ _ _ m E N) as [-> ->]. cbn [negb okept]. eexists. reflexivity. }
    rewrite (token_app _ _ _ m E). cbn [negb]. destruct (take_while _ t1) as [bits t2] eqn:E2.
    destruct t2 as [|x t2].
    { cbn [token negb okept]. left. apply stuck_end. discriminate. }
    rewrite (take_while_more _ _ _ _ m E2) by discriminate. destruct (token c_gt (x :: t2)) as [[] t3] eqn:E3; cbn [negb].
    - rewrite (token_app _ _ _ m E3). cbn [negb okept]. right. reflexivity.
    - destruct (token_no _ _ _ m E3) as [-> ->]; [discriminate|]. cbn [negb okept]. right. rewrite off_more.
      eexists _, _. split; [reflexivity|]. split; reflexivity.
  Qed.

  Lemma kept_ident t : kept t (parse_ident U T t) (parse_ident U T' (t ++ m)).
  Proof.
    unfold parse_ident. rewrite off_more. destruct (take_while (is_alphabetic U) t) as [a t1] eqn:E.
    destruct t1 as [|x t1].
    - destruct a as [|c a].
      + apply take_while_spec in E as (-> & _). cbn [kept]. left. apply stuck_end. discriminate.
      + cbn [take_while kept]. left. reflexivity.
    - rewrite (take_while_more _ _ _ _ m E) by discriminate. destruct a as [|c a].
      + cbn [kept]. right. eexists _, _. split; [reflexivity|]. split; reflexivity.
      + destruct (take_while (fun c => is_alphanumeric U c || (c =? c_under)) (x :: t1)) as [b t2] eqn:E2.
        destruct t2 as [|y t2]; [cbn [kept]; left; reflexivity|]. rewrite (take_while_more _ _ _ _ m E2) by discriminate.
        cbn [kept]. right. reflexivity.
  Qed.

  Lemma kept_field_name t : kept t (parse_field_name U T t) (parse_field_name U T' (t ++ m)).
  Proof.
    unfold parse_field_name, one_of. pose proof (kept_ident t) as KI. destruct t as [|x t].
    - cbn [parse_string token negb]. unfold parse_string at 1. cbn [token negb]. unfold always at 1. cbn [parse_ident take_while].
      unfold parse_ident at 1. cbn [take_while kept]. left. apply stuck_end. discriminate.
    - pose proof (kept_string (x :: t)) as KS. specialize (KS ltac:(discriminate)).
      destruct (parse_string T (x :: t)) as [[a|[e|]] t'] eqn:E; cbn [okept] in KS.
      + cbn [kept]. destruct KS as [W|H]; [left; exact W|]. right. rewrite H. reflexivity.
      + cbn [kept]. destruct KS as [W|(e' & r' & H & SE)]; [left; exact W|]. right. rewrite H. eexists _, _. split; [reflexivity|exact SE].
      + destruct KS as [r' KS]. rewrite KS. unfold always. destruct (parse_ident U T (x :: t)) as [[a|e] t1]; cbn [kept] in KI |- *.
        * destruct KI as [W|H]; [left; exact W|]. right. rewrite H. reflexivity.
        * destruct KI as [W|(e' & r2 & H & SE)]; [left; exact W|]. right. rewrite H. eexists _, _. split; [reflexivity|exact SE].
  Qed.

  (** Behind a separator: all is the same, or the text ends there. *)
  Lemma sep_more c t ok t' : skip_spaced_separator c t = (ok, t') ->
    (ok = false /\ ws t /\ t' = []) \/ (ok = true /\ t' = [] /\ exists t2, skip_spaced_separator c (t ++ m) = (true, t2)) \/
    (t' <> [] /\ ~ ws t /\ skip_spaced_separator c (t ++ m) = (ok, t' ++ m)).
  Proof.
    unfold skip_spaced_separator. destruct (skip_whitespace t) as [|x u] eqn:E.
    { cbn [token]. intro H; injection H as <- <-. left. split; [reflexivity|]. split; [now apply skip_ws_nil|reflexivity]. }
    assert (NW : ~ ws t) by (intro W; apply ws_skip in W; congruence).
    rewrite skip_ws_more by (rewrite E; discriminate). rewrite E. destruct (token c (x :: u)) as [[] t2] eqn:E2.
    - rewrite (token_app _ _ _ m E2). intro H; injection H as <- <-. right. destruct (skip_whitespace t2) as [|y v] eqn:E3.
      + left. split; [reflexivity|]. split; [reflexivity|]. eexists. reflexivity.
      + right. split; [discriminate|]. split; [exact NW|]. rewrite skip_ws_more by (rewrite E3; discriminate). now rewrite E3.
    - destruct (token_no _ _ _ m E2) as [-> H2]; [discriminate|]. rewrite H2. intro H; injection H as <- <-. right. right.
      assert (ES : skip_whitespace (x :: u) = x :: u).
      { destruct (skip_ws_spec t) as (w & _ & _ & F). rewrite E in F. exact (skip_ws_app [] (x :: u) eq_refl F). }
      rewrite ES. split; [discriminate|]. split; [exact NW|]. rewrite skip_ws_more by (rewrite ES; discriminate). now rewrite ES.
  Qed.

  Lemma builtin_nil pv kf : exists r e, parse_builtin U T pv kf [] = (Err e, r) /\ stuck e.
  Proof.
    assert (HN : parse_number T [] = (Err None, [])) by (apply parse_number_none; exact I).
    unfold parse_builtin; cbn [one_of]; unfold omap; rewrite HN. eexists _, _. split; [reflexivity|]. apply stuck_end. discriminate.
  Qed.

  Section Rec.
    Context (pv pv' : str -> pres (value unit)).
    Context (Hpv : forall t, suffix t s -> kept t (pv t) (pv' (t ++ m))).
    Context (Hnil : exists e r, pv [] = (Err e, r) /\ stuck e).
    Context (Hsfx : forall t v t', pv t = (Ok v, t') -> suffix t' t).

    Lemma kept_field t : suffix t s -> kept t (parse_field_name_and_value U T pv t) (parse_field_name_and_value U T' pv' (t ++ m)).
    Proof.
      intro SF. unfold parse_field_name_and_value. pose proof (kept_field_name t) as KN. pose proof (good_field_name U s t SF) as [GN _].
      fold T in GN. destruct (parse_field_name U T t) as [[n|e] t1]; cbn [kept snd] in KN, GN.
      2:{ cbn [kept]. destruct KN as [W|(e' & r' & H & SE)]; [left; exact W|]. right. rewrite H. eexists _, _. split; [reflexivity|exact SE]. }
      destruct (skip_spaced_separator c_colon t1) as [ok t2] eqn:E. destruct (sep_more _ _ _ _ E) as [(-> & _ & ->)|[(-> & -> & t2' & E2)|(N & NW & E2)]].
      - cbn [negb kept]. left. apply stuck_end. discriminate.
      - cbn [negb]. destruct Hnil as (e & r & -> & ST). cbn [kept]. left. exact ST.
      - destruct KN as [W|KN]; [contradiction|]. rewrite KN, E2.
        assert (S2 : suffix t2 s) by (apply skip_spaced_suffix' in E; eauto using suffix_trans).
        destruct ok; cbn [negb].
        + pose proof (Hpv t2 S2) as K. destruct (pv t2) as [[v|e] t3]; cbn [kept] in K |- *.
          * destruct K as [W|H]; [left; exact W|]. right. rewrite H. reflexivity.
          * destruct K as [W|(e' & r' & H & SE)]; [left; exact W|]. right. rewrite H. eexists _, _. split; [reflexivity|exact SE].
        + cbn [kept]. right. rewrite off_more. eexists _, _. split; [reflexivity|]. split; reflexivity.
    Qed.

    Lemma field_nil : exists e r, parse_field_name_and_value U T pv [] = (Err e, r) /\ stuck e.
    Proof.
      unfold parse_field_name_and_value, parse_field_name, one_of. unfold parse_string at 1. cbn [token negb]. unfold always at 1.
      unfold parse_ident at 1. cbn [take_while]. eexists _, _. split; [reflexivity|]. apply stuck_end. discriminate.
    Qed.

    Lemma field_sfx t : suffix t s -> forall f t', parse_field_name_and_value U T pv t = (Ok f, t') -> suffix t' t.
    Proof.
      intros SF f t'. unfold parse_field_name_and_value. pose proof (good_field_name U s t SF) as [GN _].
      fold T in GN. destruct (parse_field_name U T t) as [[n|e] t1]; cbn [snd] in GN; [|discriminate].
      destruct (skip_spaced_separator c_colon t1) as [[] t2] eqn:E; cbn [negb]; [|discriminate]. apply skip_spaced_suffix' in E.
      destruct (pv t2) as [[v|e] t3] eqn:E3; [|discriminate]. intro H; injection H as <- <-. apply Hsfx in E3. eauto using suffix_trans.
    Qed.

    Section Items.
      Context {A : Type} (item item' : str -> pres A).
      Context (Hi : forall t, suffix t s -> kept t (item t) (item' (t ++ m))).
      Context (Hin : exists e r, item [] = (Err e, r) /\ stuck e).
      Context (His : forall t, suffix t s -> forall a t', item t = (Ok a, t') -> suffix t' t).

      Lemma kept_sep_rest kf : forall t acc, suffix t s -> kept t (sep_rest kf item t acc) (sep_rest kf item' (t ++ m) acc).
      Proof.
        induction kf as [|kf IH]; intros t acc SF; cbn [sep_rest].
        { cbn [kept]. left. right. reflexivity. }
        destruct (skip_spaced_separator c_comma t) as [ok t1] eqn:E. destruct (sep_more _ _ _ _ E) as [(-> & W & ->)|[(-> & -> & t2' & E2)|(N & NW & E2)]].
        - cbn [negb kept]. left. exact W.
        - cbn [negb]. destruct Hin as (e & r & -> & ST). cbn [kept]. left. exact ST.
        - rewrite E2. destruct ok; cbn [negb]; [|cbn [kept]; right; reflexivity].
          assert (S2 : suffix t1 s) by (apply skip_spaced_suffix' in E; eauto using suffix_trans).
          pose proof (Hi t1 S2) as K. pose proof (His t1 S2) as S3. destruct (item t1) as [[a|e] t2]; [specialize (S3 _ _ eq_refl)|clear S3]; cbn [kept] in K |- *.
          + destruct K as [W|H].
            * destruct kf as [|kf]; cbn [sep_rest kept]; [left; right; reflexivity|].
              unfold skip_spaced_separator at 1. rewrite (ws_skip _ W). cbn [token negb kept]. left. exact W.
            * rewrite H. apply IH. eauto using suffix_trans.
          + destruct K as [W|(e' & r' & H & SE)]; [left; exact W|]. right. rewrite H. eexists _, _. split; [reflexivity|exact SE].
      Qed.

      Lemma sep_rest_ws kf t acc : ws t -> (exists l, sep_rest kf item t acc = (Ok l, t)) \/ exists e r, sep_rest kf item t acc = (Err e, r) /\ stuck e.
      Proof.
        intro W. destruct kf as [|kf]; cbn [sep_rest].
        - right. eexists _, _. split; [reflexivity|]. right. reflexivity.
        - unfold skip_spaced_separator. rewrite (ws_skip _ W). cbn [token negb]. left. eexists. reflexivity.
      Qed.

      Lemma kept_delimited op cl kf t : suffix t s -> t <> [] ->
        okept t (parse_delimited T op cl kf item t) (parse_delimited T' op cl kf item' (t ++ m)).
      Proof.
        intros SF N. unfold parse_delimited. rewrite off_more. destruct (token op t) as [[] t1] eqn:E; cbn [negb].
        2:{ destruct (token_no _ _ _ m E N) as [-> ->]. cbn [negb okept]. eexists. reflexivity. }
        rewrite (token_app _ _ _ m E). cbn [negb]. apply token_suffix in E.
        pose proof (skip_ws_suffix t1) as SW. destruct (skip_whitespace t1) as [|x t2] eqn:E2.
        { cbn [token]. unfold sep_by at 1. destruct Hin as (e & r & -> & ST). cbn [okept]. left. exact ST. }
        rewrite skip_ws_more by (rewrite E2; discriminate). rewrite E2.
        assert (S2 : suffix (x :: t2) s) by eauto using suffix_trans.
        destruct (token cl (x :: t2)) as [[] t3] eqn:E3.
        { rewrite (token_app _ _ _ m E3). cbn [okept]. right. reflexivity. }
        destruct (token_no _ _ _ m E3) as [-> ->]; [discriminate|]. unfold sep_by.
        pose proof (Hi _ S2) as K. pose proof (His _ S2) as S3. destruct (item (x :: t2)) as [[a|e] t4]; [specialize (S3 _ _ eq_refl)|clear S3]; cbn [kept] in K.
        2:{ cbn [okept]. destruct K as [W|(e' & r' & H & SE)]; [left; exact W|]. right. rewrite H. eexists _, _. split; [reflexivity|exact SE]. }
        assert (END : forall (l : list A) t5, ws t5 -> okept t
            (let t6 := skip_whitespace t5 in let (ok, t7) := token cl t6 in
             if negb ok then (Err (Some (e_at_one (ECloser cl (offset T t)) (offset T t7))), t7) else (Ok l, t7))
            (match (match item' ((x :: t2) ++ m) with (Ok a0, t0) => sep_rest kf item' t0 [a0] | (Err e, _) => (Err e, (x :: t2) ++ m) end) with
             | (Ok l0, t0) => let t6 := skip_whitespace t0 in let (ok, t7) := token cl t6 in
                if negb ok then (Err (Some (e_at_one (ECloser cl (offset T t)) (offset T' t7))), t7) else (Ok l0, t7)
             | (Err e, t0) => (Err (Some e), t0) end)).
        { intros l t5 W. cbn zeta. rewrite (ws_skip _ W). cbn [token negb okept]. left. apply stuck_end. discriminate. }
        destruct K as [W|H].
        { destruct (sep_rest_ws kf t4 [a] W) as [(l & ->)|(e & r & -> & ST)]; [apply END; exact W|]. cbn [okept]. left. exact ST. }
        assert (S4 : suffix t4 s) by eauto using suffix_trans.
        pose proof (kept_sep_rest kf t4 [a] S4) as K. destruct (sep_rest kf item t4 [a]) as [[l|e] t5]; cbn [kept] in K.
        2:{ rewrite H. cbn [okept]. destruct K as [W|(e' & r' & H' & SE)]; [left; exact W|]. right. rewrite H'. eexists _, _. split; [reflexivity|exact SE]. }
        destruct K as [W|K]; [apply END; exact W|]. rewrite H, K. cbn zeta.
        destruct (skip_whitespace t5) as [|y t6] eqn:E5.
        { cbn [token negb okept]. left. apply stuck_end. discriminate. }
        rewrite skip_ws_more by (rewrite E5; discriminate). rewrite E5. destruct (token cl (y :: t6)) as [[] t7] eqn:E6; cbn [negb].
        - rewrite (token_app _ _ _ m E6). cbn [negb okept]. right. reflexivity.
        - destruct (token_no _ _ _ m E6) as [-> ->]; [discriminate|]. cbn [negb okept]. right. rewrite off_more.
          eexists _, _. split; [reflexivity|]. split; reflexivity.
      Qed.
    End Items.

    Lemma okept_omap {A B} (f : A -> B) a a' t : okept t (a t) (a' (t ++ m)) -> okept t (omap f a t) (omap f a' (t ++ m)).
    Proof.
      unfold omap. destruct (a t) as [[x|[e|]] t1]; cbn [okept rmap].
      - intros [W|H]; [left; exact W|]. right. rewrite H. reflexivity.
      - intros [W|(e' & r' & H & SE)]; [left; exact W|]. right. rewrite H. eexists _, _. split; [reflexivity|exact SE].
      - intros [r' H]. rewrite H. eexists. reflexivity.
    Qed.

    Lemma kept_comp kf t : suffix t s -> t <> [] ->
      okept t (parse_named_composite U T pv kf t) (parse_named_composite U T' pv' kf (t ++ m)) /\
      okept t (parse_unnamed_composite T pv kf t) (parse_unnamed_composite T' pv' kf (t ++ m)).
    Proof.
      intros SF N. split; apply okept_omap; apply kept_delimited; eauto using kept_field, field_nil, field_sfx.
    Qed.

    (** The name of a variant. *)
    Definition ident_kept (t : str) (r1 r2 : option (result str perr) * str) : Prop :=
      match r1 with
      | (Some (Ok n), t1) => (begins_variant U t /\ (ws t1 \/ exists u, t1 = c_dquote :: u)) \/ (t1 <> [] /\ ~ ws t1 /\ r2 = (Some (Ok n), t1 ++ m))
      | (Some (Err _), _) => False
      | (None, _) => exists r, r2 = (None, r)
      end.

    Lemma ws_dec t : ws t \/ t <> [] /\ ~ ws t.
    Proof. unfold ws. destruct (forallb is_whitespace t) eqn:E; [left; reflexivity|]. right. split; [intros ->; discriminate|discriminate]. Qed.

    Lemma ident_begins t n t1 : t <> [] -> parse_bool t = (Err None, t) -> parse_ident U T t = (Ok n, t1) -> ws t1 -> begins_variant U t.
    Proof.
      intros N HB H W. apply parse_ident_sound in H as (-> & G & _). split; [exact N|]. exists n, n, t1, []. split; [|split; [exact W|now rewrite app_nil_r]].
      unfold parse_bool, tokens in HB. constructor; [exact G| |]; intros [r ->].
      - rewrite <- app_assoc in HB. rewrite strip_prefix_app in HB. discriminate.
      - destruct (strip_prefix (s2l "true") ((s2l "false" ++ r) ++ t1)); [discriminate|]. rewrite <- app_assoc in HB. rewrite strip_prefix_app in HB. discriminate.
    Qed.

    Lemma ident_alone t : t <> [] -> parse_bool t = (Err None, t) ->
      ident_kept t (one_of [ok_of (parse_ident U T)] t) (one_of [ok_of (parse_ident U T')] (t ++ m)).
    Proof.
      intros N HB. unfold one_of, ok_of. pose proof (kept_ident t) as K. destruct (parse_ident U T t) as [[n|e] t1] eqn:E; cbn [kept] in K.
      - cbn [ident_kept]. destruct (ws_dec t1) as [W|[N1 NW]].
        + left. split; [|left; exact W]. eapply ident_begins; eauto.
        + right. destruct K as [W|K]; [contradiction|]. rewrite K. auto.
      - cbn [ident_kept]. unfold parse_ident in E |- *. destruct (take_while (is_alphabetic U) t) as [a t2] eqn:E2. destruct a as [|c a].
        + pose proof (take_while_spec _ _ _ _ E2) as (E3 & _ & _). cbn [app] in E3. subst t2.
          rewrite (take_while_more _ _ _ _ m E2 N). eexists. reflexivity.
        + destruct (take_while _ t2) as [b t3]. discriminate.
    Qed.

    Lemma kept_variant_ident t : t <> [] -> parse_bool t = (Err None, t) ->
      ident_kept t (parse_optional_variant_ident U T t) (parse_optional_variant_ident U T' (t ++ m)).
    Proof.
      intros N HB. pose proof (ident_alone t N HB) as IA. unfold parse_optional_variant_ident.
      assert (NO : forall p ps (u : str), (exists r, p u = (Err None, r)) -> @one_of str (p :: ps) u = one_of ps u).
      { intros p ps u [r E]. cbn [one_of]. now rewrite E. }
      destruct t as [|c t]; [congruence|].
      destruct (c =? c_v) eqn:EV.
      2:{ rewrite (NO (parse_i_string T)), (NO (parse_i_string T')); [exact IA| |]; unfold parse_i_string; cbn [app]; rewrite EV; eexists; reflexivity. }
      apply N.eqb_eq in EV. subst c. destruct t as [|q t].
      { rewrite NO by (eexists; reflexivity). assert (HI : parse_ident U T [c_v] = (Ok [c_v], [])) by reflexivity.
        cbn [one_of]. unfold ok_of. rewrite HI. cbn [ident_kept]. left. split; [|left; reflexivity]. eapply ident_begins; [exact N|exact HB|exact HI|reflexivity]. }
      assert (IS : forall T0 u, parse_i_string T0 (c_v :: u) = ok_of_o (parse_string T0) u) by reflexivity.
      pose proof (kept_string (q :: t)) as KS. specialize (KS ltac:(discriminate)).
      destruct (parse_string T (q :: t)) as [[n|e] t1] eqn:E.
      - cbn [okept] in KS. assert (H1 : forall ps, one_of (parse_i_string T :: ps) (c_v :: q :: t) = (Some (Ok n), t1)).
        { intro ps. cbn [one_of]. rewrite IS. unfold ok_of_o. now rewrite E. }
        rewrite H1. cbn [ident_kept]. destruct (ws_dec t1) as [W|[N1 NW]].
        + left. split; [|left; exact W]. split; [exact N|]. apply parse_string_sound in E as (x & E & G). rewrite E. exists n, (c_v :: x), t1, [].
          split; [now constructor|]. split; [exact W|]. now rewrite app_nil_r.
        + right. destruct KS as [W|KS]; [contradiction|]. split; [exact N1|]. split; [exact NW|]. cbn [one_of app]. rewrite IS. unfold ok_of_o.
          cbn [app] in KS. now rewrite KS.
      - assert (H1 : forall ps, one_of (parse_i_string T :: ps) (c_v :: q :: t) = one_of ps (c_v :: q :: t)).
        { intro ps. apply NO. rewrite IS. unfold ok_of_o. rewrite E. eexists. reflexivity. }
        rewrite H1. clear H1.
        assert (CS : (exists r, parse_i_string T' ((c_v :: q :: t) ++ m) = (Err None, r)) \/
                     q = c_dquote /\ exists more s', g_body s' (t ++ more)).
        { cbn [app]. rewrite IS. unfold ok_of_o. change (q :: t ++ m) with ((q :: t) ++ m). unfold parse_string in E |- *. rewrite off_more.
          destruct (token c_dquote (q :: t)) as [[] u] eqn:ET; cbn [negb] in E.
          - rewrite (token_app _ _ _ m ET). cbn [negb]. apply token_true in ET. injection ET as -> <-.
            destruct (string_loop_open _ _ _ _ _ _ E) as [(more & s' & G)|(e' & r' & G)]; [right; split; [reflexivity|eauto]|]. left. rewrite G. eexists. reflexivity.
          - destruct (token_no _ _ _ m ET) as [-> ->]; [discriminate|]. cbn [negb]. left. eexists. reflexivity. }
        destruct CS as [CS|(-> & more & s' & G)].
        + rewrite (NO (parse_i_string T')) by exact CS. exact IA.
        + assert (HI : parse_ident U T (c_v :: c_dquote :: t) = (Ok [c_v], c_dquote :: t)) by reflexivity.
          cbn [one_of]. unfold ok_of. rewrite HI. cbn [ident_kept]. left. split; [|right; eauto]. split; [exact N|].
          exists s', (c_v :: c_dquote :: (t ++ more) ++ [c_dquote]), [], (more ++ [c_dquote]). split.
          * constructor. exists (t ++ more). split; [exact G|reflexivity].
          * split; [reflexivity|]. rewrite app_nil_r, <- app_assoc. reflexivity.
    Qed.

    Lemma kept_variant kf t : suffix t s -> t <> [] -> parse_bool t = (Err None, t) ->
      okept t (parse_variant U T pv kf t) (parse_variant U T' pv' kf (t ++ m)) \/ (begins_variant U t /\ exists r, parse_variant U T pv kf t = (Err None, r)).
    Proof.
      intros SF N HB. pose proof (kept_variant_ident t N HB) as K. unfold parse_variant.
      pose proof (good_variant_ident U s t SF) as SI. fold T in SI.
      destruct (parse_optional_variant_ident U T t) as [[[n|e]|] t1]; cbn [ident_kept snd] in K, SI.
      - destruct K as [[BV [W|[u ->]]]|(N1 & NW & K)].
        + right. split; [exact BV|]. rewrite (ws_skip _ W). eexists. reflexivity.
        + right. split; [exact BV|]. assert (SK : skip_whitespace (c_dquote :: u) = c_dquote :: u) by (vm_compute; reflexivity). rewrite SK. eexists. reflexivity.
        + left. rewrite K. assert (N2 : skip_whitespace t1 <> []) by (intro E; apply NW; now apply skip_ws_nil).
          rewrite (skip_ws_more _ m N2). assert (S2 : suffix (skip_whitespace t1) s) by eauto using suffix_trans, skip_ws_suffix.
          destruct (kept_comp kf _ S2 N2) as [K1 K2]. cbn [one_of].
          destruct (parse_named_composite U T pv kf (skip_whitespace t1)) as [[c|[e|]] t3]; cbn [okept] in K1.
          { cbn [okept]. destruct K1 as [W|H]; [left; exact W|]. right. rewrite H. reflexivity. }
          { cbn [okept]. destruct K1 as [W|(e' & r' & H & SE)]; [left; exact W|]. right. rewrite H. eexists _, _. split; [reflexivity|exact SE]. }
          destruct K1 as [r' ->].
          destruct (parse_unnamed_composite T pv kf (skip_whitespace t1)) as [[c|[e|]] t4]; cbn [okept] in K2.
          { cbn [okept]. destruct K2 as [W|H]; [left; exact W|]. right. rewrite H. reflexivity. }
          { cbn [okept]. destruct K2 as [W|(e' & r2 & H & SE)]; [left; exact W|]. right. rewrite H. eexists _, _. split; [reflexivity|exact SE]. }
          destruct K2 as [r2 ->]. cbn [okept]. eexists. reflexivity.
      - destruct K.
      - destruct K as [r ->]. left. cbn [okept]. eexists. reflexivity.
    Qed.

    (** [true] and [false]. *)
    Lemma kept_bool t : t <> [] -> parse_bool t = (Err None, t) ->
      parse_bool (t ++ m) = (Err None, t ++ m) \/ exists x, x <> [] /\ (t ++ x = s2l "true" \/ t ++ x = s2l "false").
    Proof.
      intros N HB. unfold parse_bool, tokens in *.
      assert (SP : forall p, strip_prefix p t = None -> strip_prefix p (t ++ m) = None \/ exists x, x <> [] /\ t ++ x = p).
      { clear. intro p. revert t. induction p as [|c p IH]; intros t; cbn [strip_prefix]; [discriminate|]. destruct t as [|x t].
        - intros _. right. exists (c :: p). split; [discriminate|reflexivity].
        - cbn [app]. destruct (N.eqb_spec x c) as [->|NE]; [|left; reflexivity]. intro H. destruct (IH _ H) as [E|(x & N & E)]; [left; exact E|].
          right. exists x. split; [exact N|]. now rewrite <- E. }
      destruct (strip_prefix (s2l "true") t) eqn:E1; [discriminate|]. destruct (strip_prefix (s2l "false") t) eqn:E2; [discriminate|].
      destruct (SP _ E1) as [->|(x & NX & EX)]; [|right; eauto]. destruct (SP _ E2) as [->|(x & NX & EX)]; [|right; eauto]. left. reflexivity.
    Qed.

    Lemma kept_true t b t' : parse_bool t = (Ok b, t') -> parse_bool (t ++ m) = (Ok b, t' ++ m).
    Proof.
      unfold parse_bool, tokens. assert (SP : forall p u, strip_prefix p t = Some u -> strip_prefix p (t ++ m) = Some (u ++ m)).
      { intros p u H. apply strip_prefix_some in H as ->. rewrite <- app_assoc. apply strip_prefix_app. }
      destruct (strip_prefix (s2l "true") t) eqn:E1.
      - intro H; injection H as <- <-. now rewrite (SP _ _ E1).
      - destruct (strip_prefix (s2l "false") t) eqn:E2; [|discriminate]. intro H; injection H as <- <-.
        apply strip_prefix_some in E2 as ->. rewrite (SP _ _ (strip_prefix_app _ _)).
        reflexivity.
    Qed.

    (** The words that could become one of these. *)
    Lemma word_prefix t x p : t <> [] -> t ++ x = p -> p = s2l "true" \/ p = s2l "false" -> x <> [] -> begins_variant U t.
    Proof.
      intros N E HP NX. split; [exact N|].
      assert (G : exists c r, t = c :: r /\ is_ascii_alpha c = true /\ c < 128 /\ forallb (fun c => is_ascii_alpha c && (c <? 128)) r = true).
      { assert (A : forallb (fun c => is_ascii_alpha c && (c <? 128)) (t ++ x) = true) by (rewrite E; destruct HP as [->| ->]; reflexivity).
        rewrite forallb_app in A. apply andb_true_iff in A as [A _]. destruct t as [|c r]; [congruence|]. cbn [forallb] in A. apply andb_true_iff in A as [A1 A2].
        apply andb_true_iff in A1 as [A1 A3]. exists c, r. apply N.ltb_lt in A3. auto. }
      destruct G as (c & r & Et & A & LT & HR).
      exists t, t, [], []. rewrite !app_nil_r. split; [|split; [reflexivity|reflexivity]]. constructor.
      - exists c, r. split; [exact Et|]. unfold is_alphabetic at 1. apply N.ltb_lt in LT. rewrite LT. split; [exact A|].
        rewrite forallb_forall in HR |- *. intros y IN. specialize (HR y IN). apply andb_true_iff in HR as [H1 H2].
        unfold is_alphanumeric, is_alphabetic. rewrite H2, H1. reflexivity.
      - intros [r' E2]. rewrite E2 in E. destruct HP as [->| ->]; [|discriminate].
        apply (f_equal (@length _)) in E. rewrite !app_length in E. destruct x; [congruence|cbn [length] in E; lia].
      - intros [r' E2]. rewrite E2 in E. destruct HP as [->| ->]; [discriminate|].
        apply (f_equal (@length _)) in E. rewrite !app_length in E. destruct x; [congruence|cbn [length] in E; lia].
    Qed.

    Lemma stuck_begins t l : suffix t s -> begins_variant U t -> stuck (PErr (offset T t) l EExpectedValue).
    Proof.
      intros [a E] BV. left. right. split; [reflexivity|]. exists a, t. split; [exact E|]. split; [|exact BV]. cbn [start_loc]. unfold offset, T. rewrite E, blen_app. lia.
    Qed.

    Definition skept {A} (r1 r2 : option (result A perr) * str) : Prop :=
      match r1 with
      | (Some (Ok a), t') => ws t' \/ r2 = (Some (Ok a), t' ++ m)
      | (Some (Err e), _) => stuck e \/ exists e' r', r2 = (Some (Err e'), r') /\ same_error e e'
      | (None, _) => False
      end.

    Lemma one_of_kept {A} (t : str) (alts alts' : list (alt A)) (w w' : list (alt A)) : Forall2 (fun a a' => okept t (a t) (a' (t ++ m))) alts alts' ->
      skept (one_of (alts ++ w) t) (one_of (alts' ++ w') (t ++ m)) \/
      (one_of (alts ++ w) t = one_of w t /\ one_of (alts' ++ w') (t ++ m) = one_of w' (t ++ m)).
    Proof.
      induction 1 as [|a a' alts alts' H HF IH]; cbn [app one_of]; [right; split; reflexivity|].
      destruct (a t) as [[x|[e|]] t']; cbn [okept] in H.
      - left. cbn [skept]. destruct H as [W|H]; [left; exact W|]. right. rewrite H. reflexivity.
      - left. cbn [skept]. destruct H as [W|(e' & r' & H & SE)]; [left; exact W|]. right. rewrite H. eexists _, _. split; [reflexivity|exact SE].
      - destruct H as [r' H]. rewrite H. exact IH.
    Qed.

    Lemma word_fails kf t x : t <> [] -> x <> [] -> t ++ x = s2l "true" \/ t ++ x = s2l "false" ->
      exists r, parse_builtin U T pv kf t = (Err (e_at EExpectedValue (offset T t)), r).
    Proof.
      intros N NX HW.
      assert (HL : In t (map s2l ["t"; "tr"; "tru"; "f"; "fa"; "fal"; "fals"]%string)).
      { assert (EN : forall p (a b : str), a ++ b = p -> a = firstn (length a) p /\ (length a + length b)%nat = length p).
        { intros p a b <-. split; [now rewrite firstn_app, Nat.sub_diag, firstn_all, app_nil_r|now rewrite app_length]. }
        assert (length t <> O) by (destruct t; [congruence|discriminate]). assert (length x <> O) by (destruct x; [congruence|discriminate]).
        destruct HW as [E|E]; apply EN in E as [E L]; change (length (s2l "true")) with 4%nat in L || change (length (s2l "false")) with 5%nat in L;
          remember (length t) as n; do 5 (destruct n as [|n]; [try lia; rewrite E; vm_compute; tauto|]); lia. }
      cbn [In map] in HL. destruct HL as [HL|[HL|[HL|[HL|[HL|[HL|[HL|[]]]]]]]];
        (assert (HN : parse_number T t = (Err None, t)) by (rewrite <- HL; apply parse_number_none; reflexivity);
         unfold parse_builtin; cbn [one_of]; unfold omap; rewrite HN; rewrite <- HL; eexists; reflexivity).
    Qed.

    Lemma kept_builtin kf t : suffix t s -> kept t (parse_builtin U T pv kf t) (parse_builtin U T' pv' kf (t ++ m)).
    Proof.
      intro SF. destruct t as [|x t0].
      { destruct (builtin_nil pv kf) as (r & e & H & ST). rewrite H. cbn [kept]. left. exact ST. }
      assert (N : x :: t0 <> []) by discriminate. set (t := x :: t0) in *. clearbody t. clear x t0.
      destruct (bool_cases t) as [(b & tb & E)|HB].
      { unfold parse_builtin. cbn [one_of]. unfold omap. rewrite E, (kept_true _ _ _ E). cbn [rmap kept]. right. reflexivity. }
      destruct (kept_bool t N HB) as [HB'|(x & NX & HW)].
      2:{ destruct (word_fails kf t x N NX HW) as [r H]. rewrite H. cbn [kept]. left. apply stuck_begins; [exact SF|]. destruct HW as [HW|HW]; eapply word_prefix; eauto. }
      unfold parse_builtin.
      pose (A := [omap vbool parse_bool; omap vchar (parse_char T); omap vstring (parse_string T); omap primitive (parse_number T);
                  omap (fun c => without_context (DComposite c)) (parse_named_composite U T pv kf);
                  omap (fun c => without_context (DComposite c)) (parse_unnamed_composite T pv kf); omap bit_sequence (parse_bit_sequence T)]).
      pose (A' := [omap vbool parse_bool; omap vchar (parse_char T'); omap vstring (parse_string T'); omap primitive (parse_number T');
                  omap (fun c => without_context (DComposite c)) (parse_named_composite U T' pv' kf);
                  omap (fun c => without_context (DComposite c)) (parse_unnamed_composite T' pv' kf); omap bit_sequence (parse_bit_sequence T')]).
      change (kept t (match one_of (A ++ [parse_variant U T pv kf]) t with (Some (Ok v), t') => (Ok v, t') | (Some (Err e), t') => (Err e, t') | (None, t') => (Err (e_at EExpectedValue (offset T t')), t') end)
                     (match one_of (A' ++ [parse_variant U T' pv' kf]) (t ++ m) with (Some (Ok v), t') => (Ok v, t') | (Some (Err e), t') => (Err e, t') | (None, t') => (Err (e_at EExpectedValue (offset T' t')), t') end)).
      assert (HF : Forall2 (fun a a' => okept t (a t) (a' (t ++ m))) A A').
      { unfold A, A'. destruct (kept_comp kf t SF N) as [K1 K2]. repeat apply Forall2_cons; try apply Forall2_nil; apply okept_omap; auto using kept_char, kept_string, kept_number, kept_bits.
        rewrite HB, HB'. eexists. reflexivity. }
      destruct (one_of_kept t A A' [parse_variant U T pv kf] [parse_variant U T' pv' kf] HF) as [K|[K K']].
      - destruct (one_of (A ++ _) t) as [[[v|e]|] t']; cbn [skept kept] in K |- *.
        + destruct K as [W|K]; [left; exact W|]. right. rewrite K. reflexivity.
        + destruct K as [W|(e' & r' & H & SE)]; [left; exact W|]. right. rewrite H. eexists _, _. split; [reflexivity|exact SE].
        + destruct K.
      - rewrite K, K'. clear K K'. cbn [one_of]. destruct (kept_variant kf t SF N HB) as [K|[BV [r K]]].
        2:{ rewrite K. cbn [kept]. left. apply stuck_begins; assumption. }
        destruct (parse_variant U T pv kf t) as [[v|[e|]] t']; cbn [okept kept] in K |- *.
        + destruct K as [W|K]; [left; exact W|]. right. rewrite K. reflexivity.
        + destruct K as [W|(e' & r' & H & SE)]; [left; exact W|]. right. rewrite H. eexists _, _. split; [reflexivity|exact SE].
        + destruct K as [r' ->]. right. rewrite off_more. eexists _, _. split; [reflexivity|]. split; reflexivity.
    Qed.
  End Rec.

  Lemma pv_nil k : exists e r, parse_value U T [] k [] = (Err e, r) /\ stuck e.
  Proof.
    destruct k as [|k]; cbn [parse_value run_customs].
    - eexists _, _. split; [reflexivity|]. right. reflexivity.
    - destruct (builtin_nil (parse_value U T [] k) k) as (r & e & H & ST). eauto.
  Qed.

  Lemma pv_sfx k t v t' : parse_value U T [] k t = (Ok v, t') -> suffix t' t.
  Proof. intro H. eapply (value_sound U T [] no_custom) in H as (x & -> & _); [now exists x|]. intros t0 v0 cur H0. discriminate. Qed.

  Lemma kept_value k : forall t, suffix t s -> kept t (parse_value U T [] k t) (parse_value U T' [] k (t ++ m)).
  Proof.
    induction k as [|k IH]; intros t SF; cbn [parse_value run_customs].
    - cbn [kept]. left. right. reflexivity.
    - apply kept_builtin; eauto using pv_nil, pv_sfx.
  Qed.
End Final.

(** ** A text that was cut short can be finished *)
Section Finish.
  Context (U : unicode) (s : str).
  Let T := blen s.
  Let X := no_custom.

  Definition short_here (e : perr) : Prop := err e <> EFuel /\ cut_short U s e.

  Lemma short_end t l k : suffix t s -> k <> EExpectedValue -> short_here (PErr (offset T t) l k) -> t = [] /\ (k = ECharEscape -> exists a, s = a ++ [c_bslash]).
  Proof.
    intros [a E] N [_ [[H1 H2]|[H _]]]; cbn [start_loc err] in *; [|congruence]. split; [|exact H2].
    unfold offset, T in H1. rewrite E, blen_app in H1. apply blen_0. lia.
  Qed.

  Lemma short_string start : forall t acc esc e r, suffix t s -> string_loop T start t acc esc = (Err (Some e), r) -> short_here e ->
    exists more s', if esc then g_body s' (c_bslash :: t ++ more) else g_body s' (t ++ more).
  Proof.
    induction t as [|c t IH]; intros acc esc e r SF; cbn [string_loop app].
    - intros _ _. destruct esc.
      + exists [110], [10]. constructor; [cbn; auto|constructor].
      + exists [], []. constructor.
    - assert (SF' : suffix t s) by (eapply suffix_trans; [apply suffix_cons|exact SF]). destruct (c =? c_bslash) eqn:EB.
      + apply N.eqb_eq in EB. subst c. destruct esc; cbn [andb negb].
        * change (from_escape_code c_bslash) with (Some (92:N)). intros H SH. destruct (IH _ _ _ _ SF' H SH) as (more & s' & G).
          exists more, (92 :: s'). apply (GB_esc 92 c_bslash); [cbn; tauto|exact G].
        * intros H SH. destruct (IH _ _ _ _ SF' H SH) as (more & s' & G). exists more, s'. exact G.
      + cbn [andb]. destruct esc.
        * destruct (from_escape_code c) eqn:EC.
          -- intros H SH. destruct (IH _ _ _ _ SF' H SH) as (more & s' & G). apply In_escapes in EC.
             eexists more, (_ :: s'). apply GB_esc; [exact EC|exact G].
          -- intros H SH. injection H as <- _. apply short_end in SH as [E _]; [discriminate|exact SF|discriminate].
        * destruct (c =? c_dquote) eqn:EQ; [discriminate|]. intros H SH. destruct (IH _ _ _ _ SF' H SH) as (more & s' & G).
          exists more, (c :: s'). apply N.eqb_neq in EB, EQ. now constructor.
  Qed.

  Lemma finish_string t e r : suffix t s -> parse_string T t = (Err (Some e), r) -> short_here e -> exists more n, g_string n (t ++ more).
  Proof.
    intros SF. unfold parse_string. destruct (token c_dquote t) as [[] t1] eqn:E; cbn [negb]; [|discriminate]. apply token_true in E as ->.
    intros H SH. assert (SF' : suffix t1 s) by (eapply suffix_trans; [apply suffix_cons|exact SF]).
    destruct (short_string _ _ _ _ _ _ SF' H SH) as (more & s' & G). exists (more ++ [c_dquote]), s', (t1 ++ more). split; [exact G|].
    cbn [app]. now rewrite <- app_assoc.
  Qed.

  Lemma finish_char t e r : suffix t s -> parse_char T t = (Err (Some e), r) -> short_here e -> exists more c, g_char c (t ++ more).
  Proof.
    intros SF. unfold parse_char. destruct (token c_squote t) as [[] t1] eqn:E; cbn [negb]; [|discriminate]. apply token_true in E as ->.
    destruct t1 as [|c t2].
    { intros _ _. exists [97; c_squote], 97. constructor. discriminate. }
    assert (SF2 : suffix t2 s) by (eapply suffix_trans; [|exact SF]; exists [c_squote; c]; reflexivity).
    assert (Hfin : forall (c' : char) (x : str) (t3 : str), suffix t3 s -> c_squote :: c :: t2 = x ++ t3 -> g_char c' (x ++ [c_squote]) ->
              (let (ok, t4) := token c_squote t3 in
               if negb ok then (Err (Some (e_at_one (ECharClose (offset T (c_squote :: c :: t2))) (offset T t4))), t4) else (Ok c', t4)) = (Err (Some e), r) ->
              short_here e -> exists more c0, g_char c0 ((c_squote :: c :: t2) ++ more)).
    { intros c' x t3 SF3 Et G. destruct (token c_squote t3) as [[] t4] eqn:E; cbn [negb]; [discriminate|]. apply token_false in E as [-> _].
      intro H; injection H as <- <-. intro SH. apply short_end in SH as [-> _]; [|exact SF3|discriminate]. rewrite app_nil_r in Et.
      exists [c_squote], c'. now rewrite Et. }
    destruct (N.eqb_spec c c_bslash) as [->|NB].
    - destruct t2 as [|x t3].
      + intros _ _. exists [110; c_squote], 10. apply (GC_esc 10 110). cbn. tauto.
      + assert (SF3 : suffix t3 s) by (eapply suffix_trans; [apply suffix_cons|exact SF2]). destruct (from_escape_code x) as [c0|] eqn:EX.
        * apply (Hfin c0 [c_squote; c_bslash; x] t3 SF3 eq_refl). apply (GC_esc c0 x). now apply In_escapes.
        * intro H; injection H as <- <-. intro SH. apply short_end in SH as [-> SH]; [|exact SF3|discriminate]. destruct (SH eq_refl) as [a Ea].
          destruct SF as [b Eb]. rewrite Ea in Eb. change (c_squote :: c_bslash :: [x]) with ([c_squote; c_bslash] ++ [x]) in Eb. rewrite app_assoc in Eb.
          apply app_inj_tail in Eb as [_ <-]. discriminate.
    - apply (Hfin c [c_squote; c] t2 SF2 eq_refl). now constructor.
  Qed.

  Lemma zero_digits : g_digits 0 [c_0].
  Proof. exists c_0, []. split; [reflexivity|]. split; [reflexivity|]. split; reflexivity. Qed.

  Lemma finish_number t e r : suffix t s -> parse_number T t = (Err (Some e), r) -> short_here e -> exists more p, g_number p (t ++ more).
  Proof.
    intros SF. unfold parse_number.
    assert (SG : exists pos sg t2, t = sg ++ t2 /\ (exists p, g_number p (sg ++ [c_0])) /\
      (let (plus, t1) := token c_plus t in if plus then (true, t1) else let (minus, t1') := token c_minus t1 in (negb minus, t1')) = (pos, t2)).
    { destruct (token c_plus t) as [[] t1] eqn:E.
      - apply token_true in E. exists true, [c_plus], t1. split; [exact E|]. split; [|reflexivity]. eexists. apply GN_plus; [exact zero_digits|reflexivity].
      - apply token_false in E as [-> _]. destruct (token c_minus t) as [[] t1'] eqn:E2.
        + apply token_true in E2. exists false, [c_minus], t1'. split; [exact E2|]. split; [|reflexivity]. eexists. apply GN_minus; [exact zero_digits|discriminate].
        + apply token_false in E2 as [-> _]. exists true, [], t. split; [reflexivity|]. split; [|reflexivity]. eexists. apply GN_plain; [exact zero_digits|reflexivity]. }
    destruct SG as (pos & sg & t2 & Et & [p G] & H1). destruct (token c_plus t) as [plus t1]. rewrite H1. clear H1.
    destruct (take_digits t2 false) as [ds [seen t3]] eqn:E3. apply take_digits_sound in E3 as (c & E5 & _ & HC & _). cbn zeta.
    destruct (N.eqb_spec (offset T t3) (offset T t)) as [|NE]; [discriminate|].
    assert (SF3 : suffix t3 s) by (eapply suffix_trans; [|exact SF]; exists (sg ++ c); rewrite Et, E5; now rewrite app_assoc).
    assert (BAD : forall l, short_here (PErr (offset T t) l ENumFailed) -> False).
    { intros l SH. apply short_end in SH as [-> _]; [|exact SF|discriminate]. destruct sg; [|discriminate]. cbn [app] in Et. subst t2.
      symmetry in E5. apply app_eq_nil in E5 as [_ ->]. congruence. }
    destruct seen; cbn [negb].
    - destruct pos; [destruct (parse_u128 ds)|destruct (parse_neg_i128 ds)]; try discriminate; intro H; injection H as <- <-; intro SH; destruct (BAD _ SH).
    - intro H; injection H as <- <-. intro SH. apply short_end in SH as [-> _]; [|exact SF3|discriminate]. destruct HC as [[-> _]|[? _]]; [|discriminate].
      cbn [app] in E5. subst t2. rewrite app_nil_r in Et. subst t. exists [c_0], p. exact G.
  Qed.

  Lemma finish_bits t e r : suffix t s -> parse_bit_sequence T t = (Err (Some e), r) -> short_here e ->
    exists more b, t ++ more = [c_lt] ++ map (fun x : bool => if x then c_1 else c_0) b ++ [c_gt].
  Proof.
    intro SF. unfold parse_bit_sequence. destruct (token c_lt t) as [[] t1] eqn:E; cbn [negb]; [|discriminate]. apply token_true in E as ->.
    destruct (take_while _ t1) as [bits t2] eqn:E2. apply take_while_spec in E2 as (E2 & HB & _).
    destruct (token c_gt t2) as [[] t3] eqn:E3; cbn [negb]; [discriminate|]. apply token_false in E3 as [-> _]. intro H; injection H as <- <-. intro SH.
    apply short_end in SH as [-> _]; [| |discriminate].
    2:{ eapply suffix_trans; [|exact SF]. exists (c_lt :: bits). rewrite E2. reflexivity. }
    rewrite app_nil_r in E2. subst t1. exists [c_gt], (map (fun c => c =? c_1) bits). cbn [app]. f_equal. f_equal. rewrite map_map.
    symmetry. rewrite <- (map_id bits) at 2. apply map_ext_in. intros c IN. rewrite forallb_forall in HB. specialize (HB c IN).
    destruct (c =? c_1) eqn:E1; [apply N.eqb_eq in E1; now rewrite E1|]. rewrite orb_false_r in HB. apply N.eqb_eq in HB. now rewrite HB.
  Qed.

  Lemma finish_field_name t e r : suffix t s -> parse_field_name U T t = (Err e, r) -> short_here e -> exists more n, g_field_name U n (t ++ more).
  Proof.
    intro SF. unfold parse_field_name, one_of. destruct (parse_string T t) as [[n|[e'|]] t1] eqn:E; [discriminate| |].
    - intro H; injection H as -> ->. intro SH. destruct (finish_string _ _ _ SF E SH) as (more & n & G). exists more, n. now constructor.
    - unfold always, parse_ident. destruct (take_while (is_alphabetic U) t) as [a t2] eqn:E2. destruct a as [|c a].
      + apply take_while_spec in E2 as (E2 & _ & _). cbn [app] in E2. subst t2. intro H; injection H as <- <-. intro SH.
        apply short_end in SH as [-> _]; [|exact SF|discriminate]. exists [97], [97]. constructor. exists 97, []. split; [reflexivity|]. split; reflexivity.
      + destruct (take_while _ t2) as [b t3]. discriminate.
  Qed.

  Lemma zero_val : g_val U X (vu128 0) [c_0].
  Proof. apply (G_number U X (PU128 0)). apply GN_plain; [exact zero_digits|reflexivity]. Qed.

  Section FRec.
    Context (pv : str -> pres (value unit)).
    Context (Hpv : forall t v t', pv t = (Ok v, t') -> exists x, t = x ++ t' /\ g_val U X v x).
    Context (Hfin : forall t e r, suffix t s -> pv t = (Err e, r) -> short_here e -> exists more v, g_val U X v (t ++ more)).

    (** The two kinds of lists. *)
    Section FItems.
      Context {A : Type} (item : str -> pres A) (G1 Gs : str -> Prop).
      Context (Hone : forall x, G1 x -> Gs x).
      Context (Hcons : forall x w1 w2 y, G1 x -> ws w1 -> ws w2 -> Gs y -> Gs (x ++ w1 ++ [c_comma] ++ w2 ++ y)).
      Context (Hs : forall t a t', item t = (Ok a, t') -> exists x, t = x ++ t' /\ G1 x).
      Context (Hf : forall t e r, suffix t s -> item t = (Err e, r) -> short_here e -> exists more, G1 (t ++ more)).

      Lemma list_sound kf : forall t acc l t', sep_rest kf item t acc = (Ok l, t') -> forall x, G1 x -> exists c, t = c ++ t' /\ Gs (x ++ c).
      Proof.
        induction kf as [|kf IH]; intros t acc l t'; cbn [sep_rest]; [discriminate|].
        destruct (skip_spaced_separator c_comma t) as [[] t1] eqn:E; cbn [negb].
        - apply skip_spaced_true in E as (w1 & w2 & -> & W1 & W2 & _). destruct (item t1) as [[a|e] t2] eqn:E2; [|discriminate].
          apply Hs in E2 as (y & -> & Hy). intros H x Hx. destruct (IH _ _ _ _ H y Hy) as (c & -> & HG).
          exists (w1 ++ [c_comma] ++ w2 ++ y ++ c). split; [repeat rewrite <- app_assoc; reflexivity|]. now apply Hcons.
        - intros H x Hx. injection H as _ <-. exists []. rewrite app_nil_r. split; [reflexivity|]. now apply Hone.
      Qed.

      Lemma list_finish kf : forall t acc e r, suffix t s -> sep_rest kf item t acc = (Err e, r) -> err e <> EFuel -> short_here e ->
        forall x, G1 x -> exists more, Gs (x ++ t ++ more).
      Proof.
        induction kf as [|kf IH]; intros t acc e r SF; cbn [sep_rest].
        { intro H; injection H as <- _. intro NF. now destruct NF. }
        destruct (skip_spaced_separator c_comma t) as [[] t1] eqn:E; cbn [negb]; [|discriminate].
        assert (SF1 : suffix t1 s) by (apply skip_spaced_suffix' in E; eauto using suffix_trans).
        apply skip_spaced_true in E as (w1 & w2 & Et & W1 & W2 & _). destruct (item t1) as [[a|e'] t2] eqn:E2.
        - apply Hs in E2 as (y & -> & Hy). intros H NF SH x Hx.
          destruct (IH t2 (a :: acc) e r) with (x := y) as [more HG]; auto; [eapply suffix_trans; [|exact SF1]; now exists y|].
          exists more. pose proof (Hcons _ _ _ _ Hx W1 W2 HG) as R. rewrite Et. repeat rewrite <- app_assoc in *. exact R.
        - intro H; injection H as -> _. intros NF SH x Hx. destruct (Hf _ _ _ SF1 E2 SH) as [more HG]. exists more.
          pose proof (Hcons _ _ _ _ Hx W1 W2 (Hone _ HG)) as R. rewrite Et. repeat rewrite <- app_assoc in *. exact R.
      Qed.

      Context (GC : str -> Prop) (op cl : char).
      Context (Hc : forall w1 x w2, ws w1 -> Gs x -> ws w2 -> GC ([op] ++ w1 ++ x ++ w2 ++ [cl])).

      Lemma delimited_finish kf t e r : suffix t s -> parse_delimited T op cl kf item t = (Err (Some e), r) -> err e <> EFuel -> short_here e ->
        exists more, GC (t ++ more).
      Proof.
        intros SF. unfold parse_delimited. destruct (token op t) as [[] t1] eqn:E; cbn [negb]; [|discriminate]. apply token_true in E as ->.
        destruct (skip_ws_spec t1) as (w & Et & W & _). set (t2 := skip_whitespace t1) in *. clearbody t2.
        assert (SF2 : suffix t2 s) by (eapply suffix_trans; [|exact SF]; exists (op :: w); rewrite Et; reflexivity).
        destruct (token cl t2) as [[] t3] eqn:E3; [discriminate|]. apply token_false in E3 as [-> _]. unfold sep_by.
        destruct (item t2) as [[a|e'] t4] eqn:E4.
        2:{ intro H; injection H as -> _. intros NF SH. destruct (Hf _ _ _ SF2 E4 SH) as [more HG]. exists (more ++ [cl]).
            pose proof (Hc _ _ [] W (Hone _ HG) eq_refl) as R. rewrite Et. cbn [app] in *. repeat rewrite <- app_assoc in *. exact R. }
        apply Hs in E4 as (x & -> & Hx). assert (SF4 : suffix t4 s) by (eapply suffix_trans; [|exact SF2]; now exists x).
        destruct (sep_rest kf item t4 [a]) as [[l|e'] t5] eqn:E5.
        2:{ intro H; injection H as -> _. intros NF SH. destruct (list_finish _ _ _ _ _ SF4 E5 NF SH x Hx) as [more HG]. exists (more ++ [cl]).
            pose proof (Hc _ _ [] W HG eq_refl) as R. rewrite Et. cbn [app] in *. repeat rewrite <- app_assoc in *. exact R. }
        apply list_sound with (x := x) in E5 as (c & -> & HG); [|exact Hx].
        destruct (skip_ws_spec t5) as (w2 & Et5 & W2 & _). destruct (token cl (skip_whitespace t5)) as [[] t6] eqn:E6; cbn [negb]; [discriminate|].
        apply token_false in E6 as [-> _]. intro H; injection H as <- _. intros _ SH. apply short_end in SH as [E6 _]; [| |discriminate].
        2:{ eapply suffix_trans; [apply skip_ws_suffix|]. eapply suffix_trans; [|exact SF4]. now exists c. }
        rewrite E6, app_nil_r in Et5. subst t5. exists [cl]. pose proof (Hc _ _ _ W HG W2) as R. rewrite Et. cbn [app] in *. repeat rewrite <- app_assoc in *. exact R.
      Qed.
    End FItems.

    Definition g_field (x : str) : Prop := exists n v nt w1 w2 vt, x = nt ++ w1 ++ [c_colon] ++ w2 ++ vt /\ g_field_name U n nt /\ ws w1 /\ ws w2 /\ g_val U X v vt.

    Lemma field_finish t e r : suffix t s -> parse_field_name_and_value U T pv t = (Err e, r) -> short_here e -> exists more, g_field (t ++ more).
    Proof.
      intro SF. unfold parse_field_name_and_value. pose proof (good_field_name U s t SF) as [GN _]. fold T in GN.
      destruct (parse_field_name U T t) as [[n|e'] t1] eqn:E; cbn [snd] in GN.
      2:{ intro H; injection H as -> _. intro SH. destruct (finish_field_name _ _ _ SF E SH) as (more & n & G). exists (more ++ [c_colon; c_0]).
          exists n, (vu128 0), (t ++ more), [], [], [c_0]. split; [now rewrite <- app_assoc|]. split; [exact G|]. split; [reflexivity|]. split; [reflexivity|]. exact zero_val. }
      apply field_name_sound in E as (nt & -> & G). assert (SF1 : suffix t1 s) by eauto using suffix_trans.
      destruct (skip_spaced_separator c_colon t1) as [[] t2] eqn:E2; cbn [negb].
      - assert (SF2 : suffix t2 s) by (apply skip_spaced_suffix' in E2; eauto using suffix_trans).
        apply skip_spaced_true in E2 as (w1 & w2 & -> & W1 & W2 & _). destruct (pv t2) as [[v|e'] t3] eqn:E3; [discriminate|].
        intro H; injection H as -> _. intro SH. destruct (Hfin _ _ _ SF2 E3 SH) as (more & v & GV). exists more, n, v, nt, w1, w2, (t2 ++ more).
        split; [repeat rewrite <- app_assoc; reflexivity|]. auto.
      - intro H; injection H as <- _. intro SH. assert (SF2 : suffix t2 s) by (apply skip_spaced_suffix' in E2; eauto using suffix_trans).
        apply short_end in SH as [-> _]; [|exact SF2|discriminate]. destruct (sep_more [c_0] _ _ _ _ E2) as [(_ & W & _)|[(? & _)|(N & _)]]; [|discriminate|congruence].
        exists [c_colon; c_0], n, (vu128 0), nt, t1, [], [c_0]. split; [now rewrite <- app_assoc|]. split; [exact G|]. split; [exact W|]. split; [reflexivity|]. exact zero_val.
    Qed.

    Lemma comp_finish kf t e r : suffix t s ->
      parse_named_composite U T pv kf t = (Err (Some e), r) \/ parse_unnamed_composite T pv kf t = (Err (Some e), r) ->
      err e <> EFuel -> short_here e -> exists more c, g_comp U X c (t ++ more).
    Proof.
      intros SF H NF SH.
      enough (R : exists more, (fun x => exists c, g_comp U X c x) (t ++ more)) by (destruct R as (more & c & R); eauto).
      destruct H as [H|H]; unfold parse_named_composite, parse_unnamed_composite, omap in H;
        match type of H with (let (_, _) := ?p in _) = _ => destruct p as [[l|[e'|]] t'] eqn:E; cbn [rmap] in H; try discriminate; injection H as -> -> end.
      - eapply (delimited_finish _ g_field (fun x => exists l, g_fields U X l x)) with (GC := fun x => exists c, g_comp U X c x) in E; [exact E|..|exact SF|exact NF|exact SH].
        + intros x (n & v & nt & w1 & w2 & vt & -> & A & B & C & D). exists [(n, v)]. now constructor.
        + intros x w1 w2 y (n & v & nt & w3 & w4 & vt & -> & A & B & C & D) W1 W2 [l G]. exists ((n, v) :: l). now constructor.
        + intros t0 [n v] t0' H. apply (field_sound U T X pv Hpv) in H as (nt & w1 & w2 & vt & -> & A & B & C & D). eexists. split; [reflexivity|].
          exists n, v, nt, w1, w2, vt. auto.
        + exact field_finish.
        + intros w1 x w2 W1 [l G] W2. exists (Named l). now constructor.
      - eapply (delimited_finish _ (fun x => exists v, g_val U X v x) (fun x => exists l, g_items U X l x)) with (GC := fun x => exists c, g_comp U X c x) in E; [exact E|..|exact SF|exact NF|exact SH].
        + intros x [v G]. exists [v]. now constructor.
        + intros x w1 w2 y [v G] W1 W2 [l GL]. exists (v :: l). now constructor.
        + intros t0 v t0' H. apply Hpv in H as (x & -> & G). eauto.
        + intros t0 e0 r0 SF0 H0 SH0. destruct (Hfin _ _ _ SF0 H0 SH0) as (more & v & G). eauto.
        + intros w1 x w2 W1 [l G] W2. exists (Unnamed l). now constructor.
    Qed.

    Lemma variant_name_sound t n t1 : parse_bool t = (Err None, t) -> parse_optional_variant_ident U T t = (Some (Ok n), t1) ->
      exists nt, t = nt ++ t1 /\ g_variant_name U n nt.
    Proof.
      intros Hb E. unfold parse_optional_variant_ident, one_of in E.
      destruct (parse_i_string T t) as [[x|[e|]] t2] eqn:E2.
      - injection E as -> ->. unfold parse_i_string in E2. destruct t as [|c t]; [discriminate|].
        destruct (N.eqb_spec c c_v) as [->|]; cbn [negb] in E2; [|discriminate].
        unfold ok_of_o in E2. destruct (parse_string T t) as [[x|e] t3] eqn:E3; [|discriminate].
        injection E2 as -> ->. apply parse_string_sound in E3 as (x & -> & Hx). exists (c_v :: x).
        split; [reflexivity|now constructor].
      - discriminate.
      - unfold ok_of in E. destruct (parse_ident U T t) as [[x|e] t3] eqn:E3; [|discriminate].
        injection E as -> ->. apply parse_ident_sound in E3 as (-> & Hi & _). exists n. split; [reflexivity|].
        unfold parse_bool, tokens in Hb.
        destruct (strip_prefix (s2l "true") (n ++ t1)) eqn:Es; [discriminate|].
        destruct (strip_prefix (s2l "false") (n ++ t1)) eqn:Es2; [discriminate|].
        constructor; auto; intro Hst; eapply starts_with_strip; eauto.
    Qed.

    Lemma builtin_finish kf t e r : suffix t s -> parse_builtin U T pv kf t = (Err e, r) -> err e <> EFuel -> short_here e ->
      exists more v, g_val U X v (t ++ more).
    Proof.
      intro SF. unfold parse_builtin. cbn [one_of]. unfold omap.
      destruct (bool_cases t) as [(b & tb & E)|HB].
      { rewrite E. discriminate. }
      rewrite HB. cbn [rmap].
      destruct (parse_char T t) as [[c|[e'|]] t2] eqn:E2; cbn [rmap]; [discriminate| |].
      { intro H; injection H as -> ->. intros NF SH. destruct (finish_char _ _ _ SF E2 SH) as (more & c & G). exists more, (vchar c). now constructor. }
      clear t2 E2. destruct (parse_string T t) as [[c|[e'|]] t2] eqn:E2; cbn [rmap]; [discriminate| |].
      { intro H; injection H as -> ->. intros NF SH. destruct (finish_string _ _ _ SF E2 SH) as (more & c & G). exists more, (vstring c). now constructor. }
      clear t2 E2. destruct (parse_number T t) as [[c|[e'|]] t2] eqn:E2; cbn [rmap]; [discriminate| |].
      { intro H; injection H as -> ->. intros NF SH. destruct (finish_number _ _ _ SF E2 SH) as (more & c & G). exists more, (primitive c). now constructor. }
      clear t2 E2. destruct (parse_named_composite U T pv kf t) as [[c|[e'|]] t2] eqn:E2; cbn [rmap]; [discriminate| |].
      { intro H; injection H as -> ->. intros NF SH. destruct (comp_finish _ _ _ _ SF (or_introl E2) NF SH) as (more & c & G).
        exact (ex_intro _ more (ex_intro _ _ (G_composite U X c _ G))). }
      clear t2 E2. destruct (parse_unnamed_composite T pv kf t) as [[c|[e'|]] t2] eqn:E2; cbn [rmap]; [discriminate| |].
      { intro H; injection H as -> ->. intros NF SH. destruct (comp_finish _ _ _ _ SF (or_intror E2) NF SH) as (more & c & G).
        exact (ex_intro _ more (ex_intro _ _ (G_composite U X c _ G))). }
      clear t2 E2. destruct (parse_bit_sequence T t) as [[c|[e'|]] t2] eqn:E2; cbn [rmap]; [discriminate| |].
      { intro H; injection H as -> ->. intros NF SH. destruct (finish_bits _ _ _ SF E2 SH) as (more & b & G). exists more, (bit_sequence b). rewrite G. now constructor. }
      clear t2 E2. unfold parse_variant. cbn [one_of].
      assert (NONE : forall t' : str, (@Err (value unit) perr (e_at EExpectedValue (offset T t)), t') = (Err e, r) -> err e <> EFuel -> short_here e -> exists more v, g_val U X v (t ++ more)).
      { intros t' H; injection H as <- _. intros _ [_ [[H _]|[_ (a & w & Ea & Hl & N & n & nt & sp & more & GN & W & EW)]]]; cbn [start_loc e_at] in *.
        - assert (t = []) as ->. { destruct SF as [a E]. unfold offset, T in H. rewrite E, blen_app in H. apply blen_0. lia. }
          exists [c_0], (vu128 0). exact zero_val.
        - assert (t = w) as ->.
          { destruct SF as [b E]. unfold offset, T in Hl. rewrite E, blen_app in Hl. replace (blen b + blen t - blen t) with (blen b) in Hl by lia.
            rewrite Ea in E. clear - E Hl. revert b E Hl. induction a as [|x a IH]; intros b E Hl.
            - assert (b = []) as -> by (apply blen_0; exact Hl). symmetry. exact E.
            - destruct b as [|y b]; [cbn [blen] in Hl; pose proof (utf8_len_pos x); lia|]. injection E as -> E. cbn [blen] in Hl. apply (IH b E). lia. }
          exists (more ++ [c_lpar; c_rpar]), (variant n (Unnamed [])). rewrite app_assoc, <- EW, <- app_assoc. apply G_variant; [exact GN|exact W|].
          apply (G_unnamed_empty U X []). reflexivity. }
      pose proof (good_variant_ident U s t SF) as SI. fold T in SI.
      destruct (parse_optional_variant_ident U T t) as [[[n|e']|] t1] eqn:EI; cbn [snd] in SI; [|apply NONE|apply NONE].
      destruct (variant_name_sound _ _ _ HB EI) as (nt & Et & GN). destruct (skip_ws_spec t1) as (w & Et1 & W & _).
      assert (SF2 : suffix (skip_whitespace t1) s) by eauto using suffix_trans, skip_ws_suffix.
      assert (COMP : (exists more c, g_comp U X c (skip_whitespace t1 ++ more)) -> exists more v, g_val U X v (t ++ more)).
      { intros (more & c & G). exists more, (variant n c). rewrite Et, Et1. repeat rewrite <- app_assoc. now apply G_variant. }
      destruct (parse_named_composite U T pv kf (skip_whitespace t1)) as [[c|[e'|]] t2] eqn:E2; [discriminate| |].
      { intro H; injection H as -> ->. intros NF SH. apply COMP. exact (comp_finish _ _ _ _ SF2 (or_introl E2) NF SH). }
      clear t2 E2. destruct (parse_unnamed_composite T pv kf (skip_whitespace t1)) as [[c|[e'|]] t2] eqn:E2; [discriminate| |apply NONE].
      intro H; injection H as -> ->. intros NF SH. apply COMP. exact (comp_finish _ _ _ _ SF2 (or_intror E2) NF SH).
    Qed.
  End FRec.

  Lemma value_finish k : forall t e r, suffix t s -> parse_value U T [] k t = (Err e, r) -> err e <> EFuel -> short_here e -> exists more v, g_val U X v (t ++ more).
  Proof.
    induction k as [|k IH]; intros t e r SF; cbn [parse_value run_customs].
    - intro H; injection H as <- _. intro NF. now destruct NF.
    - intros H NF SH. eapply builtin_finish; [| |exact SF|exact H|exact NF|exact SH].
      + intros t0 v t0' H0. eapply (value_sound U T [] X); [|exact H0]. intros t1 v1 cur H1. discriminate.
      + intros t0 e0 r0 SF0 H0 SH0. exact (IH t0 e0 r0 SF0 H0 (proj1 SH0) SH0).
  Qed.
End Finish.
