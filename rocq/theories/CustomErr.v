(** * CustomErr: where the errors of a parse with custom parsers come from. *)
From Verif Require Import Base Value Chars Parse Spec_Grammar ParseFacts ParseComplete ParseSound.
Local Open Scope N_scope.
#[local] Hint Resolve suffix_refl suffix_cons suffix_nil suffix_cons' token_suffix take_while_suffix skip_ws_suffix skip_spaced_suffix' : core.

Definition not_custom (e : perr) : Prop := forall m, err e <> ECustom m.

Lemma nc_char total t e t' : parse_char total t = (Err (Some e), t') -> not_custom e.
Proof.
  unfold parse_char. destruct (token c_squote t) as [[] t1]; cbn [negb]; [|discriminate].
  destruct t1 as [|c t2]; [intros [= <- _]; discriminate|].
  assert (H : forall c' t3, (let (ok, t4) := token c_squote t3 in
             if negb ok then (Err (Some (e_at_one (ECharClose (offset total t)) (offset total t4))), t4)
             else (@Ok N _ c', t4)) = (Err (Some e), t') -> not_custom e).
  { intros c' t3. destruct (token c_squote t3) as [[] t4]; cbn [negb]; [discriminate|]. intros [= <- _]. discriminate. }
  destruct (c =? c_bslash); [|apply H]. destruct t2 as [|x t3]; [intros [= <- _]; discriminate|].
  destruct (from_escape_code x); [apply H|]. intros [= <- _]; discriminate.
Qed.
Lemma nc_string_loop total st t : forall acc esc e t', string_loop total st t acc esc = (Err (Some e), t') -> not_custom e.
Proof.
  induction t as [|c t IH]; intros acc esc e t'; cbn [string_loop]; [intros [= <- _]; discriminate|].
  destruct ((c =? c_bslash) && negb esc); [apply IH|]. destruct esc.
  - destruct (from_escape_code c); [apply IH|]. intros [= <- _]; discriminate.
  - destruct (c =? c_dquote); [discriminate|apply IH].
Qed.
Lemma nc_string total t e t' : parse_string total t = (Err (Some e), t') -> not_custom e.
Proof. unfold parse_string. destruct (token c_dquote t) as [[] t1]; cbn [negb]; [apply nc_string_loop|discriminate]. Qed.
Lemma nc_number total t e t' : parse_number total t = (Err (Some e), t') -> not_custom e.
Proof.
  unfold parse_number. destruct (token c_plus t) as [plus t1].
  destruct (if plus then (true, t1) else _) as [pos t2].
  destruct (take_digits t2 false) as [ds [seen t3]]. cbn zeta.
  destruct (_ =? _); [discriminate|]. destruct (negb seen); [intros [= <- _]; discriminate|].
  destruct pos; [destruct (parse_u128 _)|destruct (parse_neg_i128 _)]; try discriminate; intros [= <- _]; discriminate.
Qed.
Lemma nc_bits total t e t' : parse_bit_sequence total t = (Err (Some e), t') -> not_custom e.
Proof.
  unfold parse_bit_sequence. destruct (token c_lt t) as [[] t1]; cbn [negb]; [|discriminate].
  destruct (take_while _ t1) as [bits t2]. destruct (token c_gt t2) as [[] t3]; cbn [negb]; [discriminate|].
  intros [= <- _]; discriminate.
Qed.
Lemma nc_bool t e t' : parse_bool t = (Err (Some e), t') -> not_custom e.
Proof. unfold parse_bool. destruct (tokens _ t) as [[] ?]; [discriminate|]. destruct (tokens _ t) as [[] ?]; discriminate. Qed.
Lemma nc_field_name U total t e t' : parse_field_name U total t = (Err e, t') -> not_custom e.
Proof.
  unfold parse_field_name. cbn [one_of]. destruct (parse_string total t) as [[v|[e'|]] t1] eqn:E.
  - discriminate.
  - intros [= <- _]. eapply nc_string, E.
  - unfold always, parse_ident. destruct (take_while _ t) as [[|c a] t2]; [intros [= <- _]; discriminate|].
    destruct (take_while _ t2). discriminate.
Qed.

Ltac sfx := eauto 8 using suffix_trans.

Section Origin.
  Context (U : unicode) (s0 : str) (customs : list cparser).
  Let total := blen s0.

  (** The error of a custom parser that was asked at the suffix [t], shifted by the offset of [t]; or an error of the crate's
      own, located in the input. *)
  Definition origin (e : perr) : Prop :=
    (exists t e0 cur, suffix t s0 /\ run_customs customs t = Some (Err e0, cur) /\ e = shift_err (offset total t) e0) \/
    (err_ok s0 e /\ not_custom e).
  Definition oorigin (e : option perr) : Prop := match e with None => True | Some e => origin e end.
  Definition tidy {A} (t : str) (r : pres A) : Prop := suffix (snd r) t /\ match fst r with Ok _ => True | Err e => origin e end.
  Definition otidy {A} (t : str) (r : ores A) : Prop := suffix (snd r) t /\ match fst r with Ok _ => True | Err e => oorigin e end.

  Lemma otidy_of {A} t (r : ores A) : ogood s0 t r -> (forall e t', r = (Err (Some e), t') -> not_custom e) -> otidy t r.
  Proof.
    destruct r as [[v|[e|]] t']; intros [H1 H2] H; split; cbn in *; auto. right. split; [exact H2|]. now apply (H e t').
  Qed.
  Lemma tidy_of {A} t (r : pres A) : good s0 t r -> (forall e t', r = (Err e, t') -> not_custom e) -> tidy t r.
  Proof.
    destruct r as [[v|e] t']; intros [H1 H2] H; split; cbn in *; auto. right. split; [exact H2|]. now apply (H e t').
  Qed.
  Lemma tidy_bool t : otidy t (parse_bool t).
  Proof. apply otidy_of; [apply good_bool|intros e t'; apply nc_bool]. Qed.
  Lemma tidy_char t : suffix t s0 -> otidy t (parse_char total t).
  Proof. intro H. apply otidy_of; [now apply good_char|intros e t'; apply nc_char]. Qed.
  Lemma tidy_string t : suffix t s0 -> otidy t (parse_string total t).
  Proof. intro H. apply otidy_of; [now apply good_string|intros e t'; apply nc_string]. Qed.
  Lemma tidy_number t : suffix t s0 -> otidy t (parse_number total t).
  Proof. intro H. apply otidy_of; [now apply good_number|intros e t'; apply nc_number]. Qed.
  Lemma tidy_bits t : suffix t s0 -> otidy t (parse_bit_sequence total t).
  Proof. intro H. apply otidy_of; [now apply good_bits|intros e t'; apply nc_bits]. Qed.
  Lemma tidy_field_name t : suffix t s0 -> tidy t (parse_field_name U total t).
  Proof. intro H. apply tidy_of; [now apply good_field_name|intros e t'; apply nc_field_name]. Qed.
  Lemma tidy_at t k : suffix t s0 -> k <> EFuel -> (forall m, k <> ECustom m) -> opener_at s0 k (offset total t) -> origin (e_at k (offset total t)).
  Proof. intros. right. split; [now apply ok_at|assumption]. Qed.
  Lemma tidy_at_one t k : suffix t s0 -> k <> EFuel -> (forall m, k <> ECustom m) -> opener_at s0 k (offset total t) -> origin (e_at_one k (offset total t)).
  Proof. intros. right. split; [now apply ok_at_one|assumption]. Qed.
  Lemma tidy_one_of {A} (alts : list (alt A)) t :
    Forall (fun a => otidy t (a t)) alts ->
    match one_of alts t with
    | (Some r, t') => tidy t (r, t')
    | (None, t') => t' = t
    end.
  Proof.
    induction 1 as [|a alts H HF IH]; cbn [one_of]; [reflexivity|].
    destruct (a t) as [[v|[e|]] t'] eqn:E; unfold otidy in H; cbn in H; [split; tauto|split; tauto|exact IH].
  Qed.
  Lemma tidy_omap {A B} (f : A -> B) a t : otidy t (a t) -> otidy t (omap f a t).
  Proof. unfold omap. destruct (a t) as [[v|e] t']; intro H; exact H. Qed.

  Section Rec.
    Context (pv : str -> pres (value unit)) (n : nat).
    Context (Hpv : forall t, suffix t s0 -> (length t < n)%nat -> tidy t (pv t)).

    Lemma tidy_field t : suffix t s0 -> (length t < n)%nat -> tidy t (parse_field_name_and_value U total pv t).
    Proof.
      intros Hs Hn. unfold parse_field_name_and_value.
      destruct (tidy_field_name t Hs) as [H1 H2].
      destruct (parse_field_name U total t) as [[name|e] t1]; cbn in *; [|split; cbn; auto].
      destruct (skip_spaced_separator c_colon t1) as [[] t2] eqn:E; cbn [negb]; apply skip_spaced_suffix' in E.
      - destruct (Hpv t2) as [H3 H4]; [sfx| |].
        { apply suffix_len in H1, E. lia. }
        destruct (pv t2) as [[v|e] t3]; cbn in *; split; cbn; auto; sfx.
      - split; cbn; [sfx|]. apply tidy_at_one; [sfx|discriminate|discriminate|opn].
    Qed.

    Lemma tidy_sep_rest {A} (item : str -> pres A) :
      (forall t, suffix t s0 -> (length t < n)%nat -> tidy t (item t)) ->
      forall kf t acc, suffix t s0 -> (length t < n)%nat -> (length t < kf)%nat ->
      tidy t (sep_rest kf item t acc).
    Proof.
      intros Hi. induction kf as [|kf IH]; intros t acc Hs Hn Hk; [lia|]. cbn [sep_rest].
      destruct (skip_spaced_separator c_comma t) as [[] t1] eqn:E; cbn [negb]; [|split; cbn; auto].
      pose proof E as E'. apply skip_spaced_suffix' in E'.
      assert (Hlt : (length t1 < length t)%nat).
      { apply skip_spaced_true in E as (w1 & w2 & -> & _). repeat (rewrite app_length || cbn [length app]). lia. }
      destruct (Hi t1) as [H1 H2]; [sfx|lia|].
      destruct (item t1) as [[a|e] t2]; cbn in *; [|split; cbn; auto].
      destruct (IH t2 (a :: acc)) as [H3 H4]; [sfx| | |].
      { apply suffix_len in H1. lia. } { apply suffix_len in H1. lia. }
      split; [sfx|exact H4].
    Qed.

    Lemma tidy_delimited {A} (item : str -> pres A) op cl kf t :
      (if cl =? c_rbrace then c_lbrace else c_lpar) = op ->
      (forall t, suffix t s0 -> (length t < n)%nat -> tidy t (item t)) ->
      suffix t s0 -> (length t <= n)%nat -> (length t <= kf)%nat ->
      otidy t (parse_delimited total op cl kf item t).
    Proof.
      intros Hoc Hi Hs Hn Hk. unfold parse_delimited.
      destruct (token op t) as [[] t1] eqn:E; cbn [negb]; [|split; cbn; eauto].
      apply token_true in E as ->. cbn [length] in *.
      pose proof (skip_ws_suffix t1) as Hw. pose proof (suffix_len _ _ Hw) as Hwl.
      destruct (token cl (skip_whitespace t1)) as [[] t3] eqn:E.
      { apply token_suffix in E. split; cbn; auto. sfx. }
      apply token_suffix in E. pose proof (suffix_len _ _ E) as Hel. unfold sep_by.
      destruct (Hi t3) as [H1 H2]; [sfx|lia|].
      destruct (item t3) as [[a|e] t4]; cbn in *; [|split; cbn; [sfx|exact H2]].
      pose proof (suffix_len _ _ H1) as H1l.
      destruct (tidy_sep_rest item Hi kf t4 [a]) as [H3 H4]; [sfx|lia|lia|].
      destruct (sep_rest kf item t4 [a]) as [[l|e] t5]; cbn in *; [|split; cbn; [sfx|exact H4]].
      pose proof (skip_ws_suffix t5) as Hw5.
      destruct (token cl (skip_whitespace t5)) as [[] t6] eqn:E6; cbn [negb]; apply token_suffix in E6.
      - split; cbn; auto. sfx.
      - split; cbn; [sfx|]. apply tidy_at_one; [sfx|discriminate|discriminate|].
        eapply opener_here; [exact Hs| |cbn [opens]; now rewrite Hoc]. sfx.
    Qed.

    Lemma tidy_named kf t : suffix t s0 -> (length t <= n)%nat -> (length t <= kf)%nat ->
      otidy t (parse_named_composite U total pv kf t).
    Proof. intros. apply tidy_omap, tidy_delimited; auto using tidy_field. Qed.
    Lemma tidy_unnamed kf t : suffix t s0 -> (length t <= n)%nat -> (length t <= kf)%nat ->
      otidy t (parse_unnamed_composite total pv kf t).
    Proof. intros. apply tidy_omap, tidy_delimited; auto. Qed.

    Lemma tidy_variant kf t : suffix t s0 -> (length t <= n)%nat -> (length t <= kf)%nat ->
      otidy t (parse_variant U total pv kf t).
    Proof.
      intros Hs Hn Hk. unfold parse_variant. pose proof (good_variant_ident U s0 t Hs) as H1. change (blen s0) with total in H1.
      destruct (parse_optional_variant_ident U total t) as [[[ident|e]|] t1]; cbn in H1; [|split; cbn; auto|split; cbn; auto].
      pose proof (skip_ws_suffix t1) as Hw. pose proof (suffix_len _ _ H1). pose proof (suffix_len _ _ Hw).
      assert (Hs1 : suffix (skip_whitespace t1) t) by exact (suffix_trans _ _ _ Hw H1).
      assert (Hs2 : suffix (skip_whitespace t1) s0) by exact (suffix_trans _ _ _ Hs1 Hs).
      pose proof (tidy_one_of [parse_named_composite U total pv kf; parse_unnamed_composite total pv kf] (skip_whitespace t1)) as HO.
      match type of HO with ?P -> _ => assert (HF : P) end.
      { apply Forall_cons; [apply tidy_named; auto; lia|]. apply Forall_cons; [apply tidy_unnamed; auto; lia|]. apply Forall_nil. }
      specialize (HO HF). clear HF. cbn zeta.
      destruct (one_of _ _) as [[[c|e]|] t3]; [| |subst t3].
      - destruct HO as [HO1 HO2]. split; cbn in *; auto. sfx.
      - destruct HO as [HO1 HO2]. split; cbn in *; auto. sfx.
      - split; cbn; auto.
    Qed.

    Lemma tidy_builtin kf t : suffix t s0 -> (length t <= n)%nat -> (length t <= kf)%nat ->
      tidy t (parse_builtin U total pv kf t).
    Proof.
      intros Hs Hn Hk. unfold parse_builtin.
      match goal with |- context [one_of ?l t] => pose proof (tidy_one_of l t) as HO end.
      match type of HO with ?P -> _ => assert (HF : P) end.
      { constructor; [apply tidy_omap, tidy_bool|]. constructor; [apply tidy_omap, tidy_char, Hs|].
        constructor; [apply tidy_omap, tidy_string, Hs|]. constructor; [apply tidy_omap, tidy_number, Hs|].
        constructor; [apply tidy_omap, tidy_named; auto|]. constructor; [apply tidy_omap, tidy_unnamed; auto|].
        constructor; [apply tidy_omap, tidy_bits, Hs|]. constructor; [apply tidy_variant; auto|]. constructor. }
      specialize (HO HF). clear HF. destruct (one_of _ t) as [[[v|e]|] t'].
      - exact HO.
      - exact HO.
      - subst t'. split; cbn; auto. apply tidy_at; [auto|discriminate|discriminate|opn].
    Qed.
  End Rec.


  Lemma tidy_value : forall fuel t, suffix t s0 -> (length t < fuel)%nat -> tidy t (parse_value U total customs fuel t).
  Proof.
    induction fuel as [|k IH]; intros t Hs Hf; [lia|]. cbn [parse_value].
    destruct (run_customs customs t) as [[[v|e] cur]|] eqn:E.
    - split; cbn; auto. unfold wind_forward. exists (firstn (N.to_nat (blen t - blen cur)) t).
      now rewrite firstn_skipn.
    - split; cbn; auto. left. eauto 10.
    - apply (tidy_builtin _ k); auto; lia.
  Qed.
End Origin.

Lemma parse_custom_origin U customs s e rest : parse_custom U customs s = (Err e, rest) -> origin s customs e /\ suffix rest s.
Proof.
  intro H. pose proof (tidy_value U s customs (S (length s)) s (suffix_refl s) ltac:(lia)) as [H1 H2].
  unfold parse_custom in H. rewrite H in H1, H2. auto.
Qed.
