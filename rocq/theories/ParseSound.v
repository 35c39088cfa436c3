(** * ParseSound: the parser consumes a prefix, its errors are located in the input, it terminates, and whatever it
    accepts is in the grammar. *)
From Verif Require Import Base Value Chars Parse Spec_Grammar ParseFacts.
Local Open Scope N_scope.

Definition suffix (t' t : str) : Prop := exists c, t = c ++ t'.

Lemma suffix_refl t : suffix t t.
Proof. now exists []. Qed.
Lemma suffix_trans a b c : suffix a b -> suffix b c -> suffix a c.
Proof. intros [x ->] [y ->]. exists (y ++ x). now rewrite app_assoc. Qed.
Lemma suffix_cons c t : suffix t (c :: t).
Proof. now exists [c]. Qed.
Lemma suffix_cons' c t t' : suffix t' t -> suffix t' (c :: t).
Proof. intros [x ->]. exists (c :: x). reflexivity. Qed.
Lemma suffix_len t' t : suffix t' t -> (length t' <= length t)%nat.
Proof. intros [c ->]. rewrite app_length. lia. Qed.
Lemma suffix_nil t : suffix [] t.
Proof. exists t. now rewrite app_nil_r. Qed.
#[local] Hint Resolve suffix_refl suffix_cons suffix_nil suffix_cons' : core.

(** ** Locations *)

(** [start_loc] is the byte offset of a char boundary of the input; [end_loc] is not before it. *)
Definition boundary (s0 : str) (n : N) : Prop := exists a b, s0 = a ++ b /\ n = blen a.

(** Errors about a missing closing delimiter name the location of the opening one. *)
Definition opens (k : ekind) : option (char * N) :=
  match k with
  | ECloser c st => Some (if c =? c_rbrace then c_lbrace else c_lpar, st)
  | ECharClose st => Some (c_squote, st)
  | EStrClose st => Some (c_dquote, st)
  | EBitsClose st => Some (c_lt, st)
  | _ => None
  end.

Definition opener_at (s0 : str) (k : ekind) (loc : N) : Prop :=
  forall o st, opens k = Some (o, st) -> exists a b, s0 = a ++ o :: b /\ st = blen a /\ st < loc.

Definition err_ok (s0 : str) (e : perr) : Prop :=
  err e <> EFuel /\ boundary s0 (start_loc e) /\
  match end_loc e with None => True | Some l => start_loc e <= l <= blen s0 + 1 end /\
  opener_at s0 (err e) (start_loc e).

Definition oerr_ok (s0 : str) (e : option perr) : Prop := match e with None => True | Some e => err_ok s0 e end.

Definition good {A} (s0 t : str) (r : pres A) : Prop :=
  suffix (snd r) t /\ match fst r with Ok _ => True | Err e => err_ok s0 e end.
Definition ogood {A} (s0 t : str) (r : ores A) : Prop :=
  suffix (snd r) t /\ match fst r with Ok _ => True | Err e => oerr_ok s0 e end.

Lemma boundary_offset s0 t : suffix t s0 -> boundary s0 (offset (blen s0) t).
Proof. intros [c ->]. exists c, t. split; [reflexivity|]. unfold offset. rewrite blen_app. lia. Qed.

Lemma offset_bound s0 t : offset (blen s0) t <= blen s0.
Proof. unfold offset. lia. Qed.

Lemma offset_mono s0 t t' : suffix t' t -> suffix t s0 -> offset (blen s0) t <= offset (blen s0) t'.
Proof. intros [c ->] [d ->]. unfold offset. rewrite !blen_app. lia. Qed.

Lemma ok_at s0 t k : suffix t s0 -> k <> EFuel -> opener_at s0 k (offset (blen s0) t) ->
  err_ok s0 (e_at k (offset (blen s0) t)).
Proof. intros; repeat split; auto. now apply boundary_offset. Qed.
Lemma ok_at_one s0 t k : suffix t s0 -> k <> EFuel -> opener_at s0 k (offset (blen s0) t) ->
  err_ok s0 (e_at_one k (offset (blen s0) t)).
Proof.
  intros; repeat split; auto; cbn; [now apply boundary_offset|lia|]. pose proof (offset_bound s0 t). lia.
Qed.
Lemma ok_between1 s0 t k : suffix t s0 -> k <> EFuel -> opener_at s0 k (offset (blen s0) t) ->
  err_ok s0 (e_between k (offset (blen s0) t) (offset (blen s0) t + 1)).
Proof. exact (ok_at_one s0 t k). Qed.
Lemma ok_between s0 t t' k : suffix t' t -> suffix t s0 -> k <> EFuel -> opener_at s0 k (offset (blen s0) t) ->
  err_ok s0 (e_between k (offset (blen s0) t) (offset (blen s0) t')).
Proof.
  intros; repeat split; auto; cbn; [now apply boundary_offset|now apply offset_mono|].
  pose proof (offset_bound s0 t'). lia.
Qed.

Lemma no_opener s0 k n : opens k = None -> opener_at s0 k n.
Proof. intros H o st. rewrite H. discriminate. Qed.
Lemma opener_here s0 o t1 t' k : suffix (o :: t1) s0 -> suffix t' t1 ->
  opens k = Some (o, offset (blen s0) (o :: t1)) -> opener_at s0 k (offset (blen s0) t').
Proof.
  intros [a ->] [c ->] H o' st. rewrite H. intro E; injection E as <- <-. exists a, (c ++ t').
  unfold offset. rewrite !blen_app. cbn [blen]. rewrite blen_app. pose proof (utf8_len_pos o).
  repeat split; lia.
Qed.

Lemma token_suffix c t b t' : token c t = (b, t') -> suffix t' t.
Proof. destruct b; intro H; [apply token_true in H as ->; auto|apply token_false in H as [-> _]; auto]. Qed.
Lemma take_while_suffix p t a t' : take_while p t = (a, t') -> suffix t' t.
Proof. intro H. apply take_while_spec in H as (-> & _). now exists a. Qed.
Lemma skip_ws_suffix t : suffix (skip_whitespace t) t.
Proof. destruct (skip_ws_spec t) as (w & E & _). now exists w. Qed.
Lemma skip_spaced_suffix' c t b t' : skip_spaced_separator c t = (b, t') -> suffix t' t.
Proof. intro H. destruct (skip_spaced_suffix c t) as [w E]. rewrite H in E. now exists w. Qed.
#[local] Hint Resolve token_suffix take_while_suffix skip_ws_suffix skip_spaced_suffix' : core.

Ltac sfx := eauto 8 using suffix_trans.
Ltac opn := first [now apply no_opener | eapply opener_here; [eassumption| |reflexivity]; sfx].

Section Loc.
  Context (U : unicode) (s0 : str).
  Let total := blen s0.

  Lemma good_bool t : ogood s0 t (parse_bool t).
  Proof.
    unfold parse_bool, tokens. destruct (strip_prefix (s2l "true") t) as [t'|] eqn:E.
    - apply strip_prefix_some in E. split; cbn; auto. now exists (s2l "true").
    - destruct (strip_prefix (s2l "false") t) as [t'|] eqn:E2.
      + apply strip_prefix_some in E2. split; cbn; auto. now exists (s2l "false").
      + split; cbn; auto.
  Qed.

  Lemma good_char t : suffix t s0 -> ogood s0 t (parse_char total t).
  Proof.
    intro Hs. unfold parse_char. destruct (token c_squote t) as [[] t1] eqn:E; cbn [negb].
    - apply token_true in E as ->. destruct t1 as [|c t2].
      + split; cbn; auto. apply ok_at_one; [sfx|discriminate|opn].
      + assert (Hfin : forall c' t3, suffix t3 t2 -> @ogood N s0 (c_squote :: c :: t2)
            (let (ok, t4) := token c_squote t3 in
             if negb ok then (Err (Some (e_at_one (ECharClose (offset total (c_squote :: c :: t2))) (offset total t4))), t4)
             else (Ok c', t4))).
        { intros c' t3 H3. destruct (token c_squote t3) as [[] t4] eqn:E; cbn [negb]; split; cbn; auto.
          - apply token_suffix in E. sfx.
          - apply token_suffix in E. sfx.
          - apply token_suffix in E. apply ok_at_one; [sfx|discriminate|opn]. }
        destruct (c =? c_bslash).
        * destruct t2 as [|e t3].
          -- split; cbn; auto. apply ok_at_one; [sfx|discriminate|opn].
          -- destruct (from_escape_code e); [apply Hfin; auto|].
             split; cbn; auto. apply ok_at_one; [sfx|discriminate|opn].
        * apply Hfin; auto.
    - split; cbn; eauto.
  Qed.

  Lemma good_string_loop tq t : suffix (c_dquote :: tq) s0 -> forall acc esc, suffix t s0 -> suffix t tq ->
    ogood s0 t (string_loop total (offset total (c_dquote :: tq)) t acc esc).
  Proof.
    intro Hq. induction t as [|c t IH]; intros acc esc Hs Hsq; cbn [string_loop].
    - split; cbn; auto. apply ok_at_one; [auto|discriminate|opn].
    - assert (Hs' : suffix t s0) by sfx. assert (Hsq' : suffix t tq) by sfx.
      assert (Hrec : forall acc esc, ogood s0 (c :: t) (string_loop total (offset total (c_dquote :: tq)) t acc esc)).
      { intros a e. destruct (IH a e Hs' Hsq') as [H1 H2]. split; [auto|exact H2]. }
      destruct ((c =? c_bslash) && negb esc); [apply Hrec|]. destruct esc.
      + destruct (from_escape_code c); [apply Hrec|]. split; cbn; auto.
        apply ok_between1; [auto|discriminate|opn].
      + destruct (c =? c_dquote); [split; cbn; auto|apply Hrec].
  Qed.

  Lemma good_string t : suffix t s0 -> ogood s0 t (parse_string total t).
  Proof.
    intro Hs. unfold parse_string. destruct (token c_dquote t) as [[] t1] eqn:E; cbn [negb].
    - apply token_true in E as ->. destruct (good_string_loop t1 t1 Hs [] false) as [H1 H2]; [sfx|sfx|].
      split; [auto|exact H2].
    - split; cbn; eauto.
  Qed.

  Lemma good_number t : suffix t s0 -> ogood s0 t (parse_number total t).
  Proof.
    intro Hs. unfold parse_number.
    destruct (token c_plus t) as [plus t1] eqn:E1.
    assert (H2 : exists is_positive t2, suffix t2 t /\
      (if plus then (true, t1) else let (minus, t1') := token c_minus t1 in (negb minus, t1')) = (is_positive, t2)).
    { apply token_suffix in E1. destruct plus; [eauto|]. destruct (token c_minus t1) as [m t1'] eqn:E2.
      apply token_suffix in E2. exists (negb m), t1'. split; [sfx|reflexivity]. }
    destruct H2 as (pos & t2 & Ht2 & ->).
    destruct (take_digits t2 false) as [ds [seen t3]] eqn:E3.
    apply take_digits_sound in E3 as (c & -> & -> & _ & _). cbn zeta.
    assert (Ht3 : suffix t3 t) by (eapply suffix_trans; [now exists c|exact Ht2]).
    destruct (offset total t3 =? offset total t); [split; cbn; auto|].
    destruct (negb seen).
    - split; cbn; auto. apply ok_between1; [sfx|discriminate|opn].
    - destruct pos; [destruct (parse_u128 _)|destruct (parse_neg_i128 _)]; split; cbn; auto;
        apply ok_between; auto; try discriminate; now apply no_opener.
  Qed.

  Lemma good_bits t : suffix t s0 -> ogood s0 t (parse_bit_sequence total t).
  Proof.
    intro Hs. unfold parse_bit_sequence. destruct (token c_lt t) as [[] t1] eqn:E; cbn [negb].
    - apply token_true in E as ->. destruct (take_while _ t1) as [bits t2] eqn:E2. apply take_while_suffix in E2.
      destruct (token c_gt t2) as [[] t3] eqn:E3; cbn [negb]; apply token_suffix in E3;
        (split; cbn; [sfx|]); auto. apply ok_between1; [sfx|discriminate|opn].
    - split; cbn; eauto.
  Qed.

  Lemma good_ident t : suffix t s0 -> good s0 t (parse_ident U total t).
  Proof.
    intro Hs. unfold parse_ident. destruct (take_while _ t) as [a t1] eqn:E. apply take_while_suffix in E.
    destruct a as [|c a]; [split; cbn; auto; apply ok_at_one; [auto|discriminate|opn]|].
    destruct (take_while _ t1) as [b t2] eqn:E2. apply take_while_suffix in E2. split; cbn; auto. sfx.
  Qed.

  Lemma good_one_of {A} (alts : list (alt A)) t :
    Forall (fun a => ogood s0 t (a t)) alts ->
    match one_of alts t with
    | (Some r, t') => good s0 t (r, t')
    | (None, t') => t' = t
    end.
  Proof.
    induction 1 as [|a alts H HF IH]; cbn [one_of]; [reflexivity|].
    destruct (a t) as [[v|[e|]] t'] eqn:E; unfold ogood in H; cbn in H; [split; tauto|split; tauto|exact IH].
  Qed.

  Lemma good_omap {A B} (f : A -> B) a t : ogood s0 t (a t) -> ogood s0 t (omap f a t).
  Proof. unfold omap. destruct (a t) as [[v|e] t']; intro H; exact H. Qed.

  Lemma good_always {A} (p : str -> pres A) t : good s0 t (p t) -> ogood s0 t (always p t).
  Proof. unfold always. destruct (p t) as [[v|e] t']; intro H; exact H. Qed.
  Lemma good_ok_of {A} (p : str -> pres A) t : good s0 t (p t) -> ogood s0 t (ok_of p t).
  Proof. unfold ok_of. destruct (p t) as [[v|e] t']; intros [H1 H2]; split; auto; exact I. Qed.

  Lemma good_field_name t : suffix t s0 -> good s0 t (parse_field_name U total t).
  Proof.
    intro Hs. unfold parse_field_name.
    pose proof (good_one_of [parse_string total; always (parse_ident U total)] t) as H.
    assert (HF : Forall (fun a => ogood s0 t (a t)) [parse_string total; always (parse_ident U total)]).
    { apply Forall_cons; [now apply good_string|]. apply Forall_cons; [now apply good_always, good_ident|]. apply Forall_nil. }
    specialize (H HF). destruct (one_of _ t) as [[[v|e]|] t']; [exact H|exact H|].
    subst t'. split; cbn; auto. apply ok_at; [auto|discriminate|opn].
  Qed.

  Lemma good_variant_ident t : suffix t s0 ->
    suffix (snd (parse_optional_variant_ident U total t)) t.
  Proof.
    intro Hs. unfold parse_optional_variant_ident.
    pose proof (good_one_of [parse_i_string total; ok_of (parse_ident U total)] t) as H.
    assert (HF : Forall (fun a => ogood s0 t (a t)) [parse_i_string total; ok_of (parse_ident U total)]).
    { apply Forall_cons; [|apply Forall_cons; [apply good_ok_of, good_ident; auto|apply Forall_nil]].
      unfold parse_i_string. destruct t as [|c t]; [split; cbn; auto|]. destruct (negb (c =? c_v)); [split; cbn; auto|].
      unfold ok_of_o. destruct (good_string t) as [H1 _]; [sfx|].
      destruct (parse_string total t) as [[]]; split; cbn in *; auto. }
    specialize (H HF). destruct (one_of _ t) as [[r|] t']; [apply H|subst; auto].
  Qed.

  Section Rec.
    Context (pv : str -> pres (value unit)) (n : nat).
    Context (Hpv : forall t, suffix t s0 -> (length t < n)%nat -> good s0 t (pv t)).

    Lemma good_field t : suffix t s0 -> (length t < n)%nat -> good s0 t (parse_field_name_and_value U total pv t).
    Proof.
      intros Hs Hn. unfold parse_field_name_and_value.
      destruct (good_field_name t Hs) as [H1 H2].
      destruct (parse_field_name U total t) as [[name|e] t1]; cbn in *; [|split; cbn; auto].
      destruct (skip_spaced_separator c_colon t1) as [[] t2] eqn:E; cbn [negb]; apply skip_spaced_suffix' in E.
      - destruct (Hpv t2) as [H3 H4]; [sfx| |].
        { apply suffix_len in H1, E. lia. }
        destruct (pv t2) as [[v|e] t3]; cbn in *; split; cbn; auto; sfx.
      - split; cbn; [sfx|]. apply ok_at_one; [sfx|discriminate|opn].
    Qed.

    Lemma good_sep_rest {A} (item : str -> pres A) :
      (forall t, suffix t s0 -> (length t < n)%nat -> good s0 t (item t)) ->
      forall kf t acc, suffix t s0 -> (length t < n)%nat -> (length t < kf)%nat ->
      good s0 t (sep_rest kf item t acc).
    Proof.
      intros Hi. induction kf as [|kf IH]; intros t acc Hs Hn Hk; [lia|]. cbn [sep_rest].
      destruct (skip_spaced_separator c_comma t) as [[] t1] eqn:E; cbn [negb]; [|split; cbn; auto].
      pose proof E as E'. apply skip_spaced_suffix' in E'.
      assert (Hlt : (length t1 < length t)%nat).
      { apply skip_spaced_true in E as (w1 & w2 & -> & _). repeat (rewrite app_length || cbn [length app]). lia. }
      destruct (Hi t1) as [H1 H2]; [sfx|lia|].
      destruct (item t1) as [[a|e] t2]; cbn in *; [|split; cbn; auto].
      destruct (IH t2 (a :: acc)) as [H3 H4]; [sfx| | |].
      { apply suffix_len in H1. lia. } { apply suffix_len in H1. lia. }
      split; [sfx|exact H4].
    Qed.

    Lemma good_delimited {A} (item : str -> pres A) op cl kf t :
      (if cl =? c_rbrace then c_lbrace else c_lpar) = op ->
      (forall t, suffix t s0 -> (length t < n)%nat -> good s0 t (item t)) ->
      suffix t s0 -> (length t <= n)%nat -> (length t <= kf)%nat ->
      ogood s0 t (parse_delimited total op cl kf item t).
    Proof.
      intros Hoc Hi Hs Hn Hk. unfold parse_delimited.
      destruct (token op t) as [[] t1] eqn:E; cbn [negb]; [|split; cbn; eauto].
      apply token_true in E as ->. cbn [length] in *.
      pose proof (skip_ws_suffix t1) as Hw. pose proof (suffix_len _ _ Hw) as Hwl.
      destruct (token cl (skip_whitespace t1)) as [[] t3] eqn:E.
      { apply token_suffix in E. split; cbn; auto. sfx. }
      apply token_suffix in E. pose proof (suffix_len _ _ E) as Hel. unfold sep_by.
      destruct (Hi t3) as [H1 H2]; [sfx|lia|].
      destruct (item t3) as [[a|e] t4]; cbn in *; [|split; cbn; [sfx|exact H2]].
      pose proof (suffix_len _ _ H1) as H1l.
      destruct (good_sep_rest item Hi kf t4 [a]) as [H3 H4]; [sfx|lia|lia|].
      destruct (sep_rest kf item t4 [a]) as [[l|e] t5]; cbn in *; [|split; cbn; [sfx|exact H4]].
      pose proof (skip_ws_suffix t5) as Hw5.
      destruct (token cl (skip_whitespace t5)) as [[] t6] eqn:E6; cbn [negb]; apply token_suffix in E6.
      - split; cbn; auto. sfx.
      - split; cbn; [sfx|]. apply ok_at_one; [sfx|discriminate|].
        eapply opener_here; [exact Hs| |cbn [opens]; now rewrite Hoc]. sfx.
    Qed.

    Lemma good_named kf t : suffix t s0 -> (length t <= n)%nat -> (length t <= kf)%nat ->
      ogood s0 t (parse_named_composite U total pv kf t).
    Proof. intros. apply good_omap, good_delimited; auto using good_field. Qed.
    Lemma good_unnamed kf t : suffix t s0 -> (length t <= n)%nat -> (length t <= kf)%nat ->
      ogood s0 t (parse_unnamed_composite total pv kf t).
    Proof. intros. apply good_omap, good_delimited; auto. Qed.

    Lemma good_variant kf t : suffix t s0 -> (length t <= n)%nat -> (length t <= kf)%nat ->
      ogood s0 t (parse_variant U total pv kf t).
    Proof.
      intros Hs Hn Hk. unfold parse_variant. pose proof (good_variant_ident t Hs) as H1.
      destruct (parse_optional_variant_ident U total t) as [[[ident|e]|] t1]; cbn in H1; [|split; cbn; auto|split; cbn; auto].
      pose proof (skip_ws_suffix t1) as Hw. pose proof (suffix_len _ _ H1). pose proof (suffix_len _ _ Hw).
      assert (Hs2 : suffix (skip_whitespace t1) s0) by sfx.
      pose proof (good_one_of [parse_named_composite U total pv kf; parse_unnamed_composite total pv kf] (skip_whitespace t1)) as HO.
      match type of HO with ?P -> _ => assert (HF : P) end.
      { apply Forall_cons; [apply good_named; auto; lia|]. apply Forall_cons; [apply good_unnamed; auto; lia|]. apply Forall_nil. }
      specialize (HO HF). clear HF. cbn zeta.
      destruct (one_of _ _) as [[[c|e]|] t3]; [| |subst t3].
      - destruct HO as [HO1 HO2]. split; cbn in *; auto. sfx.
      - destruct HO as [HO1 HO2]. split; cbn in *; auto. sfx.
      - split; cbn; auto. sfx.
    Qed.

    Lemma good_builtin kf t : suffix t s0 -> (length t <= n)%nat -> (length t <= kf)%nat ->
      good s0 t (parse_builtin U total pv kf t).
    Proof.
      intros Hs Hn Hk. unfold parse_builtin.
      match goal with |- context [one_of ?l t] => pose proof (good_one_of l t) as HO end.
      match type of HO with ?P -> _ => assert (HF : P) end.
      { constructor; [apply good_omap, good_bool|]. constructor; [apply good_omap, good_char, Hs|].
        constructor; [apply good_omap, good_string, Hs|]. constructor; [apply good_omap, good_number, Hs|].
        constructor; [apply good_omap, good_named; auto|]. constructor; [apply good_omap, good_unnamed; auto|].
        constructor; [apply good_omap, good_bits, Hs|]. constructor; [apply good_variant; auto|]. constructor. }
      specialize (HO HF). clear HF. destruct (one_of _ t) as [[[v|e]|] t'].
      - exact HO.
      - exact HO.
      - subst t'. split; cbn; auto. apply ok_at; [auto|discriminate|opn].
    Qed.
  End Rec.

  (** What is asked of a custom parser's errors: located in the text it was given, and not the model's fuel error. *)
  Definition customs_err_ok (customs : list cparser) : Prop :=
    forall t e cur, run_customs customs t = Some (Err e, cur) -> err_ok t e /\ opens (err e) = None.

  Lemma shift_err_ok t e : suffix t s0 -> err_ok t e /\ opens (err e) = None -> err_ok s0 (shift_err (offset total t) e).
  Proof.
    intros [c Hc] ((H1 & (a & b & -> & H2) & H3 & _) & H4). split; [exact H1|]. split; [|split; [|now apply no_opener]].
    - exists (c ++ a), b. cbn. split; [rewrite <- app_assoc; exact Hc|].
      rewrite H2. unfold offset, total. rewrite Hc, !blen_app. lia.
    - cbn. unfold offset, total. rewrite Hc. destruct (end_loc e) as [l|]; cbn; auto.
      rewrite !blen_app in *. lia.
  Qed.

  Lemma good_value customs : customs_err_ok customs -> forall fuel t,
    suffix t s0 -> (length t < fuel)%nat -> good s0 t (parse_value U total customs fuel t).
  Proof.
    intro HC. induction fuel as [|k IH]; intros t Hs Hf; [lia|]. cbn [parse_value].
    destruct (run_customs customs t) as [[[v|e] cur]|] eqn:E.
    - split; cbn; auto. unfold wind_forward. exists (firstn (N.to_nat (blen t - blen cur)) t).
      now rewrite firstn_skipn.
    - split; cbn; auto. apply shift_err_ok; auto. eapply HC; eauto.
    - apply (good_builtin _ k); auto; lia.
  Qed.
End Loc.

Lemma parse_custom_good U customs s :
  customs_err_ok customs -> good s s (parse_custom U customs s).
Proof. intros H. apply (good_value U s customs H (S (length s)) s); auto. Qed.

(** ** Fuel independence *)
Section Ext.
  Context (U : unicode) (s0 : str).
  Let total := blen s0.
  Context (pv1 pv2 : str -> pres (value unit)) (n : nat).
  Context (Hgood : forall t, suffix t s0 -> (length t < n)%nat -> good s0 t (pv1 t)).
  Context (Heq : forall t, suffix t s0 -> (length t < n)%nat -> pv1 t = pv2 t).

  Lemma field_ext t : suffix t s0 -> (length t < n)%nat ->
    parse_field_name_and_value U total pv1 t = parse_field_name_and_value U total pv2 t.
  Proof.
    intros Hs Hn. unfold parse_field_name_and_value.
    destruct (good_field_name U s0 t Hs) as [H1 _]. fold total in H1.
    destruct (parse_field_name U total t) as [[name|e] t1]; cbn in *; [|reflexivity].
    destruct (skip_spaced_separator c_colon t1) as [[] t2] eqn:E; cbn [negb]; [|reflexivity].
    apply skip_spaced_suffix' in E. apply suffix_len in H1 as H1l. apply suffix_len in E as El.
    rewrite Heq; [reflexivity|sfx|lia].
  Qed.

  Lemma sep_rest_ext {A} (item1 item2 : str -> pres A) :
    (forall t, suffix t s0 -> (length t < n)%nat -> good s0 t (item1 t)) ->
    (forall t, suffix t s0 -> (length t < n)%nat -> item1 t = item2 t) ->
    forall k1 k2 t acc, suffix t s0 -> (length t < n)%nat -> (length t < k1)%nat -> (length t < k2)%nat ->
    sep_rest k1 item1 t acc = sep_rest k2 item2 t acc.
  Proof.
    intros Hg He. induction k1 as [|k1 IH]; intros k2 t acc Hs Hn H1 H2; [lia|].
    destruct k2 as [|k2]; [lia|]. cbn [sep_rest].
    destruct (skip_spaced_separator c_comma t) as [[] t1] eqn:E; cbn [negb]; [|reflexivity].
    pose proof (skip_spaced_suffix' _ _ _ _ E) as E'.
    assert (Hlt : (length t1 < length t)%nat).
    { apply skip_spaced_true in E as (w1 & w2 & -> & _). repeat (rewrite app_length || cbn [length app]). lia. }
    destruct (Hg t1) as [Hsuf _]; [sfx|lia|]. rewrite <- He; [|sfx|lia].
    destruct (item1 t1) as [[a|e] t2]; cbn in *; [|reflexivity].
    apply suffix_len in Hsuf as Hl. apply IH; [sfx|lia|lia|lia].
  Qed.

  Lemma delimited_ext {A} (item1 item2 : str -> pres A) op cl k1 k2 t :
    (forall t, suffix t s0 -> (length t < n)%nat -> good s0 t (item1 t)) ->
    (forall t, suffix t s0 -> (length t < n)%nat -> item1 t = item2 t) ->
    suffix t s0 -> (length t <= n)%nat -> (length t <= k1)%nat -> (length t <= k2)%nat ->
    parse_delimited total op cl k1 item1 t = parse_delimited total op cl k2 item2 t.
  Proof.
    intros Hg He Hs Hn H1 H2. unfold parse_delimited.
    destruct (token op t) as [[] t1] eqn:E; cbn [negb]; [|reflexivity].
    apply token_true in E as ->. cbn [length] in *.
    pose proof (skip_ws_suffix t1) as Hw. pose proof (suffix_len _ _ Hw) as Hwl.
    destruct (token cl (skip_whitespace t1)) as [[] t3] eqn:E; [reflexivity|].
    apply token_suffix in E. pose proof (suffix_len _ _ E) as Hel. unfold sep_by.
    destruct (Hg t3) as [Hsuf _]; [sfx|lia|]. rewrite <- He; [|sfx|lia].
    destruct (item1 t3) as [[a|e] t4]; cbn in *; [|reflexivity].
    apply suffix_len in Hsuf as Hl.
    rewrite (sep_rest_ext item1 item2 Hg He k1 k2); [reflexivity|sfx|lia|lia|lia].
  Qed.

  Lemma builtin_ext k1 k2 t :
    suffix t s0 -> (length t <= n)%nat -> (length t <= k1)%nat -> (length t <= k2)%nat ->
    parse_builtin U total pv1 k1 t = parse_builtin U total pv2 k2 t.
  Proof.
    intros Hs Hn H1 H2.
    assert (HN : forall t, suffix t s0 -> (length t <= n)%nat -> (length t <= k1)%nat -> (length t <= k2)%nat ->
                 parse_named_composite U total pv1 k1 t = parse_named_composite U total pv2 k2 t).
    { intros. unfold parse_named_composite, omap. rewrite (delimited_ext _ (parse_field_name_and_value U total pv2) _ _ k1 k2);
        auto using field_ext. intros; apply (good_field U s0 pv1 n); auto. }
    assert (HUn : forall t, suffix t s0 -> (length t <= n)%nat -> (length t <= k1)%nat -> (length t <= k2)%nat ->
                 parse_unnamed_composite total pv1 k1 t = parse_unnamed_composite total pv2 k2 t).
    { intros. unfold parse_unnamed_composite, omap. now rewrite (delimited_ext pv1 pv2 _ _ k1 k2). }
    assert (HV : parse_variant U total pv1 k1 t = parse_variant U total pv2 k2 t).
    { unfold parse_variant. pose proof (good_variant_ident U s0 t Hs) as Hi. fold total in Hi.
      destruct (parse_optional_variant_ident U total t) as [[[ident|e]|] t1]; cbn in *; try reflexivity.
      pose proof (skip_ws_suffix t1) as Hw. pose proof (suffix_len _ _ Hi). pose proof (suffix_len _ _ Hw).
      assert (Hs2 : suffix (skip_whitespace t1) s0) by sfx.
      cbn [one_of]. rewrite HN, HUn by (auto; lia). reflexivity. }
    unfold parse_builtin. cbn [one_of]. unfold omap.
    rewrite HN, HUn, HV by auto. reflexivity.
  Qed.
End Ext.

Lemma parse_value_fuel_indep U s0 customs : customs_err_ok customs -> forall k1 k2 t,
  suffix t s0 -> (length t < k1)%nat -> (length t < k2)%nat ->
  parse_value U (blen s0) customs k1 t = parse_value U (blen s0) customs k2 t.
Proof.
  intro HC. induction k1 as [|k1 IH]; intros k2 t Hs H1 H2; [lia|]. destruct k2 as [|k2]; [lia|].
  cbn [parse_value]. destruct (run_customs customs t) as [[[v|e] cur]|]; [reflexivity|reflexivity|].
  apply (builtin_ext U s0 _ _ (Nat.min k1 k2)); auto; try lia.
  - intros t' Ht' Hl. apply good_value; auto. lia.
  - intros t' Ht' Hl. apply IH; auto; lia.
Qed.

(** ** Soundness with respect to the grammar *)
Section Sound.
  Context (U : unicode) (total : N) (customs : list cparser) (X : value unit -> str -> Prop).
  (** The custom parsers produce the custom literals, and leave the cursor so that winding forward is exact. *)
  Context (HX : forall t v cur, run_customs customs t = Some (Ok v, cur) ->
             exists c, t = c ++ wind_forward t cur /\ X v c).

  Section RecS.
    Context (pv : str -> pres (value unit)).
    Context (Hpv : forall t v t', pv t = (Ok v, t') -> exists c, t = c ++ t' /\ g_val U X v c).

    Lemma field_name_sound t n t' : parse_field_name U total t = (Ok n, t') ->
      exists c, t = c ++ t' /\ g_field_name U n c.
    Proof.
      unfold parse_field_name, one_of. destruct (parse_string total t) as [[s|[e|]] t1] eqn:E.
      - intro H; injection H as -> ->. apply parse_string_sound in E as (c & -> & Hc). exists c. split; [auto|now constructor].
      - discriminate.
      - unfold always. destruct (parse_ident U total t) as [[s|e] t2] eqn:E2; [|discriminate].
        intro H; injection H as -> ->. apply parse_ident_sound in E2 as (-> & Hi & _). exists n. split; [auto|now constructor].
    Qed.

    Lemma field_sound t n v t' : parse_field_name_and_value U total pv t = (Ok (n, v), t') ->
      exists nt w1 w2 vt, t = (nt ++ w1 ++ [c_colon] ++ w2 ++ vt) ++ t' /\ g_field_name U n nt /\ ws w1 /\ ws w2 /\ g_val U X v vt.
    Proof.
      unfold parse_field_name_and_value. destruct (parse_field_name U total t) as [[n'|e] t1] eqn:E1; [|discriminate].
      apply field_name_sound in E1 as (nt & -> & Hn).
      destruct (skip_spaced_separator c_colon t1) as [[] t2] eqn:E2; cbn [negb]; [|discriminate].
      apply skip_spaced_true in E2 as (w1 & w2 & -> & W1 & W2 & _).
      destruct (pv t2) as [[v'|e] t3] eqn:E3; [|discriminate]. apply Hpv in E3 as (vt & -> & Hv).
      intro H; injection H as -> -> ->. exists nt, w1, w2, vt. repeat split; auto.
      cbn. repeat (rewrite <- !app_assoc; cbn). reflexivity.
    Qed.

    Lemma items_sound kf : forall t acc l t', sep_rest kf pv t acc = (Ok l, t') ->
      forall v vt, g_val U X v vt ->
      exists l' c, l = rev acc ++ l' /\ t = c ++ t' /\ g_items U X (v :: l') (vt ++ c).
    Proof.
      induction kf as [|kf IH]; intros t acc l t'; cbn [sep_rest]; [discriminate|].
      destruct (skip_spaced_separator c_comma t) as [[] t1] eqn:E; cbn [negb].
      - apply skip_spaced_true in E as (w1 & w2 & -> & W1 & W2 & _).
        destruct (pv t1) as [[a|e] t2] eqn:E2; [|discriminate]. apply Hpv in E2 as (at_ & -> & Ha).
        intros H v vt Hv. destruct (IH _ _ _ _ H a at_ Ha) as (l' & c & -> & -> & Hg).
        exists (a :: l'), (w1 ++ [c_comma] ++ w2 ++ at_ ++ c). cbn [rev]. rewrite <- app_assoc. split; [reflexivity|].
        split; [cbn; repeat (rewrite <- !app_assoc; cbn); reflexivity|]. now constructor.
      - intros H v vt Hv. injection H as <- <-. exists [], []. rewrite !app_nil_r. repeat split. now constructor.
    Qed.

    Lemma fields_sound kf : forall t acc l t', sep_rest kf (parse_field_name_and_value U total pv) t acc = (Ok l, t') ->
      forall n nt w1 w2 v vt, g_field_name U n nt -> ws w1 -> ws w2 -> g_val U X v vt ->
      exists l' c, l = rev acc ++ l' /\ t = c ++ t' /\
        g_fields U X ((n, v) :: l') ((nt ++ w1 ++ [c_colon] ++ w2 ++ vt) ++ c).
    Proof.
      induction kf as [|kf IH]; intros t acc l t'; cbn [sep_rest]; [discriminate|].
      destruct (skip_spaced_separator c_comma t) as [[] t1] eqn:E; cbn [negb].
      - apply skip_spaced_true in E as (w1 & w2 & -> & W1 & W2 & _).
        destruct (parse_field_name_and_value U total pv t1) as [[[n v]|e] t2] eqn:E2; [|discriminate].
        apply field_sound in E2 as (nt & w1' & w2' & vt & -> & Hn & W1' & W2' & Hv).
        intros H n0 nt0 w10 w20 v0 vt0 Hn0 W10 W20 Hv0.
        destruct (IH _ _ _ _ H n nt w1' w2' v vt Hn W1' W2' Hv) as (l' & c & -> & -> & Hg).
        exists ((n, v) :: l'), (w1 ++ [c_comma] ++ w2 ++ (nt ++ w1' ++ [c_colon] ++ w2' ++ vt) ++ c).
        cbn [rev]. rewrite <- app_assoc. split; [reflexivity|].
        split; [cbn; repeat (rewrite <- !app_assoc; cbn); reflexivity|]. now constructor.
      - intros H n nt w1 w2 v vt Hn W1 W2 Hv. injection H as <- <-. exists [], []. rewrite !app_nil_r. repeat split. now constructor.
    Qed.

    Lemma named_sound kf t c t' : parse_named_composite U total pv kf t = (Ok c, t') ->
      exists x, t = x ++ t' /\ g_comp U X c x.
    Proof.
      unfold parse_named_composite, omap, parse_delimited.
      destruct (token c_lbrace t) as [[] t1] eqn:E; cbn [negb rmap]; [|discriminate].
      apply token_true in E as ->. destruct (skip_ws_spec t1) as (w1 & E1 & W1 & _).
      destruct (token c_rbrace (skip_whitespace t1)) as [[] t3] eqn:E.
      { apply token_true in E. cbn [rmap]. intro H; injection H as <- <-.
        exists ([c_lbrace] ++ w1 ++ [c_rbrace]). split; [|now constructor].
        rewrite E1, E. cbn. now rewrite <- app_assoc. }
      apply token_false in E as [-> _]. unfold sep_by.
      destruct (parse_field_name_and_value U total pv (skip_whitespace t1)) as [[[n v]|e] t4] eqn:E4; [|discriminate].
      apply field_sound in E4 as (nt & w1' & w2' & vt & Et & Hn & W1' & W2' & Hv).
      destruct (sep_rest kf _ t4 [(n, v)]) as [[l|e] t5] eqn:E5; [|discriminate].
      destruct (fields_sound _ _ _ _ _ E5 n nt w1' w2' v vt Hn W1' W2' Hv) as (l' & c' & -> & -> & Hg).
      destruct (skip_ws_spec t5) as (w2 & E6 & W2 & _).
      destruct (token c_rbrace (skip_whitespace t5)) as [[] t6] eqn:E; cbn [negb rmap]; [|discriminate].
      apply token_true in E. intro H; injection H as <- <-.
      eexists. split; [|apply (G_named U X w1 _ _ w2 W1 Hg W2)].
      rewrite E1, Et, E6, E. cbn. repeat (rewrite <- !app_assoc; cbn). reflexivity.
    Qed.

    Lemma unnamed_sound kf t c t' : parse_unnamed_composite total pv kf t = (Ok c, t') ->
      exists x, t = x ++ t' /\ g_comp U X c x.
    Proof.
      unfold parse_unnamed_composite, omap, parse_delimited.
      destruct (token c_lpar t) as [[] t1] eqn:E; cbn [negb rmap]; [|discriminate].
      apply token_true in E as ->. destruct (skip_ws_spec t1) as (w1 & E1 & W1 & _).
      destruct (token c_rpar (skip_whitespace t1)) as [[] t3] eqn:E.
      { apply token_true in E. cbn [rmap]. intro H; injection H as <- <-.
        exists ([c_lpar] ++ w1 ++ [c_rpar]). split; [|now constructor].
        rewrite E1, E. cbn. now rewrite <- app_assoc. }
      apply token_false in E as [-> _]. unfold sep_by.
      destruct (pv (skip_whitespace t1)) as [[v|e] t4] eqn:E4; [|discriminate].
      apply Hpv in E4 as (vt & Et & Hv).
      destruct (sep_rest kf _ t4 [v]) as [[l|e] t5] eqn:E5; [|discriminate].
      destruct (items_sound _ _ _ _ _ E5 v vt Hv) as (l' & c' & -> & -> & Hg).
      destruct (skip_ws_spec t5) as (w2 & E6 & W2 & _).
      destruct (token c_rpar (skip_whitespace t5)) as [[] t6] eqn:E; cbn [negb rmap]; [|discriminate].
      apply token_true in E. intro H; injection H as <- <-.
      eexists. split; [|apply (G_unnamed U X w1 _ _ w2 W1 Hg W2)].
      rewrite E1, Et, E6, E. cbn. repeat (rewrite <- !app_assoc; cbn). reflexivity.
    Qed.

    Lemma starts_with_strip p s r : starts_with p s -> strip_prefix p (s ++ r) <> None.
    Proof. intros [x ->]. rewrite <- app_assoc, strip_prefix_app. discriminate. Qed.

    Lemma variant_sound kf t v t' : parse_bool t = (Err None, t) ->
      parse_variant U total pv kf t = (Ok v, t') -> exists x, t = x ++ t' /\ g_val U X v x.
    Proof.
      intro Hb. unfold parse_variant.
      destruct (parse_optional_variant_ident U total t) as [[[n|e]|] t1] eqn:E; try discriminate.
      assert (Hn : exists nt, t = nt ++ t1 /\ g_variant_name U n nt).
      { unfold parse_optional_variant_ident, one_of in E.
        destruct (parse_i_string total t) as [[s|[e|]] t2] eqn:E2.
        - injection E as -> ->. unfold parse_i_string in E2. destruct t as [|c t]; [discriminate|].
          destruct (N.eqb_spec c c_v) as [->|]; cbn [negb] in E2; [|discriminate].
          unfold ok_of_o in E2. destruct (parse_string total t) as [[s|e] t3] eqn:E3; [|discriminate].
          injection E2 as -> ->. apply parse_string_sound in E3 as (x & -> & Hx). exists (c_v :: x).
          split; [reflexivity|now constructor].
        - discriminate.
        - unfold ok_of in E. destruct (parse_ident U total t) as [[s|e] t3] eqn:E3; [|discriminate].
          injection E as -> ->. apply parse_ident_sound in E3 as (-> & Hi & _). exists n. split; [reflexivity|].
          unfold parse_bool, tokens in Hb.
          destruct (strip_prefix (s2l "true") (n ++ t1)) eqn:Es; [discriminate|].
          destruct (strip_prefix (s2l "false") (n ++ t1)) eqn:Es2; [discriminate|].
          constructor; auto; intro Hst; eapply starts_with_strip; eauto. }
      destruct Hn as (nt & -> & Hn). destruct (skip_ws_spec t1) as (w & E1 & W & _).
      cbn [one_of]. destruct (parse_named_composite U total pv kf (skip_whitespace t1)) as [[c|[e|]] t3] eqn:E3.
      - intro H; injection H as <- <-. apply named_sound in E3 as (x & Ex & Hc).
        exists (nt ++ w ++ x). split; [|now constructor]. rewrite E1, Ex. now rewrite <- !app_assoc.
      - discriminate.
      - destruct (parse_unnamed_composite total pv kf (skip_whitespace t1)) as [[c|[e|]] t4] eqn:E4; try discriminate.
        intro H; injection H as <- <-. apply unnamed_sound in E4 as (x & Ex & Hc).
        exists (nt ++ w ++ x). split; [|now constructor]. rewrite E1, Ex. now rewrite <- !app_assoc.
    Qed.

    Lemma bool_sound t b t' : parse_bool t = (Ok b, t') -> exists x, t = x ++ t' /\ g_val U X (vbool b) x.
    Proof.
      unfold parse_bool, tokens. destruct (strip_prefix (s2l "true") t) eqn:E.
      - intro H; injection H as <- <-. apply strip_prefix_some in E as ->. eexists. split; [reflexivity|constructor].
      - destruct (strip_prefix (s2l "false") t) eqn:E2; [|discriminate].
        intro H; injection H as <- <-. apply strip_prefix_some in E2 as ->. eexists. split; [reflexivity|constructor].
    Qed.

    Lemma bool_cases t : (exists b t', parse_bool t = (Ok b, t')) \/ parse_bool t = (Err None, t).
    Proof.
      unfold parse_bool, tokens. destruct (strip_prefix (s2l "true") t); [left; eauto|].
      destruct (strip_prefix (s2l "false") t); [left; eauto|]. now right.
    Qed.

    Lemma builtin_sound kf t v t' : parse_builtin U total pv kf t = (Ok v, t') ->
      exists x, t = x ++ t' /\ g_val U X v x.
    Proof.
      unfold parse_builtin. cbn [one_of]. unfold omap.
      destruct (bool_cases t) as [(b & tb & E)|Hb].
      { rewrite E. cbn [rmap]. intro H; injection H as <- <-. now apply bool_sound in E. }
      rewrite Hb. cbn [rmap].
      destruct (parse_char total t) as [[c|[e|]] t2] eqn:E2; cbn [rmap].
      { intro H; injection H as <- <-. apply parse_char_sound in E2 as (x & -> & Hx). exists x. split; [auto|now constructor]. }
      { discriminate. }
      destruct (parse_string total t) as [[c|[e|]] t3] eqn:E3; cbn [rmap].
      { intro H; injection H as <- <-. apply parse_string_sound in E3 as (x & -> & Hx). exists x. split; [auto|now constructor]. }
      { discriminate. }
      destruct (parse_number total t) as [[c|[e|]] t4] eqn:E4; cbn [rmap].
      { intro H; injection H as <- <-. apply parse_number_sound in E4 as (x & -> & Hx & _). exists x. split; [auto|now constructor]. }
      { discriminate. }
      destruct (parse_named_composite U total pv kf t) as [[c|[e|]] t5] eqn:E5; cbn [rmap].
      { intro H; injection H as <- <-. apply named_sound in E5 as (x & -> & Hx). exists x. split; [auto|now constructor]. }
      { discriminate. }
      destruct (parse_unnamed_composite total pv kf t) as [[c|[e|]] t6] eqn:E6; cbn [rmap].
      { intro H; injection H as <- <-. apply unnamed_sound in E6 as (x & -> & Hx). exists x. split; [auto|now constructor]. }
      { discriminate. }
      destruct (parse_bit_sequence total t) as [[c|[e|]] t7] eqn:E7; cbn [rmap].
      { intro H; injection H as <- <-. apply parse_bits_sound in E7 as ->. eexists. split; [reflexivity|constructor]. }
      { discriminate. }
      destruct (parse_variant U total pv kf t) as [[c|[e|]] t8] eqn:E8; try discriminate.
      intro H; injection H as <- <-. now apply variant_sound in E8.
    Qed.
  End RecS.

  Lemma value_sound fuel : forall t v t', parse_value U total customs fuel t = (Ok v, t') ->
    exists x, t = x ++ t' /\ g_val U X v x.
  Proof.
    induction fuel as [|k IH]; intros t v t'; cbn [parse_value]; [discriminate|].
    destruct (run_customs customs t) as [[[v0|e] cur]|] eqn:E.
    - intro H; injection H as -> <-. apply HX in E as (c & Ec & Hc). exists c. split; [exact Ec|]. now apply G_custom.
    - discriminate.
    - intro H. eapply builtin_sound; eauto.
  Qed.
End Sound.

Lemma from_str_sound U s v rest :
  from_str U s = (Ok v, rest) -> exists c, s = c ++ rest /\ grammar U v c.
Proof.
  intro H. unfold from_str, parse_custom in H. eapply value_sound in H; eauto.
  intros t v0 cur H0. discriminate.
Qed.
