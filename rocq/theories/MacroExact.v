(** * MacroExact: [value!] compiles exactly on its grammar, to the value the grammar gives. *)
From Verif Require Import Base Value Macro Spec_Macro MacroFacts.
From Coq Require Import Lia.

Section Exact.
  Context {E : Type} (P : list tok -> eparse E) (from : E -> value unit) (key_name : E -> str) (HP : rustc_like P).

  Lemma P_nil e rest : P [] <> POk e rest.
  Proof.
    intros H. destruct (rl_split P HP _ _ _ H) as (pre & Hn & Hs & _). destruct pre; [congruence|discriminate].
  Qed.

  Definition mitem (ts : list tok) (m : mexpr) : Prop :=
    (is_form ts /\ m = EMac ts) \/ (exists e, ~ starts_with_form ts /\ P ts = POk e [] /\ m = EUser e).

  Inductive mitems : list tok -> list mexpr -> Prop :=
  | Mi_nil : mitems [] []
  | Mi_last ts m : mitem ts m -> mitems ts [m]
  | Mi_cons ts m rest ms : mitem ts m -> mitems rest ms -> mitems (ts ++ TComma :: rest) (m :: ms).

  Inductive mentries : list tok -> list (str * mexpr) -> Prop :=
  | Me_nil : mentries [] []
  | Me_last ks e ts m : key P ks e -> mitem ts m -> mentries (ks ++ TColon :: ts) [(key_name e, m)]
  | Me_cons ks e ts m rest ms :
      key P ks e -> mitem ts m -> mentries rest ms -> mentries (ks ++ TColon :: ts ++ TComma :: rest) ((key_name e, m) :: ms).

  Lemma mitem_ne ts m : mitem ts m -> ts <> [].
  Proof.
    intros [[Hf _]|(e & _ & H & _)] ->.
    - destruct Hf as (d & l & _ & [H|[n H]]); discriminate.
    - exact (P_nil _ _ H).
  Qed.

  Lemma split_pre ts e t r : split_form ts = None -> P ts = POk e (t :: r) ->
    exists pre, ts = pre ++ t :: r /\ mitem pre (EUser e).
  Proof.
    intros Hs H. destruct (rl_split P HP _ _ _ H) as (pre & Hn & -> & He).
    exists pre. split; [reflexivity|]. right. exists e. split; [|auto].
    intros Hf. apply (split_form_none _ Hs), starts_app, Hf.
  Qed.

  Lemma unnamed_sound f acc l out : Macro.unnamed_rules P f acc l = Some out -> exists ms, out = acc ++ ms /\ mitems l ms.
  Proof.
    revert acc l out. induction f as [|f IH]; intros acc l out H; [discriminate|].
    rewrite unnamed_step in H.
    assert (HA : forall ts m r, mitem ts m -> after_value (Macro.unnamed_rules P f) Some acc m r = Some out ->
      exists ms, out = acc ++ ms /\ mitems (ts ++ r) ms).
    { intros ts m r Hm Ha. unfold after_value in Ha. destruct r as [|t r].
      - injection Ha as <-. exists [m]. rewrite app_nil_r. split; [reflexivity|]. apply Mi_last, Hm.
      - destruct t; try discriminate. apply IH in Ha as (ms & -> & Hms). exists (m :: ms).
        rewrite <- app_assoc. split; [reflexivity|]. apply Mi_cons; assumption. }
    destruct l as [|t ts].
    - injection H as <-. exists []. rewrite app_nil_r. split; [reflexivity|constructor].
    - destruct (split_form (t :: ts)) as [[pre r]|] eqn:Es.
      + pose proof (split_form_some _ _ _ Es) as [-> Hf]. apply (HA pre (EMac pre) r); [left; auto|exact H].
      + destruct (P (t :: ts)) as [| |e [|u r]] eqn:Ep; try discriminate.
        * injection H as <-. exists [EUser e]. split; [reflexivity|]. apply Mi_last. right.
          exists e. split; [apply split_form_none, Es|auto].
        * destruct u; try discriminate.
          destruct (split_pre _ _ _ _ Es Ep) as (pre & Hpre & Hm).
          rewrite Hpre. apply (HA pre (EUser e)); assumption.
  Qed.

  Lemma unnamed_complete l ms : mitems l ms -> exists f, forall acc, Macro.unnamed_rules P f acc l = Some (acc ++ ms).
  Proof.
    induction 1 as [|ts m Hm|ts m rest ms Hm _ [f IH]].
    - exists 1%nat. intros acc. rewrite app_nil_r. reflexivity.
    - exists 1%nat. intros acc. rewrite unnamed_step. pose proof (mitem_ne _ _ Hm) as Hne.
      destruct ts as [|t ts]; [congruence|].
      destruct Hm as [[Hf ->]|(e & Hs & He & ->)].
      + pose proof (split_form_app _ [] Hf) as Hsp. rewrite app_nil_r in Hsp. rewrite Hsp. reflexivity.
      + rewrite (no_form_split _ Hs), He. reflexivity.
    - exists (S f). intros acc. rewrite unnamed_step. pose proof (mitem_ne _ _ Hm) as Hne.
      destruct ts as [|t ts]; [congruence|]. cbn [app].
      change (t :: ts ++ TComma :: rest) with ((t :: ts) ++ TComma :: rest).
      destruct Hm as [[Hf ->]|(e & Hs & He & ->)].
      + rewrite (split_form_app _ _ Hf). cbn [after_value]. rewrite IH, <- app_assoc. reflexivity.
      + rewrite (split_form_sep _ TComma rest (or_introl eq_refl) Hne (no_form_split _ Hs)).
        rewrite (rl_stop P HP _ _ TComma rest He (or_introl eq_refl)). cbn [after_value]. rewrite IH, <- app_assoc. reflexivity.
  Qed.

  (** ** Keys and values *)
  (** Tokens that no continuation makes an expression. *)
  Definition dead (ts : list tok) : Prop := ts <> [] /\ (P ts = PNone \/ exists e t r, P ts = POk e (t :: r)).

  Lemma dead_app ts m : dead ts -> dead (ts ++ m).
  Proof.
    intros [Hn [H|(e & t & r & H)]].
    - split; [destruct ts; [congruence|discriminate]|]. left. apply (rl_none P HP); assumption.
    - split; [destruct ts; [congruence|discriminate]|]. right. exists e, t, (r ++ m). apply (rl_more P HP). exact H.
  Qed.

  Lemma dead_not_full ts m e : dead ts -> P (ts ++ m) <> POk e [].
  Proof. intros Hd H. destruct (dead_app ts m Hd) as [_ [Hc|(e' & t & r & Hc)]]; congruence. Qed.

  Lemma dead_none f acc partial rest : dead partial -> Macro.named_rules P key_name f acc partial rest = None.
  Proof.
    revert acc partial rest. induction f as [|f IH]; intros acc partial rest Hd; [reflexivity|].
    assert (HO : others P key_name f acc partial rest = None).
    { destruct Hd as [Hne Hd]. unfold others. destruct partial as [|p ps]; [congruence|].
      destruct rest as [|t r]; [reflexivity|].
      assert (HI : Macro.named_rules P key_name f acc ((p :: ps) ++ [t]) r = None) by (apply IH, dead_app; split; assumption).
      destruct t; try reflexivity; exact HI. }
    rewrite named_step. destruct Hd as [Hne [Hp|(e & t & r & Hp)]]; (destruct partial as [|p ps]; [congruence|]);
      rewrite Hp; exact HO.
  Qed.

  Lemma value_sound k acc ky r out :
    value_rules P (after_entry key_name k Some acc ky) r = Some (Some out) ->
    exists ts m, mitem ts m /\ ((r = ts /\ out = acc ++ [(key_name ky, m)]) \/
      exists r', r = ts ++ TComma :: r' /\ k (acc ++ [(key_name ky, m)]) r' = Some out).
  Proof.
    rewrite value_rules_step.
    assert (HA : forall ts m r', mitem ts m -> after_entry key_name k Some acc ky m r' = Some out ->
      exists ts1 m1, mitem ts1 m1 /\ ((ts ++ r' = ts1 /\ out = acc ++ [(key_name ky, m1)]) \/
        exists r1, ts ++ r' = ts1 ++ TComma :: r1 /\ k (acc ++ [(key_name ky, m1)]) r1 = Some out)).
    { intros ts m r' Hm Ha. exists ts, m. split; [exact Hm|]. unfold after_entry in Ha. destruct r' as [|t r'].
      - left. injection Ha as <-. rewrite app_nil_r. auto.
      - right. destruct t; try discriminate. exists r'. auto. }
    destruct (split_form r) as [[pre r']|] eqn:Es.
    - intros [= H]. apply split_form_some in Es as [-> Hf]. apply (HA pre (EMac pre)); [left; auto|exact H].
    - destruct (P r) as [| |e [|u r']] eqn:Ep; try (destruct r; discriminate); try discriminate.
      + intros [= H]. rewrite <- (app_nil_r r). apply (HA r (EUser e) []); [|cbn [after_entry]; rewrite H; reflexivity].
        right. exists e. split; [apply split_form_none, Es|auto].
      + destruct u; try (destruct r; discriminate); try discriminate. intros [= H].
        destruct (split_pre _ _ _ _ Es Ep) as (pre & -> & Hm). apply (HA pre (EUser e)); assumption.
  Qed.

  Lemma named_sound f acc partial rest out :
    (forall q r, partial = q ++ r -> q <> [] -> r <> [] -> P q <> PFatal) ->
    (forall k r, partial = [TGroup Paren k] -> rest = TColon :: r -> P k <> PFatal /\ forall e, P k <> POk e []) ->
    Macro.named_rules P key_name f acc partial rest = Some out -> exists ms, out = acc ++ ms /\ mentries (partial ++ rest) ms.
  Proof.
    revert acc partial rest out. induction f as [|f IH]; intros acc partial rest out Ha Hb H; [discriminate|].
    assert (HV : forall ks ky r, key P ks ky ->
      value_rules P (after_entry key_name (fun a r => Macro.named_rules P key_name f a [] r) Some acc ky) r = Some (Some out) ->
      exists ms, out = acc ++ ms /\ mentries (ks ++ TColon :: r) ms).
    { intros ks ky r Hk Hv. apply value_sound in Hv as (ts & m & Hm & [[-> ->]|(r' & -> & Hr)]).
      - exists [(key_name ky, m)]. split; [reflexivity|]. apply Me_last; assumption.
      - apply IH in Hr as (ms & -> & Hms).
        + exists ((key_name ky, m) :: ms). rewrite <- app_assoc. split; [reflexivity|]. apply Me_cons; assumption.
        + intros q r0 Hq Hne. destruct q; [congruence|discriminate].
        + intros k r0 Hq. discriminate. }
    rewrite named_step in H. destruct partial as [|p ps].
    - destruct rest as [|t r].
      { injection H as <-. exists []. rewrite app_nil_r. split; [reflexivity|constructor]. }
      unfold others in H.
      assert (HN : (forall k r', t = TGroup Paren k -> r = TColon :: r' -> P k <> PFatal /\ forall e, P k <> POk e []) ->
        Macro.named_rules P key_name f acc ([] ++ [t]) r = Some out -> exists ms, out = acc ++ ms /\ mentries ([] ++ t :: r) ms).
      { intros Hk Hn. apply (IH acc [t] r out).
        - intros q r0 Hq Hne Hr. destruct q as [|a q]; [congruence|]. destruct q; [|destruct q; discriminate].
          destruct r0; [congruence|discriminate].
        - intros k r0 [= ->] ->. apply (Hk k r0); reflexivity.
        - exact Hn. }
      destruct t as [n| | |n|d l]; try discriminate; try (apply HN; [discriminate|exact H]).
      destruct d; try (apply HN; [discriminate|exact H]).
      destruct r as [|u r]; [apply HN; [intros; discriminate|exact H]|].
      destruct u; try (apply HN; [intros; discriminate|exact H]).
      destruct (P l) as [| |ky [|w ws]] eqn:Ep; try discriminate.
      + apply HN; [|exact H]. intros k r' [= <-] _. rewrite Ep. split; discriminate.
      + destruct (value_rules P _ r) as [[x|]|] eqn:EV; try discriminate. injection H as ->.
        apply (HV [TGroup Paren l] ky r); [apply K_paren, Ep|exact EV].
      + apply HN; [|exact H]. intros k r' [= <-] _. rewrite Ep. split; discriminate.
    - assert (HD : dead (p :: ps) -> others P key_name f acc (p :: ps) rest = Some out -> False).
      { intros Hd Ho. pose proof (dead_none (S f) acc (p :: ps) rest Hd) as Hn. rewrite named_step in Hn.
        destruct Hd as [_ [Hp|(e & t & r & Hp)]]; rewrite Hp in Hn; congruence. }
      destruct (P (p :: ps)) as [| |ky [|w ws]] eqn:Ep.
      + exfalso. apply HD; [|exact H]. split; [discriminate|auto].
      + discriminate.
      + assert (Hpre : forall q r, p :: ps = q ++ r -> q <> [] -> P q <> PFatal).
        { intros q r Hq Hne. destruct r as [|a r]; [rewrite app_nil_r in Hq; subst q; congruence|].
          apply (Ha q (a :: r) Hq Hne). discriminate. }
        assert (HN : forall t r, rest = t :: r -> Macro.named_rules P key_name f acc ((p :: ps) ++ [t]) r = Some out ->
          exists ms, out = acc ++ ms /\ mentries ((p :: ps) ++ t :: r) ms).
        { intros t r -> Hn. replace ((p :: ps) ++ t :: r) with (((p :: ps) ++ [t]) ++ r) by (rewrite <- app_assoc; reflexivity).
          apply (IH acc ((p :: ps) ++ [t]) r out); [| |exact Hn].
          - intros q r0 Hq Hne Hr0.
            destruct (exists_last Hr0) as (r1 & z & ->). rewrite app_assoc in Hq. apply app_inj_tail in Hq as [Hq _].
            apply (Hpre q r1 Hq Hne).
          - intros k r0 Hq. destruct ps; discriminate. }
        destruct rest as [|t r]; [discriminate|].
        assert (HO : others P key_name f acc (p :: ps) (t :: r) = Some out -> t <> TColon ->
          exists ms, out = acc ++ ms /\ mentries ((p :: ps) ++ t :: r) ms).
        { intros Ho _. apply HN; [reflexivity|]. unfold others in Ho. destruct t; try discriminate; exact Ho. }
        destruct t as [n| | |n|d l]; try (apply HO; [exact H|discriminate]).
        destruct (value_rules P _ r) as [[x|]|] eqn:EV; try discriminate.
        * injection H as ->. apply (HV (p :: ps) ky r); [|exact EV].
          apply K_plain; [exact Ep| |exact Hpre]. intros k Hk. apply (Hb k r Hk eq_refl).
        * exfalso. cbn [others] in H.
          rewrite dead_none in H; [discriminate|]. split; [discriminate|]. right. exists ky, TColon, [].
          apply (rl_stop P HP _ _ TColon [] Ep). auto.
      + exfalso. apply HD; [|exact H]. split; [discriminate|]. right. eauto.
  Qed.

  Lemma value_complete k acc ky ts m r out : mitem ts m ->
    (r = [] /\ out = acc ++ [(key_name ky, m)] \/ exists r', r = TComma :: r' /\ k (acc ++ [(key_name ky, m)]) r' = Some out) ->
    value_rules P (after_entry key_name k Some acc ky) (ts ++ r) = Some (Some out).
  Proof.
    intros Hm Hr. rewrite value_rules_step. pose proof (mitem_ne _ _ Hm) as Hne.
    destruct Hm as [[Hf ->]|(e & Hs & He & ->)].
    - rewrite (split_form_app _ _ Hf). destruct Hr as [[-> ->]|(r' & -> & Hk)]; cbn [after_entry]; [reflexivity|].
      rewrite Hk. reflexivity.
    - destruct Hr as [[-> ->]|(r' & -> & Hk)].
      + rewrite app_nil_r, (no_form_split _ Hs), He. reflexivity.
      + rewrite (split_form_sep _ TComma r' (or_introl eq_refl) Hne (no_form_split _ Hs)).
        rewrite (rl_stop P HP _ _ TComma r' He (or_introl eq_refl)). cbn [after_entry]. rewrite Hk. reflexivity.
  Qed.

  Lemma key_prefix ks e p t q : P ks = POk e [] -> (forall q r, ks = q ++ r -> q <> [] -> P q <> PFatal) ->
    ks = p ++ t :: q -> p <> [] -> (exists e', P p = POk e' []) /\ t <> TComma /\ t <> TColon.
  Proof.
    intros He Hpre -> Hn.
    destruct (P p) as [| |e' [|u r]] eqn:Ep.
    - rewrite (rl_none P HP p (t :: q) Hn Ep) in He. discriminate.
    - exfalso. apply (Hpre p (t :: q) eq_refl Hn Ep).
    - split; [eauto|]. split; intros ->.
      + rewrite (rl_stop P HP _ _ TComma q Ep (or_introl eq_refl)) in He. discriminate.
      + rewrite (rl_stop P HP _ _ TColon q Ep (or_intror eq_refl)) in He. discriminate.
    - rewrite (rl_more P HP _ _ _ _ (t :: q) Ep) in He. discriminate.
  Qed.

  Lemma key_walk f acc ks e p q r : P ks = POk e [] -> (forall q r, ks = q ++ r -> q <> [] -> P q <> PFatal) ->
    ks = p ++ q -> p <> [] ->
    Macro.named_rules P key_name (length q + f) acc p (q ++ TColon :: r) = Macro.named_rules P key_name f acc ks (TColon :: r).
  Proof.
    intros He Hpre. revert p. induction q as [|t q IH]; intros p Hks Hn.
    - rewrite app_nil_r in Hks. subst p. reflexivity.
    - destruct (key_prefix ks e p t q He Hpre Hks Hn) as ([e' Ep] & Hc & Hcol).
      cbn [length Nat.add app]. rewrite named_step. destruct p as [|p0 ps]; [congruence|]. rewrite Ep.
      rewrite <- (IH ((p0 :: ps) ++ [t])).
      + destruct t; try congruence; reflexivity.
      + rewrite <- app_assoc. exact Hks.
      + discriminate.
  Qed.

  Lemma key_complete ks e r : key P ks e -> exists n, forall f acc,
    (forall x, value_rules P (after_entry key_name (fun a r => Macro.named_rules P key_name f a [] r) Some acc e) r = Some (Some x) ->
      Macro.named_rules P key_name (n + S f) acc [] (ks ++ TColon :: r) = Some x).
  Proof.
    intros [k e' Hk|ks' e' He Hpar Hpre].
    - exists O. intros f acc x Hx. cbn [Nat.add app]. rewrite named_step. cbn [others]. rewrite Hk, Hx. reflexivity.
    - destruct ks' as [|t q]; [exfalso; exact (P_nil _ _ He)|].
      exists (S (length q)). intros f acc x Hx.
      cbn [app Nat.add]. rewrite named_step.
      assert (HN : Macro.named_rules P key_name (length q + S f) acc [t] (q ++ TColon :: r) = Some x).
      { rewrite (key_walk (S f) acc (t :: q) e' [t] q r He Hpre eq_refl) by discriminate.
        rewrite named_step, He, Hx. reflexivity. }
      destruct t as [n| | |n|d l].
      + exact HN.
      + rewrite (rl_begin P HP TComma q) in He by auto. discriminate.
      + rewrite (rl_begin P HP TColon q) in He by auto. discriminate.
      + exact HN.
      + destruct d; try exact HN. destruct q as [|u q].
        * destruct (Hpar l eq_refl) as [Hf Hfull]. cbn [app others].
          destruct (P l) as [| |e1 [|w ws]] eqn:El; [exact HN|congruence|exfalso; apply (Hfull e1); reflexivity|exact HN].
        * destruct (key_prefix _ e' [TGroup Paren l] u q He Hpre eq_refl) as (_ & _ & Hcol); [discriminate|].
          destruct u; try congruence; exact HN.
  Qed.

  Lemma named_complete l ms : mentries l ms -> exists f, forall acc, Macro.named_rules P key_name f acc [] l = Some (acc ++ ms).
  Proof.
    induction 1 as [|ks e ts m Hk Hm|ks e ts m rest ms Hk Hm _ [f IH]].
    - exists 1%nat. intros acc. rewrite app_nil_r. reflexivity.
    - destruct (key_complete ks e ts Hk) as [n Hn]. exists (n + 1)%nat. intros acc. apply Hn.
      rewrite <- (app_nil_r ts). apply (value_complete _ _ _ ts m [] _ Hm). auto.
    - destruct (key_complete ks e (ts ++ TComma :: rest) Hk) as [n Hn]. exists (n + S f)%nat. intros acc. apply Hn.
      apply (value_complete _ _ _ ts m _ _ Hm). right. exists rest. split; [reflexivity|].
      rewrite IH, <- app_assoc. reflexivity.
  Qed.

  (** ** From expressions to values *)
  Definition eval (f : nat) (m : mexpr) : option (value unit) :=
    match m with EMac ts => Macro.expand P from key_name f ts | EUser e => Some (from e) end.

  Lemma item_of f ts m v : (forall ts v, is_form ts -> Macro.expand P from key_name f ts = Some v -> form P from key_name ts v) ->
    mitem ts m -> eval f m = Some v -> item P from key_name ts v.
  Proof.
    intros IH [[Hf ->]|(e & Hs & He & ->)] Hv.
    - apply I_form, IH; assumption.
    - cbn [eval] in Hv. injection Hv as <-. apply I_expr; assumption.
  Qed.

  Lemma items_of f l ms vs : (forall ts v, is_form ts -> Macro.expand P from key_name f ts = Some v -> form P from key_name ts v) ->
    mitems l ms -> values_with from (Macro.expand P from key_name f) ms = Some vs -> items P from key_name l vs.
  Proof.
    intros IH H. revert vs. induction H as [|ts m Hm|ts m rest ms Hm _ IHm]; intros vs Hv; cbn [values_with] in Hv.
    - injection Hv as <-. constructor.
    - fold (eval f m) in Hv. destruct (eval f m) as [v|] eqn:Em; [|discriminate]. injection Hv as <-.
      apply Is_last, (item_of f ts m); assumption.
    - fold (eval f m) in Hv. destruct (eval f m) as [v|] eqn:Em; [|discriminate].
      destruct (values_with from _ ms) as [r|] eqn:Er; [|discriminate]. injection Hv as <-.
      apply Is_cons; [apply (item_of f ts m); assumption|]. apply IHm. reflexivity.
  Qed.

  Lemma entries_of f l ms vs : (forall ts v, is_form ts -> Macro.expand P from key_name f ts = Some v -> form P from key_name ts v) ->
    mentries l ms -> entries_with from (Macro.expand P from key_name f) ms = Some vs -> entries P from key_name l vs.
  Proof.
    intros IH H. revert vs. induction H as [|ks e ts m Hk Hm|ks e ts m rest ms Hk Hm _ IHm]; intros vs Hv; cbn [entries_with] in Hv.
    - injection Hv as <-. constructor.
    - fold (eval f m) in Hv. destruct (eval f m) as [v|] eqn:Em; [|discriminate]. injection Hv as <-.
      apply Es_last; [exact Hk|apply (item_of f ts m); assumption].
    - fold (eval f m) in Hv. destruct (eval f m) as [v|] eqn:Em; [|discriminate].
      destruct (entries_with from _ ms) as [r|] eqn:Er; [|discriminate]. injection Hv as <-.
      apply Es_cons; [exact Hk|apply (item_of f ts m); assumption|]. apply IHm. reflexivity.
  Qed.

  Lemma form_sound f ts v : is_form ts -> Macro.expand P from key_name f ts = Some v -> form P from key_name ts v.
  Proof.
    revert ts v. induction f as [|f IH]; intros ts v Hf H; [discriminate|].
    assert (HU : forall (w : list (value unit) -> value unit) l,
      option_map w (obind (Macro.unnamed_rules P f [] l) (values_with from (Macro.expand P from key_name f))) = Some v ->
      exists vs, items P from key_name l vs /\ v = w vs).
    { intros w l Hw. destruct (Macro.unnamed_rules P f [] l) as [ms|] eqn:EU; [|discriminate].
      apply unnamed_sound in EU as (ms' & -> & Hms). cbn [obind app] in Hw.
      destruct (values_with from (Macro.expand P from key_name f) ms') as [vs|] eqn:EV; [|discriminate].
      exists vs. split; [apply (items_of f l ms'); assumption|]. injection Hw as <-. reflexivity. }
    assert (HN : forall (w : list (str * value unit) -> value unit) l,
      option_map w (obind (Macro.named_rules P key_name f [] [] l) (entries_with from (Macro.expand P from key_name f))) = Some v ->
      exists vs, entries P from key_name l vs /\ v = w vs).
    { intros w l Hw. destruct (Macro.named_rules P key_name f [] [] l) as [ms|] eqn:EU; [|discriminate].
      apply named_sound in EU as (ms' & -> & Hms).
      - cbn [obind app] in Hw.
        destruct (entries_with from (Macro.expand P from key_name f) ms') as [vs|] eqn:EV; [|discriminate].
        exists vs. split; [apply (entries_of f l ms'); assumption|]. injection Hw as <-. reflexivity.
      - intros q r Hq Hne. destruct q; [congruence|discriminate].
      - intros k r Hq. discriminate. }
    destruct (is_form_cases _ Hf) as (l & [->|[->|[[n ->]|[n ->]]]]); rewrite expand_step in H.
    - destruct l as [|t l].
      + injection H as <-. apply F_tuple. constructor.
      + apply HU in H as (vs & Hv & ->). apply F_tuple, Hv.
    - destruct l as [|t l].
      + injection H as <-. apply F_struct. constructor.
      + apply HN in H as (vs & Hv & ->). apply F_struct, Hv.
    - apply HU in H as (vs & Hv & ->). apply F_variant, Hv.
    - apply HN in H as (vs & Hv & ->). apply F_struct_variant, Hv.
  Qed.

  Lemma expand_sound f ts v : Macro.expand P from key_name f ts = Some v -> denotes P from key_name ts v.
  Proof.
    intros H. destruct (expand_cases ts) as [Hf|[->|[Hf Hn]]].
    - apply D_form, (form_sound f); assumption.
    - destruct f; [discriminate|]. injection H as <-. apply D_nothing.
    - destruct f; [discriminate|]. rewrite expand_expr in H by assumption.
      destruct (P ts) as [| |e [|t r]] eqn:Ep; try discriminate. injection H as <-. apply D_expr; assumption.
  Qed.

  Lemma eval_mono f g m v : (f <= g)%nat -> eval f m = Some v -> eval g m = Some v.
  Proof. intros Hle. destruct m; cbn [eval]; [apply expand_mono; exact Hle|auto]. Qed.

  Lemma complete_all :
    (forall ts v, form P from key_name ts v -> is_form ts /\ exists f, Macro.expand P from key_name f ts = Some v) /\
    (forall ts v, item P from key_name ts v -> exists m, mitem ts m /\ exists f, eval f m = Some v) /\
    (forall l vs, items P from key_name l vs -> exists ms, mitems l ms /\ exists f, values_with from (Macro.expand P from key_name f) ms = Some vs) /\
    (forall l vs, entries P from key_name l vs -> exists ms, mentries l ms /\ exists f, entries_with from (Macro.expand P from key_name f) ms = Some vs).
  Proof.
    assert (HU : forall (w : list (value unit) -> value unit) l ms vs f, mitems l ms ->
      values_with from (Macro.expand P from key_name f) ms = Some vs ->
      exists g, forall h, (g <= h)%nat -> option_map w (obind (Macro.unnamed_rules P h [] l) (values_with from (Macro.expand P from key_name h))) = Some (w vs)).
    { intros w l ms vs f Hm Hv. destruct (unnamed_complete l ms Hm) as [f' Hu]. exists (f + f')%nat. intros h Hh.
      rewrite (unnamed_mono P f' h [] l _ ltac:(lia) (Hu [])). cbn [app obind].
      rewrite (values_with_mono from _ (Macro.expand P from key_name h) _ _ (fun ts v => expand_mono P from key_name f h ts v ltac:(lia)) Hv). reflexivity. }
    assert (HN : forall (w : list (str * value unit) -> value unit) l ms vs f, mentries l ms ->
      entries_with from (Macro.expand P from key_name f) ms = Some vs ->
      exists g, forall h, (g <= h)%nat -> option_map w (obind (Macro.named_rules P key_name h [] [] l) (entries_with from (Macro.expand P from key_name h))) = Some (w vs)).
    { intros w l ms vs f Hm Hv. destruct (named_complete l ms Hm) as [f' Hu]. exists (f + f')%nat. intros h Hh.
      rewrite (named_mono P key_name f' h [] [] l _ ltac:(lia) (Hu [])). cbn [app obind].
      rewrite (entries_with_mono from _ (Macro.expand P from key_name h) _ _ (fun ts v => expand_mono P from key_name f h ts v ltac:(lia)) Hv). reflexivity. }
    apply macro_ind.
    - intros l vs _ (ms & Hm & f & Hv). split; [exists Paren, l; auto|].
      destruct (HU unnamed_composite l ms vs f Hm Hv) as [g Hg]. exists (S (S g)). rewrite expand_paren. apply Hg. lia.
    - intros l vs _ (ms & Hm & f & Hv). split; [exists Brace, l; auto|].
      destruct (HN named_composite l ms vs f Hm Hv) as [g Hg]. exists (S (S g)). rewrite expand_brace. apply Hg. lia.
    - intros n l vs _ (ms & Hm & f & Hv). split; [exists Paren, l; eauto|].
      destruct (HU (unnamed_variant n) l ms vs f Hm Hv) as [g Hg]. exists (S g). rewrite expand_vparen. apply Hg. lia.
    - intros n l vs _ (ms & Hm & f & Hv). split; [exists Brace, l; eauto|].
      destruct (HN (named_variant n) l ms vs f Hm Hv) as [g Hg]. exists (S g). rewrite expand_vbrace. apply Hg. lia.
    - intros ts v _ [Hf [f H]]. exists (EMac ts). split; [left; auto|]. exists f. exact H.
    - intros ts e Hs He. exists (EUser e). split; [right; eauto|]. exists O. reflexivity.
    - exists []. split; [constructor|]. exists O. reflexivity.
    - intros ts v _ (m & Hm & f & Hv). exists [m]. split; [apply Mi_last, Hm|]. exists f. cbn [values_with].
      fold (eval f m). rewrite Hv. reflexivity.
    - intros ts v rest vs _ (m & Hm & f & Hv) _ (ms & Hms & g & Hvs). exists (m :: ms).
      split; [apply Mi_cons; assumption|]. exists (f + g)%nat. cbn [values_with]. fold (eval (f + g) m).
      rewrite (eval_mono f (f + g) m v ltac:(lia) Hv).
      rewrite (values_with_mono from _ (Macro.expand P from key_name (f + g)) _ _ (fun ts v => expand_mono P from key_name g (f + g) ts v ltac:(lia)) Hvs). reflexivity.
    - exists []. split; [constructor|]. exists O. reflexivity.
    - intros ks e ts v Hk _ (m & Hm & f & Hv). exists [(key_name e, m)]. split; [apply Me_last; assumption|]. exists f. cbn [entries_with].
      fold (eval f m). rewrite Hv. reflexivity.
    - intros ks e ts v rest vs Hk _ (m & Hm & f & Hv) _ (ms & Hms & g & Hvs). exists ((key_name e, m) :: ms).
      split; [apply Me_cons; assumption|]. exists (f + g)%nat. cbn [entries_with]. fold (eval (f + g) m).
      rewrite (eval_mono f (f + g) m v ltac:(lia) Hv).
      rewrite (entries_with_mono from _ (Macro.expand P from key_name (f + g)) _ _ (fun ts v => expand_mono P from key_name g (f + g) ts v ltac:(lia)) Hvs). reflexivity.
  Qed.

  Lemma expand_exact ts v : (exists f, Macro.expand P from key_name f ts = Some v) <-> denotes P from key_name ts v.
  Proof.
    split; [intros [f H]; apply (expand_sound f), H|].
    intros [|ts' v' Hf|ts' e Hf Hn He].
    - exists 1%nat. reflexivity.
    - apply (proj1 complete_all), Hf.
    - exists 1%nat. rewrite expand_expr by assumption. rewrite He. reflexivity.
  Qed.
End Exact.
