(** * MacroDepthFacts: the depth counted by MacroDepth is the one read off the grammar. *)
From Verif Require Import Base Value Macro Spec_Macro MacroFacts MacroExact MacroDepth Spec_MacroDepth.
From Coq Require Import Lia.

Section Facts.
  Context {E : Type} (P : list tok -> eparse E) (from : E -> value unit) (key_name : E -> str) (ud : E -> nat) (vd : nat) (HP : rustc_like P).
  Local Notation mx := (mexpr (E := E)).
  Local Notation mitem := (mitem P).
  Local Notation form_needs := (form_needs P from key_name ud (1 + vd)).
  Local Notation item_needs := (item_needs P from key_name ud (1 + vd)).
  Local Notation items_need := (items_need P from key_name ud (1 + vd)).
  Local Notation entries_need := (entries_need P from key_name ud (1 + vd)).
  Local Notation expand_d := (expand_d P from key_name ud vd).
  Local Notation named_d := (named_d P key_name).
  Local Notation unnamed_d := (unnamed_d P).

  Lemma add_some {A} n (r : dres A) l k : add n r = Some (l, k) -> exists k', r = Some (l, k') /\ k = (n + k')%nat.
  Proof. destruct r as [[x k']|]; [|discriminate]. intros [= <- <-]. eauto. Qed.

  Lemma unnamed_d_step f acc inner : unnamed_d (S f) acc inner =
    match inner with
    | [] => Some (acc, 1%nat)
    | _ =>
        match split_form inner with
        | Some (pre, r) => add 1 (after_value_d (unnamed_d f) acc (EMac pre) r)
        | None =>
            match P inner with
            | POk e [] => Some (acc ++ [(1%nat, EUser e)], 1%nat)
            | POk e (TComma :: r) => add 1 (after_value_d (unnamed_d f) acc (EUser e) (TComma :: r))
            | _ => None
            end
        end
    end.
  Proof.
    destruct inner as [|t ts]; [reflexivity|].
    destruct t as [n| | |n|d l]; try reflexivity.
    - destruct ts as [|t2 ts]; [reflexivity|].
      destruct t2 as [n2| | |n2|d l]; try reflexivity.
      destruct d; reflexivity.
    - destruct d; reflexivity.
  Qed.

  (** Items, with the invocations that collect them. *)
  Inductive ditems : list tok -> list (nat * mx) -> nat -> Prop :=
  | Di_nil : ditems [] [] 1
  | Di_last_form ts : is_form ts -> ditems ts [(1%nat, EMac ts)] 2
  | Di_last_expr ts e : ~ starts_with_form ts -> P ts = POk e [] -> ditems ts [(1%nat, EUser e)] 1
  | Di_cons ts m rest ms s : mitem ts m -> ditems rest ms s -> ditems (ts ++ TComma :: rest) ((layer m, m) :: ms) (2 + s).

  Lemma unnamed_d_sound f acc l out n : unnamed_d f acc l = Some (out, n) -> exists ms, out = acc ++ ms /\ ditems l ms n.
  Proof.
    revert acc l out n. induction f as [|f IH]; intros acc l out n H; [discriminate|].
    rewrite unnamed_d_step in H.
    assert (HA : forall ts m r, mitem ts m -> (exists t r', r = t :: r') -> add 1 (after_value_d (unnamed_d f) acc m r) = Some (out, n) ->
      exists ms, out = acc ++ ms /\ ditems (ts ++ r) ms n).
    { intros ts m r Hm (t & r' & ->) Ha. apply add_some in Ha as (k & Ha & ->). unfold after_value_d in Ha.
      destruct t; try discriminate. apply add_some in Ha as (k' & Ha & ->). apply IH in Ha as (ms & -> & Hms). exists ((layer m, m) :: ms).
      rewrite <- app_assoc. split; [reflexivity|]. apply (Di_cons ts m r' ms k'); assumption. }
    destruct l as [|t ts].
    - injection H as <- <-. exists []. rewrite app_nil_r. split; [reflexivity|constructor].
    - destruct (split_form (t :: ts)) as [[pre r]|] eqn:Es.
      + pose proof (split_form_some _ _ _ Es) as [-> Hf]. destruct r as [|u r].
        * cbn [after_value_d add] in H. injection H as <- <-. exists [(1%nat, EMac pre)]. split; [reflexivity|]. rewrite app_nil_r. constructor. exact Hf.
        * apply (HA pre (EMac pre) (u :: r)); [left; auto|eauto|exact H].
      + destruct (P (t :: ts)) as [| |e [|u r]] eqn:Ep; try discriminate.
        * injection H as <- <-. exists [(1%nat, EUser e)]. split; [reflexivity|]. constructor; [apply split_form_none, Es|exact Ep].
        * destruct u; try discriminate.
          destruct (split_pre P HP _ _ _ _ Es Ep) as (pre & Hpre & Hm).
          rewrite Hpre. apply (HA pre (EUser e)); eauto.
  Qed.

  Lemma ditems_ne_form ts : is_form ts -> ts <> [].
  Proof. intros (d & l & _ & [->|[n ->]]); discriminate. Qed.

  Lemma unnamed_d_complete l ms s : ditems l ms s -> exists f0, forall f acc, (f0 <= f)%nat -> unnamed_d f acc l = Some (acc ++ ms, s).
  Proof.
    induction 1 as [|ts Hf|ts e Hs He|ts m rest ms s Hm _ [f0 IH]].
    - exists 1%nat. intros [|f] acc Hl; [lia|]. rewrite app_nil_r. reflexivity.
    - exists 1%nat. intros [|f] acc Hl; [lia|]. rewrite unnamed_d_step. pose proof (ditems_ne_form _ Hf) as Hne. destruct ts as [|t ts]; [congruence|].
      pose proof (split_form_app _ [] Hf) as Hsp. rewrite app_nil_r in Hsp. rewrite Hsp. reflexivity.
    - exists 1%nat. intros [|f] acc Hl; [lia|]. rewrite unnamed_d_step. destruct ts as [|t ts]; [exfalso; exact (P_nil P HP _ _ He)|].
      rewrite (no_form_split _ Hs), He. reflexivity.
    - exists (S f0). intros [|f] acc Hl; [lia|]. rewrite unnamed_d_step. pose proof (mitem_ne P HP _ _ Hm) as Hne.
      destruct ts as [|t ts]; [congruence|]. cbn [app].
      change (t :: ts ++ TComma :: rest) with ((t :: ts) ++ TComma :: rest).
      destruct Hm as [[Hf ->]|(e & Hs & He & ->)].
      + rewrite (split_form_app _ _ Hf). cbn [after_value_d]. rewrite IH by lia. rewrite <- app_assoc. reflexivity.
      + rewrite (split_form_sep _ TComma rest (or_introl eq_refl) Hne (no_form_split _ Hs)).
        rewrite (rl_stop P HP _ _ TComma rest He (or_introl eq_refl)). cbn [after_value_d]. rewrite IH by lia. rewrite <- app_assoc. reflexivity.
  Qed.

  (** ** Entries *)
  Inductive dentries : list tok -> list (str * (nat * mx)) -> nat -> Prop :=
  | De_nil : dentries [] [] 1
  | De_last ks e ts m : key P ks e -> mitem ts m -> dentries (ks ++ TColon :: ts) [(key_name e, (layer m, m))] (length ks + 2)
  | De_cons ks e ts m rest ms s :
      key P ks e -> mitem ts m -> dentries rest ms s -> dentries (ks ++ TColon :: ts ++ TComma :: rest) ((key_name e, (layer m, m)) :: ms) (length ks + 2 + s).

  Definition dnext (f : nat) (acc : list (str * (nat * mx))) (ky : E) (m : mx) (r : list tok) : dres (str * (nat * mx)) :=
    add 1 (after_entry_d key_name (fun a r => named_d f a [] r) acc ky m r).
  Definition dothers (f : nat) (acc : list (str * (nat * mx))) (partial rest : list tok) : dres (str * (nat * mx)) :=
    match partial, rest with
    | [], TColon :: _ => None
    | _, TComma :: _ => None
    | [], TGroup Paren k :: TColon :: r =>
        match P k with
        | PFatal => None
        | POk ky [] => match value_rules P (dnext f acc ky) r with Some x => add 1 x | None => None end
        | _ => add 1 (named_d f acc [TGroup Paren k] (TColon :: r))
        end
    | _, t :: r => add 1 (named_d f acc (partial ++ [t]) r)
    | _, [] => None
    end.
  Lemma named_d_step f acc partial rest : named_d (S f) acc partial rest =
    match partial, rest with
    | [], [] => Some (acc, 1%nat)
    | [], _ => dothers f acc partial rest
    | _ :: _, _ =>
        match P partial with
        | PFatal => None
        | POk ky [] =>
            match rest with
            | TColon :: r => match value_rules P (dnext f acc ky) r with Some x => x | None => dothers f acc partial rest end
            | [] => None
            | _ => dothers f acc partial rest
            end
        | _ => dothers f acc partial rest
        end
    end.
  Proof. reflexivity. Qed.

  Lemma dead_none_d f acc partial rest : dead P partial -> named_d f acc partial rest = None.
  Proof.
    revert acc partial rest. induction f as [|f IH]; intros acc partial rest Hd; [reflexivity|].
    assert (HO : dothers f acc partial rest = None).
    { destruct Hd as [Hne Hd]. unfold dothers. destruct partial as [|p ps]; [congruence|].
      destruct rest as [|t r]; [reflexivity|].
      assert (HI : named_d f acc ((p :: ps) ++ [t]) r = None) by (apply IH, dead_app; [exact HP|split; assumption]).
      destruct t; try reflexivity; rewrite HI; reflexivity. }
    rewrite named_d_step. destruct Hd as [Hne [Hp|(e & t & r & Hp)]]; (destruct partial as [|p ps]; [congruence|]);
      rewrite Hp; exact HO.
  Qed.

  Lemma value_sound_d f acc ky r out n :
    value_rules P (dnext f acc ky) r = Some (Some (out, n)) ->
    exists ts m, mitem ts m /\ ((r = ts /\ out = acc ++ [(key_name ky, (layer m, m))] /\ n = 2%nat) \/
      exists r' k, r = ts ++ TComma :: r' /\ named_d f (acc ++ [(key_name ky, (layer m, m))]) [] r' = Some (out, k) /\ n = (2 + k)%nat).
  Proof.
    rewrite value_rules_step.
    assert (HA : forall ts m r', mitem ts m -> dnext f acc ky m r' = Some (out, n) ->
      exists ts1 m1, mitem ts1 m1 /\ ((ts ++ r' = ts1 /\ out = acc ++ [(key_name ky, (layer m1, m1))] /\ n = 2%nat) \/
        exists r1 k, ts ++ r' = ts1 ++ TComma :: r1 /\ named_d f (acc ++ [(key_name ky, (layer m1, m1))]) [] r1 = Some (out, k) /\ n = (2 + k)%nat)).
    { intros ts m r' Hm Ha. exists ts, m. split; [exact Hm|]. apply add_some in Ha as (k & Ha & ->). unfold after_entry_d in Ha. destruct r' as [|t r'].
      - left. injection Ha as <- <-. rewrite app_nil_r. auto.
      - right. destruct t; try discriminate. apply add_some in Ha as (k' & Ha & ->). exists r', k'. auto. }
    destruct (split_form r) as [[pre r']|] eqn:Es.
    - intros [= H]. apply split_form_some in Es as [-> Hf]. apply (HA pre (EMac pre)); [left; auto|exact H].
    - destruct (P r) as [| |e [|u r']] eqn:Ep; try (destruct r; discriminate); try discriminate.
      + intros [= <- <-]. rewrite <- (app_nil_r r). apply (HA r (EUser e) []); [|reflexivity].
        right. exists e. split; [apply split_form_none, Es|auto].
      + destruct u; try (destruct r; discriminate); try discriminate. intros [= H].
        destruct (split_pre P HP _ _ _ _ Es Ep) as (pre & -> & Hm). apply (HA pre (EUser e)); assumption.
  Qed.

  Lemma named_d_sound f acc partial rest out n :
    (forall q r, partial = q ++ r -> q <> [] -> r <> [] -> P q <> PFatal) ->
    (forall k r, partial = [TGroup Paren k] -> rest = TColon :: r -> P k <> PFatal /\ forall e, P k <> POk e []) ->
    named_d f acc partial rest = Some (out, n) -> exists ms, out = acc ++ ms /\ dentries (partial ++ rest) ms (length partial + n).
  Proof.
    revert acc partial rest out n. induction f as [|f IH]; intros acc partial rest out n Ha Hb H; [discriminate|].
    assert (HV : forall ks ky r m, key P ks ky ->
      value_rules P (dnext f acc ky) r = Some (Some (out, m)) ->
      exists ms, out = acc ++ ms /\ dentries (ks ++ TColon :: r) ms (length ks + m)).
    { intros ks ky r m0 Hk Hv. apply value_sound_d in Hv as (ts & m & Hm & [(-> & -> & ->)|(r' & k & -> & Hr & ->)]).
      - exists [(key_name ky, (layer m, m))]. split; [reflexivity|]. apply De_last; assumption.
      - apply IH in Hr as (ms & -> & Hms).
        + exists ((key_name ky, (layer m, m)) :: ms). rewrite <- app_assoc. split; [reflexivity|].
          replace (length ks + (2 + k))%nat with (length ks + 2 + k)%nat by lia. apply De_cons; assumption.
        + intros q r0 Hq Hne. destruct q; [congruence|discriminate].
        + intros k' r0 Hq. discriminate. }
    rewrite named_d_step in H. destruct partial as [|p ps].
    - destruct rest as [|t r].
      { injection H as <- <-. exists []. rewrite app_nil_r. split; [reflexivity|constructor]. }
      unfold dothers in H. cbn [length Nat.add].
      assert (HN : (forall k r', t = TGroup Paren k -> r = TColon :: r' -> P k <> PFatal /\ forall e, P k <> POk e []) ->
        add 1 (named_d f acc ([] ++ [t]) r) = Some (out, n) -> exists ms, out = acc ++ ms /\ dentries ([] ++ t :: r) ms n).
      { intros Hk Hn. apply add_some in Hn as (n' & Hn & ->). apply (IH acc [t] r out n').
        - intros q r0 Hq Hne Hr. destruct q as [|a q]; [congruence|]. destruct q; [|destruct q; discriminate].
          destruct r0; [congruence|discriminate].
        - intros k r0 [= ->] ->. apply (Hk k r0); reflexivity.
        - exact Hn. }
      destruct t as [i| | |i|d l]; try discriminate; try (apply HN; [discriminate|exact H]).
      destruct d; try (apply HN; [discriminate|exact H]).
      destruct r as [|u r]; [apply HN; [intros; discriminate|exact H]|].
      destruct u; try (apply HN; [intros; discriminate|exact H]).
      destruct (P l) as [| |ky [|w ws]] eqn:Ep; try discriminate.
      + apply HN; [|exact H]. intros k r' [= <-] _. rewrite Ep. split; discriminate.
      + destruct (value_rules P _ r) as [[[x m]|]|] eqn:EV; try discriminate. injection H as -> <-.
        apply (HV [TGroup Paren l] ky r); [apply K_paren, Ep|exact EV].
      + apply HN; [|exact H]. intros k r' [= <-] _. rewrite Ep. split; discriminate.
    - assert (HD : dead P (p :: ps) -> dothers f acc (p :: ps) rest = Some (out, n) -> False).
      { intros Hd Ho. pose proof (dead_none_d (S f) acc (p :: ps) rest Hd) as Hn. rewrite named_d_step in Hn.
        destruct Hd as [_ [Hp|(e & t & r & Hp)]]; rewrite Hp in Hn; congruence. }
      destruct (P (p :: ps)) as [| |ky [|w ws]] eqn:Ep.
      + exfalso. apply HD; [|exact H]. split; [discriminate|auto].
      + discriminate.
      + assert (Hpre : forall q r, p :: ps = q ++ r -> q <> [] -> P q <> PFatal).
        { intros q r Hq Hne. destruct r as [|a r]; [rewrite app_nil_r in Hq; subst q; congruence|].
          apply (Ha q (a :: r) Hq Hne). discriminate. }
        assert (HN : forall t r, rest = t :: r -> add 1 (named_d f acc ((p :: ps) ++ [t]) r) = Some (out, n) ->
          exists ms, out = acc ++ ms /\ dentries ((p :: ps) ++ t :: r) ms (length (p :: ps) + n)).
        { intros t r -> Hn. apply add_some in Hn as (n' & Hn & ->).
          replace ((p :: ps) ++ t :: r) with (((p :: ps) ++ [t]) ++ r) by (rewrite <- app_assoc; reflexivity).
          replace (length (p :: ps) + (1 + n'))%nat with (length ((p :: ps) ++ [t]) + n')%nat by (rewrite app_length; cbn [length]; lia).
          apply (IH acc ((p :: ps) ++ [t]) r out n'); [| |exact Hn].
          - intros q r0 Hq Hne Hr0.
            destruct (exists_last Hr0) as (r1 & z & ->). rewrite app_assoc in Hq. apply app_inj_tail in Hq as [Hq _].
            apply (Hpre q r1 Hq Hne).
          - intros k r0 Hq. destruct ps; discriminate. }
        destruct rest as [|t r]; [discriminate|].
        assert (HO : dothers f acc (p :: ps) (t :: r) = Some (out, n) -> t <> TColon ->
          exists ms, out = acc ++ ms /\ dentries ((p :: ps) ++ t :: r) ms (length (p :: ps) + n)).
        { intros Ho _. apply HN; [reflexivity|]. unfold dothers in Ho. destruct t; try discriminate; exact Ho. }
        destruct t as [i| | |i|d l]; try (apply HO; [exact H|discriminate]).
        destruct (value_rules P _ r) as [[[x m]|]|] eqn:EV; try discriminate.
        * injection H as -> <-. apply (HV (p :: ps) ky r); [|exact EV].
          apply K_plain; [exact Ep| |exact Hpre]. intros k Hk. apply (Hb k r Hk eq_refl).
        * exfalso. cbn [dothers] in H.
          rewrite dead_none_d in H; [discriminate|]. split; [discriminate|]. right. exists ky, TColon, [].
          apply (rl_stop P HP _ _ TColon [] Ep). auto.
      + exfalso. apply HD; [|exact H]. split; [discriminate|]. right. eauto.
  Qed.

  Lemma value_complete_d f acc ky ts m r out n : mitem ts m ->
    (r = [] /\ out = acc ++ [(key_name ky, (layer m, m))] /\ n = 2%nat \/
     exists r' k, r = TComma :: r' /\ named_d f (acc ++ [(key_name ky, (layer m, m))]) [] r' = Some (out, k) /\ n = (2 + k)%nat) ->
    value_rules P (dnext f acc ky) (ts ++ r) = Some (Some (out, n)).
  Proof.
    intros Hm Hr. rewrite value_rules_step. pose proof (mitem_ne P HP _ _ Hm) as Hne.
    destruct Hm as [[Hf ->]|(e & Hs & He & ->)].
    - rewrite (split_form_app _ _ Hf). unfold dnext. destruct Hr as [(-> & -> & ->)|(r' & k & -> & Hk & ->)]; cbn [after_entry_d]; [reflexivity|].
      rewrite Hk. reflexivity.
    - destruct Hr as [(-> & -> & ->)|(r' & k & -> & Hk & ->)].
      + rewrite app_nil_r, (no_form_split _ Hs), He. reflexivity.
      + rewrite (split_form_sep _ TComma r' (or_introl eq_refl) Hne (no_form_split _ Hs)).
        rewrite (rl_stop P HP _ _ TComma r' He (or_introl eq_refl)). unfold dnext. cbn [after_entry_d]. rewrite Hk. reflexivity.
  Qed.

  Lemma add_add {A} a b (r : dres A) : add a (add b r) = add (a + b) r.
  Proof. destruct r as [[x k]|]; cbn [add]; [f_equal; f_equal; lia|reflexivity]. Qed.
  Lemma add_0 {A} (r : dres A) : add 0 r = r.
  Proof. destruct r as [[x k]|]; reflexivity. Qed.

  Lemma key_walk_d f acc ks e p q r : P ks = POk e [] -> (forall q r, ks = q ++ r -> q <> [] -> P q <> PFatal) ->
    ks = p ++ q -> p <> [] ->
    named_d (length q + f) acc p (q ++ TColon :: r) = add (length q) (named_d f acc ks (TColon :: r)).
  Proof.
    intros He Hpre. revert p. induction q as [|t q IH]; intros p Hks Hn.
    - rewrite app_nil_r in Hks. subst p. cbn [length Nat.add app]. rewrite add_0. reflexivity.
    - destruct (key_prefix P HP ks e p t q He Hpre Hks Hn) as ([e' Ep] & Hc & Hcol).
      cbn [length Nat.add app]. rewrite named_d_step. destruct p as [|p0 ps]; [congruence|]. rewrite Ep.
      change (S (length q)) with (1 + length q)%nat. rewrite <- add_add. rewrite <- (IH ((p0 :: ps) ++ [t])).
      + destruct t; try congruence; reflexivity.
      + rewrite <- app_assoc. exact Hks.
      + discriminate.
  Qed.

  Lemma key_complete_d ks e r : key P ks e -> exists n, forall f acc out k,
    value_rules P (dnext f acc e) r = Some (Some (out, k)) ->
      named_d (n + S f) acc [] (ks ++ TColon :: r) = Some (out, (length ks + k)%nat).
  Proof.
    intros [k e' Hk|ks' e' He Hpar Hpre].
    - exists O. intros f acc out m Hx. cbn [Nat.add app length]. rewrite named_d_step. cbn [dothers]. rewrite Hk, Hx. reflexivity.
    - destruct ks' as [|t q]; [exfalso; exact (P_nil P HP _ _ He)|].
      exists (S (length q)). intros f acc out k Hx.
      cbn [app Nat.add length]. rewrite named_d_step.
      assert (HN : add 1 (named_d (length q + S f) acc [t] (q ++ TColon :: r)) = Some (out, S (length q + k))).
      { rewrite (key_walk_d (S f) acc (t :: q) e' [t] q r He Hpre eq_refl) by discriminate.
        rewrite named_d_step, He, Hx. reflexivity. }
      destruct t as [n| | |n|d l].
      + exact HN.
      + rewrite (rl_begin P HP TComma q) in He by auto. discriminate.
      + rewrite (rl_begin P HP TColon q) in He by auto. discriminate.
      + exact HN.
      + destruct d; try exact HN. destruct q as [|u q].
        * destruct (Hpar l eq_refl) as [Hf Hfull]. cbn [app dothers].
          destruct (P l) as [| |e1 [|w ws]] eqn:El; [exact HN|congruence|exfalso; apply (Hfull e1); reflexivity|exact HN].
        * destruct (key_prefix P HP _ e' [TGroup Paren l] u q He Hpre eq_refl) as (_ & _ & Hcol); [discriminate|].
          destruct u; try congruence; exact HN.
  Qed.

  Lemma named_d_complete l ms s : dentries l ms s -> exists f0, forall f acc, (f0 <= f)%nat -> named_d f acc [] l = Some (acc ++ ms, s).
  Proof.
    induction 1 as [|ks e ts m Hk Hm|ks e ts m rest ms s Hk Hm _ [f0 IH]].
    - exists 1%nat. intros [|f] acc Hl; [lia|]. rewrite app_nil_r. reflexivity.
    - destruct (key_complete_d ks e ts Hk) as [n Hn]. exists (n + 1)%nat. intros f acc Hl. replace f with (n + S (f - n - 1))%nat by lia. apply Hn.
      rewrite <- (app_nil_r ts). apply (value_complete_d _ _ _ ts m [] _ _ Hm). auto.
    - destruct (key_complete_d ks e (ts ++ TComma :: rest) Hk) as [n Hn]. exists (n + S f0)%nat. intros f acc Hl. replace f with (n + S (f - n - 1))%nat by lia.
      replace (length ks + 2 + s)%nat with (length ks + (2 + s))%nat by lia. apply Hn.
      apply (value_complete_d _ _ _ ts m _ _ _ Hm). right. exists rest, s. split; [reflexivity|].
      rewrite IH by lia. rewrite <- app_assoc. auto.
  Qed.

  (** ** Values and their depth *)
  Definition eval_d (f : nat) (m : mx) : option (value unit * nat) := match m with EMac ts => expand_d f ts | EUser e => Some (from e, ud e) end.
  Definition good (f : nat) : Prop := forall ts v n, is_form ts -> expand_d f ts = Some (v, n) -> form_needs ts v n.

  Lemma item_of_d f ts m v n : good f -> mitem ts m -> eval_d f m = Some (v, n) -> item_needs ts v (layer m + n).
  Proof.
    intros IH [[Hf ->]|(e & Hs & He & ->)] Hv.
    - apply IN_form, IH; assumption.
    - cbn [eval_d] in Hv. injection Hv as <- <-. cbn [layer Nat.add]. apply IN_expr; assumption.
  Qed.

  Lemma items_of_d f l ms s vs d : good f -> ditems l ms s -> values_d from ud (expand_d f) ms = Some (vs, d) -> items_need l vs s d.
  Proof.
    intros IH H. revert vs d. induction H as [|ts Hf|ts e Hs He|ts m rest ms s Hm _ IHm]; intros vs d Hv; cbn [values_d] in Hv.
    - injection Hv as <- <-. constructor.
    - destruct (expand_d f ts) as [[v n]|] eqn:Em; [|discriminate]. injection Hv as <- <-. try rewrite Nat.max_0_r.
      apply (IsN_last_form _ _ _ _ _ ts v n), IH; assumption.
    - injection Hv as <- <-. apply IsN_last_expr; assumption.
    - fold (eval_d f m) in Hv. destruct (eval_d f m) as [[v n]|] eqn:Em; [|discriminate].
      destruct (values_d from ud _ ms) as [[r d']|] eqn:Er; [|discriminate]. injection Hv as <- <-.
      apply IsN_cons; [apply (item_of_d f ts m); assumption|]. apply IHm. reflexivity.
  Qed.

  Lemma entries_of_d f l ms s vs d : good f -> dentries l ms s -> MacroDepth.entries_d from ud (expand_d f) ms = Some (vs, d) -> entries_need l vs s d.
  Proof.
    intros IH H. revert vs d. induction H as [|ks e ts m Hk Hm|ks e ts m rest ms s Hk Hm _ IHm]; intros vs d Hv; cbn [MacroDepth.entries_d] in Hv.
    - injection Hv as <- <-. constructor.
    - fold (eval_d f m) in Hv. destruct (eval_d f m) as [[v n]|] eqn:Em; [|discriminate]. injection Hv as <- <-. try rewrite Nat.max_0_r.
      apply EsN_last; [exact Hk|apply (item_of_d f ts m); assumption].
    - fold (eval_d f m) in Hv. destruct (eval_d f m) as [[v n]|] eqn:Em; [|discriminate].
      destruct (MacroDepth.entries_d from ud _ ms) as [[r d']|] eqn:Er; [|discriminate]. injection Hv as <- <-.
      apply EsN_cons; [exact Hk|apply (item_of_d f ts m); assumption|]. apply IHm. reflexivity.
  Qed.

  Lemma expand_d_step f ts : expand_d (S f) ts =
    match ts with
    | [] => Some (unnamed_composite [], 1%nat)
    | [TGroup Paren []] => Some (unnamed_composite [], 1%nat)
    | [TGroup Brace []] => Some (named_composite [], 1%nat)
    | [TGroup Brace l] => build vd named_composite (named_d f [] [] l) (MacroDepth.entries_d from ud (expand_d f))
    | [TIdent n; TGroup Brace l] => build vd (named_variant n) (named_d f [] [] l) (MacroDepth.entries_d from ud (expand_d f))
    | [TGroup Paren l] => build vd unnamed_composite (unnamed_d f [] l) (values_d from ud (expand_d f))
    | [TIdent n; TGroup Paren l] => build vd (unnamed_variant n) (unnamed_d f [] l) (values_d from ud (expand_d f))
    | _ => match P ts with POk e [] => Some (from e, (1 + ud e)%nat) | _ => None end
    end.
  Proof. reflexivity. Qed.

  Lemma form_sound_d f : good f.
  Proof.
    induction f as [|f IH]; intros ts v n Hf H; [discriminate|].
    assert (HU : forall (w : list (value unit) -> value unit) l,
      build vd w (unnamed_d f [] l) (values_d from ud (expand_d f)) = Some (v, n) ->
      exists vs s d, items_need l vs s d /\ v = w vs /\ n = (1 + s + (1 + vd) + d)%nat).
    { intros w l Hw. unfold build in Hw. destruct (unnamed_d f [] l) as [[ms s]|] eqn:EU; [|discriminate].
      apply unnamed_d_sound in EU as (ms' & -> & Hms). cbn [app] in Hw.
      destruct (values_d from ud (expand_d f) ms') as [[vs d]|] eqn:EV; [|discriminate].
      exists vs, s, d. split; [apply (items_of_d f l ms'); assumption|]. injection Hw as <- <-. auto. }
    assert (HN : forall (w : list (str * value unit) -> value unit) l,
      build vd w (named_d f [] [] l) (MacroDepth.entries_d from ud (expand_d f)) = Some (v, n) ->
      exists vs s d, entries_need l vs s d /\ v = w vs /\ n = (1 + s + (1 + vd) + d)%nat).
    { intros w l Hw. unfold build in Hw. destruct (named_d f [] [] l) as [[ms s]|] eqn:EU; [|discriminate].
      apply named_d_sound in EU as (ms' & -> & Hms).
      - cbn [app length Nat.add] in *.
        destruct (MacroDepth.entries_d from ud (expand_d f) ms') as [[vs d]|] eqn:EV; [|discriminate].
        exists vs, s, d. split; [apply (entries_of_d f l ms'); assumption|]. injection Hw as <- <-. auto.
      - intros q r Hq Hne. destruct q; [congruence|discriminate].
      - intros k r Hq. discriminate. }
    destruct (is_form_cases _ Hf) as (l & [->|[->|[[i ->]|[i ->]]]]); rewrite expand_d_step in H.
    - destruct l as [|t l].
      + injection H as <- <-. constructor.
      + apply HU in H as (vs & s & d & Hv & -> & ->). apply FN_tuple; [discriminate|exact Hv].
    - destruct l as [|t l].
      + injection H as <- <-. constructor.
      + apply HN in H as (vs & s & d & Hv & -> & ->). apply FN_struct; [discriminate|exact Hv].
    - apply HU in H as (vs & s & d & Hv & -> & ->). apply FN_variant, Hv.
    - apply HN in H as (vs & s & d & Hv & -> & ->). apply FN_struct_variant, Hv.
  Qed.

  Lemma expand_d_expr f ts : ~ is_form ts -> ts <> [] ->
    expand_d (S f) ts = match P ts with POk e [] => Some (from e, (1 + ud e)%nat) | _ => None end.
  Proof.
    intros Hf Hn. rewrite expand_d_step.
    destruct ts as [|t ts]; [congruence|].
    destruct t as [n| | |n|d l]; try reflexivity.
    - destruct ts as [|t2 ts]; [reflexivity|].
      destruct t2 as [n2| | |n2|d l]; try reflexivity.
      destruct ts as [|t3 ts].
      + destruct d; try reflexivity; exfalso; apply Hf.
        * exists Paren, l; split; [tauto|right; eauto].
        * exists Brace, l; split; [tauto|right; eauto].
      + destruct d; reflexivity.
    - destruct ts as [|t2 ts].
      + destruct d; try reflexivity; exfalso; apply Hf.
        * exists Paren, l; split; [tauto|left; eauto].
        * exists Brace, l; split; [tauto|left; eauto].
      + destruct d; destruct l; reflexivity.
  Qed.

  Lemma expand_d_sound f ts v n : expand_d f ts = Some (v, n) -> needs P from key_name ud (1 + vd) ts v (1 + n).
  Proof.
    intros H. destruct (expand_cases ts) as [Hf|[->|[Hf Hn]]].
    - apply N_form, (form_sound_d f); assumption.
    - destruct f; [discriminate|]. injection H as <- <-. apply N_nothing.
    - destruct f; [discriminate|]. rewrite expand_d_expr in H by assumption.
      destruct (P ts) as [| |e [|t r]] eqn:Ep; try discriminate. injection H as <- <-. apply (N_expr P from key_name ud (1 + vd) ts e); assumption.
  Qed.

  (** ** Completeness *)
  Lemma complete_d :
    (forall ts v n, form_needs ts v n -> is_form ts /\ exists f0, forall f, (f0 <= f)%nat -> expand_d f ts = Some (v, n)) /\
    (forall ts v n, item_needs ts v n -> exists m k, mitem ts m /\ n = (layer m + k)%nat /\ exists f0, forall f, (f0 <= f)%nat -> eval_d f m = Some (v, k)) /\
    (forall l vs s d, items_need l vs s d -> exists ms, ditems l ms s /\ exists f0, forall f, (f0 <= f)%nat -> values_d from ud (expand_d f) ms = Some (vs, d)) /\
    (forall l vs s d, entries_need l vs s d -> exists ms, dentries l ms s /\ exists f0, forall f, (f0 <= f)%nat -> MacroDepth.entries_d from ud (expand_d f) ms = Some (vs, d)).
  Proof.
    assert (HU : forall (w : list (value unit) -> value unit) l ms s vs d f0, ditems l ms s ->
      (forall f, (f0 <= f)%nat -> values_d from ud (expand_d f) ms = Some (vs, d)) ->
      exists g, forall h, (g <= h)%nat -> build vd w (unnamed_d h [] l) (values_d from ud (expand_d h)) = Some (w vs, (1 + s + (1 + vd) + d)%nat)).
    { intros w l ms s vs d f0 Hm Hv. destruct (unnamed_d_complete l ms s Hm) as [f' Hu]. exists (f0 + f')%nat. intros h Hh.
      unfold build. rewrite Hu by lia. cbn [app]. rewrite Hv by lia. reflexivity. }
    assert (HN : forall (w : list (str * value unit) -> value unit) l ms s vs d f0, dentries l ms s ->
      (forall f, (f0 <= f)%nat -> MacroDepth.entries_d from ud (expand_d f) ms = Some (vs, d)) ->
      exists g, forall h, (g <= h)%nat -> build vd w (named_d h [] [] l) (MacroDepth.entries_d from ud (expand_d h)) = Some (w vs, (1 + s + (1 + vd) + d)%nat)).
    { intros w l ms s vs d f0 Hm Hv. destruct (named_d_complete l ms s Hm) as [f' Hu]. exists (f0 + f')%nat. intros h Hh.
      unfold build. rewrite Hu by lia. cbn [app]. rewrite Hv by lia. reflexivity. }
    apply depth_ind4.
    - split; [exists Paren, []; auto|]. exists 1%nat. intros [|f] Hl; [lia|]. reflexivity.
    - split; [exists Brace, []; auto|]. exists 1%nat. intros [|f] Hl; [lia|]. reflexivity.
    - intros l vs s d NE _ (ms & Hm & f & Hv). split; [exists Paren, l; auto|].
      destruct (HU unnamed_composite l ms s vs d f Hm Hv) as [g Hg]. exists (S g). intros [|h] Hl; [lia|]. destruct l; [congruence|]. rewrite expand_d_step. apply Hg. lia.
    - intros l vs s d NE _ (ms & Hm & f & Hv). split; [exists Brace, l; auto|].
      destruct (HN named_composite l ms s vs d f Hm Hv) as [g Hg]. exists (S g). intros [|h] Hl; [lia|]. destruct l; [congruence|]. rewrite expand_d_step. apply Hg. lia.
    - intros n l vs s d _ (ms & Hm & f & Hv). split; [exists Paren, l; eauto|].
      destruct (HU (unnamed_variant n) l ms s vs d f Hm Hv) as [g Hg]. exists (S g). intros [|h] Hl; [lia|]. rewrite expand_d_step. apply Hg. lia.
    - intros n l vs s d _ (ms & Hm & f & Hv). split; [exists Brace, l; eauto|].
      destruct (HN (named_variant n) l ms s vs d f Hm Hv) as [g Hg]. exists (S g). intros [|h] Hl; [lia|]. rewrite expand_d_step. apply Hg. lia.
    - intros ts v n _ [Hf [f H]]. exists (EMac ts), n. split; [left; auto|]. split; [reflexivity|]. exists f. exact H.
    - intros ts e Hs He. exists (EUser e), (ud e). split; [right; eauto|]. split; [reflexivity|]. exists O. reflexivity.
    - exists []. split; [constructor|]. exists O. reflexivity.
    - intros ts v n _ [Hf [f H]]. exists [(1%nat, EMac ts)]. split; [constructor; exact Hf|]. exists f. intros g Hg. cbn [values_d]. rewrite H by exact Hg.
      try rewrite Nat.max_0_r. reflexivity.
    - intros ts e Hs He. exists [(1%nat, EUser e)]. split; [constructor; assumption|]. exists O. intros g _. cbn [values_d]. try rewrite Nat.max_0_r. reflexivity.
    - intros ts v n rest vs s d _ (m & k & Hm & -> & f & Hv) _ (ms & Hms & g & Hvs). exists ((layer m, m) :: ms).
      split; [apply Di_cons; assumption|]. exists (f + g)%nat. intros h Hh. cbn [values_d]. fold (eval_d h m).
      rewrite Hv, Hvs by lia. reflexivity.
    - exists []. split; [constructor|]. exists O. reflexivity.
    - intros ks e ts v n Hk _ (m & k & Hm & -> & f & Hv). exists [(key_name e, (layer m, m))]. split; [apply De_last; assumption|]. exists f. intros h Hh. cbn [MacroDepth.entries_d].
      fold (eval_d h m). rewrite Hv by exact Hh. try rewrite Nat.max_0_r. reflexivity.
    - intros ks e ts v n rest vs s d Hk _ (m & k & Hm & -> & f & Hv) _ (ms & Hms & g & Hvs). exists ((key_name e, (layer m, m)) :: ms).
      split; [apply De_cons; assumption|]. exists (f + g)%nat. intros h Hh. cbn [MacroDepth.entries_d]. fold (eval_d h m).
      rewrite Hv, Hvs by lia. reflexivity.
  Qed.

  Lemma needs_expand ts v n : needs P from key_name ud (1 + vd) ts v n -> exists k f0, n = S k /\ forall f, (f0 <= f)%nat -> expand_d f ts = Some (v, k).
  Proof.
    intros [|ts' v' n' Hf|ts' e Hf Hn He].
    - exists 1%nat, 1%nat. split; [reflexivity|]. intros [|f] Hl; [lia|]. reflexivity.
    - destruct (proj1 complete_d _ _ _ Hf) as [_ [f0 H]]. exists n', f0. split; [reflexivity|exact H].
    - exists (S (ud e)), 1%nat. split; [reflexivity|]. intros [|f] Hl; [lia|]. rewrite expand_d_expr by assumption. rewrite He. reflexivity.
  Qed.

  Lemma needs_unique ts v v' n n' : needs P from key_name ud (1 + vd) ts v n -> needs P from key_name ud (1 + vd) ts v' n' -> v = v' /\ n = n'.
  Proof.
    intros H H'. apply needs_expand in H as (k & f & -> & H). apply needs_expand in H' as (k' & f' & -> & H').
    specialize (H (f + f')%nat ltac:(lia)). specialize (H' (f + f')%nat ltac:(lia)). rewrite H in H'. injection H' as -> ->. auto.
  Qed.

  (** ** The grammar gives a depth *)
  Lemma needs_total :
    (forall ts v, form P from key_name ts v -> exists n, form_needs ts v n) /\
    (forall ts v, item P from key_name ts v -> (exists n, form_needs ts v n) \/ (exists e, v = from e /\ ~ starts_with_form ts /\ P ts = POk e [])) /\
    (forall l vs, items P from key_name l vs -> exists s d, items_need l vs s d) /\
    (forall l vs, entries P from key_name l vs -> exists s d, entries_need l vs s d).
  Proof.
    assert (HI : forall ts v, (exists n, form_needs ts v n) \/ (exists e, v = from e /\ ~ starts_with_form ts /\ P ts = POk e []) -> exists n, item_needs ts v n).
    { intros ts v [[n H]|(e & -> & Hs & He)]; [exists n; apply IN_form, H|exists (1 + ud e)%nat; apply IN_expr; assumption]. }
    apply macro_ind.
    - intros l vs Hl (s & d & H). destruct l as [|t l]; [|eexists; apply FN_tuple; [discriminate|exact H]].
      inversion H; subst; try (eexists; apply FN_unit).
      + exfalso. match goal with F : Spec_MacroDepth.form_needs _ _ _ _ _ [] _ _ |- _ => inversion F end.
      + exfalso. eapply P_nil; eassumption.
      + exfalso. match goal with F : _ ++ _ :: _ = [] |- _ => destruct (app_eq_nil _ _ F); discriminate end.
    - intros l vs Hl (s & d & H). destruct l as [|t l]; [|eexists; apply FN_struct; [discriminate|exact H]].
      inversion H; subst; try (eexists; apply FN_empty);
        exfalso; match goal with F : _ ++ _ :: _ = [] |- _ => destruct (app_eq_nil _ _ F); discriminate end.
    - intros n l vs _ (s & d & H). eexists. apply FN_variant, H.
    - intros n l vs _ (s & d & H). eexists. apply FN_struct_variant, H.
    - intros ts v _ H. left. exact H.
    - intros ts e Hs He. right. eauto.
    - eexists _, _. constructor.
    - intros ts v _ [[n H]|(e & -> & Hs & He)]; eexists _, _; [apply IsN_last_form, H|apply IsN_last_expr; assumption].
    - intros ts v rest vs _ Hi _ (s & d & H). apply HI in Hi as [n Hn]. eexists _, _. apply IsN_cons; eassumption.
    - eexists _, _. constructor.
    - intros ks e ts v Hk _ Hi. apply HI in Hi as [n Hn]. eexists _, _. apply EsN_last; eassumption.
    - intros ks e ts v rest vs Hk _ Hi _ (s & d & H). apply HI in Hi as [n Hn]. eexists _, _. apply EsN_cons; eassumption.
  Qed.
  Lemma needs_denotes :
    (forall ts v n, form_needs ts v n -> form P from key_name ts v) /\
    (forall ts v n, item_needs ts v n -> item P from key_name ts v) /\
    (forall l vs s d, items_need l vs s d -> items P from key_name l vs) /\
    (forall l vs s d, entries_need l vs s d -> entries P from key_name l vs).
  Proof.
    apply depth_ind4; intros.
    - apply F_tuple. constructor.
    - apply F_struct. constructor.
    - apply F_tuple; assumption.
    - apply F_struct; assumption.
    - apply F_variant; assumption.
    - apply F_struct_variant; assumption.
    - apply I_form; assumption.
    - apply I_expr; assumption.
    - constructor.
    - apply Is_last, I_form; assumption.
    - apply Is_last, I_expr; assumption.
    - apply Is_cons; assumption.
    - constructor.
    - apply Es_last; assumption.
    - apply Es_cons; assumption.
  Qed.
End Facts.
