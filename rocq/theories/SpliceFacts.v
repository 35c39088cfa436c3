(** * SpliceFacts: the text of a part stands in one place of the text of the whole (C105). *)
From Verif Require Import Base Value Chars Parse Spec_Grammar ParseFacts Spec_Layout Spec_Edit Spec_Splice.
Local Open Scope N_scope.

Lemma replaced_fun {C} (c c1 c2 : composite (value C)) i x x' y1 y2 : replaced c c1 i x y1 -> replaced c c2 i x' y2 ->
  x = x' /\ ((exists l1 k l2, length l1 = i /\ c = Named (l1 ++ (k, x) :: l2) /\ c1 = Named (l1 ++ (k, y1) :: l2) /\ c2 = Named (l1 ++ (k, y2) :: l2)) \/
             (exists l1 l2, length l1 = i /\ c = Unnamed (l1 ++ x :: l2) /\ c1 = Unnamed (l1 ++ y1 :: l2) /\ c2 = Unnamed (l1 ++ y2 :: l2))).
Proof.
  assert (AP : forall B (l1 l1' l2 l2' : list B) b b', length l1 = length l1' -> l1 ++ b :: l2 = l1' ++ b' :: l2' -> l1 = l1' /\ b = b' /\ l2 = l2').
  { induction l1 as [|z l1 IH]; intros [|z' l1'] l2 l2' b b' L E; cbn in *; try discriminate; injection E as -> E; auto.
    destruct (IH l1' l2 l2' b b') as (-> & -> & ->); auto. }
  intros [(l1 & k & l2 & L1 & E1 & F1)|(l1 & l2 & L1 & E1 & F1)] [(l3 & k' & l4 & L2 & E2 & F2)|(l3 & l4 & L2 & E2 & F2)]; rewrite E1 in E2; try discriminate.
  - injection E2 as E2. apply AP in E2 as (<- & E2 & <-); [|congruence]. injection E2 as <- <-. split; [reflexivity|]. left. exists l1, k, l2. auto.
  - injection E2 as E2. apply AP in E2 as (<- & <- & <-); [|congruence]. split; [reflexivity|]. right. exists l1, l2. auto.
Qed.

(** The part is determined by the path. *)
Lemma swap_part {C} p (u w v v' : value C) : swap p u w v v' -> forall u2 w2 v2, swap p u2 w2 v v2 -> u2 = u.
Proof.
  induction 1 as [u w|i p u w c c' x x' y R S IH|i p u w n c c' x x' y R S IH]; intros u2 w2 v2 S2; inversion S2; subst; auto.
  - match goal with H : replaced c _ i _ _ |- _ => destruct (replaced_fun _ _ _ _ _ _ _ _ R H) as [<- _] end. eauto.
  - match goal with H : replaced c _ i _ _ |- _ => destruct (replaced_fun _ _ _ _ _ _ _ _ R H) as [<- _] end. eauto.
Qed.

Section Splice.
  Context (U : unicode) (X : value unit -> str -> Prop).

  Lemma items_split l : forall t, g_items U X l t -> forall l1 x l2, l = l1 ++ x :: l2 ->
    exists a y b, t = a ++ y ++ b /\ g_val U X x y /\ forall x' y', g_val U X x' y' -> g_items U X (l1 ++ x' :: l2) (a ++ y' ++ b).
  Proof.
    induction l as [|v l IH]; intros t G l1 x l2 E; [destruct l1; discriminate|]. inversion G as [v0 t0 GV|v0 t0 w1 w2 l0 t' GV W1 W2 GL]; subst.
    - destruct l1 as [|z l1]; [|destruct l1; discriminate]. injection E as <- <-. exists [], t, []. rewrite app_nil_r. split; [reflexivity|]. split; [exact GV|].
      intros x' y' G'. rewrite app_nil_r. now constructor.
    - destruct l1 as [|z l1].
      + injection E as <- <-. exists [], t0, (w1 ++ [c_comma] ++ w2 ++ t'). split; [reflexivity|]. split; [exact GV|]. intros x' y' G'. now constructor.
      + injection E as <- E. destruct (IH _ GL _ _ _ E) as (a & y & b & -> & GX & F). exists (t0 ++ w1 ++ [c_comma] ++ w2 ++ a), y, b.
        split; [repeat rewrite <- app_assoc; reflexivity|]. split; [exact GX|]. intros x' y' G'. repeat rewrite <- app_assoc. apply GI_cons; auto.
  Qed.

  Lemma fields_split l : forall t, g_fields U X l t -> forall l1 k x l2, l = l1 ++ (k, x) :: l2 ->
    exists a y b, t = a ++ y ++ b /\ g_val U X x y /\ forall x' y', g_val U X x' y' -> g_fields U X (l1 ++ (k, x') :: l2) (a ++ y' ++ b).
  Proof.
    induction l as [|[n v] l IH]; intros t G l1 k x l2 E; [destruct l1; discriminate|].
    inversion G as [n0 nt w1 w2 v0 t0 GN W1 W2 GV|n0 nt w1 w2 v0 t0 w3 w4 l0 t' GN W1 W2 GV W3 W4 GL]; subst.
    - destruct l1 as [|z l1]; [|destruct l1; discriminate]. injection E as <- <- <-. exists (nt ++ w1 ++ [c_colon] ++ w2), t0, [].
      rewrite app_nil_r. split; [repeat rewrite <- app_assoc; reflexivity|]. split; [exact GV|].
      intros x' y' G'. rewrite app_nil_r. repeat rewrite <- app_assoc. now constructor.
    - destruct l1 as [|z l1].
      + injection E as <- <- <-. exists (nt ++ w1 ++ [c_colon] ++ w2), t0, (w3 ++ [c_comma] ++ w4 ++ t').
        split; [repeat rewrite <- app_assoc; reflexivity|]. split; [exact GV|]. intros x' y' G'.
        pose proof (GFs_cons U X n nt w1 w2 x' y' w3 w4 l t' GN W1 W2 G' W3 W4 GL) as R. cbn [app] in *. repeat rewrite <- app_assoc in *. cbn [app] in *. repeat rewrite <- app_assoc in *. exact R.
      + injection E as <- E. destruct (IH _ GL _ _ _ _ E) as (a & y & b & -> & GX & F). exists ((nt ++ w1 ++ [c_colon] ++ w2 ++ t0) ++ w3 ++ [c_comma] ++ w4 ++ a), y, b.
        split; [repeat rewrite <- app_assoc; reflexivity|]. split; [exact GX|]. intros x' y' G'.
        pose proof (GFs_cons U X n nt w1 w2 v t0 w3 w4 _ _ GN W1 W2 GV W3 W4 (F x' y' G')) as R. cbn [app] in *. repeat rewrite <- app_assoc in *. cbn [app] in *. repeat rewrite <- app_assoc in *. exact R.
  Qed.

  Lemma comp_split c t i x0 x1 c1 : g_comp U X c t -> replaced c c1 i x0 x1 ->
    exists a y b, t = a ++ y ++ b /\ g_val U X x0 y /\ forall c' x x' y', replaced c c' i x x' -> g_val U X x' y' -> g_comp U X c' (a ++ y' ++ b).
  Proof.
    intros G R. pose proof R as [(l1 & k & l2 & L & E & _)|(l1 & l2 & L & E & _)]; subst c; inversion G; subst; try (destruct l1; discriminate).
    - match goal with H : g_fields _ _ _ _ |- _ => destruct (fields_split _ _ H _ _ _ _ eq_refl) as (a & y & b & -> & GX & F) end.
      exists ([c_lbrace] ++ w1 ++ a), y, (b ++ w2 ++ [c_rbrace]). split; [repeat rewrite <- app_assoc; reflexivity|]. split; [exact GX|].
      intros c' x x' y' R' G'. destruct (replaced_fun _ _ _ _ _ _ _ _ R R') as [_ [(l3 & k3 & l4 & L3 & E3 & _ & E4)|(l3 & l4 & _ & E3 & _)]]; [|discriminate].
      subst c'. destruct (replaced_fun _ _ _ _ _ _ _ _ R' R') as [_ _].
      assert (SAME : l3 = l1 /\ k3 = k /\ l4 = l2).
      { injection E3 as E3. clear - E3 L3. revert l3 L3 E3. induction l1 as [|z l1 IH]; intros [|z3 l3] L3 E3; cbn in *; try discriminate.
        - injection E3 as -> ->. auto.
        - injection E3 as -> E3. injection L3 as L3. destruct (IH l3 L3 E3) as (-> & -> & ->). auto. }
      destruct SAME as (-> & -> & ->). pose proof (G_named U X w1 _ _ w2 ltac:(assumption) (F _ _ G') ltac:(assumption)) as R2.
      cbn [app] in *. repeat rewrite <- app_assoc in *. exact R2.
    - match goal with H : g_items _ _ _ _ |- _ => destruct (items_split _ _ H _ _ _ eq_refl) as (a & y & b & -> & GX & F) end.
      exists ([c_lpar] ++ w1 ++ a), y, (b ++ w2 ++ [c_rpar]). split; [repeat rewrite <- app_assoc; reflexivity|]. split; [exact GX|].
      intros c' x x' y' R' G'. destruct (replaced_fun _ _ _ _ _ _ _ _ R R') as [_ [(l3 & k3 & l4 & _ & E3 & _)|(l3 & l4 & L3 & E3 & _ & E4)]]; [discriminate|].
      subst c'.
      assert (SAME : l3 = l1 /\ l4 = l2).
      { injection E3 as E3. clear - E3 L3. revert l3 L3 E3. induction l1 as [|z l1 IH]; intros [|z3 l3] L3 E3; cbn in *; try discriminate.
        - injection E3 as ->. auto.
        - injection E3 as -> E3. injection L3 as L3. destruct (IH l3 L3 E3) as (-> & ->). auto. }
      destruct SAME as (-> & ->). pose proof (G_unnamed U X w1 _ _ w2 ltac:(assumption) (F _ _ G') ltac:(assumption)) as R2.
      cbn [app] in *. repeat rewrite <- app_assoc in *. exact R2.
  Qed.
End Splice.

Lemma grammar_split U p u w (v v' : value unit) : swap p u w v v' -> forall t, grammar U v t ->
  exists a x b, t = a ++ x ++ b /\ grammar U u x /\ forall w2 v2 y, swap p u w2 v v2 -> grammar U w2 y -> grammar U v2 (a ++ y ++ b).
Proof.
  unfold grammar. induction 1 as [u w|i p u w c c' x x' y R S IH|i p u w n c c' x x' y R S IH]; intros t G.
  - exists [], t, []. rewrite app_nil_r. split; [reflexivity|]. split; [exact G|]. intros w2 v2 y S G2. inversion S; subst. now rewrite app_nil_r.
  - inversion G; subst; try match goal with H : no_custom _ _ |- _ => destruct H end.
    match goal with H : g_comp _ _ _ _ |- _ => destruct (comp_split U no_custom _ _ _ _ _ _ H R) as (a & z & b & -> & GX & F) end.
    destruct (IH _ GX) as (a2 & z2 & b2 & -> & GU & F2). exists (a ++ a2), z2, (b2 ++ b). split; [repeat rewrite <- app_assoc; reflexivity|]. split; [exact GU|].
    intros w2 v2 y2 S2 G2. inversion S2; subst.
    match goal with H : replaced c ?c2 i ?z ?z' |- _ => destruct (replaced_fun _ _ _ _ _ _ _ _ R H) as [<- _]; pose proof (F c2 x z') as F'; specialize (F' (a2 ++ y2 ++ b2) H) end.
    repeat rewrite <- app_assoc in *. apply (G_composite U no_custom). apply F'. eauto.
  - inversion G; subst; try match goal with H : no_custom _ _ |- _ => destruct H end.
    match goal with H : g_comp _ _ _ _ |- _ => destruct (comp_split U no_custom _ _ _ _ _ _ H R) as (a & z & b & -> & GX & F) end.
    destruct (IH _ GX) as (a2 & z2 & b2 & -> & GU & F2). exists (nt ++ w0 ++ a ++ a2), z2, (b2 ++ b). split; [repeat rewrite <- app_assoc; reflexivity|]. split; [exact GU|].
    intros w2 v2 y2 S2 G2. inversion S2; subst.
    match goal with H : replaced c ?c2 i ?z ?z' |- _ => destruct (replaced_fun _ _ _ _ _ _ _ _ R H) as [<- _]; pose proof (F c2 x z') as F'; specialize (F' (a2 ++ y2 ++ b2) H) end.
    repeat rewrite <- app_assoc in *. apply (G_variant U no_custom); [assumption|assumption|]. apply F'. eauto.
Qed.

(** ** Printing *)
Section Print.
  Context {T : Type} (bare : str -> bool) (ctx_text : option (T -> str)) (sp : str).
  Let ol := one_line bare [] ctx_text sp.

  Lemma every_split {A} (l1 : list (option A)) o l2 r : every (l1 ++ o :: l2) = Some r ->
    exists r1 a r2, o = Some a /\ r = r1 ++ a :: r2 /\ forall a', every (l1 ++ Some a' :: l2) = Some (r1 ++ a' :: r2).
  Proof.
    revert r; induction l1 as [|x l1 IH]; intros r; cbn [app every].
    - destruct o as [a|]; [|discriminate]. destruct (every l2) as [r2|] eqn:E; [|discriminate]. intro H; injection H as <-. exists [], a, r2. split; [reflexivity|].
      split; reflexivity.
    - destruct x as [x|]; [|discriminate]. destruct (every (l1 ++ o :: l2)) as [r0|] eqn:E; [|discriminate]. intro H; injection H as <-.
      destruct (IH _ eq_refl) as (r1 & a & r2 & -> & -> & F). exists (x :: r1), a, r2. split; [reflexivity|]. split; [reflexivity|]. intro a'. now rewrite F.
  Qed.

  Lemma join_split sep l1 l2 : exists a b, forall x, join sep (l1 ++ x :: l2) = a ++ x ++ b.
  Proof.
    induction l1 as [|z l1 (a & b & IH)].
    - destruct l2 as [|y l2]; [exists [], []|exists [], (sep ++ join sep (y :: l2))]; intro x; cbn [app join]; [now rewrite app_nil_r|reflexivity].
    - exists (z ++ sep ++ a), b. intro x. repeat rewrite <- app_assoc. rewrite <- IH. cbn [app join]. destruct (l1 ++ x :: l2) eqn:E; [destruct l1; discriminate|reflexivity].
  Qed.

  Lemma round_split l1 l2 : exists a b, forall x, round sp (l1 ++ x :: l2) = a ++ x ++ b.
  Proof.
    destruct (join_split (s2l "," ++ sp) l1 l2) as (a & b & H). exists (s2l "(" ++ a), (b ++ s2l ")"). intro x. unfold round. rewrite H. repeat rewrite <- app_assoc. reflexivity.
  Qed.
  Lemma curly_split l1 l2 : exists a b, forall x, curly sp (l1 ++ x :: l2) = a ++ x ++ b.
  Proof.
    destruct (join_split (s2l "," ++ sp) l1 l2) as (a & b & H). exists (s2l "{" ++ sp ++ a), (b ++ sp ++ s2l "}"). intro x. unfold curly. rewrite H.
    destruct (l1 ++ x :: l2) eqn:E; [destruct l1; discriminate|]. repeat rewrite <- app_assoc. reflexivity.
  Qed.

  (** The text of a composite, given the texts of its values. *)
  Definition comp_text (c : composite (value T)) : option str :=
    match c with
    | Unnamed l => omap (round sp) (every (map ol l))
    | Named l => omap (curly sp) (every (map (fun kv => omap (pair_text bare sp (fst kv)) (ol (snd kv))) l))
    end.

  Lemma comp_text_split c c1 i x x1 t : replaced c c1 i x x1 -> comp_text c = Some t ->
    exists a y b, ol x = Some y /\ t = a ++ y ++ b /\ forall c' x' y', replaced c c' i x x' -> ol x' = Some y' -> comp_text c' = Some (a ++ y' ++ b).
  Proof.
    intros R. pose proof R as [(l1 & k & l2 & L & E & _)|(l1 & l2 & L & E & _)]; subst c; cbn [comp_text].
    - rewrite map_app. cbn [map fst snd]. destruct (every _) as [r|] eqn:EV; [|discriminate]. cbn [omap]. intro H; injection H as <-.
      apply every_split in EV as (r1 & y & r2 & EY & -> & F). destruct (ol x) as [y0|] eqn:EX; [|discriminate]. injection EY as <-.
      destruct (curly_split r1 r2) as (a & b & HC). exists (a ++ field_name bare k ++ s2l ":" ++ sp), y0, b. split; [reflexivity|].
      split; [rewrite HC; unfold pair_text; repeat rewrite <- app_assoc; reflexivity|].
      intros c' x' y' R' EY. destruct (replaced_fun _ _ _ _ _ _ _ _ R R') as [_ [(l3 & k3 & l4 & L3 & E3 & _ & E4)|(l3 & l4 & _ & E3 & _)]]; [|discriminate].
      subst c'. assert (SAME : l3 = l1 /\ k3 = k /\ l4 = l2).
      { injection E3 as E3. rewrite <- L in L3. clear - E3 L3. revert l3 L3 E3. induction l1 as [|z l1 IH]; intros [|z3 l3] L3 E3; cbn in *; try discriminate.
        - injection E3 as -> ->. auto.
        - injection E3 as -> E3. injection L3 as L3. destruct (IH l3 L3 E3) as (-> & -> & ->). auto. }
      destruct SAME as (-> & -> & ->). cbn [comp_text]. rewrite map_app. cbn [map fst snd]. rewrite EY. cbn [omap]. rewrite F. cbn [omap]. rewrite HC.
      unfold pair_text. repeat rewrite <- app_assoc. reflexivity.
    - rewrite map_app. cbn [map]. destruct (every _) as [r|] eqn:EV; [|discriminate]. cbn [omap]. intro H; injection H as <-.
      apply every_split in EV as (r1 & y & r2 & EY & -> & F). destruct (round_split r1 r2) as (a & b & HC). exists a, y, b. split; [exact EY|]. split; [apply HC|].
      intros c' x' y' R' EY'. destruct (replaced_fun _ _ _ _ _ _ _ _ R R') as [_ [(l3 & k3 & l4 & _ & E3 & _)|(l3 & l4 & L3 & E3 & _ & E4)]]; [discriminate|].
      subst c'. assert (SAME : l3 = l1 /\ l4 = l2).
      { injection E3 as E3. rewrite <- L in L3. clear - E3 L3. revert l3 L3 E3. induction l1 as [|z l1 IH]; intros [|z3 l3] L3 E3; cbn in *; try discriminate.
        - injection E3 as ->. auto.
        - injection E3 as -> E3. injection L3 as L3. destruct (IH l3 L3 E3) as (-> & ->). auto. }
      destruct SAME as (-> & ->). cbn [comp_text]. rewrite map_app. cbn [map]. rewrite EY'. rewrite F. cbn [omap]. now rewrite HC.
  Qed.

  Lemma ol_composite c y : ol (Val (DComposite c) y) = omap (fun t => ctx_prefix ctx_text y ++ t) (comp_text c).
  Proof. destruct c; reflexivity. Qed.
  Lemma ol_variant n c y : ol (Val (DVariant n c) y) = omap (fun t => ctx_prefix ctx_text y ++ variant_name bare n ++ sp ++ t) (comp_text c).
  Proof. unfold ol. destruct c; cbn [one_line first_answer comp_text omap]; destruct (every _); reflexivity. Qed.

  Lemma text_split p u w (v v' : value T) : swap p u w v v' -> forall t, ol v = Some t ->
    exists a x b, ol u = Some x /\ t = a ++ x ++ b /\ forall w2 v2 y, swap p u w2 v v2 -> ol w2 = Some y -> ol v2 = Some (a ++ y ++ b).
  Proof.
    induction 1 as [u w|i p u w c c' x x' y R S IH|i p u w n c c' x x' y R S IH]; intros t G.
    - exists [], t, []. rewrite app_nil_r. split; [exact G|]. split; [reflexivity|]. intros w2 v2 y S G2. inversion S; subst. now rewrite app_nil_r.
    - rewrite ol_composite in G. destruct (comp_text c) as [t0|] eqn:EC; [|discriminate]. injection G as <-.
      destruct (comp_text_split _ _ _ _ _ _ R EC) as (a & z & b & EX & -> & F). destruct (IH _ EX) as (a2 & z2 & b2 & GU & -> & F2).
      exists (ctx_prefix ctx_text y ++ a ++ a2), z2, (b2 ++ b). split; [exact GU|]. split; [repeat rewrite <- app_assoc; reflexivity|].
      intros w2 v2 y2 S2 G2. inversion S2; subst. rewrite ol_composite.
      match goal with H : replaced c ?c2 i ?z ?z' |- _ => destruct (replaced_fun _ _ _ _ _ _ _ _ R H) as [<- _]; rewrite (F c2 z' (a2 ++ y2 ++ b2) H) by eauto end.
      cbn [omap]. repeat rewrite <- app_assoc. reflexivity.
    - rewrite ol_variant in G. destruct (comp_text c) as [t0|] eqn:EC; [|discriminate]. injection G as <-.
      destruct (comp_text_split _ _ _ _ _ _ R EC) as (a & z & b & EX & -> & F). destruct (IH _ EX) as (a2 & z2 & b2 & GU & -> & F2).
      exists (ctx_prefix ctx_text y ++ variant_name bare n ++ sp ++ a ++ a2), z2, (b2 ++ b). split; [exact GU|]. split; [repeat rewrite <- app_assoc; reflexivity|].
      intros w2 v2 y2 S2 G2. inversion S2; subst. rewrite ol_variant.
      match goal with H : replaced c ?c2 i ?z ?z' |- _ => destruct (replaced_fun _ _ _ _ _ _ _ _ R H) as [<- _]; rewrite (F c2 z' (a2 ++ y2 ++ b2) H) by eauto end.
      cbn [omap]. repeat rewrite <- app_assoc. reflexivity.
  Qed.
End Print.
