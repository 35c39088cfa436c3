(** * ValueFacts: lemmas behind the properties of values. *)
From Verif Require Import Base Value Spec_Value.

Lemma fields_children {T} (v : value T) : fields_of v = children (vdef_of v).
Proof. destruct v as [[[l|l]|n [l|l]|b|p] c]; reflexivity. Qed.

Lemma values_map {A B} (g : A -> B) c : values (composite_map g c) = map g (values c).
Proof. destruct c; cbn; [|reflexivity]. rewrite !map_map. reflexivity. Qed.

Lemma children_map {A B} (g : A -> B) d : children (vdef_map g d) = map g (children d).
Proof. destruct d; cbn; rewrite ?values_map; reflexivity. Qed.

Lemma map_context_unfold {S T U} (f : S -> T -> U * S) s d ctx :
  map_context f s (Val d ctx) = Val (vdef_map (map_context f (snd (f s ctx))) d) (fst (f s ctx)).
Proof. reflexivity. Qed.

Lemma fields_map_context {S T U} (f : S -> T -> U * S) s v :
  fields_of (map_context f s v) = map (map_context f (snd (f s (ctx_of v)))) (fields_of v).
Proof.
  rewrite !fields_children. destruct v as [d c]. rewrite map_context_unfold.
  cbn [vdef_of ctx_of]. apply children_map.
Qed.

Lemma label_map_context {S T U} (f : S -> T -> U * S) s v :
  label_of (map_context f s v) = label_of v.
Proof.
  destruct v as [[[l|l]|n [l|l]|b|p] c]; cbn; rewrite ?map_map, ?map_length; reflexivity.
Qed.

Lemma node_at_map_context {S T U} (f : S -> T -> U * S) p : forall s v,
  node_at (map_context f s v) p =
  option_map (map_context f (run_closure f s (ancestors v p))) (node_at v p).
Proof.
  induction p as [|i p IH]; intros s v; cbn [node_at ancestors]; [reflexivity|].
  rewrite fields_map_context, nth_error_map.
  destruct (nth_error (fields_of v) i) as [c|]; cbn [option_map]; [|reflexivity].
  rewrite IH. reflexivity.
Qed.

Lemma ctx_map_context {S T U} (f : S -> T -> U * S) s v :
  ctx_of (map_context f s v) = fst (f s (ctx_of v)).
Proof. destruct v; reflexivity. Qed.

Lemma map_context_spec {S T U} (f : S -> T -> U * S) s v :
  same_shape v (map_context f s v) /\
  forall p n, node_at v p = Some n ->
    option_map ctx_of (node_at (map_context f s v) p)
    = Some (fst (f (run_closure f s (ancestors v p)) (ctx_of n))).
Proof.
  split.
  - intros p. rewrite node_at_map_context.
    destruct (node_at v p) as [n|]; cbn [option_map]; [|reflexivity].
    now rewrite label_map_context.
  - intros p n Hn. rewrite node_at_map_context, Hn. cbn [option_map].
    now rewrite ctx_map_context.
Qed.

Lemma length_label_fields {T U} (v : value T) (w : value U) :
  label_of v = label_of w -> length (fields_of v) = length (fields_of w).
Proof.
  destruct v as [[[l|l]|n [l|l]|b|p] c], w as [[[l'|l']|n' [l'|l']|b'|p'] c']; cbn;
    intro H; try discriminate; injection H; intros; rewrite ?map_length; auto.
  - apply (f_equal (@length _)) in H0. now rewrite !map_length in H0.
  - apply (f_equal (@length _)) in H0. now rewrite !map_length in H0.
Qed.

Lemma split_eq {A B} (l l' : list (A * B)) : map fst l = map fst l' -> map snd l = map snd l' -> l = l'.
Proof.
  revert l'; induction l as [|[a b] l IH]; intros [|[a' b'] l']; cbn; intros H1 H2;
    try discriminate; [reflexivity|]. injection H1; injection H2; intros; subst.
  f_equal; auto.
Qed.

Lemma value_eq_parts {T} (v w : value T) :
  label_of v = label_of w -> fields_of v = fields_of w -> ctx_of v = ctx_of w -> v = w.
Proof.
  destruct v as [[[l|l]|n [l|l]|b|p] c], w as [[[l'|l']|n' [l'|l']|b'|p'] c']; cbn;
    intros H1 H2 H3; try discriminate; inversion H1; clear H1; subst; try reflexivity.
  - now rewrite (split_eq l l').
  - now rewrite (split_eq l l').
Qed.

Lemma nth_error_ext {A} (l l' : list A) :
  (forall i, nth_error l i = nth_error l' i) -> l = l'.
Proof.
  revert l'; induction l as [|a l IH]; intros [|b l'] H; try reflexivity.
  - specialize (H 0); discriminate.
  - specialize (H 0); discriminate.
  - f_equal; [specialize (H 0); cbn in H; congruence|]. apply IH. intro i. exact (H (S i)).
Qed.

(** A tree is determined by the labels and contexts found along all its paths. *)
Lemma tree_ext {T} (v w : value T) :
  (forall p, option_map (fun n => (label_of n, ctx_of n)) (node_at v p)
             = option_map (fun n => (label_of n, ctx_of n)) (node_at w p)) -> v = w.
Proof.
  revert w. induction v as [d ctx IH] using value_ind'. intros w H.
  pose proof (H []) as H0. cbn [node_at option_map] in H0.
  assert (HL : label_of (Val d ctx) = label_of w) by congruence.
  assert (HC : ctx_of (Val d ctx) = ctx_of w) by congruence.
  apply value_eq_parts; [exact HL| |exact HC].
  rewrite !fields_children. cbn [vdef_of].
  assert (HLen : length (children d) = length (children (vdef_of w))).
  { apply length_label_fields in HL. now rewrite !fields_children in HL. }
  apply nth_error_ext. intro i.
  destruct (nth_error (children d) i) as [a|] eqn:Ea.
  - destruct (nth_error (children (vdef_of w)) i) as [b|] eqn:Eb.
    + f_equal. rewrite Forall_forall in IH. apply IH; [eapply nth_error_In; eauto|].
      intro p. specialize (H (i :: p)). cbn [node_at] in H.
      rewrite !fields_children in H. cbn [vdef_of] in H. rewrite Ea, Eb in H. exact H.
    + apply nth_error_None in Eb. assert (i < length (children d)) by (apply nth_error_Some; congruence). lia.
  - symmetry. apply nth_error_None. apply nth_error_None in Ea. lia.
Qed.

Lemma map_context_unique {S T U} (f : S -> T -> U * S) s v w :
  same_shape v w ->
  (forall p n, node_at v p = Some n ->
     option_map ctx_of (node_at w p) = Some (fst (f (run_closure f s (ancestors v p)) (ctx_of n)))) ->
  w = map_context f s v.
Proof.
  intros HS HC. apply tree_ext. intro p.
  destruct (map_context_spec f s v) as [HS' HC'].
  specialize (HS p); specialize (HS' p). specialize (HC p); specialize (HC' p).
  destruct (node_at v p) as [n|].
  - specialize (HC n eq_refl); specialize (HC' n eq_refl).
    destruct (node_at w p) as [a|]; cbn in HC; [|discriminate].
    destruct (node_at (map_context f s v) p) as [b|]; cbn in HC'; [|discriminate].
    cbn in *. congruence.
  - destruct (node_at w p); [discriminate|].
    destruct (node_at (map_context f s v) p); [discriminate|]. reflexivity.
Qed.

Lemma vdef_map_ext {A B} (f g : A -> B) d :
  Forall (fun x => f x = g x) (children d) -> vdef_map f d = vdef_map g d.
Proof.
  destruct d as [[l|l]|n [l|l]|b|p]; cbn [children values vdef_map composite_map]; intro H; try reflexivity.
  - rewrite Forall_map in H. do 2 f_equal. apply map_ext_Forall.
    eapply Forall_impl; [|exact H]. cbn; congruence.
  - do 2 f_equal. now apply map_ext_Forall.
  - rewrite Forall_map in H. do 2 f_equal. apply map_ext_Forall.
    eapply Forall_impl; [|exact H]. cbn; congruence.
  - do 2 f_equal. now apply map_ext_Forall.
Qed.

Lemma vdef_map_map {A B C} (f : A -> B) (g : B -> C) d :
  vdef_map g (vdef_map f d) = vdef_map (fun x => g (f x)) d.
Proof. destruct d as [[l|l]|n [l|l]|b|p]; cbn; rewrite ?map_map; reflexivity. Qed.

Lemma vdef_map_id {A} (d : vdef A) : vdef_map (fun x => x) d = d.
Proof.
  destruct d as [[l|l]|n [l|l]|b|p]; cbn; try reflexivity;
    rewrite ?map_id; try reflexivity;
    (replace (map (fun kv => (fst kv, snd kv)) l) with (map (fun x : str * A => x) l);
     [now rewrite map_id|apply map_ext; intros []; reflexivity]).
Qed.

Lemma map_ctx_unfold {T U} (g : T -> U) d ctx :
  map_ctx g (Val d ctx) = Val (vdef_map (map_ctx g) d) (g ctx).
Proof. reflexivity. Qed.

Lemma map_ctx_id {T} (v : value T) : map_ctx (fun x => x) v = v.
Proof.
  induction v as [d ctx IH] using value_ind'. rewrite map_ctx_unfold.
  f_equal. rewrite <- (vdef_map_id d) at 2. now apply vdef_map_ext.
Qed.

Lemma map_ctx_compose {T U W} (f : T -> U) (g : U -> W) v :
  map_ctx g (map_ctx f v) = map_ctx (fun x => g (f x)) v.
Proof.
  induction v as [d ctx IH] using value_ind'. rewrite !map_ctx_unfold.
  f_equal. rewrite vdef_map_map. now apply vdef_map_ext.
Qed.

(** [remove_context] identifies exactly the values of the same shape. *)
Lemma remove_context_same_shape {T U} (v : value T) (w : value U) :
  remove_context v = remove_context w <-> same_shape v w.
Proof.
  assert (HR : forall T (v : value T), same_shape v (remove_context v)).
  { intros; apply map_context_spec. }
  split.
  - intros H p. rewrite (HR _ v p), (HR _ w p), H. reflexivity.
  - intro H. apply tree_ext. intro p.
    pose proof (HR _ v p) as H1. pose proof (HR _ w p) as H2. specialize (H p).
    rewrite H, H2 in H1.
    destruct (node_at (remove_context v) p) as [a|], (node_at (remove_context w) p) as [b|];
      cbn in *; try congruence. destruct (ctx_of a), (ctx_of b). congruence.
Qed.

(** ** At *)
Lemma find_field_spec {A} s (l : list (str * A)) v :
  find_field s l = Some v <->
  exists l1 l2, l = l1 ++ (s, v) :: l2 /\ Forall (fun kv => fst kv <> s) l1.
Proof.
  induction l as [|[n x] l IH]; cbn [find_field].
  - split; [discriminate|]. intros (l1 & l2 & H & _). destruct l1; discriminate.
  - destruct (str_eqb s n) eqn:E.
    + apply str_eqb_eq in E; subst n. split.
      * intro H; injection H as ->. exists [], l. split; [reflexivity|constructor].
      * intros (l1 & l2 & H & HF). destruct l1 as [|kv l1].
        -- injection H as ->; subst; reflexivity.
        -- injection H as <- H. inversion HF as [|? ? Hne]; subst. cbn in Hne. congruence.
    + apply str_eqb_neq in E. rewrite IH. split.
      * intros (l1 & l2 & -> & HF). exists ((n, x) :: l1), l2. split; [reflexivity|].
        constructor; [cbn; congruence|assumption].
      * intros (l1 & l2 & H & HF). destruct l1 as [|kv l1].
        -- injection H as -> -> ->. congruence.
        -- injection H as <- ->. inversion HF; subst. eauto.
Qed.

Lemma find_field_none {A} s (l : list (str * A)) :
  find_field s l = None <-> ~ In s (map fst l).
Proof.
  induction l as [|[n x] l IH]; cbn [find_field map fst In]; [tauto|].
  destruct (str_eqb s n) eqn:E.
  - apply str_eqb_eq in E; subst. split; [discriminate|]. intro H; exfalso; apply H; now left.
  - apply str_eqb_neq in E. rewrite IH. intuition congruence.
Qed.

Lemma at_value_lookup {T} (v : value T) loc c : at_value v loc = Some c <-> lookup_is v loc c.
Proof.
  destruct loc as [s|i].
  - split.
    + intro H. unfold at_value in H.
      assert (HH : exists l, (label_of v = LbNamed (map fst l) \/ exists n, label_of v = LbVariantNamed n (map fst l))
                   /\ fields_of v = map snd l /\ find_field s l = Some c).
      { destruct v as [[[l|l]|n [l|l]|b|p] cx]; cbn in H; try discriminate; exists l; cbn;
          (split; [try (left; reflexivity); right; exists n; reflexivity|]); split; auto. }
      destruct HH as (l & HL & HF & Hfind).
      apply find_field_spec in Hfind as (l1 & l2 & -> & HFor).
      apply (LI_named v (map fst (l1 ++ (s, c) :: l2)) l1 l2); auto.
      * rewrite map_app. reflexivity.
      * rewrite in_map_iff. intros (kv & H1 & H2). rewrite Forall_forall in HFor.
        exact (HFor kv H2 H1).
      * rewrite HF, map_app. reflexivity.
    + intro H. inversion H as [v0 names l1 l2 s0 c0 HL HN HI HF|]; subst. unfold at_value.
      assert (HH : forall l, map fst l = map fst l1 ++ s :: map fst l2 ->
                             map snd l = map snd l1 ++ c :: map snd l2 -> find_field s l = Some c).
      { intros l E1 E2. apply find_field_spec. exists l1, l2.
        split.
        - apply split_eq; rewrite map_app; cbn; assumption.
        - rewrite Forall_forall. intros kv Hkv E. apply HI. rewrite in_map_iff. eauto. }
      destruct v as [[[l|l]|n [l|l]|b|p] cx]; cbn in *;
        destruct HL as [HL|[n' HL]]; try discriminate; injection HL; intros; apply HH; congruence.
  - split.
    + intro H. constructor. unfold at_value in H.
      destruct v as [[[l|l]|n [l|l]|b|p] cx]; cbn in *; try discriminate; auto;
        now rewrite nth_error_map.
    + intro H. inversion H as [|v0 i0 c0 HN]; subst. unfold at_value.
      destruct v as [[[l|l]|n [l|l]|b|p] cx]; cbn in *; auto;
        try (rewrite nth_error_map in HN; exact HN); destruct i; discriminate.
Qed.

Lemma lookup_is_child {T} (v c : value T) loc : lookup_is v loc c -> In c (fields_of v).
Proof.
  intro H; inversion H as [v0 names l1 l2 s0 c0 HL HN HI HF|v0 i0 c0 HN]; subst.
  - rewrite HF. apply in_or_app. right; now left.
  - eapply nth_error_In; eauto.
Qed.

Lemma lookup_is_fun {T} (v c c' : value T) loc : lookup_is v loc c -> lookup_is v loc c' -> c = c'.
Proof. rewrite <- !at_value_lookup. congruence. Qed.

Lemma fold_at_none {T} path : fold_left (@at_opt T) path None = None.
Proof. induction path; cbn; auto. Qed.

Lemma at_path_lookup {T} path : forall (v x : value T),
  at_path v path = Some x <-> lookup_path v path x.
Proof.
  unfold at_path. induction path as [|l path IH]; intros v x; cbn [fold_left].
  - split; [intro H; injection H as <-; constructor|intro H; inversion H; reflexivity].
  - unfold at_opt at 2. cbn [obind]. destruct (at_value v l) as [w|] eqn:E.
    + rewrite IH. apply at_value_lookup in E. split.
      * intro H. econstructor; eauto.
      * intro H. inversion H as [|? ? w' ? ? Hw Hx]; subst.
        now rewrite (lookup_is_fun _ _ _ _ E Hw).
    + rewrite fold_at_none. split; [discriminate|].
      intro H. inversion H as [|? ? w' ? ? Hw Hx]; subst.
      apply at_value_lookup in Hw. congruence.
Qed.

Lemma at_map_ctx {T U} (g : T -> U) v loc :
  at_value (map_ctx g v) loc = option_map (map_ctx g) (at_value v loc).
Proof.
  destruct v as [[[l|l]|n [l|l]|b|p] cx]; cbn; try reflexivity; destruct loc as [s|i]; cbn; try reflexivity;
    rewrite ?nth_error_map; try (destruct (nth_error l i); reflexivity).
  - induction l as [|[k x] l IH]; cbn; [reflexivity|]. destruct (str_eqb s k); [reflexivity|]. apply IH.
  - induction l as [|[k x] l IH]; cbn; [reflexivity|]. destruct (str_eqb s k); [reflexivity|]. apply IH.
Qed.

(** ** Accessors *)
Lemma values_len {A} (c : composite A) : length (values c) = clen c.
Proof. destruct c; cbn; rewrite ?map_length; reflexivity. Qed.
Lemma is_empty_len {A} (c : composite A) : cis_empty c = true <-> clen c = 0.
Proof. destruct c as [[|]|[|]]; cbn; split; congruence. Qed.
Lemma values_at {A} (c : composite A) i : at_composite c (LIdx i) = nth_error (values c) i.
Proof. destruct c; cbn; rewrite ?nth_error_map; reflexivity. Qed.

Lemma from_uint_exact n : (0 <= n < 2 ^ 128)%Z -> from_uint n = PU128 (Z.to_N n).
Proof. intro H. unfold from_uint, as_u128_cast. now rewrite Z.mod_small. Qed.
Lemma from_int_exact n : (- 2 ^ 127 <= n < 2 ^ 127)%Z -> from_int n = PI128 n.
Proof.
  intro H. unfold from_int, as_i128_cast. rewrite Z.mod_small; [f_equal; lia|].
  change (2 ^ 128)%Z with (2 * 2 ^ 127)%Z. lia.
Qed.

Lemma from_bytes_spec b :
  (forall i, at_value (from_bytes b) (LIdx i) = option_map vu128 (nth_error b i))
  /\ (forall s, at_value (from_bytes b) (LStr s) = None)
  /\ map (@as_u128 unit) (fields_of (from_bytes b)) = map Some b.
Proof.
  split; [|split].
  - intro i. unfold from_bytes. cbn. rewrite nth_error_map. reflexivity.
  - reflexivity.
  - cbn. rewrite map_map. reflexivity.
Qed.
