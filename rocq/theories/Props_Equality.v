(** * Props_Equality: C81 (the derived equality and clone of values) *)
From Verif Require Import Base Value ValueFacts Spec_Value Chars Fmt Spec_Layout Props_Layout Equality EqualityFacts.
From Verif Require Import Scale Registry Encode Props_Encode Serde SerdeUni Props_Serde Props_Value Demo.
Local Open Scope N_scope.

(** ** What [==] means *)
(** [v == w]: the same tree, and at every place contexts that [==] of the context type relates. *)
Theorem C81_exact : forall (T : Type) (ctx_eq : T -> T -> bool) (v w : value T),
  value_eq ctx_eq v w = true <->
  same_shape v w /\ forall p a b, node_at v p = Some a -> node_at w p = Some b -> ctx_eq (ctx_of a) (ctx_of b) = true.
Proof. exact @value_eq_iff. Qed.
Print Assumptions C81_exact.

(** For contexts whose [==] is identity (in particular for [Value<()>]), [==] of values is identity. *)
Theorem C81_identity : forall (T : Type) (ctx_eq : T -> T -> bool), (forall a b, ctx_eq a b = true <-> a = b) ->
  forall v w : value T, value_eq ctx_eq v w = true <-> v = w.
Proof.
  intros T ctx_eq H v w. rewrite C81_exact. split.
  - intros [HS HC]. rewrite <- (map_ctx_id w). unfold map_ctx. apply (map_context_unique (pure_fn (fun x : T => x)) tt w v).
    + intro p. symmetry. apply HS.
    + intros p n E. destruct (same_shape_node w v p n) as [b Eb]; [intro q; symmetry; apply HS|exact E|].
      rewrite Eb. cbn [option_map pure_fn fst]. f_equal. apply H. eapply HC; eassumption.
  - intros ->. split; [intro p; reflexivity|]. intros p a b E1 E2. apply H. congruence.
Qed.
Print Assumptions C81_identity.

(** [Eq]: an equivalence whenever the context's equality is one. *)
Theorem C81_equivalence : forall (T : Type) (ctx_eq : T -> T -> bool),
  ((forall a, ctx_eq a a = true) -> forall v, value_eq ctx_eq v v = true) /\
  ((forall a b, ctx_eq a b = true -> ctx_eq b a = true) -> forall v w, value_eq ctx_eq v w = true -> value_eq ctx_eq w v = true) /\
  ((forall a b c, ctx_eq a b = true -> ctx_eq b c = true -> ctx_eq a c = true) ->
   forall u v w, value_eq ctx_eq u v = true -> value_eq ctx_eq v w = true -> value_eq ctx_eq u w = true).
Proof.
  intros T ctx_eq. split; [|split].
  - intros R v. apply C81_exact. split; [intro p; reflexivity|]. intros p a b E1 E2. replace b with a by congruence. apply R.
  - intros S v w H. rewrite C81_exact in *. destruct H as [HS HC]. split; [intro p; symmetry; apply HS|]. intros p a b E1 E2. eauto.
  - intros TR u v w H1 H2. rewrite C81_exact in *. destruct H1 as [HS1 HC1], H2 as [HS2 HC2]. split; [intro p; rewrite HS1; apply HS2|].
    intros p a c E1 E2. destruct (same_shape_node u v p a HS1 E1) as [b Eb]. eauto.
Qed.
Print Assumptions C81_equivalence.
(** ... and only then: a context that differs from itself (a [f32] holding NaN) makes its value differ from itself. *)
Theorem C81_reflexive_refuted : forall (T : Type) (ctx_eq : T -> T -> bool) (d : vdef (value T)) c, ctx_eq c c = false -> value_eq ctx_eq (Val d c) (Val d c) = false.
Proof. intros T ctx_eq d c H. cbn [value_eq]. rewrite H. apply andb_false_r. Qed.
Print Assumptions C81_reflexive_refuted.

(** A difference anywhere is noticed: a value in which the node at one place is replaced by a different one is not equal. *)
Theorem C81_sees_every_place : forall (T : Type) (ctx_eq : T -> T -> bool) (v w : value T) p a b,
  node_at v p = Some a -> node_at w p = Some b -> value_eq ctx_eq a b = false -> value_eq ctx_eq v w = false.
Proof.
  intros T ctx_eq v w p a b E1 E2 N. apply not_true_iff_false. intro H. apply not_true_iff_false in N. apply N. rewrite C81_exact in *. destruct H as [HS HC].
  assert (NA : forall (x : value T) p q y, node_at x p = Some y -> node_at x (p ++ q) = node_at y q).
  { intros x p'. revert x. induction p' as [|i p' IH]; intros x q y; cbn [node_at app]; [intros [= ->]; reflexivity|].
    destruct (nth_error (fields_of x) i); [apply IH|discriminate]. }
  split.
  - intro q. rewrite <- (NA v p q a E1), <- (NA w p q b E2). apply HS.
  - intros q x y Ex Ey. apply (HC (p ++ q)%list); [rewrite (NA v p q a E1)|rewrite (NA w p q b E2)]; assumption.
Qed.
Print Assumptions C81_sees_every_place.

(** ** [clone] *)
(** A clone is the same tree with the contexts cloned: for contexts whose clone is the same, the clone is the value itself,
    and it is [==] to the value whenever cloned contexts are. *)
Theorem C81_clone : forall (T : Type) (ctx_eq : T -> T -> bool) (ctx_clone : T -> T) (v : value T),
  value_clone ctx_clone v = map_ctx ctx_clone v /\
  ((forall c, ctx_clone c = c) -> value_clone ctx_clone v = v) /\
  ((forall c, ctx_eq (ctx_clone c) c = true) -> value_eq ctx_eq (value_clone ctx_clone v) v = true).
Proof.
  intros T ctx_eq ctx_clone v.
  assert (E : value_clone ctx_clone v = map_ctx ctx_clone v).
  { induction v as [d c IH] using value_ind'. rewrite map_ctx_unfold. cbn [value_clone]. f_equal.
    destruct d as [[l|l]|n [l|l]|b|p]; cbn [vdef_map composite_map children values] in *; try reflexivity; f_equal; f_equal;
      apply map_ext_in; intros x Hx; rewrite Forall_forall in IH; [f_equal; apply IH, in_map, Hx|apply IH, Hx|f_equal; apply IH, in_map, Hx|apply IH, Hx]. }
  split; [exact E|]. rewrite E. split.
  - intro H. rewrite <- (map_ctx_id v) at 2.
    unfold map_ctx. symmetry. apply map_context_unique.
    + intro p. apply (proj1 (C01_map_context unit T T (pure_fn (fun x : T => x)) tt v)).
    + intros p n En. rewrite (proj2 (C01_map_context unit T T (pure_fn (fun x : T => x)) tt v) p n En). cbn [pure_fn fst]. rewrite H. reflexivity.
  - intro H. apply C81_exact. destruct (C01_map_context unit T T (pure_fn ctx_clone) tt v) as [HS HC]. split; [intro p; symmetry; apply HS|].
    intros p a b Ea Eb. specialize (HC p b Eb). fold (map_ctx ctx_clone v) in HC. rewrite Ea in HC. cbn [option_map pure_fn fst] in HC.
    injection HC as ->. apply H.
Qed.
Print Assumptions C81_clone.

(** ** Equal values cannot be told apart *)
(** Whatever the contexts and their equality: equal values have the same text in both styles, the same bytes (and errors)
    for every type and output buffer, and are the same data for every serde type. *)
Lemma one_line_no_context {T U} bare sp (v : value T) (g : T -> U) : one_line bare [] None sp (map_ctx g v) = one_line bare [] None sp v.
Proof.
  induction v as [d c IH] using value_ind'. rewrite map_ctx_unfold. rewrite Forall_forall in IH.
  destruct d as [[l|l]|n [l|l]|b|p]; cbn [one_line first_answer vdef_map composite_map children values] in *; try reflexivity; unfold ctx_prefix;
    rewrite map_map; f_equal; f_equal; f_equal; apply map_ext_in; intros x Hx; cbn [fst snd]; [f_equal; apply IH, in_map, Hx|apply IH, Hx|f_equal; apply IH, in_map, Hx|apply IH, Hx].
Qed.
Lemma lines_no_context {T U} bare (v : value T) (g : T -> U) : lines bare [] None (map_ctx g v) = lines bare [] None v.
Proof.
  induction v as [d c IH] using value_ind'. rewrite map_ctx_unfold. rewrite Forall_forall in IH.
  destruct d as [[l|l]|n [l|l]|b|p]; cbn [lines first_answer vdef_map composite_map children values] in *; try reflexivity; unfold ctx_prefix;
    rewrite map_map; f_equal; f_equal; f_equal; apply map_ext_in; intros x Hx; cbn [fst snd]; [f_equal; apply IH, in_map, Hx|apply IH, Hx|f_equal; apply IH, in_map, Hx|apply IH, Hx].
Qed.
Lemma display_no_context {T U} (uni : unicode) alternate (v : value T) (w : value U) : remove_context v = remove_context w -> display uni alternate v = display uni alternate w.
Proof.
  intro H. destruct alternate.
  - rewrite (proj2 (C59_display T uni v)), (proj2 (C59_display U uni w)), <- (lines_no_context _ v (fun _ => tt)), <- (lines_no_context _ w (fun _ => tt)).
    unfold remove_context in H. rewrite H. reflexivity.
  - rewrite (proj1 (C59_display T uni v)), (proj1 (C59_display U uni w)), <- (one_line_no_context _ _ v (fun _ => tt)), <- (one_line_no_context _ _ w (fun _ => tt)).
    unfold remove_context in H. rewrite H. reflexivity.
Qed.

Theorem C81_equal_values_act_alike : forall (T : Type) (ctx_eq : T -> T -> bool) (v w : value T), value_eq ctx_eq v w = true ->
  (forall uni alternate, display uni alternate v = display uni alternate w) /\
  (forall TId (reg : TId -> resolution TId) X F t out, encode reg X F v t out = encode reg X F w t out) /\
  (forall t : ty, from_value t v = from_value t w).
Proof.
  intros T ctx_eq v w H. apply C81_exact in H. destruct H as [HS _]. apply remove_context_same_shape in HS. split; [|split].
  - intros. apply display_no_context, HS.
  - intros. apply C28_contexts_do_not_matter, HS.
  - intro t. apply C53_same_shape_same_result, HS.
Qed.
Print Assumptions C81_equal_values_act_alike.

(** The converse is false: [5u128] and [5i128] have the same texts and the same bytes at every type, but are not equal. *)
Theorem C81_alike_but_unequal_refuted : value_eq (fun _ _ => true) (vu128 5) (vi128 5) = false /\
  (forall uni alternate, display uni alternate (vu128 5) = display uni alternate (vi128 5)) /\
  (forall TId (reg : TId -> resolution TId) X F t out, encode reg X F (vu128 5) t out = encode reg X F (vi128 5) t out).
Proof.
  split; [reflexivity|]. split.
  - intros uni alternate. destruct alternate; [rewrite !(proj2 (C59_display unit uni _))|rewrite !(proj1 (C59_display unit uni _))]; reflexivity.
  - intros. reflexivity.
Qed.
Print Assumptions C81_alike_but_unequal_refuted.

(** ** Examples: what is and is not equal *)
Example C81_examples :
  let eq := value_eq (fun _ _ : unit => true) in
  let a := (s2l "a", vu128 1) in let b := (s2l "b", vbool true) in
  eq (named_composite [a; b]) (named_composite [a; b]) = true /\ eq (named_composite [a; b]) (named_composite [b; a]) = false /\
  eq (named_composite [a; b]) (named_composite [a]) = false /\ eq (named_composite []) (unnamed_composite []) = false /\
  eq (unnamed_composite [vbool true]) (bit_sequence [true]) = false /\ eq (vstring (s2l "x")) (vchar 120) = false /\
  eq (variant (s2l "A") (Unnamed [vu128 1])) (variant (s2l "B") (Unnamed [vu128 1])) = false /\
  eq (variant (s2l "A") (Unnamed [vu128 1])) (variant (s2l "A") (Unnamed [vu128 1])) = true /\
  eq (vu128 1) (unnamed_composite [vu128 1]) = false.
Proof. repeat apply conj; reflexivity. Qed.
(** Contexts compared modulo 2: the premises of the theorems about other equalities are met, and unequal contexts decide. *)
Example C81_contexts :
  let parity a b := Nat.eqb (Nat.modulo a 2) (Nat.modulo b 2) in
  let v c := Val (DComposite (Unnamed [Val (DPrim (PBool true)) c])) 0%nat in
  value_eq parity (v 1%nat) (v 3%nat) = true /\ v 1%nat <> v 3%nat /\ value_eq parity (v 1%nat) (v 2%nat) = false /\
  (forall a, parity a a = true) /\ value_eq (fun a b => negb (Nat.eqb a b)) (v 1%nat) (v 1%nat) = false.
Proof. repeat apply conj; try reflexivity; [discriminate|]. intro a. apply PeanoNat.Nat.eqb_refl. Qed.
Example C81_clone_example : value_clone (fun x => x) (named_composite [(s2l "a", vu128 1); (s2l "b", bit_sequence [true; false])]) = named_composite [(s2l "a", vu128 1); (s2l "b", bit_sequence [true; false])].
Proof. reflexivity. Qed.
