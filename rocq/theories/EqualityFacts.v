(** * EqualityFacts: the derived equality in terms of labels, fields and contexts. *)
From Verif Require Import Base Value ValueFacts Spec_Value Equality.

Lemma all2_iff {A B} (f : A -> B -> bool) l1 l2 : all2 f l1 l2 = true <-> Forall2 (fun a b => f a b = true) l1 l2.
Proof.
  revert l2. induction l1 as [|a l1 IH]; intros [|b l2]; cbn [all2]; split; intro H; try discriminate; try constructor; try (inversion H; fail).
  - apply andb_prop in H. apply H.
  - apply IH. apply andb_prop in H. apply H.
  - inversion H as [|? ? ? ? H1 H2]; subst. rewrite H1. apply IH, H2.
Qed.
Lemma Forall2_eq {A} (l1 l2 : list A) : Forall2 eq l1 l2 <-> l1 = l2.
Proof.
  split; [induction 1; congruence|]. intros <-. induction l1; constructor; auto.
Qed.
Lemma Forall2_iff {A B} (P Q : A -> B -> Prop) l1 l2 : (forall a b, P a b <-> Q a b) -> Forall2 P l1 l2 <-> Forall2 Q l1 l2.
Proof. intro H. split; induction 1; constructor; auto; apply H; assumption. Qed.
Lemma all2_eq {A} (f : A -> A -> bool) l1 l2 : (forall a b, f a b = true <-> a = b) -> all2 f l1 l2 = true <-> l1 = l2.
Proof. intro H. rewrite all2_iff, (Forall2_iff _ eq) by exact H. apply Forall2_eq. Qed.

Lemma prim_eq_iff p q : prim_eq p q = true <-> p = q.
Proof.
  destruct p, q; cbn [prim_eq]; try (split; [discriminate|congruence]).
  - rewrite Bool.eqb_true_iff. split; congruence.
  - rewrite N.eqb_eq. split; congruence.
  - rewrite str_eqb_eq. split; congruence.
  - rewrite N.eqb_eq. split; congruence.
  - rewrite Z.eqb_eq. split; congruence.
  - rewrite (all2_eq _ _ _ N.eqb_eq). split; congruence.
  - rewrite (all2_eq _ _ _ N.eqb_eq). split; congruence.
Qed.

Lemma named_eq_iff {A} (f : A -> A -> bool) (l1 l2 : list (str * A)) :
  all2 (fun a b => str_eqb (fst a) (fst b) && f (snd a) (snd b)) l1 l2 = true <->
  map fst l1 = map fst l2 /\ Forall2 (fun a b => f a b = true) (map snd l1) (map snd l2).
Proof.
  revert l2. induction l1 as [|[k a] l1 IH]; intros [|[k' b] l2]; cbn [all2 map fst snd].
  - split; [intros _; split; [reflexivity|constructor]|reflexivity].
  - split; [discriminate|intros [H _]; discriminate].
  - split; [discriminate|intros [H _]; discriminate].
  - rewrite !andb_true_iff, str_eqb_eq, IH. split.
    + intros [[-> H1] [-> H2]]. split; [reflexivity|constructor; assumption].
    + intros [E H]. injection E as -> ->. inversion H; subst. auto.
Qed.
Lemma unnamed_eq_iff {A} (f : A -> A -> bool) (l1 l2 : list A) :
  all2 f l1 l2 = true <-> length l1 = length l2 /\ Forall2 (fun a b => f a b = true) l1 l2.
Proof.
  rewrite all2_iff. split; [|tauto]. intro H. split; [|exact H]. induction H; cbn [length]; congruence.
Qed.

Section Facts.
  Context {T : Type} (ctx_eq : T -> T -> bool).
  Local Notation veq := (value_eq ctx_eq).

  Lemma value_eq_unfold v w : veq v w = true <->
    label_of v = label_of w /\ Forall2 (fun a b => veq a b = true) (fields_of v) (fields_of w) /\ ctx_eq (ctx_of v) (ctx_of w) = true.
  Proof.
    destruct v as [d c], w as [e c']. cbn [value_eq ctx_of]. rewrite andb_true_iff.
    enough (H : vdef_eq veq d e = true <-> label_of (Val d c) = label_of (Val e c') /\ Forall2 (fun a b => veq a b = true) (fields_of (Val d c)) (fields_of (Val e c'))) by tauto.
    destruct d as [[l1|l1]|n1 [l1|l1]|b1|p1], e as [[l2|l2]|n2 [l2|l2]|b2|p2]; cbn [vdef_eq composite_eq label_of fields_of];
      try (split; [discriminate|intros [H _]; discriminate]); try (rewrite andb_true_iff, str_eqb_eq); try (split; [intros [_ H]; discriminate|intros [H _]; discriminate]).
    - rewrite named_eq_iff. split; intros [H1 H2]; (split; [congruence|exact H2]).
    - rewrite unnamed_eq_iff. split; intros [H1 H2]; (split; [congruence|exact H2]).
    - rewrite named_eq_iff. split; [intros [-> [-> H2]]|intros [H1 H2]; injection H1 as -> ->]; auto.
    - rewrite unnamed_eq_iff. split; [intros [-> [-> H2]]|intros [H1 H2]; injection H1 as -> ->]; auto.
    - rewrite (all2_eq _ _ _ Bool.eqb_true_iff). split; [intros ->; split; [reflexivity|constructor]|intros [H _]; congruence].
    - rewrite prim_eq_iff. split; [intros ->; split; [reflexivity|constructor]|intros [H _]; congruence].
  Qed.

  Lemma Forall2_nth {A B} (P : A -> B -> Prop) l1 l2 : Forall2 P l1 l2 <->
    length l1 = length l2 /\ forall i a b, nth_error l1 i = Some a -> nth_error l2 i = Some b -> P a b.
  Proof.
    split.
    - induction 1 as [|a b l1 l2 H _ [IH1 IH2]]; [split; [reflexivity|intros [|i]; discriminate]|]. split; [cbn [length]; congruence|].
      intros [|i] x y; cbn [nth_error]; [intros [= <-] [= <-]; exact H|apply IH2].
    - revert l2. induction l1 as [|a l1 IH]; intros [|b l2] [HL H]; try discriminate; constructor.
      + apply (H 0%nat); reflexivity.
      + apply IH. split; [injection HL; auto|]. intros i x y. apply (H (S i)).
  Qed.
  Lemma fields_length (v w : value T) : label_of v = label_of w -> length (fields_of v) = length (fields_of w).
  Proof. apply length_label_fields. Qed.

  (** The same tree, with equal contexts in the same places. *)
  Definition equal_places (v w : value T) : Prop :=
    same_shape v w /\ forall p a b, node_at v p = Some a -> node_at w p = Some b -> ctx_eq (ctx_of a) (ctx_of b) = true.

  Lemma value_eq_iff v w : veq v w = true <-> equal_places v w.
  Proof.
    revert w. induction v as [d c IH] using value_ind'. intro w. rewrite value_eq_unfold, Forall2_nth.
    rewrite Forall_forall in IH. change (children d) with (children (vdef_of (Val d c))) in IH. rewrite <- fields_children in IH. split.
    - intros (HL & [HN HF] & HC). split.
      + intros [|i p]; cbn [node_at]; [cbn [option_map]; congruence|].
        destruct (nth_error (fields_of (Val d c)) i) as [a|] eqn:Ea, (nth_error (fields_of w) i) as [b|] eqn:Eb; try reflexivity.
        * pose proof (HF i a b Ea Eb) as H. apply IH in H; [|eapply nth_error_In; exact Ea]. apply H.
        * exfalso. assert (i < length (fields_of (Val d c)))%nat by (apply nth_error_Some; congruence). apply nth_error_None in Eb. lia.
        * exfalso. assert (i < length (fields_of w))%nat by (apply nth_error_Some; congruence). apply nth_error_None in Ea. lia.
      + intros [|i p] x y; cbn [node_at]; [intros [= <-] [= <-]; exact HC|].
        destruct (nth_error (fields_of (Val d c)) i) as [a|] eqn:Ea; [|discriminate]. destruct (nth_error (fields_of w) i) as [b|] eqn:Eb; [|discriminate].
        pose proof (HF i a b Ea Eb) as H. apply IH in H; [|eapply nth_error_In; exact Ea]. apply H.
    - intros [HS HC]. pose proof (HS []) as H0. cbn [node_at option_map] in H0. assert (HL : label_of (Val d c) = label_of w) by congruence.
      split; [exact HL|]. split; [split; [apply fields_length, HL|]|apply (HC []); reflexivity].
      intros i a b Ea Eb. apply IH; [eapply nth_error_In; exact Ea|]. split.
      + intro p. specialize (HS (i :: p)). cbn [node_at] in HS. rewrite Ea, Eb in HS. exact HS.
      + intros p x y. specialize (HC (i :: p)). cbn [node_at] in HC. rewrite Ea, Eb in HC. apply HC.
  Qed.
End Facts.

Lemma same_shape_node {T U} (v : value T) (w : value U) p a : same_shape v w -> node_at v p = Some a -> exists b, node_at w p = Some b.
Proof. intros H E. specialize (H p). rewrite E in H. destruct (node_at w p) as [b|]; [eauto|discriminate]. Qed.
