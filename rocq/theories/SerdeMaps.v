(** * SerdeMaps: reading maps; facts for C76. *)
From Verif Require Import Base Value Spec_Value Serde SerdeFacts Spec_Serde SerdeUni Spec_Parts SerdeParts.

Lemma str_ltb_total a : forall b, str_ltb a b = false -> str_eqb a b = false -> str_ltb b a = true.
Proof.
  induction a as [|x a IH]; intros [|y b] H1 H2; cbn [str_ltb] in *; try discriminate; try reflexivity.
  apply Bool.orb_false_iff in H1 as [H1 H3]. apply N.ltb_ge in H1. destruct (N.eqb_spec x y) as [->|N].
  - cbn [andb] in H3. assert (E : str_eqb a b = false). { apply str_eqb_neq. intros ->. now rewrite str_eqb_refl in H2. }
    rewrite (IH b H3 E), N.eqb_refl. now rewrite Bool.orb_true_r.
  - apply Bool.orb_true_iff. left. apply N.ltb_lt. lia.
Qed.

Definition rises (l : list (str * data)) : Prop := increasing (map fst l).

Lemma rises_cons k x l : rises ((k, x) :: l) <-> (forall k' x', In (k', x') l -> str_ltb k k' = true) /\ rises l.
Proof.
  unfold rises. cbn [map fst]. split.
  - intro H. split; [|now destruct H]. intros k' x' HI. apply (increasing_lt _ _ H). apply (in_map fst) in HI. exact HI.
  - intros [H1 H2]. destruct l as [|[k' x'] l]; [now split|]. split; [|exact H2]. cbn [map fst]. apply (H1 k' x'). now left.
Qed.

Lemma insert_in k x l k' x' : rises l -> In (k', x') (map_insert k x l) <-> (k' = k /\ x' = x) \/ (k' <> k /\ In (k', x') l).
Proof.
  induction l as [|[k0 x0] l IH]; intro R; cbn [map_insert].
  - split; [intros [E|[]]; injection E as <- <-; now left|]. intros [[-> ->]|[_ []]]. now left.
  - apply rises_cons in R as [R1 R2]. destruct (str_ltb k k0) eqn:E1; [|destruct (str_eqb k k0) eqn:E2].
    + split.
      * intros [E|H]; [injection E as <- <-; now left|]. right. split; [|exact H]. intros ->. destruct H as [E|H].
        -- injection E as -> _. now rewrite str_ltb_irrefl in E1.
        -- assert (C := str_ltb_trans _ _ _ E1 (R1 _ _ H)). now rewrite str_ltb_irrefl in C.
      * intros [[-> ->]|[_ H]]; [now left|now right].
    + apply str_eqb_eq in E2. subst k0. split.
      * intros [E|H]; [injection E as <- <-; now left|]. right. split; [|now right]. intros ->. assert (C := R1 _ _ H). now rewrite str_ltb_irrefl in C.
      * intros [[-> ->]|[N [E|H]]]; [now left|injection E as -> _; now destruct N|now right].
    + split.
      * intros [E|H].
        -- injection E as <- <-. right. split; [|now left]. intros ->. now rewrite str_eqb_refl in E2.
        -- apply (IH R2) in H as [H|[N H]]; [now left|right]. split; [exact N|now right].
      * intros [[-> ->]|[N [E|H]]].
        -- right. apply (IH R2). now left.
        -- now left.
        -- right. apply (IH R2). now right.
Qed.

Lemma insert_rises k x l : rises l -> rises (map_insert k x l).
Proof.
  induction l as [|[k0 x0] l IH]; intro R; cbn [map_insert]; [now split|].
  pose proof R as R'. apply rises_cons in R as [R1 R2]. destruct (str_ltb k k0) eqn:E1; [|destruct (str_eqb k k0) eqn:E2].
  - apply rises_cons. split; [|exact R']. intros k' x' [E|H]; [injection E as <- _; exact E1|]. eapply str_ltb_trans; [exact E1|]. eapply R1. exact H.
  - apply str_eqb_eq in E2. subst k0. apply rises_cons. now split.
  - apply rises_cons. split; [|now apply IH]. intros k' x' H. apply (insert_in k x l k' x' R2) in H as [[-> _]|[_ H]]; [now apply str_ltb_total|]. eapply R1. exact H.
Qed.

Lemma last_given_snoc {A} k (l : list (str * A)) k0 x0 x : last_given k (l ++ [(k0, x0)]) x <-> (k = k0 /\ x = x0) \/ (k <> k0 /\ last_given k l x).
Proof.
  split.
  - intros (b & a & E & N). destruct a as [|y a] using rev_ind.
    + apply app_inj_tail in E as [_ E]. injection E as -> ->. now left.
    + clear IHa. rewrite app_comm_cons, app_assoc in E. apply app_inj_tail in E as [-> <-]. right. rewrite map_app in N. split.
      * intros ->. apply N. apply in_or_app. right. now left.
      * exists b, a. split; [reflexivity|]. intro I. apply N. apply in_or_app. now left.
  - intros [[-> ->]|[N (b & a & -> & I)]].
    + exists l, []. split; [reflexivity|intros []].
    + exists b, (a ++ [(k0, x0)]). split; [now rewrite <- app_assoc|]. rewrite map_app. intro H. apply in_app_or in H as [H|[H|[]]]; [now apply I|now apply N].
Qed.

Definition built (kvs : list (str * data)) : list (str * data) := fold_left (fun m kv => map_insert (fst kv) (snd kv) m) kvs [].

Lemma built_spec kvs : rises (built kvs) /\ forall k x, In (k, x) (built kvs) <-> last_given k kvs x.
Proof.
  induction kvs as [|[k0 x0] kvs [R IH]] using rev_ind.
  - split; [exact I|]. intros k x. split; [intros []|]. intros (b & a & E & _). destruct b; discriminate E.
  - unfold built. rewrite fold_left_app. cbn [fold_left fst snd]. fold (built kvs). split; [now apply insert_rises|].
    intros k x. rewrite insert_in by exact R. rewrite last_given_snoc, IH. reflexivity.
Qed.

Lemma rises_unique l : forall l', rises l -> rises l' -> (forall k x, In (k, x) l <-> In (k, x) l') -> l = l'.
Proof.
  induction l as [|[k x] l IH]; intros l' R R' H.
  - destruct l' as [|[k' x'] l']; [reflexivity|]. destruct (proj2 (H k' x') (or_introl eq_refl)).
  - destruct l' as [|[k' x'] l']; [destruct (proj1 (H k x) (or_introl eq_refl))|].
    pose proof R as R0. pose proof R' as R0'. apply rises_cons in R as [R1 R2]. apply rises_cons in R' as [R1' R2'].
    assert (E : (k, x) = (k', x')).
    { destruct (proj1 (H k x) (or_introl eq_refl)) as [E|HI]; [now symmetry|]. destruct (proj2 (H k' x') (or_introl eq_refl)) as [E|HI']; [exact E|].
      assert (C := str_ltb_trans _ _ _ (R1 _ _ HI') (R1' _ _ HI)). now rewrite str_ltb_irrefl in C. }
    injection E as <- <-. f_equal. apply IH; [exact R2|exact R2'|]. intros k' x'. split; intro HI.
    + destruct (proj1 (H k' x') (or_intror HI)) as [E|HI']; [|exact HI']. injection E as <- _. assert (C := R1 _ _ HI). now rewrite str_ltb_irrefl in C.
    + destruct (proj2 (H k' x') (or_intror HI)) as [E|HI']; [|exact HI']. injection E as <- _. assert (C := R1' _ _ HI). now rewrite str_ltb_irrefl in C.
Qed.

Lemma last_given_F2 {A B} (R : A -> B -> Prop) (l : list (str * A)) (l' : list (str * B)) k y :
  Forall2 (fun a b => fst a = fst b /\ R (snd a) (snd b)) l l' -> last_given k l' y -> exists x, last_given k l x /\ R x y.
Proof.
  intros F. induction F as [|[k1 x1] [k2 y2] l l' [E HR] F IH]; cbn [fst snd] in *; intro L.
  - destruct L as (b & a & E & _). destruct b; discriminate E.
  - subst k2. apply last_given_cons in L as [L|(<- & <- & N)].
    + destruct (IH L) as (x & L' & HX). exists x. split; [|exact HX]. apply last_given_cons. now left.
    + exists x1. split; [|exact HR]. apply last_given_cons. right. repeat split. clear -F N. intro I. apply N. clear N. induction F as [|[a1 ?] [a2 ?] ? ? [E ?] F IH]; cbn [map fst] in *; [exact I|]. subst. destruct I as [I|I]; [now left|right; now apply IH].
Qed.

Lemma last_given_fun {A} k (l : list (str * A)) x y : last_given k l x -> last_given k l y -> x = y.
Proof.
  induction l as [|[k0 x0] l IH]; intros H1 H2; [destruct H1 as (b & a & E & _); destruct b; discriminate E|].
  apply last_given_cons in H1, H2. destruct H1 as [H1|(E1 & <- & N1)], H2 as [H2|(E2 & <- & N2)]; [now apply IH| | |reflexivity].
  - apply last_given_not_in in H1. now destruct N2.
  - apply last_given_not_in in H2. now destruct N1.
Qed.

Lemma map_fields {T} (v : value T) : deserialize (SrcValue v) HMap =
  match v with
  | Val (DComposite (Named l)) _ | Val (DVariant _ (Named l)) _ => Ok (VMap (map (fun kv => (fst kv, SrcValue (snd kv))) l))
  | Val (DComposite (Unnamed l)) _ | Val (DVariant _ (Unnamed l)) _ => Ok (VSeq false (map SrcValue l))
  | Val (DPrim p) _ => Ok (prim_any p)
  | Val (DBits _) _ => Err DCustom
  end.
Proof. destruct v as [[[l|l]|n [l|l]|b|p] ctx]; reflexivity. Qed.
