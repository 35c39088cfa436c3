(** * SerdeParts: [Composite], [Variant] and [Primitive] as deserializers and as targets; facts for C69. *)
From Verif Require Import Base Value Spec_Value Serde SerdeFacts SerdeUni Spec_Serde Spec_Parts.

(** Two sources that answer every hint alike. *)
Definition alike {T} (s s' : source T) : Prop := forall h, deserialize s h = deserialize s' h.

Lemma alike_any {T} (s s' : source T) : alike s s' -> any_of s = any_of s'.
Proof. intro H. specialize (H HAny). rewrite !deserialize_any_ok in H. now injection H. Qed.

Lemma alike_de {T} (s s' : source T) t : alike s s' -> de t s = de t s'.
Proof.
  intro H. destruct t; cbn [de]; unfold de_bool, de_string, de_composite, de_composite_with, de_variant, de_prim; rewrite ?H; try reflexivity.
  rewrite !de_value_unfold, (alike_any s s' H). reflexivity.
Qed.

Lemma alike_composite {T} (c : composite (value T)) ctx : alike (SrcComposite c) (SrcValue (Val (DComposite c) ctx)).
Proof. intros []; reflexivity. Qed.
Lemma alike_prim {T} p (ctx : T) : alike (SrcPrim p) (SrcValue (Val (DPrim p) ctx)).
Proof. intros []; reflexivity. Qed.

Lemma bare_variant_de {T} n (c : composite (value T)) ctx t : (forall t', t <> TyOption t') -> (forall fs, t <> TyStruct fs) ->
  de t (SrcVariant n c) = de t (SrcValue (Val (DVariant n c) ctx)).
Proof.
  intros NO NS. destruct t; try (now destruct (NO t)); try (now destruct (NS l)); try reflexivity.
  cbn [de]. rewrite !de_value_unfold. reflexivity.
Qed.

Lemma bare_variant_struct {T} n (c : composite (value T)) ctx fs :
  de (TyStruct fs) (SrcVariant n c) = de (TyStruct fs) (SrcValue (Val (DComposite c) ctx)).
Proof. reflexivity. Qed.

(** ** Targets *)
Lemma from_value_value {T} (v : value T) w : from_value TyValue v = Ok (XValue w) <-> de_value (SrcValue v) = Ok w.
Proof.
  unfold from_value. cbn [de]. rewrite rmap_ok. split.
  - intros (x & H & E). injection E as <-. exact H.
  - intros H. exists w. now split.
Qed.

Lemma Forall2_mapM {A B E} (f : A -> result B E) l l' : mapM f l = Ok l' <-> Forall2 (fun x y => f x = Ok y) l l'.
Proof.
  revert l'. induction l as [|x l IH]; intro l'; cbn [mapM].
  - split; [intro H; injection H as <-; constructor|intro H; inversion H; reflexivity].
  - rewrite bind_ok. split.
    + intros (y & Hy & H). apply rmap_ok in H as (ys & Hys & ->). constructor; [exact Hy|]. now apply IH.
    + intro H. inversion H as [|a b la lb Hy Hl]; subst. exists b. split; [exact Hy|]. apply rmap_ok. exists lb. split; [now apply IH|reflexivity].
Qed.

Lemma Forall2_iff {A B} (P Q : A -> B -> Prop) l l' : (forall x y, P x y <-> Q x y) -> Forall2 P l l' <-> Forall2 Q l l'.
Proof. intro H. split; induction 1; constructor; auto; now apply H. Qed.

Lemma de_comp_reads {T} (c : composite (value T)) c' : de_comp c = Ok c' <-> reads_fields c c'.
Proof.
  destruct c as [l|l]; cbn [de_comp]; rewrite rmap_ok.
  - split.
    + intros (l' & H & ->). constructor. unfold de_fields in H. apply Forall2_mapM in H. revert H. apply Forall2_iff. intros [k v] [k' v'].
      cbn [fst snd]. rewrite from_value_value, rmap_ok. split.
      * intros [-> H]. exists v'. now split.
      * intros (x & H & E). injection E as -> ->. now split.
    + intro H. inversion H as [l0 l' HF E1 E2|]; subst. exists l'. split; [|reflexivity]. unfold de_fields. apply Forall2_mapM. revert HF.
      apply Forall2_iff. intros [k v] [k' v']. cbn [fst snd]. rewrite from_value_value, rmap_ok. split.
      * intros (x & H' & E). injection E as -> ->. now split.
      * intros [-> H']. exists v'. now split.
  - split.
    + intros (l' & H & ->). constructor. apply Forall2_mapM in H. revert H. apply Forall2_iff. intros. now rewrite from_value_value.
    + intro H. inversion H as [|l0 l' HF E1 E2]; subst. exists l'. split; [|reflexivity]. apply Forall2_mapM. revert HF. apply Forall2_iff. intros. now rewrite from_value_value.
Qed.

Lemma de_value_bools {T} b : de_value (T := T) (SrcBools b) = Ok (unnamed_composite (map vbool b)).
Proof.
  rewrite de_value_unfold. cbn [any_of visit_valuedef visit_composite].
  rewrite mapM_map, (mapM_total _ vbool); [reflexivity|]. intros x _. rewrite de_value_unfold. reflexivity.
Qed.

Lemma composite_target {T} (v : value T) : de_composite (SrcValue v) =
  match v with
  | Val (DComposite c) _ => de_comp c
  | Val (DBits b) _ => Ok (Named [(reserved_key, unnamed_composite (map vbool b))])
  | Val (DPrim (PU256 b)) _ | Val (DPrim (PI256 b)) _ => Ok (Unnamed (map vu128 b))
  | _ => Err DType
  end.
Proof.
  unfold de_composite, de_composite_with. rewrite deserialize_any_ok. destruct v as [d ctx]. cbn [any_of vdef_of bind].
  destruct d as [c|n c|b|p]; cbn [vdef_any].
  - apply visit_composite_any.
  - reflexivity.
  - cbn [bits_map visit_composite mapM fst snd]. rewrite de_value_bools. reflexivity.
  - destruct p; reflexivity.
Qed.

Definition vkey (k : str) : bool := str_eqb k (s2l "name") || str_eqb k (s2l "values").

Lemma last_given_cons {A} k (l : list (str * A)) k0 x0 x : last_given k ((k0, x0) :: l) x <->
  last_given k l x \/ (k0 = k /\ x0 = x /\ ~ In k (map fst l)).
Proof.
  split.
  - intros (b & a & E & N). destruct b as [|y b]; cbn [app] in E.
    + injection E as -> -> ->. right. now repeat split.
    + injection E as <- ->. left. now exists b, a.
  - intros [(b & a & -> & N)|(-> & -> & N)].
    + now exists ((k0, x0) :: b), a.
    + now exists [], l.
Qed.

Lemma last_given_in {A} k (l : list (str * A)) : In k (map fst l) -> exists x, last_given k l x.
Proof.
  induction l as [|[k0 x0] l IH]; [intros []|]. cbn [map fst In]. intros [->|H].
  - destruct (in_dec (list_eq_dec N.eq_dec) k (map fst l)) as [I|I].
    + destruct (IH I) as [x Hx]. exists x. apply last_given_cons. now left.
    + exists x0. apply last_given_cons. now right.
  - destruct (IH H) as [x Hx]. exists x. apply last_given_cons. now left.
Qed.
Lemma last_given_not_in {A} k (l : list (str * A)) x : last_given k l x -> In k (map fst l).
Proof. intros (b & a & -> & _). rewrite map_app. apply in_or_app. right. now left. Qed.

Definition good_entry {T} (kv : str * value T) : Prop :=
  (fst kv = s2l "name" /\ exists s, de_string (SrcValue (snd kv)) = Ok s) \/
  (fst kv = s2l "values" /\ exists c', de_composite (SrcValue (snd kv)) = Ok c').

Definition slot {T A} (k : str) (f : source T -> result A derr) (l : list (str * value T)) (o o' : option A) : Prop :=
  (exists v x, last_given k l v /\ f (SrcValue v) = Ok x /\ o' = Some x) \/ (~ In k (map fst l) /\ o' = o).

Lemma slot_skip {T A} k (f : source T -> result A derr) l k0 v0 o o' : k0 <> k -> (slot k f ((k0, v0) :: l) o o' <-> slot k f l o o').
Proof.
  intro N. unfold slot. split.
  - intros [(v & x & L & H)|[I E]].
    + left. exists v, x. split; [|exact H]. apply last_given_cons in L as [L|(-> & _)]; [exact L|now destruct N].
    + right. split; [|exact E]. intro J. apply I. now right.
  - intros [(v & x & L & H)|[I E]].
    + left. exists v, x. split; [|exact H]. apply last_given_cons. now left.
    + right. split; [|exact E]. intros [J|J]; [now destruct N|now destruct I].
Qed.

Lemma slot_hit {T A} k (f : source T -> result A derr) l v0 x0 o o' : f (SrcValue v0) = Ok x0 ->
  (slot k f ((k, v0) :: l) o o' <-> slot k f l (Some x0) o').
Proof.
  intro H0. unfold slot. split.
  - intros [(v & x & L & H)|[I E]].
    + apply last_given_cons in L as [L|(_ & -> & N)].
      * left. now exists v, x.
      * right. split; [exact N|]. destruct H as [H ->]. congruence.
    + destruct I. now left.
  - intros [(v & x & L & H)|[I ->]].
    + left. exists v, x. split; [|exact H]. apply last_given_cons. now left.
    + left. exists v0, x0. repeat split; [|exact H0]. apply last_given_cons. now right.
Qed.

Lemma variant_fields_ok {T} (l : list (str * value T)) : forall n0 c0 n1 c1,
  variant_fields de_value (map (fun kv => (fst kv, SrcValue (snd kv))) l) n0 c0 = Ok (n1, c1) <->
  Forall good_entry l /\ slot (s2l "name") de_string l n0 n1 /\ slot (s2l "values") de_composite l c0 c1.
Proof.
  induction l as [|[k v] l IH]; intros n0 c0 n1 c1; cbn [map fst snd variant_fields].
  - split.
    + intro H. injection H as -> ->. split; [constructor|]. split; right; split; auto.
    + intros (_ & [(v & x & (b & a & E & _) & _)|[_ ->]] & [(v' & x' & (b' & a' & E' & _) & _)|[_ ->]]);
        try (destruct b; discriminate E); try (destruct b'; discriminate E'). reflexivity.
  - destruct (str_eqb k (s2l "name")) eqn:EN; [|destruct (str_eqb k (s2l "values")) eqn:EV].
    + apply str_eqb_eq in EN. subst k. rewrite bind_ok. split.
      * intros (s & Hs & H). apply IH in H as (F & S1 & S2). split; [constructor; [left; cbn [fst snd]; eauto|exact F]|].
        split; [now apply (slot_hit _ _ _ _ s)|]. apply slot_skip; [discriminate|exact S2].
      * intros (F & S1 & S2). inversion F as [|? ? G F']; subst. destruct G as [[_ [s Hs]]|[E _]]; [|discriminate E]. cbn [snd] in Hs.
        exists s. split; [exact Hs|]. apply IH. split; [exact F'|]. split; [now apply (slot_hit _ _ _ v s) in S1|]. apply slot_skip in S2; [exact S2|discriminate].
    + apply str_eqb_eq in EV. subst k. rewrite bind_ok. split.
      * intros (s & Hs & H). apply IH in H as (F & S1 & S2). split; [constructor; [right; cbn [fst snd]; eauto|exact F]|].
        split; [apply slot_skip; [discriminate|exact S1]|now apply (slot_hit _ _ _ _ s)].
      * intros (F & S1 & S2). inversion F as [|? ? G F']; subst. destruct G as [[E _]|[_ [s Hs]]]; [discriminate E|]. cbn [snd] in Hs.
        exists s. split; [exact Hs|]. apply IH. split; [exact F'|]. split; [apply slot_skip in S1; [exact S1|discriminate]|now apply (slot_hit _ _ _ v s) in S2].
    + apply str_eqb_neq in EN, EV. split; [discriminate|]. intros (F & _). inversion F as [|? ? G F']; subst. destruct G as [[E _]|[E _]]; now cbn [fst] in E.
Qed.

Lemma from_value_string {T} (v : value T) s : from_value TyString v = Ok (XString s) <-> de_string (SrcValue v) = Ok s.
Proof.
  unfold from_value. cbn [de]. rewrite rmap_ok. split; [intros (x & H & E); injection E as <-; exact H|intro H; exists s; now split].
Qed.
Lemma from_value_composite {T} (v : value T) c : from_value TyComposite v = Ok (XComposite c) <-> de_composite (SrcValue v) = Ok c.
Proof.
  unfold from_value. cbn [de]. rewrite rmap_ok. split; [intros (x & H & E); injection E as <-; exact H|intro H; exists c; now split].
Qed.

Lemma good_entry_iff {T} (kv : str * value T) : good_entry kv <->
  (fst kv = s2l "name" /\ exists s, from_value TyString (snd kv) = Ok (XString s)) \/
  (fst kv = s2l "values" /\ exists c', from_value TyComposite (snd kv) = Ok (XComposite c')).
Proof.
  unfold good_entry. split; (intros [[E [x H]]|[E [x H]]]; [left|right]); (split; [exact E|exists x]); revert H; now rewrite ?from_value_string, ?from_value_composite.
Qed.

Lemma variant_map_ok {T} (l : list (str * value T)) n c :
  visit_variant de_value (VMap (map (fun kv => (fst kv, SrcValue (snd kv))) l)) = Ok (n, c) <-> variant_map l n c.
Proof.
  cbn [visit_variant]. rewrite bind_ok. unfold variant_map. split.
  - intros ([n1 c1] & H & E). destruct n1 as [n1|]; [|discriminate E]. destruct c1 as [c1|]; [|discriminate E]. injection E as -> ->.
    apply variant_fields_ok in H as (F & S1 & S2). split; [|split].
    + rewrite Forall_forall in *. intros kv I. now apply good_entry_iff, F.
    + destruct S1 as [(v & x & L & H & E)|[_ E]]; [|discriminate E]. injection E as ->. exists v. split; [exact L|now apply from_value_string].
    + destruct S2 as [(v & x & L & H & E)|[_ E]]; [|discriminate E]. injection E as ->. exists v. split; [exact L|now apply from_value_composite].
  - intros (F & (v & L & H) & (v' & L' & H')). exists (Some n, Some c). split; [|reflexivity]. apply variant_fields_ok. split; [|split].
    + rewrite Forall_forall in *. intros kv I. now apply good_entry_iff, F.
    + left. exists v, n. repeat split; [exact L|now apply from_value_string].
    + left. exists v', c. repeat split; [exact L'|now apply from_value_composite].
Qed.
