(** * SerdeTargets: what each kind of target accepts. *)
From Verif Require Import Base Value Spec_Value ValueFacts Scale Serde SerdeFacts Spec_Serde SerdeRt SerdeUni SerdeMore.

Lemma in_int_range sg w z : in_int sg w z = true <-> int_range sg w z.
Proof. unfold in_int, int_range. destruct sg; rewrite andb_true_iff, Z.leb_le, Z.ltb_lt; reflexivity. Qed.

(** ** Integers *)
Lemma de_int_spec {T} sg w (v : value T) d : In w [8; 16; 32; 64; 128]%N ->
  (from_value (TyInt sg w) v = Ok d <-> exists z, number_in v = Some z /\ int_range sg w z /\ d = XInt z).
Proof.
  intro HW. unfold from_value. cbn [de deserialize]. rewrite rmap_ok.
  assert (HV : forall p, (exists x, visit_int sg w (prim_any (T := T) p) = Ok x /\ d = XInt x) ->
     exists z, number_in (T := T) (primitive_in p (ctx_of v)) = Some z /\ int_range sg w z /\ d = XInt z).
  { intros p (z & HZ & ->). destruct p; try discriminate HZ; cbn [prim_any visit_int] in HZ; destruct (_ && _) in HZ; try discriminate;
      destruct (in_int sg w _) eqn:E in HZ; try discriminate; injection HZ as <-; eexists; (split; [reflexivity|]); (split; [apply in_int_range; exact E|reflexivity]). }
  destruct v as [[c|n c|b|p] ctx]; cbn [vdef_of vdef_de number_in].
  - split; [|intros (z & ? & _); discriminate]. intros (x & HX & _). exfalso. destruct c; discriminate HX.
  - split; [|intros (z & ? & _); discriminate]. intros (x & HX & _). discriminate HX.
  - split; [|intros (z & ? & _); discriminate]. intros (x & HX & _). discriminate HX.
  - cbn [bind ctx_of] in *. split.
    + intro H. cbn [prim_de] in H. destruct p; try (apply (HV _) in H; exact H).
      * destruct (in_int sg w (Z.of_N n)) eqn:E; [|apply (HV _) in H; exact H].
        destruct H as (x & HX & ->). cbn [visit_int] in HX. rewrite E in HX. replace ((w =? 128)%N && negb (w =? 128)%N) with false in HX by (destruct (w =? 128)%N; reflexivity).
        injection HX as <-. exists (Z.of_N n). split; [reflexivity|]. split; [apply in_int_range; exact E|reflexivity].
      * destruct (in_int sg w z) eqn:E; [|apply (HV _) in H; exact H].
        destruct H as (x & HX & ->). cbn [visit_int] in HX. rewrite E in HX. replace ((w =? 128)%N && negb (w =? 128)%N) with false in HX by (destruct (w =? 128)%N; reflexivity).
        injection HX as <-. exists z. split; [reflexivity|]. split; [apply in_int_range; exact E|reflexivity].
    + intros (z & HZ & HR & ->). apply in_int_range in HR. exists z. split; [|reflexivity].
      assert (HX : prim_de (T := T) p (HInt sg w) = VInt sg w z).
      { destruct p; try discriminate HZ; injection HZ as <-; cbn [prim_de]; rewrite HR; reflexivity. }
      rewrite HX. cbn [visit_int]. rewrite HR. destruct (w =? 128)%N; reflexivity.
Qed.

(** ** Elements *)
Lemma seq_take_spec {T} (fs : list (source T -> result data derr)) : forall l r,
  seq_take fs l = Ok r <-> exists l1 l2, l = l1 ++ l2 /\ snd r = l2 /\ length l1 = length fs /\ Forall2 (fun fs x => fst fs (snd fs) = Ok x) (combine fs l1) (fst r).
Proof.
  induction fs as [|f fs IH]; intros l r; cbn [seq_take].
  - split.
    + intro H. injection H as <-. exists [], l. repeat split. constructor.
    + intros (l1 & l2 & -> & H2 & H1 & HF). destruct l1; [|discriminate]. inversion HF as [HE|]. destruct r as [a b]. cbn [fst snd app] in *. subst. reflexivity.
  - destruct l as [|s l].
    + split; [discriminate|]. intros (l1 & l2 & HE & _ & HL & _). destruct l1; discriminate.
    + destruct (f s) as [x|e] eqn:Ef; cbn [bind].
      * destruct (seq_take fs l) as [r'|e] eqn:Es; cbn [bind].
        -- destruct (proj1 (IH l r') Es) as (l1 & l2 & -> & H2 & H1 & HF). split.
           ++ intro H. injection H as <-. exists (s :: l1), l2. cbn [fst snd length combine app]. split; [reflexivity|]. split; [exact H2|]. split; [congruence|]. constructor; [exact Ef|exact HF].
           ++ intros (l3 & l4 & HE & H4 & H3 & HF'). destruct l3 as [|s' l3]; [discriminate|]. cbn [app] in HE. injection HE as <- HE. cbn [length] in H3. injection H3 as H3.
              cbn [combine] in HF'. destruct r as [xs l5]. cbn [fst snd] in *. subst l5. inversion HF' as [|? x' ? xs' Hx HF'']; subst. cbn [fst snd] in Hx. rewrite Ef in Hx. injection Hx as <-.
              assert (HT : seq_take fs (l1 ++ snd r') = Ok (xs', l4)). { rewrite HE. apply IH. exists l3, l4. cbn [fst snd]. auto. }
              rewrite Es in HT. injection HT as ->. reflexivity.
        -- split; [discriminate|]. intros (l3 & l4 & HE & H4 & H3 & HF'). exfalso. destruct l3 as [|s' l3]; [discriminate|]. cbn [app] in HE. injection HE as <- HE. cbn [length] in H3. injection H3 as H3.
           cbn [combine] in HF'. destruct r as [xs l5]. cbn [fst snd] in *. subst l5. inversion HF' as [|? x' ? xs' Hx HF'']; subst.
           assert (HT : seq_take fs (l3 ++ l4) = Ok (xs', l4)). { apply IH. exists l3, l4. cbn [fst snd]. auto. }
           congruence.
      * split; [discriminate|]. intros (l3 & l4 & HE & H4 & H3 & HF'). exfalso. destruct l3 as [|s' l3]; [discriminate|]. cbn [app] in HE. injection HE as <- HE.
        cbn [combine] in HF'. inversion HF' as [|? x' ? xs' Hx HF'']; subst. cbn [fst snd] in Hx. congruence.
Qed.

Lemma combine_map_de {T} (ts : list ty) : forall (vs : list (value T)) xs,
  Forall2 (fun fs x => fst fs (snd fs) = Ok x) (combine (map de ts) (map SrcValue vs)) xs <->
  Forall2 (fun tv x => from_value (fst tv) (snd tv) = Ok x) (combine ts vs) xs.
Proof.
  induction ts as [|t ts IH]; intros [|v vs] xs; cbn [map combine]; try (split; intro H; inversion H; constructor; fail).
  split; intro H; inversion H; subst; constructor; try (apply IH; assumption); assumption.
Qed.

(** Reading one value per type from the front of a list, the rest must be empty if [strict]. *)
Lemma visit_elems_spec {T} (ts : list ty) strict (vs : list (value T)) xs :
  visit_elems (map de ts) (VSeq strict (map SrcValue vs)) = Ok xs <->
  exists used rest, vs = used ++ rest /\ length used = length ts /\ (strict = true -> rest = []) /\
    Forall2 (fun tv x => from_value (fst tv) (snd tv) = Ok x) (combine ts used) xs.
Proof.
  cbn [visit_elems]. rewrite bind_ok. split.
  - intros (r & HR & HX). apply seq_take_spec in HR as (l1 & l2 & HE & H2 & H1 & HF). rewrite map_length in H1.
    apply map_eq_app in HE as (u & w & -> & <- & <-). rewrite map_length in H1. apply combine_map_de in HF. exists u, w. split; [reflexivity|]. split; [exact H1|].
    rewrite H2 in HX. destruct w as [|a w]; cbn [map] in HX.
    + injection HX as <-. split; [reflexivity|exact HF].
    + destruct strict; [discriminate|]. injection HX as <-. split; [discriminate|exact HF].
  - intros (u & w & -> & HL & HS & HF). exists (xs, map SrcValue w). split.
    + apply seq_take_spec. exists (map SrcValue u), (map SrcValue w). rewrite map_app, !map_length. cbn [fst snd]. split; [reflexivity|]. split; [reflexivity|]. split; [exact HL|].
      apply combine_map_de. exact HF.
    + cbn [fst snd]. destruct w as [|a w]; [reflexivity|]. cbn [map]. destruct strict; [|reflexivity]. discriminate (HS eq_refl).
Qed.

Lemma visit_elems_exact {T} (ts : list ty) (vs : list (value T)) xs : length vs = length ts ->
  visit_elems (map de ts) (VSeq false (map SrcValue vs)) = Ok xs <-> Forall2 (fun tv x => from_value (fst tv) (snd tv) = Ok x) (combine ts vs) xs.
Proof.
  intro HL. rewrite visit_elems_spec. split.
  - intros (u & w & -> & H1 & _ & HF). rewrite app_length in HL. destruct w; [rewrite app_nil_r; exact HF|cbn [length] in HL; lia].
  - intro H. exists vs, []. rewrite app_nil_r. auto.
Qed.

Lemma fields_values {T} (v : value T) c n : (vdef_of v = DComposite c \/ vdef_of v = DVariant n c) -> fields_of v = values c.
Proof. intros [H|H]; destruct v as [d ctx]; cbn [vdef_of] in H; subst d; destruct c; reflexivity. Qed.

(** Tuples and tuple structs. *)
Lemma de_tuple_spec {T} (ts : list ty) (v : value T) d :
  from_value (TyTuple ts) v = Ok d <->
  has_fields v /\ length (fields_of v) = length ts /\ exists xs, d = XTuple xs /\ Forall2 (fun tv x => from_value (fst tv) (snd tv) = Ok x) (combine ts (fields_of v)) xs.
Proof.
  unfold from_value at 1. cbn [de deserialize]. rewrite rmap_ok.
  assert (HC : forall c, values c = fields_of v -> ((exists x, bind (composite_de c (HTuple (length ts))) (visit_elems (map de ts)) = Ok x /\ d = XTuple x) <->
     length (fields_of v) = length ts /\ exists xs, d = XTuple xs /\ Forall2 (fun tv x => from_value (fst tv) (snd tv) = Ok x) (combine ts (fields_of v)) xs)).
  { intros c Hc. cbn [composite_de]. replace (clen c) with (length (fields_of v)) by (rewrite <- Hc; destruct c; cbn [values clen]; [apply map_length|reflexivity]).
    destruct (Nat.eqb_spec (length (fields_of v)) (length ts)) as [E|E]; cbn [bind].
    - rewrite Hc. split.
      + intros (xs & H & ->). apply visit_elems_exact in H; [|exact E]. eauto.
      + intros (_ & xs & -> & H). exists xs. split; [apply visit_elems_exact; assumption|reflexivity].
    - split; [intros (x & H & _); discriminate|intros (H & _); contradiction]. }
  destruct v as [[c|n c|b|p] ctx]; cbn [vdef_of vdef_de variant_de has_fields].
  - rewrite (HC c) by (destruct c; reflexivity). tauto.
  - rewrite (HC c) by (destruct c; reflexivity). tauto.
  - cbn [bits_de bind]. split; [intros (x & H & _); discriminate|intros (H & _); destruct H].
  - cbn [prim_de bind]. split; [intros (x & H & _); destruct p; discriminate|intros (H & _); destruct H].
Qed.

Lemma de_tuple_struct_spec {T} (ts : list ty) (v : value T) d :
  from_value (TyTupleStruct ts) v = Ok d <->
  has_fields v /\ length (fields_of v) = length ts /\ exists xs, d = XTupleStruct xs /\ Forall2 (fun tv x => from_value (fst tv) (snd tv) = Ok x) (combine ts (fields_of v)) xs.
Proof.
  assert (H : from_value (TyTupleStruct ts) v = Ok d <-> exists xs, d = XTupleStruct xs /\ from_value (TyTuple ts) v = Ok (XTuple xs)).
  { unfold from_value. cbn [de deserialize]. rewrite rmap_ok.
    assert (HH : bind (vdef_de (vdef_of v) (HTupleStruct (length ts))) (visit_elems (map de ts)) = bind (vdef_de (vdef_of v) (HTuple (length ts))) (visit_elems (map de ts))).
    { destruct v as [[c|n c|b|p] ctx]; reflexivity. }
    rewrite HH. split.
    - intros (xs & HX & ->). exists xs. split; [reflexivity|]. rewrite HX. reflexivity.
    - intros (xs & -> & HX). apply rmap_ok in HX as (ys & HX & HE). injection HE as ->. exists ys. auto. }
  rewrite H. split.
  - intros (xs & -> & HX). apply de_tuple_spec in HX as (H1 & H2 & ys & HE & HF). injection HE as ->. eauto.
  - intros (H1 & H2 & xs & -> & HF). exists xs. split; [reflexivity|]. apply de_tuple_spec. eauto.
Qed.

(** Sequences. *)
Lemma de_vec_spec {T} t (v : value T) d :
  from_value (TyVec t) v = Ok d <-> has_fields v /\ exists xs, d = XVec xs /\ Forall2 (fun w x => from_value t w = Ok x) (fields_of v) xs.
Proof.
  unfold from_value at 1. cbn [de deserialize]. rewrite rmap_ok.
  assert (HC : forall c, values c = fields_of v -> ((exists x, bind (composite_de c HSeq) (visit_vec (de t)) = Ok x /\ d = XVec x) <->
     exists xs, d = XVec xs /\ Forall2 (fun w x => from_value t w = Ok x) (fields_of v) xs)).
  { intros c Hc. cbn [composite_de bind visit_vec]. rewrite Hc, mapM_map. split.
    - intros (xs & H & ->). apply mapM_ok in H. eauto.
    - intros (xs & -> & H). exists xs. split; [apply mapM_ok; exact H|reflexivity]. }
  destruct v as [[c|n c|b|p] ctx]; cbn [vdef_of vdef_de variant_de has_fields].
  - rewrite (HC c) by (destruct c; reflexivity). tauto.
  - rewrite (HC c) by (destruct c; reflexivity). tauto.
  - cbn [bits_de bind]. split; [intros (x & H & _); discriminate|intros (H & _); destruct H].
  - cbn [prim_de bind]. split; [intros (x & H & _); destruct p; discriminate|intros (H & _); destruct H].
Qed.

(** Options. *)
Lemma de_option_spec {T} t (v : value T) d :
  from_value (TyOption t) v = Ok d <->
  (vdef_of v = DVariant (s2l "None") (Unnamed []) /\ d = XNone) \/
  (exists w x, vdef_of v = DVariant (s2l "Some") (Unnamed [w]) /\ from_value t w = Ok x /\ d = XSome x).
Proof.
  unfold from_value at 1. cbn [de deserialize].
  destruct v as [[c|n [l|l]|b|p] ctx]; cbn [vdef_of vdef_de].
  - split; [intro H; destruct c; discriminate|intros [(H & _)|(w & x & H & _)]; discriminate].
  - split; [intro H; discriminate|intros [(H & _)|(w & x & H & _)]; discriminate].
  - destruct (str_eqb n (s2l "Some")) eqn:ES.
    + apply str_eqb_eq in ES. subst n. destruct l as [|w [|w' l]].
      * cbn [length Nat.eqb andb]. change (str_eqb (s2l "Some") (s2l "None")) with false. cbn [andb bind vdef_any].
        split; [discriminate|]. intros [(H & _)|(w & x & H & _)]; discriminate.
      * cbn [length Nat.eqb andb bind]. rewrite rmap_ok. split.
        -- intros (x & Hx & ->). right. exists w, x. auto.
        -- intros [(H & _)|(w' & x & H & Hx & ->)]; [discriminate|]. injection H as ->. exists x. auto.
      * cbn [length Nat.eqb andb]. change (str_eqb (s2l "Some") (s2l "None")) with false. cbn [andb bind vdef_any].
        split; [discriminate|]. intros [(H & _)|(w'' & x & H & _)]; discriminate.
    + cbn [andb]. destruct (str_eqb n (s2l "None")) eqn:EN.
      * apply str_eqb_eq in EN. subst n. destruct l as [|w l]; cbn [length Nat.eqb andb bind vdef_any].
        -- split; [intro H; injection H as <-; left; auto|]. intros [(_ & ->)|(w & x & H & _)]; [reflexivity|discriminate].
        -- split; [discriminate|]. intros [(H & _)|(w' & x & H & _)]; discriminate.
      * cbn [andb bind vdef_any]. split; [discriminate|]. apply str_eqb_neq in ES. apply str_eqb_neq in EN.
        intros [(H & _)|(w & x & H & _)]; injection H as ->; contradiction.
  - split; [discriminate|]. intros [(H & _)|(w & x & H & _)]; discriminate.
  - split; [intro H; destruct p; discriminate|intros [(H & _)|(w & x & H & _)]; discriminate].
Qed.
