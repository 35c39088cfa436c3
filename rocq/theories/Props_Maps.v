(** * C76: maps read from values. *)
From Verif Require Import Base Value Spec_Value Serde SerdeFacts Spec_Serde SerdeUni Spec_Parts SerdeParts Spec_Maps SerdeMaps.

Lemma str_ltb_key a : forall b, str_ltb a b = true <-> key_lt a b.
Proof.
  induction a as [|x a IH]; intros [|y b]; cbn [str_ltb].
  - split; [discriminate|]. intros (p & [(c & r & E & E')|(x & z & ra & rb & E & _)]); destruct p; discriminate.
  - split; [|reflexivity]. intros _. exists []. left. now exists y, b.
  - split; [discriminate|]. intros (p & [(c & r & E & E')|(u & z & ra & rb & _ & E & _)]); destruct p; discriminate.
  - rewrite Bool.orb_true_iff, Bool.andb_true_iff, N.ltb_lt, N.eqb_eq, IH. split.
    + intros [L|[-> (p & H)]]; [exists []; right; now exists x, y, a, b|]. exists (y :: p). destruct H as [(c & r & -> & ->)|(u & z & ra & rb & -> & -> & L)].
      * left. now exists c, r.
      * right. now exists u, z, ra, rb.
    + intros ([|w p] & [(c & r & E & E')|(u & z & ra & rb & E & E' & L)]); cbn [app] in *.
      * discriminate E.
      * injection E as <- _. injection E' as <- _. now left.
      * injection E as <- ->. injection E' as -> ->. right. split; [reflexivity|]. exists p. left. now exists c, r.
      * injection E as <- ->. injection E' as -> ->. right. split; [reflexivity|]. exists p. right. now exists u, z, ra, rb.
Qed.

Lemma rises_sorted l : rises l <-> sorted_keys l.
Proof.
  induction l as [|[k x] l IH]; [split; [constructor|intros _; exact I]|]. rewrite rises_cons, IH. split.
  - intros [H1 H2]. constructor; [|exact H2]. intros k' x' HI. apply str_ltb_key. eapply H1. exact HI.
  - intro H. inversion H as [|? ? ? H1 H2]; subst. split; [|exact H2]. intros k' x' HI. apply str_ltb_key. eapply H1. exact HI.
Qed.

(** A map with string keys is read from named fields, of a composite or of a variant, and from nothing else; every field must
    be readable; of several fields with one name the last one counts; the entries come in the order of the keys. *)
Theorem C76_maps : forall (T : Type) t (v : value T) d,
  from_value (TyMap t) v = Ok d <->
  exists l m, named_fields v l /\ d = XMap m /\ sorted_keys m /\
    (forall k w, In (k, w) l -> exists x, from_value t w = Ok x) /\
    (forall k x, In (k, x) m <-> exists w, last_given k l w /\ from_value t w = Ok x).
Proof.
  intros T t v d. unfold from_value. cbn [de]. rewrite map_fields. split.
  - intro H. assert (HL : exists l, named_fields v l /\
      rmap (fun kvs => XMap (built kvs)) (mapM (fun kv : str * source T => rmap (pair (fst kv)) (de t (snd kv))) (map (fun kv => (fst kv, SrcValue (snd kv))) l)) = Ok d).
    { destruct v as [[[l|l]|n [l|l]|b|p] ctx]; cbn [bind] in H; try discriminate H; [exists l; split; [left; now exists ctx|exact H]|exists l; split; [right; now exists n, ctx|exact H]|]. destruct p; discriminate H. }
    destruct HL as (l & HN & HL). clear H. apply rmap_ok in HL as (kvs & HL & ->). rewrite mapM_map, Forall2_mapM in HL.
    assert (F : Forall2 (fun a b => fst a = fst b /\ de t (SrcValue (snd a)) = Ok (snd b)) l kvs).
    { clear -HL. induction HL as [|[k w] b l kvs E _ IH]; constructor; [|exact IH]. cbn [fst snd] in *. apply rmap_ok in E as (x & E & ->). now split. }
    exists l, (built kvs). split; [exact HN|]. split; [reflexivity|]. destruct (built_spec kvs) as [R HB]. split; [now apply rises_sorted|]. split.
    + intros k w HI. clear -F HI. induction F as [|a b l kvs [_ E] _ IH]; [destruct HI|]. destruct HI as [->|HI]; [now exists (snd b)|now apply IH].
    + intros k x. rewrite HB. split.
      * intro L. destruct (last_given_F2 (fun w x => de t (SrcValue w) = Ok x) _ _ k x F L) as (w & L' & E). now exists w.
      * intros (w & L & E). assert (F' : Forall2 (fun b a => fst b = fst a /\ de t (SrcValue (snd a)) = Ok (snd b)) kvs l) by (clear -F; induction F as [|? ? ? ? [? ?] _ IH]; constructor; [now split|exact IH]).
        destruct (last_given_F2 (fun x w => de t (SrcValue w) = Ok x) _ _ k w F' L) as (y & L' & E'). rewrite E in E'. now injection E' as ->.
  - intros (l & m & HN & -> & HS & HR & HM).
    assert (HX : exists kvs, mapM (fun kv : str * source T => rmap (pair (fst kv)) (de t (snd kv))) (map (fun kv => (fst kv, SrcValue (snd kv))) l) = Ok kvs).
    { clear -HR. induction l as [|[k w] l IH]; [now exists []|]. destruct (HR k w (or_introl eq_refl)) as [x E]. destruct IH as [kvs IH]; [intros k' w' HI; apply (HR k'); now right|].
      exists ((k, x) :: kvs). cbn [map mapM fst snd]. unfold from_value in E. rewrite E. cbn [rmap bind]. now rewrite IH. }
    destruct HX as [kvs HX].
    assert (E : Ok (E := derr) (XMap (built kvs)) = Ok (XMap m)).
    { do 2 f_equal. destruct (built_spec kvs) as [R HB]. apply rises_unique; [exact R|now apply rises_sorted|]. intros k x. rewrite HB, HM.
      rewrite mapM_map, Forall2_mapM in HX.
      assert (F : Forall2 (fun a b => fst a = fst b /\ de t (SrcValue (snd a)) = Ok (snd b)) l kvs).
      { clear -HX. induction HX as [|[k w] b l kvs E _ IH]; constructor; [|exact IH]. cbn [fst snd] in *. apply rmap_ok in E as (x & E & ->). now split. }
      split.
      - intro L. destruct (last_given_F2 (fun w x => de t (SrcValue w) = Ok x) _ _ k x F L) as (w & L' & E). now exists w.
      - intros (w & L & E). assert (F' : Forall2 (fun b a => fst b = fst a /\ de t (SrcValue (snd a)) = Ok (snd b)) kvs l) by (clear -F; induction F as [|? ? ? ? [? ?] _ IH]; constructor; [now split|exact IH]).
        destruct (last_given_F2 (fun x w => de t (SrcValue w) = Ok x) _ _ k w F' L) as (y & L' & E'). unfold from_value in E. rewrite E in E'. now injection E' as ->. }
    destruct HN as [[ctx ->]|(n & ctx & ->)]; cbn [bind]; rewrite HX; exact E.
Qed.
Print Assumptions C76_maps.

(** With chars as keys, every name must be a single char; otherwise it is the same. *)
Theorem C76_char_keys : forall (T : Type) t (v : value T) d,
  from_value (TyMapChar t) v = Ok d <->
  from_value (TyMap t) v = Ok d /\ exists l, named_fields v l /\ forall k w, In (k, w) l -> exists c, k = [c].
Proof.
  intros T t v d. unfold from_value. cbn [de]. rewrite map_fields.
  assert (G : forall l : list (str * value T),
    (rmap (fun kvs => XMap (built kvs)) (mapM (fun kv : str * source T => bind (visit_char (T := T) (VString (fst kv))) (fun c => rmap (pair [c]) (de t (snd kv)))) (map (fun kv => (fst kv, SrcValue (snd kv))) l)) = Ok d <->
     rmap (fun kvs => XMap (built kvs)) (mapM (fun kv : str * source T => rmap (pair (fst kv)) (de t (snd kv))) (map (fun kv => (fst kv, SrcValue (snd kv))) l)) = Ok d /\ forall k w, In (k, w) l -> exists c, k = [c])).
  { intro l. rewrite !rmap_ok. split.
    - intros (kvs & H & ->). enough (HH : mapM (fun kv : str * source T => rmap (pair (fst kv)) (de t (snd kv))) (map (fun kv => (fst kv, SrcValue (snd kv))) l) = Ok kvs /\ forall k w, In (k, w) l -> exists c, k = [c]) by (destruct HH; split; [now exists kvs|assumption]).
      revert kvs H. induction l as [|[k w] l IH]; intros kvs H; [cbn [map mapM] in *; split; [exact H|intros k w []]|].
      cbn [map mapM fst snd] in *. apply bind_ok in H as (y & H1 & H2). apply rmap_ok in H2 as (ys & H2 & ->). destruct (IH _ H2) as [H3 H4].
      destruct k as [|c [|c' k]]; cbn [visit_char bind] in H1; try discriminate H1. rewrite H1. cbn [bind]. rewrite H3. split; [reflexivity|].
      intros k w' [E|HI]; [injection E as <- _; now exists c|now apply (H4 k w')].
    - intros [(kvs & H & ->) HK]. exists kvs. split; [|reflexivity]. revert kvs H. induction l as [|[k w] l IH]; intros kvs H; [exact H|].
      cbn [map mapM fst snd] in *. apply bind_ok in H as (y & H1 & H2). apply rmap_ok in H2 as (ys & H2 & ->).
      destruct (HK k w (or_introl eq_refl)) as [c ->]. rewrite (IH (fun k' w' HI => HK k' w' (or_intror HI)) _ H2). cbn [visit_char bind]. rewrite H1. reflexivity. }
  assert (NF : forall l (v : value T), named_fields v l -> forall l', named_fields v l' -> l' = l).
  { clear. intros l v H l' H'. destruct H as [[c ->]|(n & c & ->)], H' as [[c' E]|(n' & c' & E)]; congruence. }
  destruct v as [[[l|l]|n [l|l]|b|p] ctx]; cbn [bind].
  - change (fun kvs => XMap (fold_left _ kvs [])) with (fun kvs => XMap (built kvs)). rewrite (G l). split; intros [H1 H2]; (split; [exact H1|]).
    + exists l. split; [left; now exists ctx|exact H2].
    + destruct H2 as (l' & HN & H2). rewrite <- (NF l _ (or_introl (ex_intro _ ctx eq_refl)) l' HN). exact H2.
  - split; [discriminate|]. intros [H _]. discriminate H.
  - change (fun kvs => XMap (fold_left _ kvs [])) with (fun kvs => XMap (built kvs)). rewrite (G l). split; intros [H1 H2]; (split; [exact H1|]).
    + exists l. split; [right; now exists n, ctx|exact H2].
    + destruct H2 as (l' & HN & H2). rewrite <- (NF l _ (or_intror (ex_intro _ n (ex_intro _ ctx eq_refl))) l' HN). exact H2.
  - split; [discriminate|]. intros [H _]. discriminate H.
  - split; [discriminate|]. intros [H _]. discriminate H.
  - destruct p; (split; [discriminate|]; intros [H _]; discriminate H).
Qed.
Print Assumptions C76_char_keys.

(** So a map loses fields: two fields with one name become one entry. *)
Theorem C76_duplicates_refuted : forall (T : Type) t k (v w : value T) x y ctx, from_value t v = Ok x -> from_value t w = Ok y ->
  from_value (TyMap t) (Val (DComposite (Named [(k, v); (k, w)])) ctx) = Ok (XMap [(k, y)]).
Proof.
  intros T t k v w x y ctx Hx Hy. unfold from_value in *. cbn [de]. rewrite map_fields. cbn [bind map mapM fst snd]. rewrite Hx, Hy. cbn [bind rmap fold_left map_insert fst snd].
  rewrite str_ltb_irrefl, str_eqb_refl. reflexivity.
Qed.
Print Assumptions C76_duplicates_refuted.

Example C76_non_vacuous :
  let v := named_variant (s2l "V") [(s2l "b", vu128 1); (s2l "a", vu128 2); (s2l "b", vu128 3)] in
  from_value (TyMap (TyInt false 8)) v = Ok (XMap [(s2l "a", XInt 2); (s2l "b", XInt 3)]) /\
  from_value (TyMapChar (TyInt false 8)) v = Ok (XMap [(s2l "a", XInt 2); (s2l "b", XInt 3)]) /\
  named_fields v [(s2l "b", vu128 1); (s2l "a", vu128 2); (s2l "b", vu128 3)] /\
  last_given (s2l "b") [(s2l "b", vu128 1); (s2l "a", vu128 2); (s2l "b", vu128 3)] (vu128 3) /\ key_lt (s2l "a") (s2l "b") /\
  from_value (TyMap (TyInt false 8)) (unnamed_composite [vu128 1]) = Err DType.
Proof.
  cbv zeta. split; [reflexivity|]. split; [reflexivity|]. split; [right; now eexists _, _|]. split; [exists [(s2l "b", vu128 1); (s2l "a", vu128 2)], []; split; [reflexivity|intros []]|].
  split; [apply str_ltb_key; reflexivity|reflexivity].
Qed.
