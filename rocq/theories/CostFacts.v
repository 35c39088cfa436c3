(** * CostFacts: how many calls of [Value::encode_as_type_to] an encoding makes. *)
From Verif Require Import Base Value ValueFacts Registry Spec_Scale Scale Encode EncodeFacts EncodeCost Spec_Cost.
Open Scope N_scope.

(** How often a composite can try its children at most; an upper bound for the number of calls. *)
Definition tries {A} (l : list A) : N := match l with [_] => 3 | _ => 2 end.
Fixpoint weight {T} (v : value T) : N :=
  match v with
  | Val d _ => match d with
               | DComposite c => 1 + tries (values c) * total (values (composite_map weight c))
               | DVariant _ c => 1 + total (values (composite_map weight c))
               | _ => 1
               end
  end.
Lemma total_depth {T} (l : list (value T)) k : Forall (fun v => weight v <= nodes v * 3 ^ depth v) l -> (forall v, In v l -> depth v <= k) ->
  total (map weight l) <= total (map nodes l) * 3 ^ k.
Proof.
  induction 1 as [|v l Hv Hl IH]; intro HD; cbn [map total]; [lia|].
  assert (3 ^ depth v <= 3 ^ k) by (apply N.pow_le_mono_r; [lia|apply HD; left; reflexivity]).
  specialize (IH (fun v' H => HD v' (or_intror H))). nia.
Qed.
Lemma largest_ge l a : In a l -> a <= largest l.
Proof. unfold largest. induction l as [|b l IH]; intro H; [destruct H|]. cbn [fold_right]. destruct H as [->|H]; [lia|specialize (IH H); lia]. Qed.
Lemma weight_le {T} (v : value T) : weight v <= nodes v * 3 ^ depth v.
Proof.
  induction v as [d ctx IH] using value_ind'. destruct d as [c|n c|b|p]; cbn [children] in IH; cbn [weight nodes depth]; [| |reflexivity|reflexivity].
  - rewrite !values_cmap. pose proof (total_depth _ (largest (map depth (values c))) IH (fun v H => largest_ge _ _ (in_map _ _ _ H))) as H.
    rewrite (N.add_comm 1 (largest _)), N.pow_add_r, N.pow_1_r. set (a := 3 ^ _) in *. assert (1 <= a) by (subst a; pose proof (N.pow_nonzero 3 (largest (map depth (values c)))); lia).
    assert (tries (values c) <= 3) by (destruct (values c) as [|? [|]]; cbn; lia). nia.
  - rewrite !values_cmap. pose proof (total_depth _ (largest (map depth (values c))) IH (fun v H => largest_ge _ _ (in_map _ _ _ H))) as H.
    rewrite (N.add_comm 1 (largest _)), N.pow_add_r, N.pow_1_r. set (a := 3 ^ _) in *. assert (1 <= a) by (subst a; pose proof (N.pow_nonzero 3 (largest (map depth (values c)))); lia). nia.
Qed.

Section Bounds.
  Context {TId : Type} (reg : TId -> resolution TId) (X : ext) (F : nat).
  Definition within (e : encoder_c (TId := TId)) (w : N) : Prop := forall t out, snd (e t out) <= w.

  Lemma andthen_le r k a b : snd r <= a -> (forall out, snd (k out) <= b) -> snd (andthen_c r k) <= a + b.
  Proof.
    intros H1 H2. unfold andthen_c. destruct r as [[[|e|] out] n]; cbn [fst snd plus_calls] in *; [specialize (H2 out); lia|lia|lia].
  Qed.
  Lemma all_le es ws : Forall2 within es ws -> forall t out, snd (encode_all_c es t out) <= total ws.
  Proof.
    induction 1 as [|e w es ws H HF IH]; intros t out; cbn [encode_all_c total]; [cbn; lia|].
    apply andthen_le; [apply H|intro; apply IH].
  Qed.
  Lemma in_order_le es ws : Forall2 within es ws -> forall ts out, snd (encode_in_order_c es ts out) <= total ws.
  Proof.
    induction 1 as [|e w es ws H HF IH]; intros [|t ts] out; cbn [encode_in_order_c total]; try (cbn; lia).
    apply andthen_le; [apply H|intro; apply IH].
  Qed.
  Definition within_f (p : option str * encoder_c (TId := TId)) (q : option str * N) : Prop := fst p = fst q /\ within (snd p) (snd q).

  (** The weight of the field found under a name. *)
  Fixpoint found (name : str) (src : list (option str * N)) : option N :=
    match src with
    | [] => None
    | f :: src' => match found name src' with Some w => Some w | None => if str_eqb (key_of f) name then Some (snd f) else None end
    end.
  Definition or0 (o : option N) : N := match o with Some w => w | None => 0 end.
  Lemma lookup_found src ws : Forall2 within_f src ws -> forall name,
    match lookup_last_c name src, found name ws with Some e, Some w => within e w | None, None => True | _, _ => False end.
  Proof.
    induction 1 as [|f c src srcc [H1 H2] HF IH]; intro name; cbn [lookup_last_c found]; [exact I|].
    specialize (IH name). destruct (lookup_last_c name src), (found name srcc); try contradiction; [exact IH|].
    unfold key_of. rewrite <- H1. destruct (str_eqb _ name); auto.
  Qed.
  Lemma by_name_le src ws : Forall2 within_f src ws -> forall fs out,
    snd (encode_by_name_c src fs out) <= total (map (fun fd : field TId => or0 (found (key_of fd) ws)) fs).
  Proof.
    intros H fs. induction fs as [|fd fs IH]; intro out; cbn [encode_by_name_c map total]; [cbn; lia|].
    pose proof (lookup_found _ _ H (key_of fd)) as HL.
    destruct (lookup_last_c (key_of fd) src) as [e|], (found (key_of fd) ws) as [w|]; try contradiction; cbn [or0].
    - apply andthen_le; [apply HL|intro; apply IH].
    - cbn [free snd]. lia.
  Qed.
  Lemma total_found ws : forall ks, NoDup ks -> total (map (fun k => or0 (found k ws)) ks) <= total (map snd ws).
  Proof.
    induction ws as [|f ws IH]; intros ks ND.
    - cbn [found or0 map total]. clear ND. induction ks; cbn [map total] in *; lia.
    - cbn [map total].
      assert (G : total (map (fun k => or0 (found k (f :: ws))) ks) <= total (map (fun k => or0 (found k ws)) ks) + (if existsb (str_eqb (key_of f)) ks then snd f else 0)).
      { clear IH. induction ND as [|k ks Hn ND IH]; cbn [map total existsb]; [lia|].
        assert (N0 : str_eqb (key_of f) k = true -> existsb (str_eqb (key_of f)) ks = false).
        { intro E. apply str_eqb_eq in E. subst k. destruct (existsb _ ks) eqn:E'; [|reflexivity].
          apply existsb_exists in E' as (x & Hx & E'). apply str_eqb_eq in E'. subst x. contradiction. }
        change (or0 (found k (f :: ws))) with (or0 (match found k ws with Some w => Some w | None => if str_eqb (key_of f) k then Some (snd f) else None end)).
        destruct (found k ws) as [w|]; destruct (str_eqb (key_of f) k) eqn:E; cbn [orb or0]; try rewrite (N0 eq_refl) in IH; try lia. }
      specialize (IH ks ND). destruct (existsb _ ks); lia.
  Qed.

  Definition keys_ok (fs : list (field TId)) : Prop := existsb named_field fs = true -> NoDup (map key_of fs).
  Lemma within_snds src ws : Forall2 within_f src ws -> Forall2 within (map snd src) (map snd ws).
  Proof. induction 1 as [|f c src srcc [H1 H2] HF IH]; cbn [map]; constructor; auto. Qed.
  Lemma fields_le src ws fs : keys_ok fs -> Forall2 within_f src ws -> forall out, snd (encode_fields_c src fs out) <= total (map snd ws).
  Proof.
    intros KO H out. unfold encode_fields_c. destruct (existsb named_field fs && _) eqn:E.
    - apply andb_true_iff in E as [E _]. etransitivity; [apply by_name_le, H|]. rewrite <- (map_map key_of (fun k => or0 (found k ws))).
      apply total_found, KO, E.
    - destruct (_ =? _)%nat; [|cbn; lia]. now apply in_order_le, within_snds.
  Qed.

  Lemma fields_keys fs : fields_ok fs -> keys_ok fs.
  Proof.
    intros [H|(names & H & ND)] E.
    - exfalso. apply existsb_exists in E as (f & Hf & E). unfold named_field in E. rewrite (H f Hf) in E. discriminate.
    - replace (map key_of fs) with names; [exact ND|]. clear -H. revert names H.
      induction fs as [|[n t] fs IH]; intros [|k names] H; try discriminate; [reflexivity|]. cbn [map fst] in H. injection H as -> H.
      cbn [map]. rewrite <- (IH _ H). reflexivity.
  Qed.

  Context (KO1 : forall t fs, reg t = ResTy (TComposite fs) -> keys_ok fs).
  Context (KO2 : forall t vs v, reg t = ResTy (TVariant vs) -> In v vs -> keys_ok (vi_fields v)).

  Lemma one_total e w src ws : Forall2 within_f ((e : option str * encoder_c) :: src) (w :: ws) -> forall t out, snd (snd e t out) <= total (map snd (w :: ws)).
  Proof. intros H t out. inversion H as [|? ? ? ? [Ha Hb] HF]; subst. cbn [map total]. specialize (Hb t out). lia. Qed.
  Lemma struct_le src ws : Forall2 within_f src ws -> forall t out, snd (encode_struct_c reg F src t out) <= total (map snd ws).
  Proof.
    intros H t out. unfold encode_struct_c. destruct (skip_through reg F t) as [t1|]; [|cbn; lia].
    assert (H2 : forall r : cres, snd r <= total (map snd ws) -> snd (match src with [(_, e)] => e t1 out | _ => r end) <= total (map snd ws)).
    { intros r Hr. destruct src as [|[n e] [|]]; auto. inversion H; subst. exact (one_total _ _ _ _ H t1 out). }
    assert (H1 : forall r : cres, snd r <= total (map snd ws) -> snd (match src with [(None, e)] => e t1 out | _ => r end) <= total (map snd ws)).
    { intros r Hr. destruct src as [|[[n|] e] [|]]; auto. inversion H; subst. exact (one_total _ _ _ _ H t1 out). }
    destruct (reg t1) as [| |[fs|vs|t'|t' n|ts|p|t'|st o]] eqn:R; try (apply H2; cbn; lia).
    - cbn. lia.
    - apply H1. apply fields_le; [eapply KO1; exact R|exact H].
    - apply H2. apply fields_le; [|exact H]. intro E. exfalso. clear -E. induction ts; cbn in E; [discriminate|auto].
  Qed.

  Context {T : Type}.
  Definition with_c (x : value T) : value T * encoder_c := (x, encode_c reg X F x).
  Lemma within_source (c : composite (value T)) : Forall (fun x => within (encode_c reg X F x) (weight x)) (values c) ->
    Forall2 within_f (source_fields (composite_map snd (composite_map with_c c))) (source_fields (composite_map weight c)).
  Proof.
    destruct c as [l|l]; cbn [values composite_map source_fields]; rewrite !map_map; intro H.
    - rewrite Forall_map in H. induction H; cbn [map]; constructor; [split; [reflexivity|]; assumption|assumption].
    - induction H; cbn [map]; constructor; [split; [reflexivity|]; assumption|assumption].
  Qed.
  Lemma source_total (c : composite (value T)) : total (map snd (source_fields (composite_map weight c))) = total (map weight (values c)).
  Proof. destruct c as [l|l]; cbn [composite_map source_fields values]; rewrite !map_map; reflexivity. Qed.
  Lemma within_all l : Forall (fun x => within (encode_c reg X F x) (weight x)) l ->
    Forall2 within (map (fun x : value T => snd (with_c x)) l) (map weight l).
  Proof. induction 1; cbn [map]; constructor; assumption. Qed.

  Lemma do_le (c : composite (value T)) : Forall (fun x => within (encode_c reg X F x) (weight x)) (values c) ->
    forall t out, snd (do_encode_c reg F (composite_map with_c c) t out) <= total (map weight (values c)).
  Proof.
    intros H t out. unfold do_encode_c. rewrite !clen_cmap, !values_cmap, !map_map.
    assert (H3 : snd (match map with_c (values c) with [x] => snd x t out | _ => free (SErr XWrongShape, out) end) <= total (map weight (values c))).
    { destruct H as [|x l Hx H']; [cbn; lia|]. destruct H' as [|y l Hy H']; [|cbn; lia]. cbn [map total with_c snd]. specialize (Hx t out). lia. }
    pose proof (within_all _ H) as HA.
    destruct (reg t) as [| |[]]; try exact H3; try (cbn; lia).
    all: try (rewrite <- source_total; now apply struct_le, within_source).
    - now apply all_le.
    - destruct (_ =? _); [now apply all_le|cbn; lia].
  Qed.

  Lemma calls_le (v : value T) : within (encode_c reg X F v) (weight v).
  Proof.
    induction v as [d ctx IH] using value_ind'. intros t out. destruct d as [c|n c|b|p]; cbn [children] in IH.
    - change (1 + snd (encode_composite_c reg F (composite_map with_c c) t out) <= 1 + tries (values c) * total (values (composite_map weight c))). rewrite (values_cmap weight).
      apply N.add_le_mono_l. unfold encode_composite_c. pose proof (do_le c IH) as HD. set (W := total (map weight (values c))) in *.
      assert (T2 : 2 <= tries (values c)) by (destruct (values c) as [|? [|]]; cbn; lia).
      pose proof (HD t []) as H1. destruct (do_encode_c reg F (composite_map with_c c) t []) as [[[|e|] tmp] k]; cbn [fst snd plus_calls] in *; try nia.
      destruct (find_single reg F t false) as [[t' diff]|]; [|cbn [free snd]; nia].
      assert (HI : snd (if diff then do_encode_c reg F (composite_map with_c c) t' [] else free (SErr e, [])) <= W) by (destruct diff; [apply HD|cbn; lia]).
      destruct (if diff then _ else _) as [[[|e'|] tmp'] k']; cbn [fst snd plus_calls] in *; try nia.
      rewrite values_cmap. destruct (values c) as [|x [|y l]] eqn:EV; cbn [map]; try (cbn [free snd]; nia).
      inversion_clear IH as [|? ? Hx _]. specialize (Hx t' []). unfold W in *. cbn [map total tries] in *. cbn [with_c snd].
      destruct (encode_c reg X F x t' []) as [[[|e''|] tmp''] k'']; cbn [snd] in *; lia.
    - change (1 + snd (encode_variant_c reg F n (composite_map with_c c) t out) <= 1 + total (values (composite_map weight c))). rewrite (values_cmap weight).
      apply N.add_le_mono_l. unfold encode_variant_c.
      destruct (skip_through reg F t) as [t1|]; [|cbn; lia]. destruct (reg t1) as [| |[]] eqn:R; try (cbn; lia).
      destruct (find _ _) as [v|] eqn:FD; [|cbn; lia]. apply find_some in FD as [FD _]. rewrite <- source_total.
      apply fields_le; [eapply KO2; eassumption|now apply within_source].
    - cbn. lia.
    - cbn. lia.
  Qed.
End Bounds.

(** ** Repeated attempts *)
(** [n] pairs of parentheses around the list of the numbers 1 and 2. *)
Fixpoint nest (n : nat) : value unit :=
  match n with O => unnamed_composite [vu128 1; vu128 2] | S n' => unnamed_composite [nest n'] end.

Section Nest.
  Context {TId : Type} (reg : TId -> resolution TId) (X : ext) (F : nat) (HF : (1 <= F)%nat).
  Lemma find_other t ty : reg t = ResTy ty -> match ty with TComposite _ | TTuple _ | TArray _ _ => False | _ => True end -> find_single reg F t false = Some (t, false).
  Proof. intros R H. destruct F as [|f]; [lia|]. cbn [find_single]. rewrite R. destruct ty; try contradiction; reflexivity. Qed.
  Lemma nest_prim u p : reg u = ResTy (TPrim p) -> forall n out, exists e, encode_c reg X F (nest n) u out = ((SErr e, out), 2 ^ (N.of_nat n + 1) - 1).
  Proof.
    intros R n. induction n as [|n IH]; intro out.
    - exists XWrongShape. cbn [nest]. unfold unnamed_composite. cbn [encode_c composite_map map]. unfold encode_composite_c, do_encode_c. rewrite R.
      cbn [values map]. unfold free at 1. cbn [fst snd]. rewrite (find_other u _ R I). reflexivity.
    - destruct (IH []) as [e H]. exists e. cbn [nest]. unfold unnamed_composite.
      change (plus_calls 1 (encode_composite_c reg F (Unnamed [(nest n, encode_c reg X F (nest n))]) u out) = (SErr e, out, 2 ^ (N.of_nat (S n) + 1) - 1)).
      unfold encode_composite_c, do_encode_c. rewrite R. cbn [values snd]. rewrite H, (find_other u _ R I), H. unfold free, plus_calls. cbn [fst snd].
      f_equal. replace (N.of_nat (S n) + 1) with (1 + (N.of_nat n + 1)) by lia. rewrite (N.pow_add_r 2 1), N.pow_1_r.
      pose proof (N.pow_nonzero 2 (N.of_nat n + 1)). lia.
  Qed.
  Lemma nest_seq t u : reg t = ResTy (TSequence u) -> reg u = ResTy (TPrim (PtU W8)) ->
    forall n out, encode_c reg X F (nest n) t out = ((SOk, out ++ [8; 1; 2]), 2 ^ (N.of_nat n + 1) + 1).
  Proof.
    intros R R' n. induction n as [|n IH]; intro out.
    - change (plus_calls 1 (encode_composite_c reg F (Unnamed [(vu128 1, encode_c reg X F (vu128 1)); (vu128 2, encode_c reg X F (vu128 2))] : composite (value unit * _)) t out) = (SOk, out ++ [8; 1; 2], 2 ^ (N.of_nat 0 + 1) + 1)).
      unfold encode_composite_c, do_encode_c. rewrite R. cbn [values map clen length encode_all_c snd].
      assert (EC : forall k t out, encode_c reg X F (vu128 k : value unit) t out = plus_calls 1 (free (encode_number reg F (Z.of_N k) t out))) by reflexivity.
      rewrite !EC.
      assert (E : forall z out, (0 <= z < 256)%Z -> encode_number reg F z u out = (SOk, out ++ [Z.to_N z])).
      { intros z o Hz. unfold encode_number. rewrite (find_other u _ R' I), R'.
        replace (in_unsigned W8 z) with true by (unfold in_unsigned; change (2 ^ Z.of_N (wbits W8))%Z with 256%Z; symmetry; apply andb_true_iff; split; lia). cbn [wbytes le_bytes]. rewrite N.mod_small by lia. reflexivity. }
      rewrite E by lia. unfold andthen_c, plus_calls, free. cbn [fst snd]. rewrite EC, E by lia. reflexivity.
    - destruct (nest_prim u _ R' n ([] ++ compact_encode (N.of_nat 1 mod 2 ^ 32))) as [e H]. cbn [nest]. unfold unnamed_composite.
      change (plus_calls 1 (encode_composite_c reg F (Unnamed [(nest n, encode_c reg X F (nest n))]) t out) = (SOk, out ++ [8; 1; 2], 2 ^ (N.of_nat (S n) + 1) + 1)).
      unfold encode_composite_c, do_encode_c. rewrite R. cbn [values snd map clen length encode_all_c]. rewrite H. unfold andthen_c. cbn [fst].
      rewrite (find_other t _ R I), IH. unfold free, plus_calls. cbn [fst snd app].
      f_equal. replace (N.of_nat (S n) + 1) with (1 + (N.of_nat n + 1)) by lia. rewrite (N.pow_add_r 2 1), N.pow_1_r.
      pose proof (N.pow_nonzero 2 (N.of_nat n + 1)). lia.
  Qed.
End Nest.
Lemma nest_nodes n : nodes (nest n) = N.of_nat n + 3.
Proof. induction n as [|n IH]; [reflexivity|]. cbn [nest]. unfold unnamed_composite. cbn [nodes composite_map map values total]. rewrite IH. lia. Qed.
