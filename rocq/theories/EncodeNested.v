(** * EncodeNested: lists that the encoder does not mistake for one of their own items (C24). *)
From Verif Require Import Base Value ValueFacts Registry Spec_Scale Scale ScaleFacts Encode EncodeFacts Spec_Encode EncodeTerm.
Open Scope N_scope.

Section Nested.
  Context {TId : Type} (reg : TId -> resolution TId) (X : ext) {C : Type}.

  (** With enough fuel the encoder returns an error. *)
  Definition rejected (v : value C) (t : TId) : Prop := exists F0, forall F, (F0 <= F)%nat -> forall out, exists er, fst (encode reg X F v t out) = SErr er.
  Definition fails (g : nat -> bytes -> eres) : Prop := exists F0, forall F, (F0 <= F)%nat -> forall out, exists er, fst (g F out) = SErr er.

  Definition it (F : nat) (c : composite (value C)) : composite (value C * encoder) := composite_map (fun x => (x, encode reg X F x)) c.

  Lemma skip_stop F t : (forall w, ~ transparent reg t w) -> (1 <= F)%nat -> skip_through reg F t = Some t.
  Proof.
    intros H HF. destruct F as [|F]; [lia|]. cbn [skip_through].
    destruct (reg t) as [| |[fs|vs|t'|t' n|ts|p|t'|st o]] eqn:R; try reflexivity.
    - destruct fs as [|[[name|] t'] [|]]; try reflexivity. exfalso. apply (H t'), Tr_struct, R.
    - destruct ts as [|t' [|]]; try reflexivity. exfalso. apply (H t'), Tr_tuple, R.
  Qed.

  Lemma it_values F c : values (it F c) = map (fun x => (x, encode reg X F x)) (values c).
  Proof. apply values_map. Qed.
  Lemma it_source F c : source_fields (composite_map snd (it F c)) = source_fields (composite_map (encode reg X F) c).
  Proof. unfold it. destruct c as [l|l]; cbn [composite_map]; rewrite map_map; reflexivity. Qed.
  Lemma source_length {A} (c : composite A) : length (source_fields c) = length (values c).
  Proof. destruct c as [l|l]; cbn [source_fields values]; rewrite !map_length; reflexivity. Qed.
  Lemma source_values {A} (c : composite A) : map snd (source_fields c) = values c.
  Proof. destruct c as [l|l]; cbn [source_fields values]; rewrite map_map; cbn [snd]; [reflexivity|apply map_id]. Qed.

  (** A composite is rejected if both attempts and the only child fail. *)
  Lemma composite_rejected c ctx t q :
    fails (fun F => do_encode reg F (it F c) t) -> (exists F0 d, forall F, (F0 <= F)%nat -> find_single reg F t false = Some (q, d)) ->
    fails (fun F => do_encode reg F (it F c) q) -> (forall x, values c = [x] -> rejected x q) -> rejected (Val (DComposite c) ctx) t.
  Proof.
    intros [F1 H1] (F2 & d & H2) [F3 H3] H4.
    assert (H4' : exists F4, forall F, (F4 <= F)%nat -> forall x, values c = [x] -> exists er, fst (encode reg X F x q []) = SErr er).
    { destruct (values c) as [|x [|y l]]; try (exists 0%nat; intros; discriminate). destruct (H4 x eq_refl) as [F4 H]. exists F4. intros F HF y [= <-]. apply H. exact HF. }
    destruct H4' as [F4 H4']. exists (Nat.max (Nat.max F1 F2) (Nat.max F3 F4)). intros F HF out. cbn [encode]. unfold encode_composite. fold (it F c).
    destruct (H1 F ltac:(lia) []) as [e1 E1]. destruct (do_encode reg F (it F c) t []) as [s1 o1]. cbn [fst] in E1. subst s1.
    rewrite (H2 F ltac:(lia)).
    match goal with |- context [match (if d then ?a else ?b) with _ => _ end] => destruct (if d then a else b) as [s2 o2] eqn:EE end.
    assert (E2 : exists e2, s2 = SErr e2).
    { change s2 with (fst (s2, o2)). rewrite <- EE. destruct d; [apply H3; lia|eexists; reflexivity]. }
    destruct E2 as [e2 ->].
    rewrite it_values. specialize (H4' F ltac:(lia)). destruct (values c) as [|x [|y l]]; cbn [map]; try (eexists; reflexivity).
    cbn [snd]. destruct (H4' x eq_refl) as [e3 E3]. destruct (encode reg X F x q []) as [s3 o3]. cbn [fst] in E3. subst s3. eexists; reflexivity.
  Qed.

  (** ** Chains of wrappers *)
  (** [find_single] stops here. *)
  Definition stops (q : TId) : Prop := forall w, ~ wraps reg q w.
  Lemma find_stops F q c : stops q -> find_single reg (S F) q c = Some (q, c).
  Proof.
    intro H. cbn [find_single]. destruct (reg q) as [| |[fs|vs|t'|t' n|ts|p|t'|st o]] eqn:R; try reflexivity.
    - destruct fs as [|[name t'] [|]]; try reflexivity. exfalso. apply (H t'), W_one. eapply W_struct, R.
    - destruct (N.eqb_spec n 1) as [->|]; [|reflexivity]. exfalso. apply (H t'), W_array, R.
    - destruct ts as [|t' [|]]; try reflexivity. exfalso. apply (H t'), W_one, W_tuple, R.
  Qed.
  Lemma find_chain t q : chain (wraps1 reg) t q -> stops q -> exists F0 d, forall F, (F0 <= F)%nat -> find_single reg F t false = Some (q, d).
  Proof.
    intros CH ST. enough (G : forall c, exists F0 d, forall F, (F0 <= F)%nat -> find_single reg F t c = Some (q, d)) by apply G.
    induction CH as [t|t t' u W _ IH]; intro c.
    - exists 1%nat, c. intros [|F] HF; [lia|]. apply find_stops, ST.
    - destruct (IH ST true) as (F0 & d & H). exists (S F0), d. intros [|F] HF; [lia|]. cbn [find_single].
      destruct W as [a name b Ra|a b Ra]; rewrite Ra; cbn [snd]; apply H; lia.
  Qed.
  Lemma transparent_wraps1 t t' : transparent reg t t' -> wraps1 reg t t'.
  Proof. intros [a b R|a b R]; [eapply W_struct; exact R|apply W_tuple; exact R]. Qed.
  Lemma chain_transparent t u : chain (transparent reg) t u -> chain (wraps1 reg) t u.
  Proof. induction 1 as [t|t t' u Tr _ IH]; [constructor|]. eapply Ch_step; [apply transparent_wraps1; exact Tr|exact IH]. Qed.
  Lemma stops_nontransparent q : stops q -> forall w, ~ transparent reg q w.
  Proof. intros H w Tr. apply (H w), W_one, transparent_wraps1, Tr. Qed.

  (** Where [skip_through] stops on the way to [q]. *)
  Lemma skip_chain t q : chain (wraps1 reg) t q -> stops q ->
    exists u F0, (forall F, (F0 <= F)%nat -> skip_through reg F t = Some u) /\ chain (wraps1 reg) u q /\
      (u = q \/ exists name t', reg u = ResTy (TComposite [(Some name, t')])).
  Proof.
    induction 1 as [t|t t' q W CH IH]; intro ST.
    - exists t, 1%nat. split; [intros F HF; apply skip_stop; [apply stops_nontransparent, ST|exact HF]|]. split; [constructor|left; reflexivity].
    - destruct W as [t0 [name|] t' R|t0 t' R].
      + exists t0, 1%nat. split; [|split; [eapply Ch_step; [eapply W_struct; exact R|exact CH]|right; eauto]].
        intros F HF. apply skip_stop; [|exact HF]. intros w Tr. inversion Tr as [? ? R'|? ? R']; rewrite R in R'; discriminate.
      + destruct (IH ST) as (u & F0 & H1 & H2 & H3). exists u, (S F0). split; [|split; assumption].
        intros [|F] HF; [lia|]. cbn [skip_through]. rewrite R. apply H1. lia.
      + destruct (IH ST) as (u & F0 & H1 & H2 & H3). exists u, (S F0). split; [|split; assumption].
        intros [|F] HF; [lia|]. cbn [skip_through]. rewrite R. apply H1. lia.
  Qed.
  Lemma skip_transparent t q : chain (transparent reg) t q -> stops q -> exists F0, forall F, (F0 <= F)%nat -> skip_through reg F t = Some q.
  Proof.
    induction 1 as [t|t t' q Tr CH IH]; intro ST.
    - exists 1%nat. intros F HF. apply skip_stop; [apply stops_nontransparent, ST|exact HF].
    - destruct (IH ST) as [F0 H]. exists (S F0). intros [|F] HF; [lia|]. destruct Tr as [a b R|a b R]; cbn [skip_through]; rewrite R; apply H; lia.
  Qed.

  Lemma atom_stops p : atom reg p -> stops p.
  Proof. unfold atom. intros H w W. inversion W as [? ? [? nm ? R|? ? R]|? ? R]; subst; rewrite R in H; exact H. Qed.
  Lemma record_stops q : record reg q -> stops q.
  Proof.
    intros H w W. inversion W as [? ? [? nm ? R|? ? R]|? ? R]; subst; destruct H as [t0 fs1 nm' a fs2 p R'|t0 ts1 a ts2 p R'|t0 a n p R']; rewrite R in R'; try discriminate.
    - injection R' as E. destruct fs1 as [|? fs1]; [destruct fs2; [contradiction|discriminate]|]. destruct fs1; discriminate.
    - injection R' as E. destruct ts1 as [|? ts1]; [destruct ts2; [contradiction|discriminate]|]. destruct ts1; discriminate.
    - injection R' as <- <-. lia.
  Qed.

  (** ** Values with several parts *)
  Inductive wide : value C -> Prop :=
  | Wi_many : forall c ctx, length (values c) <> 1%nat -> wide (Val (DComposite c) ctx)
  | Wi_one : forall c ctx x, values c = [x] -> wide x -> wide (Val (DComposite c) ctx).

  Lemma do_atom c p : atom reg p -> (forall x, values c = [x] -> rejected x p) -> fails (fun F => do_encode reg F (it F c) p).
  Proof.
    intros A H. unfold fails, do_encode. unfold atom in A.
    assert (G : fails (fun F out => match values (it F c) with [x] => snd x p out | _ => (SErr XWrongShape, out) end)).
    { destruct (values c) as [|x [|y l]] eqn:V; try (exists 0%nat; intros F _ out; rewrite it_values, V; eexists; reflexivity).
      destruct (H x eq_refl) as [F0 HX]. exists F0. intros F HF out. rewrite it_values, V. cbn [map snd]. apply HX, HF. }
    destruct (reg p) as [| |[fs|vs|t'|t' n|ts|p'|t'|st o]]; try contradiction; exact G.
  Qed.
  Lemma do_transparent c a p : chain (transparent reg) a p -> atom reg p -> (forall x, values c = [x] -> rejected x p) ->
    fails (fun F => do_encode reg F (it F c) a).
  Proof.
    intros CH A H. inversion CH as [|? a' ? Tr CH']; subst; [apply do_atom; assumption|].
    destruct (skip_transparent a p CH (atom_stops p A)) as [F1 SK].
    assert (G : fails (fun F => encode_struct reg F (source_fields (composite_map snd (it F c))) a)).
    { destruct (Nat.eq_dec (length (values c)) 1) as [L|L].
      - destruct (values c) as [|x [|y l]] eqn:V; try discriminate. destruct (H x eq_refl) as [F2 HX].
        exists (Nat.max F1 F2). intros F HF out. unfold encode_struct. rewrite SK by lia. rewrite it_source.
        assert (S : exists nm, source_fields (composite_map (encode reg X F) c) = [(nm, encode reg X F x)]).
        { pose proof (source_values (composite_map (encode reg X F) c)) as SV. rewrite values_map, V in SV. cbn [map] in SV.
          destruct (source_fields _) as [|[nm e] [|]]; try discriminate. cbn [map snd] in SV. injection SV as ->. eauto. }
        destruct S as [nm ->]. unfold atom in A. specialize (HX F ltac:(lia) out).
        destruct (reg p) as [| |[fs|vs|t'|t' n|ts|p'|t'|st o]]; try contradiction; exact HX.
      - exists F1. intros F HF out. unfold encode_struct. rewrite SK by lia. rewrite it_source.
        assert (S : length (source_fields (composite_map (encode reg X F) c)) <> 1%nat) by (rewrite source_length, values_map, map_length; exact L).
        unfold atom in A.
        destruct (reg p) as [| |[fs|vs|t'|t' n|ts|p'|t'|st o]]; try contradiction;
          destruct (source_fields _) as [|[nm e] [|]]; try (exfalso; apply S; reflexivity); eexists; reflexivity. }
    destruct G as [F0 G]. exists F0. intros F HF out. unfold do_encode. inversion Tr as [? ? R|? ? R]; subst; rewrite R; apply G, HF.
  Qed.
  Lemma wide_rejected v : wide v -> forall a p, chain (transparent reg) a p -> atom reg p -> rejected v a.
  Proof.
    induction 1 as [c ctx L|c ctx x V _ IH]; intros a p CH A.
    - assert (NV : forall x, values c = [x] -> rejected x p) by (intros x E; rewrite E in L; contradiction).
      eapply composite_rejected; [eapply do_transparent; eassumption|apply find_chain; [apply chain_transparent; exact CH|apply atom_stops; exact A]
        |apply do_atom; assumption|exact NV].
    - assert (NV : forall y, values c = [y] -> rejected y p).
      { intros y E. rewrite V in E. injection E as <-. eapply IH; [constructor|exact A]. }
      eapply composite_rejected; [eapply do_transparent; eassumption|apply find_chain; [apply chain_transparent; exact CH|apply atom_stops; exact A]
        |apply do_atom; assumption|exact NV].
  Qed.

  (** Items in order, one of which is rejected. *)
  Lemma in_order_fails ts1 a ts2 p vs : chain (transparent reg) a p -> atom reg p -> Forall wide vs -> ts1 = [] \/ finite_wrappers reg ->
    length vs = length (ts1 ++ a :: ts2) -> fails (fun F => encode_in_order (map (encode reg X F) vs) (ts1 ++ a :: ts2)).
  Proof.
    intros CH A. revert vs. induction ts1 as [|t ts1 IH]; intros vs HW HT HL; (destruct vs as [|v vs]; [discriminate|]); inversion HW as [|? ? W1 W2]; subst; cbn [app].
    - destruct (wide_rejected v W1 a p CH A) as [F0 H]. exists F0. intros F HF out. cbn [map encode_in_order]. destruct (H F HF out) as [er E].
      destruct (encode reg X F v a out) as [s o]. cbn [fst] in E. subst s. eexists; reflexivity.
    - destruct HT as [|FW]; [discriminate|]. destruct (IH vs W2 (or_intror FW) ltac:(cbn [app length] in HL; lia)) as [F1 H1].
      destruct (encode_total reg X FW v t) as [F2 H2]. exists (Nat.max F1 F2). intros F HF out. cbn [map encode_in_order].
      specialize (H2 F ltac:(lia) out). destruct (encode reg X F v t out) as [[| |] o]; cbn [andthen fst] in *; [apply H1; lia|eexists; reflexivity|contradiction].
  Qed.

  Lemma existsb_unnamed {A} (vs : list A) : existsb named_field (map (fun v => (None, v)) vs) = false.
  Proof. induction vs; [reflexivity|exact IHvs]. Qed.

  (** ** A list at the type of its items *)
  Section List.
    Context (vs : list (value C)) (ctx : C) (q : TId).
    Context (NV : length vs <> 1%nat) (HQ : atom reg q \/ (record reg q /\ Forall wide vs)).
    Local Notation y0 := (Val (DComposite (Unnamed vs)) ctx).

    Lemma q_stops : stops q.
    Proof. destruct HQ as [A|[R _]]; [apply atom_stops, A|apply record_stops, R]. Qed.

    Lemma struct_at_q : match reg q with ResTy (TComposite _) | ResTy (TTuple _) => True | _ => False end ->
      fails (fun F => match reg q with
                      | ResTy (TComposite fs) => encode_fields (map (fun v => (None, encode reg X F v)) vs) fs
                      | ResTy (TTuple ts) => encode_fields (map (fun v => (None, encode reg X F v)) vs) (map (fun t => (None, t)) ts)
                      | _ => fun out => (SOk, out)
                      end).
    Proof.
      destruct HQ as [A|[RQ HW]]; [unfold atom in A; destruct (reg q) as [| |[fs|vs'|t'|t' n|ts|p'|t'|st o]]; contradiction|]. intro Hq.
      destruct RQ as [t fs1 nm a fs2 p R NE CH A HT|t ts1 a ts2 p R NE CH A HT|t a n p R Hn CH A]; rewrite R in *; [| |contradiction].
      - destruct (Nat.eq_dec (length vs) (length (fs1 ++ (nm, a) :: fs2))) as [L|L].
        + destruct (in_order_fails (map snd fs1) a (map snd fs2) p vs CH A HW) as [F0 H].
          { destruct HT as [->|FW]; [left; reflexivity|right; exact FW]. }
          { rewrite L, !app_length. cbn [length]. rewrite !map_length. reflexivity. }
          exists F0. intros F HF out. unfold encode_fields. rewrite <- (map_map (encode reg X F) (fun e => (None, e))), existsb_unnamed, andb_false_r.
          rewrite !map_length, <- L, Nat.eqb_refl, map_map. cbn [snd]. rewrite map_id, map_app. cbn [map snd]. apply H, HF.
        + exists 0%nat. intros F _ out. unfold encode_fields. rewrite <- (map_map (encode reg X F) (fun e => (None, e))), existsb_unnamed, andb_false_r.
          rewrite !map_length. destruct (Nat.eqb_spec (length (fs1 ++ (nm, a) :: fs2)) (length vs)) as [E|]; [exfalso; apply L; symmetry; exact E|]. eexists; reflexivity.
      - destruct (Nat.eq_dec (length vs) (length (ts1 ++ a :: ts2))) as [L|L].
        + destruct (in_order_fails ts1 a ts2 p vs CH A HW HT L) as [F0 H].
          exists F0. intros F HF out. unfold encode_fields. rewrite <- (map_map (encode reg X F) (fun e => (None, e))), existsb_unnamed; cbn [andb].
          rewrite !map_length, <- L, Nat.eqb_refl, !map_map. cbn [snd]. rewrite !map_id. apply H, HF.
        + exists 0%nat. intros F _ out. unfold encode_fields. rewrite <- (map_map (encode reg X F) (fun e => (None, e))), existsb_unnamed; cbn [andb].
          rewrite !map_length. destruct (Nat.eqb_spec (length (ts1 ++ a :: ts2)) (length vs)) as [E|]; [exfalso; apply L; symmetry; exact E|]. eexists; reflexivity.
    Qed.

    Lemma src_unnamed F : source_fields (composite_map snd (it F (Unnamed vs))) = map (fun v => (None, encode reg X F v)) vs.
    Proof. rewrite it_source. cbn [composite_map source_fields]. rewrite map_map. reflexivity. Qed.

    Lemma struct_fails t : chain (wraps1 reg) t q -> fails (fun F => encode_struct reg F (source_fields (composite_map snd (it F (Unnamed vs)))) t).
    Proof.
      intro CH. destruct (skip_chain t q CH q_stops) as (u & F1 & SK & CHu & HU). 
      destruct HU as [->|(name & t' & R)].
      - destruct (reg q) as [| |[fs|vs'|t'|t' n|ts|p'|t'|st o]] eqn:R;
          try (exists F1; intros F HF out; unfold encode_struct; rewrite SK by lia; rewrite R; try rewrite src_unnamed;
               destruct vs as [|v1 [|v2 vs2]]; [eexists; reflexivity|exfalso; apply NV; reflexivity|eexists; reflexivity]).
        + pose proof struct_at_q as SQ. rewrite R in SQ. destruct (SQ I) as [F2 H2]. exists (Nat.max F1 F2). intros F HF out. unfold encode_struct. rewrite SK by lia.
          rewrite R, src_unnamed. specialize (H2 F ltac:(lia) out). destruct vs as [|v1 [|v2 vs2]]; [exact H2|exfalso; apply NV; reflexivity|exact H2].
        + pose proof struct_at_q as SQ. rewrite R in SQ. destruct (SQ I) as [F2 H2]. exists (Nat.max F1 F2). intros F HF out. unfold encode_struct. rewrite SK by lia.
          rewrite R, src_unnamed. specialize (H2 F ltac:(lia) out). destruct vs as [|v1 [|v2 vs2]]; [exact H2|exfalso; apply NV; reflexivity|exact H2].
      - exists F1. intros F HF out. unfold encode_struct. rewrite SK by lia. rewrite R, src_unnamed.
        assert (EF : exists er, fst (encode_fields (map (fun v => (None, encode reg X F v)) vs) [(Some name, t')] out) = SErr er).
        { unfold encode_fields. rewrite <- (map_map (encode reg X F) (fun e => (None, e))), existsb_unnamed, andb_false_r. rewrite !map_length. cbn [length].
          destruct (Nat.eqb_spec 1 (length vs)) as [E|]; [exfalso; apply NV; symmetry; exact E|]. eexists; reflexivity. }
        destruct vs as [|v1 [|v2 vs2]]; [exact EF|exfalso; apply NV; reflexivity|exact EF].
    Qed.

    Lemma do_at_q : fails (fun F => do_encode reg F (it F (Unnamed vs)) q).
    Proof.
      destruct HQ as [A|[RQ HW]].
      - apply do_atom; [exact A|]. intros x E. cbn [values] in E. rewrite E in NV. exfalso. apply NV. reflexivity.
      - pose proof (struct_fails q (Ch_refl _ q)) as [F0 H].
        destruct RQ as [t fs1 nm a fs2 p R NE CH A HT|t ts1 a ts2 p R NE CH A HT|t a n p R Hn CH A].
        + exists F0. intros F HF out. unfold do_encode. rewrite R. apply H, HF.
        + exists F0. intros F HF out. unfold do_encode. rewrite R. apply H, HF.
        + destruct (N.eqb_spec (N.of_nat (length vs)) n) as [L|L].
          * destruct vs as [|v vs']; [cbn in L; lia|]. pose proof (Forall_inv HW) as W1. destruct (wide_rejected v W1 a p CH A) as [F1 H1].
            exists F1. intros F HF out. unfold do_encode. rewrite R.
            assert (CL : clen (it F (Unnamed (v :: vs'))) = length (v :: vs')) by (rewrite clen_values, it_values, map_length; reflexivity).
            rewrite CL. replace (N.of_nat (length (v :: vs')) =? n) with true by (symmetry; apply N.eqb_eq; exact L).
            rewrite it_values. cbn [values map snd encode_all].
            destruct (H1 F HF out) as [er E]. destruct (encode reg X F v a out) as [s o]. cbn [fst] in E. subst s. eexists; reflexivity.
          * exists 0%nat. intros F _ out. unfold do_encode. rewrite R. rewrite clen_values, it_values, map_length. cbn [values].
            destruct (N.eqb_spec (N.of_nat (length vs)) n); [contradiction|]. eexists; reflexivity.
    Qed.

    Lemma list_rejected t : chain (wraps1 reg) t q -> rejected y0 t.
    Proof.
      intro CH. eapply composite_rejected; [|apply find_chain; [exact CH|exact q_stops]|exact do_at_q|].
      - inversion CH as [|? t' ? W CH']; subst; [exact do_at_q|]. destruct (struct_fails t CH) as [F0 H]. exists F0. intros F HF out. unfold do_encode.
        inversion W as [? nm ? R|? ? R]; subst; rewrite R; apply H, HF.
      - intros x E. cbn [values] in E. rewrite E in NV. exfalso. apply NV. reflexivity.
    Qed.
  End List.

  (** ** More layers *)
  (** [v'] is [v] inside some number of one-element lists. *)
  Inductive layered (v : value C) : value C -> Prop :=
  | La_none : layered v v
  | La_more : forall v' ctx, layered v v' -> layered v (Val (DComposite (Unnamed [v'])) ctx).

  Lemma layer_rejected y ctx q : atom reg q \/ record reg q -> (forall t, chain (wraps1 reg) t q -> rejected y t) ->
    forall t, chain (wraps1 reg) t q -> rejected (Val (DComposite (Unnamed [y])) ctx) t.
  Proof.
    intros HQ H. assert (ST : stops q) by (destruct HQ; [apply atom_stops|apply record_stops]; assumption).
    assert (SRC : forall F, source_fields (composite_map snd (it F (Unnamed [y]))) = [(None, encode reg X F y)]) by reflexivity.
    assert (SF : forall t, chain (wraps1 reg) t q -> fails (fun F => encode_struct reg F (source_fields (composite_map snd (it F (Unnamed [y])))) t)).
    { intros t CH. destruct (skip_chain t q CH ST) as (u & F1 & SK & CHu & HU). destruct (H u CHu) as [F2 H2]. exists (Nat.max F1 F2). intros F HF out.
      unfold encode_struct. rewrite SK by lia. rewrite SRC. specialize (H2 F ltac:(lia) out).
      destruct (reg u) as [| |[fs|vs'|t'|t' n|ts|p'|t'|st o]]; try exact H2. eexists; reflexivity. }
    assert (DQ : fails (fun F => do_encode reg F (it F (Unnamed [y])) q)).
    { destruct HQ as [A|RQ]; [apply do_atom; [exact A|]; intros x [= <-]; apply H; constructor|].
      destruct (SF q (Ch_refl _ q)) as [F0 G].
      destruct RQ as [t fs1 nm a fs2 p R|t ts1 a ts2 p R|t a n p R Hn CH A].
      - exists F0. intros F HF out. unfold do_encode. rewrite R. apply G, HF.
      - exists F0. intros F HF out. unfold do_encode. rewrite R. apply G, HF.
      - exists 0%nat. intros F _ out. unfold do_encode. rewrite R. rewrite clen_values, it_values, map_length. cbn [values length].
        destruct (N.eqb_spec (N.of_nat 1) n) as [E|]; [exfalso; clear -E Hn; lia|]. eexists; reflexivity. }
    intros t CH. eapply composite_rejected; [|apply find_chain; [exact CH|exact ST]|exact DQ|].
    - inversion CH as [|? t' ? W CH']; subst; [exact DQ|]. destruct (SF t CH) as [F0 G]. exists F0. intros F HF out. unfold do_encode.
      inversion W as [? nm ? R|? ? R]; subst; rewrite R; apply G, HF.
    - intros x [= <-]. apply H. constructor.
  Qed.
  Lemma layered_rejected vs ctx q : length vs <> 1%nat -> atom reg q \/ (record reg q /\ Forall wide vs) ->
    forall w, layered (Val (DComposite (Unnamed vs)) ctx) w -> forall t, chain (wraps1 reg) t q -> rejected w t.
  Proof.
    intros NV HQ w L. induction L as [|w ctx' L IH]; [apply list_rejected; assumption|].
    apply layer_rejected; [|exact IH]. destruct HQ as [A|[R _]]; auto.
  Qed.

  (** ** Values of a record type have several parts *)
  Context (ctxf : TId -> C) (maxbits lenbits : N) (as256 : bytes -> prim) (strict : bool).
  Local Notation ENC := (enc reg maxbits lenbits ctxf as256 strict).
  Lemma encs_length c ts vs bs : encs reg maxbits lenbits ctxf as256 strict c ts vs bs -> length vs = length ts.
  Proof. induction 1 using encs_mind with (P := fun _ _ _ _ => True); auto. cbn [length]. congruence. Qed.
  Lemma shape_values {V} names (vs : list V) cmp : fields_shape names vs cmp -> values cmp = vs.
  Proof. intros [kvs Hne|names' vs' HL Hn]; reflexivity. Qed.
  Lemma record_wide e q v bs : chain (wraps1 reg) e q -> record reg q -> ENC false e v bs -> wide v.
  Proof.
    intro CH. revert v bs. induction CH as [q|e e' q W _ IH]; intros v bs RQ E.
    - destruct RQ as [t fs1 nm a fs2 p R NE CH A HT|t ts1 a ts2 p R NE CH A HT|t a n p R Hn CH A];
        inversion E as [? ? ? ? R'| |? ? ? ? ? R'|? ? fs vs cmp ? R' HC ES Sh|? ? ts vs ? R' HC ES|? ? ? ? ? ? ? ? ? R'|? ? ? ? ? R'|? ? n' vs ? R' HL ES|? ? ? ? ? ? R']; subst; rewrite R in R'; try discriminate.
      + injection R' as <-. apply encs_length in ES. rewrite map_length in ES. apply Wi_many. rewrite (shape_values _ _ _ Sh), ES, app_length. cbn [length].
        destruct fs1; [destruct fs2; [contradiction|]|]; cbn [length]; lia.
      + injection R' as <-. apply encs_length in ES. apply Wi_many. cbn [values]. rewrite ES, app_length. cbn [length].
        destruct ts1; [destruct ts2; [contradiction|]|]; cbn [length]; lia.
      + injection R' as E1 E2. apply Wi_many. cbn [values]. rewrite E2 in Hn. clear -Hn. lia.
    - destruct W as [t nm t' R|t t' R]; inversion E as [? ? ? ? R'| |? ? ? ? ? R'|? ? fs vs cmp ? R' HC ES Sh|? ? ts vs ? R' HC ES|? ? ? ? ? ? ? ? ? R'|? ? ? ? ? R'|? ? n' vs ? R' HL ES|? ? ? ? ? ? R']; subst; rewrite R in R'; try discriminate; injection R' as <-.
      + cbn [map snd] in ES. inversion ES as [|? ? ? x ? b bs' Hx Hn]; subst. inversion Hn; subst. eapply Wi_one; [exact (shape_values _ _ _ Sh)|eapply IH; eassumption].
      + inversion ES as [|? ? ? x ? b bs' Hx Hn]; subst. inversion Hn; subst. eapply Wi_one; [reflexivity|eapply IH; eassumption].
  Qed.
End Nested.
