(** * MemoryFacts: custom parsers with memory are asked about each place once and in order. *)
From Verif Require Import Base Value Chars Parse Spec_Grammar ParseFacts ParseSound ParseState Spec_Memory.
Local Open Scope N_scope.

Lemma asked_mrun {M} (ps : list (mparser M)) m t m' a : asked ps m t m' a <-> mrun ps m t = (m', a).
Proof.
  split.
  - induction 1 as [m t|p ps m t m' r cur E|p ps m t m1 t1 m' a E _ IH]; cbn [mrun]; [reflexivity|now rewrite E|now rewrite E].
  - revert m t. induction ps as [|p ps IH]; intros m t; cbn [mrun]; [intros [= <- <-]; constructor|].
    destruct (p m t) as [m1 [[r|] cur]] eqn:E; [intros [= <- <-]; now apply As_answers|intro H; eapply As_declines; [exact E|now apply IH]].
Qed.

Fixpoint sdn (x : str) (l : list str) (u : str) : Prop :=
  match l with
  | [] => suffix u x
  | y :: l' => suffix y x /\ (length y < length x)%nat /\ sdn y l' u
  end.
Definition dn (t : str) (l : list str) (u : str) : Prop :=
  match l with
  | [] => suffix u t
  | x :: l' => suffix x t /\ sdn x l' u
  end.

Lemma sdn_low x l u u' : sdn x l u -> suffix u' u -> sdn x l u'.
Proof. revert x. induction l as [|y l IH]; intros x H S; cbn [sdn] in *; [eapply suffix_trans; eassumption|]. destruct H as (H1 & H2 & H3). auto. Qed.
Lemma dn_low t l u u' : dn t l u -> suffix u' u -> dn t l u'.
Proof. destruct l as [|y l]; cbn [dn]; intros H S; [eapply suffix_trans; eassumption|]. destruct H as [H1 H2]. split; [exact H1|eapply sdn_low; eassumption]. Qed.
Lemma dn_high t t' l u : dn t' l u -> suffix t' t -> dn t l u.
Proof. destruct l as [|y l]; cbn [dn]; intros H S; [eapply suffix_trans; eassumption|]. destruct H as [H1 H2]. split; [eapply suffix_trans; eassumption|exact H2]. Qed.
Lemma dn_sdn t t' l u : dn t' l u -> suffix t' t -> (length t' < length t)%nat -> sdn t l u.
Proof.
  destruct l as [|y l]; cbn [dn sdn]; intros H S L; [eapply suffix_trans; eassumption|]. destruct H as [H1 H2].
  split; [eapply suffix_trans; eassumption|]. split; [|exact H2]. apply suffix_len in H1. lia.
Qed.
Lemma sdn_app x l1 u l2 w : sdn x l1 u -> sdn u l2 w -> sdn x (l1 ++ l2) w.
Proof.
  revert x. induction l1 as [|y l1 IH]; intros x H1 H2; cbn [app sdn] in *.
  - destruct l2 as [|z l2]; cbn [sdn] in *; [eapply suffix_trans; eassumption|]. destruct H2 as (A & B & C).
    split; [eapply suffix_trans; eassumption|]. split; [|exact C]. apply suffix_len in H1. lia.
  - destruct H1 as (A & B & C). auto.
Qed.
Lemma dn_app t l1 u l2 w : dn t l1 u -> sdn u l2 w -> dn t (l1 ++ l2) w.
Proof.
  destruct l1 as [|x l1]; cbn [app dn]; intros H1 H2.
  - destruct l2 as [|z l2]; cbn [sdn dn] in *; [eapply suffix_trans; eassumption|]. destruct H2 as (A & B & C). split; [eapply suffix_trans; eassumption|exact C].
  - destruct H1 as [A B]. split; [exact A|]. eapply sdn_app; eassumption.
Qed.
Lemma sdn_dn t l u : sdn t l u -> dn t l u.
Proof. destruct l; cbn [sdn dn]; [auto|]. intros (A & B & C). auto. Qed.

Lemma talk_app {M} (ps : list (mparser M)) m l1 m1 l2 m2 : talk ps m l1 m1 -> talk ps m1 l2 m2 -> talk ps m (l1 ++ l2) m2.
Proof. induction 1; intro H2; cbn [app]; [exact H2|]. econstructor; eauto. Qed.

Definition reached {A E} (r : result A E * str) : str := match r with (Ok _, rest) => rest | (Err _, _) => [] end.

Section Sim.
  Context (U : unicode) (s0 : str) {M : Type} (ps : list (mparser M)).
  Let total := blen s0.
  Definition agree (g : cparser) (l : list (str * answer)) : Prop := Forall (fun ta => run_customs [g] (fst ta) = snd ta) l.

  Definition psim {A} (sp : M -> str -> M * pres A) (p : cparser -> str -> pres A) : Prop :=
    forall m t, suffix t s0 -> exists l, talk ps m l (fst (sp m t)) /\ dn t (map fst l) (reached (snd (sp m t))) /\
      forall g, agree g l -> p g t = snd (sp m t).
  Definition asim {A} (sp : malt (M := M) A) (p : cparser -> alt A) : Prop :=
    forall m t, suffix t s0 -> exists l, talk ps m l (fst (sp m t)) /\ sdn t (map fst l) (reached (snd (sp m t))) /\
      (fst (snd (sp m t)) = Err None -> l = []) /\ forall g, agree g l -> p g t = snd (sp m t).

  Lemma agree_app g l1 l2 : agree g (l1 ++ l2) -> agree g l1 /\ agree g l2.
  Proof. intro H. apply Forall_app in H. exact H. Qed.

  Lemma still_sim {A} (a : alt A) : (forall t, suffix t s0 -> suffix (snd (a t)) t) -> asim (still a) (fun _ => a).
  Proof.
    intros H m t S. exists []. cbn [still fst snd map sdn]. split; [constructor|]. split; [|auto].
    specialize (H t S). destruct (a t) as [[v|e] t']; cbn [reached snd] in *; [exact H|apply suffix_nil].
  Qed.
  Lemma momap_sim {A B} (f : A -> B) sp p : asim sp p -> asim (momap f sp) (fun g => omap f (p g)).
  Proof.
    intros H m t S. destruct (H m t S) as (l & T & D & N & R). exists l. unfold momap, omap. destruct (sp m t) as [m' [r t']]. cbn [fst snd] in *.
    split; [exact T|]. split; [destruct r; exact D|]. split; [destruct r as [v|[e|]]; cbn [rmap]; intro E; [discriminate|discriminate|apply N; reflexivity]|].
    intros g G. rewrite (R g G). reflexivity.
  Qed.

  Lemma one_of_sim {A} (sps : list (malt (M := M) A)) (qs : list (cparser -> alt A)) : Forall2 asim sps qs ->
    forall m t, suffix t s0 -> exists l, talk ps m l (fst (mone_of sps m t)) /\
      match snd (mone_of sps m t) with
      | (Some (Ok _), rest) => sdn t (map fst l) rest
      | (Some (Err _), _) => sdn t (map fst l) []
      | (None, _) => l = []
      end /\ forall g, agree g l -> one_of (map (fun q => q g) qs) t = snd (mone_of sps m t).
  Proof.
    induction 1 as [|sp q sps qs H HF IH]; intros m t S.
    - exists []. cbn. split; [constructor|]. auto.
    - destruct (H m t S) as (l & T & D & N & R). cbn [mone_of map one_of]. destruct (sp m t) as [m' [[v|[e|]] t']]; cbn [fst snd] in *.
      + exists l. split; [exact T|]. split; [exact D|]. intros g G. rewrite (R g G). reflexivity.
      + exists l. split; [exact T|]. split; [exact D|]. intros g G. rewrite (R g G). reflexivity.
      + rewrite (N eq_refl) in *. inversion T; subst. destruct (IH m' t S) as (l2 & T2 & D2 & R2). exists l2. split; [exact T2|]. split; [exact D2|].
        intros g G. rewrite (R g ltac:(constructor)). apply R2. exact G.
  Qed.

  Section Rec.
    Context (spv : M -> str -> M * pres (value unit)) (pv : cparser -> str -> pres (value unit)).
    Context (PV : psim spv pv).

    Lemma field_sim : psim (mfield U total spv) (fun g => parse_field_name_and_value U total (pv g)).
    Proof.
      intros m t S. unfold mfield, parse_field_name_and_value. pose proof (good_field_name U s0 t S) as [GS _]. fold total in GS.
      destruct (parse_field_name U total t) as [[name|e] t1]; cbn [fst snd] in GS; [|exists []; cbn; split; [constructor|]; split; [apply suffix_nil|auto]].
      destruct (skip_spaced_separator c_colon t1) as [ok t2] eqn:E. apply skip_spaced_suffix' in E.
      assert (S2 : suffix t2 t) by (eapply suffix_trans; eassumption).
      destruct ok; cbn [negb]; [|exists []; cbn; split; [constructor|]; split; [apply suffix_nil|auto]].
      destruct (PV m t2) as (l & T & D & R); [eapply suffix_trans; eassumption|]. exists l. destruct (spv m t2) as [m' [[v|e] t3]]; cbn [fst snd reached] in *;
        (split; [exact T|]; split; [eapply dn_high; eassumption|]; intros g G; rewrite (R g G); reflexivity).
    Qed.

    Lemma sep_rest_sim {A} (si : M -> str -> M * pres A) (i : cparser -> str -> pres A) : psim si i ->
      forall k m t acc, suffix t s0 -> exists l, talk ps m l (fst (msep_rest k si m t acc)) /\ sdn t (map fst l) (reached (snd (msep_rest k si m t acc))) /\
        forall g, agree g l -> sep_rest k (i g) t acc = snd (msep_rest k si m t acc).
    Proof.
      intro SI. induction k as [|k IH]; intros m t acc S; cbn [msep_rest sep_rest].
      - exists []. cbn. split; [constructor|]. split; [apply suffix_nil|auto].
      - destruct (skip_spaced_separator c_comma t) as [ok t1] eqn:E. destruct ok; cbn [negb]; [|exists []; cbn; split; [constructor|]; split; [apply suffix_refl|auto]].
        assert (L1 : (length t1 < length t)%nat /\ suffix t1 t).
        { split; [|eapply skip_spaced_suffix'; exact E]. apply skip_spaced_true in E as (w1 & w2 & -> & _). rewrite !app_length. cbn [length]. lia. }
        destruct L1 as [L1 S1]. destruct (SI m t1) as (l & T & D & R); [eapply suffix_trans; eassumption|].
        destruct (si m t1) as [m' [[a|e] t2]]; cbn [fst snd reached] in *.
        + assert (S2 : suffix t2 t1). { clear -D. destruct l as [|[x a'] l]; cbn [map fst dn] in D; [exact D|]. destruct D as [A1 B]. eapply suffix_trans; [|exact A1]. revert x A1 B.
            induction (map fst l) as [|y l' IH]; intros x A1 B; cbn [sdn] in B; [exact B|]. destruct B as (B1 & B2 & B3). eapply suffix_trans; [|exact B1]. eapply IH; [|exact B3]. eapply suffix_trans; eassumption. }
          destruct (IH m' t2 (a :: acc)) as (l2 & T2 & D2 & R2); [eauto using suffix_trans|].
          exists (l ++ l2). split; [eapply talk_app; eassumption|]. rewrite map_app. split; [eapply sdn_app; [eapply dn_sdn; eassumption|exact D2]|].
          intros g G. apply agree_app in G as [G1 G2]. rewrite (R g G1). apply R2. exact G2.
        + exists l. split; [exact T|]. split; [eapply dn_sdn; eassumption|]. intros g G. rewrite (R g G). reflexivity.
    Qed.
    Lemma dn_reached {X} t (l : list (str * X)) u : dn t (map fst l) u -> suffix u t.
    Proof.
      destruct l as [|[x a'] l]; cbn [map fst dn]; [auto|]. intros [A1 B]. eapply suffix_trans; [|exact A1]. revert x A1 B.
      induction (map fst l) as [|y l' IH]; intros x A1 B; cbn [sdn] in B; [exact B|]. destruct B as (B1 & B2 & B3). eapply suffix_trans; [|exact B1]. eapply IH; [|exact B3]. eapply suffix_trans; eassumption.
    Qed.
    Lemma sep_by_sim {A} (si : M -> str -> M * pres A) (i : cparser -> str -> pres A) k : psim si i -> psim (msep_by k si) (fun g => sep_by k (i g)).
    Proof.
      intros SI m t S. unfold msep_by, sep_by. destruct (SI m t S) as (l & T & D & R). destruct (si m t) as [m' [[a|e] t1]]; cbn [fst snd reached] in *.
      - pose proof (dn_reached _ _ _ D) as S1. destruct (sep_rest_sim si i SI k m' t1 [a]) as (l2 & T2 & D2 & R2); [eapply suffix_trans; eassumption|].
        exists (l ++ l2). split; [eapply talk_app; eassumption|]. rewrite map_app. split; [eapply dn_app; eassumption|].
        intros g G. apply agree_app in G as [G1 G2]. rewrite (R g G1). apply R2. exact G2.
      - exists l. split; [exact T|]. split; [exact D|]. intros g G. rewrite (R g G). reflexivity.
    Qed.

    Lemma delimited_sim {A} op cl k (si : M -> str -> M * pres A) (i : cparser -> str -> pres A) : psim si i ->
      asim (mdelimited total op cl k si) (fun g => parse_delimited total op cl k (i g)).
    Proof.
      intros SI m t S. unfold mdelimited, parse_delimited. destruct (token op t) as [ok t1] eqn:E1. destruct ok; cbn [negb].
      2: { exists []. cbn. split; [constructor|]. split; [apply suffix_nil|auto]. }
      apply token_true in E1 as ->. assert (S2 : suffix (skip_whitespace t1) (op :: t1)) by (eapply suffix_trans; [apply skip_ws_suffix|apply suffix_cons]).
      assert (L2 : (length (skip_whitespace t1) < length (op :: t1))%nat) by (pose proof (suffix_len _ _ (skip_ws_suffix t1)); cbn [length]; lia).
      destruct (token cl (skip_whitespace t1)) as [ok t3] eqn:E2. destruct ok.
      { apply token_suffix in E2. exists []. cbn. split; [constructor|]. split; [eapply suffix_trans; eassumption|]. auto. }
      apply token_suffix in E2. assert (S3 : suffix t3 (op :: t1)) by (eapply suffix_trans; eassumption). assert (L3 : (length t3 < length (op :: t1))%nat) by (apply suffix_len in E2; lia).
      destruct (sep_by_sim si i k SI m t3) as (l & T & D & R); [eapply suffix_trans; eassumption|]. exists l.
      destruct (msep_by k si m t3) as [m' [[vs|e] t4]]; cbn [fst snd reached] in *.
      - destruct (token cl (skip_whitespace t4)) as [ok t6] eqn:E4. pose proof (token_suffix _ _ _ _ E4) as S4.
        assert (S6 : suffix t6 t4) by (eapply suffix_trans; [exact S4|apply skip_ws_suffix]). destruct ok; cbn [negb fst snd reached].
        + split; [exact T|]. split; [eapply dn_sdn; [eapply dn_low; [exact D|exact S6]|exact S3|exact L3]|]. split; [discriminate|].
          intros g G. rewrite (R g G). cbn [fst snd]. rewrite E4. reflexivity.
        + split; [exact T|]. split; [eapply dn_sdn; [eapply dn_low; [exact D|apply suffix_nil]|exact S3|exact L3]|]. split; [discriminate|].
          intros g G. rewrite (R g G). cbn [fst snd]. rewrite E4. reflexivity.
      - split; [exact T|]. split; [eapply dn_sdn; eassumption|]. split; [discriminate|]. intros g G. rewrite (R g G). reflexivity.
    Qed.

    Lemma named_sim k : asim (mnamed U total spv k) (fun g => parse_named_composite U total (pv g) k).
    Proof. unfold mnamed, parse_named_composite. apply (momap_sim Named _ (fun g => parse_delimited total c_lbrace c_rbrace k (parse_field_name_and_value U total (pv g)))). apply (delimited_sim _ _ _ _ (fun g => parse_field_name_and_value U total (pv g))). exact field_sim. Qed.
    Lemma unnamed_sim k : asim (munnamed total spv k) (fun g => parse_unnamed_composite total (pv g) k).
    Proof. unfold munnamed, parse_unnamed_composite. apply (momap_sim Unnamed _ (fun g => parse_delimited total c_lpar c_rpar k (pv g))). apply delimited_sim. exact PV. Qed.

    Lemma variant_sim k : asim (mvariant U total spv k) (fun g => parse_variant U total (pv g) k).
    Proof.
      intros m t S. unfold mvariant, parse_variant. pose proof (good_variant_ident U s0 t S) as GS. fold total in GS.
      destruct (parse_optional_variant_ident U total t) as [[[ident|e]|] t1]; cbn [snd] in GS;
        try (exists []; cbn; split; [constructor|]; split; [apply suffix_nil|auto]).
      assert (S2 : suffix (skip_whitespace t1) t) by (eapply suffix_trans; [apply skip_ws_suffix|exact GS]).
      destruct (one_of_sim [mnamed U total spv k; munnamed total spv k]
                  [fun g => parse_named_composite U total (pv g) k; fun g => parse_unnamed_composite total (pv g) k]) with (m := m) (t := skip_whitespace t1) as (l & T & D & R).
      { constructor; [apply named_sim|]. constructor; [apply unnamed_sim|constructor]. }
      { eapply suffix_trans; eassumption. }
      cbn [map] in R. exists l. destruct (mone_of _ m (skip_whitespace t1)) as [m' [[[vs|e]|] t3]]; cbn [fst snd reached] in *.
      - split; [exact T|]. split; [|split; [discriminate|]; intros g G; rewrite (R g G); reflexivity].
        revert D S2. generalize (map fst l) (skip_whitespace t1). clear. intros [|y l'] x D S2; cbn [sdn] in *; [eapply suffix_trans; eassumption|].
        destruct D as (A & B & C). split; [eapply suffix_trans; eassumption|]. split; [|exact C]. apply suffix_len in S2. lia.
      - split; [exact T|]. split; [|split; [discriminate|]; intros g G; rewrite (R g G); reflexivity].
        revert D S2. generalize (map fst l) (skip_whitespace t1). clear. intros [|y l'] x D S2; cbn [sdn] in *; [apply suffix_nil|].
        destruct D as (A & B & C). split; [eapply suffix_trans; eassumption|]. split; [|exact C]. apply suffix_len in S2. lia.
      - subst l. split; [exact T|]. split; [apply suffix_nil|]. split; [auto|]. intros g G. rewrite (R g G). reflexivity.
    Qed.

    Lemma omap_suffix {A B} (f : A -> B) (a : alt A) t : suffix (snd (a t)) t -> suffix (snd (omap f a t)) t.
    Proof. unfold omap. destruct (a t). auto. Qed.

    Lemma builtin_sim k m t : suffix t s0 -> exists l, talk ps m l (fst (mbuiltin U total spv k m t)) /\ sdn t (map fst l) (reached (snd (mbuiltin U total spv k m t))) /\ forall g, agree g l -> parse_builtin U total (pv g) k t = snd (mbuiltin U total spv k m t).
    Proof.
      intro S. unfold mbuiltin, parse_builtin.
      destruct (one_of_sim [ still (omap vbool parse_bool); still (omap vchar (parse_char total)); still (omap vstring (parse_string total)); still (omap primitive (parse_number total));
                      momap (fun c => without_context (DComposite c)) (mnamed U total spv k); momap (fun c => without_context (DComposite c)) (munnamed total spv k);
                      still (omap bit_sequence (parse_bit_sequence total)); mvariant U total spv k ]
                   [ (fun _ => omap vbool parse_bool); (fun _ => omap vchar (parse_char total)); (fun _ => omap vstring (parse_string total)); (fun _ => omap primitive (parse_number total));
                      (fun g => omap (fun c => without_context (DComposite c)) (parse_named_composite U total (pv g) k));
                      (fun g => omap (fun c => without_context (DComposite c)) (parse_unnamed_composite total (pv g) k));
                      (fun _ => omap bit_sequence (parse_bit_sequence total)); (fun g => parse_variant U total (pv g) k) ]) with (m := m) (t := t) as (l & T & D & R); [|exact S|].
      { repeat apply Forall2_cons; [..|apply Forall2_nil].
        - apply still_sim. intros t' S'. apply omap_suffix. apply (good_bool s0).
        - apply still_sim. intros t' S'. apply omap_suffix. apply (good_char s0). exact S'.
        - apply still_sim. intros t' S'. apply omap_suffix. apply (good_string s0). exact S'.
        - apply still_sim. intros t' S'. apply omap_suffix. apply (good_number s0). exact S'.
        - apply (momap_sim _ _ (fun g => parse_named_composite U total (pv g) k)), named_sim.
        - apply (momap_sim _ _ (fun g => parse_unnamed_composite total (pv g) k)), unnamed_sim.
        - apply still_sim. intros t' S'. apply omap_suffix. apply (good_bits s0). exact S'.
        - apply variant_sim. }
      cbn [map] in R. exists l. destruct (mone_of _ m t) as [m' [[[v|e]|] t3]]; cbn [fst snd reached] in *.
      - split; [exact T|]. split; [exact D|]. intros g G. rewrite (R g G). reflexivity.
      - split; [exact T|]. split; [exact D|]. intros g G. rewrite (R g G). reflexivity.
      - subst l. split; [exact T|]. split; [apply suffix_nil|]. intros g G. rewrite (R g G). reflexivity.
    Qed.
  End Rec.

  Lemma wind_suffix t cur : suffix (wind_forward t cur) t.
  Proof. unfold wind_forward. exists (firstn (N.to_nat (blen t - blen cur)) t). symmetry. apply firstn_skipn. Qed.

  Theorem value_sim : forall k, psim (mparse_value U total ps k) (fun g => parse_value U total [g] k).
  Proof.
    induction k as [|k IH]; intros m t S; cbn [mparse_value parse_value].
    - exists []. cbn. split; [constructor|]. split; [apply suffix_nil|auto].
    - destruct (mrun ps m t) as [m1 a] eqn:E. apply asked_mrun in E. destruct a as [[[v|e] cur]|].
      + exists [(t, Some (Ok v, cur))]. cbn [fst snd map reached dn sdn]. split; [econstructor; [exact E|constructor]|]. split; [split; [apply suffix_refl|apply wind_suffix]|].
        intros g G. inversion G as [|? ? H _]; subst. cbn [fst snd] in H. rewrite H. reflexivity.
      + exists [(t, Some (Err e, cur))]. cbn [fst snd map reached dn sdn]. split; [econstructor; [exact E|constructor]|]. split; [split; [apply suffix_refl|apply suffix_nil]|].
        intros g G. inversion G as [|? ? H _]; subst. cbn [fst snd] in H. rewrite H. reflexivity.
      + destruct (builtin_sim (mparse_value U total ps k) (fun g => parse_value U total [g] k) IH k m1 t S) as (l & T & D & R).
        exists ((t, None) :: l). split; [econstructor; eassumption|]. cbn [map fst dn]. split; [split; [apply suffix_refl|exact D]|].
        intros g G. inversion G as [|? ? H G']; subst. cbn [fst snd] in H. rewrite H. apply R. exact G'.
  Qed.
End Sim.
