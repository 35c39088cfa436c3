(** * BracketFacts: one-value composites around primitives, bit sequences and variants do not change what is written (C77). *)
From Verif Require Import Base Value ValueFacts Registry Spec_Scale Scale Encode EncodeFacts EncodeTerm Spec_Encode EncodeSound EncodeComplete EncodeMore EncodeWrap
  Spec_Same Spec_Writes WritesFacts.
Open Scope N_scope.

Section Brackets.
  Context {TId T : Type} (reg : TId -> resolution TId) (X : ext) (WF : forall t, Acc (fun t' t => wraps reg t t') t).

  Lemma wraps_fun t a b : wraps reg t a -> wraps reg t b -> a = b.
  Proof.
    intros W W'. inversion W as [? ? W1|? ? R]; subst; inversion W' as [? ? W1'|? ? R']; subst; try (inversion W1 as [? ? ? R|? ? R]; subst); try (inversion W1' as [? ? ? R'|? ? R']; subst);
      rewrite R in R'; try discriminate; injection R'; auto.
  Qed.
  Lemma transparent_wraps t a : transparent reg t a -> wraps reg t a.
  Proof. intros [? ? R|? ? R]; apply W_one; [eapply W_struct|eapply W_tuple]; exact R. Qed.
  Lemma chain_wraps1 t u : chain (wraps1 reg) t u -> chain (wraps reg) t u.
  Proof. induction 1 as [|t t' u W _ IH]; [constructor|]. eapply Ch_step; [apply W_one, W|exact IH]. Qed.
  Lemma chain_transparent t u : chain (transparent reg) t u -> chain (wraps reg) t u.
  Proof. induction 1 as [|t t' u W _ IH]; [constructor|]. eapply Ch_step; [apply transparent_wraps, W|exact IH]. Qed.

  Lemma chain_step t t' u : chain (wraps reg) t u -> (forall w, ~ wraps reg u w) -> wraps reg t t' -> chain (wraps reg) t' u.
  Proof. intros Ch St W. destruct Ch as [t|t t2 u W2 Ch]; [exfalso; exact (St t' W)|]. rewrite (wraps_fun _ _ _ W W2). exact Ch. Qed.
  Lemma chain_step_ty t t' u ty : chain (wraps reg) t u -> reg u = ResTy ty -> match ty with TComposite _ | TTuple _ | TArray _ _ => False | _ => True end -> wraps reg t t' -> chain (wraps reg) t' u.
  Proof. intros Ch R H W. eapply chain_step; [exact Ch|eapply stop_ty; [exact R|exact H]|exact W]. Qed.
  Lemma chain1_step t t' u : chain (wraps1 reg) t u -> (forall w, ~ wraps reg u w) -> wraps reg t t' -> chain (wraps1 reg) t' u.
  Proof. intros Ch St W. destruct Ch as [t|t t2 u W2 Ch]; [exfalso; exact (St t' W)|]. rewrite (wraps_fun _ _ _ W (W_one reg _ _ W2)). exact Ch. Qed.

  Lemma number_step z t t' b : wraps reg t t' -> number reg z t b -> number reg z t' b.
  Proof.
    intros W [u w Ch R H1 H2|u w Ch R H1 H2|u t1 u' w Ch R Ch' R' H1 H2].
    - eapply N_uint; eauto. eapply chain_step_ty; [exact Ch|exact R|exact I|exact W].
    - eapply N_int; eauto. eapply chain_step_ty; [exact Ch|exact R|exact I|exact W].
    - eapply N_compact; eauto. eapply chain_step_ty; [exact Ch|exact R|exact I|exact W].
  Qed.
  Definition fine (d : vdef (value T)) : Prop := match d with DPrim p => prim_wf p = true | _ => True end.
  Lemma len32 p bs : prim_wf p = true -> bytes_of_256 p = Some bs -> length bs = 32%nat.
  Proof. destruct p; cbn; try discriminate; intros H [= <-]; lia. Qed.
  Lemma array_stop p bs u e n : prim_wf p = true -> bytes_of_256 p = Some bs -> reg u = ResTy (TArray e n) -> N.of_nat (length bs) = n -> forall w, ~ wraps reg u w.
  Proof.
    intros Hp Hb R Hn w W. apply (len32 p bs Hp) in Hb. destruct W as [? ? [? ? ? R'|? ? R']|? ? R']; rewrite R in R'; try discriminate. injection R' as _ E. lia.
  Qed.
  Lemma leaf_step d t t' b : fine d -> wraps reg t t' -> leaf reg X d t b -> leaf reg X d t' b.
  Proof.
    intros Hd W L. destruct L as [p z t b Hi HN|c t b HN|c t u b Ch R HX HE|y t u Ch R|s t u pre Ch R HP|bits t u st o b Ch R HB|p bs t u Hp Ch R HX|p bs t u e n b Hp Ch R Hn HN|p bs t u e pre b Hp Ch R HP HN].
    - eapply L_number; [exact Hi|eapply number_step; eauto].
    - eapply L_code, number_step; eauto.
    - eapply L_char; eauto. eapply chain_step_ty; [exact Ch|exact R|exact I|exact W].
    - eapply L_bool; eauto. eapply chain_step_ty; [exact Ch|exact R|exact I|exact W].
    - eapply L_string; eauto. eapply chain_step_ty; [exact Ch|exact R|exact I|exact W].
    - eapply L_bits; eauto. eapply chain_step_ty; [exact Ch|exact R|exact I|exact W].
    - eapply L_256; eauto. eapply chain1_step; [exact Ch|destruct R as [R|R]; (eapply stop_ty; [exact R|exact I])|exact W].
    - eapply L_256_array; eauto. eapply chain1_step; [exact Ch|eapply array_stop; eauto|exact W].
    - eapply L_256_sequence; eauto. eapply chain1_step; [exact Ch|eapply stop_ty; [exact R|exact I]|exact W].
  Qed.
  (** Where a leaf is written, the type is a wrapper or the right one. *)
  Lemma leaf_not_struct d t b : fine d -> leaf reg X d t b -> (forall w, ~ wraps reg t w) -> (forall fs, reg t <> ResTy (TComposite fs)) /\ (forall ts, reg t <> ResTy (TTuple ts)).
  Proof.
    intros Hd L St. assert (AT : forall u, chain (wraps reg) t u -> u = t) by (intros u Ch; destruct Ch as [|? ? ? W]; [reflexivity|exfalso; exact (St _ W)]).
    assert (NUM : forall z t b, (forall u, chain (wraps reg) t u -> u = t) -> number reg z t b -> (forall fs, reg t <> ResTy (TComposite fs)) /\ (forall ts, reg t <> ResTy (TTuple ts))).
    { clear. intros z t b AT [u w Ch R H1 H2|u w Ch R H1 H2|u t1 u' w Ch R Ch' R' H1 H2]; apply AT in Ch; subst u; rewrite R; split; discriminate. }
    destruct L as [p z t b Hi HN|c t b HN|c t u b Ch R HX HE|y t u Ch R|s t u pre Ch R HP|bits t u st o b Ch R HB|p bs t u Hp Ch R HX|p bs t u e n b Hp Ch R Hn HN|p bs t u e pre b Hp Ch R HP HN];
      try (eapply NUM; [exact AT|exact HN]); try (apply AT in Ch; subst u; rewrite R; split; discriminate); apply chain_wraps1, AT in Ch; subst u; try (rewrite R; split; discriminate).
    destruct R as [R|R]; rewrite R; split; discriminate.
  Qed.

  (** Primitives, bit sequences and variants. *)
  Definition single (v : value T) : Prop := match v with Val (DComposite _) _ => False | Val d _ => fine d end.
  Definition wr := writes reg X (T := T).
  Lemma single_inv v t b : single v -> wr v t b -> (exists d x, v = Val d x /\ fine d /\ leaf reg X d t b) \/ (exists n c x, v = Val (DVariant n c) x /\ variant reg wr n c t b).
  Proof.
    intros Hs Wr. destruct Wr as [d x t b L|n c x t b V|c x t b D|c x t u b EU N1 D|c x t u v b EU N1 N2 EV E]; try contradiction.
    - left. exists d, x. split; [reflexivity|]. split; [|exact L]. destruct d; [contradiction| | |]; exact Hs.
    - right. exists n, c, x. auto.
  Qed.
  Lemma single_step v t t' b : single v -> wraps reg t t' -> wr v t b -> wr v t' b.
  Proof.
    intros Hs W Wr. destruct (single_inv v t b Hs Wr) as [(d & x & -> & Hd & L)|(n & c & x & -> & V)].
    - apply Wr_leaf. eapply leaf_step; eauto.
    - apply Wr_variant. destruct V as (u & l1 & idx & fs & l2 & b' & Ch & R & NI & -> & P). exists u, l1, idx, fs, l2, b'. repeat split; try assumption.
      destruct Ch as [t|t t2 u W2 Ch]; [destruct W as [? ? [? ? ? R'|? ? R']|? ? R']; congruence|]. rewrite (wraps_fun _ _ _ W (transparent_wraps _ _ W2)). exact Ch.
  Qed.
  Lemma single_chain v t u b : single v -> chain (wraps reg) t u -> wr v t b -> wr v u b.
  Proof. intros Hs Ch. induction Ch as [|t t' u W _ IH]; intro Wr; [exact Wr|]. apply IH. eapply single_step; eauto. Qed.
  Lemma single_not_struct v t b : single v -> wr v t b -> (forall w, ~ wraps reg t w) -> (forall fs, reg t <> ResTy (TComposite fs)) /\ (forall ts, reg t <> ResTy (TTuple ts)).
  Proof.
    intros Hs Wr St. destruct (single_inv v t b Hs Wr) as [(d & x & -> & Hd & L)|(n & c & x & -> & V)]; [eapply leaf_not_struct; eauto|].
    destruct V as (u & l1 & idx & fs & l2 & b' & Ch & R & _). apply chain_transparent in Ch. destruct Ch as [|? ? ? W]; [|exfalso; exact (St _ W)]. rewrite R. split; discriminate.
  Qed.
  Lemma number_not_256 z p bs e b b' : prim_wf p = true -> bytes_of_256 p = Some bs -> number reg z e b -> ~ leaf reg X (DPrim p : vdef (value T)) e b'.
  Proof.
    intros Hp Hb HN L.
    assert (N : exists u, ends_in (wraps reg) e u /\ ((exists w, reg u = ResTy (TPrim (PtU w)) \/ reg u = ResTy (TPrim (PtI w))) \/ exists t', reg u = ResTy (TCompact t'))).
    { destruct HN as [u w Ch R H1 H2|u w Ch R H1 H2|u t1 u' w Ch R Ch' R' H1 H2]; exists u; (split; [split; [exact Ch|eapply stop_ty; [exact R|exact I]]|]); eauto. }
    destruct N as (u & EU & NU).
    inversion L as [? z' ? ? Hi|?|?|?|?|?|? bs' ? u2 Hp2 Ch R HX|? bs' ? u2 e2 n ? Hp2 Ch R Hn HN2|? bs' ? u2 e2 pre b2 Hp2 Ch R HP HN2]; subst; try discriminate.
    - destruct Hi as [(m & -> & _)| ->]; discriminate.
    - assert (u = u2) by (eapply ends_fun; [exact EU|]; split; [apply chain_wraps1, Ch|destruct R as [R|R]; (eapply stop_ty; [exact R|exact I])]). subst u2.
      destruct NU as [(w & [R'|R'])|[t' R']]; destruct R as [R|R]; congruence.
    - assert (u = u2) by (eapply ends_fun; [exact EU|]; split; [apply chain_wraps1, Ch|eapply array_stop; eauto]). subst u2.
      destruct NU as [(w & [R'|R'])|[t' R']]; congruence.
    - assert (u = u2) by (eapply ends_fun; [exact EU|]; split; [apply chain_wraps1, Ch|eapply stop_ty; [exact R|exact I]]). subst u2.
      destruct NU as [(w & [R'|R'])|[t' R']]; congruence.
  Qed.

  (** Taken as it is, a one-value composite is written as the value inside. *)
  Lemma directly_one c v t b b' : holds v -> single v -> values c = [v] -> wr v t b -> directly reg wr c t b' -> b' = b.
  Proof.
    intros HV Hs EV Wr D.
    assert (FUN : forall u b1 b2, wr v u b1 -> wr v u b2 -> b1 = b2).
    { intros u b1 b2 W1 W2. apply (writes_iff reg X WF v HV) in W1, W2. eapply encodes_fun; eauto. }
    assert (TURN : forall u b2, wr v u b -> in_turn wr [v] [u] b2 -> b2 = b).
    { intros u b2 W1 P. inversion P as [|? ? ? ? b3 b4 W2 P']; subst. inversion P'; subst. rewrite app_nil_r. eapply FUN; eauto. }
    destruct D as [u R [Ch NT] SL|e pre bs R HP P ->|e n R En P|st o bits R FA HB|v' R EV' E].
    - pose proof (single_chain v t u b Hs (chain_transparent t u Ch) Wr) as Wu. destruct SL as [fs R' NO P|ts R' NO P|fs v' R' -> P|v' N1 N2 EV' P].
      + assert (SH : exists n t2, fs = [(n, t2)]).
        { destruct fs as [|[n t2] [|f2 fs]]; [|eauto|]; exfalso; (apply (single_not_struct v u b Hs Wu) with (fs := _) in R' as []); intros w W; destruct W as [? ? [? ? ? R2|? ? R2]|? ? R2]; congruence. }
        destruct SH as (n & t2 & ->). pose proof (single_step v u t2 b Hs (W_one reg _ _ (W_struct reg _ _ _ R')) Wu) as W2.
        assert (G : forall vs, Forall2 (fun f v => In v (values c)) [(n, t2)] vs -> in_turn wr vs [t2] b' -> b' = b).
        { intros vs FA P'. inversion FA as [|? w ? ? Hw FA']; subst. inversion FA'; subst. rewrite EV in Hw. destruct Hw as [<-|[]]. apply (TURN t2); assumption. }
        inversion P as [l fs' vs b0 Hl Hn FA PP|c0 fs0 b0 HP PP]; subst.
        * apply (G vs); [|exact PP]. clear -FA. induction FA as [|f v fs vs L _ IH]; constructor; [eapply last_entry_in; exact L|exact IH].
        * apply (G (values c)); [|exact PP]. rewrite EV. constructor; [left; reflexivity|constructor].
      + exfalso. apply NO. rewrite EV. reflexivity.
      + cbn [values] in EV. injection EV as ->. eapply FUN; eauto.
      + assert (v' = v) by congruence. subst v'. eapply FUN; eauto.
    - exfalso. rewrite EV in P. cbn [length repeat] in P. inversion P as [|? ? ? ? b3 b4 We P']; subst.
      assert (St : forall w, ~ wraps reg t w) by (intros w W; destruct W as [? ? [? ? ? R2|? ? R2]|? ? R2]; congruence).
      destruct (single_inv v t b Hs Wr) as [(d & x & -> & Hd & L)|(n & c' & x & -> & V)].
      + assert (AT : forall u, chain (wraps reg) t u -> u = t) by (intros u Ch; destruct Ch as [|? ? ? W]; [reflexivity|exfalso; exact (St _ W)]).
        assert (NUM : forall z b, ~ number reg z t b) by (intros z b0 [u w Ch R2 H1 H2|u w Ch R2 H1 H2|u t1 u' w Ch R2 Ch' R' H1 H2]; apply AT in Ch; congruence).
        destruct L as [p z t b Hi HN|k t b HN|k t u b Ch R2 HX HE|y t u Ch R2|s t u pre2 Ch R2 HP2|bits t u st o b Ch R2 HB|p bs' t u Hp Ch R2 HX|p bs' t u e' n b Hp Ch R2 Hn HN|p bs' t u e' pre2 b Hp Ch R2 HP2 HN];
          try (eapply NUM; exact HN); try (apply AT in Ch; congruence); apply chain_wraps1, AT in Ch; subst u; try congruence; [destruct R2; congruence|].
        assert (e' = e) by congruence. subst e'. pose proof (len32 p bs' Hd Hp) as L32. destruct bs' as [|n bs']; [discriminate|]. inversion HN as [|? ? ? ? HN1]; subst.
        inversion We as [? ? ? ? L2|?|?|?|?]; subst. eapply (number_not_256 _ p (n :: bs')); eauto.
      + destruct V as (u & l1 & idx & fs & l2 & b' & Ch & R2 & _). apply chain_transparent in Ch. destruct Ch as [|? ? ? W]; [congruence|exact (St _ W)].
    - rewrite EV in En, P. cbn [length repeat] in En, P. eapply TURN; [|exact P]. eapply single_step; [exact Hs| |exact Wr]. apply W_array. rewrite R. subst n. reflexivity.
    - exfalso. rewrite EV in FA. inversion FA as [|? y ? ? IB _]; subst.
      assert (AT : forall u, chain (wraps reg) t u -> u = t) by (intros u Ch; destruct Ch as [|? ? ? W]; [reflexivity|]; exfalso; destruct W as [? ? [? ? ? R2|? ? R2]|? ? R2]; congruence).
      assert (NUM : forall z b, ~ number reg z t b) by (intros z b0 [u w Ch R2 H1 H2|u w Ch R2 H1 H2|u t1 u' w Ch R2 Ch' R' H1 H2]; apply AT in Ch; congruence).
      destruct (single_inv v t b Hs Wr) as [(d & x & -> & Hd & L)|(n & c' & x & -> & V)]; [|inversion IB].
      destruct L as [p z t b Hi HN|k t b HN|k t u b Ch R2 HX HE|q t u Ch R2|s t u pre2 Ch R2 HP2|bits' t u st' o' b Ch R2 HB'|p bs' t u Hp Ch R2 HX|p bs' t u e' n b Hp Ch R2 Hn HN|p bs' t u e' pre2 b Hp Ch R2 HP2 HN];
          try (eapply NUM; exact HN); try (apply AT in Ch; congruence); inversion IB; subst; discriminate.
    - assert (v' = v) by congruence. subst v'. eapply FUN; eauto.
  Qed.

  Lemma brackets c x v t b : holds v -> single v -> values c = [v] -> wr v t b -> wr (Val (DComposite c) x) t b.
  Proof.
    intros HV Hs EV Wr. assert (HC : holds (Val (DComposite c) x)) by (constructor; [exact I|cbn [children]; rewrite EV; constructor; [exact HV|constructor]]).
    apply (writes_iff reg X WF _ HC). apply (composite_rules reg X WF c x t b).
    assert (DW : forall u b', done reg X c u b' -> directly reg wr c u b').
    { intros u b' D. apply done_iff in D. eapply directly_impl; [|exact D]. rewrite EV. constructor; [|constructor]. intros t0 b0. apply (writes_iff reg X WF v HV). }
    assert (DEC : forall u, (exists b', done reg X c u b') \/ forall b', ~ done reg X c u b').
    { intro u. destruct (doing_settles reg X WF c u) as [F0 H]. destruct (doing reg X F0 c u) as [[|e|] o] eqn:E; [left; exists o, F0; exact E| |contradiction].
      right. intros b' D. exact (failed_not_done reg X F0 c u e o E b' D). }
    destruct (DEC t) as [[b' D]|ND]; [left; rewrite <- (directly_one c v t b b' HV Hs EV Wr (DW _ _ D)); exact D|right].
    destruct (find_single_total reg WF t false) as (F0 & [u d] & FS). specialize (FS F0 (le_n _)). pose proof (find_single_chain reg _ _ _ _ _ FS) as Ch. apply find_single_stop in FS as [St _].
    pose proof (single_chain v t u b Hs Ch Wr) as Wu. exists u. split; [split; assumption|]. split; [exact ND|].
    destruct (DEC u) as [[b' D]|NU]; [left; rewrite <- (directly_one c v u b b' HV Hs EV Wu (DW _ _ D)); exact D|right]. split; [exact NU|]. exists v. split; [exact EV|]. apply (writes_iff reg X WF v HV), Wu.
  Qed.
End Brackets.
