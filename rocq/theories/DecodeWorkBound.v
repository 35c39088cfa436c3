(** * DecodeWorkBound: bounds for the work and the recursion of decoding (C79). *)
From Verif Require Import Base Value Registry Spec_Scale Scale ScaleFacts Decode DecodeFacts DecodeMore Spec_Cost Spec_Size SizeFacts Spec_Decode Spec_DecodeWork DecodeWork DecodeWorkFacts.
Open Scope N_scope.

Ltac okstep := repeat match goal with |- context [wbind (pair (Ok ?x) ?n) ?g] => change (wbind (pair (Ok x) n) g) with (fst (g x), then_ n (snd (g x))) end; cbv beta; cbn [fst snd].

Section Bounds.
  Context {TId C : Type} (reg : TId -> resolution TId) (X : ext) (ctxf : TId -> C).
  Local Notation dec := (decode reg X ctxf).
  Local Notation kd := (kdecode reg X ctxf).

  (** ** From below: at least the value *)
  Lemma items_below (k : TId -> bytes -> worked (value C)) ts : (forall t bs v r, fst (k t bs) = Ok (v, r) -> nodes v <= calls (snd (k t bs)) /\ depth v <= levels (snd (k t bs))) ->
    forall bs vs r, fst (k_items (C := C) k (ts : list TId) bs) = Ok (vs, r) ->
    total (map nodes vs) <= calls (snd (k_items k ts bs)) /\ largest (map depth vs) <= levels (snd (k_items k ts bs)).
  Proof.
    intro H. induction ts as [|t ts IH]; intros bs vs r; cbn [k_items].
    - intro E. cbn [alone fst] in E. injection E as <- <-. split; apply N.le_0_l.
    - specialize (H t bs). destruct (k t bs) as [[[v b]|e] n]; [|discriminate]. okstep; rewrite wbind_alone. cbn [fst snd].
      specialize (IH b). destruct (k_items k ts b) as [[[us b']|e] n']; [|discriminate]. cbn [fst snd bind] in *. intro E. injection E as <- <-.
      destruct (H v b eq_refl) as [H1 H2]. destruct (IH us b' eq_refl) as [H3 H4]. cbn [map total largest fold_right then_ calls levels]. fold (largest (map depth us)). split; lia.
  Qed.
  Lemma below fuel : forall c t bs v r, fst (kd fuel c t bs) = Ok (v, r) -> nodes v <= calls (snd (kd fuel c t bs)) /\ depth v <= levels (snd (kd fuel c t bs)).
  Proof.
    induction fuel as [|f IH]; intros c t bs v r; [discriminate|]. intro E. destruct (step reg X ctxf f c t bs) as [[S1 S2]|[(t' & R & S1 & S2)|(ts & bs' & c' & U & S1 & S2)]].
    - rewrite E in S2. rewrite S1. destruct S2 as [-> ->]. cbn [within_call idle calls levels]. lia.
    - rewrite S1 in E. rewrite S2. destruct (IH _ _ _ _ _ E). cbn [within_call calls levels]. lia.
    - rewrite S1. pose proof (items_below (kd f c') ts (fun t bs v r => IH c' t bs v r) bs') as B. destruct (fst (k_items (kd f c') ts bs')) as [[vs b]|e]; [|congruence].
      destruct S2 as (v' & E' & S3 & S4). rewrite E in E'. injection E' as <- <-. destruct (B vs r eq_refl). cbn [within_call calls levels]. lia.
  Qed.

  (** ** Out of fuel: as many levels as fuel *)
  Lemma items_hang (k : TId -> bytes -> worked (value C)) ts n : (forall t bs, fst (k t bs) = Err EHang -> n <= levels (snd (k t bs))) ->
    forall bs, fst (k_items (C := C) k (ts : list TId) bs) = Err EHang -> n <= levels (snd (k_items k ts bs)).
  Proof.
    intro H. induction ts as [|t ts IH]; intro bs; cbn [k_items]; [discriminate|].
    specialize (H t bs). destruct (k t bs) as [[[v b]|e] m]; [|intro E; cbn [wbind fst snd] in *; apply H; congruence]. okstep; rewrite wbind_alone. cbn [fst snd].
    specialize (IH b). destruct (k_items k ts b) as [[[us b']|e] n']; [discriminate|]. cbn [fst snd bind then_ levels] in *. intro E. specialize (IH E). lia.
  Qed.
  Lemma hang_levels fuel : forall c t bs, fst (kd fuel c t bs) = Err EHang -> N.of_nat fuel <= levels (snd (kd fuel c t bs)).
  Proof.
    induction fuel as [|f IH]; intros c t bs E; [apply N.le_0_l|]. destruct (step reg X ctxf f c t bs) as [[S1 S2]|[(t' & R & S1 & S2)|(ts & bs' & c' & U & S1 & S2)]].
    - rewrite E in S2. congruence.
    - rewrite S1 in E. rewrite S2. specialize (IH _ _ _ E). cbn [within_call levels]. lia.
    - rewrite S1. pose proof (items_hang (kd f c') ts _ (fun t bs => IH c' t bs) bs') as B. destruct (fst (k_items (kd f c') ts bs')) as [[vs b]|e]; [destruct S2 as (v & S2 & _); congruence|].
      rewrite E in S2. injection S2 as <-. specialize (B eq_refl). cbn [within_call levels]. lia.
  Qed.

  (** ** What is left is shorter *)
  Lemma left_over fuel c t bs v r : is_bytes bs -> fst (kd fuel c t bs) = Ok (v, r) -> exists pre, bs = pre ++ r /\ is_bytes r /\ enc reg (x_maxbits X) (x_len X) ctxf PU256 false c t v pre.
  Proof.
    intros HB E. rewrite kdecode_erase in E. apply decode_sound in E as (pre & -> & E); [|exact HB]. exists pre. split; [reflexivity|]. split; [eapply is_bytes_app_r, HB|exact E].
  Qed.

  (** ** Recursion *)
  Section Ranks.
    Context (h : TId -> N) (R : N) (HR : ranks reg h R).
    Lemma items_levels f c n ts : (forall t, In t ts -> forall bs, is_bytes bs -> len bs <= n -> levels (snd (kd f c t bs)) <= 1 + h t + (1 + R) * len bs) ->
      forall q, (forall t, In t ts -> h t <= q) -> forall bs, is_bytes bs -> len bs <= n -> levels (snd (k_items (kd f c) ts bs)) <= 1 + q + (1 + R) * len bs.
    Proof.
      induction ts as [|t ts IH]; intros H q Hq bs HB HL; cbn [k_items]; [cbn [alone snd idle levels]; lia|].
      pose proof (H t (or_introl eq_refl) bs HB HL) as H1. pose proof (Hq t (or_introl eq_refl)). pose proof (left_over f c t bs) as LO. destruct (kd f c t bs) as [[[v b]|e] m]; cbn [fst snd] in *; [|cbn [wbind fst snd]; lia].
      destruct (LO v b HB eq_refl) as (pre & -> & HB' & _). okstep; rewrite wbind_alone. cbn [fst snd then_ levels]. rewrite len_app in *.
      assert (H2 : levels (snd (k_items (kd f c) ts b)) <= 1 + q + (1 + R) * len b) by (apply IH; [intros; apply H; [right|..]; assumption|intros; apply Hq; right; assumption|exact HB'|lia]). nia.
    Qed.
    Lemma levels_bound fuel : forall c t bs, is_bytes bs -> levels (snd (kd fuel c t bs)) <= 1 + h t + (1 + R) * len bs.
    Proof.
      induction fuel as [|f IH]; intros c t bs HB; [cbn [kdecode alone snd idle levels]; lia|]. destruct (step reg X ctxf f c t bs) as [[-> _]|[(t' & E & _ & ->)|(ts & bs' & c' & U & -> & _)]].
      - cbn [within_call idle levels]. lia.
      - pose proof (IH true t' bs HB). pose proof (r_inside _ _ _ HR t t' (In_compact reg t t' E)). cbn [within_call levels]. lia.
      - pose proof (fun q Hq HB' => items_levels f c' (len bs') ts (fun u _ b HBb _ => IH c' u b HBb) q Hq bs' HB' (N.le_refl _)) as B. cbn [within_call levels].
        assert (ins : bs' = bs -> (forall u, In u ts -> inside reg u t) -> 1 + levels (snd (k_items (kd f c') ts bs')) <= 1 + h t + (1 + R) * len bs).
        { intros -> Hi. destruct ts as [|u ts]; [cbn [k_items alone snd idle levels]; lia|].
          assert (1 <= h t) by (pose proof (r_inside _ _ _ HR t u (Hi u (or_introl eq_refl))); lia).
          specialize (B (h t - 1) ltac:(intros u' Hu; pose proof (r_inside _ _ _ HR t u' (Hi u' Hu)); lia) HB). lia. }
        destruct U as [t fs bs c E|t ts bs c E|t e n bs E|t vs v i bs E I|t e n bs bs' E CD].
        + apply ins; [reflexivity|]. intros u Hu. apply in_map_iff in Hu as ([nm u'] & <- & Hi). eapply In_field; eauto.
        + apply ins; [reflexivity|]. intros u Hu. eapply In_tuple; eauto.
        + apply ins; [reflexivity|]. intros u Hu. apply items_of_In in Hu as [-> Hn]. eapply In_array; [exact E|]. lia.
        + rewrite len_cons. specialize (B R). assert (levels (snd (k_items (kd f false) (map snd (vi_fields v)) bs)) <= 1 + R + (1 + R) * len bs).
          { apply B; [|exact (Forall_inv_tail HB)]. intros u Hu. apply in_map_iff in Hu as (fl & <- & Hi). eapply (r_variant _ _ _ HR); eauto. } nia.
        + destruct (compact_decode_shorter _ _ _ _ HB CD) as [HB' SH]. specialize (B R ltac:(intros u Hu; apply repeat_spec in Hu as ->; eapply (r_sequence _ _ _ HR); eauto) HB').
          assert (len bs' + 1 <= len bs) by (unfold len; lia). nia.
    Qed.
  End Ranks.

  (** ** Calls *)
  Section Calls.
    Context (m : TId -> N) (S : N) (W : call_weights reg m S).
    Context (NE : forall t e, reg t = ResTy (TSequence e) -> forall v bs, enc reg (x_maxbits X) (x_len X) ctxf PU256 false false e v bs -> bs <> []).
    Definition okc {A} (w : N) (bs : bytes) (x : worked A) : Prop :=
      match fst x with
      | Ok (_, r) => exists pre, bs = pre ++ r /\ is_bytes r /\ SizeFacts.within S (calls (snd x)) w (len pre)
      | Err _ => calls (snd x) <= w + 2 * S * len bs
      end.
    Lemma items_calls f c ts : (forall t bs, In t ts -> is_bytes bs -> okc (m t) bs (kd f c t bs)) -> forall bs, is_bytes bs -> okc (total (map m ts)) bs (k_items (kd f c) ts bs).
    Proof.
      induction ts as [|t ts IH]; intros H bs HB; cbn [k_items].
      - exists []. split; [reflexivity|]. split; [exact HB|]. cbn [alone snd idle calls map total]. change (len []) with 0. unfold SizeFacts.within. cbv iota beta delta [N.eqb]. rewrite N.mul_0_r. reflexivity.
      - specialize (H t bs (or_introl eq_refl) HB) as H1. unfold okc in H1. destruct (kd f c t bs) as [[[v b]|e] n]; cbn [fst snd] in *.
        + destruct H1 as (pre & -> & HB' & H1). specialize (IH (fun u b' Hu => H u b' (or_intror Hu)) b HB'). okstep; rewrite wbind_alone. cbn [fst snd]. unfold okc in *. cbn [fst snd].
          destruct (k_items (kd f c) ts b) as [[[us b']|e] n']; cbn [fst snd bind] in *.
          * destruct IH as (pre' & -> & HB'' & IH). exists (pre ++ pre'). rewrite <- app_assoc. split; [reflexivity|]. split; [exact HB''|]. cbn [map total then_ calls]. rewrite len_app. apply within_plus; assumption.
          * cbn [map total then_ calls]. rewrite len_app. unfold SizeFacts.within in H1. destruct (len pre =? 0); lia.
        + unfold okc. cbn [wbind fst snd map total]. lia.
    Qed.
    Lemma items_seq f e k : m e <= S -> (forall v bs, enc reg (x_maxbits X) (x_len X) ctxf PU256 false false e v bs -> bs <> []) ->
      (forall bs, is_bytes bs -> okc (m e) bs (kd f false e bs)) -> forall bs, is_bytes bs ->
      match fst (k_items (kd f false) (repeat e k) bs) with
      | Ok (_, r) => exists pre, bs = pre ++ r /\ is_bytes r /\ calls (snd (k_items (kd f false) (repeat e k) bs)) <= 2 * S * len pre
      | Err _ => calls (snd (k_items (kd f false) (repeat e k) bs)) <= S + 2 * S * len bs
      end.
    Proof.
      intros HS HN H. induction k as [|k IH]; intros bs HB; cbn [repeat k_items].
      - exists []. split; [reflexivity|]. split; [exact HB|]. apply N.le_0_l.
      - specialize (H bs HB) as H1. pose proof (left_over f false e bs) as LO. unfold okc in H1. destruct (kd f false e bs) as [[[v b]|er] n]; cbn [fst snd] in *.
        + destruct (LO v b HB eq_refl) as (pre0 & E0 & HB' & E). destruct H1 as (pre & E1 & _ & H1). assert (pre = pre0) by (apply (app_inv_tail b); congruence). subst pre0 bs.
          apply HN in E. assert (1 <= len pre) by (unfold len; destruct pre; [contradiction|cbn [length]; lia]).
          assert (H2 : calls n <= 2 * S * len pre) by (unfold SizeFacts.within in H1; destruct (N.eqb_spec (len pre) 0); lia).
          specialize (IH b HB'). okstep; rewrite wbind_alone. cbn [fst snd]. destruct (k_items (kd f false) (repeat e k) b) as [[[us b']|er] n']; cbn [fst snd bind then_ calls] in *.
          * destruct IH as (pre' & -> & HB'' & IH). exists (pre ++ pre'). rewrite <- app_assoc. split; [reflexivity|]. split; [exact HB''|]. rewrite len_app. lia.
          * rewrite len_app. lia.
        + cbn [wbind fst snd]. lia.
    Qed.
    Lemma calls_bound fuel : forall c t bs, is_bytes bs -> okc (m t) bs (kd fuel c t bs).
    Proof.
      induction fuel as [|f IH]; intros c t bs HB; [unfold okc; cbn; lia|].
      pose proof (left_over (Datatypes.S f) c t bs) as LO. pose proof (c_pos _ _ _ W t) as P.
      destruct (step reg X ctxf f c t bs) as [[S1 S2]|[(t' & E & S1 & S2)|(ts & bs' & c' & U & S1 & S2)]].
      - unfold okc. rewrite S1. cbn [within_call idle calls]. destruct (fst (kd (Datatypes.S f) c t bs)) as [[v r]|e]; [|lia].
        destruct (LO v r HB eq_refl) as (pre & -> & HB' & _). exists pre. split; [reflexivity|]. split; [exact HB'|]. apply within_leaf. exact P.
      - specialize (IH true t' bs HB). unfold okc in *. rewrite S1, S2. cbn [within_call calls]. pose proof (c_compact _ _ _ W t t' E). destruct (fst (kd f true t' bs)) as [[v r]|e]; [|lia].
        destruct IH as (pre & -> & HB' & IH). exists pre. split; [reflexivity|]. split; [exact HB'|]. unfold SizeFacts.within in *. destruct (len pre =? 0); lia.
      - assert (plain : forall w, bs' = bs -> total (map m ts) <= w -> 1 + w <= m t -> okc (m t) bs (kd (Datatypes.S f) c t bs)).
        { intros w -> Hw Hm. pose proof (items_calls f c' ts (fun u b _ => IH c' u b) bs HB) as B. unfold okc in *. rewrite S1. cbn [within_call calls]. destruct (fst (k_items (kd f c') ts bs)) as [[vs r]|e].
          - destruct S2 as (v & -> & _). destruct B as (pre & -> & HB' & B). exists pre. split; [reflexivity|]. split; [exact HB'|]. unfold SizeFacts.within in *. destruct (len pre =? 0); lia.
          - rewrite S2. lia. }
        destruct U as [t fs bs c E|t ts bs c E|t e n bs E|t vs v i bs E I|t e n bs bs' E CD].
        + apply (plain (total (map m (map snd fs)))); [reflexivity|lia|]. rewrite map_map. exact (c_composite _ _ _ W t fs E).
        + apply (plain (total (map m ts))); [reflexivity|lia|]. exact (c_tuple _ _ _ W t ts E).
        + apply (plain (n * m e)); [reflexivity| |exact (c_array _ _ _ W t e n E)]. rewrite map_repeat, total_repeat, N2Nat.id. lia.
        + pose proof (items_calls f false _ (fun u b _ => IH false u b) bs (Forall_inv_tail HB) : okc (total (map m (map snd (vi_fields v)))) bs _) as B.
          pose proof (c_variant _ _ _ W t vs v E I) as HV. rewrite map_map in B. unfold okc in *. rewrite S1. cbn [within_call calls].
          destruct (fst (k_items (kd f false) (map snd (vi_fields v)) bs)) as [[us r]|e].
          * destruct S2 as (u & -> & _). destruct B as (pre & -> & HB' & B). exists (i :: pre). split; [reflexivity|]. split; [exact HB'|]. rewrite len_cons.
            unfold SizeFacts.within in *. destruct (N.eqb_spec (len pre) 0), (N.eqb_spec (1 + len pre) 0); nia.
          * rewrite S2, len_cons. nia.
        + destruct (compact_decode_shorter _ _ _ _ HB CD) as [HB' SH]. pose proof (c_sequence _ _ _ W t e E) as HS.
          pose proof (items_seq f e (N.to_nat n) HS (NE t e E) (fun b => IH false e b) bs' HB') as B. pose proof (c_pos _ _ _ W e) as Pe. assert (L1 : len bs' + 1 <= len bs) by (unfold len; lia).
          unfold okc in *. rewrite S1. cbn [within_call calls]. destruct (fst (k_items (kd f false) (repeat e (N.to_nat n)) bs')) as [[us r]|er].
          * destruct S2 as (v & S2 & _). rewrite S2 in *. destruct B as (pre & E' & _ & B). destruct (LO v r HB eq_refl) as (pre0 & -> & HBr & _). exists pre0. split; [reflexivity|]. split; [exact HBr|].
            rewrite E' in L1. rewrite !len_app in L1. unfold SizeFacts.within. destruct (N.eqb_spec (len pre0) 0); nia.
          * rewrite S2. nia.
    Qed.
  End Calls.
End Bounds.
