(** * TraceFacts: the tracing decoder against the plain one, and the location of its errors. *)
From Verif Require Import Base Value ValueFacts Registry Spec_Scale Scale ScaleFacts BitsFacts Decode DecodeFacts Trace Spec_Trace.
Open Scope N_scope.

Lemma cause_outer {V W} p d (f : V -> W) e : cause_of (with_outer p d f e) = cause_of e.
Proof. destruct e; reflexivity. Qed.
Lemma cause_map {V W} (f : V -> W) e : cause_of (map_so_far f e) = cause_of e.
Proof. destruct e; reflexivity. Qed.

Lemma read_prim_untag lb c p bs : read_prim lb PU256 c p bs = rmap (fun x => (i256_as_u256 (fst x), snd x)) (read_prim lb PI256 c p bs).
Proof.
  unfold read_prim. destruct p, c; try reflexivity.
  - destruct bs as [|b r]; [reflexivity|]. destruct (b =? 0), (b =? 1); reflexivity.
  - destruct (take 4 bs) as [[x y]|e]; [|reflexivity]. cbn [bind fst snd]. cbv zeta. destruct (is_scalar _); reflexivity.
  - destruct (compact_decode lb bs) as [[n y]|e]; [|reflexivity]. cbn [bind fst snd]. destruct (take _ y) as [[x z]|e]; [|reflexivity]. cbn [bind fst snd].
    destruct (utf8_decode x); reflexivity.
  - destruct (compact_decode (wbits w) bs) as [[n y]|e]; reflexivity.
  - destruct (take (wbytes w) bs) as [[n y]|e]; reflexivity.
  - destruct (take (wbytes w) bs) as [[n y]|e]; reflexivity.
  - destruct (take 32 bs) as [[n y]|e]; reflexivity.
  - destruct (take 32 bs) as [[n y]|e]; reflexivity.
Qed.

Section Agree.
  Context {TId : Type} (reg : TId -> resolution TId) (X : ext).
  Local Notation dec := (decode reg X (fun t => t)).
  Local Notation "v ≤MAX" := (within MAX_CAPACITY v) (at level 9).

  (** What a run of the tracing decoder says about a run of the plain one. *)
  Definition agrees {A B V} (u : A -> B) (ok : B -> Prop) (r1 : tres A V) (r2 : dres B) : Prop :=
    match r1 with
    | Ok (v, r) => r2 = Ok (u v, r)
    | Err e => match cause_of e with
               | CDecode d => r2 = Err d
               | CCapacity => forall v r, r2 = Ok (v, r) -> ~ ok v
               end
    end.

  Section Loop.
    Context (item : list seg -> TId -> bytes -> tres (value TId) (value TId)) (d : TId -> bytes -> dres (value TId)).
    Context (HI : forall p t bs, agrees untag (within MAX_CAPACITY) (item p t bs) (d t bs)).

    Lemma unnamed_agrees path ts : forall idx vals bs,
      agrees (fun c => match c with Unnamed l => map untag l | Named l => [] end)
             (fun vs => Forall (within MAX_CAPACITY) vs)
             (unnamed_loop item path idx vals ts bs)
             (bind (decode_items d ts bs) (fun x => Ok (map untag vals ++ fst x, snd x))).
    Proof.
      induction ts as [|t ts IH]; intros idx vals bs; cbn [unnamed_loop decode_items].
      - cbn [agrees bind fst snd]. rewrite app_nil_r. reflexivity.
      - specialize (HI (path ++ [SIndex idx]) t bs). destruct (item _ t bs) as [[v b]|e]; cbn [agrees] in HI.
        + rewrite HI. cbn [bind fst snd]. specialize (IH (S idx) (vals ++ [v]) b). unfold agrees in *.
          destruct (unnamed_loop item path (S idx) (vals ++ [v]) ts b) as [[c r]|e].
          * destruct (decode_items d ts b) as [[vs r']|e']; [|discriminate]. cbn [bind fst snd] in *. injection IH as <- <-.
            rewrite map_app, <- app_assoc. reflexivity.
          * destruct (cause_of e).
            -- destruct (decode_items d ts b) as [[vs r']|e']; [discriminate|]. exact IH.
            -- intros w r H. destruct (decode_items d ts b) as [[vs r']|e']; [|discriminate]. cbn [bind fst snd] in *. injection H as <- <-.
               specialize (IH _ _ eq_refl). rewrite map_app, <- app_assoc in IH. exact IH.
        + unfold agrees. rewrite cause_outer. destruct (cause_of e).
          * rewrite HI. reflexivity.
          * intros w r H. destruct (d t bs) as [[x b]|]; [|discriminate]. cbn [bind fst snd] in H.
            destruct (decode_items d ts b) as [[vs r']|]; [|discriminate]. cbn [bind fst snd] in H. injection H as <- <-.
            specialize (HI _ _ eq_refl). rewrite Forall_app. intros [_ F]. apply HI. inversion F; assumption.
    Qed.

    Lemma named_agrees path fs : has_unnamed fs = false -> forall vals bs,
      agrees (fun c => match c with Named l => map (fun kv => (fst kv, untag (snd kv))) l | Unnamed l => [] end)
             (fun kvs => Forall (fun kv => within MAX_CAPACITY (snd kv)) kvs)
             (named_loop item path vals fs bs)
             (bind (decode_named d fs bs) (fun x => Ok (map (fun kv => (fst kv, untag (snd kv))) vals ++ fst x, snd x))).
    Proof.
      induction fs as [|[name t] fs IH]; intros HU vals bs; cbn [named_loop decode_named].
      - cbn [agrees bind fst snd]. rewrite app_nil_r. reflexivity.
      - unfold has_unnamed in HU. cbn [existsb fst snd] in HU. apply orb_false_iff in HU as [HU1 HU2]. fold (has_unnamed fs) in HU2.
        destruct name as [n|]; [|discriminate]. cbv zeta. specialize (HI (path ++ [SField n]) t bs). destruct (item _ t bs) as [[v b]|e]; cbn [agrees] in HI.
        + rewrite HI. cbn [bind fst snd]. specialize (IH HU2 (vals ++ [(n, v)]) b). unfold agrees in *.
          destruct (named_loop item path (vals ++ [(n, v)]) fs b) as [[c r]|e].
          * destruct (decode_named d fs b) as [[vs r']|e']; [|discriminate]. cbn [bind fst snd] in *. injection IH as <- <-.
            rewrite map_app, <- app_assoc. reflexivity.
          * destruct (cause_of e).
            -- destruct (decode_named d fs b) as [[vs r']|e']; [discriminate|]. exact IH.
            -- intros w r H. destruct (decode_named d fs b) as [[vs r']|e']; [|discriminate]. cbn [bind fst snd] in *. injection H as <- <-.
               specialize (IH _ _ eq_refl). rewrite map_app, <- app_assoc in IH. exact IH.
        + unfold agrees. rewrite cause_outer. destruct (cause_of e).
          * rewrite HI. reflexivity.
          * intros w r H. destruct (d t bs) as [[x b]|]; [|discriminate]. cbn [bind fst snd] in H.
            destruct (decode_named d fs b) as [[vs r']|]; [|discriminate]. cbn [bind fst snd] in H. injection H as <- <-.
            specialize (HI _ _ eq_refl). rewrite Forall_app. intros [_ F]. apply HI. inversion F; assumption.
    Qed.

    Definition cwithin (c : composite (value TId)) : Prop := N.of_nat (length (values c)) <= MAX_CAPACITY /\ Forall (within MAX_CAPACITY) (values c).

    Lemma unnamed_loop_form path ts : forall idx vals bs c r, unnamed_loop item path idx vals ts bs = Ok (c, r) -> exists l, c = Unnamed l.
    Proof.
      induction ts as [|t ts IH]; intros idx vals bs c r H; cbn [unnamed_loop] in H.
      - injection H as <- _. eauto.
      - destruct (item _ t bs) as [[v b]|]; [|discriminate]. eapply IH; exact H.
    Qed.
    Lemma named_loop_form path fs : forall vals bs c r, named_loop item path vals fs bs = Ok (c, r) -> exists l, c = Named l.
    Proof.
      induction fs as [|[n t] fs IH]; intros vals bs c r H; cbn [named_loop] in H.
      - injection H as <- _. eauto.
      - destruct (item _ t bs) as [[v b]|]; [|discriminate]. eapply IH; exact H.
    Qed.

    Lemma to_unnamed_agrees path n ts bs : N.of_nat (length ts) = n ->
      agrees (composite_map untag) cwithin (to_unnamed_composite item path n ts bs) (bind (decode_items d ts bs) (fun x => Ok (Unnamed (fst x), snd x))).
    Proof.
      intro Hn. unfold to_unnamed_composite. destruct (N.ltb_spec MAX_CAPACITY n) as [L|L].
      - cbn [agrees cause_of]. intros v r H [Hl _]. destruct (decode_items d ts bs) as [[vs b]|] eqn:E; [|discriminate].
        injection H as <- <-. cbn [values fst] in Hl. apply decode_items_length in E. rewrite E in Hl. lia.
      - pose proof (unnamed_agrees path ts 0%nat [] bs) as H. cbn [map app] in H. unfold agrees in *.
        destruct (unnamed_loop item path 0 [] ts bs) as [[c r]|e] eqn:E.
        + apply unnamed_loop_form in E as [l ->]. cbn [composite_map]. destruct (decode_items d ts bs) as [[vs b]|]; [|discriminate].
          cbn [bind fst snd] in *. injection H as -> ->. reflexivity.
        + destruct (cause_of e).
          * destruct (decode_items d ts bs) as [[vs b]|]; [discriminate|cbn [bind] in *; congruence].
          * intros v r Hv. destruct (decode_items d ts bs) as [[vs b]|]; [|discriminate]. cbn [bind fst snd] in *. injection Hv as <- <-.
            specialize (H _ _ eq_refl). intros [_ F]. apply H, F.
    Qed.

    Lemma composite_agrees path fs bs : agrees (composite_map untag) cwithin (trace_composite item path fs bs) (visit_composite d fs bs).
    Proof.
      unfold trace_composite, visit_composite. destruct (Nat.ltb_spec 0 (length fs)) as [L|L]; cbn [andb].
      2:{ apply to_unnamed_agrees. rewrite map_length. reflexivity. }
      destruct (has_unnamed fs) eqn:U; cbn [negb]; [apply to_unnamed_agrees; rewrite map_length; reflexivity|].
      pose proof (named_agrees path fs U [] bs) as H. cbn [map app] in H. unfold agrees in *.
      destruct (named_loop item path [] fs bs) as [[c r]|e] eqn:E.
      - apply named_loop_form in E as [l ->]. cbn [composite_map]. destruct (decode_named d fs bs) as [[vs b]|]; [|discriminate].
        cbn [bind fst snd] in *. injection H as -> ->. reflexivity.
      - destruct (cause_of e).
        + destruct (decode_named d fs bs) as [[vs b]|]; [discriminate|cbn [bind] in *; congruence].
        + intros v r Hv. destruct (decode_named d fs bs) as [[vs b]|]; [|discriminate]. cbn [bind fst snd] in *. injection Hv as <- <-.
          specialize (H _ _ eq_refl). intros [_ F]. apply H. cbn [values] in F. rewrite Forall_map in F. exact F.
    Qed.

    Lemma wrap_agrees t r1 (r2 : dres (composite (value TId))) : agrees (composite_map untag) cwithin r1 r2 ->
      agrees untag (within MAX_CAPACITY) (wrap_composite t r1) (bind r2 (fun x => Ok (Val (DComposite (fst x)) t, snd x))).
    Proof.
      unfold agrees, wrap_composite. destruct r1 as [[c r]|e].
      - intros ->. reflexivity.
      - rewrite cause_map. destruct (cause_of e); [intros ->; reflexivity|]. intros H v r Hv. destruct r2 as [[c b]|]; [|discriminate].
        cbn [bind fst snd] in Hv. injection Hv as <- <-. intro W. inversion W; subst. apply (H c b eq_refl). split; assumption.
    Qed.
  End Loop.

  Lemma bind_assoc_u t (r : dres (list (value TId))) :
    bind (bind r (fun x => Ok (Unnamed (fst x), snd x))) (fun x => Ok (Val (DComposite (fst x)) t, snd x)) =
    bind r (fun x => Ok (Val (DComposite (Unnamed (fst x))) t, snd x)).
  Proof. destruct r as [[v b]|]; reflexivity. Qed.

  Theorem trace_agrees : forall fuel path c t bs, agrees untag (within MAX_CAPACITY) (trace reg X fuel path c t bs) (dec fuel c t bs).
  Proof.
    induction fuel as [|f IH]; intros path c t bs; [reflexivity|]. cbn [trace decode].
    destruct (reg t) as [| |[fs|vs|t'|t' n|ts|p|t'|st o]]; try reflexivity.
    - destruct (c && _); [reflexivity|]. apply wrap_agrees, composite_agrees. intros p; apply IH.
    - destruct c; [reflexivity|]. destruct bs as [|i bs]; [reflexivity|]. destruct (find _ vs) as [v|]; [|reflexivity].
      pose proof (composite_agrees (fun p => trace reg X f p false) (dec f false) (fun p => IH p false) path (vi_fields v) bs) as H.
      unfold agrees in *. destruct (trace_composite _ path (vi_fields v) bs) as [[cm r]|e]; [rewrite H; reflexivity|].
      rewrite cause_outer. destruct (cause_of e); [rewrite H; reflexivity|]. intros w r Hw.
      destruct (visit_composite (dec f false) (vi_fields v) bs) as [[cm b]|]; [|discriminate]. cbn [bind fst snd] in Hw. injection Hw as <- <-.
      intro W. inversion W; subst. apply (H cm b eq_refl). split; assumption.
    - destruct c; [reflexivity|]. destruct (compact_decode (x_len X) bs) as [[n b]|e]; [|reflexivity]. cbn [bind fst snd]. unfold to_unnamed.
      rewrite <- bind_assoc_u. apply wrap_agrees, to_unnamed_agrees; [intros p; apply IH|]. rewrite repeat_length, N2Nat.id. reflexivity.
    - destruct c; [reflexivity|]. unfold to_unnamed.
      rewrite <- bind_assoc_u. apply wrap_agrees, to_unnamed_agrees; [intros p; apply IH|]. rewrite repeat_length, N2Nat.id. reflexivity.
    - destruct (c && _); [reflexivity|]. unfold to_unnamed.
      rewrite <- bind_assoc_u. apply wrap_agrees, to_unnamed_agrees; [intros p; apply IH|reflexivity].
    - rewrite read_prim_untag. destruct (read_prim (x_len X) PI256 c p bs) as [[x b]|e]; reflexivity.
    - apply IH.
    - destruct c; [reflexivity|]. destruct (decode_bits _ st o bs) as [[x b]|e]; reflexivity.
  Qed.
End Agree.

(** ** Where the error is *)
Section Locate.
  Context {TId : Type} (reg : TId -> resolution TId) (X : ext).
  Local Notation ENC := (enc reg (x_maxbits X) (x_len X) (fun t : TId => t) PI256 false).
  Local Notation ENCS := (encs reg (x_maxbits X) (x_len X) (fun t : TId => t) PI256 false).
  Local Notation LOC := (located reg (x_maxbits X) (x_len X)).
  Local Notation LOCIN := (located_in reg (x_maxbits X) (x_len X)).

  Definition item_ok c (item : list seg -> TId -> bytes -> tres (value TId) (value TId)) : Prop :=
    forall p t bs v r, is_bytes bs -> item p t bs = Ok (v, r) -> exists pre, bs = pre ++ r /\ ENC c t v pre.

  Lemma encs_snoc c ts vs pre t v b : ENCS c ts vs pre -> ENC c t v b -> ENCS c (ts ++ [t]) (vs ++ [v]) (pre ++ b).
  Proof.
    induction 1 as [c|c u ts w vs b1 bs Hu _ IH]; intro H; cbn [app].
    - rewrite <- (app_nil_r b). constructor; [exact H|constructor].
    - rewrite <- app_assoc. constructor; [exact Hu|apply IH, H].
  Qed.

  Lemma encs_length' c ts vs bs : ENCS c ts vs bs -> length vs = length ts.
  Proof. induction 1; cbn [length]; congruence. Qed.

  Lemma unnamed_run item c path : item_ok c item -> forall ts idx vals bs, is_bytes bs ->
    match unnamed_loop item path idx vals ts bs with
    | Ok (cmp, r) => exists vs pre, cmp = Unnamed (vals ++ vs) /\ bs = pre ++ r /\ ENCS c ts vs pre
    | Err e => exists ts1 t' ts2 vs pre rest e0, ts = ts1 ++ t' :: ts2 /\ bs = pre ++ rest /\ ENCS c ts1 vs pre /\
        item (path ++ [SIndex (idx + length ts1)]) t' rest = Err e0 /\
        exists into, e = with_outer (path ++ [SIndex (idx + length ts1)]) (Unnamed (vals ++ vs)) into e0 /\ forall v, into v = Unnamed (vals ++ vs ++ [v])
    end.
  Proof.
    intro HI. induction ts as [|t ts IH]; intros idx vals bs HB; cbn [unnamed_loop].
    - exists [], []. rewrite app_nil_r. repeat split. constructor.
    - destruct (item (path ++ [SIndex idx]) t bs) as [[v b]|e0] eqn:E.
      + apply HI in E as (p1 & -> & E1); [|exact HB]. apply is_bytes_app in HB as [_ HB]. specialize (IH (S idx) (vals ++ [v]) b HB).
        destruct (unnamed_loop item path (S idx) (vals ++ [v]) ts b) as [[cmp r]|e].
        * destruct IH as (vs & pre & -> & -> & ES). exists (v :: vs), (p1 ++ pre). rewrite <- app_assoc. split; [reflexivity|].
          split; [apply app_assoc|]. constructor; assumption.
        * destruct IH as (ts1 & t' & ts2 & vs & pre & rest & e0 & -> & -> & ES & EI & into & -> & HT).
          exists (t :: ts1), t', ts2, (v :: vs), (p1 ++ pre), rest, e0. split; [reflexivity|]. split; [apply app_assoc|].
          split; [constructor; assumption|]. cbn [length]. replace (idx + S (length ts1))%nat with (S idx + length ts1)%nat by lia.
          split; [exact EI|]. exists into. rewrite <- !app_assoc. split; [reflexivity|]. intro x. rewrite HT, <- !app_assoc. reflexivity.
      + exists [], t, ts, [], [], bs, e0. rewrite Nat.add_0_r, app_nil_r. repeat split; [constructor|exact E|]. eexists. split; reflexivity.
  Qed.

  Lemma named_run item c path : item_ok c item -> forall fs, has_unnamed fs = false -> forall vals bs, is_bytes bs ->
    match named_loop item path vals fs bs with
    | Ok (cmp, r) => exists kvs pre, cmp = Named (vals ++ kvs) /\ map fst fs = map (fun kv => Some (fst kv)) kvs /\ bs = pre ++ r /\ ENCS c (map snd fs) (map snd kvs) pre
    | Err e => exists fs1 n t' fs2 kvs pre rest e0, fs = fs1 ++ (Some n, t') :: fs2 /\ map fst fs1 = map (fun kv => Some (fst kv)) kvs /\
        bs = pre ++ rest /\ ENCS c (map snd fs1) (map snd kvs) pre /\
        item (path ++ [SField n]) t' rest = Err e0 /\
        exists into, e = with_outer (path ++ [SField n]) (Named (vals ++ kvs)) into e0 /\ forall v, into v = Named (vals ++ kvs ++ [(n, v)])
    end.
  Proof.
    intro HI. induction fs as [|[name t] fs IH]; intros HU vals bs HB; cbn [named_loop].
    - exists [], []. rewrite app_nil_r. repeat split. constructor.
    - unfold has_unnamed in HU. cbn [existsb fst snd] in HU. apply orb_false_iff in HU as [HU1 HU2]. fold (has_unnamed fs) in HU2.
      destruct name as [n|]; [|discriminate]. cbv zeta. destruct (item (path ++ [SField n]) t bs) as [[v b]|e0] eqn:E.
      + apply HI in E as (p1 & -> & E1); [|exact HB]. apply is_bytes_app in HB as [_ HB]. specialize (IH HU2 (vals ++ [(n, v)]) b HB).
        destruct (named_loop item path (vals ++ [(n, v)]) fs b) as [[cmp r]|e].
        * destruct IH as (kvs & pre & -> & EN & -> & ES). exists ((n, v) :: kvs), (p1 ++ pre). rewrite <- app_assoc. split; [reflexivity|].
          split; [cbn [map fst]; rewrite EN; reflexivity|]. split; [apply app_assoc|]. constructor; assumption.
        * destruct IH as (fs1 & n' & t' & fs2 & kvs & pre & rest & e0 & -> & EN & -> & ES & EI & into & -> & HT).
          exists ((Some n, t) :: fs1), n', t', fs2, ((n, v) :: kvs), (p1 ++ pre), rest, e0. split; [reflexivity|].
          split; [cbn [map fst]; rewrite EN; reflexivity|]. split; [apply app_assoc|].
          split; [constructor; assumption|]. split; [exact EI|]. exists into. rewrite <- !app_assoc. split; [reflexivity|]. intro x. rewrite HT, <- !app_assoc. reflexivity.
      + exists [], n, t, fs, [], [], bs, e0. rewrite app_nil_r. repeat split; [constructor|exact E|]. eexists. split; reflexivity.
  Qed.

  Lemma all_named_split (fs : list (field TId)) : has_unnamed fs = false -> exists ns, map fst fs = map Some ns.
  Proof.
    induction fs as [|[[n|] t] fs IH]; intro H; [exists []; reflexivity| |discriminate].
    destruct (IH H) as [ns E]. exists (n :: ns). cbn [map fst]. rewrite E. reflexivity.
  Qed.
  Lemma map_Some_inj {A} (a b : list A) : map Some a = map Some b -> a = b.
  Proof. revert b. induction a as [|x a IH]; intros [|y b] H; try discriminate; [reflexivity|]. injection H as -> H. f_equal. apply IH, H. Qed.
  Lemma combine_first {V} (kvs : list (str * V)) ns : combine (map fst kvs ++ ns) (map snd kvs) = kvs.
  Proof. induction kvs as [|[k v] kvs IH]; cbn [map app combine fst snd]; [destruct ns; reflexivity|]. rewrite IH. reflexivity. Qed.

  (** A composite: all went well, or it stopped in a field. *)
  Lemma composite_run item c path fs bs : item_ok c item -> is_bytes bs ->
    match trace_composite item path fs bs with
    | Ok (cmp, r) => exists vs pre, bs = pre ++ r /\ ENCS c (map snd fs) vs pre /\ fields_shape (map fst fs) vs cmp
    | Err e => (e = FromDecode CCapacity /\ MAX_CAPACITY < N.of_nat (length fs)) \/
        exists fs1 name t' fs2 vs pre rest e0 s cmp0 into, fs = fs1 ++ (name, t') :: fs2 /\ bs = pre ++ rest /\ ENCS c (map snd fs1) vs pre /\
          field_seg (map fst fs) (length fs1) s /\ item (path ++ [s]) t' rest = Err e0 /\ e = with_outer (path ++ [s]) cmp0 into e0 /\
          first_fields (map fst fs) vs cmp0 /\ (forall x, first_fields (map fst fs) (vs ++ [x]) (into x))
    end.
  Proof.
    intros HI HB. unfold trace_composite.
    assert (UN : (fs = [] \/ In None (map fst fs)) ->
      match to_unnamed_composite item path (N.of_nat (length fs)) (map snd fs) bs with
      | Ok (cmp, r) => exists vs pre, bs = pre ++ r /\ ENCS c (map snd fs) vs pre /\ fields_shape (map fst fs) vs cmp
      | Err e => (e = FromDecode CCapacity /\ MAX_CAPACITY < N.of_nat (length fs)) \/
          exists fs1 name t' fs2 vs pre rest e0 s cmp0 into, fs = fs1 ++ (name, t') :: fs2 /\ bs = pre ++ rest /\ ENCS c (map snd fs1) vs pre /\
            field_seg (map fst fs) (length fs1) s /\ item (path ++ [s]) t' rest = Err e0 /\ e = with_outer (path ++ [s]) cmp0 into e0 /\
            first_fields (map fst fs) vs cmp0 /\ (forall x, first_fields (map fst fs) (vs ++ [x]) (into x))
      end).
    { intro HN. unfold to_unnamed_composite. destruct (N.ltb_spec MAX_CAPACITY (N.of_nat (length fs))) as [L|L]; [left; split; [reflexivity|exact L]|].
      pose proof (unnamed_run item c path HI (map snd fs) 0%nat [] bs HB) as H. destruct (unnamed_loop item path 0 [] (map snd fs) bs) as [[cmp r]|e].
      - destruct H as (vs & pre & -> & -> & ES). exists vs, pre. split; [reflexivity|]. split; [exact ES|]. cbn [app].
        apply encs_length' in ES. rewrite map_length in ES. constructor; [rewrite map_length; congruence|].
        destruct HN as [->|HN]; [left; reflexivity|right; exact HN].
      - right. destruct H as (ts1 & t' & ts2 & vs & pre & rest & e0 & E & -> & ES & EI & into & -> & HT). cbn [app Nat.add] in *.
        assert (SP : exists fs1 name fs2, fs = fs1 ++ (name, t') :: fs2 /\ map snd fs1 = ts1).
        { clear -E. revert ts1 E. induction fs as [|[n t] fs IH]; intros [|t1 ts1] E; try discriminate; cbn [map snd app] in E.
          - injection E as -> E. exists [], n, fs. split; reflexivity.
          - injection E as -> E. destruct (IH ts1 E) as (fs1 & name & fs2 & -> & <-). exists ((n, t1) :: fs1), name, fs2. split; reflexivity. }
        destruct SP as (fs1 & name & fs2 & -> & <-). rewrite map_length in EI |- *.
        assert (LV : length vs = length fs1) by (apply encs_length' in ES; rewrite map_length in ES; exact ES).
        destruct HN as [HN|HN]; [destruct fs1; discriminate|].
        exists fs1, name, t', fs2, vs, pre, rest, e0, (SIndex (length fs1)), (Unnamed vs), into.
        split; [reflexivity|]. split; [reflexivity|]. split; [exact ES|].
        split; [constructor; [exact HN|rewrite map_length, app_length; cbn [length]; lia]|]. split; [exact EI|]. split; [reflexivity|].
        split; [constructor; [right; exact HN|rewrite map_length, app_length; lia]|].
        intro x. rewrite HT. constructor; [right; exact HN|rewrite map_length, !app_length; cbn [length]; lia]. }
    destruct (Nat.ltb_spec 0 (length fs)) as [L|L]; cbn [andb].
    2:{ apply UN. left. destruct fs; [reflexivity|cbn in L; lia]. }
    destruct (has_unnamed fs) eqn:U; cbn [negb]; [apply UN; right; apply has_unnamed_iff; exact U|].
    pose proof (named_run item c path HI fs U [] bs HB) as H. destruct (named_loop item path [] fs bs) as [[cmp r]|e].
    - destruct H as (kvs & pre & -> & EN & -> & ES). exists (map snd kvs), pre. split; [reflexivity|]. split; [exact ES|]. cbn [app]. rewrite EN. constructor.
      intros ->. destruct fs; [cbn in L; lia|discriminate].
    - right. destruct H as (fs1 & n & t' & fs2 & kvs & pre & rest & e0 & -> & EN & -> & ES & EI & into & -> & HT). cbn [app] in *.
      destruct (all_named_split _ U) as [ns ENs].
      assert (NS : exists ns2, ns = map fst kvs ++ n :: ns2).
      { rewrite map_app, EN in ENs. cbn [map fst] in ENs. unfold has_unnamed in U. rewrite existsb_app in U. apply orb_false_iff in U as [_ U].
        destruct (all_named_split (( Some n, t') :: fs2) U) as [ns' E']. cbn [map fst] in E'. destruct ns' as [|n' ns2]; [discriminate|].
        injection E' as <- E'. exists ns2. rewrite E' in ENs. apply map_Some_inj. rewrite map_app, map_map. cbn [map]. symmetry. exact ENs. }
      destruct NS as [ns2 ->].
      assert (LK : length kvs = length fs1) by (apply (f_equal (@length _)) in EN; rewrite !map_length in EN; congruence).
      exists fs1, (Some n), t', fs2, (map snd kvs), pre, rest, e0, (SField n), (Named kvs), into.
      split; [reflexivity|]. split; [reflexivity|]. split; [exact ES|]. rewrite ENs.
      split; [constructor; rewrite nth_error_app2; rewrite map_length, LK; [rewrite Nat.sub_diag; reflexivity|lia]|].
      split; [exact EI|]. split; [reflexivity|]. split.
      + rewrite <- (combine_first kvs (n :: ns2)) at 3. constructor; [destruct kvs; discriminate|rewrite !app_length, !map_length; lia].
      + intro x. rewrite HT. replace (kvs ++ [(n, x)]) with (combine (map fst kvs ++ n :: ns2) (map snd kvs ++ [x])).
        * constructor; [destruct kvs; discriminate|]. rewrite !app_length, !map_length. cbn [length]. lia.
        * rewrite <- (combine_first (kvs ++ [(n, x)]) ns2), !map_app, <- app_assoc. reflexivity.
  Qed.

  Lemma trace_sound : forall fuel path c t bs v r, is_bytes bs -> trace reg X fuel path c t bs = Ok (v, r) -> exists pre, bs = pre ++ r /\ ENC c t v pre.
  Proof.
    induction fuel as [|f IH]; intros path c t bs v r HB H; [discriminate|]. cbn [trace] in H.
    assert (IO : forall c, item_ok c (fun p => trace reg X f p c)) by (intros c' p t' bs' v' r' HB' H'; eapply IH; eauto).
    assert (UR : forall c ts bs n cmp r, is_bytes bs -> to_unnamed_composite (fun p => trace reg X f p c) path n ts bs = Ok (cmp, r) ->
               exists vs pre, cmp = Unnamed vs /\ bs = pre ++ r /\ ENCS c ts vs pre).
    { intros c' ts bs' n cmp r' HB' H'. unfold to_unnamed_composite in H'. destruct (_ <? _); [discriminate|].
      pose proof (unnamed_run _ c' path (IO c') ts 0%nat [] bs' HB') as U. rewrite H' in U. exact U. }
    destruct (reg t) as [| |[fs|vs|t'|t' n|ts|p|t'|st o]] eqn:R; try discriminate.
    - destruct (c && negb (length fs =? 1)%nat) eqn:EC; [discriminate|]. unfold wrap_composite in H.
      pose proof (composite_run _ c path fs bs (IO c) HB) as CR. destruct (trace_composite _ path fs bs) as [[cmp b]|]; [|discriminate].
      injection H as <- <-. destruct CR as (vs & pre & -> & ES & Sh). exists pre. split; [reflexivity|]. eapply (E_composite _ _ _ (fun t => t)); eauto.
      intros ->. cbn [andb] in EC. apply negb_false_iff, Nat.eqb_eq in EC. exact EC.
    - destruct c; [discriminate|]. destruct bs as [|idx bs]; [discriminate|].
      destruct (find (fun v0 => vi_index v0 =? idx) vs) as [[name i fs]|] eqn:F; [|discriminate]. cbn [vi_fields vi_name] in H.
      inversion HB as [|? ? Hi HB']; subst.
      pose proof (composite_run _ false path fs bs (IO false) HB') as CR. destruct (trace_composite _ path fs bs) as [[cmp b]|]; [|discriminate].
      injection H as <- <-. destruct CR as (ws & pre & -> & ES & Sh).
      apply find_index_split in F as (l1 & l2 & -> & Ei & Hn). cbn [vi_index] in Ei. subst i.
      exists (idx :: pre). split; [reflexivity|]. eapply (E_variant _ _ _ (fun t => t)); eauto.
    - destruct c; [discriminate|]. destruct (compact_decode (x_len X) bs) as [[n b]|e] eqn:CD; [|discriminate].
      apply compact_decode_sound in CD as (p1 & -> & HC & Hn); [|exact HB]. apply is_bytes_app in HB as [_ HB]. unfold wrap_composite in H.
      destruct (to_unnamed_composite _ path n _ b) as [[cmp b']|] eqn:TU; [|discriminate]. injection H as <- <-.
      apply UR in TU as (vs & p2 & -> & -> & ES); [|exact HB]. pose proof (encs_length' _ _ _ _ ES) as L. rewrite repeat_length in L.
      exists (p1 ++ p2). split; [apply app_assoc|]. eapply (E_sequence _ _ _ (fun t => t)); eauto; rewrite L, ?N2Nat.id; assumption.
    - destruct c; [discriminate|]. unfold wrap_composite in H.
      destruct (to_unnamed_composite _ path n _ bs) as [[cmp b']|] eqn:TU; [|discriminate]. injection H as <- <-.
      apply UR in TU as (vs & p2 & -> & -> & ES); [|exact HB]. pose proof (encs_length' _ _ _ _ ES) as L. rewrite repeat_length in L.
      exists p2. split; [reflexivity|]. eapply (E_array _ _ _ (fun t => t)); eauto; rewrite L, ?N2Nat.id; [reflexivity|assumption].
    - destruct (c && negb (length ts =? 1)%nat) eqn:EC; [discriminate|]. unfold wrap_composite in H.
      destruct (to_unnamed_composite _ path _ ts bs) as [[cmp b']|] eqn:TU; [|discriminate]. injection H as <- <-.
      apply UR in TU as (vs & p2 & -> & -> & ES); [|exact HB].
      exists p2. split; [reflexivity|]. eapply (E_tuple _ _ _ (fun t => t)); eauto. intros ->. cbn [andb] in EC. apply negb_false_iff, Nat.eqb_eq in EC. exact EC.
    - destruct (read_prim (x_len X) PI256 c p bs) as [[x b]|e] eqn:RP; [|discriminate]. injection H as <- <-. cbn [fst snd].
      apply read_prim_iff in RP as (pre & -> & HP); [|exact HB].
      exists pre. split; [reflexivity|]. destruct c; cbn [prim_enc_c] in HP.
      + destruct HP as (w & n & -> & -> & Hn & HC). eapply (E_compact_uint _ _ _ (fun t => t)); eauto.
      + eapply (E_prim _ _ _ (fun t => t)); eauto.
    - apply IH in H as (pre & -> & E); [|exact HB]. exists pre. split; [reflexivity|]. eapply E_compact; eauto.
    - destruct c; [discriminate|]. destruct (decode_bits _ st o bs) as [[b1 b]|e] eqn:DB; [|discriminate]. injection H as <- <-. cbn [fst snd].
      apply decode_bits_iff in DB as (pre & pay & -> & HC & Hn & Hm & HP); [|exact HB].
      exists (pre ++ pay). split; [rewrite app_assoc; reflexivity|]. eapply (E_bits _ _ _ (fun t => t)); eauto.
  Qed.

  Lemma unnamed_as_composite item path ts bs : to_unnamed_composite item path (N.of_nat (length ts)) ts bs =
    trace_composite item path (map (fun t : TId => (None, t)) ts) bs.
  Proof.
    unfold trace_composite. rewrite map_length, map_map. cbn [snd]. rewrite map_id. destruct ts as [|t ts]; reflexivity.
  Qed.

  Lemma trace_located : variants_within reg MAX_CAPACITY -> forall fuel path c t bs a v e, is_bytes bs ->
    trace reg X fuel path c t bs = Err (FromVisitor a v e) ->
    exists rel pre rest c' t' f', a = path ++ rel /\ bs = pre ++ rest /\ LOC c t rel v pre c' t' /\ trace reg X f' a c' t' rest = Err (FromDecode e).
  Proof.
    intro VW. induction fuel as [|f IH]; intros path c t bs a v e HB H; [discriminate|]. cbn [trace] in H.
    assert (IO : forall c, item_ok c (fun p => trace reg X f p c)) by (intros c' p t' bs' v' r' HB' H'; eapply trace_sound; eauto).
    assert (CL : forall c fs bs a cmp e, is_bytes bs -> trace_composite (fun p => trace reg X f p c) path fs bs = Err (FromVisitor a cmp e) ->
      exists rel pre rest c' t' f', a = path ++ rel /\ bs = pre ++ rest /\ LOCIN c fs rel cmp pre c' t' /\ trace reg X f' a c' t' rest = Err (FromDecode e)).
    { clear H HB. intros c1 fs bs1 a1 cmp e1 HB H. pose proof (composite_run _ c1 path fs bs1 (IO c1) HB) as CR. rewrite H in CR.
      destruct CR as [[CR _]|(fs1 & name & t' & fs2 & vs & pre & rest & e0 & s & cmp0 & into & -> & -> & ES & SG & EI & EE & F0 & FX)]; [discriminate|].
      destruct e0 as [d|a0 x d]; cbn [with_outer] in EE; injection EE as -> -> ->.
      - exists [s], pre, rest, c1, t', f. split; [reflexivity|]. split; [reflexivity|]. split; [|exact EI]. eapply Lo_here; eauto.
      - apply is_bytes_app in HB as [_ HB]. apply IH in EI as (rel & pre' & rest' & c' & t'' & f' & -> & -> & LO & TR); [|exact HB].
        exists (s :: rel), (pre ++ pre'), rest', c', t'', f'. split; [rewrite <- app_assoc; reflexivity|]. split; [apply app_assoc|].
        split; [|exact TR]. eapply Lo_inner; eauto. }
    assert (WR : forall r a v e, wrap_composite t r = Err (FromVisitor a v e) -> exists cmp, r = Err (FromVisitor a cmp e) /\ v = Val (DComposite cmp) t).
    { intros [[cm r]|[d|a1 cm d]] a1' v1 e1 W; cbn in W; try discriminate. injection W as <- <- <-. eauto. }
    destruct (reg t) as [| |[fs|vs|t'|t' n|ts|p|t'|st o]] eqn:R; try discriminate.
    - destruct (c && negb (length fs =? 1)%nat) eqn:EC; [discriminate|]. apply WR in H as (cmp & H & ->).
      apply CL in H as (rel & pre & rest & c' & t' & f' & -> & -> & LO & TR); [|exact HB].
      exists rel, pre, rest, c', t', f'. split; [reflexivity|]. split; [reflexivity|]. split; [|exact TR]. eapply Lo_composite; eauto.
      intros ->. cbn [andb] in EC. apply negb_false_iff, Nat.eqb_eq in EC. exact EC.
    - destruct c; [discriminate|]. destruct bs as [|idx bs]; [discriminate|].
      destruct (find (fun v0 => vi_index v0 =? idx) vs) as [vv|] eqn:F; [|discriminate].
      apply find_index_split in F as (l1 & l2 & -> & <- & Hn). inversion HB as [|? ? Hi HB']; subst.
      destruct (trace_composite _ path (vi_fields vv) bs) as [[cmp b]|e0] eqn:TC; [discriminate|].
      destruct e0 as [d|a0 cmp d]; cbn [with_outer] in H; injection H as <- <- <-.
      + exfalso. pose proof (composite_run _ false path (vi_fields vv) bs (IO false) HB') as CR. rewrite TC in CR.
        destruct CR as [[_ L]|(fs1 & name & t' & fs2 & ws & pre & rest & e0 & s & cmp0 & into & _ & _ & _ & _ & _ & EE & _)].
        * pose proof (VW t _ vv R ltac:(apply in_or_app; right; left; reflexivity)). lia.
        * destruct e0; discriminate.
      + apply CL in TC as (rel & pre & rest & c' & t' & f' & -> & -> & LO & TR); [|exact HB'].
        exists rel, (vi_index vv :: pre), rest, c', t', f'. split; [reflexivity|]. split; [reflexivity|]. split; [|exact TR]. eapply Lo_variant; eauto.
    - destruct c; [discriminate|]. destruct (compact_decode (x_len X) bs) as [[n b]|d] eqn:CD; [|discriminate].
      apply compact_decode_sound in CD as (p1 & -> & HC & Hn); [|exact HB]. apply is_bytes_app in HB as [_ HB]. apply WR in H as (cmp & H & ->).
      assert (En : n = N.of_nat (length (repeat t' (N.to_nat n)))) by (rewrite repeat_length, N2Nat.id; reflexivity).
      rewrite En in H at 1. rewrite unnamed_as_composite in H.
      apply CL in H as (rel & pre & rest & c' & t'' & f' & -> & -> & LO & TR); [|exact HB].
      exists rel, (p1 ++ pre), rest, c', t'', f'. split; [reflexivity|]. split; [apply app_assoc|]. split; [|exact TR]. eapply Lo_sequence; eauto.
    - destruct c; [discriminate|]. apply WR in H as (cmp & H & ->).
      assert (En : n = N.of_nat (length (repeat t' (N.to_nat n)))) by (rewrite repeat_length, N2Nat.id; reflexivity).
      rewrite En in H at 1. rewrite unnamed_as_composite in H.
      apply CL in H as (rel & pre & rest & c' & t'' & f' & -> & -> & LO & TR); [|exact HB].
      exists rel, pre, rest, c', t'', f'. split; [reflexivity|]. split; [reflexivity|]. split; [|exact TR]. eapply Lo_array; eauto.
    - destruct (c && negb (length ts =? 1)%nat) eqn:EC; [discriminate|]. apply WR in H as (cmp & H & ->). rewrite unnamed_as_composite in H.
      apply CL in H as (rel & pre & rest & c' & t' & f' & -> & -> & LO & TR); [|exact HB].
      exists rel, pre, rest, c', t', f'. split; [reflexivity|]. split; [reflexivity|]. split; [|exact TR]. eapply Lo_tuple; eauto.
      intros ->. cbn [andb] in EC. apply negb_false_iff, Nat.eqb_eq in EC. exact EC.
    - destruct (bind _ _); discriminate.
    - apply IH in H as (rel & pre & rest & c' & t'' & f' & -> & -> & LO & TR); [|exact HB].
      exists rel, pre, rest, c', t'', f'. split; [reflexivity|]. split; [reflexivity|]. split; [|exact TR]. eapply Lo_compact; eauto.
    - destruct c; [discriminate|]. destruct (bind _ _); discriminate.
  Qed.
End Locate.
