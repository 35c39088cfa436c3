(** * AllocFacts: the logs of the decoders (C73). *)
From Verif Require Import Base Value Registry Spec_Scale Scale ScaleFacts Decode Trace Alloc Spec_Cost Spec_Alloc.
Open Scope N_scope.

Lemma total_app l l' : total (l ++ l') = total l + total l'.
Proof. induction l as [|a l IH]; cbn [app total]; [reflexivity|rewrite IH; lia]. Qed.
Lemma list_sizes_nodes {T} (v : value T) : total (list_sizes v) + 1 = nodes v.
Proof.
  induction v as [d ctx IH] using value_ind'.
  assert (HL : forall l : list (value T), Forall (fun v => total (list_sizes v) + 1 = nodes v) l ->
               N.of_nat (length l) + total (concat (map list_sizes l)) = total (map nodes l)).
  { induction 1 as [|v l Hv Hl IHl]; [reflexivity|]. cbn [map concat total length]. rewrite total_app. lia. }
  assert (HC : forall c : composite (value T), Forall (fun v => total (list_sizes v) + 1 = nodes v) (values c) ->
               N.of_nat (length (values c)) + total (concat (values (composite_map list_sizes c))) = total (values (composite_map nodes c))).
  { intros [l|l] H; cbn [values composite_map] in *; [|auto].
    rewrite !map_map. cbn [snd]. rewrite <- (map_map snd list_sizes), <- (map_map snd nodes), <- HL, map_length; auto. }
  destruct d as [c|n c|b|p]; cbn [list_sizes nodes children total] in *; [rewrite <- HC; [lia|auto]|rewrite <- HC; [lia|auto]|reflexivity|reflexivity].
Qed.

Lemma compact_bound w bs n r : compact_decode w bs = Ok (n, r) -> n < 2 ^ w.
Proof.
  unfold compact_decode. destruct bs as [|p bs]; [discriminate|].
  assert (HC : forall lo m rest, (if (lo <=? m) && (m <? 2 ^ w) then Ok (m, rest) else Err ECodec : dres N) = Ok (n, r) -> n < 2 ^ w).
  { intros lo m rest. destruct (lo <=? m); cbn [andb]; [|discriminate]. destruct (N.ltb_spec m (2 ^ w)); [|discriminate]. intros [= <- <-]. assumption. }
  cbv zeta. destruct (p mod 4 =? 0); [apply HC|]. destruct (p mod 4 =? 1); [destruct (take 2 _) as [[a b]|]; [apply HC|discriminate]|].
  destruct (p mod 4 =? 2); [destruct (take 4 _) as [[a b]|]; [apply HC|discriminate]|]. destruct (take _ bs) as [[a b]|]; [apply HC|discriminate].
Qed.

Section PlainFacts.
  Context {TId C : Type} (reg : TId -> resolution TId) (X : ext) (ctxf : TId -> C).
  Definition known (n : N) : Prop := written_in reg n \/ n < 2 ^ x_len X.
  (** the same result; on success the log is [sz] of the result; every entry is known *)
  Definition logs {A} (sz : A -> list N) (m : lres A) (r : dres A) : Prop :=
    fst m = r /\ (forall x rest, r = Ok (x, rest) -> snd m = sz x) /\ (forall n, In n (snd m) -> known n).
  Lemma logs_quiet {A} (sz : A -> list N) r : (forall x rest, r = Ok (x, rest) -> sz x = []) -> logs sz (quiet r) r.
  Proof. intro H. repeat split; [|contradiction]. intros x rest E. symmetry. eapply H; eauto. Qed.
  Definition sizes_of (l : list (value C)) : list N := concat (map list_sizes l).
  Definition csizes (c : composite (value C)) : list N := N.of_nat (length (values c)) :: sizes_of (values c).

  Section Items.
    Context (ld : TId -> bytes -> lres (value C)) (d : TId -> bytes -> dres (value C)).
    Context (HD : forall t bs, logs list_sizes (ld t bs) (d t bs)).
    Lemma items_logs ts : forall bs, logs sizes_of (l_items ld ts bs) (decode_items d ts bs).
    Proof.
      induction ts as [|t ts IH]; intro bs; cbn [l_items decode_items].
      - apply logs_quiet. intros x rest [= <- <-]. reflexivity.
      - destruct (HD t bs) as (E & S & K). unfold lbind at 1. rewrite E. destruct (d t bs) as [[v r]|e]; cbn [bind fst snd].
        + destruct (IH r) as (E' & S' & K'). unfold lbind. rewrite E'. destruct (decode_items d ts r) as [[vs r']|e]; cbn [bind fst snd quiet].
          * repeat split.
            -- intros x rest [= <- <-]. rewrite app_nil_r, (S v r eq_refl), (S' vs r' eq_refl). reflexivity.
            -- intros n H. rewrite app_nil_r in H. apply in_app_or in H as [H|H]; auto.
          * repeat split; [discriminate|]. intros n H. apply in_app_or in H as [H|H]; auto.
        + repeat split; [discriminate|auto].
    Qed.
    Lemma named_logs fs : forall bs, logs (fun l => sizes_of (map snd l)) (l_named ld fs bs) (decode_named d fs bs).
    Proof.
      induction fs as [|[nm t] fs IH]; intro bs; cbn [l_named decode_named].
      - apply logs_quiet. intros x rest [= <- <-]. reflexivity.
      - destruct (HD t bs) as (E & S & K). unfold lbind at 1. rewrite E. destruct (d t bs) as [[v r]|e]; cbn [bind fst snd].
        + destruct (IH r) as (E' & S' & K'). unfold lbind. rewrite E'. destruct (decode_named d fs r) as [[vs r']|e]; cbn [bind fst snd quiet].
          * repeat split.
            -- intros x rest [= <- <-]. rewrite app_nil_r, (S v r eq_refl), (S' vs r' eq_refl). reflexivity.
            -- intros n H. rewrite app_nil_r in H. apply in_app_or in H as [H|H]; auto.
          * repeat split; [discriminate|]. intros n H. apply in_app_or in H as [H|H]; auto.
        + repeat split; [discriminate|auto].
    Qed.
    Lemma items_length ts : forall bs vs r, decode_items d ts bs = Ok (vs, r) -> length vs = length ts.
    Proof.
      induction ts as [|t ts IH]; intros bs vs r H; cbn [decode_items] in H; [injection H as <- <-; reflexivity|].
      destruct (d t bs) as [[v r1]|e]; [|discriminate]. cbn [bind fst snd] in H.
      destruct (decode_items d ts r1) as [[vs' r']|e] eqn:E; [|discriminate]. injection H as <- <-. cbn [length]. f_equal. eapply IH; eauto.
    Qed.
    Lemma named_length fs : forall bs vs r, decode_named d fs bs = Ok (vs, r) -> length vs = length fs.
    Proof.
      induction fs as [|[nm t] ts IH]; intros bs vs r H; cbn [decode_named] in H; [injection H as <- <-; reflexivity|].
      destruct (d t bs) as [[v r1]|e]; [|discriminate]. cbn [bind fst snd] in H.
      destruct (decode_named d ts r1) as [[vs' r']|e] eqn:E; [|discriminate]. injection H as <- <-. cbn [length]. f_equal. eapply IH; eauto.
    Qed.
    Lemma composite_logs fs bs : known (N.of_nat (length fs)) -> logs csizes (l_composite ld fs bs) (visit_composite d fs bs).
    Proof.
      intro HK. unfold l_composite, visit_composite. destruct (_ && _).
      - destruct (named_logs fs bs) as (E & S & K). unfold reserve, lbind. rewrite E. pose proof (named_length fs bs) as HL.
        destruct (decode_named d fs bs) as [[vs r]|e]; cbn [bind fst snd quiet].
        + repeat split.
          * intros x rest [= <- <-]. rewrite app_nil_r, (S vs r eq_refl). unfold csizes. cbn [values]. rewrite map_length, (HL vs r eq_refl). reflexivity.
          * intros n H. rewrite app_nil_r in H. destruct H as [<-|H]; auto.
        + repeat split; [discriminate|]. intros n [<-|H]; auto.
      - destruct (items_logs (map snd fs) bs) as (E & S & K). unfold reserve, lbind. rewrite E. pose proof (items_length (map snd fs) bs) as HL.
        destruct (decode_items d (map snd fs) bs) as [[vs r]|e]; cbn [bind fst snd quiet].
        + repeat split.
          * intros x rest [= <- <-]. rewrite app_nil_r, (S vs r eq_refl). unfold csizes. cbn [values]. rewrite (HL vs r eq_refl), map_length. reflexivity.
          * intros n H. rewrite app_nil_r in H. destruct H as [<-|H]; auto.
        + repeat split; [discriminate|]. intros n [<-|H]; auto.
    Qed.
    Lemma unnamed_logs t n ts bs : known n -> n = N.of_nat (length ts) -> logs list_sizes (l_unnamed ctxf ld t n ts bs) (to_unnamed ctxf d t ts bs).
    Proof.
      intros HK Hn. unfold l_unnamed, to_unnamed. destruct (items_logs ts bs) as (E & S & K). unfold reserve, lbind. rewrite E. pose proof (items_length ts bs) as HL.
      destruct (decode_items d ts bs) as [[vs r]|e]; cbn [bind fst snd quiet].
      - repeat split.
        + intros x rest [= <- <-]. rewrite app_nil_r, (S vs r eq_refl). cbn [list_sizes composite_map values]. rewrite (HL vs r eq_refl), Hn. reflexivity.
        + intros m H. rewrite app_nil_r in H. destruct H as [<-|H]; auto.
      - repeat split; [discriminate|]. intros m [<-|H]; auto.
    Qed.
  End Items.

  Lemma values_sizes (c : composite (value C)) : N.of_nat (length (values c)) :: concat (values (composite_map list_sizes c)) = csizes c.
  Proof. unfold csizes, sizes_of. destruct c as [l|l]; cbn [values composite_map]; [rewrite !map_map|]; reflexivity. Qed.

  Lemma wrap_logs m r (k : composite (value C) -> value C) : (forall c, list_sizes (k c) = csizes c) -> logs csizes m r ->
    logs list_sizes (lbind m (fun x => quiet (Ok (k (fst x), snd x)))) (bind r (fun x => Ok (k (fst x), snd x))).
  Proof.
    intros HK (E & S & K). unfold lbind. rewrite E. destruct r as [[c r]|e]; cbn [bind fst snd quiet].
    - repeat split.
      + intros x rest [= <- <-]. rewrite app_nil_r, HK. eapply S; eauto.
      + intros n H. rewrite app_nil_r in H. auto.
    - repeat split; [discriminate|auto].
  Qed.

  Lemma ldecode_logs fuel : forall compact t bs, logs list_sizes (ldecode reg X ctxf fuel compact t bs) (decode reg X ctxf fuel compact t bs).
  Proof.
    induction fuel as [|f IH]; intros compact t bs; cbn [ldecode decode]; [apply logs_quiet; discriminate|].
    destruct (reg t) as [| |ty] eqn:R; [apply logs_quiet; discriminate|apply logs_quiet; discriminate|].
    destruct ty as [fs|vs|t'|t' n|ts|p|t'|st o].
    - destruct (_ && _); [apply logs_quiet; discriminate|]. apply (wrap_logs _ _ (fun c => Val (DComposite c) (ctxf t))).
      + intro c. cbn [list_sizes]. apply values_sizes.
      + apply composite_logs; [apply IH|]. left. exists t. left. eauto.
    - destruct compact; [apply logs_quiet; discriminate|]. destruct bs as [|idx bs]; [apply logs_quiet; discriminate|].
      destruct (find _ vs) as [v|] eqn:FV; [|apply logs_quiet; discriminate]. apply find_some in FV as [IV _].
      apply (wrap_logs _ _ (fun c => Val (DVariant (vi_name v) c) (ctxf t))).
      + intro c. cbn [list_sizes]. apply values_sizes.
      + apply composite_logs; [apply IH|]. left. exists t. right. left. eauto.
    - destruct compact; [apply logs_quiet; discriminate|]. unfold lbind, quiet at 1. cbn [fst]. destruct (compact_decode (x_len X) bs) as [[n r]|e] eqn:E; cbn [bind fst snd].
      + destruct (unnamed_logs (ldecode reg X ctxf f false) (decode reg X ctxf f false) (IH false) t n (repeat t' (N.to_nat n)) r) as (E' & S' & K').
        * right. eapply compact_bound; eauto.
        * rewrite repeat_length. lia.
        * repeat split; auto.
      + repeat split; [discriminate|contradiction].
    - destruct compact; [apply logs_quiet; discriminate|]. apply unnamed_logs; [apply IH| |rewrite repeat_length; lia].
      left. exists t. right. right. right. eauto.
    - destruct (_ && _); [apply logs_quiet; discriminate|]. apply unnamed_logs; [apply IH| |reflexivity].
      left. exists t. right. right. left. eauto.
    - apply logs_quiet. intros x rest E. destruct (read_prim _ _ _ _ _) as [[a r]|e]; [|discriminate]. injection E as <- <-. reflexivity.
    - apply IH.
    - destruct compact; [apply logs_quiet; discriminate|]. apply logs_quiet. intros x rest E. destruct (decode_bits _ _ _ _) as [[a r]|e]; [|discriminate]. injection E as <- <-. reflexivity.
  Qed.

  Lemma sequence_dies L fuel t e bs n r : reg t = ResTy (TSequence e) -> compact_decode (x_len X) bs = Ok (n, r) -> L < n ->
    run L (ldecode reg X ctxf (S fuel) false t bs) = Died.
  Proof.
    intros R HC HL. cbn [ldecode]. rewrite R. unfold lbind, quiet. cbn [fst snd]. rewrite HC. unfold run, l_unnamed, reserve. cbn [snd fst app forallb].
    destruct (N.leb_spec n L); [lia|]. reflexivity.
  Qed.
End PlainFacts.

Section TracedFacts.
  Context {TId : Type} (reg : TId -> resolution TId) (X : ext).
  Definition bounded (n : N) : Prop := n <= MAX_CAPACITY \/ named_field_count reg n.
  Definition tlogs {A V} (sz : A -> list N) (m : ltres A V) (r : tres A V) : Prop :=
    fst m = r /\ (forall x rest, r = Ok (x, rest) -> snd m = sz x) /\ (forall n, In n (snd m) -> bounded n).
  Lemma tlogs_quiet {A V} (sz : A -> list N) (r : tres A V) : (forall x rest, r = Ok (x, rest) -> sz x = []) -> tlogs sz (quiet r) r.
  Proof. intro H. repeat split; [|contradiction]. intros x rest E. symmetry. eapply H; eauto. Qed.

  Section Items.
    Context (li : list seg -> TId -> bytes -> ltres (value TId) (value TId)) (it : list seg -> TId -> bytes -> tres (value TId) (value TId)).
    Context (HD : forall p t bs, tlogs list_sizes (li p t bs) (it p t bs)) (path : list seg).
    Lemma unnamed_loop_logs ts : forall idx vals bs, 
      fst (lt_unnamed li path idx vals ts bs) = unnamed_loop it path idx vals ts bs /\
      (forall c rest, unnamed_loop it path idx vals ts bs = Ok (c, rest) ->
         exists vs, c = Unnamed (vals ++ vs) /\ length vs = length ts /\ snd (lt_unnamed li path idx vals ts bs) = sizes_of vs) /\
      (forall n, In n (snd (lt_unnamed li path idx vals ts bs)) -> bounded n).
    Proof.
      induction ts as [|t ts IH]; intros idx vals bs; cbn [lt_unnamed unnamed_loop].
      - repeat split; [|contradiction]. intros c rest [= <- <-]. exists []. rewrite app_nil_r. auto.
      - cbv zeta. destruct (HD (path ++ [SIndex idx]) t bs) as (E & S & K). rewrite E. destruct (it _ t bs) as [[v r]|e]; cbn [fst snd].
        + destruct (IH (Datatypes.S idx) (vals ++ [v]) r) as (E' & S' & K'). split; [exact E'|]. split.
          * intros c rest H. destruct (S' c rest H) as (vs & -> & L & Q). exists (v :: vs). rewrite <- app_assoc. cbn [app length]. split; [reflexivity|]. split; [congruence|].
            rewrite Q, (S v r eq_refl). reflexivity.
          * intros n H. apply in_app_or in H as [H|H]; auto.
        + repeat split; [discriminate|auto].
    Qed.
    Lemma named_loop_logs fs : forall vals bs, 
      fst (lt_named li path vals fs bs) = named_loop it path vals fs bs /\
      (forall c rest, named_loop it path vals fs bs = Ok (c, rest) ->
         exists vs, c = Named (vals ++ vs) /\ length vs = length fs /\ snd (lt_named li path vals fs bs) = sizes_of (map snd vs)) /\
      (forall n, In n (snd (lt_named li path vals fs bs)) -> bounded n).
    Proof.
      induction fs as [|[nm t] ts IH]; intros vals bs; cbn [lt_named named_loop].
      - repeat split; [|contradiction]. intros c rest [= <- <-]. exists []. rewrite app_nil_r. auto.
      - cbv zeta. set (k := match nm with Some n => n | None => _ end). destruct (HD (path ++ [SField k]) t bs) as (E & S & K). rewrite E. destruct (it _ t bs) as [[v r]|e]; cbn [fst snd].
        + destruct (IH (vals ++ [(k, v)]) r) as (E' & S' & K'). split; [exact E'|]. split.
          * intros c rest H. destruct (S' c rest H) as (vs & -> & L & Q). exists ((k, v) :: vs). rewrite <- app_assoc. cbn [app length]. split; [reflexivity|]. split; [congruence|].
            rewrite Q, (S v r eq_refl). reflexivity.
          * intros n H. apply in_app_or in H as [H|H]; auto.
        + repeat split; [discriminate|auto].
    Qed.
    Lemma to_unnamed_logs n ts bs : n = N.of_nat (length ts) -> tlogs csizes (lt_unnamed_composite li path n ts bs) (to_unnamed_composite it path n ts bs).
    Proof.
      intro Hn. unfold lt_unnamed_composite, to_unnamed_composite. destruct (N.ltb_spec MAX_CAPACITY n) as [|HB]; [apply tlogs_quiet; discriminate|].
      destruct (unnamed_loop_logs ts 0 [] bs) as (E & S & K). unfold reserve. split; [exact E|]. cbn [snd]. split.
      - intros c rest H. destruct (S c rest H) as (vs & -> & L & Q). rewrite Q. unfold csizes. cbn [app values]. rewrite L, Hn. reflexivity.
      - intros m [<-|H]; [left; exact HB|auto].
    Qed.
    Lemma tcomposite_logs fs bs : (Forall (fun f => fst f <> None) fs -> named_field_count reg (N.of_nat (length fs))) ->
      tlogs csizes (lt_composite li path fs bs) (trace_composite it path fs bs).
    Proof.
      intro HN. unfold lt_composite, trace_composite. destruct (0 <? length fs)%nat eqn:L0; cbn [andb]; [|apply to_unnamed_logs; rewrite map_length; reflexivity].
      destruct (has_unnamed fs) eqn:HU; cbn [negb]; [apply to_unnamed_logs; rewrite map_length; reflexivity|].
      destruct (named_loop_logs fs [] bs) as (E & S & K). unfold reserve. split; [exact E|]. cbn [snd]. split.
      - intros c rest H. destruct (S c rest H) as (vs & -> & L & Q). rewrite Q. unfold csizes. cbn [app values]. rewrite map_length, L. reflexivity.
      - intros m [<-|H]; [right; apply HN|auto]. apply Forall_forall. intros f HI HF. unfold has_unnamed in HU.
        assert (T : existsb (fun f : field TId => negb (is_some (fst f))) fs = true) by (apply existsb_exists; exists f; rewrite HF; auto). congruence.
    Qed.
  End Items.

  Lemma twrap_logs t m r : tlogs csizes m r -> tlogs list_sizes (lt_wrap t m) (wrap_composite (TId:=TId) t r).
  Proof.
    intros (E & S & K). unfold lt_wrap. rewrite E. split; [reflexivity|]. split; [|exact K]. cbn [snd].
    intros x rest H. destruct r as [[c r]|e]; [|discriminate]. injection H as <- <-. rewrite (S c r eq_refl). cbn [list_sizes]. rewrite values_sizes. reflexivity.
  Qed.

  Lemma ltrace_logs fuel : forall path compact t bs, tlogs list_sizes (ltrace reg X fuel path compact t bs) (trace reg X fuel path compact t bs).
  Proof.
    induction fuel as [|f IH]; intros path compact t bs; cbn [ltrace trace]; [apply tlogs_quiet; discriminate|].
    destruct (reg t) as [| |ty] eqn:R; [apply tlogs_quiet; discriminate|apply tlogs_quiet; discriminate|].
    destruct ty as [fs|vs|t'|t' n|ts|p|t'|st o].
    - destruct (_ && _); [apply tlogs_quiet; discriminate|]. apply twrap_logs, tcomposite_logs; [intros p; apply IH|].
      intro HF. exists t, fs. auto.
    - destruct compact; [apply tlogs_quiet; discriminate|]. destruct bs as [|idx bs]; [apply tlogs_quiet; discriminate|].
      destruct (find _ vs) as [v|] eqn:FV; [|apply tlogs_quiet; discriminate]. apply find_some in FV as [IV _].
      destruct (tcomposite_logs (fun p => ltrace reg X f p false) (fun p => trace reg X f p false) (fun p => IH p false) path (vi_fields v) bs) as (E & S & K).
      { intro HF. exists t, (vi_fields v). split; [reflexivity|]. split; [exact HF|]. right. eauto. }
      cbv zeta. rewrite E. split; [reflexivity|]. split; [|exact K]. cbn [snd]. intros x rest H.
      destruct (trace_composite _ path _ bs) as [[c r]|e]; [|discriminate]. injection H as <- <-. rewrite (S c r eq_refl). cbn [list_sizes]. rewrite values_sizes. reflexivity.
    - destruct compact; [apply tlogs_quiet; discriminate|]. destruct (compact_decode (x_len X) bs) as [[n r]|e]; [|apply tlogs_quiet; discriminate].
      apply twrap_logs, to_unnamed_logs; [intros p; apply IH|]. rewrite repeat_length. lia.
    - destruct compact; [apply tlogs_quiet; discriminate|]. apply twrap_logs, to_unnamed_logs; [intros p; apply IH|]. rewrite repeat_length. lia.
    - destruct (_ && _); [apply tlogs_quiet; discriminate|]. apply twrap_logs, to_unnamed_logs; [intros p; apply IH|]. reflexivity.
    - apply tlogs_quiet. intros x rest E. destruct (read_prim _ _ _ _ _) as [[a r]|e]; [|discriminate]. injection E as <- <-. reflexivity.
    - apply IH.
    - destruct compact; [apply tlogs_quiet; discriminate|]. apply tlogs_quiet. intros x rest E. destruct (decode_bits _ _ _ _) as [[a r]|e]; [|discriminate]. injection E as <- <-. reflexivity.
  Qed.
End TracedFacts.
