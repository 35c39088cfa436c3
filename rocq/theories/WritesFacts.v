(** * WritesFacts: the encoder follows exactly the rules of Spec_Writes (C77). *)
From Verif Require Import Base Value ValueFacts Registry Spec_Scale Scale ScaleFacts BitsFacts Encode EncodeFacts EncodeTerm Spec_Encode EncodeSound EncodeComplete EncodeMore EncodeWrap
  Spec_Same Spec_Writes.
Open Scope N_scope.

Section Facts.
  Context {TId T : Type} (reg : TId -> resolution TId) (X : ext).
  Local Notation encodes := (encodes reg X).
  Local Notation stop := (stop reg).
  Local Notation EW := (fun (v : value T) t b => encodes v t b).

  (** ** Chains *)
  Lemma stop_ty u ty : reg u = ResTy ty -> match ty with TComposite _ | TTuple _ | TArray _ _ => False | _ => True end -> stop u.
  Proof. intros R H. eapply stop_other; [exact R|]. destruct ty; auto; contradiction. Qed.
  Lemma find_single_stop f : forall t c u d, find_single reg f t c = Some (u, d) -> stop u /\ (d = c \/ d = true) /\ (d = false -> u = t).
  Proof.
    induction f as [|f IH]; intros t c u d H; [discriminate|]. cbn [find_single] in H.
    assert (REC : forall t', find_single reg f t' true = Some (u, d) -> stop u /\ (d = c \/ d = true) /\ (d = false -> u = t)).
    { intros t' H'. apply IH in H' as (S1 & S2 & S3). assert (d = true) by (destruct S2; congruence). subst d. split; [exact S1|]. split; [auto|discriminate]. }
    assert (STOP : match reg t with ResTy (TComposite [_]) | ResTy (TTuple [_]) => False | ResTy (TArray _ n) => n <> 1 | _ => True end -> Some (t, c) = Some (u, d) ->
      stop u /\ (d = c \/ d = true) /\ (d = false -> u = t)).
    { intros Ht [= <- <-]. split; [|auto]. intros w W. destruct W as [? ? [? nm ? R'|? ? R']|? ? R']; rewrite R' in Ht; auto. }
    destruct (reg t) as [| |[fs|vs|t'|t' n|ts|p|t'|st o]]; try (apply STOP; [exact I|exact H]).
    - destruct fs as [|fd [|]]; try (apply STOP; [exact I|exact H]). apply (REC (snd fd)), H.
    - destruct (n =? 1) eqn:En; [apply (REC t'), H|apply STOP; [apply N.eqb_neq, En|exact H]].
    - destruct ts as [|t' [|]]; try (apply STOP; [exact I|exact H]). apply (REC t'), H.
  Qed.
  Lemma skip_through_ends f : forall t u, skip_through reg f t = Some u -> ends_in (transparent reg) t u.
  Proof.
    intros t u H. split; [eapply skip_through_chain; exact H|]. revert t H. induction f as [|f IH]; intros t H; [discriminate|]. cbn [skip_through] in H.
    assert (STOP : match reg t with ResTy (TComposite [(None, _)]) | ResTy (TTuple [_]) => False | _ => True end -> Some t = Some u -> forall w, ~ transparent reg u w).
    { intros Ht [= <-] w W. destruct W as [? ? R'|? ? R']; rewrite R' in Ht; auto. }
    destruct (reg t) as [| |[fs|vs|t'|t' n|ts|p|t'|st o]]; try (apply STOP; [exact I|exact H]).
    - destruct fs as [|[[nm|] t'] [|]]; try (apply STOP; [exact I|exact H]). apply (IH t'), H.
    - destruct ts as [|t' [|]]; try (apply STOP; [exact I|exact H]). apply (IH t'), H.
  Qed.
  Lemma ends_fun t u u' : ends_in (wraps reg) t u -> ends_in (wraps reg) t u' -> u = u'.
  Proof.
    intros [C1 S1] [C2 S2]. destruct (find_chain_any reg t u C1 S1) as [F1 H1]. destruct (find_chain_any reg t u' C2 S2) as [F2 H2].
    destruct (H1 (Nat.max F1 F2) ltac:(lia) false) as [d1 E1]. destruct (H2 (Nat.max F1 F2) ltac:(lia) false) as [d2 E2]. congruence.
  Qed.

  (** ** Integers *)
  Lemma encodes_through d x t u b : by_find d -> chain (wraps reg) t u -> stop u -> (encodes (Val d x : value T) t b <-> encodes (Val d x : value T) u b).
  Proof.
    intros Hd Ch St. destruct (leaf_through reg X d x t u Hd Ch St) as [F0 H]. rewrite !encodes_yields. split; intros [F1 E]; exists (Nat.max F0 F1); intros F HF out.
    - rewrite <- H by lia. apply E. lia.
    - rewrite H by lia. apply E. lia.
  Qed.
  Lemma number_iff p z (x : T) t b : is_integer p z -> (encodes (Val (DPrim p) x) t b <-> number reg z t b).
  Proof.
    intro Hp. assert (Hv : is_number (Val (DPrim p) x) z) by (destruct Hp as [(n & -> & ->)| ->]; [left; exists n; split; reflexivity|right; reflexivity]).
    assert (BF : by_find (DPrim p : vdef (value T))) by (destruct Hp as [(n & -> & ->)| ->]; exact I). split.
    - intro E. destruct (number_targets reg X _ z t b Hv E) as (u & Ch & [(w & [R|R])|(t' & u' & w & R & Ch' & R')]).
      + apply (encodes_through _ x t u b BF Ch) in E; [|eapply stop_ty; [exact R|exact I]]. apply (uint_iff reg X _ z u w b Hv R) in E as [H1 H2]. exact (N_uint reg z t b u w Ch R H1 H2).
      + apply (encodes_through _ x t u b BF Ch) in E; [|eapply stop_ty; [exact R|exact I]]. apply (int_iff reg X _ z u w b Hv R) in E as [H1 H2]. exact (N_int reg z t b u w Ch R H1 H2).
      + apply (encodes_through _ x t u b BF Ch) in E; [|eapply stop_ty; [exact R|exact I]]. apply (compact_iff reg X _ z u t' u' w b Hv R Ch' R') in E as [H1 H2].
        exact (N_compact reg z t b u t' u' w Ch R Ch' R' H1 H2).
    - intros [u w Ch R H1 H2|u w Ch R H1 H2|u t' u' w Ch R Ch' R' H1 H2]; (apply (encodes_through _ x t u b BF Ch); [eapply stop_ty; [exact R|exact I]|]).
      + apply (uint_iff reg X _ z u w b Hv R). split; [exact H1|exact H2].
      + apply (int_iff reg X _ z u w b Hv R). split; [exact H1|exact H2].
      + apply (compact_iff reg X _ z u t' u' w b Hv R Ch' R'). split; [exact H1|exact H2].
  Qed.
  Lemma prefix_iff n b : prefix n b <-> b = compact_encode (N.of_nat n mod 2 ^ 32).
  Proof.
    split; [apply compact_enc_fun|]. intros ->. apply compact_small. eapply N.lt_le_trans; [apply N.mod_lt; discriminate|]. vm_compute. discriminate.
  Qed.
  Lemma bits_bytes_iff st o bits b : bits_bytes st o bits b <-> b = encode_bits st o bits.
  Proof.
    unfold bits_bytes, encode_bits. split.
    - intros (pre & pay & -> & HP & HB). apply prefix_iff in HP. apply payload_strict_fun in HB. subst. reflexivity.
    - intros ->. do 2 eexists. split; [reflexivity|]. split; [apply prefix_iff; reflexivity|apply pack_payload].
  Qed.

  (** ** Leaves *)
  Lemma leaf_fun_iff d x t b f : (forall F, encode reg X F (Val d x : value T) t = encode_leaf reg F f t) ->
    (encodes (Val d x : value T) t b <-> exists u ty, ends_in (wraps reg) t u /\ reg u = ResTy ty /\ f ty = Some b).
  Proof.
    intro HE. split.
    - intros [F H]. specialize (H []). rewrite HE in H. unfold encode_leaf in H. destruct (find_single reg F t false) as [[u d']|] eqn:FS; [|discriminate].
      pose proof (find_single_chain reg _ _ _ _ _ FS) as Ch. apply find_single_stop in FS as [St _]. destruct (reg u) as [| |ty] eqn:R; try discriminate.
      destruct (f ty) as [b'|] eqn:FT; [|discriminate]. injection H as <-. exists u, ty. split; [split; assumption|auto].
    - intros (u & ty & [Ch St] & R & FT). destruct (find_chain_any reg t u Ch St) as [F0 H]. exists F0. intro out. rewrite HE. unfold encode_leaf.
      destruct (H F0 (le_n _) false) as [d' ->]. rewrite R, FT. reflexivity.
  Qed.
  Lemma numbers_parts (x : T) e bs b : numbers reg e bs b <->
    parts (fun t v b => encodes v t b) (repeat e (length (map (fun n => Val (DPrim (PU128 n)) x) bs))) (map (fun n => Val (DPrim (PU128 n)) x) bs) b.
  Proof.
    split.
    - induction 1 as [|n ns b bs H _ IH]; cbn [map length repeat]; constructor; [|exact IH]. apply (number_iff _ (Z.of_N n)); [left; eauto|exact H].
    - revert b. induction bs as [|n bs IH]; cbn [map length repeat]; intros b H; inversion H as [|? ? ? ? b1 b2 E P]; subst; constructor; [|apply IH, P].
      apply (number_iff (PU128 n) (Z.of_N n)) in E; [exact E|left; eauto].
  Qed.
  Lemma encode_numbers F (x : T) bs : map (fun n => encode_number reg F (Z.of_N n)) bs = map (encode reg X F) (map (fun n => Val (DPrim (PU128 n)) x) bs).
  Proof. rewrite map_map. reflexivity. Qed.
  Lemma wraps1_stop_dec t : (exists t', wraps1 reg t t') \/ (forall w, ~ wraps1 reg t w).
  Proof.
    assert (NO : match reg t with ResTy (TComposite [_]) | ResTy (TTuple [_]) => False | _ => True end -> forall w, ~ wraps1 reg t w).
    { intros H w W. destruct W as [? ? ? R|? ? R]; rewrite R in H; exact H. }
    destruct (reg t) as [| |[fs|vs|t'|t' n|ts|p|t'|st o]] eqn:R; try (right; apply NO; exact I).
    - destruct fs as [|[nm t'] [|]]; try (right; apply NO; exact I). left. exists t'. eapply W_struct, R.
    - destruct ts as [|t' [|]]; try (right; apply NO; exact I). left. exists t'. eapply W_tuple, R.
  Qed.
  Lemma byte_array_ends bs F f : forall t out, fst (encode_byte_array reg X F f bs t out) <> SHang -> exists u, ends_in (wraps1 reg) t u.
  Proof.
    induction f as [|f IH]; intros t out H; [exfalso; apply H; reflexivity|]. destruct (wraps1_stop_dec t) as [[t' W]|NO]; [|exists t; split; [constructor|exact NO]].
    assert (H' : fst (encode_byte_array reg X F f bs t' out) <> SHang) by (cbn [encode_byte_array] in H; destruct W as [? ? ? R|? ? R]; rewrite R in H; exact H).
    apply IH in H' as (u & Ch & NO). exists u. split; [eapply Ch_step; eauto|exact NO].
  Qed.
  Lemma prim256_at p bs (x : T) u b : bytes_of_256 p = Some bs -> (forall w, ~ wraps1 reg u w) ->
    (encodes (Val (DPrim p) x) u b <->
     ((reg u = ResTy (TPrim PtU256) \/ reg u = ResTy (TPrim PtI256)) /\ x_256 X = true /\ b = bs) \/
     (exists e n, reg u = ResTy (TArray e n) /\ N.of_nat (length bs) = n /\ numbers reg e bs b) \/
     (exists e pre b', reg u = ResTy (TSequence e) /\ prefix (length bs) pre /\ numbers reg e bs b' /\ b = pre ++ b')).
  Proof.
    intros Hp NO. assert (RUN : forall F out, encode reg X F (Val (DPrim p) x) u out = encode_byte_array reg X F F bs u out)
      by (intros; destruct p; try discriminate; injection Hp as ->; reflexivity).
    split.
    - intros [F H]. pose proof (H []) as H0. rewrite RUN in H0. destruct F as [|F]; [discriminate|]. cbn [encode_byte_array] in H0.
      destruct (reg u) as [| |[fs|vs|e|e n|ts|pt|t'|st o]] eqn:R; try discriminate.
      + destruct fs as [|[nm t'] [|]]; try discriminate. exfalso. apply (NO t'). eapply W_struct, R.
      + right. right. rewrite (encode_numbers (S F) x bs) in H0. apply all_parts in H0 as (b' & E & P). exists e, (compact_encode (N.of_nat (length bs) mod 2 ^ 32)), b'.
        split; [reflexivity|]. split; [apply prefix_iff; reflexivity|]. split; [apply (numbers_parts x), P|]. exact E.
      + right. left. destruct (N.eqb_spec (N.of_nat (length bs)) n) as [En|]; [|discriminate]. rewrite (encode_numbers (S F) x bs) in H0. apply all_parts in H0 as (b' & E & P).
        exists e, n. split; [reflexivity|]. split; [exact En|]. apply (numbers_parts x). cbn [app] in E. subst b'. exact P.
      + destruct ts as [|t' [|]]; try discriminate. exfalso. apply (NO t'). eapply W_tuple, R.
      + left. destruct pt; try discriminate; (destruct (x_256 X); [|discriminate]; injection H0 as H0; split; [auto|]; split; [reflexivity|]; symmetry; exact H0).
    - intros [([R|R] & HX & ->)|[(e & n & R & Hn & HN)|(e & pre & b' & R & HP & HN & ->)]].
      + exists 1%nat. intro out. rewrite RUN. cbn [encode_byte_array]. rewrite R, HX. reflexivity.
      + exists 1%nat. intro out. rewrite RUN. cbn [encode_byte_array]. rewrite R, HX. reflexivity.
      + apply (numbers_parts x), parts_ey, (all_yields reg X (fun _ => x)) in HN as [F0 H]. exists (S F0). intro out. rewrite RUN. cbn [encode_byte_array]. rewrite R, Hn, N.eqb_refl.
        rewrite (encode_numbers (S F0) x bs). apply H. lia.
      + apply (numbers_parts x), parts_ey, (all_yields reg X (fun _ => x)) in HN as [F0 H]. exists (S F0). intro out. rewrite RUN. cbn [encode_byte_array]. rewrite R.
        rewrite (encode_numbers (S F0) x bs). rewrite H by lia. apply prefix_iff in HP. subst pre. rewrite app_assoc. reflexivity.
  Qed.
  Lemma prim256_iff p bs (x : T) t b : bytes_of_256 p = Some bs -> (encodes (Val (DPrim p) x) t b <-> leaf reg X (DPrim p : vdef (value T)) t b).
  Proof.
    intro Hp. assert (Hp' : match p with PU256 _ | PI256 _ => True | _ => False end) by (destruct p; try discriminate; exact I).
    assert (TH : forall u, ends_in (wraps1 reg) t u -> (encodes (Val (DPrim p) x) t b <-> encodes (Val (DPrim p) x) u b)).
    { intros u [Ch NO]. destruct (prim256_through reg X p x t u Ch NO Hp') as [F0 H]. rewrite !encodes_yields. split; intros [F1 E]; exists (Nat.max F0 F1); intros F HF out.
      - rewrite <- H by lia. apply E. lia.
      - rewrite H by lia. apply E. lia. }
    split.
    - intro E. assert (EN : exists u, ends_in (wraps1 reg) t u).
      { destruct E as [F E]. apply (byte_array_ends bs F F t []). specialize (E []). destruct p; try discriminate; injection Hp as ->; cbn [encode encode_primitive] in E; rewrite E; discriminate. }
      destruct EN as (u & EU). apply (TH u EU) in E. apply (prim256_at p bs x u b Hp (proj2 EU)) in E as [(R & HX & ->)|[(e & n & R & Hn & HN)|(e & pre & b' & R & HP & HN & ->)]].
      + eapply L_256; [exact Hp|exact (proj1 EU)|exact R|exact HX].
      + eapply L_256_array; [exact Hp|exact (proj1 EU)|exact R|exact Hn|exact HN].
      + eapply L_256_sequence; [exact Hp|exact (proj1 EU)|exact R|exact HP|exact HN].
    - intro L. assert (NO : forall u, reg u = ResTy (TPrim PtU256) \/ reg u = ResTy (TPrim PtI256) \/ (exists e n, reg u = ResTy (TArray e n)) \/ (exists e, reg u = ResTy (TSequence e)) -> forall w, ~ wraps1 reg u w).
      { intros u HR w W. destruct W as [? ? ? R|? ? R]; rewrite R in HR; destruct HR as [HR|[HR|[(? & ? & HR)|(? & HR)]]]; discriminate. }
      inversion L as [? z ? ? Hi|?|?|?|?|?|? bs' ? u Hp2 Ch R HX|? bs' ? u e n ? Hp2 Ch R Hn HN|? bs' ? u e pre b' Hp2 Ch R HP HN]; subst; try discriminate.
      + destruct Hi as [(m & -> & _)| ->]; discriminate.
      + apply (TH u); [split; [exact Ch|apply NO; tauto]|]. apply (prim256_at p bs x u b Hp); [apply NO; tauto|]. left. split; [exact R|]. split; [exact HX|congruence].
      + assert (bs' = bs) by congruence. subst bs'. apply (TH u); [split; [exact Ch|apply NO; eauto 6]|]. apply (prim256_at p bs x u b Hp); [apply NO; eauto 6|]. right. left. eauto.
      + assert (bs' = bs) by congruence. subst bs'. apply (TH u); [split; [exact Ch|apply NO; eauto 6]|]. apply (prim256_at p bs x u _ Hp); [apply NO; eauto 6|]. right. right. eauto 8.
  Qed.
  Lemma char_iff c (x : T) t b : is_scalar c = true -> (encodes (Val (DPrim (PChar c)) x) t b <-> leaf reg X (DPrim (PChar c) : vdef (value T)) t b).
  Proof.
    intro SC. assert (LT : c < 256 ^ N.of_nat 4) by (change (256 ^ N.of_nat 4) with 4294967296; unfold is_scalar in SC; lia).
    assert (NUM : forall u F out, find_single reg F t false = Some u -> reg (fst u) <> ResTy (TPrim PtChar) ->
      encode reg X F (Val (DPrim (PChar c)) x) t out = encode reg X F (Val (DPrim (PU128 c)) x) t out).
    { intros [u d] F out FS R. cbn [fst] in R. cbn [encode encode_primitive]. unfold encode_char. rewrite FS. destruct (reg u) as [| |[| | | | |[]| |]]; try reflexivity. contradiction. }
    split.
    - intros [F H]. pose proof (H []) as H0. destruct (find_single reg F t false) as [[u d]|] eqn:FS; [|cbn [encode encode_primitive] in H0; unfold encode_char in H0; rewrite FS in H0; discriminate].
      destruct (reg u) as [| |[| | | | |[]| |]] eqn:R.
      all: try (apply L_code, (number_iff (PU128 c) (Z.of_N c) x); [left; eauto|]; exists F; intro out; rewrite <- (NUM (u, d) F out FS) by (cbn [fst]; congruence); apply H).
      cbn [encode encode_primitive] in H0. unfold encode_char in H0. rewrite FS, R in H0. destruct (x_char X) eqn:HX; [|discriminate]. injection H0 as <-.
      eapply L_char; [eapply find_single_chain; exact FS|exact R|exact HX|apply le_enc_bytes, LT].
    - intro L. inversion L as [? z ? ? Hi|? ? ? HN|? ? u ? Ch R HX HE|?|?|?|? ? ? ? Hp|? ? ? ? ? ? ? Hp|? ? ? ? ? ? ? Hp]; subst; try discriminate.
      + destruct Hi as [(m & E & _)|E]; discriminate.
      + pose proof HN as HN'. apply (number_iff (PU128 c) (Z.of_N c) x) in HN'; [|left; eauto]. destruct HN' as [F H]. exists F. intro out. specialize (H out). rewrite <- H.
        destruct (find_single reg F t false) as [[u d]|] eqn:FS; [|cbn [encode encode_primitive] in H; unfold encode_number in H; rewrite FS in H; discriminate].
        apply (NUM (u, d) F out FS). intro R. cbn [fst] in R. cbn [encode encode_primitive] in H. unfold encode_number in H. rewrite FS, R in H. discriminate.
      + assert (St : stop u) by (eapply stop_ty; [exact R|exact I]). destruct (find_chain_any reg t u Ch St) as [F0 H]. exists F0. intro out. destruct (H F0 (le_n _) false) as [d FS].
        cbn [encode encode_primitive]. unfold encode_char. rewrite FS, R, HX. apply le_enc_iff in HE as [-> _]. reflexivity.
  Qed.

  Definition is_leaf (d : vdef (value T)) : Prop := match d with DPrim _ | DBits _ => True | _ => False end.
  Lemma leaf_is_leaf d t b : leaf reg X d t b -> is_leaf d.
  Proof. intro L. destruct L; exact I. Qed.
  Lemma leaf_iff d x t b : is_leaf d -> match d with DPrim p => prim_wf p = true | _ => True end -> (encodes (Val d x) t b <-> leaf reg X d t b).
  Proof.
    intros HL WFp. destruct d as [c|n c|bits|p]; try contradiction.
    - rewrite (leaf_fun_iff (DBits bits) x t b _ (fun _ => eq_refl)). split.
      + intros (u & ty & [Ch St] & R & E). destruct ty; try discriminate. injection E as <-. eapply L_bits; [exact Ch|exact R|apply bits_bytes_iff; reflexivity].
      + intro L. inversion L as [|?|?|?|?|? ? u st o ? Ch R HB|?|?|?]; subst. exists u, (TBitSeq st o). split; [split; [exact Ch|eapply stop_ty; [exact R|exact I]]|]. split; [exact R|].
        apply bits_bytes_iff in HB. subst. reflexivity.
    - destruct p as [y|c|s|n|z|bs|bs].
      + rewrite (leaf_fun_iff (DPrim (PBool y)) x t b _ (fun _ => eq_refl)). split.
        * intros (u & ty & [Ch St] & R & E). destruct ty as [| | | | |[]| |]; try discriminate. injection E as <-. eapply L_bool; [exact Ch|exact R].
        * intro L. inversion L as [? z ? ? Hi|?|?|? ? u Ch R|?|?|? ? ? ? Hp|? ? ? ? ? ? ? Hp|? ? ? ? ? ? ? Hp]; subst; try discriminate; [destruct Hi as [(m & E & _)|E]; discriminate|].
          exists u, (TPrim PtBool). split; [split; [exact Ch|eapply stop_ty; [exact R|exact I]]|]. split; [exact R|reflexivity].
      + apply char_iff. exact WFp.
      + rewrite (leaf_fun_iff (DPrim (PString s)) x t b _ (fun _ => eq_refl)). split.
        * intros (u & ty & [Ch St] & R & E). destruct ty as [| | | | |[]| |]; try discriminate. injection E as <-. eapply L_string; [exact Ch|exact R|apply prefix_iff; reflexivity].
        * intro L. inversion L as [? z ? ? Hi|?|?|?|? ? u pre Ch R HP|?|? ? ? ? Hp|? ? ? ? ? ? ? Hp|? ? ? ? ? ? ? Hp]; subst; try discriminate; [destruct Hi as [(m & E & _)|E]; discriminate|].
          exists u, (TPrim PtStr). split; [split; [exact Ch|eapply stop_ty; [exact R|exact I]]|]. split; [exact R|]. apply prefix_iff in HP. subst pre. reflexivity.
      + rewrite (number_iff (PU128 n) (Z.of_N n) x t b) by (left; eauto). split; [intro H; eapply L_number; [left; eauto|exact H]|].
        intro L. inversion L as [? z ? ? Hi HN|?|?|?|?|?|? ? ? ? Hp|? ? ? ? ? ? ? Hp|? ? ? ? ? ? ? Hp]; subst; try discriminate. destruct Hi as [(m & E & ->)|E]; [injection E as ->; exact HN|discriminate].
      + rewrite (number_iff (PI128 z) z x t b) by (right; reflexivity). split; [intro H; eapply L_number; [right; reflexivity|exact H]|].
        intro L. inversion L as [? z' ? ? Hi HN|?|?|?|?|?|? ? ? ? Hp|? ? ? ? ? ? ? Hp|? ? ? ? ? ? ? Hp]; subst; try discriminate. destruct Hi as [(m & E & ->)|E]; [discriminate|injection E as ->; exact HN].
      + apply (prim256_iff _ bs). reflexivity.
      + apply (prim256_iff _ bs). reflexivity.
  Qed.

  (** ** Consecutive values and fields *)
  Lemma in_turn_parts (W : value T -> TId -> bytes -> Prop) vs ts b : in_turn W vs ts b <-> parts (fun t v b => W v t b) ts vs b.
  Proof. split; induction 1; constructor; assumption. Qed.
  Lemma existsb_named (fs : list (field TId)) : existsb named_field fs = true <-> exists f, In f fs /\ fst f <> None.
  Proof.
    rewrite existsb_exists. split; intros (f & Hf & H); exists f; (split; [exact Hf|]); destruct f as [[n|] t]; cbn in *; congruence.
  Qed.
  Lemma existsb_named_false (fs : list (field TId)) : existsb named_field fs = false <-> forall f, In f fs -> fst f = None.
  Proof.
    split.
    - intros H f Hf. destruct f as [[n|] t] eqn:E; [|reflexivity]. exfalso. assert (H' : existsb named_field fs = true) by (apply existsb_named; exists f; subst f; split; [exact Hf|discriminate]). congruence.
    - intro H. destruct (existsb named_field fs) eqn:E; [|reflexivity]. apply existsb_named in E as (f & Hf & N). exfalso. apply N, H, Hf.
  Qed.
  Lemma by_name_run_any F (l : list (str * value T)) fs : forall out out', encode_by_name (nsrc reg X F l) fs out = (SOk, out') ->
    exists vs bs, out' = out ++ bs /\ Forall2 (fun f v => last_entry l (name_of f) v) fs vs /\ in_turn EW vs (map snd fs) bs.
  Proof.
    induction fs as [|f fs IH]; intros out out' H; cbn [encode_by_name] in H.
    - injection H as <-. exists [], []. rewrite app_nil_r. split; [reflexivity|]. split; constructor.
    - destruct (lookup_last (key_of f) (nsrc reg X F l)) as [e|] eqn:E; [|discriminate]. apply lookup_some in E as (x & L & ->).
      destruct (encode reg X F x (snd f) out) as [[| |] o1] eqn:E; cbn [andthen] in H; try discriminate.
      apply encode_ok_encodes in E as (b & -> & E). apply IH in H as (vs & bs & -> & FA & P).
      exists (x :: vs), (b ++ bs). rewrite app_assoc. split; [reflexivity|]. split; [constructor; assumption|]. cbn [map]. constructor; assumption.
  Qed.
  Lemma by_name_runs_any (l : list (str * value T)) fs vs : Forall2 (fun f v => last_entry l (name_of f) v) fs vs -> forall bs, in_turn EW vs (map snd fs) bs ->
    exists F0, forall F, (F0 <= F)%nat -> forall out, encode_by_name (nsrc reg X F l) fs out = (SOk, out ++ bs).
  Proof.
    induction 1 as [|f x fs vs L _ IH]; intros bs P; cbn [map] in P; inversion P as [|? ? ? ? b bs' E P']; subst.
    - exists 0%nat. intros F _ out. cbn. rewrite app_nil_r. reflexivity.
    - apply encodes_yields in E as [F1 H1]. destruct (IH _ P') as [F2 H2]. exists (Nat.max F1 F2). intros F HF out. cbn [encode_by_name].
      rewrite (lookup_last_named reg X F (key_of f) l x L). rewrite H1 by lia. cbn [andthen]. rewrite app_assoc. apply H2. lia.
  Qed.
  Lemma fields_runs c fs b : fields EW c fs b -> exists F0, forall F, (F0 <= F)%nat -> forall out, encode_fields (csrc reg X F c) fs out = (SOk, out ++ b).
  Proof.
    intros [l fs' vs b' Hl Hn FA P|c' fs' b' HP P]; unfold encode_fields.
    - destruct (by_name_runs_any l fs' vs FA b' P) as [F0 H]. exists F0. intros F HF out. change (csrc reg X F (Named l)) with (nsrc reg X F l). rewrite nsrc_named.
      rewrite (proj2 (existsb_named fs') Hn). destruct l as [|kx l]; [contradiction|]. apply H, HF.
    - assert (N : forall F, existsb named_field fs' && existsb named_field (csrc reg X F c') = false).
      { intro F. destruct c' as [l|l].
        - destruct (HP l eq_refl) as [->|HN]; [cbn; apply andb_false_r|]. rewrite (proj2 (existsb_named_false fs') HN). reflexivity.
        - unfold csrc. cbn [composite_map source_fields]. rewrite existsb_named_none. apply andb_false_r. }
      pose proof P as P'. apply in_turn_parts, parts_ey in P'. pose proof (parts_length _ _ _ _ P') as L. rewrite map_length in L.
      destruct (values c') as [|[d0 x0] vs] eqn:EV.
      + exists 0%nat. intros F _ out. rewrite N, csrc_length, EV, csrc_snd, EV. destruct fs'; [|discriminate]. inversion P; subst. cbn. rewrite app_nil_r. reflexivity.
      + destruct (in_order_yields reg X (fun _ => x0) _ _ _ P') as [F0 H]. exists F0. intros F HF out. rewrite N, csrc_length, EV, csrc_snd, EV, L, Nat.eqb_refl. apply H, HF.
  Qed.
  Lemma fields_run F c fs out out' : encode_fields (csrc reg X F c) fs out = (SOk, out') -> exists b, out' = out ++ b /\ fields EW c fs b.
  Proof.
    unfold encode_fields. intro H. destruct (existsb named_field fs) eqn:EN.
    - destruct c as [[|kx l]|l]; [| |].
      + cbn in H. destruct fs; [discriminate|]. discriminate.
      + change (csrc reg X F (Named (kx :: l))) with (nsrc reg X F (kx :: l)) in H. rewrite nsrc_named in H. cbn [andb] in H.
        apply by_name_run_any in H as (vs & b & -> & FA & P). exists b. split; [reflexivity|]. eapply F_by_name; [discriminate|apply existsb_named, EN|exact FA|exact P].
      + assert (E : existsb named_field (csrc reg X F (Unnamed l)) = false) by (unfold csrc; cbn [composite_map source_fields]; apply existsb_named_none). rewrite E in H. cbn [andb] in H.
        rewrite csrc_length, csrc_snd in H. destruct (Nat.eqb_spec (length fs) (length (values (Unnamed l)))) as [EL|]; [|discriminate].
        apply in_order_parts in H as (b & -> & P); [|rewrite map_length; auto]. exists b. split; [reflexivity|]. apply F_by_position; [discriminate|apply in_turn_parts, P].
    - cbn [andb] in H. rewrite csrc_length, csrc_snd in H. destruct (Nat.eqb_spec (length fs) (length (values c))) as [EL|]; [|discriminate].
      apply in_order_parts in H as (b & -> & P); [|rewrite map_length; auto]. exists b. split; [reflexivity|]. apply F_by_position; [|apply in_turn_parts, P].
      intros l _. right. apply existsb_named_false, EN.
  Qed.

  (** ** Variants *)
  Lemma variant_rule_iff name c x t b : encodes (Val (DVariant name c) x) t b <-> variant reg EW name c t b.
  Proof.
    split.
    - intros [F H]. specialize (H []). cbn [encode] in H. unfold encode_variant in H. destruct (skip_through reg F t) as [u|] eqn:SK; [|discriminate].
      apply skip_through_chain in SK. destruct (reg u) as [| |[|vs| | | | | |]] eqn:R; try discriminate. destruct (find _ vs) as [v|] eqn:FD; [|discriminate].
      change (composite_map (fun x => (x, encode reg X F x)) c) with (items reg X F c) in H. rewrite items_src in H. apply fields_run in H as (b' & E & P).
      apply find_vtarget in FD as (l1 & l2 & -> & En & NI). destruct v as [n idx fs]. cbn [vi_name vi_index vi_fields] in *. subst n.
      exists u, l1, idx, fs, l2, b'. auto.
    - intros (u & l1 & idx & fs & l2 & b' & Ch & R & NI & -> & P). destruct (fields_runs c fs b' P) as [F1 H1].
      assert (NT : forall w, ~ transparent reg u w) by (intros w W; destruct W as [? ? R'|? ? R']; congruence).
      destruct (skip_chain reg t u Ch NT) as [F2 SK]. exists (Nat.max F1 F2). intro out. cbn [encode]. unfold encode_variant. rewrite SK, R by lia.
      assert (FD : find (fun v => str_eqb (vi_name v) name) (l1 ++ VInfo name idx fs :: l2) = Some (VInfo name idx fs)) by (apply find_vtarget; exists l1, l2; auto).
      rewrite FD. match goal with |- context [composite_map snd (composite_map ?g c)] => change (composite_map g c) with (items reg X (Nat.max F1 F2) c) end.
      rewrite items_src. cbn [vi_fields vi_index]. rewrite H1 by lia. rewrite <- app_assoc. reflexivity.
  Qed.

  (** ** A composite taken as it is *)
  Definition doing (F : nat) (c : composite (value T)) (t : TId) : eres := do_encode reg F (items reg X F c) t [].
  Definition done (c : composite (value T)) (t : TId) (b : bytes) : Prop := exists F, doing F c t = (SOk, b).

  Lemma items_rel F1 F2 c : (F1 <= F2)%nat -> crel (irel true (T1:=T) (T2:=T)) (items reg X F1 c) (items reg X F2 c).
  Proof.
    intro L. assert (ER : forall v : value T, erel true (encode reg X F1 v) (encode reg X F2 v)).
    { intros v t out. assert (I0 : map_context (pure_fn (fun x : T => x)) tt v = v) by (apply (map_ctx_id v)).
      pose proof (encode_rel reg X true F1 F2 (or_intror (conj eq_refl L)) (pure_fn (fun x => x)) v tt t out) as E. rewrite I0 in E. exact E. }
    unfold items. destruct c as [l|l]; cbn [composite_map]; constructor; induction l as [|y l IH]; cbn [map]; constructor; try exact IH.
    - split; [reflexivity|]. split; [reflexivity|apply ER].
    - split; [reflexivity|apply ER].
  Qed.
  Lemma doing_mono F1 F2 c t : (F1 <= F2)%nat -> fst (doing F1 c t) <> SHang -> doing F2 c t = doing F1 c t.
  Proof.
    intros L H. destruct (do_encode_rel reg true F1 F2 (or_intror (conj eq_refl L)) _ _ (items_rel F1 F2 c L) t []) as [E|[_ E]]; [symmetry; exact E|contradiction].
  Qed.
  Lemma done_ev c t b F0 : doing F0 c t = (SOk, b) -> forall F, (F0 <= F)%nat -> doing F c t = (SOk, b).
  Proof. intros H F HF. rewrite (doing_mono F0 F c t HF) by (rewrite H; discriminate). exact H. Qed.
  Lemma failed_not_done F c t e o : doing F c t = (SErr e, o) -> forall b, ~ done c t b.
  Proof.
    intros H b [F' H']. pose proof (done_ev c t b F' H' (Nat.max F F') ltac:(lia)) as E1.
    pose proof (doing_mono F (Nat.max F F') c t ltac:(lia)) as E2. rewrite H in E2. specialize (E2 ltac:(discriminate)). congruence.
  Qed.

  Lemma struct_one F (c : composite (value T)) (t u : TId) out : skip_through reg F t = Some u ->
    encode_struct reg F (csrc reg X F c) t out =
    match reg u with
    | ResErr => (SErr XTypeResolving, out)
    | ResTy (TComposite fs) => match c with Unnamed [v] => encode reg X F v u out | _ => encode_fields (csrc reg X F c) fs out end
    | ResTy (TTuple ts) => match values c with [v] => encode reg X F v u out | _ => encode_fields (csrc reg X F c) (map (fun t => (None, t)) ts) out end
    | _ => match values c with [v] => encode reg X F v u out | _ => (SErr XWrongShape, out) end
    end.
  Proof.
    intro SK. unfold encode_struct. rewrite SK. unfold csrc.
    destruct (reg u) as [| |[fs|vs|t'|t' n|ts|p|t'|st o]]; try reflexivity;
      destruct c as [[|[k v] [|[k2 v2] l]]|[|v [|v2 l]]]; reflexivity.
  Qed.
  Lemma struct_like_iff (c : composite (value T)) t b : (exists F, encode_struct reg F (csrc reg X F c) t [] = (SOk, b)) <-> exists u, ends_in (transparent reg) t u /\ struct_like reg EW c u b.
  Proof.
    split.
    - intros [F H]. destruct (skip_through reg F t) as [u|] eqn:SK; [|unfold encode_struct in H; rewrite SK in H; discriminate].
      rewrite (struct_one F c t u [] SK) in H. apply skip_through_ends in SK. exists u. split; [exact SK|].
      assert (ONE : forall v : value T, encode reg X F v u [] = (SOk, b) -> encodes v u b) by (intros v E; apply encode_ok_encodes in E as (b' & -> & E); exact E).
      assert (OTHER : reg u <> ResErr -> (forall fs, reg u <> ResTy (TComposite fs)) -> (forall ts, reg u <> ResTy (TTuple ts)) ->
        match values c with [v] => encode reg X F v u [] | _ => (SErr XWrongShape, []) end = (SOk, b) -> struct_like reg EW c u b).
      { intros N1 N2 N3 HO. destruct (values c) as [|v [|]] eqn:EV; try discriminate. eapply S_other_one; [exact N1|exact N2|exact EV|apply ONE, HO]. }
      destruct (reg u) as [| |[fs|vs|t'|t' n|ts|p|t'|st o]] eqn:R; try discriminate; try (apply OTHER; [discriminate|discriminate|discriminate|exact H]).
      + assert (FLD : (forall v, c <> Unnamed [v]) -> encode_fields (csrc reg X F c) fs [] = (SOk, b) -> struct_like reg EW c u b).
        { intros NO E. apply fields_run in E as (b' & E & P). cbn [app] in E. subst b'. eapply S_struct; eauto. }
        destruct c as [l|[|v [|v2 l]]]; try (apply FLD; [discriminate|exact H]). eapply S_struct_one; [exact R|reflexivity|apply ONE, H].
      + destruct (values c) as [|v [|v2 l]] eqn:EV.
        * apply fields_run in H as (b' & E & P). cbn [app] in E. subst b'. eapply S_tuple; [exact R|rewrite EV; discriminate|exact P].
        * eapply S_other_one; [congruence|congruence|exact EV|apply ONE, H].
        * apply fields_run in H as (b' & E & P). cbn [app] in E. subst b'. eapply S_tuple; [exact R|rewrite EV; discriminate|exact P].
    - intros (u & [Ch NT] & SL). destruct (skip_chain reg t u Ch NT) as [F1 SK].
      destruct SL as [fs R NO P|ts R NO P|fs v R -> P|v N1 N2 EV P].
      + destruct (fields_runs c fs b P) as [F2 H]. exists (Nat.max F1 F2). rewrite (struct_one _ c t u []) by (apply SK; lia). rewrite R.
        destruct c as [l|[|v [|v2 l]]]; try (rewrite H by lia; reflexivity). exfalso. apply (NO v). reflexivity.
      + destruct (fields_runs c _ b P) as [F2 H]. exists (Nat.max F1 F2). rewrite (struct_one _ c t u []) by (apply SK; lia). rewrite R.
        destruct (values c) as [|v [|v2 l]]; try (rewrite H by lia; reflexivity). exfalso. apply NO. reflexivity.
      + apply encodes_yields in P as [F2 H]. exists (Nat.max F1 F2). rewrite (struct_one _ _ t u []) by (apply SK; lia). rewrite R. rewrite H by lia. reflexivity.
      + apply encodes_yields in P as [F2 H]. exists (Nat.max F1 F2). rewrite (struct_one _ _ t u []) by (apply SK; lia). rewrite EV. rewrite H by lia.
        destruct (reg u) as [| |[fs|vs|t'|t' n|ts|p|t'|st o]]; try reflexivity; [contradiction|]. exfalso. apply (N2 fs). reflexivity.
  Qed.
  Lemma done_iff c t b : done c t b <-> directly reg EW c t b.
  Proof.
    assert (ST : (exists fs, reg t = ResTy (TComposite fs)) \/ (exists ts, reg t = ResTy (TTuple ts)) ->
       (done c t b <-> exists u, ends_in (transparent reg) t u /\ struct_like reg EW c u b)).
    { intro R. rewrite <- struct_like_iff. unfold done, doing. split; intros [F H]; exists F; rewrite (do_encode_struct reg X F c t []) in * by exact R; exact H. }
    split.
    - intros [F H]. destruct (reg t) as [| |[fs|vs|t'|t' n|ts|p|t'|st o]] eqn:R.
      + unfold doing, do_encode in H. rewrite R in H. discriminate.
      + unfold doing, do_encode in H. rewrite R, items_values in H. destruct (values c) as [|v [|]] eqn:EV; try discriminate. cbn [map snd] in H.
        apply encode_ok_encodes in H as (b' & -> & E). eapply D_one; [auto|exact EV|exact E].
      + destruct (proj1 (ST ltac:(eauto)) (ex_intro _ F H)) as (u & EU & SL). eapply D_struct; [eauto|exact EU|exact SL].
      + unfold doing, do_encode in H. rewrite R, items_values in H. destruct (values c) as [|v [|]] eqn:EV; try discriminate. cbn [map snd] in H.
        apply encode_ok_encodes in H as (b' & -> & E). eapply D_one; [eauto|exact EV|exact E].
      + unfold doing, do_encode in H. rewrite R, items_encs, items_len in H. apply all_parts in H as (bs & -> & P). eapply D_sequence; [exact R|apply prefix_iff; reflexivity|apply in_turn_parts, P|reflexivity].
      + unfold doing, do_encode in H. rewrite R, items_encs, items_len in H. destruct (N.eqb_spec (N.of_nat (length (values c))) n) as [En|]; [|discriminate].
        apply all_parts in H as (bs & -> & P). eapply D_array; [exact R|exact En|apply in_turn_parts, P].
      + destruct (proj1 (ST ltac:(eauto)) (ex_intro _ F H)) as (u & EU & SL). eapply D_struct; [eauto|exact EU|exact SL].
      + unfold doing, do_encode in H. rewrite R, items_values in H. destruct (values c) as [|v [|]] eqn:EV; try discriminate. cbn [map snd] in H.
        apply encode_ok_encodes in H as (b' & -> & E). eapply D_one; [eauto|exact EV|exact E].
      + unfold doing, do_encode in H. rewrite R, items_values in H. destruct (values c) as [|v [|]] eqn:EV; try discriminate. cbn [map snd] in H.
        apply encode_ok_encodes in H as (b' & -> & E). eapply D_one; [eauto 6|exact EV|exact E].
      + unfold doing, do_encode in H. rewrite R, items_vals in H. destruct (bits_of (values c)) as [bits|] eqn:B; [|discriminate]. injection H as <-.
        eapply D_bits; [exact R|apply bits_of_iff, B|apply bits_bytes_iff; reflexivity].
    - intro D. destruct D as [u R EU SL|e pre bs R HP P ->|e n R En P|st o bits R FA HB|v R EV E].
      + apply (ST R). eauto.
      + apply in_turn_parts, parts_ey in P. apply prefix_iff in HP. subst pre.
        assert (G : exists F0, forall F, (F0 <= F)%nat -> forall out, encode_all (map (encode reg X F) (values c)) e out = (SOk, out ++ bs)).
        { destruct (values c) as [|[d0 x0] vs] eqn:EV; [|rewrite <- EV in *; apply (all_yields reg X (fun _ => x0)), P]. inversion P; subst. exists 0%nat. intros F _ out. cbn. rewrite app_nil_r. reflexivity. }
        destruct G as [F0 H]. exists F0. unfold doing, do_encode. rewrite R, items_encs, items_len. rewrite H by lia. reflexivity.
      + apply in_turn_parts, parts_ey in P.
        assert (G : exists F0, forall F, (F0 <= F)%nat -> forall out, encode_all (map (encode reg X F) (values c)) e out = (SOk, out ++ b)).
        { destruct (values c) as [|[d0 x0] vs] eqn:EV; [|rewrite <- EV in *; apply (all_yields reg X (fun _ => x0)), P]. inversion P; subst. exists 0%nat. intros F _ out. cbn. rewrite app_nil_r. reflexivity. }
        destruct G as [F0 H]. exists F0. unfold doing, do_encode. rewrite R, items_encs, items_len, En, N.eqb_refl. rewrite H by lia. reflexivity.
      + apply bits_of_iff in FA. apply bits_bytes_iff in HB. subst b. exists 0%nat. unfold doing, do_encode. rewrite R, items_vals, FA. reflexivity.
      + destruct E as [F E]. exists F. unfold doing, do_encode. rewrite items_values, EV. cbn [map snd]. rewrite E.
        destruct R as [R|[[vs R]|[[p R]|[t' R]]]]; rewrite R; reflexivity.
  Qed.

  (** ** Composites *)
  Lemma composite_steps F (c : composite (value T)) x t out : encode reg X F (Val (DComposite c) x) t out =
    match doing F c t with
    | (SOk, tmp) => (SOk, out ++ tmp)
    | (SHang, _) => (SHang, out)
    | (SErr e, _) =>
        match find_single reg F t false with
        | None => (SHang, out)
        | Some (u, different) =>
            match (if different then doing F c u else (SErr e, [])) with
            | (SOk, tmp) => (SOk, out ++ tmp)
            | (SHang, _) => (SHang, out)
            | (SErr _, _) =>
                match values c with
                | [v] => match encode reg X F v u [] with
                         | (SOk, tmp) => (SOk, out ++ tmp)
                         | (SHang, _) => (SHang, out)
                         | (SErr _, _) => (SErr e, out)
                         end
                | _ => (SErr e, out)
                end
            end
        end
    end.
  Proof.
    cbn [encode]. change (composite_map (fun x => (x, encode reg X F x)) c) with (items reg X F c). unfold encode_composite, doing. rewrite items_values.
    destruct (values c) as [|v [|]]; reflexivity.
  Qed.
  Lemma composite_sound c x t b : encodes (Val (DComposite c) x) t b -> done c t b \/
    exists u, ends_in (wraps reg) t u /\ (forall b', ~ done c t b') /\
      (done c u b \/ ((forall b', ~ done c u b') /\ exists v, values c = [v] /\ encodes v u b)).
  Proof.
    intros [F H]. specialize (H []). rewrite composite_steps in H. destruct (doing F c t) as [[|e|] tmp] eqn:D1; [injection H as <-; left; exists F; exact D1| |discriminate].
    right. destruct (find_single reg F t false) as [[u d]|] eqn:FS; [|discriminate]. pose proof (find_single_chain reg _ _ _ _ _ FS) as Ch. apply find_single_stop in FS as (St & _ & Hd).
    exists u. split; [split; assumption|]. split; [eapply failed_not_done; exact D1|].
    assert (LAST : (forall b', ~ done c u b') -> match values c with [v] => match encode reg X F v u [] with (SOk, tmp) => (SOk, [] ++ tmp) | (SHang, _) => (SHang, []) | (SErr _, _) => (SErr e, []) end | _ => (SErr e, []) end = (SOk, [] ++ b) ->
      done c u b \/ (forall b', ~ done c u b') /\ exists v, values c = [v] /\ encodes v u b).
    { intros NU HL. right. split; [exact NU|]. destruct (values c) as [|v [|]]; try discriminate. exists v. split; [reflexivity|].
      destruct (encode reg X F v u []) as [[| |] tmp'] eqn:E; try discriminate. injection HL as <-. apply encode_ok_encodes in E as (b' & -> & E). exact E. }
    destruct d.
    - destruct (doing F c u) as [[|e2|] tmp2] eqn:D2; [injection H as <-; left; exists F; exact D2| |discriminate]. apply LAST; [eapply failed_not_done; exact D2|exact H].
    - apply LAST; [|exact H]. rewrite (Hd eq_refl). eapply failed_not_done; exact D1.
  Qed.

  Section WF.
    Context (WF : forall t, Acc (fun t' t => wraps reg t t') t).

    Lemma doing_settles c t : exists F0, fst (doing F0 c t) <> SHang.
    Proof.
      pose proof (do_encode_total reg WF (composite_map (fun x => (x, fun F => encode reg X F x)) c)) as H.
      assert (HS : Forall total (map snd (values (composite_map (fun x : value T => (x, fun F => encode reg X F x)) c)))).
      { rewrite values_map, map_map. cbn [snd]. apply Forall_map, Forall_forall. intros v _. apply (encode_total reg X WF). }
      destruct (H HS t) as [F0 HF]. exists F0. specialize (HF F0 (le_n _) []). unfold doing.
      replace (items reg X F0 c) with (cat F0 (composite_map (fun x => (x, fun F => encode reg X F x)) c)); [exact HF|].
      unfold cat, items. destruct c; cbn [composite_map]; rewrite map_map; reflexivity.
    Qed.
    Lemma not_done_fails c t : (forall b, ~ done c t b) -> exists F0, forall F, (F0 <= F)%nat -> exists e o, doing F c t = (SErr e, o).
    Proof.
      intro N. destruct (doing_settles c t) as [F0 H]. exists F0. intros F HF. rewrite (doing_mono F0 F c t HF H).
      destruct (doing F0 c t) as [[|e|] o] eqn:E; [exfalso; exact (N o (ex_intro _ F0 E))|eauto|contradiction].
    Qed.
    Lemma composite_rules c x t b : encodes (Val (DComposite c) x) t b <-> done c t b \/
      exists u, ends_in (wraps reg) t u /\ (forall b', ~ done c t b') /\
        (done c u b \/ ((forall b', ~ done c u b') /\ exists v, values c = [v] /\ encodes v u b)).
    Proof.
      split; [apply composite_sound|]. intros [[F H]|(u & [Ch St] & N1 & [[F2 D2]|(N2 & v & EV & E)])].
      - exists F. intro out. rewrite composite_steps, H. reflexivity.
      - destruct (not_done_fails c t N1) as [F1 H1]. destruct (find_chain_any reg t u Ch St) as [F3 H3]. exists (Nat.max F1 (Nat.max F2 F3)). intro out. rewrite composite_steps.
        destruct (H1 (Nat.max F1 (Nat.max F2 F3)) ltac:(lia)) as (e & o & ->). destruct (H3 (Nat.max F1 (Nat.max F2 F3)) ltac:(lia) false) as [d FS]. rewrite FS.
        apply find_single_stop in FS as (_ & _ & Hd). destruct d; [|rewrite (Hd eq_refl) in D2; exfalso; eapply N1; exists F2; exact D2].
        rewrite (done_ev c u b F2 D2) by lia. reflexivity.
      - destruct (not_done_fails c t N1) as [F1 H1]. destruct (not_done_fails c u N2) as [F2 H2]. destruct (find_chain_any reg t u Ch St) as [F3 H3]. apply encodes_yields in E as [F4 H4].
        remember (Nat.max (Nat.max F1 F4) (Nat.max F2 F3)) as F eqn:EF. exists F. intro out. rewrite composite_steps.
        destruct (H1 F ltac:(lia)) as (e & o & ->). destruct (H3 F ltac:(lia) false) as [d ->]. destruct (H2 F ltac:(lia)) as (e2 & o2 & ->).
        rewrite EV. destruct d; rewrite H4 by lia; reflexivity.
    Qed.
  End WF.
End Facts.

(** ** The rules only look at how the values inside are written *)
Section Cong.
  Context {TId T : Type} (reg : TId -> resolution TId).
  Lemma in_turn_impl (W W' : value T -> TId -> bytes -> Prop) vs ts b : Forall (fun v => forall t b, W v t b -> W' v t b) vs -> in_turn W vs ts b -> in_turn W' vs ts b.
  Proof. intros H P. induction P as [|v vs t ts b bs Hv _ IH]; [constructor|]. inversion H as [|? ? H1 H2]; subst. constructor; [apply H1, Hv|apply IH, H2]. Qed.
  Lemma last_entry_in (l : list (str * value T)) k v : last_entry l k v -> In v (values (Named l)).
  Proof. intros (l1 & l2 & -> & _). cbn [values]. rewrite map_app. apply in_or_app. right. left. reflexivity. Qed.
  Lemma by_name_values l (fs : list (field TId)) (vs : list (value T)) : Forall2 (fun f v => last_entry l (name_of f) v) fs vs -> forall v, In v vs -> In v (values (Named l)).
  Proof. induction 1 as [|f v fs vs L _ IH]; intros w; [contradiction|]. intros [<-|Hw]; [eapply last_entry_in; exact L|apply IH, Hw]. Qed.
  Lemma fields_impl (W W' : value T -> TId -> bytes -> Prop) c fs b : Forall (fun v => forall t b, W v t b -> W' v t b) (values c) -> fields W c fs b -> fields W' c fs b.
  Proof.
    intros H P. destruct P as [l fs vs b Hl Hn FA P|c fs b HP P].
    - eapply F_by_name; [exact Hl|exact Hn|exact FA|]. eapply in_turn_impl; [|exact P]. apply Forall_forall. intros v Hv. eapply Forall_forall in H; [exact H|]. eapply by_name_values; eauto.
    - apply F_by_position; [exact HP|]. eapply in_turn_impl; eauto.
  Qed.
  Lemma variant_impl (W W' : value T -> TId -> bytes -> Prop) n c t b : Forall (fun v => forall t b, W v t b -> W' v t b) (values c) -> variant reg W n c t b -> variant reg W' n c t b.
  Proof. intros H (u & l1 & idx & fs & l2 & b' & Ch & R & NI & -> & P). exists u, l1, idx, fs, l2, b'. repeat split; try assumption. eapply fields_impl; eauto. Qed.
  Lemma one_impl (W W' : value T -> TId -> bytes -> Prop) c v : Forall (fun v => forall t b, W v t b -> W' v t b) (values c) -> values c = [v] -> forall t b, W v t b -> W' v t b.
  Proof. intros H E. rewrite E in H. inversion H; subst; assumption. Qed.
  Lemma directly_impl (W W' : value T -> TId -> bytes -> Prop) c t b : Forall (fun v => forall t b, W v t b -> W' v t b) (values c) -> directly reg W c t b -> directly reg W' c t b.
  Proof.
    intros H D. destruct D as [u R EU SL|e pre bs R HP P ->|e n R En P|st o bits R FA HB|v R EV E].
    - eapply D_struct; [exact R|exact EU|]. destruct SL as [fs R' NO P|ts R' NO P|fs v R' -> P|v N1 N2 EV P].
      + eapply S_struct; [exact R'|exact NO|eapply fields_impl; eauto].
      + eapply S_tuple; [exact R'|exact NO|eapply fields_impl; eauto].
      + eapply S_struct_one; [exact R'|reflexivity|]. eapply (one_impl W W' (Unnamed [v]) v H eq_refl), P.
      + eapply S_other_one; [exact N1|exact N2|exact EV|]. eapply (one_impl W W' c v H EV), P.
    - eapply D_sequence; [exact R|exact HP|eapply in_turn_impl; eauto|reflexivity].
    - eapply D_array; [exact R|exact En|eapply in_turn_impl; eauto].
    - eapply D_bits; eauto.
    - eapply D_one; [exact R|exact EV|]. eapply (one_impl W W' c v H EV), E.
  Qed.

  (** Forgetting the bytes. *)
  Section Forget.
    Context (W : value T -> TId -> bytes -> Prop).
    Local Notation SW := (fun v t (_ : bytes) => exists b, W v t b).
    Lemma in_turn_some vs ts b : in_turn SW vs ts b -> exists b', in_turn W vs ts b'.
    Proof. induction 1 as [|v vs t ts b bs [b1 H1] _ [b2 H2]]; [exists []; constructor|]. exists (b1 ++ b2). constructor; assumption. Qed.
    Lemma fields_some c fs b : fields SW c fs b -> exists b', fields W c fs b'.
    Proof.
      intros [l fs' vs b' Hl Hn FA P|c' fs' b' HP P]; apply in_turn_some in P as [b2 P]; exists b2; [eapply F_by_name; eauto|apply F_by_position; assumption].
    Qed.
    Lemma variant_some n c t b : variant reg SW n c t b -> exists b', variant reg W n c t b'.
    Proof. intros (u & l1 & idx & fs & l2 & b' & Ch & R & NI & -> & P). apply fields_some in P as [b2 P]. exists (idx :: b2), u, l1, idx, fs, l2, b2. auto. Qed.
    Lemma directly_some c t b : directly reg SW c t b -> exists b', directly reg W c t b'.
    Proof.
      intros D. destruct D as [u R EU SL|e pre bs R HP P ->|e n R En P|st o bits R FA HB|v R EV [b1 E]].
      - destruct SL as [fs R' NO P|ts R' NO P|fs v R' -> [b1 P]|v N1 N2 EV [b1 P]].
        + apply fields_some in P as [b1 P]. exists b1. eapply D_struct; [exact R|exact EU|]. eapply S_struct; eauto.
        + apply fields_some in P as [b1 P]. exists b1. eapply D_struct; [exact R|exact EU|]. eapply S_tuple; eauto.
        + exists b1. eapply D_struct; [exact R|exact EU|]. eapply S_struct_one; eauto.
        + exists b1. eapply D_struct; [exact R|exact EU|]. eapply S_other_one; eauto.
      - apply in_turn_some in P as [b1 P]. exists (pre ++ b1). eapply D_sequence; eauto.
      - apply in_turn_some in P as [b1 P]. exists b1. eapply D_array; eauto.
      - exists b. eapply D_bits; eauto.
      - exists b1. eapply D_one; eauto.
    Qed.
  End Forget.
End Cong.

Section Exact.
  Context {TId T : Type} (reg : TId -> resolution TId) (X : ext) (WF : forall t, Acc (fun t' t => wraps reg t t') t).
  Local Notation EW := (fun (v : value T) t b => encodes reg X v t b).
  Definition holds (v : value T) : Prop := all_nodes (fun d => match d with DPrim p => prim_wf p = true | _ => True end) v.

  Lemma fits_iff (v : value T) : holds v -> forall t, (exists b, encodes reg X v t b) <-> fits reg X v t.
  Proof.
    induction v as [d x IH] using value_ind'. intros HV t. inversion HV as [? ? Hd Hc]; subst.
    assert (UP : Forall (fun v => forall t (b : bytes), (exists b, encodes reg X v t b) -> fits reg X v t) (children d) /\ Forall (fun v => forall t (b : bytes), fits reg X v t -> exists b, encodes reg X v t b) (children d)).
    { split; apply Forall_forall; intros v Hv t0 b0 E; eapply Forall_forall in IH; eauto; eapply Forall_forall in Hc; eauto; apply IH; auto. }
    destruct UP as [U1 U2]. destruct d as [c|n c|bits|p]; cbn [children] in *.
    - assert (DO : forall u, (exists b, done reg X c u b) <-> fits_directly reg X c u).
      { intro u. split.
        - intros [b D]. apply done_iff in D. exists b. eapply directly_impl; [|exact D]. apply Forall_forall. intros v Hv t0 b0 E. eapply Forall_forall in U1; [|exact Hv]. apply (U1 t0 b0). eauto.
        - intros [b D]. apply (directly_impl reg _ (fun v t _ => exists b, encodes reg X v t b)) in D; [|exact U2]. apply directly_some in D as [b' D]. exists b'. apply done_iff, D. }
      split.
      + intros [b E]. apply (composite_sound reg X) in E as [D|(u & EU & _ & [D|(_ & v & EV & E)])].
        * destruct (proj1 (DO t) (ex_intro _ b D)) as [b' D']. eapply Fits_directly, D'.
        * destruct (proj1 (DO u) (ex_intro _ b D)) as [b' D']. eapply Fits_inside; [exact EU|exact D'].
        * eapply Fits_one; [exact EU|exact EV|]. rewrite EV in U1. inversion U1 as [|? ? U _]; subst. apply (U u []). eauto.
      + assert (DD : (exists b, done reg X c t b) \/ ~ (exists b, done reg X c t b)).
        { destruct (doing_settles reg X WF c t) as [F0 H]. destruct (doing reg X F0 c t) as [[|e|] o] eqn:E; [left; exists o, F0; exact E| |contradiction].
          right. intros [b D]. exact (failed_not_done reg X F0 c t e o E b D). }
        intro FT. destruct DD as [[b D]|ND]; [exists b; apply (composite_rules reg X WF); left; exact D|].
        assert (ND' : forall b', ~ done reg X c t b') by (intros b' D; apply ND; eauto).
        inversion FT as [? ? ? b L|?|? ? ? b D|? ? ? u b EU D|? ? ? u v EU EV FV]; subst.
        * exfalso. exact (leaf_is_leaf reg X _ _ _ L).
        * exfalso. apply ND, DO. exists b. exact D.
        * destruct (proj2 (DO u) (ex_intro _ b D)) as [b' D']. exists b'. apply (composite_rules reg X WF). right. exists u. auto.
        * assert (DU : (exists b, done reg X c u b) \/ ~ (exists b, done reg X c u b)).
          { destruct (doing_settles reg X WF c u) as [F0 H]. destruct (doing reg X F0 c u) as [[|e|] o] eqn:E; [left; exists o, F0; exact E| |contradiction].
            right. intros [b D]. exact (failed_not_done reg X F0 c u e o E b D). }
          destruct DU as [[b D]|NU]; [exists b; apply (composite_rules reg X WF); right; exists u; auto|].
          rewrite EV in U2. inversion U2 as [|? ? U _]; subst. destruct (U u [] FV) as [b E]. exists b. apply (composite_rules reg X WF). right. exists u. split; [exact EU|]. split; [exact ND'|].
          right. split; [intros b' D; apply NU; eauto|eauto].
    - split.
      + intros [b E]. apply variant_rule_iff in E. eapply Fits_variant with (b := b). eapply variant_impl; [|exact E]. apply Forall_forall. intros v Hv t0 b0 E0. eapply Forall_forall in U1; [|exact Hv]. apply (U1 t0 b0). eauto.
      + intro FT. inversion FT as [? ? ? b L|? ? ? ? b V|?|?|?]; subst; [exfalso; exact (leaf_is_leaf reg X _ _ _ L)|].
        apply (variant_impl reg _ (fun v t _ => exists b, encodes reg X v t b)) in V; [|exact U2]. apply variant_some in V as [b' V]. exists b'. apply variant_rule_iff, V.
    - split.
      + intros [b E]. apply leaf_iff in E; [|exact I|exact I]. eapply Fits_leaf, E.
      + intro FT. inversion FT as [? ? ? b L|?|?|?|?]; subst. exists b. apply leaf_iff; [exact I|exact I|exact L].
    - split.
      + intros [b E]. apply leaf_iff in E; [|exact I|exact Hd]. eapply Fits_leaf, E.
      + intro FT. inversion FT as [? ? ? b L|?|?|?|?]; subst. exists b. apply leaf_iff; [exact I|exact Hd|exact L].
  Qed.
  Lemma fits_directly_iff (c : composite (value T)) : Forall holds (values c) -> forall t, (exists b, done reg X c t b) <-> fits_directly reg X c t.
  Proof.
    intros HC t. split.
    - intros [b D]. apply done_iff in D. exists b. eapply directly_impl; [|exact D]. apply Forall_forall. intros v Hv t0 b0 E. eapply Forall_forall in HC; [|exact Hv]. apply (fits_iff v HC). eauto.
    - intros [b D]. apply (directly_impl reg _ (fun v t _ => exists b, encodes reg X v t b)) in D.
      + apply directly_some in D as [b' D]. exists b'. apply done_iff, D.
      + apply Forall_forall. intros v Hv t0 b0 E. eapply Forall_forall in HC; [|exact Hv]. apply (fits_iff v HC). exact E.
  Qed.
  Theorem writes_iff (v : value T) : holds v -> forall t b, encodes reg X v t b <-> writes reg X v t b.
  Proof.
    induction v as [d x IH] using value_ind'. intros HV t b. inversion HV as [? ? Hd Hc]; subst.
    assert (U1 : Forall (fun v => forall t b, encodes reg X v t b -> writes reg X v t b) (children d)).
    { apply Forall_forall. intros v Hv t0 b0 E. eapply Forall_forall in IH; eauto. eapply Forall_forall in Hc; eauto. apply IH; auto. }
    assert (U2 : Forall (fun v => forall t b, writes reg X v t b -> encodes reg X v t b) (children d)).
    { apply Forall_forall. intros v Hv t0 b0 E. eapply Forall_forall in IH; eauto. eapply Forall_forall in Hc; eauto. apply IH; auto. }
    destruct d as [c|n c|bits|p]; cbn [children] in *.
    - rewrite (composite_rules reg X WF c x t b).
      assert (ND : forall u, (forall b', ~ done reg X c u b') <-> ~ fits_directly reg X c u).
      { intro u. rewrite <- (fits_directly_iff c Hc u). split; [intros H [b' D]; exact (H b' D)|intros H b' D; apply H; eauto]. }
      assert (D1 : forall u, done reg X c u b <-> directly reg (writes reg X) c u b).
      { intro u. rewrite done_iff. split; apply directly_impl; assumption. }
      split.
      + intros [D|(u & EU & N1 & [D|(N2 & v & EV & E)])].
        * apply Wr_directly, D1, D.
        * eapply Wr_inside; [exact EU|apply ND, N1|apply D1, D].
        * eapply Wr_one; [exact EU|apply ND, N1|apply ND, N2|exact EV|]. rewrite EV in U1. inversion U1; subst; auto.
      + intro Wr. inversion Wr as [? ? ? ? L|?|? ? ? ? D|? ? ? u ? EU N1 D|? ? ? u v ? EU N1 N2 EV E]; subst.
        * exfalso. exact (leaf_is_leaf reg X _ _ _ L).
        * left. apply D1, D.
        * right. exists u. split; [exact EU|]. split; [apply ND, N1|]. left. apply D1, D.
        * right. exists u. split; [exact EU|]. split; [apply ND, N1|]. right. split; [apply ND, N2|]. exists v. split; [exact EV|]. rewrite EV in U2. inversion U2; subst; auto.
    - rewrite variant_rule_iff. split.
      + intro V. apply Wr_variant. eapply variant_impl; [|exact V]. exact U1.
      + intro Wr. inversion Wr as [? ? ? ? L|? ? ? ? ? V|?|?|?]; subst; [exfalso; exact (leaf_is_leaf reg X _ _ _ L)|]. eapply variant_impl; [|exact V]. exact U2.
    - rewrite leaf_iff by exact I. split; [apply Wr_leaf|]. intro Wr. inversion Wr; subst. assumption.
    - rewrite leaf_iff by (exact I || exact Hd). split; [apply Wr_leaf|]. intro Wr. inversion Wr; subst. assumption.
  Qed.
End Exact.
