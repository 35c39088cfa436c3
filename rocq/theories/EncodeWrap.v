(** * EncodeWrap: encoding through wrapper types (C33), numbers (C37, C38), variants, and zeroed padding (C24). *)
From Verif Require Import Base Value ValueFacts Registry Spec_Scale Scale ScaleFacts BitsFacts Decode DecodeFacts Encode EncodeFacts Spec_Encode EncodeSound EncodeComplete EncodeMore.
Open Scope N_scope.

Section Wrap.
  Context {TId : Type} (reg : TId -> resolution TId) (X : ext).
  Local Notation stop := (stop reg).

  Lemma find_chain_any t u : chain (wraps reg) t u -> stop u -> exists F0, forall F, (F0 <= F)%nat -> forall c, exists d, find_single reg F t c = Some (u, d).
  Proof.
    intros Ch St. destruct Ch as [t|t t' u W Ch].
    - exists 1%nat. intros [|F] HF c; [lia|]. exists c. apply find_stop, St.
    - destruct (find_chain reg t' u Ch St) as [F0 H]. exists (S F0). intros [|F] HF c; [lia|]. exists true. rewrite (find_step reg F t t' c W). apply H. lia.
  Qed.

  (** Every primitive except the 256-bit ones, and bit sequences. *)
  Definition by_find {T} (d : vdef (value T)) : Prop :=
    match d with DBits _ => True | DPrim (PU256 _) | DPrim (PI256 _) => False | DPrim _ => True | _ => False end.
  Lemma leaf_through {T} (d : vdef (value T)) ctx t u : by_find d -> chain (wraps reg) t u -> stop u ->
    exists F0, forall F, (F0 <= F)%nat -> forall out, encode reg X F (Val d ctx) t out = encode reg X F (Val d ctx) u out.
  Proof.
    intros Hd Ch St. destruct (find_chain_any t u Ch St) as [F0 H]. exists (S F0). intros [|F] HF out; [lia|].
    destruct (H (S F) ltac:(lia) false) as [d' H1]. assert (H2 : find_single reg (S F) u false = Some (u, false)) by (apply find_stop, St).
    destruct d as [c|n c|b|p]; try contradiction; [|destruct p; try contradiction]; cbn [encode encode_primitive];
      unfold encode_bitseq, encode_bool, encode_str, encode_leaf, encode_char, encode_number; rewrite H1, H2; reflexivity.
  Qed.
  (** The 256-bit primitives are looked through structs and tuples only. *)
  Lemma bytes_through b t u : chain (wraps1 reg) t u -> (forall w, ~ wraps1 reg u w) ->
    exists k, forall F f out, encode_byte_array reg X F (k + S f) b t out = encode_byte_array reg X F (S f) b u out.
  Proof.
    induction 1 as [t|t t' u W _ IH]; intro St; [exists 0%nat; reflexivity|]. destruct (IH St) as [k H]. exists (S k). intros F f out. cbn [Nat.add encode_byte_array].
    destruct W as [? nm ? R|? ? R]; rewrite R; apply H.
  Qed.
  Lemma byte_array_fuel b u F f1 f2 out : (forall w, ~ wraps1 reg u w) -> encode_byte_array reg X F (S f1) b u out = encode_byte_array reg X F (S f2) b u out.
  Proof.
    intro St. cbn [encode_byte_array]. destruct (reg u) as [| |[fs|vs|t'|t' n|ts|p|t'|st o]] eqn:R; try reflexivity.
    - destruct fs as [|[nm t'] [|]]; try reflexivity. exfalso. apply (St t'). eapply W_struct, R.
    - destruct ts as [|t' [|]]; try reflexivity. exfalso. apply (St t'). eapply W_tuple, R.
  Qed.
  Lemma prim256_through {T} p (ctx : T) t u : chain (wraps1 reg) t u -> (forall w, ~ wraps1 reg u w) -> match p with PU256 _ | PI256 _ => True | _ => False end ->
    exists F0, forall F, (F0 <= F)%nat -> forall out, encode reg X F (Val (DPrim p) ctx) t out = encode reg X F (Val (DPrim p) ctx) u out.
  Proof.
    intros Ch St Hp. assert (G : forall b, exists F0, forall F, (F0 <= F)%nat -> forall out, encode_byte_array reg X F F b t out = encode_byte_array reg X F F b u out).
    { intro b. destruct (bytes_through b t u Ch St) as [k H]. exists (S k). intros F HF out. destruct (Nat.le_exists_sub (S k) F HF) as (f & -> & _).
      transitivity (encode_byte_array reg X (f + S k) (k + S f) b t out); [f_equal; lia|]. rewrite H.
      transitivity (encode_byte_array reg X (f + S k) (S (f + k)) b u out); [apply (byte_array_fuel b u _ f (f + k) out St)|]. f_equal. lia. }
    destruct p; try contradiction; apply G.
  Qed.

  (** Variants are looked up behind unnamed wrappers. *)
  Lemma skip_chain t u : chain (transparent reg) t u -> (forall w, ~ transparent reg u w) -> exists F0, forall F, (F0 <= F)%nat -> skip_through reg F t = Some u.
  Proof.
    induction 1 as [t|t t' u W _ IH]; intro St.
    - exists 1%nat. intros F HF. apply (skip_nontransparent reg (fun _ => tt)); [exact St|exact HF].
    - destruct (IH St) as [F0 H]. exists (S F0). intros [|F] HF; [lia|]. rewrite (skip_step reg F t t' W). apply H. lia.
  Qed.
  Lemma variant_through {T} name (c : composite (value T)) ctx t u : chain (transparent reg) t u -> (forall w, ~ transparent reg u w) ->
    exists F0, forall F, (F0 <= F)%nat -> forall out, encode reg X F (Val (DVariant name c) ctx) t out = encode reg X F (Val (DVariant name c) ctx) u out.
  Proof.
    intros Ch St. destruct (skip_chain t u Ch St) as [F0 H]. exists (S F0). intros F HF out. cbn [encode]. unfold encode_variant.
    rewrite (H F) by lia. rewrite (skip_nontransparent reg (fun _ => tt) F u St) by lia. reflexivity.
  Qed.

  (** Composites with two or more values (or none). *)
  Definition seen_through {T} (c : composite (value T)) (t t' : TId) : Prop :=
    wraps reg t t' /\ match c with Named _ => forall n, reg t <> ResTy (TComposite [(Some n, t')]) | Unnamed _ => True end.
  Lemma seen_wraps {T} (c : composite (value T)) t u : chain (seen_through c) t u -> chain (wraps reg) t u.
  Proof. induction 1 as [|? ? ? [W _] _ IH]; econstructor; eauto. Qed.

  Lemma skip_within {T} (c : composite (value T)) t u : chain (seen_through c) t u -> stop u ->
    exists t1, (t1 = u \/ exists w, seen_through c t1 w /\ ~ transparent reg t1 w) /\ exists F0, forall F, (F0 <= F)%nat -> skip_through reg F t = Some t1.
  Proof.
    induction 1 as [t|t t' u [W N] _ IH]; intro St.
    - exists t. split; [left; reflexivity|]. exists 1%nat. intros [|F] HF; [lia|]. apply skip_stop, St.
    - assert (D : transparent reg t t' \/ ~ transparent reg t t').
      { destruct W as [? ? [? [nm|] ? R|? ? R]|? ? R].
        - right. intro H. inversion H as [? ? R'|? ? R']; subst; congruence.
        - left. apply Tr_struct, R.
        - left. apply Tr_tuple, R.
        - right. intro H. inversion H as [? ? R'|? ? R']; subst; congruence. }
      destruct D as [D|D].
      + destruct (IH St) as (t1 & H1 & F0 & H). exists t1. split; [exact H1|]. exists (S F0). intros [|F] HF; [lia|]. rewrite (skip_step reg F t t' D). apply H. lia.
      + exists t. split; [right; exists t'; split; [split; assumption|exact D]|]. exists 1%nat. intros [|F] HF; [lia|]. cbn [skip_through].
        destruct W as [? ? [? [nm|] ? R|? ? R]|? ? R]; rewrite R; try reflexivity; exfalso; apply D; [apply Tr_struct, R|apply Tr_tuple, R].
  Qed.

  Lemma composite_through {T} (c : composite (value T)) ctx t u : length (values c) <> 1%nat -> chain (seen_through c) t u -> stop u ->
    exists F0, forall F, (F0 <= F)%nat -> forall out out', encode reg X F (Val (DComposite c) ctx) t out = (SOk, out') <-> encode reg X F (Val (DComposite c) ctx) u out = (SOk, out').
  Proof.
    intros HL Ch St. destruct Ch as [t|t t' u W Ch]; [exists 0%nat; reflexivity|].
    assert (Ch0 : chain (seen_through c) t u) by (eapply Ch_step; eauto).
    destruct (find_chain' reg t t' u (proj1 W) (seen_wraps c t' u Ch) St) as [F1 FS].
    destruct (skip_within c t u Ch0 St) as (t1 & Ht1 & F2 & SK).
    exists (S (Nat.max F1 F2)). intros [|F] HF out out'; [lia|].
    assert (D : do_encode reg (S F) (items reg X (S F) c) t [] = do_encode reg (S F) (items reg X (S F) c) u [] \/
                exists e o, do_encode reg (S F) (items reg X (S F) c) t [] = (SErr e, o)).
    { assert (ST : (exists fs, reg t = ResTy (TComposite fs)) \/ (exists ts, reg t = ResTy (TTuple ts)) ->
        encode_struct reg (S F) (csrc reg X (S F) c) t [] = do_encode reg (S F) (items reg X (S F) c) u [] \/ exists e o, encode_struct reg (S F) (csrc reg X (S F) c) t [] = (SErr e, o)).
      { intros _. unfold encode_struct. rewrite (SK (S F)) by lia. pose proof (csrc_length reg X (S F) c) as L.
        destruct Ht1 as [->|(w & [W1 N1] & NT)].
        - destruct (reg u) as [| |[fs|vs|a|a n|ts|p|a|st o]] eqn:R; try (right; destruct (csrc reg X (S F) c) as [|[? ?] [|]]; cbn in L; try lia; eauto; fail).
          + left. rewrite do_encode_struct, struct_at, R by eauto. destruct (csrc reg X (S F) c) as [|[[?|] ?] [|]]; cbn in L; try lia; reflexivity.
          + left. rewrite do_encode_struct, struct_at, R by eauto. destruct (csrc reg X (S F) c) as [|[[?|] ?] [|]]; cbn in L; try lia; reflexivity.
        - right. destruct W1 as [? ? [? [nm|] ? R|? ? R]|? ? R].
          + destruct c as [l|l]; [exfalso; exact (N1 nm R)|]. rewrite R.
            assert (E : forall a, encode_fields (csrc reg X (S F) (Unnamed l)) [(Some nm, a)] [] = (SErr XWrongLength, [])).
            { intro a. rewrite fields_in_order by exact I. destruct (Nat.eqb_spec (length [(Some nm, a)]) (length (values (Unnamed l)))) as [E|]; [cbn [length] in E; lia|reflexivity]. }
            destruct (csrc reg X (S F) (Unnamed l)) as [|[[?|] ?] [|]]; cbn in L; cbn [values] in HL; try lia; exists XWrongLength, []; apply E.
          + exfalso. apply NT, Tr_struct, R.
          + exfalso. apply NT, Tr_tuple, R.
          + rewrite R. destruct (csrc reg X (S F) c) as [|[? ?] [|]]; cbn in L; try lia; eauto. }
      pose proof (proj1 W) as W1. inversion W1 as [? ? [? nm ? R|? ? R]|? ? R]; subst.
      - rewrite (do_encode_struct reg X (S F) c t) by eauto. apply ST. eauto.
      - rewrite (do_encode_struct reg X (S F) c t) by eauto. apply ST. eauto.
      - right. unfold do_encode. rewrite R, items_len. destruct (N.eqb_spec (N.of_nat (length (values c))) 1); [lia|]. eauto. }
    rewrite (composite_stop reg X (S F) c ctx u out out' HL St). rewrite composite_run by exact HL. rewrite (FS (S F)) by lia.
    destruct D as [->|(e & o & ->)].
    - destruct (do_encode reg (S F) (items reg X (S F) c) u []) as [[| |] tmp]; split; try discriminate; try (intros (? & ? & ?); discriminate).
      + intros [= <-]. eauto.
      + intros (? & [= <-] & ->). reflexivity.
    - destruct (do_encode reg (S F) (items reg X (S F) c) u []) as [[| |] tmp]; split; try discriminate; try (intros (? & ? & ?); discriminate).
      + intros [= <-]. eauto.
      + intros (? & [= <-] & ->). reflexivity.
  Qed.

  (** ** Numbers *)
  Definition is_number {T} (v : value T) (z : Z) : Prop :=
    (exists n, vdef_of v = DPrim (PU128 n) /\ z = Z.of_N n) \/ vdef_of v = DPrim (PI128 z).
  Lemma number_run {T} (v : value T) z F t out : is_number v z -> encode reg X F v t out = encode_number reg F z t out.
  Proof. destruct v as [d ctx]. intros [(n & E & ->)|E]; cbn in E; subst d; reflexivity. Qed.

  Lemma uint_iff {T} (v : value T) z t w b : is_number v z -> reg t = ResTy (TPrim (PtU w)) ->
    (encodes reg X v t b <-> (0 <= z < 2 ^ Z.of_N (wbits w))%Z /\ le_enc (wbytes w) (Z.to_N z) b).
  Proof.
    intros Hv R. assert (RUN : forall F out, encode_number reg (S F) z t out = if in_unsigned w z then (SOk, out ++ le_bytes (wbytes w) (Z.to_N z)) else (SErr XOutOfRange, out)).
    { intros F out. unfold encode_number. cbn [find_single]. rewrite R, R. reflexivity. }
    assert (RG : in_unsigned w z = true <-> (0 <= z < 2 ^ Z.of_N (wbits w))%Z) by (unfold in_unsigned; lia).
    split.
    - intros [[|F] H]; specialize (H []); rewrite (number_run v z) in H by exact Hv; [discriminate|]. rewrite RUN in H. destruct (in_unsigned w z) eqn:E; [|discriminate].
      injection H as <-. split; [apply RG; reflexivity|]. apply le_enc_bytes. rewrite <- wbits_pow. apply in_unsigned_N, E.
    - intros [HR HE]. exists 1%nat. intro out. rewrite (number_run v z) by exact Hv. rewrite RUN, (proj2 RG HR). apply le_enc_iff in HE as [-> _]. reflexivity.
  Qed.
  Lemma int_iff {T} (v : value T) z t w b : is_number v z -> reg t = ResTy (TPrim (PtI w)) ->
    (encodes reg X v t b <-> (- 2 ^ (Z.of_N (wbits w) - 1) <= z < 2 ^ (Z.of_N (wbits w) - 1))%Z /\ le_enc (wbytes w) (Z.to_N (z mod 2 ^ Z.of_N (wbits w))) b).
  Proof.
    intros Hv R.
    assert (RUN : forall F out, encode_number reg (S F) z t out = if in_signed w z then (SOk, out ++ le_bytes (wbytes w) (Z.to_N (z mod 2 ^ Z.of_N (wbits w)))) else (SErr XOutOfRange, out)).
    { intros F out. unfold encode_number. cbn [find_single]. rewrite R, R. reflexivity. }
    assert (RG : in_signed w z = true <-> (- 2 ^ (Z.of_N (wbits w) - 1) <= z < 2 ^ (Z.of_N (wbits w) - 1))%Z) by (unfold in_signed; lia).
    split.
    - intros [[|F] H]; specialize (H []); rewrite (number_run v z) in H by exact Hv; [discriminate|]. rewrite RUN in H. destruct (in_signed w z) eqn:E; [|discriminate].
      injection H as <-. split; [apply RG; reflexivity|]. apply le_enc_bytes. rewrite <- wbits_pow. apply mod_pow_N.
    - intros [HR HE]. exists 1%nat. intro out. rewrite (number_run v z) by exact Hv. rewrite RUN, (proj2 RG HR). apply le_enc_iff in HE as [-> _]. reflexivity.
  Qed.
  Lemma compact_iff {T} (v : value T) z t t' u w b : is_number v z -> reg t = ResTy (TCompact t') -> chain (wraps reg) t' u -> reg u = ResTy (TPrim (PtU w)) ->
    (encodes reg X v t b <-> (0 <= z < 2 ^ Z.of_N (wbits w))%Z /\ compact_enc (Z.to_N z) b).
  Proof.
    intros Hv R Ch Ru.
    assert (St : stop u) by (eapply stop_other; [exact Ru|exact I]).
    destruct (find_chain_any t' u Ch St) as [F0 FS].
    assert (RUN : forall F out, (S F0 <= F)%nat -> encode_number reg F z t out = if in_unsigned w z then (SOk, out ++ compact_encode (Z.to_N z)) else (SErr XOutOfRange, out)).
    { intros [|F] out HF; [lia|]. unfold encode_number. cbn [find_single]. rewrite R, R. destruct (FS (S F) ltac:(lia) false) as [d FS1]. cbn [find_single] in FS1. rewrite FS1, Ru. reflexivity. }
    assert (RG : in_unsigned w z = true <-> (0 <= z < 2 ^ Z.of_N (wbits w))%Z) by (unfold in_unsigned; lia).
    split.
    - intro H. apply encodes_yields in H as [F1 H]. specialize (H (Nat.max F1 (S F0)) ltac:(lia) []). rewrite (number_run v z), RUN in H by (exact Hv || lia).
      destruct (in_unsigned w z) eqn:E; [|discriminate].
      injection H as <-. split; [apply RG; reflexivity|]. apply compact_small. eapply N.lt_le_trans; [apply in_unsigned_N, E|]. apply N.pow_le_mono_r; [lia|apply wbits_le].
    - intros [HR HE]. exists (S F0). intro out. rewrite (number_run v z) by exact Hv. rewrite RUN, (proj2 RG HR) by lia. rewrite (compact_enc_fun _ _ HE). reflexivity.
  Qed.
  (** Every other primitive type, and everything else that is not a number behind wrappers, refuses numbers. *)
  Definition takes_numbers (u : TId) : Prop :=
    (exists w, reg u = ResTy (TPrim (PtU w)) \/ reg u = ResTy (TPrim (PtI w))) \/
    (exists t' u' w, reg u = ResTy (TCompact t') /\ chain (wraps reg) t' u' /\ reg u' = ResTy (TPrim (PtU w))).
  Lemma number_targets {T} (v : value T) z t b : is_number v z -> encodes reg X v t b -> exists u, chain (wraps reg) t u /\ takes_numbers u.
  Proof.
    intros Hv [F H]. specialize (H []). rewrite (number_run v z) in H by exact Hv. unfold encode_number in H. destruct (find_single reg F t false) as [[u d]|] eqn:FS; [|discriminate].
    apply find_single_chain in FS. exists u. split; [exact FS|]. destruct (reg u) as [| |[| | | | |[]|t'|]] eqn:R; try discriminate.
    - left. exists w. auto.
    - left. exists w. auto.
    - right. destruct (find_single reg F t' false) as [[u' d']|] eqn:FS'; [|discriminate]. apply find_single_chain in FS'.
      destruct (reg u') as [| |[| | | | |[]|?|]] eqn:R'; try discriminate. exists t', u', w. auto.
  Qed.

  (** ** Variants *)
  Definition vtarget (vs : list (vinfo TId)) (name : str) (v : vinfo TId) : Prop := exists l1 l2, vs = l1 ++ v :: l2 /\ vi_name v = name /\ ~ In name (map vi_name l1).
  Lemma find_vtarget vs name v : find (fun v => str_eqb (vi_name v) name) vs = Some v <-> vtarget vs name v.
  Proof.
    induction vs as [|w vs IH]; cbn [find].
    - split; [discriminate|]. intros ([|] & l2 & E & _); discriminate.
    - destruct (str_eqb (vi_name w) name) eqn:E.
      + apply str_eqb_eq in E. split.
        * intros [= ->]. exists [], vs. split; [reflexivity|]. split; [exact E|]. intros [].
        * intros ([|w' l1] & l2 & E1 & E2 & E3); [injection E1 as -> _; reflexivity|]. injection E1 as -> _. exfalso. apply E3. left. exact E.
      + assert (Hw : vi_name w <> name) by (intro H; rewrite <- H, str_eqb_refl in E; discriminate). rewrite IH. split.
        * intros (l1 & l2 & -> & E2 & E3). exists (w :: l1), l2. split; [reflexivity|]. split; [exact E2|]. intros [H|H]; auto.
        * intros ([|w' l1] & l2 & E1 & E2 & E3); [injection E1 as -> _; contradiction|]. injection E1 as -> ->. exists l1, l2. split; [reflexivity|]. split; [exact E2|].
          intro H. apply E3. right. exact H.
  Qed.

  (** The bytes of the fields of a variant. *)
  Definition field_bytes {T} (c : composite (value T)) (fs : list (field TId)) (b : bytes) : Prop :=
    exists F, forall out, encode_composite_as_fields reg X F c fs out = (SOk, out ++ b).

  Lemma variant_iff {T} name (c : composite (value T)) ctx t vs b : reg t = ResTy (TVariant vs) ->
    (encodes reg X (Val (DVariant name c) ctx) t b <-> exists v b', vtarget vs name v /\ b = vi_index v :: b' /\ field_bytes c (vi_fields v) b').
  Proof.
    intro R. assert (RUN : forall F out, encode reg X (S F) (Val (DVariant name c) ctx) t out =
      match find (fun v => str_eqb (vi_name v) name) vs with
      | None => (SErr XNoVariant, out)
      | Some v => encode_composite_as_fields reg X (S F) c (vi_fields v) (out ++ [vi_index v])
      end).
    { intros F out. cbn [encode]. unfold encode_variant, encode_composite_as_fields. cbn [skip_through]. rewrite R, R. change (composite_map (fun x => (x, encode reg X (S F) x)) c) with (items reg X (S F) c). rewrite items_src. reflexivity. }
    split.
    - intros [[|F] H]; [specialize (H []); discriminate|]. pose proof (H []) as H0. rewrite RUN in H0. destruct (find _ vs) as [v|] eqn:FD; [|discriminate].
      destruct (encode_composite_as_fields_app reg X (S F) c (vi_fields v)) as (s & b' & A). rewrite A in H0. injection H0 as -> H0. exists v, b'.
      split; [apply find_vtarget, FD|]. split; [symmetry; exact H0|]. exists (S F). exact A.
    - intros (v & b' & FD & -> & F & H). apply find_vtarget in FD. 
      assert (M : forall out, encode_composite_as_fields reg X (S F) c (vi_fields v) out = (SOk, out ++ b')).
      { intro out. specialize (H out). pose proof (encode_fields_rel (TId:=TId) true) as Q.
        unfold encode_composite_as_fields in *. 
        assert (FR : Forall2 (frel true) (csrc reg X F c) (csrc reg X (S F) c)).
        { unfold csrc. assert (ER : forall x : value T, erel true (encode reg X F x) (encode reg X (S F) x)).
          { intros x t0 out0. assert (I0 : map_context (pure_fn (fun x : T => x)) tt x = x) by (apply (map_ctx_id x)).
            pose proof (encode_rel reg X true F (S F) (or_intror (conj eq_refl (Nat.le_succ_diag_r F))) (pure_fn (fun x => x)) x tt t0 out0) as E. rewrite I0 in E. exact E. }
          clear -ER. destruct c as [l|l]; cbn [composite_map source_fields]; (induction l as [|y l IH]; cbn [map]; [constructor|]); constructor; try exact IH; (split; [reflexivity|apply ER]). }
        destruct (Q _ _ FR (vi_fields v) out) as [E|[_ E]]; unfold csrc in E; [congruence|]. rewrite H in E. discriminate. }
      exists (S F). intro out. rewrite RUN, FD, M, <- app_assoc. reflexivity.
  Qed.

  Lemma field_bytes_positional {T} (c : composite (value T)) fs b : positional c fs ->
    (field_bytes c fs b <-> parts (fun t v b => encodes reg X v t b) (map snd fs) (values c) b).
  Proof.
    intro HP. unfold field_bytes, encode_composite_as_fields. split.
    - intros [F H]. specialize (H []). change (source_fields (composite_map (encode reg X F) c)) with (csrc reg X F c) in H. rewrite fields_in_order in H by exact HP.
      destruct (Nat.eqb_spec (length fs) (length (values c))) as [EL|]; [|discriminate]. apply in_order_parts in H as (bs & E & P); [cbn [app] in E; rewrite E; exact P|rewrite map_length; auto].
    - intro P. pose proof (parts_length _ _ _ _ P) as L. rewrite map_length in L. destruct (values c) as [|x0 xs] eqn:EV.
      + exists 0%nat. intro out. change (source_fields (composite_map (encode reg X 0) c)) with (csrc reg X 0 c). rewrite fields_in_order by exact HP. rewrite EV, L, Nat.eqb_refl.
        cbn in L. destruct fs; [|discriminate]. inversion P; subst. cbn. rewrite app_nil_r. reflexivity.
      + apply parts_ey in P. destruct x0 as [d0 ctx0] eqn:EX. destruct (in_order_yields reg X (fun _ => ctx0) _ _ _ P) as [F0 H]. exists F0. intro out.
        change (source_fields (composite_map (encode reg X F0) c)) with (csrc reg X F0 c). rewrite fields_in_order by exact HP. rewrite EV, L, Nat.eqb_refl. apply H. lia.
  Qed.
  Lemma field_bytes_named {T} (l : list (str * value T)) nfs b : l <> [] -> nfs <> [] -> (field_bytes (Named l) (named_fields nfs) b <-> by_name reg X l nfs b).
  Proof.
    intros Hl Hn. unfold field_bytes, encode_composite_as_fields, encode_fields.
    assert (E : forall F, existsb named_field (named_fields nfs) && existsb named_field (nsrc reg X F l) = true).
    { intro F. rewrite nsrc_named, named_fields_named. destruct l; [contradiction|]. destruct nfs; [contradiction|reflexivity]. }
    split.
    - intros [F H]. specialize (H []). change (source_fields (composite_map (encode reg X F) (Named l))) with (nsrc reg X F l) in H. rewrite E in H.
      apply by_name_run in H as (bs & EB & B). cbn [app] in EB. rewrite EB. exact B.
    - intro B. destruct (by_name_runs _ _ _ _ _ B) as [F0 H]. exists F0. intro out. change (source_fields (composite_map (encode reg X F0) (Named l))) with (nsrc reg X F0 l).
      rewrite E. apply H. lia.
  Qed.
  Lemma field_bytes_perm {T} (l1 l2 : list (str * value T)) nfs F out : Permutation.Permutation l1 l2 -> NoDup (map fst l1) ->
    encode_composite_as_fields reg X F (Named l1) (named_fields nfs) out = encode_composite_as_fields reg X F (Named l2) (named_fields nfs) out.
  Proof. apply fields_perm. Qed.
End Wrap.

(** ** Zeroing the padding *)
Section Strict.
  Context {TId C : Type} (reg : TId -> resolution TId) (mb lb : N) (ctxf : TId -> C).
  Lemma strictify : (forall c t v bs, enc reg mb lb ctxf PU256 false c t v bs -> exists bs', enc reg mb lb ctxf PU256 true c t v bs' /\ length bs' = length bs) /\
    (forall c ts vs bs, encs reg mb lb ctxf PU256 false c ts vs bs -> exists bs', encs reg mb lb ctxf PU256 true c ts vs bs' /\ length bs' = length bs).
  Proof.
    apply enc_encs_ind.
    - intros t p x bs R H. exists bs. split; [eapply E_prim; eauto|reflexivity].
    - intros t w n bs R Hn H. exists bs. split; [eapply E_compact_uint; eauto|reflexivity].
    - intros c t t' v bs R _ (bs' & H & L). exists bs'. split; [eapply E_compact; eauto|exact L].
    - intros c t fs vs cmp bs R Hc _ (bs' & H & L) Sh. exists bs'. split; [eapply E_composite; eauto|exact L].
    - intros c t ts vs bs R Hc _ (bs' & H & L). exists bs'. split; [eapply E_tuple; eauto|exact L].
    - intros t l1 name idx fs l2 vs cmp bs R Hi Hb _ (bs' & H & L) Sh. exists (idx :: bs'). split; [eapply E_variant; eauto|cbn; lia].
    - intros t t' vs pre bs R HL HC _ (bs' & H & L). exists (pre ++ bs'). split; [eapply E_sequence; eauto|rewrite !app_length; lia].
    - intros t t' n vs bs R HL _ (bs' & H & L). exists bs'. split; [eapply E_array; eauto|exact L].
    - intros t st o b pre bs R H1 H2 HC HP. pose proof (pack_payload true st o b) as HP'. exists (pre ++ pack_bits st o (words_for st (length b)) b).
      split; [eapply E_bits; eauto|]. rewrite !app_length. destruct HP as (_ & L & _). destruct HP' as (_ & L' & _). lia.
    - intro c. exists []. split; [constructor|reflexivity].
    - intros c t ts v vs b bs _ (b' & H & L) _ (bs' & H' & L'). exists (b' ++ bs'). split; [constructor; assumption|rewrite !app_length; lia].
  Qed.
  (** Without bit sequence types nothing is padded. *)
  Lemma no_bits_strict (NB : forall t st o, reg t <> ResTy (TBitSeq st o)) :
    (forall c t v bs, enc reg mb lb ctxf PU256 false c t v bs -> enc reg mb lb ctxf PU256 true c t v bs) /\
    (forall c ts vs bs, encs reg mb lb ctxf PU256 false c ts vs bs -> encs reg mb lb ctxf PU256 true c ts vs bs).
  Proof.
    apply enc_encs_ind; intros.
    - eapply E_prim; eauto.
    - eapply E_compact_uint; eauto.
    - eapply E_compact; eauto.
    - eapply E_composite; eauto.
    - eapply E_tuple; eauto.
    - eapply E_variant; eauto.
    - eapply E_sequence; eauto.
    - eapply E_array; eauto.
    - exfalso. eapply NB; eauto.
    - constructor.
    - constructor; assumption.
  Qed.
End Strict.
