(** * C97: what the deserializer says when it refuses a value. *)
From Verif Require Import Base Value Spec_Value Chars Fmt Scale Serde SerdeFacts SerdeParts Spec_Serde Spec_Texts Spec_SerdeTexts SerdeTexts DocRich Spec_RichDocs ForeignFacts DecodeErrFacts RichFacts Props_Vocab.

(** The deserializer with texts is the deserializer: the same answers, and every error is one of its own. *)
Theorem C97_erased : forall (T : Type) name (s : source T) h,
  deserialize s h = match deserialize_t name s h with Ok e => Ok e | Err _ => Err DCustom end.
Proof.
  intros T name s h.
  assert (EB : forall l, mapM (fun v : value T => match vdef_of v with DPrim (PU128 n) => if (n <? 256)%N then Ok n else Err DCustom | _ => Err DCustom end) l =
    match mapM byte_of_t l with Ok b => Ok b | Err _ => Err DCustom end).
  { induction l as [|v l IH]; [reflexivity|]. cbn [mapM]. rewrite IH. clear IH. generalize (mapM byte_of_t l). intro r. unfold byte_of_t. destruct (vdef_of v) as [c|n c|b|[b|ch|s0|n|z|b|b]]; try reflexivity.
    destruct (n <? 256)%N; [|reflexivity]. cbn [bind]. destruct r; reflexivity. }
  assert (EC : forall c, composite_de c h = match composite_de_t (T := T) c h with Ok e => Ok e | Err _ => Err DCustom end).
  { intro c. destruct h; try reflexivity; cbn [composite_de composite_de_t].
    - unfold composite_bytes. rewrite EB. destruct (mapM byte_of_t (values c)); reflexivity.
    - destruct (cis_empty c); reflexivity.
    - destruct (cis_empty c); reflexivity.
    - destruct (Nat.eqb (clen c) n); reflexivity.
    - destruct (Nat.eqb (clen c) n); reflexivity. }
  assert (EV : forall n c, variant_de n c h = match variant_de_t (T := T) n c h with Ok e => Ok e | Err _ => Err DCustom end).
  { intros n c. destruct h; try reflexivity; apply EC. }
  destruct s as [v|c|n c|p|l|b|d]; cbn [deserialize deserialize_t]; try reflexivity; [|apply EC|apply EV].
  destruct (vdef_of v) as [c|n c|b|p]; destruct h; try reflexivity; cbn [vdef_de vdef_de_t]; try apply EC; try apply EV.
  destruct c as [l|l]; [reflexivity|]. destruct (str_eqb n (s2l "Some")), l as [|x [|y l]]; cbn [length Nat.eqb andb]; try reflexivity; destruct (str_eqb n (s2l "None")); reflexivity.
Qed.
Print Assumptions C97_erased.

Lemma numeral_show n t : numeral n t <-> t = show_N n.
Proof. destruct (C59_numerals n) as [H1 H2]. split; [apply H2|intros ->; exact H1]. Qed.

Lemma bytes_err {T} (l : list (value T)) t : mapM byte_of_t l = Err t <->
  exists before v after, l = before ++ v :: after /\ Forall is_byte before /\ byte_of_t v = Err t.
Proof.
  assert (HB : forall v : value T, is_byte v <-> exists n, byte_of_t v = Ok n).
  { intros [d ctx]. unfold is_byte, byte_of_t. cbn [vdef_of]. split.
    - intros (n & ctx' & H & E). injection E as -> ->. apply N.ltb_lt in H. rewrite H. now exists n.
    - intros [n H]. destruct d as [c|m c|b|[b|ch|s0|k|z|b|b]]; try discriminate H. destruct (k <? 256)%N eqn:E; [|discriminate H]. apply N.ltb_lt in E. now exists k, ctx. }
  induction l as [|v l IH]; cbn [mapM].
  - split; [discriminate|]. intros ([|x0 l0] & v0 & after & E & _); discriminate E.
  - split.
    + intro H. destruct (byte_of_t v) as [n|e] eqn:E.
      * cbn [bind] in H. destruct (mapM byte_of_t l) as [b|e] eqn:EM; [discriminate H|]. cbn [bind] in H. injection H as ->.
        destruct (proj1 IH eq_refl) as (before & w & after & -> & F & Q). exists (v :: before), w, after. split; [reflexivity|]. split; [|exact Q]. constructor; [apply HB; now exists n|exact F].
      * cbn [bind] in H. injection H as ->. exists [], v, l. now repeat split.
    + intros (before & w & after & E & F & Q). destruct before as [|x before].
      * injection E as -> ->. rewrite Q. reflexivity.
      * injection E as -> ->. inversion F as [|? ? Hx F']; subst. apply HB in Hx as [n Hx]. rewrite Hx. cbn [bind].
        assert (HM : mapM byte_of_t (before ++ w :: after) = Err t) by (apply IH; now exists before, w, after). rewrite HM. reflexivity.
Qed.

Lemma composite_objects {T} (c : composite (value T)) h t : composite_de_t c h = Err t <->
  (exists n, (h = HTuple n \/ h = HTupleStruct n) /\ length (values c) <> n /\
     t = s2l "Cannot deserialize composite of length " ++ show_N (N.of_nat (length (values c))) ++ s2l " into tuple of length " ++ show_N (N.of_nat n)) \/
  ((h = HUnit \/ h = HUnitStruct) /\ values c <> [] /\ t = s2l "Cannot deserialize non-empty Composite into a unit value") \/
  (h = HBytes /\ mapM byte_of_t (values c) = Err t).
Proof.
  assert (EL : clen c = length (values c)) by (destruct c; cbn [clen values]; now rewrite ?map_length).
  assert (EE : cis_empty c = true <-> values c = []) by (destruct c as [[|[? ?] ?]|[|? ?]]; cbn; split; intro H; (reflexivity || discriminate H)).
  split.
  - intro H. destruct h; cbn [composite_de_t] in H; try discriminate H.
    + right. right. split; [reflexivity|]. destruct (mapM byte_of_t (values c)) as [b|e]; [discriminate H|]. cbn [bind] in H. now injection H as ->.
    + right. left. split; [now left|]. destruct (cis_empty c); [discriminate H|]. split; [intro Q; apply EE in Q; discriminate Q|]. now injection H as <-.
    + right. left. split; [now right|]. destruct (cis_empty c); [discriminate H|]. split; [intro Q; apply EE in Q; discriminate Q|]. now injection H as <-.
    + left. exists n. split; [now left|]. destruct (Nat.eqb (clen c) n) eqn:E; [discriminate H|]. apply Nat.eqb_neq in E. rewrite EL in *. split; [exact E|]. injection H as <-. reflexivity.
    + left. exists n. split; [now right|]. destruct (Nat.eqb (clen c) n) eqn:E; [discriminate H|]. apply Nat.eqb_neq in E. rewrite EL in *. split; [exact E|]. injection H as <-. reflexivity.
  - intros [(n & [->| ->] & N & ->)|[([->| ->] & N & ->)|(-> & H)]]; cbn [composite_de_t].
    + rewrite EL. apply Nat.eqb_neq in N. rewrite N. reflexivity.
    + rewrite EL. apply Nat.eqb_neq in N. rewrite N. reflexivity.
    + destruct (cis_empty c); [exfalso; now apply N, EE|reflexivity].
    + destruct (cis_empty c); [exfalso; now apply N, EE|reflexivity].
    + rewrite H. reflexivity.
Qed.

(** Which text a value is refused with: the lengths in it are the lengths, the name is the name, and so on; and there are no other texts. *)
Theorem C97_text_iff : forall (T : Type) name (v : value T) h t, deserialize_t name (SrcValue v) h = Err t <-> objects name (vdef_of v) h t.
Proof.
  intros T name v h t. cbn [deserialize_t]. generalize (vdef_of v). intro d. split.
  - intro H.
    assert (HC : forall c, has_fields d (values c) -> composite_de_t c h = Err t -> h <> HBytes -> objects name d h t).
    { intros c HF Q NB. apply composite_objects in Q as [(n & [->| ->] & N & ->)|[(EU & N & ->)|(-> & _)]]; [| | |contradiction].
      - apply (O_tuple name d (values c) n); try assumption; now apply numeral_show.
      - apply (O_tuple_struct name d (values c) n); try assumption; now apply numeral_show.
      - now apply (O_unit name d (values c)). }
    destruct d as [c|m c|b|p].
    + destruct h; cbn [vdef_de_t] in H; try discriminate H; try (apply (HC c (HF_composite c) H); discriminate).
      apply composite_objects in H as [(n & [E|E] & _)|[([E|E] & _)|(_ & H)]]; try discriminate E. apply bytes_err in H as (before & w & after & E & F & Q).
      destruct w as [dw ctx]. unfold byte_of_t in Q. cbn [vdef_of] in Q. destruct dw as [cw|mw cw|bw|[bw|ch|s0|k|z|bw|bw]];
        try (injection Q as <-; apply (O_no_u128 name c before _ after E F); intros n0 ctx0 Q0; discriminate Q0).
      destruct (k <? 256)%N eqn:EK; [discriminate Q|]. injection Q as <-. apply N.ltb_ge in EK. now apply (O_too_big name c before k ctx after).
    + destruct h; cbn [vdef_de_t variant_de_t] in H; try discriminate H; try (apply (HC c (HF_variant m c) H); discriminate).
      destruct c as [l|l]; [discriminate H|]. destruct (str_eqb m (s2l "Some") && Nat.eqb (length l) 1); [destruct l; discriminate H|]. destruct (str_eqb m (s2l "None") && Nat.eqb (length l) 0); discriminate H.
    + destruct h; cbn [vdef_de_t bits_de_t] in H; try discriminate H; injection H as <-; try (constructor; fail);
        [apply (O_bits name b HBytes (s2l "raw bytes"))|apply (O_bits name b HUnit (s2l "a ()"))|apply (O_bits name b HUnitStruct (s2l "the unit struct " ++ name))
        |apply (O_bits name b HNewtypeStruct (s2l "a newtype struct"))|apply (O_bits name b HSeq (s2l "a sequence"))|apply (O_bits name b HMap (s2l "a map"))|apply (O_bits name b HEnum (s2l "the enum " ++ name))];
        cbn [In]; tauto.
    + destruct h; discriminate H.
  - intro H. inversion H as [d0 l n a b HF N NA NB|d0 l n a b HF N NA NB|d0 l h0 HF N EU|c before n ctx after E F HN|c before w after E F HN|b h0 what HI|b n|b n]; subst.
    + apply numeral_show in NA, NB. subst a b. inversion HF; subst; cbn [vdef_de_t variant_de_t]; apply composite_objects; left; exists n; (split; [now left|split; [exact N|reflexivity]]).
    + apply numeral_show in NA, NB. subst a b. inversion HF; subst; cbn [vdef_de_t variant_de_t]; apply composite_objects; left; exists n; (split; [now right|split; [exact N|reflexivity]]).
    + destruct EU as [->| ->]; inversion HF; subst; cbn [vdef_de_t variant_de_t]; apply composite_objects; right; left; (split; [auto|split; [exact N|reflexivity]]).
    + cbn [vdef_de_t]. apply composite_objects. right. right. split; [reflexivity|]. apply bytes_err. exists before, (Val (DPrim (PU128 n)) ctx), after.
      split; [exact E|]. split; [exact F|]. unfold byte_of_t. cbn [vdef_of]. apply N.ltb_ge in HN. now rewrite HN.
    + cbn [vdef_de_t]. apply composite_objects. right. right. split; [reflexivity|]. apply bytes_err. exists before, w, after.
      split; [exact E|]. split; [exact F|]. destruct w as [dw ctx]. unfold byte_of_t. cbn [vdef_of]. destruct dw as [cw|mw cw|bw|[bw|ch|s0|k|z|bw|bw]]; try reflexivity.
      exfalso. now apply (HN k ctx).
    + cbn [In] in HI. repeat destruct HI as [HI|HI]; try contradiction; injection HI as <- <-; reflexivity.
    + reflexivity.
    + reflexivity.
Qed.
Print Assumptions C97_text_iff.

(** One text is not true: the numbers of a composite are called non-numeric if they are signed or of 256 bits. *)
Theorem C97_numeric_refuted : forall (T : Type) name (p : prim) (ctx ctx' : T), (exists z, p = PI128 z) \/ (exists b, p = PU256 b \/ p = PI256 b) ->
  deserialize_t name (SrcValue (Val (DComposite (Unnamed [Val (DPrim p) ctx])) ctx')) HBytes =
  Err (s2l "Cannot deserialize composite that is not entirely U8's into bytes (non-numeric values encountered)").
Proof. intros T name p ctx ctx' [[z ->]|[b [->| ->]]]; reflexivity. Qed.
Print Assumptions C97_numeric_refuted.

(** The text of deserialize.rs:282, that a map must contain name and values, is given exactly to maps that are otherwise a variant and lack one. *)
Theorem C97_variant_text : forall strict d, rvariant strict d = Err DCustom <->
  exists l, d = RMap l /\
    Forall (fun kd => (spells (fst kd) (s2l "name") /\ exists s, spells (snd kd) s) \/ (spells (fst kd) (s2l "values") /\ exists c, gives strict (snd kd) c)) l /\
    (Forall (fun kd => ~ spells (fst kd) (s2l "name")) l \/ Forall (fun kd => ~ spells (fst kd) (s2l "values")) l).
Proof.
  assert (RT : forall d, rtext d <> Err DCustom) by (intros d H; destruct d; try discriminate H; cbn [rtext] in H; destruct (utf8_decode b); discriminate H).
  assert (RB : forall d, rbools d <> Err DCustom).
  { intros d H. destruct d as [| | | |l| | | | | | | |]; try discriminate H. cbn [rbools] in H. apply mapM_err in H as (x & _ & H). destruct x; discriminate H. }
  assert (RV : forall strict d, rvalue strict d <> Err DCustom /\ rfields strict d <> Err DCustom).
  { intros strict d. induction d as [b|sg w z|c|s|l IH|l IH| |b| | |d IH|n p IH|d IH] using rdoc_ind'; try (split; discriminate).
    - split; [destruct sg; discriminate|discriminate].
    - assert (HM : mapM (rvalue strict) l <> Err DCustom). { intro H. apply mapM_err in H as (x & HI & H). rewrite Forall_forall in IH. exact (proj1 (IH x HI) H). }
      split; cbn [rvalue rfields]; intro H; apply rmap_err in H; contradiction.
    - assert (HM : forall l', incl l' l -> mapM (fun kx : rdoc * rdoc => match kx with (k, x) => bind (rtext k) (fun s => rmap (pair s) (rvalue strict x)) end) l' <> Err DCustom).
      { intros l' HL H. apply mapM_err in H as ([k x] & HI & H). apply bind_err in H as [H|(s & _ & H)]; [now apply (RT k)|]. apply rmap_err in H.
        rewrite Forall_forall in IH. exact (proj1 (IH (k, x) (HL _ HI)) H). }
      split.
      + destruct l as [|[k x] l]; [discriminate|]. cbn [rvalue]. intro H. apply bind_err in H as [H|(s & _ & H)]; [now apply (RT k)|]. destruct (str_eqb s bitvec_key).
        * apply bind_err in H as [H|(b & _ & H)]; [now apply (RB x)|]. destruct (strict && negb (Nat.eqb (length l) 0)); discriminate H.
        * apply bind_err in H as [H|(v & _ & H)]; [inversion IH; subst; tauto|]. apply rmap_err in H. apply (HM l); [now apply incl_tl|exact H].
      + cbn [rfields]. intro H. apply rmap_err in H. apply (HM l); [apply incl_refl|exact H].
    - split; [|discriminate]. cbn [rvalue]. intro H. apply rmap_err in H. tauto.
    - split; [|discriminate]. cbn [rvalue]. intro H. apply bind_err in H as [H|(s & _ & H)]; [now apply (RT n)|]. destruct p as [x|]; [|discriminate H]. apply rmap_err in H. exact (proj2 (IH x eq_refl) H).
    - exact IH. }
  intros strict d. split.
  - intro H. destruct d as [b|sg w z|c|s|l|l| |b| | |d|n p|d]; try discriminate H; cbn [rvariant] in H.
    + exists l. split; [reflexivity|]. apply bind_err in H as [H|([n0 c0] & H & E)].
      * exfalso. revert H. generalize (@None str), (@None (composite (value unit))). induction l as [|[k x] l IH]; intros n0 c0 H; [discriminate H|].
        cbn [rvariant_fields] in H. apply bind_err in H as [H|(s & _ & H)]; [now apply (RT k)|]. destruct (str_eqb s (s2l "name")); [|destruct (str_eqb s (s2l "values")); [|discriminate H]].
        -- apply bind_err in H as [H|(n & _ & H)]; [now apply (RT x)|now apply (IH _ _ H)].
        -- apply bind_err in H as [H|(c & _ & H)]; [exact (proj2 (RV strict x) H)|now apply (IH _ _ H)].
      * apply rvariant_fields_iff in H as (F & H1 & H2). split; [exact F|].
        destruct H1 as [(dn & n1 & _ & _ & ->)|[N _]]; [|now left]. destruct H2 as [(dc & c1 & _ & _ & ->)|[N _]]; [discriminate E|now right].
    + apply rmap_err in H. exfalso. exact (proj1 (RV strict d) H).
    + apply bind_err in H as [H|(s & _ & H)]; [exfalso; now apply (RT n)|]. destruct p as [x|]; [|discriminate H]. apply rmap_err in H. exfalso. exact (proj2 (RV strict x) H).
  - intros (l & -> & F & N). cbn [rvariant].
    assert (FN : forall n0 c0, exists n1 c1, rvariant_fields strict l n0 c0 = Ok (n1, c1) /\
      (Forall (fun kd => ~ spells (fst kd) (s2l "name")) l -> n1 = n0) /\ (Forall (fun kd => ~ spells (fst kd) (s2l "values")) l -> c1 = c0)).
    { clear N. induction F as [|[k x] l HG F IH]; intros n0 c0.
      - exists n0, c0. now repeat split.
      - cbn [rvariant_fields]. cbn [fst snd] in HG. destruct HG as [[HK [s HS]]|[HK [c HC]]].
        + pose proof HK as HK'. apply rtext_iff in HK. rewrite HK. cbn [bind]. change (str_eqb (s2l "name") (s2l "name")) with true. cbv iota. apply rtext_iff in HS. rewrite HS. cbn [bind].
          destruct (IH (Some s) c0) as (n1 & c1 & E & E1 & E2). exists n1, c1. split; [exact E|]. split; [intro Q; inversion Q; subst; cbn [fst] in *; contradiction|intro Q; inversion Q; subst; tauto].
        + pose proof HK as HK'. apply rtext_iff in HK. rewrite HK. cbn [bind]. change (str_eqb (s2l "values") (s2l "name")) with false. change (str_eqb (s2l "values") (s2l "values")) with true. cbv iota.
          apply read_both in HC. rewrite HC. cbn [bind].
          destruct (IH n0 (Some c)) as (n1 & c1 & E & E1 & E2). exists n1, c1. split; [exact E|]. split; [intro Q; inversion Q; subst; tauto|intro Q; inversion Q; subst; cbn [fst] in *; contradiction]. }
    destruct (FN None None) as (n1 & c1 & E & E1 & E2). rewrite E. cbn [bind]. destruct N as [N|N].
    + rewrite (E1 N). reflexivity.
    + rewrite (E2 N). destruct n1; reflexivity.
Qed.
Print Assumptions C97_variant_text.

(** The two errors of the serializer have different texts, and mean what they say: see C50 for when they occur. *)
Theorem C97_serializer_texts : serr_text SECannotSerializeFloats = s2l "Floats do not have a SCALE compatible representation, and so cannot be serialized to Values" /\
  serr_text SEMapKeyMustBeStringlike = s2l "Map keys must be strings or string-like" /\ forall e e', serr_text e = serr_text e' -> e = e'.
Proof. split; [reflexivity|]. split; [reflexivity|]. intros [] []; intro H; (reflexivity || discriminate H). Qed.
Print Assumptions C97_serializer_texts.

Example C97_non_vacuous :
  deserialize_t (T := unit) (s2l "Foo") (SrcValue (unnamed_variant (s2l "A") [vbool true; vbool false; vbool true])) (HTuple 12) =
    Err (s2l "Cannot deserialize composite of length 3 into tuple of length 12") /\
  deserialize_t (T := unit) (s2l "Foo") (SrcValue (bit_sequence [true])) HEnum = Err (s2l "Cannot deserialize BitSequence into the enum Foo") /\
  deserialize_t (T := unit) (s2l "Foo") (SrcValue (unnamed_composite [vu128 1; vu128 256; vbool true])) HBytes =
    Err (s2l "Cannot deserialize composite that is not entirely U8's into bytes (number out of range)") /\
  (exists e, deserialize_t (T := unit) (s2l "Foo") (SrcValue (unnamed_composite [vu128 1; vu128 255])) HBytes = Ok e) /\
  rvariant false (RMap [(RStr (s2l "name"), RStr (s2l "A")); (RStr (s2l "name"), RStr (s2l "B"))]) = Err DCustom.
Proof. repeat apply conj; try reflexivity. eexists. reflexivity. Qed.
