(** * Props_Errors: C90 (the kind of an encode error is true) *)
From Verif Require Import Base Value ValueFacts Registry Spec_Scale Scale Encode Spec_Encode Spec_Same Spec_Loc EncodeLoc EncodeSound LocFacts Spec_Errors ErrorFacts Demo.
Open Scope N_scope.

Lemma leads_app {TId T} (reg : TId -> resolution TId) (v : value T) t p w t' w' t'' :
  leads reg v t p w t' -> leads reg w t' [] w' t'' -> leads reg v t p w' t''.
Proof.
  induction 1 as [v t|v c t l i x t1 p w t' H1 H2 H3 H4 IH|c x y t p w t' H1 H2 IH|v t t1 p w t' H1 H2 IH]; intro H; [exact H|..].
  - eapply Le_step; eauto.
  - eapply Le_value; eauto.
  - eapply Le_type; eauto.
Qed.

(** Whatever error encoding reports, its path leads to a value inside and to the type that value should have (see [leads]),
    and what the error says is true of the two (see [justified]).  [p2] is not empty only for lists of bits and for the
    bytes of 256-bit numbers, whose elements are no values of their own. *)
Theorem C90_true : forall TId T (reg : TId -> resolution TId) X F (v : value T) t out e o p,
  encode_l reg X F v t out = ((SErr e, o), p) ->
  exists p1 p2 w t', p = p1 ++ p2 /\ leads reg v t p1 w t' /\ justified reg X w t' e.
Proof.
  intros TId T reg X F v t out e o p H. apply (encode_l_blames reg X F v) in H as (p1 & p2 & w & t' & -> & L & C).
  destruct C as [out' o' H|c st od i x HV HR -> HN HB _|q b u t'' i n out' o' HV HB HC HR HN H _].
  - apply (encode_candid reg X F w) in H as (w' & t'' & L' & J). exists p1, [], w', t''. split; [reflexivity|]. split; [|exact J]. eapply leads_app; eassumption.
  - exists p1, [LIdx i], w, t'. split; [reflexivity|]. split; [exact L|]. eapply Ju_bit; [exact HV|exact HR|eapply nth_error_In, HN|exact HB].
  - exists p1, [LIdx i], w, t'. split; [reflexivity|]. split; [exact L|]. destruct w as [d ctx].
    eapply (Ju_byte reg X _ q b t' u t'' n e (Val (DPrim (PU128 n)) ctx)); try eassumption; [eapply nth_error_In, HN|reflexivity|].
    eapply (number_just reg X F (Val (DPrim (PU128 n)) ctx) _ t'' out' e o' eq_refl); [| |exact H].
    + intros ty. cbn [vdef_of takes]. destruct ty as [fs|vs|x|x k|ts|[| | |k|k| |]|x|st od]; tauto.
    + intros u' d' _ _ Tk. exact Tk.
Qed.
Print Assumptions C90_true.

(** The same without the path. *)
Theorem C90_true_of_something_inside : forall TId T (reg : TId -> resolution TId) X F (v : value T) t out e o,
  encode reg X F v t out = (SErr e, o) -> exists p w t', leads reg v t p w t' /\ justified reg X w t' e.
Proof.
  intros TId T reg X F v t out e o H. rewrite <- (erase_encode_l reg X F v t out) in H.
  destruct (encode_l reg X F v t out) as [r p] eqn:E. cbn [fst] in H. subst r.
  apply C90_true in E as (p1 & p2 & w & t' & _ & L & J). eauto.
Qed.
Print Assumptions C90_true_of_something_inside.

(** Conversely, whatever the value: where the registry fails (also behind wrapper types) the error says so, and for an id
    the registry does not know it says that the shape is wrong; the output is not touched. *)
Theorem C90_absent_types : forall TId (reg : TId -> resolution TId) X t u, chain (transparent reg) t u ->
  (reg u = ResErr -> exists F0, forall T F (v : value T) out, (F0 <= F)%nat -> encode reg X F v t out = (SErr XTypeResolving, out)) /\
  (reg u = ResNotFound -> exists F0, forall T F (v : value T) out, (F0 <= F)%nat -> encode reg X F v t out = (SErr XWrongShape, out)).
Proof.
  intros TId reg X t u HC. split; intro R.
  - assert (HA : absence (reg u) = Some XTypeResolving) by now rewrite R.
    destruct (walks_exist reg X _ u HA t HC) as (n & W1 & W2). exists n. intros T F v out L. eapply encode_absent; eassumption.
  - assert (HA : absence (reg u) = Some XWrongShape) by now rewrite R.
    destruct (walks_exist reg X _ u HA t HC) as (n & W1 & W2). exists n. intros T F v out L. eapply encode_absent; eassumption.
Qed.
Print Assumptions C90_absent_types.

(** Encoding as fields. *)
Lemma lookup_in {TId} name (src : list (option str * encoder (TId := TId))) :
  match lookup_last name src with Some e => exists f, In f src /\ snd f = e | None => ~ In name (map key_of src) end.
Proof.
  induction src as [|f src IH]; cbn [lookup_last map]; [auto|]. destruct (lookup_last name src) as [e|].
  - destruct IH as (g & H1 & H2). exists g. split; [now right|exact H2].
  - destruct (str_eqb (key_of f) name) eqn:E; [exists f; split; [now left|reflexivity]|]. intros [H|H]; [|exact (IH H)].
    rewrite H, (proj2 (str_eqb_eq name name) eq_refl) in E. discriminate.
Qed.
Lemma by_name_fails {TId} (src : list (option str * encoder (TId := TId))) fs : forall out e o, encode_by_name src fs out = (SErr e, o) ->
  (e = XMissingField /\ exists fd, In fd fs /\ ~ In (key_of fd) (map key_of src)) \/
  exists fd f out' o', In fd fs /\ In f src /\ snd f (snd fd) out' = (SErr e, o').
Proof.
  induction fs as [|fd fs IH]; intros out e o H; [discriminate|]. cbn [encode_by_name] in H. pose proof (lookup_in (key_of fd) src) as L.
  destruct (lookup_last (key_of fd) src) as [enc|].
  - destruct L as (f & L1 & <-). destruct (snd f (snd fd) out) as [[|e'|] o'] eqn:E; cbn [andthen] in H; [|injection H as -> ->|discriminate].
    + apply IH in H as [(H1 & fd' & H2 & H3)|(fd' & f' & out' & o'' & H1 & H2 & H3)].
      * left. split; [exact H1|]. exists fd'. split; [now right|exact H3].
      * right. exists fd', f', out', o''. split; [now right|]. auto.
    + right. exists fd, f, out, o. split; [now left|]. auto.
  - injection H as <- _. left. split; [reflexivity|]. exists fd. split; [now left|exact L].
Qed.
Lemma in_order_fails {TId} (es : list (encoder (TId := TId))) : forall ts out e o, encode_in_order es ts out = (SErr e, o) ->
  exists t enc out' o', In t ts /\ In enc es /\ enc t out' = (SErr e, o').
Proof.
  induction es as [|enc es IH]; intros [|t ts] out e o H; try discriminate. cbn [encode_in_order] in H.
  destruct (enc t out) as [[|e'|] o'] eqn:E; cbn [andthen] in H; [|injection H as -> ->|discriminate].
  - apply IH in H as (t' & enc' & out' & o'' & H1 & H2 & H3). exists t', enc', out', o''. split; [now right|]. split; [now right|exact H3].
  - exists t, enc, out, o. split; [now left|]. split; [now left|exact E].
Qed.

Theorem C90_fields_true : forall TId T (reg : TId -> resolution TId) X F (v : value T) fs out e o,
  encode_as_fields reg X F v fs out = (SErr e, o) ->
  (e = XNotComposite /\ forall c, vdef_of v <> DComposite c) \/
  (exists l k t, vdef_of v = DComposite (Named l) /\ e = XMissingField /\ In (k, t) fs /\ ~ In (match k with Some k => k | None => [] end) (map fst l)) \/
  (exists c, vdef_of v = DComposite c /\ e = XWrongLength /\ (~ some_name fs \/ ~ has_names c) /\ length (values c) <> length fs) \/
  (exists c x k t p w t', vdef_of v = DComposite c /\ In x (values c) /\ In (k, t) fs /\ leads reg x t p w t' /\ justified reg X w t' e).
Proof.
  intros TId T reg X F v fs out e o H. unfold encode_as_fields in H.
  destruct (vdef_of v) as [c|n c|b|q] eqn:HV; try (injection H as <- _; left; split; [reflexivity|discriminate]).
  right. unfold encode_composite_as_fields, encode_fields in H.
  assert (SRC : forall f, In f (source_fields (composite_map (encode reg X F) c)) -> exists x, In x (values c) /\ snd f = encode reg X F x).
  { intros f HI. destruct c as [l|l]; cbn [composite_map source_fields values] in *; rewrite map_map in HI; apply in_map_iff in HI as (x & <- & HI).
    - exists (snd x). split; [apply in_map; exact HI|reflexivity].
    - exists x. split; [exact HI|reflexivity]. }
  assert (DEEP : forall f fd out' o', In fd fs -> In f (source_fields (composite_map (encode reg X F) c)) -> snd f (snd fd) out' = (SErr e, o') ->
    exists c0 x k t p w t', DComposite c = DComposite c0 /\ In x (values c0) /\ In (k, t) fs /\ leads reg x t p w t' /\ justified reg X w t' e).
  { intros f [k t] out' o' H1 H2 H3. destruct (SRC f H2) as (x & H4 & H5). cbn [snd] in H3. rewrite H5 in H3.
    apply C90_true_of_something_inside in H3 as (p & w & t' & L & J). exists c, x, k, t, p, w, t'. auto. }
  destruct (existsb named_field fs && existsb named_field _) eqn:B.
  - apply by_name_fails in H as [(-> & [k t] & H1 & H2)|(fd & f & out' & o' & H1 & H2 & H3)].
    + left. apply andb_prop in B as [_ B]. destruct c as [l|l].
      * exists l, k, t. repeat split; [exact H1|]. intro H3. apply H2. cbn [composite_map source_fields]. rewrite !map_map. exact H3.
      * exfalso. clear -B. cbn [composite_map source_fields] in B. rewrite map_map in B. induction l as [|a l IH]; [discriminate|]. cbn [map existsb] in B.
        unfold named_field at 1 in B. cbn [fst orb] in B. auto.
    + right. right. eapply DEEP; eassumption.
  - destruct (_ =? _)%nat eqn:L.
    + right. right. apply in_order_fails in H as (t & enc & out' & o' & H1 & H2 & H3). apply in_map_iff in H1 as (fd & <- & H1). apply in_map_iff in H2 as (f & <- & H2).
      eapply DEEP; eassumption.
    + right. left. injection H as <- _. apply Nat.eqb_neq in L. exists c. repeat split.
      * apply andb_false_iff in B as [B|B]; [left; apply some_name_b; exact B|right]. intros (kv & l & ->). discriminate.
      * intro E. apply L. rewrite <- E. destruct c as [l|l]; cbn [composite_map source_fields values]; rewrite !map_length; reflexivity.
Qed.
Print Assumptions C90_fields_true.

(** ** Non-vacuity: every kind of error occurs. *)
Example C90_non_vacuous :
  encode demo xdemo 9 (vu128 300) 0%nat [] = (SErr XOutOfRange, []) /\
  encode demo xdemo 9 (vu128 300) 25%nat [7] = (SErr XTypeResolving, [7]) /\
  encode demo xdemo 9 (unnamed_composite [vu128 300]) 25%nat [7] = (SErr XTypeResolving, [7]) /\
  encode demo xdemo 9 (vbool true) 0%nat [] = (SErr XWrongShape, []) /\
  encode demo xdemo 9 (named_composite [(s2l "a", vu128 7); (s2l "c", unnamed_composite [vu128 1])]) 4%nat [] = (SErr XMissingField, []) /\
  encode demo xdemo 9 (unnamed_composite [vbool true; vu128 2]) 10%nat [] = (SErr XBadBit, []) /\
  encode demo xdemo 9 (unnamed_composite [vu128 1; vu128 2; vu128 3]) 8%nat [] = (SErr XWrongLength, []) /\
  (exists t, encode demo xdemo 9 (unnamed_variant (s2l "nowhere") []) t [] = (SErr XNoVariant, [])) /\
  encode_as_fields demo xdemo 9 (vbool true) [] [] = (SErr XNotComposite, []).
Proof.
  repeat apply conj; try (vm_compute; reflexivity).
  first [exists 5%nat; vm_compute; reflexivity|exists 6%nat; vm_compute; reflexivity|exists 11%nat; vm_compute; reflexivity|exists 12%nat; vm_compute; reflexivity|exists 13%nat; vm_compute; reflexivity].
Qed.
