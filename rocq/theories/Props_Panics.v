(** * Props_Panics: C99, the crate's own [expect]s never panic. *)
From Verif Require Import Base Value Chars Serde Parse Props_Parse Registry Spec_Scale Scale Decode DecodeFacts Encode ByteParsers Panics Demo.
Local Open Scope N_scope.

Section DecodePFacts.
  Context {TId C : Type} (reg : TId -> resolution TId) (X : ext) (ctxf : TId -> C).

  Lemma pbind_ran {A B} (d : dres A) (k : A * bytes -> pres B) (k' : A * bytes -> dres B) :
    (forall x, k x = Ran (k' x)) -> pbind (Ran d) k = Ran (bind d k').
  Proof. intro H. destruct d; cbn [pbind rbind bind]; [apply H|reflexivity]. Qed.

  Lemma decode_items_p_ran (dp : TId -> bytes -> pres (value C)) d : (forall t bs, dp t bs = Ran (d t bs)) ->
    forall ts bs, decode_items_p dp ts bs = Ran (decode_items d ts bs).
  Proof.
    intros H. induction ts as [|t ts IH]; intro bs; cbn [decode_items_p decode_items]; [reflexivity|]. rewrite H.
    apply pbind_ran. intro x. rewrite IH. apply pbind_ran. reflexivity.
  Qed.

  Lemma decode_named_p_ran (dp : TId -> bytes -> pres (value C)) d : (forall t bs, dp t bs = Ran (d t bs)) ->
    forall fs bs, has_unnamed fs = false -> decode_named_p dp (peek_name fs) fs bs = Ran (decode_named d fs bs).
  Proof.
    intros H. induction fs as [|[[n|] t] fs IH]; intros bs U; cbn [decode_named_p decode_named peek_name]; [reflexivity| |discriminate U].
    rewrite H. apply pbind_ran. intro x. cbn [expect rbind]. rewrite IH by exact U. apply pbind_ran. reflexivity.
  Qed.

  Lemma visit_composite_p_ran (dp : TId -> bytes -> pres (value C)) d : (forall t bs, dp t bs = Ran (d t bs)) ->
    forall fs bs, visit_composite_p dp fs bs = Ran (visit_composite d fs bs).
  Proof.
    intros H fs bs. unfold visit_composite_p, visit_composite.
    destruct ((0 <? length fs)%nat && negb (has_unnamed fs)) eqn:E.
    - apply andb_prop in E as [_ E]. apply Bool.negb_true_iff in E. rewrite (decode_named_p_ran dp d H) by exact E. apply pbind_ran. reflexivity.
    - rewrite (decode_items_p_ran dp d H). apply pbind_ran. reflexivity.
  Qed.

  Lemma to_unnamed_p_ran (dp : TId -> bytes -> pres (value C)) d : (forall t bs, dp t bs = Ran (d t bs)) ->
    forall t ts bs, to_unnamed_p ctxf dp t ts bs = Ran (to_unnamed ctxf d t ts bs).
  Proof. intros H t ts bs. unfold to_unnamed_p, to_unnamed. rewrite (decode_items_p_ran dp d H). apply pbind_ran. reflexivity. Qed.

  Lemma decode_p_ran : forall fuel compact t bs, decode_p reg X ctxf fuel compact t bs = Ran (decode reg X ctxf fuel compact t bs).
  Proof.
    induction fuel as [|f IH]; intros c t bs; cbn [decode_p decode]; [reflexivity|].
    destruct (reg t) as [| |[fs|vs|t'|t' n|ts|p|t'|st o]]; try reflexivity.
    - destruct (c && _); [reflexivity|]. rewrite (visit_composite_p_ran _ (decode reg X ctxf f c) (IH c)). apply pbind_ran. reflexivity.
    - destruct c; [reflexivity|]. destruct bs as [|i bs]; [reflexivity|]. destruct (find _ vs) as [v|]; [|reflexivity].
      rewrite (visit_composite_p_ran _ (decode reg X ctxf f false) (IH false)). apply pbind_ran. reflexivity.
    - destruct c; [reflexivity|]. apply pbind_ran. intro x. apply to_unnamed_p_ran, IH.
    - destruct c; [reflexivity|]. apply to_unnamed_p_ran, IH.
    - destruct (c && _); [reflexivity|]. apply to_unnamed_p_ran, IH.
    - apply pbind_ran. reflexivity.
    - apply IH.
    - destruct c; [reflexivity|]. apply pbind_ran. reflexivity.
  Qed.
End DecodePFacts.

(** ** C99 *)
(** Decoding, at any type of any registry and from any bytes, runs to the answer that Decode.v gives: the name that is unwrapped is always
    there.  (Also where the registry itself is broken: some fields named and some not, unknown ids, cycles.) *)
Theorem C99_decode : forall {TId C} (reg : TId -> resolution TId) X (ctxf : TId -> C) fuel,
  (forall compact t bs, decode_p reg X ctxf fuel compact t bs = Ran (decode reg X ctxf fuel compact t bs)) /\
  (forall fs bs, visit_composite_p (decode_p reg X ctxf fuel false) fs bs = Ran (decode_as_fields reg X ctxf fuel fs bs)).
Proof.
  intros TId C reg X ctxf fuel. split; [apply decode_p_ran|]. intros fs bs. apply visit_composite_p_ran. apply decode_p_ran.
Qed.
Print Assumptions C99_decode.

(** The unwrapping would panic on mixed fields if they were not looked at first. *)
Example C99_decode_needs_the_check :
  decode_named_p (fun (t : N) (bs : bytes) => Ran (Ok (vbool true, bs))) (peek_name [(Some (s2l "a"), 0); (None, 0)]) [(Some (s2l "a"), 0); (None, 0)] [1; 0]
  = Panic.
Proof. reflexivity. Qed.
Example C99_decode_demo : forall bs, decode_p demo xdemo (fun t => t) 5%nat false 1%nat bs = Ran (decode demo xdemo (fun t => t) 5%nat false 1%nat bs).
Proof. intro bs. apply (proj1 (C99_decode demo xdemo (fun t => t) 5%nat)). Qed.

(** Looking for a single entry: the one field whose existence was tested is there. *)
Theorem C99_encode : forall {TId} (reg : TId -> resolution TId) fuel t changed,
  find_single_p reg fuel t changed = Ran (find_single reg fuel t changed).
Proof.
  intros TId reg. induction fuel as [|f IH]; intros t c; cbn [find_single_p find_single]; [reflexivity|].
  destruct (reg t) as [| |[fs|vs|t'|t' n|ts|p|t'|st o]]; try reflexivity.
  - destruct fs as [|fd [|? ?]]; cbn [length Nat.eqb hd_error expect rbind]; [reflexivity|apply IH|reflexivity].
  - destruct (n =? 1); [apply IH|reflexivity].
  - destruct ts as [|t' [|? ?]]; cbn [length Nat.eqb hd_error expect rbind]; [reflexivity|apply IH|reflexivity].
Qed.
Print Assumptions C99_encode.

(** [deserialize_option] of a value. *)
Theorem C99_option : forall {T} (d : vdef (value T)), deserialize_option_p d = Ran (vdef_de d HOption).
Proof.
  intros T d. destruct d as [c|n [l|l]|b|p]; try reflexivity. cbn [deserialize_option_p vdef_de].
  destruct l as [|v [|w l]]; cbn [length Nat.eqb pop rev app hd_error expect rbind];
    destruct (str_eqb n (s2l "Some")); cbn [andb]; try reflexivity; destruct (str_eqb n (s2l "None")); reflexivity.
Qed.
Print Assumptions C99_option.

(** Locations: where custom parsers keep to the contract of C07, no addition of offsets overflows, for every text that (with one byte
    more) fits in memory. *)
Theorem C99_locations : forall customs bits before asked e cur, custom_contract customs ->
  run_customs customs asked = Some (Err e, cur) -> blen (before ++ asked) + 1 < 2 ^ bits ->
  shift_err_p bits (blen before) e = Ran (shift_err (blen before) e).
Proof.
  intros customs bits before asked e cur HC HR HB. destruct (HC asked e cur HR) as (_ & _ & (a & b & -> & Hs) & He).
  rewrite !blen_app in HB. unfold shift_err_p, shift_err, usize_add.
  replace (blen before + start_loc e <? 2 ^ bits) with true by (symmetry; apply N.ltb_lt; lia). cbn [rbind].
  destruct (end_loc e) as [l|]; [|reflexivity]. rewrite blen_app in He.
  replace (blen before + l <? 2 ^ bits) with true by (symmetry; apply N.ltb_lt; lia). reflexivity.
Qed.
Print Assumptions C99_locations.
Example C99_locations_used : exists e cur, run_customs [hash_parser] (s2l "!x") = Some (Err e, cur) /\
  shift_err_p 64 (blen (s2l "(1, ")) e = Ran (PErr 4 (Some 5) (ECustom (s2l "bang"))).
Proof. eexists _, _. split; reflexivity. Qed.

(** Without the contract a custom parser can make it overflow: an error at the largest location, asked for behind one byte. *)
Theorem C99_locations_refuted : exists (p : cparser) before asked e cur,
  run_customs [p] asked = Some (Err e, cur) /\ start_loc e < 2 ^ 64 /\ blen (before ++ asked) = 2 /\ shift_err_p 64 (blen before) e = Panic.
Proof.
  exists (fun t => (Some (Err (PErr (2 ^ 64 - 1) None (ECustom (s2l "far")))), t)), (s2l "("), (s2l "x").
  eexists _, _. split; [reflexivity|]. split; [|split]; vm_compute; reflexivity.
Qed.
Print Assumptions C99_locations_refuted.
