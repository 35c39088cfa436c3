(** * Props_Cursor: C85, the cursor after decoding fields.

    [scale::decode_as_fields] ([decode_composite_as_fields]) and the [DecodeAsFields] implementations of [Composite<()>] and [Value<()>] give the same
    results.  They differ in where they leave the caller's cursor when they fail. *)
From Verif Require Import Base Value Registry Spec_Scale Scale Decode Cursor Demo.
Open Scope N_scope.

Section Facts.
  Context {TId C : Type} (dec : TId -> bytes -> dres (value C)) (fuses : bool).

  (** The iterator after the items were decoded as far as possible. *)
  Fixpoint stuck (fs : list (field TId)) (bs : bytes) : items :=
    match fs with
    | [] => Items bs []
    | (n, t) :: fs' => match dec t bs with
                       | Ok (_, r) => stuck fs' r
                       | Err _ => if fuses then Items bs [] else Items bs fs
                       end
    end.
  Lemma unnamed_run fs : forall fuel bs vals, (length fs < fuel)%nat ->
    visit_unnamed dec fuses fuel vals (Items bs fs) =
    match decode_items dec (map snd fs) bs with
    | Ok (vs, r) => VDone (Ok (Unnamed (vals ++ vs))) (Items r [])
    | Err e => VDone (Err e) (stuck fs bs)
    end.
  Proof.
    induction fs as [|[n t] fs IH]; intros [|f] bs vals HL; cbn [length] in HL; try lia; cbn [visit_unnamed decode_item it_fields it_bytes map snd decode_items].
    - rewrite app_nil_r. reflexivity.
    - unfold decode_item. cbn [it_fields it_bytes stuck]. destruct (dec t bs) as [[v r]|e]; cbn [bind fst snd]; [|destruct fuses; reflexivity]. rewrite IH by lia.
      destruct (decode_items dec (map snd fs) r) as [[vs r']|e]; cbn [bind fst snd]; [|reflexivity]. rewrite <- app_assoc. reflexivity.
  Qed.
  Lemma named_run fs : forall fuel bs vals, (length fs < fuel)%nat -> has_unnamed fs = false ->
    visit_named dec fuses fuel (peek_name (Items bs fs)) vals (Items bs fs) =
    match decode_named dec fs bs with
    | Ok (vs, r) => VDone (Ok (Named (vals ++ vs))) (Items r [])
    | Err e => VDone (Err e) (stuck fs bs)
    end.
  Proof.
    induction fs as [|[n t] fs IH]; intros [|f] bs vals HL HU; cbn [length] in HL; try lia; cbn [visit_named decode_item it_fields it_bytes decode_named peek_name fst].
    - rewrite app_nil_r. reflexivity.
    - unfold has_unnamed in HU. cbn [existsb fst] in HU. apply orb_false_iff in HU as [HN HU]. destruct n as [n|]; [|discriminate].
      unfold decode_item. cbn [it_fields it_bytes stuck]. destruct (dec t bs) as [[v r]|e]; cbn [bind fst snd]; [|destruct fuses; reflexivity]. rewrite IH by (assumption || lia).
      destruct (decode_named dec fs r) as [[vs r']|e]; cbn [bind fst snd]; [|reflexivity]. rewrite <- app_assoc. reflexivity.
  Qed.
  Lemma visit_run fs bs : visit dec fuses (Items bs fs) =
    match visit_composite dec fs bs with Ok (c, r) => VDone (Ok c) (Items r []) | Err e => VDone (Err e) (stuck fs bs) end.
  Proof.
    unfold visit, visit_composite, remaining. cbn [it_fields]. destruct ((0 <? length fs)%nat && negb (has_unnamed fs)) eqn:E.
    - apply andb_true_iff in E as [_ E]. apply negb_true_iff in E. rewrite named_run by (assumption || lia).
      destruct (decode_named dec fs bs) as [[vs r]|e]; reflexivity.
    - rewrite unnamed_run by lia. destruct (decode_items dec (map snd fs) bs) as [[vs r]|e]; reflexivity.
  Qed.

  (** A list of fields can be decoded whether or not they are named. *)
  Lemma named_fails fs : forall bs e, decode_named dec fs bs = Err e -> decode_items dec (map snd fs) bs = Err e.
  Proof.
    induction fs as [|[n t] fs IH]; intros bs e; cbn [decode_named map snd decode_items]; [discriminate|].
    destruct (dec t bs) as [[v r]|e']; cbn [bind fst snd]; [|intros [= ->]; reflexivity]. specialize (IH r).
    destruct (decode_named dec fs r) as [[vs r']|e1]; cbn [bind fst snd]; [discriminate|]. intros [= ->]. rewrite (IH e eq_refl). reflexivity.
  Qed.
  Lemma named_succeeds fs : forall bs vs r, decode_items dec (map snd fs) bs = Ok (vs, r) -> exists ws, decode_named dec fs bs = Ok (ws, r).
  Proof.
    induction fs as [|[n t] fs IH]; intros bs vs r; cbn [decode_named map snd decode_items]; [intros [= _ ->]; exists []; reflexivity|].
    destruct (dec t bs) as [[v r1]|e']; cbn [bind fst snd]; [|discriminate].
    destruct (decode_items dec (map snd fs) r1) as [[ws r2]|e2] eqn:E; cbn [bind fst snd]; [|discriminate]. intros [= _ <-].
    destruct (IH _ _ _ E) as [us ->]. eexists; reflexivity.
  Qed.
  Lemma composite_fails fs bs e : visit_composite dec fs bs = Err e -> decode_items dec (map snd fs) bs = Err e.
  Proof.
    unfold visit_composite. destruct ((0 <? length fs)%nat && negb (has_unnamed fs)).
    - destruct (decode_named dec fs bs) as [[vs r]|e'] eqn:E; cbn [bind]; [discriminate|]. intros [= ->]. apply named_fails, E.
    - destruct (decode_items dec (map snd fs) bs) as [[vs r]|e'] eqn:E; cbn [bind]; [discriminate|]. intros [= ->]. reflexivity.
  Qed.
  Lemma composite_succeeds fs bs vs r : decode_items dec (map snd fs) bs = Ok (vs, r) -> exists c, visit_composite dec fs bs = Ok (c, r).
  Proof.
    intro E. unfold visit_composite. destruct ((0 <? length fs)%nat && negb (has_unnamed fs)).
    - destruct (named_succeeds _ _ _ _ E) as [ws ->]. cbn [bind fst snd]. eauto.
    - rewrite E. cbn [bind fst snd]. eauto.
  Qed.
  (** The item at which decoding stops. *)
  Lemma stuck_at fs : forall bs e, decode_items dec (map snd fs) bs = Err e ->
    exists pre n t post vs r, fs = pre ++ (n, t) :: post /\ decode_items dec (map snd pre) bs = Ok (vs, r) /\ dec t r = Err e /\
      stuck fs bs = if fuses then Items r [] else Items r ((n, t) :: post).
  Proof.
    induction fs as [|[n t] fs IH]; intros bs e; cbn [map snd decode_items stuck]; [discriminate|].
    destruct (dec t bs) as [[v r]|e'] eqn:E; cbn [bind fst snd].
    - destruct (decode_items dec (map snd fs) r) as [[ws r']|e''] eqn:E'; cbn [bind fst snd]; [discriminate|]. intros [= ->].
      destruct (IH r e E') as (pre & n' & t' & post & vs & r' & -> & HP & HE & HS).
      exists ((n, t) :: pre), n', t', post, (v :: vs), r'. split; [reflexivity|]. split; [|split; [exact HE|exact HS]].
      cbn [map snd decode_items]. rewrite E. cbn [bind fst snd]. rewrite HP. reflexivity.
    - intros [= ->]. exists [], n, t, fs, [], bs. split; [reflexivity|]. split; [reflexivity|]. split; [exact E|reflexivity].
  Qed.
End Facts.

(** [scale::decode_as_fields]: never panics (the [expect] is never reached without a name); a success moves the cursor over what was decoded, a failure
    leaves it where it was.  Nothing is assumed about skipping, nor about the iterator after a failure. *)
Theorem C85_decode_as_fields : forall TId C (reg : TId -> resolution TId) X (ctxf : TId -> C) fuel ignore fuses fs bs,
  decode_composite_as_fields (decode_as_type reg X ctxf fuel) ignore fuses bs fs =
  match decode_as_fields reg X ctxf fuel fs bs with
  | Ok (c, rest) => Returns (Ok c) rest
  | Err e => Returns (Err e) bs
  end.
Proof.
  intros TId C reg X ctxf fuel ignore fuses fs bs. unfold decode_composite_as_fields, decode_as_fields. rewrite visit_run. change (decode_as_type reg X ctxf fuel) with (decode reg X ctxf fuel false).
  destruct (visit_composite (decode reg X ctxf fuel false) fs bs) as [[c r]|e]; reflexivity.
Qed.
Print Assumptions C85_decode_as_fields.

(** The trait implementations succeed alike. *)
Theorem C85_trait_success : forall TId C (reg : TId -> resolution TId) X (ctxf : TId -> C) fuel ignore fuses ctx fs bs c rest,
  decode_as_fields reg X ctxf fuel fs bs = Ok (c, rest) ->
  composite_decode_as_fields (decode_as_type reg X ctxf fuel) ignore fuses bs fs = Returns (Ok c) rest /\
  value_decode_as_fields (decode_as_type reg X ctxf fuel) ignore fuses ctx bs fs = Returns (Ok (Val (DComposite c) ctx)) rest.
Proof.
  intros TId C reg X ctxf fuel ignore fuses ctx fs bs c rest E.
  assert (H : composite_decode_as_fields (decode_as_type reg X ctxf fuel) ignore fuses bs fs = Returns (Ok c) rest).
  { unfold composite_decode_as_fields. rewrite visit_run. unfold decode_as_fields in E. change (decode_as_type reg X ctxf fuel) with (decode reg X ctxf fuel false). rewrite E. reflexivity. }
  split; [exact H|]. unfold value_decode_as_fields. rewrite H. reflexivity.
Qed.
Print Assumptions C85_trait_success.

(** When the trait implementations fail, and the iterator stops at an error, the cursor is left after the fields that could be decoded: some fields [pre]
    were, the next one failed with the error reported, and the cursor is where that one starts. *)
Theorem C85_trait_failure : forall TId C (reg : TId -> resolution TId) X (ctxf : TId -> C) fuel ignore ctx fs bs e,
  decode_as_fields reg X ctxf fuel fs bs = Err e ->
  exists pre name t post c rest, fs = pre ++ (name, t) :: post /\
    decode_as_fields reg X ctxf fuel pre bs = Ok (c, rest) /\ decode_as_type reg X ctxf fuel t rest = Err e /\
    composite_decode_as_fields (decode_as_type reg X ctxf fuel) ignore true bs fs = Returns (Err e) rest /\
    value_decode_as_fields (decode_as_type reg X ctxf fuel) ignore true ctx bs fs = Returns (Err e) rest.
Proof.
  intros TId C reg X ctxf fuel ignore ctx fs bs e E. unfold decode_as_fields in *. change (decode_as_type reg X ctxf fuel) with (decode reg X ctxf fuel false).
  destruct (stuck_at (decode reg X ctxf fuel false) true fs bs e (composite_fails _ _ _ _ E)) as (pre & n & t & post & vs & r & HF & HP & HE & HS).
  destruct (composite_succeeds _ _ _ _ _ HP) as [c HC].
  assert (H : composite_decode_as_fields (decode reg X ctxf fuel false) ignore true bs fs = Returns (Err e) r).
  { unfold composite_decode_as_fields. rewrite visit_run, E, HS. reflexivity. }
  exists pre, n, t, post, c, r. split; [exact HF|]. split; [exact HC|]. split; [exact HE|]. split; [exact H|].
  unfold value_decode_as_fields. rewrite H. reflexivity.
Qed.
Print Assumptions C85_trait_failure.

(** If the iterator offered the failed item again, skipping it would be what decides: if it cannot be skipped, that error is reported and the cursor stays. *)
Theorem C85_trait_failure_again : forall TId C (reg : TId -> resolution TId) X (ctxf : TId -> C) fuel ignore fs bs e,
  decode_as_fields reg X ctxf fuel fs bs = Err e ->
  exists pre name t post c rest, fs = pre ++ (name, t) :: post /\
    decode_as_fields reg X ctxf fuel pre bs = Ok (c, rest) /\ decode_as_type reg X ctxf fuel t rest = Err e /\
    (forall e', ignore t rest = Err e' -> composite_decode_as_fields (decode_as_type reg X ctxf fuel) ignore false bs fs = Returns (Err e') bs).
Proof.
  intros TId C reg X ctxf fuel ignore fs bs e E. unfold decode_as_fields in *. change (decode_as_type reg X ctxf fuel) with (decode reg X ctxf fuel false).
  destruct (stuck_at (decode reg X ctxf fuel false) false fs bs e (composite_fails _ _ _ _ E)) as (pre & n & t & post & vs & r & HF & HP & HE & HS).
  destruct (composite_succeeds _ _ _ _ _ HP) as [c HC].
  exists pre, n, t, post, c, r. split; [exact HF|]. split; [exact HC|]. split; [exact HE|].
  intros e' HI. unfold composite_decode_as_fields. rewrite visit_run, E, HS. unfold remaining. cbn [it_fields length skip_decoding]. unfold decode_item.
  cbn [it_fields it_bytes]. rewrite HI. reflexivity.
Qed.
Print Assumptions C85_trait_failure_again.

(** Neither the functions nor the trait implementations panic. *)
Theorem C85_no_panic : forall TId C (reg : TId -> resolution TId) X (ctxf : TId -> C) fuel ignore fuses ctx fs bs,
  decode_composite_as_fields (decode_as_type reg X ctxf fuel) ignore fuses bs fs <> Panics /\
  composite_decode_as_fields (decode_as_type reg X ctxf fuel) ignore fuses bs fs <> Panics /\
  value_decode_as_fields (decode_as_type reg X ctxf fuel) ignore fuses ctx bs fs <> Panics.
Proof.
  intros TId C reg X ctxf fuel ignore fuses ctx fs bs.
  assert (H : composite_decode_as_fields (decode_as_type reg X ctxf fuel) ignore fuses bs fs <> Panics).
  { unfold composite_decode_as_fields. rewrite visit_run. destruct (visit_composite _ fs bs) as [[c r]|e]; [discriminate|].
    destruct (skip_decoding _ _ _ _) as [[|] ?]; discriminate. }
  split; [|split; [exact H|]].
  - rewrite C85_decode_as_fields. destruct (decode_as_fields _ _ _ _ _ _) as [[c r]|e]; discriminate.
  - unfold value_decode_as_fields. destruct (composite_decode_as_fields _ _ _ _ _) as [|[c|e] cur]; [contradiction|discriminate|discriminate].
Qed.
Print Assumptions C85_no_panic.

(** So with the trait a failed decode does not leave the cursor where it was, and the two ways of decoding the same fields differ. *)
Theorem C85_cursor_kept_refuted : ~ (forall (reg : nat -> resolution nat) X fuel (fs : list (field nat)) bs e cursor,
  composite_decode_as_fields (decode_as_type reg X (fun _ => tt) fuel) (fun _ r => Ok (tt, r)) true bs fs = Returns (Err e) cursor -> cursor = bs).
Proof.
  intro H. specialize (H demo xdemo 5%nat [(nm "n", 0%nat); (nm "yes", 2%nat)] [7; 2]). vm_compute in H. specialize (H _ _ eq_refl). discriminate.
Qed.
Print Assumptions C85_cursor_kept_refuted.

(** The hypotheses are met: fields n: u8 and yes: bool. *)
Example C85_demo :
  let dec := decode_as_type demo xdemo (fun _ => tt) 5 in
  let fs := [(nm "n", 0%nat); (nm "yes", 2%nat)] in
  let skip := fun (_ : nat) (_ : bytes) => Err (A := unit * bytes) ECodec in
  decode_as_fields demo xdemo (fun _ => tt) 5 fs [7; 2; 9] = Err ECodec /\
  decode_composite_as_fields dec skip true [7; 2; 9] fs = Returns (Err ECodec) [7; 2; 9] /\
  composite_decode_as_fields dec skip true [7; 2; 9] fs = Returns (Err ECodec) [2; 9] /\
  composite_decode_as_fields dec skip false [7; 2; 9] fs = Returns (Err ECodec) [7; 2; 9] /\
  decode_composite_as_fields dec skip true [7; 1; 9] fs = Returns (Ok (Named [(s2l "n", vu128 7); (s2l "yes", vbool true)])) [9] /\
  value_decode_as_fields dec skip true tt [7; 1; 9] fs = Returns (Ok (named_composite [(s2l "n", vu128 7); (s2l "yes", vbool true)])) [9].
Proof. repeat apply conj; vm_compute; reflexivity. Qed.
