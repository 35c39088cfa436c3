(** * ShapeFacts: lemmas for C84 (only the shape of a type matters). *)
From Verif Require Import Base Value ValueFacts Registry Spec_Scale Scale Decode Trace Encode Spec_Shape.
Open Scope N_scope.

(** ** Lists *)
Lemma f2_len {X Y} (P : X -> Y -> Prop) l m : Forall2 P l m -> length l = length m.
Proof. induction 1; cbn [length]; congruence. Qed.
Lemma f2_app {X Y} (P : X -> Y -> Prop) l m x y : Forall2 P l m -> P x y -> Forall2 P (l ++ [x]) (m ++ [y]).
Proof. induction 1; intro; cbn [app]; constructor; auto. Qed.
Lemma f2_repeat {X Y} (P : X -> Y -> Prop) x y n : P x y -> Forall2 P (repeat x n) (repeat y n).
Proof. intro H. induction n; cbn [repeat]; constructor; auto. Qed.
Lemma f2_map {X Y X' Y'} (P : X -> Y -> Prop) (Q : X' -> Y' -> Prop) f g l m :
  (forall x y, P x y -> Q (f x) (g y)) -> Forall2 P l m -> Forall2 Q (map f l) (map g m).
Proof. intro H. induction 1; cbn [map]; constructor; auto. Qed.
Lemma f2_find {X Y} (P : X -> Y -> Prop) f g l m : (forall x y, P x y -> f x = g y) -> Forall2 P l m ->
  match find f l, find g m with Some x, Some y => P x y | None, None => True | _, _ => False end.
Proof.
  intro H. induction 1 as [|x y l m HP _ IH]; cbn [find]; [exact I|]. rewrite (H x y HP). destruct (g y); assumption.
Qed.
Lemma f2_existsb {X Y} (P : X -> Y -> Prop) f g l m : (forall x y, P x y -> f x = g y) -> Forall2 P l m -> existsb f l = existsb g m.
Proof. intro H. induction 1 as [|x y l m HP _ IH]; cbn [existsb]; [reflexivity|]. rewrite (H x y HP), IH. reflexivity. Qed.

Section Facts.
  Context {A B : Type} (R : A -> B -> Prop) (reg1 : A -> resolution A) (reg2 : B -> resolution B) (X : ext) (H : alike R reg1 reg2).

  Lemma fields_snd fs gs : Forall2 (same_field R) fs gs -> Forall2 R (map snd fs) (map snd gs).
  Proof. apply f2_map. intros x y [_ HR]. exact HR. Qed.
  Lemma fields_unnamed fs gs : Forall2 (same_field R) fs gs -> has_unnamed fs = has_unnamed gs.
  Proof. apply f2_existsb. intros x y [E _]. rewrite E. reflexivity. Qed.

  (** ** Decoding *)
  Section Dec.
    Context {C D : Type} (Q : C -> D -> Prop) (cf1 : A -> C) (cf2 : B -> D) (HQ : forall t u, R t u -> Q (cf1 t) (cf2 u)).
    Notation cor := (corresponds Q).
    Notation ok P := (same_result P (@eq derr)).

    Section Loops.
      Context (d1 : A -> bytes -> dres (value C)) (d2 : B -> bytes -> dres (value D)) (Hd : forall t u bs, R t u -> ok cor (d1 t bs) (d2 u bs)).
      Lemma items_same ts us : Forall2 R ts us -> forall bs, ok (Forall2 cor) (decode_items d1 ts bs) (decode_items d2 us bs).
      Proof.
        induction 1 as [|t u ts us HR _ IH]; intro bs; cbn [decode_items]; [constructor; constructor|].
        destruct (Hd t u bs HR) as [v w r HC|e e' <-]; cbn [bind fst snd]; [|constructor; reflexivity].
        destruct (IH r) as [vs ws r' HC'|e e' <-]; cbn [bind fst snd]; constructor; [constructor; assumption|reflexivity].
      Qed.
      Lemma named_same fs gs : Forall2 (same_field R) fs gs -> forall bs,
        ok (Forall2 (fun x y => fst x = fst y /\ cor (snd x) (snd y))) (decode_named d1 fs bs) (decode_named d2 gs bs).
      Proof.
        induction 1 as [|[n t] [n' u] fs gs [HN HR] _ IH]; intro bs; cbn [decode_named]; [constructor; constructor|]. cbn [fst snd] in HN, HR. subst n'.
        destruct (Hd t u bs HR) as [v w r HC|e e' <-]; cbn [bind fst snd]; [|constructor; reflexivity].
        destruct (IH r) as [vs ws r' HC'|e e' <-]; cbn [bind fst snd]; constructor; [constructor; [split; [reflexivity|]|]; assumption|reflexivity].
      Qed.
      Lemma composite_same fs gs bs : Forall2 (same_field R) fs gs -> ok (same_composite cor) (visit_composite d1 fs bs) (visit_composite d2 gs bs).
      Proof.
        intro HF. unfold visit_composite. rewrite (f2_len _ _ _ HF), (fields_unnamed _ _ HF).
        destruct ((0 <? length gs)%nat && negb (has_unnamed gs)).
        - destruct (named_same _ _ HF bs) as [v w r HC|e e' <-]; cbn [bind fst snd]; constructor; [constructor; exact HC|reflexivity].
        - destruct (items_same _ _ (fields_snd _ _ HF) bs) as [v w r HC|e e' <-]; cbn [bind fst snd]; constructor; [constructor; exact HC|reflexivity].
      Qed.
      Lemma unnamed_same t u ts us bs : R t u -> Forall2 R ts us -> ok cor (to_unnamed cf1 d1 t ts bs) (to_unnamed cf2 d2 u us bs).
      Proof.
        intros HR HF. unfold to_unnamed. destruct (items_same _ _ HF bs) as [v w r HC|e e' <-]; cbn [bind fst snd]; constructor; [|reflexivity].
        constructor; [apply HQ, HR|]. constructor. constructor. exact HC.
      Qed.
    End Loops.

    Lemma decode_same fuel : forall cm t u bs, R t u -> ok cor (decode reg1 X cf1 fuel cm t bs) (decode reg2 X cf2 fuel cm u bs).
    Proof.
      induction fuel as [|f IH]; intros cm t u bs HR; cbn [decode]; [constructor; reflexivity|].
      destruct (H t u HR) as [| |x y HT]; [constructor; reflexivity|constructor; reflexivity|].
      destruct HT as [fs gs HF|vs ws HV|t' u' HR'|t' u' n HR'|ts us HT|p|t' u' HR'|s o].
      - rewrite (f2_len _ _ _ HF). destruct (cm && negb (length gs =? 1)%nat); [constructor; reflexivity|].
        destruct (composite_same _ _ (fun t u bs => IH cm t u bs) _ _ bs HF) as [v w r HC|e e' <-]; cbn [bind fst snd]; constructor; [|reflexivity].
        constructor; [apply HQ, HR|constructor; exact HC].
      - destruct cm; [constructor; reflexivity|]. destruct bs as [|i bs]; [constructor; reflexivity|].
        pose proof (f2_find (same_variant R) (fun v => vi_index v =? i) (fun v => vi_index v =? i) vs ws) as HF.
        specialize (HF (fun x y '(conj _ (conj E _)) => f_equal (fun k => k =? i) E) HV).
        destruct (find _ vs) as [v|], (find _ ws) as [w|]; try contradiction; [|constructor; reflexivity]. destruct HF as (E & _ & HF). rewrite E.
        destruct (composite_same _ _ (fun t u bs => IH false t u bs) _ _ bs HF) as [x y r HC|e e' <-]; cbn [bind fst snd]; constructor; [|reflexivity].
        constructor; [apply HQ, HR|constructor; exact HC].
      - destruct cm; [constructor; reflexivity|]. destruct (compact_decode (x_len X) bs) as [[n r]|e]; cbn [bind fst snd]; [|constructor; reflexivity].
        apply unnamed_same; [intros; apply IH; assumption|exact HR|]. apply f2_repeat, HR'.
      - destruct cm; [constructor; reflexivity|]. apply unnamed_same; [intros; apply IH; assumption|exact HR|]. apply f2_repeat, HR'.
      - rewrite (f2_len _ _ _ HT). destruct (cm && negb (length us =? 1)%nat); [constructor; reflexivity|].
        apply unnamed_same; [intros; apply IH; assumption|exact HR|exact HT].
      - destruct (read_prim (x_len X) PU256 cm p bs) as [[v r]|e]; cbn [bind fst snd]; constructor; [|reflexivity]. constructor; [apply HQ, HR|constructor].
      - apply IH, HR'.
      - destruct cm; [constructor; reflexivity|]. destruct (decode_bits (x_maxbits X) s o bs) as [[v r]|e]; cbn [bind fst snd]; constructor; [|reflexivity].
        constructor; [apply HQ, HR|constructor].
    Qed.
    Lemma decode_fields_same fuel fs gs bs : same_fields R fs gs -> ok (same_composite cor) (decode_as_fields reg1 X cf1 fuel fs bs) (decode_as_fields reg2 X cf2 fuel gs bs).
    Proof. intro HF. apply composite_same; [intros; apply decode_same; assumption|exact HF]. Qed.
  End Dec.

  (** ** The tracing decoder *)
  Inductive same_terr {V W} (P : V -> W -> Prop) : terr V -> terr W -> Prop :=
  | STE_decode e : same_terr P (FromDecode e) (FromDecode e)
  | STE_visitor p v w e : P v w -> same_terr P (FromVisitor p v e) (FromVisitor p w e).

  Notation corR := (corresponds R).
  Notation tok P := (same_result P (same_terr P)).

  Lemma outer_same {V W V' W'} (P : V -> W -> Prop) (Q : V' -> W' -> Prop) p d d' f g e e' :
    Q d d' -> (forall v w, P v w -> Q (f v) (g w)) -> same_terr P e e' -> same_terr Q (with_outer p d f e) (with_outer p d' g e').
  Proof. intros Hd Hf [e0|p0 v w e0 HP]; cbn [with_outer]; constructor; auto. Qed.

  Section TLoops.
    Context (d1 : list seg -> A -> bytes -> tres (value A) (value A)) (d2 : list seg -> B -> bytes -> tres (value B) (value B))
            (Hd : forall p t u bs, R t u -> tok corR (d1 p t bs) (d2 p u bs)) (path : list seg).
    Lemma unnamed_loop_same ts us : Forall2 R ts us -> forall i vs ws bs, Forall2 corR vs ws ->
      tok (same_composite corR) (unnamed_loop d1 path i vs ts bs) (unnamed_loop d2 path i ws us bs).
    Proof.
      induction 1 as [|t u ts us HR _ IH]; intros i vs ws bs HV; cbn [unnamed_loop]; [constructor; constructor; exact HV|].
      destruct (Hd (path ++ [SIndex i]) t u bs HR) as [v w r HC|e e' HE].
      - apply IH, f2_app; assumption.
      - constructor. eapply outer_same; [constructor; exact HV| |exact HE]. intros v w HC. constructor. apply f2_app; assumption.
    Qed.
    Lemma named_loop_same fs gs : Forall2 (same_field R) fs gs -> forall vs ws bs, Forall2 (fun x y => fst x = fst y /\ corR (snd x) (snd y)) vs ws ->
      tok (same_composite corR) (named_loop d1 path vs fs bs) (named_loop d2 path ws gs bs).
    Proof.
      induction 1 as [|[n t] [n' u] fs gs [HN HR] _ IH]; intros vs ws bs HV; cbn [named_loop]; [constructor; constructor; exact HV|]. cbn [fst snd] in HN, HR. subst n'.
      set (k := match n with Some n => n | None => s2l "<unnamed>" end).
      destruct (Hd (path ++ [SField k]) t u bs HR) as [v w r HC|e e' HE].
      - apply IH, f2_app; [exact HV|split; [reflexivity|exact HC]].
      - constructor. eapply outer_same; [constructor; exact HV| |exact HE]. intros v w HC. constructor. apply f2_app; [exact HV|split; [reflexivity|exact HC]].
    Qed.
    Lemma to_unnamed_composite_same n ts us bs : Forall2 R ts us ->
      tok (same_composite corR) (to_unnamed_composite d1 path n ts bs) (to_unnamed_composite d2 path n us bs).
    Proof.
      intro HF. unfold to_unnamed_composite. destruct (MAX_CAPACITY <? n); [constructor; constructor|]. apply unnamed_loop_same; [exact HF|constructor].
    Qed.
    Lemma trace_composite_same fs gs bs : Forall2 (same_field R) fs gs ->
      tok (same_composite corR) (trace_composite d1 path fs bs) (trace_composite d2 path gs bs).
    Proof.
      intro HF. unfold trace_composite. rewrite (f2_len _ _ _ HF), (fields_unnamed _ _ HF).
      destruct ((0 <? length gs)%nat && negb (has_unnamed gs)); [apply named_loop_same; [exact HF|constructor]|].
      apply to_unnamed_composite_same, fields_snd, HF.
    Qed.
  End TLoops.
  Lemma wrap_composite_same t u r s : R t u -> tok (same_composite corR) r s -> tok corR (wrap_composite t r) (wrap_composite u s).
  Proof.
    intros HR [c d rest HC|e e' HE]; cbn [wrap_composite]; constructor; [constructor; [exact HR|constructor; exact HC]|].
    destruct HE as [e0|p v w e0 HP]; cbn [map_so_far]; constructor. constructor; [exact HR|constructor; exact HP].
  Qed.

  Lemma trace_same fuel : forall path cm t u bs, R t u -> tok corR (trace reg1 X fuel path cm t bs) (trace reg2 X fuel path cm u bs).
  Proof.
    induction fuel as [|f IH]; intros path cm t u bs HR; cbn [trace]; [constructor; constructor|].
    destruct (H t u HR) as [| |x y HT]; [constructor; constructor|constructor; constructor|].
    destruct HT as [fs gs HF|vs ws HV|t' u' HR'|t' u' n HR'|ts us HT|p|t' u' HR'|s o].
    - rewrite (f2_len _ _ _ HF). destruct (cm && negb (length gs =? 1)%nat); [constructor; constructor|].
      apply wrap_composite_same; [exact HR|]. apply trace_composite_same; [intros; apply IH; assumption|exact HF].
    - destruct cm; [constructor; constructor|]. destruct bs as [|i bs]; [constructor; constructor|].
      pose proof (f2_find (same_variant R) (fun v => vi_index v =? i) (fun v => vi_index v =? i) vs ws) as HF.
      specialize (HF (fun x y '(conj _ (conj E _)) => f_equal (fun k => k =? i) E) HV).
      destruct (find _ vs) as [v|], (find _ ws) as [w|]; try contradiction; [|constructor; constructor]. destruct HF as (E & _ & HF). rewrite E.
      destruct (trace_composite_same (fun p => trace reg1 X f p false) (fun p => trace reg2 X f p false) (fun p t u bs => IH p false t u bs) path _ _ bs HF) as [x y r HC|e e' HE]; constructor.
      + constructor; [exact HR|constructor; exact HC].
      + eapply outer_same; [| |exact HE]; [constructor; [exact HR|constructor; constructor; constructor]|].
        intros c d HC. constructor; [exact HR|constructor; exact HC].
    - destruct cm; [constructor; constructor|]. destruct (compact_decode (x_len X) bs) as [[n r]|e]; [|constructor; constructor].
      apply wrap_composite_same; [exact HR|]. apply to_unnamed_composite_same; [intros; apply IH; assumption|]. apply f2_repeat, HR'.
    - destruct cm; [constructor; constructor|]. apply wrap_composite_same; [exact HR|]. apply to_unnamed_composite_same; [intros; apply IH; assumption|]. apply f2_repeat, HR'.
    - rewrite (f2_len _ _ _ HT). destruct (cm && negb (length us =? 1)%nat); [constructor; constructor|].
      apply wrap_composite_same; [exact HR|]. apply to_unnamed_composite_same; [intros; apply IH; assumption|exact HT].
    - destruct (read_prim (x_len X) PI256 cm p bs) as [[v r]|e]; cbn [bind fst snd lift]; constructor; constructor; [exact HR|constructor].
    - apply IH, HR'.
    - destruct cm; [constructor; constructor|]. destruct (decode_bits (x_maxbits X) s o bs) as [[v r]|e]; cbn [bind fst snd lift]; constructor; constructor; [exact HR|constructor].
  Qed.

  (** ** Encoding *)
  Section Enc.
    Context (F : nat).
    Definition erel (e1 : A -> bytes -> eres) (e2 : B -> bytes -> eres) : Prop := forall t u out, R t u -> e1 t out = e2 u out.
    Definition srel : option str * (@encoder A) -> option str * (@encoder B) -> Prop := fun x y => fst x = fst y /\ erel (snd x) (snd y).

    Definition found (x : option (A * bool)) (y : option (B * bool)) : Prop :=
      match x, y with Some (t, b), Some (u, c) => R t u /\ b = c | None, None => True | _, _ => False end.
    Lemma find_single_same fuel : forall t u b, R t u -> found (find_single reg1 fuel t b) (find_single reg2 fuel u b).
    Proof.
      induction fuel as [|f IH]; intros t u b HR; cbn [find_single]; [exact I|].
      destruct (H t u HR) as [| |x y HT]; [split; [exact HR|reflexivity]|split; [exact HR|reflexivity]|].
      destruct HT as [fs gs HF|vs ws HV|t' u' HR'|t' u' n HR'|ts us HT|p|t' u' HR'|s o]; try (split; [exact HR|reflexivity]).
      - destruct HF as [|x y fs gs [_ HR'] HF]; [split; [exact HR|reflexivity]|]. destruct HF; [apply IH, HR'|split; [exact HR|reflexivity]].
      - destruct (n =? 1); [apply IH, HR'|split; [exact HR|reflexivity]].
      - destruct HT as [|x y fs gs HR' HF]; [split; [exact HR|reflexivity]|]. destruct HF; [apply IH, HR'|split; [exact HR|reflexivity]].
    Qed.
    Lemma skip_through_same fuel : forall t u, R t u ->
      match skip_through reg1 fuel t, skip_through reg2 fuel u with Some x, Some y => R x y | None, None => True | _, _ => False end.
    Proof.
      induction fuel as [|f IH]; intros t u HR; cbn [skip_through]; [exact I|].
      destruct (H t u HR) as [| |x y HT]; [exact HR|exact HR|].
      destruct HT as [fs gs HF|vs ws HV|t' u' HR'|t' u' n HR'|ts us HT|p|t' u' HR'|s o]; try exact HR.
      - destruct HF as [|[n x] [n' y] fs gs [HN HR'] HF]; [exact HR|]. cbn [fst snd] in HN, HR'. subst n'.
        destruct n; [exact HR|]. destruct HF; [apply IH, HR'|exact HR].
      - destruct HT as [|x y fs gs HR' HF]; [exact HR|]. destruct HF; [apply IH, HR'|exact HR].
    Qed.

    Ltac findit t u HR := let K := fresh in pose proof (find_single_same F t u false HR) as K;
      destruct (find_single reg1 F t false) as [[? ?]|], (find_single reg2 F u false) as [[? ?]|]; try contradiction K; [destruct K as [K <-]|reflexivity].

    Lemma number_same z : erel (encode_number reg1 F z) (encode_number reg2 F z).
    Proof.
      intros t u out HR. unfold encode_number. pose proof (find_single_same F t u false HR) as K.
      destruct (find_single reg1 F t false) as [[t1 b]|], (find_single reg2 F u false) as [[u1 b']|]; try contradiction; [|reflexivity]. destruct K as [K _].
      destruct (H t1 u1 K) as [| |x y HT]; [reflexivity|reflexivity|].
      destruct HT as [fs gs HF|vs ws HV|t' u' HR'|t' u' n HR'|ts us HT|p|t' u' HR'|s o]; try reflexivity.
      pose proof (find_single_same F t' u' false HR') as K'.
      destruct (find_single reg1 F t' false) as [[t2 c]|], (find_single reg2 F u' false) as [[u2 c']|]; try contradiction; [|reflexivity]. destruct K' as [K' _].
      destruct (H t2 u2 K') as [| |x y HT]; [reflexivity|reflexivity|]. destruct HT; reflexivity.
    Qed.
    Lemma leaf_same f g : (forall x y, same_type R x y -> f x = g y) -> erel (encode_leaf reg1 F f) (encode_leaf reg2 F g).
    Proof.
      intros HF t u out HR. unfold encode_leaf. pose proof (find_single_same F t u false HR) as K.
      destruct (find_single reg1 F t false) as [[t1 b]|], (find_single reg2 F u false) as [[u1 b']|]; try contradiction; [|reflexivity]. destruct K as [K _].
      destruct (H t1 u1 K) as [| |x y HT]; [reflexivity|reflexivity|]. rewrite (HF x y HT). reflexivity.
    Qed.
    Lemma char_same c : erel (encode_char reg1 X F c) (encode_char reg2 X F c).
    Proof.
      intros t u out HR. unfold encode_char. pose proof (number_same (Z.of_N c) t u out HR) as EN. pose proof (find_single_same F t u false HR) as K.
      destruct (find_single reg1 F t false) as [[t1 b]|], (find_single reg2 F u false) as [[u1 b']|]; try contradiction; [|reflexivity]. destruct K as [K _].
      destruct (H t1 u1 K) as [| |x y HT]; [exact EN|exact EN|]. destruct HT as [| | | | |p| |]; try exact EN. destruct p; try exact EN. reflexivity.
    Qed.
    Lemma all_same es1 es2 : Forall2 erel es1 es2 -> forall t u out, R t u -> encode_all es1 t out = encode_all es2 u out.
    Proof.
      induction 1 as [|e1 e2 es1 es2 HE _ IH]; intros t u out HR; cbn [encode_all]; [reflexivity|]. rewrite (HE t u out HR).
      destruct (e2 u out) as [[|e|] o]; cbn [andthen]; [apply IH, HR|reflexivity|reflexivity].
    Qed.
    Lemma numbers_same (b : bytes) : Forall2 erel (map (fun x => encode_number reg1 F (Z.of_N x)) b) (map (fun x => encode_number reg2 F (Z.of_N x)) b).
    Proof. induction b; cbn [map]; constructor; [apply number_same|assumption]. Qed.
    Lemma byte_array_same b fuel : erel (encode_byte_array reg1 X F fuel b) (encode_byte_array reg2 X F fuel b).
    Proof.
      induction fuel as [|f IH]; intros t u out HR; cbn [encode_byte_array]; [reflexivity|].
      destruct (H t u HR) as [| |x y HT]; [reflexivity|reflexivity|].
      destruct HT as [fs gs HF|vs ws HV|t' u' HR'|t' u' n HR'|ts us HT|p|t' u' HR'|s o]; try reflexivity.
      - destruct HF as [|x y fs gs [_ HR'] HF]; [reflexivity|]. destruct HF; [apply IH, HR'|reflexivity].
      - apply all_same; [apply numbers_same|exact HR'].
      - destruct (N.of_nat (length b) =? n); [|reflexivity]. apply all_same; [apply numbers_same|exact HR'].
      - destruct HT as [|x y fs gs HR' HF]; [reflexivity|]. destruct HF; [apply IH, HR'|reflexivity].
    Qed.
    Lemma primitive_same p : erel (encode_primitive reg1 X F p) (encode_primitive reg2 X F p).
    Proof.
      destruct p; cbn [encode_primitive].
      - apply leaf_same. intros x y HT. destruct HT; reflexivity.
      - apply char_same.
      - apply leaf_same. intros x y HT. destruct HT; reflexivity.
      - apply number_same.
      - apply number_same.
      - apply byte_array_same.
      - apply byte_array_same.
    Qed.

    Lemma lookup_same n src1 src2 : Forall2 srel src1 src2 ->
      match lookup_last n src1, lookup_last n src2 with Some x, Some y => erel x y | None, None => True | _, _ => False end.
    Proof.
      induction 1 as [|x y s1 s2 [HN HE] _ IH]; cbn [lookup_last]; [exact I|].
      destruct (lookup_last n s1), (lookup_last n s2); try contradiction; [exact IH|]. unfold key_of. destruct x as [nx ex], y as [ny ey]. cbn [fst snd] in *. subst ny. destruct (str_eqb _ n); [exact HE|exact I].
    Qed.
    Lemma by_name_same src1 src2 : Forall2 srel src1 src2 -> forall fs gs, Forall2 (same_field R) fs gs -> forall out,
      encode_by_name src1 fs out = encode_by_name src2 gs out.
    Proof.
      intro HS. induction 1 as [|f g fs gs [HN HR] _ IH]; intro out; cbn [encode_by_name]; [reflexivity|].
      replace (key_of f) with (key_of g) by (unfold key_of; rewrite HN; reflexivity). pose proof (lookup_same (key_of g) _ _ HS) as L.
      destruct (lookup_last (key_of g) src1) as [e1|], (lookup_last (key_of g) src2) as [e2|]; try contradiction; [|reflexivity].
      rewrite (L _ _ out HR). destruct (e2 (snd g) out) as [[|e|] o]; cbn [andthen]; [apply IH|reflexivity|reflexivity].
    Qed.
    Lemma in_order_same es1 es2 : Forall2 erel es1 es2 -> forall ts us, Forall2 R ts us -> forall out, encode_in_order es1 ts out = encode_in_order es2 us out.
    Proof.
      induction 1 as [|e1 e2 es1 es2 HE _ IH]; intros ts us HT out; [reflexivity|]. destruct HT as [|t u ts us HR HT]; cbn [encode_in_order]; [reflexivity|].
      rewrite (HE t u out HR). destruct (e2 u out) as [[|e|] o]; cbn [andthen]; [apply IH, HT|reflexivity|reflexivity].
    Qed.
    Lemma fields_same src1 src2 fs gs out : Forall2 srel src1 src2 -> Forall2 (same_field R) fs gs -> encode_fields src1 fs out = encode_fields src2 gs out.
    Proof.
      intros HS HF. unfold encode_fields. rewrite (f2_len _ _ _ HS), (f2_len _ _ _ HF).
      replace (existsb named_field fs) with (existsb named_field gs) by (symmetry; eapply f2_existsb; [|exact HF]; intros x y [E _]; unfold named_field; rewrite E; reflexivity).
      replace (existsb named_field src1) with (existsb named_field src2) by (symmetry; eapply f2_existsb; [|exact HS]; intros x y [E _]; unfold named_field; rewrite E; reflexivity).
      destruct (existsb named_field gs && existsb named_field src2); [apply by_name_same; assumption|].
      destruct (length gs =? length src2)%nat; [|reflexivity]. apply in_order_same; [|apply fields_snd, HF].
      eapply f2_map; [|exact HS]. intros x y [_ E]. exact E.
    Qed.
    Lemma single_same {K} src1 src2 (k1 : (@encoder A) -> K) (k2 : (@encoder B) -> K) d1 d2 : Forall2 srel src1 src2 ->
      (forall e1 e2, erel e1 e2 -> k1 e1 = k2 e2) -> d1 = d2 ->
      match src1 with [(_, e)] => k1 e | _ => d1 end = match src2 with [(_, e)] => k2 e | _ => d2 end.
    Proof. intros [|[n e1] [n' e2] s1 s2 [_ HE] HS] Hk Hd; [exact Hd|]. destruct HS; [apply Hk, HE|exact Hd]. Qed.
    Lemma single_unnamed_same {K} src1 src2 (k1 : (@encoder A) -> K) (k2 : (@encoder B) -> K) d1 d2 : Forall2 srel src1 src2 ->
      (forall e1 e2, erel e1 e2 -> k1 e1 = k2 e2) -> d1 = d2 ->
      match src1 with [(None, e)] => k1 e | _ => d1 end = match src2 with [(None, e)] => k2 e | _ => d2 end.
    Proof.
      intros [|[n e1] [n' e2] s1 s2 [HN HE] HS] Hk Hd; [exact Hd|]. cbn [fst snd] in HN, HE. subst n'. destruct n; [exact Hd|]. destruct HS; [apply Hk, HE|exact Hd].
    Qed.
    Lemma struct_same src1 src2 : Forall2 srel src1 src2 -> erel (encode_struct reg1 F src1) (encode_struct reg2 F src2).
    Proof.
      intros HS t u out HR. unfold encode_struct. pose proof (skip_through_same F t u HR) as K.
      destruct (skip_through reg1 F t) as [t1|], (skip_through reg2 F u) as [u1|]; try contradiction; [|reflexivity].
      assert (single : forall d1 d2 : eres, d1 = d2 -> match src1 with [(_, e)] => e t1 out | _ => d1 end = match src2 with [(_, e)] => e u1 out | _ => d2 end).
      { intros d1 d2. apply (single_same src1 src2 (fun e => e t1 out) (fun e => e u1 out) d1 d2 HS). intros e1 e2 HE. apply HE, K. }
      destruct (H t1 u1 K) as [| |x y HT]; [reflexivity|apply single; reflexivity|].
      destruct HT as [fs gs HF|vs ws HV|t' u' HR'|t' u' n HR'|ts us HT|p|t' u' HR'|s o]; try (apply single; reflexivity).
      - apply (single_unnamed_same src1 src2 (fun e => e t1 out) (fun e => e u1 out) _ _ HS); [intros e1 e2 HE; apply HE, K|]. apply fields_same; assumption.
      - apply single, fields_same; [exact HS|]. eapply f2_map; [|exact HT]. intros x y HR'. split; [reflexivity|exact HR'].
    Qed.

    Section Values.
      Context {T : Type}.
      Notation item1 := (value T * (@encoder A))%type.
      Notation item2 := (value T * (@encoder B))%type.
      Definition irel (x : item1) (y : item2) : Prop := fst x = fst y /\ erel (snd x) (snd y).

      Lemma values_same c1 c2 : same_composite irel c1 c2 -> Forall2 irel (values c1) (values c2).
      Proof. intros [l m HF|l m HF]; cbn [values]; [|exact HF]. eapply f2_map; [|exact HF]. intros x y [_ E]. exact E. Qed.
      Lemma source_same c1 c2 : same_composite irel c1 c2 -> Forall2 srel (source_fields (composite_map snd c1)) (source_fields (composite_map snd c2)).
      Proof.
        intros [l m HF|l m HF]; cbn [composite_map source_fields]; rewrite !map_map; (eapply f2_map; [|exact HF]); cbn [fst snd].
        - intros x y [E [_ HE]]. split; [cbn [fst]; rewrite E; reflexivity|exact HE].
        - intros x y [_ HE]. split; [reflexivity|exact HE].
      Qed.
      Lemma do_encode_same c1 c2 : same_composite irel c1 c2 -> erel (do_encode reg1 F c1) (do_encode reg2 F c2).
      Proof.
        intros HC t u out HR. pose proof (values_same _ _ HC) as HV. pose proof (source_same _ _ HC) as HS. unfold do_encode.
        rewrite <- !values_len, (f2_len _ _ _ HV).
        assert (single : match values c1 with [x] => snd x t out | _ => (SErr XWrongShape, out) end = match values c2 with [x] => snd x u out | _ => (SErr XWrongShape, out) end).
        { destruct HV as [|x y l m [_ HE] HF]; [reflexivity|]. destruct HF; [apply HE, HR|reflexivity]. }
        assert (all : forall t' u' o, R t' u' -> encode_all (map snd (values c1)) t' o = encode_all (map snd (values c2)) u' o).
        { apply all_same. eapply f2_map; [|exact HV]. intros x y [_ E]. exact E. }
        destruct (H t u HR) as [| |x y HT]; [reflexivity|exact single|].
        destruct HT as [fs gs HF|vs ws HVs|t' u' HR'|t' u' n HR'|ts us HT|p|t' u' HR'|s o]; try exact single.
        - apply struct_same; assumption.
        - apply all, HR'.
        - destruct (N.of_nat _ =? n); [apply all, HR'|reflexivity].
        - apply struct_same; assumption.
        - replace (map fst (values c2)) with (map fst (values c1)); [reflexivity|].
          clear - HV. induction HV as [|x y l m [E _] _ IH]; cbn [map]; [reflexivity|]. rewrite E, IH. reflexivity.
      Qed.
      Lemma encode_composite_same c1 c2 : same_composite irel c1 c2 -> erel (encode_composite reg1 F c1) (encode_composite reg2 F c2).
      Proof.
        intros HC t u out HR. unfold encode_composite. rewrite (do_encode_same _ _ HC t u [] HR). destruct (do_encode reg2 F c2 u []) as [[|e|] tmp]; try reflexivity.
        pose proof (find_single_same F t u false HR) as K.
        destruct (find_single reg1 F t false) as [[t1 b]|], (find_single reg2 F u false) as [[u1 b']|]; try contradiction; [|reflexivity]. destruct K as [K <-].
        rewrite (do_encode_same _ _ HC t1 u1 [] K). destruct (if b then _ else _) as [[|e'|] tmp']; try reflexivity.
        destruct (values_same _ _ HC) as [|x y l m [_ HE] HF]; [reflexivity|]. destruct HF; [|reflexivity]. rewrite (HE t1 u1 [] K). reflexivity.
      Qed.
      Lemma encode_variant_same n c1 c2 : same_composite irel c1 c2 -> erel (encode_variant reg1 F n c1) (encode_variant reg2 F n c2).
      Proof.
        intros HC t u out HR. unfold encode_variant. pose proof (skip_through_same F t u HR) as K.
        destruct (skip_through reg1 F t) as [t1|], (skip_through reg2 F u) as [u1|]; try contradiction; [|reflexivity].
        destruct (H t1 u1 K) as [| |x y HT]; [reflexivity|reflexivity|].
        destruct HT as [fs gs HF|vs ws HV|t' u' HR'|t' u' k HR'|ts us HT|p|t' u' HR'|s o]; try reflexivity.
        pose proof (f2_find (same_variant R) (fun v => str_eqb (vi_name v) n) (fun v => str_eqb (vi_name v) n) vs ws) as HF.
        specialize (HF (fun x y '(conj E _) => f_equal (fun k => str_eqb k n) E) HV).
        destruct (find _ vs) as [v|], (find _ ws) as [w|]; try contradiction; [|reflexivity]. destruct HF as (_ & E & HF). rewrite E.
        apply fields_same; [apply source_same, HC|exact HF].
      Qed.
      Lemma items_irel (c : composite (value T)) (f1 : value T -> @encoder A) (f2 : value T -> @encoder B) :
        (forall v, In v (values c) -> erel (f1 v) (f2 v)) -> same_composite irel (composite_map (fun x => (x, f1 x)) c) (composite_map (fun x => (x, f2 x)) c).
      Proof.
        destruct c as [l|l]; cbn [composite_map values]; intro HE; constructor; induction l as [|x l IH]; cbn [map]; constructor.
        - cbn [fst snd]. split; [reflexivity|split; [reflexivity|]]. cbn [snd]. apply HE. left. reflexivity.
        - apply IH. intros v Hv. apply HE. right. exact Hv.
        - split; [reflexivity|]. cbn [snd]. apply HE. left. reflexivity.
        - apply IH. intros v Hv. apply HE. right. exact Hv.
      Qed.
      Lemma encode_same (v : value T) : erel (encode reg1 X F v) (encode reg2 X F v).
      Proof.
        induction v as [d ctx IH] using value_ind'. destruct d as [c|n c|b|p]; cbn [children] in IH; cbn [encode]; rewrite Forall_forall in IH.
        - apply encode_composite_same, items_irel, IH.
        - apply encode_variant_same, items_irel, IH.
        - apply leaf_same. intros x y HT. destruct HT; reflexivity.
        - apply primitive_same.
      Qed.
      Lemma encode_composite_as_fields_same (c : composite (value T)) fs gs out : same_fields R fs gs ->
        encode_composite_as_fields reg1 X F c fs out = encode_composite_as_fields reg2 X F c gs out.
      Proof.
        intro HF. unfold encode_composite_as_fields. apply fields_same; [|exact HF].
        destruct c as [l|l]; cbn [composite_map source_fields]; rewrite map_map; induction l as [|x l IH]; cbn [map]; constructor; try exact IH; split; try reflexivity; apply encode_same.
      Qed.
      Lemma encode_as_fields_same (v : value T) fs gs out : same_fields R fs gs -> encode_as_fields reg1 X F v fs out = encode_as_fields reg2 X F v gs out.
      Proof. intro HF. unfold encode_as_fields. destruct (vdef_of v); try reflexivity. apply encode_composite_as_fields_same, HF. Qed.
    End Values.
  End Enc.
End Facts.
