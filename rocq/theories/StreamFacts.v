(** * StreamFacts: decoding cut input, and reading back many values (C101). *)
From Verif Require Import Base Value ValueFacts Chars Parse Spec_Grammar ParseFacts Fmt FmtFacts FmtText Registry Spec_Scale Spec_Encode Spec_Same Scale ScaleFacts BitsFacts LenFacts.
From Verif Require Import Decode DecodeFacts Spec_Trace Trace TraceFacts Encode EncodeFacts EncodeSame Spec_Streams.
Open Scope N_scope.

(** ** More input *)
Section More.
  Context (q : bytes).
  (** [r1] on the shorter input, [r2] with [q] behind it. *)
  Definition more {A} (r1 r2 : dres A) : Prop :=
    r1 = Err ENotEnough \/ r1 = Err ECodec \/ (exists x r, r1 = Ok (x, r) /\ r2 = Ok (x, r ++ q)) \/ (exists e, r1 = Err e /\ r2 = Err e).
  Lemma more_err {A} e : @more A (Err e) (Err e). Proof. right. right. right. eauto. Qed.
  Lemma more_ok {A} (x : A) r : more (Ok (x, r)) (Ok (x, r ++ q)). Proof. right. right. left. eauto. Qed.
  Lemma more_bind {A B} (r1 r2 : dres A) (k : A * bytes -> dres B) : more r1 r2 -> (forall x r, more (k (x, r)) (k (x, r ++ q))) -> more (bind r1 k) (bind r2 k).
  Proof.
    intros [-> |[-> |[(x & r & -> & ->)|(e & -> & ->)]]] H; cbn [bind].
    - left. reflexivity.
    - right. left. reflexivity.
    - apply H.
    - apply more_err.
  Qed.
  Lemma take_more k bs : more (take k bs) (take k (bs ++ q)).
  Proof.
    unfold take. destruct (Nat.ltb_spec (length bs) k) as [L|L]; [left; reflexivity|].
    destruct (Nat.ltb_spec (length (bs ++ q)) k) as [L'|L']; [rewrite app_length in L'; lia|].
    rewrite firstn_app, skipn_app. replace (k - length bs)%nat with O by lia. cbn [firstn skipn]. rewrite app_nil_r. apply more_ok.
  Qed.
  Lemma compact_more w bs : more (compact_decode w bs) (compact_decode w (bs ++ q)).
  Proof.
    destruct bs as [|p bs]; [right; left; reflexivity|]. change ((p :: bs) ++ q) with (p :: (bs ++ q)). cbn [compact_decode]. cbv zeta.
    assert (CHK : forall (b : bool) (n : N) r, more (if b then Ok (n, r) else Err ECodec) (if b then Ok (n, r ++ q) else Err ECodec)) by (intros [|] n r; [apply more_ok|apply more_err]).
    destruct (p mod 4 =? 0); [apply CHK|].
    change (p :: bs ++ q) with ((p :: bs) ++ q).
    destruct (p mod 4 =? 1); [apply more_bind; [apply take_more|intros; apply CHK]|].
    destruct (p mod 4 =? 2); [apply more_bind; [apply take_more|intros; apply CHK]|].
    apply more_bind; [apply take_more|intros; apply CHK].
  Qed.
  Lemma bits_more mb st o bs : more (decode_bits mb st o bs) (decode_bits mb st o (bs ++ q)).
  Proof.
    unfold decode_bits. apply more_bind; [apply compact_more|]. intros n r. cbn [fst snd]. cbv zeta.
    destruct (mb <? n); [apply more_err|]. apply more_bind; [apply take_more|]. intros y r'. apply more_ok.
  Qed.
  Lemma prim_more lb tag c p bs : more (read_prim lb tag c p bs) (read_prim lb tag c p (bs ++ q)).
  Proof.
    destruct p as [| | |w|w| |]; destruct c; cbn [read_prim]; try apply more_err;
      try (apply more_bind; [first [apply take_more|apply compact_more]|]; intros x r; cbn [fst snd]; cbv zeta).
    all: try apply more_ok.
    - destruct bs as [|b r]; [right; left; reflexivity|]. cbn [app]. destruct (b =? 0); [apply more_ok|]. destruct (b =? 1); [apply more_ok|apply more_err].
    - destruct (is_scalar _); [apply more_ok|apply more_err].
    - apply more_bind; [apply take_more|]. intros y r'. cbn [fst snd]. destruct (utf8_decode y); [apply more_ok|apply more_err].
  Qed.
End More.

Section MoreDecode.
  Context {TId C : Type} (reg : TId -> resolution TId) (X : ext) (ctxf : TId -> C) (q : bytes).
  Lemma items_more (d : TId -> bytes -> dres (value C)) : (forall t bs, more q (d t bs) (d t (bs ++ q))) ->
    forall ts bs, more q (decode_items d ts bs) (decode_items d ts (bs ++ q)).
  Proof.
    intro H. induction ts as [|t ts IH]; intro bs; cbn [decode_items]; [apply more_ok|].
    apply more_bind; [apply H|]. intros x r. cbn [fst snd]. apply more_bind; [apply IH|]. intros y r'. apply more_ok.
  Qed.
  Lemma named_more (d : TId -> bytes -> dres (value C)) : (forall t bs, more q (d t bs) (d t (bs ++ q))) ->
    forall fs bs, more q (decode_named d fs bs) (decode_named d fs (bs ++ q)).
  Proof.
    intro H. induction fs as [|[n t] fs IH]; intro bs; cbn [decode_named]; [apply more_ok|].
    apply more_bind; [apply H|]. intros x r. cbn [fst snd]. apply more_bind; [apply IH|]. intros y r'. apply more_ok.
  Qed.
  Lemma composite_more (d : TId -> bytes -> dres (value C)) : (forall t bs, more q (d t bs) (d t (bs ++ q))) ->
    forall fs bs, more q (visit_composite d fs bs) (visit_composite d fs (bs ++ q)).
  Proof.
    intros H fs bs. unfold visit_composite. destruct (_ && _).
    - apply more_bind; [apply named_more, H|]. intros. apply more_ok.
    - apply more_bind; [apply items_more, H|]. intros. apply more_ok.
  Qed.
  Lemma unnamed_more (d : TId -> bytes -> dres (value C)) : (forall t bs, more q (d t bs) (d t (bs ++ q))) ->
    forall t ts bs, more q (to_unnamed ctxf d t ts bs) (to_unnamed ctxf d t ts (bs ++ q)).
  Proof. intros H t ts bs. unfold to_unnamed. apply more_bind; [apply items_more, H|]. intros. apply more_ok. Qed.

  Theorem decode_more : forall fuel c t bs, more q (decode reg X ctxf fuel c t bs) (decode reg X ctxf fuel c t (bs ++ q)).
  Proof.
    induction fuel as [|f IH]; intros c t bs; [apply more_err|]. cbn [decode].
    destruct (reg t) as [| |[fs|vs|t'|t' n|ts|p|t'|st o]]; try apply more_err.
    - destruct (c && _); [apply more_err|]. apply more_bind; [apply composite_more, IH|]. intros. apply more_ok.
    - destruct c; [apply more_err|]. destruct bs as [|i bs]; [left; reflexivity|]. cbn [app].
      destruct (find _ vs); [|apply more_err]. apply more_bind; [apply composite_more, IH|]. intros. apply more_ok.
    - destruct c; [apply more_err|]. apply more_bind; [apply compact_more|]. intros n r. cbn [fst snd]. apply unnamed_more, IH.
    - destruct c; [apply more_err|]. apply unnamed_more, IH.
    - destruct (c && _); [apply more_err|]. apply unnamed_more, IH.
    - apply more_bind; [apply prim_more|]. intros. apply more_ok.
    - apply IH.
    - destruct c; [apply more_err|]. apply more_bind; [apply bits_more|]. intros. apply more_ok.
  Qed.
End MoreDecode.

(** The same for the tracing decoder; an error that more input does not change keeps its place and its decoded part too. *)
Section MoreTrace.
  Context {TId : Type} (reg : TId -> resolution TId) (X : ext) (q : bytes).
  Definition tmore {A V} (r1 r2 : tres A V) : Prop :=
    (exists e, r1 = Err e /\ (cause_of e = CDecode ENotEnough \/ cause_of e = CDecode ECodec)) \/
    (exists x r, r1 = Ok (x, r) /\ r2 = Ok (x, r ++ q)) \/ (exists e, r1 = Err e /\ r2 = Err e).
  Lemma tmore_err {A V} e : @tmore A V (Err e) (Err e). Proof. right. right. eauto. Qed.
  Lemma tmore_ok {A V} (x : A) r : @tmore A V (Ok (x, r)) (Ok (x, r ++ q)). Proof. right. left. eauto. Qed.
  Lemma lift_more {A V} (r1 r2 : dres A) : more q r1 r2 -> @tmore A V (lift r1) (lift r2).
  Proof.
    intros [-> |[-> |[(x & r & -> & ->)|(e & -> & ->)]]]; cbn [lift].
    - left. eexists. split; [reflexivity|left; reflexivity].
    - left. eexists. split; [reflexivity|right; reflexivity].
    - apply tmore_ok.
    - apply tmore_err.
  Qed.
  (** A continuation for each outcome that keeps the cause of errors. *)
  Lemma tmore_bind {A V B W} (r1 r2 : tres A V) (k : A * bytes -> tres B W) (h : terr V -> terr W) : (forall e, cause_of (h e) = cause_of e) ->
    tmore r1 r2 -> (forall x r, tmore (k (x, r)) (k (x, r ++ q))) ->
    tmore (match r1 with Ok x => k x | Err e => Err (h e) end) (match r2 with Ok x => k x | Err e => Err (h e) end).
  Proof.
    intros HC [(e & -> & H)|[(x & r & -> & ->)|(e & -> & ->)]] HK.
    - left. exists (h e). split; [reflexivity|]. rewrite HC. exact H.
    - apply HK.
    - apply tmore_err.
  Qed.

  Section Loops.
    Context (item : list seg -> TId -> bytes -> tres (value TId) (value TId)) (path : list seg).
    Context (HI : forall p t bs, tmore (item p t bs) (item p t (bs ++ q))).
    Lemma unnamed_loop_more : forall ts i vals bs, tmore (unnamed_loop item path i vals ts bs) (unnamed_loop item path i vals ts (bs ++ q)).
    Proof.
      induction ts as [|t ts IH]; intros i vals bs; cbn [unnamed_loop]; [apply tmore_ok|].
      apply (tmore_bind _ _ (fun '(v, bs') => unnamed_loop item path (S i) (vals ++ [v]) ts bs') _ (cause_outer _ _ _)); [apply HI|]. intros x r. apply IH.
    Qed.
    Lemma unnamed_comp_more n ts bs : tmore (to_unnamed_composite item path n ts bs) (to_unnamed_composite item path n ts (bs ++ q)).
    Proof. unfold to_unnamed_composite. destruct (_ <? n); [apply tmore_err|apply unnamed_loop_more]. Qed.
    Lemma named_loop_more : forall fs vals bs, tmore (named_loop item path vals fs bs) (named_loop item path vals fs (bs ++ q)).
    Proof.
      induction fs as [|[n t] fs IH]; intros vals bs; cbn [named_loop]; [apply tmore_ok|]. cbv zeta.
      apply (tmore_bind _ _ (fun '(v, bs') => named_loop item path (vals ++ [(match n with Some n => n | None => s2l "<unnamed>" end, v)]) fs bs') _ (cause_outer _ _ _)); [apply HI|]. intros x r. apply IH.
    Qed.
    Lemma trace_composite_more fs bs : tmore (trace_composite item path fs bs) (trace_composite item path fs (bs ++ q)).
    Proof. unfold trace_composite. destruct (_ && _); [apply named_loop_more|apply unnamed_comp_more]. Qed.
  End Loops.
  Lemma wrap_more t r1 r2 : tmore r1 r2 -> tmore (@wrap_composite TId t r1) (wrap_composite t r2).
  Proof.
    intro H. unfold wrap_composite. apply (tmore_bind _ _ (fun '(c, bs) => Ok (Val (DComposite c) t, bs)) _ (cause_map _)); [exact H|]. intros x r. apply tmore_ok.
  Qed.

  Theorem trace_more : forall fuel path c t bs, tmore (trace reg X fuel path c t bs) (trace reg X fuel path c t (bs ++ q)).
  Proof.
    induction fuel as [|f IH]; intros path c t bs; [apply tmore_err|]. cbn [trace].
    destruct (reg t) as [| |[fs|vs|t'|t' n|ts|p|t'|st o]]; try apply tmore_err.
    - destruct (c && _); [apply tmore_err|]. apply wrap_more, trace_composite_more. intros. apply IH.
    - destruct c; [apply tmore_err|]. destruct bs as [|i bs]; [left; eexists; split; [reflexivity|left; reflexivity]|]. cbn [app].
      destruct (find _ vs) as [v|]; [|apply tmore_err].
      apply (tmore_bind _ _ (fun '(c, r) => Ok (Val (DVariant (vi_name v) c) t, r)) _ (cause_outer _ _ _)); [apply trace_composite_more; intros; apply IH|].
      intros x r. apply tmore_ok.
    - destruct c; [apply tmore_err|]. destruct (compact_more q (x_len X) bs) as [-> |[-> |[(x & r & -> & ->)|(e & -> & ->)]]].
      + left. eexists. split; [reflexivity|left; reflexivity].
      + left. eexists. split; [reflexivity|right; reflexivity].
      + apply wrap_more, unnamed_comp_more. intros. apply IH.
      + apply tmore_err.
    - destruct c; [apply tmore_err|]. apply wrap_more, unnamed_comp_more. intros. apply IH.
    - destruct (c && _); [apply tmore_err|]. apply wrap_more, unnamed_comp_more. intros. apply IH.
    - apply lift_more, more_bind; [apply prim_more|]. intros. apply more_ok.
    - apply IH.
    - destruct c; [apply tmore_err|]. apply lift_more, more_bind; [apply bits_more|]. intros. apply more_ok.
  Qed.
End MoreTrace.

(** ** Values one behind the other *)
Lemma kept_nil {A} oks : kept (@nil A) oks = []. Proof. reflexivity. Qed.

Section Log.
  Context {TId T : Type} (reg : TId -> resolution TId) (X : ext) (F : nat).
  (** Encoding job [j] alone gives the bytes [b]. *)
  Definition gives (j : value T * TId) (b : bytes) : Prop := forall out, encode reg X F (fst j) (snd j) out = (SOk, out ++ b).
  Definition succeeds (j : value T * TId) : bool := match encode reg X F (fst j) (snd j) [] with (SOk, _) => true | _ => false end.

  Lemma write_pieces : forall (jobs : list (value T * TId)) out oks out', write_all reg X F jobs out = (oks, out') ->
    oks = map succeeds jobs /\ exists bs, out' = out ++ concat bs /\ Forall2 gives (kept jobs oks) bs.
  Proof.
    induction jobs as [|[v t] js IH]; intros out oks out' H; cbn [write_all] in H.
    - injection H as <- <-. split; [reflexivity|]. exists []. cbn [concat]. rewrite app_nil_r. split; [reflexivity|constructor].
    - destruct (encode_app reg X F v t) as (s & b & E). rewrite E in H. cbn [map]. unfold succeeds at 1. cbn [fst snd]. rewrite E. cbn [app].
      assert (HF : s <> SOk -> match s with SOk => False | _ => True end) by (destruct s; [congruence|trivial|trivial]).
      destruct s as [|e|].
      + destruct (write_all reg X F js (out ++ b)) as [o1 o2] eqn:W. injection H as <- <-. apply IH in W as (-> & bs & -> & F2). split; [reflexivity|].
        exists (b :: bs). cbn [concat]. rewrite app_assoc. split; [reflexivity|]. unfold kept. cbn [combine filter snd map fst]. constructor; [intro; apply E|exact F2].
      + rewrite firstn_app, Nat.sub_diag, firstn_all in H. cbn [firstn] in H. rewrite app_nil_r in H.
        destruct (write_all reg X F js out) as [o1 o2] eqn:W. injection H as <- <-. apply IH in W as (-> & bs & -> & F2). split; [reflexivity|].
        exists bs. split; [reflexivity|]. unfold kept. cbn [combine filter snd]. exact F2.
      + rewrite firstn_app, Nat.sub_diag, firstn_all in H. cbn [firstn] in H. rewrite app_nil_r in H.
        destruct (write_all reg X F js out) as [o1 o2] eqn:W. injection H as <- <-. apply IH in W as (-> & bs & -> & F2). split; [reflexivity|].
        exists bs. split; [reflexivity|]. unfold kept. cbn [combine filter snd]. exact F2.
  Qed.

  Lemma write_good : forall (jobs : list (value T * TId)) bs, Forall2 gives jobs bs -> forall out, snd (write_all reg X F jobs out) = out ++ concat bs.
  Proof.
    induction 1 as [|[v t] b js bs G _ IH]; intro out; cbn [write_all concat]; [rewrite app_nil_r; reflexivity|].
    pose proof (G out) as G'. cbn [fst snd] in G'. rewrite G'. specialize (IH (out ++ b)). destruct (write_all reg X F js (out ++ b)) as [o1 o2]. cbn [snd] in *. rewrite IH, app_assoc. reflexivity.
  Qed.
End Log.

Section Read.
  Context {TId C : Type} (reg : TId -> resolution TId) (X : ext) (ctxf : TId -> C).
  Local Notation ENC := (enc reg (x_maxbits X) (x_len X) ctxf PU256 true false).
  (** The pieces of a stream: type, value and bytes. *)
  Definition piece : Type := TId * value C * bytes.
  Definition valid (p : piece) : Prop := ENC (fst (fst p)) (snd (fst p)) (snd p).
  Definition p_ty (p : piece) := fst (fst p).
  Definition p_val (p : piece) := snd (fst p).
  Definition short (e : derr) : Prop := e = ENotEnough \/ e = ECodec.

  (** How many of the pieces lie wholly in the first [n] bytes. *)
  Fixpoint fit (n : nat) (bs : list bytes) : nat :=
    match bs with [] => O | b :: bs' => if (length b <=? n)%nat then S (fit (n - length b) bs') else O end.
  Lemma fit_le bs : forall n, (fit n bs <= length bs)%nat.
  Proof. induction bs as [|b bs IH]; intro n; cbn [fit length]; [lia|]. destruct (_ <=? n)%nat; [specialize (IH (n - length b)%nat)|]; lia. Qed.
  Lemma fit_in bs : forall n, (length (concat (firstn (fit n bs) bs)) <= n)%nat.
  Proof.
    induction bs as [|b bs IH]; intro n; cbn [fit]; [cbn; lia|]. destruct (Nat.leb_spec (length b) n) as [L|L]; [|cbn; lia].
    cbn [firstn concat]. rewrite app_length. specialize (IH (n - length b)%nat). lia.
  Qed.
  Lemma fit_max bs : forall n k, (fit n bs < k <= length bs)%nat -> (n < length (concat (firstn k bs)))%nat.
  Proof.
    induction bs as [|b bs IH]; intros n k H; cbn [fit length] in H; [lia|]. destruct k as [|k]; [lia|]. cbn [firstn concat]. rewrite app_length.
    destruct (Nat.leb_spec (length b) n) as [L|L]; [|lia]. specialize (IH (n - length b)%nat k). lia.
  Qed.

  Lemma cut_fails t v b : ENC t v b -> exists f0, forall fuel, (f0 <= fuel)%nat -> forall p q, b = p ++ q -> q <> [] ->
    exists e, decode_as_type reg X ctxf fuel t p = Err e /\ short e.
  Proof.
    intro E. apply (decode_complete reg X ctxf true) in E as [f0 H]. exists f0. intros fuel Hf p q -> Hq. specialize (H fuel Hf []). rewrite app_nil_r in H.
    unfold decode_as_type. destruct (decode_more reg X ctxf q fuel false t p) as [D|[D|[(x & r & D & D')|(e & D & D')]]].
    - exists ENotEnough. split; [exact D|left; reflexivity].
    - exists ECodec. split; [exact D|right; reflexivity].
    - rewrite D' in H. injection H as _ H. apply app_eq_nil in H as [_ H]. contradiction.
    - rewrite D' in H. discriminate.
  Qed.

  Theorem read_cut (ps : list piece) : Forall valid ps -> exists f0, forall fuel, (f0 <= fuel)%nat -> forall n,
    let k := fit n (map snd ps) in
    exists e, read_all reg X ctxf fuel (map p_ty ps) (firstn n (concat (map snd ps))) =
                (firstn k (map p_val ps), skipn (length (concat (firstn k (map snd ps)))) (firstn n (concat (map snd ps))), e) /\
              match e with None => k = length ps | Some e => (k < length ps)%nat /\ short e end.
  Proof.
    induction 1 as [|[[t v] b] ps V _ [f0 IH]].
    - exists O. intros fuel _ n. cbn. exists None. rewrite firstn_nil. split; reflexivity.
    - unfold valid in V. cbn [fst snd] in V. destruct (cut_fails t v b V) as [f1 HC]. apply (decode_complete reg X ctxf true) in V as [f2 HD].
      exists (Nat.max f0 (Nat.max f1 f2)). intros fuel Hf n. cbn [map fit p_ty p_val fst snd concat read_all]. cbv zeta.
      destruct (Nat.leb_spec (length b) n) as [L|L].
      + rewrite firstn_app, (firstn_all2 b) by lia. unfold decode_as_type. rewrite HD by lia. destruct (IH fuel ltac:(lia) (n - length b)%nat) as (e & R & HE).
        rewrite R. exists e. cbn [firstn concat]. rewrite app_length, skipn_app, (skipn_all2 b) by lia. cbn [app].
        match goal with |- context [skipn (length b + ?m - length b)] => replace (length b + m - length b)%nat with m by lia end. split; [reflexivity|].
        destruct e; cbn [length]; [destruct HE; split; [lia|assumption]|congruence].
      + rewrite firstn_app. replace (n - length b)%nat with O by lia. cbn [firstn concat length skipn]. rewrite app_nil_r.
        destruct (HC fuel ltac:(lia) (firstn n b) (skipn n b)) as (e & R & HS); [symmetry; apply firstn_skipn| |].
        { intro E. apply (f_equal (@length _)) in E. rewrite skipn_length in E. cbn in E. lia. }
        rewrite R. exists (Some e). split; [reflexivity|]. split; [lia|exact HS].
  Qed.

  Theorem read_whole (ps : list piece) : Forall valid ps -> exists f0, forall fuel, (f0 <= fuel)%nat -> forall behind,
    read_all reg X ctxf fuel (map p_ty ps) (concat (map snd ps) ++ behind) = (map p_val ps, behind, None).
  Proof.
    induction 1 as [|[[t v] b] ps V _ [f0 IH]].
    - exists O. intros fuel _ behind. reflexivity.
    - unfold valid in V. cbn [fst snd] in V. apply (decode_complete reg X ctxf true) in V as [f2 HD].
      exists (Nat.max f0 f2). intros fuel Hf behind. cbn [map concat read_all p_ty p_val fst snd]. unfold decode_as_type. rewrite <- app_assoc, HD by lia.
      rewrite IH by lia. reflexivity.
  Qed.
End Read.

Section Join.
  Context {TId T C : Type} (reg : TId -> resolution TId) (X : ext) (F : nat) (ctxf : TId -> C).
  Context (OK : reg_ok reg) (NU : names_uniform reg).
  Lemma pieces_of (jobs : list (value T * TId)) bs : Forall (fun j => small (x_maxbits X) (fst j)) jobs -> Forall2 (gives reg X F) jobs bs ->
    exists ps : list (piece (TId := TId) (C := C)), Forall (valid reg X ctxf) ps /\ map snd ps = bs /\ map p_ty ps = map snd jobs /\ Forall2 same (map fst jobs) (map p_val ps).
  Proof.
    intros HS H. induction H as [|[v t] b js bs G _ IH].
    - exists []. repeat split; constructor.
    - inversion HS as [|? ? S1 S2]; subst. destruct (IH S2) as (ps & V & <- & E & F2). specialize (G []). cbn [fst snd app] in *.
      apply (encode_same reg X F ctxf OK NU v S1) in G as (b' & w & Eb & EN & SM). cbn [app] in Eb. subst b'. apply enc_at_x in EN.
      exists ((t, w, b) :: ps). cbn [map p_ty p_val fst snd]. rewrite E. split; [constructor; [exact EN|exact V]|]. split; [reflexivity|]. split; [reflexivity|].
      constructor; assumption.
  Qed.
End Join.

Lemma Forall_kept {A} (P : A -> Prop) l oks : Forall P l -> Forall P (kept l oks).
Proof.
  unfold kept. intro H. apply Forall_map, Forall_forall. intros [x b] I. apply filter_In in I as [I _]. apply in_combine_l in I. rewrite Forall_forall in H. exact (H x I).
Qed.
Lemma F2_firstn {A B} (R : A -> B -> Prop) k : forall l l', Forall2 R l l' -> Forall2 R (firstn k l) (firstn k l').
Proof. induction k as [|k IH]; intros l l' H; [constructor|]. destruct H; [constructor|]. cbn [firstn]. constructor; auto. Qed.
