(** * FmtCustom: custom formatters and contexts (C13). *)
From Verif Require Import Base Value ValueFacts Chars Spec_Grammar Parse ParseFacts Fmt Spec_Fmt FmtFacts FmtText FmtStrip.
Local Open Scope N_scope.

(** Running the formatters of a list that all decline. *)
Fixpoint decline_all {T W} (fs : list (value T -> W -> option bool * W)) (v : value T) (w : W) : option W :=
  match fs with
  | [] => Some w
  | f :: fs' => match f v w with (None, w') => decline_all fs' v w' | (Some _, _) => None end
  end.

Lemma run_formatters_first {T W} fs1 g fs2 (v : value T) (w w1 w2 : W) st ok :
  decline_all fs1 v w = Some w1 -> g v w1 = (Some ok, w2) ->
  run_formatters (fs1 ++ g :: fs2) v (FS w st) = (Some ok, FS w2 st).
Proof.
  revert w; induction fs1 as [|f fs1 IH]; intros w H1 H2; cbn [decline_all app run_formatters writer fstyle] in *.
  - injection H1 as ->. now rewrite H2.
  - destruct (f v w) as [[o|] w']; [discriminate|]. now apply IH.
Qed.

Lemma write_value_first {T W} U (wr : W -> str -> W * bool) cfg st fs1 g fs2 (v : value T) w w1 w2 ok :
  print_context cfg = None -> custom_formatters cfg = fs1 ++ g :: fs2 ->
  decline_all fs1 v w = Some w1 -> g v w1 = (Some ok, w2) ->
  write_value U wr cfg st v w = (w2, ok).
Proof.
  intros Hc Hf H1 H2. unfold write_value. destruct v as [d ctx]. cbn [fmt_value]. unfold fmt_context. rewrite Hc.
  unfold andthen, ret. rewrite Hf, (run_formatters_first _ _ _ _ _ _ _ _ _ H1 H2). reflexivity.
Qed.

(** Formatters that decline everything and write nothing. *)
Lemma run_formatters_none {T W} fs (v : value T) (f : fstate W) :
  Forall (fun g : value T -> W -> option bool * W => forall v w, g v w = (None, w)) fs -> run_formatters fs v f = (None, f).
Proof.
  induction 1 as [|g fs Hg HF IH]; cbn [run_formatters]; [reflexivity|]. rewrite Hg. destruct f as [w st]. exact IH.
Qed.

Section Congr.
  Context {T W : Type} (U : unicode) (wr : W -> str -> W * bool) (cfg cfg' : config T W).
  Context (Hi : indent_by cfg = indent_by cfg') (Hl : leading_indent cfg = leading_indent cfg').
  Definition aeq (a b : @act W) : Prop := forall f, a f = b f.
  Lemma aeq_andthen a b a' b' : aeq a a' -> aeq b b' -> aeq (andthen a b) (andthen a' b').
  Proof. intros H1 H2 f. unfold andthen. rewrite H1. destruct (a' f) as [f' []]; auto. Qed.
  Lemma aeq_refl a : aeq a a.
  Proof. intro; reflexivity. Qed.
  Lemma aeq_seqs {A} (f g : A -> @act W) l : Forall (fun x => aeq (f x) (g x)) l -> aeq (seqs (map f l)) (seqs (map g l)).
  Proof. induction 1; cbn [map seqs]; [apply aeq_refl|]. now apply aeq_andthen. Qed.
  Lemma aeq_newline n : aeq (write_newline wr cfg n) (write_newline wr cfg' n).
  Proof. unfold write_newline. rewrite Hi, Hl. apply aeq_refl. Qed.
  Lemma aeq_nl : aeq (newline wr cfg) (newline wr cfg').
  Proof. intro f. unfold newline. destruct (fstyle f); auto. apply aeq_newline. Qed.
  Lemma aeq_isep : aeq (item_separator wr cfg) (item_separator wr cfg').
  Proof. intro f. unfold item_separator. destruct (fstyle f); auto. apply aeq_newline. Qed.
  Lemma aeq_items {A} (f g : A -> @act W) l : Forall (fun x => aeq (f x) (g x)) l -> aeq (fmt_items wr cfg f l) (fmt_items wr cfg' g l).
  Proof.
    intros [|a l' Ha Hl']; cbn [fmt_items]; [apply aeq_refl|]. apply aeq_andthen; [exact Ha|]. apply aeq_seqs.
    eapply Forall_impl; [|exact Hl']. intros x Hx. apply aeq_andthen; [apply aeq_refl|]. apply aeq_andthen; [apply aeq_isep|exact Hx].
  Qed.
  Lemma aeq_composite (fv gv : value T -> @act W) c : Forall (fun x => aeq (fv x) (gv x)) (values c) ->
    aeq (fmt_composite U wr cfg fv c) (fmt_composite U wr cfg' gv c).
  Proof.
    destruct c as [[|a l]|[|a l]]; intro H; cbn [fmt_composite values] in *; try apply aeq_refl.
    - apply aeq_andthen; [apply aeq_refl|]. apply aeq_andthen; [apply aeq_refl|]. apply aeq_andthen; [apply aeq_isep|].
      apply aeq_andthen.
      + apply aeq_items. rewrite Forall_map in H. eapply Forall_impl; [|exact H]. intros kv Hk.
        unfold fmt_field. apply aeq_andthen; [apply aeq_refl|]. apply aeq_andthen; [apply aeq_refl|].
        apply aeq_andthen; [apply aeq_refl|]. exact Hk.
      + apply aeq_andthen; [apply aeq_refl|]. apply aeq_andthen; [apply aeq_isep|apply aeq_refl].
    - apply aeq_andthen; [apply aeq_refl|]. apply aeq_andthen; [apply aeq_refl|]. apply aeq_andthen; [apply aeq_nl|].
      apply aeq_andthen.
      + now apply aeq_items.
      + apply aeq_andthen; [apply aeq_refl|]. apply aeq_andthen; [apply aeq_nl|apply aeq_refl].
  Qed.
  Lemma aeq_def (fv gv : value T -> @act W) d : Forall (fun x => aeq (fv x) (gv x)) (children d) ->
    aeq (fmt_valuedef U wr cfg fv d) (fmt_valuedef U wr cfg' gv d).
  Proof.
    destruct d as [c|n c|b|p]; intro H; cbn [fmt_valuedef]; try apply aeq_refl.
    - now apply aeq_composite.
    - unfold fmt_variant. apply aeq_andthen; [apply aeq_refl|]. apply aeq_andthen; [apply aeq_refl|]. now apply aeq_composite.
  Qed.
  Lemma aeq_value :
    Forall (fun g : value T -> W -> option bool * W => forall v w, g v w = (None, w)) (custom_formatters cfg) ->
    custom_formatters cfg' = [] -> print_context cfg = print_context cfg' ->
    forall v, aeq (fmt_value U wr cfg v) (fmt_value U wr cfg' v).
  Proof.
    intros HF H0 Hc. induction v as [d ctx IH] using value_ind'. cbn [fmt_value].
    apply aeq_andthen; [unfold fmt_context; rewrite Hc; apply aeq_refl|].
    intro f. rewrite run_formatters_none by exact HF. rewrite H0. cbn [run_formatters]. now apply aeq_def.
  Qed.
End Congr.

(** A formatter that answers on the nodes selected by [p], handing the pieces [pc] to the sink. *)
Definition piece_formatter {T W} (wr : W -> str -> W * bool) (p : value T -> bool) (pc : value T -> list str) :
  value T -> W -> option bool * W :=
  fun v w => if p v then let (w', ok) := feed wr w (pc v) in (Some ok, w') else (None, w).

Section Pieces.
  Context {T W : Type} (U : unicode) (wr : W -> str -> W * bool) (cfg : config T W).
  Context (p : value T -> bool) (pc : value T -> list str) (g : value T -> W -> option bool * W).
  Context (Hg : forall v w, g v w = piece_formatter wr p pc v w).
  Context (Hcf : custom_formatters cfg = [g]) (Hpc : print_context cfg = None).

  Fixpoint rdc (ind lead : str) (st : style) (v : value T) {struct v} : rd :=
    if p v then rok (pc v) else
    match v with Val d _ => rd_def U ind lead st (fun x => rdc ind lead (ins st) x) d end.

  Lemma feeds_sel : forall v st, feeds wr (fmt_value U wr cfg v) st (rdc (indent_by cfg) (leading_indent cfg) st v) st.
  Proof.
    induction v as [d ctx IH] using value_ind'; intro st. intro w. cbn [fmt_value].
    unfold andthen, fmt_context. rewrite Hpc. unfold ret. rewrite Hcf. cbn [run_formatters].
    rewrite Hg. unfold piece_formatter. cbn [writer fstyle]. cbn [rdc]. destruct (p (Val d ctx)) eqn:E.
    - exists st. cbn [rok fst snd]. destruct (feed wr w (pc (Val d ctx))) as [w' ok]. cbn [fst snd]. rewrite andb_true_r.
      split; reflexivity.
    - apply (feeds_def U wr cfg). eapply Forall_impl; [|exact IH]. intros x Hx. apply Hx.
  Qed.
End Pieces.

Definition custom_text {T} U (cfg : config T str) st (v : value T) : option str :=
  let (w, ok) := write_value U string_wr cfg st v [] in if ok then Some w else None.

Lemma custom_text_render {T} U (cfg : config T str) p pc g st v :
  (forall v w, g v w = piece_formatter string_wr p pc v w) -> custom_formatters cfg = [g] -> print_context cfg = None ->
  custom_text U cfg st v = let r := rdc U p pc (indent_by cfg) (leading_indent cfg) st v in if snd r then Some (concat (fst r)) else None.
Proof.
  intros H1 H2 H3. unfold custom_text, write_value. destruct (feeds_sel U string_wr cfg p pc g H1 H2 H3 v st []) as (s & E & _).
  rewrite E. cbn [writer]. rewrite feed_string. reflexivity.
Qed.

(** Formatting the topmost selected nodes by the text of a replacement. *)
Definition sel_cfg {T} (ind lead : str) (p : value T -> bool) (txt : value T -> str) : config T str :=
  {| indent_by := ind; leading_indent := lead; custom_formatters := [sel_formatter p txt]; print_context := None |}.

Definition same_kind (st st' : style) : Prop :=
  match st, st' with Pretty _, Pretty _ | Normal, Normal | Compact, Compact => True | _, _ => False end.

Section Sel.
  Context {T : Type} (U : unicode) (ind lead : str) (p : value T -> bool) (txt : value T -> str).
  Let cfg := sel_cfg ind lead p txt.
  Let rdc := rdc U p (fun v => [txt v]) ind lead.

  Context (h : value T -> value T) (st0 : style).
  Context (Htxt : forall st v, same_kind st0 st -> p v = true -> to_text U ind lead st (h v) = Some (txt v)).

  Definition req (r r' : rd) : Prop := snd r = snd r' /\ (snd r = true -> concat (fst r) = concat (fst r')).
  Lemma req_refl r : req r r.
  Proof. split; auto. Qed.
  Lemma req_rseq a b a' b' : req a a' -> req b b' -> req (rseq a b) (rseq a' b').
  Proof.
    intros [H1 H2] [H3 H4]. split; [rewrite !rseq_true; congruence|]. rewrite rseq_true. intro H.
    apply andb_true_iff in H as [Ha Hb]. rewrite !rseq_text by congruence. rewrite H2, H4 by assumption. reflexivity.
  Qed.
  Lemma req_items {A B} (f : A -> rd) (g : B -> rd) (m : A -> B) l stl : Forall (fun x => req (f x) (g (m x))) l ->
    req (rd_items ind lead f stl l) (rd_items ind lead g stl (map m l)).
  Proof.
    intro H. destruct l as [|a l]; [apply req_refl|]. revert a H; induction l as [|b l IH]; intros a H; inversion_clear H as [|? ? Ha Hl].
    - cbn [map]. rewrite !rd_items_one. apply req_rseq; [exact Ha|apply req_refl].
    - cbn [map]. rewrite !rd_items_cons. apply req_rseq; [exact Ha|]. apply req_rseq; [apply req_refl|]. now apply IH.
  Qed.
  Lemma req_composite (f g : value T -> rd) (m : value T -> value T) c stl : Forall (fun x => req (f x) (g (m x))) (values c) ->
    req (rd_composite U ind lead stl f c) (rd_composite U ind lead stl g (composite_map m c)).
  Proof.
    destruct c as [[|a l]|[|a l]]; intro H; try apply req_refl; cbn [composite_map values] in *.
    - rewrite Forall_map in H. cbn [map rd_composite]. rewrite <- (map_cons (fun kv => (fst kv, m (snd kv)))).
      apply req_rseq; [apply req_refl|]. apply req_rseq; [|apply req_refl]. apply req_items.
      eapply Forall_impl; [|exact H]. intros kv Hk. unfold rd_field. apply req_rseq; [apply req_refl|exact Hk].
    - cbn [map rd_composite]. rewrite <- (map_cons m).
      apply req_rseq; [apply req_refl|]. apply req_rseq; [|apply req_refl]. now apply req_items.
  Qed.

  Lemma same_kind_ins st : same_kind st0 st -> same_kind st0 (ins st).
  Proof. destruct st0, st; cbn; auto. Qed.

  Lemma rdc_replace v : forall st, same_kind st0 st -> req (rdc st v) (rd_value U ind lead st (replace p h v)).
  Proof.
    induction v as [d ctx IH] using value_ind'. intros st Hst. subst rdc. cbn [FmtCustom.rdc replace].
    destruct (p (Val d ctx)) eqn:E.
    - specialize (Htxt st _ Hst E). rewrite to_text_render in Htxt. cbn zeta in Htxt.
      destruct (snd (rd_value U ind lead st (h (Val d ctx)))) eqn:E2; [|discriminate].
      injection Htxt as H. split; [now rewrite E2|]. intros _. cbn. rewrite app_nil_r. symmetry. exact H.
    - assert (IH' : Forall (fun x => req (FmtCustom.rdc U p (fun v => [txt v]) ind lead (ins st) x) (rd_value U ind lead (ins st) (replace p h x))) (children d)).
      { eapply Forall_impl; [|exact IH]. intros x Hx. apply Hx. now apply same_kind_ins. }
      destruct d as [[l|l]|n [l|l]|b|q]; cbn [rd_value rd_def children] in *; try apply req_refl.
      + now apply (req_composite _ _ (replace p h) (Named l) st).
      + now apply (req_composite _ _ (replace p h) (Unnamed l) st).
      + apply req_rseq; [apply req_refl|]. now apply (req_composite _ _ (replace p h) (Named l) st).
      + apply req_rseq; [apply req_refl|]. now apply (req_composite _ _ (replace p h) (Unnamed l) st).
  Qed.

  Lemma custom_replace v : custom_text U cfg st0 v = to_text U ind lead st0 (replace p h v).
  Proof.
    rewrite (custom_text_render U cfg p (fun v => [txt v]) (sel_formatter p txt)); [|intros; unfold sel_formatter, piece_formatter|reflexivity|reflexivity].
    - rewrite to_text_render. cbn zeta. destruct (rdc_replace v st0) as [H1 H2]; [destruct st0; exact I|].
      subst rdc. cbn [indent_by leading_indent cfg sel_cfg]. rewrite H1.
      destruct (snd (rd_value _ _ _ _ _)) eqn:E2; [|reflexivity]. f_equal. apply H2. congruence.
    - destruct (p v0); [|reflexivity]. cbn [feed]. unfold string_wr. reflexivity.
  Qed.
End Sel.
