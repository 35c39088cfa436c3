(** * MessageFacts: texts of errors and paths. *)
From Verif Require Import Base Value ValueFacts Chars Spec_Grammar Parse ParseFacts Fmt Spec_Fmt FmtFacts FmtText FmtStrip FmtCustom Spec_Hex HexFacts
  Registry Spec_Scale Scale Decode Trace Spec_Layout LayoutFacts Messages.
Local Open Scope N_scope.

(** ** Formatters that agree pointwise have the same effect. *)
Section Pointwise.
  Context {T W : Type} (U : unicode) (wr : W -> str -> W * bool) (cfg cfg' : config T W).
  Context (Hi : indent_by cfg = indent_by cfg') (Hl : leading_indent cfg = leading_indent cfg').
  Context (Hf : Forall2 (fun g g' : value T -> W -> option bool * W => forall v w, g v w = g' v w) (custom_formatters cfg) (custom_formatters cfg')).
  Context (Hp : print_context cfg = print_context cfg').
  Lemma run_pointwise v f : run_formatters (custom_formatters cfg) v f = run_formatters (custom_formatters cfg') v f.
  Proof.
    clear Hi Hl Hp. revert f. induction Hf as [|g g' l l' H HF IH]; intro f; cbn [run_formatters]; [reflexivity|].
    rewrite H. destruct (g' v (writer f)) as [[ok|] w]; auto.
  Qed.
  Lemma value_pointwise v : aeq (fmt_value U wr cfg v) (fmt_value U wr cfg' v).
  Proof.
    induction v as [d ctx IH] using value_ind'. cbn [fmt_value].
    apply aeq_andthen; [unfold fmt_context; rewrite Hp; apply aeq_refl|].
    intro f. rewrite run_pointwise. destruct (run_formatters _ _ f) as [[ok|] f']; [reflexivity|].
    now apply aeq_def.
  Qed.
End Pointwise.

(** ** [format_hex] as a pure formatter. *)
Lemma every_bytes {T} (l : list (value T)) :
  every (map byte_number l) = if forallb is_byte_value l then Some (map byte_of l) else None.
Proof.
  induction l as [|v l IH]; [reflexivity|]. cbn [map every forallb].
  destruct v as [[c|s c|b|[b|c|s|n|z|b|b]] ctx]; cbn [byte_number is_byte_value byte_of]; try reflexivity.
  destruct (n <? 256); cbn [andb]; [|reflexivity].
  rewrite IH. now destruct (forallb is_byte_value l).
Qed.
Lemma format_hex_answer {T} (v : value T) w : format_hex string_wr v w = as_formatter hex_answer v w.
Proof.
  rewrite format_hex_pieces. unfold piece_formatter, as_formatter.
  destruct v as [[[l|[|a l]]|n c|b|p] ctx]; cbn [hex_node hex_answer]; try reflexivity.
  rewrite every_bytes. destruct (forallb is_byte_value (a :: l)); [|reflexivity].
  rewrite feed_string, hex_pieces_text. reflexivity.
Qed.

Section TraceText.
  Context {TId : Type} (U : unicode) (show_cause : cause -> str) (show_id : TId -> str).
  Lemma typeid_text v w :
    match lines (bare_name U) [hex_answer] (Some show_id) v with
    | Some ls => display_value_with_typeid U show_id v w = (w ++ put_together [] (s2l "  ") 0 ls, true)
    | None => snd (display_value_with_typeid U show_id v w) = false
    end.
  Proof.
    unfold display_value_with_typeid, write_value.
    rewrite (value_pointwise U string_wr (typeid_cfg show_id) (pure_cfg (s2l "  ") [] [hex_answer] (Some show_id))); try reflexivity.
    - pose proof (flat_writes U (s2l "  ") [] [hex_answer] (Some show_id) v (Pretty 0) w) as H.
      rewrite flat_pretty in H. unfold Spec_Layout.omap in H. change (bare_name U) with (is_ident U).
      destruct (lines (is_ident U) [hex_answer] (Some show_id) v).
      + rewrite H. reflexivity.
      + destruct (fmt_value _ _ _ _ _) as [f ok]. exact H.
    - constructor; [|constructor]. intros; apply format_hex_answer.
  Qed.
End TraceText.

(** ** Which values have a text, when byte lists are written in hex. *)
Lemma every_none {A} (l : list (option A)) : every l = None <-> In None l.
Proof.
  induction l as [|[a|] l IH]; cbn [every In].
  - split; [discriminate|easy].
  - destruct (every l); split; intro H; try discriminate.
    + destruct H as [H|H]; [discriminate|]. apply IH in H. discriminate.
    + right. now apply IH.
    + reflexivity.
  - split; auto.
Qed.
Lemma omap_none {A B} (f : A -> B) o : Spec_Layout.omap f o = None <-> o = None.
Proof. destruct o; cbn; split; congruence. Qed.
Lemma forallb_false_in {A} (p : A -> bool) l : forallb p l = false <-> exists x, In x l /\ p x = false.
Proof.
  induction l as [|a l IH]; cbn [forallb In]; [split; [discriminate|intros (? & [] & _)]|].
  rewrite andb_false_iff, IH. split.
  - intros [H|(x & H1 & H2)]; eauto.
  - intros (x & [->|H1] & H2); eauto.
Qed.
Lemma lines_hex_none {T} bare (ctxt : option (T -> str)) (v : value T) :
  lines bare [hex_answer] ctxt v = None <-> no_256 v = false.
Proof.
  assert (G : forall (l : list (value T)), Forall (fun v => lines bare [hex_answer] ctxt v = None <-> no_256 v = false) l ->
     every (map (lines bare [hex_answer] ctxt) l) = None <-> forallb no_256 l = false).
  { intros l H. rewrite every_none, in_map_iff, forallb_false_in. rewrite Forall_forall in H. split; intros (x & H1 & H2).
    - exists x. split; [exact H2|]. now apply H.
    - exists x. split; [now apply H|exact H1]. }
  assert (GN : forall (l : list (str * value T)) (f : str -> list line -> list line), Forall (fun kv => lines bare [hex_answer] ctxt (snd kv) = None <-> no_256 (snd kv) = false) l ->
     every (map (fun kv => Spec_Layout.omap (f (fst kv)) (lines bare [hex_answer] ctxt (snd kv))) l) = None <-> forallb (fun kv => no_256 (snd kv)) l = false).
  { intros l f H. rewrite every_none, in_map_iff, forallb_false_in. rewrite Forall_forall in H. split; intros (x & H1 & H2).
    - exists x. split; [exact H2|]. apply omap_none in H1. now apply H.
    - exists x. split; [apply omap_none; now apply H|exact H1]. }
  assert (B : forall l : list (value T), forallb is_byte_value l = true -> forallb no_256 l = true).
  { intros l H. apply forallb_forall. intros x Hx. rewrite forallb_forall in H. specialize (H x Hx).
    destruct x as [[c|s c|b|[b|c|s|n|z|b|b]] ctx]; try discriminate H; reflexivity. }
  induction v as [l ctx IH|l ctx IH|n l ctx IH|n l ctx IH|b ctx|p ctx] using value_ind4; cbn [lines]; rewrite omap_none;
    cbn [first_answer hex_answer].
  - cbn [no_256]. rewrite omap_none. now apply (GN l (fun k => prefix_first (field_name bare k ++ s2l ": "))).
  - destruct l as [|a l]; [cbn; split; discriminate|]. rewrite every_bytes. destruct (forallb is_byte_value (a :: l)) eqn:E.
    + cbn [no_256]. rewrite (B _ E). split; discriminate.
    + cbn [no_256]. rewrite omap_none. now apply G.
  - cbn [no_256]. rewrite omap_none. now apply (GN l (fun k => prefix_first (field_name bare k ++ s2l ": "))).
  - cbn [no_256]. rewrite omap_none. now apply G.
  - split; discriminate.
  - rewrite omap_none. destruct p as [[]|c|s|n|z|b|b]; cbn; split; congruence.
Qed.

(** ** Paths can be read back from their text. *)
Lemma show_N_inj a b : show_N a = show_N b -> a = b.
Proof.
  destruct (show_N_spec a) as (d & r & E & _ & Hv & _). destruct (show_N_spec b) as (d' & r' & E' & _ & Hv' & _).
  rewrite E, E'. intro H. rewrite <- Hv, <- Hv', H. reflexivity.
Qed.
Definition dot : char := 46.
Definition at_dot (s : str) : Prop := s = [] \/ exists r, s = dot :: r.
Lemma split_dot a b x y : ~ In dot a -> ~ In dot b -> at_dot x -> at_dot y -> a ++ x = b ++ y -> a = b /\ x = y.
Proof.
  revert b. induction a as [|c a IH]; intros [|d b] Ha Hb Hx Hy E; cbn [app] in E.
  - auto.
  - subst x. destruct Hx as [|[r Hr]]; [discriminate|]. injection Hr as -> _. cbn [In] in Hb. tauto.
  - subst y. destruct Hy as [|[r Hr]]; [discriminate|]. injection Hr as -> _. cbn [In] in Ha. tauto.
  - injection E as -> E. cbn [In] in *. destruct (IH b) as [-> ->]; auto.
Qed.
Lemma path_at_dot p : at_dot (path_display p).
Proof. destruct p as [|s p]; cbn [path_display]; [now left|right]. unfold seg_display. eexists. reflexivity. Qed.
Lemma digits_no_dot n : ~ In dot (show_N n).
Proof.
  destruct (show_N_spec n) as (d & r & -> & H & _). intro Hin. rewrite forallb_forall in H. specialize (H _ Hin). discriminate.
Qed.
