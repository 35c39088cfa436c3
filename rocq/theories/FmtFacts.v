(** * FmtFacts: the formatter hands a fixed list of pieces to the sink; that text is in the grammar. *)
From Verif Require Import Base Value ValueFacts Chars Spec_Grammar Parse ParseFacts ParseComplete ParseSound ParseNum Fmt Spec_Fmt.
Local Open Scope N_scope.

Lemma feed_app {W} (wr : W -> str -> W * bool) a : forall w b,
  feed wr w (a ++ b) = let (w1, ok) := feed wr w a in if ok then feed wr w1 b else (w1, false).
Proof.
  induction a as [|p a IH]; intros w b; cbn [feed app]; [reflexivity|].
  destruct (wr w p) as [w' []]; [apply IH|reflexivity].
Qed.

(** ** Rendering: the pieces written, and whether formatting succeeds *)
Definition rd : Type := (list str * bool)%type.
Definition rok (cs : list str) : rd := (cs, true).
Definition rseq (a b : rd) : rd := if snd a then (fst a ++ fst b, snd b) else a.
Fixpoint rseqs (l : list rd) : rd := match l with [] => rok [] | a :: l' => rseq a (rseqs l') end.

Section Render.
  Context {T : Type} (U : unicode) (ind lead : str).

  Definition ins (st : style) : style := match st with Pretty n => Pretty (S n) | s => s end.
  Definition sp (st : style) : list str := match st with Compact => [] | _ => [[c_space]] end.
  Definition nlc (n : nat) : list str := [c_nl] :: lead :: repeat ind n.
  Definition nl (st : style) : list str := match st with Pretty n => nlc n | _ => [] end.
  Definition isep (st : style) : list str := match st with Compact => [] | Normal => [[c_space]] | Pretty n => nlc n end.
  Definition esc_chunks (c : char) : list str :=
    match to_escape_code c with Some e => [[c_bslash]; [e]] | None => [[c]] end.
  Definition str_chunks (s : str) : list str := [[c_dquote]] ++ flat_map esc_chunks s ++ [[c_dquote]].
  Definition char_chunks (c : char) : list str := [[c_squote]] ++ esc_chunks c ++ [[c_squote]].
  Definition bits_chunks (b : list bool) : list str :=
    [[c_lt]] ++ map (fun x : bool => [if x then c_1 else c_0]) b ++ [[c_gt]].
  Definition int_chunks (z : Z) : list str :=
    if (z <? 0)%Z then [[c_minus]; show_N (Z.abs_N z)] else [show_N (Z.abs_N z)].
  Definition rd_prim (p : prim) : rd :=
    match p with
    | PBool true => rok [s2l "true"]
    | PBool false => rok [s2l "false"]
    | PChar c => rok (char_chunks c)
    | PI128 z => rok (int_chunks z)
    | PU128 n => rok [show_N n]
    | PString s => rok (str_chunks s)
    | PU256 _ | PI256 _ => ([], false)
    end.
  Definition rd_items {A} (item : A -> rd) (st : style) (l : list A) : rd :=
    match l with
    | [] => rok []
    | a :: l' => rseq (item a) (rseqs (map (fun x => rseq (rok (s2l "," :: isep st)) (item x)) l'))
    end.
  Definition name_chunks (n : str) : list str := if is_ident U n then [n] else str_chunks n.
  Definition rd_field (st : style) (rv : value T -> rd) (kv : str * value T) : rd :=
    rseq (rok (name_chunks (fst kv) ++ [[c_colon]] ++ sp st)) (rv (snd kv)).
  Definition rd_composite (st : style) (rv : value T -> rd) (c : composite (value T)) : rd :=
    match c with
    | Named [] => rok [s2l "{}"]
    | Named l => rseq (rok (s2l "{" :: isep (ins st))) (rseq (rd_items (rd_field (ins st) rv) (ins st) l) (rok (isep st ++ [s2l "}"])))
    | Unnamed [] => rok [s2l "()"]
    | Unnamed l => rseq (rok ([c_lpar] :: nl (ins st))) (rseq (rd_items rv (ins st) l) (rok (nl st ++ [[c_rpar]])))
    end.
  Definition vname_chunks (n : str) : list str := if is_ident U n then [n] else [c_v] :: str_chunks n.
  Definition rd_def (st : style) (rv : value T -> rd) (d : vdef (value T)) : rd :=
    match d with
    | DComposite c => rd_composite st rv c
    | DVariant n c => rseq (rok (vname_chunks n ++ sp st)) (rd_composite st rv c)
    | DBits b => rok (bits_chunks b)
    | DPrim p => rd_prim p
    end.
  Fixpoint rd_value (st : style) (v : value T) {struct v} : rd :=
    match v with Val d _ => rd_def st (fun x => rd_value (ins st) x) d end.
End Render.

(** ** The formatter renders *)
Section Feeds.
  Context {T W : Type} (U : unicode) (wr : W -> str -> W * bool) (cfg : config T W).

  Definition feeds (a : @act W) (st : style) (r : rd) (st' : style) : Prop := forall w,
    exists s, a (FS w st) = (FS (fst (feed wr w (fst r))) s, snd (feed wr w (fst r)) && snd r) /\
      (snd (feed wr w (fst r)) && snd r = true -> s = st').

  Lemma feeds_andthen a b st st1 st2 r1 r2 :
    feeds a st r1 st1 -> feeds b st1 r2 st2 -> feeds (andthen a b) st (rseq r1 r2) st2.
  Proof.
    intros Ha Hb w. destruct (Ha w) as (s & Ea & Hs). unfold andthen. rewrite Ea. unfold rseq.
    destruct r1 as [c1 o1], r2 as [c2 o2]. cbn [fst snd] in *.
    destruct (feed wr w c1) as [w1 ok] eqn:E1. cbn [fst snd] in *. destruct o1; cbn [fst snd].
    - rewrite feed_app, E1. destruct ok; cbn [andb fst snd] in *.
      + rewrite (Hs eq_refl). apply (Hb w1).
      + exists s. split; [reflexivity|discriminate].
    - rewrite E1. cbn [fst snd]. rewrite andb_false_r. exists s. split; [reflexivity|discriminate].
  Qed.

  Lemma feeds_ret st : feeds ret st (rok []) st.
  Proof. intro w. exists st. split; reflexivity. Qed.

  Lemma feeds_write s st : feeds (write_str wr s) st (rok [s]) st.
  Proof.
    intro w. unfold write_str. cbn [writer fstyle fst rok snd feed]. destruct (wr w s) as [w' []]; exists st; split; reflexivity.
  Qed.
  Lemma feeds_write_char c st : feeds (write_char wr c) st (rok [[c]]) st.
  Proof. apply feeds_write. Qed.

  Lemma rseq_ok a b : rseq (rok a) (rok b) = rok (a ++ b).
  Proof. reflexivity. Qed.

  Lemma feeds_andthen_ok a b st st1 st2 c1 c2 :
    feeds a st (rok c1) st1 -> feeds b st1 (rok c2) st2 -> feeds (andthen a b) st (rok (c1 ++ c2)) st2.
  Proof. intros Ha Hb. rewrite <- rseq_ok. eapply feeds_andthen; eauto. Qed.

  Lemma feeds_seqs l rs st : Forall2 (fun a r => feeds a st r st) l rs -> feeds (seqs l) st (rseqs rs) st.
  Proof.
    induction 1 as [|a r l rs Ha HF IH]; cbn [seqs rseqs]; [apply feeds_ret|]. eapply feeds_andthen; eauto.
  Qed.

  Lemma feeds_seqs_map {A} (f : A -> @act W) (g : A -> rd) l st :
    Forall (fun x => feeds (f x) st (g x) st) l -> feeds (seqs (map f l)) st (rseqs (map g l)) st.
  Proof. intro H. apply feeds_seqs. induction H; constructor; auto. Qed.

  Lemma rseqs_ok {A} (g : A -> list str) l : rseqs (map (fun x => rok (g x)) l) = rok (flat_map g l).
  Proof. induction l as [|x l IH]; cbn; [reflexivity|]. rewrite IH. reflexivity. Qed.

  Lemma feeds_newline n st : feeds (write_newline wr cfg n) st (rok (nlc (indent_by cfg) (leading_indent cfg) n)) st.
  Proof.
    unfold write_newline, nlc. apply (feeds_andthen_ok _ _ st st st [[c_nl]]); [apply feeds_write|].
    apply (feeds_andthen_ok _ _ st st st [leading_indent cfg]); [apply feeds_write|].
    induction n as [|n IH]; cbn [repeat seqs]; [apply feeds_ret|].
    apply (feeds_andthen_ok _ _ st st st [indent_by cfg]); [apply feeds_write|exact IH].
  Qed.

  Lemma feeds_indent st : feeds indent_step st (rok []) (ins st).
  Proof. intro w. exists (ins st). unfold indent_step. cbn. destruct st; split; reflexivity. Qed.
  Lemma feeds_unindent st : feeds unindent_step (ins st) (rok []) st.
  Proof. intro w. exists st. unfold unindent_step. cbn. destruct st; split; reflexivity. Qed.
  Lemma feeds_space st : feeds (space wr) st (rok (sp st)) st.
  Proof. intro w. unfold space. cbn [fstyle]. destruct st; cbn [sp]; [apply feeds_write|apply feeds_write|apply feeds_ret]. Qed.
  Lemma feeds_nl st : feeds (newline wr cfg) st (rok (nl (indent_by cfg) (leading_indent cfg) st)) st.
  Proof. intro w. unfold newline. cbn [fstyle]. destruct st; cbn [nl]; [apply feeds_newline|apply feeds_ret|apply feeds_ret]. Qed.
  Lemma feeds_isep st : feeds (item_separator wr cfg) st (rok (isep (indent_by cfg) (leading_indent cfg) st)) st.
  Proof. intro w. unfold item_separator. cbn [fstyle]. destruct st; cbn [isep]; [apply feeds_newline|apply feeds_write|apply feeds_ret]. Qed.

  Lemma feeds_escaped c st : feeds (fmt_escaped wr c) st (rok (esc_chunks c)) st.
  Proof.
    unfold fmt_escaped, esc_chunks. destruct (to_escape_code c); [|apply feeds_write].
    apply (feeds_andthen_ok _ _ st st st [[c_bslash]]); apply feeds_write.
  Qed.

  Lemma feeds_string s st : feeds (fmt_string wr s) st (rok (str_chunks s)) st.
  Proof.
    unfold fmt_string, str_chunks. apply (feeds_andthen_ok _ _ st st st); [apply feeds_write|].
    apply (feeds_andthen_ok _ _ st st st); [|apply feeds_write].
    rewrite <- rseqs_ok. apply feeds_seqs_map. apply Forall_forall. intros x _. apply feeds_escaped.
  Qed.

  Lemma feeds_prim p st : feeds (fmt_primitive wr p) st (rd_prim p) st.
  Proof.
    destruct p as [[]|c|s|n|z|b|b]; cbn [fmt_primitive rd_prim]; try apply feeds_write; try apply feeds_string.
    - unfold fmt_char, char_chunks. apply (feeds_andthen_ok _ _ st st st); [apply feeds_write|].
      apply (feeds_andthen_ok _ _ st st st); [apply feeds_escaped|apply feeds_write].
    - unfold fmt_int, int_chunks. destruct (z <? 0)%Z; [|apply feeds_write].
      apply (feeds_andthen_ok _ _ st st st [[c_minus]]); apply feeds_write.
    - intro w. exists st. cbn. split; [reflexivity|discriminate].
    - intro w. exists st. cbn. split; [reflexivity|discriminate].
  Qed.

  Lemma feeds_bits b st : feeds (fmt_bitsequence wr b) st (rok (bits_chunks b)) st.
  Proof.
    unfold fmt_bitsequence, bits_chunks. apply (feeds_andthen_ok _ _ st st st); [apply feeds_write|].
    apply (feeds_andthen_ok _ _ st st st); [|apply feeds_write].
    assert (E : map (fun x : bool => [if x then c_1 else c_0]) b = flat_map (fun x : bool => [[if x then c_1 else c_0]]) b).
    { induction b; cbn; congruence. }
    rewrite E, <- rseqs_ok. apply feeds_seqs_map. apply Forall_forall. intros x _. apply feeds_write.
  Qed.

  Lemma feeds_items {A} (item : A -> @act W) (ri : A -> rd) st l :
    Forall (fun x => feeds (item x) st (ri x) st) l ->
    feeds (fmt_items wr cfg item l) st (rd_items (indent_by cfg) (leading_indent cfg) ri st l) st.
  Proof.
    intros [|a l' Ha Hl]; cbn [fmt_items rd_items]; [apply feeds_ret|].
    eapply feeds_andthen; [exact Ha|]. apply feeds_seqs_map.
    eapply Forall_impl; [|exact Hl]. intros x Hx.
    intro w.
    assert (H : feeds (andthen (write_str wr (s2l ",")) (andthen (item_separator wr cfg) (item x))) st
               (rseq (rok [s2l ","]) (rseq (rok (isep (indent_by cfg) (leading_indent cfg) st)) (ri x))) st).
    { eapply feeds_andthen; [apply feeds_write|]. eapply feeds_andthen; [apply feeds_isep|exact Hx]. }
    destruct (ri x) as [cx ox]. exact (H w).
  Qed.

  Lemma feeds_name n st : feeds (fmt_name U wr n) st (rok (name_chunks U n)) st.
  Proof. unfold fmt_name, name_chunks. destruct (is_ident U n); [apply feeds_write|apply feeds_string]. Qed.

  Lemma rseq_assoc a b c : rseq (rseq a b) c = rseq a (rseq b c).
  Proof.
    destruct a as [ca []], b as [cb []]; unfold rseq; cbn; try reflexivity; now rewrite app_assoc.
  Qed.

  Lemma feeds_field (fv : value T -> @act W) rv kv st :
    feeds (fv (snd kv)) st (rv (snd kv)) st -> feeds (fmt_field U wr fv kv) st (rd_field U st rv kv) st.
  Proof.
    intro H. unfold fmt_field, rd_field. rewrite <- !rseq_ok, !rseq_assoc.
    eapply feeds_andthen; [apply feeds_name|]. eapply feeds_andthen; [apply feeds_write_char|].
    eapply feeds_andthen; [apply feeds_space|exact H].
  Qed.

  Lemma feeds_composite (fv : value T -> @act W) rv c st :
    Forall (fun x => feeds (fv x) (ins st) (rv x) (ins st)) (values c) ->
    feeds (fmt_composite U wr cfg fv c) st (rd_composite U (indent_by cfg) (leading_indent cfg) st rv c) st.
  Proof.
    destruct c as [[|a l]|[|a l]]; intro H; cbn [fmt_composite rd_composite values] in *;
      try apply feeds_write.
    - change (s2l "{" :: isep (indent_by cfg) (leading_indent cfg) (ins st)) with ([s2l "{"] ++ [] ++ isep (indent_by cfg) (leading_indent cfg) (ins st)).
      change (isep (indent_by cfg) (leading_indent cfg) st ++ [s2l "}"]) with ([] ++ isep (indent_by cfg) (leading_indent cfg) st ++ [s2l "}"]).
      rewrite <- !rseq_ok, !rseq_assoc.
      eapply feeds_andthen; [apply feeds_write|]. eapply feeds_andthen; [apply feeds_indent|].
      eapply feeds_andthen; [apply feeds_isep|]. eapply feeds_andthen.
      { apply feeds_items. rewrite Forall_map in H. eapply Forall_impl; [|exact H]. intros kv Hkv. now apply feeds_field. }
      eapply feeds_andthen; [apply feeds_unindent|]. eapply feeds_andthen; [apply feeds_isep|apply feeds_write].
    - change ([c_lpar] :: nl (indent_by cfg) (leading_indent cfg) (ins st)) with ([[c_lpar]] ++ [] ++ nl (indent_by cfg) (leading_indent cfg) (ins st)).
      change (nl (indent_by cfg) (leading_indent cfg) st ++ [[c_rpar]]) with ([] ++ nl (indent_by cfg) (leading_indent cfg) st ++ [[c_rpar]]).
      rewrite <- !rseq_ok, !rseq_assoc.
      eapply feeds_andthen; [apply feeds_write|]. eapply feeds_andthen; [apply feeds_indent|].
      eapply feeds_andthen; [apply feeds_nl|]. eapply feeds_andthen.
      { apply feeds_items. exact H. }
      eapply feeds_andthen; [apply feeds_unindent|]. eapply feeds_andthen; [apply feeds_nl|apply feeds_write].
  Qed.

  Lemma feeds_def (fv : value T -> @act W) rv d st :
    Forall (fun x => feeds (fv x) (ins st) (rv x) (ins st)) (children d) ->
    feeds (fmt_valuedef U wr cfg fv d) st (rd_def U (indent_by cfg) (leading_indent cfg) st rv d) st.
  Proof.
    destruct d as [c|n c|b|p]; intro H; cbn [fmt_valuedef rd_def children] in *.
    - now apply feeds_composite.
    - unfold fmt_variant. rewrite <- rseq_ok, rseq_assoc. eapply feeds_andthen.
      { unfold vname_chunks. destruct (is_ident U n); [apply feeds_write|].
        apply (feeds_andthen_ok _ _ st st st [[c_v]]); [apply feeds_write|apply feeds_string]. }
      eapply feeds_andthen; [apply feeds_space|]. now apply feeds_composite.
    - apply feeds_bits.
    - apply feeds_prim.
  Qed.

  Lemma feeds_value : custom_formatters cfg = [] -> print_context cfg = None ->
    forall v st, feeds (fmt_value U wr cfg v) st (rd_value U (indent_by cfg) (leading_indent cfg) st v) st.
  Proof.
    intros H1 H2. induction v as [d ctx IH] using value_ind'; intro st.
    cbn [fmt_value rd_value]. unfold fmt_context. rewrite H2.
    assert (E : forall f, andthen ret (fun f0 => match run_formatters (custom_formatters cfg) (Val d ctx) f0 with
              | (Some ok, f') => (f', ok) | (None, f') => fmt_valuedef U wr cfg (fmt_value U wr cfg) d f' end) f
              = fmt_valuedef U wr cfg (fmt_value U wr cfg) d f).
    { intro f. unfold andthen, ret. rewrite H1. reflexivity. }
    intro w. rewrite E. apply feeds_def. eapply Forall_impl; [|exact IH]. intros x Hx. apply Hx.
  Qed.
End Feeds.

Lemma write_value_feed {T W} U (wr : W -> str -> W * bool) ind lead st (v : value T) w :
  write_value U wr (plain_cfg ind lead) st v w =
    let r := rd_value U ind lead st v in
    (fst (feed wr w (fst r)), snd (feed wr w (fst r)) && snd r).
Proof.
  unfold write_value. destruct (feeds_value U wr (plain_cfg ind lead) eq_refl eq_refl v st w) as (s & E & _).
  rewrite E. reflexivity.
Qed.

Lemma feed_string cs : forall w, feed string_wr w cs = (w ++ concat cs, true).
Proof.
  induction cs as [|c cs IH]; intro w; cbn [feed concat]; [now rewrite app_nil_r|].
  unfold string_wr at 1. rewrite IH, app_assoc. reflexivity.
Qed.

Lemma to_text_render {T} U ind lead st (v : value T) :
  to_text U ind lead st v = let r := rd_value U ind lead st v in if snd r then Some (concat (fst r)) else None.
Proof.
  unfold to_text. rewrite write_value_feed. cbn zeta. rewrite feed_string. cbn [fst snd app andb]. reflexivity.
Qed.
