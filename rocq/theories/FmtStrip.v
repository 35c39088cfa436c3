(** * FmtStrip: styles differ in white space only; custom formatters; names that break the round trip. *)
From Verif Require Import Base Value ValueFacts Chars Spec_Grammar Parse ParseFacts ParseComplete ParseSound ParseNum Fmt Spec_Fmt FmtFacts FmtText.
Local Open Scope N_scope.

Definition neutral (t out : str) : Prop := forall rest, strip Outside (t ++ rest) = out ++ strip Outside rest.

Lemma neutral_nil : neutral [] [].
Proof. intro; reflexivity. Qed.
Lemma neutral_app a a' b b' : neutral a a' -> neutral b b' -> neutral (a ++ b) (a' ++ b').
Proof. intros Ha Hb rest. rewrite <- !app_assoc, Ha, Hb. reflexivity. Qed.
Lemma neutral_ws t : ws t -> neutral t [].
Proof.
  intros H rest. unfold ws in H. induction t as [|c t IH]; cbn in *; [reflexivity|].
  apply andb_true_iff in H as [H1 H2]. rewrite H1. now apply IH.
Qed.
Definition plain_char (c : char) : bool := negb (is_whitespace c) && negb ((c =? c_dquote) || (c =? c_squote)).
Lemma neutral_plain t : forallb plain_char t = true -> neutral t t.
Proof.
  intros H rest. induction t as [|c t IH]; cbn in *; [reflexivity|].
  apply andb_true_iff in H as [H1 H2]. apply andb_true_iff in H1 as [H0 H1].
  apply negb_true_iff in H0, H1. rewrite H0, H1. f_equal. now apply IH.
Qed.

Lemma inside_esc q c rest : q = c_dquote \/ q = c_squote ->
  strip (Inside q) (concat (esc_chunks c) ++ rest) = concat (esc_chunks c) ++ strip (Inside q) rest.
Proof.
  intro Hq. unfold esc_chunks. destruct (to_escape_code c) as [e|] eqn:E; cbn [concat app].
  - cbn [strip]. rewrite N.eqb_refl. reflexivity.
  - apply to_escape_none in E as (H1 & H2 & H3). cbn [strip].
    replace (c =? c_bslash) with false by (symmetry; apply N.eqb_neq; exact H1).
    replace (c =? q) with false; [reflexivity|]. symmetry; apply N.eqb_neq.
    destruct Hq as [->| ->]; assumption.
Qed.

Lemma neutral_quoted q body : q = c_dquote \/ q = c_squote ->
  (forall rest, strip (Inside q) (body ++ rest) = body ++ strip (Inside q) rest) ->
  neutral ([q] ++ body ++ [q]) ([q] ++ body ++ [q]).
Proof.
  intros Hq H rest. cbn [app]. rewrite <- app_assoc. cbn [app strip].
  assert (E : is_whitespace q = false /\ (q =? c_dquote) || (q =? c_squote) = true /\ (q =? c_bslash) = false).
  { destruct Hq as [->| ->]; repeat split. }
  destruct E as (-> & -> & E3). rewrite H. cbn [strip]. rewrite E3, N.eqb_refl. now rewrite <- app_assoc.
Qed.

Lemma neutral_string s : neutral (concat (str_chunks s)) (concat (str_chunks s)).
Proof.
  unfold str_chunks. rewrite !concat_app. apply (neutral_quoted c_dquote); [auto|].
  induction s as [|c s IH]; intro rest; cbn [flat_map]; [reflexivity|].
  rewrite concat_app, <- !app_assoc. rewrite inside_esc by auto. f_equal. apply IH.
Qed.
Lemma neutral_char c : neutral (concat (char_chunks c)) (concat (char_chunks c)).
Proof.
  unfold char_chunks. rewrite !concat_app. apply (neutral_quoted c_squote); [auto|].
  intro rest. apply inside_esc. auto.
Qed.

Lemma digits_plain t : forallb is_digit t = true -> forallb plain_char t = true.
Proof.
  rewrite !forallb_forall. intros H x Hx. specialize (H x Hx). unfold is_digit, plain_char, is_whitespace, c_dquote, c_squote in *. lia.
Qed.
Lemma show_N_plain n : forallb plain_char (show_N n) = true.
Proof. destruct (show_N_spec n) as (d & r & -> & H & _). now apply digits_plain. Qed.

Section Strip.
  Context {T : Type} (U : unicode) (HU : unicode_ok U) (ind lead : str) (Hind : ws ind) (Hlead : ws lead).

  Lemma ident_plain n : is_ident U n = true -> forallb plain_char n = true.
  Proof.
    assert (Hc : forall c, is_alphanumeric U c || (c =? c_under) = true -> plain_char c = true).
    { intros c H. unfold plain_char. apply andb_true_iff. split; apply negb_true_iff.
      - apply orb_true_iff in H as [H|H]; [now apply HU|]. apply N.eqb_eq in H as ->. reflexivity.
      - apply orb_false_iff. split; apply N.eqb_neq; intros ->; cbn in H; discriminate. }
    unfold is_ident. destruct n as [|c n]; [discriminate|]. intro H. apply andb_true_iff in H as [H1 H2].
    cbn [forallb]. rewrite Hc; [|unfold is_alphanumeric; now rewrite H1]. cbn.
    rewrite forallb_forall in *. intros x Hx. apply Hc. now apply H2.
  Qed.

  Lemma neutral_name n : neutral (concat (name_chunks U n)) (concat (name_chunks U n)).
  Proof.
    unfold name_chunks. destruct (is_ident U n) eqn:E; [|apply neutral_string].
    cbn. rewrite app_nil_r. now apply neutral_plain, ident_plain.
  Qed.
  Lemma neutral_vname n : neutral (concat (vname_chunks U n)) (concat (vname_chunks U n)).
  Proof.
    unfold vname_chunks. destruct (is_ident U n) eqn:E.
    - cbn. rewrite app_nil_r. now apply neutral_plain, ident_plain.
    - cbn [concat]. apply neutral_app; [now apply neutral_plain|apply neutral_string].
  Qed.

  Lemma neutral_items {A} (r1 r2 : A -> rd) st l :
    Forall (fun x => snd (r1 x) = true /\ snd (r2 x) = true /\ neutral (concat (fst (r1 x))) (concat (fst (r2 x)))) l ->
    neutral (concat (fst (rd_items ind lead r1 st l))) (concat (fst (rd_items ind lead r2 Compact l))).
  Proof.
    destruct l as [|a l]; intro H; [apply neutral_nil|].
    revert a H; induction l as [|b l IH]; intros a H; inversion_clear H as [|? ? (H1 & H2 & H3) Hl].
    - rewrite !rd_items_one, !rseq_text by assumption. now apply neutral_app.
    - rewrite !rd_items_cons, !rseq_text by (assumption || reflexivity). cbn [rok fst isep].
      apply neutral_app; [exact H3|]. apply neutral_app; [|now apply IH].
      change (concat (s2l "," :: isep ind lead st)) with ([c_comma] ++ concat (isep ind lead st)).
      change (concat [s2l ","]) with ([c_comma] ++ []).
      apply neutral_app; [now apply neutral_plain|]. now apply neutral_ws, isep_ws.
  Qed.

  Lemma neutral_composite (r1 r2 : value T -> rd) st c :
    Forall (fun x => snd (r1 x) = true /\ snd (r2 x) = true /\ neutral (concat (fst (r1 x))) (concat (fst (r2 x)))) (values c) ->
    neutral (concat (fst (rd_composite U ind lead st r1 c))) (concat (fst (rd_composite U ind lead Compact r2 c))).
  Proof.
    destruct c as [[|a l]|[|a l]]; intro H; try (now apply neutral_plain).
    - cbn [values] in H. rewrite Forall_map in H. cbn [rd_composite].
      assert (Hf : Forall (fun kv => snd (rd_field U (ins st) r1 kv) = true /\ snd (rd_field U (ins Compact) r2 kv) = true /\
                  neutral (concat (fst (rd_field U (ins st) r1 kv))) (concat (fst (rd_field U (ins Compact) r2 kv)))) (a :: l)).
      { eapply Forall_impl; [|exact H]. intros kv (H1 & H2 & H3). unfold rd_field.
        rewrite !rseq_true, !rseq_text by reflexivity. split; [exact H1|]. split; [exact H2|].
        apply neutral_app; [|exact H3]. cbn [rok fst ins sp]. rewrite !concat_app.
        apply neutral_app; [apply neutral_name|]. apply neutral_app; [now apply neutral_plain|]. apply neutral_ws, sp_ws. }
      assert (Hok1 : snd (rd_items ind lead (rd_field U (ins st) r1) (ins st) (a :: l)) = true).
      { rewrite rd_items_ok. apply forallb_forall. rewrite Forall_forall in Hf. intros; now apply Hf. }
      assert (Hok2 : snd (rd_items ind lead (rd_field U (ins Compact) r2) (ins Compact) (a :: l)) = true).
      { rewrite rd_items_ok. apply forallb_forall. rewrite Forall_forall in Hf. intros; now apply Hf. }
      rewrite !rseq_text by (assumption || reflexivity). cbn [rok fst ins isep app].
      apply neutral_app.
      { apply (neutral_app [c_lbrace] [c_lbrace] _ []); [now apply neutral_plain|]. now apply neutral_ws, isep_ws. }
      apply neutral_app; [now apply neutral_items|]. rewrite concat_app.
      apply (neutral_app _ [] _ [c_rbrace]); [now apply neutral_ws, isep_ws|now apply neutral_plain].
    - cbn [values] in H. cbn [rd_composite].
      assert (Hok1 : snd (rd_items ind lead r1 (ins st) (a :: l)) = true).
      { rewrite rd_items_ok. apply forallb_forall. rewrite Forall_forall in H. intros; now apply H. }
      assert (Hok2 : snd (rd_items ind lead r2 (ins Compact) (a :: l)) = true).
      { rewrite rd_items_ok. apply forallb_forall. rewrite Forall_forall in H. intros; now apply H. }
      rewrite !rseq_text by (assumption || reflexivity). cbn [rok fst ins nl app].
      apply neutral_app.
      { apply (neutral_app [c_lpar] [c_lpar] _ []); [now apply neutral_plain|]. now apply neutral_ws, nl_ws. }
      apply neutral_app; [now apply neutral_items|]. rewrite concat_app.
      apply (neutral_app _ [] _ [c_rpar]); [now apply neutral_ws, nl_ws|now apply neutral_plain].
  Qed.

  Lemma neutral_value (v : value T) : no_256 v = true -> forall st,
    neutral (concat (fst (rd_value U ind lead st v))) (concat (fst (rd_value U ind lead Compact v))).
  Proof.
    induction v as [l ctx IH|l ctx IH|n l ctx IH|n l ctx IH|b ctx|p ctx] using value_ind4; cbn [no_256]; intros H st;
      cbn [rd_value rd_def].
    - apply neutral_composite. cbn [values]. rewrite Forall_map, Forall_forall. rewrite Forall_forall in IH. rewrite forallb_forall in H.
      intros kv Hkv. rewrite !rd_value_ok. repeat split; auto.
    - apply neutral_composite. cbn [values]. rewrite Forall_forall. rewrite Forall_forall in IH. rewrite forallb_forall in H.
      intros kv Hkv. rewrite !rd_value_ok. repeat split; auto.
    - rewrite !rseq_text by reflexivity. cbn [rok fst]. rewrite !concat_app. apply neutral_app.
      { apply neutral_app; [apply neutral_vname|]. apply neutral_ws, sp_ws. }
      apply neutral_composite. cbn [values]. rewrite Forall_map, Forall_forall. rewrite Forall_forall in IH. rewrite forallb_forall in H.
      intros kv Hkv. rewrite !rd_value_ok. repeat split; auto.
    - rewrite !rseq_text by reflexivity. cbn [rok fst]. rewrite !concat_app. apply neutral_app.
      { apply neutral_app; [apply neutral_vname|]. apply neutral_ws, sp_ws. }
      apply neutral_composite. cbn [values]. rewrite Forall_forall. rewrite Forall_forall in IH. rewrite forallb_forall in H.
      intros kv Hkv. rewrite !rd_value_ok. repeat split; auto.
    - cbn [rok fst]. rewrite bits_chunks_text. apply neutral_plain. cbn [forallb app]. rewrite forallb_app. cbn.
      replace (forallb plain_char (map _ b)) with true; [reflexivity|]. symmetry.
      induction b as [|[] b IHb]; cbn; auto.
    - destruct p as [[]|c|s|n|z|b|b]; cbn [rd_prim rok fst]; try discriminate; try (now apply neutral_plain).
      + apply neutral_char.
      + apply neutral_string.
      + cbn [concat]. rewrite app_nil_r. apply neutral_plain, show_N_plain.
      + unfold int_chunks. destruct (z <? 0)%Z; cbn [concat]; rewrite app_nil_r.
        * apply neutral_app; [now apply neutral_plain|apply neutral_plain, show_N_plain].
        * apply neutral_plain, show_N_plain.
  Qed.
End Strip.

Lemma styles_strip {T} U ind lead st (v : value T) t : unicode_ok U -> ws ind -> ws lead ->
  to_text U ind lead st v = Some t -> to_text U ind lead Compact v = Some (strip_spaces t).
Proof.
  intros HU Hi Hl. rewrite !to_text_render. cbn zeta. rewrite !rd_value_ok. destruct (no_256 v) eqn:E; [|discriminate].
  intro H; injection H as <-. f_equal.
  pose proof (neutral_value U HU ind lead Hi Hl v E st []) as HN. cbn [strip] in HN. rewrite !app_nil_r in HN. now symmetry.
Qed.

(** Indents do not matter in compact style. *)
Lemma compact_indents {T} U ind lead ind' lead' (v : value T) :
  to_text U ind lead Compact v = to_text U ind' lead' Compact v.
Proof.
  rewrite !to_text_render. cbn zeta.
  assert (HC : forall (r1 r2 : value T -> rd) c, Forall (fun x => r1 x = r2 x) (values c) ->
     rd_composite U ind lead Compact r1 c = rd_composite U ind' lead' Compact r2 c).
  { intros r1 r2 [[|a l]|[|a l]] H; try reflexivity; cbn [rd_composite values ins isep nl rd_items] in *.
    - rewrite Forall_map in H. inversion_clear H as [|? ? Ha Hl]. unfold rd_field at 1 3. rewrite Ha. do 4 f_equal.
      apply map_ext_Forall. eapply Forall_impl; [|exact Hl]. intros kv Hk. unfold rd_field. now rewrite Hk.
    - inversion_clear H as [|? ? Ha Hl]. rewrite Ha. do 4 f_equal.
      apply map_ext_Forall. eapply Forall_impl; [|exact Hl]. intros kv Hk. now rewrite Hk. }
  assert (HV : forall v : value T, rd_value U ind lead Compact v = rd_value U ind' lead' Compact v).
  { induction v0 as [d ctx IH] using value_ind'. cbn [rd_value ins]. destruct d as [c|n c|b|p]; cbn [rd_def children] in *; try reflexivity.
    - now apply HC.
    - f_equal. now apply HC. }
  now rewrite HV.
Qed.

(** ** Bool-like names *)
Lemma bool_like_text {T} U ind lead st n (c : composite (value T)) ctx t : is_ident U n = true ->
  to_text U ind lead st (Val (DVariant n c) ctx) = Some t -> exists r, t = n ++ r.
Proof.
  intros Hn. rewrite to_text_render. cbn zeta. rewrite rd_value_ok. destruct (no_256 _); [|discriminate].
  intro H; injection H as <-. cbn [rd_value rd_def]. unfold rseq, rok, vname_chunks. cbn [fst snd].
  rewrite Hn, !concat_app. cbn [concat]. rewrite app_nil_r, <- app_assoc. eauto.
Qed.

Lemma from_str_bool U b rest : from_str U ((if b : bool then s2l "true" else s2l "false") ++ rest) = (Ok (vbool b), rest).
Proof.
  unfold from_str, parse_custom. cbn [parse_value run_customs]. unfold parse_builtin. cbn [one_of]. unfold omap at 1, parse_bool, tokens.
  destruct b.
  - now rewrite strip_prefix_app.
  - replace (strip_prefix (s2l "true") (s2l "false" ++ rest)) with (@None (list N)) by reflexivity. now rewrite strip_prefix_app.
Qed.

Lemma bool_like_broken {T} U ind lead st n (c : composite (value T)) ctx t :
  is_ident U n = true -> bool_like n = true -> to_text U ind lead st (Val (DVariant n c) ctx) = Some t ->
  exists b rest, from_str U t = (Ok (vbool b), rest) /\ t = (if b : bool then s2l "true" else s2l "false") ++ rest.
Proof.
  intros Hn Hb Ht. apply bool_like_text in Ht as [r ->]; [|exact Hn]. unfold bool_like in Hb.
  apply orb_true_iff in Hb as [Hb|Hb]; apply has_prefix_starts in Hb as [x ->]; rewrite <- app_assoc.
  - exists true, (x ++ r). split; [apply (from_str_bool U true)|reflexivity].
  - exists false, (x ++ r). split; [apply (from_str_bool U false)|reflexivity].
Qed.

(** ** Custom formatters *)
(** A formatter that writes [txt v] for the nodes selected by [p], and declines the others. *)
Definition sel_formatter {T} (p : value T -> bool) (txt : value T -> str) : value T -> str -> option bool * str :=
  fun v w => if p v then (Some true, w ++ txt v) else (None, w).

(** Replace the topmost nodes selected by [p]. *)
Fixpoint replace {T} (p : value T -> bool) (h : value T -> value T) (v : value T) {struct v} : value T :=
  if p v then h v else
  match v with
  | Val d ctx =>
      Val (match d with
           | DComposite (Named l) => DComposite (Named (map (fun kv => (fst kv, replace p h (snd kv))) l))
           | DComposite (Unnamed l) => DComposite (Unnamed (map (replace p h) l))
           | DVariant n (Named l) => DVariant n (Named (map (fun kv => (fst kv, replace p h (snd kv))) l))
           | DVariant n (Unnamed l) => DVariant n (Unnamed (map (replace p h) l))
           | d => d
           end) ctx
  end.
