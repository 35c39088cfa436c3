(** * Props_Fmt: C04, C05, C10, C12, C13, C18, C19, C20 *)
From Verif Require Import Base Value Chars Parse Spec_Grammar ParseFacts ParseComplete Fmt Spec_Fmt FmtFacts FmtText FmtStrip FmtCustom.
Local Open Scope N_scope.

(** ** C04 *)
(** Any style, any white space indents, any text behind that does not prolong a number. *)
Theorem C04_text_roundtrip : forall (T : Type) U ind lead st (v : value T) rest, unicode_ok U -> ws ind -> ws lead ->
  text_ok (is_ident U) v = true -> not_followed_by num_continues rest ->
  exists t, to_text U ind lead st v = Some t /\ from_str U (t ++ rest) = (Ok (unsigned_form v), rest).
Proof. intros. now apply text_roundtrip. Qed.
Print Assumptions C04_text_roundtrip.

(** [v.to_string().parse()], [format!("{v:#}").parse()]: a value without non-negative signed numbers comes back itself. *)
Theorem C04_display_roundtrip : forall U alternate (v : value unit), unicode_ok U ->
  text_ok (is_ident U) v = true -> unsigned_form v = v ->
  exists t, display U alternate v = Some t /\ from_str U t = (Ok v, []).
Proof.
  intros U alternate v HU Hok Hv.
  destruct (text_roundtrip U (s2l "  ") [] (if alternate then Pretty 0 else Normal) v [] HU eq_refl eq_refl Hok I) as (t & H1 & H2).
  exists t. split; [exact H1|]. rewrite app_nil_r, Hv in H2. exact H2.
Qed.
Print Assumptions C04_display_roundtrip.

Definition sample_value : value unit :=
  named_composite [(s2l "a", vu128 12); (s2l "true b", vbool true); ([946], vi128 (-5));
                   (s2l "c", unnamed_variant (s2l "not ident") [vchar 39; vstring [34; 92; 0; 8364]; bit_sequence [true; false]]);
                   (s2l "d", named_variant (s2l "V1_x") []); (s2l "e", unnamed_composite [])].
Example C04_example : text_ok (is_ident sample_unicode) sample_value = true /\ unsigned_form sample_value = sample_value /\
  to_text sample_unicode (s2l " ") [] Compact sample_value <> to_text sample_unicode (s2l " ") [] (Pretty 1) sample_value.
Proof. repeat split; [vm_compute; discriminate]. Qed.

(** ** C05 *)
(** Every variant with a bare name starting with [true] or [false] is read as that boolean, the remaining characters are
    left over; and every non-negative signed number is read as an unsigned one. *)
Theorem C05_bool_like_variants_lost : forall (T : Type) U ind lead st n (c : composite (value T)) ctx t,
  is_ident U n = true -> bool_like n = true -> to_text U ind lead st (Val (DVariant n c) ctx) = Some t ->
  exists b rest, from_str U t = (Ok (vbool b), rest) /\ t = (if b : bool then s2l "true" else s2l "false") ++ rest.
Proof. intros. eapply bool_like_broken; eauto. Qed.
Print Assumptions C05_bool_like_variants_lost.

Theorem C05_nonneg_signed_becomes_unsigned : forall (T : Type) U st (ctx : T) z, unicode_ok U ->
  (0 <= z < 2 ^ 127)%Z ->
  exists t, to_text U [] [] st (Val (DPrim (PI128 z)) ctx) = Some t /\ from_str U t = (Ok (vu128 (Z.to_N z)), []).
Proof.
  intros T U st ctx z HU Hz.
  destruct (text_roundtrip U [] [] st (Val (DPrim (PI128 z)) ctx) [] HU eq_refl eq_refl) as (t & H1 & H2).
  - cbn [text_ok prim_wf]. lia.
  - exact I.
  - exists t. split; [exact H1|]. rewrite app_nil_r in H2. rewrite H2. cbn [unsigned_form unsign_prim].
    replace (0 <=? z)%Z with true by lia. reflexivity.
Qed.
Print Assumptions C05_nonneg_signed_becomes_unsigned.

(** The unrestricted claim is false: [trueish()] and [5i128]. *)
Theorem C05_unrestricted_roundtrip_refuted :
  (exists (v : value unit) t v' rest, display ascii_unicode false v = Some t /\ from_str ascii_unicode t = (Ok v', rest) /\ rest <> []) /\
  (exists (v : value unit) t v', display ascii_unicode false v = Some t /\ from_str ascii_unicode t = (Ok v', []) /\ v' <> v).
Proof.
  split.
  - exists (unnamed_variant (s2l "trueish") []). eexists _, _, _. split; [vm_compute; reflexivity|]. split; [vm_compute; reflexivity|]. discriminate.
  - exists (vi128 5). eexists _, _. split; [vm_compute; reflexivity|]. split; [vm_compute; reflexivity|]. vm_compute. discriminate.
Qed.
Print Assumptions C05_unrestricted_roundtrip_refuted.

(** ** C10 *)
Lemma builtin_string U total pv k t s rest : parse_string total t = (Ok s, rest) -> (exists r, t = c_dquote :: r) ->
  parse_builtin U total pv k t = (Ok (vstring s), rest).
Proof.
  intros H [r ->]. unfold parse_builtin. cbn [one_of]. unfold omap at 1, parse_bool, tokens. cbn [s2l strip_prefix].
  change (c_dquote =? ch "t") with false. change (c_dquote =? ch "f") with false. cbn [rmap].
  unfold omap at 1. rewrite parse_char_none by reflexivity. cbn [rmap]. unfold omap at 1. rewrite H. reflexivity.
Qed.
Lemma builtin_char U total pv k t s rest : parse_char total t = (Ok s, rest) -> (exists r, t = c_squote :: r) ->
  parse_builtin U total pv k t = (Ok (vchar s), rest).
Proof.
  intros H [r ->]. unfold parse_builtin. cbn [one_of]. unfold omap at 1, parse_bool, tokens. cbn [s2l strip_prefix].
  change (c_squote =? ch "t") with false. change (c_squote =? ch "f") with false. cbn [rmap].
  unfold omap at 1. rewrite H. reflexivity.
Qed.

(** Whatever text comes behind the literal. *)
Theorem C10_strings_and_chars : forall U s c rest,
  (exists t, display U false (vstring s) = Some t /\ from_str U (t ++ rest) = (Ok (vstring s), rest)) /\
  (exists t, display U false (vchar c) = Some t /\ from_str U (t ++ rest) = (Ok (vchar c), rest)).
Proof.
  intros U s c rest. split.
  - exists (concat (str_chunks s)). split.
    + unfold display. rewrite to_text_render. reflexivity.
    + pose proof (str_chunks_g s) as Hg. pose proof Hg as (b & _ & Eb).
      unfold from_str, parse_custom. cbn [parse_value run_customs].
      apply builtin_string; [now apply parse_string_complete|]. rewrite Eb. cbn [app]. eauto.
  - exists (concat (char_chunks c)). split.
    + unfold display. rewrite to_text_render. reflexivity.
    + pose proof (char_chunks_g c) as Hg.
      unfold from_str, parse_custom. cbn [parse_value run_customs].
      apply builtin_char; [now apply parse_char_complete|]. unfold char_chunks; cbn [concat app]; eauto.
Qed.
Print Assumptions C10_strings_and_chars.

Example C10_example : display ascii_unicode false (vstring [34; 92; 10; 8364]) = Some [34; 92; 34; 92; 92; 92; 110; 8364; 34].
Proof. reflexivity. Qed.

(** ** C12 *)
(** The pieces written depend on the value, the style and the indents only, not on the sink; the sink is given them one
    after the other up to and including the first one it refuses; all together they are the text. *)
Theorem C12_sink_sees_prefix : forall (T : Type) U ind lead st (v : value T),
  exists pieces, (forall t, to_text U ind lead st v = Some t -> concat pieces = t) /\
  forall (W : Type) (wr : W -> str -> W * bool) w w' ok, write_value U wr (plain_cfg ind lead) st v w = (w', ok) ->
    (ok = true <-> snd (feed wr w pieces) = true /\ to_text U ind lead st v <> None) /\
    (snd (feed wr w pieces) = true -> w' = fst (feed wr w pieces)) /\
    (snd (feed wr w pieces) = false ->
       exists written refused later w1, pieces = written ++ refused :: later /\
         feed wr w written = (w1, true) /\ wr w1 refused = (w', false)).
Proof.
  intros T U ind lead st v. exists (fst (rd_value U ind lead st v)). split.
  - intros t. rewrite to_text_render. cbn zeta. destruct (snd _); [|discriminate]. intro H; now injection H.
  - intros W wr w w' ok H. rewrite write_value_feed in H. cbn zeta in H. injection H as Hw Hok.
    split; [|split].
    + rewrite to_text_render. cbn zeta. rewrite <- Hok. destruct (snd (feed _ _ _)), (snd (rd_value _ _ _ _ _)); cbn; intuition congruence.
    + intros _. now symmetry.
    + intro Hf. rewrite <- Hw. revert w Hf Hw Hok. generalize (fst (rd_value U ind lead st v)) as ps.
      induction ps as [|p ps IH]; intros w Hf Hw Hok; cbn [feed] in *; [discriminate|].
      destruct (wr w p) as [w1 []] eqn:E.
      * destruct (IH w1 Hf Hw Hok) as (a & r & l & w2 & E1 & E2 & E3). exists (p :: a), r, l, w2.
        split; [now rewrite E1|]. split; [cbn [feed]; now rewrite E|exact E3].
      * exists [], p, ps, w. split; [reflexivity|]. split; [reflexivity|]. exact E.
Qed.
Print Assumptions C12_sink_sees_prefix.

(** A sink that refuses to hold more than [n] chars: what it holds is a prefix of the text. *)
Definition bounded_wr (n : nat) (w p : str) : str * bool :=
  if Nat.leb (length (w ++ p)) n then (w ++ p, true) else (w, false).
Lemma bounded_feed n ps : forall w, exists rest, w ++ concat ps = fst (feed (bounded_wr n) w ps) ++ rest /\
  (snd (feed (bounded_wr n) w ps) = true -> rest = []) /\
  ((length (w ++ concat ps) <= n)%nat -> snd (feed (bounded_wr n) w ps) = true) /\
  ((n < length (w ++ concat ps))%nat -> snd (feed (bounded_wr n) w ps) = true -> (length w > n)%nat).
Proof.
  induction ps as [|p ps IH]; intro w; cbn [feed concat].
  - exists []. rewrite app_nil_r. cbn. rewrite app_nil_r. repeat split; auto.
  - destruct (bounded_wr n w p) as [w' ok] eqn:E. unfold bounded_wr in E.
    destruct (Nat.leb_spec (length (w ++ p)) n) as [H|H]; injection E as <- <-.
    + destruct (IH (w ++ p)) as (r & H1 & H2 & H3 & H4). exists r. rewrite app_assoc.
      repeat split; auto. intros Ha Hb. specialize (H4 Ha Hb). lia.
    + exists (p ++ concat ps). cbn. split; [reflexivity|]. split; [discriminate|]. split; [|discriminate].
      intro Hl. rewrite !app_length in *. lia.
Qed.
Theorem C12_bounded_buffer : forall (T : Type) U ind lead st (v : value T) t n w ok,
  to_text U ind lead st v = Some t -> write_value U (bounded_wr n) (plain_cfg ind lead) st v [] = (w, ok) ->
  (ok = true <-> (length t <= n)%nat) /\ (ok = true -> w = t) /\ exists rest, t = w ++ rest.
Proof.
  intros T U ind lead st v t n w ok Ht H. rewrite write_value_feed in H. rewrite to_text_render in Ht. cbn zeta in *.
  destruct (snd (rd_value U ind lead st v)); [|discriminate]. injection Ht as Ht. injection H as Hw Hok.
  destruct (bounded_feed n (fst (rd_value U ind lead st v)) []) as (r & H1 & H2 & H3 & H4).
  cbn [app] in *. rewrite Ht, Hw in *. rewrite andb_true_r in Hok. rewrite Hok in *.
  split; [|split].
  - split; [|exact H3]. intro E. destruct (Nat.le_gt_cases (length t) n) as [G|G]; [exact G|].
    specialize (H4 G E). cbn in H4. lia.
  - intro E. rewrite (H2 E), app_nil_r in H1. now symmetry.
  - exists r. exact H1.
Qed.
Print Assumptions C12_bounded_buffer.

Example C12_example :
  write_value ascii_unicode (bounded_wr 6) (plain_cfg [] []) Normal (unnamed_composite [vu128 1; vu128 23; vu128 4]) [] = (s2l "(1, 23", false).
Proof. vm_compute. reflexivity. Qed.

(** ** C13 *)
(** The first formatter that answers decides: what it wrote, and whether it failed, is the result for the node. *)
Theorem C13_first_answer_decides : forall (T W : Type) U (wr : W -> str -> W * bool) cfg st before g after (v : value T) w w1 w2 ok,
  print_context cfg = None -> custom_formatters cfg = before ++ g :: after ->
  decline_all before v w = Some w1 -> g v w1 = (Some ok, w2) ->
  write_value U wr cfg st v w = (w2, ok).
Proof. intros. eapply write_value_first; eauto. Qed.
Print Assumptions C13_first_answer_decides.

(** Formatters that decline everything change nothing. *)
Theorem C13_declining_is_default : forall (T W : Type) U (wr : W -> str -> W * bool) ind lead fs st (v : value T) w,
  Forall (fun g : value T -> W -> option bool * W => forall v w, g v w = (None, w)) fs ->
  write_value U wr {| indent_by := ind; leading_indent := lead; custom_formatters := fs; print_context := None |} st v w =
  write_value U wr (plain_cfg ind lead) st v w.
Proof.
  intros T W U wr ind lead fs st v w HF. unfold write_value.
  rewrite (aeq_value U wr {| indent_by := ind; leading_indent := lead; custom_formatters := fs; print_context := None |} (plain_cfg ind lead)); auto.
Qed.
Print Assumptions C13_declining_is_default.

(** At every depth: a formatter that answers exactly on the nodes selected by [p], writing for each what the default
    formatter writes for [h] of it (at whatever indentation, in the pretty style), has the effect of formatting the value
    with the topmost selected nodes replaced. *)
Theorem C13_every_node : forall (T : Type) U ind lead (p : value T -> bool) h txt st (v : value T),
  (forall st' v, same_kind st st' -> p v = true -> to_text U ind lead st' (h v) = Some (txt v)) ->
  custom_text U (sel_cfg ind lead p txt) st v = to_text U ind lead st (replace p h v).
Proof. intros. now apply custom_replace. Qed.
Print Assumptions C13_every_node.

Definition is_bool_node (v : value unit) : bool := match v with Val (DPrim (PBool _)) _ => true | _ => false end.
Example C13_example :
  custom_text ascii_unicode (sel_cfg [] [] is_bool_node (fun _ => s2l "'b'")) Normal
    (unnamed_composite [vbool true; unnamed_variant (s2l "A") [vu128 1; vbool false]]) = Some (s2l "('b', A (1, 'b'))") /\
  (forall st' (v : value unit), same_kind Normal st' -> is_bool_node v = true -> to_text ascii_unicode [] [] st' (vchar 98) = Some (s2l "'b'")).
Proof. split; [vm_compute; reflexivity|]. intros; reflexivity. Qed.

(** ** C18 *)
Theorem C18_styles_differ_in_white_space : forall (T : Type) U ind lead st ind' lead' st' (v : value T) t t', unicode_ok U ->
  ws ind -> ws lead -> ws ind' -> ws lead' ->
  to_text U ind lead st v = Some t -> to_text U ind' lead' st' v = Some t' -> strip_spaces t = strip_spaces t'.
Proof.
  intros T U ind lead st ind' lead' st' v t t' HU H1 H2 H3 H4 E1 E2.
  pose proof (styles_strip _ _ _ _ _ _ HU H1 H2 E1) as G1. pose proof (styles_strip _ _ _ _ _ _ HU H3 H4 E2) as G2.
  rewrite (compact_indents _ _ _ ind' lead'), G2 in G1. now injection G1.
Qed.
Print Assumptions C18_styles_differ_in_white_space.

(** The compact style contains no white space outside literals. *)
Theorem C18_compact_is_stripped : forall (T : Type) U ind lead (v : value T) t, unicode_ok U -> ws ind -> ws lead ->
  to_text U ind lead Compact v = Some t -> strip_spaces t = t.
Proof.
  intros T U ind lead v t HU H1 H2 E. pose proof (styles_strip _ _ _ _ _ _ HU H1 H2 E) as G. rewrite E in G. now injection G as <-.
Qed.
Print Assumptions C18_compact_is_stripped.

Example C18_example :
  to_text sample_unicode (s2l "  ") [] Normal (named_composite [(s2l "a b", unnamed_variant (s2l "X") [vstring (s2l "p ""q")])]) =
    Some (s2l "{ ""a b"": X (""p \""q"") }") /\
  to_text sample_unicode (s2l "  ") [] Compact (named_composite [(s2l "a b", unnamed_variant (s2l "X") [vstring (s2l "p ""q")])]) =
    Some (s2l "{""a b"":X(""p \""q"")}").
Proof. split; vm_compute; reflexivity. Qed.

(** ** C19 *)
Inductive has_256 {T} : value T -> Prop :=
| H256_u : forall n ctx, has_256 (Val (DPrim (PU256 n)) ctx)
| H256_i : forall n ctx, has_256 (Val (DPrim (PI256 n)) ctx)
| H256_comp : forall c ctx v, In v (values c) -> has_256 v -> has_256 (Val (DComposite c) ctx)
| H256_var : forall n c ctx v, In v (values c) -> has_256 v -> has_256 (Val (DVariant n c) ctx).

Lemma no_256_false {T} (v : value T) : no_256 v = false <-> has_256 v.
Proof.
  assert (G : forall (l : list (value T)), Forall (fun v => no_256 v = false <-> has_256 v) l ->
            (forallb no_256 l = false <-> exists v, In v l /\ has_256 v)).
  { induction 1 as [|x l Hx HF IH]; cbn [forallb].
    - split; [discriminate|]. intros (? & [] & _).
    - rewrite andb_false_iff, Hx, IH. split.
      + intros [Hh|(y & Hy & Hh)]; [exists x|exists y]; cbn; auto.
      + intros (y & [->|Hy] & Hh); [auto|right; eauto]. }
  induction v as [l ctx IH|l ctx IH|n l ctx IH|n l ctx IH|b ctx|p ctx] using value_ind4; cbn [no_256].
  - rewrite <- forallb_map with (f := snd). rewrite G by now rewrite Forall_map.
    split; [intros (y & Hy & Hh); eapply H256_comp; eauto|]. inversion 1; subst; eauto.
  - rewrite G by assumption. split; [intros (y & Hy & Hh); eapply H256_comp; eauto|]. inversion 1; subst; eauto.
  - rewrite <- forallb_map with (f := snd). rewrite G by now rewrite Forall_map.
    split; [intros (y & Hy & Hh); eapply H256_var; eauto|]. inversion 1; subst; eauto.
  - rewrite G by assumption. split; [intros (y & Hy & Hh); eapply H256_var; eauto|]. inversion 1; subst; eauto.
  - split; [discriminate|]. inversion 1.
  - destruct p; split; try discriminate; try (inversion 1; fail); constructor.
Qed.

Theorem C19_fails_iff_256 : forall (T : Type) U ind lead st (v : value T),
  to_text U ind lead st v = None <-> has_256 v.
Proof.
  intros. rewrite to_text_render, <- no_256_false. cbn zeta. rewrite rd_value_ok. destruct (no_256 v); split; congruence.
Qed.
Print Assumptions C19_fails_iff_256.

Example C19_example : to_text ascii_unicode [] [] Normal (unnamed_composite [vu128 1; primitive (PU256 (repeat 0 32))]) = None.
Proof. reflexivity. Qed.

(** ** C20 *)
Theorem C20_numbers_exact : forall (T : Type) U ind lead st (ctx : T),
  (forall n, exists t, to_text U ind lead st (Val (DPrim (PU128 n)) ctx) = Some t /\
     forallb is_digit t = true /\ dec_value t = n /\ (forall r, t = 48 :: r -> t = [48]) /\ t <> []) /\
  (forall z, exists t, to_text U ind lead st (Val (DPrim (PI128 z)) ctx) = Some ((if (z <? 0)%Z then [c_minus] else []) ++ t) /\
     forallb is_digit t = true /\ Z.of_N (dec_value t) = Z.abs z /\ (forall r, t = 48 :: r -> t = [48]) /\ t <> []).
Proof.
  intros T U ind lead st ctx. split.
  - intro n. destruct (show_N_spec n) as (d & r & E & H1 & H2 & H3). exists (d :: r). split.
    + rewrite to_text_render. cbn zeta. cbn [rd_value rd_def rd_prim rok fst snd concat]. now rewrite app_nil_r, E.
    + repeat split; auto; [|discriminate]. intros r' Er; injection Er as -> ->. now destruct (H3 eq_refl) as [-> _].
  - intro z. destruct (show_N_spec (Z.abs_N z)) as (d & r & E & H1 & H2 & H3). exists (d :: r). split.
    + rewrite to_text_render. cbn zeta. cbn [rd_value rd_def rd_prim rok fst snd]. unfold int_chunks. rewrite E.
      destruct (z <? 0)%Z; cbn [concat app]; now rewrite app_nil_r.
    + repeat split; auto; [rewrite H2; lia| |discriminate]. intros r' Er; injection Er as -> ->. now destruct (H3 eq_refl) as [-> _].
Qed.
Print Assumptions C20_numbers_exact.

Example C20_example :
  to_text ascii_unicode [] [] Normal (vi128 (- 2 ^ 127)) = Some (s2l "-170141183460469231731687303715884105728") /\
  to_text ascii_unicode [] [] Normal (vu128 (2 ^ 128 - 1)) = Some (s2l "340282366920938463463374607431768211455").
Proof. split; vm_compute; reflexivity. Qed.
