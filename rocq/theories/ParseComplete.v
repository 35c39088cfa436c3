(** * ParseComplete: every text of the grammar is parsed to the value it denotes. *)
From Verif Require Import Base Value Chars Parse Spec_Grammar ParseFacts.
Local Open Scope N_scope.

Section Complete.
  Context (U : unicode) (HU : unicode_ok U) (total : N) (customs : list cparser) (X : value unit -> str -> Prop).
  Context (F : char -> bool).
  Context (HFnum : forall c, num_continues c = true -> F c = true).
  Context (HFws : forall c, is_whitespace c = true -> F c = false).
  Context (HFcomma : F c_comma = false) (HFrpar : F c_rpar = false) (HFrbrace : F c_rbrace = false).
  Context (HXok : forall v t rest, X v t -> not_followed_by F rest ->
     exists cur, run_customs customs (t ++ rest) = Some (Ok v, cur) /\ wind_forward (t ++ rest) cur = rest).
  Context (HXhead : forall v t, X v t ->
     exists c r, t = c :: r /\ is_whitespace c = false /\ c <> c_rpar /\ c <> c_rbrace).
  Context (HXno : forall v t rest, g_val U X v t -> not_followed_by F rest ->
     run_customs customs (t ++ rest) = None \/ X v t).

  Definition headed (t : str) : Prop :=
    exists c r, t = c :: r /\ is_whitespace c = false /\ c <> c_rpar /\ c <> c_rbrace.

  Lemma alpha_not_special c : is_alphabetic U c = true ->
    is_whitespace c = false /\ c <> c_rpar /\ c <> c_rbrace /\ c <> c_lpar /\ c <> c_lbrace /\ c <> c_lt /\
    c <> c_dquote /\ c <> c_squote /\ (is_digit c || (c =? c_plus) || (c =? c_minus)) = false.
  Proof.
    intro H. split; [apply HU; unfold is_alphanumeric; now rewrite H|].
    unfold is_alphabetic, is_ascii_alpha, is_digit, c_rpar, c_rbrace, c_lpar, c_lbrace, c_lt, c_dquote, c_squote,
      c_plus, c_minus in *. destruct (c <? 128) eqn:E; lia.
  Qed.

  Lemma g_ident_headed n : g_ident U n -> headed n.
  Proof.
    intros (c & r & -> & Hc & _). exists c, r. pose proof (alpha_not_special c Hc). tauto.
  Qed.

  Lemma g_string_headed s t : g_string s t -> headed t.
  Proof. intros (b & _ & ->). exists c_dquote, (b ++ [c_dquote]). repeat split; discriminate. Qed.

  Lemma g_digits_headed n t : g_digits n t -> headed t.
  Proof.
    intros (d & r & -> & Hd & _). exists d, r. unfold is_digit, is_whitespace, c_rpar, c_rbrace in *.
    repeat split; lia.
  Qed.

  Lemma g_comp_head c t : g_comp U X c t ->
    match c with Named _ => exists r, t = c_lbrace :: r | Unnamed _ => exists r, t = c_lpar :: r end.
  Proof. intros []; cbn; eauto. Qed.

  Lemma g_val_headed v t : g_val U X v t -> headed t.
  Proof.
    intros [].
    - exists 116, (s2l "rue"). repeat split; discriminate.
    - exists 102, (s2l "alse"). repeat split; discriminate.
    - destruct H; eexists _, _; repeat split; discriminate.
    - eapply g_string_headed; eauto.
    - destruct H as [? ? H|? ? H|? ? H]; [eapply g_digits_headed; eauto| |]; eexists _, _; repeat split; discriminate.
    - eexists _, _; repeat split; discriminate.
    - apply g_comp_head in H. destruct c; destruct H as [r ->]; eexists _, _; repeat split; discriminate.
    - destruct H as [n Hi|n s Hs].
      + apply g_ident_headed in Hi as (x & r & -> & Hx). exists x, (r ++ w ++ t0). split; [reflexivity|exact Hx].
      + eexists _, _; repeat split; discriminate.
    - now apply HXhead in H.
  Qed.

  Lemma g_field_name_headed n t : g_field_name U n t -> headed t.
  Proof. intros [? H|? ? H]; [eapply g_ident_headed|eapply g_string_headed]; eauto. Qed.

  Lemma headed_app t r : headed t -> headed (t ++ r).
  Proof. intros (c & x & -> & H). exists c, (x ++ r). split; [reflexivity|exact H]. Qed.

  Lemma headed_nws t : headed t -> not_followed_by is_whitespace t.
  Proof. intros (c & x & -> & H & _). exact H. Qed.
  Lemma headed_nrpar t : headed t -> not_followed_by (N.eqb c_rpar) t.
  Proof. intros (c & x & -> & _ & H & _). cbn [not_followed_by]. apply N.eqb_neq. congruence. Qed.
  Lemma headed_nrbrace t : headed t -> not_followed_by (N.eqb c_rbrace) t.
  Proof. intros (c & x & -> & _ & _ & H). cbn [not_followed_by]. apply N.eqb_neq. congruence. Qed.

  Lemma nfb_ws_then w c r (p : char -> bool) :
    ws w -> (forall x, is_whitespace x = true -> p x = false) -> p c = false -> not_followed_by p (w ++ c :: r).
  Proof.
    intros Hw Hp Hc. destruct w as [|x w]; [exact Hc|]. cbn. apply Hp. unfold ws in Hw. cbn in Hw.
    now apply andb_true_iff in Hw.
  Qed.

  Lemma ws_not_alnum c : is_whitespace c = true -> is_alphanumeric U c || (c =? c_under) = false.
  Proof.
    intro H. destruct (is_alphanumeric U c) eqn:E; [apply HU in E; congruence|].
    cbn. unfold is_whitespace, c_under in *. lia.
  Qed.

  Lemma punct_not_alnum c : In c [c_colon; c_lbrace; c_lpar; c_rbrace; c_rpar; c_comma; c_dquote] ->
    is_alphanumeric U c || (c =? c_under) = false.
  Proof. cbn. intros H. repeat destruct H as [<-|H]; try reflexivity. contradiction. Qed.

  Definition pv (k : nat) := parse_value U total customs k.

  (** Goals of the mutual induction. *)
  Definition P_val (v : value unit) (t : str) : Prop := forall rest fuel,
    not_followed_by F rest -> blen (t ++ rest) <= total -> (length (t ++ rest) < fuel)%nat ->
    pv fuel (t ++ rest) = (Ok v, rest).

  Definition P_comp (c : composite (value unit)) (t : str) : Prop := forall rest k,
    blen (t ++ rest) <= total -> (length (t ++ rest) <= k)%nat ->
    match c with
    | Named _ => parse_named_composite U total (pv k) k (t ++ rest) = (Ok c, rest)
    | Unnamed _ => parse_unnamed_composite total (pv k) k (t ++ rest) = (Ok c, rest)
    end.

  Definition P_sep {A} (item : nat -> str -> pres A) (l : list A) (t : str) : Prop := forall rest k kf acc,
    not_followed_by F rest -> fst (skip_spaced_separator c_comma rest) = false ->
    blen (t ++ rest) <= total -> (length (t ++ rest) < k)%nat -> (length (t ++ rest) < kf)%nat ->
    match item k (t ++ rest) with
    | (Ok a, t1) => sep_rest kf (item k) t1 (a :: acc)
    | (Err e, t1) => (Err e, t1)
    end = (Ok (rev acc ++ l), rest).

  Definition P_items := P_sep pv.
  Definition P_fields := P_sep (fun k => parse_field_name_and_value U total (pv k)).

  Lemma sep_by_P {A} (item : nat -> str -> pres A) l t rest k kf :
    P_sep item l t ->
    not_followed_by F rest -> fst (skip_spaced_separator c_comma rest) = false ->
    blen (t ++ rest) <= total -> (length (t ++ rest) < k)%nat -> (length (t ++ rest) < kf)%nat ->
    sep_by kf (item k) (t ++ rest) = (Ok l, rest).
  Proof.
    intros H H1 H2 H3 H4 H5. specialize (H rest k kf [] H1 H2 H3 H4 H5). cbn in H.
    unfold sep_by. destruct (item k (t ++ rest)) as [[a|e] t1]; [exact H|congruence].
  Qed.

  Lemma delimited_empty {A} op cl k (item : str -> pres A) w rest :
    ws w -> is_whitespace cl = false ->
    parse_delimited total op cl k item (([op] ++ w ++ [cl]) ++ rest) = (Ok [], rest).
  Proof.
    intros Hw Hcl. unfold parse_delimited. cbn [app]. rewrite token_hit. cbn [negb].
    rewrite <- app_assoc, skip_ws_app by (auto; exact Hcl). cbn [app]. now rewrite token_hit.
  Qed.

  Lemma delimited_full {A} op cl k kf (item : nat -> str -> pres A) w1 l t w2 rest :
    P_sep item l t -> headed t -> not_followed_by (N.eqb cl) t ->
    ws w1 -> ws w2 -> is_whitespace cl = false -> F cl = false -> (cl =? c_comma) = false ->
    blen (([op] ++ w1 ++ t ++ w2 ++ [cl]) ++ rest) <= total ->
    (length (([op] ++ w1 ++ t ++ w2 ++ [cl]) ++ rest) <= k)%nat ->
    (length (([op] ++ w1 ++ t ++ w2 ++ [cl]) ++ rest) <= kf)%nat ->
    parse_delimited total op cl kf (item k) (([op] ++ w1 ++ t ++ w2 ++ [cl]) ++ rest) = (Ok l, rest).
  Proof.
    intros HP Hh Hncl Hw1 Hw2 Hcl HFcl Hcc Hb Hk Hkf. unfold parse_delimited.
    assert (Ht : ([op] ++ w1 ++ t ++ w2 ++ [cl]) ++ rest = op :: w1 ++ (t ++ (w2 ++ cl :: rest))).
    { cbn. rewrite <- !app_assoc. reflexivity. }
    rewrite Ht in *. rewrite token_hit. cbn [negb].
    rewrite skip_ws_app; [|exact Hw1|apply headed_nws, headed_app, Hh].
    rewrite token_miss.
    2:{ destruct Hh as (c & r & -> & _). exact Hncl. }
    cbn [length blen] in *. rewrite app_length in Hk, Hkf. rewrite blen_app in Hb.
    pose proof (utf8_len_pos op).
    rewrite (sep_by_P item l t (w2 ++ cl :: rest)); auto; try lia.
    - rewrite skip_ws_app by (auto; exact Hcl). rewrite token_hit. reflexivity.
    - now apply nfb_ws_then.
    - apply skip_spaced_miss; auto. cbn [not_followed_by]. rewrite N.eqb_sym. exact Hcc.
  Qed.

  Lemma builtin_value v t rest fuel :
    g_val U X v t -> not_followed_by F rest -> (length (t ++ rest) < fuel)%nat ->
    (forall k, fuel = S k -> parse_builtin U total (pv k) k (t ++ rest) = (Ok v, rest)) ->
    pv fuel (t ++ rest) = (Ok v, rest).
  Proof.
    intros Hg Hf Hl H. destruct fuel as [|k]; [lia|]. unfold pv. cbn [parse_value].
    destruct (HXno v t rest Hg Hf) as [->|HX].
    - exact (H k eq_refl).
    - destruct (HXok v t rest HX Hf) as (cur & -> & ->). reflexivity.
  Qed.

  Lemma parse_field_name_complete n nt rest :
    g_field_name U n nt -> not_followed_by (fun c => is_alphanumeric U c || (c =? c_under)) rest ->
    parse_field_name U total (nt ++ rest) = (Ok n, rest).
  Proof.
    intros [n' Hi|n' t Hs] Hf; unfold parse_field_name, one_of.
    - rewrite parse_string_none.
      + unfold always. now rewrite parse_ident_complete.
      + destruct Hi as (c & r & -> & Hc & _). cbn. pose proof (alpha_not_special c Hc) as Hns.
        apply N.eqb_neq. intro; subst; tauto.
    - rewrite (parse_string_complete _ _ _ _ Hs). reflexivity.
  Qed.

  Lemma variant_name_complete n nt rest :
    g_variant_name U n nt -> not_followed_by (fun c => is_alphanumeric U c || (c =? c_under)) rest ->
    not_followed_by (N.eqb c_dquote) rest ->
    parse_optional_variant_ident U total (nt ++ rest) = (Some (Ok n), rest).
  Proof.
    intros [n' Hi H1 H2|n' t Hs] Hf Hq; unfold parse_optional_variant_ident, one_of.
    - assert (Hnone : exists t', parse_i_string total (n' ++ rest) = (Err None, t')).
      { unfold parse_i_string. destruct Hi as (c & r & -> & Hc & Hr). cbn [app].
        destruct (N.eqb_spec c c_v) as [->|]; cbn [negb]; [|eauto].
        unfold ok_of_o. rewrite parse_string_none; [eauto|].
        destruct r as [|x r]; [exact Hq|]. cbn [app not_followed_by]. cbn in Hr. apply andb_true_iff in Hr as [Hx _].
        apply N.eqb_neq. intro E; subst x. pose proof (punct_not_alnum c_dquote) as Hp. cbn in Hp.
        rewrite Hp in Hx by tauto. discriminate. }
      destruct Hnone as [t' ->]. unfold ok_of. now rewrite parse_ident_complete.
    - unfold parse_i_string. cbn [app]. rewrite N.eqb_refl. cbn [negb]. unfold ok_of_o.
      now rewrite (parse_string_complete _ _ _ _ Hs).
  Qed.

  Ltac nfb := cbn [app not_followed_by]; try reflexivity.

  Lemma complete_mut :
    (forall v t, g_val U X v t -> P_val v t) /\
    (forall c t, g_comp U X c t -> P_comp c t) /\
    (forall l t, g_items U X l t -> P_items l t) /\
    (forall l t, g_fields U X l t -> P_fields l t).
  Proof.
    assert (Hmerge : forall (A B C D : Prop), (A -> B -> C -> D -> A /\ B /\ C /\ D)) by tauto.
    pose proof (g_mutind U X P_val P_comp P_items P_fields) as HM.
    apply HM; clear HM Hmerge.
    - (* true *) intros rest fuel Hf Hb Hl. apply builtin_value; [constructor|exact Hf|exact Hl|].
      intros k _. unfold parse_builtin. cbn [one_of]. unfold omap at 1, parse_bool, tokens.
      now rewrite strip_prefix_app.
    - (* false *) intros rest fuel Hf Hb Hl. apply builtin_value; [constructor|exact Hf|exact Hl|].
      intros k _. unfold parse_builtin. cbn [one_of]. unfold omap at 1, parse_bool, tokens.
      replace (strip_prefix (s2l "true") (s2l "false" ++ rest)) with (@None (list N)) by reflexivity.
      now rewrite strip_prefix_app.
    - (* char *) intros c t Hc rest fuel Hf Hb Hl. apply builtin_value; [now constructor|exact Hf|exact Hl|].
      intros k _. unfold parse_builtin. cbn [one_of]. unfold omap at 1.
      rewrite parse_bool_none_head by (destruct Hc; reflexivity). cbn [rmap].
      unfold omap at 1. now rewrite (parse_char_complete _ _ _ _ Hc).
    - (* string *) intros s t Hs rest fuel Hf Hb Hl. apply builtin_value; [now constructor|exact Hf|exact Hl|].
      intros k _. unfold parse_builtin. cbn [one_of]. unfold omap at 1.
      assert (Ht : exists r, t = c_dquote :: r) by (destruct Hs as (b & _ & ->); cbn; eauto).
      destruct Ht as [r ->].
      rewrite parse_bool_none_head by reflexivity. cbn [rmap]. unfold omap at 1.
      rewrite parse_char_none by reflexivity. cbn [rmap]. unfold omap at 1.
      now rewrite (parse_string_complete _ _ _ _ Hs).
    - (* number *) intros p t Hn rest fuel Hf Hb Hl. apply builtin_value; [now constructor|exact Hf|exact Hl|].
      intros k _. unfold parse_builtin. cbn [one_of]. unfold omap at 1.
      assert (Ht : exists c r, t = c :: r /\ (is_digit c || (c =? c_plus) || (c =? c_minus)) = true).
      { destruct Hn as [n t Hd _|n t Hd _|n t Hd _].
        - destruct Hd as (d & r & -> & Hd & _). exists d, r. now rewrite Hd.
        - eexists _, _. split; [reflexivity|reflexivity].
        - eexists _, _. split; [reflexivity|reflexivity]. }
      destruct Ht as (c & r & -> & Hc).
      assert (Hcc : ((c =? 116) || (c =? 102)) = false /\ (c_squote =? c) = false /\ (c_dquote =? c) = false).
      { unfold is_digit, c_plus, c_minus, c_squote, c_dquote in *. lia. }
      destruct Hcc as (Hc1 & Hc2 & Hc3).
      rewrite parse_bool_none_head by exact Hc1. cbn [rmap]. unfold omap at 1.
      rewrite parse_char_none by exact Hc2. cbn [rmap]. unfold omap at 1.
      rewrite parse_string_none by exact Hc3. cbn [rmap]. unfold omap at 1.
      rewrite (parse_number_complete total p (c :: r)); auto.
      destruct rest as [|x rest]; [exact I|]. cbn in *. destruct (num_continues x) eqn:E; [|reflexivity].
      rewrite (HFnum x E) in Hf. discriminate.
    - (* bits *) intros b rest fuel Hf Hb Hl. apply builtin_value; [constructor|exact Hf|exact Hl|].
      intros k _. unfold parse_builtin. cbn [one_of]. unfold omap at 1.
      rewrite parse_bool_none_head by reflexivity. cbn [rmap]. unfold omap at 1.
      rewrite parse_char_none by reflexivity. cbn [rmap]. unfold omap at 1.
      rewrite parse_string_none by reflexivity. cbn [rmap]. unfold omap at 1.
      rewrite parse_number_none by reflexivity. cbn [rmap]. unfold omap at 1.
      rewrite named_none by reflexivity. cbn [rmap]. unfold omap at 1.
      rewrite unnamed_none by reflexivity. cbn [rmap]. unfold omap at 1.
      rewrite parse_bits_complete. reflexivity.
    - (* composite *) intros c t Hc IH rest fuel Hf Hb Hl. apply builtin_value; [now constructor|exact Hf|exact Hl|].
      intros k ->. unfold parse_builtin. cbn [one_of]. unfold omap at 1.
      specialize (IH rest k Hb ltac:(lia)). apply g_comp_head in Hc.
      destruct c as [l|l]; destruct Hc as [r ->]; cbn [app] in *.
      + rewrite parse_bool_none_head by reflexivity. cbn [rmap]. unfold omap at 1.
        rewrite parse_char_none by reflexivity. cbn [rmap]. unfold omap at 1.
        rewrite parse_string_none by reflexivity. cbn [rmap]. unfold omap at 1.
        rewrite parse_number_none by reflexivity. cbn [rmap]. unfold omap at 1.
        rewrite IH. reflexivity.
      + rewrite parse_bool_none_head by reflexivity. cbn [rmap]. unfold omap at 1.
        rewrite parse_char_none by reflexivity. cbn [rmap]. unfold omap at 1.
        rewrite parse_string_none by reflexivity. cbn [rmap]. unfold omap at 1.
        rewrite parse_number_none by reflexivity. cbn [rmap]. unfold omap at 1.
        rewrite named_none by reflexivity. cbn [rmap]. unfold omap at 1.
        rewrite IH. reflexivity.
    - (* variant *) intros n nt w c t Hn Hw Hc IH rest fuel Hf Hb Hl.
      apply builtin_value; [now constructor|exact Hf|exact Hl|].
      intros k ->. unfold parse_builtin. cbn [one_of].
      assert (Hsp : (nt ++ w ++ t) ++ rest = nt ++ (w ++ (t ++ rest))) by (now rewrite <- !app_assoc).
      rewrite Hsp in *. pose proof (g_comp_head _ _ Hc) as Hh.
      assert (Ht : exists x r, t = x :: r /\ In x [c_lbrace; c_lpar]).
      { destruct c; destruct Hh as [r ->]; eexists _, _; (split; [reflexivity|cbn; tauto]). }
      destruct Ht as (x & r & Et & Hx).
      assert (Hx1 : is_alphanumeric U x || (x =? c_under) = false) by (apply punct_not_alnum; cbn in *; tauto).
      assert (Hx2 : is_whitespace x = false) by (destruct Hx as [<-|[<-|[]]]; reflexivity).
      assert (Hx3 : (c_dquote =? x) = false) by (destruct Hx as [<-|[<-|[]]]; reflexivity).
      assert (Hxt : forall p, p = s2l "true" \/ p = s2l "false" -> forall y, (y = x \/ is_whitespace y = true) -> ~ In y p).
      { intros p Hp y Hy Hin.
        assert (is_alphabetic U y = true).
        { destruct Hp as [->| ->]; cbn in Hin; repeat destruct Hin as [<-|Hin]; try reflexivity; contradiction. }
        assert (is_alphanumeric U y = true) by (unfold is_alphanumeric; now rewrite H).
        destruct Hy as [->|Hy]; [rewrite H0 in Hx1; discriminate|]. apply HU in H0. congruence. }
      assert (Hnext : exists y r', w ++ t ++ rest = y :: r' /\ (y = x \/ is_whitespace y = true)).
      { destruct w as [|y w]; [exists x, (r ++ rest); subst; auto|].
        exists y, (w ++ t ++ rest). split; [reflexivity|]. right. unfold ws in Hw. cbn in Hw.
        now apply andb_true_iff in Hw. }
      assert (Hnf1 : not_followed_by (fun c => is_alphanumeric U c || (c =? c_under)) (w ++ t ++ rest)).
      { subst t. cbn [app]. apply (nfb_ws_then w x _ (fun c => is_alphanumeric U c || (c =? c_under))); auto using ws_not_alnum. }
      assert (Hnf2 : not_followed_by (N.eqb c_dquote) (w ++ t ++ rest)).
      { subst t. cbn [app]. apply nfb_ws_then; auto. intros y Hy. apply N.eqb_neq. intros <-. discriminate. }
      assert (Hmain : parse_variant U total (pv k) k (nt ++ w ++ t ++ rest) = (Ok (variant n c), rest)).
      { unfold parse_variant. rewrite (variant_name_complete n nt); auto.
        rewrite skip_ws_app by (auto; subst t; exact Hx2).
        rewrite !blen_app in Hb. rewrite !app_length in Hl.
        specialize (IH rest k ltac:(rewrite blen_app; lia) ltac:(rewrite app_length; lia)). cbn [one_of].
        destruct c as [l|l]; destruct Hh as [r' ->]; cbn [app] in *.
        - rewrite IH. reflexivity.
        - rewrite named_none by reflexivity. rewrite IH. reflexivity. }
      assert (Hheads : strip_prefix (s2l "true") (nt ++ w ++ t ++ rest) = None /\
                       strip_prefix (s2l "false") (nt ++ w ++ t ++ rest) = None /\
                       exists z zs, nt ++ w ++ t ++ rest = z :: zs /\
                       (c_squote =? z) = false /\ (c_dquote =? z) = false /\ (c_lbrace =? z) = false /\
                       (c_lpar =? z) = false /\ (c_lt =? z) = false /\
                       (is_digit z || (z =? c_plus) || (z =? c_minus)) = false).
      { destruct Hn as [n Hi Hn1 Hn2|n t' Hs].
        - destruct Hnext as (y & r' & -> & Hy). split; [|split].
          + apply strip_prefix_none_app; [exact Hn1|exact (Hxt _ (or_introl eq_refl) _ Hy)].
          + apply strip_prefix_none_app; [exact Hn2|exact (Hxt _ (or_intror eq_refl) _ Hy)].
          + destruct Hi as (z & zs & -> & Hz & _). exists z, (zs ++ y :: r'). split; [reflexivity|].
            pose proof (alpha_not_special z Hz) as Hsp'. rewrite !N.eqb_neq. intuition congruence.
        - split; [reflexivity|]. split; [reflexivity|]. eexists _, _. split; [reflexivity|]. repeat split. }
      destruct Hheads as (Hs1 & Hs2 & z & zs & Ez & Hz1 & Hz2 & Hz3 & Hz4 & Hz5 & Hz6).
      rewrite Ez in *.
      unfold omap at 1. rewrite parse_bool_none by auto. cbn [rmap].
      unfold omap at 1. rewrite parse_char_none by exact Hz1. cbn [rmap].
      unfold omap at 1. rewrite parse_string_none by exact Hz2. cbn [rmap].
      unfold omap at 1. rewrite parse_number_none by exact Hz6. cbn [rmap].
      unfold omap at 1. rewrite named_none by exact Hz3. cbn [rmap].
      unfold omap at 1. rewrite unnamed_none by exact Hz4. cbn [rmap].
      unfold omap at 1. rewrite parse_bits_none by exact Hz5. cbn [rmap].
      rewrite Hmain. reflexivity.
    - (* custom *) intros v t HX rest fuel Hf Hb Hl. destruct fuel as [|k]; [lia|].
      unfold pv. cbn [parse_value]. destruct (HXok v t rest HX Hf) as (cur & -> & ->). reflexivity.
    - (* {} *) intros w Hw rest k Hb Hl. unfold parse_named_composite, omap.
      rewrite delimited_empty by (auto; reflexivity). reflexivity.
    - intros w Hw rest k Hb Hl. unfold parse_unnamed_composite, omap.
      rewrite delimited_empty by (auto; reflexivity). reflexivity.
    - (* { fields } *) intros w1 l t w2 Hw1 Hg IH Hw2 rest k Hb Hl. unfold parse_named_composite, omap.
      assert (Hh : headed t).
      { destruct Hg as [n nt w w' v t0 Hn|n nt w w' v t0 w3 w4 l t' Hn]; repeat apply headed_app; eapply g_field_name_headed; eauto. }
      rewrite (delimited_full c_lbrace c_rbrace k k (fun k => parse_field_name_and_value U total (pv k)) w1 l t w2);
        auto using headed_nrbrace; try reflexivity.
    - intros w1 l t w2 Hw1 Hg IH Hw2 rest k Hb Hl. unfold parse_unnamed_composite, omap.
      assert (Hh : headed t).
      { destruct Hg as [v t0 Hn|v t0 w3 w4 l t' Hn]; repeat apply headed_app; eapply g_val_headed; eauto. }
      rewrite (delimited_full c_lpar c_rpar k k pv w1 l t w2); auto using headed_nrpar; try reflexivity.
    - (* [v] *) intros v t Hv IH rest k kf acc Hf Hsep Hb Hl Hlf.
      rewrite IH by auto. destruct kf as [|kf]; [lia|]. cbn [sep_rest].
      destruct (skip_spaced_separator c_comma rest) as [ok t1]. cbn in Hsep. subst ok. cbn [negb]. reflexivity.
    - (* v , l *) intros v t w1 w2 l t' Hv IHv Hw1 Hw2 Hl' IHl rest k kf acc Hf Hsep Hb Hl Hlf.
      assert (Hsp : (t ++ w1 ++ [c_comma] ++ w2 ++ t') ++ rest = t ++ (w1 ++ c_comma :: w2 ++ (t' ++ rest))).
      { cbn. repeat (rewrite <- !app_assoc; cbn). reflexivity. }
      rewrite Hsp in *.
      assert (Hh : headed t').
      { destruct Hl' as [? ? Hn|? ? ? ? ? ? Hn]; repeat apply headed_app; eapply g_val_headed; eauto. }
      rewrite IHv; auto.
      2:{ now apply nfb_ws_then. }
      destruct kf as [|kf]; [lia|]. cbn [sep_rest].
      rewrite skip_spaced_hit; auto; [|apply headed_nws, headed_app, Hh]. cbn [negb].
      rewrite !app_length in *. cbn [length] in *. rewrite !app_length in *. rewrite !blen_app in *. cbn [blen] in *.
      rewrite !blen_app in *.
      assert (Hpos : (0 < length t)%nat).
      { apply g_val_headed in Hv as (? & ? & -> & _). cbn. lia. }
      specialize (IHl rest k kf (v :: acc) Hf Hsep ltac:(rewrite blen_app; lia) ltac:(rewrite app_length; lia) ltac:(rewrite app_length; lia)).
      destruct (pv k (t' ++ rest)) as [[a|e] t1]; [|discriminate].
      rewrite IHl. cbn [rev]. now rewrite <- app_assoc.
    - (* field *) intros n nt w1 w2 v t Hn Hw1 Hw2 Hv IH rest k kf acc Hf Hsep Hb Hl Hlf.
      assert (Hsp : (nt ++ w1 ++ [c_colon] ++ w2 ++ t) ++ rest = nt ++ (w1 ++ c_colon :: w2 ++ (t ++ rest))).
      { cbn. repeat (rewrite <- !app_assoc; cbn). reflexivity. }
      rewrite Hsp in *. unfold parse_field_name_and_value at 1.
      rewrite (parse_field_name_complete n nt); auto.
      2:{ apply (nfb_ws_then w1 c_colon _ (fun c => is_alphanumeric U c || (c =? c_under))); [exact Hw1|apply ws_not_alnum|apply punct_not_alnum; cbn; tauto]. }
      rewrite skip_spaced_hit; auto; [|apply headed_nws, headed_app; eapply g_val_headed; eauto]. cbn [negb].
      rewrite !app_length in *. cbn [length] in *. rewrite !app_length in *. rewrite !blen_app in *. cbn [blen] in *.
      rewrite !blen_app in *.
      rewrite IH; auto; [|rewrite blen_app; lia|rewrite app_length; lia].
      destruct kf as [|kf]; [lia|]. cbn [sep_rest].
      destruct (skip_spaced_separator c_comma rest) as [ok t1]. cbn in Hsep. subst ok. cbn [negb]. reflexivity.
    - (* field, l *) intros n nt w1 w2 v t w3 w4 l t' Hn Hw1 Hw2 Hv IH Hw3 Hw4 Hl' IHl rest k kf acc Hf Hsep Hb Hl Hlf.
      assert (Hsp : ((nt ++ w1 ++ [c_colon] ++ w2 ++ t) ++ w3 ++ [c_comma] ++ w4 ++ t') ++ rest
                    = nt ++ (w1 ++ c_colon :: w2 ++ (t ++ (w3 ++ c_comma :: w4 ++ (t' ++ rest))))).
      { cbn. repeat (rewrite <- !app_assoc; cbn). reflexivity. }
      rewrite Hsp in *. unfold parse_field_name_and_value at 1.
      rewrite (parse_field_name_complete n nt); auto.
      2:{ apply (nfb_ws_then w1 c_colon _ (fun c => is_alphanumeric U c || (c =? c_under))); [exact Hw1|apply ws_not_alnum|apply punct_not_alnum; cbn; tauto]. }
      rewrite skip_spaced_hit; auto; [|apply headed_nws, headed_app; eapply g_val_headed; eauto]. cbn [negb].
      assert (Hh : headed t').
      { destruct Hl' as [? ? ? ? ? ? Hn'|? ? ? ? ? ? ? ? ? ? Hn']; repeat apply headed_app; eapply g_field_name_headed; eauto. }
      repeat (rewrite !app_length in *; cbn [length] in *). repeat (rewrite !blen_app in *; cbn [blen] in *).
      rewrite IH; auto.
      2:{ now apply nfb_ws_then. }
      2:{ repeat (rewrite !blen_app in *; cbn [blen] in *). lia. }
      2:{ repeat (rewrite !app_length in *; cbn [length] in *). lia. }
      destruct kf as [|kf]; [lia|]. cbn [sep_rest].
      rewrite skip_spaced_hit; auto; [|apply headed_nws, headed_app, Hh]. cbn [negb].
      specialize (IHl rest k kf ((n, v) :: acc) Hf Hsep ltac:(rewrite blen_app; lia) ltac:(rewrite app_length; lia) ltac:(rewrite app_length; lia)).
      cbn beta in IHl.
      destruct (parse_field_name_and_value U total (pv k) (t' ++ rest)) as [[a|e] t1]; [|discriminate].
      rewrite IHl. cbn [rev]. now rewrite <- app_assoc.
  Qed.
End Complete.

Lemma not_followed_mono (p q : char -> bool) rest :
  (forall c, p c = true -> q c = true) -> not_followed_by q rest -> not_followed_by p rest.
Proof.
  intros H. destruct rest as [|c rest]; cbn; auto. intro Hq. destruct (p c) eqn:E; auto. apply H in E. congruence.
Qed.

(** Completeness for the plain syntax. *)
Lemma from_str_complete U v t rest :
  unicode_ok U -> grammar U v t -> not_followed_by num_continues rest ->
  from_str U (t ++ rest) = (Ok v, rest).
Proof.
  intros HU Hg Hf. unfold from_str, parse_custom.
  assert (HFws : forall c, is_whitespace c = true -> num_continues c = false).
  { intros c. unfold is_whitespace, num_continues, is_digit, c_under. lia. }
  pose proof (complete_mut U HU (blen (t ++ rest)) [] no_custom num_continues (fun c H => H) HFws eq_refl eq_refl eq_refl) as HM.
  destruct HM as [HM _].
  - intros ? ? ? [].
  - intros ? ? [].
  - intros. left; reflexivity.
  - apply (HM v t Hg rest); auto; lia.
Qed.
