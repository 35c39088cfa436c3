(** * FmtTalkFacts: proofs about the rules of Spec_FmtTalk. *)
From Coq Require Import Sorting.Sorted.
From Verif Require Import Base Value ValueFacts Chars Spec_Grammar Parse ParseFacts Fmt Spec_Fmt FmtFacts Spec_Value Spec_Shared SharedFacts Spec_Layout LayoutFacts Spec_FmtTalk.
Local Open Scope N_scope.

Scheme written_mut := Minimality for written Sort Prop
  with all_written_mut := Minimality for all_written Sort Prop.
Combined Scheme written_both from written_mut, all_written_mut.

Lemma concat_esc c : concat (esc_chunks c) = escaped c.
Proof. rewrite escaped_code. unfold esc_chunks. now destruct (to_escape_code c). Qed.
Lemma concat_str s : concat (str_chunks s) = string_literal s.
Proof.
  unfold str_chunks, string_literal. cbn [concat app]. f_equal. rewrite concat_app. f_equal.
  induction s as [|c s IH]; cbn [flat_map map concat]; [reflexivity|]. now rewrite concat_app, concat_esc, IH.
Qed.
Lemma concat_name U n : concat (name_chunks U n) = field_name (bare_name U) n.
Proof.
  unfold name_chunks, field_name. change (bare_name U n) with (is_ident U n).
  destruct (is_ident U n); [cbn [concat]; apply app_nil_r|apply concat_str].
Qed.
Lemma concat_vname U n : concat (vname_chunks U n) = variant_name (bare_name U) n.
Proof.
  unfold vname_chunks, variant_name. change (bare_name U n) with (is_ident U n).
  destruct (is_ident U n); [cbn [concat]; apply app_nil_r|]. cbn [concat]. now rewrite concat_str.
Qed.
Lemma concat_bits b : concat (bits_chunks b) = bits_text b.
Proof.
  unfold bits_chunks, bits_text. rewrite !concat_app. cbn [concat]. rewrite !app_nil_r. f_equal. f_equal.
  induction b; cbn; congruence.
Qed.

Section Does.
  Context {T W : Type} (U : unicode) (wr : W -> str -> W * bool) (cfg : config T W).
  Notation ind := (indent_by cfg). Notation lead := (leading_indent cfg).
  Notation written := (written (bare_name U) wr ind lead (custom_formatters cfg) (print_context cfg)).
  Notation all_written := (all_written (bare_name U) wr ind lead (custom_formatters cfg) (print_context cfg)).

  Definition does (vst : style) (a : @act W) (st st' : style) (items : list (item T)) : Prop :=
    forall w, exists w' s ok, a (FS w st) = (FS w' s, ok) /\ all_written vst items w w' ok /\ (ok = true -> s = st').

  Lemma all_app vst l w w1 : all_written vst l w w1 true -> forall l' w2 ok, all_written vst l' w1 w2 ok ->
    all_written vst (l ++ l') w w2 ok.
  Proof.
    revert w; induction l as [|x l IH]; intros w H l' w2 ok H'; cbn [app].
    - inversion H; subst. exact H'.
    - inversion H; subst; [eapply I_text|eapply I_value]; try eassumption; eapply IH; eassumption.
  Qed.
  Lemma all_app_false vst l w w1 : all_written vst l w w1 false -> forall l', all_written vst (l ++ l') w w1 false.
  Proof.
    revert w; induction l as [|x l IH]; intros w H l'; cbn [app]; inversion H; subst.
    - now apply I_text_fails.
    - eapply I_text; [eassumption|]. now apply IH.
    - now apply I_value_fails.
    - eapply I_value; [eassumption|]. now apply IH.
  Qed.

  Lemma does_andthen vst a b st st1 st2 l1 l2 : does vst a st st1 l1 -> does vst b st1 st2 l2 ->
    does vst (andthen a b) st st2 (l1 ++ l2).
  Proof.
    intros Ha Hb w. destruct (Ha w) as (w1 & s & ok & E & H & Hs). unfold andthen. rewrite E. destruct ok.
    - rewrite (Hs eq_refl). destruct (Hb w1) as (w2 & s2 & ok2 & E2 & H2 & Hs2). exists w2, s2, ok2.
      split; [exact E2|]. split; [|exact Hs2]. eapply all_app; eassumption.
    - exists w1, s, false. split; [reflexivity|]. split; [now apply all_app_false|discriminate].
  Qed.

  Lemma handed_feed s cs w : concat cs = s -> exists w' ok, feed wr w cs = (w', ok) /\ handed wr s w w' ok.
  Proof.
    intros <-. destruct (feed wr w cs) as [w' ok] eqn:E. exists w', ok. split; [reflexivity|].
    revert w E; induction cs as [|c cs IH]; intros w E; cbn [feed concat] in *.
    - injection E as <- <-. exists [], []. repeat split.
    - destruct (wr w c) as [w1 []] eqn:E1.
      + destruct (IH w1 E) as (ps & r & H1 & H2 & H3). exists (c :: ps), r. cbn [concat feed]. rewrite E1, <- H1, app_assoc.
        repeat split; assumption.
      + injection E as <- <-. exists [c], (concat cs). cbn [concat feed]. rewrite E1, app_nil_r. repeat split. discriminate.
  Qed.

  Lemma does_text vst a st st' cs s : feeds wr a st (rok cs) st' -> concat cs = s -> does vst a st st' [Text s].
  Proof.
    intros H E w. destruct (H w) as (s' & E1 & Hs). cbn [rok fst snd] in *. rewrite andb_true_r in *.
    destruct (handed_feed s cs w E) as (w' & ok & Ef & Hh). rewrite Ef in *. cbn [fst snd] in *.
    exists w', s', ok. split; [exact E1|]. split; [|exact Hs].
    destruct ok; [eapply I_text; [exact Hh|apply I_done]|now apply I_text_fails].
  Qed.
  Lemma does_silent vst a st st' : feeds wr a st (rok []) st' -> does vst a st st' [].
  Proof.
    intros H w. destruct (H w) as (s' & E1 & Hs). cbn [rok fst snd feed] in *.
    exists w, s', true. split; [exact E1|]. split; [apply I_done|exact Hs].
  Qed.
  Lemma does_write vst s st : does vst (write_str wr s) st st [Text s].
  Proof. eapply does_text; [apply feeds_write|]. cbn [concat]. apply app_nil_r. Qed.

  Lemma concat_nlc n : concat (nlc ind lead n) = line_break ind lead n.
  Proof. reflexivity. Qed.
  Lemma does_space vst st : does vst (space wr) st st [Text (gap_space st)].
  Proof. eapply does_text; [apply feeds_space|]. now destruct st. Qed.
  Lemma does_isep vst st : does vst (item_separator wr cfg) st st [Text (gap_item ind lead st)].
  Proof. eapply does_text; [apply feeds_isep|]. now destruct st. Qed.
  Lemma does_nl vst st : does vst (newline wr cfg) st st [Text (gap_round ind lead st)].
  Proof. eapply does_text; [apply feeds_nl|]. now destruct st. Qed.

  Lemma does_items {A} vst (f : A -> @act W) (g : A -> list (item T)) l st : Forall (fun x => does vst (f x) st st (g x)) l ->
    does vst (fmt_items wr cfg f l) st st (separated [Text (s2l ","); Text (gap_item ind lead st)] (map g l)).
  Proof.
    intros [|a l' Ha Hl]; cbn [fmt_items map separated].
    - apply does_silent, feeds_ret.
    - revert a Ha. induction Hl as [|b l' Hb Hl IH]; intros a Ha; cbn [map seqs separated].
      + rewrite <- (app_nil_r (g a)). eapply does_andthen; [exact Ha|]. apply does_silent, feeds_ret.
      + eapply does_andthen; [exact Ha|]. specialize (IH b Hb).
        intro w. specialize (IH). 
        assert (E : forall w, andthen (andthen (write_str wr (s2l ",")) (andthen (item_separator wr cfg) (f b)))
            (seqs (map (fun x => andthen (write_str wr (s2l ",")) (andthen (item_separator wr cfg) (f x))) l')) w
          = andthen (write_str wr (s2l ",")) (andthen (item_separator wr cfg)
              (andthen (f b) (seqs (map (fun x => andthen (write_str wr (s2l ",")) (andthen (item_separator wr cfg) (f x))) l')))) w).
        { intro f0. unfold andthen. destruct (write_str wr (s2l ",") f0) as [f1 []]; [|reflexivity].
          destruct (item_separator wr cfg f1) as [f2 []]; reflexivity. }
        rewrite E. revert w. change (does vst
          (andthen (write_str wr (s2l ",")) (andthen (item_separator wr cfg)
              (andthen (f b) (seqs (map (fun x => andthen (write_str wr (s2l ",")) (andthen (item_separator wr cfg) (f x))) l'))))) st st
          ([Text (s2l ",")] ++ [Text (gap_item ind lead st)] ++ separated [Text (s2l ","); Text (gap_item ind lead st)] (g b :: map g l'))).
        eapply does_andthen; [apply does_write|]. eapply does_andthen; [apply does_isep|]. exact IH.
  Qed.

  Context (fv : value T -> @act W).
  Context (st : style).
  Let inner := one_deeper st.

  Lemma does_composite c : Forall (fun x => does inner (fv x) inner inner [Inside x]) (values c) ->
    does inner (fmt_composite U wr cfg fv c) st st (body (bare_name U) ind lead st c).
  Proof.
    assert (HI : does inner indent_step st inner []) by (apply does_silent, feeds_indent).
    assert (HU : does inner unindent_step inner st []) by (apply does_silent, feeds_unindent).
    destruct c as [[|a l]|[|a l]]; intro H; cbn [fmt_composite body values] in *; try apply does_write; fold inner.
    - change ([Text (s2l "{"); Text (gap_item ind lead inner)]) with ([@Text T (s2l "{")] ++ [] ++ [Text (gap_item ind lead inner)]).
      change ([Text (gap_item ind lead st); Text (s2l "}")]) with ([] ++ [@Text T (gap_item ind lead st)] ++ [Text (s2l "}")]).
      rewrite <- !app_assoc.
      eapply does_andthen; [apply does_write|]. eapply does_andthen; [exact HI|]. eapply does_andthen; [apply does_isep|].
      eapply does_andthen.
      { apply does_items. rewrite Forall_map in H. eapply Forall_impl; [|exact H]. intros kv Hk. cbn beta.
        unfold fmt_field.
        change ([Text (field_name (bare_name U) (fst kv)); Text (s2l ":"); Text (gap_space inner); Inside (snd kv)])
          with ([@Text T (field_name (bare_name U) (fst kv))] ++ [Text (s2l ":")] ++ [Text (gap_space inner)] ++ [Inside (snd kv)]).
        eapply does_andthen; [eapply does_text; [apply feeds_name|apply concat_name]|].
        eapply does_andthen; [apply does_write|]. eapply does_andthen; [apply does_space|exact Hk]. }
      eapply does_andthen; [exact HU|]. eapply does_andthen; [apply does_isep|apply does_write].
    - change ([Text (s2l "("); Text (gap_round ind lead inner)]) with ([@Text T (s2l "(")] ++ [] ++ [Text (gap_round ind lead inner)]).
      change ([Text (gap_round ind lead st); Text (s2l ")")]) with ([] ++ [@Text T (gap_round ind lead st)] ++ [Text (s2l ")")]).
      rewrite <- !app_assoc.
      eapply does_andthen; [apply does_write|]. eapply does_andthen; [exact HI|]. eapply does_andthen; [apply does_nl|].
      eapply does_andthen; [now apply does_items|].
      eapply does_andthen; [exact HU|]. eapply does_andthen; [apply does_nl|apply does_write].
  Qed.

  Lemma does_def d items : Forall (fun x => does inner (fv x) inner inner [Inside x]) (children d) ->
    contents (bare_name U) ind lead st d = Some items ->
    does inner (fmt_valuedef U wr cfg fv d) st st items.
  Proof.
    destruct d as [c|n c|b|p]; cbn [children contents fmt_valuedef]; intros H E.
    - injection E as <-. now apply does_composite.
    - injection E as <-. unfold fmt_variant.
      change ([Text (variant_name (bare_name U) n); Text (gap_space st)]) with ([@Text T (variant_name (bare_name U) n)] ++ [Text (gap_space st)]).
      eapply (does_andthen _ _ _ st st st [Text (variant_name (bare_name U) n)] ([Text (gap_space st)] ++ body (bare_name U) ind lead st c)).
      + eapply does_text; [|apply concat_vname]. unfold vname_chunks. destruct (is_ident U n); [apply feeds_write|].
        apply (feeds_andthen_ok _ _ _ st st st [[c_v]]); [apply feeds_write|apply feeds_string].
      + eapply does_andthen; [apply does_space|now apply does_composite].
    - injection E as <-. eapply does_text; [apply feeds_bits|apply concat_bits].
    - pose proof (feeds_prim wr p st) as Hp. destruct p as [[]|c|s|n|z|b|b]; cbn [leaf_text omap rd_prim] in *; try discriminate; injection E as <-;
        (eapply does_text; [exact Hp|]); try reflexivity; try apply app_nil_r.
      + unfold char_chunks. rewrite !concat_app, concat_esc. cbn [concat]. now rewrite !app_nil_r.
      + apply concat_str.
      + unfold int_chunks. destruct (z <? 0)%Z; cbn [concat]; now rewrite app_nil_r.
  Qed.
End Does.

Section Written.
  Context {T W : Type} (U : unicode) (wr : W -> str -> W * bool) (cfg : config T W).
  Notation ind := (indent_by cfg). Notation lead := (leading_indent cfg).
  Notation written := (written (bare_name U) wr ind lead (custom_formatters cfg) (print_context cfg)).

  Lemma run_asked (v : value T) (fs : list (value T -> W -> option bool * W)) : forall w s, exists o w', run_formatters fs v (FS w s) = (o, FS w' s) /\ asked v fs w w' o.
  Proof.
    induction fs as [|g fs IH]; intros w s; cbn [run_formatters writer fstyle].
    - exists None, w. split; [reflexivity|constructor].
    - destruct (g v w) as [[ok|] w1] eqn:E.
      + exists (Some ok), w1. split; [reflexivity|]. now apply A_answers.
      + destruct (IH w1 s) as (o & w' & E' & H). exists o, w'. split; [exact E'|]. eapply A_declines; eassumption.
  Qed.

  Lemma context_done c w st : exists w' ok, fmt_context wr cfg c (FS w st) = (FS w' st, ok) /\ context_written wr (print_context cfg) c w w' ok.
  Proof.
    unfold fmt_context. destruct (print_context cfg) as [pc|] eqn:Ep.
    - unfold andthen, write_char, write_str. cbn [writer fstyle].
      destruct (wr w [c_lt]) as [w1 ok1] eqn:E1.
      assert (H1 : handed wr (s2l "<") w w1 ok1).
      { exists [[c_lt]], []. cbn [concat feed]. rewrite E1. repeat split. now destruct ok1. }
      destruct ok1; [|exists w1, false; split; [reflexivity|]; eapply X_open_fails; eassumption || reflexivity].
      cbn [writer fstyle]. destruct (pc c w1) as [ok2 w2] eqn:E2. destruct ok2; [|exists w2, false; split; [reflexivity|]; eapply X_printer_fails; eassumption || reflexivity].
      cbn [writer fstyle]. destruct (wr w2 (s2l "> ")) as [w3 ok3] eqn:E3.
      exists w3, ok3. split; [now destruct ok3|]. eapply X_all; try eassumption; try reflexivity.
      exists [s2l "> "], []. cbn [concat feed]. rewrite E3. repeat split. now destruct ok3.
    - exists w, true. split; [reflexivity|]. now apply X_none.
  Qed.

  Lemma fmt_written v : forall st w, exists w' s ok, fmt_value U wr cfg v (FS w st) = (FS w' s, ok) /\ written st v w w' ok /\ (ok = true -> s = st).
  Proof.
    induction v as [d c IH] using value_ind'. intros st w. cbn [fmt_value]. unfold andthen at 1.
    destruct (context_done c w st) as (w1 & ok1 & E1 & H1). rewrite E1. destruct ok1.
    2:{ exists w1, st, false. split; [reflexivity|]. split; [now apply W_context_fails|discriminate]. }
    destruct (run_asked (Val d c) (custom_formatters cfg) w1 st) as (o & w2 & E2 & H2). rewrite E2.
    destruct o as [ok|].
    { exists w2, st, ok. split; [reflexivity|]. split; [eapply W_custom; eassumption|reflexivity]. }
    destruct (contents (bare_name U) ind lead st d) as [items|] eqn:Ec.
    - assert (HD : does U wr cfg (one_deeper st) (fmt_valuedef U wr cfg (fmt_value U wr cfg) d) st st items).
      { apply does_def; [|exact Ec]. eapply Forall_impl; [|exact IH]. intros x Hx w0.
        destruct (Hx (one_deeper st) w0) as (w' & s & ok & E & H & Hs). exists w', s, ok. split; [exact E|]. split; [|exact Hs].
        destruct ok; [eapply I_value; [exact H|apply I_done]|now apply I_value_fails]. }
      destruct (HD w2) as (w3 & s & ok & E & H & Hs). exists w3, s, ok. split; [exact E|]. split; [|exact Hs].
      eapply W_contents; eassumption.
    - destruct d as [?|?|?|[[]| | | | | |]]; try discriminate; cbn [fmt_valuedef fmt_primitive];
        (exists w2, st, false; split; [reflexivity|]; split; [eapply W_unwritable; eassumption|discriminate]).
  Qed.

  Lemma write_written st v w : written st v w (fst (write_value U wr cfg st v w)) (snd (write_value U wr cfg st v w)).
  Proof.
    unfold write_value. destruct (fmt_written v st w) as (w' & s & ok & E & H & _). rewrite E. exact H.
  Qed.

  (** ** Only one outcome, for indifferent sinks. *)
  Context (Hwr : indifferent wr).
  Lemma feed_indifferent ps : forall w, feed wr w ps = wr w (concat ps).
  Proof.
    induction ps as [|p ps IH]; intro w; cbn [feed concat]; [now rewrite (proj1 Hwr)|].
    rewrite (proj2 Hwr). destruct (wr w p) as [w1 []]; [apply IH|reflexivity].
  Qed.
  Lemma handed_indifferent s w w' ok : handed wr s w w' ok -> wr w s = (w', ok).
  Proof.
    intros (ps & r & <- & E & Hr). rewrite feed_indifferent in E. rewrite (proj2 Hwr), E. destruct ok; [|reflexivity].
    rewrite (Hr eq_refl). apply (proj1 Hwr).
  Qed.
  Lemma handed_det s w w1 ok1 w2 ok2 : handed wr s w w1 ok1 -> handed wr s w w2 ok2 -> w1 = w2 /\ ok1 = ok2.
  Proof. intros H1 H2. apply handed_indifferent in H1, H2. rewrite H1 in H2. now injection H2. Qed.
  Lemma asked_det (v : value T) fs (w w1 : W) o1 : asked v fs w w1 o1 -> forall w2 o2, asked v fs w w2 o2 -> w1 = w2 /\ o1 = o2.
  Proof.
    induction 1 as [w|g fs w wa wb o E H IH|g fs w wa ok E]; intros w2 o2 H'; inversion H'; subst.
    - split; reflexivity.
    - apply IH. congruence.
    - congruence.
    - congruence.
    - split; congruence.
  Qed.
  Ltac hd H1 H2 := let E := fresh in pose proof (handed_det _ _ _ _ _ _ H1 H2) as E; destruct E; subst; try discriminate.
  Lemma context_det c w w1 ok1 w2 ok2 : context_written wr (print_context cfg) c w w1 ok1 ->
    context_written wr (print_context cfg) c w w2 ok2 -> w1 = w2 /\ ok1 = ok2.
  Proof.
    intros H1 H2. destruct H1 as [w0 E|pc w0 wa E Ha|pc w0 wa wb E Ha Eb|pc w0 wa wb wc ok E Ha Eb Hc];
    inversion H2 as [w0' E'|pc' w0' wa' E' Ha'|pc' w0' wa' wb' E' Ha' Eb'|pc' w0' wa' wb' wc' ok' E' Ha' Eb' Hc']; subst;
      rewrite E in E'; try discriminate; try (split; reflexivity); injection E' as <-; hd Ha Ha'; try (split; reflexivity);
      rewrite Eb in Eb'; try discriminate; injection Eb' as <-; try (split; reflexivity). hd Hc Hc'. split; reflexivity.
  Qed.

  Lemma written_det_both : forall st,
    (forall v w w1 ok1, written st v w w1 ok1 -> forall w2 ok2, written st v w w2 ok2 -> w1 = w2 /\ ok1 = ok2) /\
    (forall l w w1 ok1, all_written (bare_name U) wr ind lead (custom_formatters cfg) (print_context cfg) st l w w1 ok1 ->
      forall w2 ok2, all_written (bare_name U) wr ind lead (custom_formatters cfg) (print_context cfg) st l w w2 ok2 -> w1 = w2 /\ ok1 = ok2).
  Proof.
    assert (HC : forall c w w1 ok1 w2 ok2, context_written wr (print_context cfg) c w w1 ok1 ->
      context_written wr (print_context cfg) c w w2 ok2 -> w1 = w2 /\ ok1 = ok2) by exact context_det.
    pose proof handed_det as HH. pose proof asked_det as HA.
    apply written_both.
    - intros st d c w w1 H w2 ok2 H'. inversion H'; subst;
        match goal with X : context_written _ _ c w _ _ |- _ => destruct (HC _ _ _ _ _ _ H X); subst; try discriminate end. split; reflexivity.
    - intros st d c w w1 w2 ok H H2 w3 ok3 H'. inversion H'; subst;
        match goal with X : context_written _ _ c w _ _ |- _ => destruct (HC _ _ _ _ _ _ H X); subst; try discriminate end;
        match goal with X : asked _ _ _ _ _ |- _ => destruct (HA _ _ _ _ _ H2 _ _ X) as [? HX]; subst; try discriminate end.
      split; congruence.
    - intros st d c w w1 w2 H H2 Ec w3 ok3 H'. inversion H'; subst;
        match goal with X : context_written _ _ c w _ _ |- _ => destruct (HC _ _ _ _ _ _ H X); subst; try discriminate end;
        match goal with X : asked _ _ _ _ _ |- _ => destruct (HA _ _ _ _ _ H2 _ _ X) as [? HX]; subst; try discriminate end; try congruence.
      split; reflexivity.
    - intros st d c w w1 w2 w3 items ok H H2 Ec H3 IH w4 ok4 H'. inversion H'; subst;
        match goal with X : context_written _ _ c w _ _ |- _ => destruct (HC _ _ _ _ _ _ H X); subst; try discriminate end;
        match goal with X : asked _ _ _ _ _ |- _ => destruct (HA _ _ _ _ _ H2 _ _ X) as [? HX]; subst; try discriminate end; try congruence.
      match goal with X : contents _ _ _ _ _ = Some _ |- _ => rewrite Ec in X; injection X as <- end. now apply IH.
    - intros st w w2 ok2 H'. inversion H'; subst. split; reflexivity.
    - intros st s l w w1 H w2 ok2 H'. inversion H'; subst;
        match goal with X : handed _ s w _ _ |- _ => destruct (HH _ _ _ _ _ _ H X); subst; try discriminate end. split; reflexivity.
    - intros st s l w w1 w2 ok H H2 IH w3 ok3 H'. inversion H'; subst;
        match goal with X : handed _ s w _ _ |- _ => destruct (HH _ _ _ _ _ _ H X); subst; try discriminate end. now apply IH.
    - intros st v l w w1 H IH w2 ok2 H'. inversion H'; subst;
        match goal with X : Spec_FmtTalk.written _ _ _ _ _ _ _ v w _ _ |- _ => destruct (IH _ _ X); subst; try discriminate end. split; reflexivity.
    - intros st v l w w1 w2 ok H IH H2 IH2 w3 ok3 H'. inversion H'; subst;
        match goal with X : Spec_FmtTalk.written _ _ _ _ _ _ _ v w _ _ |- _ => destruct (IH _ _ X); subst; try discriminate end. now apply IH2.
  Qed.
End Written.

(** ** Who is asked *)
Section Asked.
  Context {T : Type} (U : unicode) (ind lead : str) (a : value T -> answer).
  Definition notes_cfg : config T (str * list (value T)) :=
    {| indent_by := ind; leading_indent := lead; custom_formatters := [noting a]; print_context := None |}.

  Fixpoint questions (v : value T) : list (value T) :=
    match v with
    | Val d _ =>
        v :: match a v with
             | Declines =>
                 match d with
                 | DComposite (Named l) | DVariant _ (Named l) => flat_map (fun kv => questions (snd kv)) l
                 | DComposite (Unnamed l) | DVariant _ (Unnamed l) => flat_map questions l
                 | _ => []
                 end
             | _ => []
             end
    end.
  Lemma questions_eq v : questions v = v :: match a v with Declines => flat_map questions (fields_of v) | _ => [] end.
  Proof.
    destruct v as [d c]. cbn [questions]. f_equal. destruct (a (Val d c)); try reflexivity.
    destruct d as [[l|l]|n [l|l]|b|p]; cbn [fields_of]; try reflexivity;
      (induction l as [|kv l IH]; cbn [flat_map map]; [reflexivity|now rewrite IH]).
  Qed.

  Definition insides (l : list (item T)) : list (value T) := flat_map (fun i => match i with Inside v => [v] | Text _ => [] end) l.
  Lemma insides_app l l' : insides (l ++ l') = insides l ++ insides l'.
  Proof. apply flat_map_app. Qed.
  Lemma insides_sep sep ls : insides sep = [] -> insides (separated sep ls) = flat_map insides ls.
  Proof.
    intro H. induction ls as [|x [|y ls] IH]; [reflexivity|cbn [separated flat_map]; now rewrite app_nil_r|].
    change (separated sep (x :: y :: ls)) with (x ++ sep ++ separated sep (y :: ls)).
    rewrite !insides_app, H, IH. reflexivity.
  Qed.
  Lemma flat_single {A B C} (f : A -> list B) (g : B -> list C) (h : A -> C) (l : list A) : (forall x, flat_map g (f x) = [h x]) ->
    flat_map (flat_map g) (map f l) = map h l.
  Proof. intro H. induction l as [|x l IH]; cbn [map flat_map]; [reflexivity|]. now rewrite H, IH. Qed.
  Lemma insides_body bare st (c : composite (value T)) : insides (body bare ind lead st c) = values c.
  Proof.
    destruct c as [[|x l]|[|x l]]; try reflexivity; cbn [body values].
    - rewrite !insides_app, insides_sep by reflexivity. unfold insides. cbn [flat_map app]. rewrite app_nil_r.
      apply (flat_single _ _ snd). reflexivity.
    - rewrite !insides_app, insides_sep by reflexivity. unfold insides. cbn [flat_map app]. rewrite app_nil_r.
      rewrite (flat_single (fun v => [Inside v]) _ (fun v => v)) by reflexivity. apply map_id.
  Qed.
  Lemma insides_contents (bare : str -> bool) st (d : vdef (value T)) items : contents bare ind lead st d = Some items -> insides items = children d.
  Proof.
    destruct d as [c|n c|b|p]; cbn [contents children]; intro H.
    - injection H as <-. apply insides_body.
    - injection H as <-. change (insides ([Text (variant_name bare n)] ++ [Text (gap_space st)] ++ body bare ind lead st c) = values c). rewrite !insides_app, insides_body. reflexivity.
    - injection H as <-. reflexivity.
    - destruct (leaf_text p); [|discriminate]. injection H as <-. reflexivity.
  Qed.

  Lemma notes_indifferent : indifferent (@beside_notes T).
  Proof.
    split; intros; unfold beside_notes; cbn [fst snd].
    - rewrite app_nil_r. now destruct w.
    - now rewrite app_assoc.
  Qed.

  Lemma written_notes : forall st,
    (forall v w w' ok, written (bare_name U) beside_notes ind lead [noting a] None st v w w' ok -> ok = true -> snd w' = snd w ++ questions v) /\
    (forall l w w' ok, all_written (bare_name U) beside_notes ind lead [noting a] None st l w w' ok -> ok = true -> snd w' = snd w ++ flat_map questions (insides l)).
  Proof.
    assert (HC : forall c (w w1 : str * list (value T)) ok, context_written beside_notes (None : option (T -> str * list (value T) -> bool * (str * list (value T)))) c w w1 ok -> w1 = w)
      by (intros c w w1 ok H; inversion H; subst; congruence).
    apply written_both; try (intros; discriminate).
    - intros st d c w w1 w2 ok H H2 ->. apply HC in H. subst w1. rewrite questions_eq.
      inversion H2; subst; match goal with X : noting _ _ _ = _ |- _ => unfold noting in X; destruct (a (Val d c)); try discriminate end.
      + match goal with X : asked _ [] _ _ _ |- _ => inversion X end.
      + match goal with X : (Some true, _) = (Some true, _) |- _ => injection X as <- end. reflexivity.
    - intros st d c w w1 w2 w3 items ok H H2 Ec H3 IH ->. apply HC in H. subst w1. rewrite questions_eq.
      inversion H2; subst. match goal with X : asked _ [] _ _ _ |- _ => inversion X; subst end.
      match goal with X : noting _ _ _ = _ |- _ => unfold noting in X; destruct (a (Val d c)); try discriminate; injection X as <- end.
      rewrite (IH eq_refl), (insides_contents _ _ _ _ Ec), fields_children. cbn [snd vdef_of]. now rewrite <- app_assoc.
    - intros. now rewrite app_nil_r.
    - intros st s l w w1 w2 ok H H2 IH ->. rewrite (IH eq_refl). apply (handed_indifferent _ notes_indifferent) in H.
      unfold beside_notes in H. injection H as <-. reflexivity.
    - intros st v l w w1 w2 ok H IH H2 IH2 ->. rewrite (IH2 eq_refl), (IH eq_refl). cbn [insides flat_map app].
      now rewrite <- app_assoc.
  Qed.

  Definition places_of (v : value T) (ps : list (list nat)) : Prop :=
    StronglySorted comes_before ps /\ (forall p, In p ps <-> reached a v p) /\ map Some (questions v) = map (node_at v) ps.

  Lemma places_list l : Forall (fun v => exists ps, places_of v ps) l -> forall k, exists ps,
    StronglySorted comes_before ps /\
    (forall p, In p ps <-> exists i q v, p = (k + i)%nat :: q /\ nth_error l i = Some v /\ reached a v q) /\
    map Some (flat_map questions l) = map (fun p => match p with i :: q => match nth_error l (i - k) with Some v => node_at v q | None => None end | [] => None end) ps.
  Proof.
    induction 1 as [|v l (ps & Hs & Hp & Hm) Hl IH]; intro k.
    - exists []. split; [constructor|]. split; [|reflexivity]. intro p. split; [intros []|]. intros ([|i] & q & v & _ & H & _); discriminate.
    - destruct (IH (S k)) as (ps' & Hs' & Hp' & Hm'). exists (map (cons k) ps ++ ps'). split; [|split].
      + apply sorted_app; [now apply sorted_cons|exact Hs'|]. intros x y Hx Hy. apply in_map_iff in Hx as (q & <- & _).
        apply Hp' in Hy as (i & q' & v' & -> & _). right. exists [], k, (S k + i)%nat, q, q'. repeat split. lia.
      + intro p. rewrite in_app_iff, in_map_iff, Hp'. split.
        * intros [(q & <- & Hq)|(i & q & x & -> & Hx & Hr)].
          -- exists O, q, v. rewrite Nat.add_0_r. repeat split; now apply Hp.
          -- exists (S i), q, x. split; [f_equal; lia|]. split; assumption.
        * intros ([|i] & q & x & -> & Hx & Hr).
          -- injection Hx as ->. left. exists q. rewrite Nat.add_0_r. split; [reflexivity|]. now apply Hp.
          -- right. exists i, q, x. split; [f_equal; lia|]. split; assumption.
      + cbn [flat_map]. rewrite !map_app, Hm, Hm', map_map. f_equal.
        * apply map_ext. intro q. now rewrite Nat.sub_diag.
        * apply map_ext_in. intros p Hin. apply Hp' in Hin as (i & q & x & -> & Hx & Hr).
          replace (S k + i - S k)%nat with i by lia. replace (S k + i - k)%nat with (S i) by lia. reflexivity.
  Qed.

  Lemma reached_cons v i q x : nth_error (fields_of v) i = Some x -> reached a v (i :: q) <-> a v = Declines /\ reached a x q.
  Proof.
    intro E. unfold reached. cbn [node_at]. rewrite E. split.
    - intros [H1 H2]. split; [now apply (H2 [] i q)|]. split; [exact H1|].
      intros q' j r n Eq Hn. apply (H2 (i :: q') j r); [cbn [app]; now rewrite Eq|]. cbn [node_at]. now rewrite E.
    - intros (Ha & H1 & H2). split; [exact H1|]. intros [|j q'] k r n Eq Hn.
      + injection Hn as <-. exact Ha.
      + cbn [app] in Eq. injection Eq as <- Eq. cbn [node_at] in Hn. rewrite E in Hn. exact (H2 q' k r n Eq Hn).
  Qed.

  Lemma places v : exists ps, places_of v ps.
  Proof.
    induction v as [d c IH] using value_ind'. set (v := Val d c).
    assert (Ef : fields_of v = children d) by apply fields_children.
    destruct (places_list (children d) IH 0) as (ps & Hs & Hp & Hm).
    destruct (a v) eqn:Ea.
    - exists ([] :: ps). split; [|split].
      + constructor; [exact Hs|]. apply Forall_forall. intros q Hq. apply Hp in Hq as (i & q' & x & -> & _). left. now exists (0 + i)%nat, q'.
      + intros [|i q].
        * split; [|now left]. intros _. split; [discriminate|]. intros [|j q] k r n E; discriminate.
        * cbn [In]. rewrite Hp. split.
          -- intros [E|(j & q' & x & E & Hx & Hr)]; [discriminate|]. injection E as -> ->. cbn [Nat.add]. rewrite <- Ef in Hx.
             apply (reached_cons _ _ _ _ Hx). split; assumption.
          -- intros Hr. right. destruct (nth_error (fields_of v) i) as [x|] eqn:Ex.
             ++ exists i, q, x. rewrite <- Ef. split; [reflexivity|]. split; [exact Ex|]. now apply (reached_cons _ _ _ _ Ex) in Hr.
             ++ exfalso. apply (proj1 Hr). cbn [node_at]. now rewrite Ex.
      + rewrite questions_eq, Ea. cbn [map]. f_equal. rewrite Ef, Hm. apply map_ext_in. intros p Hin.
        apply Hp in Hin as (i & q & x & -> & Hx & _). cbn [Nat.add node_at]. rewrite Nat.sub_0_r, Ef, Hx. reflexivity.
    - exists [[]]. split; [repeat constructor|]. split; [|rewrite questions_eq, Ea; reflexivity].
      intros [|i q]; split; try (now left).
      + intros _. split; [discriminate|]. intros [|j q] k r n E; discriminate.
      + intros [E|[]]; discriminate.
      + intros [_ H]. specialize (H [] i q v eq_refl eq_refl). congruence.
    - exists [[]]. split; [repeat constructor|]. split; [|rewrite questions_eq, Ea; reflexivity].
      intros [|i q]; split; try (now left).
      + intros _. split; [discriminate|]. intros [|j q] k r n E; discriminate.
      + intros [E|[]]; discriminate.
      + intros [_ H]. specialize (H [] i q v eq_refl eq_refl). congruence.
  Qed.
End Asked.
