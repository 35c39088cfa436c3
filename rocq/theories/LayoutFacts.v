(** * LayoutFacts: the formatter writes exactly the layout of Spec_Layout. *)
From Verif Require Import Base Value Chars Spec_Grammar Fmt Spec_Layout.
Local Open Scope N_scope.

Lemma every_omap {A B} (f : A -> B) l : every (map (omap f) l) = omap (map f) (every l).
Proof. induction l as [|[a|] l IH]; cbn [map every omap]; auto. rewrite IH. now destruct (every l). Qed.
Lemma escaped_code c : escaped c = match to_escape_code c with Some e => [c_bslash; e] | None => [c] end.
Proof.
  unfold escaped, escapes, to_escape_code. cbn [find fst snd].
  rewrite !(N.eqb_sym c).
  repeat match goal with |- context [N.eqb ?a c] => destruct (N.eqb a c) end; reflexivity.
Qed.

Section Flat.
  Context {T : Type} (U : unicode) (ind lead : str).
  Context (customs : list (value T -> answer)) (ctx_text : option (T -> str)).

  (** The configuration with these (pure) formatters, writing to a string. *)
  Definition as_formatter (g : value T -> answer) : value T -> str -> option bool * str :=
    fun v w => match g v with Declines => (None, w) | Writes s => (Some true, w ++ s) | Fails => (Some false, w) end.
  Definition as_printer (f : T -> str) : T -> str -> bool * str := fun c w => (true, w ++ f c).
  Definition pure_cfg : config T str :=
    {| indent_by := ind; leading_indent := lead; custom_formatters := map as_formatter customs;
       print_context := option_map as_printer ctx_text |}.

  Definition NL (n : nat) : str := [c_nl] ++ lead ++ concat (repeat ind n).
  Definition t_space (st : style) : str := match st with Compact => [] | _ => s2l " " end.
  Definition t_isep (st : style) : str := match st with Compact => [] | Normal => s2l " " | Pretty n => NL n end.
  Definition t_nl (st : style) : str := match st with Pretty n => NL n | _ => [] end.
  Definition st_in (st : style) : style := match st with Pretty n => Pretty (S n) | s => s end.

  Definition writes (a : @act str) (st : style) (o : option str) : Prop :=
    forall w, match o with Some s => a (FS w st) = (FS (w ++ s) st, true) | None => snd (a (FS w st)) = false end.

  Lemma writes_seq a b st o1 o2 : writes a st o1 -> writes b st o2 ->
    writes (andthen a b) st (match o1 with Some x => omap (app x) o2 | None => None end).
  Proof.
    intros H1 H2 w. specialize (H1 w). unfold andthen. destruct o1 as [x|].
    - rewrite H1. specialize (H2 (w ++ x)). destruct o2 as [y|]; cbn [omap]; [|exact H2]. now rewrite H2, app_assoc.
    - destruct (a (FS w st)) as [f' ok]. cbn [snd] in H1. subst ok. reflexivity.
  Qed.
  Lemma writes_ret st : writes ret st (Some []).
  Proof. intro w. unfold ret. now rewrite app_nil_r. Qed.
  Lemma writes_str s st : writes (write_str string_wr s) st (Some s).
  Proof. intro w. reflexivity. Qed.
  Lemma writes_eq a st o o' : writes a st o -> o = o' -> writes a st o'.
  Proof. now intros H <-. Qed.
  Lemma writes_seqs {A} (f : A -> @act str) (t : A -> option str) l st : Forall (fun x => writes (f x) st (t x)) l ->
    writes (seqs (map f l)) st (omap (@concat char) (every (map t l))).
  Proof.
    induction 1 as [|x l Hx HF IH]; cbn [map seqs every omap concat]; [apply writes_ret|].
    eapply writes_eq; [exact (writes_seq _ _ _ _ _ Hx IH)|]. destruct (t x); [|reflexivity].
    now destruct (every (map t l)).
  Qed.
  Lemma writes_repeat s n st : writes (seqs (repeat (write_str string_wr s) n)) st (Some (concat (repeat s n))).
  Proof.
    induction n; cbn [repeat seqs concat]; [apply writes_ret|]. exact (writes_seq _ _ _ _ _ (writes_str _ _) IHn).
  Qed.
  Lemma writes_newline_n n st : writes (write_newline string_wr pure_cfg n) st (Some (NL n)).
  Proof.
    unfold write_newline. exact (writes_seq _ _ _ _ _ (writes_str _ _) (writes_seq _ _ _ _ _ (writes_str _ _) (writes_repeat _ _ _))).
  Qed.
  Lemma writes_space st : writes (space string_wr) st (Some (t_space st)).
  Proof. destruct st; intro w; cbn; try reflexivity. unfold ret. now rewrite app_nil_r. Qed.
  Lemma writes_isep st : writes (item_separator string_wr pure_cfg) st (Some (t_isep st)).
  Proof.
    destruct st; intro w; unfold item_separator; cbn [fstyle t_isep]; try reflexivity.
    - apply writes_newline_n.
    - unfold ret. now rewrite app_nil_r.
  Qed.
  Lemma writes_nl st : writes (newline string_wr pure_cfg) st (Some (t_nl st)).
  Proof.
    destruct st; intro w; unfold newline; cbn [fstyle t_nl]; [apply writes_newline_n| |]; unfold ret; now rewrite app_nil_r.
  Qed.
  Lemma writes_escaped c st : writes (fmt_escaped string_wr c) st (Some (escaped c)).
  Proof.
    rewrite escaped_code. unfold fmt_escaped. destruct (to_escape_code c); [|apply writes_str].
    exact (writes_seq _ _ _ _ _ (writes_str _ _) (writes_str _ _)).
  Qed.
  Lemma every_some {A B} (f : A -> B) l : every (map (fun x => Some (f x)) l) = Some (map f l).
  Proof. induction l; cbn [map every]; [reflexivity|]. now rewrite IHl. Qed.
  Lemma writes_string s st : writes (fmt_string string_wr s) st (Some (string_literal s)).
  Proof.
    unfold fmt_string, string_literal.
    refine (writes_eq _ _ _ _ (writes_seq _ _ _ _ _ (writes_str _ _) (writes_seq _ _ _ _ _
      (writes_seqs _ (fun c => Some (escaped c)) s st _) (writes_str _ _))) _).
    - apply Forall_forall. intros; apply writes_escaped.
    - rewrite every_some. reflexivity.
  Qed.
  Lemma writes_prim p st : writes (fmt_primitive string_wr p) st (leaf_text p).
  Proof.
    destruct p as [[]|c|s|n|z|b|b]; cbn [fmt_primitive leaf_text]; try apply writes_str; try (intro w; reflexivity).
    - unfold fmt_char. exact (writes_seq _ _ _ _ _ (writes_str _ _) (writes_seq _ _ _ _ _ (writes_escaped _ _) (writes_str _ _))).
    - apply writes_string.
    - unfold fmt_int. destruct (z <? 0)%Z; [|apply writes_str]. exact (writes_seq _ _ _ _ _ (writes_str _ _) (writes_str _ _)).
  Qed.
  Lemma concat_singles {A B} (f : A -> B) l : concat (map (fun x => [f x]) l) = map f l.
  Proof. induction l; cbn [map concat app]; congruence. Qed.
  Lemma writes_bits b st : writes (fmt_bitsequence string_wr b) st (Some (bits_text b)).
  Proof.
    unfold fmt_bitsequence, bits_text.
    refine (writes_eq _ _ _ _ (writes_seq _ _ _ _ _ (writes_str _ _) (writes_seq _ _ _ _ _
      (writes_seqs _ (fun x : bool => Some [if x then c_1 else c_0]) b st _) (writes_str _ _))) _).
    - apply Forall_forall. intros; apply writes_str.
    - rewrite every_some. cbn [omap]. now rewrite concat_singles.
  Qed.

  Lemma join_tail sep a l : join sep (a :: l) = a ++ concat (map (fun x => sep ++ x) l).
  Proof.
    revert a; induction l as [|b l IH]; intro a; [cbn; now rewrite app_nil_r|].
    change (join sep (a :: b :: l)) with (a ++ sep ++ join sep (b :: l)). rewrite IH. cbn [map concat]. now rewrite <- app_assoc.
  Qed.
  Lemma writes_items {A} (f : A -> @act str) (t : A -> option str) l st : Forall (fun x => writes (f x) st (t x)) l ->
    writes (fmt_items string_wr pure_cfg f l) st (omap (join (s2l "," ++ t_isep st)) (every (map t l))).
  Proof.
    intros [|a l' Ha Hl]; cbn [fmt_items map every]; [apply writes_ret|].
    refine (writes_eq _ _ _ _ (writes_seq _ _ _ _ _ Ha
      (writes_seqs _ (fun x => omap (fun y => (s2l "," ++ t_isep st) ++ y) (t x)) l' st _)) _).
    - eapply Forall_impl; [|exact Hl]. intros x Hx.
      refine (writes_eq _ _ _ _ (writes_seq _ _ _ _ _ (writes_str _ _) (writes_seq _ _ _ _ _ (writes_isep _) Hx)) _).
      destruct (t x); cbn [omap]; [|reflexivity]. now rewrite <- app_assoc.
    - destruct (t a); [|reflexivity]. rewrite <- (map_map t (omap (fun y => (s2l "," ++ t_isep st) ++ y))), every_omap.
      destruct (every (map t l')); cbn [omap]; [|reflexivity]. now rewrite join_tail.
  Qed.

  (** A block: the opening, the indented items, the closing. *)
  Lemma writes_block (o c : str) (sepa : @act str) (tsep : style -> str) (items : @act str) st ot :
    (forall st, writes sepa st (Some (tsep st))) -> writes items (st_in st) ot ->
    writes (andthen (write_str string_wr o) (andthen indent_step (andthen sepa
          (andthen items (andthen unindent_step (andthen sepa (write_str string_wr c))))))) st
      (omap (fun t => o ++ tsep (st_in st) ++ t ++ tsep st ++ c) ot).
  Proof.
    intros Hs Hi w. unfold andthen, indent_step, unindent_step. cbn [write_str string_wr writer fstyle].
    replace (match st with Pretty n => Pretty (S n) | Normal => Normal | Compact => Compact end) with (st_in st) by (now destruct st).
    rewrite (Hs (st_in st) (w ++ o)). specialize (Hi ((w ++ o) ++ tsep (st_in st))). destruct ot as [t|]; cbn [omap].
    - rewrite Hi. cbn [writer fstyle].
      replace (match st_in st with Pretty n => Pretty (Nat.pred n) | Normal => Normal | Compact => Compact end) with st by (now destruct st).
      rewrite (Hs st _). cbn [write_str string_wr writer fstyle]. now rewrite <- !app_assoc.
    - destruct (items _) as [f' ok]. cbn [snd] in Hi. subst ok. reflexivity.
  Qed.

  Definition t_round (st : style) (l : list str) : str :=
    match l with [] => s2l "()" | _ => s2l "(" ++ t_nl (st_in st) ++ join (s2l "," ++ t_isep (st_in st)) l ++ t_nl st ++ s2l ")" end.
  Definition t_curly (st : style) (l : list str) : str :=
    match l with [] => s2l "{}" | _ => s2l "{" ++ t_isep (st_in st) ++ join (s2l "," ++ t_isep (st_in st)) l ++ t_isep st ++ s2l "}" end.
  Definition t_pair (st : style) (n v : str) : str := field_name (is_ident U) n ++ s2l ":" ++ t_space st ++ v.

  (** The text of a value in a style, by recursion on the style. *)
  Fixpoint flat (v : value T) (st : style) : option str :=
    match v with
    | Val d c =>
        omap (fun t => ctx_prefix ctx_text c ++ t)
          (match first_answer customs v with
           | Writes s => Some s
           | Fails => None
           | Declines =>
               match d with
               | DPrim p => leaf_text p
               | DBits b => Some (bits_text b)
               | DComposite (Unnamed l) => omap (t_round st) (every (map (fun x => flat x (st_in st)) l))
               | DComposite (Named l) =>
                   omap (t_curly st) (every (map (fun kv => omap (t_pair (st_in st) (fst kv)) (flat (snd kv) (st_in st))) l))
               | DVariant n (Unnamed l) =>
                   omap (fun t => variant_name (is_ident U) n ++ t_space st ++ t_round st t) (every (map (fun x => flat x (st_in st)) l))
               | DVariant n (Named l) =>
                   omap (fun t => variant_name (is_ident U) n ++ t_space st ++ t_curly st t)
                     (every (map (fun kv => omap (t_pair (st_in st) (fst kv)) (flat (snd kv) (st_in st))) l))
               end
           end)
    end.

  Lemma writes_unnamed (fv : value T -> @act str) l st :
    Forall (fun x => forall st, writes (fv x) st (flat x st)) l ->
    writes (fmt_composite U string_wr pure_cfg fv (Unnamed l)) st (omap (t_round st) (every (map (fun x => flat x (st_in st)) l))).
  Proof.
    intro H. destruct l as [|a l]; [apply writes_str|]. cbn [fmt_composite].
    refine (writes_eq _ _ _ _ (writes_block (s2l "(") (s2l ")") _ t_nl _ st _ writes_nl (writes_items fv (fun x => flat x (st_in st)) (a :: l) _ _)) _).
    - eapply Forall_impl; [|exact H]. intros; auto.
    - cbn [map every]. destruct (flat a (st_in st)); [|reflexivity]. now destruct (every _).
  Qed.
  Lemma writes_name n st : writes (fmt_name U string_wr n) st (Some (field_name (is_ident U) n)).
  Proof. unfold fmt_name, field_name. destruct (is_ident U n); [apply writes_str|apply writes_string]. Qed.
  Lemma writes_named (fv : value T -> @act str) l st :
    Forall (fun kv => forall st, writes (fv (snd kv)) st (flat (snd kv) st)) l ->
    writes (fmt_composite U string_wr pure_cfg fv (Named l)) st
      (omap (t_curly st) (every (map (fun kv => omap (t_pair (st_in st) (fst kv)) (flat (snd kv) (st_in st))) l))).
  Proof.
    intro H. destruct l as [|a l]; [apply writes_str|]. cbn [fmt_composite].
    refine (writes_eq _ _ _ _ (writes_block (s2l "{") (s2l "}") _ t_isep _ st _ writes_isep
      (writes_items (fmt_field U string_wr fv) (fun kv => omap (t_pair (st_in st) (fst kv)) (flat (snd kv) (st_in st))) (a :: l) _ _)) _).
    - eapply Forall_impl; [|exact H]. intros kv Hk. unfold fmt_field.
      refine (writes_eq _ _ _ _ (writes_seq _ _ _ _ _ (writes_name _ _) (writes_seq _ _ _ _ _ (writes_str _ _)
        (writes_seq _ _ _ _ _ (writes_space _) (Hk _)))) _).
      now destruct (flat (snd kv) (st_in st)).
    - cbn [map every]. destruct (flat (snd a) (st_in st)); [|reflexivity]. cbn [omap]. now destruct (every _).
  Qed.
  Lemma writes_variant (fv : value T -> @act str) n c st o :
    writes (fmt_composite U string_wr pure_cfg fv c) st o ->
    writes (fmt_variant U string_wr pure_cfg fv n c) st (omap (fun t => variant_name (is_ident U) n ++ t_space st ++ t) o).
  Proof.
    intro H. unfold fmt_variant.
    refine (writes_eq _ _ _ _ (writes_seq _ _ _ (Some (variant_name (is_ident U) n)) _ _
      (writes_seq _ _ _ _ _ (writes_space _) H)) _).
    - unfold variant_name. destruct (is_ident U n); [apply writes_str|].
      exact (writes_seq _ _ _ _ _ (writes_str _ _) (writes_string _ _)).
    - now destruct o.
  Qed.

  Lemma run_pure v w st : run_formatters (map as_formatter customs) v (FS w st) =
    match first_answer customs v with
    | Declines => (None, FS w st) | Writes s => (Some true, FS (w ++ s) st) | Fails => (Some false, FS w st) end.
  Proof.
    clear. induction customs as [|g l IH]; cbn [map run_formatters first_answer]; [reflexivity|].
    unfold as_formatter at 1. cbn [writer fstyle]. destruct (g v); auto.
  Qed.

  Lemma flat_writes v : forall st, writes (fmt_value U string_wr pure_cfg v) st (flat v st).
  Proof.
    induction v as [l ctx IH|l ctx IH|n l ctx IH|n l ctx IH|b ctx|p ctx] using value_ind4; intro st.
    all: assert (Hc : writes (fmt_context string_wr pure_cfg ctx) st (Some (ctx_prefix ctx_text ctx)))
      by (unfold fmt_context, ctx_prefix; cbn [print_context pure_cfg]; destruct ctx_text as [pc|]; cbn [option_map];
          [intro w; unfold andthen, as_printer; cbn [write_char write_str string_wr writer fstyle]; now rewrite <- !app_assoc|apply writes_ret]).
    all: match goal with |- writes (fmt_value _ _ _ (Val ?d _)) _ _ =>
        assert (Hd : writes (fmt_valuedef U string_wr pure_cfg (fmt_value U string_wr pure_cfg) d) st
          (match d with
               | DPrim p => leaf_text p
               | DBits b => Some (bits_text b)
               | DComposite (Unnamed l) => omap (t_round st) (every (map (fun x => flat x (st_in st)) l))
               | DComposite (Named l) =>
                   omap (t_curly st) (every (map (fun kv => omap (t_pair (st_in st) (fst kv)) (flat (snd kv) (st_in st))) l))
               | DVariant n (Unnamed l) =>
                   omap (fun t => variant_name (is_ident U) n ++ t_space st ++ t_round st t) (every (map (fun x => flat x (st_in st)) l))
               | DVariant n (Named l) =>
                   omap (fun t => variant_name (is_ident U) n ++ t_space st ++ t_curly st t)
                     (every (map (fun kv => omap (t_pair (st_in st) (fst kv)) (flat (snd kv) (st_in st))) l))
               end)); cbn [fmt_valuedef]
      end.
    all: match goal with
      | |- writes (fmt_composite _ _ _ _ (Named _)) _ _ => now apply writes_named
      | |- writes (fmt_composite _ _ _ _ (Unnamed _)) _ _ => now apply writes_unnamed
      | |- writes (fmt_variant _ _ _ _ _ (Named _)) _ _ =>
          refine (writes_eq _ _ _ _ (writes_variant _ _ _ _ _ (writes_named _ _ _ IH)) _); now destruct (every _)
      | |- writes (fmt_variant _ _ _ _ _ (Unnamed _)) _ _ =>
          refine (writes_eq _ _ _ _ (writes_variant _ _ _ _ _ (writes_unnamed _ _ _ IH)) _); now destruct (every _)
      | |- writes (fmt_bitsequence _ _) _ _ => apply writes_bits
      | |- writes (fmt_primitive _ _) _ _ => apply writes_prim
      | _ => idtac
      end.
    all: cbn [fmt_value flat].
    all: match goal with |- writes (andthen _ ?b) _ (omap _ ?o) =>
        assert (Hb : writes b st o);
        [intro w; cbn [custom_formatters pure_cfg]; rewrite run_pure; destruct (first_answer customs _);
           [apply (Hd w)|reflexivity|reflexivity]
        |refine (writes_eq _ _ _ _ (writes_seq _ _ _ _ _ Hc Hb) _); reflexivity]
      end.
  Qed.

  Definition pure_text (st : style) (v : value T) : option str :=
    let (w, ok) := write_value U string_wr pure_cfg st v [] in if ok then Some w else None.
  Lemma pure_text_flat st v : pure_text st v = flat v st.
  Proof.
    unfold pure_text, write_value. pose proof (flat_writes v st []) as H. destruct (flat v st) as [t|].
    - rewrite H. reflexivity.
    - destruct (fmt_value _ _ _ _ _) as [f ok]. cbn [snd] in H. now subst ok.
  Qed.

  (** ** One-line styles *)
  Definition flat_sp (st : style) : Prop := st_in st = st /\ t_isep st = t_space st /\ t_nl st = [].
  Lemma flat_one_line st v : flat_sp st -> flat v st = one_line (is_ident U) customs ctx_text (t_space st) v.
  Proof.
    intros (H1 & H2 & H3).
    assert (HR : forall l, t_round st l = round (t_space st) l).
    { intro l. unfold t_round, round. rewrite H1, H2, H3. now destruct l. }
    assert (HC : forall l, t_curly st l = curly (t_space st) l).
    { intro l. unfold t_curly, curly. rewrite H1, H2. now destruct l. }
    induction v as [l ctx IH|l ctx IH|n l ctx IH|n l ctx IH|b ctx|p ctx] using value_ind4; cbn [flat one_line];
      f_equal; destruct (first_answer customs _); try reflexivity; rewrite H1.
    all: match goal with |- omap _ (every (map ?f ?l)) = omap _ (every (map ?g ?l)) =>
      assert (E : map f l = map g l); [apply map_ext_Forall; eapply Forall_impl; [|exact IH]; intros x Hx; cbn beta in Hx; rewrite ?Hx; reflexivity|rewrite E; destruct (every (map g l)); cbn [omap]; rewrite ?HR, ?HC; reflexivity] end.
  Qed.

  (** ** Pretty *)
  Notation put := (put_together lead ind).
  Definition headed (ls : list line) : Prop := exists s r, ls = (O, s) :: r.
  Lemma put_prefix m p ls : ls <> [] -> put m (prefix_first p ls) = p ++ put m ls.
  Proof. destruct ls as [|[n s] r]; [congruence|]. intros _. cbn [prefix_first put_together snd]. now rewrite app_assoc. Qed.
  Lemma put_suffix m q ls : ls <> [] -> put m (suffix_last q ls) = put m ls ++ q.
  Proof.
    destruct ls as [|[n s] r]; [congruence|]. intros _.
    assert (H : forall r n s, concat (map (new_line lead ind m) (suffix_last q ((n, s) :: r))) = concat (map (new_line lead ind m) ((n, s) :: r)) ++ q).
    { clear. induction r as [|[n' s'] r IH]; intros n s.
      - cbn [suffix_last map concat]. unfold new_line. cbn [fst snd]. now rewrite !app_nil_r, <- !app_assoc.
      - change (suffix_last q ((n, s) :: (n', s') :: r)) with ((n, s) :: suffix_last q ((n', s') :: r)).
        cbn [map concat]. cbn [map concat] in IH. rewrite IH, <- !app_assoc. reflexivity. }
    destruct r as [|[n' s'] r].
    - cbn. now rewrite !app_nil_r.
    - change (suffix_last q ((n, s) :: (n', s') :: r)) with ((n, s) :: suffix_last q ((n', s') :: r)).
      cbn [put_together snd]. rewrite H. cbn [map concat]. now rewrite <- !app_assoc.
  Qed.
  Lemma put_app m a b : a <> [] -> put m (a ++ b) = put m a ++ concat (map (new_line lead ind m) b).
  Proof. destruct a; [congruence|]. intros _. cbn [app put_together]. now rewrite map_app, concat_app, app_assoc. Qed.
  Lemma nl_headed m ls : headed ls -> concat (map (new_line lead ind m) ls) = NL m ++ put m ls.
  Proof.
    intros (s & r & ->). cbn [map concat put_together snd]. unfold new_line at 1, NL. cbn [fst snd].
    rewrite Nat.add_0_r. now rewrite <- !app_assoc.
  Qed.
  Lemma nl_deeper m ls : concat (map (new_line lead ind m) (deeper ls)) = concat (map (new_line lead ind (S m)) ls).
  Proof.
    unfold deeper. rewrite map_map. f_equal. apply map_ext. intros [n s]. unfold new_line. cbn [fst snd].
    now rewrite Nat.add_succ_r.
  Qed.
  Lemma suffix_headed q ls : headed ls -> headed (suffix_last q ls).
  Proof. intros (s & [|x r] & ->); cbn [suffix_last]; unfold headed; eauto. Qed.
  Lemma headed_app a b : headed a -> headed (a ++ b).
  Proof. intros (s & r & ->). exists s, (r ++ b). reflexivity. Qed.
  Lemma commas_headed a items : headed a -> headed (with_commas (a :: items)).
  Proof. intro H. destruct items; [exact H|]. now apply headed_app, suffix_headed. Qed.
  Lemma headed_ne ls : headed ls -> ls <> [].
  Proof. intros (s & r & ->). discriminate. Qed.
  Lemma put_commas m items : Forall headed items -> put m (with_commas items) = join (s2l "," ++ NL m) (map (put m) items).
  Proof.
    induction 1 as [|a items Ha HF IH]; [reflexivity|]. destruct items as [|b items]; [reflexivity|].
    change (with_commas (a :: b :: items)) with (suffix_last (s2l ",") a ++ with_commas (b :: items)).
    rewrite put_app by (now apply headed_ne, suffix_headed).
    rewrite put_suffix by (now apply headed_ne).
    rewrite nl_headed by (apply commas_headed; now inversion HF). rewrite IH.
    cbn [map]. cbn [join]. now rewrite <- !app_assoc.
  Qed.
  Lemma put_block m o c items : Forall headed items ->
    put m (block o c items) = match items with [] => o ++ c | _ => o ++ NL (S m) ++ join (s2l "," ++ NL (S m)) (map (put (S m)) items) ++ NL m ++ c end.
  Proof.
    intro H. unfold block. destruct items as [|a items]; [cbn; now rewrite app_nil_r|].
    cbn [app put_together snd]. rewrite map_app, concat_app, nl_deeper, nl_headed by (apply commas_headed; now inversion H).
    rewrite put_commas by exact H. cbn [map concat]. unfold new_line. cbn [fst snd]. rewrite Nat.add_0_r, app_nil_r. unfold NL.
    now rewrite <- !app_assoc.
  Qed.
  Lemma block_headed o c items : headed (block o c items).
  Proof. destruct items; unfold block, headed; cbn [app]; eauto. Qed.
  Lemma prefix_headed p ls : headed ls -> headed (prefix_first p ls).
  Proof. intros (s & r & ->). exists (p ++ s), r. reflexivity. Qed.

  Lemma lines_headed v ls : lines (is_ident U) customs ctx_text v = Some ls -> headed ls.
  Proof.
    destruct v as [d ctx]. cbn [lines]. intro H.
    match type of H with omap _ ?o = _ => destruct o as [ls'|] eqn:E; [|discriminate] end.
    injection H as <-. apply prefix_headed.
    destruct (first_answer customs _).
    - destruct d as [[l|l]|n [l|l]|b|p].
      1-4: match type of E with omap _ ?o = _ => destruct o; [|discriminate] end; injection E as <-;
        try apply prefix_headed; apply block_headed.
      + injection E as <-. unfold headed. eauto.
      + destruct (leaf_text p); [|discriminate]. injection E as <-. unfold headed. eauto.
    - injection E as <-. unfold headed. eauto.
    - discriminate.
  Qed.

  Lemma every_put {A} (sel : A -> option (list line)) l r :
    every (map sel l) = Some r -> Forall (fun x => forall ls, sel x = Some ls -> headed ls) l -> Forall headed r.
  Proof.
    revert r; induction l as [|x l IH]; cbn [map every]; intros r H HF; inversion_clear HF; [injection H as <-; constructor|].
    destruct (sel x) eqn:E; [|discriminate]. destruct (every (map sel l)); [|discriminate]. injection H as <-.
    constructor; auto.
  Qed.
  Lemma every_transport {A} (sel : A -> option (list line)) (fl : A -> option str) m l :
    Forall (fun x => fl x = omap (put m) (sel x)) l -> every (map fl l) = omap (map (put m)) (every (map sel l)).
  Proof.
    intro H. rewrite <- every_omap, map_map. f_equal. now apply map_ext_Forall.
  Qed.

  Lemma flat_pretty v : forall m, flat v (Pretty m) = omap (put m) (lines (is_ident U) customs ctx_text v).
  Proof.
    induction v as [l ctx IH|l ctx IH|n l ctx IH|n l ctx IH|b ctx|p ctx] using value_ind4; intro m; cbn [flat lines].
    all: match goal with |- omap _ ?a = omap _ (omap _ ?b) =>
      enough (HH : a = omap (put m) b /\ (forall ls, b = Some ls -> ls <> []));
      [destruct HH as [HH1 HH2]; rewrite HH1; destruct b as [ls|]; [|reflexivity]; cbn [omap]; now rewrite put_prefix by (now apply HH2)|] end.
    all: destruct (first_answer customs _);
      [|split; [cbn [omap put_together snd map concat]; now rewrite app_nil_r|intros ls [= <-]; discriminate]|split; [reflexivity|discriminate]].
    5: split; [cbn [omap put_together snd map concat]; now rewrite app_nil_r|intros ls [= <-]; discriminate].
    5: { destruct (leaf_text p); cbn [omap]; split; try reflexivity; try discriminate;
         [cbn [put_together snd map concat]; now rewrite app_nil_r|intros ls [= <-]; discriminate]. }
    all: split;
      [|match goal with |- forall ls, omap _ ?o = Some ls -> _ => destruct o; [|discriminate] end; intros ls [= <-]; try apply headed_ne;
        try apply prefix_headed; apply block_headed].
    - assert (E : every (map (fun kv => omap (t_pair (st_in (Pretty m)) (fst kv)) (flat (snd kv) (st_in (Pretty m)))) l)
        = omap (map (put (S m))) (every (map (fun kv => omap (prefix_first (field_name (is_ident U) (fst kv) ++ s2l ": ")) (lines (is_ident U) customs ctx_text (snd kv))) l))).
      { apply every_transport. eapply Forall_impl; [|exact IH]. intros [k x] Hx. cbn [fst snd st_in] in *. rewrite Hx.
        destruct (lines _ _ _ x) as [ls|] eqn:E; [|reflexivity]. cbn [omap]. rewrite put_prefix by (eapply headed_ne, lines_headed, E).
        unfold t_pair. cbn [t_space]. now rewrite <- !app_assoc. }
      rewrite E. clear E.
      match goal with |- context [every ?x] => destruct (every x) as [r|] eqn:Er; [|reflexivity] end. cbn [omap]. f_equal.
      rewrite put_block; [destruct r; reflexivity|]. eapply every_put; [exact Er|].
      apply Forall_forall. intros [k x] _ ls. cbn [fst snd]. destruct (lines _ _ _ x) eqn:E; [|discriminate]. intros [= <-].
      eapply prefix_headed, lines_headed, E.
    - assert (E : every (map (fun x => flat x (st_in (Pretty m))) l) = omap (map (put (S m))) (every (map (lines (is_ident U) customs ctx_text) l))).
      { apply every_transport. eapply Forall_impl; [|exact IH]. intros x Hx. apply Hx. }
      rewrite E. clear E.
      match goal with |- context [every ?x] => destruct (every x) as [r|] eqn:Er; [|reflexivity] end. cbn [omap]. f_equal.
      rewrite put_block; [destruct r; reflexivity|]. eapply every_put; [exact Er|].
      apply Forall_forall. intros x _ ls. apply lines_headed.
    - assert (E : every (map (fun kv => omap (t_pair (st_in (Pretty m)) (fst kv)) (flat (snd kv) (st_in (Pretty m)))) l)
        = omap (map (put (S m))) (every (map (fun kv => omap (prefix_first (field_name (is_ident U) (fst kv) ++ s2l ": ")) (lines (is_ident U) customs ctx_text (snd kv))) l))).
      { apply every_transport. eapply Forall_impl; [|exact IH]. intros [k x] Hx. cbn [fst snd st_in] in *. rewrite Hx.
        destruct (lines _ _ _ x) as [ls|] eqn:E; [|reflexivity]. cbn [omap]. rewrite put_prefix by (eapply headed_ne, lines_headed, E).
        unfold t_pair. cbn [t_space]. now rewrite <- !app_assoc. }
      rewrite E. clear E.
      match goal with |- context [every ?x] => destruct (every x) as [r|] eqn:Er; [|reflexivity] end. cbn [omap]. f_equal.
      rewrite put_prefix by apply headed_ne, block_headed.
      rewrite put_block; [rewrite <- app_assoc; destruct r; reflexivity|]. eapply every_put; [exact Er|].
      apply Forall_forall. intros [k x] _ ls. cbn [fst snd]. destruct (lines _ _ _ x) eqn:E; [|discriminate]. intros [= <-].
      eapply prefix_headed, lines_headed, E.
    - assert (E : every (map (fun x => flat x (st_in (Pretty m))) l) = omap (map (put (S m))) (every (map (lines (is_ident U) customs ctx_text) l))).
      { apply every_transport. eapply Forall_impl; [|exact IH]. intros x Hx. apply Hx. }
      rewrite E. clear E.
      match goal with |- context [every ?x] => destruct (every x) as [r|] eqn:Er; [|reflexivity] end. cbn [omap]. f_equal.
      rewrite put_prefix by apply headed_ne, block_headed.
      rewrite put_block; [rewrite <- app_assoc; destruct r; reflexivity|]. eapply every_put; [exact Er|].
      apply Forall_forall. intros x _ ls. apply lines_headed.
  Qed.
End Flat.
