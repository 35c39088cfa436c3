(** * TextSizeFacts: the size of formatted text. *)
From Verif Require Import Base Value Chars Spec_Grammar Fmt FmtText Spec_Cost Spec_TextSize Spec_Texts Props_Texts Props_Vocab.
Local Open Scope N_scope.
Notation len l := (N.of_nat (length l)).

Lemma show_N_short n k : n < 10 ^ k -> 1 <= k -> len (show_N n) <= k.
Proof.
  intros H K. destruct (show_N_spec n) as (d & r & E & D & V & Z). rewrite E. cbn [length]. destruct (N.eq_dec d 48) as [->|NZ].
  - destruct (Z eq_refl) as [-> _]. cbn [length]. lia.
  - cbn [forallb] in D. apply andb_true_iff in D as [D _]. pose proof (dec_large d r D NZ) as L. rewrite V in L.
    assert (X : 10 ^ len r < 10 ^ k) by lia. apply N.pow_lt_mono_r_iff in X; lia.
Qed.

Section Cost.
  Context {T W : Type} (U : unicode) (wr : W -> str -> W * bool) (mu : W -> N).
  Context (Hwr : forall w s, mu (fst (wr w s)) <= mu w + 1 + len s).
  Context (ind lead : str).
  Local Notation act := (act (W := W)).
  Local Notation cfg := (plain_cfg (T := T) (W := W) ind lead).

  Definition costs (st : style) (a : act) (st' : style) (k : N) : Prop :=
    forall w, let (f, ok) := a (FS w st) in mu (writer f) <= mu w + k /\ (ok = true -> fstyle f = st').

  Lemma c_ret st : costs st ret st 0.
  Proof. intro w. cbn. split; [lia|reflexivity]. Qed.
  Lemma c_then st a st1 k b st2 k' : costs st a st1 k -> costs st1 b st2 k' -> costs st (andthen a b) st2 (k + k').
  Proof.
    intros A B w. unfold andthen. specialize (A w). destruct (a (FS w st)) as [[w1 s1] ok]. destruct A as [A S]. cbn [writer fstyle] in *. destruct ok; [|split; [cbn; lia|discriminate]].
    rewrite (S eq_refl) in *. specialize (B w1). destruct (b (FS w1 st1)) as [[w2 s2] ok2]. destruct B as [B S2]. cbn [writer fstyle] in *. split; [lia|exact S2].
  Qed.
  Lemma c_weak st a st' k k' : costs st a st' k -> k <= k' -> costs st a st' k'.
  Proof. intros A L w. specialize (A w). destruct (a (FS w st)) as [f ok]. destruct A. split; [lia|assumption]. Qed.
  Lemma c_str st s : costs st (write_str wr s) st (1 + len s).
  Proof. intro w. unfold write_str. cbn [writer fstyle]. specialize (Hwr w s). destruct (wr w s) as [w' ok]. cbn [fst writer fstyle] in *. split; [lia|reflexivity]. Qed.
  Lemma c_char st c : costs st (write_char wr c) st 2.
  Proof. apply (c_weak _ _ _ (1 + len [c])); [apply c_str|cbn; lia]. Qed.
  Lemma c_seqs st (l : list act) k : Forall (fun a => costs st a st k) l -> costs st (seqs l) st (k * len l).
  Proof.
    induction 1 as [|a l A F IH]; cbn [seqs length]; [rewrite N.mul_0_r; apply c_ret|].
    eapply c_weak; [eapply c_then; [exact A|exact IH]|]. lia.
  Qed.

  Definition up (st : style) : style := match st with Pretty n => Pretty (S n) | s => s end.
  (** Cost of one separator. *)
  Definition sep (st : style) : N := match st with Compact => 0 | Normal => 2 | Pretty n => 3 + len lead + (1 + len ind) * N.of_nat n end.
  Lemma c_up st : costs st (indent_step) (up st) 0.
  Proof. intro w. cbn. split; [lia|]. destruct st; reflexivity. Qed.
  Lemma c_down st : costs (up st) (unindent_step) st 0.
  Proof. intro w. cbn. split; [lia|]. destruct st; reflexivity. Qed.
  Lemma c_newline_n st n : costs st (write_newline wr cfg n) st (3 + len lead + (1 + len ind) * N.of_nat n).
  Proof.
    unfold write_newline. cbn [leading_indent indent_by plain_cfg].
    eapply c_weak; [eapply c_then; [apply c_char|]; eapply c_then; [apply c_str|]; apply (c_seqs _ _ (1 + len ind)); apply Forall_forall; intros a Ha; apply repeat_spec in Ha as ->; apply c_str|].
    rewrite repeat_length. lia.
  Qed.
  Lemma c_item_sep st : costs st (item_separator wr cfg) st (sep st).
  Proof. intro w. unfold item_separator. cbn [fstyle]. destruct st; [apply c_newline_n|apply c_char|apply c_ret]. Qed.
  Lemma c_newline st : costs st (newline wr cfg) st (sep st).
  Proof.
    intro w. unfold newline. cbn [fstyle]. destruct st; [apply c_newline_n| |apply c_ret]. cbn. split; [lia|reflexivity].
  Qed.
  Lemma c_space st : costs st (space wr) st 2.
  Proof. intro w. unfold space. cbn [fstyle]. destruct st; [apply c_char|apply c_char|]. cbn. split; [lia|reflexivity]. Qed.

  Lemma c_escaped st c : costs st (fmt_escaped wr c) st 4.
  Proof.
    unfold fmt_escaped. destruct (to_escape_code c).
    - eapply c_weak; [eapply c_then; apply c_char|lia].
    - eapply c_weak; [apply c_char|lia].
  Qed.
  Lemma c_string st s : costs st (fmt_string wr s) st (4 + 4 * len s).
  Proof.
    unfold fmt_string. eapply c_weak; [eapply c_then; [apply c_char|]; eapply c_then; [|apply c_char]; apply (c_seqs _ _ 4), Forall_forall; intros a Ha; apply in_map_iff in Ha as (c & <- & _); apply c_escaped|].
    rewrite map_length. lia.
  Qed.
  Lemma c_name st n : costs st (fmt_name U wr n) st (4 + 4 * len n).
  Proof. unfold fmt_name. destruct (is_ident U n); [eapply c_weak; [apply c_str|lia]|apply c_string]. Qed.
  Lemma c_bits st b : costs st (fmt_bitsequence wr b) st (4 + 4 * len b).
  Proof.
    unfold fmt_bitsequence. eapply c_weak; [eapply c_then; [apply c_char|]; eapply c_then; [|apply c_char]; apply (c_seqs _ _ 2), Forall_forall; intros a Ha; apply in_map_iff in Ha as (c & <- & _); apply c_char|].
    rewrite map_length. lia.
  Qed.
  Lemma c_prim st p : prim_wf p = true -> costs st (fmt_primitive wr p) st (42 + 4 * match p with PString s => len s | _ => 0 end).
  Proof.
    assert (N39 : 2 ^ 128 < 10 ^ 39) by reflexivity.
    destruct p as [[]|c|s|n|z|b|b]; cbn [fmt_primitive prim_wf]; intro WF.
    - eapply c_weak; [apply c_str|cbn; lia].
    - eapply c_weak; [apply c_str|cbn; lia].
    - eapply c_weak; [unfold fmt_char; eapply c_then; [apply c_char|eapply c_then; [apply c_escaped|apply c_char]]|lia].
    - eapply c_weak; [apply c_string|lia].
    - eapply c_weak; [apply c_str|]. apply N.ltb_lt in WF. pose proof (show_N_short n 39 ltac:(lia) ltac:(lia)). lia.
    - assert (L : Z.abs_N z < 10 ^ 39) by (change (2 ^ 127)%Z with 170141183460469231731687303715884105728%Z in WF; change (10 ^ 39) with 1000000000000000000000000000000000000000; lia).
      pose proof (show_N_short _ 39 L ltac:(lia)). unfold fmt_int. destruct (z <? 0)%Z; (eapply c_weak; [try (eapply c_then; [apply c_char|]); apply c_str|lia]).
    - intro w. cbn. split; [lia|discriminate].
    - intro w. cbn. split; [lia|discriminate].
  Qed.

  (** Items: [g a] is the cost of an item; all together with their separators. *)
  Lemma c_items {A} st (item : A -> act) (l : list A) (g : A -> N) : (forall a, In a l -> costs st (item a) st (g a)) -> l <> [] ->
    exists k, costs st (fmt_items wr cfg item l) st k /\ k + sep st <= total (map g l) + (2 + sep st) * len l.
  Proof.
    intros H NE. destruct l as [|a l]; [contradiction|]. cbn [fmt_items].
    assert (R : forall l', (forall x, In x l' -> costs st (item x) st (g x)) ->
       costs st (seqs (map (fun x => andthen (write_str wr (s2l ",")) (andthen (item_separator wr cfg) (item x))) l')) st (total (map g l') + (2 + sep st) * len l')).
    { induction l' as [|x l' IH]; intro H'; cbn [map seqs total length]; [eapply c_weak; [apply c_ret|lia]|].
      eapply c_weak; [eapply c_then; [eapply c_then; [apply c_str|eapply c_then; [apply c_item_sep|apply H'; now left]]|apply IH; intros y Hy; apply H'; now right]|].
      change (len (s2l ",")) with 1. lia. }
    eexists. split; [eapply c_then; [apply H; now left|apply R; intros x Hx; apply H; now right]|]. cbn [map total length]. lia.
  Qed.

  (** All levels down to [d] below [st]. *)
  Definition sep_bound (st : style) (d L : N) : Prop := match st with Compact => True | Normal => 2 <= L | Pretty n => 3 + len lead + (1 + len ind) * (N.of_nat n + d) <= L end.
  Lemma sep_bound_sep st d L : sep_bound st d L -> sep st <= L.
  Proof. destruct st; cbn; nia. Qed.
  Lemma sep_bound_up st d L : sep_bound st (1 + d) L -> sep_bound (up st) d L.
  Proof. destruct st; cbn; try tauto. intro H. replace (N.of_nat (S n) + d) with (N.of_nat n + (1 + d)) by lia. exact H. Qed.
  Lemma sep_bound_less st d d' L : d' <= d -> sep_bound st d L -> sep_bound st d' L.
  Proof. destruct st; cbn; try tauto. nia. Qed.

  Lemma largest_in l x : In x l -> x <= largest l.
  Proof. induction l as [|y l IH]; [intros []|]. intros [->|H]; cbn [largest fold_right]; [lia|]. specialize (IH H). unfold largest in IH. lia. Qed.

  Lemma nodes_ge1 (v : value T) : 1 <= nodes v.
  Proof. destruct v. cbn [nodes]. lia. Qed.
  Definition budget (L : N) (v : value T) : N := 60 * nodes v + 4 * letters v + 2 * nodes v * L.
  Definition spent (L : N) (v : value T) : N := budget L v - (18 + L).
  Lemma spent_item L v : spent L v + 18 + L = budget L v.
  Proof. unfold spent, budget. pose proof (nodes_ge1 v). assert (L <= nodes v * L) by nia. lia. Qed.

  Definition inner_budget (L : N) (c : composite (value T)) : N :=
    match c with Unnamed l => total (map (budget L) l) | Named l => total (map (fun kv => 4 * len (fst kv) + budget L (snd kv)) l) end.

  Lemma total_items {A} (g h : A -> N) x l : (forall a, In a l -> g a + x <= h a) -> total (map g l) + x * len l <= total (map h l).
  Proof.
    induction l as [|a l IH]; intro H; cbn [map total length]; [lia|]. pose proof (H a (or_introl eq_refl)). specialize (IH (fun b Hb => H b (or_intror Hb))). lia.
  Qed.

  Lemma c_composite (fv : value T -> act) c st L : sep st <= L -> sep (up st) <= L ->
    (forall v, In v (values c) -> costs (up st) (fv v) (up st) (spent L v)) ->
    costs st (fmt_composite U wr cfg fv c) st (8 + L + inner_budget L c).
  Proof.
    intros L1 L2 H. destruct c as [[|kv l]|[|v l]]; cbn [values] in H; unfold fmt_composite; cbn [inner_budget].
    - eapply c_weak; [apply c_str|cbn; lia].
    - remember (kv :: l) as l0 eqn:E0. destruct (c_items (up st) (fmt_field U wr fv) l0 (fun kv => 4 + 4 * len (fst kv) + 4 + spent L (snd kv))) as (k & K & KL).
      + intros kv' I. unfold fmt_field. eapply c_weak; [eapply c_then; [apply c_name|eapply c_then; [apply c_char|eapply c_then; [apply c_space|apply H]]]|].
        * apply in_map. exact I.
        * lia.
      + subst. discriminate.
      + clear E0. eapply c_weak; [eapply c_then; [apply c_str|eapply c_then; [apply c_up|eapply c_then; [apply c_item_sep|eapply c_then; [exact K|eapply c_then; [apply c_down|eapply c_then; [apply c_item_sep|apply c_str]]]]]]|].
        change (len (s2l "{")) with 1. change (len (s2l "}")) with 1.
        pose proof (total_items (fun kv : str * value T => 4 + 4 * len (fst kv) + 4 + spent L (snd kv)) (fun kv => 4 * len (fst kv) + budget L (snd kv)) (2 + sep (up st)) l0) as TI.
        assert (G : forall a : str * value T, In a l0 -> 4 + 4 * len (fst a) + 4 + spent L (snd a) + (2 + sep (up st)) <= 4 * len (fst a) + budget L (snd a)) by (intros a _; pose proof (spent_item L (snd a)); lia).
        specialize (TI G). lia.
    - eapply c_weak; [apply c_str|cbn; lia].
    - remember (v :: l) as l0 eqn:E0. destruct (c_items (up st) fv l0 (spent L)) as (k & K & KL); [exact H|subst; discriminate|].
      clear E0. eapply c_weak; [eapply c_then; [apply c_char|eapply c_then; [apply c_up|eapply c_then; [apply c_newline|eapply c_then; [exact K|eapply c_then; [apply c_down|eapply c_then; [apply c_newline|apply c_char]]]]]]|].
      pose proof (total_items (spent L) (budget L) (2 + sep (up st)) l0) as TI.
      assert (G : forall a : value T, In a l0 -> spent L a + (2 + sep (up st)) <= budget L a) by (intros a _; pose proof (spent_item L a); lia).
      specialize (TI G). lia.
  Qed.

  Lemma budget_composite L c ctx : budget L (Val (DComposite c) ctx) = 60 + 2 * L + inner_budget L c.
  Proof.
    unfold budget. destruct c as [l|l]; cbn [nodes letters inner_budget composite_map values].
    - rewrite map_map. cbn [snd]. induction l as [|[n v] l IH]; cbn [map total fst snd] in *; [lia|]. unfold budget in *. lia.
    - induction l as [|v l IH]; cbn [map total] in *; [lia|]. unfold budget in *. lia.
  Qed.
  Lemma budget_variant L n c ctx : budget L (Val (DVariant n c) ctx) = 60 + 2 * L + 4 * len n + inner_budget L c.
  Proof.
    pose proof (budget_composite L c ctx) as B. unfold budget in *. destruct c as [l|l]; cbn [nodes letters] in *; lia.
  Qed.

  Lemma c_value L (v : value T) : rust_value v = true -> forall st, sep_bound st (depth v) L -> costs st (fmt_value U wr cfg v) st (spent L v).
  Proof.
    induction v as [d ctx IH] using value_ind'. rewrite Forall_forall in IH. intros RV st SB.
    assert (HC : forall c : composite (value T), children d = values c -> forallb (fun b => b) (values (composite_map rust_value c)) = true ->
              sep_bound st (1 + largest (values (composite_map depth c))) L ->
              costs st (fmt_composite U wr cfg (fmt_value U wr cfg) c) st (8 + L + inner_budget L c)).
    { intros c EC RC SC. apply c_composite.
      - eapply sep_bound_sep; exact SC.
      - apply sep_bound_up in SC. eapply sep_bound_sep; exact SC.
      - intros v Hv. apply IH; [rewrite EC; exact Hv| |].
        + rewrite forallb_forall in RC. apply RC. destruct c as [l|l]; cbn [composite_map values] in *; [rewrite map_map; cbn [snd]; apply in_map_iff in Hv as (kv & <- & I); apply in_map_iff; exists kv; auto|now apply in_map].
        + apply sep_bound_up in SC. eapply sep_bound_less; [|exact SC]. apply largest_in.
          destruct c as [l|l]; cbn [composite_map values] in *; [rewrite map_map; cbn [snd]; apply in_map_iff in Hv as (kv & <- & I); apply in_map_iff; exists kv; auto|now apply in_map]. }
    intro w. cbn [fmt_value]. unfold andthen, fmt_context. cbn [print_context plain_cfg ret custom_formatters run_formatters].
    revert w. change (costs st (fmt_valuedef U wr cfg (fmt_value U wr cfg) d) st (spent L (Val d ctx))).
    pose proof (spent_item L (Val d ctx)) as SI. destruct d as [c|n c|b|p]; cbn [fmt_valuedef rust_value depth] in *.
    - rewrite budget_composite in SI. eapply c_weak; [apply HC; [reflexivity|exact RV|exact SB]|lia].
    - rewrite budget_variant in SI. unfold fmt_variant. eapply c_weak; [eapply c_then; [|eapply c_then; [apply c_space|apply HC; [reflexivity|exact RV|exact SB]]]|].
      + instantiate (1 := 6 + 4 * len n). destruct (is_ident U n); [eapply c_weak; [apply c_str|lia]|eapply c_weak; [eapply c_then; [apply c_char|apply c_string]|lia]].
      + lia.
    - unfold budget in SI. cbn [nodes total letters] in SI. eapply c_weak; [apply c_bits|lia].
    - unfold budget in SI. cbn [nodes total letters] in SI. eapply c_weak; [apply c_prim; exact RV|]. destruct p; lia.
  Qed.
End Cost.
