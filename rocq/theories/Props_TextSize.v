(** * Props_TextSize: C80, how much formatting writes. *)
From Verif Require Import Base Value Chars Spec_Grammar Fmt FmtText Spec_Layout Spec_Cost Spec_TextSize TextSizeFacts Props_Layout.
Local Open Scope N_scope.

Lemma recorder_measure accepts log s : N.of_nat (length (fst (recorder accepts log s)) + length (concat (fst (recorder accepts log s)))) <= N.of_nat (length log + length (concat log)) + 1 + len s.
Proof. cbn [recorder fst]. rewrite concat_app, !app_length. cbn [concat length]. rewrite app_nil_r. lia. Qed.

(** One line: the calls to the writer and the characters written together are linear in what the value holds, whether the writer fails or not. *)
Theorem C80_one_line : forall (T : Type) U ind lead accepts st (v : value T), st = Compact \/ st = Normal -> rust_value v = true ->
  let log := fst (write_value U (recorder accepts) (plain_cfg ind lead) st v []) in
  N.of_nat (length log) + N.of_nat (length (concat log)) <= 64 * nodes v + 4 * letters v.
Proof.
  intros T U ind lead accepts st v HS RV log.
  assert (SB : sep_bound ind lead st (depth v) 2) by (destruct HS as [-> | ->]; cbn; lia).
  pose proof (c_value U (recorder accepts) (fun log => N.of_nat (length log + length (concat log))) (recorder_measure accepts) ind lead 2 v RV st SB []) as H.
  subst log. unfold write_value. destruct (fmt_value U (recorder accepts) (plain_cfg ind lead) v (FS [] st)) as [f ok]. destruct H as [H _]. cbn [fst]. cbn [length concat Nat.add] in H.
  unfold spent, budget in H. lia.
Qed.
Print Assumptions C80_one_line.

(** Many lines: besides, two line breaks per value at most, each indented at most as deep as the value. *)
Theorem C80_pretty : forall (T : Type) U ind lead accepts (v : value T), rust_value v = true ->
  let log := fst (write_value U (recorder accepts) (plain_cfg ind lead) (Pretty 0) v []) in
  N.of_nat (length log) + N.of_nat (length (concat log)) <= 60 * nodes v + 4 * letters v + 2 * nodes v * (3 + len lead + (1 + len ind) * depth v).
Proof.
  intros T U ind lead accepts v RV log. set (L := 3 + len lead + (1 + len ind) * depth v).
  assert (SB : sep_bound ind lead (Pretty 0) (depth v) L) by (cbn; subst L; lia).
  pose proof (c_value U (recorder accepts) (fun log => N.of_nat (length log + length (concat log))) (recorder_measure accepts) ind lead L v RV (Pretty 0) SB []) as H.
  subst log. unfold write_value. destruct (fmt_value U (recorder accepts) (plain_cfg ind lead) v (FS [] (Pretty 0))) as [f ok]. destruct H as [H _]. cbn [fst]. cbn [length concat Nat.add] in H.
  unfold spent, budget in H. lia.
Qed.
Print Assumptions C80_pretty.

(** So for the texts. *)
Theorem C80_text : forall (T : Type) U (v : value T) t, rust_value v = true ->
  (display U false v = Some t -> len t <= 64 * nodes v + 4 * letters v) /\
  (display U true v = Some t -> len t <= 60 * nodes v + 4 * letters v + 6 * nodes v * (1 + depth v)).
Proof.
  intros T U v t RV. unfold display, to_text, write_value.
  assert (M : forall w s, N.of_nat (length (fst (string_wr w s))) <= N.of_nat (length w) + 1 + len s) by (intros w s; cbn [string_wr fst]; rewrite app_length; lia).
  split; intro H.
  - pose proof (c_value U string_wr (fun w => N.of_nat (length w)) M (s2l "  ") [] 2 v RV Normal ltac:(cbn; lia) []) as C.
    destruct (fmt_value U string_wr (plain_cfg (s2l "  ") []) v (FS [] Normal)) as [f ok]. destruct C as [C _]. destruct ok; [|discriminate]. injection H as <-. cbn [length] in C. unfold spent, budget in C. lia.
  - pose proof (c_value U string_wr (fun w => N.of_nat (length w)) M (s2l "  ") [] (3 + 3 * depth v) v RV (Pretty 0) ltac:(cbn [sep_bound length s2l]; lia) []) as C.
    destruct (fmt_value U string_wr (plain_cfg (s2l "  ") []) v (FS [] (Pretty 0))) as [f ok]. destruct C as [C _]. destruct ok; [|discriminate]. injection H as <-. cbn [length] in C. unfold spent, budget in C. nia.
Qed.
Print Assumptions C80_text.

Example C80_example : let v := named_composite [(s2l "a b", vstring [10]); (s2l "n", unnamed_variant (s2l "V") [vu128 300; bit_sequence [true]])] in
  rust_value v = true /\ nodes v = 5 /\ letters v = 7 /\ depth v = 2 /\ display ascii_unicode false v = Some (s2l "{ ""a b"": ""\n"", n: V (300, <1>) }") /\
  fst (write_value ascii_unicode (recorder (fun log _ => (length log <? 3)%nat)) (plain_cfg [] []) Normal v []) = [s2l "{"; s2l " "; s2l """"; s2l "a"].
Proof. repeat apply conj; vm_compute; reflexivity. Qed.

(** From below. *)
Lemma total_le l l' : Forall2 N.le l l' -> total l <= total l'.
Proof. induction 1; cbn [total]; lia. Qed.
Lemma every_map {A B} (f : A -> option B) l r : every (map f l) = Some r -> Forall2 (fun a b => f a = Some b) l r.
Proof.
  revert r. induction l as [|a l IH]; intros r H; cbn [map every] in H; [injection H as <-; constructor|].
  destruct (f a) eqn:E; [|discriminate]. destruct (every (map f l)) eqn:E'; [|discriminate]. injection H as <-. constructor; auto.
Qed.
Lemma join_length sp l : N.of_nat (length (join sp l)) >= total (map (fun s : str => len s) l).
Proof.
  induction l as [|a l IH]; cbn [join map total]; [cbn; lia|]. destruct l as [|b l]; [cbn [map total]; lia|]. rewrite !app_length. lia.
Qed.
Lemma string_literal_length s : len s + 2 <= len (string_literal s).
Proof.
  unfold string_literal. rewrite !app_length. cbn [length]. induction s as [|c s IH]; cbn [map concat length]; [lia|]. rewrite app_length.
  assert (1 <= length (escaped c))%nat by (unfold escaped; destruct (find _ _); cbn [length]; lia). lia.
Qed.
Lemma one_line_length {T} bare sp (v : value T) : forall t, one_line bare [] None sp v = Some t -> nodes v + letters v <= len t.
Proof.
  induction v as [d ctx IH] using value_ind'. rewrite Forall_forall in IH. intros t H. cbn [one_line first_answer ctx_prefix app] in H.
  assert (RB : forall l, total (map (fun s : str => len s) l) + 2 <= len (round sp l)).
  { intro l. unfold round. rewrite !app_length. pose proof (join_length (s2l "," ++ sp) l). change (length (s2l "(")) with 1%nat. change (length (s2l ")")) with 1%nat. lia. }
  assert (CB : forall l, total (map (fun s : str => len s) l) + 2 <= len (curly sp l)).
  { intro l. unfold curly. destruct l as [|a l]; [vm_compute; discriminate|]. rewrite !app_length. pose proof (join_length (s2l "," ++ sp) (a :: l)). change (length (s2l "{")) with 1%nat. change (length (s2l "}")) with 1%nat. lia. }
  assert (UN : forall l r, (forall v, In v l -> In v (children d)) -> every (map (one_line bare [] None sp) l) = Some r -> total (map nodes l) + total (map letters l) <= total (map (fun s : str => len s) r)).
  { intros l r Hin E. apply every_map in E. induction E as [|v s l r E F IHF]; cbn [map total]; [lia|]. pose proof (IH v (Hin v (or_introl eq_refl)) s E). specialize (IHF (fun x Hx => Hin x (or_intror Hx))). lia. }
  assert (NB : forall n, len n <= len (field_name bare n)) by (intro n; unfold field_name; destruct (bare n); [lia|pose proof (string_literal_length n); lia]).
  assert (VB : forall n, len n <= len (variant_name bare n)) by (intro n; unfold variant_name; destruct (bare n); [lia|pose proof (string_literal_length n); rewrite app_length; lia]).
  assert (NM : forall l r, (forall kv, In kv l -> In (snd kv) (children d)) -> every (map (fun kv => omap (pair_text bare sp (fst kv)) (one_line bare [] None sp (snd kv))) l) = Some r ->
            total (map (fun kv => nodes (snd kv)) l) + total (map (fun kv : str * value T => len (fst kv) + letters (snd kv)) l) <= total (map (fun s : str => len s) r)).
  { intros l r Hin E. apply every_map in E. induction E as [|[n v] s l r E F IHF]; cbn [map total]; [lia|]. cbn [fst snd] in *.
    destruct (one_line bare [] None sp v) as [tv|] eqn:Ev; [|discriminate]. injection E as <-. pose proof (IH v (Hin _ (or_introl eq_refl)) tv Ev). specialize (IHF (fun x Hx => Hin x (or_intror Hx))).
    unfold pair_text. rewrite !app_length. specialize (NB n). lia. }
  destruct d as [[l|l]|n [l|l]|b|p]; cbn [children values] in *.
  - destruct (every _) as [r|] eqn:E; [|discriminate]. injection H as <-. apply NM in E; [|intros kv I; now apply in_map]. specialize (CB r). cbn [nodes letters composite_map values]. rewrite map_map. cbn [snd]. lia.
  - destruct (every _) as [r|] eqn:E; [|discriminate]. injection H as <-. apply UN in E; [|auto]. specialize (RB r). cbn [nodes letters composite_map values]. lia.
  - destruct (every _) as [r|] eqn:E; [|discriminate]. injection H as <-. apply NM in E; [|intros kv I; now apply in_map]. specialize (CB r). cbn [nodes letters composite_map values]. rewrite map_map. cbn [snd]. rewrite !app_length. specialize (VB n). lia.
  - destruct (every _) as [r|] eqn:E; [|discriminate]. injection H as <-. apply UN in E; [|auto]. specialize (RB r). cbn [nodes letters composite_map values]. rewrite !app_length. specialize (VB n). lia.
  - injection H as <-. unfold bits_text. rewrite !app_length, map_length. cbn [nodes letters total s2l length]. lia.
  - destruct p as [[]|c|s|n|z|b|b]; cbn [leaf_text omap] in H; try discriminate H; injection H as <-; cbn [nodes letters total].
    + cbn; lia.
    + cbn; lia.
    + cbn [length]. lia.
    + pose proof (string_literal_length s). lia.
    + destruct (show_N_spec n) as (? & ? & -> & _). cbn [length]. lia.
    + destruct (show_N_spec (Z.abs_N z)) as (? & ? & -> & _). rewrite app_length. cbn [length]. lia.
Qed.
Theorem C80_at_least : forall (T : Type) U (v : value T) t, display U false v = Some t -> nodes v + letters v <= len t.
Proof. intros T U v t H. destruct (C59_display T U v) as [E _]. rewrite E in H. exact (one_line_length _ _ v t H). Qed.
Print Assumptions C80_at_least.

(** [{:#}] is not linear: n brackets inside each other take more than n*n characters. *)
Fixpoint nest (n : nat) : value unit := unnamed_composite (match n with O => [] | S m => [nest m] end).
Fixpoint nest_lines (n : nat) : list line :=
  match n with O => [(O, s2l "()")] | S m => [(O, s2l "(")] ++ deeper (nest_lines m) ++ [(O, s2l ")")] end.
Lemma nest_lines_ok U n : lines (bare_name U) [] None (nest n) = Some (nest_lines n).
Proof.
  induction n as [|n IH]; [reflexivity|]. cbn [nest nest_lines]. unfold unnamed_composite, without_context. cbn [lines first_answer map every]. rewrite IH. reflexivity.
Qed.
Lemma nest_text n : forall start, N.of_nat n * N.of_nat n + 2 * N.of_nat (start * n) <= len (concat (map (new_line [] (s2l "  ") start) (nest_lines n))).
Proof.
  induction n as [|n IH]; intro start; [lia|]. cbn [nest_lines]. rewrite !map_app, !concat_app, !app_length.
  assert (D : forall ls, map (new_line [] (s2l "  ") start) (deeper ls) = map (new_line [] (s2l "  ") (S start)) ls).
  { intro ls. unfold deeper. rewrite map_map. apply map_ext. intros [k s]. unfold new_line. cbn [fst snd]. replace (start + S k)%nat with (S start + k)%nat by lia. reflexivity. }
  rewrite D. specialize (IH (S start)).
  assert (E : forall c, (1 + 2 * start <= length (concat (map (new_line [] (s2l "  ") start) [(O, c)])))%nat).
  { intro c. cbn [map concat]. unfold new_line. cbn [fst snd]. rewrite !app_length, Nat.add_0_r. cbn [length].
    assert (R : forall k, length (concat (repeat (s2l "  ") k)) = (2 * k)%nat) by (induction k as [|k IHk]; [reflexivity|cbn [repeat concat]; rewrite app_length, IHk; cbn; lia]). rewrite R. lia. }
  pose proof (E (s2l "(")). pose proof (E (s2l ")")). nia.
Qed.
Lemma nest_nodes n : nodes (nest n) = N.of_nat n + 1.
Proof. induction n as [|n IH]; [reflexivity|]. cbn [nest]. unfold unnamed_composite, without_context. cbn [nodes composite_map values map total]. rewrite IH. lia. Qed.
Lemma nest_letters n : letters (nest n) = 0.
Proof. induction n as [|n IH]; [reflexivity|]. cbn [nest]. unfold unnamed_composite, without_context. cbn [letters map total]. rewrite IH. reflexivity. Qed.
Theorem C80_pretty_linear_refuted : ~ exists k, forall (v : value unit) t, rust_value v = true -> display ascii_unicode true v = Some t -> len t <= k * (nodes v + letters v).
Proof.
  intros [k H]. destruct (C59_display unit ascii_unicode (nest (N.to_nat (k + 4)))) as [_ D]. rewrite nest_lines_ok in D.
  assert (RV : forall n, rust_value (nest n) = true).
  { induction n as [|n IH]; [reflexivity|]. cbn [nest]. unfold unnamed_composite, without_context. cbn [rust_value composite_map values map forallb]. rewrite IH. reflexivity. }
  specialize (H _ _ (RV _) D). rewrite nest_nodes, nest_letters in H. pose proof (nest_text (N.to_nat (k + 4)) 0) as L.
  set (n := N.to_nat (k + 4)) in *. assert (P : len (concat (map (new_line [] (s2l "  ") 0) (nest_lines n))) <= len (put_together [] (s2l "  ") 0 (nest_lines n)) + 1).
  { unfold put_together. destruct n as [|m]; cbn [nest_lines app]; [cbn; lia|]. cbn [map concat snd]. unfold new_line at 1. cbn [fst snd Nat.add repeat concat app]. rewrite !app_length. cbn [length]. rewrite app_length. lia. }
  assert (N.of_nat n = k + 4) by lia. nia.
Qed.
Print Assumptions C80_pretty_linear_refuted.
Example C80_nest : option_map (@length N) (display ascii_unicode true (nest 40)) = Some 3362%nat /\ option_map (@length N) (display ascii_unicode false (nest 40)) = Some 82%nat.
Proof. split; vm_compute; reflexivity. Qed.
