(** * Props_Work: C78, parsing reads each character a bounded number of times; its recursion has no limit. *)
From Verif Require Import Base Value Chars Parse Hex Spec_Work ParseWork WorkFacts WorkBound.
Local Open Scope nat_scope.

(** The counting parser answers what the parser answers, for every text and all custom parsers. *)
Theorem C78_same_result U w cs s : fst (w_parse_custom U w cs s) = parse_custom U cs s.
Proof. apply value_erase. Qed.

(** Reading: at most 80 characters asked for per character of the text (and per call of the parser at the end of the text), plus, each time, one
    round of calls of the custom parsers. *)
Theorem C78_linear U w cs s : reads (snd (w_parse_custom U w cs s)) <= (80 + length cs * w) * (length s + 1).
Proof.
  destruct (value_fine U (blen s) w cs (S (length s)) s (N.le_refl _)) as [_ R]. unfold w_parse_custom.
  remember (80 + length cs * w) as K eqn:EK. assert (HK : 60 + length cs * w <= K) by lia. clear EK.
  rewrite Nat.mul_add_distr_l. destruct (fst (w_parse_value U (blen s) w cs (S (length s)) s)) as [[v|e] t'].
  - destruct R as (c & E & R). assert (L : length s = length c + length t') by (rewrite E; apply app_length).
    pose proof (Nat.mul_le_mono_l (length c) (length s) K). lia.
  - lia.
Qed.

(** Recursion: never deeper than the opening brackets of the text. *)
Theorem C78_depth U w cs s : deep (snd (w_parse_custom U w cs s)) <= S (openers s).
Proof. apply (value_fine U (blen s) w cs (S (length s)) s (N.le_refl _)). Qed.

(** But there is no other limit: [n] opening brackets make [n + 1] calls of the recursive function active at once. *)
Lemma no_number total t : (forall c r, t = c :: r -> c = 40%N) -> w_omap primitive (w_parse_number total) t = ((Err None, t), also (read 1) (also (read 1) (read 1))).
Proof.
  intro H. unfold w_omap, w_parse_number.
  assert (P : w_token c_plus t = ((false, t), read 1)) by (destruct t as [|c r]; [|rewrite (H c r eq_refl)]; reflexivity).
  assert (M : w_token c_minus t = ((false, t), read 1)) by (destruct t as [|c r]; [|rewrite (H c r eq_refl)]; reflexivity).
  assert (D : take_digits t false = ([], (false, t))) by (destruct t as [|c r]; [|rewrite (H c r eq_refl)]; reflexivity).
  assert (R : digit_reads t false = 1) by (destruct t as [|c r]; [|rewrite (H c r eq_refl)]; reflexivity).
  rewrite P. cbv zeta iota beta. rewrite M. cbv zeta iota beta. cbn [negb]. rewrite D, R. cbv iota beta. rewrite N.eqb_refl. reflexivity.
Qed.
Lemma opens_deep U total w n : let m := w_parse_value U total w [] (S n) (only_open n) in deep (snd m) = S n /\ exists e t, fst m = (Err e, t).
Proof.
  cbv zeta. induction n as [|n [IHd (e & t & IHe)]].
  - assert (Nu : w_omap primitive (w_parse_number total) [] = ((Err None, []), also (read 1) (also (read 1) (read 1)))) by (apply no_number; discriminate).
    change (only_open 0) with (@nil char). cbn [w_parse_value w_run_customs]. unfold w_parse_builtin. cbn [w_one_of]. rewrite Nu. split; [reflexivity|]. eexists _, _. reflexivity.
  - remember (S n) as k eqn:Ek. cbn [w_parse_value w_run_customs]. subst k. unfold only_open in *. cbn [repeat].
    assert (W : w_skip_whitespace (repeat 40%N n) = (repeat 40%N n, read 1)) by (destruct n; reflexivity).
    assert (T : w_token c_rpar (repeat 40%N n) = ((false, repeat 40%N n), read 1)) by (destruct n; reflexivity).
    remember (w_parse_value U total w [] (S n)) as pw eqn:Epw. clear Epw.
    assert (D : w_parse_delimited total c_lpar c_rpar (S n) pw (40%N :: repeat 40%N n)
                = ((Err (Some e), repeat 40%N n), also (also (read 1) (also (read 1) (read 1))) (snd (pw (repeat 40%N n))))).
    { unfold w_parse_delimited. change (w_token c_lpar (40%N :: repeat 40%N n)) with ((true, repeat 40%N n), read 1). cbn [negb]. rewrite W, T. unfold w_sep_by.
      destruct (pw (repeat 40%N n)) as [[[v|e'] t'] m]; cbn [fst snd] in *; [discriminate|]. injection IHe as -> ->. reflexivity. }
    assert (Un : w_omap (fun c => without_context (DComposite c)) (w_parse_unnamed_composite total pw (S n)) (40%N :: repeat 40%N n)
                = ((Err (Some e), repeat 40%N n), also (also (read 1) (also (read 1) (read 1))) (snd (pw (repeat 40%N n))))).
    { unfold w_parse_unnamed_composite, w_omap. rewrite D. reflexivity. }
    assert (Na : w_omap (fun c => without_context (DComposite c)) (w_parse_named_composite U total pw (S n)) (40%N :: repeat 40%N n)
                = ((Err None, 40%N :: repeat 40%N n), read 1)) by reflexivity.
    assert (Nu : w_omap primitive (w_parse_number total) (40%N :: repeat 40%N n) = ((Err None, 40%N :: repeat 40%N n), also (read 1) (also (read 1) (read 1)))) by (apply no_number; congruence).
    assert (Bu : deep (snd (w_parse_builtin U total pw (S n) (40%N :: repeat 40%N n))) = deep (snd (pw (repeat 40%N n)))
                 /\ fst (w_parse_builtin U total pw (S n) (40%N :: repeat 40%N n)) = (Err e, repeat 40%N n)).
    { unfold w_parse_builtin. cbn [w_one_of].
      change (w_omap vbool w_parse_bool (40%N :: repeat 40%N n)) with (((Err None, 40%N :: repeat 40%N n) : ores (value unit)), also (read 1) (read 1)).
      change (w_omap vchar (w_parse_char total) (40%N :: repeat 40%N n)) with (((Err None, 40%N :: repeat 40%N n) : ores (value unit)), read 1).
      change (w_omap vstring (w_parse_string total) (40%N :: repeat 40%N n)) with (((Err None, 40%N :: repeat 40%N n) : ores (value unit)), read 1).
      rewrite Nu, Na, Un. cbn [after fst snd deep also read]. split; [lia|reflexivity]. }
    destruct Bu as [B1 B2]. destruct (w_parse_builtin U total pw (S n) (40%N :: repeat 40%N n)) as [r m]. cbn [fst snd after] in *. subst r.
    cbn [snd fst inner_call deep also read]. split; [lia|]. eauto.
Qed.
Theorem C78_depth_unbounded_refuted U w : ~ exists limit, forall s, deep (snd (w_parse_custom U w [] s)) <= limit.
Proof.
  intros [limit H]. specialize (H (only_open limit)). unfold w_parse_custom in H.
  assert (L : length (only_open limit) = limit) by apply repeat_length. rewrite L in H.
  destruct (opens_deep U (blen (only_open limit)) w limit) as [D _]. rewrite D in H. lia.
Qed.

(** ** Concrete texts *)
Definition ascii_only : unicode := {| u_alpha := fun _ => false; u_numeric := fun _ => false |}.
Definition nested_text : str := s2l "{ a: (1, (2, v""x"" (true)), <01>), b: Some { c: 'x' } }".
Example C78_example :
  (exists v, fst (w_parse_custom ascii_only 1 [] nested_text) = (Ok v, [])) /\
  length nested_text = 54 /\ reads (snd (w_parse_custom ascii_only 1 [] nested_text)) = 191 /\
  openers nested_text = 5 /\ deep (snd (w_parse_custom ascii_only 1 [] nested_text)) = 5.
Proof. split; [eexists; vm_compute; reflexivity|]. repeat apply conj; vm_compute; reflexivity. Qed.
(** With the hex parser of the crate, each call counted as 10. *)
Example C78_example_custom :
  (exists v, fst (w_parse_custom ascii_only 10 [parse_hex] (s2l "(0x0102, 3, (0xff))")) = (Ok v, [])) /\
  reads (snd (w_parse_custom ascii_only 10 [parse_hex] (s2l "(0x0102, 3, (0xff))"))) = 108 /\
  deep (snd (w_parse_custom ascii_only 10 [parse_hex] (s2l "(0x0102, 3, (0xff))"))) = 3.
Proof. split; [eexists; vm_compute; reflexivity|]. repeat apply conj; vm_compute; reflexivity. Qed.
(** Texts that are rejected after everything was read. *)
Example C78_example_error :
  (exists e t, fst (w_parse_custom ascii_only 1 [] (s2l "v""abcdefgh")) = (Err e, t)) /\
  reads (snd (w_parse_custom ascii_only 1 [] (s2l "v""abcdefgh"))) = 28 /\ deep (snd (w_parse_custom ascii_only 1 [] (only_open 7))) = 8.
Proof. split; [eexists _, _; vm_compute; reflexivity|]. repeat apply conj; vm_compute; reflexivity. Qed.

Print Assumptions C78_same_result.
Print Assumptions C78_linear.
Print Assumptions C78_depth.
Print Assumptions C78_depth_unbounded_refuted.
