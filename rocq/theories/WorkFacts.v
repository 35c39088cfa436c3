(** * WorkFacts: the counted parser gives the results of the parser, and its work is linear. *)
From Verif Require Import Base Value Chars Parse Spec_Grammar ParseFacts ParseWork.
Local Open Scope nat_scope.

(** ** Erasure *)
Section Erase.
  Context (U : unicode) (total : N).

  Lemma fst_after {A} n (m : counted A) : fst (after n m) = fst m.
  Proof. reflexivity. Qed.

  Lemma skip_ws_erase t : fst (w_skip_whitespace t) = skip_whitespace t.
  Proof. reflexivity. Qed.
  Lemma spaced_erase s t : fst (w_skip_spaced_separator s t) = skip_spaced_separator s t.
  Proof.
    unfold w_skip_spaced_separator, skip_spaced_separator. pose proof (skip_ws_erase t) as E. destruct (w_skip_whitespace t) as [t1 n1]. cbn [fst] in E. subst t1.
    unfold w_token. destruct (token s (skip_whitespace t)) as [b t2]. pose proof (skip_ws_erase t2) as E. destruct (w_skip_whitespace t2) as [t3 n3]. cbn [fst] in *. congruence.
  Qed.
  Lemma bool_erase t : fst (w_parse_bool t) = parse_bool t.
  Proof. unfold w_parse_bool, parse_bool, w_tokens. destruct (tokens (s2l "true") t) as [[] ?]; [reflexivity|]. destruct (tokens (s2l "false") t) as [[] ?]; reflexivity. Qed.
  Lemma char_erase t : fst (w_parse_char total t) = parse_char total t.
  Proof.
    unfold w_parse_char, parse_char, w_token. destruct (token c_squote t) as [[] t1]; cbn [negb]; [|reflexivity]. rewrite fst_after.
    destruct t1 as [|c t2]; [reflexivity|]. destruct (c =? c_bslash)%N.
    - rewrite fst_after. destruct t2 as [|e t3]; [reflexivity|]. destruct (from_escape_code e); [|reflexivity]. destruct (token c_squote t3) as [[] ?]; reflexivity.
    - destruct (token c_squote t2) as [[] ?]; reflexivity.
  Qed.
  Lemma loop_erase start t : forall acc b, fst (w_string_loop total start t acc b) = string_loop total start t acc b.
  Proof.
    induction t as [|c t IH]; intros acc b; cbn [w_string_loop string_loop]; rewrite fst_after; [reflexivity|].
    destruct ((c =? c_bslash)%N && negb b); [apply IH|]. destruct b.
    - destruct (from_escape_code c); [apply IH|reflexivity].
    - destruct (c =? c_dquote)%N; [reflexivity|apply IH].
  Qed.
  Lemma string_erase t : fst (w_parse_string total t) = parse_string total t.
  Proof. unfold w_parse_string, parse_string, w_token. destruct (token c_dquote t) as [[] ?]; [|reflexivity]. apply loop_erase. Qed.
  Lemma number_erase t : fst (w_parse_number total t) = parse_number total t.
  Proof.
    unfold w_parse_number, parse_number, w_token. destruct (token c_plus t) as [[] t1].
    - destruct (take_digits t1 false) as [ds [sn t3]]. reflexivity.
    - destruct (token c_minus t1) as [b t2]. destruct (take_digits t2 false) as [ds [sn t3]]. reflexivity.
  Qed.
  Lemma bits_erase t : fst (w_parse_bit_sequence total t) = parse_bit_sequence total t.
  Proof.
    unfold w_parse_bit_sequence, parse_bit_sequence, w_token, w_take_while. destruct (token c_lt t) as [[] t1]; [|reflexivity]. cbn [negb].
    destruct (take_while _ t1) as [bs t2]. destruct (token c_gt t2) as [[] ?]; reflexivity.
  Qed.
  Lemma ident_erase t : fst (w_parse_ident U total t) = parse_ident U total t.
  Proof.
    unfold w_parse_ident, parse_ident, w_take_while. destruct (take_while (is_alphabetic U) t) as [[|x a] t1]; [reflexivity|].
    destruct (take_while _ t1); reflexivity.
  Qed.
  Lemma omap_erase {A B} (f : A -> B) (a : walt A) (a' : alt A) t : fst (a t) = a' t -> fst (w_omap f a t) = omap f a' t.
  Proof. intro H. unfold w_omap, omap. rewrite <- H. destruct (a t) as [[r t'] n]. reflexivity. Qed.
  Lemma one_of_erase {A} (l : list (walt A)) (l' : list (alt A)) t : Forall2 (fun a a' => fst (a t) = a' t) l l' -> fst (w_one_of l t) = one_of l' t.
  Proof.
    induction 1 as [|a a' l l' H _ IH]; [reflexivity|]. cbn [w_one_of one_of]. rewrite <- H. destruct (a t) as [[[v|[e|]] t'] n]; cbn [fst]; [reflexivity|reflexivity|].
    rewrite fst_after. exact IH.
  Qed.
  Lemma always_erase {A} (p : str -> counted (pres A)) p' t : fst (p t) = p' t -> fst (w_always p t) = always p' t.
  Proof. intro H. unfold w_always, always. rewrite <- H. destruct (p t); reflexivity. Qed.
  Lemma ok_of_erase {A} (p : str -> counted (pres A)) p' t : fst (p t) = p' t -> fst (w_ok_of p t) = ok_of p' t.
  Proof. intro H. unfold w_ok_of, ok_of. rewrite <- H. destruct (p t); reflexivity. Qed.
  Lemma ok_of_o_erase {A} (p : walt A) p' t : fst (p t) = p' t -> fst (w_ok_of_o p t) = ok_of_o p' t.
  Proof. intro H. unfold w_ok_of_o, ok_of_o. rewrite <- H. destruct (p t); reflexivity. Qed.
  Lemma field_name_erase t : fst (w_parse_field_name U total t) = parse_field_name U total t.
  Proof.
    unfold w_parse_field_name, parse_field_name.
    rewrite <- (one_of_erase [w_parse_string total; w_always (w_parse_ident U total)] [parse_string total; always (parse_ident U total)]).
    - destruct (w_one_of _ t). reflexivity.
    - constructor; [apply string_erase|]. constructor; [apply always_erase, ident_erase|constructor].
  Qed.
  Lemma i_string_erase t : fst (w_parse_i_string total t) = parse_i_string total t.
  Proof.
    unfold w_parse_i_string, parse_i_string. rewrite fst_after. destruct t as [|c t]; [reflexivity|]. destruct (negb (c =? c_v)%N); [reflexivity|].
    apply ok_of_o_erase, string_erase.
  Qed.
  Lemma opt_ident_erase t : fst (w_parse_optional_variant_ident U total t) = parse_optional_variant_ident U total t.
  Proof. apply one_of_erase. constructor; [apply i_string_erase|]. constructor; [apply ok_of_erase, ident_erase|constructor]. Qed.

  Section Rec.
    Context (pw : str -> counted (pres (value unit))) (pv : str -> pres (value unit)) (Hp : forall t, fst (pw t) = pv t).
    Lemma field_erase t : fst (w_parse_field_name_and_value U total pw t) = parse_field_name_and_value U total pv t.
    Proof.
      unfold w_parse_field_name_and_value, parse_field_name_and_value. rewrite <- field_name_erase. destruct (w_parse_field_name U total t) as [[[n|e] t1] n1]; cbn [fst]; [|reflexivity].
      rewrite <- spaced_erase. destruct (w_skip_spaced_separator c_colon t1) as [[b t2] n2]. cbn [fst]. destruct b; cbn [negb]; [|reflexivity].
      rewrite <- Hp. destruct (pw t2). reflexivity.
    Qed.
    Lemma sep_rest_erase {A} (iw : str -> counted (pres A)) item (Hi : forall t, fst (iw t) = item t) k : forall t acc,
      fst (w_sep_rest k iw t acc) = sep_rest k item t acc.
    Proof.
      induction k as [|k IH]; intros t acc; [reflexivity|]. cbn [w_sep_rest sep_rest]. rewrite <- spaced_erase.
      destruct (w_skip_spaced_separator c_comma t) as [[b t1] n1]. cbn [fst]. destruct b; cbn [negb]; [|reflexivity].
      rewrite <- Hi. destruct (iw t1) as [[[a|e] t2] n2]; cbn [fst]; [|reflexivity]. rewrite fst_after. apply IH.
    Qed.
    Lemma sep_by_erase {A} (iw : str -> counted (pres A)) item (Hi : forall t, fst (iw t) = item t) k t : fst (w_sep_by k iw t) = sep_by k item t.
    Proof.
      unfold w_sep_by, sep_by. rewrite <- Hi. destruct (iw t) as [[[a|e] t1] n]; cbn [fst]; [|reflexivity]. rewrite fst_after. apply sep_rest_erase, Hi.
    Qed.
    Lemma delimited_erase {A} op cl k (iw : str -> counted (pres A)) item (Hi : forall t, fst (iw t) = item t) t :
      fst (w_parse_delimited total op cl k iw t) = parse_delimited total op cl k item t.
    Proof.
      unfold w_parse_delimited, parse_delimited, w_token. destruct (token op t) as [[] t1]; cbn [negb]; [|reflexivity].
      rewrite <- skip_ws_erase. destruct (w_skip_whitespace t1) as [t2 n2]. cbn [fst]. destruct (token cl t2) as [[] t3]; [reflexivity|]. rewrite fst_after.
      rewrite <- (sep_by_erase _ _ Hi). destruct (w_sep_by k iw t3) as [[[l|e] t4] n4]; cbn [fst]; [|reflexivity].
      rewrite <- skip_ws_erase. destruct (w_skip_whitespace t4) as [t5 n5]. cbn [fst]. destruct (token cl t5) as [[] ?]; reflexivity.
    Qed.
    Lemma named_erase k t : fst (w_parse_named_composite U total pw k t) = parse_named_composite U total pv k t.
    Proof. apply omap_erase, delimited_erase, field_erase. Qed.
    Lemma unnamed_erase k t : fst (w_parse_unnamed_composite total pw k t) = parse_unnamed_composite total pv k t.
    Proof. apply omap_erase, delimited_erase, Hp. Qed.
    Lemma variant_erase k t : fst (w_parse_variant U total pw k t) = parse_variant U total pv k t.
    Proof.
      unfold w_parse_variant, parse_variant. rewrite <- opt_ident_erase. destruct (w_parse_optional_variant_ident U total t) as [[[[i|e]|] t1] n1]; cbn [fst]; [|reflexivity|reflexivity].
      rewrite <- skip_ws_erase. destruct (w_skip_whitespace t1) as [t2 n2]. cbn [fst].
      rewrite <- (one_of_erase [w_parse_named_composite U total pw k; w_parse_unnamed_composite total pw k] [parse_named_composite U total pv k; parse_unnamed_composite total pv k]).
      - destruct (w_one_of _ t2). reflexivity.
      - constructor; [apply named_erase|]. constructor; [apply unnamed_erase|constructor].
    Qed.
    Lemma builtin_erase k t : fst (w_parse_builtin U total pw k t) = parse_builtin U total pv k t.
    Proof.
      unfold w_parse_builtin, parse_builtin.
      rewrite <- (one_of_erase [ w_omap vbool w_parse_bool; w_omap vchar (w_parse_char total); w_omap vstring (w_parse_string total); w_omap primitive (w_parse_number total);
                   w_omap (fun c => without_context (DComposite c)) (w_parse_named_composite U total pw k); w_omap (fun c => without_context (DComposite c)) (w_parse_unnamed_composite total pw k);
                   w_omap bit_sequence (w_parse_bit_sequence total); w_parse_variant U total pw k ]).
      - destruct (w_one_of _ t). reflexivity.
      - repeat (constructor; [first [apply variant_erase|apply omap_erase; first [apply bool_erase|apply char_erase|apply string_erase|apply number_erase|apply named_erase|apply unnamed_erase|apply bits_erase]]|]). constructor.
    Qed.
  End Rec.

  Lemma customs_erase w cs : forall cur, fst (w_run_customs w cs cur) = run_customs cs cur.
  Proof.
    induction cs as [|p cs IH]; intro cur; [reflexivity|]. cbn [w_run_customs run_customs]. destruct (p cur) as [[r|] c]; [reflexivity|]. rewrite fst_after. apply IH.
  Qed.
  Lemma value_erase w cs k : forall t, fst (w_parse_value U total w cs k t) = parse_value U total cs k t.
  Proof.
    induction k as [|k IH]; intro t; [reflexivity|]. cbn [w_parse_value parse_value]. rewrite <- (customs_erase w). destruct (w_run_customs w cs t) as [[[[v|e] cur]|] n]; cbn [fst]; [reflexivity|reflexivity|].
    rewrite <- (builtin_erase _ _ IH). destruct (w_parse_builtin U total _ k t). reflexivity.
  Qed.
End Erase.
