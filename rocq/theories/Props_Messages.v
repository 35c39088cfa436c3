(** * Props_Messages: C60 (texts of trace errors), C61 (texts of parse errors), C62 (errors of custom parsers) *)
From Verif Require Import Base Value Chars Spec_Grammar Parse ParseFacts ParseComplete ParseSound Fmt Spec_Fmt Spec_Layout LayoutFacts Registry Spec_Scale
  Scale Decode Trace Demo Messages MessageFacts CustomErr Props_Parse Props_Fmt.
Local Open Scope N_scope.

(** ** C60 *)
(** The text of a trace error: the cause; if it is located, also the path and the partial value, pretty-printed with the
    type ids as contexts and byte lists in hex. *)
Theorem C60_trace_error_text : forall TId U show_cause (show_id : TId -> str) c at_ v,
  terr_to_string U show_cause show_id (FromDecode c) = Some (s2l "Error decoding value: " ++ show_cause c) /\
  terr_to_string U show_cause show_id (FromVisitor at_ v c) =
    match lines (bare_name U) [hex_answer] (Some show_id) v with
    | Some ls => Some (s2l "Error decoding value at " ++ path_display at_ ++ s2l ": " ++ show_cause c ++
                       [c_nl] ++ s2l "Decoded so far:" ++ [c_nl; c_nl] ++ put_together [] (s2l "  ") 0 ls)
    | None => None
    end.
Proof.
  intros TId U show_cause show_id c at_ v. split; [reflexivity|].
  unfold terr_to_string, terr_display.
  pose proof (typeid_text U show_id v ([] ++ s2l "Error decoding value at " ++ path_display at_ ++ s2l ": " ++ show_cause c ++
             [c_nl] ++ s2l "Decoded so far:" ++ [c_nl; c_nl])) as H.
  destruct (lines _ _ _ v).
  - rewrite H. cbn [app]. now rewrite <- !app_assoc.
  - destruct (display_value_with_typeid _ _ _ _) as [t ok]. cbn [snd] in H. now subst ok.
Qed.
Print Assumptions C60_trace_error_text.

(** [to_string()] panics exactly when a 256-bit integer had been decoded before the failure. *)
Theorem C60_panics_iff_256 : forall TId U show_cause (show_id : TId -> str) e,
  terr_to_string U show_cause show_id e = None <-> exists at_ v c, e = FromVisitor at_ v c /\ has_256 v.
Proof.
  intros TId U show_cause show_id [c|at_ v c].
  - split; [discriminate|]. intros (? & ? & ? & H & _). discriminate.
  - rewrite (proj2 (C60_trace_error_text TId U show_cause show_id c at_ v)).
    pose proof (lines_hex_none (bare_name U) (Some show_id) v) as H. rewrite no_256_false in H.
    destruct (lines _ _ _ v) as [ls|].
    + split; [discriminate|]. intros (a & v' & c' & E & Hh). injection E as _ <- _. apply H in Hh. discriminate.
    + split; [|reflexivity]. intros _. exists at_, v, c. split; [reflexivity|]. now apply H.
Qed.
Print Assumptions C60_panics_iff_256.

(** So not every error returned by the tracing decoder can be printed: [(u256, u8)] with the last byte missing. *)
Definition reg_u256 (t : nat) : resolution nat :=
  match t with
  | 0%nat => ResTy (TTuple [1%nat; 2%nat])
  | 1%nat => ResTy (TPrim PtU256)
  | 2%nat => ResTy (TPrim (PtU W8))
  | _ => ResNotFound
  end.
Theorem C60_errors_printable_refuted : forall U show_cause show_id,
  exists e, trace_as_type reg_u256 xdemo 3 0%nat (repeat 7 32) = Err e /\ terr_to_string U show_cause show_id e = None.
Proof.
  intros. exists (FromVisitor [SIndex 1] (Val (DComposite (Unnamed [Val (DPrim (PU256 (repeat 7 32))) 1%nat])) 0%nat) (CDecode ENotEnough)).
  split; [vm_compute; reflexivity|]. apply C60_panics_iff_256. do 3 eexists. split; [reflexivity|].
  eapply H256_comp; [left; reflexivity|]. apply H256_u.
Qed.
Print Assumptions C60_errors_printable_refuted.

(** The path can be read off the text, provided no name contains a dot or begins with a bracket; fields and variants look
    the same. *)
Definition plain_seg (s : seg) : Prop :=
  match s with SIndex _ => True | SField n | SVariant n => ~ In dot n /\ ~ exists r, n = 91 :: r end.
Definition step_of (s : seg) : nat + str := match s with SIndex n => inl n | SField n | SVariant n => inr n end.
Theorem C60_path_readable : forall p q, Forall plain_seg p -> Forall plain_seg q ->
  path_display p = path_display q -> map step_of p = map step_of q.
Proof.
  intros p. induction p as [|s p IH]; intros [|s' q] Hp Hq E; cbn [path_display] in E; [reflexivity|discriminate E|discriminate E|].
  inversion_clear Hp as [|? ? Hs Hp']. inversion_clear Hq as [|? ? Hs' Hq'].
  unfold seg_display in E. change (s2l ".") with [dot] in E. cbn [app] in E. injection E as E. 
  assert (ND : forall s, plain_seg s -> ~ In dot (match s with SIndex n => s2l "[" ++ show_N (N.of_nat n) ++ s2l "]" | SField f => f | SVariant v => v end)).
  { intros [f|n|f] H; [apply H| |apply H]. rewrite !in_app_iff. intros [H1|[H1|H1]]; [|now apply digits_no_dot in H1|]; cbn in H1; destruct H1 as [H1|[]]; discriminate. }
  apply split_dot in E as [E1 E2]; [|now apply ND|now apply ND|apply path_at_dot|apply path_at_dot].
  cbn [map]. f_equal; [|now apply IH].
  assert (NB : forall n f, plain_seg (SField f) -> s2l "[" ++ show_N (N.of_nat n) ++ s2l "]" = f -> False).
  { intros n f [_ H] <-. apply H. eexists. reflexivity. }
  destruct s as [f|n|f], s' as [f'|n'|f']; cbn [step_of] in *;
    try (now f_equal); try (exfalso; now eapply NB; [|exact E1]); try (exfalso; now eapply NB; [|symmetry; exact E1]).
  f_equal. injection E1 as E1. apply app_inv_tail in E1. apply show_N_inj in E1. now apply Nat2N.inj.
Qed.
Print Assumptions C60_path_readable.

(** Without the proviso it cannot: a field called ["a.b"]. *)
Theorem C60_path_ambiguous_refuted : exists p q, path_display p = path_display q /\ map step_of p <> map step_of q.
Proof. exists [SField (s2l "a.b")], [SField (s2l "a"); SField (s2l "b")]. split; [reflexivity|discriminate]. Qed.
Print Assumptions C60_path_ambiguous_refuted.

Example C60_example :
  exists e, trace_as_type demo xdemo 5 26%nat [4; 5; 1; 8; 9; 10; 3; 2] = Err e /\
  terr_to_string ascii_unicode (fun _ => s2l "bad bool") (fun n => show_N (N.of_nat n)) e =
    Some (s2l "Error decoding value at .[0].t.[1]: bad bool" ++ [c_nl] ++ s2l "Decoded so far:" ++ [c_nl; c_nl] ++
          s2l "<26> (" ++ [c_nl] ++ s2l "  <23> {" ++ [c_nl] ++ s2l "    e: <6> B {" ++ [c_nl] ++ s2l "      x: <2> true," ++ [c_nl] ++
          s2l "      y: <5> 0x090A" ++ [c_nl] ++ s2l "    }," ++ [c_nl] ++ s2l "    t: <9> 0x03" ++ [c_nl] ++ s2l "  }" ++ [c_nl] ++ s2l ")").
Proof. eexists. split; [vm_compute; reflexivity|]. vm_compute. reflexivity. Qed.

(** ** C61 *)
(** The text of a parse error gives [start_loc] as "char": the number of *bytes* in front of the failing text, which is the number of characters exactly
    when they are all ASCII. *)
Theorem C61_position_shown : forall U customs int_msg s e rest, custom_contract customs ->
  parse_custom U customs s = (Err e, rest) ->
  exists before behind more, s = before ++ behind /\
    (perr_display int_msg e = s2l "Error at char " ++ show_N (blen before) ++ s2l ": " ++ more \/
     exists to_, perr_display int_msg e = s2l "Error from char " ++ show_N (blen before) ++ s2l " to " ++ show_N to_ ++ s2l ": " ++ more) /\
    (blen before = N.of_nat (length before) <-> forallb (fun c => c <? 128) before = true).
Proof.
  intros U customs int_msg s e rest HC H.
  destruct (C07_error_locations U customs s e rest HC H) as ((a & b & Hs & Hl) & _ & _).
  exists a, b, (kind_text int_msg (err e)). split; [exact Hs|]. split.
  - unfold perr_display. rewrite Hl. destruct (end_loc e); eauto.
  - clear. induction a as [|c a IH]; [cbn; split; reflexivity|]. cbn [blen forallb length].
    pose proof (blen_ge_length a). pose proof (utf8_len_pos c). rewrite Nat2N.inj_succ, andb_true_iff, <- IH.
    unfold utf8_len in *. destruct (c <? 128) eqn:E.
    + split; [split; [reflexivity|lia]|intros [_ ?]; lia].
    + split; [|intros [? _]; discriminate]. repeat match goal with |- context [if ?x then _ else _] => destruct x end; lia.
Qed.
Print Assumptions C61_position_shown.

Theorem C61_char_position_refuted : exists s e rest n, from_str ascii_unicode s = (Err e, rest) /\
  (forall int_msg, exists more, perr_display int_msg e = s2l "Error from char " ++ show_N n ++ more) /\ N.of_nat (length s) < n.
Proof.
  exists (c_dquote :: repeat 8364 5). eexists _, _, 16. split; [vm_compute; reflexivity|]. split.
  - intro m. eexists. reflexivity.
  - reflexivity.
Qed.
Print Assumptions C61_char_position_refuted.

Example C61_example : exists e rest, from_str ascii_unicode (s2l "{ a: 1 b") = (Err e, rest) /\
  perr_display [] e = s2l "Error from char 7 to 8: Missing closing '}'".
Proof. eexists _, _. split; vm_compute; reflexivity. Qed.

(** ** C62 *)
(** Without any assumption on the custom parsers: an error is either the error of a custom parser, asked at some point of
    the input, with its locations shifted to be relative to the whole input; or one of the crate's own, which never has the kind [Custom],
    starts at a char boundary of the input and whose opening delimiter, if it names one, is where it says. *)
Theorem C62_errors_come_from : forall U customs s e rest, parse_custom U customs s = (Err e, rest) ->
  (exists consumed, s = consumed ++ rest) /\
  ((exists before asked e0 cur, s = before ++ asked /\ run_customs customs asked = Some (Err e0, cur) /\
      start_loc e = blen before + start_loc e0 /\ end_loc e = option_map (N.add (blen before)) (end_loc e0) /\ err e = err e0) \/
   ((forall m, err e <> ECustom m) /\ (exists before behind, s = before ++ behind /\ start_loc e = blen before) /\
    (forall o st, opens (err e) = Some (o, st) -> exists a b, s = a ++ o :: b /\ st = blen a /\ st < start_loc e))).
Proof.
  intros U customs s e rest H. apply parse_custom_origin in H as [[(t & e0 & cur & [a Ha] & H1 & ->)|[H1 H2]] Hs]; (split; [exact Hs|]).
  - left. exists a, t, e0, cur. split; [exact Ha|]. split; [exact H1|]. unfold shift_err. cbn [start_loc end_loc err].
    replace (offset (blen s) t) with (blen a) by (unfold offset; rewrite Ha, blen_app; lia).
    repeat split. 
  - right. destruct H1 as (_ & H1 & _ & H3). split; [exact H2|]. split; [exact H1|exact H3].
Qed.
Print Assumptions C62_errors_come_from.

(** Custom parsers are asked in order, each one sees the text from the current position on, and the first answer counts. *)
Theorem C62_first_answer : forall customs1 p customs2 t r cur,
  Forall (fun q : cparser => q t = (None, t)) customs1 -> p t = (Some r, cur) ->
  run_customs (customs1 ++ p :: customs2) t = Some (r, cur).
Proof. induction 1 as [|q l Hq HF IH]; intro H; cbn [app run_customs]; [now rewrite H|]. rewrite Hq. now apply IH. Qed.
Print Assumptions C62_first_answer.
Theorem C62_all_decline : forall customs t, Forall (fun q : cparser => q t = (None, t)) customs -> run_customs customs t = None.
Proof. induction 1 as [|q l Hq HF IH]; cbn [run_customs]; [reflexivity|]. now rewrite Hq. Qed.
Print Assumptions C62_all_decline.

(** In general: a parser that declines may have moved the cursor, and the next one is asked where it left it. *)
Inductive answers : list cparser -> str -> result (value unit) perr -> str -> Prop :=
| An_here : forall (p : cparser) ps t r cur, p t = (Some r, cur) -> answers (p :: ps) t r cur
| An_later : forall (p : cparser) ps t t' r cur, p t = (None, t') -> answers ps t' r cur -> answers (p :: ps) t r cur.
Theorem C62_shared_cursor : forall customs t r cur, run_customs customs t = Some (r, cur) <-> answers customs t r cur.
Proof.
  intros customs t r cur. split.
  - revert t. induction customs as [|p ps IH]; intros t H; [discriminate|]. cbn [run_customs] in H.
    destruct (p t) as [[r'|] t'] eqn:E; [injection H as -> ->; now apply An_here|]. eapply An_later; [exact E|]. now apply IH.
  - induction 1 as [p ps t r cur H|p ps t t' r cur H H' IH]; cbn [run_customs]; now rewrite H.
Qed.
Print Assumptions C62_shared_cursor.

(** Parsers that never answer change nothing, however they move the cursor. *)
Section Silent.
  Context (U : unicode) (total : N) (p q : str -> pres (value unit)) (H : forall t, p t = q t).
  Lemma sep_rest_same {A} (i j : str -> pres A) : (forall t, i t = j t) -> forall k t acc, sep_rest k i t acc = sep_rest k j t acc.
  Proof.
    intros E k. induction k as [|k IH]; intros t acc; [reflexivity|]. cbn [sep_rest]. destruct (skip_spaced_separator c_comma t) as [ok t1].
    rewrite E. destruct (negb ok); [reflexivity|]. destruct (j t1) as [[a|e] t2]; [apply IH|reflexivity].
  Qed.
  Lemma delimited_same {A} (i j : str -> pres A) op cl k : (forall t, i t = j t) -> forall t, parse_delimited total op cl k i t = parse_delimited total op cl k j t.
  Proof.
    intros E t. unfold parse_delimited, sep_by. destruct (token op t) as [[|] t1]; cbn [negb]; [|reflexivity]. destruct (token cl _) as [[|] t3]; [reflexivity|].
    rewrite E. destruct (j t3) as [[a|e] t4]; [now rewrite (sep_rest_same i j E)|reflexivity].
  Qed.
  Lemma field_same t : parse_field_name_and_value U total p t = parse_field_name_and_value U total q t.
  Proof. unfold parse_field_name_and_value. destruct (parse_field_name _ _ t) as [[n|e] t1]; [|reflexivity]. destruct (skip_spaced_separator _ t1) as [ok t2]. now rewrite H. Qed.
  Lemma named_same k t : parse_named_composite U total p k t = parse_named_composite U total q k t.
  Proof. unfold parse_named_composite, Parse.omap. now rewrite (delimited_same _ _ _ _ k field_same). Qed.
  Lemma unnamed_same k t : parse_unnamed_composite total p k t = parse_unnamed_composite total q k t.
  Proof. unfold parse_unnamed_composite, Parse.omap. now rewrite (delimited_same _ _ _ _ k H). Qed.
  Lemma variant_same k t : parse_variant U total p k t = parse_variant U total q k t.
  Proof.
    unfold parse_variant. destruct (parse_optional_variant_ident _ _ t) as [[[n|e]|] t1]; try reflexivity. cbn [one_of]. now rewrite named_same, unnamed_same.
  Qed.
  Lemma builtin_same k t : parse_builtin U total p k t = parse_builtin U total q k t.
  Proof. unfold parse_builtin. cbn [one_of]. unfold Parse.omap. now rewrite named_same, unnamed_same, variant_same. Qed.
End Silent.
Theorem C62_silent_parsers : forall U customs s, Forall (fun p : cparser => forall t, fst (p t) = None) customs ->
  parse_custom U customs s = from_str U s.
Proof.
  intros U customs s H. assert (R : forall t, run_customs customs t = None).
  { induction H as [|p ps Hp H' IH]; intro t; [reflexivity|]. cbn [run_customs]. specialize (Hp t). destruct (p t) as [o t']. cbn [fst] in Hp. subst o. apply IH. }
  unfold from_str, parse_custom.
  enough (E : forall k t, parse_value U (blen s) customs k t = parse_value U (blen s) [] k t) by apply E. induction k as [|k IH]; intro t; [reflexivity|].
  cbn [parse_value run_customs]. rewrite R. now apply builtin_same.
Qed.
Print Assumptions C62_silent_parsers.

(** Locations *inside* the error kind are not shifted: with a custom parser that hands strings over to the crate's own
    parser, the error for an unterminated string behind [(1, ] claims that the opening quote is at offset 0. *)
Definition string_parser : cparser := fun t =>
  match t with c :: _ => if c =? c_dquote then let (r, rest) := from_str ascii_unicode t in (Some r, rest) else (None, t) | [] => (None, t) end.
Theorem C62_embedded_location_refuted : exists s e rest o st,
  parse_custom ascii_unicode [string_parser] s = (Err e, rest) /\ opens (err e) = Some (o, st) /\
  ~ (exists a b, s = a ++ o :: b /\ st = blen a) /\
  exists e' st', from_str ascii_unicode s = (Err e', rest) /\ opens (err e') = Some (o, st') /\ exists a b, s = a ++ o :: b /\ st' = blen a.
Proof.
  exists (s2l "(1, ""abc"). eexists _, _, _, 0. split; [vm_compute; reflexivity|]. split; [reflexivity|]. split.
  - intros (a & b & E & H). destruct a as [|x a]; [discriminate|]. cbn [blen] in H. pose proof (utf8_len_pos x). lia.
  - eexists _, 4. split; [vm_compute; reflexivity|]. split; [reflexivity|].
    exists (s2l "(1, "), (s2l "abc"). split; reflexivity.
Qed.
Print Assumptions C62_embedded_location_refuted.

Example C62_example : parse_custom ascii_unicode [string_parser; hash_parser] (s2l "(#, !)") =
  (Err (PErr 4 (Some 5) (ECustom (s2l "bang"))), s2l ", !)").
Proof. vm_compute. reflexivity. Qed.
(** A parser that declines after skipping a dot, so that the next one sees what follows the dot. *)
Example C62_shared_example : parse_custom ascii_unicode [fun t => (None, tl t); hash_parser] (s2l ".#") <> parse_custom ascii_unicode [hash_parser] (s2l ".#").
Proof. vm_compute. discriminate. Qed.
Example C62_silent_example : parse_custom ascii_unicode [fun t => (None, tl t)] (s2l "(1, a { })") = from_str ascii_unicode (s2l "(1, a { })") /\
  fst (from_str ascii_unicode (s2l "(1, a { })")) = Ok (unnamed_composite [vu128 1; variant (s2l "a") (Named [])]).
Proof. split; [apply C62_silent_parsers; repeat constructor|vm_compute; reflexivity]. Qed.
