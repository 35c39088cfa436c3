(** * Props_Parse: C06, C07, C08, C09, C11 *)
From Verif Require Import Base Value Chars Parse Spec_Grammar ParseFacts ParseComplete ParseSound ParseNum.
Local Open Scope N_scope.

(** A custom parser is expected to locate its errors in the text it was given: [start_loc] at a char boundary, [end_loc]
    not before it and at most one byte behind the end; and to use error kinds that carry no further location
    (e.g. [ParseErrorKind::Custom]). *)
Definition custom_contract (customs : list cparser) : Prop :=
  forall t e cur, run_customs customs t = Some (Err e, cur) ->
    err e <> EFuel /\ opens (err e) = None /\
    (exists a b, t = a ++ b /\ start_loc e = blen a) /\
    match end_loc e with None => True | Some l => start_loc e <= l <= blen t + 1 end.

Lemma custom_contract_ok customs : custom_contract customs -> customs_err_ok customs.
Proof.
  intros H t e cur E. destruct (H t e cur E) as (H1 & H2 & H3 & H4).
  split; [|exact H2]. split; [exact H1|]. split; [exact H3|]. split; [exact H4|now apply no_opener].
Qed.

(** A custom parser that turns a leading ["#"] into a value and a leading ["!"] into an error at offset 0. *)
Definition hash_parser : cparser := fun t =>
  match t with
  | c :: t' => if c =? 35 then (Some (Ok (vu128 7)), t')
               else if c =? 33 then (Some (Err (PErr 0 (Some 1) (ECustom (s2l "bang")))), t) else (None, t)
  | [] => (None, t)
  end.
Example hash_parser_contract : custom_contract [hash_parser].
Proof.
  intros t e cur. cbn [run_customs]. unfold hash_parser. destruct t as [|c t]; [discriminate|].
  destruct (c =? 35); [discriminate|]. destruct (c =? 33) eqn:E; [|discriminate].
  intro H; injection H as <- <-. cbn. repeat split; try discriminate; [|lia].
  exists [], (c :: t). split; reflexivity.
Qed.

(** ** C06 *)
(** What is left over is a suffix of the input, on success and on failure, with any custom parsers. *)
Theorem C06_remaining_is_suffix : forall U customs s r rest, custom_contract customs ->
  parse_custom U customs s = (r, rest) -> exists consumed, s = consumed ++ rest.
Proof.
  intros U customs s r rest HC H. pose proof (parse_custom_good U customs s (custom_contract_ok _ HC)) as [Hs _].
  rewrite H in Hs. exact Hs.
Qed.
Print Assumptions C06_remaining_is_suffix.

(** The value depends on the consumed text only: whatever comes behind it (unless it prolongs a number) is handed back. *)
Theorem C06_rest_untouched : forall U consumed v rest rest', unicode_ok U ->
  from_str U (consumed ++ rest) = (Ok v, rest) -> not_followed_by num_continues rest' ->
  from_str U (consumed ++ rest') = (Ok v, rest').
Proof. exact from_str_rest_indep. Qed.
Print Assumptions C06_rest_untouched.

Example C06_example :
  from_str ascii_unicode (s2l "Foo (1, <01>) and more") =
    (Ok (unnamed_variant (s2l "Foo") [vu128 1; bit_sequence [false; true]]), s2l " and more") /\
  from_str ascii_unicode (s2l "{ a: 1 b") = (Err (PErr 7 (Some 8) (ECloser c_rbrace 0)), s2l "b") /\
  parse_custom ascii_unicode [hash_parser] (s2l "(#,1)x") = (Ok (unnamed_composite [vu128 7; vu128 1]), s2l "x").
Proof. repeat split; vm_compute; reflexivity. Qed.

(** ** C07 *)
(** [start_loc] lies on a char boundary of the input, [end_loc] is not before it and at most one byte behind the end; and
    an error about a missing closing delimiter names the location of an opening delimiter of that kind before it. *)
Theorem C07_error_locations : forall U customs s e rest, custom_contract customs ->
  parse_custom U customs s = (Err e, rest) ->
  (exists a b, s = a ++ b /\ start_loc e = blen a) /\
  (forall l, end_loc e = Some l -> start_loc e <= l <= blen s + 1) /\
  (forall o st, opens (err e) = Some (o, st) -> exists a b, s = a ++ o :: b /\ st = blen a /\ st < start_loc e).
Proof.
  intros U customs s e rest HC H. pose proof (parse_custom_good U customs s (custom_contract_ok _ HC)) as [_ Hs].
  rewrite H in Hs. destruct Hs as (_ & H1 & H2 & H3). split; [exact H1|]. split; [|exact H3].
  intros l E. rewrite E in H2. exact H2.
Qed.
Print Assumptions C07_error_locations.

(** [end_loc] may lie behind the end of the input, or inside a character (["'a" ++ euro sign]: the error ends one byte
    into the three bytes of the euro sign). *)
Theorem C07_end_loc_in_input_refuted :
  (exists s e rest, from_str ascii_unicode s = (Err e, rest) /\ exists l, end_loc e = Some l /\ blen s < l) /\
  (exists s e rest, from_str ascii_unicode s = (Err e, rest) /\
     exists l, end_loc e = Some l /\ l <= blen s /\ ~ exists a b, s = a ++ b /\ l = blen a).
Proof.
  split.
  - exists [39]. eexists _, _. split; [vm_compute; reflexivity|]. exists 2. split; [reflexivity|]. vm_compute. reflexivity.
  - exists [39; 97; 8364]. eexists _, _. split; [vm_compute; reflexivity|]. exists 3.
    split; [reflexivity|]. split; [vm_compute; discriminate|].
    intros (a & b & E & Hl). destruct a as [|x a]; [discriminate|]. injection E as <- E.
    destruct a as [|y a]; [discriminate|]. injection E as <- E.
    destruct a as [|z a]; [discriminate|]. injection E as <- E.
    destruct a as [|? a]; [discriminate|discriminate].
Qed.
Print Assumptions C07_end_loc_in_input_refuted.

(** ** C08 *)
(** The recursion depth never reaches the length of the input plus one: with that (or more) fuel the fuel error does not occur,
    and more fuel changes nothing. *)
Theorem C08_terminates : forall U customs s k, custom_contract customs -> (length s < k)%nat ->
  parse_value U (blen s) customs k s = parse_custom U customs s /\
  (forall e, fst (parse_custom U customs s) = Err e -> err e <> EFuel).
Proof.
  intros U customs s k HC Hk. apply custom_contract_ok in HC. split; [now apply parse_custom_fuel|].
  intros e E. pose proof (parse_custom_good U customs s HC) as [_ H]. rewrite E in H. apply H.
Qed.
Print Assumptions C08_terminates.

Example C08_example : fst (from_str ascii_unicode (s2l "((((((((((")) = Err (PErr 10 None EExpectedValue).
Proof. vm_compute. reflexivity. Qed.

(** ** C09 *)
(** An optional sign, a digit, then digits and underscores: read as exactly the number the digits denote when it fits,
    and an overflow error spanning the whole number otherwise. *)
Theorem C09_unsigned : forall U sg t n rest, sg = [] \/ sg = [c_plus] ->
  g_digits n t -> not_followed_by num_continues rest ->
  from_str U (sg ++ t ++ rest) =
    (if n <? 2 ^ 128 then Ok (vu128 n) else Err (PErr 0 (Some (blen (sg ++ t))) ENumFailed), rest).
Proof.
  intros U sg t n rest Hsg Hd Hf. rewrite (from_str_number U sg t n rest); auto.
  - destruct Hsg as [->| ->]; reflexivity.
  - unfold signed_digits. tauto.
Qed.
Print Assumptions C09_unsigned.

Theorem C09_negative : forall U t n rest, g_digits n t -> not_followed_by num_continues rest ->
  from_str U (c_minus :: t ++ rest) =
    (if n <=? 2 ^ 127 then Ok (vi128 (- Z.of_N n)) else Err (PErr 0 (Some (1 + blen t)) ENumFailed), rest).
Proof.
  intros U t n rest Hd Hf. exact (from_str_number U [c_minus] t n rest (or_intror (or_intror eq_refl)) Hd Hf).
Qed.
Print Assumptions C09_negative.

(** Conversely a number only comes from such a text. *)
Theorem C09_only : forall U s n rest, from_str U s = (Ok (vu128 n), rest) ->
  exists sg t, (sg = [] \/ sg = [c_plus]) /\ s = sg ++ t ++ rest /\ g_digits n t /\ n < 2 ^ 128.
Proof.
  intros U s n rest H. apply from_str_sound in H as (c & -> & Hg). inversion Hg as [| | | |p t Hn| | | |? ? []]; subst.
  inversion Hn; subst.
  - exists [], c. auto.
  - exists [c_plus], t. auto.
Qed.
Print Assumptions C09_only.

Example C09_example :
  g_digits 123456 (s2l "123_456_") /\
  from_str ascii_unicode (s2l "+123_456_,") = (Ok (vu128 123456), s2l ",") /\
  from_str ascii_unicode (s2l "340282366920938463463374607431768211455") = (Ok (vu128 (2 ^ 128 - 1)), []) /\
  from_str ascii_unicode (s2l "340282366920938463463374607431768211456") = (Err (PErr 0 (Some 39) ENumFailed), []) /\
  from_str ascii_unicode (s2l "-170141183460469231731687303715884105728") = (Ok (vi128 (- 2 ^ 127)), []) /\
  from_str ascii_unicode (s2l "-170141183460469231731687303715884105729") = (Err (PErr 0 (Some 40) ENumFailed), []).
Proof.
  split; [|repeat split; vm_compute; reflexivity].
  exists 49, (s2l "23_456_"). repeat split.
Qed.

(** ** C11 *)
Theorem C11_complete : forall U v t rest, unicode_ok U -> grammar U v t -> not_followed_by num_continues rest ->
  from_str U (t ++ rest) = (Ok v, rest).
Proof. exact from_str_complete. Qed.
Print Assumptions C11_complete.

Theorem C11_sound : forall U s v rest, from_str U s = (Ok v, rest) -> exists c, s = c ++ rest /\ grammar U v c.
Proof. exact from_str_sound. Qed.
Print Assumptions C11_sound.

Theorem C11_exact : forall U v t, unicode_ok U -> (from_str U t = (Ok v, []) <-> grammar U v t).
Proof. exact from_str_iff. Qed.
Print Assumptions C11_exact.

(** The grammar is unambiguous. *)
Theorem C11_unambiguous : forall U v v' t, unicode_ok U -> grammar U v t -> grammar U v' t -> v = v'.
Proof. exact grammar_unambiguous. Qed.
Print Assumptions C11_unambiguous.

(** The characters the grammar speaks of: white space is the Unicode property White_Space, digits are the ten ASCII ones,
    and below U+0080 letters are the ASCII ones. *)
Theorem C11_characters : forall U c,
  (is_whitespace c = true <-> In c [9; 10; 11; 12; 13; 32; 133; 160; 5760; 8192; 8193; 8194; 8195; 8196; 8197; 8198; 8199; 8200; 8201; 8202; 8232; 8233; 8239; 8287; 12288]%N) /\
  (is_digit c = true <-> In c (s2l "0123456789")) /\
  ((c < 128)%N -> (is_alphabetic U c = true <-> In c (s2l "ABCDEFGHIJKLMNOPQRSTUVWXYZabcdefghijklmnopqrstuvwxyz"))) /\
  ((c < 128)%N -> (is_alphanumeric U c = true <-> In c (s2l "ABCDEFGHIJKLMNOPQRSTUVWXYZabcdefghijklmnopqrstuvwxyz0123456789"))) /\
  ((128 <= c)%N -> is_alphabetic U c = u_alpha U c /\ is_alphanumeric U c = (u_alpha U c || u_numeric U c)).
Proof.
  intros U c. split; [|split; [|split; [|split]]].
  - unfold is_whitespace. cbn [In]. lia.
  - unfold is_digit. change (s2l "0123456789") with [48; 49; 50; 51; 52; 53; 54; 55; 56; 57]%N. cbn [In]. lia.
  - intro H. unfold is_alphabetic. apply N.ltb_lt in H. rewrite H. unfold is_ascii_alpha. vm_compute (s2l _). cbn [In]. lia.
  - intro H. unfold is_alphanumeric, is_alphabetic. apply N.ltb_lt in H. rewrite H. unfold is_ascii_alpha, is_digit. vm_compute (s2l _). cbn [In]. lia.
  - intro H. unfold is_alphanumeric, is_alphabetic. apply N.ltb_ge in H. rewrite H. now split.
Qed.
Print Assumptions C11_characters.

Example C11_example : unicode_ok sample_unicode /\
  grammar sample_unicode (named_variant (s2l "A") [(s2l "b c", unnamed_composite [vbool true; vu128 10])])
    (s2l "A{ ""b c"" :(true ,1_0)}").
Proof.
  split; [exact sample_unicode_ok|]. apply C11_exact; [exact sample_unicode_ok|]. vm_compute. reflexivity.
Qed.
