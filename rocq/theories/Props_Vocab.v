(** * Props_Vocab: the words the model and the specifications share, pinned down one by one.
    Some statements of other files use these functions of the model; the theorems here say what they are. *)
From Verif Require Import Base Value Chars Spec_Grammar Spec_Scale Scale ScaleFacts Serde Spec_Serde SerdeTargets Fmt FmtText Spec_Texts Props_Texts.
Local Open Scope N_scope.

(** C11, C18: white space is Unicode's White_Space, digits and ASCII letters are what they are called; nothing in ASCII is left to a table. *)
Theorem C11_characters : forall U c,
  (is_whitespace c = true <-> In c [9; 10; 11; 12; 13; 32; 133; 160; 5760; 8192; 8193; 8194; 8195; 8196; 8197; 8198; 8199; 8200; 8201; 8202; 8232; 8233; 8239; 8287; 12288]) /\
  (is_digit c = true <-> In c (s2l "0123456789")) /\
  (c < 128 -> is_alphabetic U c = true <-> In c (s2l "ABCDEFGHIJKLMNOPQRSTUVWXYZabcdefghijklmnopqrstuvwxyz")) /\
  (c < 128 -> is_alphanumeric U c = true <-> In c (s2l "ABCDEFGHIJKLMNOPQRSTUVWXYZabcdefghijklmnopqrstuvwxyz0123456789")).
Proof.
  intros U c.
  assert (A : c < 128 -> is_alphabetic U c = true <-> In c (s2l "ABCDEFGHIJKLMNOPQRSTUVWXYZabcdefghijklmnopqrstuvwxyz")).
  { intro L. unfold is_alphabetic. rewrite (proj2 (N.ltb_lt c 128) L). unfold is_ascii_alpha. cbn [s2l ch N_of_ascii N_of_digits In]. vm_compute (N_of_ascii _). lia. }
  repeat split.
  all: try (unfold is_whitespace; cbn [In]; lia).
  all: try (unfold is_digit; cbn [s2l In]; vm_compute (ch _); lia).
  all: try apply A; try assumption.
  all: unfold is_alphanumeric; rewrite (proj2 (N.ltb_lt c 128) H), orb_true_iff, (A H); unfold is_digit; cbn [s2l In]; vm_compute (ch _); lia.
Qed.
Print Assumptions C11_characters.

(** C06, C07: positions count the bytes of the UTF-8 encoding. *)
Theorem C07_bytes : forall s, blen s = N.of_nat (length (utf8 s)).
Proof.
  induction s as [|c s IH]; [reflexivity|]. cbn [blen]. unfold utf8. cbn [map concat]. rewrite app_length, Nat2N.inj_add, IH. f_equal.
  unfold utf8_len, utf8_char. destruct (c <? 0x80), (c <? 0x800), (c <? 0x10000); reflexivity.
Qed.
Print Assumptions C07_bytes.

(** C21, C39, C75: the reader of UTF-8 reads UTF-8. *)
Theorem C21_utf8 : forall b s, utf8_decode b = Some s <-> b = utf8 s /\ Forall (fun c => c <= 0x10FFFF /\ ~ (0xD800 <= c <= 0xDFFF)) s.
Proof.
  intros b s. rewrite utf8_decode_iff. apply and_iff_compat_l. rewrite forallb_forall, Forall_forall. unfold is_scalar.
  split; intros H x Hx; specialize (H x Hx); lia.
Qed.
Print Assumptions C21_utf8.

(** C40, C76: keys are in lexicographic order. *)
Theorem C76_order : forall a b, str_ltb a b = true <->
  exists p, (a = p /\ exists y r, b = p ++ y :: r) \/ (exists x r y r', a = p ++ x :: r /\ b = p ++ y :: r' /\ x < y).
Proof.
  induction a as [|x a IH]; intros [|y b]; cbn [str_ltb].
  - split; [discriminate|]. intros [p [[E (y & r & E')]|(x & r & y & r' & E & _)]]; destruct p; discriminate.
  - split; [|reflexivity]. intros _. exists []. left. split; [reflexivity|]. exists y, b. reflexivity.
  - split; [discriminate|]. intros [p [[E (z & r & E')]|(z & r & z' & r' & E & E' & _)]]; destruct p; discriminate.
  - rewrite orb_true_iff, andb_true_iff, N.ltb_lt, N.eqb_eq, IH. split.
    + intros [L|[-> [p [[E (z & r & E')]|(z & r & z' & r' & E & E' & L)]]]].
      * exists []. right. exists x, a, y, b. auto.
      * exists (y :: p). left. subst a b. split; [reflexivity|]. exists z, r. reflexivity.
      * exists (y :: p). right. subst a b. exists z, r, z', r'. auto.
    + intros [[|q p] [[E (z & r & E')]|(z & r & z' & r' & E & E' & L)]]; cbn [app] in E, E'.
      * discriminate E.
      * injection E as -> ->. injection E' as -> ->. left. exact L.
      * injection E as -> E. injection E' as -> ->. right. split; [reflexivity|]. exists p. left. split; [exact E|]. exists z, r. reflexivity.
      * injection E as -> ->. injection E' as -> ->. right. split; [reflexivity|]. exists p. right. exists z, r, z', r'. auto.
Qed.
Print Assumptions C76_order.

(** C20, C59: numbers are written in decimal, without leading zeros, and there is only one way to do so. *)
Lemma dec_bound t : forallb is_digit t = true -> dec_value t < 10 ^ N.of_nat (length t).
Proof.
  induction t as [|d t IH]; [intros _; reflexivity|]. cbn [forallb dec_value length]. intro H. apply andb_true_iff in H as [D H]. specialize (IH H).
  rewrite Nat2N.inj_succ, N.pow_succ_r'. unfold is_digit in D. assert (d - 48 <= 9) by lia. nia.
Qed.
Lemma dec_inj t : forall t', length t = length t' -> forallb is_digit t = true -> forallb is_digit t' = true -> dec_value t = dec_value t' -> t = t'.
Proof.
  induction t as [|d t IH]; intros [|d' t'] L H H' E; try discriminate L; [reflexivity|]. injection L as L.
  cbn [forallb dec_value] in *. apply andb_true_iff in H as [D H]. apply andb_true_iff in H' as [D' H'].
  pose proof (dec_bound t H) as B. pose proof (dec_bound t' H') as B'. rewrite <- L in *. unfold is_digit in D, D'.
  assert (d - 48 = d' - 48) by nia. assert (d = d') by lia. subst d'. f_equal. apply IH; [exact L|exact H|exact H'|lia].
Qed.
Lemma dec_large d t : is_digit d = true -> d <> 48 -> 10 ^ N.of_nat (length t) <= dec_value (d :: t).
Proof. intros D N0. cbn [dec_value]. unfold is_digit in D. assert (1 <= d - 48) by lia. nia. Qed.
Lemma numeral_length n t t' : numeral n t -> numeral n t' -> (length t <= length t')%nat.
Proof.
  intros (D & V & NE & Z) (D' & V' & NE' & _). destruct t as [|d t]; [contradiction|]. destruct (N.eq_dec d 48) as [->|NZ].
  - rewrite (Z t eq_refl). destruct t'; [contradiction|cbn [length]; lia].
  - cbn [forallb] in D. apply andb_true_iff in D as [D1 D]. pose proof (dec_large d t D1 NZ) as L. pose proof (dec_bound t' D') as B. rewrite V in L. rewrite V' in B.
    assert (H : 10 ^ N.of_nat (length t) < 10 ^ N.of_nat (length t')) by lia. apply N.pow_lt_mono_r_iff in H; [|lia]. cbn [length]. lia.
Qed.
Lemma numeral_unique n t t' : numeral n t -> numeral n t' -> t = t'.
Proof.
  intros H H'. pose proof (numeral_length n t t' H H') as L. pose proof (numeral_length n t' t H' H) as L'.
  destruct H as (D & V & _), H' as (D' & V' & _). apply dec_inj; [lia|exact D|exact D'|congruence].
Qed.
Theorem C59_numerals : forall n, numeral n (show_N n) /\ forall t, numeral n t -> t = show_N n.
Proof.
  intro n. split; [apply show_numeral|]. intros t Ht. apply numeral_unique with n; [exact Ht|apply show_numeral].
Qed.
Print Assumptions C59_numerals.

(** What the primitives of a Rust [Value] can hold. *)
Theorem C03_primitives : forall p, prim_wf p = true <->
  match p with
  | PBool _ => True
  | PChar c => c <= 0x10FFFF /\ ~ (0xD800 <= c <= 0xDFFF)
  | PString s => Forall (fun c => c <= 0x10FFFF /\ ~ (0xD800 <= c <= 0xDFFF)) s
  | PU128 n => n <= 340282366920938463463374607431768211455
  | PI128 z => (-170141183460469231731687303715884105728 <= z <= 170141183460469231731687303715884105727)%Z
  | PU256 b | PI256 b => length b = 32%nat /\ Forall (fun x => x <= 255) b
  end.
Proof.
  intros [b|c|s|n|z|b|b]; cbn [prim_wf].
  - tauto.
  - unfold is_scalar. lia.
  - rewrite forallb_forall, Forall_forall. unfold is_scalar. split; intros H x Hx; specialize (H x Hx); lia.
  - change (2 ^ 128) with 340282366920938463463374607431768211456. lia.
  - change (2 ^ 127)%Z with 170141183460469231731687303715884105728%Z. lia.
  - rewrite andb_true_iff, Nat.eqb_eq, forallb_forall, Forall_forall. split; intros [H H']; (split; [exact H|]); intros x Hx; specialize (H' x Hx); lia.
  - rewrite andb_true_iff, Nat.eqb_eq, forallb_forall, Forall_forall. split; intros [H H']; (split; [exact H|]); intros x Hx; specialize (H' x Hx); lia.
Qed.
Print Assumptions C03_primitives.
(** C43: the ranges of the integer types. *)
Theorem C43_ranges : forall w z, In w [8; 16; 32; 64; 128] ->
  (in_int false w z = true <-> 0 <= z < 2 ^ Z.of_N w)%Z /\ (in_int true w z = true <-> - 2 ^ (Z.of_N w - 1) <= z < 2 ^ (Z.of_N w - 1))%Z.
Proof. intros w z _. unfold in_int. lia. Qed.
Print Assumptions C43_ranges.

(** C11: the characters the grammar of the text syntax is written in.  (Backslash, the quotes and the control characters are
    given by their code points.) *)
Theorem C11_delimiters :
  [c_lpar; c_rpar; c_lbrace; c_rbrace; c_lt; c_gt; c_comma; c_colon; c_minus; c_plus; c_under; c_0; c_1; c_v; c_squote; c_space] = s2l "(){}<>,:-+_01v' " /\
  c_dquote = 0x22 /\ c_bslash = 0x5C /\ c_nl = 0x0A /\ c_tab = 0x09 /\ c_cr = 0x0D /\ c_nul = 0 /\
  escapes = combine [0x0A; 0x09; 0x22; 0x27; 0x0D; 0x5C; 0] (map ch ["n"; "t"; """"; "'"; "r"; "\"; "0"]%char).
Proof. repeat apply conj; vm_compute; reflexivity. Qed.
Print Assumptions C11_delimiters.
