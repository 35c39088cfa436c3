(** * Chars: std character classes and [/repo/src/string_impls/string_helpers.rs]. *)
From Verif Require Import Base.
Local Open Scope N_scope.

(** Named characters. *)
Definition c_nl : char := 10.      Definition c_tab : char := 9.    Definition c_cr : char := 13.
Definition c_nul : char := 0.      Definition c_space : char := 32. Definition c_dquote : char := 34.
Definition c_squote : char := 39.  Definition c_lpar : char := 40.  Definition c_rpar : char := 41.
Definition c_plus : char := 43.    Definition c_comma : char := 44. Definition c_minus : char := 45.
Definition c_0 : char := 48.       Definition c_1 : char := 49.     Definition c_colon : char := 58.
Definition c_lt : char := 60.      Definition c_gt : char := 62.    Definition c_bslash : char := 92.
Definition c_under : char := 95.   Definition c_v : char := 118.    Definition c_lbrace : char := 123.
Definition c_rbrace : char := 125.

(** std [char::is_ascii_digit]. *)
Definition is_digit (c : char) : bool := (48 <=? c) && (c <=? 57).
(** std [char::is_ascii_alphabetic]. *)
Definition is_ascii_alpha (c : char) : bool := ((65 <=? c) && (c <=? 90)) || ((97 <=? c) && (c <=? 122)).
(** std [char::is_ascii_alphanumeric]. *)
Definition is_ascii_alnum (c : char) : bool := is_ascii_alpha c || is_digit c.

(** std [char::is_whitespace]: the Unicode property White_Space (a fixed, stable table). *)
Definition is_whitespace (c : char) : bool :=
  ((9 <=? c) && (c <=? 13)) || (c =? 32) || (c =? 0x85) || (c =? 0xA0) || (c =? 0x1680) ||
  ((0x2000 <=? c) && (c <=? 0x200A)) || (c =? 0x2028) || (c =? 0x2029) || (c =? 0x202F) || (c =? 0x205F) ||
  (c =? 0x3000).

(** The parts of the Unicode tables that are left open: Alphabetic and Numeric above U+007F. *)
Record unicode : Type := { u_alpha : char -> bool; u_numeric : char -> bool }.

(** std [char::is_alphabetic]. *)
Definition is_alphabetic (U : unicode) (c : char) : bool :=
  if c <? 128 then is_ascii_alpha c else u_alpha U c.
(** std [char::is_alphanumeric] = alphabetic or numeric. *)
Definition is_alphanumeric (U : unicode) (c : char) : bool :=
  is_alphabetic U c || (if c <? 128 then is_digit c else u_numeric U c).

(** A fact about Unicode: no white space character is alphabetic or numeric. *)
Definition unicode_ok (U : unicode) : Prop :=
  forall c, is_alphanumeric U c = true -> is_whitespace c = false.

(** string_helpers.rs:20-32 *)
Definition to_escape_code (c : char) : option char :=
  if c =? 10 then Some 110 (* n *)
  else if c =? 9 then Some 116 (* t *)
  else if c =? 34 then Some 34
  else if c =? 39 then Some 39
  else if c =? 13 then Some 114 (* r *)
  else if c =? 92 then Some 92
  else if c =? 0 then Some 48 (* 0 *)
  else None.

(** string_helpers.rs:38-50 *)
Definition from_escape_code (c : char) : option char :=
  if c =? 110 then Some 10
  else if c =? 116 then Some 9
  else if c =? 34 then Some 34
  else if c =? 39 then Some 39
  else if c =? 114 then Some 13
  else if c =? 92 then Some 92
  else if c =? 48 then Some 0
  else None.

(** The ASCII-only instance and a small non-ASCII one (Greek letters, superscript two), used in examples. *)
Definition ascii_unicode : unicode := {| u_alpha := fun _ => false; u_numeric := fun _ => false |}.
Definition sample_unicode : unicode :=
  {| u_alpha := fun c => (0x391 <=? c) && (c <=? 0x3C9); u_numeric := fun c => c =? 0xB2 |}.

Ltac char_cases :=
  repeat match goal with
         | H : context [N.eqb ?a ?b] |- _ => destruct (N.eqb_spec a b)
         | |- context [N.eqb ?a ?b] => destruct (N.eqb_spec a b)
         end.

Lemma ascii_unicode_ok : unicode_ok ascii_unicode.
Proof.
  intros c. unfold is_alphanumeric, is_alphabetic, is_whitespace, is_ascii_alpha, is_digit. cbn [u_alpha u_numeric ascii_unicode].
  destruct (c <? 128) eqn:E; [|discriminate]. lia.
Qed.

Lemma sample_unicode_ok : unicode_ok sample_unicode.
Proof.
  intros c. unfold is_alphanumeric, is_alphabetic, is_whitespace, is_ascii_alpha, is_digit. cbn [u_alpha u_numeric sample_unicode].
  destruct (c <? 128) eqn:E; lia.
Qed.

Lemma escape_roundtrip c e : to_escape_code c = Some e -> from_escape_code e = Some c.
Proof.
  unfold to_escape_code. intro H.
  repeat match type of H with
         | (if ?b then _ else _) = _ =>
             destruct b eqn:?E; [injection H as <-; apply N.eqb_eq in E; subst; reflexivity|clear E]
         end.
  discriminate.
Qed.

Lemma unescape_roundtrip c e : from_escape_code e = Some c -> to_escape_code c = Some e.
Proof.
  unfold from_escape_code. intro H.
  repeat match type of H with
         | (if ?b then _ else _) = _ =>
             destruct b eqn:?E; [injection H as <-; apply N.eqb_eq in E; subst; reflexivity|clear E]
         end.
  discriminate.
Qed.

Lemma to_escape_none c : to_escape_code c = None -> c <> 92 /\ c <> 34 /\ c <> 39.
Proof.
  unfold to_escape_code. intro H.
  repeat match type of H with
         | (if ?b then _ else _) = _ => destruct b eqn:?; [discriminate|]
         end. lia.
Qed.
