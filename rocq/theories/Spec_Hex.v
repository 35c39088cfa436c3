(** * Spec_Hex: hexadecimal literals, without reference to the code. *)
From Verif Require Import Base Value Chars.
Local Open Scope N_scope.

(** [hex_digit c n]: the digit [c] (either case) stands for [n]. *)
Definition hex_digit (c : char) (n : N) : Prop :=
  nth_error (s2l "0123456789abcdef") (N.to_nat n) = Some c \/ nth_error (s2l "0123456789ABCDEF") (N.to_nat n) = Some c.

(** [hex_digits bs t]: two digits per byte, most significant first. *)
Inductive hex_digits : list byte -> str -> Prop :=
| HD_nil : hex_digits [] []
| HD_cons : forall a x b y bs t, hex_digit a x -> hex_digit b y -> hex_digits bs t ->
    hex_digits (16 * x + y :: bs) (a :: b :: t).

(** Upper-case digits of a byte. *)
Definition upper_hex (b : byte) : str :=
  [nth (N.to_nat (b / 16)) (s2l "0123456789ABCDEF") 0; nth (N.to_nat (b mod 16)) (s2l "0123456789ABCDEF") 0].

Definition byte_values (bs : list byte) : value unit := unnamed_composite (map vu128 bs).

(** The text of a hex literal denoting a composite of bytes. *)
Definition hex_literal (v : value unit) (t : str) : Prop :=
  exists bs d, v = byte_values bs /\ t = s2l "0x" ++ d /\ hex_digits bs d.
