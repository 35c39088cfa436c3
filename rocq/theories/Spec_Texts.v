(** * Spec_Texts: the texts of parse errors (C61) and the calls made by [Serialize for Value] (C42), as tables. *)
From Verif Require Import Base Value Chars Spec_Grammar Parse Serde Spec_Serde.
Local Open Scope N_scope.

(** [t] is the decimal numeral of [n]. *)
Definition numeral (n : N) (t : str) : Prop := forallb is_digit t = true /\ dec_value t = n /\ t <> [] /\ forall r, t = 48 :: r -> r = [].

(** What the kinds of errors say; [int_msg] is the standard library's text for integers out of range. *)
Inductive says (int_msg : str) : ekind -> str -> Prop :=
| T_value : says int_msg EExpectedValue (s2l "Expected a value")
| T_start : says int_msg EInvalidStart (s2l "The first character in a field name should be alphabetic")
| T_name : says int_msg EInvalidFieldName
    (s2l "Field name is not valid (it should begin with an alphabetical char and then consist only of alphanumeric chars)")
| T_sep c : says int_msg (EMissingSep c) (s2l "Missing field separator; expected " ++ [c])
| T_closer c n : says int_msg (ECloser c n) (s2l "Missing closing '" ++ [c] ++ s2l "'")
| T_char : says int_msg ECharExpected (s2l "Expected a single character")
| T_char_escape : says int_msg ECharEscape (s2l "Expected an escape code to follow the '\'")
| T_string_escape : says int_msg EStrEscape (s2l "Expected an escape code to follow the '\'")
| T_char_close n t : numeral n t -> says int_msg (ECharClose n) (s2l "Expected a closing quote to match the opening quote at position " ++ t)
| T_string_close n t : numeral n t -> says int_msg (EStrClose n) (s2l "Expected a closing quote to match the opening quote at position " ++ t)
| T_digit : says int_msg ENumDigit (s2l "Expected one or more digits")
| T_number : says int_msg ENumFailed (s2l "Failed to parse digits into an integer: " ++ int_msg)
| T_bits n t : numeral n t -> says int_msg (EBitsClose n) (s2l "Expected a closing bracket ('>') to match the opening one at position " ++ t)
| T_custom m : says int_msg (ECustom m) (s2l "Custom error: " ++ m).

(** Different kinds with the same text. *)
Inductive look_alike : ekind -> ekind -> Prop :=
| L_same k : look_alike k k
| L_escape1 : look_alike ECharEscape EStrEscape
| L_escape2 : look_alike EStrEscape ECharEscape
| L_close1 n : look_alike (ECharClose n) (EStrClose n)
| L_close2 n : look_alike (EStrClose n) (ECharClose n)
| L_closer c n n' : look_alike (ECloser c n) (ECloser c n').

(** The narrowest integer type for a number (numbers of a Rust [Value] fit into 128 bits). *)
Definition narrowest (sg : bool) (w : N) (z : Z) : Prop :=
  In w [8; 16; 32; 64; 128] /\ (int_range sg w z \/ w = 128) /\ forall w', In w' [8; 16; 32; 64; 128] -> w' < w -> ~ int_range sg w' z.

(** The calls [Serialize for Value] makes: sequences for unnamed composites, maps for named ones, a map of the entries "name" and "values"
    for variants, a map with the reserved key for bit sequences, a tuple of 32 bytes for 256-bit integers. *)
Inductive serialises {T} : value T -> sd -> Prop :=
| Z_unnamed l ss ctx : Forall2 serialises l ss -> serialises (Val (DComposite (Unnamed l)) ctx) (SSeq ss)
| Z_named l ss ctx : Forall2 (fun kv p => fst p = SStr (fst kv) /\ serialises (snd kv) (snd p)) l ss -> serialises (Val (DComposite (Named l)) ctx) (SMap ss)
| Z_variant n c ctx s : serialises (Val (DComposite c) ctx) s ->
    serialises (Val (DVariant n c) ctx) (SMap [(SStr (s2l "name"), SStr n); (SStr (s2l "values"), s)])
| Z_bits b ctx : serialises (Val (DBits b) ctx) (SMap [(SStr (s2l "__bitvec__values__"), SSeq (map SBool b))])
| Z_bool b ctx : serialises (Val (DPrim (PBool b)) ctx) (SBool b)
| Z_char c ctx : serialises (Val (DPrim (PChar c)) ctx) (SChar c)
| Z_string s ctx : serialises (Val (DPrim (PString s)) ctx) (SStr s)
| Z_u128 n w ctx : narrowest false w (Z.of_N n) -> serialises (Val (DPrim (PU128 n)) ctx) (SInt false w (Z.of_N n))
| Z_i128 z w ctx : narrowest true w z -> serialises (Val (DPrim (PI128 z)) ctx) (SInt true w z)
| Z_u256 b ctx : serialises (Val (DPrim (PU256 b)) ctx) (STuple (map (fun x => SInt false 8 (Z.of_N x)) b))
| Z_i256 b ctx : serialises (Val (DPrim (PI256 b)) ctx) (STuple (map (fun x => SInt false 8 (Z.of_N x)) b)).
