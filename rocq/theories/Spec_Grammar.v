(** * Spec_Grammar: the text syntax of values, stated without reference to the parser or the formatter. *)
From Verif Require Import Base Value Chars.
Local Open Scope N_scope.

Definition ws (s : str) : Prop := forallb is_whitespace s = true.

(** Escape sequences: the char and the code following the backslash. *)
Definition escapes : list (char * char) :=
  [(10, 110); (9, 116); (34, 34); (39, 39); (13, 114); (92, 92); (0, 48)].

(** Positional decimal value, most significant digit first. *)
Fixpoint dec_value (ds : str) : N :=
  match ds with
  | [] => 0
  | d :: r => (d - 48) * 10 ^ N.of_nat (length r) + dec_value r
  end.

(** [g_body s t]: [t] is a way to write the content [s] between double quotes. *)
Inductive g_body : str -> str -> Prop :=
| GB_nil : g_body [] []
| GB_char : forall c s t, c <> c_dquote -> c <> c_bslash -> g_body s t -> g_body (c :: s) (c :: t)
| GB_esc : forall c e s t, In (c, e) escapes -> g_body s t -> g_body (c :: s) (c_bslash :: e :: t).

Definition g_string (s t : str) : Prop := exists b, g_body s b /\ t = [c_dquote] ++ b ++ [c_dquote].

Inductive g_char : char -> str -> Prop :=
| GC_char : forall c, c <> c_bslash -> g_char c [c_squote; c; c_squote]
| GC_esc : forall c e, In (c, e) escapes -> g_char c [c_squote; c_bslash; e; c_squote].

(** A digit, then digits and underscores. *)
Definition g_digits (n : N) (t : str) : Prop :=
  exists d r, t = d :: r /\ is_digit d = true /\
    forallb (fun c => is_digit c || (c =? c_under)) r = true /\
    n = dec_value (filter is_digit t).

Inductive g_number : prim -> str -> Prop :=
| GN_plain : forall n t, g_digits n t -> n < 2 ^ 128 -> g_number (PU128 n) t
| GN_plus : forall n t, g_digits n t -> n < 2 ^ 128 -> g_number (PU128 n) (c_plus :: t)
| GN_minus : forall n t, g_digits n t -> n <= 2 ^ 127 -> g_number (PI128 (- Z.of_N n)) (c_minus :: t).

Definition starts_with (p s : str) : Prop := exists r, s = p ++ r.

Section Grammar.
  Context (U : unicode).
  (** Additional literals introduced by custom parsers (none for the plain syntax). *)
  Context (X : value unit -> str -> Prop).

  Definition g_ident (s : str) : Prop :=
    exists c r, s = c :: r /\ is_alphabetic U c = true /\
      forallb (fun c => is_alphanumeric U c || (c =? c_under)) r = true.

  Inductive g_field_name : str -> str -> Prop :=
  | GF_ident : forall n, g_ident n -> g_field_name n n
  | GF_string : forall n t, g_string n t -> g_field_name n t.

  (** An unquoted variant name must not begin with [true] or [false]. *)
  Inductive g_variant_name : str -> str -> Prop :=
  | GV_ident : forall n, g_ident n -> ~ starts_with (s2l "true") n -> ~ starts_with (s2l "false") n ->
                         g_variant_name n n
  | GV_string : forall n t, g_string n t -> g_variant_name n (c_v :: t).

  Inductive g_val : value unit -> str -> Prop :=
  | G_bool_true : g_val (vbool true) (s2l "true")
  | G_bool_false : g_val (vbool false) (s2l "false")
  | G_char : forall c t, g_char c t -> g_val (vchar c) t
  | G_string : forall s t, g_string s t -> g_val (vstring s) t
  | G_number : forall p t, g_number p t -> g_val (primitive p) t
  | G_bits : forall b, g_val (bit_sequence b) ([c_lt] ++ map (fun x : bool => if x then c_1 else c_0) b ++ [c_gt])
  | G_composite : forall c t, g_comp c t -> g_val (without_context (DComposite c)) t
  | G_variant : forall n nt w c t, g_variant_name n nt -> ws w -> g_comp c t ->
                  g_val (variant n c) (nt ++ w ++ t)
  | G_custom : forall v t, X v t -> g_val v t
  with g_comp : composite (value unit) -> str -> Prop :=
  | G_named_empty : forall w, ws w -> g_comp (Named []) ([c_lbrace] ++ w ++ [c_rbrace])
  | G_unnamed_empty : forall w, ws w -> g_comp (Unnamed []) ([c_lpar] ++ w ++ [c_rpar])
  | G_named : forall w1 l t w2, ws w1 -> g_fields l t -> ws w2 ->
                g_comp (Named l) ([c_lbrace] ++ w1 ++ t ++ w2 ++ [c_rbrace])
  | G_unnamed : forall w1 l t w2, ws w1 -> g_items l t -> ws w2 ->
                g_comp (Unnamed l) ([c_lpar] ++ w1 ++ t ++ w2 ++ [c_rpar])
  with g_items : list (value unit) -> str -> Prop :=
  | GI_one : forall v t, g_val v t -> g_items [v] t
  | GI_cons : forall v t w1 w2 l t', g_val v t -> ws w1 -> ws w2 -> g_items l t' ->
                g_items (v :: l) (t ++ w1 ++ [c_comma] ++ w2 ++ t')
  with g_fields : list (str * value unit) -> str -> Prop :=
  | GFs_one : forall n nt w1 w2 v t, g_field_name n nt -> ws w1 -> ws w2 -> g_val v t ->
                g_fields [(n, v)] (nt ++ w1 ++ [c_colon] ++ w2 ++ t)
  | GFs_cons : forall n nt w1 w2 v t w3 w4 l t', g_field_name n nt -> ws w1 -> ws w2 -> g_val v t ->
                ws w3 -> ws w4 -> g_fields l t' ->
                g_fields ((n, v) :: l) ((nt ++ w1 ++ [c_colon] ++ w2 ++ t) ++ w3 ++ [c_comma] ++ w4 ++ t').
End Grammar.

(** The plain syntax. *)
Definition no_custom : value unit -> str -> Prop := fun _ _ => False.
Definition grammar (U : unicode) : value unit -> str -> Prop := g_val U no_custom.

(** The text behind a value does not continue its last token. *)
Definition not_followed_by (p : char -> bool) (rest : str) : Prop :=
  match rest with [] => True | c :: _ => p c = false end.
Definition num_continues (c : char) : bool := is_digit c || (c =? c_under).

Scheme g_val_mut := Minimality for g_val Sort Prop
  with g_comp_mut := Minimality for g_comp Sort Prop
  with g_items_mut := Minimality for g_items Sort Prop
  with g_fields_mut := Minimality for g_fields Sort Prop.
Combined Scheme g_mutind from g_val_mut, g_comp_mut, g_items_mut, g_fields_mut.
