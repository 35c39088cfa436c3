(** * Spec_Both: source text that is both an argument of [value!] and a text for [from_str] (C72). *)
From Verif Require Import Base Value Chars Spec_Grammar Macro.

Section Both.
  (** [L ts t v]: the tokens [ts] and the text [t] write the same literal, of value [v]. *)
  Context (U : unicode) (L : list tok -> str -> value unit -> Prop).

  (** No name, or the bare name of a variant. *)
  Inductive both_name : option str -> list tok -> str -> Prop :=
  | BN_none : both_name None [] []
  | BN_some n w : g_variant_name U n n -> ws w -> both_name (Some n) [TIdent n] (n ++ w).

  (** [both ts t v]: the text [t] has the tokens [ts] and stands for [v]: literals, tuples, structs with identifiers as
      field names and variants of both kinds, with white space anywhere. *)
  Inductive both : list tok -> str -> value unit -> Prop :=
  | B_lit ts t v : L ts t v -> both ts t v
  | B_fields name nts nt ts t c : both_name name nts nt -> both_composite ts t c ->
      both (nts ++ ts) (nt ++ t) (match name with Some n => variant n c | None => without_context (DComposite c) end)
  with both_composite : list tok -> str -> composite (value unit) -> Prop :=
  | BC_no_items w : ws w -> both_composite [TGroup Paren []] ([c_lpar] ++ w ++ [c_rpar]) (Unnamed [])
  | BC_items w ts t w' vs : ws w -> both_items ts t vs -> ws w' -> both_composite [TGroup Paren ts] ([c_lpar] ++ w ++ t ++ w' ++ [c_rpar]) (Unnamed vs)
  | BC_no_entries w : ws w -> both_composite [TGroup Brace []] ([c_lbrace] ++ w ++ [c_rbrace]) (Named [])
  | BC_entries w ts t w' kvs : ws w -> both_entries ts t kvs -> ws w' -> both_composite [TGroup Brace ts] ([c_lbrace] ++ w ++ t ++ w' ++ [c_rbrace]) (Named kvs)
  with both_items : list tok -> str -> list (value unit) -> Prop :=
  | BI_one ts t v : both ts t v -> both_items ts t [v]
  | BI_cons ts t v w w' ts' t' vs : both ts t v -> ws w -> ws w' -> both_items ts' t' vs ->
      both_items (ts ++ TComma :: ts') (t ++ w ++ [c_comma] ++ w' ++ t') (v :: vs)
  with both_entries : list tok -> str -> list (str * value unit) -> Prop :=
  | BE_one n w w' ts t v : g_ident U n -> ws w -> ws w' -> both ts t v ->
      both_entries ([TIdent n] ++ TColon :: ts) (n ++ w ++ [c_colon] ++ w' ++ t) [(n, v)]
  | BE_cons n w w' ts t v w1 w2 ts' t' kvs : g_ident U n -> ws w -> ws w' -> both ts t v -> ws w1 -> ws w2 -> both_entries ts' t' kvs ->
      both_entries ([TIdent n] ++ TColon :: ts ++ TComma :: ts') ((n ++ w ++ [c_colon] ++ w' ++ t) ++ w1 ++ [c_comma] ++ w2 ++ t') ((n, v) :: kvs).
End Both.

Scheme both_mut := Minimality for both Sort Prop
  with both_composite_mut := Minimality for both_composite Sort Prop
  with both_items_mut := Minimality for both_items Sort Prop
  with both_entries_mut := Minimality for both_entries Sort Prop.
Combined Scheme both_ind4 from both_mut, both_composite_mut, both_items_mut, both_entries_mut.
