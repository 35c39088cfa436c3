(** * Spec_MacroDepth: how deep the expansion of [value!] has to go, read off the grammar of Spec_Macro.

    [vec]: the levels taken by building a list of fields; [ud e]: the levels of the macros in the user's expression [e]. *)
From Verif Require Import Base Value Macro Spec_Macro.

Section Spec.
  Context {E : Type} (P : list tok -> eparse E) (from : E -> value unit) (key_name : E -> str) (ud : E -> nat) (vec : nat).

  Inductive form_needs : list tok -> value unit -> nat -> Prop :=
  | FN_unit : form_needs [TGroup Paren []] (unnamed_composite []) 1
  | FN_empty : form_needs [TGroup Brace []] (named_composite []) 1
  | FN_tuple l vs s d : l <> [] -> items_need l vs s d -> form_needs [TGroup Paren l] (unnamed_composite vs) (1 + s + vec + d)
  | FN_struct l kvs s d : l <> [] -> entries_need l kvs s d -> form_needs [TGroup Brace l] (named_composite kvs) (1 + s + vec + d)
  | FN_variant n l vs s d : items_need l vs s d -> form_needs [TIdent n; TGroup Paren l] (unnamed_variant n vs) (1 + s + vec + d)
  | FN_struct_variant n l kvs s d : entries_need l kvs s d -> form_needs [TIdent n; TGroup Brace l] (named_variant n kvs) (1 + s + vec + d)
  with item_needs : list tok -> value unit -> nat -> Prop :=
  | IN_form ts v n : form_needs ts v n -> item_needs ts v n
  | IN_expr ts e : ~ starts_with_form ts -> P ts = POk e [] -> item_needs ts (from e) (1 + ud e)
  (** Two levels per item, and the deepest item [d]; a nested form that is last and has no comma needs one more. *)
  with items_need : list tok -> list (value unit) -> nat -> nat -> Prop :=
  | IsN_nil : items_need [] [] 1 0
  | IsN_last_form ts v n : form_needs ts v n -> items_need ts [v] 2 (1 + n)
  | IsN_last_expr ts e : ~ starts_with_form ts -> P ts = POk e [] -> items_need ts [from e] 1 (1 + ud e)
  | IsN_cons ts v n rest vs s d : item_needs ts v n -> items_need rest vs s d -> items_need (ts ++ TComma :: rest) (v :: vs) (2 + s) (Nat.max n d)
  (** Two levels per entry and one for every token of its key. *)
  with entries_need : list tok -> list (str * value unit) -> nat -> nat -> Prop :=
  | EsN_nil : entries_need [] [] 1 0
  | EsN_last ks e ts v n : key P ks e -> item_needs ts v n -> entries_need (ks ++ TColon :: ts) [(key_name e, v)] (length ks + 2) n
  | EsN_cons ks e ts v n rest kvs s d :
      key P ks e -> item_needs ts v n -> entries_need rest kvs s d ->
      entries_need (ks ++ TColon :: ts ++ TComma :: rest) ((key_name e, v) :: kvs) (length ks + 2 + s) (Nat.max n d).

  (** [value!(ts)] needs a recursion limit of [n]. *)
  Inductive needs : list tok -> value unit -> nat -> Prop :=
  | N_nothing : needs [] (unnamed_composite []) 2
  | N_form ts v n : form_needs ts v n -> needs ts v (1 + n)
  | N_expr ts e : ~ is_form ts -> ts <> [] -> P ts = POk e [] -> needs ts (from e) (2 + ud e).
End Spec.

Scheme form_needs_ind4 := Minimality for form_needs Sort Prop
with item_needs_ind4 := Minimality for item_needs Sort Prop
with items_need_ind4 := Minimality for items_need Sort Prop
with entries_need_ind4 := Minimality for entries_need Sort Prop.
Combined Scheme depth_ind4 from form_needs_ind4, item_needs_ind4, items_need_ind4, entries_need_ind4.
