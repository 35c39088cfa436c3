(** * Spec_Macro: the syntax of [value!] and the value it stands for, independent of the rules in macros.rs (macros.rs:16-75).

    [P] is rustc's expression parser, [from] the value of an expression under [Value::from], [key_name] the text of a key. *)
From Verif Require Import Base Value Macro.

(** What is assumed of rustc's expression parser: it splits off a non-empty prefix that is an expression by itself, a comma
    or a colon ends an expression and begins none, and it decides without looking past the first token that is not part of the expression. *)
Record rustc_like {E} (P : list tok -> eparse E) : Prop := {
  rl_split : forall ts e rest, P ts = POk e rest -> exists pre, pre <> [] /\ ts = pre ++ rest /\ P pre = POk e [];
  rl_stop : forall ts e t rest, P ts = POk e [] -> t = TComma \/ t = TColon -> P (ts ++ t :: rest) = POk e (t :: rest);
  rl_begin : forall t rest, t = TComma \/ t = TColon -> P (t :: rest) = PNone;
  rl_more : forall ts e t rest more, P ts = POk e (t :: rest) -> P (ts ++ more) = POk e (t :: rest ++ more);
  rl_none : forall ts more, ts <> [] -> P ts = PNone -> P (ts ++ more) = PNone }.

(** [(..)], [{..}], [Name(..)] and [Name {..}]: exactly, and at the front of some tokens. *)
Definition is_form (ts : list tok) : Prop :=
  exists d l, (d = Paren \/ d = Brace) /\ (ts = [TGroup d l] \/ exists n, ts = [TIdent n; TGroup d l]).
Definition starts_with_form (ts : list tok) : Prop := exists pre rest, ts = pre ++ rest /\ is_form pre.

Section Spec.
  Context {E : Type} (P : list tok -> eparse E) (from : E -> value unit) (key_name : E -> str).

  (** A key: an expression in parentheses, or tokens that make an expression and have no beginning that is a syntax error. *)
  Inductive key : list tok -> E -> Prop :=
  | K_paren k e : P k = POk e [] -> key [TGroup Paren k] e
  | K_plain ks e :
      P ks = POk e [] ->
      (forall k, ks = [TGroup Paren k] -> P k <> PFatal /\ forall e', P k <> POk e' []) ->
      (forall q r, ks = q ++ r -> q <> [] -> P q <> PFatal) ->
      key ks e.

  Inductive form : list tok -> value unit -> Prop :=
  | F_tuple l vs : items l vs -> form [TGroup Paren l] (unnamed_composite vs)
  | F_struct l kvs : entries l kvs -> form [TGroup Brace l] (named_composite kvs)
  | F_variant n l vs : items l vs -> form [TIdent n; TGroup Paren l] (unnamed_variant n vs)
  | F_struct_variant n l kvs : entries l kvs -> form [TIdent n; TGroup Brace l] (named_variant n kvs)
  with item : list tok -> value unit -> Prop :=
  | I_form ts v : form ts v -> item ts v
  | I_expr ts e : ~ starts_with_form ts -> P ts = POk e [] -> item ts (from e)
  (** Separated by commas, with or without one after the last. *)
  with items : list tok -> list (value unit) -> Prop :=
  | Is_nil : items [] []
  | Is_last ts v : item ts v -> items ts [v]
  | Is_cons ts v rest vs : item ts v -> items rest vs -> items (ts ++ TComma :: rest) (v :: vs)
  with entries : list tok -> list (str * value unit) -> Prop :=
  | Es_nil : entries [] []
  | Es_last ks e ts v : key ks e -> item ts v -> entries (ks ++ TColon :: ts) [(key_name e, v)]
  | Es_cons ks e ts v rest kvs :
      key ks e -> item ts v -> entries rest kvs -> entries (ks ++ TColon :: ts ++ TComma :: rest) ((key_name e, v) :: kvs).

  (** What [value!(ts)] stands for. *)
  Inductive denotes : list tok -> value unit -> Prop :=
  | D_nothing : denotes [] (unnamed_composite [])
  | D_form ts v : form ts v -> denotes ts v
  | D_expr ts e : ~ is_form ts -> ts <> [] -> P ts = POk e [] -> denotes ts (from e).
End Spec.

Scheme form_ind4 := Minimality for form Sort Prop
with item_ind4 := Minimality for item Sort Prop
with items_ind4 := Minimality for items Sort Prop
with entries_ind4 := Minimality for entries Sort Prop.
Combined Scheme macro_ind from form_ind4, item_ind4, items_ind4, entries_ind4.

(** ** The Rust types with a conversion to [Value<()>] *)
Inductive rty : Type :=
| TBool | TChar | TString | TUint (w : N) | TInt (w : N) | TBits | TVec (t : rty) | TPairs (t : rty) | TComposite | TVariant | TValue.

(** [r] is a value of the type: integers are in the range of theirs. *)
Fixpoint of_type (r : rust) (t : rty) : Prop :=
  match r, t with
  | RBool _, TBool => True
  | RChar _, TChar => True
  | RString _, TString => True
  | RUint w n, TUint w' => w = w' /\ (0 < w <= 128)%N /\ (n < 2 ^ w)%N
  | RInt w z, TInt w' => w = w' /\ (0 < w <= 128)%N /\ (- 2 ^ (Z.of_N w - 1) <= z < 2 ^ (Z.of_N w - 1))%Z
  | RBits _, TBits => True
  | RVec l, TVec t => fold_right (fun x a => of_type x t /\ a) True l
  | RPairs l, TPairs t => fold_right (fun (kv : str * rust) a => (let (_, x) := kv in of_type x t) /\ a) True l
  | RComposite _, TComposite => True
  | RVariant _ _, TVariant => True
  | RValue _, TValue => True
  | _, _ => False
  end.
