(** * Spec_Edit: a client replaces one part of a value. *)
From Verif Require Import Base Value Registry.

Section Edit.
  Context {TId C : Type} (reg : TId -> resolution TId).

  (** [c'] is [c] with the value at position [i], which was [x], replaced by [x']; names stay. *)
  Definition replaced (c c' : composite (value C)) (i : nat) (x x' : value C) : Prop :=
    (exists l1 k l2, length l1 = i /\ c = Named (l1 ++ (k, x) :: l2) /\ c' = Named (l1 ++ (k, x') :: l2)) \/
    (exists l1 l2, length l1 = i /\ c = Unnamed (l1 ++ x :: l2) /\ c' = Unnamed (l1 ++ x' :: l2)).

  (** [edit t t' u w v v']: in [v], a value of type [t], the part [u], at a place of type [t'], is replaced by [w]; the result is [v'].  Places are
      reached through structs, tuples, variants, sequences and arrays; nothing below a [Compact] is a place (but the whole of it is). *)
  Inductive edit : TId -> TId -> value C -> value C -> value C -> value C -> Prop :=
  | Edit_here : forall t u w, edit t t u w u w
  | Edit_struct : forall t fs i n ti c c' x x' y t' u w, reg t = ResTy (TComposite fs) -> nth_error fs i = Some (n, ti) ->
      replaced c c' i x x' -> edit ti t' u w x x' -> edit t t' u w (Val (DComposite c) y) (Val (DComposite c') y)
  | Edit_tuple : forall t ts i ti c c' x x' y t' u w, reg t = ResTy (TTuple ts) -> nth_error ts i = Some ti ->
      replaced c c' i x x' -> edit ti t' u w x x' -> edit t t' u w (Val (DComposite c) y) (Val (DComposite c') y)
  | Edit_variant : forall t vs name idx fs i n ti c c' x x' y t' u w, reg t = ResTy (TVariant vs) -> In (VInfo name idx fs) vs -> nth_error fs i = Some (n, ti) ->
      replaced c c' i x x' -> edit ti t' u w x x' -> edit t t' u w (Val (DVariant name c) y) (Val (DVariant name c') y)
  | Edit_sequence : forall t ti i c c' x x' y t' u w, reg t = ResTy (TSequence ti) ->
      replaced c c' i x x' -> edit ti t' u w x x' -> edit t t' u w (Val (DComposite c) y) (Val (DComposite c') y)
  | Edit_array : forall t ti n i c c' x x' y t' u w, reg t = ResTy (TArray ti n) ->
      replaced c c' i x x' -> edit ti t' u w x x' -> edit t t' u w (Val (DComposite c) y) (Val (DComposite c') y).
End Edit.
