(** * Spec_Places: parts of Rust data, and the places of a value where they are found (C112). *)
From Verif Require Import Base Value Serde Spec_Serde.

(** A named field can be asked for by its name or its position. *)
Definition name_or_index (l : location) (n : str) (i : nat) : Prop := l = LStr n \/ l = LIdx i.

(** [child t x x' l s a a']: the data [x] of type [t] has the part [a] of type [s], called [l]; [x'] is [x] with [a'] instead. *)
Inductive child : ty -> data -> data -> location -> ty -> data -> data -> Prop :=
| Ch_some t a a' : child (TyOption t) (XSome a) (XSome a') (LIdx 0) t a a'
| Ch_vec t l1 l2 a a' : child (TyVec t) (XVec (l1 ++ a :: l2)) (XVec (l1 ++ a' :: l2)) (LIdx (length l1)) t a a'
| Ch_tuple ts1 t ts2 l1 l2 a a' : length ts1 = length l1 ->
    child (TyTuple (ts1 ++ t :: ts2)) (XTuple (l1 ++ a :: l2)) (XTuple (l1 ++ a' :: l2)) (LIdx (length l1)) t a a'
| Ch_tuple_struct ts1 t ts2 l1 l2 a a' : length ts1 = length l1 ->
    child (TyTupleStruct (ts1 ++ t :: ts2)) (XTupleStruct (l1 ++ a :: l2)) (XTupleStruct (l1 ++ a' :: l2)) (LIdx (length l1)) t a a'
| Ch_newtype t a a' : child (TyNewtype t) (XNewtype a) (XNewtype a') (LIdx 0) t a a'
| Ch_map t l1 k l2 a a' l : name_or_index l k (length l1) -> child (TyMap t) (XMap (l1 ++ (k, a) :: l2)) (XMap (l1 ++ (k, a') :: l2)) l t a a'
| Ch_map_char t l1 k l2 a a' l : name_or_index l k (length l1) -> child (TyMapChar t) (XMap (l1 ++ (k, a) :: l2)) (XMap (l1 ++ (k, a') :: l2)) l t a a'
| Ch_struct fs1 n t fs2 l1 l2 a a' l : length fs1 = length l1 -> name_or_index l n (length l1) ->
    child (TyStruct (fs1 ++ (n, t) :: fs2)) (XStruct (l1 ++ (n, a) :: l2)) (XStruct (l1 ++ (n, a') :: l2)) l t a a'
| Ch_enum_newtype vs n t a a' : In (n, VsNewtype t) vs -> child (TyEnum vs) (XEnum n (VsNewtype a)) (XEnum n (VsNewtype a')) (LIdx 0) t a a'
| Ch_enum_tuple vs n ts1 t ts2 l1 l2 a a' : In (n, VsTuple (ts1 ++ t :: ts2)) vs -> length ts1 = length l1 ->
    child (TyEnum vs) (XEnum n (VsTuple (l1 ++ a :: l2))) (XEnum n (VsTuple (l1 ++ a' :: l2))) (LIdx (length l1)) t a a'
| Ch_enum_struct vs n fs1 m t fs2 l1 l2 a a' l : In (n, VsStruct (fs1 ++ (m, t) :: fs2)) vs -> length fs1 = length l1 -> name_or_index l m (length l1) ->
    child (TyEnum vs) (XEnum n (VsStruct (l1 ++ (m, a) :: l2))) (XEnum n (VsStruct (l1 ++ (m, a') :: l2))) l t a a'.

(** The same along a path. *)
Inductive part : ty -> data -> data -> list location -> ty -> data -> data -> Prop :=
| Pt_whole t x x' : part t x x' [] t x x'
| Pt_child t x x' l t1 a a' p s y y' : child t x x' l t1 a a' -> part t1 a a' p s y y' -> part t x x' (l :: p) s y y'.

(** [put v p w v']: [v'] is the value [v] with [w] at the path [p] instead of what is there. *)
Inductive put_field {T} : composite (value T) -> location -> value T -> value T -> composite (value T) -> Prop :=
| PF_name l1 n x x' l2 : ~ In n (map fst l1) -> put_field (Named (l1 ++ (n, x) :: l2)) (LStr n) x x' (Named (l1 ++ (n, x') :: l2))
| PF_position l1 n x x' l2 : put_field (Named (l1 ++ (n, x) :: l2)) (LIdx (length l1)) x x' (Named (l1 ++ (n, x') :: l2))
| PF_index l1 x x' l2 : put_field (Unnamed (l1 ++ x :: l2)) (LIdx (length l1)) x x' (Unnamed (l1 ++ x' :: l2)).
Inductive put {T} : value T -> list location -> value T -> value T -> Prop :=
| Put_here v w : put v [] w w
| Put_composite c c' ctx l x x' p w : put_field c l x x' c' -> put x p w x' -> put (Val (DComposite c) ctx) (l :: p) w (Val (DComposite c') ctx)
| Put_variant n c c' ctx l x x' p w : put_field c l x x' c' -> put x p w x' -> put (Val (DVariant n c) ctx) (l :: p) w (Val (DVariant n c') ctx).
