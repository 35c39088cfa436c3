(** * Spec_Value: independent vocabulary for the properties of values (C01-C03). *)
From Verif Require Import Base Value.

(** Everything about a node except its context and its children. *)
Inductive label : Type :=
| LbNamed (names : list str)
| LbUnnamed (n : nat)
| LbVariantNamed (name : str) (names : list str)
| LbVariantUnnamed (name : str) (n : nat)
| LbBits (b : list bool)
| LbPrim (p : prim).

Definition label_of {T} (v : value T) : label :=
  match v with
  | Val (DComposite (Named l)) _ => LbNamed (map fst l)
  | Val (DComposite (Unnamed l)) _ => LbUnnamed (length l)
  | Val (DVariant n (Named l)) _ => LbVariantNamed n (map fst l)
  | Val (DVariant n (Unnamed l)) _ => LbVariantUnnamed n (length l)
  | Val (DBits b) _ => LbBits b
  | Val (DPrim p) _ => LbPrim p
  end.

(** The fields of a node in order, whatever its kind. *)
Definition fields_of {T} (v : value T) : list (value T) :=
  match v with
  | Val (DComposite (Named l)) _ => map snd l
  | Val (DComposite (Unnamed l)) _ => l
  | Val (DVariant _ (Named l)) _ => map snd l
  | Val (DVariant _ (Unnamed l)) _ => l
  | Val (DBits _) _ => []
  | Val (DPrim _) _ => []
  end.

(** The node reached by a path of child positions. *)
Fixpoint node_at {T} (v : value T) (p : list nat) : option (value T) :=
  match p with
  | [] => Some v
  | i :: p' => match nth_error (fields_of v) i with
               | Some c => node_at c p'
               | None => None
               end
  end.

(** Contexts of the proper ancestors of the node at a path, root first. *)
Fixpoint ancestors {T} (v : value T) (p : list nat) : list T :=
  match p with
  | [] => []
  | i :: p' => match nth_error (fields_of v) i with
               | Some c => ctx_of v :: ancestors c p'
               | None => []
               end
  end.

(** State of a closure after it was called on a list of arguments. *)
Definition run_closure {S T U} (f : S -> T -> U * S) (s : S) (args : list T) : S :=
  fold_left (fun s t => snd (f s t)) args s.

(** Two trees have the same shape: same paths, same labels; contexts are unrelated. *)
Definition same_shape {T U} (v : value T) (w : value U) : Prop :=
  forall p, option_map label_of (node_at v p) = option_map label_of (node_at w p).

(** What a lookup means, independent of the implementation. *)
Inductive lookup_is {T} : value T -> location -> value T -> Prop :=
| LI_named : forall v names l1 l2 s c,
    (label_of v = LbNamed names \/ exists n, label_of v = LbVariantNamed n names) ->
    names = map fst l1 ++ s :: map fst l2 ->
    ~ In s (map (@fst str (value T)) l1) ->
    fields_of v = map snd l1 ++ c :: map snd l2 ->
    lookup_is v (LStr s) c
| LI_index : forall v i c,
    nth_error (fields_of v) i = Some c ->
    lookup_is v (LIdx i) c.

Inductive lookup_path {T} : value T -> list location -> value T -> Prop :=
| LP_nil : forall v, lookup_path v [] v
| LP_cons : forall v l w ls x, lookup_is v l w -> lookup_path w ls x -> lookup_path v (l :: ls) x.

