(** * Spec_Encode: vocabulary for the encoder theorems: wrapper types, well-formed registries, values within the limits. *)
From Verif Require Import Base Value Registry Spec_Scale.
Open Scope N_scope.

Section SpecEncode.
  Context {TId : Type} (reg : TId -> resolution TId).

  (** [t] is a struct or tuple with exactly one field, of type [t']. *)
  Inductive wraps1 : TId -> TId -> Prop :=
  | W_struct : forall t name t', reg t = ResTy (TComposite [(name, t')]) -> wraps1 t t'
  | W_tuple : forall t t', reg t = ResTy (TTuple [t']) -> wraps1 t t'.
  (** The same, or an array of length one. *)
  Inductive wraps : TId -> TId -> Prop :=
  | W_one : forall t t', wraps1 t t' -> wraps t t'
  | W_array : forall t t', reg t = ResTy (TArray t' 1) -> wraps t t'.
  (** A struct with exactly one field, which has no name, or a tuple with one field. *)
  Inductive transparent : TId -> TId -> Prop :=
  | Tr_struct : forall t t', reg t = ResTy (TComposite [(None, t')]) -> transparent t t'
  | Tr_tuple : forall t t', reg t = ResTy (TTuple [t']) -> transparent t t'.

  (** Chains. *)
  Inductive chain (R : TId -> TId -> Prop) : TId -> TId -> Prop :=
  | Ch_refl : forall t, chain R t t
  | Ch_step : forall t t' u, R t t' -> chain R t' u -> chain R t u.

  (** What every registry generated from Rust types satisfies: the index bytes of an enum are distinct bytes, and what is
      inside a [Compact] is not wrapped in an array. *)
  Definition reg_ok : Prop :=
    (forall t vs, reg t = ResTy (TVariant vs) -> NoDup (map vi_index vs) /\ Forall (fun v => vi_index v < 256) vs) /\
    (forall t t' u e, reg t = ResTy (TCompact t') -> chain wraps t' u -> reg u <> ResTy (TArray e 1)).
End SpecEncode.

(** A predicate holds for every node of a value. *)
Inductive all_nodes {T} (P : vdef (value T) -> Prop) : value T -> Prop :=
| AN : forall d ctx, P d -> Forall (all_nodes P) (children d) -> all_nodes P (Val d ctx).

(** The value can be read as one bit: a boolean, or the number 0 or 1. *)
Inductive is_bit {T} : value T -> bool -> Prop :=
| IB_bool : forall b ctx, is_bit (Val (DPrim (PBool b)) ctx) b
| IB_u0 : forall ctx, is_bit (Val (DPrim (PU128 0)) ctx) false
| IB_u1 : forall ctx, is_bit (Val (DPrim (PU128 1)) ctx) true
| IB_i0 : forall ctx, is_bit (Val (DPrim (PI128 0)) ctx) false
| IB_i1 : forall ctx, is_bit (Val (DPrim (PI128 1)) ctx) true.

(** Lengths fit the u32 length prefix (and the limit on the number of bits), payloads are what Rust can hold. *)
Definition node_small {T} (maxbits : N) (d : vdef (value T)) : Prop :=
  match d with
  | DComposite c => N.of_nat (length (values c)) < 2 ^ 32 /\
      (forall bs, Forall2 is_bit (values c) bs -> N.of_nat (length bs) <= maxbits)
  | DVariant _ c => True
  | DBits b => N.of_nat (length b) < 2 ^ 32 /\ N.of_nat (length b) <= maxbits
  | DPrim p => prim_wf p = true /\ match p with PString s => N.of_nat (length (utf8 s)) < 2 ^ 32 | _ => True end
  end.
Definition small {T} (maxbits : N) (v : value T) : Prop := all_nodes (node_small maxbits) v.

(** Every list and string has fewer than 2^32 elements or bytes. *)
Definition short {T} (v : value T) : Prop :=
  all_nodes (fun d => match d with
                      | DComposite c => N.of_nat (length (values c)) < 2 ^ 32
                      | DPrim (PString s) => N.of_nat (length (utf8 s)) < 2 ^ 32
                      | _ => True
                      end) v.

(** Types that may stand inside two or more directly nested structs or tuples with a single unnamed field.  The encoder tries the
    contents of such a value as one item of the list before it tries them as the list, so lists are safe only if their items
    cannot be mistaken for lists. *)
Section Nesting.
  Context {TId : Type} (reg : TId -> resolution TId).

  (** A primitive, an enum or a [Compact]. *)
  Definition atom (t : TId) : Prop :=
    match reg t with ResTy (TPrim _) | ResTy (TVariant _) | ResTy (TCompact _) => True | _ => False end.
  (** No type wraps itself, at any depth. *)
  Definition finite_wrappers : Prop := forall t, Acc (fun t' t => wraps reg t t') t.
  (** Two or more fields or items, (at least) one of which is an atom, perhaps inside single-unnamed-field types. *)
  Inductive record : TId -> Prop :=
  | R_struct : forall t fs1 name a fs2 p, reg t = ResTy (TComposite (fs1 ++ (name, a) :: fs2)) -> fs1 ++ fs2 <> [] ->
      chain (transparent reg) a p -> atom p -> fs1 = [] \/ finite_wrappers -> record t
  | R_tuple : forall t ts1 a ts2 p, reg t = ResTy (TTuple (ts1 ++ a :: ts2)) -> ts1 ++ ts2 <> [] ->
      chain (transparent reg) a p -> atom p -> ts1 = [] \/ finite_wrappers -> record t
  | R_array : forall t a n p, reg t = ResTy (TArray a n) -> 2 <= n -> chain (transparent reg) a p -> atom p -> record t.
  (** An atom or such a record, perhaps inside structs or tuples with one field. *)
  Definition definite (e : TId) : Prop := exists q, chain (wraps1 reg) e q /\ (atom q \/ record q).

  Inductive nestable : TId -> Prop :=
  | N_other : forall u, (forall e, reg u <> ResTy (TSequence e) /\ reg u <> ResTy (TArray e 1)) -> nestable u
  | N_array : forall u e u', reg u = ResTy (TArray e 1) -> chain (transparent reg) e u' -> (forall w, ~ transparent reg u' w) ->
      nestable u' -> nestable u
  | N_sequence : forall u e, reg u = ResTy (TSequence e) -> definite e -> nestable u.

  (** The stronger condition: nothing of the kind is a sequence or an array of length one. *)
  Definition no_nested_lists : Prop := forall t1 t2 t3 u e, transparent reg t1 t2 -> transparent reg t2 t3 -> chain (transparent reg) t3 u ->
    reg u <> ResTy (TSequence e) /\ reg u <> ResTy (TArray e 1).
End Nesting.

(** Registries for which encoding undoes decoding. *)
Section RoundTrip.
  Context {TId : Type} (reg : TId -> resolution TId) (X : ext).

  (** If all fields have names, the names differ. *)
  Definition names_ok (fs : list (field TId)) : Prop := ~ In None (map fst fs) -> NoDup (map fst fs).

  Record rt_ok : Prop := {
    (** field and variant names are distinct *)
    rt_fields : forall t fs, reg t = ResTy (TComposite fs) -> names_ok fs;
    rt_variants : forall t vs, reg t = ResTy (TVariant vs) -> NoDup (map vi_name vs) /\ Forall (fun v => names_ok (vi_fields v)) vs;
    (** what is inside two or more directly nested single-unnamed-field types can be told from its own contents *)
    rt_nested : forall t1 t2 t3 u, transparent reg t1 t2 -> transparent reg t2 t3 -> chain (transparent reg) t3 u ->
      (forall w, ~ transparent reg u w) -> nestable reg u;
    (** no [Compact] directly inside a [Compact] *)
    rt_compact : forall t t' u e, reg t = ResTy (TCompact t') -> chain (wraps1 reg) t' u -> reg u <> ResTy (TCompact e);
    (** the primitives whose encoding depends on the version of scale-encode are supported by it, or absent *)
    rt_char : forall t, reg t = ResTy (TPrim PtChar) -> x_char X = true;
    rt_256 : forall t, reg t = ResTy (TPrim PtU256) \/ reg t = ResTy (TPrim PtI256) -> x_256 X = true
  }.
End RoundTrip.
