(** * Spec_Same: when a decoded value carries the same data as the value that was encoded.

    [same v w]: [w] has the data of [v].  Composites and variants correspond field by field: by name if both sides have
    names (the last field of [v] with that name counts, fields of [v] without counterpart are dropped), by position
    otherwise.  A composite with exactly one value may be added or removed anywhere.  Numbers are equal as integers, whatever
    their signedness; characters may become their code; a list of booleans, zeros and ones may become a bit sequence; a
    256-bit number may become the list of its bytes. *)
From Verif Require Import Base Value Registry Spec_Encode.
Open Scope N_scope.

Definition is_integer (p : prim) (z : Z) : Prop := (exists n, p = PU128 n /\ z = Z.of_N n) \/ p = PI128 z.
Definition bytes_of_256 (p : prim) : option (list N) := match p with PU256 b | PI256 b => Some b | _ => None end.

Section Same.
  Context {T C : Type}.
  (** [v] is the last entry with key [k]. *)
  Definition last_entry (l : list (str * value T)) (k : str) (v : value T) : Prop :=
    exists l1 l2, l = l1 ++ (k, v) :: l2 /\ ~ In k (map fst l2).
  Definition fields_like (R : value T -> value C -> Prop) (c : composite (value T)) (c' : composite (value C)) : Prop :=
    (exists l l', c = Named l /\ c' = Named l' /\ Forall (fun kv => exists v, last_entry l (fst kv) v /\ R v (snd kv)) l') \/
    ((forall l l', c = Named l -> c' = Named l' -> l = []) /\ Forall2 R (values c) (values c')).

  Inductive same : value T -> value C -> Prop :=
  | Same_integer : forall p p' z x y, is_integer p z -> is_integer p' z -> same (Val (DPrim p) x) (Val (DPrim p') y)
  | Same_code : forall c p' x y, is_integer p' (Z.of_N c) -> same (Val (DPrim (PChar c)) x) (Val (DPrim p') y)
  | Same_char : forall c x y, same (Val (DPrim (PChar c)) x) (Val (DPrim (PChar c)) y)
  | Same_bool : forall b x y, same (Val (DPrim (PBool b)) x) (Val (DPrim (PBool b)) y)
  | Same_string : forall s x y, same (Val (DPrim (PString s)) x) (Val (DPrim (PString s)) y)
  | Same_256 : forall p p' b x y, bytes_of_256 p = Some b -> bytes_of_256 p' = Some b -> same (Val (DPrim p) x) (Val (DPrim p') y)
  | Same_256_bytes : forall p b ws x y, bytes_of_256 p = Some b ->
      Forall2 (fun n w => same (Val (DPrim (PU128 n)) x) w) b ws -> same (Val (DPrim p) x) (Val (DComposite (Unnamed ws)) y)
  | Same_bits : forall b x y, same (Val (DBits b) x) (Val (DBits b) y)
  | Same_as_bits : forall c b x y, Forall2 is_bit (values c) b -> same (Val (DComposite c) x) (Val (DBits b) y)
  | Same_composite : forall c c' x y, fields_like same c c' -> same (Val (DComposite c) x) (Val (DComposite c') y)
  | Same_variant : forall n c c' x y, fields_like same c c' -> same (Val (DVariant n c) x) (Val (DVariant n c') y)
  | Same_unwrapped : forall c v w x, values c = [v] -> same v w -> same (Val (DComposite c) x) w
  | Same_wrapped : forall v c w y, values c = [w] -> same v w -> same v (Val (DComposite c) y).
End Same.

(** As in Rust: the fields of a struct or variant have all names or none has. *)
Definition all_or_none {TId} (fs : list (field TId)) : Prop := (forall f, In f fs -> fst f = None) \/ (forall f, In f fs -> fst f <> None).
Definition names_uniform {TId} (reg : TId -> resolution TId) : Prop :=
  (forall t fs, reg t = ResTy (TComposite fs) -> all_or_none fs) /\
  (forall t vs v, reg t = ResTy (TVariant vs) -> In v vs -> all_or_none (vi_fields v)).
